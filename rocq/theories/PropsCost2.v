(** C62: documented numbers of constraints and switches. *)
From Coq Require Import ZArith List Bool Arith Lia Znumtheory.
From Verif Require Import Base FieldM FieldP ExprM BuilderM GadgetsM CurveM WaksmanM Spec ExprP BitsP CostP CurveP GadgetCostP Demo PropLib PropsCost.
Import ListNotations.
Open Scope nat_scope.

(** Between [lo] and [hi] constraints, whatever the expressions are. *)
Definition adds_between {A} (m : B A) (lo hi : nat) : Prop := forall b, 0 < next b ->
  exists r b', m b = Ok (r, b') /\ length (constraints b) + lo <= length (constraints b') <= length (constraints b) + hi.

(** An expression that is not constant: two assignments (agreeing on the wire of the constant 1) give it different values. *)
Definition not_constant {F : Field} (e : expr) : Prop := exists w w' : nat -> Z, w ONE = w' ONE /\ ev w e <> ev w' e.

(** Beauquier and Darrot's count for AS-Waksman networks, sum of ceil(log2 i): README.md line 100 says "roughly n log2(n) - n". *)
Definition waksman_count (n : nat) : nat := fold_right (fun i s => Nat.log2_up i + s) 0 (seq 1 n).

Lemma waksman_switches n : waksman_count n = switches n.
Proof.
  unfold waksman_count. assert (G : forall l v, fold_right (fun i s => Nat.log2_up i + s) v l = fold_right (fun i s => Nat.log2_up i + s) 0 l + v).
  { induction l as [|x l IHl]; intro v; cbn [fold_right]; [lia|]. rewrite (IHl v). lia. }
  induction n as [|n IH]; [reflexivity|]. rewrite seq_S, fold_right_app, G, IH. cbn [fold_right switches]. change (1 + n) with (S n). lia.
Qed.

Theorem C62_network_size : forall n, 0 < n ->
  waksman_count n + 2 ^ Nat.log2_up n = n * Nat.log2_up n + 1 /\
  waksman_count n + n <= n * Nat.log2_up n + 1 /\
  n * Nat.log2_up n < waksman_count n + 2 * n.
Proof.
  intros n H. rewrite waksman_switches. pose proof (switches_closed n H) as E. split; [exact E|].
  destruct (Nat.eq_dec n 1) as [->|D]; [cbn; lia|]. pose proof (Nat.log2_up_spec n ltac:(lia)) as [A U].
  assert (P : 2 ^ Nat.log2_up n = 2 * 2 ^ Nat.pred (Nat.log2_up n)).
  { rewrite <- Nat.pow_succ_r', Nat.succ_pred; [reflexivity|]. pose proof (Nat.log2_up_pos n ltac:(lia)). lia. }
  lia.
Qed.
Print Assumptions C62_network_size.

(** Two constraints for each switch and one equality for each item, when the items are distinct wires. *)
Theorem C62_permutation_exact : forall (F : Field), (2 <= order)%Z -> forall b xs ys,
  length xs = length ys -> NoDup xs -> NoDup ys ->
  Forall (fun k => 0 < k < next b) xs -> Forall (fun k => 0 < k < next b) ys ->
  exists b', assert_permutation (map e_wire xs) (map e_wire ys) b = Ok (tt, b') /\
    length (constraints b') = length (constraints b) + (2 * waksman_count (length xs) + length xs).
Proof.
  intros F Hord b xs ys E Dx Dy Bx By.
  destruct (Nat.eq_dec (length xs) 0) as [Z0|Nz].
  { destruct xs; [|discriminate]. destruct ys; [|discriminate]. exists b. split; [reflexivity|cbn; lia]. }
  assert (LN : 0 < next b) by (destruct xs as [|x xs]; [cbn in Nz; lia|inversion Bx; lia]).
  assert (OV : forall l, Forall (fun k => 0 < k < next b) l -> Forall (over (fun j => j < next b)) (map e_wire l)).
  { intros l Hl. rewrite Forall_map. eapply Forall_impl; [|exact Hl]. cbv beta. intros k Hk. apply over_wire. lia. }
  assert (NO : forall l, Forall (fun k => 0 < k < next b) l -> ~ In ONE l).
  { intros l Hl I. rewrite Forall_forall in Hl. specialize (Hl _ I). unfold ONE in Hl. lia. }
  destruct (costs_permutation_exact Hord (S (length (map e_wire xs))) (next b) (map e_wire xs) (map e_wire ys) LN) with (b := b)
    as ([] & b' & k & Q & _ & L & ->); auto.
  - rewrite !map_length. exact E.
  - apply separate_wires; auto.
  - apply separate_wires; auto.
  - exists b'. split; [exact Q|]. rewrite L, map_length, waksman_switches. reflexivity.
Qed.
Print Assumptions C62_permutation_exact.

(** Any expressions: never more, and still one boolean constraint for each switch. *)
Theorem C62_permutation_bounds : forall (F : Field) xs ys, length xs = length ys ->
  adds_between (assert_permutation xs ys) (waksman_count (length xs) + length xs) (2 * waksman_count (length xs) + length xs).
Proof.
  intros F xs ys E b Hb. rewrite waksman_switches.
  destruct (costs_permutation_fuel (S (length xs)) (next b) xs ys E) with (b := b) as (r & b' & k & Q & _ & L & H); auto.
  exists r, b'. split; [exact Q|]. rewrite L. lia.
Qed.
Print Assumptions C62_permutation_bounds.

Theorem C62_exponentiation : forall (F : Field), (2 <= order)%Z -> forall x p,
  adds_between (exponentiation x p) 0 (zbits p - 1 + ones p (zbits p)) /\
  (not_constant x -> adds_exactly (exponentiation x p) (zbits p - 1 + (ones p (zbits p) - 1))).
Proof.
  intros F Hord x p. split.
  - intros b Hb. destruct (costs_exponentiation_le (next b) x p Hb b eq_refl) as (r & b' & k & Q & _ & L & H). exists r, b'. split; [exact Q|]. rewrite L. lia.
  - intro V. apply costs_adds. intros N HN. apply (costs_exponentiation Hord); assumption.
Qed.
Print Assumptions C62_exponentiation.

(** field_arithmetic.rs 105-110: "This method uses a single constraint, whereas [quotient] uses two".  The second half holds... *)
Theorem C62_quotient_two : forall (F : Field), (2 <= order)%Z -> forall x y,
  adds_between (quotient x y) 1 2 /\ (not_constant x -> adds_exactly (quotient x y) 2).
Proof.
  intros F Hord x y. split.
  - intros b Hb. unfold quotient.
    destruct (costs_bind (next b) (inverse y) (product x) _ (fun _ _ k => 1 <= k <= 2) (costs_inverse (next b) y)) with (b := b)
      as (r & b' & k & Q & _ & L & H); auto.
    + cbv beta. intros r N1 k1 _ (-> & -> & ->). eapply costs_weaken; [apply costs_product_le|]. cbv beta. intros _ N2 k2 _ H. lia.
    + exists r, b'. split; [exact Q|]. rewrite L. lia.
  - intro V. apply costs_adds. intros N HN. apply (costs_quotient_varies Hord); assumption.
Qed.
Print Assumptions C62_quotient_two.

(** ...the first does not: there is no constraint at all. *)
Theorem C62_quotient_unsafe_single_refuted : forall (F : Field) x y, adds_exactly (quotient_unsafe x y) 0.
Proof. intros F x y. apply costs_adds. intros N _. eapply costs_weaken; [apply costs_quotient_unsafe|]. cbv beta. tauto. Qed.
Print Assumptions C62_quotient_unsafe_single_refuted.

Section Edwards.
Context {F : Field} (Hord : (2 < order)%Z) (C : edwards).
Let H2 : (2 <= order)%Z := Z.lt_le_incl _ _ Hord.

Lemma costs_ed_add_le N l r : costs N (ed_add_expressions C l r) (fun _ _ k => k <= 5).
Proof.
  destruct l as [x1 y1], r as [x2 y2]. unfold ed_add_expressions.
  do 5 (kbind ltac:(apply costs_product_le); intros ? ? ? _ ?).
  do 2 (kbind ltac:(apply costs_quotient_unsafe); intros ? ? ? _ (_ & _ & ->)). apply costs_ret. lia.
Qed.
Lemma costs_ed_add N l r : 0 < N -> not_constant (fst l) -> not_constant (snd l) -> not_constant (fst r) -> not_constant (snd r) ->
  costs N (ed_add_expressions C l r) (fun _ _ k => k = 5).
Proof using H2.
  destruct l as [x1 y1], r as [x2 y2]. cbn [fst snd]. intros LN V1 V2 V3 V4. unfold ed_add_expressions.
  do 5 (kbind ltac:(apply (costs_product_varies H2); [lia|assumption..]); intros ? ? ? ? [? ->]).
  do 2 (kbind ltac:(apply costs_quotient_unsafe); intros ? ? ? _ (_ & _ & ->)). apply costs_ret. reflexivity.
Qed.
Lemma costs_ed_double_le N p : costs N (ed_double_expression C p) (fun _ _ k => k <= 3).
Proof using Hord.
  destruct p as [x y]. unfold ed_double_expression. do 3 (kbind ltac:(apply costs_product_le); intros ? ? ? _ ?).
  eapply costs_lift; [apply el_from_ok; unfold infield; lia|]. kbind ltac:(apply costs_quotient_unsafe); intros ? ? ? _ (_ & _ & ->).
  eapply costs_lift; [unfold e_from_uint; rewrite el_from_ok by (unfold infield; lia); reflexivity|].
  kbind ltac:(apply costs_quotient_unsafe); intros ? ? ? _ (_ & _ & ->). apply costs_ret. lia.
Qed.
Lemma costs_ed_double N p : 0 < N -> not_constant (fst p) -> not_constant (snd p) -> costs N (ed_double_expression C p) (fun _ _ k => k = 3).
Proof using H2 Hord.
  destruct p as [x y]. cbn [fst snd]. intros LN V1 V2. unfold ed_double_expression.
  do 3 (kbind ltac:(apply (costs_product_varies H2); [lia|assumption..]); intros ? ? ? ? [? ->]).
  eapply costs_lift; [apply el_from_ok; unfold infield; lia|]. kbind ltac:(apply costs_quotient_unsafe); intros ? ? ? _ (_ & _ & ->).
  eapply costs_lift; [unfold e_from_uint; rewrite el_from_ok by (unfold infield; lia); reflexivity|].
  kbind ltac:(apply costs_quotient_unsafe); intros ? ? ? _ (_ & _ & ->). apply costs_ret. reflexivity.
Qed.
Lemma costs_mul_boolean N p c : prime order -> costs N (mul_boolean_expression (edwards_group C) p c) (fun _ _ k => k <= 2).
Proof.
  intro Hp. destruct p as [x y]. unfold mul_boolean_expression. eapply costs_lift; [apply (identity_expression_ok Hp)|].
  cbn [to_components edwards_group enumerate]. eapply costs_bind with (Q := fun r _ k => k <= 2 /\ length r = 2).
  - unfold enumerate. cbn [length combine seq bmap fst snd].
    eapply costs_bind with (Q := fun _ _ k => k <= 1).
    { eapply costs_lift; [reflexivity|]. apply costs_selection. }
    cbv beta. intros s1 N1 k1 _ K1. eapply costs_bind with (Q := fun r _ k => k <= 1 /\ length r = 1).
    + eapply costs_bind with (Q := fun _ _ k => k <= 1).
      { eapply costs_lift; [reflexivity|]. apply costs_selection. }
      cbv beta. intros s2 N2 k2 _ K2. eapply costs_bind with (Q := fun r _ k => r = [] /\ k = 0); [apply costs_ret; auto|].
      cbv beta. intros r N3 k3 _ [-> ->]. apply costs_ret. cbn. lia.
    + cbv beta. intros r N2 k2 _ [K2 Lr]. apply costs_ret. cbn. lia.
  - cbv beta. intros r N1 k1 _ [K L]. destruct r as [|s1 [|s2 [|]]]; try discriminate. cbn [from_components_unsafe edwards_group ed_from_components].
    apply (costs_ret N1 (ed_new_unsafe s1 s2)). lia.
Qed.

Lemma costs_mul_scalar N p s : prime order -> 0 < N ->
  costs N (mul_scalar_expression (edwards_group C) p s) (fun _ _ k => k <= 11 * max_bits + 1).
Proof using H2 Hord.
  intros Hp LN. unfold mul_scalar_expression, split_allowing_ambiguity.
  kbind ltac:(apply (costs_swrc H2); [exact LN|lia]). intros bits N1 k1 _ [Lb ->].
  eapply costs_lift; [apply (identity_expression_ok Hp)|]. rewrite <- Lb. clear Lb. generalize (e_const 0, e_const 1) as acc. intro acc.
  assert (G : forall bits st N, costs N (bfold (fun st bit =>
          bp <- mul_boolean_expression (edwards_group C) (snd st) bit ;;
          sum <- add_expressions (edwards_group C) (fst st) bp ;;
          cur <- double_expression (edwards_group C) (snd st) ;;
          bret (sum, cur)) bits st) (fun _ _ k => k <= 10 * length bits)).
  { clear - Hp Hord H2. induction bits as [|bit bits IH]; intros st N; cbn [bfold length]; [apply costs_ret; lia|].
    eapply costs_bind with (Q := fun _ _ k => k <= 10).
    - kbind ltac:(apply costs_mul_boolean; exact Hp). intros bp N1 k1 _ K1.
      kbind ltac:(apply costs_ed_add_le). intros sum N2 k2 _ K2. kbind ltac:(apply costs_ed_double_le). intros cur N3 k3 _ K3. apply costs_ret. lia.
    - cbv beta. intros st' N1 k1 _ K1. eapply costs_weaken; [apply IH|]. cbv beta. intros ? ? k2 _ K2. lia. }
  kbind ltac:(apply G). intros st N2 k2 _ K2. apply costs_ret. lia.
Qed.
End Edwards.

(** edwards.rs 32: "This uses 7 constraints".  It uses five, since the two divisions add none. *)
Theorem C62_edwards_add_seven_refuted : forall (F : Field), (2 < order)%Z -> forall C l r,
  not_constant (fst l) -> not_constant (snd l) -> not_constant (fst r) -> not_constant (snd r) ->
  adds_exactly (ed_add_expressions C l r) 5.
Proof. intros F H C l r V1 V2 V3 V4. apply costs_adds. intros N HN. apply (costs_ed_add H); assumption. Qed.
Print Assumptions C62_edwards_add_seven_refuted.

Theorem C62_edwards_bounds : forall (F : Field), prime order -> (2 < order)%Z -> forall C,
  (forall l r, adds_at_most (ed_add_expressions C l r) 5) /\
  (forall p, adds_at_most (ed_double_expression C p) 3) /\
  (forall p, not_constant (fst p) -> not_constant (snd p) -> adds_exactly (ed_double_expression C p) 3) /\
  (forall p s, adds_at_most (mul_scalar_expression (edwards_group C) p s) (11 * max_bits + 1)).
Proof.
  intros F Hp H C.
  assert (G : forall A (m : B A) n, (forall N, 0 < N -> costs N m (fun _ _ k => k <= n)) -> adds_at_most m n).
  { intros A m n Hm b Hb. destruct (Hm _ Hb b eq_refl) as (r & b' & k & Q & _ & L & K). exists r, b'. split; [exact Q|lia]. }
  split; [|split; [|split]].
  - intros l r. apply G. intros N _. apply costs_ed_add_le.
  - intros p. apply G. intros N _. apply (costs_ed_double_le H).
  - intros p V1 V2. apply costs_adds. intros N HN. apply (costs_ed_double H); assumption.
  - intros p s. apply G. intros N HN. apply (costs_mul_scalar H); assumption.
Qed.
Print Assumptions C62_edwards_bounds.

(** Wires are not constant; the numbers for eight items and for the exponent 5. *)
Example C62_example : forall (F : Field), (2 <= order)%Z ->
  not_constant (e_wire 3) /\ waksman_count 8 = 17 /\ 2 * waksman_count 8 + 8 = 42 /\ zbits 5 - 1 + (ones 5 (zbits 5) - 1) = 3 /\
  NoDup [1; 2; 3] /\ NoDup [5; 4; 6].
Proof.
  intros F H. split; [apply (varies_wire H); discriminate|]. repeat split; try reflexivity; repeat constructor; cbn; intuition lia.
Qed.
