(** Numbers of constraints of the arithmetic gadgets, permutation networks and curve operations. *)
From Coq Require Import ZArith List Bool Arith Lia Znumtheory.
From Verif Require Import Base FieldM FieldP ExprM BuilderM GadgetsM CurveM WaksmanM Spec ExprP BitsP CostP.
Import ListNotations.
Open Scope nat_scope.

(** The number of switches of an arbitrary-size Waksman network (Beauquier and Darrot): the sum of the rounded-up logarithms. *)
Fixpoint switches (n : nat) : nat :=
  match n with
  | O => 0
  | S m => switches m + Nat.log2_up n
  end.

Lemma log2_up_even m : 0 < m -> Nat.log2_up (2 * m) = S (Nat.log2_up m).
Proof. apply Nat.log2_up_double. Qed.
Lemma log2_up_odd m : 0 < m -> Nat.log2_up (2 * m + 1) = S (Nat.log2_up (m + 1)).
Proof.
  intro H. rewrite Nat.log2_up_succ_double by exact H. rewrite Nat.log2_up_eqn by lia. replace (Nat.pred (m + 1)) with m by lia. reflexivity.
Qed.

Lemma switches_even m : 0 < m -> switches (2 * m) = 2 * m - 1 + (switches m + switches m)
  /\ switches (2 * m + 1) = 2 * m + (switches m + switches (m + 1)).
Proof.
  induction m as [|m IH]; [lia|]. intros _. destruct (Nat.eq_dec m 0) as [->|Hm]; [split; reflexivity|].
  destruct (IH ltac:(lia)) as [_ E]. replace (m + 1) with (S m) in E by lia.
  assert (A : switches (2 * S m) = 2 * S m - 1 + (switches (S m) + switches (S m))).
  { replace (2 * S m) with (S (2 * m + 1)) at 1 by lia. cbn [switches]. rewrite E. cbn [switches].
    replace (S (2 * m + 1)) with (2 * S m) by lia. rewrite log2_up_even by lia. lia. }
  split; [exact A|]. replace (2 * S m + 1) with (S (2 * S m)) at 1 by lia. cbn [switches]. fold (switches (2 * S m)).
  replace (S m + 1) with (S (S m)) by lia.
  transitivity (switches (2 * S m) + Nat.log2_up (2 * S m + 1)); [replace (2 * S m + 1) with (S (2 * S m)) by lia; reflexivity|].
  rewrite A, log2_up_odd by lia. replace (S m + 1) with (S (S m)) by lia. cbn [switches]. lia.
Qed.

Lemma switches_step n : 2 <= n -> switches n = n - 1 + (switches (n / 2) + switches (n - n / 2)).
Proof.
  intro H. pose proof (Nat.div_mod n 2 ltac:(lia)) as E. pose proof (Nat.mod_upper_bound n 2 ltac:(lia)) as U.
  set (m := n / 2) in *. destruct (switches_even m ltac:(lia)) as [A C]. destruct (n mod 2) as [|[|]]; [| |lia].
  - replace n with (2 * m) by lia. rewrite A. replace (2 * m - m) with m by lia. lia.
  - replace n with (2 * m + 1) by lia. rewrite C. replace (2 * m + 1 - m) with (m + 1) by lia. lia.
Qed.

Lemma switches_closed n : 0 < n -> switches n + 2 ^ Nat.log2_up n = n * Nat.log2_up n + 1.
Proof.
  induction n as [|n IH]; [lia|]. intros _. destruct (Nat.eq_dec n 0) as [->|Hn]; [reflexivity|]. specialize (IH ltac:(lia)).
  cbn [switches]. destruct (Nat.log2_up_succ_or n) as [E|E]; rewrite E.
  - destruct (Nat.log2_log2_up_spec n ltac:(lia)) as [_ Up]. pose proof (Nat.log2_up_spec (S n) ltac:(lia)) as [Lo _].
    rewrite E in Lo. cbn [Nat.pred] in Lo. rewrite Nat.pow_succ_r'. assert (EQ : n = 2 ^ Nat.log2_up n) by lia.
    set (L := Nat.log2_up n) in *. rewrite <- EQ in *. lia.
  - lia.
Qed.

Section Costs.
Context {F : Field}.

Definition between {A} (N : nat) (m : B A) (lo hi : nat) : Prop := costs N m (fun _ _ k => lo <= k <= hi).

Lemma costs_selection N c x y : costs N (selection c x y) (fun _ _ k => k <= 1).
Proof.
  unfold selection. kbind ltac:(apply costs_product_le). intros p N1 k1 _ H. apply costs_ret. lia.
Qed.
Lemma costs_create_switch N x y : costs N (create_switch x y) (fun _ _ k => 1 <= k <= 2).
Proof.
  unfold create_switch. kbind ltac:(apply costs_boolean_wire). intros w N1 k1 _ (_ & _ & ->).
  kbind ltac:(apply costs_selection). intros c N2 k2 _ H. apply costs_ret. lia.
Qed.
Lemma costs_switch_layer l num : forall N, 2 * num <= length l ->
  costs N (switch_layer l num) (fun r _ k => length r = num /\ num <= k <= 2 * num).
Proof.
  unfold switch_layer. intros N H.
  assert (G : forall is_ N, (forall i, In i is_ -> 2 * i + 1 < length l) ->
    costs N (bmap (fun i => x <- blift (oindex l (i * 2)) ;; y <- blift (oindex l (i * 2 + 1)) ;; create_switch x y) is_)
      (fun r _ k => length r = length is_ /\ length is_ <= k <= 2 * length is_)).
  { induction is_ as [|i is_ IH]; intros N' Hi; cbn [bmap length]; [apply costs_ret; cbn; lia|].
    assert (Li : 2 * i + 1 < length l) by (apply Hi; left; reflexivity).
    destruct (nth_error l (i * 2)) as [x|] eqn:Ex; [|apply nth_error_None in Ex; lia].
    destruct (nth_error l (i * 2 + 1)) as [y|] eqn:Ey; [|apply nth_error_None in Ey; lia].
    eapply costs_bind with (Q := fun _ _ k => 1 <= k <= 2); [|cbv beta; intros s N1 k1 _ H1].
    - eapply costs_lift; [unfold oindex; rewrite Ex; reflexivity|]. eapply costs_lift; [unfold oindex; rewrite Ey; reflexivity|].
      apply costs_create_switch.
    - kbind ltac:(apply IH; intros; apply Hi; right; assumption). intros r N2 k2 _ [L H2]. apply costs_ret. cbn [length]. lia. }
  eapply costs_weaken; [apply G|cbv beta; rewrite seq_length; auto]. intros i Hi. apply in_seq in Hi. lia.
Qed.

Lemma costs_2x2 N a b c d : costs N (assert_permutation_2x2 a b c d) (fun _ _ k => 3 <= k <= 4).
Proof.
  unfold assert_permutation_2x2. kbind ltac:(apply costs_create_switch). intros [[w ct] dt] N1 k1 _ H.
  kbind ltac:(apply costs_assert_equal). intros _ N2 k2 _ [_ ->].
  kbind ltac:(apply costs_assert_equal). intros _ N3 k3 _ [_ ->].
  eapply costs_weaken; [apply costs_generator|]. cbv beta. intros _ N4 k4 _ [_ ->]. lia.
Qed.

Lemma costs_permutation_fuel f : forall N a b, length a = length b -> length a < f ->
  costs N (assert_permutation_fuel f a b)
    (fun _ _ k => switches (length a) + length a <= k <= 2 * switches (length a) + length a).
Proof.
  induction f as [|f IH]; intros N a b E L; [lia|]. cbn [assert_permutation_fuel].
  eapply costs_lift; [rewrite E, Nat.eqb_refl; reflexivity|].
  destruct a as [|x1 a]; [destruct b; [apply costs_ret; cbn; lia|discriminate]|].
  destruct a as [|x2 a].
  { destruct b as [|y1 b]; [discriminate|]. eapply costs_weaken; [apply costs_assert_equal|]. cbv beta. intros _ N1 k _ [_ ->]. cbn. lia. }
  destruct a as [|x3 a].
  { destruct b as [|y1 [|y2 b]]; try discriminate. eapply costs_weaken; [apply costs_2x2|]. cbv beta. intros _ N1 k _ H. cbn. lia. }
  set (l := x1 :: x2 :: x3 :: a) in *.
  assert (L3 : 3 <= length l) by (unfold l; cbn; lia).
  cbv zeta. set (n := length l) in *.
  pose proof (Nat.div_mod n 2 ltac:(lia)) as Dn. pose proof (Nat.mod_upper_bound n 2 ltac:(lia)) as Un.
  assert (Ev : Nat.even n = (n mod 2 =? 0)) by (destruct (Nat.even n) eqn:B; [apply Nat.even_spec in B; destruct B as [q ->]; rewrite Nat.mul_comm, Nat.mod_mul by lia; reflexivity|];
    rewrite <- Nat.negb_odd in B; apply negb_false_iff, Nat.odd_spec in B; destruct B as [q ->]; rewrite Nat.add_comm, Nat.mul_comm, Nat.mod_add by lia; reflexivity).
  kbind ltac:(apply costs_switch_layer; fold n; lia). intros las N1 k1 _ [L1 H1].
  kbind ltac:(apply costs_switch_layer; rewrite <- E; fold n; destruct (Nat.even n); lia). intros lbs N2 k2 _ [L2 H2].
  rewrite Ev in *. rewrite (switches_step n) by lia. destruct (Nat.eqb_spec (n mod 2) 0) as [M|M].
  - destruct (nth_error b (n - 2)) as [x|] eqn:Ex; [|apply nth_error_None in Ex; lia].
    destruct (nth_error b (n - 1)) as [y|] eqn:Ey; [|apply nth_error_None in Ey; lia].
    eapply costs_bind with (Q := fun r _ k => r = (map (fun s => snd (fst s)) las, map (fun s => snd (fst s)) lbs ++ [x], map snd las, map snd lbs ++ [y]) /\ k = 0).
    { eapply costs_lift; [unfold oindex; rewrite Ex; reflexivity|]. eapply costs_lift; [unfold oindex; rewrite Ey; reflexivity|]. apply costs_ret. auto. }
    cbv beta. intros r N3 k3 _ [-> ->].
    kbind ltac:(apply IH; rewrite ?app_length, ?map_length; cbn [length]; lia). intros _ N4 k4 _ H4.
    kbind ltac:(apply IH; rewrite ?app_length, ?map_length; cbn [length]; lia). intros _ N5 k5 _ H5.
    eapply costs_weaken; [apply costs_generator|]. cbv beta. intros _ N6 k6 _ [_ ->]. rewrite !map_length, L1 in *.
    replace (n - n / 2) with (n / 2) by lia. lia.
  - destruct (nth_error l (n - 1)) as [x|] eqn:Ex; [|apply nth_error_None in Ex; fold n in Ex; lia].
    destruct (nth_error b (n - 1)) as [y|] eqn:Ey; [|apply nth_error_None in Ey; lia].
    eapply costs_bind with (Q := fun r _ k => r = (map (fun s => snd (fst s)) las, map (fun s => snd (fst s)) lbs, map snd las ++ [x], map snd lbs ++ [y]) /\ k = 0).
    { eapply costs_lift; [unfold oindex; rewrite Ex; reflexivity|]. eapply costs_lift; [unfold oindex; rewrite Ey; reflexivity|]. apply costs_ret. auto. }
    cbv beta. intros r N3 k3 _ [-> ->].
    kbind ltac:(apply IH; rewrite ?app_length, ?map_length; cbn [length]; lia). intros _ N4 k4 _ H4.
    kbind ltac:(apply IH; rewrite ?app_length, ?map_length; cbn [length]; lia). intros _ N5 k5 _ H5.
    eapply costs_weaken; [apply costs_generator|]. cbv beta. intros _ N6 k6 _ [_ ->]. rewrite ?app_length, !map_length, L1 in *. cbn [length] in *.
    replace (n - n / 2) with (n / 2 + 1) by lia. lia.
Qed.

(** The coefficient of one wire in an expression, as a value: the expression on the unit assignment. *)
Definition unitw (k : nat) : nat -> Z := fun j => if (j =? k)%nat then 1%Z else 0%Z.
Definition coef (k : nat) (e : expr) : Z := ev (unitw k) e.

Context (Hord : (2 <= order)%Z).

Lemma unitw_infield k j : infield (unitw k j).
Proof using Hord. unfold unitw, infield. destruct (j =? k)%nat; lia. Qed.
Lemma coef_wire k j : coef k (e_wire j) = if (j =? k)%nat then 1%Z else 0%Z.
Proof using Hord. unfold coef. rewrite (ev_wire Hord) by apply unitw_infield. reflexivity. Qed.
Lemma coef_below N k e : over (fun j => j < N) e -> N <= k -> coef k e = 0%Z.
Proof using Hord.
  intros H L. unfold coef. rewrite (ev_ext _ (fun _ => 0%Z)).
  - clear H.
    assert (G : lin (fun _ => 0%Z) e = 0%Z) by (unfold lin; induction e as [|[a c] e IH]; cbn in *; lia).
    unfold ev. rewrite G. apply Z.mod_0_l. lia.
  - intros j Hj. apply H in Hj. unfold unitw. destruct (Nat.eqb_spec j k); [lia|reflexivity].
Qed.
Lemma coef_constant k e : k <> ONE -> coef k e <> 0%Z -> e_as_constant e = None.
Proof using Hord.
  intros Hk H. destruct (e_as_constant e) as [c|] eqn:E; [|reflexivity]. apply as_constant_spec in E. subst e. exfalso. apply H.
  apply coef_below with (N := 1); [|unfold ONE in Hk; lia]. intros j [<-|[]]. cbn. unfold ONE. lia.
Qed.

(** Every expression of the list has a wire of its own. *)
Definition separate (l : list expr) : Prop := forall i, i < length l -> exists k, k <> ONE /\ coef k (nth i l e_zero) <> 0%Z /\
  forall j, j < length l -> j <> i -> coef k (nth j l e_zero) = 0%Z.

Lemma separate_nonconst l i j : separate l -> i < length l -> j < length l -> i <> j ->
  e_as_constant (e_sub (nth i l e_zero) (nth j l e_zero)) = None.
Proof using Hord.
  intros S Hi Hj D. destruct (S i Hi) as (k & Hk & H1 & H2). apply (coef_constant k); [exact Hk|].
  unfold coef in *. rewrite (ev_sub Hord), (H2 j Hj) by auto. unfold fsub.
  pose proof (ev_infield Hord (unitw k) (nth i l e_zero)) as I. unfold infield in I. unfold fadd, fopp, fzero. cbn [Z.eqb]. rewrite Z.add_0_r, Z.mod_small by lia. exact H1.
Qed.

Lemma costs_create_switch_exact N x y : 0 < N -> e_as_constant (e_sub y x) = None ->
  costs N (create_switch x y) (fun r N' k => r = (N, e_add x (e_wire (S N)), e_sub (e_add x y) (e_add x (e_wire (S N)))) /\ N' = S (S N) /\ k = 2).
Proof.
  intros LN H. unfold create_switch, selection. kbind ltac:(apply costs_boolean_wire). intros w N1 k1 _ (-> & -> & ->).
  eapply costs_bind; [eapply costs_bind; [apply costs_product|]|].
  - cbv beta. intros r N2 k2 _ [E _]. destruct E as (-> & -> & ->); [apply as_constant_wire; unfold ONE; lia|exact H|].
    apply costs_ret. instantiate (1 := fun r N' k => r = e_add x (e_wire (S N)) /\ N' = S (S N) /\ k = 1). cbv beta. auto.
  - cbv beta. intros r N2 k2 _ (-> & -> & ->). apply costs_ret. auto.
Qed.

Definition sw_x (l : list expr) (i : nat) : expr := nth (i * 2) l e_zero.
Definition sw_y (l : list expr) (i : nat) : expr := nth (i * 2 + 1) l e_zero.
Definition sw_c (N : nat) (l : list expr) (i : nat) : expr := e_add (sw_x l i) (e_wire (N + 2 * i + 1)).
Definition sw_d (N : nat) (l : list expr) (i : nat) : expr := e_sub (e_add (sw_x l i) (sw_y l i)) (sw_c N l i).

Lemma costs_switch_layer_exact l num N : 0 < N -> 2 * num <= length l -> separate l ->
  costs N (switch_layer l num) (fun r N' k => r = map (fun i => (N + 2 * i, sw_c N l i, sw_d N l i)) (seq 0 num) /\ N' = N + 2 * num /\ k = 2 * num).
Proof using Hord.
  intros LN H S. unfold switch_layer.
  assert (G : forall m s, 2 * (s + m) <= length l ->
    costs (N + 2 * s) (bmap (fun i => x <- blift (oindex l (i * 2)) ;; y <- blift (oindex l (i * 2 + 1)) ;; create_switch x y) (seq s m))
      (fun r N' k => r = map (fun i => (N + 2 * i, sw_c N l i, sw_d N l i)) (seq s m) /\ N' = N + 2 * (s + m) /\ k = 2 * m)).
  { induction m as [|m IH]; intros s Hs; cbn [seq bmap]; [apply costs_ret; repeat split; lia|].
    eapply costs_bind with (Q := fun r N' k => r = (N + 2 * s, sw_c N l s, sw_d N l s) /\ N' = N + 2 * Datatypes.S s /\ k = 2).
    - eapply costs_lift; [apply (oindex_nth _ _ e_zero); lia|]. eapply costs_lift; [apply (oindex_nth _ _ e_zero); lia|].
      eapply costs_weaken; [apply costs_create_switch_exact; [lia|apply separate_nonconst; auto; lia]|]. cbv beta. intros r N' k _ (-> & -> & ->).
      unfold sw_d, sw_c, sw_x, sw_y. replace (N + 2 * s + 1) with (Datatypes.S (N + 2 * s)) by lia. repeat split; lia.
    - cbv beta. intros r N1 k1 _ (-> & -> & ->). kbind ltac:(apply IH; lia). intros r N2 k2 _ (-> & -> & ->).
      apply costs_ret. cbn [map]. repeat split; lia. }
  specialize (G num 0 ltac:(lia)). replace (N + 2 * 0) with N in G by lia. eapply costs_weaken; [exact G|]. cbv beta. auto.
Qed.

Lemma over_nth P (l : list expr) i : Forall (over P) l -> over P (nth i l e_zero).
Proof. intro H. destruct (Nat.lt_ge_cases i (length l)) as [L|L]; [apply Forall_nth; auto|rewrite nth_overflow by exact L; apply over_zero]. Qed.

Lemma over_sw N M l i num : 0 < N -> N + 2 * num <= M -> Forall (over (fun j => j < N)) l -> i < num ->
  over (fun j => j < M) (sw_c N l i) /\ over (fun j => j < M) (sw_d N l i).
Proof.
  intros LN L H Hi. assert (X : forall j, over (fun j => j < M) (nth j l e_zero)).
  { intro j. eapply over_impl; [|apply over_nth; exact H]. cbv beta. intros; lia. }
  assert (C : over (fun j => j < M) (sw_c N l i)) by (apply over_add; [apply X|apply over_wire; lia]).
  split; [exact C|]. apply over_sub; [apply over_add; apply X|exact C].
Qed.

Lemma coef_c N l i k : coef k (sw_c N l i) = fadd (coef k (sw_x l i)) (if (N + 2 * i + 1 =? k)%nat then 1%Z else 0%Z).
Proof using Hord. unfold sw_c, coef. rewrite (ev_add Hord). fold (coef k (e_wire (N + 2 * i + 1))). rewrite coef_wire. reflexivity. Qed.
Lemma coef_d N l i k : coef k (sw_d N l i) = fsub (fadd (coef k (sw_x l i)) (coef k (sw_y l i))) (coef k (sw_c N l i)).
Proof using Hord. unfold sw_d, coef. rewrite (ev_sub Hord), (ev_add Hord). reflexivity. Qed.

(** The outputs of a layer, possibly followed by one of the inputs that was left over. *)
Lemma separate_children N l num (rest : list nat) : 0 < N -> separate l -> Forall (over (fun j => j < N)) l -> 2 * num <= length l ->
  length rest <= 1 -> Forall (fun i => 2 * num <= i < length l) rest ->
  separate (map (sw_c N l) (seq 0 num) ++ map (fun i => nth i l e_zero) rest) /\
  separate (map (sw_d N l) (seq 0 num) ++ map (fun i => nth i l e_zero) rest).
Proof using Hord.
  intros LN S V L Lr Hr.
  assert (Z0 : forall i k, N <= k -> coef k (nth i l e_zero) = 0%Z) by (intros i k Lk; eapply coef_below; [apply over_nth; exact V|exact Lk]).
  assert (KEY : forall (f : nat -> expr),
    (forall i, i < num -> coef (N + 2 * i + 1) (f i) <> 0%Z) ->
    (forall i j, i < num -> j < num -> i <> j -> coef (N + 2 * i + 1) (f j) = 0%Z) ->
    (forall j k, j < num -> k < N -> coef k (sw_x l j) = 0%Z -> coef k (sw_y l j) = 0%Z -> coef k (f j) = 0%Z) ->
    separate (map f (seq 0 num) ++ map (fun i => nth i l e_zero) rest)).
  { intros f F1 F2 F3.
    assert (NL : forall i, i < num -> nth i (map f (seq 0 num) ++ map (fun i => nth i l e_zero) rest) e_zero = f i).
    { intros i Hi. rewrite app_nth1 by (rewrite map_length, seq_length; exact Hi).
      rewrite (nth_indep _ e_zero (f 0)) by (rewrite map_length, seq_length; exact Hi). rewrite map_nth, seq_nth by exact Hi. reflexivity. }
    unfold separate. rewrite app_length, !map_length, seq_length. intros i Hi.
    destruct (Nat.lt_ge_cases i num) as [Li|Li].
    - exists (N + 2 * i + 1). split; [unfold ONE; lia|]. rewrite NL by exact Li. split; [auto|].
      intros j Hj D. destruct (Nat.lt_ge_cases j num) as [Lj|Lj]; [rewrite NL by exact Lj; auto|].
      rewrite app_nth2 by (rewrite map_length, seq_length; exact Lj). destruct rest as [|q rest]; [cbn in Hj; lia|].
      destruct rest; [|cbn in Lr; lia]. rewrite map_length, seq_length. cbn in Hj. replace (j - num) with 0 by lia. cbn [map nth]. apply Z0. lia.
    - destruct rest as [|q rest]; [cbn in Hi; lia|]. destruct rest; [|cbn in Lr; lia]. cbn in Hi. assert (i = num) by lia. subst i.
      inversion Hr as [|? ? [Hq1 Hq2] _]; subst. destruct (S q Hq2) as (k & Hk & K1 & K2). exists k. split; [exact Hk|].
      assert (Lk : k < N). { destruct (Nat.lt_ge_cases k N) as [A|A]; [exact A|]. exfalso. apply K1. apply Z0. exact A. }
      split.
      + rewrite app_nth2 by (rewrite map_length, seq_length; lia). rewrite map_length, seq_length, Nat.sub_diag. exact K1.
      + intros j Hj D. cbn in Hj. assert (Lj : j < num) by lia. rewrite NL by exact Lj. apply F3; [exact Lj|exact Lk| |]; apply K2; lia. }
  assert (C1 : forall i, i < num -> coef (N + 2 * i + 1) (sw_c N l i) = 1%Z).
  { intros i Hi. rewrite coef_c. unfold sw_x. rewrite Z0, Nat.eqb_refl by lia. unfold fadd. rewrite Z.mod_small by lia. reflexivity. }
  assert (C2 : forall i j, i < num -> j < num -> i <> j -> coef (N + 2 * i + 1) (sw_c N l j) = 0%Z).
  { intros i j Hi Hj D. rewrite coef_c. unfold sw_x. rewrite Z0 by lia. destruct (Nat.eqb_spec (N + 2 * j + 1) (N + 2 * i + 1)); [lia|].
    unfold fadd. apply Z.mod_0_l. lia. }
  assert (C3 : forall j k, j < num -> k < N -> coef k (sw_x l j) = 0%Z -> coef k (sw_c N l j) = 0%Z).
  { intros j k Hj Hk H. rewrite coef_c, H. destruct (Nat.eqb_spec (N + 2 * j + 1) k); [lia|]. unfold fadd. apply Z.mod_0_l. lia. }
  split; apply KEY.
  - intros i Hi. rewrite C1 by exact Hi. lia.
  - exact C2.
  - intros j k Hj Hk H _. auto.
  - intros i Hi. rewrite coef_d, C1 by exact Hi. unfold sw_x, sw_y. rewrite !Z0 by lia. unfold fsub, fadd, fopp. cbn [Z.eqb Z.add]. rewrite (Z.mod_0_l order) by lia.
    cbn [Z.add]. rewrite Z.mod_small by lia. lia.
  - intros i j Hi Hj D. rewrite coef_d, C2 by assumption. unfold sw_x, sw_y. rewrite !Z0 by lia. unfold fsub, fadd, fopp, fzero. cbn [Z.eqb Z.add]. rewrite !Zmod_0_l. reflexivity.
  - intros j k Hj Hk H1 H2. rewrite coef_d, C3, H1, H2 by assumption. unfold fsub, fadd, fopp, fzero. cbn [Z.eqb Z.add]. rewrite !Zmod_0_l. reflexivity.
Qed.

Lemma map_sw {A} (f : nat * expr * expr -> A) N l num :
  map f (map (fun i => (N + 2 * i, sw_c N l i, sw_d N l i)) (seq 0 num)) = map (fun i => f (N + 2 * i, sw_c N l i, sw_d N l i)) (seq 0 num).
Proof. apply map_map. Qed.

Lemma over_children N M l num rest : 0 < N -> N + 2 * num <= M -> Forall (over (fun j => j < N)) l ->
  Forall (over (fun j => j < M)) (map (sw_c N l) (seq 0 num) ++ map (fun i => nth i l e_zero) rest) /\
  Forall (over (fun j => j < M)) (map (sw_d N l) (seq 0 num) ++ map (fun i => nth i l e_zero) rest).
Proof.
  intros LN L H. assert (R : Forall (over (fun j => j < M)) (map (fun i => nth i l e_zero) rest)).
  { apply Forall_forall. intros e He. apply in_map_iff in He. destruct He as (i & <- & _).
    eapply over_impl; [|apply over_nth; exact H]. cbv beta. intros; lia. }
  split; apply Forall_app; (split; [|exact R]); apply Forall_forall; intros e He; apply in_map_iff in He; destruct He as (i & <- & Hi);
    apply in_seq in Hi; apply (over_sw N M l i num); auto; lia.
Qed.

Lemma over_wider (N M : nat) l : N <= M -> Forall (over (fun j => j < N)) l -> Forall (over (fun j => j < M)) l.
Proof. intro L. apply Forall_impl. intros e. apply over_impl. intros; lia. Qed.

Lemma costs_permutation_exact f : forall N a b, 0 < N -> length a = length b -> length a < f -> separate a -> separate b ->
  Forall (over (fun j => j < N)) a -> Forall (over (fun j => j < N)) b ->
  costs N (assert_permutation_fuel f a b) (fun _ _ k => k = 2 * switches (length a) + length a).
Proof using Hord.
  induction f as [|f IH]; intros N a b LN E L Sa Sb Va Vb; [lia|]. cbn [assert_permutation_fuel].
  eapply costs_lift; [rewrite E, Nat.eqb_refl; reflexivity|].
  destruct a as [|x1 a]; [destruct b; [apply costs_ret; cbn; lia|discriminate]|].
  destruct a as [|x2 a].
  { destruct b as [|y1 b]; [discriminate|]. eapply costs_weaken; [apply costs_assert_equal|]. cbv beta. intros _ N1 k _ [_ ->]. cbn. lia. }
  destruct a as [|x3 a].
  { destruct b as [|y1 [|y2 b]]; try discriminate. unfold assert_permutation_2x2.
    kbind ltac:(apply costs_create_switch_exact; [exact LN|apply (separate_nonconst _ 1 0 Sa); cbn; lia]). intros r N1 k1 _ (-> & -> & ->).
    kbind ltac:(apply costs_assert_equal). intros _ N2 k2 _ [_ ->].
    kbind ltac:(apply costs_assert_equal). intros _ N3 k3 _ [_ ->].
    eapply costs_weaken; [apply costs_generator|]. cbv beta. intros _ N4 k4 _ [_ ->]. cbn. lia. }
  set (l := x1 :: x2 :: x3 :: a) in *.
  assert (L3 : 3 <= length l) by (unfold l; cbn; lia).
  cbv zeta. set (n := length l) in *.
  pose proof (Nat.div_mod n 2 ltac:(lia)) as Dn. pose proof (Nat.mod_upper_bound n 2 ltac:(lia)) as Un.
  assert (Ev : Nat.even n = (n mod 2 =? 0)) by (destruct (Nat.even n) eqn:B; [apply Nat.even_spec in B; destruct B as [q ->]; rewrite Nat.mul_comm, Nat.mod_mul by lia; reflexivity|];
    rewrite <- Nat.negb_odd in B; apply negb_false_iff, Nat.odd_spec in B; destruct B as [q ->]; rewrite Nat.add_comm, Nat.mul_comm, Nat.mod_add by lia; reflexivity).
  rewrite Ev in *. rewrite (switches_step n) by lia. set (m := n / 2) in *.
  set (m' := if n mod 2 =? 0 then m - 1 else m).
  assert (Hm' : 2 * m' <= n - 1) by (unfold m'; destruct (Nat.eqb_spec (n mod 2) 0); lia).
  kbind ltac:(apply costs_switch_layer_exact; [exact LN|fold n; lia|exact Sa]). intros las N1 k1 _ (-> & -> & ->).
  kbind ltac:(apply (costs_switch_layer_exact b m'); [lia|lia|exact Sb]). intros lbs N2 k2 _ (-> & -> & ->).
  rewrite !map_sw. cbn [fst snd]. set (N1 := N + 2 * m) in *.
  assert (Vb1 : Forall (over (fun j => j < N1)) b) by (eapply over_wider; [|exact Vb]; lia).
  unfold m' in *. destruct (Nat.eqb_spec (n mod 2) 0) as [M|M].
  - eapply costs_bind with (Q := fun r N' k => r = (map (sw_c N l) (seq 0 m), map (sw_c N1 b) (seq 0 (m - 1)) ++ [nth (n - 2) b e_zero],
        map (sw_d N l) (seq 0 m), map (sw_d N1 b) (seq 0 (m - 1)) ++ [nth (n - 1) b e_zero]) /\ N' = N1 + 2 * (m - 1) /\ k = 0).
    { eapply costs_lift; [apply (oindex_nth _ _ e_zero); lia|]. eapply costs_lift; [apply (oindex_nth _ _ e_zero); lia|].
      apply costs_ret. auto. }
    cbv beta. intros r N3 k3 L3' (-> & -> & ->).
    destruct (separate_children N l m [] LN Sa Va) as [Sa1 Sa2]; [fold n; lia|cbn; lia|constructor|]. cbn [map] in Sa1, Sa2. rewrite !app_nil_r in *.
    destruct (over_children N (N1 + 2 * (m - 1)) l m [] LN) as [Oa1 Oa2]; [lia|exact Va|]. cbn [map] in Oa1, Oa2. rewrite !app_nil_r in *.
    destruct (separate_children N1 b (m - 1) [n - 2]) as [Sb1 _]; [lia|exact Sb|exact Vb1|lia|cbn; lia|constructor; [lia|constructor]|].
    destruct (separate_children N1 b (m - 1) [n - 1]) as [_ Sb2]; [lia|exact Sb|exact Vb1|lia|cbn; lia|constructor; [lia|constructor]|].
    destruct (over_children N1 (N1 + 2 * (m - 1)) b (m - 1) [n - 2]) as [Ob1 _]; [lia|lia|exact Vb1|].
    destruct (over_children N1 (N1 + 2 * (m - 1)) b (m - 1) [n - 1]) as [_ Ob2]; [lia|lia|exact Vb1|].
    kbind ltac:(apply IH; [lia|rewrite ?app_length, !map_length, !seq_length; cbn [length]; lia|rewrite map_length, seq_length; lia|assumption..]). intros _ N4 k4 L4 ->.
    kbind ltac:(apply IH; [lia|rewrite ?app_length, !map_length, !seq_length; cbn [length]; lia|rewrite map_length, seq_length; lia|assumption|exact Sb2|eapply over_wider; [exact L4|assumption]|eapply over_wider; [exact L4|exact Ob2]]).
    intros _ N5 k5 _ ->.
    eapply costs_weaken; [apply costs_generator|]. cbv beta. intros _ N6 k6 _ [_ ->]. rewrite !map_length, !seq_length.
    replace (n - m) with m by lia. lia.
  - eapply costs_bind with (Q := fun r N' k => r = (map (sw_c N l) (seq 0 m), map (sw_c N1 b) (seq 0 m),
        map (sw_d N l) (seq 0 m) ++ [nth (n - 1) l e_zero], map (sw_d N1 b) (seq 0 m) ++ [nth (n - 1) b e_zero]) /\ N' = N1 + 2 * m /\ k = 0).
    { eapply costs_lift; [apply (oindex_nth _ _ e_zero); fold n; lia|]. eapply costs_lift; [apply (oindex_nth _ _ e_zero); lia|].
      apply costs_ret. auto. }
    cbv beta. intros r N3 k3 L3' (-> & -> & ->).
    destruct (separate_children N l m [] LN Sa Va) as [Sa1 _]; [fold n; lia|cbn; lia|constructor|]. cbn [map] in Sa1. rewrite app_nil_r in Sa1.
    destruct (separate_children N l m [n - 1] LN Sa Va) as [_ Sa2]; [fold n; lia|cbn; lia|constructor; [fold n; lia|constructor]|].
    destruct (over_children N (N1 + 2 * m) l m [] LN) as [Oa1 _]; [lia|exact Va|]. cbn [map] in Oa1. rewrite app_nil_r in Oa1.
    destruct (over_children N (N1 + 2 * m) l m [n - 1] LN) as [_ Oa2]; [lia|exact Va|].
    destruct (separate_children N1 b m []) as [Sb1 _]; [lia|exact Sb|exact Vb1|lia|cbn; lia|constructor|]. cbn [map] in Sb1. rewrite app_nil_r in Sb1.
    destruct (separate_children N1 b m [n - 1]) as [_ Sb2]; [lia|exact Sb|exact Vb1|lia|cbn; lia|constructor; [lia|constructor]|].
    destruct (over_children N1 (N1 + 2 * m) b m []) as [Ob1 _]; [lia|lia|exact Vb1|]. cbn [map] in Ob1. rewrite app_nil_r in Ob1.
    destruct (over_children N1 (N1 + 2 * m) b m [n - 1]) as [_ Ob2]; [lia|lia|exact Vb1|].
    kbind ltac:(apply IH; [lia|rewrite ?app_length, !map_length, !seq_length; cbn [length]; lia|rewrite map_length, seq_length; lia|assumption..]). intros _ N4 k4 L4 ->.
    kbind ltac:(apply IH; [lia|rewrite ?app_length, !map_length, !seq_length; cbn [length]; lia|rewrite app_length, map_length, seq_length; cbn [length]; lia|exact Sa2|exact Sb2|eapply over_wider; [exact L4|exact Oa2]|eapply over_wider; [exact L4|exact Ob2]]).
    intros _ N5 k5 _ ->.
    eapply costs_weaken; [apply costs_generator|]. cbv beta. intros _ N6 k6 _ [_ ->]. rewrite ?app_length, !map_length, !seq_length. cbn [length].
    replace (n - m) with (m + 1) by lia. lia.
Qed.

Lemma separate_wires ws : NoDup ws -> ~ In ONE ws -> separate (map e_wire ws).
Proof using Hord.
  intros D H i Hi. rewrite map_length in Hi.
  assert (G : forall j, j < length ws -> nth j (map e_wire ws) e_zero = e_wire (nth j ws 0)).
  { intros j Hj. rewrite (nth_indep _ e_zero (e_wire 0)) by (rewrite map_length; exact Hj). apply map_nth. }
  exists (nth i ws 0). split; [|split].
  - intro E. apply H. rewrite <- E. apply nth_In. exact Hi.
  - rewrite G, coef_wire, Nat.eqb_refl by exact Hi. lia.
  - intros j Hj Hne. rewrite map_length in Hj. rewrite G, coef_wire by exact Hj.
    destruct (Nat.eqb_spec (nth j ws 0) (nth i ws 0)) as [E|_]; [|reflexivity].
    exfalso. apply Hne. eapply NoDup_nth; eauto.
Qed.

(** An expression whose value changes with the wires. *)
Definition varies (e : expr) : Prop := exists w w', w ONE = w' ONE /\ ev w e <> ev w' e.
Lemma varies_nonconst e : varies e -> e_as_constant e = None.
Proof.
  intros (w & w' & E & D). destruct (e_as_constant e) as [c|] eqn:C; [|reflexivity]. apply as_constant_spec in C. subst e.
  exfalso. apply D. apply ev_ext. intros k [<-|[]]. exact E.
Qed.
Lemma varies_wire k : k <> ONE -> varies (e_wire k).
Proof using Hord.
  intro H. exists (unitw k), (fun _ => 0%Z). split; [unfold unitw; destruct (Nat.eqb_spec ONE k); [congruence|reflexivity]|].
  fold (coef k (e_wire k)). rewrite coef_wire, Nat.eqb_refl, (ev_wire Hord) by (unfold infield; lia). lia.
Qed.
Lemma varies_scale_one e : varies e -> varies (e_scale e 1).
Proof using Hord.
  intros (w & w' & E & D). exists w, w'. split; [exact E|]. rewrite !(ev_scale Hord). unfold fmul. rewrite !Z.mul_1_r.
  pose proof (ev_infield Hord w e) as I1. pose proof (ev_infield Hord w' e) as I2. unfold infield in *. rewrite !Z.mod_small by lia. exact D.
Qed.

Lemma costs_product_varies N x y : 0 < N -> varies x -> varies y -> costs N (product x y) (fun r N' k => varies r /\ k = 1).
Proof using Hord.
  intros LN Hx Hy. eapply costs_weaken; [apply costs_product|]. cbv beta. intros r N' k _ [H _].
  destruct H as (-> & -> & ->); [apply varies_nonconst; assumption..|]. split; [apply varies_wire; unfold ONE; lia|reflexivity].
Qed.

Lemma costs_quotient N x y : costs N (quotient x y) (fun _ _ k => k <= 2).
Proof.
  unfold quotient. kbind ltac:(apply costs_inverse). intros r N1 k1 _ (-> & -> & ->).
  eapply costs_weaken; [apply costs_product_le|]. cbv beta. intros _ N2 k2 _ H. lia.
Qed.
Lemma costs_quotient_varies N x y : 0 < N -> varies x -> costs N (quotient x y) (fun _ _ k => k = 2).
Proof using Hord.
  intros LN Hx. unfold quotient. kbind ltac:(apply costs_inverse). intros r N1 k1 L1 (-> & -> & ->).
  eapply costs_weaken; [apply costs_product_varies; [lia|exact Hx|apply varies_wire; unfold ONE; lia]|]. cbv beta. intros _ N2 k2 _ [_ ->]. lia.
Qed.
Lemma costs_quotient_unsafe N x y : costs N (quotient_unsafe x y) (fun r N' k => r = e_wire N /\ N' = S N /\ k = 0).
Proof.
  unfold quotient_unsafe. kbind ltac:(apply costs_wire). intros w N1 k1 _ (-> & -> & ->).
  kbind ltac:(apply costs_generator). intros _ N2 k2 _ (-> & ->). apply costs_ret. auto.
Qed.

(** Number of ones among the [n] low bits. *)
Fixpoint ones (p : Z) (n : nat) : nat :=
  match n with O => 0 | S m => ones p m + (if Z.testbit p (Z.of_nat m) then 1 else 0) end.

Lemma costs_exponentiation_le N x p : 0 < N -> costs N (exponentiation x p) (fun _ _ k => k <= zbits p - 1 + ones p (zbits p)).
Proof.
  intro LN. unfold exponentiation, el_bits. eapply costs_bind.
  - apply (costs_bfold_seq _ (fun i _ _ k => k <= i - 1 + ones p i)) with (k := 0) (n := zbits p); [cbn; lia|].
    intros i st N' c Hi LN' I.
    eapply costs_bind with (Q := fun _ _ k => k <= (if i =? 0 then 0 else 1)).
    { destruct (i =? 0); [apply costs_ret; lia|]. eapply costs_weaken; [apply costs_product_le|]. auto. }
    cbv beta. intros sq N1 k1 _ H1. eapply costs_bind with (Q := fun _ _ k => k <= (if Z.testbit p (Z.of_nat i) then 1 else 0)).
    { unfold el_bit, zbit. destruct (Z.testbit p (Z.of_nat i)); [apply costs_product_le|apply costs_ret; lia]. }
    cbv beta. intros pr N2 k2 _ H2. apply costs_ret. cbn [ones]. destruct i; cbn [Nat.eqb] in *; lia.
  - cbv beta. intros a N1 k1 _ H. apply costs_ret. cbn [Nat.add] in H. lia.
Qed.

Lemma ones_pos p n : ones p n = 0 -> forall i, i < n -> Z.testbit p (Z.of_nat i) = false.
Proof.
  induction n as [|n IH]; intros H i Hi; [lia|]. cbn in H. destruct (Z.testbit p (Z.of_nat n)) eqn:E; [lia|].
  destruct (Nat.eq_dec i n) as [->|]; [exact E|]. apply IH; lia.
Qed.

Lemma costs_exponentiation_result N x p : 0 < N -> varies x -> costs N (exponentiation x p) (fun r _ k =>
  k = zbits p - 1 + (ones p (zbits p) - 1) /\ (0 < ones p (zbits p) -> varies r)).
Proof using Hord.
  intros LN Hx. unfold exponentiation, el_bits. eapply costs_bind.
  - apply (costs_bfold_seq _ (fun i st _ k => k = i - 1 + (ones p i - 1) /\ (0 < i -> varies (snd st)) /\
      (ones p i = 0 -> fst st = e_one) /\ (0 < ones p i -> varies (fst st)))) with (k := 0) (n := zbits p); [cbn; repeat split; lia|].
    intros i st N' c Hi LN' (I0 & I1 & I2 & I3).
    eapply costs_bind with (Q := fun r _ k => varies r /\ k = (if i =? 0 then 0 else 1)).
    { destruct (Nat.eqb_spec i 0); [apply costs_ret; auto|]. apply costs_product_varies; [lia|apply I1; lia|apply I1; lia]. }
    cbv beta. intros sq N1 k1 L1 [Hsq H1].
    eapply costs_bind with (Q := fun r _ k => (Z.testbit p (Z.of_nat i) = true -> varies r) /\ (Z.testbit p (Z.of_nat i) = false -> r = fst st) /\
       k = (if Z.testbit p (Z.of_nat i) then if ones p i =? 0 then 0 else 1 else 0)).
    { unfold el_bit, zbit. destruct (Z.testbit p (Z.of_nat i)); [|apply costs_ret; repeat split; congruence].
      destruct (Nat.eqb_spec (ones p i) 0) as [Z|Z].
      - rewrite (I2 Z). unfold product. replace (e_as_constant e_one) with (Some 1%Z).
        + apply costs_ret. split; [intros _; apply varies_scale_one; exact Hsq|split; [discriminate|reflexivity]].
        + unfold e_one, e_const, e_as_constant, fone. cbn. reflexivity.
      - eapply costs_weaken; [apply costs_product_varies; [lia|apply I3; lia|exact Hsq]|]. cbv beta. intros r N2 k2 _ [V ->]. split; [auto|split; [discriminate|reflexivity]]. }
    cbv beta. intros pr N2 k2 _ (P1 & P2 & H2). apply costs_ret. cbn [ones fst snd].
    destruct (Z.testbit p (Z.of_nat i)) eqn:Bt; destruct (Nat.eqb_spec (ones p i) 0) as [Z|Z]; destruct (Nat.eqb_spec i 0) as [->|]; cbn [ones Nat.add] in *;
      (split; [lia|split; [auto|split; [intro|intro]]]); try lia; auto; rewrite ?P2 by reflexivity; auto; try (apply I2; lia); try (apply I3; lia); exfalso; lia.
  - cbv beta. intros a N1 k1 _ (H & _ & _ & V). apply costs_ret. cbn [Nat.add] in H, V. split; [lia|exact V].
Qed.
Lemma costs_exponentiation N x p : 0 < N -> varies x -> costs N (exponentiation x p) (fun _ _ k => k = zbits p - 1 + (ones p (zbits p) - 1)).
Proof using Hord. intros LN Hx. eapply costs_weaken; [apply costs_exponentiation_result; assumption|]. cbv beta. tauto. Qed.
End Costs.
