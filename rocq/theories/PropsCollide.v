(** C93: collisions of sponges: the reduction to inner collisions, and second preimages for Poseidon and Rescue as implemented. *)
From Coq Require Import ZArith List Bool Arith Lia Znumtheory.
From Verif Require Import Base FieldM FieldP ExprM BuilderM CryptoM Spec SpecCrypto ExprP MonoP LocalP SoundP HonestP ExecP CompleteP CryptoP SpongeP MatrixP
  Demo PropLib PropsCrypto PropsMix.
Import ListNotations.
Open Scope Z_scope.

Lemma list_ext {A} : forall l m : list A, (forall i, nth_error l i = nth_error m i) -> l = m.
Proof.
  induction l as [|x l IH]; intros [|y m] H; [reflexivity|specialize (H 0%nat); discriminate|specialize (H 0%nat); discriminate|].
  pose proof (H 0%nat) as H0. cbn in H0. injection H0 as ->. f_equal. apply IH. intro i. exact (H (S i)).
Qed.

Lemma app_len_inj {A} : forall a b x y : list A, length a = length b -> a ++ x = b ++ y -> a = b /\ x = y.
Proof.
  induction a as [|h a IH]; intros [|k b] x y L E; try discriminate; [auto|]. cbn in *. injection E as -> E.
  destruct (IH b x y ltac:(lia) E) as [-> ->]. auto.
Qed.

Lemma padded_blocks_app r b rest : (0 < r)%nat -> length b = r -> padded_blocks r (b ++ rest) = b :: padded_blocks r rest.
Proof.
  intros R L. unfold padded_blocks. destruct b as [|x b]; [cbn in L; lia|]. rewrite app_length. cbn [length]. cbn [Nat.add blocks_fuel app].
  change (x :: b ++ rest) with ((x :: b) ++ rest). f_equal.
  - replace (firstn r ((x :: b) ++ rest)) with (x :: b) by (rewrite <- L, firstn_app, Nat.sub_diag, firstn_all; cbn [firstn]; rewrite app_nil_r; reflexivity).
    replace (r - length ((x :: b) ++ rest))%nat with 0%nat by (rewrite app_length; lia). cbn [repeat]. apply app_nil_r.
  - replace (skipn r ((x :: b) ++ rest)) with rest by (rewrite <- L, skipn_app, Nat.sub_diag, skipn_all; reflexivity).
    apply blocks_fuel_more; lia.
Qed.

Section Collide.
Context {F : Field} (Hord : 2 <= order).

(** The block that takes [u'] to where [v] takes [u]. *)
Definition compensate (u v u' : list Z) : list Z :=
  map (fun q => (fst (fst q) + snd (fst q) - snd q) mod order) (combine (combine u v) u').

Lemma compensate_adds : forall u v u', length u = length v -> length u' = length v ->
  map (fun xy => (fst xy + snd xy) mod order) (combine u' (compensate u v u')) = map (fun xy => (fst xy + snd xy) mod order) (combine u v).
Proof using.
  unfold compensate. induction u as [|x u IH]; intros [|y v] [|x' u'] L L'; try discriminate; [reflexivity|]. cbn [combine map fst snd]. f_equal.
  - rewrite Zplus_mod_idemp_r. f_equal. lia.
  - apply IH; cbn in *; lia.
Qed.
Lemma compensate_length u v u' : length u = length v -> length u' = length v -> length (compensate u v u') = length v.
Proof using. intros L L'. unfold compensate. rewrite map_length, !combine_length. lia. Qed.
Lemma compensate_state n u v u' : length v = n -> length u = length v -> length u' = length v -> state n (compensate u v u').
Proof using Hord.
  intros <- L L'. split; [apply compensate_length; assumption|]. unfold compensate. apply Forall_map, Forall_forall. intros q _. apply Z.mod_pos_bound. lia.
Qed.

Context (p : list Z -> list Z) (r c : nat) (R : (0 < r)%nat).
Context (Hlen : forall l, length l = (r + c)%nat -> length (p l) = (r + c)%nat).

Lemma fold_length bs : Forall (fun b => length b = r) bs -> forall st, length st = (r + c)%nat -> length (fold_left (absorb p r) bs st) = (r + c)%nat.
Proof using Hlen.
  induction 1 as [|b bs Hb _ IH]; intros st L; [exact L|]. cbn [fold_left]. apply IH. apply absorb_length; assumption.
Qed.

Section Lanes.
Context (Hlane : forall i l1 l2, nth_error l1 i = nth_error l2 i -> nth_error (p l1) i = nth_error (p l2) i).

Lemma absorb_capacity st1 st2 b1 b2 : length st1 = (r + c)%nat -> length st2 = (r + c)%nat -> length b1 = r -> length b2 = r ->
  skipn r st1 = skipn r st2 -> skipn r (absorb p r st1 b1) = skipn r (absorb p r st2 b2).
Proof using Hlane.
  clear R. intros L1 L2 B1 B2 E. unfold absorb. apply list_ext. intro i. rewrite !nth_error_skipn. apply Hlane.
  assert (K : forall st b, length st = (r + c)%nat -> length b = r ->
     length (map (fun xy : Z * Z => (fst xy + snd xy) mod order) (combine (firstn r st) b)) = r).
  { intros st b Ls Lb. rewrite map_length, combine_length, firstn_length. lia. }
  rewrite !nth_error_app2 by (rewrite K; auto; lia). rewrite !K by assumption. rewrite E. reflexivity.
Qed.

Lemma fold_capacity : forall bs1 bs2, length bs1 = length bs2 -> Forall (fun b => length b = r) bs1 -> Forall (fun b => length b = r) bs2 ->
  forall st1 st2, length st1 = (r + c)%nat -> length st2 = (r + c)%nat -> skipn r st1 = skipn r st2 ->
  skipn r (fold_left (absorb p r) bs1 st1) = skipn r (fold_left (absorb p r) bs2 st2).
Proof using Hlen Hlane.
  induction bs1 as [|b1 bs1 IH]; intros [|b2 bs2] L F1 F2 st1 st2 L1 L2 E; try discriminate; [exact E|]. cbn [fold_left].
  apply Forall_cons_iff in F1, F2. destruct F1 as [A1 F1], F2 as [A2 F2].
  apply IH; auto; try (apply absorb_length; assumption). apply absorb_capacity; assumption.
Qed.

Lemma second_block b1 b2 b1' : length b1 = r -> length b2 = r -> length b1' = r ->
  exists b2', state r b2' /\ forall rest, absorb_all p r c (b1' ++ b2' ++ rest) = absorb_all p r c (b1 ++ b2 ++ rest).
Proof using Hord R Hlen Hlane.
  intros L1 L2 L1'. set (z := repeat 0 (r + c)). set (st := absorb p r z b1). set (st' := absorb p r z b1').
  assert (Lz : length z = (r + c)%nat) by apply repeat_length.
  assert (Ls : length st = (r + c)%nat) by (apply absorb_length; assumption). assert (Ls' : length st' = (r + c)%nat) by (apply absorb_length; assumption).
  assert (Lf : length (firstn r st) = length b2) by (rewrite firstn_length; lia). assert (Lf' : length (firstn r st') = length b2) by (rewrite firstn_length; lia).
  exists (compensate (firstn r st) b2 (firstn r st')). split; [apply compensate_state; assumption|]. intro rest.
  pose proof (compensate_length _ _ _ Lf Lf') as Lc. unfold absorb_all. rewrite !padded_blocks_app by (auto; lia). fold z. cbn [fold_left]. fold st st'. f_equal.
  unfold absorb. rewrite compensate_adds by assumption. do 2 f_equal. apply absorb_capacity; auto.
Qed.
End Lanes.

Section Reduction.
Context (Hcl : closed (r + c) p) (Hinj : injective_on (r + c) p).
Let bl b := state r b.

Lemma absorb_inj_pre st1 st2 b1 b2 : state (r + c) st1 -> state (r + c) st2 -> state r b1 -> state r b2 -> absorb p r st1 b1 = absorb p r st2 b2 ->
  skipn r st1 = skipn r st2 /\ (st1 = st2 -> b1 = b2).
Proof using Hord Hinj.
  clear R. intros [L1 F1] [L2 F2] [B1 G1] [B2 G2] E. unfold absorb in E.
  set (a1 := map _ (combine (firstn r st1) b1)) in E. set (a2 := map _ (combine (firstn r st2) b2)) in E.
  assert (La1 : length a1 = r) by (unfold a1; rewrite map_length, combine_length, firstn_length; lia).
  assert (La2 : length a2 = r) by (unfold a2; rewrite map_length, combine_length, firstn_length; lia).
  assert (S : forall st a, length st = (r + c)%nat -> Forall (fun x => 0 <= x < order) st -> length a = r -> Forall (fun x => 0 <= x < order) a -> state (r + c) (a ++ skipn r st)).
  { intros st a Ls Fs La Fa. split; [rewrite app_length, skipn_length; lia|]. apply Forall_app. split; [exact Fa|].
    rewrite <- (firstn_skipn r st) in Fs. apply Forall_app in Fs. apply Fs. }
  assert (Fa1 : Forall (fun x => 0 <= x < order) a1) by (apply Forall_map, Forall_forall; intros; apply Z.mod_pos_bound; lia).
  assert (Fa2 : Forall (fun x => 0 <= x < order) a2) by (apply Forall_map, Forall_forall; intros; apply Z.mod_pos_bound; lia).
  apply Hinj in E; [|apply S; assumption|apply S; assumption].
  assert (A : a1 = a2 /\ skipn r st1 = skipn r st2).
  { apply app_len_inj in E; [exact E|lia]. }
  destruct A as [A1 A2]. split; [exact A2|]. intros <-. clear E A2 La1 La2 Fa1 Fa2. unfold a1, a2 in A1. clear a1 a2.
  assert (Lf : length (firstn r st1) = length b1) by (rewrite firstn_length; lia). assert (Lb : length b1 = length b2) by lia. clear L1 L2 F1 F2 S B1 B2.
  revert b1 b2 G1 G2 A1 Lf Lb. generalize (firstn r st1). intro u. induction u as [|x u IH]; intros [|y1 b1] [|y2 b2] G1 G2 A1 Lf Lb; try discriminate; [reflexivity|].
  cbn [combine map fst snd] in A1. injection A1 as E A1. apply Forall_cons_iff in G1, G2. destruct G1 as [Y1 G1], G2 as [Y2 G2]. f_equal.
  - assert (K : (y1 - y2) mod order = 0).
    { replace (y1 - y2) with ((x + y1) - (x + y2)) by lia. rewrite Zminus_mod, E, Z.sub_diag. apply Z.mod_0_l. lia. }
    apply Z.mod_divide in K; [|lia]. destruct K as [k K]. assert (k = 0) by nia. lia.
  - apply IH; cbn in *; auto; lia.
Qed.

(** States after absorbing prefixes. *)
Lemma fold_state bs : Forall bl bs -> forall st, state (r + c) st -> state (r + c) (fold_left (absorb p r) bs st).
Proof using Hord Hcl.
  clear R. induction 1 as [|b bs [Lb Fb] _ IH]; intros st [L Fs]; [split; assumption|]. cbn [fold_left]. apply IH. unfold absorb. apply Hcl. split.
  - rewrite app_length, map_length, combine_length, firstn_length, skipn_length. lia.
  - apply Forall_app. split; [apply Forall_map, Forall_forall; intros; apply Z.mod_pos_bound; lia|].
    rewrite <- (firstn_skipn r st) in Fs. apply Forall_app in Fs. apply Fs.
Qed.

Lemma inner_collision st0 : state (r + c) st0 -> forall bs1 bs2, length bs1 = length bs2 -> Forall bl bs1 -> Forall bl bs2 ->
  fold_left (absorb p r) bs1 st0 = fold_left (absorb p r) bs2 st0 ->
  bs1 = bs2 \/ exists k, (0 < k < length bs1)%nat /\
    let s1 := fold_left (absorb p r) (firstn k bs1) st0 in let s2 := fold_left (absorb p r) (firstn k bs2) st0 in
    s1 <> s2 /\ skipn r s1 = skipn r s2.
Proof using Hord Hcl Hinj.
  clear R. intro S0. induction bs1 as [|b1 bs1 IH] using rev_ind; intros bs2 L F1 F2 E.
  - destruct bs2; [left; reflexivity|discriminate].
  - destruct bs2 as [|b2 bs2 _] using rev_ind; [rewrite app_length in L; cbn in L; lia|]. rewrite !app_length in L. cbn in L.
    apply Forall_app in F1, F2. destruct F1 as [F1 G1], F2 as [F2 G2]. apply Forall_cons_iff in G1, G2. destruct G1 as [G1 _], G2 as [G2 _].
    rewrite !fold_left_app in E. cbn [fold_left] in E.
    pose proof (fold_state bs1 F1 st0 S0) as T1. pose proof (fold_state bs2 F2 st0 S0) as T2.
    destruct (absorb_inj_pre _ _ _ _ T1 T2 G1 G2 E) as [K1 K2].
    destruct (list_eq_dec Z.eq_dec (fold_left (absorb p r) bs1 st0) (fold_left (absorb p r) bs2 st0)) as [Es|Es].
    + specialize (K2 Es). subst b2. destruct (IH bs2 ltac:(lia) F1 F2 Es) as [->|(k & Lk & N & K)]; [left; reflexivity|]. right. exists k.
      rewrite app_length. cbn [length]. split; [lia|]. rewrite !firstn_app. replace (k - length bs1)%nat with 0%nat by lia. replace (k - length bs2)%nat with 0%nat by lia.
      cbn [firstn]. rewrite !app_nil_r. auto.
    + right. exists (length bs1). rewrite app_length. cbn [length]. split.
      * split; [|lia]. destruct bs1 as [|x bs1]; [|cbn; lia]. destruct bs2 as [|y bs2]; [exfalso; apply Es; reflexivity|cbn in L; lia].
      * rewrite !firstn_app, Nat.sub_diag. replace (length bs1 - length bs2)%nat with 0%nat by lia. cbn [firstn]. rewrite !app_nil_r.
        rewrite firstn_all, (firstn_all2 bs2) by lia. auto.
Qed.
End Reduction.
End Collide.

Lemma padded_state {F : Field} (Hord : 2 <= order) r l : Forall (fun x => 0 <= x < order) l -> Forall (state r) (padded_blocks r l).
Proof.
  intro H. pose proof (blocks_fuel_lengths r (length l) l) as L. unfold padded_blocks. revert H L. generalize (length l) as f. intro f. revert l.
  induction f as [|f IH]; intros l H L; cbn [blocks_fuel]; [constructor|]. destruct l as [|x l]; [constructor|]. remember (x :: l) as m. cbn [blocks_fuel] in L.
  rewrite Heqm in L. rewrite <- Heqm in L. apply Forall_cons_iff in L. destruct L as [L1 L2].
  assert (S : Forall (fun x => 0 <= x < order) (firstn r m) /\ Forall (fun x => 0 <= x < order) (skipn r m)).
  { rewrite <- (firstn_skipn r m) in H. apply Forall_app in H. exact H. }
  destruct S as [S1 S2]. constructor; [|apply IH; assumption]. split; [exact L1|]. apply Forall_app. split; [exact S1|].
  apply Forall_forall. intros y Hy. apply repeat_spec in Hy. lia.
Qed.

(** ** C93 *)
(** For a permutation of the states, two inputs with as many blocks that lead to the same state have the same blocks, or on the way there are two different
    states that agree on the capacity. *)
Theorem C93_reduction : forall (F : Field), 2 <= order -> forall p r c, (0 < r)%nat -> closed (r + c) p -> injective_on (r + c) p ->
  forall l1 l2, Forall (fun x => 0 <= x < order) l1 -> Forall (fun x => 0 <= x < order) l2 ->
  let B1 := padded_blocks r l1 in let B2 := padded_blocks r l2 in length B1 = length B2 ->
  absorb_all p r c l1 = absorb_all p r c l2 ->
  B1 = B2 \/ exists k, (0 < k < length B1)%nat /\
    let s1 := fold_left (absorb p r) (firstn k B1) (repeat 0 (r + c)) in let s2 := fold_left (absorb p r) (firstn k B2) (repeat 0 (r + c)) in
    s1 <> s2 /\ skipn r s1 = skipn r s2.
Proof.
  intros F Hord p r c R Hcl Hinj l1 l2 H1 H2 B1 B2 L E.
  assert (S0 : state (r + c) (repeat 0 (r + c))).
  { split; [apply repeat_length|]. apply Forall_forall. intros x Hx. apply repeat_spec in Hx. lia. }
  apply (inner_collision Hord p r c Hcl Hinj _ S0 B1 B2 L (padded_state Hord r l1 H1) (padded_state Hord r l2 H2) E).
Qed.
Print Assumptions C93_reduction.

(** Poseidon and Rescue as implemented: the capacity after any number of blocks does not depend on the blocks at all ... *)
Theorem C93_capacity_constant : forall (F : Field) (f g : Z -> Z) full part rounds mds r c, length mds = (r + c)%nat ->
  forall p, p = poseidon_fun f full part mds \/ p = rescue_fun f g rounds mds ->
  forall l1 l2, length (padded_blocks r l1) = length (padded_blocks r l2) -> skipn r (absorb_all p r c l1) = skipn r (absorb_all p r c l2).
Proof.
  intros F f g full part rounds mds r c Lm p Hp l1 l2 L. unfold absorb_all. apply (fold_capacity p r c); auto.
  - intros l Ll. destruct Hp as [->| ->]; [rewrite poseidon_fun_length|rewrite rescue_fun_length]; lia.
  - intros i a b E. destruct Hp as [->| ->]; [apply poseidon_lane|apply rescue_lane]; exact E.
  - apply blocks_fuel_lengths.
  - apply blocks_fuel_lengths.
  - apply repeat_length.
  - apply repeat_length.
Qed.
Print Assumptions C93_capacity_constant.

(** ... so every input of two blocks or more has second preimages of the same length: one for every first block. *)
Theorem C93_second_preimage : forall (F : Field), 2 <= order -> forall (f g : Z -> Z) full part rounds mds r c, (0 < r)%nat -> length mds = (r + c)%nat ->
  forall p, p = poseidon_fun f full part mds \/ p = rescue_fun f g rounds mds ->
  forall b1 b2 b1', length b1 = r -> length b2 = r -> length b1' = r ->
  exists b2', length b2' = r /\ Forall (fun x => 0 <= x < order) b2' /\
    forall rest n, sponge_fun p r c (b1' ++ b2' ++ rest) n = sponge_fun p r c (b1 ++ b2 ++ rest) n.
Proof.
  intros F Hord f g full part rounds mds r c R Lm p Hp b1 b2 b1' L1 L2 L1'.
  destruct (second_block Hord p r c R) with (b1 := b1) (b2 := b2) (b1' := b1') as (b2' & [S1 S2] & E); auto.
  - intros l Ll. destruct Hp as [->| ->]; [rewrite poseidon_fun_length|rewrite rescue_fun_length]; lia.
  - intros i a b E. destruct Hp as [->| ->]; [apply poseidon_lane|apply rescue_lane]; exact E.
  - exists b2'. split; [exact S1|]. split; [exact S2|]. intros rest n. unfold sponge_fun. rewrite E. reflexivity.
Qed.
Print Assumptions C93_second_preimage.

Lemma input_wires {F : Field} (Hord : 2 <= order) vals : good_inputs vals ->
  on_inputs_all vals (map e_wire (seq 1 (length vals))) /\ map (ev (input_witness vals)) (map e_wire (seq 1 (length vals))) = vals.
Proof.
  intro Hv. split.
  - apply Forall_map, Forall_forall. intros k Hk. apply in_seq in Hk. apply over_wire. lia.
  - rewrite map_map. apply list_ext. intro i. rewrite nth_error_map. destruct (le_lt_dec (length vals) i) as [L|L].
    + rewrite (proj2 (nth_error_None _ _)) by (rewrite seq_length; exact L). symmetry. apply nth_error_None. exact L.
    + rewrite (nth_error_nth' (seq 1 (length vals)) 0%nat) by (rewrite seq_length; exact L). rewrite seq_nth by exact L. cbn [option_map Nat.add].
      rewrite (nth_error_nth' vals 0) by exact L. f_equal.
      assert (I : 0 <= nth i vals 0 < order) by (apply (proj1 (Forall_forall _ _) Hv), nth_In, L).
      rewrite (ev_wire Hord) by exact I. reflexivity.
Qed.

(** On the gadget: executing the Poseidon sponge on the two inputs gives the same outputs, any number of them. *)
Theorem C93_poseidon_collision : forall (F : Field), prime order -> 2 < order -> forall p r c, poseidon_ok p -> (0 < r)%nat -> (r + c = pos_width p)%nat ->
  forall b1 b2 rest b1', length b1 = r -> length b2 = r -> length b1' = r -> good_inputs (b1 ++ b2 ++ rest) -> good_inputs b1' ->
  exists b2', length b2' = r /\ good_inputs b2' /\ forall n, exists out,
    let call vals := sponge_evaluate (mkSponge (poseidon_mp p) r c) (map e_wire (seq 1 (length vals))) n in
    let outputs res v := omap (e_evaluate v) res = Ok out in
    runs (b1 ++ b2 ++ rest) (call (b1 ++ b2 ++ rest)) outputs /\ runs (b1' ++ b2' ++ rest) (call (b1' ++ b2' ++ rest)) outputs.
Proof.
  intros F Hp H2 p r c Hok R W b1 b2 rest b1' L1 L2 L1' G G1. pose proof (prime_ge2 Hp) as Hord.
  assert (Lm : length (pos_mds p) = (r + c)%nat) by (destruct Hok as (_ & Lm & _); lia).
  destruct (C93_second_preimage F Hord (sbox_fun (pos_sbox p)) (fun x => x) (pos_full p) (pos_partial p) 0 (pos_mds p) r c R Lm _ (or_introl eq_refl) b1 b2 b1' L1 L2 L1') as (b2' & L2' & G2 & E).
  exists b2'. split; [exact L2'|]. split; [exact G2|]. intro n. eexists. cbv zeta.
  assert (G' : good_inputs (b1' ++ b2' ++ rest)).
  { apply Forall_app in G. destruct G as [_ G]. apply Forall_app in G. apply Forall_app. split; [exact G1|]. apply Forall_app. split; [exact G2|apply G]. }
  destruct (input_wires Hord _ G) as [I1 V1]. destruct (input_wires Hord _ G') as [I2 V2].
  pose proof (C47_poseidon_runs F Hp H2 p r c _ _ n Hok R W G I1) as X1. pose proof (C47_poseidon_runs F Hp H2 p r c _ _ n Hok R W G' I2) as X2.
  unfold wv in *. rewrite V1 in X1. rewrite V2, E in X2. split; [exact X1|exact X2].
Qed.
Print Assumptions C93_poseidon_collision.

Theorem C93_rescue_collision : forall (F : Field), prime order -> forall q r c, 2 <= res_alpha q < order -> Z.gcd (order - 1) (res_alpha q) = 1 ->
  (0 < r)%nat -> length (res_mds q) = (r + c)%nat ->
  forall b1 b2 rest b1', length b1 = r -> length b2 = r -> length b1' = r -> good_inputs (b1 ++ b2 ++ rest) -> good_inputs b1' ->
  exists b2', length b2' = r /\ good_inputs b2' /\ forall n, exists out,
    let call vals := sponge_evaluate (mkSponge (rescue_mp q) r c) (map e_wire (seq 1 (length vals))) n in
    let outputs res v := omap (e_evaluate v) res = Ok out in
    runs (b1 ++ b2 ++ rest) (call (b1 ++ b2 ++ rest)) outputs /\ runs (b1' ++ b2' ++ rest) (call (b1' ++ b2' ++ rest)) outputs.
Proof.
  intros F Hp q r c Ha Hg R Lm b1 b2 rest b1' L1 L2 L1' G G1. pose proof (prime_ge2 Hp) as Hord.
  destruct (rescue_sboxes Hp q Ha Hg) as (g & _ & _ & _ & C3 & C4). set (f := fun a => (a ^ res_alpha q) mod order) in *.
  destruct (C93_second_preimage F Hord f g 0 0 (res_rounds q) (res_mds q) r c R Lm _ (or_intror eq_refl) b1 b2 b1' L1 L2 L1') as (b2' & L2' & G2 & E).
  exists b2'. split; [exact L2'|]. split; [exact G2|]. intro n. eexists. cbv zeta.
  assert (G' : good_inputs (b1' ++ b2' ++ rest)).
  { apply Forall_app in G. destruct G as [_ G]. apply Forall_app in G. apply Forall_app. split; [exact G1|]. apply Forall_app. split; [exact G2|apply G]. }
  assert (X : forall vals, good_inputs vals -> runs vals (sponge_evaluate (mkSponge (rescue_mp q) r c) (map e_wire (seq 1 (length vals))) n)
    (fun res v => omap (e_evaluate v) res = Ok (sponge_fun (rescue_fun f g (res_rounds q) (res_mds q)) r c vals n))).
  { intros vals Hv. destruct (input_wires Hord vals Hv) as [I V]. apply (to_runsl Hp); [exact Hv|]. 
    replace (sponge_fun (rescue_fun f g (res_rounds q) (res_mds q)) r c vals n) with
      (sponge_fun (rescue_fun f g (res_rounds q) (res_mds q)) r c (map (ev (input_witness vals)) (map e_wire (seq 1 (length vals)))) n) by (rewrite V; reflexivity).
    apply (cmpl_sponge Hp (mkSponge (rescue_mp q) r c)); cbn [bitrate capacity sp_perm rescue_mp mp_permute]; [|exact R| |apply hasl_input, I].
    - intros l L. rewrite rescue_fun_length; lia.
    - intros D P s xs l Lx Hl. apply (cmpl_rescue Hp); [exact C3|exact C4|exact Hl]. }
  split; [exact (X _ G)|]. rewrite <- E. exact (X _ G').
Qed.
Print Assumptions C93_rescue_collision.

Example C93_example : let F : Field := F97 in let p := mkPoseidon 3 2 3 Exponentiation5 [[2; 1; 1]; [1; 2; 1]; [1; 1; 3]] in
  let call := sponge_evaluate (mkSponge (poseidon_mp p) 2 1) (map e_wire (seq 1 5)) 4 in
  poseidon_ok p /\ match demo [1; 2; 3; 4; 5] call (fun r => r), demo [8; 9; 24; 69; 5] call (fun r => r) with Ok (true, o1), Ok (true, o2) => o1 = o2 | _, _ => False end.
Proof. split; [vm_compute; repeat split; auto with arith|vm_compute; reflexivity]. Qed.
