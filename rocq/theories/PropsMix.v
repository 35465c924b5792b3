(** C75: Poseidon and Rescue as permutations of the state. *)
From Coq Require Import ZArith List Bool Arith Lia Znumtheory.
From Verif Require Import Base FieldM FieldP ExprM BuilderM CryptoM Spec SpecCrypto SpecCurve ExprP MonoP LocalP SoundP HonestP CompleteP CryptoP MatrixP
  EdwardsP PropLib Demo PropsCrypto.
Import ListNotations.
Open Scope Z_scope.

Section Mix.
Context {F : Field}.
Definition state (n : nat) (l : list Z) : Prop := length l = n /\ Forall (fun x => 0 <= x < order) l.
Definition injective_on (n : nat) (G : list Z -> list Z) : Prop := forall a b, state n a -> state n b -> G a = G b -> a = b.
Definition onto (n : nat) (G : list Z -> list Z) : Prop := forall b, state n b -> exists a, state n a /\ G a = b.
Definition closed (n : nat) (G : list Z -> list Z) : Prop := forall a, state n a -> state n (G a).
(** [f] permutes the field. *)
Definition permutes (f : Z -> Z) : Prop :=
  (forall a, 0 <= a < order -> 0 <= f a < order) /\
  (forall a b, 0 <= a < order -> 0 <= b < order -> f a = f b -> a = b) /\
  (forall b, 0 <= b < order -> exists a, 0 <= a < order /\ f a = b).
Definition rows_usable (mds : list (list Z)) : Prop := Forall (fun row => row_sum row mod order <> 0) mds.

Lemma state_cons n x l : state (S n) (x :: l) <-> 0 <= x < order /\ state n l.
Proof. unfold state. cbn [length]. rewrite Forall_cons_iff. split; intros (A & B); intuition lia. Qed.
Lemma state_S n l : state (S n) l -> exists x t, l = x :: t /\ 0 <= x < order /\ state n t.
Proof. destruct l as [|x t]; intro H; [destruct H; discriminate|]. apply state_cons in H. eauto. Qed.
Lemma state_0 l : state 0 l -> l = [].
Proof. intros [L _]. destruct l; [reflexivity|discriminate]. Qed.

Lemma map_closed f n : (forall a, 0 <= a < order -> 0 <= f a < order) -> closed n (map f).
Proof. intros Hf l [L R]. split; [rewrite map_length; exact L|]. rewrite Forall_map. eapply Forall_impl; [|exact R]. auto. Qed.
Lemma map_inj f : permutes f -> forall n, injective_on n (map f).
Proof.
  intros (_ & I & _) n. induction n as [|n IH]; intros a b Ha Hb E; [rewrite (state_0 _ Ha), (state_0 _ Hb); reflexivity|].
  apply state_S in Ha, Hb. destruct Ha as (x & s & -> & Hx & Hs), Hb as (y & t & -> & Hy & Ht). cbn [map] in E. injection E as E1 E2.
  f_equal; [apply I; assumption|apply IH; assumption].
Qed.
Lemma map_onto f : permutes f -> forall n, onto n (map f).
Proof.
  intros (_ & _ & O) n. induction n as [|n IH]; intros b Hb; [exists []; rewrite (state_0 _ Hb); repeat split; constructor|].
  apply state_S in Hb. destruct Hb as (y & t & -> & Hy & Ht). destruct (O y Hy) as (x & Hx & E), (IH t Ht) as (s & Hs & E').
  exists (x :: s). split; [apply state_cons; auto|]. cbn [map]. rewrite E, E'. reflexivity.
Qed.
Lemma first_closed f n : (forall a, 0 <= a < order -> 0 <= f a < order) -> closed n (on_first f).
Proof. intros Hf [|x l] H; [exact H|]. destruct n; [destruct H; discriminate|]. cbn [on_first]. rewrite state_cons in *. intuition auto; apply Hf; lia. Qed.
Lemma first_inj f : permutes f -> forall n, injective_on n (on_first f).
Proof.
  intros (_ & I & _) [|n] a b Ha Hb E; [rewrite (state_0 _ Ha), (state_0 _ Hb); reflexivity|].
  apply state_S in Ha, Hb. destruct Ha as (x & s & -> & Hx & Hs), Hb as (y & t & -> & Hy & Ht). cbn [on_first] in E. injection E as E1 E2.
  subst t. f_equal. apply I; assumption.
Qed.
Lemma first_onto f : permutes f -> forall n, onto n (on_first f).
Proof.
  intros (_ & _ & O) [|n] b Hb; [exists []; rewrite (state_0 _ Hb); repeat split; constructor|].
  apply state_S in Hb. destruct Hb as (y & t & -> & Hy & Ht). destruct (O y Hy) as (x & Hx & E).
  exists (x :: t). split; [apply state_cons; auto|]. cbn [on_first]. rewrite E. reflexivity.
Qed.

Section Prime.
Context (Hp : prime order).
Let Hord : 2 <= order := prime_ge2 Hp.

Lemma scale_closed mds : closed (length mds) (row_scale mds).
Proof using Hp.
  intros l [L R]. split; [rewrite row_scale_length; lia|]. unfold row_scale. rewrite Forall_map. apply Forall_forall. intros x _. apply Z.mod_pos_bound. lia.
Qed.
Lemma cancel_r a b c : 0 <= a < order -> 0 <= b < order -> c mod order <> 0 -> (a * c) mod order = (b * c) mod order -> a = b.
Proof using Hp.
  intros Ha Hb Hc E. apply feqm_eq; try assumption. apply (feqm_cancel Hp c); [|unfold feqm; rewrite (Z.mul_comm c a), (Z.mul_comm c b); exact E].
  unfold feqm. rewrite Z.mod_0_l by lia. exact Hc.
Qed.
Lemma scale_inj mds : rows_usable mds -> injective_on (length mds) (row_scale mds).
Proof using Hp.
  induction 1 as [|row mds Hr H IH]; intros a b Ha Hb E; [rewrite (state_0 _ Ha), (state_0 _ Hb); reflexivity|].
  apply state_S in Ha, Hb. destruct Ha as (x & s & -> & Hx & Hs), Hb as (y & t & -> & Hy & Ht). unfold row_scale in E. cbn [combine map fst snd] in E.
  injection E as E1 E2. f_equal; [exact (cancel_r x y _ Hx Hy Hr E1)|apply IH; assumption].
Qed.
Lemma scale_onto mds : rows_usable mds -> onto (length mds) (row_scale mds).
Proof using Hp.
  induction 1 as [|row mds Hr H IH]; intros b Hb; [exists []; rewrite (state_0 _ Hb); repeat split; constructor|].
  apply state_S in Hb. destruct Hb as (y & t & -> & Hy & Ht). destruct (IH t Ht) as (s & Hs & E).
  set (c := row_sum row mod order) in *. assert (Ic : infield c) by (apply Z.mod_pos_bound; lia). pose proof (finvv_correct Hp c Ic Hr) as V. unfold fmul in V.
  exists ((y * finvv c) mod order :: s). split.
  - apply state_cons. split; [apply Z.mod_pos_bound; lia|exact Hs].
  - unfold row_scale. cbn [combine map fst snd]. f_equal; [|exact E]. rewrite Zmult_mod_idemp_l, <- Zmult_mod_idemp_r. fold c.
    rewrite <- Z.mul_assoc, (Z.mul_comm (finvv c)), <- Zmult_mod_idemp_r, V, Z.mul_1_r. apply Z.mod_small, Hy.
Qed.

Lemma comp_inj n G H : closed n G -> injective_on n G -> injective_on n H -> injective_on n (fun l => H (G l)).
Proof using. intros C I J a b Ha Hb E. apply I; auto. Qed.
Lemma comp_onto n G H : onto n G -> onto n H -> onto n (fun l => H (G l)).
Proof using. intros I J b Hb. destruct (J b Hb) as (m & Hm & <-), (I m Hm) as (a & Ha & <-). eauto. Qed.
Lemma comp_closed n G H : closed n G -> closed n H -> closed n (fun l => H (G l)).
Proof using. intros I J a Ha. auto. Qed.
Lemma fold_closed (G : nat -> list Z -> list Z) n rs : (forall r, closed n (G r)) -> closed n (fold_left (fun c r => G r c) rs).
Proof using. intro C. induction rs as [|r rs IH]; intros a Ha; cbn [fold_left]; [exact Ha|]. apply IH, C, Ha. Qed.
Lemma fold_inj (G : nat -> list Z -> list Z) n rs : (forall r, closed n (G r)) -> (forall r, injective_on n (G r)) -> injective_on n (fold_left (fun c r => G r c) rs).
Proof using. intros C I. induction rs as [|r rs IH]; intros a b Ha Hb E; cbn [fold_left] in E; [exact E|]. apply (I r); auto. apply IH; auto. all: apply C; auto. Qed.
Lemma fold_onto (G : nat -> list Z -> list Z) n rs : (forall r, onto n (G r)) -> onto n (fold_left (fun c r => G r c) rs).
Proof using.
  intros O. induction rs as [|r rs IH]; intros b Hb; cbn [fold_left]; [eauto|]. destruct (IH b Hb) as (m & Hm & E), (O r m Hm) as (a & Ha & E').
  exists a. split; [exact Ha|]. rewrite E'. exact E.
Qed.

Definition pround f full part mds (r : nat) (cur : list Z) := row_scale mds (if full_round full part r then map f cur else on_first f cur).
Definition rround f g mds (r : nat) (cur : list Z) := row_scale mds (map g (row_scale mds (map f cur))).

Lemma pround_closed f full part mds r : permutes f -> closed (length mds) (pround f full part mds r).
Proof using Hp. intros (C & _) a Ha. apply scale_closed. destruct (full_round full part r); [apply map_closed|apply first_closed]; assumption. Qed.
Lemma rround_closed f g mds r : permutes f -> permutes g -> closed (length mds) (rround f g mds r).
Proof using Hp. intros (C & _) (C' & _) a Ha. apply scale_closed, map_closed, scale_closed, map_closed; assumption. Qed.

Lemma pround_inj f full part mds r : permutes f -> rows_usable mds -> injective_on (length mds) (pround f full part mds r).
Proof using Hp.
  intros P U a b Ha Hb E. unfold pround in E. pose proof (proj1 P) as C. destruct (full_round full part r).
  - apply scale_inj in E; [|exact U|apply map_closed; assumption|apply map_closed; assumption]. eapply map_inj; eauto.
  - apply scale_inj in E; [|exact U|apply first_closed; assumption|apply first_closed; assumption]. eapply first_inj; eauto.
Qed.
Lemma rround_inj f g mds r : permutes f -> permutes g -> rows_usable mds -> injective_on (length mds) (rround f g mds r).
Proof using Hp.
  intros P P' U. unfold rround. pose proof (proj1 P) as C. pose proof (proj1 P') as C'.
  apply comp_inj with (G := fun cur => map g (row_scale mds (map f cur))); [|apply comp_inj with (G := fun cur => row_scale mds (map f cur))|apply scale_inj, U].
  - intros a Ha. apply map_closed, scale_closed, map_closed; assumption.
  - intros a Ha. apply scale_closed, map_closed; assumption.
  - apply comp_inj with (G := map f); [apply map_closed; assumption|apply map_inj; assumption|apply scale_inj, U].
  - apply map_inj; assumption.
Qed.
Lemma pround_onto f full part mds r : permutes f -> rows_usable mds -> onto (length mds) (pround f full part mds r).
Proof using Hp.
  intros P U. unfold pround. destruct (full_round full part r).
  - apply comp_onto with (G := map f); [apply map_onto, P|apply scale_onto, U].
  - apply comp_onto with (G := on_first f); [apply first_onto, P|apply scale_onto, U].
Qed.
Lemma rround_onto f g mds r : permutes f -> permutes g -> rows_usable mds -> onto (length mds) (rround f g mds r).
Proof using Hp.
  intros P P' U. unfold rround.
  apply comp_onto with (G := fun cur => map g (row_scale mds (map f cur))); [|apply scale_onto, U].
  apply comp_onto with (G := fun cur => row_scale mds (map f cur)); [|apply map_onto, P'].
  apply comp_onto with (G := map f); [apply map_onto, P|apply scale_onto, U].
Qed.

(** When a row sums to 0, two states that differ in that lane only are merged by one round. *)
Definition only (n i : nat) (v : Z) : list Z := map (fun j => if (j =? i)%nat then v else 0) (seq 0 n).
Lemma only_state n i v : 0 <= v < order -> state n (only n i v).
Proof using Hp.
  intro Hv. split; [unfold only; rewrite map_length, seq_length; reflexivity|]. unfold only. rewrite Forall_map. apply Forall_forall. intros j _.
  destruct (j =? i)%nat; lia.
Qed.
Lemma only_nth n i v j : nth_error (only n i v) j = if (j <? n)%nat then Some (if (j =? i)%nat then v else 0) else None.
Proof using.
  unfold only. rewrite nth_error_map. destruct (Nat.ltb_spec j n).
  - rewrite nth_error_nth' with (d := 0%nat) by (rewrite seq_length; lia). rewrite seq_nth by lia. reflexivity.
  - replace (nth_error (seq 0 n) j) with (@None nat); [reflexivity|]. symmetry. apply nth_error_None. rewrite seq_length. lia.
Qed.
Lemma only_differ n i : (i < n)%nat -> only n i 0 <> only n i 1.
Proof using. intros L E. apply (f_equal (fun l => nth_error l i)) in E. rewrite !only_nth, Nat.eqb_refl in E. destruct (Nat.ltb_spec i n); [discriminate|lia]. Qed.
Lemma nth_error_ext {A} : forall (l1 l2 : list A), (forall j, nth_error l1 j = nth_error l2 j) -> l1 = l2.
Proof using.
  induction l1 as [|x l1 IH]; intros [|y l2] H; [reflexivity|specialize (H O); discriminate|specialize (H O); discriminate|].
  pose proof (H O) as E. cbn in E. injection E as ->. f_equal. apply IH. intro j. apply (H (S j)).
Qed.
Lemma scale_zero_row mds i row l1 l2 : nth_error mds i = Some row -> row_sum row mod order = 0 -> length l1 = length l2 ->
  (forall j, j <> i -> nth_error l1 j = nth_error l2 j) -> row_scale mds l1 = row_scale mds l2.
Proof using Hp.
  intros Hi Z0 L E. apply nth_error_ext. intro j. rewrite !row_scale_nth. destruct (Nat.eq_dec j i) as [->|N]; [|rewrite (E j N); reflexivity].
  rewrite Hi. assert (V : forall a, (a * row_sum row) mod order = 0) by (intro a; rewrite <- Zmult_mod_idemp_r, Z0, Z.mul_0_r; apply Z.mod_0_l; lia).
  destruct (nth_error l1 i) eqn:E1, (nth_error l2 i) eqn:E2; rewrite ?V; try reflexivity; exfalso;
    [assert (i < length l1)%nat by (apply nth_error_Some; congruence); apply nth_error_None in E2|assert (i < length l2)%nat by (apply nth_error_Some; congruence); apply nth_error_None in E1]; lia.
Qed.
Lemma only_other n i u v j : j <> i -> nth_error (only n i u) j = nth_error (only n i v) j.
Proof using. intro N. rewrite !only_nth. destruct (Nat.eqb_spec j i); [contradiction|reflexivity]. Qed.
Lemma not_usable (mds : list (list Z)) : ~ rows_usable mds -> exists (i : nat) (row : list Z), nth_error mds i = Some row /\ row_sum row mod order = 0.
Proof using.
  unfold rows_usable. induction mds as [|row mds IH]; intro H; [exfalso; apply H; constructor|].
  destruct (Z.eq_dec (row_sum row mod order) 0) as [E|E]; [exists 0%nat, row; auto|].
  destruct IH as (i & r & Hi & Hr); [intro C; apply H; constructor; assumption|]. exists (S i), r. auto.
Qed.
Lemma usable_dec mds : {rows_usable mds} + {~ rows_usable mds}.
Proof using. apply Forall_dec. intro row. destruct (Z.eq_dec (row_sum row mod order) 0); [right|left]; auto. Qed.
Lemma map_others (f : Z -> Z) (l1 l2 : list Z) i : (forall j, j <> i -> nth_error l1 j = nth_error l2 j) -> forall j, j <> i -> nth_error (map f l1) j = nth_error (map f l2) j.
Proof using. intros H j N. rewrite !nth_error_map, (H j N). reflexivity. Qed.
Lemma first_others (f : Z -> Z) (l1 l2 : list Z) i : (forall j, j <> i -> nth_error l1 j = nth_error l2 j) -> forall j, j <> i -> nth_error (on_first f l1) j = nth_error (on_first f l2) j.
Proof using.
  intros H j N. specialize (H j N). destruct j as [|j]; destruct l1 as [|x l1], l2 as [|y l2]; cbn [on_first nth_error] in *; try congruence.
Qed.

Lemma pround_merges f full part mds r i row l1 l2 : nth_error mds i = Some row -> row_sum row mod order = 0 -> length l1 = length l2 ->
  (forall j, j <> i -> nth_error l1 j = nth_error l2 j) -> pround f full part mds r l1 = pround f full part mds r l2.
Proof using Hp.
  intros Hi Z0 L E. unfold pround. apply (scale_zero_row mds i row); [exact Hi|exact Z0| |].
  - destruct (full_round full part r); rewrite ?map_length, ?on_first_length; exact L.
  - destruct (full_round full part r); [apply map_others|apply first_others]; exact E.
Qed.
Lemma rround_merges f g mds r i row l1 l2 : nth_error mds i = Some row -> row_sum row mod order = 0 -> length l1 = length l2 ->
  (forall j, j <> i -> nth_error l1 j = nth_error l2 j) -> rround f g mds r l1 = rround f g mds r l2.
Proof using Hp.
  intros Hi Z0 L E. unfold rround. do 2 f_equal. apply (scale_zero_row mds i row); [exact Hi|exact Z0|rewrite !map_length; exact L|]. apply map_others, E.
Qed.
End Prime.
End Mix.

(** The functions the two gadgets compute (C49_poseidon_value, C49_rescue_value) permute the states exactly when no row of the matrix sums
    to 0; there is at least one round. *)
Theorem C75_poseidon_permutation_iff : forall (F : Field), prime order -> forall f full part mds, permutes f -> (0 < full + part)%nat ->
  let n := length mds in let G := poseidon_fun f full part mds in
  closed n G /\ (injective_on n G <-> rows_usable mds) /\ (onto n G <-> rows_usable mds).
Proof.
  intros F Hp f full part mds P R n G.
  assert (EG : forall l, G l = fold_left (fun c r => pround f full part mds r c) (seq 0 (full + part)) l) by reflexivity.
  split; [|split; split].
  - intros a Ha. rewrite EG. apply fold_closed; [|exact Ha]. intro r. apply (pround_closed Hp), P.
  - intro I. destruct (usable_dec mds) as [U|U]; [exact U|exfalso]. apply not_usable in U. destruct U as (i & row & Hi & Z0).
    assert (Li : (i < n)%nat) by (apply nth_error_Some; congruence).
    pose proof (prime_ge2 Hp) as H2. apply (only_differ n i Li), I; [apply (only_state Hp); lia|apply (only_state Hp); lia|].
    rewrite (EG (only n i 0)), (EG (only n i 1)). replace (full + part)%nat with (S (full + part - 1)) by lia. cbn [seq fold_left]. f_equal.
    apply (pround_merges Hp) with (i := i) (row := row); auto.
    + rewrite (proj1 (only_state Hp n i 0 ltac:(lia))), (proj1 (only_state Hp n i 1 ltac:(lia))). reflexivity.
    + intros j N. apply only_other, N.
  - intros U a b Ha Hb E. rewrite (EG a), (EG b) in E. revert E. apply fold_inj with (n := n); auto.
    + intro r. apply (pround_closed Hp), P.
    + intro r. apply (pround_inj Hp); assumption.
  - intro O. destruct (usable_dec mds) as [U|U]; [exact U|exfalso]. apply not_usable in U. destruct U as (i & row & Hi & Z0).
    assert (Li : (i < n)%nat) by (apply nth_error_Some; congruence). pose proof (prime_ge2 Hp) as H2.
    destruct (O (only n i 1) ltac:(apply (only_state Hp); lia)) as (a & Ha & E). rewrite EG in E.
    replace (full + part)%nat with (S (full + part - 1)) in E by lia. rewrite seq_S, fold_left_app in E. cbn [fold_left] in E.
    unfold pround at 1 in E. apply (f_equal (fun l => nth_error l i)) in E. rewrite row_scale_nth, Hi, only_nth, Nat.eqb_refl in E.
    destruct (Nat.ltb_spec i n); [|lia]. match type of E with context [nth_error ?l i] => destruct (nth_error l i) as [v|] end; [|discriminate E]. apply (f_equal (fun o => match o with Some z => z | None => 0 end)) in E. cbv beta iota in E.
    rewrite <- Zmult_mod_idemp_r, Z0, Z.mul_0_r, Z.mod_0_l in E by lia. discriminate.
  - intros U b Hb. destruct (fold_onto (pround f full part mds) n (seq 0 (full + part)) (fun r => pround_onto Hp f full part mds r P U) b Hb) as (a & Ha & E). eauto.
Qed.
Print Assumptions C75_poseidon_permutation_iff.

Theorem C75_rescue_permutation_iff : forall (F : Field), prime order -> forall f g rounds mds, permutes f -> permutes g -> (0 < rounds)%nat ->
  let n := length mds in let G := rescue_fun f g rounds mds in
  closed n G /\ (injective_on n G <-> rows_usable mds) /\ (onto n G <-> rows_usable mds).
Proof.
  intros F Hp f g rounds mds P P' R n G.
  assert (EG : forall l, G l = fold_left (fun c r => rround f g mds r c) (seq 0 rounds) l) by reflexivity.
  split; [|split; split].
  - intros a Ha. rewrite EG. apply fold_closed; [|exact Ha]. intro r. apply (rround_closed Hp); assumption.
  - intro I. destruct (usable_dec mds) as [U|U]; [exact U|exfalso]. apply not_usable in U. destruct U as (i & row & Hi & Z0).
    assert (Li : (i < n)%nat) by (apply nth_error_Some; congruence).
    pose proof (prime_ge2 Hp) as H2. apply (only_differ n i Li), I; [apply (only_state Hp); lia|apply (only_state Hp); lia|].
    rewrite (EG (only n i 0)), (EG (only n i 1)). replace rounds with (S (rounds - 1)) by lia. cbn [seq fold_left]. f_equal.
    apply (rround_merges Hp) with (i := i) (row := row); auto.
    + rewrite (proj1 (only_state Hp n i 0 ltac:(lia))), (proj1 (only_state Hp n i 1 ltac:(lia))). reflexivity.
    + intros j N. apply only_other, N.
  - intros U a b Ha Hb E. rewrite (EG a), (EG b) in E. revert E. apply fold_inj with (n := n); auto.
    + intro r. apply (rround_closed Hp); assumption.
    + intro r. apply (rround_inj Hp); assumption.
  - intro O. destruct (usable_dec mds) as [U|U]; [exact U|exfalso]. apply not_usable in U. destruct U as (i & row & Hi & Z0).
    assert (Li : (i < n)%nat) by (apply nth_error_Some; congruence). pose proof (prime_ge2 Hp) as H2.
    destruct (O (only n i 1) ltac:(apply (only_state Hp); lia)) as (a & Ha & E). rewrite EG in E.
    replace rounds with (S (rounds - 1)) in E by lia. rewrite seq_S, fold_left_app in E. cbn [fold_left] in E.
    unfold rround at 1 in E. apply (f_equal (fun l => nth_error l i)) in E. rewrite row_scale_nth, Hi, only_nth, Nat.eqb_refl in E.
    destruct (Nat.ltb_spec i n); [|lia]. match type of E with context [nth_error ?l i] => destruct (nth_error l i) as [v|] end; [|discriminate E]. apply (f_equal (fun o => match o with Some z => z | None => 0 end)) in E. cbv beta iota in E.
    rewrite <- Zmult_mod_idemp_r, Z0, Z.mul_0_r, Z.mod_0_l in E by lia. discriminate.
  - intros U b Hb. destruct (fold_onto (rround f g mds) n (seq 0 rounds) (fun r => rround_onto Hp f g mds r P P' U) b Hb) as (a & Ha & E). eauto.
Qed.
Print Assumptions C75_rescue_permutation_iff.

(** The S-boxes permute the field. *)
Lemma power_permutes {F : Field} : prime order -> forall n, 2 <= n < order -> Z.gcd (order - 1) n = 1 ->
  permutes (fun a => (a ^ n) mod order) /\ exists g, permutes g /\ forall a, 0 <= a < order -> (g a ^ n) mod order = a /\ g ((a ^ n) mod order) = a.
Proof.
  intros Hp n Hn Hg. pose proof (prime_ge2 Hp) as H2. destruct (monomial_is_permutation Hp n Hn Hg) as (g & _ & _ & _ & _ & G).
  assert (K : forall a, 0 <= a < order -> 0 <= (a ^ n) mod order < order) by (intros; apply Z.mod_pos_bound; lia).
  assert (G' : forall a, 0 <= a < order -> 0 <= g a < order /\ (g a ^ n) mod order = a /\ g ((a ^ n) mod order) = a) by (intros a Ha; destruct (G a Ha) as (_ & A & B & C); auto).
  split.
  - split; [exact K|]. split.
    + intros a b Ha Hb E. rewrite <- (proj2 (proj2 (G' a Ha))), <- (proj2 (proj2 (G' b Hb))), E. reflexivity.
    + intros b Hb. exists (g b). split; [apply G', Hb|]. apply (G' b Hb).
  - exists g. split; [|intros a Ha; apply (G' a Ha)]. split; [intros a Ha; apply (G' a Ha)|]. split.
    + intros a b Ha Hb E. rewrite <- (proj1 (proj2 (G' a Ha))), <- (proj1 (proj2 (G' b Hb))), E. reflexivity.
    + intros b Hb. exists ((b ^ n) mod order). split; [apply K, Hb|]. apply (G' b Hb).
Qed.
Theorem C75_sboxes : forall (F : Field), prime order -> 2 < order -> forall sb, sbox_available sb -> permutes (sbox_fun sb).
Proof.
  intros F Hp H2 sb A. destruct sb; cbn [sbox_available sbox_fun] in *.
  - exact (proj1 (power_permutes Hp 3 ltac:(lia) (proj2 A))).
  - exact (proj1 (power_permutes Hp 5 ltac:(lia) (proj2 A))).
  - assert (V : forall a, 0 <= a < order -> 0 <= finvv a < order) by (intros a _; apply (finvv_infield Hp a); lia).
    assert (W : forall a, 0 <= a < order -> finvv (finvv a) = a).
    { intros a Ha. destruct (Z.eq_dec a 0) as [->|N]; [reflexivity|]. pose proof (finvv_correct Hp a Ha N) as E1. unfold fmul in E1.
      assert (N' : finvv a <> 0). { intro C. rewrite C, Z.mul_0_r, Z.mod_0_l in E1 by lia. discriminate. }
      pose proof (finvv_correct Hp (finvv a) (V a Ha) N') as E2. unfold fmul in E2.
      apply feqm_eq; [apply V, V, Ha|exact Ha|]. apply (feqm_cancel Hp (finvv a)); [|unfold feqm; rewrite E2, Z.mul_comm, E1; reflexivity].
      intro C. apply N'. apply (feqm_eq (finvv a) 0 (V a Ha) (infield_0 (prime_ge2 Hp)) C). }
    change (permutes finvv). split; [exact V|]. split.
    + intros a b Ha Hb E. rewrite <- (W a Ha), <- (W b Hb), E. reflexivity.
    + intros b Hb. exists (finvv b). auto.
Qed.
Print Assumptions C75_sboxes.

(** In any two satisfying assignments: equal outputs of the gadget come from equal inputs. *)
Theorem C75_poseidon_binding : forall (F : Field), prime order -> 2 < order -> forall p xs b out b' w1 w2,
  pos_sbox p <> Inverse -> sbox_available (pos_sbox p) -> rows_usable (pos_mds p) -> (0 < pos_full p + pos_partial p)%nat -> length xs = length (pos_mds p) ->
  poseidon_permute p xs b = Ok (out, b') -> wf_witness w1 -> wf_witness w2 -> sat w1 b' -> sat w2 b' ->
  (map (ev w1) out = map (ev w2) out <-> map (ev w1) xs = map (ev w2) xs).
Proof.
  intros F Hp H2 p xs b out b' w1 w2 NI A U R L E W1 W2 S1 S2.
  pose proof (C49_poseidon_value F Hp p xs NI b out b' w1 E W1 S1) as E1. pose proof (C49_poseidon_value F Hp p xs NI b out b' w2 E W2 S2) as E2.
  cbv beta in E1, E2. rewrite E1, E2. split; [|congruence].
  destruct (C75_poseidon_permutation_iff F Hp (sbox_fun (pos_sbox p)) (pos_full p) (pos_partial p) (pos_mds p) (C75_sboxes F Hp H2 _ A) R) as (_ & [_ I] & _).
  apply I; [exact U| |]; (split; [rewrite map_length; exact L|]); rewrite Forall_map; apply Forall_forall; intros x _; apply (ev_field Hp).
Qed.
Print Assumptions C75_poseidon_binding.

Theorem C75_rescue_binding : forall (F : Field), prime order -> forall q xs b out b' w1 w2,
  2 <= res_alpha q < order -> Z.gcd (order - 1) (res_alpha q) = 1 -> rows_usable (res_mds q) -> (0 < res_rounds q)%nat -> length xs = length (res_mds q) ->
  rescue_permute q xs b = Ok (out, b') -> wf_witness w1 -> wf_witness w2 -> sat w1 b' -> sat w2 b' ->
  (map (ev w1) out = map (ev w2) out <-> map (ev w1) xs = map (ev w2) xs).
Proof.
  intros F Hp q xs b out b' w1 w2 Ha Hg U R L E W1 W2 S1 S2. destruct (C49_rescue_value F Hp q Ha Hg) as (g & G & V & _).
  pose proof (V xs b out b' w1 E W1 S1) as E1. pose proof (V xs b out b' w2 E W2 S2) as E2. cbv beta in E1, E2. rewrite E1, E2. split; [|congruence].
  destruct (power_permutes Hp (res_alpha q) Ha Hg) as (P & _).
  assert (P' : permutes g).
  { split; [intros a Ia; apply (G a Ia)|]. split.
    - intros x y Hx Hy EQ. rewrite <- (proj2 (G x Hx)), <- (proj2 (G y Hy)), EQ. reflexivity.
    - intros y Hy. exists ((y ^ res_alpha q) mod order). assert (K : 0 <= (y ^ res_alpha q) mod order < order) by (apply Z.mod_pos_bound; lia).
      split; [exact K|]. apply (proj1 (proj2 P)); [apply (G _ K)|exact Hy|]. apply (G _ K). }
  destruct (C75_rescue_permutation_iff F Hp _ g (res_rounds q) (res_mds q) P P' R) as (_ & [_ I] & _).
  apply I; [exact U| |]; (split; [rewrite map_length; exact L|]); rewrite Forall_map; apply Forall_forall; intros x _; apply (ev_field Hp).
Qed.
Print Assumptions C75_rescue_binding.

(** An MDS matrix is not enough (full statement, false: the gadget is a permutation for every MDS matrix): all minors of
    [[1, -1], [1, 1]] are non-zero, but the first lane is lost. *)
Theorem C75_mds_not_enough_refuted : forall (F : Field), prime order -> 2 < order -> forall f full part, permutes f -> (0 < full + part)%nat ->
  let mds := [[1; order - 1]; [1; 1]] in
  (Forall (Forall (fun x => x mod order <> 0)) mds /\ (1 * 1 - (order - 1) * 1) mod order <> 0) /\
  ~ injective_on 2 (poseidon_fun f full part mds).
Proof.
  intros F Hp H2 f full part P R mds. split; [split|].
  - repeat constructor; rewrite Z.mod_small; lia.
  - replace (1 * 1 - (order - 1) * 1) with (2 + -1 * order) by lia. rewrite Z.mod_add, Z.mod_small by lia. lia.
  - intro I. apply (proj1 (proj2 (C75_poseidon_permutation_iff F Hp f full part mds P R))) in I. inversion I as [|r l H _ E]. subst. apply H.
    cbn [row_sum fold_right]. replace (1 + (order - 1 + 0)) with (1 * order) by lia. apply Z.mod_mul. lia.
Qed.
Print Assumptions C75_mds_not_enough_refuted.

Example C75_example : let F : Field := F97 in
  rows_usable [[2; 1; 1]; [1; 2; 1]; [1; 1; 3]] /\ sbox_available Exponentiation5 /\
  poseidon_fun (sbox_fun Exponentiation5) 2 3 [[1; 96]; [1; 1]] [4; 9] = poseidon_fun (sbox_fun Exponentiation5) 2 3 [[1; 96]; [1; 1]] [77; 9].
Proof. intro F. split; [|split]; [repeat constructor; vm_compute; discriminate|split; reflexivity|vm_compute; reflexivity]. Qed.
