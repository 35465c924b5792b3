(** Proofs about the choice of Poseidon round numbers. *)
From Coq Require Import ZArith List Bool Arith Lia.
From Verif Require Import Base RoundsM.
Import ListNotations.
Open Scope Z_scope.

(** [n] is the least number of partial rounds that makes [full] full rounds secure. *)
Definition least_partial (att : attack) (full n : nat) : Prop :=
  att (mkRounds full n) = Ok false /\ forall p, (p < n)%nat -> att (mkRounds full p) = Ok true.

Lemma partial_loop_complete att full : forall d fuel p, least_partial att full (p + d) -> (d < fuel)%nat ->
  secure_partial_loop fuel att full p = Ok (p + d)%nat.
Proof.
  induction d as [|d IH]; intros fuel p [A B] Hf; destruct fuel as [|fuel]; try lia; cbn [secure_partial_loop].
  - rewrite Nat.add_0_r in A. rewrite A. cbn. f_equal. lia.
  - rewrite (B p) by lia. cbn [obind negb]. rewrite (IH fuel (p + 1)%nat).
    + f_equal. lia.
    + replace (p + 1 + d)%nat with (p + Datatypes.S d)%nat by lia. split; assumption.
    + lia.
Qed.
Lemma partial_loop_sound att full : forall fuel p n, (forall q, (q < p)%nat -> att (mkRounds full q) = Ok true) ->
  secure_partial_loop fuel att full p = Ok n -> least_partial att full n.
Proof.
  induction fuel as [|fuel IH]; intros p n B H; cbn [secure_partial_loop] in H; [discriminate|].
  destruct (att (mkRounds full p)) as [a| |] eqn:E; cbn [obind] in H; try discriminate. destruct a; cbn [negb] in H.
  - apply (IH (p + 1)%nat); [|exact H]. intros q Hq. destruct (Nat.eq_dec q p) as [->|]; [exact E|apply B; lia].
  - inversion H; subst. split; assumption.
Qed.
Lemma least_unique att full n n' : least_partial att full n -> least_partial att full n' -> n = n'.
Proof.
  intros [A B] [A' B']. destruct (Nat.lt_trichotomy n n') as [H|[H|H]]; [|exact H|]; exfalso.
  - rewrite (B' n H) in A. discriminate.
  - rewrite (B n' H) in A'. discriminate.
Qed.

(** The outer search. *)
Lemma rounds_loop_complete att width (least : nat -> nat) pfuel : (forall f, least_partial att f (least f)) ->
  forall d fuel full, (forall i, (i <= d)%nat -> (least (full + 2 * i + 2) < pfuel)%nat) ->
  (forall i, (i < d)%nat -> (num_sboxes width (mkRounds (full + 2 * i + 2) (least (full + 2 * i + 2))) <= num_sboxes width (mkRounds (full + 2 * i) (least (full + 2 * i))))%nat) ->
  (num_sboxes width (mkRounds (full + 2 * d) (least (full + 2 * d))) < num_sboxes width (mkRounds (full + 2 * d + 2) (least (full + 2 * d + 2))))%nat ->
  (d < fuel)%nat ->
  secure_num_rounds_loop fuel pfuel att width full (mkRounds full (least full)) (num_sboxes width (mkRounds full (least full)))
  = Ok (mkRounds (full + 2 * d) (least (full + 2 * d)%nat)).
Proof.
  intros HL d. induction d as [|d IH]; intros fuel full HP HI HS Hf; destruct fuel as [|fuel]; try lia; cbn [secure_num_rounds_loop].
  - unfold secure_partial_rounds_unpadded. specialize (HP 0%nat). rewrite !Nat.mul_0_r, !Nat.add_0_r in *.
    rewrite (partial_loop_complete att (full + 2) (least (full + 2)%nat) pfuel 0%nat) by (auto; apply HL). cbn [obind]. rewrite Nat.add_0_l.
    rewrite (proj2 (Nat.ltb_lt _ _) HS). reflexivity.
  - unfold secure_partial_rounds_unpadded. pose proof (HP 0%nat ltac:(lia)) as HP0. pose proof (HI 0%nat ltac:(lia)) as HI0.
    rewrite !Nat.mul_0_r, !Nat.add_0_r in *.
    rewrite (partial_loop_complete att (full + 2) (least (full + 2)%nat) pfuel 0%nat) by (auto; apply HL). cbn [obind]. rewrite Nat.add_0_l.
    rewrite (proj2 (Nat.ltb_ge _ _) HI0).
    assert (E : forall i, (full + 2 * Datatypes.S i = full + 2 + 2 * i)%nat) by (intro; lia).
    rewrite (IH fuel (full + 2)%nat).
    + rewrite E. reflexivity.
    + intros i Hi. rewrite <- E. apply HP. lia.
    + intros i Hi. rewrite <- E. apply HI. lia.
    + rewrite <- E. exact HS.
    + lia.
Qed.
Lemma rounds_loop_sound att width pfuel : forall fuel full p r, least_partial att full p ->
  secure_num_rounds_loop fuel pfuel att width full (mkRounds full p) (num_sboxes width (mkRounds full p)) = Ok r ->
  exists d, r_full r = (full + 2 * d)%nat /\ least_partial att (r_full r) (r_partial r) /\
    (forall i q, (i <= d)%nat -> least_partial att (full + 2 * i) q -> (num_sboxes width r <= num_sboxes width (mkRounds (full + 2 * i) q))%nat) /\
    exists q, least_partial att (r_full r + 2) q /\ (num_sboxes width r < num_sboxes width (mkRounds (r_full r + 2) q))%nat.
Proof.
  induction fuel as [|fuel IH]; intros full p r HL H; cbn [secure_num_rounds_loop] in H; [discriminate|].
  unfold secure_partial_rounds_unpadded in H.
  destruct (secure_partial_loop pfuel att (full + 2) 0) as [q| |] eqn:E; cbn [obind] in H; try discriminate.
  apply partial_loop_sound in E; [|lia].
  destruct (Nat.ltb_spec (num_sboxes width (mkRounds full p)) (num_sboxes width (mkRounds (full + 2) q))) as [C|C].
  - inversion H; subst. exists 0%nat. cbn [r_full r_partial]. rewrite Nat.mul_0_r, Nat.add_0_r. split; [reflexivity|]. split; [exact HL|]. split.
    + intros i q' Hi Hq. assert (i = 0)%nat by lia. subst i. rewrite Nat.mul_0_r, Nat.add_0_r in *. rewrite (least_unique _ _ _ _ Hq HL). lia.
    + exists q. auto.
  - destruct (IH _ _ _ E H) as (d & D1 & D2 & D3 & D4). exists (Datatypes.S d). split; [lia|]. split; [exact D2|]. split; [|exact D4].
    intros [|i] q' Hi Hq.
    + rewrite Nat.mul_0_r, Nat.add_0_r in *. rewrite (least_unique _ _ _ _ Hq HL).
      specialize (D3 0%nat q ltac:(lia)). rewrite Nat.mul_0_r, Nat.add_0_r in D3. specialize (D3 E). lia.
    + replace (full + 2 * Datatypes.S i)%nat with (full + 2 + 2 * i)%nat in * by lia. apply D3; [lia|exact Hq].
Qed.

(** The exponentiation S-boxes. *)
Section Exponentiation.
Variables (t1 t2a t2b : Z) (width : nat).
Hypothesis Hw : (1 <= width)%nat.
Let att := is_attackable_exponentiation t1 t2a t2b width.
Let W := Z.of_nat width.

Lemma att_exp f p : att (mkRounds f p) =
  Ok ((Z.of_nat (f + p) <=? t1) || (Z.of_nat (f + p) <=? t2a) || ((W - 1) * Z.of_nat f + Z.of_nat p <=? t2b)).
Proof using Hw.
  unfold att, is_attackable_exponentiation, osub. cbn [r_full r_partial]. rewrite (proj2 (Nat.leb_le _ _) Hw). cbn [obind].
  replace (Z.of_nat ((width - 1) * f + p)) with ((W - 1) * Z.of_nat f + Z.of_nat p) by (unfold W; nia). reflexivity.
Qed.
Lemma secure_exp f p : att (mkRounds f p) = Ok false <->
  t1 < Z.of_nat (f + p) /\ t2a < Z.of_nat (f + p) /\ t2b < (W - 1) * Z.of_nat f + Z.of_nat p.
Proof using Hw.
  rewrite att_exp. split.
  - intro H. inversion H as [E]. apply orb_false_iff in E. destruct E as [E E3]. apply orb_false_iff in E. destruct E as [E1 E2].
    apply Z.leb_gt in E1, E2, E3. lia.
  - intros (A & B & C). rewrite (proj2 (Z.leb_gt _ _) A), (proj2 (Z.leb_gt _ _) B), (proj2 (Z.leb_gt _ _) C). reflexivity.
Qed.
Definition least_exp (f : nat) : nat :=
  Z.to_nat (Z.max (Z.max (t1 + 1 - Z.of_nat f) (t2a + 1 - Z.of_nat f)) (t2b + 1 - (W - 1) * Z.of_nat f)).
Lemma least_exp_spec f : least_partial att f (least_exp f).
Proof using Hw.
  split.
  - apply secure_exp. unfold least_exp. lia.
  - intros p Hp. destruct (att (mkRounds f p)) as [[]| |] eqn:E; try reflexivity; [|rewrite att_exp in E; discriminate..].
    exfalso. apply secure_exp in E. unfold least_exp in Hp. lia.
Qed.
Lemma sboxes_exp f : Z.of_nat (num_sboxes width (mkRounds f (least_exp f))) =
  Z.max (W * Z.of_nat f) (Z.max ((W - 1) * Z.of_nat f + 1 + Z.max t1 t2a) (Z.of_nat f + 1 + t2b)).
Proof using Hw. unfold num_sboxes, least_exp, W in *. cbn [r_full r_partial]. nia. Qed.
End Exponentiation.

(** The inverse S-box. *)
Lemma square_below_power n : (1 <= n)%nat -> Z.of_nat n ^ 2 <= 4 ^ (Z.of_nat n - 1).
Proof.
  intro H. induction n as [|n IH]; [lia|]. destruct n as [|n]; [cbn; lia|]. specialize (IH ltac:(lia)). 
  replace (Z.of_nat (S (S n)) - 1) with (Z.succ (Z.of_nat (S n) - 1)) by lia. rewrite Z.pow_succ_r by lia. replace (Z.of_nat (S (S n))) with (Z.of_nat (S n) + 1) by lia.
  set (a := Z.of_nat (S n)) in *. assert (1 <= a) by (unfold a; lia). nia.
Qed.
Section Inverse.
Variables (m width : nat).
Hypothesis Hw : (1 <= width)%nat.
Let att := is_attackable_inverse_exact m width.
Let W := Z.of_nat width.

Lemma att_inv f p : att (mkRounds f p) =
  Ok ((W ^ (2 * Z.of_nat f) * 4 ^ Z.of_nat p <=? 2 * W ^ 2 * 4 ^ Z.of_nat m) || ((W - 1) * Z.of_nat f + Z.of_nat p <=? Z.of_nat m / 4 - 1)).
Proof using Hw.
  unfold att, is_attackable_inverse_exact, is_attackable_inverse, inverse_inequality_1, osub. cbn [r_full r_partial]. rewrite (proj2 (Nat.leb_le _ _) Hw). cbn [obind].
  replace (Z.of_nat ((width - 1) * f + p)) with ((W - 1) * Z.of_nat f + Z.of_nat p) by (unfold W; nia). reflexivity.
Qed.
Lemma secure_inv f p : att (mkRounds f p) = Ok false <->
  2 * W ^ 2 * 4 ^ Z.of_nat m < W ^ (2 * Z.of_nat f) * 4 ^ Z.of_nat p /\ Z.of_nat m / 4 - 1 < (W - 1) * Z.of_nat f + Z.of_nat p.
Proof using Hw.
  rewrite att_inv. split.
  - intro H. inversion H as [E]. apply orb_false_iff in E. destruct E as [E1 E2]. apply Z.leb_gt in E1, E2. auto.
  - intros [A B]. rewrite (proj2 (Z.leb_gt _ _) A), (proj2 (Z.leb_gt _ _) B). reflexivity.
Qed.
Lemma inv_enough f p : (1 <= f)%nat -> (m < p)%nat -> att (mkRounds f p) = Ok false.
Proof using Hw.
  intros Hf Hp. apply secure_inv. assert (HW : 1 <= W) by (unfold W; lia). split.
  - assert (A : W ^ 2 <= W ^ (2 * Z.of_nat f)) by (apply Z.pow_le_mono_r; lia). assert (B : 4 ^ Z.succ (Z.of_nat m) <= 4 ^ Z.of_nat p) by (apply Z.pow_le_mono_r; lia).
    rewrite Z.pow_succ_r in B by lia. assert (0 < 4 ^ Z.of_nat m) by (apply Z.pow_pos_nonneg; lia). assert (0 < W ^ 2) by (apply Z.pow_pos_nonneg; lia). nia.
  - assert (Z.of_nat m / 4 <= Z.of_nat m) by (apply Z.div_le_upper_bound; lia). nia.
Qed.
(** the least secure number of partial rounds, searched from [p] on *)
Fixpoint find_inv (n p f : nat) : nat :=
  match n with O => p | S n => match att (mkRounds f p) with Ok false => p | _ => find_inv n (p + 1) f end end.
Definition least_inv (f : nat) : nat := find_inv (S m) 0 f.
Lemma find_inv_spec f : (1 <= f)%nat -> forall n p, (m < p + n)%nat -> (forall q, (q < p)%nat -> att (mkRounds f q) = Ok true) ->
  least_partial att f (find_inv n p f) /\ (find_inv n p f <= Nat.max p (S m))%nat.
Proof using Hw.
  intro Hf. induction n as [|n IH]; intros p L B; cbn [find_inv].
  - split; [split; [apply inv_enough; lia|exact B]|lia].
  - destruct (att (mkRounds f p)) as [[]| |] eqn:E; [| |rewrite att_inv in E; discriminate..].
    + assert (p <= m)%nat by (destruct (Nat.le_gt_cases p m) as [|G]; [assumption|rewrite (inv_enough f p Hf G) in E; discriminate]).
      destruct (IH (p + 1)%nat) as [I1 I2]; [lia| |split; [exact I1|lia]]. intros q Hq. destruct (Nat.eq_dec q p) as [->|]; [exact E|apply B; lia].
    + split; [split; [exact E|exact B]|lia].
Qed.
Lemma least_inv_spec f : (1 <= f)%nat -> least_partial att f (least_inv f) /\ (least_inv f <= S m)%nat.
Proof using Hw. intro Hf. destruct (find_inv_spec f Hf (S m) 0) as [A B]; [lia|lia|]. split; [exact A|unfold least_inv; lia]. Qed.
Lemma sboxes_inv f : (1 <= f)%nat -> (num_sboxes width (mkRounds f (least_inv f)) < num_sboxes width (mkRounds (f + 2) (least_inv (f + 2))))%nat.
Proof using Hw.
  intro Hf. unfold num_sboxes. cbn [r_full r_partial]. destruct (least_inv_spec f Hf) as [[_ M] _]. destruct (least_inv_spec (f + 2) ltac:(lia)) as [[S2 _] _].
  set (p2 := least_inv (f + 2)) in *. set (q := (p2 + 2 * (width - 1))%nat).
  assert (Q : att (mkRounds f q) = Ok false).
  { apply secure_inv in S2. destruct S2 as [A B]. apply secure_inv. assert (HW : 1 <= W) by (unfold W; lia). split.
    - eapply Z.lt_le_trans; [exact A|]. unfold q. rewrite !Nat2Z.inj_add, Nat2Z.inj_mul, Nat2Z.inj_sub by lia. fold W. change (Z.of_nat 2) with 2. change (Z.of_nat 1) with 1.
      replace (2 * (Z.of_nat f + 2)) with (2 * Z.of_nat f + 4) by lia. rewrite !Z.pow_add_r by lia.
      pose proof (square_below_power width Hw) as K. fold W in K.
      assert (K4 : W ^ 4 <= 4 ^ (2 * (W - 1))). { replace (W ^ 4) with (W ^ 2 * W ^ 2) by ring. replace (2 * (W - 1)) with ((W - 1) + (W - 1)) by lia. rewrite Z.pow_add_r by lia. apply Z.mul_le_mono_nonneg; nia. }
      assert (0 < W ^ (2 * Z.of_nat f)) by (apply Z.pow_pos_nonneg; lia). assert (0 < 4 ^ Z.of_nat p2) by (apply Z.pow_pos_nonneg; lia).
      rewrite <- Z.mul_assoc. apply Z.mul_le_mono_nonneg_l; [lia|]. rewrite Z.mul_comm. apply Z.mul_le_mono_nonneg_l; lia.
    - unfold q. rewrite !Nat2Z.inj_add, Nat2Z.inj_mul, Nat2Z.inj_sub by lia. fold W. rewrite Nat2Z.inj_add in B. lia. }
  destruct (Nat.le_gt_cases (least_inv f) q) as [L|L]; [unfold q in L; nia|]. rewrite (M q L) in Q. discriminate.
Qed.
End Inverse.

(** Rounding. *)
Lemma round53_spec P : 0 < P -> let e := Z.max 0 (Z.log2 P - 52) in
  exists q, f64_round53 P = q * 2 ^ e /\ 2 * Z.abs (f64_round53 P - P) <= 2 ^ e /\ (e = 0 -> f64_round53 P = P).
Proof.
  intros HP e. unfold f64_round53. subst e. destruct (Z.leb_spec (Z.log2 P - 52) 0) as [H|H].
  - rewrite Z.max_l by lia. exists P. rewrite Z.pow_0_r. lia.
  - rewrite Z.max_r by lia. set (e := Z.log2 P - 52) in *. assert (E2 : 2 ^ e = 2 * 2 ^ (e - 1)) by (rewrite <- Z.pow_succ_r by lia; f_equal; lia).
    assert (Hpos : 0 < 2 ^ (e - 1)) by (apply Z.pow_pos_nonneg; lia).
    pose proof (Z.div_mod P (2 ^ e) ltac:(lia)) as D. pose proof (Z.mod_pos_bound P (2 ^ e) ltac:(lia)) as B.
    set (q := P / 2 ^ e) in *. set (r := P mod 2 ^ e) in *.
    destruct (Z.ltb_spec (2 ^ (e - 1)) r) as [C|C]; cbn [orb].
    + exists (q + 1). split; [reflexivity|]. split; [nia|lia].
    + destruct ((r =? 2 ^ (e - 1)) && Z.odd q) eqn:T.
      * apply andb_true_iff in T. destruct T as [T _]. apply Z.eqb_eq in T. exists (q + 1). split; [reflexivity|]. split; [nia|lia].
      * exists q. split; [reflexivity|]. split; [nia|lia].
Qed.

Lemma pad_exact n : Z.of_nat n < 2 ^ 46 -> Z.of_nat (pad_partial n) = (43 * Z.of_nat n + 20) / 40.
Proof.
  intro Hn. unfold pad_partial. set (N := Z.of_nat n) in *. assert (0 <= N) by lia.
  destruct (Z.eq_dec N 0) as [->|N0]; [reflexivity|].
  set (P := N * 4841369599423283). assert (HP : 0 < P) by lia.
  destruct (round53_spec P HP) as (q & Q & A & _). set (e := Z.max 0 (Z.log2 P - 52)) in *.
  assert (He : 0 <= e <= 46).
  { subst e. split; [lia|]. apply Z.max_lub; [lia|]. assert (Z.log2 P < 99); [|lia]. apply Z.log2_lt_pow2; [exact HP|].
    unfold P. assert (2 ^ 99 = 2 ^ 46 * 2 ^ 53) by reflexivity. assert (4841369599423283 < 2 ^ 53) by reflexivity. nia. }
  assert (G0 : 0 < 2 ^ e) by (apply Z.pow_pos_nonneg; lia).
  assert (G1 : 2 ^ e <= 2 ^ 46) by (apply Z.pow_le_mono_r; lia).
  assert (G2 : P < 2 ^ e * 2 ^ 53).
  { rewrite <- Z.pow_add_r by lia. eapply Z.lt_le_trans; [apply Z.log2_spec, HP|]. apply Z.pow_le_mono_r; [lia|]. subst e. lia. }
  assert (G3 : exists c, 2 ^ 51 = c * 2 ^ e).
  { exists (2 ^ (51 - e)). rewrite <- Z.pow_add_r by lia. f_equal. lia. }
  destruct G3 as [c Hc]. set (g := 2 ^ e) in *. set (R := f64_round53 P) in *.
  change (2 ^ 46) with 70368744177664 in *. change (2 ^ 53) with 9007199254740992 in *. change (2 ^ 52) with 4503599627370496. change (2 ^ 51) with 2251799813685248 in *.
  pose proof (Z.div_mod (43 * N + 20) 40 ltac:(lia)) as D. pose proof (Z.mod_pos_bound (43 * N + 20) 40 ltac:(lia)) as B.
  set (k := (43 * N + 20) / 40) in *. set (rr := (43 * N + 20) mod 40) in *.
  assert (LO : (2 * k - 1) * 2251799813685248 <= R).
  { destruct (Z_le_gt_dec ((2 * k - 1) * 2251799813685248) R) as [L|L]; [exact L|exfalso].
    assert (R <= (2 * k - 1) * 2251799813685248 - g).
    { rewrite Q, Hc in *. assert (q < (2 * k - 1) * c) by nia. nia. }
    unfold P in *. lia. }
  assert (HI : R < (2 * k + 1) * 2251799813685248) by (unfold P in *; lia).
  assert (K : (R + 2251799813685248) / 4503599627370496 = k).
  { symmetry. apply (Z.div_unique _ _ _ (R + 2251799813685248 - 4503599627370496 * k)); lia. }
  rewrite K. apply Z2Nat.id. subst k. apply Z.div_pos; lia.
Qed.
