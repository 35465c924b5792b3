(** C95: rounding errors in the double precision logarithms do not change the numbers of rounds of MiMC and Poseidon. *)
From Coq Require Import ZArith List Bool Arith Lia Znumtheory.
From Verif Require Import Base FieldM FieldP CryptoM RoundsM Demo PropsRounds PropsDefaults.
Import ListNotations.
Open Scope Z_scope.

(** A computed number is a fraction with the denominator [s]; [small s e] says that [e / s] is at most 2^-30.  The relative
    error of one operation on doubles is at most 2^-53. *)
Definition small (s e : Z) : Prop := 0 < s /\ 0 <= e /\ 2 ^ 30 * e <= s.

(** [a / s] differs from the logarithm of [N] to the base [d] by at most [e / s]. *)
Definition near_log (d N a s e : Z) : Prop := d ^ (a - e) <= N ^ s <= d ^ (a + e).

Lemma near_low d N a s e p q : 1 < d -> 1 <= N -> 0 < s -> 0 < q -> 0 <= p -> near_log d N a s e -> d ^ p <= N ^ q -> p * s <= (a + e) * q.
Proof.
  intros Hd HN Hs Hq Hp [_ H2] H. assert (A : 0 <= a + e).
  { destruct (Z_lt_le_dec (a + e) 0) as [C|C]; [|exact C]. rewrite (Z.pow_neg_r d (a + e) C) in H2. pose proof (Z.pow_pos_nonneg N s ltac:(lia) ltac:(lia)). lia. }
  apply (proj2 (Z.pow_le_mono_r_iff d (p * s) ((a + e) * q) Hd ltac:(nia))). rewrite (Z.pow_mul_r d p s), (Z.pow_mul_r d (a + e) q) by lia.
  apply Z.le_trans with ((N ^ q) ^ s).
  - apply Z.pow_le_mono_l. split; [|exact H]. apply Z.pow_nonneg; lia.
  - rewrite <- Z.pow_mul_r by lia. rewrite (Z.mul_comm q s), Z.pow_mul_r by lia. apply Z.pow_le_mono_l. split; [|exact H2]. apply Z.pow_nonneg; lia.
Qed.
Lemma near_high d N a s e p q : 1 < d -> 1 <= N -> 0 < s -> 0 < q -> 0 <= p -> near_log d N a s e -> N ^ q <= d ^ p -> (a - e) * q <= p * s.
Proof.
  intros Hd HN Hs Hq Hp [H1 _] H. destruct (Z_lt_le_dec (a - e) 0) as [C|C]; [nia|].
  apply (proj2 (Z.pow_le_mono_r_iff d ((a - e) * q) (p * s) Hd ltac:(nia))). rewrite (Z.pow_mul_r d p s), (Z.pow_mul_r d (a - e) q) by lia.
  apply Z.le_trans with ((N ^ s) ^ q).
  - apply Z.pow_le_mono_l. split; [|exact H1]. apply Z.pow_nonneg; lia.
  - rewrite <- Z.pow_mul_r by lia. rewrite (Z.mul_comm s q), Z.pow_mul_r by lia. apply Z.pow_le_mono_l. split; [|exact H]. apply Z.pow_nonneg; lia.
Qed.
Lemma near_mono d N lo : 0 <= lo <= N -> forall p q, 0 <= q -> d ^ p <= lo ^ q -> d ^ p <= N ^ q.
Proof. intros L p q Hq H. apply Z.le_trans with (lo ^ q); [exact H|]. apply Z.pow_le_mono_l. exact L. Qed.
Lemma near_mono' d N hi : 0 <= N <= hi -> forall p q, 0 <= q -> hi ^ q <= d ^ p -> N ^ q <= d ^ p.
Proof. intros L p q Hq H. apply Z.le_trans with (hi ^ q); [|exact H]. apply Z.pow_le_mono_l. exact L. Qed.

(** Approximations of every precision exist. *)
Lemma near_exists d N s : 1 < d -> 1 <= N -> 0 <= s -> exists a, near_log d N a s 1.
Proof.
  intros Hd HN Hs. assert (H : forall k : nat, forall X, 1 <= X < d ^ Z.of_nat k -> exists a, 0 <= a /\ d ^ a <= X < d ^ (a + 1)).
  { induction k as [|k IH]; intros X HX; [change (d ^ Z.of_nat 0) with 1 in HX; lia|].
    destruct (Z_lt_le_dec X (d ^ Z.of_nat k)) as [C|C]; [apply IH; lia|]. exists (Z.of_nat k). rewrite Nat2Z.inj_succ in HX. unfold Z.succ in HX. lia. }
  assert (X1 : 1 <= N ^ s) by (pose proof (Z.pow_pos_nonneg N s ltac:(lia) Hs); lia).
  destruct (H (Z.to_nat (N ^ s)) (N ^ s)) as (a & A0 & A).
  { rewrite Z2Nat.id by lia. split; [exact X1|]. apply Z.pow_gt_lin_r; lia. }
  exists a. split; [|lia]. apply Z.le_trans with (d ^ a); [apply Z.pow_le_mono_r; lia|lia].
Qed.

(** ** The rounds of MiMC *)
(** [a / b] is a possible value of [n as f64 / 3f64.log2()]: [l / s] approximates log2 3, and the product of quotient and divisor
    differs from [n] by the factor 1 + 2^-30 at most. *)
Definition mimc_quotient (n a b : Z) : Prop :=
  0 < b /\ exists l s e, small s e /\ near_log 2 3 l s e /\ 2 ^ 30 * Z.abs (a * l - n * s * b) <= n * s * b.

Definition mimc_ok (n : Z) : bool :=
  let c := n * 665 / 1054 + 1 in
  (n * (2 ^ 30 + 1) * 665 <=? c * (1054 * 2 ^ 30 - 665)) && ((c - 1) * (1539 * 2 ^ 30 + 971) <? n * (2 ^ 30 - 1) * 971).
Fixpoint mimc_ok_upto (k : nat) : bool := match k with O => true | S k' => mimc_ok (Z.of_nat k) && mimc_ok_upto k' end.
Lemma mimc_ok_1053 : mimc_ok_upto 1053 = true.
Proof. vm_compute. reflexivity. Qed.
Lemma mimc_ok_spec k : mimc_ok_upto k = true -> forall n, 1 <= n <= Z.of_nat k -> mimc_ok n = true.
Proof.
  induction k as [|k IH]; intros H n Hn; [lia|]. cbn [mimc_ok_upto] in H. apply andb_prop in H. destruct H as [H1 H2].
  destruct (Z.eq_dec n (Z.of_nat (S k))) as [->|D]; [exact H1|]. apply IH; [exact H2|lia].
Qed.

Lemma log3_low : 2 ^ 1054 <= 3 ^ 665. Proof. vm_compute. discriminate. Qed.
Lemma log3_high : 3 ^ 971 <= 2 ^ 1539. Proof. vm_compute. discriminate. Qed.

(** The smallest integer that is at least the quotient is the number of rounds of the model, however the logarithm and the division
    are rounded, for fields of up to 1053 bits. *)
Theorem C95_mimc : forall (F : Field), 2 <= order -> (max_bits <= 1053)%nat -> forall a b, mimc_quotient (Z.of_nat max_bits) a b ->
  (Z.of_nat mimc_recommended_rounds - 1) * b < a <= Z.of_nat mimc_recommended_rounds * b.
Proof.
  intros F H2 Hn a b (Hb & l & s & e & (Hs & He & Hse) & L & Q). set (n := Z.of_nat max_bits) in *.
  destruct (C79_rounds F H2) as [R1 R2]. fold n in R1, R2.
  assert (N1 : 1 <= n).
  { unfold n. assert (max_bits <> 0)%nat; [|lia]. unfold max_bits, el_bits, largest_element, zbits. destruct (order - 1 <=? 0) eqn:Z0; [apply Z.leb_le in Z0; lia|]. lia. }
  pose proof (mimc_ok_spec 1053 mimc_ok_1053 n ltac:(lia)) as C. unfold mimc_ok in C. set (c := n * 665 / 1054 + 1) in *.
  apply andb_prop in C. destruct C as [C1 C2]. apply Z.leb_le in C1. apply Z.ltb_lt in C2.
  assert (C0 : 1 <= c) by (unfold c; pose proof (Z.div_pos (n * 665) 1054 ltac:(lia) ltac:(lia)); lia).
  assert (E : Z.of_nat mimc_recommended_rounds = c).
  { assert (U : (mimc_recommended_rounds <= Z.to_nat c)%nat).
    { apply R2. rewrite Z2Nat.id by lia.
      apply (Z.pow_le_mono_l_iff (2 ^ n) (3 ^ c) 1054); [apply Z.pow_nonneg; lia|apply Z.pow_nonneg; lia|lia|].
      rewrite <- !Z.pow_mul_r by lia. rewrite (Z.mul_comm n 1054), Z.pow_mul_r by lia.
      apply Z.le_trans with ((3 ^ 665) ^ n); [apply Z.pow_le_mono_l; split; [apply Z.pow_nonneg; lia|exact log3_low]|].
      rewrite <- Z.pow_mul_r by lia. apply Z.pow_le_mono_r; lia. }
    assert (V : c - 1 < Z.of_nat mimc_recommended_rounds).
    { set (r := Z.of_nat mimc_recommended_rounds) in *. assert (R0 : 0 <= r) by (unfold r; lia).
      assert (W : 971 * n <= 1539 * r).
      { apply (proj2 (Z.pow_le_mono_r_iff 2 (971 * n) (1539 * r) ltac:(lia) ltac:(lia))).
        rewrite (Z.mul_comm 971 n), Z.pow_mul_r by lia. apply Z.le_trans with ((3 ^ r) ^ 971).
        - apply Z.pow_le_mono_l. split; [apply Z.pow_nonneg; lia|exact R1].
        - rewrite <- Z.pow_mul_r by lia. rewrite (Z.mul_comm r 971), Z.pow_mul_r by lia. rewrite (Z.pow_mul_r 2 1539 r) by lia.
          apply Z.pow_le_mono_l. split; [apply Z.pow_nonneg; lia|exact log3_high]. }
      lia. }
    lia. }
  rewrite E. clear E R1 R2.
  pose proof (near_low 2 3 l s e 1054 665 ltac:(lia) ltac:(lia) Hs ltac:(lia) ltac:(lia) L log3_low) as L1.
  pose proof (near_high 2 3 l s e 1539 971 ltac:(lia) ltac:(lia) Hs ltac:(lia) ltac:(lia) L log3_high) as L2.
  clear L. clearbody c n. set (m := n * s * b) in *. assert (l0 : 0 < l) by lia.
  assert (B1 : 0 < s * b) by nia. assert (Qa : 2 ^ 30 * (a * l) <= (2 ^ 30 + 1) * m /\ (2 ^ 30 - 1) * m <= 2 ^ 30 * (a * l)) by lia. destruct Qa as [Q1 Q2].
  assert (K1 : 2 ^ 30 * 665 * l >= (1054 * 2 ^ 30 - 665) * s) by lia.
  assert (K2 : 2 ^ 30 * 971 * l <= (1539 * 2 ^ 30 + 971) * s) by lia. split.
  - apply (Z.mul_lt_mono_pos_r (2 ^ 30 * 971 * l)); [lia|].
    apply Z.le_lt_trans with ((c - 1) * b * ((1539 * 2 ^ 30 + 971) * s)); [apply Z.mul_le_mono_nonneg_l; nia|].
    apply Z.lt_le_trans with (n * (2 ^ 30 - 1) * 971 * (s * b)); [|unfold m in *; nia].
    replace ((c - 1) * b * ((1539 * 2 ^ 30 + 971) * s)) with ((c - 1) * (1539 * 2 ^ 30 + 971) * (s * b)) by ring. apply Z.mul_lt_mono_pos_r; [exact B1|exact C2].
  - apply (Z.mul_le_mono_pos_r _ _ (2 ^ 30 * 665 * l)); [lia|].
    apply Z.le_trans with (n * (2 ^ 30 + 1) * 665 * (s * b)); [unfold m in *; nia|].
    apply Z.le_trans with (c * (1054 * 2 ^ 30 - 665) * (s * b)); [apply Z.mul_le_mono_nonneg_r; [lia|exact C1]|].
    replace (c * (1054 * 2 ^ 30 - 665) * (s * b)) with (c * b * ((1054 * 2 ^ 30 - 665) * s)) by ring. apply Z.mul_le_mono_nonneg_l; nia.
Qed.
Print Assumptions C95_mimc.

(** The order of BN128 has 254 bits; quotients as above exist, and any of them is rounded up to 161. *)
Example C95_mimc_example : (exists a b, mimc_quotient 254 a b) /\ forall a b, mimc_quotient 254 a b -> 160 * b < a <= 161 * b.
Proof.
  split.
  - destruct (near_exists 2 3 (2 ^ 30) ltac:(lia) ltac:(lia) ltac:(lia)) as (l & L).
    pose proof (near_low 2 3 l (2 ^ 30) 1 1054 665 ltac:(lia) ltac:(lia) ltac:(lia) ltac:(lia) ltac:(lia) L log3_low) as L1.
    exists (254 * 2 ^ 30), l. split; [lia|]. exists l, (2 ^ 30), 1. split; [unfold small; lia|split; [exact L|]].
    replace (254 * 2 ^ 30 * l - 254 * 2 ^ 30 * l) with 0 by lia. cbn [Z.abs]. lia.
  - intros a b Q. assert (E : @max_bits Bn128 = 254%nat) by (vm_compute; reflexivity). assert (R : @mimc_recommended_rounds Bn128 = 161%nat) by (vm_compute; reflexivity).
    pose proof (C95_mimc Bn128 ltac:(vm_compute; discriminate) ltac:(rewrite E; lia) a b) as H. rewrite E, R in H. apply H. exact Q.
Qed.

(** ** The rounds of Poseidon at its default security level *)
(** Possible integer parts of the right hand sides of the three inequalities in is_attackable_exponentiation_[d] for min{n, M} = 128 and
    [w] lanes: [l / s] approximates log_[d] 2, [m / s] approximates log2 [w]; the constants are hundredths. *)
Definition thresholds (d c2a c2b w t1 t2a t2b : Z) : Prop := exists s e l m x y z, small s e /\
  near_log d 2 l s e /\ near_log 2 w m s e /\ Z.abs (x - (128 * l + m)) <= e /\ t1 = x / s /\
  Z.abs (100 * y - c2a * 128 * s) <= 100 * e /\ t2a = y / s /\
  Z.abs (100 * z - (c2b * 128 - 100) * s) <= 100 * e /\ t2b = z / s.
Definition thresholds_3 := thresholds 3 32 18.
Definition thresholds_5 := thresholds 5 21 14.

Lemma log_3_2 : 3 ^ 200 <= 2 ^ 317 /\ 2 ^ 84 <= 3 ^ 53. Proof. vm_compute. split; discriminate. Qed.
Lemma log_5_2 : 5 ^ 59 <= 2 ^ 137 /\ 2 ^ 202 <= 5 ^ 87. Proof. vm_compute. split; discriminate. Qed.

Lemma floor_is x s t : 0 < s -> t * s <= x -> x < (t + 1) * s -> x / s = t.
Proof. intros Hs H1 H2. symmetry. apply (Z.div_unique_pos x s t (x - t * s)); lia. Qed.

Lemma rest_small c2a c2b s e y z : small s e -> 0 <= c2a <= 32 -> 0 <= c2b <= 18 ->
  Z.abs (100 * y - c2a * 128 * s) <= 100 * e -> Z.abs (100 * z - (c2b * 128 - 100) * s) <= 100 * e -> y / s < 41 /\ z / s < 23.
Proof. intros (Hs & He & H) A B Y Z. split; apply Z.div_lt_upper_bound; nia. Qed.

Ltac seg w lo hi p1 q1 p2 q2 L H1 H2 Hs :=
  let A := fresh in let B := fresh in
  pose proof (near_low 2 w _ _ _ p1 q1 ltac:(lia) ltac:(lia) Hs ltac:(lia) ltac:(lia) L (near_mono 2 w lo ltac:(lia) p1 q1 ltac:(lia) ltac:(vm_compute; discriminate))) as A;
  pose proof (near_high 2 w _ _ _ p2 q2 ltac:(lia) ltac:(lia) Hs ltac:(lia) ltac:(lia) L (near_mono' 2 w hi ltac:(lia) p2 q2 ltac:(lia) ltac:(vm_compute; discriminate))) as B;
  clear L; apply floor_is; [exact Hs|lia|lia].

(** The integer part of the first right hand side. *)
Definition floor_3 (w : Z) : Z := if w <=? 2 then 81 else if w <=? 4 then 82 else if w <=? 9 then 83 else if w <=? 18 then 84 else if w <=? 37 then 85 else 86.
Definition floor_5 (w : Z) : Z := if w <=? 3 then 56 else if w <=? 7 then 57 else if w <=? 14 then 58 else if w <=? 29 then 59 else if w <=? 58 then 60 else 61.

Lemma thresholds_3_ok w t1 t2a t2b : 2 <= w <= 64 -> thresholds_3 w t1 t2a t2b -> t1 = floor_3 w /\ t2a < 41 /\ t2b < 23.
Proof.
  intros Hw (s & e & l & m & x & y & z & S & L & M & X & -> & Y & -> & Z & ->).
  split; [|apply (rest_small 32 18 s e); (assumption || lia)]. destruct S as (Hs & He & H).
  pose proof (near_low 3 2 l s e 200 317 ltac:(lia) ltac:(lia) Hs ltac:(lia) ltac:(lia) L (proj1 log_3_2)) as L1.
  pose proof (near_high 3 2 l s e 53 84 ltac:(lia) ltac:(lia) Hs ltac:(lia) ltac:(lia) L (proj2 log_3_2)) as L2. clear L Y Z.
  unfold floor_3. repeat match goal with |- _ = (if ?a <=? ?b then _ else _) => destruct (Z.leb_spec a b) end.
  - seg w 2 2 1 1 1 1 M L1 L2 Hs.
  - seg w 3 4 3 2 2 1 M L1 L2 Hs.
  - seg w 5 9 16 7 16 5 M L1 L2 Hs.
  - seg w 10 18 23 7 21 5 M L1 L2 Hs.
  - seg w 19 37 208 49 47 9 M L1 L2 Hs.
  - seg w 38 64 257 49 6 1 M L1 L2 Hs.
Qed.
Lemma thresholds_5_ok w t1 t2a t2b : 2 <= w <= 64 -> thresholds_5 w t1 t2a t2b -> t1 = floor_5 w /\ t2a < 41 /\ t2b < 23.
Proof.
  intros Hw (s & e & l & m & x & y & z & S & L & M & X & -> & Y & -> & Z & ->).
  split; [|apply (rest_small 21 14 s e); (assumption || lia)]. destruct S as (Hs & He & H).
  pose proof (near_low 5 2 l s e 59 137 ltac:(lia) ltac:(lia) Hs ltac:(lia) ltac:(lia) L (proj1 log_5_2)) as L1.
  pose proof (near_high 5 2 l s e 87 202 ltac:(lia) ltac:(lia) Hs ltac:(lia) ltac:(lia) L (proj2 log_5_2)) as L2. clear L Y Z.
  unfold floor_5. repeat match goal with |- _ = (if ?a <=? ?b then _ else _) => destruct (Z.leb_spec a b) end.
  - seg w 2 3 1 1 5 3 M L1 L2 Hs.
  - seg w 4 7 2 1 17 6 M L1 L2 Hs.
  - seg w 8 14 3 1 23 6 M L1 L2 Hs.
  - seg w 15 29 39 10 107 22 M L1 L2 Hs.
  - seg w 30 58 49 10 129 22 M L1 L2 Hs.
  - seg w 59 64 100 17 6 1 M L1 L2 Hs.
Qed.

(** The numbers of partial rounds for up to 64 lanes. *)
Definition partial_3 (w : nat) : nat := (if w <=? 2 then 82 else if w <=? 4 then 83 else if w <=? 9 then 84 else if w <=? 18 then 85 else if w <=? 37 then 86 else 87)%nat.
Definition partial_5 (w : nat) : nat := (if w <=? 3 then 55 else if w <=? 7 then 56 else if w <=? 14 then 57 else if w <=? 29 then 58 else if w <=? 58 then 59 else 60)%nat.

(** However the logarithms, products and sums are rounded, the search returns 8 full rounds and these numbers of partial rounds. *)
Theorem C95_poseidon_3 : forall w t1 t2a t2b fuel pfuel, (2 <= w <= 64)%nat -> (1 <= fuel)%nat -> (82 <= pfuel)%nat -> thresholds_3 (Z.of_nat w) t1 t2a t2b ->
  secure_num_rounds_padded fuel pfuel (is_attackable_exponentiation t1 t2a t2b w) w = Ok (mkRounds 8 (partial_3 w)).
Proof.
  intros w t1 t2a t2b fuel pfuel Hw Hf Hp T. destruct (thresholds_3_ok (Z.of_nat w) t1 t2a t2b ltac:(lia) T) as (E & A & B).
  assert (E5 : Z.max (Z.max (t1 - 5) (t2a - 5)) (t2b + 1 - 6 * (Z.of_nat w - 1)) = floor_3 (Z.of_nat w) - 5 /\ 81 <= floor_3 (Z.of_nat w) <= 86).
  { rewrite E. unfold floor_3. repeat match goal with |- context[if ?a <=? ?b then _ else _] => destruct (Z.leb_spec a b) end; lia. }
  destruct E5 as [E5 E6].
  pose proof (C68_exponentiation t1 t2a t2b w fuel pfuel ltac:(lia) Hf) as U. cbv zeta in U. rewrite E5 in U. specialize (U ltac:(lia)).
  rewrite (C68_padding _ _ _ _ _ U) by (cbn [r_partial]; lia). cbn [r_full r_partial]. f_equal. f_equal.
  clear - Hw. unfold floor_3, partial_3.
  destruct (Z.leb_spec (Z.of_nat w) 2), (Nat.leb_spec w 2); try lia; [reflexivity|].
  destruct (Z.leb_spec (Z.of_nat w) 4), (Nat.leb_spec w 4); try lia; [reflexivity|].
  destruct (Z.leb_spec (Z.of_nat w) 9), (Nat.leb_spec w 9); try lia; [reflexivity|].
  destruct (Z.leb_spec (Z.of_nat w) 18), (Nat.leb_spec w 18); try lia; [reflexivity|].
  destruct (Z.leb_spec (Z.of_nat w) 37), (Nat.leb_spec w 37); try lia; reflexivity.
Qed.
Print Assumptions C95_poseidon_3.

Theorem C95_poseidon_5 : forall w t1 t2a t2b fuel pfuel, (2 <= w <= 64)%nat -> (1 <= fuel)%nat -> (57 <= pfuel)%nat -> thresholds_5 (Z.of_nat w) t1 t2a t2b ->
  secure_num_rounds_padded fuel pfuel (is_attackable_exponentiation t1 t2a t2b w) w = Ok (mkRounds 8 (partial_5 w)).
Proof.
  intros w t1 t2a t2b fuel pfuel Hw Hf Hp T. destruct (thresholds_5_ok (Z.of_nat w) t1 t2a t2b ltac:(lia) T) as (E & A & B).
  assert (E5 : Z.max (Z.max (t1 - 5) (t2a - 5)) (t2b + 1 - 6 * (Z.of_nat w - 1)) = floor_5 (Z.of_nat w) - 5 /\ 56 <= floor_5 (Z.of_nat w) <= 61).
  { rewrite E. unfold floor_5. repeat match goal with |- context[if ?a <=? ?b then _ else _] => destruct (Z.leb_spec a b) end; lia. }
  destruct E5 as [E5 E6].
  pose proof (C68_exponentiation t1 t2a t2b w fuel pfuel ltac:(lia) Hf) as U. cbv zeta in U. rewrite E5 in U. specialize (U ltac:(lia)).
  rewrite (C68_padding _ _ _ _ _ U) by (cbn [r_partial]; lia). cbn [r_full r_partial]. f_equal. f_equal.
  clear - Hw. unfold floor_5, partial_5.
  destruct (Z.leb_spec (Z.of_nat w) 3), (Nat.leb_spec w 3); try lia; [reflexivity|].
  destruct (Z.leb_spec (Z.of_nat w) 7), (Nat.leb_spec w 7); try lia; [reflexivity|].
  destruct (Z.leb_spec (Z.of_nat w) 14), (Nat.leb_spec w 14); try lia; [reflexivity|].
  destruct (Z.leb_spec (Z.of_nat w) 29), (Nat.leb_spec w 29); try lia; [reflexivity|].
  destruct (Z.leb_spec (Z.of_nat w) 58), (Nat.leb_spec w 58); try lia; reflexivity.
Qed.
Print Assumptions C95_poseidon_5.

(** Over either shipped field min{n, M} is 128 at the default security level, and a Poseidon built with nothing but a matrix uses the
    fifth power, 8 full rounds and these numbers of partial rounds. *)
Theorem C95_shipped : forall F : Field, F = Bn128 \/ F = Bls12_381 -> Nat.min 128 max_bits = 128%nat /\ forall fuel pfuel att w t1 t2a t2b mds,
  (2 <= w <= 64)%nat -> (1 <= fuel)%nat -> (57 <= pfuel)%nat -> thresholds_5 (Z.of_nat w) t1 t2a t2b ->
  att Exponentiation5 128%nat = is_attackable_exponentiation t1 t2a t2b w ->
  poseidon_build_full fuel pfuel att w None None None (Some mds) = Ok (mkPoseidon w 8 (partial_5 w) Exponentiation5 mds).
Proof.
  intros F HF.
  assert (E : poseidon_default_sbox = Ok Exponentiation5 /\ Nat.min 128 max_bits = 128%nat) by (destruct HF as [-> | ->]; vm_compute; split; reflexivity).
  destruct E as [E1 E2]. split; [exact E2|]. intros fuel pfuel att w t1 t2a t2b mds Hw Hf Hp T Ha. unfold poseidon_build_full, ounwrap. cbn [obind]. rewrite E1. cbn [obind]. rewrite Ha, (C95_poseidon_5 w t1 t2a t2b fuel pfuel Hw Hf Hp T).
  reflexivity.
Qed.
Print Assumptions C95_shipped.

(** ** The inverse S-box *)
(** A possible outcome of the first inequality of is_attackable_inverse for [m] = min{n, M} and [w] lanes at 6 and at 8 full rounds, which are
    the numbers the search looks at: [l / s] approximates log2 [w], [x / s] and [y / s] the two sides. *)
Definition inverse_computed (m : nat) (w : Z) (ineq : rounds -> bool) : Prop := forall r, r_full r = 6%nat \/ r_full r = 8%nat ->
  exists s e l x y, small s e /\ near_log 2 w l s e /\ Z.abs (x - (Z.of_nat (r_full r) * l + Z.of_nat (r_partial r) * s)) <= e /\
    Z.abs (2 * y - (2 * l + s + 2 * Z.of_nat m * s)) <= 2 * e /\ ineq r = (x <=? y).

(** [p / q] and [h / q] bound log2 [w], sharply enough to locate [k * log2 w - 1/2] between the integers [j] and [j + 1]. *)
Definition locate (w q p h k : Z) : bool :=
  let j := (2 * k * p - q) / (2 * q) in
  (0 <=? j) && ((2 * j + 1) * q * 2 ^ 20 + 100 * q <? 2 * k * p * 2 ^ 20) && (2 * k * h * 2 ^ 20 + 100 * q <? (2 * j + 3) * q * 2 ^ 20).
Definition located (w q : Z) : bool :=
  let x := w ^ q in let p := Z.log2 x in let h := if 2 ^ p =? x then p else p + 1 in
  (0 <? q) && (2 ^ p <=? x) && (x <=? 2 ^ h) && (0 <=? p) && (0 <=? h) && locate w q p h 5 && locate w q p h 7.
Fixpoint all_located (w : Z) (qs : list Z) : bool := match qs with [] => true | q :: qs' => located w q && all_located (w + 1) qs' end.
Definition denominators : list Z := [1; 11; 1; 23; 11; 15; 1; 15; 23; 13; 11; 237; 15; 41; 1; 41; 15; 17; 23; 11; 13; 23; 11; 73; 237; 17; 15; 15; 41; 15; 1;
  15; 41; 16; 15; 19; 17; 17; 23; 179; 11; 11; 13; 63; 23; 11; 11; 11; 73; 23; 237; 17; 17; 23; 15; 15; 15; 18; 41; 43; 15; 15; 1].
Lemma all_located_64 : all_located 2 denominators = true.
Proof. vm_compute. reflexivity. Qed.
Lemma all_located_spec qs : forall w0, all_located w0 qs = true -> forall w, w0 <= w < w0 + Z.of_nat (length qs) -> exists q, located w q = true.
Proof.
  induction qs as [|q qs IH]; intros w0 H w Hw; cbn [length] in Hw; [lia|]. cbn [all_located] in H. apply andb_prop in H. destruct H as [H1 H2].
  destruct (Z.eq_dec w w0) as [->|D]; [exists q; exact H1|]. apply (IH (w0 + 1) H2). lia.
Qed.

Lemma located_ok m w r x y s e l q p h k : 2 <= w -> 0 < q -> 0 <= p -> 0 <= h -> 2 ^ p <= w ^ q -> w ^ q <= 2 ^ h -> locate w q p h k = true ->
  Z.of_nat (r_full r) = k + 1 -> 5 <= k <= 7 -> small s e -> near_log 2 w l s e ->
  Z.abs (x - (Z.of_nat (r_full r) * l + Z.of_nat (r_partial r) * s)) <= e -> Z.abs (2 * y - (2 * l + s + 2 * Z.of_nat m * s)) <= 2 * e ->
  (x <=? y) = inverse_inequality_1 m (Z.to_nat w) r.
Proof.
  intros Hw Hq Hp Hh Lo Hi C Hk Kb (Hs & He & Hse) L X Y. unfold locate in C. set (j := (2 * k * p - q) / (2 * q)) in *. clearbody j.
  apply andb_prop in C. destruct C as [C C3]. apply andb_prop in C. destruct C as [C1 C2]. apply Z.leb_le in C1. apply Z.ltb_lt in C2. apply Z.ltb_lt in C3.
  pose proof (near_low 2 w l s e p q ltac:(lia) ltac:(lia) Hs Hq Hp L Lo) as L1. pose proof (near_high 2 w l s e h q ltac:(lia) ltac:(lia) Hs Hq Hh L Hi) as L2. clear L.
  unfold inverse_inequality_1. rewrite Z2Nat.id by lia. rewrite Hk in *. set (P := Z.of_nat (r_partial r)) in *. set (M := Z.of_nat m) in *.
  assert (P0 : 0 <= P) by (unfold P; lia). assert (M0 : 0 <= M) by (unfold M; lia). clearbody P M.
  assert (W : w ^ (2 * (k + 1)) = w ^ 2 * w ^ (2 * k)) by (rewrite <- Z.pow_add_r by lia; f_equal; lia). rewrite W. clear W.
  assert (W2 : 0 < w ^ 2) by (apply Z.pow_pos_nonneg; lia).
  assert (F4 : forall z, 0 <= z -> 4 ^ z = 2 ^ (2 * z)) by (intros z Hz; rewrite Z.pow_mul_r by lia; reflexivity). rewrite (F4 P P0), (F4 M M0).
  destruct (Z_le_gt_dec (j + 1) (M - P)) as [D|D].
  - transitivity true; [|symmetry].
    + apply Z.leb_le. assert (G : 2 * k * l + 4 * e <= (2 * (M - P) + 1) * s); [|lia].
      apply (Z.mul_le_mono_pos_r _ _ (q * 2 ^ 20)); [lia|].
      assert (G1 : (2 * k * l + 4 * e) * q <= 2 * k * h * s + (2 * k + 4) * e * q) by nia.
      assert (G2 : (2 * k + 4) * e * 2 ^ 20 <= 18 * s) by nia.
      assert (G3 : (2 * k * h * 2 ^ 20 + 18 * q) * s <= (2 * j + 3) * q * 2 ^ 20 * s) by (apply Z.mul_le_mono_nonneg_r; lia).
      assert (G4 : (2 * j + 3) * (q * 2 ^ 20 * s) <= (2 * (M - P) + 1) * (q * 2 ^ 20 * s)) by (apply Z.mul_le_mono_nonneg_r; nia).
      assert (G5 : (2 * k + 4) * e * 2 ^ 20 * q <= 18 * s * q) by (apply Z.mul_le_mono_nonneg_r; lia). lia.
    + apply Z.leb_le. assert (G : w ^ (2 * k) <= 2 ^ (2 * j + 3)).
      { apply (Z.pow_le_mono_l_iff _ _ q); [apply Z.pow_nonneg; lia|apply Z.pow_nonneg; lia|lia|].
        rewrite <- !Z.pow_mul_r by lia. replace (2 * k * q) with (q * (2 * k)) by ring. rewrite Z.pow_mul_r by lia.
        apply Z.le_trans with ((2 ^ h) ^ (2 * k)); [apply Z.pow_le_mono_l; split; [apply Z.pow_nonneg; lia|exact Hi]|].
        rewrite <- Z.pow_mul_r by lia. apply Z.pow_le_mono_r; nia. }
      replace (w ^ 2 * w ^ (2 * k) * 2 ^ (2 * P)) with (w ^ 2 * (w ^ (2 * k) * 2 ^ (2 * P))) by ring.
      replace (2 * w ^ 2 * 2 ^ (2 * M)) with (w ^ 2 * (2 ^ 1 * 2 ^ (2 * M))) by ring. apply Z.mul_le_mono_nonneg_l; [lia|].
      apply Z.le_trans with (2 ^ (2 * j + 3) * 2 ^ (2 * P)); [apply Z.mul_le_mono_nonneg_r; [apply Z.pow_nonneg; lia|exact G]|].
      rewrite <- !Z.pow_add_r by lia. apply Z.pow_le_mono_r; lia.
  - transitivity false; [|symmetry].
    + apply Z.leb_gt. assert (G : (2 * (M - P) + 1) * s + 4 * e < 2 * k * l); [|lia].
      apply (Z.mul_lt_mono_pos_r (q * 2 ^ 20)); [lia|].
      assert (G1 : 2 * k * p * s <= 2 * k * l * q + 2 * k * e * q) by nia.
      assert (G2 : (2 * k + 4) * e * 2 ^ 20 <= 18 * s) by nia.
      assert (G3 : ((2 * j + 1) * q * 2 ^ 20 + 100 * q) * s <= 2 * k * p * 2 ^ 20 * s) by (apply Z.mul_le_mono_nonneg_r; lia).
      assert (G4 : (2 * (M - P) + 1) * (q * 2 ^ 20 * s) <= (2 * j + 1) * (q * 2 ^ 20 * s)) by (apply Z.mul_le_mono_nonneg_r; nia).
      assert (G5 : (2 * k + 4) * e * 2 ^ 20 * q <= 18 * s * q) by (apply Z.mul_le_mono_nonneg_r; lia).
      assert (0 < q * s) by nia. lia.
    + apply Z.leb_gt. assert (G : 2 ^ (2 * j + 1) < w ^ (2 * k)).
      { apply (Z.pow_lt_mono_l_iff _ _ q); [apply Z.pow_nonneg; lia|apply Z.pow_nonneg; lia|lia|].
        rewrite <- !Z.pow_mul_r by lia. replace (2 * k * q) with (q * (2 * k)) by ring. rewrite (Z.pow_mul_r w q) by lia.
        apply Z.lt_le_trans with ((2 ^ p) ^ (2 * k)); [|apply Z.pow_le_mono_l; split; [apply Z.pow_nonneg; lia|exact Lo]].
        rewrite <- Z.pow_mul_r by lia. apply Z.pow_lt_mono_r; nia. }
      replace (w ^ 2 * w ^ (2 * k) * 2 ^ (2 * P)) with (w ^ 2 * (w ^ (2 * k) * 2 ^ (2 * P))) by ring.
      replace (2 * w ^ 2 * 2 ^ (2 * M)) with (w ^ 2 * (2 ^ 1 * 2 ^ (2 * M))) by ring. apply Z.mul_lt_mono_pos_l; [lia|].
      apply Z.le_lt_trans with (2 ^ (2 * j + 1) * 2 ^ (2 * P)); [|apply Z.mul_lt_mono_pos_r; [apply Z.pow_pos_nonneg; lia|exact G]].
      rewrite <- !Z.pow_add_r by lia. apply Z.pow_le_mono_r; lia.
Qed.

Lemma inverse_agrees m w ineq : (2 <= w <= 64)%nat -> inverse_computed m (Z.of_nat w) ineq -> forall r, r_full r = 6%nat \/ r_full r = 8%nat ->
  ineq r = inverse_inequality_1 m w r.
Proof.
  intros Hw H r Hr. destruct (H r Hr) as (s & e & l & x & y & S & L & X & Y & ->).
  destruct (all_located_spec denominators 2 all_located_64 (Z.of_nat w)) as (q & Q); [change (Z.of_nat (length denominators)) with 63; lia|].
  unfold located in Q. cbv zeta in Q. set (p := Z.log2 (Z.of_nat w ^ q)) in *. set (h := if 2 ^ p =? Z.of_nat w ^ q then p else p + 1) in *. clearbody p h.
  repeat (apply andb_prop in Q; let A := fresh "A" in destruct Q as [Q A]). apply Z.ltb_lt in Q. apply Z.leb_le in A1, A2, A3, A4.
  transitivity (inverse_inequality_1 m (Z.to_nat (Z.of_nat w)) r); [|rewrite Nat2Z.id; reflexivity].
  destruct Hr as [Hr|Hr].
  - apply (located_ok m (Z.of_nat w) r x y s e l q p h 5); try assumption; try lia; rewrite Hr; lia.
  - apply (located_ok m (Z.of_nat w) r x y s e l q p h 7); try assumption; try lia; rewrite Hr; lia.
Qed.

Lemma partial_loop_ext att att' full : (forall p, att (mkRounds full p) = att' (mkRounds full p)) -> forall fuel p, secure_partial_loop fuel att full p = secure_partial_loop fuel att' full p.
Proof. intros H. induction fuel as [|f IH]; intros p; [reflexivity|]. cbn [secure_partial_loop]. rewrite H. destruct (att' (mkRounds full p)) as [a| |]; cbn [obind]; [|reflexivity|reflexivity]. rewrite IH. reflexivity. Qed.

(** With the inverse as S-box the rounding does not matter either, at any security level: the search finds what it finds in exact arithmetic. *)
Theorem C95_inverse : forall m w ineq fuel pfuel, (2 <= w <= 64)%nat -> (1 <= fuel)%nat -> (m + 1 < pfuel)%nat -> inverse_computed m (Z.of_nat w) ineq ->
  exists p, secure_num_rounds_unpadded fuel pfuel (is_attackable_inverse ineq (Z.of_nat m / 4 - 1) w) w = Ok (mkRounds 6 p) /\
    thriftiest (is_attackable_inverse_exact m w) 6 p.
Proof.
  intros m w ineq fuel pfuel Hw Hf Hp H. destruct (C68_inverse m w fuel pfuel ltac:(lia) Hf Hp) as (p & E & T & _ & _). exists p. split; [|exact T].
  set (att' := is_attackable_inverse ineq (Z.of_nat m / 4 - 1) w). set (att := is_attackable_inverse_exact m w) in *.
  assert (A : forall f, f = 6%nat \/ f = 8%nat -> secure_partial_rounds_unpadded pfuel att' f = secure_partial_rounds_unpadded pfuel att f).
  { intros f Df. unfold secure_partial_rounds_unpadded. apply partial_loop_ext. intros p'. unfold att', att, is_attackable_inverse_exact, is_attackable_inverse.
    rewrite (inverse_agrees m w ineq Hw H (mkRounds f p') Df). reflexivity. }
  destruct (C68_inverse m w 1 pfuel ltac:(lia) ltac:(lia) Hp) as (p1 & E1 & _ & _ & _). fold att in E1.
  unfold secure_num_rounds_unpadded in *. rewrite (A 6%nat) by auto. destruct fuel as [|fuel]; [lia|].
  destruct (secure_partial_rounds_unpadded pfuel att 6) as [p6| |]; cbn [obind secure_num_rounds_loop] in *; try discriminate. rewrite (A (6 + 2)%nat) by auto.
  destruct (secure_partial_rounds_unpadded pfuel att (6 + 2)) as [p8| |]; cbn [obind] in *; try discriminate.
  destruct (num_sboxes w (mkRounds 6 p6) <? num_sboxes w (mkRounds (6 + 2) p8))%nat; [exact E|discriminate].
Qed.
Print Assumptions C95_inverse.

(** Such thresholds exist; for three lanes they give 55 partial rounds. *)
Example C95_example : (exists t1 t2a t2b, thresholds_5 3 t1 t2a t2b) /\ (exists t1 t2a t2b, thresholds_3 64 t1 t2a t2b) /\ partial_5 3 = 55%nat /\ partial_3 3 = 83%nat /\
  (exists ineq, inverse_computed 128 13 ineq) /\ secure_num_rounds_unpadded 1 130 (is_attackable_inverse_exact 128 13) 13 = Ok (mkRounds 6 110) /\
  forall t1 t2a t2b, thresholds_5 3 t1 t2a t2b -> secure_num_rounds_padded 1 57 (is_attackable_exponentiation t1 t2a t2b 3) 3 = Ok (mkRounds 8 55).
Proof.
  split; [|split; [|split; [reflexivity|split; [reflexivity|split; [|split; [vm_compute; reflexivity|]]]]]].
  - destruct (near_exists 5 2 (2 ^ 30) ltac:(lia) ltac:(lia) ltac:(lia)) as (l & L). destruct (near_exists 2 3 (2 ^ 30) ltac:(lia) ltac:(lia) ltac:(lia)) as (m & M).
    do 3 eexists. exists (2 ^ 30), 1, l, m, (128 * l + m), (21 * 128 * 2 ^ 30 / 100), ((14 * 128 - 100) * 2 ^ 30 / 100).
    split; [unfold small; lia|split; [exact L|split; [exact M|]]]. split; [lia|split; [reflexivity|split; [vm_compute; discriminate|split; [reflexivity|split; [vm_compute; discriminate|reflexivity]]]]].
  - destruct (near_exists 3 2 (2 ^ 30) ltac:(lia) ltac:(lia) ltac:(lia)) as (l & L). destruct (near_exists 2 64 (2 ^ 30) ltac:(lia) ltac:(lia) ltac:(lia)) as (m & M).
    do 3 eexists. exists (2 ^ 30), 1, l, m, (128 * l + m), (32 * 128 * 2 ^ 30 / 100), ((18 * 128 - 100) * 2 ^ 30 / 100).
    split; [unfold small; lia|split; [exact L|split; [exact M|]]]. split; [lia|split; [reflexivity|split; [vm_compute; discriminate|split; [reflexivity|split; [vm_compute; discriminate|reflexivity]]]]].
  - destruct (near_exists 2 13 (2 ^ 30) ltac:(lia) ltac:(lia) ltac:(lia)) as (l & L).
    exists (fun r => Z.of_nat (r_full r) * l + Z.of_nat (r_partial r) * 2 ^ 30 <=? l + 2 ^ 29 + 128 * 2 ^ 30). intros r _.
    exists (2 ^ 30), 1, l, (Z.of_nat (r_full r) * l + Z.of_nat (r_partial r) * 2 ^ 30), (l + 2 ^ 29 + 128 * 2 ^ 30).
    split; [unfold small; lia|split; [exact L|split; [lia|split; [lia|reflexivity]]]].
  - intros t1 t2a t2b T. apply (C95_poseidon_5 3 t1 t2a t2b 1 57); [lia|lia|lia|exact T].
Qed.
