(** C59, C60: the JubJub generator and honestly generated Schnorr signatures. *)
From Coq Require Import ZArith List Bool Arith Lia Znumtheory.
From Verif Require Import Base FieldM FieldP ExprM BuilderM GadgetsM CryptoM CurveM Spec SpecCrypto SpecCurve ExprP SoundP ExecP CoreP Demo PropLib
  PrimeP EdwardsP ProjP CurveP PropsCost PropsCrypto PropsCurve.
Import ListNotations.
Open Scope Z_scope.

(** ** C59 *)
(** On a curve with a = -1, (1 + d)(y^2 - 1) is a square for every point that is the double of a point. *)
Section Doubles.
Context {F : Field} (Hp : prime order) (H2 : 2 < order) (a d : Z) (Hcc : complete_curve a d) (Ha : feqm a (-1)).
Local Infix "==" := feqm (at level 70).
Lemma double_square H : on_curve a d H -> exists w, w * w == (1 + d) * (snd (ed_add a d H H) ^ 2 - 1).
Proof using Hp H2 Hcc Ha.
  intro HO. pose proof (add_y Hp H2 a d Hcc H H HO HO) as EY. destruct (dens_nz' Hp H2 a d Hcc H H HO HO) as [_ N].
  pose proof (on_curve_crv H2 a d H HO) as EC. set (y3 := snd (ed_add a d H H)) in *. destruct H as [x y]. cbn [fst snd] in *. unfold crv in EC.
  set (t := d * x * x * y * y) in *. pose proof (zinv_ok Hp H2 _ N) as I. set (i := zinv (1 - t)) in *.
  exists (2 * x * y * (1 + d) * i). apply (cancel Hp H2 ((1 - t) * (1 - t))); [apply mul_nz; assumption|].
  assert (E : y3 * (1 - t) == y * y + x * x).
  { apply (lc2 H2 _ _ _ _ _ _ EY Ha 1 (- (x * x))). ring. }
  assert (EC' : y * y - x * x - 1 - t == 0).
  { apply (lc2 H2 _ _ _ _ _ _ EC Ha 1 (- (x * x))). unfold t. ring. }
  assert (K : (y * y + x * x) * (y * y + x * x) - (1 - t) * (1 - t) == 4 * (x * x * y * y) * (1 + d)).
  { apply (lc1 H2 _ _ _ _ EC' (y * y - x * x + 1 + t)). unfold t. ring. }
  pose proof (Zmul_feqm (ord2 H2)) as PM. pose proof (Zadd_feqm (ord2 H2)) as PA. pose proof (Zsub_feqm (ord2 H2)) as PS.
  assert (L : 2 * x * y * (1 + d) * i * (2 * x * y * (1 + d) * i) * ((1 - t) * (1 - t)) == (1 + d) * (4 * (x * x * y * y) * (1 + d))).
  { transitivity ((2 * x * y * (1 + d)) * (2 * x * y * (1 + d)) * (((1 - t) * i) * ((1 - t) * i))); [unfold feqm; f_equal; ring|].
    rewrite I. unfold feqm. f_equal. ring. }
  rewrite L, <- K.
  transitivity ((1 + d) * ((y3 * (1 - t)) * (y3 * (1 - t)) - (1 - t) * (1 - t))); [rewrite E; reflexivity|]. unfold feqm. f_equal. ring.
Qed.

(** If the multiples of G repeat with an odd period, G is itself the double of a multiple. *)
Lemma odd_period_double P q : on_curve a d P -> ed_mul a d (2 * q + 1) P = ed_zero -> exists H, on_curve a d H /\ ed_add a d H H = P.
Proof using Hp H2 Hcc.
  intros HP HZ. exists (ed_mul a d (q + 1) P). split; [apply (mul_on_curve Hp H2 a d Hcc), HP|].
  rewrite <- (mul_add Hp H2 a d Hcc) by exact HP. replace (q + 1 + (q + 1))%nat with (1 + (2 * q + 1))%nat by lia.
  rewrite (mul_add Hp H2 a d Hcc), HZ, (mul_1 Hp H2 a d Hcc) by exact HP. apply (add_zero_r Hp H2 a d Hcc), HP.
Qed.
Lemma odd_multiples x y : order mod 2 = 1 -> powmod ((1 + d) * (y * y - 1)) ((order - 1) / 2) order = order - 1 ->
  on_curve a d (x, y) -> forall q, ed_mul a d (2 * q + 1) (x, y) <> ed_zero.
Proof using Hp H2 Hcc Ha.
  intros Ho N O q E. destruct (odd_period_double _ q O E) as (H & HO & HH). destruct (double_square H HO) as (w & Hw).
  rewrite HH in Hw. cbn [snd] in Hw. rewrite Z.pow_2_r in Hw. exact (euler_nonsquare _ _ Hp Ho N w Hw).
Qed.

Lemma not_prime_order x y : order mod 2 = 1 -> powmod ((1 + d) * (y * y - 1)) ((order - 1) / 2) order = order - 1 ->
  ~ 2 * x * y == 0 ->
  on_curve a d (x, y) -> forall q, prime q -> ed_mul a d (Z.to_nat q) (x, y) <> ed_zero.
Proof using Hp H2 Hcc Ha.
  intros Ho N NZ O q Hq. pose proof (prime_ge_2 q Hq) as Q2.
  destruct (Z.eq_dec q 2) as [->|N2].
  - change (Z.to_nat 2) with 2%nat. cbn [ed_mul]. rewrite (add_zero_r Hp H2 _ _ Hcc) by exact O. intro E.
    pose proof (add_x Hp H2 _ _ Hcc _ _ O O) as EX. rewrite E in EX. cbn [fst snd ed_zero] in EX. apply NZ.
    rewrite Z.mul_0_l in EX. rewrite EX. unfold feqm. f_equal. ring.
  - assert (Hodd : Z.odd q = true).
    { destruct (Z.odd q) eqn:B; [reflexivity|]. assert (D : (2 | q)) by (apply Z.mod_divide; [lia|]; rewrite Zmod_odd, B; reflexivity).
      destruct (prime_divisors q Hq 2 D); lia. }
    apply Z.odd_spec in Hodd. destruct Hodd as [k ->]. replace (Z.to_nat (2 * k + 1)) with (2 * Z.to_nat k + 1)%nat by lia.
    apply odd_multiples; assumption.
Qed.
End Doubles.

Lemma jubjub_not_double : powmod ((1 + ed_d jubjub) * (jubjub_gy * jubjub_gy - 1)) ((@order Bls12_381 - 1) / 2) (@order Bls12_381) = @order Bls12_381 - 1.
Proof. vm_compute. reflexivity. Qed.

Lemma jubjub_a : @feqm Bls12_381 (ed_a jubjub) (-1).
Proof. vm_compute. reflexivity. Qed.
Lemma jubjub_xy : ~ @feqm Bls12_381 (2 * jubjub_gx * jubjub_gy) 0.
Proof. vm_compute. discriminate. Qed.

(** The group type is called JubJubPrimeSubgroup, but no odd multiple of its generator vanishes, nor does the double: the generator does
    not have prime order. *)
Theorem C59_jubjub_odd_multiples : let F : Field := Bls12_381 in forall q,
  ed_mul (ed_a jubjub) (ed_d jubjub) (2 * q + 1) (jubjub_gx, jubjub_gy) <> ed_zero.
Proof.
  intros F. destruct C57_jubjub_complete as (Hcc & O & _).
  exact (odd_multiples prime_Bls12_381 (eq_refl : 2 < @order Bls12_381) _ _ Hcc jubjub_a _ _ bls_odd jubjub_not_double O).
Qed.
Print Assumptions C59_jubjub_odd_multiples.

Theorem C59_prime_order_refuted : let F : Field := Bls12_381 in
  forall g, generator_element jubjub_subgroup = Ok g ->
  forall q, prime q -> ed_mul (ed_a jubjub) (ed_d jubjub) (Z.to_nat q) g <> ed_zero.
Proof.
  intros F g Hg. destruct C57_jubjub_complete as (Hcc & O & G). rewrite G in Hg. injection Hg as <-.
  exact (not_prime_order prime_Bls12_381 (eq_refl : 2 < @order Bls12_381) _ _ Hcc jubjub_a _ _ bls_odd jubjub_not_double jubjub_xy O).
Qed.
Print Assumptions C59_prime_order_refuted.

(** The generator exists, is a point other than the neutral one, and there are primes to test: 3 g, computed by the model, is not 0. *)
Example C59_example : let F : Field := Bls12_381 in
  exists g, generator_element jubjub_subgroup = Ok g /\ g <> ed_zero /\ prime 3 /\
    exists P, mul_scalar_element (edwards_group jubjub) g 3 = Ok P /\ P <> ed_zero.
Proof.
  intro F. destruct C57_jubjub_complete as (_ & O & G). exists (jubjub_gx, jubjub_gy). split; [exact G|]. split; [discriminate|]. split; [exact prime_3|].
  exists (ed_mul (ed_a jubjub) (ed_d jubjub) 3 (jubjub_gx, jubjub_gy)). split.
  - apply (proj2 (proj2 C57_jubjub_group) (jubjub_gx, jubjub_gy) 3 O). split; [discriminate|reflexivity].
  - apply (C59_prime_order_refuted _ G 3 prime_3).
Qed.

(** ** C60 *)
(** The Schnorr equation holds for every signature made with the secret key, when [s] is reduced modulo a multiple of the order of the
    generator; verification accepts it. *)
Lemma schnorr_equation {F : Field} (Hp : prime order) (H2 : 2 < order) a d g L x k s e : complete_curve a d -> on_curve a d g ->
  (L <> 0)%nat -> ed_mul a d L g = ed_zero -> ((s + x * e) mod L = k mod L)%nat ->
  ed_add a d (ed_mul a d s g) (ed_mul a d e (ed_mul a d x g)) = ed_mul a d k g.
Proof.
  intros Hcc Og L0 HL E. rewrite <- (mul_mul Hp H2 a d Hcc) by exact Og. rewrite <- (mul_add Hp H2 a d Hcc) by exact Og.
  rewrite (mul_mod Hp H2 a d Hcc g L _ Og L0 HL), (mul_mod Hp H2 a d Hcc g L k Og L0 HL). rewrite (Nat.mul_comm e x), E. reflexivity.
Qed.

Theorem C60_signed_accepted : forall (F : Field), prime order -> 2 < order -> forall C g m H,
  complete_curve (ed_a C) (ed_d C) -> on_curve (ed_a C) (ed_d C) g -> completes2 m H ->
  forall L x k, (0 < L)%nat -> ed_mul (ed_a C) (ed_d C) L g = ed_zero ->
  forall vals s e msg pk, good_inputs vals -> on_inputs vals s -> on_inputs vals e -> on_inputs vals msg -> on_inputs_p vals pk ->
  evp (input_witness vals) pk = ed_mul (ed_a C) (ed_d C) x g ->
  wv vals e = H (snd (ed_mul (ed_a C) (ed_d C) k g)) (wv vals msg) ->
  (wv vals s) mod Z.of_nat L = (Z.of_nat k - Z.of_nat x * wv vals e) mod Z.of_nat L ->
  runs vals (schnorr_verify (mkCyclic (edwards_group C) (Ok g)) (s, e) msg pk m) (fun _ _ => True).
Proof.
  intros F Hp H2 C g m H Hcc Og Hm L x k L0 HL vals s e msg pk Hv Hs He Hmsg Hpk Epk Ee Es.
  assert (Is : 0 <= wv vals s) by (apply ev_infield; assumption || (pose proof (prime_ge_2 _ Hp); lia)).
  assert (Ie : 0 <= wv vals e) by (apply ev_infield; assumption || (pose proof (prime_ge_2 _ Hp); lia)).
  apply (C54_valid_accepted F Hp H2 C g m H Hcc Og Hm vals s e msg pk Hv Hs He Hmsg Hpk).
  - rewrite Epk. apply (mul_on_curve Hp H2 _ _ Hcc), Og.
  - rewrite Epk, Ee at 1. f_equal. f_equal. symmetry. apply (schnorr_equation Hp H2 _ _ g L x k); try assumption; [lia|].
    apply Nat2Z.inj. rewrite !Nat2Z.inj_mod, Nat2Z.inj_add, Nat2Z.inj_mul, !Z2Nat.id by assumption.
    rewrite <- Z.add_mod_idemp_l, Es, Z.add_mod_idemp_l by lia. f_equal. lia.
Qed.
Print Assumptions C60_signed_accepted.

(** signature.rs 116-124 [TestCompress]: x*2 + y. *)
Definition sum_compress : compression := let F : Field := F11 in fun x y => blift (let! x2 := e_scale_u128 x 2 in Ok (e_add x2 y)).
(** signature.rs 73-94: how the repository's test makes a signature; [s] is computed in the FIELD, i.e. modulo [order]. *)
Definition test_sign {F : Field} (C : edwards) (g : ed_point) (m : compression) (secret nonce msg : Z) : outcome (ed_point * Z * Z) :=
  let! pk := mul_scalar_element (edwards_group C) g secret in
  let! r := mul_scalar_element (edwards_group C) g nonce in
  let! e := compress_evaluate m (snd r) msg in
  Ok (pk, fsub nonce (fmul secret e), e).
Definition verify_demo (s e msg : Z) (pk : point) : outcome (bool * list Z) :=
  let F : Field := F11 in
  demo [s; e; msg; fst pk; snd pk] (schnorr_verify demo_group (e_wire 1, e_wire 2) (e_wire 3) (e_wire 4, e_wire 5) sum_compress) (fun _ => []).

(** Over F_11 with a = 1, d = 2 the point (4,3) has order 12.  Secret key 5, nonce 7 and message 3: the reduction modulo 12 gives a
    signature the verifier accepts (the hypotheses of [C60_signed_accepted] hold). *)
Example C60_example : let F : Field := F11 in
  ed_mul 1 2 12 (4, 3) = ed_zero /\ 3 mod 12 = (7 - 5 * 8) mod 12 /\ 8 = (2 * snd (ed_mul 1 2 7 (4, 3)) + 3) mod 11 /\
  verify_demo 3 8 3 (ed_mul 1 2 5 (4, 3)) = Ok (true, []).
Proof. intro F. repeat split; vm_compute; reflexivity. Qed.

(** The recipe of the repository's test fails on the same keys. *)
Theorem C60_field_arithmetic_refuted : let F : Field := F11 in
  exists secret nonce msg pk s e, test_sign (mkEd 1 2) (4, 3) sum_compress secret nonce msg = Ok (pk, s, e) /\
    pk = ed_mul 1 2 (Z.to_nat secret) (4, 3) /\ verify_demo s e msg pk = Ok (false, []).
Proof. intro F. exists 5, 7, 3, (4, 8), 0, 8. repeat split; vm_compute; reflexivity. Qed.
Print Assumptions C60_field_arithmetic_refuted.
