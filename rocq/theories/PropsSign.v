(** C88: exactly which signatures made from a secret and a nonce verify; the signature of the repository's own test does not. *)
From Coq Require Import ZArith List Bool Arith Lia Znumtheory.
From Verif Require Import Base FieldM FieldP ExprM BuilderM GadgetsM CryptoM CurveM Spec SpecCrypto SpecCurve SpecDecide ExprP SoundP ExecP HonestP CompleteP CoreP MiscP Demo PropLib
  PrimeP EdwardsP ProjP NonceP CurveP PropsCost PropsCrypto PropsCurve PropsSchnorr PropsOrder DecideP PropsDecide.
Import ListNotations.
Open Scope Z_scope.

Section Curve.
Context {F : Field} (Hp : prime order) (H2 : 2 < order) (a d : Z) (Hcc : complete_curve a d).
Local Infix "==" := feqm (at level 70).

(** the coefficient of x^2 in the curve equation does not vanish *)
Lemma height_nz P : on_curve a d P -> ~ a - d * snd P ^ 2 == 0.
Proof using Hp H2 Hcc.
  intros HP E. pose proof (on_curve_crv H2 a d P HP) as C. destruct Hcc as [[s Hs] Hd]. destruct P as [x y]. cbn [fst snd] in *. unfold crv in C.
  change (s * s == a) in Hs. destruct (Z.eq_dec (y mod order) 0) as [Y|Y].
  - assert (Y0 : y == 0) by (unfold feqm; rewrite Y, Z.mod_0_l by lia; reflexivity).
    apply (one_nz H2). apply (lc3 H2 _ _ _ _ _ _ _ _ C E Y0 (-1) (x ^ 2) y). ring.
  - assert (YN : ~ y == 0) by (intro Q; unfold feqm in Q; rewrite Z.mod_0_l in Q by lia; exact (Y Q)).
    pose proof (zinv_ok Hp H2 _ YN) as I. apply (Hd (s * zinv y)). change (s * zinv y * (s * zinv y) == d).
    apply (lc3 H2 _ _ _ _ _ _ _ _ Hs E I (zinv y ^ 2) (zinv y ^ 2) (d * (y * zinv y + 1))). ring.
Qed.
Lemma same_height P Q : on_curve a d P -> on_curve a d Q -> (snd P = snd Q <-> Q = P \/ Q = ed_neg P).
Proof using Hp H2 Hcc.
  intros HP HQ. split.
  - intro EY. pose proof (height_nz P HP) as NZ. pose proof (on_curve_crv H2 a d P HP) as CP. pose proof (on_curve_crv H2 a d Q HQ) as CQ.
    pose proof (neg_on_curve H2 a d P HP) as [NP _]. destruct HP as [IP _], HQ as [IQ _].
    destruct P as [x y], Q as [x' y']. cbn [fst snd ed_neg] in *. subst y'. unfold crv in *.
    assert (E : (x' - x) * (x' + x) == 0).
    { apply (cancel Hp H2 _ _ _ NZ). apply (lc2 H2 _ _ _ _ _ _ CP CQ (-1) 1). ring. }
    apply (feqm_integral Hp) in E. destruct E as [E|E]; [left|right].
    + apply (point_eq H2); try assumption; cbn [fst snd]; [|reflexivity]. apply (lc1 H2 _ _ _ _ E 1). ring.
    + apply (point_eq H2); try assumption; cbn [fst snd]; [|reflexivity]. transitivity (- x); [apply (lc1 H2 _ _ _ _ E 1); ring|symmetry; apply (feqm_mod (ord2 H2))].
  - intros [->| ->]; reflexivity.
Qed.

Section Order.
Context (g : point) (Og : on_curve a d g) (N : Z) (HN : forall n, ed_mul a d n g = ed_zero <-> (N | Z.of_nat n)).
Lemma same_multiple m n : ed_mul a d m g = ed_mul a d n g <-> (N | Z.of_nat m - Z.of_nat n).
Proof using Hp H2 Hcc Og HN.
  assert (W : forall m n, (m <= n)%nat -> ed_mul a d m g = ed_mul a d n g <-> (N | Z.of_nat n - Z.of_nat m)).
  { clear m n. intros m n L. replace (Z.of_nat n - Z.of_nat m) with (Z.of_nat (n - m)) by lia. rewrite <- HN. replace n with (m + (n - m))%nat at 1 by lia.
    rewrite (mul_add Hp H2 a d Hcc) by exact Og. pose proof (mul_on_curve Hp H2 a d Hcc m g Og) as OM. pose proof (mul_on_curve Hp H2 a d Hcc (n - m) g Og) as OD.
    split; intro E.
    - symmetry. apply (sum_cancel Hp H2 a d Hcc _ _ _ OM); [apply zero_on_curve; exact H2|exact OD|]. rewrite (add_zero_r Hp H2 a d Hcc) by exact OM. exact E.
    - rewrite E. symmetry. apply (add_zero_r Hp H2 a d Hcc), OM. }
  destruct (le_lt_dec m n) as [L|L].
  - rewrite (W m n L). rewrite <- (Z.divide_opp_r N (_ - _)). rewrite Z.opp_sub_distr, Z.add_comm, Z.add_opp_r. reflexivity.
  - rewrite <- (W n m) by lia. split; intro E; symmetry; exact E.
Qed.
Lemma opposite_multiple m n : ed_mul a d m g = ed_neg (ed_mul a d n g) <-> (N | Z.of_nat m + Z.of_nat n).
Proof using Hp H2 Hcc Og HN.
  rewrite <- Nat2Z.inj_add, <- HN, Nat.add_comm, (mul_add Hp H2 a d Hcc) by exact Og.
  pose proof (mul_on_curve Hp H2 a d Hcc m g Og) as OM. pose proof (mul_on_curve Hp H2 a d Hcc n g Og) as ON. split; intro E.
  - rewrite E. apply (add_neg Hp H2 a d Hcc), ON.
  - apply (sum_cancel Hp H2 a d Hcc _ _ _ ON OM); [apply neg_on_curve; [exact H2|exact ON]|]. rewrite E. symmetry. apply (add_neg Hp H2 a d Hcc), ON.
Qed.
End Order.
End Curve.

(** ** C88 *)
(** signature.rs leaves open whether "compressing the Edwards Curve point to the Y-coordinate is valid": it forgets exactly the sign of the point. *)
Theorem C88_same_height : forall (F : Field), prime order -> 2 < order -> forall a d, complete_curve a d ->
  forall P Q, on_curve a d P -> on_curve a d Q -> (snd P = snd Q <-> Q = P \/ Q = ed_neg P).
Proof. intros F Hp H2 a d Hcc P Q. apply same_height; assumption. Qed.
Print Assumptions C88_same_height.

(** For a generator of order N, a key pair (x, x g) and a nonce k with e = H(y(k g), msg), the verifier reports true for [s] exactly when
    s + x e is k or -k modulo N, or H(., msg) maps two different coordinates to the same value. *)
Theorem C88_decided : forall (F : Field), prime order -> 2 < order -> forall C g m H,
  complete_curve (ed_a C) (ed_d C) -> on_curve (ed_a C) (ed_d C) g -> completes2 m H ->
  forall N, (forall n, ed_mul (ed_a C) (ed_d C) n g = ed_zero <-> (N | Z.of_nat n)) ->
  forall secret nonce vals s e msg pk, good_inputs vals -> on_inputs vals s -> on_inputs vals e -> on_inputs vals msg -> on_inputs_p vals pk ->
  evp (input_witness vals) pk = ed_mul (ed_a C) (ed_d C) secret g ->
  wv vals e = H (snd (ed_mul (ed_a C) (ed_d C) nonce g)) (wv vals msg) ->
  let total := wv vals s + Z.of_nat secret * wv vals e in
  let y n := snd (ed_mul (ed_a C) (ed_d C) n g) in
  decides vals (schnorr_verify (mkCyclic (edwards_group C) (Ok g)) (s, e) msg pk m)
    ((N | total - Z.of_nat nonce) \/ (N | total + Z.of_nat nonce) \/
     (y (Z.to_nat total) <> y nonce /\ H (y (Z.to_nat total)) (wv vals msg) = H (y nonce) (wv vals msg))).
Proof.
  intros F Hp H2 C g m H Hcc Og Hm N HN secret nonce vals s e msg pk Hv Hs He Hmsg Hpk Epk Ee total y.
  set (a := ed_a C) in *. set (d := ed_d C) in *.
  assert (Is : 0 <= wv vals s) by (apply ev_infield; lia). assert (Ie : 0 <= wv vals e) by (apply ev_infield; lia).
  assert (T0 : 0 <= total) by (unfold total; nia).
  eapply decides_iff; [|apply (C87_signature F Hp H2 C g m H Hcc Og Hm vals s e msg pk Hv Hs He Hmsg Hpk)].
  - fold a d. rewrite Epk. rewrite <- (mul_mul Hp H2 a d Hcc) by exact Og. rewrite <- (mul_add Hp H2 a d Hcc) by exact Og.
    replace (Z.to_nat (wv vals s) + Z.to_nat (wv vals e) * secret)%nat with (Z.to_nat total) by (unfold total; nia). fold (y (Z.to_nat total)).
    pose proof (same_multiple Hp H2 a d Hcc g Og N HN (Z.to_nat total) nonce) as S1. pose proof (opposite_multiple Hp H2 a d Hcc g Og N HN (Z.to_nat total) nonce) as S2.
    rewrite Z2Nat.id in S1, S2 by exact T0. rewrite <- S1, <- S2, Ee. fold (y nonce).
    pose proof (same_height Hp H2 a d Hcc _ _ (mul_on_curve Hp H2 a d Hcc nonce g Og) (mul_on_curve Hp H2 a d Hcc (Z.to_nat total) g Og)) as SH.
    fold (y nonce) (y (Z.to_nat total)) in SH.
    destruct (Z.eq_dec (y nonce) (y (Z.to_nat total))) as [E|E].
    + split; intro K; [|rewrite E; reflexivity]. apply SH in E. tauto.
    + split; [intro K; right; right; split; congruence|]. intros [K|[K|[_ K]]]; [| |congruence]; exfalso; apply E; apply SH; tauto.
  - rewrite Epk. apply (mul_on_curve Hp H2 a d Hcc), Og.
Qed.
Print Assumptions C88_decided.

(** The recipe of the repository's test computes s in the field, so s + x e = k + t * order for some t.  Over JubJub such a signature verifies
    exactly when 8 r divides t or 2 k + t * order, or H collides. *)
Lemma order_prime_8r : rel_prime (8 * jubjub_r) (@order Bls12_381).
Proof.
  apply rel_prime_sym, prime_rel_prime; [exact prime_Bls12_381|]. intro D.
  apply Z.divide_pos_le in D; [|reflexivity]. assert (L : 8 * jubjub_r < @order Bls12_381) by reflexivity. lia.
Qed.
Theorem C88_field_recipe : let F : Field := Bls12_381 in let a := ed_a jubjub in let d := ed_d jubjub in
  forall g, generator_element jubjub_subgroup = Ok g -> forall m H, completes2 m H ->
  forall secret nonce t vals s e msg pk, good_inputs vals -> on_inputs vals s -> on_inputs vals e -> on_inputs vals msg -> on_inputs_p vals pk ->
  evp (input_witness vals) pk = ed_mul a d secret g ->
  wv vals e = H (snd (ed_mul a d nonce g)) (wv vals msg) ->
  wv vals s + Z.of_nat secret * wv vals e = Z.of_nat nonce + t * order ->
  let y n := snd (ed_mul a d n g) in let total := Z.to_nat (Z.of_nat nonce + t * order) in
  decides vals (schnorr_verify jubjub_subgroup (s, e) msg pk m)
    ((8 * jubjub_r | t) \/ (8 * jubjub_r | 2 * Z.of_nat nonce + t * order) \/
     (y total <> y nonce /\ H (y total) (wv vals msg) = H (y nonce) (wv vals msg))).
Proof.
  intros F a d g Hg m H Hm secret nonce t vals s e msg pk Hv Hs He Hmsg Hpk Epk Ee Et y total.
  pose proof (proj2 C80_order g Hg) as O. pose proof order_prime_8r as RP. set (N := 8 * jubjub_r) in *. clearbody N.
  destruct C57_jubjub_complete as (Hcc & OG & G). fold F in G. rewrite G in Hg. injection Hg as <-. fold F a d in Hcc, OG, O.
  pose proof (C88_decided F prime_Bls12_381 eq_refl jubjub _ m H Hcc OG Hm N O secret nonce vals s e msg pk Hv Hs He Hmsg Hpk Epk Ee) as D.
  change (jubjub_generator = Ok (jubjub_gx, jubjub_gy)) in G. unfold jubjub_subgroup. rewrite G.
  eapply decides_iff; [|exact D]. cbv zeta. fold a d. rewrite Et. fold total. fold (y total) (y nonce).
  replace (Z.of_nat nonce + t * order - Z.of_nat nonce) with (t * order) by ring.
  replace (Z.of_nat nonce + t * order + Z.of_nat nonce) with (2 * Z.of_nat nonce + t * order) by ring.
  assert (K : (N | t * order) <-> (N | t)).
  { split; intro Q; [|apply Z.divide_mul_l, Q]. rewrite Z.mul_comm in Q. apply (Gauss _ _ _ Q). exact RP. }
  rewrite K. reflexivity.
Qed.
Print Assumptions C88_field_recipe.

(** signature.rs 116-124 [TestCompress]: x * 2 + y, over any field. *)
Definition test_compress {F : Field} : compression := fun x y => blift (let! x2 := e_scale_u128 x 2 in Ok (e_add x2 y)).
Lemma test_completes {F : Field} (Hp : prime order) (H2 : 2 < order) : completes2 test_compress (fun x y => ((x * 2) mod order + y) mod order).
Proof.
  intros D P st x y u v Hx Hy. unfold test_compress. rewrite (e_scale_u128_spec (prime_ge2 Hp)) by (unfold infield; lia). cbn [obind].
  match goal with |- comp _ _ _ (blift (Ok ?r)) _ => change (comp D P st (bret r) (done P (fun z s' => has s' z (((u * 2) mod order + v) mod order)))) end. apply comp_ret. split; [reflexivity|]. apply (has_add Hp); [apply (has_scale Hp), Hx|exact Hy].
Qed.
Lemma test_injective {F : Field} (Hp : prime order) (H2 : 2 < order) u v msg : infield u -> infield v ->
  ((u * 2) mod order + msg) mod order = ((v * 2) mod order + msg) mod order -> u = v.
Proof.
  intros Iu Iv E. assert (K : feqm (u - v) 0).
  { apply (cancel Hp H2 2); [apply two_nz, H2|]. rewrite !Zplus_mod_idemp_l in E. change (feqm (u * 2 + msg) (v * 2 + msg)) in E.
    apply (lc1 H2 _ _ _ _ E 1). ring. }
  unfold feqm in K. unfold infield in *. rewrite Z.mod_0_l in K by lia. apply Z.mod_divide in K; [|lia]. destruct K as [q K]. assert (q = 0) by nia. lia.
Qed.
Lemma const_inputs c : on_inputs [] (e_const c).
Proof. apply over_const. unfold ONE. cbn. lia. Qed.
Lemma const_value {F : Field} (Hp : prime order) c : infield c -> wv [] (e_const c) = c.
Proof. intro I. apply ev_const; [apply (prime_ge2 Hp)|reflexivity|exact I]. Qed.

(** The repository's test verifies constants, with no input wires.  Its hash is injective in the coordinate, so no collision can help. *)
Theorem C88_test_setting : let F : Field := Bls12_381 in let a := ed_a jubjub in let d := ed_d jubjub in
  forall g, generator_element jubjub_subgroup = Ok g ->
  forall secret nonce msg s, infield secret -> infield nonce -> infield msg -> infield s ->
  let pk := ed_mul a d (Z.to_nat secret) g in
  let e := (2 * snd (ed_mul a d (Z.to_nat nonce) g) + msg) mod order in
  test_sign jubjub g test_compress secret nonce msg = Ok (pk, (nonce - secret * e) mod order, e) /\
  decides [] (schnorr_verify jubjub_subgroup (e_const s, e_const e) (e_const msg) (ed_of_point pk) test_compress)
    ((8 * jubjub_r | s + secret * e - nonce) \/ (8 * jubjub_r | s + secret * e + nonce)).
Proof.
  intros F a d g Hg secret nonce msg s Ix Ik Im Is pk e.
  pose proof (proj2 C80_order g Hg) as O. set (N := 8 * jubjub_r) in *. clearbody N.
  destruct C57_jubjub_complete as (Hcc & OG & G). fold F in G. rewrite G in Hg. injection Hg as <-. fold F a d in Hcc, OG, O.
  assert (H2 : 2 < @order F) by reflexivity. pose proof prime_Bls12_381 as Hp. fold F in Hp.
  pose proof (mul_on_curve Hp H2 a d Hcc (Z.to_nat secret) _ OG) as OPK. fold pk in OPK.
  pose proof (mul_on_curve Hp H2 a d Hcc (Z.to_nat nonce) _ OG) as OR. set (R := ed_mul a d (Z.to_nat nonce) (jubjub_gx, jubjub_gy)) in *.
  assert (IR : infield (snd R)) by apply OR.
  assert (Ie : infield e) by (apply Z.mod_pos_bound; lia).
  assert (Ee : e = ((snd R * 2) mod order + msg) mod order).
  { unfold e. rewrite Zplus_mod_idemp_l. f_equal. ring. }
  split.
  - unfold test_sign. rewrite (C53_scalar_element F Hp H2 jubjub Hcc _ secret OG Ix). cbn [obind]. fold a d. fold pk.
    rewrite (C53_scalar_element F Hp H2 jubjub Hcc _ nonce OG Ik). cbn [obind]. fold a d. fold R.
    unfold compress_evaluate. rewrite (evaluate2 Hp _ _ _ _ (test_completes Hp H2) IR Im). cbn [obind]. rewrite <- Ee. f_equal. f_equal. f_equal.
    rewrite (fsub_mod Hp). unfold fmul. apply Zminus_mod_idemp_r.
  - assert (EPK : evp (input_witness []) (ed_of_point pk) = pk).
    { destruct OPK as [[P1 P2] _]. unfold evp, ed_of_point. cbn [fst snd]. rewrite !(const_value Hp) by assumption. symmetry. apply surjective_pairing. }
    pose proof (C88_decided F Hp H2 jubjub _ test_compress _ Hcc OG (test_completes Hp H2) N O (Z.to_nat secret) (Z.to_nat nonce) [] (e_const s) (e_const e) (e_const msg)
      (ed_of_point pk)) as D. fold a d in D. cbv zeta in D. rewrite !(const_value Hp) in D by assumption.
    rewrite !Z2Nat.id in D by (unfold infield in *; lia). fold R in D.
    change (jubjub_generator = Ok (jubjub_gx, jubjub_gy)) in G. unfold jubjub_subgroup. rewrite G.
    eapply decides_iff; [|apply D].
    + split; [|tauto]. intros [K|[K|[K1 K2]]]; [tauto|tauto|]. exfalso. apply K1. apply (test_injective Hp H2 _ _ msg); [|exact IR|exact K2].
      apply (mul_on_curve Hp H2 a d Hcc _ _ OG).
    + constructor.
    + apply const_inputs.
    + apply const_inputs.
    + apply const_inputs.
    + split; apply const_inputs.
    + exact EPK.
    + exact Ee.
Qed.
Print Assumptions C88_test_setting.

(** signature.rs 72-114: the numbers of the repository's test.  The test ignores what [execute] returns; it is false.  With [s] reduced modulo
    8 r instead, the same keys, nonce and message verify. *)
Definition test_secret : Z := 4372820819045374670962167435360035096875258.
Definition test_nonce : Z := 5434290453746709621674353600312312.
Definition test_height : Z := 20768235325647688462191456411928567812092467772926728408730412557216485238242.
Definition nonce_pos : positive := Z.to_pos test_nonce.
Lemma nonce_table : match run_steps (@order Bls12_381) (ed_d jubjub) nonce_steps [(1%positive, (jubjub_gx, jubjub_gy))] with
  | Some tbl => existsb (fun e => Pos.eqb (fst e) nonce_pos && (snd (snd e) =? test_height)) tbl
  | None => false
  end = true.
Proof. vm_compute. reflexivity. Qed.
Lemma nonce_height : let F : Field := Bls12_381 in snd (ed_mul (ed_a jubjub) (ed_d jubjub) (Z.to_nat test_nonce) (jubjub_gx, jubjub_gy)) = test_height.
Proof.
  intro F. change (Z.to_nat test_nonce) with (Pos.to_nat nonce_pos). destruct C57_jubjub_complete as (Hcc & OG & _). fold F in Hcc, OG.
  pose proof nonce_table as T. destruct (run_steps _ _ _ _) as [tbl|] eqn:E; [|discriminate T]. fold F in E.
  apply existsb_exists in T. destruct T as ([k Q] & HI & B). rewrite andb_true_iff, Pos.eqb_eq, Z.eqb_eq in B. cbn [fst snd] in B. destruct B as [-> B].
  assert (A : Forall (right_multiple (ed_a jubjub) (ed_d jubjub) (jubjub_gx, jubjub_gy)) tbl).
  { apply (run_steps_ok (prime_Bls12_381 : prime (@order F)) eq_refl (ed_a jubjub) (ed_d jubjub) Hcc jubjub_a _ OG _ _ _) in E; [exact E|]. constructor; [|constructor].
    unfold right_multiple. cbn [fst snd]. apply (mul_1 (prime_Bls12_381 : prime (@order F)) eq_refl _ _ Hcc _ OG). }
  rewrite Forall_forall in A. pose proof (A _ HI) as R. unfold right_multiple in R. cbn [fst snd] in R. rewrite R. exact B.
Qed.
Definition test_e : Z := (2 * test_height + 12345) mod @order Bls12_381.
Lemma not_divides N x : 0 < N -> x mod N <> 0 -> ~ (N | x).
Proof. intros N0 H D. apply H. apply Z.mod_divide; [lia|exact D]. Qed.

Theorem C88_repository_test : let F : Field := Bls12_381 in
  exists g pk s e, generator_element jubjub_subgroup = Ok g /\ test_sign jubjub g test_compress test_secret test_nonce 12345 = Ok (pk, s, e) /\
    decides [] (schnorr_verify jubjub_subgroup (e_const s, e_const e) (e_const 12345) (ed_of_point pk) test_compress) False /\
    decides [] (schnorr_verify jubjub_subgroup (e_const ((test_nonce - test_secret * e) mod (8 * jubjub_r)), e_const e) (e_const 12345) (ed_of_point pk) test_compress) True.
Proof.
  cbv zeta. destruct C57_jubjub_complete as (_ & _ & G). pose proof nonce_height as NH. cbv zeta in NH.
  assert (Ix : @infield Bls12_381 test_secret) by (split; [discriminate|reflexivity]). assert (Ik : @infield Bls12_381 test_nonce) by (split; [discriminate|reflexivity]).
  assert (Im : @infield Bls12_381 12345) by (split; [discriminate|reflexivity]). 
  set (s1 := (test_nonce - test_secret * test_e) mod @order Bls12_381). set (s2 := (test_nonce - test_secret * test_e) mod (8 * jubjub_r)).
  assert (I1 : @infield Bls12_381 s1) by (apply Z.mod_pos_bound; reflexivity). assert (I2 : @infield Bls12_381 s2) by (apply residue_infield; reflexivity).
  pose proof (C88_test_setting _ G test_secret test_nonce 12345 s1 Ix Ik Im I1) as [T1 D1].
  pose proof (C88_test_setting _ G test_secret test_nonce 12345 s2 Ix Ik Im I2) as [_ D2].
  cbv zeta in T1, D1, D2. rewrite NH in T1, D1, D2. change ((2 * test_height + 12345) mod @order Bls12_381) with test_e in T1, D1, D2. fold s1 in T1.
  set (pk := ed_mul (ed_a jubjub) (ed_d jubjub) (Z.to_nat test_secret) (jubjub_gx, jubjub_gy)) in *. clearbody pk.
  exists (jubjub_gx, jubjub_gy), pk, s1, test_e. split; [exact G|]. split; [exact T1|]. split.
  - eapply decides_iff; [|exact D1]. split; [|tauto]. intros [K|K]; revert K; apply not_divides; try reflexivity; vm_compute; discriminate.
  - eapply decides_iff; [|exact D2]. split; [tauto|]. intros _. left. apply Z.mod_divide; [discriminate|]. vm_compute. reflexivity.
Qed.
Print Assumptions C88_repository_test.

(** Over F_11 with a = 1, d = 2 the point (4,3) has order 12; secret 5, nonce 7, message 3 and e = 8.  Exactly the [s] with s + 40 = 7 or -7
    modulo 12 verify: s = 3, and s = 1 through the sign. *)
Example C88_example : let F : Field := F11 in
  ed_mul 1 2 12 (4, 3) = ed_zero /\ forallb (fun n => negb (snd (ed_mul 1 2 n (4, 3)) =? 1)) [1; 2; 3; 4; 5; 6; 7; 8; 9; 10; 11]%nat = true /\
  map (fun s => verify_demo s 8 3 (ed_mul 1 2 5 (4, 3))) [0; 1; 2; 3; 4; 5; 6; 7; 8; 9; 10] =
  map (fun s => Ok (((s + 40 - 7) mod 12 =? 0) || ((s + 40 + 7) mod 12 =? 0), [])) [0; 1; 2; 3; 4; 5; 6; 7; 8; 9; 10].
Proof. intro F. split; [|split]; vm_compute; reflexivity. Qed.
