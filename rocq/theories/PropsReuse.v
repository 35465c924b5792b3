(** C98: Schnorr signatures with a repeated commitment, and keys that differ by a point of small order. *)
From Coq Require Import ZArith List Bool Arith Lia Znumtheory.
From Verif Require Import Base FieldM FieldP ExprM BuilderM GadgetsM CryptoM CurveM Spec SpecCrypto SpecCurve SpecDecide ExprP SoundP ExecP HonestP CompleteP CoreP Demo PropLib
  PrimeP EdwardsP ProjP ChainP CurveP PropsCost PropsCrypto PropsCurve PropsSchnorr PropsOrder DecideP PropsDecide PropsSign PropsCyclic.
Import ListNotations.
Open Scope Z_scope.

(** ** C98 *)
(** The point from which the verifier computes the hash, for the signature (s, e) and the key PK. *)
Definition commitment {F : Field} (a d : Z) (g PK : point) (s e : Z) : point :=
  ed_add a d (ed_mul a d (Z.to_nat s) g) (ed_mul a d (Z.to_nat e) PK).

(** When two signatures under the key x g have commitments of the same height. *)
Theorem C98_same_commitment : forall (F : Field), prime order -> 2 < order -> forall a d g, complete_curve a d -> on_curve a d g ->
  forall N, (forall n, ed_mul a d n g = ed_zero <-> (N | Z.of_nat n)) ->
  forall x s1 e1 s2 e2, 0 <= x -> 0 <= s1 -> 0 <= e1 -> 0 <= s2 -> 0 <= e2 -> let PK := ed_mul a d (Z.to_nat x) g in
  snd (commitment a d g PK s1 e1) = snd (commitment a d g PK s2 e2) <->
  (N | (s1 + x * e1) - (s2 + x * e2)) \/ (N | (s1 + x * e1) + (s2 + x * e2)).
Proof.
  intros F Hp H2 a d g Hcc Og N HN x s1 e1 s2 e2 X S1 E1 S2 E2 PK.
  assert (K : forall s e, 0 <= s -> 0 <= e -> commitment a d g PK s e = ed_mul a d (Z.to_nat (s + x * e)) g).
  { intros s e S E. unfold commitment, PK. rewrite <- (mul_mul Hp H2 a d Hcc) by exact Og. rewrite <- (mul_add Hp H2 a d Hcc) by exact Og.
    f_equal. nia. }
  rewrite !K by assumption. clear K.
  pose proof (mul_on_curve Hp H2 a d Hcc (Z.to_nat (s1 + x * e1)) g Og) as O1. pose proof (mul_on_curve Hp H2 a d Hcc (Z.to_nat (s2 + x * e2)) g Og) as O2.
  pose proof (same_height Hp H2 a d Hcc _ _ O2 O1) as SH.
  rewrite (same_multiple Hp H2 a d Hcc g Og N HN), (opposite_multiple Hp H2 a d Hcc g Og N HN) in SH.
  rewrite !Z2Nat.id in SH by nia. rewrite <- SH. split; intro Q; symmetry; exact Q.
Qed.
Print Assumptions C98_same_commitment.

(** Then the secret is known modulo every prime divisor r of the order of the generator for which e1 - e2 and e1 + e2 are invertible:
    it is one of two values that anybody can compute from the signatures. *)
Theorem C98_secret_revealed : forall (F : Field), prime order -> 2 < order -> forall a d g, complete_curve a d -> on_curve a d g ->
  forall N, (forall n, ed_mul a d n g = ed_zero <-> (N | Z.of_nat n)) ->
  forall x s1 e1 s2 e2, 0 <= x -> 0 <= s1 -> 0 <= e1 -> 0 <= s2 -> 0 <= e2 -> let PK := ed_mul a d (Z.to_nat x) g in
  snd (commitment a d g PK s1 e1) = snd (commitment a d g PK s2 e2) ->
  forall r, prime r -> (r | N) ->
  forall u u', (u * (e1 - e2)) mod r = 1 -> (u' * (e1 + e2)) mod r = 1 ->
  x mod r = (u * (s2 - s1)) mod r \/ x mod r = (u' * (- s1 - s2)) mod r.
Proof.
  intros F Hp H2 a d g Hcc Og N HN x s1 e1 s2 e2 X S1 E1 S2 E2 PK Q r Hr RN u u' U U'.
  apply (C98_same_commitment F Hp H2 a d g Hcc Og N HN) in Q; [|assumption..].
  assert (R2 : 2 <= r) by (apply prime_ge_2; exact Hr).
  assert (K : forall w z t, (w * z) mod r = 1 -> (r | x * z - t) -> x mod r = (w * t) mod r).
  { intros w z t W [q D]. replace (w * t) with ((w * z) * x + (- (w * q)) * r) by lia. rewrite Z.mod_add by lia. rewrite Z.mul_mod, W, Z.mul_1_l, Z.mod_mod by lia. reflexivity. }
  destruct Q as [Q|Q]; apply (Z.divide_trans r N _ RN) in Q; [left|right].
  - apply (K _ _ _ U). replace (x * (e1 - e2) - (s2 - s1)) with (s1 + x * e1 - (s2 + x * e2)) by ring. exact Q.
  - apply (K _ _ _ U'). replace (x * (e1 + e2) - (- s1 - s2)) with (s1 + x * e1 + (s2 + x * e2)) by ring. exact Q.
Qed.
Print Assumptions C98_secret_revealed.

Section Sum.
Context {F : Field} (Hp : prime order) (H2 : 2 < order) (a d : Z) (Hcc : complete_curve a d).
Lemma mul_sum n P Q : on_curve a d P -> on_curve a d Q -> ed_mul a d n (ed_add a d P Q) = ed_add a d (ed_mul a d n P) (ed_mul a d n Q).
Proof using Hp H2 Hcc.
  intros OP OQ. pose proof (fun k R => mul_on_curve Hp H2 a d Hcc k R) as OM. pose proof (add_on_curve Hp H2 a d Hcc) as OA.
  induction n as [|n IH]; cbn [ed_mul]; [symmetry; apply (add_zero_r Hp H2 a d Hcc), (zero_on_curve H2)|]. rewrite IH.
  rewrite !(add_assoc Hp H2 a d Hcc) by auto. f_equal. rewrite <- !(add_assoc Hp H2 a d Hcc) by auto. f_equal. apply add_comm.
Qed.
End Sum.

(** Executing the verifier with the key PK + T, where n T = 0, on a signature whose e is a multiple of n decides the same claim as with PK. *)
Theorem C98_shifted_key : forall (F : Field), prime order -> 2 < order -> forall C g m H,
  complete_curve (ed_a C) (ed_d C) -> on_curve (ed_a C) (ed_d C) g -> completes2 m H ->
  forall PK T n, on_curve (ed_a C) (ed_d C) PK -> on_curve (ed_a C) (ed_d C) T -> ed_mul (ed_a C) (ed_d C) n T = ed_zero ->
  forall vals s e msg pk, good_inputs vals -> on_inputs vals s -> on_inputs vals e -> on_inputs vals msg -> on_inputs_p vals pk ->
  (Z.of_nat n | wv vals e) ->
  evp (input_witness vals) pk = PK \/ evp (input_witness vals) pk = ed_add (ed_a C) (ed_d C) PK T ->
  decides vals (schnorr_verify (mkCyclic (edwards_group C) (Ok g)) (s, e) msg pk m)
    (wv vals e = H (snd (commitment (ed_a C) (ed_d C) g PK (wv vals s) (wv vals e))) (wv vals msg)).
Proof.
  intros F Hp H2 C g m H Hcc Og Hm PK T n OP OT HT vals s e msg pk Hv Hs He Hmsg Hpk DV Epk.
  set (a := ed_a C) in *. set (d := ed_d C) in *.
  assert (OQ : on_curve a d (evp (input_witness vals) pk)). { destruct Epk as [->| ->]; [exact OP|apply (add_on_curve Hp H2 a d Hcc); assumption]. }
  assert (EM : ed_mul a d (Z.to_nat (wv vals e)) (evp (input_witness vals) pk) = ed_mul a d (Z.to_nat (wv vals e)) PK).
  { destruct Epk as [->| ->]; [reflexivity|]. rewrite (mul_sum Hp H2 a d Hcc) by assumption.
    assert (Ie : 0 <= wv vals e) by (apply ev_infield; lia). destruct DV as [q Q].
    assert (Z0 : ed_mul a d (Z.to_nat (wv vals e)) T = ed_zero).
    { destruct n as [|n]; [replace (wv vals e) with 0 by lia; reflexivity|]. assert (0 <= q) by nia.
      replace (Z.to_nat (wv vals e)) with (Z.to_nat q * S n)%nat by nia. rewrite (mul_mul Hp H2 a d Hcc), HT by exact OT. apply (mul_zero Hp H2 a d Hcc). }
    rewrite Z0. apply (add_zero_r Hp H2 a d Hcc), (mul_on_curve Hp H2 a d Hcc), OP. }
  pose proof (C87_signature F Hp H2 C g m H Hcc Og Hm vals s e msg pk Hv Hs He Hmsg Hpk OQ) as D. fold a d in D. rewrite EM in D. exact D.
Qed.
Print Assumptions C98_shifted_key.

(** Over JubJub: when e is a multiple of 8, the signature is valid for eight keys at once, the secrets of which differ by multiples of r. *)
Theorem C98_eight_keys : let F : Field := Bls12_381 in let a := ed_a jubjub in let d := ed_d jubjub in
  forall g, generator_element jubjub_subgroup = Ok g -> forall m H, completes2 m H ->
  forall r x k, Z.of_nat r = jubjub_r ->
  forall vals s e msg pk, good_inputs vals -> on_inputs vals s -> on_inputs vals e -> on_inputs vals msg -> on_inputs_p vals pk ->
  (8 | wv vals e) -> evp (input_witness vals) pk = ed_mul a d (x + k * r) g ->
  decides vals (schnorr_verify jubjub_subgroup (s, e) msg pk m)
    (wv vals e = H (snd (commitment a d g (ed_mul a d x g) (wv vals s) (wv vals e))) (wv vals msg)).
Proof.
  intros F a d g Hg m H Hm r x k Hr vals s e msg pk Hv Hs He Hmsg Hpk D8 Epk.
  pose proof (vanish g 8 (k * r) Hg) as V. fold F a d in V.
  destruct C57_jubjub_complete as (Hcc & OG & G). fold F in G. pose proof (eq_trans (eq_sym G) Hg) as EG. injection EG as EG.
  change (jubjub_generator = Ok (jubjub_gx, jubjub_gy)) in G. unfold jubjub_subgroup. rewrite G. fold F a d in Hcc, OG. rewrite EG in OG |- *.
  assert (H2 : 2 < @order F) by reflexivity.
  apply (C98_shifted_key F prime_Bls12_381 H2 jubjub g m H Hcc OG Hm (ed_mul a d x g) (ed_mul a d (k * r) g) 8); try assumption.
  - apply (mul_on_curve prime_Bls12_381 H2 a d Hcc), OG.
  - apply (mul_on_curve prime_Bls12_381 H2 a d Hcc), OG.
  - apply V. rewrite Nat2Z.inj_mul, Hr. exists (Z.of_nat k). change (Z.of_nat 8) with 8. ring.
  - right. rewrite Epk. apply (mul_add prime_Bls12_381 H2 a d Hcc), OG.
Qed.
Print Assumptions C98_eight_keys.

(** Over F_11 with the generator (4, 3) of order 12: the secret 5 and the nonce 7 used for e = 1 and e = 3 give s = 2 and s = 4; the commitments
    agree and the secret modulo 3 is (s2 - s1) / (e1 - e2) = 2.  The point (0, 10) has order 2; for e = 4 the key 5 (4, 3) + (0, 10) is as good. *)
Example C98_example : let F : Field := F11 in let PK := ed_mul 1 2 5 (4, 3) in
  commitment 1 2 (4, 3) PK 2 1 = commitment 1 2 (4, 3) PK 4 3 /\ commitment 1 2 (4, 3) PK 2 1 = ed_mul 1 2 7 (4, 3) /\
  (1 * (1 - 3)) mod 3 = 1 /\ (1 * (1 + 3)) mod 3 = 1 /\ 5 mod 3 = (1 * (4 - 2)) mod 3 /\
  (let T := (0, 10) in ed_mul 1 2 2 T = ed_zero /\ ed_add 1 2 PK T <> PK /\
    commitment 1 2 (4, 3) (ed_add 1 2 PK T) 6 4 = commitment 1 2 (4, 3) PK 6 4).
Proof. cbv zeta. repeat split; try (vm_compute; reflexivity). vm_compute. discriminate. Qed.
