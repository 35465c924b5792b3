(** C106: the hash of a Schnorr signature does not cover the key, so signatures can be carried over to related keys. *)
From Coq Require Import ZArith List Bool Arith Lia Znumtheory.
From Verif Require Import Base FieldM FieldP ExprM BuilderM GadgetsM CryptoM CurveM Spec SpecCrypto SpecCurve SpecDecide ExprP SoundP ExecP HonestP CompleteP CoreP Demo PropLib
  PrimeP EdwardsP ProjP ChainP CurveP PropsCost PropsCrypto PropsCurve PropsSchnorr PropsOrder DecideP PropsDecide PropsSign PropsCyclic PropsReuse.
Import ListNotations.
Open Scope Z_scope.

Section Negation.
Context {F : Field} (Hp : prime order) (H2 : 2 < order) (a d : Z) (Hcc : complete_curve a d).
Lemma opposite P Q : on_curve a d P -> on_curve a d Q -> ed_add a d P Q = ed_zero -> Q = ed_neg P.
Proof using Hp H2 Hcc.
  intros OP OQ E. apply (sum_cancel Hp H2 a d Hcc P); [exact OP|exact OQ|apply (neg_on_curve H2 a d), OP|]. rewrite E, (add_neg Hp H2 a d Hcc) by exact OP. reflexivity.
Qed.
Lemma neg_add P Q : on_curve a d P -> on_curve a d Q -> ed_neg (ed_add a d P Q) = ed_add a d (ed_neg P) (ed_neg Q).
Proof using Hp H2 Hcc.
  intros OP OQ. pose proof (add_on_curve Hp H2 a d Hcc) as OA. pose proof (neg_on_curve H2 a d) as ON. symmetry. apply opposite; auto.
  rewrite (add_assoc Hp H2 a d Hcc) by auto. rewrite <- (add_assoc Hp H2 a d Hcc Q) by auto. rewrite (add_comm a d Q), (add_assoc Hp H2 a d Hcc (ed_neg P)) by auto.
  rewrite (add_neg Hp H2 a d Hcc Q OQ), (add_zero_r Hp H2 a d Hcc) by auto. apply (add_neg Hp H2 a d Hcc), OP.
Qed.
Lemma neg_zero : ed_neg ed_zero = ed_zero.
Proof using H2. unfold ed_neg, ed_zero. cbn [fst snd]. f_equal. Qed.
Lemma mul_neg n P : on_curve a d P -> ed_mul a d n (ed_neg P) = ed_neg (ed_mul a d n P).
Proof using Hp H2 Hcc.
  intro OP. induction n as [|n IH]; cbn [ed_mul]; [symmetry; apply neg_zero|]. rewrite IH. symmetry. apply neg_add; [exact OP|apply (mul_on_curve Hp H2 a d Hcc), OP].
Qed.

Context (g : point) (Og : on_curve a d g) (L : nat) (HL : ed_mul a d L g = ed_zero).
Lemma mul_congruent m n : (Z.of_nat L | Z.of_nat m - Z.of_nat n) -> ed_mul a d m g = ed_mul a d n g.
Proof using Hp H2 Hcc Og HL.
  assert (W : forall m n, (n <= m)%nat -> (Z.of_nat L | Z.of_nat m - Z.of_nat n) -> ed_mul a d m g = ed_mul a d n g).
  { clear m n. intros m n Le [q Q]. destruct (Nat.eq_dec L 0) as [->|L0]; [replace m with n by lia; reflexivity|]. assert (0 <= q) by nia.
    replace m with (n + Z.to_nat q * L)%nat by nia. apply (mul_period Hp H2 a d Hcc); assumption. }
  intro D. destruct (le_lt_dec n m) as [Le|Le]; [apply W; assumption|]. symmetry. apply W; [lia|]. replace (Z.of_nat n - Z.of_nat m) with (- (Z.of_nat m - Z.of_nat n)) by lia. apply Z.divide_opp_r, D.
Qed.
(** [s g + e (PK + t g)] for [s + e t = s0], and the mirror image *)
Lemma commitment_shifted PK t s0 s e : on_curve a d PK -> 0 <= s0 -> 0 <= s -> 0 <= e -> (Z.of_nat L | s + e * Z.of_nat t - s0) ->
  commitment a d g (ed_add a d PK (ed_mul a d t g)) s e = commitment a d g PK s0 e.
Proof using Hp H2 Hcc Og HL.
  intros OP S0 S E D. pose proof (fun k R => mul_on_curve Hp H2 a d Hcc k R) as OM. unfold commitment. rewrite (mul_sum Hp H2 a d Hcc), <- (mul_mul Hp H2 a d Hcc) by auto.
  rewrite (add_comm a d (ed_mul a d (Z.to_nat e) PK)), <- (add_assoc Hp H2 a d Hcc) by auto. rewrite <- (mul_add Hp H2 a d Hcc) by exact Og. f_equal.
  apply mul_congruent. rewrite Nat2Z.inj_add, Nat2Z.inj_mul, !Z2Nat.id by assumption. exact D.
Qed.
Lemma commitment_mirrored PK t s0 s e : on_curve a d PK -> 0 <= s0 -> 0 <= s -> 0 <= e -> (Z.of_nat L | s + e * Z.of_nat t + s0) ->
  commitment a d g (ed_add a d (ed_neg PK) (ed_mul a d t g)) s e = ed_neg (commitment a d g PK s0 e).
Proof using Hp H2 Hcc Og HL.
  intros OP S0 S E D. pose proof (fun k R => mul_on_curve Hp H2 a d Hcc k R) as OM. pose proof (neg_on_curve H2 a d) as ON. pose proof (add_on_curve Hp H2 a d Hcc) as OA.
  unfold commitment. rewrite (mul_sum Hp H2 a d Hcc), <- (mul_mul Hp H2 a d Hcc) by auto.
  rewrite (add_comm a d (ed_mul a d (Z.to_nat e) (ed_neg PK))), <- (add_assoc Hp H2 a d Hcc) by auto. rewrite <- (mul_add Hp H2 a d Hcc) by exact Og.
  rewrite neg_add, mul_neg by auto. f_equal. apply opposite; auto. rewrite <- (mul_add Hp H2 a d Hcc) by exact Og.
  change (ed_zero) with (ed_mul a d 0 g). apply mul_congruent. rewrite !Nat2Z.inj_add, Nat2Z.inj_mul, !Z2Nat.id by assumption. cbn [Z.of_nat]. rewrite Z.sub_0_r, Z.add_comm. exact D.
Qed.
End Negation.

(** ** C106 *)
(** Anyone can turn a signature (s0, e) of a message under the key PK into one under PK + t g, by subtracting e t from s0 modulo a multiple L of the order of g, and under
    -PK + t g, by changing the sign of s0 as well: executing the verifier decides the same claim. With t = 0 and the key PK itself, s0 may be replaced by anything congruent. *)
Theorem C106_carried : forall (F : Field), prime order -> 2 < order -> forall C g m H,
  complete_curve (ed_a C) (ed_d C) -> on_curve (ed_a C) (ed_d C) g -> completes2 m H ->
  forall L, ed_mul (ed_a C) (ed_d C) L g = ed_zero ->
  forall PK t s0, on_curve (ed_a C) (ed_d C) PK -> 0 <= s0 ->
  forall vals s e msg pk, good_inputs vals -> on_inputs vals s -> on_inputs vals e -> on_inputs vals msg -> on_inputs_p vals pk ->
  let tg := ed_mul (ed_a C) (ed_d C) t g in let key := evp (input_witness vals) pk in
  (key = ed_add (ed_a C) (ed_d C) PK tg /\ (Z.of_nat L | wv vals s + wv vals e * Z.of_nat t - s0)) \/
  (key = ed_add (ed_a C) (ed_d C) (ed_neg PK) tg /\ (Z.of_nat L | wv vals s + wv vals e * Z.of_nat t + s0)) ->
  decides vals (schnorr_verify (mkCyclic (edwards_group C) (Ok g)) (s, e) msg pk m)
    (wv vals e = H (snd (commitment (ed_a C) (ed_d C) g PK s0 (wv vals e))) (wv vals msg)).
Proof.
  intros F Hp H2 C g m H Hcc Og Hm L HL PK t s0 OP S0 vals s e msg pk Hv Hs He Hmsg Hpk tg key Q.
  set (a := ed_a C) in *. set (d := ed_d C) in *.
  assert (Is : 0 <= wv vals s) by (apply ev_infield; lia). assert (Ie : 0 <= wv vals e) by (apply ev_infield; lia).
  pose proof (mul_on_curve Hp H2 a d Hcc t g Og) as OT. fold tg in OT.
  assert (OK : on_curve a d key) by (destruct Q as [[-> _]|[-> _]]; apply (add_on_curve Hp H2 a d Hcc); try assumption; apply (neg_on_curve H2 a d), OP).
  assert (E : snd (commitment a d g key (wv vals s) (wv vals e)) = snd (commitment a d g PK s0 (wv vals e))).
  { destruct Q as [[-> D]|[-> D]]; unfold tg.
    - rewrite (commitment_shifted Hp H2 a d Hcc g Og L HL PK t s0) by assumption. reflexivity.
    - rewrite (commitment_mirrored Hp H2 a d Hcc g Og L HL PK t s0) by assumption. reflexivity. }
  pose proof (C87_signature F Hp H2 C g m H Hcc Og Hm vals s e msg pk Hv Hs He Hmsg Hpk OK) as D. fold a d in D. fold key in D.
  unfold commitment in E at 1. rewrite E in D. exact D.
Qed.
Print Assumptions C106_carried.

(** Nothing else: for keys that are multiples of g and a generator of order N, if (s0, e) is a signature under x g and no other coordinate has the same hash with the message, then
    executing the verifier for the key x' g reports true for (s, e) exactly if s + x' e is s0 + x e or its opposite modulo N. *)
Theorem C106_exactly : forall (F : Field), prime order -> 2 < order -> forall C g m H,
  complete_curve (ed_a C) (ed_d C) -> on_curve (ed_a C) (ed_d C) g -> completes2 m H ->
  forall N, (forall n, ed_mul (ed_a C) (ed_d C) n g = ed_zero <-> (N | Z.of_nat n)) ->
  forall x x' s0 vals s e msg pk, 0 <= s0 -> good_inputs vals -> on_inputs vals s -> on_inputs vals e -> on_inputs vals msg -> on_inputs_p vals pk ->
  let y0 := snd (commitment (ed_a C) (ed_d C) g (ed_mul (ed_a C) (ed_d C) x g) s0 (wv vals e)) in
  wv vals e = H y0 (wv vals msg) -> (forall y, 0 <= y < order -> H y (wv vals msg) = H y0 (wv vals msg) -> y = y0) ->
  evp (input_witness vals) pk = ed_mul (ed_a C) (ed_d C) x' g ->
  let k := s0 + Z.of_nat x * wv vals e in let k' := wv vals s + Z.of_nat x' * wv vals e in
  decides vals (schnorr_verify (mkCyclic (edwards_group C) (Ok g)) (s, e) msg pk m) ((N | k' - k) \/ (N | k' + k)).
Proof.
  intros F Hp H2 C g m H Hcc Og Hm N HN x x' s0 vals s e msg pk S0 Hv Hs He Hmsg Hpk y0 Ee Inj Epk k k'.
  set (a := ed_a C) in *. set (d := ed_d C) in *.
  assert (Ie : 0 <= wv vals e) by (apply ev_infield; lia). assert (K0 : 0 <= k) by (unfold k; nia).
  assert (Y : y0 = snd (ed_mul a d (Z.to_nat k) g)).
  { unfold y0, commitment. rewrite <- (mul_mul Hp H2 a d Hcc), <- (mul_add Hp H2 a d Hcc) by exact Og. f_equal. f_equal. unfold k. nia. }
  rewrite Y in Ee, Inj.
  eapply decides_iff; [|apply (C88_decided F Hp H2 C g m H Hcc Og Hm N HN x' (Z.to_nat k) vals s e msg pk Hv Hs He Hmsg Hpk Epk Ee)].
  fold a d k'. rewrite Z2Nat.id by exact K0. split; [intros [A|[A|[A B]]]; [tauto|tauto|]|tauto].
  exfalso. apply A. apply Inj; [|exact B]. destruct (mul_on_curve Hp H2 a d Hcc (Z.to_nat k') g Og) as [[_ I] _]. exact I.
Qed.
Print Assumptions C106_exactly.

(** Over F_11 with the generator (4, 3) of order 12: the signature (2, 1) under 5 g has the commitment 7 g.  Under 5 g + 3 g it becomes (11, 1), under -5 g + 3 g it becomes (7, 1),
    with the opposite commitment. *)
Example C106_example : let F : Field := F11 in let g := (4, 3) in let PK := ed_mul 1 2 5 g in
  ed_mul 1 2 12 g = ed_zero /\ commitment 1 2 g PK 2 1 = ed_mul 1 2 7 g /\
  (12 | 11 + 1 * 3 - 2) /\ commitment 1 2 g (ed_add 1 2 PK (ed_mul 1 2 3 g)) 11 1 = ed_mul 1 2 7 g /\
  (12 | 7 + 1 * 3 + 2) /\ commitment 1 2 g (ed_add 1 2 (ed_neg PK) (ed_mul 1 2 3 g)) 7 1 = ed_neg (ed_mul 1 2 7 g) /\
  ed_neg (ed_mul 1 2 7 g) <> ed_mul 1 2 7 g /\ ed_add 1 2 PK (ed_mul 1 2 3 g) <> PK.
Proof.
  cbv zeta. repeat split; try (vm_compute; reflexivity); try (vm_compute; discriminate).
  - exists 1. reflexivity.
  - exists 1. reflexivity.
Qed.
