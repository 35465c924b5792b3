(** C80: the order of the JubJub generator. *)
From Coq Require Import ZArith List Bool Arith Lia Znumtheory.
From Verif Require Import Base FieldM FieldP ExprM BuilderM GadgetsM CryptoM CurveM Spec SpecCrypto SpecCurve ExprP SoundP ExecP HonestP CompleteP CoreP Demo PropLib
  PrimeP EdwardsP ProjP ChainP CurveP PropsCost PropsCrypto PropsCurve PropsSchnorr.
Import ListNotations.
Open Scope Z_scope.

(** The order of the large prime subgroup of JubJub. *)
Definition jubjub_r : Z := 6554484396890773809930967563523245729705921265872317281365359162392183254199.

Definition r_small_primes : list Z := [5; 19; 43; 179; 1571].
Definition r_certificates : list (Z * Z * list (Z * Z)) := [
  (23629, 2, [(179, 1)]);
  (567097, 2, [(23629, 1)]);
  (62701, 2, [(5, 2); (19, 1)]);
  (16356472538621, 2, [(567097, 1); (62701, 1)]);
  (623312455501769069, 2, [(16356472538621, 1)]);
  (255074062430788457494141376149, 2, [(623312455501769069, 1)]);
  (2837227, 2, [(1571, 1); (43, 1)]);
  (187256983, 2, [(2837227, 1)]);
  (2567293236931, 2, [(187256983, 1)]);
  (431305263804409, 2, [(2567293236931, 1)]);
  (203928654140967434528233, 2, [(431305263804409, 1)]);
  (jubjub_r, 2, [(255074062430788457494141376149, 1); (203928654140967434528233, 1)])].
Lemma jubjub_r_prime : prime jubjub_r.
Proof.
  assert (C : Forall (fun c : Z * Z * list (Z * Z) => prime (fst (fst c))) r_certificates).
  { apply (chain_check_ok r_certificates r_small_primes).
    - apply Forall_forall. intros x Hx. apply prime_check_ok.
      assert (A : forallb prime_check r_small_primes = true) by (vm_compute; reflexivity). rewrite forallb_forall in A. apply A, Hx.
    - vm_compute. reflexivity. }
  rewrite Forall_forall in C. apply (C (jubjub_r, 2, [(255074062430788457494141376149, 1); (203928654140967434528233, 1)])).
  unfold r_certificates. do 11 right. left. reflexivity.
Qed.

Definition has_entry (k : positive) (P : Z * Z) (tbl : list (positive * (Z * Z))) : bool :=
  existsb (fun e => Pos.eqb (fst e) k && (fst (snd e) =? fst P) && (snd (snd e) =? snd P)) tbl.
Lemma has_entry_in k P tbl : has_entry k P tbl = true -> In (k, P) tbl.
Proof.
  unfold has_entry. rewrite existsb_exists. intros ([k' [x y]] & HI & B). rewrite !andb_true_iff, Pos.eqb_eq, !Z.eqb_eq in B.
  cbn [fst snd] in B. destruct B as ((-> & ->) & ->). rewrite <- surjective_pairing in HI. exact HI.
Qed.
Definition jubjub_g8 : Z * Z :=
  (8076246640662884909881801758704306714034609987455869804520522091855516602923,
   13262374693698910701929044844600465831413122818447359594527400194675274060458).
Definition eight_r : positive := Z.to_pos (8 * jubjub_r).
Definition four_r : positive := Z.to_pos (4 * jubjub_r).
Lemma jubjub_table : match run_steps (@order Bls12_381) (ed_d jubjub) jubjub_steps [(1%positive, (jubjub_gx, jubjub_gy))] with
  | Some tbl => has_entry 8 jubjub_g8 tbl && has_entry four_r (0, @order Bls12_381 - 1) tbl && has_entry eight_r (0, 1) tbl
  | None => false
  end = true.
Proof. vm_compute. reflexivity. Qed.

Section Jubjub.
Let F : Field := Bls12_381.
Local Existing Instance F.
Let a := ed_a jubjub.
Let d := ed_d jubjub.
Let G : point := (jubjub_gx, jubjub_gy).
Let Hp : prime order := prime_Bls12_381.
Let H2 : 2 < order := eq_refl.
Let Hcc : complete_curve a d := proj1 C57_jubjub_complete.
Let OG : on_curve a d G := proj1 (proj2 C57_jubjub_complete).

Lemma jubjub_multiples : ed_mul a d (Pos.to_nat 8) G = jubjub_g8 /\ ed_mul a d (Pos.to_nat four_r) G = (0, order - 1) /\
  ed_mul a d (Pos.to_nat eight_r) G = ed_zero.
Proof.
  pose proof jubjub_table as T. destruct (run_steps _ _ _ _) as [tbl|] eqn:E; [|discriminate T].
  rewrite !andb_true_iff in T. destruct T as ((T1 & T2) & T3). apply has_entry_in in T1, T2, T3.
  assert (A : Forall (right_multiple a d G) tbl).
  { apply (run_steps_ok Hp H2 a d Hcc jubjub_a G OG _ _ _) in E; [exact E|]. constructor; [|constructor]. unfold right_multiple. cbn [fst snd].
    apply (mul_1 Hp H2 a d Hcc G OG). }
  rewrite Forall_forall in A. split; [exact (A _ T1)|split; [exact (A _ T2)|exact (A _ T3)]].
Qed.

Lemma divisor_cases D : (D | 8 * jubjub_r) -> 0 < D -> D <> 8 * jubjub_r -> (D | 4 * jubjub_r) \/ (D | 8).
Proof.
  clear. intros [k E] D0 N. pose proof jubjub_r_prime as P. assert (R0 : 1 < jubjub_r) by reflexivity. set (r := jubjub_r) in *. clearbody r.
  destruct (Zeven_odd_dec k) as [V|V].
  - left. apply Zeven_div2 in V. exists (Z.div2 k). lia.
  - right. apply Zodd_ex in V. destruct V as [m ->].
    assert (K : (2 * m + 1 | 8 * r)) by (exists D; lia).
    assert (RP : rel_prime (2 * m + 1) 8).
    { change 8 with (2 * (2 * 2)). assert (R2 : rel_prime (2 * m + 1) 2).
      { apply rel_prime_sym. apply bezout_rel_prime. apply Bezout_intro with (u := - m) (v := 1). lia. }
      repeat apply rel_prime_mult; assumption. }
    apply Gauss in K; [|exact RP]. destruct (prime_divisors r P _ K) as [C|[C|[C|C]]]; [nia|..].
    + exfalso. apply N. rewrite E, C. lia.
    + exists 1. rewrite C in E. nia.
    + nia.
Qed.

Lemma jubjub_order k : ed_mul a d k G = ed_zero <-> (8 * jubjub_r | Z.of_nat k).
Proof.
  destruct jubjub_multiples as (M8 & M4 & M0).
  assert (E8 : Z.of_nat (Pos.to_nat eight_r) = 8 * jubjub_r) by (rewrite positive_nat_Z; reflexivity).
  assert (E4 : Z.of_nat (Pos.to_nat four_r) = 4 * jubjub_r) by (rewrite positive_nat_Z; reflexivity).
  assert (Eh : Z.of_nat (Pos.to_nat 8) = 8) by reflexivity.
  assert (N8 : jubjub_g8 <> ed_zero) by discriminate. assert (N4 : (0, order - 1) <> ed_zero) by discriminate.
  set (n8 := Pos.to_nat eight_r) in *. set (n4 := Pos.to_nat four_r) in *. set (h := Pos.to_nat 8) in *. clearbody n8 n4 h.
  assert (MUL : forall D K, (Z.of_nat D | Z.of_nat K) -> ed_mul a d D G = ed_zero -> ed_mul a d K G = ed_zero).
  { intros D K [q E] HD. assert (0 <= Z.of_nat K) by lia. assert (EK : K = (Z.to_nat q * D)%nat).
    { destruct (Z_lt_le_dec q 0); [|nia]. assert (K = 0%nat) by nia. destruct D; nia. }
    rewrite EK, (mul_mul Hp H2 a d Hcc), HD by exact OG. apply (mul_zero Hp H2 a d Hcc). }
  assert (R0 : 1 < jubjub_r) by reflexivity.
  split; intro H.
  - pose proof (mul_gcd Hp H2 a d Hcc G OG k n8 H M0) as GD. set (D := Nat.gcd k n8) in *.
    assert (DK : (Z.of_nat D | Z.of_nat k)). { destruct (Nat.gcd_divide_l k n8) as [q E]. exists (Z.of_nat q). fold D in E. lia. }
    assert (D8 : (Z.of_nat D | 8 * jubjub_r)). { destruct (Nat.gcd_divide_r k n8) as [q E]. exists (Z.of_nat q). fold D in E. lia. }
    destruct (Z.eq_dec (Z.of_nat D) (8 * jubjub_r)) as [E|N]; [rewrite <- E; exact DK|]. exfalso.
    assert (D0 : 0 < Z.of_nat D). { destruct D8 as [q E]. destruct D; [|lia]. lia. }
    destruct (divisor_cases _ D8 D0 N) as [C|C].
    + apply N4. rewrite <- M4. rewrite <- E4 in C. exact (MUL _ _ C GD).
    + apply N8. rewrite <- M8. rewrite <- Eh in C. exact (MUL _ _ C GD).
  - rewrite <- E8 in H. exact (MUL _ _ H M0).
Qed.
End Jubjub.

Lemma sum_cancel {F : Field} (Hp : prime order) (H2 : 2 < order) a d (Hcc : complete_curve a d) A X Y : on_curve a d A -> on_curve a d X ->
  on_curve a d Y -> ed_add a d A X = ed_add a d A Y -> X = Y.
Proof.
  intros OA OX OY E. pose proof (neg_on_curve H2 a d _ OA) as ON.
  assert (K : forall Z, on_curve a d Z -> ed_add a d (ed_neg A) (ed_add a d A Z) = Z).
  { intros Z OZ. rewrite <- (add_assoc Hp H2 a d Hcc) by assumption. rewrite (add_comm a d (ed_neg A)), (add_neg Hp H2 a d Hcc) by exact OA.
    rewrite (add_comm a d ed_zero). apply (add_zero_r Hp H2 a d Hcc), OZ. }
  rewrite <- (K X OX), <- (K Y OY), E. reflexivity.
Qed.

(** ** C80 *)
(** The generator of JubJubPrimeSubgroup has order exactly 8 r, for a prime r. *)
Theorem C80_order : let F : Field := Bls12_381 in prime jubjub_r /\
  forall g, generator_element jubjub_subgroup = Ok g ->
  forall n, ed_mul (ed_a jubjub) (ed_d jubjub) n g = ed_zero <-> (8 * jubjub_r | Z.of_nat n).
Proof.
  intro F. split; [exact jubjub_r_prime|]. intros g Hg n. destruct C57_jubjub_complete as (_ & _ & G). fold F in G. rewrite G in Hg. injection Hg as <-.
  apply jubjub_order.
Qed.
Print Assumptions C80_order.

(** Two multiples of the generator agree exactly when the scalars agree modulo 8 r. *)
Theorem C80_same_multiple : let F : Field := Bls12_381 in let a := ed_a jubjub in let d := ed_d jubjub in
  forall g, generator_element jubjub_subgroup = Ok g ->
  forall m n, ed_mul a d m g = ed_mul a d n g <-> Z.of_nat m mod (8 * jubjub_r) = Z.of_nat n mod (8 * jubjub_r).
Proof.
  intros F a d g Hg. pose proof (proj2 C80_order g Hg) as O. fold a d in O.
  destruct C57_jubjub_complete as (Hcc & OG & G). rewrite G in Hg. injection Hg as <-. fold a d in Hcc, OG.
  pose proof prime_Bls12_381 as Hp. assert (H2 : 2 < @order Bls12_381) by reflexivity.
  assert (R0 : 1 < jubjub_r) by reflexivity.
  assert (W : forall m n, (m <= n)%nat -> ed_mul a d m (jubjub_gx, jubjub_gy) = ed_mul a d n (jubjub_gx, jubjub_gy) <->
    Z.of_nat m mod (8 * jubjub_r) = Z.of_nat n mod (8 * jubjub_r)).
  { intros m n L. assert (E : (8 * jubjub_r | Z.of_nat (n - m)) <-> Z.of_nat m mod (8 * jubjub_r) = Z.of_nat n mod (8 * jubjub_r)).
    { rewrite Nat2Z.inj_sub by exact L. set (M := 8 * jubjub_r) in *. assert (M0 : 0 < M) by (unfold M; lia). clearbody M. split.
      - intros [q E]. replace (Z.of_nat n) with (Z.of_nat m + q * M) by lia. rewrite Z.mod_add by lia. reflexivity.
      - intro E. apply Z.mod_divide; [lia|]. rewrite Zminus_mod, E, Z.sub_diag. apply Z.mod_0_l. lia. }
    rewrite <- E, <- O. set (P := (jubjub_gx, jubjub_gy)) in *. replace n with (m + (n - m))%nat at 1 by lia.
    rewrite (mul_add Hp H2 a d Hcc) by exact OG.
    pose proof (mul_on_curve Hp H2 a d Hcc m P OG) as OM. pose proof (mul_on_curve Hp H2 a d Hcc (n - m) P OG) as OD. split.
    - intro Q. pose proof (add_zero_r Hp H2 a d Hcc (ed_mul a d m P) OM) as Z0. pose proof (eq_trans Z0 Q) as Z1.
      symmetry. apply (sum_cancel Hp H2 a d Hcc _ _ _ OM (zero_on_curve H2 a d) OD Z1).
    - intro Q. rewrite Q. symmetry. apply (add_zero_r Hp H2 a d Hcc), OM. }
  intros m n. destruct (le_lt_dec m n) as [L|L]; [apply W, L|]. split; intro Q; symmetry; apply W; try lia; symmetry; exact Q.
Qed.
Print Assumptions C80_same_multiple.

(** Eight times the generator does generate a subgroup of prime order. *)
Theorem C80_prime_subgroup : let F : Field := Bls12_381 in let a := ed_a jubjub in let d := ed_d jubjub in
  forall g, generator_element jubjub_subgroup = Ok g ->
  forall n, ed_mul a d n (ed_mul a d 8 g) = ed_zero <-> (jubjub_r | Z.of_nat n).
Proof.
  intros F a d g Hg n. pose proof (proj2 C80_order g Hg) as O. fold a d in O.
  destruct C57_jubjub_complete as (Hcc & OG & G). rewrite G in Hg. injection Hg as <-. fold a d in Hcc, OG.
  rewrite <- (mul_mul prime_Bls12_381 (eq_refl : 2 < @order Bls12_381) a d Hcc) by exact OG. rewrite O, Nat2Z.inj_mul. split.
  - intros [q E]. exists q. change (Z.of_nat 8) with 8 in E. lia.
  - intros [q E]. exists q. rewrite E. change (Z.of_nat 8) with 8. lia.
Qed.
Print Assumptions C80_prime_subgroup.

(** Schnorr signatures over JubJub: a signer who reduces [s] modulo 8 r is always accepted. *)
Theorem C80_signed_accepted : let F : Field := Bls12_381 in let a := ed_a jubjub in let d := ed_d jubjub in
  forall g, generator_element jubjub_subgroup = Ok g -> forall m H, completes2 m H ->
  forall secret nonce vals s e msg pk, good_inputs vals -> on_inputs vals s -> on_inputs vals e -> on_inputs vals msg -> on_inputs_p vals pk ->
  evp (input_witness vals) pk = ed_mul a d secret g ->
  wv vals e = H (snd (ed_mul a d nonce g)) (wv vals msg) ->
  wv vals s = (Z.of_nat nonce - Z.of_nat secret * wv vals e) mod (8 * jubjub_r) ->
  runs vals (schnorr_verify jubjub_subgroup (s, e) msg pk m) (fun _ _ => True).
Proof.
  intros F a d g Hg m H Hm secret nonce vals s e msg pk Hv Hs He Hmsg Hpk Epk Ee Es.
  pose proof (proj2 C80_order g Hg) as O. destruct C57_jubjub_complete as (Hcc & OG & G). fold F in G. rewrite G in Hg. injection Hg as <-. fold F a d in Hcc, OG, O.
  assert (R0 : 1 < jubjub_r) by reflexivity. set (L := Z.to_nat (8 * jubjub_r)).
  assert (EL : Z.of_nat L = 8 * jubjub_r) by (unfold L; rewrite Z2Nat.id; lia). clearbody L.
  change (jubjub_generator = Ok (jubjub_gx, jubjub_gy)) in G. unfold jubjub_subgroup. rewrite G.
  apply (C60_signed_accepted F prime_Bls12_381 eq_refl jubjub _ m H Hcc OG Hm L secret nonce); try assumption; [lia| |].
  - apply O. rewrite EL. apply Z.divide_refl.
  - rewrite EL, Es. apply Z.mod_mod. lia.
Qed.
Print Assumptions C80_signed_accepted.

(** Signatures are not unique: adding 8 r to [s] gives another solution of the verification equation, and for small [s] it is
    another field element, since 8 r is below the order of the field. *)
Theorem C80_second_signature : let F : Field := Bls12_381 in let a := ed_a jubjub in let d := ed_d jubjub in
  forall g, generator_element jubjub_subgroup = Ok g -> forall H pk s e m, 0 <= s ->
  8 * jubjub_r < order /\ (schnorr_holds a d H g pk s e m <-> schnorr_holds a d H g pk (s + 8 * jubjub_r) e m).
Proof.
  intros F a d g Hg H pk s e m S0. split; [reflexivity|].
  assert (R0 : 1 < jubjub_r) by reflexivity.
  assert (E : ed_mul a d (Z.to_nat s) g = ed_mul a d (Z.to_nat (s + 8 * jubjub_r)) g).
  { apply (C80_same_multiple g Hg). rewrite !Z2Nat.id by lia. set (M := 8 * jubjub_r) in *. assert (M0 : 0 < M) by (unfold M; lia). clearbody M.
    replace (s + M) with (s + 1 * M) by ring. rewrite Z.mod_add by lia. reflexivity. }
  unfold schnorr_holds. rewrite E. reflexivity.
Qed.
Print Assumptions C80_second_signature.

Lemma five_inputs {F : Field} v1 v2 v3 v4 v5 : 2 < order -> infield v1 -> infield v2 -> infield v3 -> infield v4 -> infield v5 ->
  let vals := [v1; v2; v3; v4; v5] in
  good_inputs vals /\ (forall k, (k <= 5)%nat -> on_inputs vals (e_wire k)) /\
  wv vals (e_wire 1) = v1 /\ wv vals (e_wire 2) = v2 /\ wv vals (e_wire 3) = v3 /\ evp (input_witness vals) (e_wire 4, e_wire 5) = (v4, v5).
Proof.
  intros H2 I1 I2 I3 I4 I5 vals. split; [repeat (apply Forall_cons; [assumption|]); apply Forall_nil|].
  split; [intros k Hk; apply over_wire; exact Hk|].
  assert (EV : forall k, infield (input_witness vals k) -> wv vals (e_wire k) = input_witness vals k).
  { intros k Hz. apply ev_wire; [lia|exact Hz]. }
  unfold evp. cbn [fst snd]. rewrite !EV by assumption. auto.
Qed.
Lemma sum_completes {F : Field} (Hp : prime order) : completes2 (fun x y => bret (e_add x y)) (fun x y => (x + y) mod order).
Proof. intros D P st x y u v Hx Hy. apply comp_ret. split; [reflexivity|]. apply (has_add Hp); assumption. Qed.
Lemma residue_infield {F : Field} M x : 0 < M -> M < order -> infield (x mod M).
Proof. intros A B. pose proof (Z.mod_pos_bound x M A). unfold infield. lia. Qed.

(** A key pair, a nonce and a message meeting the hypotheses of [C80_signed_accepted], for the hash x + y. *)
Example C80_example : let F : Field := Bls12_381 in
  exists g, generator_element jubjub_subgroup = Ok g /\
    exists s e pk, let vals := [s; e; 3; fst pk; snd pk] in good_inputs vals /\ pk = ed_mul (ed_a jubjub) (ed_d jubjub) 5 g /\
      runs vals (schnorr_verify jubjub_subgroup (e_wire 1, e_wire 2) (e_wire 3) (e_wire 4, e_wire 5) (fun x y => bret (e_add x y))) (fun _ _ => True).
Proof.
  intro F. destruct C57_jubjub_complete as (Hcc & OG & G). exists (jubjub_gx, jubjub_gy). split; [exact G|].
  pose proof (C80_signed_accepted _ G _ _ (sum_completes prime_Bls12_381) 5%nat 7%nat) as A.
  assert (H2 : 2 < @order Bls12_381) by reflexivity.
  pose proof (mul_on_curve prime_Bls12_381 H2 _ _ Hcc 5 _ OG) as [[P1 P2] _].
  remember (ed_mul (ed_a jubjub) (ed_d jubjub) 5 (jubjub_gx, jubjub_gy)) as pk eqn:Epk.
  remember (ed_mul (ed_a jubjub) (ed_d jubjub) 7 (jubjub_gx, jubjub_gy)) as R eqn:ER.
  remember ((snd R + 3) mod @order Bls12_381) as e eqn:Ee. remember ((Z.of_nat 7 - Z.of_nat 5 * e) mod (8 * jubjub_r)) as s eqn:Es.
  assert (Ie : @infield Bls12_381 e). { rewrite Ee. apply Z.mod_pos_bound. reflexivity. }
  assert (Is : @infield Bls12_381 s). { rewrite Es. apply residue_infield; reflexivity. }
  assert (I3 : @infield Bls12_381 3) by (split; reflexivity || discriminate).
  destruct (five_inputs s e 3 (fst pk) (snd pk) H2 Is Ie I3 P1 P2) as (GI & ON & E1 & E2 & E3 & E4).
  exists s, e, pk. split; [exact GI|]. split; [reflexivity|]. apply A.
  - exact GI.
  - apply ON. repeat constructor.
  - apply ON. repeat constructor.
  - apply ON. repeat constructor.
  - split; apply ON; repeat constructor.
  - rewrite E4. symmetry. apply surjective_pairing.
  - rewrite E2, E3. exact Ee.
  - rewrite E1, E2. exact Es.
Qed.
