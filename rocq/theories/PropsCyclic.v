(** C97: the points of JubJub. *)
From Coq Require Import ZArith List Bool Arith Lia Znumtheory.
From Verif Require Import Base FieldM FieldP ExprM BuilderM GadgetsM CryptoM CurveM Spec SpecCrypto SpecCurve SpecDecide ExprP SoundP ExecP HonestP CompleteP CoreP Demo PropLib
  PrimeP EdwardsP ProjP ChainP CurveP PropsCost PropsCrypto PropsCurve PropsSchnorr PropsOrder DecideP PropsDecide PropsSign PropsExact.
Import ListNotations.
Open Scope Z_scope.

Section Cyclic.
Context {F : Field} (Hp : prime order) (H2 : 2 < order) (a d : Z) (Hcc : complete_curve a d).
Local Infix "==" := feqm (at level 70).

(** A curve has at most two points of each height. *)
Definition half (P : point) : Z * bool := (snd P, 2 * fst P <? order).
Lemma odd_order x : 2 * x <> order.
Proof using Hp H2.
  intro E. destruct (prime_divisors order Hp 2) as [C|[C|[C|C]]]; [exists x; lia|..]; lia.
Qed.
Lemma half_inj P Q : on_curve a d P -> on_curve a d Q -> half P = half Q -> P = Q.
Proof using Hp H2 Hcc.
  intros OP OQ E. unfold half in E. pose proof (f_equal fst E) as E1. pose proof (f_equal snd E) as E2. clear E. cbn [fst snd] in E1, E2. destruct (proj1 (C88_same_height F Hp H2 a d Hcc P Q OP OQ) E1) as [->|E]; [reflexivity|].
  pose proof OP as [[[P1 P2] _] _]. rewrite E in E2. cbn [ed_neg fst snd] in E2. destruct P as [x y]. cbn [fst snd] in *.
  destruct (Z.eq_dec x 0) as [->|N]; [rewrite E; unfold ed_neg; cbn [fst snd]; rewrite Z.mod_0_l by lia; reflexivity|]. exfalso.
  rewrite Z_mod_nz_opp_full in E2 by (rewrite Z.mod_small; lia). rewrite Z.mod_small in E2 by lia.
  pose proof (odd_order x). destruct (Z.ltb_spec (2 * x) order), (Z.ltb_spec (2 * (order - x)) order); try discriminate; lia.
Qed.
Lemma few_points l : NoDup l -> Forall (on_curve a d) l -> Z.of_nat (length l) <= 2 * order.
Proof using Hp H2 Hcc.
  intros ND HF. rewrite Forall_forall in HF.
  set (all := list_prod (map Z.of_nat (seq 0 (Z.to_nat order))) [true; false]).
  assert (L : (length (map half l) <= length all)%nat).
  { apply NoDup_incl_length.
    - clear all. induction ND as [|P l N ND IH]; cbn [map]; constructor.
      + rewrite in_map_iff. intros (Q & E & HQ). apply half_inj in E; [|apply HF; right; exact HQ|apply HF; left; reflexivity]. subst. contradiction.
      + apply IH. intros Q HQ. apply HF. right. exact HQ.
    - intros h Hh. apply in_map_iff in Hh. destruct Hh as (P & <- & HP). destruct (HF P HP) as [[_ [Y1 Y2]] _]. unfold half, all. apply in_prod.
      + apply in_map_iff. exists (Z.to_nat (snd P)). rewrite Z2Nat.id by exact Y1. split; [reflexivity|]. apply in_seq. lia.
      + destruct (_ <? _); [left|right; left]; reflexivity. }
  unfold all in L. rewrite map_length, prod_length, map_length, seq_length in L. cbn [length] in L. lia.
Qed.

(** The only points of order dividing 2. *)
Lemma two_torsion Q : on_curve a d Q -> ed_add a d Q Q = ed_zero -> Q = ed_zero \/ Q = (0, order - 1).
Proof using Hp H2 Hcc.
  intros OQ E. pose proof (neg_on_curve H2 a d _ OQ) as ON.
  assert (EN : Q = ed_neg Q). { apply (sum_cancel Hp H2 a d Hcc Q); try assumption. rewrite E. symmetry. apply (add_neg Hp H2 a d Hcc), OQ. }
  destruct OQ as [[P1 P2] EC]. destruct Q as [x y]. unfold ed_neg in EN. apply (f_equal fst) in EN. cbn [fst snd] in *.
  assert (X : x = 0).
  { destruct (Z.eq_dec x 0) as [->|N]; [reflexivity|]. exfalso. rewrite Z_mod_nz_opp_full in EN by (rewrite Z.mod_small; lia).
    rewrite Z.mod_small in EN by lia. pose proof (odd_order x). lia. }
  subst x. replace (a * 0 ^ 2 + y ^ 2) with (y * y) in EC by ring. replace (1 + d * 0 ^ 2 * y ^ 2) with 1 in EC by ring.
  assert (Z0 : (y - 1) * (y + 1) == 0). { change (y * y == 1) in EC. apply (lc1 H2 _ _ _ _ EC 1). ring. }
  apply (feqm_integral Hp) in Z0. destruct Z0 as [Z0|Z0]; unfold feqm in Z0; rewrite Z.mod_0_l in Z0 by lia;
    apply Z.mod_divide in Z0; try lia; destruct Z0 as [q Z0]; [left|right]; unfold ed_zero; f_equal.
  - assert (q = 0) by nia. nia.
  - assert (q = 1) by nia. nia.
Qed.

(** If G has order N, more than two thirds of twice the field, (0, -1) is a multiple of G and G is not a double, then G generates the curve. *)
Context (G : point) (OG : on_curve a d G) (N h : nat) (N0 : N <> 0%nat).
Context (HN : forall m n, (m < N)%nat -> (n < N)%nat -> ed_mul a d m G = ed_mul a d n G -> m = n) (HZ : ed_mul a d N G = ed_zero).
Context (Hbig : 2 * order < 3 * Z.of_nat N) (Hh : ed_mul a d h G = (0, order - 1)) (Hnd : forall Q, on_curve a d Q -> ed_add a d Q Q <> G).
Let M k := ed_mul a d k G.
Let OM k : on_curve a d (M k) := mul_on_curve Hp H2 a d Hcc k G OG.
Let red k : M k = M (k mod N)%nat := mul_mod Hp H2 a d Hcc G N k OG N0 HZ.
Definition multiples : list point := map (fun k => ed_mul a d k G) (seq 0 N).
Lemma in_multiples P : In P multiples <-> exists k, P = M k.
Proof using Hp H2 Hcc OG N0 HZ.
  unfold multiples. rewrite in_map_iff. split.
  - intros (k & <- & _). exists k. reflexivity.
  - intros (k & ->). exists (k mod N)%nat. split; [symmetry; apply red|]. apply in_seq. pose proof (Nat.mod_upper_bound k N N0). lia.
Qed.
Lemma NoDup_map_on {A B} (f : A -> B) l : (forall x y, In x l -> In y l -> f x = f y -> x = y) -> NoDup l -> NoDup (map f l).
Proof using.
  intros I ND. induction ND as [|x l Nx ND IH]; cbn [map]; constructor.
  - rewrite in_map_iff. intros (y & E & Hy). apply I in E; [subst; contradiction|right; exact Hy|left; reflexivity].
  - apply IH. intros u v Hu Hv. apply I; right; assumption.
Qed.
Lemma nodup_multiples : NoDup multiples.
Proof using HN N0.
  apply NoDup_map_on; [|apply seq_NoDup]. intros m n Hm Hn. apply in_seq in Hm, Hn. apply HN; lia.
Qed.
Lemma minus P k j : on_curve a d P -> ed_add a d P (M k) = M j -> exists i, P = M i.
Proof using Hp H2 Hcc OG N0 HZ.
  intros OP E. exists (j + (N - k mod N))%nat. unfold M at 1. rewrite (mul_add Hp H2 a d Hcc) by exact OG. fold (M j). rewrite <- E.
  rewrite (red k). rewrite (add_assoc Hp H2 a d Hcc) by (try apply OM; exact OP). fold (M (N - k mod N)). unfold M. rewrite <- (mul_add Hp H2 a d Hcc) by exact OG.
  pose proof (Nat.mod_upper_bound k N N0). replace (k mod N + (N - k mod N))%nat with N by lia. rewrite HZ. symmetry. apply (add_zero_r Hp H2 a d Hcc), OP.
Qed.
Lemma point_dec (P Q : point) : {P = Q} + {P <> Q}.
Proof using. repeat decide equality. Qed.
Lemma double_in P : on_curve a d P -> ~ In P multiples -> exists k, ed_add a d P P = M k.
Proof using Hp H2 Hcc OG N0 HZ HN Hbig.
  intros OP NP. apply in_multiples. destruct (in_dec point_dec (ed_add a d P P) multiples) as [I|NI]; [exact I|]. exfalso.
  pose proof (add_on_curve Hp H2 a d Hcc P P OP OP) as OPP.
  assert (OL : forall Q, In Q multiples -> on_curve a d Q). { intros Q HQ. apply in_multiples in HQ. destruct HQ as (k & ->). apply OM. }
  set (l := multiples ++ map (ed_add a d P) multiples ++ map (ed_add a d (ed_add a d P P)) multiples).
  assert (L : Z.of_nat (length l) <= 2 * order).
  { apply few_points.
    - assert (NM : forall Q, on_curve a d Q -> NoDup (map (ed_add a d Q) multiples)).
      { intros Q OQ. apply NoDup_map_on; [|apply nodup_multiples]. intros x y Hx Hy. apply (sum_cancel Hp H2 a d Hcc); auto. }
      assert (APP : forall l1 l2 : list point, NoDup l1 -> NoDup l2 -> (forall x, In x l1 -> ~ In x l2) -> NoDup (l1 ++ l2)).
      { induction l1 as [|x l1 IH]; intros l2 N1 N2 D; [exact N2|]. inversion N1; subst. cbn [app]. constructor.
        - rewrite in_app_iff. intros [I|I]; [contradiction|]. exact (D x (or_introl eq_refl) I).
        - apply IH; auto. intros y Hy. apply D. right. exact Hy. }
      unfold l. apply APP; [apply nodup_multiples|apply APP; auto|].
      + intros x Hx1 Hx2. apply in_map_iff in Hx1, Hx2. destruct Hx1 as (u & <- & Hu), Hx2 as (v & E & Hv).
        rewrite (add_assoc Hp H2 a d Hcc) in E by auto. apply (sum_cancel Hp H2 a d Hcc) in E; auto; [|apply (add_on_curve Hp H2 a d Hcc); auto].
        apply in_multiples in Hu, Hv. destruct Hu as (i & ->), Hv as (j & ->). apply NP, in_multiples. exact (minus P j i OP E).
      + intros x Hx1 Hx2. apply in_app_iff in Hx2. apply in_multiples in Hx1. destruct Hx1 as (i & ->).
        destruct Hx2 as [Hx|Hx]; apply in_map_iff in Hx; destruct Hx as (u & E & Hu); apply in_multiples in Hu; destruct Hu as (j & ->).
        * apply NP, in_multiples. exact (minus P j i OP E).
        * apply NI, in_multiples. exact (minus _ j i OPP E).
    - unfold l. rewrite !Forall_app. split; [|split]; apply Forall_forall; intros Q HQ; [apply OL, HQ|..]; apply in_map_iff in HQ; destruct HQ as (u & <- & Hu);
        apply (add_on_curve Hp H2 a d Hcc); auto. }
  unfold l in L. rewrite !app_length, !map_length in L. unfold multiples in L. rewrite map_length, seq_length in L. lia.
Qed.
Lemma shift_double P k i : on_curve a d P -> ed_add a d P P = M k -> let Q := ed_add a d P (M i) in ed_add a d Q Q = M (k + (i + i)).
Proof using Hp H2 Hcc OG.
  intros OP E Q. unfold Q. pose proof (OM i) as OI. rewrite (add_assoc Hp H2 a d Hcc) by (try apply (add_on_curve Hp H2 a d Hcc); auto).
  rewrite (add_comm a d (M i)). rewrite (add_assoc Hp H2 a d Hcc P (M i) (M i)) by auto.
  rewrite <- (add_assoc Hp H2 a d Hcc) by (try apply (add_on_curve Hp H2 a d Hcc); auto).
  rewrite E. unfold M. rewrite <- !(mul_add Hp H2 a d Hcc) by exact OG. reflexivity.
Qed.
Lemma generates P : on_curve a d P -> exists k, (k < N)%nat /\ P = M k.
Proof using Hp H2 Hcc OG N0 HZ HN Hbig Hh Hnd.
  intro OP. cut (In P multiples).
  { intro I. apply in_multiples in I. destruct I as (k & ->). exists (k mod N)%nat. split; [apply Nat.mod_upper_bound, N0|apply red]. }
  destruct (in_dec point_dec P multiples) as [I|NI]; [exact I|]. destruct (double_in P OP NI) as (k & E). rewrite (red k) in E.
  pose proof (Nat.mod_upper_bound k N N0) as K. set (j := (k mod N)%nat) in *. clearbody j. exfalso.
  pose proof (Nat.div_mod j 2 ltac:(lia)) as D. pose proof (Nat.mod_upper_bound j 2 ltac:(lia)) as B. set (q := (j / 2)%nat) in *.
  pose proof (shift_double P j (N - q) OP E) as SD. cbv zeta in SD. set (Q := ed_add a d P (M (N - q))) in *.
  assert (OQ : on_curve a d Q) by (apply (add_on_curve Hp H2 a d Hcc); [exact OP|apply OM]).
  rewrite (red (j + (N - q + (N - q)))) in SD.
  replace (j + (N - q + (N - q)))%nat with (j mod 2 + 2 * N)%nat in SD by lia. rewrite Nat.mod_add in SD by exact N0. rewrite <- red in SD.
  destruct (j mod 2)%nat as [|[|b]]; [| |lia].
  - change (M 0) with ed_zero in SD. destruct (two_torsion Q OQ SD) as [E0|E0]; apply NI, in_multiples; unfold Q in E0.
    + apply (minus P (N - q) 0 OP). exact E0.
    + apply (minus P (N - q) h OP). rewrite E0. symmetry. exact Hh.
  - apply (Hnd Q OQ). rewrite SD. apply (mul_1 Hp H2 a d Hcc), OG.
Qed.
End Cyclic.

Section Jubjub.
Let F : Field := Bls12_381.
Local Existing Instance F.
Let a := ed_a jubjub.
Let d := ed_d jubjub.
Let G : point := (jubjub_gx, jubjub_gy).
Let Hp : prime order := prime_Bls12_381.
Let H2 : 2 < order := eq_refl.
Let Hcc : complete_curve a d := proj1 C57_jubjub_complete.
Let OG : on_curve a d G := proj1 (proj2 C57_jubjub_complete).
Let HG : generator_element jubjub_subgroup = Ok G := proj2 (proj2 C57_jubjub_complete).

Lemma jubjub_small m n : Z.of_nat m < 8 * jubjub_r -> Z.of_nat n < 8 * jubjub_r -> ed_mul a d m G = ed_mul a d n G -> m = n.
Proof.
  intros Hm Hn E. apply (C80_same_multiple G HG) in E. rewrite !Z.mod_small in E by lia. lia.
Qed.
Lemma jubjub_no_double Q : on_curve a d Q -> ed_add a d Q Q <> G.
Proof.
  intros OQ E. destruct (double_square Hp H2 a d Hcc jubjub_a Q OQ) as (w & Hw). rewrite E in Hw. unfold G in Hw. cbn [snd] in Hw. rewrite Z.pow_2_r in Hw.
  exact (euler_nonsquare _ _ Hp bls_odd jubjub_not_double w Hw).
Qed.
Lemma jubjub_generates : exists N, Z.of_nat N = 8 * jubjub_r /\ ed_mul a d N G = ed_zero /\
  (forall P, on_curve a d P -> exists k, (k < N)%nat /\ P = ed_mul a d k G).
Proof.
  destruct jubjub_multiples as (_ & M4 & M0). fold F a d G in M4, M0.
  assert (E8 : Z.of_nat (Pos.to_nat eight_r) = 8 * jubjub_r) by (rewrite positive_nat_Z; reflexivity).
  assert (B : 2 * order < 3 * (8 * jubjub_r)) by reflexivity. assert (R0 : 0 < 8 * jubjub_r) by reflexivity.
  set (N := Pos.to_nat eight_r) in *. set (h := Pos.to_nat four_r) in *. clearbody N h.
  exists N. split; [exact E8|]. split; [exact M0|].
  apply (generates Hp H2 a d Hcc G OG N h).
  - lia.
  - intros m n Hm Hn. apply jubjub_small; lia.
  - exact M0.
  - lia.
  - exact M4.
  - exact jubjub_no_double.
Qed.
End Jubjub.

(** ** C97 *)
(** The generator of JubJubPrimeSubgroup generates the whole curve: every point is its multiple, by exactly one scalar below 8 r. *)
Theorem C97_generates : let F : Field := Bls12_381 in let a := ed_a jubjub in let d := ed_d jubjub in
  forall g, generator_element jubjub_subgroup = Ok g -> forall P, on_curve a d P ->
  exists k, (Z.of_nat k < 8 * jubjub_r /\ P = ed_mul a d k g) /\ (forall j, Z.of_nat j < 8 * jubjub_r -> P = ed_mul a d j g -> j = k).
Proof.
  intros F a d g Hg P OP. destruct C57_jubjub_complete as (_ & _ & G). rewrite G in Hg. injection Hg as <-.
  destruct jubjub_generates as (N & EN & _ & A). destruct (A P OP) as (k & Hk & E). exists k. split; [split; [lia|exact E]|].
  intros j Hj Ej. apply jubjub_small; [exact Hj|lia|]. etransitivity; [symmetry; exact Ej|exact E].
Qed.
Print Assumptions C97_generates.

(** JubJub has exactly 8 r points. *)
Theorem C97_number_of_points : let F : Field := Bls12_381 in
  exists l, NoDup l /\ (forall P, In P l <-> on_curve (ed_a jubjub) (ed_d jubjub) P) /\ Z.of_nat (length l) = 8 * jubjub_r.
Proof.
  intro F. destruct C57_jubjub_complete as (Hcc & OG & G). destruct jubjub_generates as (N & EN & _ & A).
  set (a := ed_a jubjub) in *. set (d := ed_d jubjub) in *. set (g := (jubjub_gx, jubjub_gy)) in *.
  exists (map (fun k => ed_mul a d k g) (seq 0 N)). split; [|split].
  - apply NoDup_map_on; [|apply seq_NoDup]. intros m n Hm Hn. apply in_seq in Hm, Hn. apply jubjub_small; lia.
  - intro P. rewrite in_map_iff. split.
    + intros (k & <- & _). apply (mul_on_curve prime_Bls12_381 (eq_refl : 2 < @order Bls12_381) a d Hcc), OG.
    + intro OP. destruct (A P OP) as (k & Hk & ->). exists k. split; [reflexivity|]. apply in_seq. lia.
  - rewrite map_length, seq_length. exact EN.
Qed.
Print Assumptions C97_number_of_points.

(** Every point that EdwardsPoint::new accepts is the public key of a secret: a scalar multiple of the generator as computed by [mul_scalar_element]. *)
Theorem C97_every_point_is_a_key : let F : Field := Bls12_381 in
  forall g, generator_element jubjub_subgroup = Ok g ->
  forall x y P, infield x -> infield y -> ed_point_new jubjub x y = Ok P ->
  exists s, 0 <= s < 8 * jubjub_r /\ mul_scalar_element (edwards_group jubjub) g s = Ok P.
Proof.
  intros F g Hg x y P Ix Iy E. assert (OP : on_curve (ed_a jubjub) (ed_d jubjub) P).
  { rewrite (ed_point_new_spec prime_Bls12_381) in E. destruct (_ =? _) eqn:B; [|discriminate E]. injection E as <-. apply Z.eqb_eq in B.
    split; [split; assumption|exact B]. }
  destruct (C97_generates g Hg P OP) as (k & (K & EP) & _). exists (Z.of_nat k). split; [lia|].
  destruct C57_jubjub_complete as (_ & OG & G). rewrite G in Hg. injection Hg as <-.
  rewrite (proj2 (proj2 C57_jubjub_group)); [rewrite Nat2Z.id, <- EP; reflexivity|exact OG|].
  assert (L : 8 * jubjub_r < @order Bls12_381) by reflexivity. split; [lia|]. eapply Z.lt_trans; [exact K|exact L].
Qed.
Print Assumptions C97_every_point_is_a_key.

(** EdwardsExpression::new: its constraints can be met exactly when the coordinates are those of a multiple of the generator. *)
Theorem C97_constrained_points : let F : Field := Bls12_381 in let a := ed_a jubjub in let d := ed_d jubjub in
  forall g, generator_element jubjub_subgroup = Ok g -> forall p,
  asserts_exactly (ed_expr_new jubjub (fst p) (snd p)) (fun n _ => below_p n p) (fun w => exists k, evp w p = ed_mul a d k g).
Proof.
  intros F a d g Hg p. assert (H2 : 2 < @order F) by reflexivity. destruct (C67_curve F prime_Bls12_381 H2 jubjub p p e_zero) as (_ & _ & _ & S & C).
  assert (EQ : forall w, on_curve a d (evp w p) <-> exists k, evp w p = ed_mul a d k g).
  { intro w. split.
    - intro O. destruct (C97_generates g Hg _ O) as (k & (_ & E) & _). exists k. exact E.
    - intros (k & E). rewrite E. destruct C57_jubjub_complete as (Hcc & OG & G). pose proof (eq_trans (eq_sym G) Hg) as EG. injection EG as EG.
      apply (mul_on_curve prime_Bls12_381 H2 a d Hcc). rewrite <- EG. exact OG. }
  split.
  - intros b r b' w E Hw Hs Hb. apply EQ. exact (S b r b' w E Hw Hs Hb).
  - intros b w Hb Hw Hs [Hp HE]. apply (C b w Hb Hw Hs). split; [exact Hp|]. apply EQ. exact HE.
Qed.
Print Assumptions C97_constrained_points.

Section Torsion.
Let F : Field := Bls12_381.
Local Existing Instance F.
Let a := ed_a jubjub.
Let d := ed_d jubjub.
Let Hp : prime order := prime_Bls12_381.
Let H2 : 2 < order := eq_refl.
Let Hcc : complete_curve a d := proj1 C57_jubjub_complete.
(** n P = 0 for P = k g, in terms of n and k *)
Lemma vanish g n k : generator_element jubjub_subgroup = Ok g -> ed_mul a d n (ed_mul a d k g) = ed_zero <-> (8 * jubjub_r | Z.of_nat n * Z.of_nat k).
Proof.
  intro Hg. pose proof (proj2 C80_order g Hg (n * k)%nat) as O. fold F a d in O.
  assert (OG : on_curve a d g). { pose proof C57_jubjub_complete as C. destruct C as (_ & OG & G). pose proof (eq_trans (eq_sym G) Hg) as EG. injection EG as EG. rewrite <- EG. exact OG. }
  rewrite (mul_mul Hp H2 a d Hcc) in O by exact OG. etransitivity; [exact O|]. rewrite Nat2Z.inj_mul. reflexivity.
Qed.
End Torsion.

(** 8 r kills every point; r kills exactly the multiples of 8 g, a subgroup of prime order; 8 kills exactly the eight multiples of r g. *)
Theorem C97_cofactor : let F : Field := Bls12_381 in let a := ed_a jubjub in let d := ed_d jubjub in
  forall g, generator_element jubjub_subgroup = Ok g -> forall r, Z.of_nat r = jubjub_r -> forall P, on_curve a d P ->
  ed_mul a d r (ed_mul a d 8 P) = ed_zero /\
  (ed_mul a d r P = ed_zero <-> exists k, (k < r)%nat /\ P = ed_mul a d k (ed_mul a d 8 g)) /\
  (ed_mul a d 8 P = ed_zero <-> exists k, (k < 8)%nat /\ P = ed_mul a d k (ed_mul a d r g)).
Proof.
  intros F a d g Hg r Hr P OP. destruct (C97_generates g Hg P OP) as (n & (Hn & E) & _). fold F a d in E.
  pose proof (fun m k => vanish g m k Hg) as V. fold F a d in V.
  assert (MM : forall i j, ed_mul a d i (ed_mul a d j g) = ed_mul a d (i * j) g).
  { intros i j. destruct C57_jubjub_complete as (Hcc & OG & G). pose proof (eq_trans (eq_sym G) Hg) as EG. injection EG as EG. symmetry.
    apply (mul_mul prime_Bls12_381 (eq_refl : 2 < @order Bls12_381) a d Hcc). rewrite <- EG. exact OG. }
  assert (R0 : 1 < jubjub_r) by reflexivity. set (R := jubjub_r) in *. clearbody R. split; [|split; split].
  - rewrite E, MM, V, Nat2Z.inj_mul, Hr. exists (Z.of_nat n). change (Z.of_nat 8) with 8. ring.
  - rewrite E, V, Hr. intros [q Q]. exists (Z.to_nat q). assert (D : Z.of_nat n = 8 * q) by nia. split; [lia|]. rewrite MM. f_equal. lia.
  - intros (k & _ & ->). rewrite MM, V, Nat2Z.inj_mul, Hr. exists (Z.of_nat k). change (Z.of_nat 8) with 8. ring.
  - rewrite E, V. change (Z.of_nat 8) with 8. intros [q Q]. exists (Z.to_nat q). assert (D : Z.of_nat n = q * R) by nia.
    assert (0 <= q) by nia. split; [nia|]. rewrite MM. f_equal. nia.
  - intros (k & _ & ->). rewrite MM, V, Nat2Z.inj_mul, Hr. change (Z.of_nat 8) with 8. exists (Z.of_nat k). ring.
Qed.
Print Assumptions C97_cofactor.

(** Schnorr verification over JubJub with an arbitrary public key on the curve: some secret x below 8 r belongs to the key, and executing
    the verifier decides e = H(y((s + x e) g), msg).  In particular a key of the small subgroups is not rejected. *)
Theorem C97_verification : let F : Field := Bls12_381 in let a := ed_a jubjub in let d := ed_d jubjub in
  forall g, generator_element jubjub_subgroup = Ok g -> forall PK, on_curve a d PK ->
  exists x, 0 <= x < 8 * jubjub_r /\ PK = ed_mul a d (Z.to_nat x) g /\
  forall m H, completes2 m H ->
  forall vals s e msg pk, good_inputs vals -> on_inputs vals s -> on_inputs vals e -> on_inputs vals msg -> on_inputs_p vals pk ->
  evp (input_witness vals) pk = PK ->
  decides vals (schnorr_verify jubjub_subgroup (s, e) msg pk m)
    (wv vals e = H (snd (ed_mul a d (Z.to_nat ((wv vals s + x * wv vals e) mod (8 * jubjub_r))) g)) (wv vals msg)).
Proof.
  intros F a d g Hg PK OP. destruct (C97_generates g Hg PK OP) as (k & (Hk & E) & _). fold F a d in E. exists (Z.of_nat k).
  split; [lia|]. rewrite Nat2Z.id. split; [exact E|]. intros m H Hm vals s e msg pk Hv Hs He Hmsg Hpk Epk.
  pose proof (proj2 C80_order g Hg) as O. destruct C57_jubjub_complete as (Hcc & OG & G). fold F in G. pose proof Hg as Hg'. rewrite G in Hg. injection Hg as <-. fold F a d in Hcc, OG, O.
  change (jubjub_generator = Ok (jubjub_gx, jubjub_gy)) in G. unfold jubjub_subgroup. rewrite G.
  assert (H2 : 2 < @order F) by reflexivity.
  assert (Is : 0 <= wv vals s) by (apply ev_infield; lia). assert (Ie : 0 <= wv vals e) by (apply ev_infield; lia).
  eapply decides_iff; [|apply (C87_signature F prime_Bls12_381 H2 jubjub _ m H Hcc OG Hm vals s e msg pk Hv Hs He Hmsg Hpk); rewrite Epk; exact OP].
  fold a d. rewrite Epk, E. rewrite <- (mul_mul prime_Bls12_381 H2 a d Hcc) by exact OG. rewrite <- (mul_add prime_Bls12_381 H2 a d Hcc) by exact OG.
  replace (ed_mul a d (Z.to_nat ((wv vals s + Z.of_nat k * wv vals e) mod (8 * jubjub_r))) (jubjub_gx, jubjub_gy))
    with (ed_mul a d (Z.to_nat (wv vals s) + Z.to_nat (wv vals e) * k) (jubjub_gx, jubjub_gy)); [reflexivity|].
  apply (C80_same_multiple _ Hg'). assert (R0 : 1 < jubjub_r) by reflexivity. set (M := 8 * jubjub_r) in *. assert (M0 : 0 < M) by (unfold M; lia). clearbody M.
  rewrite (Z2Nat.id (_ mod M)) by (apply Z.mod_pos_bound; exact M0). rewrite Z.mod_mod by lia. f_equal.
  rewrite Nat2Z.inj_add, Nat2Z.inj_mul, !Z2Nat.id by assumption. ring.
Qed.
Print Assumptions C97_verification.

(** The point (0, -1) of order 2 is accepted by the constructor and is the multiple of the generator by 4 r; a hash to verify with. *)
Example C97_example : let F : Field := Bls12_381 in
  exists g, generator_element jubjub_subgroup = Ok g /\ on_curve (ed_a jubjub) (ed_d jubjub) (0, order - 1) /\
    ed_point_new jubjub 0 (order - 1) = Ok (0, order - 1) /\
    (exists k, Z.of_nat k = 4 * jubjub_r /\ ed_mul (ed_a jubjub) (ed_d jubjub) k g = (0, order - 1)) /\
    (exists r, Z.of_nat r = jubjub_r) /\
    completes2 (fun x y => bret (e_add x y)) (fun x y => (x + y) mod order).
Proof.
  intro F. destruct C57_jubjub_complete as (Hcc & O & G). exists (jubjub_gx, jubjub_gy). split; [exact G|].
  destruct jubjub_multiples as (_ & M4 & _). assert (E4 : Z.of_nat (Pos.to_nat four_r) = 4 * jubjub_r) by (rewrite positive_nat_Z; reflexivity).
  remember (Pos.to_nat four_r) as n eqn:En. clear En.
  assert (OP : on_curve (ed_a jubjub) (ed_d jubjub) (0, @order Bls12_381 - 1)).
  { rewrite <- M4. apply (mul_on_curve prime_Bls12_381 (eq_refl : 2 < @order Bls12_381) _ _ Hcc), O. }
  split; [exact OP|]. split; [|split; [|split]].
  - rewrite (ed_point_new_spec prime_Bls12_381). destruct OP as [_ E]. cbn [fst snd] in E. apply Z.eqb_eq in E.
    match goal with |- (if ?b then _ else _) = _ => assert (B : b = true) by exact E; rewrite B end. reflexivity.
  - exists n. split; [exact E4|exact M4].
  - assert (R0 : 0 <= jubjub_r) by discriminate. remember jubjub_r as R eqn:ER. clear ER. exists (Z.to_nat R). apply Z2Nat.id. exact R0.
  - apply sum_completes. exact prime_Bls12_381.
Qed.

(** A curve small enough to list: the multiples of (4, 3) on the curve a = 1, d = 2 over F_11 are all of its 12 points. *)
Definition listed_points : list point := let F : Field := F11 in
  filter (fun P => (1 * fst P ^ 2 + snd P ^ 2) mod order =? (1 + 2 * fst P ^ 2 * snd P ^ 2) mod order)
    (list_prod (map Z.of_nat (seq 0 11)) (map Z.of_nat (seq 0 11))).
Example C97_small_curve : let F : Field := F11 in
  length listed_points = 12%nat /\
  forallb (fun P => existsb (fun k => let Q := ed_mul 1 2 k (4, 3) in (fst Q =? fst P) && (snd Q =? snd P)) (seq 0 12)) listed_points = true.
Proof. vm_compute. auto. Qed.
