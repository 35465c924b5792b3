(** C104: which guarantees need the order of the field to be prime.  Nothing in the crate checks that it is. *)
From Coq Require Import ZArith List Bool Arith Lia Znumtheory.
From Verif Require Import Base FieldM FieldP ExprM BuilderM GadgetsM Spec ExprP BitsP MonoP LocalP HonestP ExecP AcceptP SatP Demo PropLib
  GadgetCompleteP PropsExact PropsBasic SpecOrder OrderP.
Import ListNotations.
Open Scope Z_scope.

Notation asserts_exactly := PropsExact.asserts_exactly.

Section Tools.
Context {F : Field} (Hord : 2 <= order).

Lemma ev_minus w a b : ev w (e_sub a b) = (ev w a - ev w b) mod order.
Proof using Hord.
  rewrite (ev_sub Hord). rewrite <- (Z.mod_small (fsub (ev w a) (ev w b)) order) by (unfold fsub, fadd; apply Z.mod_pos_bound; lia).
  apply (fsub_eqm Hord).
Qed.
Lemma h_sub s x y a b : has s x a -> has s y b -> has s (e_sub x y) ((a - b) mod order).
Proof using Hord. intros [O1 <-] [O2 <-]. split; [apply over_sub; auto|apply ev_minus]. Qed.
Lemma h_zero s : has s e_zero 0.
Proof using Hord. split; [apply over_zero|apply ev_zero, Hord]. Qed.
Lemma h_one s : good s -> has s e_one 1.
Proof using Hord. intros [[W _] N]. split; [apply over_const; exact N|apply (ev_one Hord); exact W]. Qed.
Lemma h_wire s k c : good s -> hasw s k c -> has s (e_wire k) c.
Proof using Hord. intros [[_ W] _] [N <-]. split; [apply over_wire; exact N|apply ev_wire; [apply Hord|apply W]]. Qed.
Lemma ev_range w e : 0 <= ev w e < order.
Proof using Hord. apply (ev_infield Hord). Qed.
Lemma wire_val w k : wf_witness w -> ev w (e_wire k) = w k.
Proof using Hord. intros [_ W]. apply ev_wire; [apply Hord|apply W]. Qed.

Lemma mod_same x y : x mod order = y mod order <-> (order | x - y).
Proof using Hord. apply same_mod. lia. Qed.
Lemma mod_is x y : 0 <= y < order -> (x mod order = y <-> (order | x - y)).
Proof using Hord. intro H. rewrite <- (Z.mod_small y order H) at 1. apply mod_same. Qed.

(** *** the constraint of [assert_boolean] *)
Lemma sat_boolean w x : wf_witness w -> (sat1 w (mkC x (e_sub x e_one) e_zero) <-> (order | ev w x * (ev w x - 1))).
Proof using Hord.
  intro Hw. unfold sat1. cbn [c_a c_b c_c]. rewrite ev_minus, (ev_one Hord w (proj1 Hw)), (ev_zero Hord), Z.mul_mod_idemp_r by lia.
  apply divide_mod. lia.
Qed.
Lemma square_idempotent w x : (ev w x * ev w x) mod order = ev w x <-> (order | ev w x * (ev w x - 1)).
Proof using Hord. rewrite (mod_is _ _ (ev_range w x)). replace (ev w x * (ev w x - 1)) with (ev w x * ev w x - ev w x) by ring. reflexivity. Qed.
Lemma last_sat w b c : sat w (mkB (next b) (constraints b ++ [c]) (generators b)) -> sat1 w c.
Proof using. unfold sat. cbn. rewrite Forall_app. intros [_ H]. inversion H; assumption. Qed.
End Tools.

Theorem C104_boolean : forall (F : Field), 2 <= order ->
  (forall x, asserts_exactly (assert_boolean x) (uses [x]) (fun w => (ev w x * ev w x) mod order = ev w x)) /\
  ((forall x, sound_call (assert_boolean x) (fun w _ => is_bit (ev w x))) <-> prime_power order).
Proof.
  intros F Hord.
  assert (S1 : forall x b r b' w, assert_boolean x b = Ok (r, b') -> wf_witness w -> sat w b' -> (order | ev w x * (ev w x - 1))).
  { intros x b r b' w E Hw Hs. injection E as <- <-. apply (sat_boolean Hord w x Hw). eapply last_sat, Hs. }
  split.
  - intro x. split.
    + intros b r b' w E Hw Hs _. apply (square_idempotent Hord). eapply S1; eauto.
    + apply to_sat_call. intros s G [U I]. apply (square_idempotent Hord) in I.
      assert (Hx : has s x (ev (wt s) x)) by has_u. unfold assert_boolean.
      eapply csat_bind; [eapply csat_assert_product; [exact Hx|eapply (h_sub Hord); [exact Hx|apply (h_one Hord); exact G]|apply (h_zero Hord)|]|].
      * rewrite Z.mul_mod_idemp_r by lia. symmetry. apply divide_mod; [lia|exact I].
      * intros a s1 _ _ ->. apply csat_ret. exact Logic.I.
  - rewrite <- (idempotents order Hord). split.
    + intros H z Iz D. set (w := input_witness [z]).
      assert (Hw : wf_witness w). { split; [reflexivity|]. intros [|[|[|k]]]; cbn; lia. }
      assert (Ez : ev w (e_wire 1) = z) by (rewrite (wire_val Hord w 1 Hw); reflexivity).
      specialize (H (e_wire 1) (mkB 2 [] []) (e_wire 1) _ w eq_refl Hw). cbv beta in H. rewrite Ez in H. apply H. constructor; [|constructor].
      apply (sat_boolean Hord w _ Hw). rewrite Ez. exact D.
    + intros H x b r b' w E Hw Hs. apply H; [apply (ev_range Hord)|]. eapply S1; eauto.
Qed.
Print Assumptions C104_boolean.

Theorem C104_inverse : forall (F : Field), 2 <= order ->
  (forall x, allows_exactly (inverse x) (uses [x]) ev (fun w z => 0 <= z < order /\ (ev w x * z) mod order = 1)) /\
  (forall x, asserts_exactly (assert_nonzero x) (uses [x]) (fun w => Z.gcd (ev w x) order = 1)) /\
  ((forall x, asserts_exactly (assert_nonzero x) (uses [x]) (fun w => ev w x <> 0)) <-> prime order).
Proof.
  intros F Hord.
  assert (S1 : forall x b r b' w, inverse x b = Ok (r, b') -> wf_witness w -> sat w b' -> (ev w x * ev w r) mod order = 1).
  { intros x b r b' w E Hw Hs. injection E as <- <-. unfold sat in Hs. cbn [constraints next generators snd fst] in Hs. apply Forall_app in Hs. destruct Hs as [_ Hs]. inversion Hs; subst.
    unfold sat1 in H1. cbn [c_a c_b c_c] in H1. rewrite (ev_one Hord w (proj1 Hw)) in H1. exact H1. }
  assert (C1 : forall x s z, good s -> uses [x] (nx s) (wt s) -> 0 <= z < order -> (ev (wt s) x * z) mod order = 1 ->
    csat s (inverse x) (fun r s' => ev (wt s') r = z)).
  { intros x s z G U Iz E. assert (Hx : has s x (ev (wt s) x)) by has_u. unfold inverse.
    eapply csat_bind; [apply csat_wire; exact Iz|]. intros k s1 X1 G1 (-> & _ & Hk). apply (has_ext _ _ _ _ X1) in Hx.
    apply (h_wire Hord _ _ _ G1) in Hk.
    eapply csat_bind; [eapply csat_assert_product; [exact Hx|exact Hk|apply (h_one Hord); exact G1|symmetry; exact E]|]. intros _ s2 _ _ ->.
    eapply csat_bind; [apply csat_generator|]. intros _ s3 _ _ ->. apply csat_ret. apply Hk. }
  assert (N1 : forall x, asserts_exactly (assert_nonzero x) (uses [x]) (fun w => Z.gcd (ev w x) order = 1)).
  { intro x. split.
    - intros b r b' w E Hw Hs _. apply Zgcd_1_rel_prime. apply bezout_rel_prime.
      assert (E' : exists i, inverse x b = Ok (i, b')) by (injection E as <- <-; eexists; reflexivity). destruct E' as [i E'].
      pose proof (S1 x b i b' w E' Hw Hs) as M. apply (mod_is Hord) in M; [|lia]. destruct M as [q Q].
      apply Bezout_intro with (ev w i) (- q). lia.
    - apply to_sat_call. intros s G [U I]. apply Zgcd_1_rel_prime in I. destruct (rel_prime_bezout _ _ I) as [u v E].
      unfold assert_nonzero. eapply csat_bind; [apply C1 with (z := u mod order); [exact G|exact U|apply Z.mod_pos_bound; lia|]|].
      + rewrite Z.mul_mod_idemp_r by lia. apply (mod_is Hord); [lia|]. exists (- v). lia.
      + intros a s1 _ _ _. apply csat_ret. exact Logic.I. }
  split; [|split; [exact N1|]].
  - intro x. split.
    + intros b r b' w E Hw Hs _. split; [apply (ev_range Hord)|]. eapply S1; eauto.
    + intro z. apply to_sat_call. intros s G [U [Iz E]]. apply C1; assumption.
  - rewrite <- (prime_units order Hord). split.
    + intros H z Iz. set (w := input_witness [z]).
      assert (Hw : wf_witness w). { split; [reflexivity|]. intros [|[|[|k]]]; cbn; lia. }
      assert (Ez : ev w (e_wire 1) = z) by (rewrite (wire_val Hord w 1 Hw); reflexivity).
      destruct (H (e_wire 1)) as [_ S]. destruct (S (mkB 2 [] []) w) as (r & b' & w' & E & _ & Hw' & K & Hs & _).
      * split; [cbn; lia|constructor].
      * exact Hw.
      * constructor.
      * split; [constructor; [|constructor]; intros k Hk; cbn in Hk; cbn; lia|]. rewrite Ez. lia.
      * destruct (N1 (e_wire 1)) as [S' _]. pose proof (S' _ _ _ _ E Hw' Hs) as M. 
        rewrite (wire_val Hord w' 1 Hw'), K in M by (cbn; lia). apply M. constructor; [|constructor]. intros k Hk. cbn in Hk. cbn. lia.
    + intros P x. destruct (N1 x) as [A B]. split.
      * intros b r b' w E Hw Hs U C. pose proof (A _ _ _ _ E Hw Hs U) as M. rewrite C in M. rewrite Z.gcd_0_l_nonneg in M; lia.
      * intros b w W Hw Hs [U N]. apply B; auto. split; [exact U|]. apply P. pose proof (ev_range Hord w x). lia.
Qed.
Print Assumptions C104_inverse.

Theorem C104_nonzero : forall (F : Field), 2 <= order ->
  (forall x, allows_exactly (nonzero x) (uses [x]) ev (fun w z => 0 <= z < order /\
     exists m, z = (ev w x * m) mod order /\ (ev w x * z) mod order = ev w x)) /\
  ((forall x, sound_call (nonzero x) (fun w r => ev w r = if ev w x =? 0 then 0 else 1)) <-> prime_power order) /\
  ((forall x, sat_call (nonzero x) (uses [x]) (fun _ _ => True)) <-> square_free order) /\
  ((forall x, allows_exactly (nonzero x) (uses [x]) ev (fun w z => z = if ev w x =? 0 then 0 else 1)) <-> prime order).
Proof.
  intros F Hord.
  assert (S1 : forall x b r b' w, nonzero x b = Ok (r, b') -> wf_witness w -> sat w b' ->
    exists m, ev w r = (ev w x * m) mod order /\ (ev w x * ev w r) mod order = ev w x).
  { intros x b r b' w E Hw Hs. injection E as <- <-. unfold sat in Hs. cbn [constraints next generators snd fst] in Hs. rewrite !Forall_app in Hs. destruct Hs as [[_ H1] H2].
    inversion H1 as [|? ? A1 _]; subst. inversion H2 as [|? ? A2 _]; subst. clear H1 H2. unfold sat1 in A1, A2. cbn [c_a c_b c_c] in A1, A2.
    exists (ev w (e_wire (S (next b)))). split; [symmetry; exact A1|].
    rewrite (ev_minus Hord), (ev_one Hord w (proj1 Hw)), (ev_zero Hord), Z.mul_mod_idemp_l in A2 by lia. apply divide_mod in A2; [|lia].
    apply (mod_is Hord); [apply (ev_range Hord)|]. destruct A2 as [q Q]. exists (- q). lia. }
  assert (C1 : forall x s z m, good s -> uses [x] (nx s) (wt s) -> 0 <= z < order -> z = (ev (wt s) x * m) mod order ->
    (ev (wt s) x * z) mod order = ev (wt s) x -> csat s (nonzero x) (fun r s' => ev (wt s') r = z)).
  { intros x s z m G U Iz E1 E2. assert (Hx : has s x (ev (wt s) x)) by has_u. unfold nonzero.
    eapply csat_bind; [apply csat_wire; exact Iz|]. intros k s1 X1 G1 (_ & _ & Hk). apply (has_ext _ _ _ _ X1) in Hx.
    apply (h_wire Hord _ _ _ G1) in Hk.
    eapply csat_bind; [apply (csat_wire s1 (m mod order)); apply Z.mod_pos_bound; lia|]. intros k2 s2 X2 G2 (_ & _ & Hm).
    apply (has_ext _ _ _ _ X2) in Hx. apply (has_ext _ _ _ _ X2) in Hk. apply (h_wire Hord _ _ _ G2) in Hm.
    eapply csat_bind; [eapply csat_assert_product; [exact Hx|exact Hm|exact Hk|]|].
    { rewrite Z.mul_mod_idemp_r by lia. exact E1. }
    intros _ s3 _ _ ->.
    eapply csat_bind; [eapply csat_assert_product; [eapply (h_sub Hord); [apply (h_one Hord); exact G2|exact Hk]|exact Hx|apply (h_zero Hord)|]|].
    { rewrite Z.mul_mod_idemp_l by lia. symmetry. apply divide_mod; [lia|]. apply (mod_is Hord) in E2; [|apply (ev_range Hord)].
      destruct E2 as [q Q]. exists (- q). lia. }
    intros _ s4 _ _ ->. eapply csat_bind; [apply csat_generator|]. intros _ s5 _ _ ->. apply csat_ret. apply Hk. }
  assert (Forge : forall z, 0 <= z < order -> (order | z * (z - 1)) -> exists b' w, nonzero (e_wire 1) (mkB 2 [] []) = Ok (e_wire 2, b') /\
    wf_witness w /\ sat w b' /\ ev w (e_wire 1) = z /\ ev w (e_wire 2) = z).
  { intros z Iz D. set (w := fun k => nth k [1; z; z; 1] 0).
    assert (Hw : wf_witness w). { split; [reflexivity|]. intros [|[|[|[|[|k]]]]]; cbn; lia. }
    assert (V : forall k, ev w (e_wire k) = nth k [1; z; z; 1] 0) by (intro k; exact (wire_val Hord w k Hw)).
    eexists _, w. split; [reflexivity|]. split; [exact Hw|]. split; [|split; apply V].
    constructor; [|constructor; [|constructor]]; unfold sat1; cbn [c_a c_b c_c next].
    - rewrite !V. cbn [nth]. rewrite Z.mul_1_r. apply Z.mod_small. lia.
    - rewrite (ev_minus Hord), (ev_one Hord w (proj1 Hw)), !V, (ev_zero Hord), Z.mul_mod_idemp_l by lia. cbn [nth]. apply divide_mod; [lia|].
      destruct D as [q Q]. exists (- q). lia. }
  assert (Snd : (forall x, sound_call (nonzero x) (fun w r => ev w r = if ev w x =? 0 then 0 else 1)) <-> prime_power order).
  { rewrite <- (idempotents order Hord). split.
    - intros H z Iz D. destruct (Forge z Iz D) as (b' & w & E & Hw & Hs & V1 & V2). pose proof (H _ _ _ _ _ E Hw Hs) as R. cbv beta in R.
      rewrite V1, V2 in R. destruct (z =? 0); auto.
    - intros H x b r b' w E Hw Hs. destruct (S1 x b r b' w E Hw Hs) as (m & M1 & M2).
      assert (D : ev w r = 0 \/ ev w r = 1).
      { apply H; [apply (ev_range Hord)|]. apply (mod_is Hord) in M2; [|apply (ev_range Hord)]. symmetry in M1.
        apply (mod_is Hord) in M1; [|apply (ev_range Hord)]. destruct M1 as [q1 Q1]. destruct M2 as [q2 Q2].
        exists (m * q2 - q1 * (ev w r - 1)).
        assert (R : ev w r = ev w x * m - q1 * order) by lia. rewrite R at 1.
        replace ((ev w x * m - q1 * order) * (ev w r - 1)) with (m * (ev w x * ev w r - ev w x) - q1 * order * (ev w r - 1)) by ring.
        rewrite Q2. ring. }
      destruct (Z.eqb_spec (ev w x) 0) as [Z0|Z0].
      + rewrite Z0, Z.mul_0_l, Z.mod_0_l in M1 by lia. exact M1.
      + destruct D as [D|D]; [|exact D]. rewrite D, Z.mul_0_r, Z.mod_0_l in M2 by lia. congruence. }
  assert (Sat : (forall x, sat_call (nonzero x) (uses [x]) (fun _ _ => True)) <-> square_free order).
  { split.
    - intros H d Hd D. destruct (no_quasi_inverse order d Hord Hd D) as (z & Iz & N). set (w := input_witness [z]).
      assert (Hw : wf_witness w). { split; [reflexivity|]. intros [|[|[|k]]]; cbn; lia. }
      destruct (H (e_wire 1) (mkB 2 [] []) w) as (r & b' & w' & E & _ & Hw' & K & Hs & _).
      + split; [cbn; lia|constructor].
      + exact Hw.
      + constructor.
      + constructor; [|constructor]. intros k Hk. cbn in Hk. cbn. lia.
      + destruct (S1 _ _ _ _ _ E Hw' Hs) as (m & M1 & M2). rewrite (wire_val Hord w' 1 Hw'), K in M1, M2 by (cbn; lia).
        cbn in M1, M2. apply (N m). rewrite M1, Z.mul_mod_idemp_r in M2 by lia. apply (mod_is Hord) in M2; [|exact Iz].
        replace (z * m * z - z) with (z * (z * m) - z) by ring. exact M2.
    - intros Sf x. apply to_sat_call. intros s G U. destruct (quasi_inverse order (ev (wt s) x) Hord Sf) as [m D].
      eapply csat_weaken; [apply (C1 x s ((ev (wt s) x * m) mod order) m G U)|auto].
      + apply Z.mod_pos_bound. lia.
      + reflexivity.
      + rewrite Z.mul_mod_idemp_r by lia. apply (mod_is Hord); [apply (ev_range Hord)|].
        replace (ev (wt s) x * (ev (wt s) x * m) - ev (wt s) x) with (ev (wt s) x * m * ev (wt s) x - ev (wt s) x) by ring. exact D. }
  split; [|split; [exact Snd|split; [exact Sat|]]].
  - intro x. split.
    + intros b r b' w E Hw Hs _. split; [apply (ev_range Hord)|]. eapply S1; eauto.
    + intro z. apply to_sat_call. intros s G [U (Iz & m & E1 & E2)]. eapply C1; eauto.
  - rewrite prime_iff. split.
    + intro H. split.
      * apply (idempotents order Hord). intros z Iz D. destruct (Forge z Iz D) as (b' & w & E & Hw & Hs & V1 & V2).
        destruct (H (e_wire 1)) as [A _]. pose proof (A _ _ _ _ E Hw Hs) as R. cbv beta in R. rewrite V1, V2 in R.
        destruct (z =? 0); [left|right]; apply R; (constructor; [|constructor]); intros k Hk; cbn in Hk; cbn; lia.
      * apply Sat. intro x. destruct (H x) as [A B]. intros b w W Hw Hs U. destruct (B _ b w W Hw Hs (conj U eq_refl)) as (r & b' & w' & E & W' & Hw' & K & Hs' & _).
        exists r, b', w'. auto 10.
    + rewrite <- Snd, <- Sat. intros [A B] x. split.
      * intros b r b' w E Hw Hs _. exact (A x _ _ _ _ E Hw Hs).
      * intros z b w W Hw Hs [U ->]. destruct (B x b w W Hw Hs U) as (r & b' & w' & E & W' & Hw' & K & Hs' & _).
        exists r, b', w'. repeat (split; [assumption|]). rewrite (A x _ _ _ _ E Hw' Hs').
        rewrite (ev_ext w' w x); [reflexivity|]. intros k Hk. apply K. inversion U; auto.
Qed.
Print Assumptions C104_nonzero.

(** Linear combinations and products mean what they say for every order. *)
Theorem C104_product : forall (F : Field), 2 <= order -> forall x y,
  allows_exactly (product x y) (uses [x; y]) ev (fun w z => z = (ev w x * ev w y) mod order).
Proof.
  intros F Hord x y.
  assert (Cx : forall w e c, wf_witness w -> e_as_constant e = Some c -> ev w e = c mod order).
  { intros w e c Hw E. rewrite <- (Z.mod_small (ev w e) order) by apply (ev_range Hord). exact (ev_as_constant Hord w e c (proj1 Hw) E). }
  assert (Sc : forall w e c, ev w (e_scale e c) = (ev w e * c) mod order) by (intros w e c; exact (ev_scale Hord w e c)).
  unfold product. destruct (e_as_constant x) as [c|] eqn:Ex; [|destruct (e_as_constant y) as [c|] eqn:Ey].
  - split.
    + intros b r b' w E Hw _ _. injection E as <- <-. rewrite Sc, (Cx w x c Hw Ex), Z.mul_mod_idemp_l by lia. f_equal. ring.
    + intro z. apply to_sat_call. intros s [Hw G] [U ->]. apply csat_ret. rewrite Sc, (Cx _ x c Hw Ex), Z.mul_mod_idemp_l by lia. f_equal. ring.
  - split.
    + intros b r b' w E Hw _ _. injection E as <- <-. rewrite Sc, (Cx w y c Hw Ey), Z.mul_mod_idemp_r by lia. reflexivity.
    + intro z. apply to_sat_call. intros s [Hw G] [U ->]. apply csat_ret. rewrite Sc, (Cx _ y c Hw Ey), Z.mul_mod_idemp_r by lia. reflexivity.
  - split.
    + intros b r b' w E Hw Hs _. injection E as <- <-. unfold sat in Hs. cbn [constraints next generators snd fst] in Hs. rewrite Forall_app in Hs. destruct Hs as [_ H].
      inversion H as [|? ? A _]; subst. symmetry. exact A.
    + intro z. apply to_sat_call. intros s G [U ->]. assert (Hx : has s x (ev (wt s) x)) by has_u. assert (Hy : has s y (ev (wt s) y)) by has_u.
      eapply csat_bind; [apply (csat_wire s ((ev (wt s) x * ev (wt s) y) mod order)); apply Z.mod_pos_bound; lia|]. intros k s1 X1 G1 (_ & _ & Hk).
      apply (has_ext _ _ _ _ X1) in Hx. apply (has_ext _ _ _ _ X1) in Hy. apply (h_wire Hord _ _ _ G1) in Hk.
      eapply csat_bind; [eapply csat_assert_product; [exact Hx|exact Hy|exact Hk|reflexivity]|]. intros _ s3 _ _ ->.
      eapply csat_bind; [apply csat_generator|]. intros _ s5 _ _ ->. apply csat_ret. apply Hk.
Qed.
Print Assumptions C104_product.

(** Computing inverses, on elements and while executing a gadget. *)
Theorem C104_execute : forall (F : Field), 2 < order ->
  ((forall x, 0 < x < order -> exists y, finv x = Ok y /\ (x * y) mod order = 1) <-> prime order) /\
  ((forall vals x, good_inputs vals -> on_inputs vals x -> wv vals x <> 0 -> runs vals (assert_nonzero x) (fun _ _ => True)) <-> prime order).
Proof.
  intros F H2. assert (Hord : 2 <= order) by lia. split.
  - split.
    + intro H. apply (prime_units order Hord). intros x Hx. destruct (H x Hx) as (y & _ & E). apply (mod_is Hord) in E; [|lia]. destruct E as [q Q].
      apply Zgcd_1_rel_prime, bezout_rel_prime. apply Bezout_intro with y (- q). lia.
    + intros P x Hx. assert (I : infield x) by (unfold infield; lia). assert (N : x <> 0) by lia. exists (finvv x).
      split; [exact (finv_spec P x H2 I N)|exact (finvv_correct P x I N)].
  - split.
    + intro H. apply (prime_units order Hord). intros z Iz.
      destruct (H [z] (e_wire 1)) with (v0 := [(1%nat, z); (ONE, 1)]) as (ws & b0 & r & b' & v & E0 & E & Ex & K & _).
      * constructor; [lia|constructor].
      * intros k Hk. cbn in Hk. cbn. lia.
      * assert (Hw : wf_witness (input_witness [z])). { split; [reflexivity|]. intros [|[|[|k]]]; cbn; lia. }
        rewrite (wire_val Hord _ 1 Hw). cbn. lia.
      * split; [reflexivity|]. split; [intros [|i] Hi; [reflexivity|cbn in Hi; lia]|]. intros [|[|k]] Hk; cbn in Hk; try lia. reflexivity.
      * assert (Hw : wf_witness (witness_of v)) by (apply (witness_of_wf Hord), K; reflexivity).
        pose proof (accept_sat Hord _ _ _ Ex) as Hs.
        destruct (C104_inverse F Hord) as (_ & N & _). destruct (N (e_wire 1)) as [S _].
        assert (Nx : next b0 = 2%nat) by (injection E0 as _ <-; reflexivity).
        pose proof (S b0 r b' _ E Hw Hs) as M. rewrite (wire_val Hord _ 1 Hw) in M. unfold witness_of in M. rewrite (K 1%nat z eq_refl) in M.
        cbn in M. rewrite Z.mod_small in M by lia. apply M. rewrite Nx. constructor; [|constructor]. intros k Hk. cbn in Hk. cbn. lia.
    + intros P vals x Hv Hx Hn. exact (C15_assert_nonzero_complete F P H2 vals x Hv Hx Hn).
Qed.
Print Assumptions C104_execute.

(** Modulo 6, the wire value 3 is a boolean, is its own [nonzero], and has no inverse; modulo 9, executing [nonzero] on 3 fails;
    6 is square free, 9 is a power of a prime, and neither is prime. *)
Example C104_example :
  (let F := mkField 6 in exists b', assert_boolean (e_wire 1) (mkB 2 [] []) = Ok (e_wire 1, b') /\
     Forall (sat1 (fun k => nth k [1; 3] 0)) (constraints b')) /\
  (let F := mkField 6 in exists b', nonzero (e_wire 1) (mkB 2 [] []) = Ok (e_wire 2, b') /\
     Forall (sat1 (fun k => nth k [1; 3; 3; 1] 0)) (constraints b')) /\
  (let F := mkField 6 in demo [3] (assert_nonzero (e_wire 1)) (fun _ => []) = Ok (false, [])) /\
  (let F := mkField 9 in demo [3] (nonzero (e_wire 1)) (fun r => [r]) = Ok (false, [1])) /\
  prime_power 9 /\ ~ square_free 9 /\ square_free 6 /\ ~ prime 6.
Proof.
  split; [eexists; split; [reflexivity|]; repeat constructor|].
  split; [eexists; split; [reflexivity|]; repeat constructor|].
  split; [vm_compute; reflexivity|]. split; [vm_compute; reflexivity|].
  split; [exists 3, 2; split; [exact prime_F3|]; split; [lia|reflexivity]|].
  split; [intro H; apply (H 3); [lia|exists 1; reflexivity]|].
  split; [intros d Hd [c C]; assert (c * (d * d) = 6) by lia; assert (0 < c) by nia; assert (d < 3) by nia; assert (d = 2) by lia; subst; lia|].
  intro P. destruct (prime_divisors 6 P 2) as [|[|[|]]]; [exists 3; reflexivity|lia..].
Qed.
