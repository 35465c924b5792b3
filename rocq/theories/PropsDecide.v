(** C87: executing an assertion decides it, or panics where it fails. *)
From Coq Require Import ZArith List Bool Arith Lia Znumtheory Permutation.
From Verif Require Import Base FieldM FieldP ExprM BuilderM GadgetsM CryptoM CurveM WaksmanM Spec SpecCrypto SpecCurve SpecDecide ExprP BinUtilP BitsP MonoP SoundP
  CmpP GadgetSoundP ExecP HonestP CompleteP CmpCompleteP GadgetCompleteP ArithP CryptoP EdwardsP CurveP WaksmanP RouteP BimapP CostP GadgetCostP Demo PropLib PropsBasic PropsBinary PropsArith PropsCurve PropsWaksman PropsCost PropsCost3
  DetP FlowP DecideP.
Import ListNotations.
Open Scope Z_scope.

Ltac pcong Hord :=
  pose proof (Zadd_feqm Hord); pose proof (Zmul_feqm Hord); pose proof (Zsub_feqm Hord); pose proof (Zopp_feqm Hord);
  rewrite ?(feqm_mod Hord), ?(fopp_eqm Hord), ?(fadd_eqm Hord), ?(fmul_eqm Hord);
  rewrite ?(feqm_mod Hord); apply feqm_of_eq; ring.

(** ** Equalities *)
Section Logic.
Context {F : Field} (Hp : prime order).

Lemma s0_one vals : wt (s0 vals) ONE = 1 /\ (ONE < nx (s0 vals))%nat.
Proof. split; [reflexivity|]. cbn. unfold ONE. lia. Qed.
Lemma ext_one vals s : ext (s0 vals) s -> wt s ONE = 1 /\ (ONE < nx s)%nat.
Proof.
  intros [X1 X2]. cbn [s0 fst snd] in *. split; [rewrite X2; [reflexivity|unfold ONE; lia]|unfold ONE; lia].
Qed.
Lemma decide_product vals x y z : good_inputs vals -> on_inputs vals x -> on_inputs vals y -> on_inputs vals z ->
  decides vals (assert_product x y z) ((wv vals x * wv vals y) mod order = wv vals z).
Proof.
  intros Hv Hx Hy Hz. apply (decide_at_once Hp); [exact Hv|]. exists [mkC x y z], tt. split; [intro; reflexivity|].
  apply (checks_product Hp); apply has_input; assumption.
Qed.
Lemma decide_equal vals x y : good_inputs vals -> on_inputs vals x -> on_inputs vals y -> decides vals (assert_equal x y) (wv vals x = wv vals y).
Proof.
  intros Hv Hx Hy. apply (decide_at_once Hp); [exact Hv|]. exists [mkC x e_one y], tt. split; [apply appends_equal|].
  destruct (s0_one vals). apply (checks_equal Hp); try assumption; apply has_input; assumption.
Qed.
Lemma on_zero vals : on_inputs vals e_zero.
Proof. intros k []. Qed.
Lemma on_one vals : on_inputs vals e_one.
Proof. apply over_one. unfold ONE. lia. Qed.
Lemma wv_zero vals : wv vals e_zero = 0.
Proof. apply ev_zero. pose proof (prime_ge2 Hp). lia. Qed.
Lemma wv_one vals : wv vals e_one = 1.
Proof. apply (ev_one (prime_ge2 Hp)). reflexivity. Qed.

(** a call whose result is asserted to be true *)
Lemma decide_true vals (m : B expr) (c : bool) (claim : Prop) : good_inputs vals -> (c = true <-> claim) ->
  comp (fun k => (k <= length vals)%nat) [] (s0 vals) m (done [] (fun r s => has s r (b2z c))) ->
  decides vals (r <- m ;; assert_true r) claim.
Proof.
  intros Hv Hc H. eapply (decide_after Hp); [exact Hv|exact H|]. cbv beta. intros r s Hr X. destruct (ext_one vals s X) as [W L].
  exists [mkC r e_one e_one], tt. split; [apply appends_equal|]. eapply checks_iff; [|apply (checks_equal Hp s r e_one (b2z c) 1 W L Hr)].
  - rewrite <- Hc. destruct c; cbn; split; congruence.
  - split; [apply over_one; exact L|apply (ev_one (prime_ge2 Hp)); exact W].
Qed.

(** ** words *)
Lemma appends_ret {A} (a : A) : appends (bret a) [] a.
Proof. intro b. unfold bret. rewrite app_nil_r. destruct b; reflexivity. Qed.
Lemma appends_lift {A} (o : outcome A) a : o = Ok a -> appends (blift o) [] a.
Proof. intros -> b. unfold blift. rewrite app_nil_r. destruct b; reflexivity. Qed.
Lemma appends_bind {A C} (m : B A) (k : A -> B C) cs1 a cs2 c : appends m cs1 a -> appends (k a) cs2 c -> appends (bbind m k) (cs1 ++ cs2) c.
Proof. intros H1 H2 b. unfold bbind. rewrite H1, H2. cbn [next constraints generators]. rewrite app_assoc. reflexivity. Qed.

Lemma assert_zero_chunks s : wt s ONE = 1 -> (ONE < nx s)%nat -> forall chs,
  Forall (fun ch => bin_ok (wt s) ch /\ Forall (over (fun k => (k < nx s)%nat)) ch /\ (length ch < max_bits)%nat) chs ->
  exists cs us, appends (bmap (fun c => j <- blift (bin_join c) ;; assert_zero j) chs) cs us /\ checks s cs (Forall (Forall (fun e => ev (wt s) e = 0)) chs).
Proof.
  intros W L chs H. induction H as [|ch chs (Bk & Ov & Lc) _ (cs & us & A & Ck)].
  - exists [], []. split; [apply appends_ret|]. eapply checks_iff; [|apply checks_nil]. split; auto.
  - assert (Hh : hasl s ch (map (ev (wt s)) ch)) by (apply Forall2_nth_hasl; [reflexivity|exact Ov]).
    assert (Hb : Forall is_bit (map (ev (wt s)) ch)) by (apply Forall_map; exact Bk).
    pose proof (pow2_lt_order (prime_ge2 Hp) _ Lc) as Hlt.
    destruct (hasl_join Hp s ch _ Hh Hb ltac:(lia)) as (e & Ee & He).
    exists (([] ++ [mkC e e_one e_zero]) ++ (cs ++ [])), (tt :: us). split.
    + cbn [bmap]. eapply appends_bind.
      * eapply appends_bind; [apply appends_lift, Ee|]. apply appends_equal.
      * eapply appends_bind; [exact A|apply appends_ret].
    + rewrite app_nil_r. cbn [app]. eapply checks_iff; [|apply (checks_app s [mkC e e_one e_zero] cs); [|exact Ck]].
      2:{ apply (checks_equal Hp s e e_zero); [exact W|exact L|exact He|]. split; [intros k []|]. apply ev_zero. pose proof (prime_ge2 Hp). lia. }
      cbv beta. pose proof (bits_val_bound (map (ev (wt s)) ch) Hb) as Bd. rewrite map_length in Bd. rewrite Z.mod_small by lia. rewrite Forall_cons_iff.
      assert (Forall (fun e0 => ev (wt s) e0 = 0) ch <-> bits_val (map (ev (wt s)) ch) = 0); [|tauto]. split.
      * intro Z0. apply bits_val_all0. apply Forall_map. exact Z0.
      * intro Z0. apply bits_val_zero in Z0; [|exact Hb]. apply Forall_map in Z0. exact Z0.
Qed.

Lemma assert_zero_word s x : wt s ONE = 1 -> (ONE < nx s)%nat -> (2 <= max_bits)%nat -> bin_ok (wt s) x -> Forall (over (fun k => (k < nx s)%nat)) x ->
  exists cs, appends (binary_assert_zero x) cs tt /\ checks s cs (Forall (fun e => ev (wt s) e = 0) x).
Proof.
  intros W L H2 Bk Ov. assert (Fc : Forall (fun e => is_bit (ev (wt s) e) /\ over (fun k => (k < nx s)%nat) e) x).
  { apply Forall_forall. intros e He. unfold bin_ok in Bk. rewrite Forall_forall in Bk, Ov. auto. }
  pose proof (chunks_fuel_Forall _ (max_bits - 1)%nat (length x) x Fc) as Fk.
  pose proof (chunks_fuel_concat (max_bits - 1)%nat ltac:(lia) (length x) x (le_n _)) as Cc.
  destruct (assert_zero_chunks s W L (chunks_fuel (length x) (max_bits - 1) x)) as (cs & us & A & Ck).
  { eapply Forall_impl; [|exact Fk]. cbv beta. intros ch [Hc Lc]. split; [|split; [|lia]].
    - eapply Forall_impl; [|exact Hc]. intros e He. apply He.
    - eapply Forall_impl; [|exact Hc]. intros e He. apply He. }
  exists ([] ++ [] ++ cs ++ []). split.
  - unfold binary_assert_zero. eapply appends_bind; [apply appends_lift; unfold osub; destruct (Nat.leb_spec 1 max_bits); [reflexivity|lia]|].
    eapply appends_bind; [apply appends_lift; unfold bin_chunks, chunks; destruct (Nat.eqb_spec (max_bits - 1) 0); [lia|reflexivity]|].
    eapply appends_bind; [exact A|apply appends_ret].
  - cbn [app]. rewrite app_nil_r. eapply checks_iff; [|exact Ck]. set (l := chunks_fuel (length x) (max_bits - 1) x) in *. clearbody l. subst x. clear. induction l as [|c l IH]; cbn [concat].
    + split; constructor.
    + rewrite Forall_cons_iff, Forall_app, IH. tauto.
Qed.

(** ** generators that panic *)
(** whatever is built, one of the generators is in [P] *)
Definition emits {A} (m : B A) (P : wgen -> Prop) : Prop := forall b r b', m b = Ok (r, b') -> exists g, In g (generators b') /\ P g.
Lemma emits_left {A C} (m : B A) (k : A -> B C) P : emits m P -> (forall a, mono (k a)) -> emits (bbind m k) P.
Proof.
  intros H M b r b' E. unfold bbind in E. destruct (m b) as [[a b1]| |] eqn:E1; try discriminate. destruct (H _ _ _ E1) as (g & I & G). exists g. split; [|exact G].
  destruct (M a _ _ _ E) as (_ & _ & gs & -> & _). apply in_or_app. left. exact I.
Qed.
Lemma emits_right {A C} (m : B A) (k : A -> B C) P : (forall a, emits (k a) P) -> emits (bbind m k) P.
Proof. intros H b r b' E. unfold bbind in E. destruct (m b) as [[a b1]| |] eqn:E1; try discriminate. exact (H a _ _ _ E). Qed.
Lemma emits_generator d f (P : wgen -> Prop) : P (mkG d f) -> emits (b_generator d f) P.
Proof. intros H b r b' E. inversion E; subst. exists (mkG d f). split; [cbn; apply in_or_app; right; left; reflexivity|exact H]. Qed.

(** panics on the inputs, whatever else is known *)
Definition stops (vals : list Z) (g : wgen) : Prop :=
  forall v, (forall e, on_inputs vals e -> e_evaluate v e = Ok (wv vals e)) -> g_run g v = Panic.
Lemma aborts_by {A} vals (m : B A) Q Qc : good_inputs vals -> fl (S (length vals)) m Q -> mono m -> costs (S (length vals)) m Qc -> emits m (stops vals) -> aborts vals m.
Proof.
  intros Hv HF HM HC HE. destruct (HC (mkB (S (length vals)) [] []) eq_refl) as (r & b' & k & E & _). destruct (HE _ _ _ E) as (g & I & G).
  eapply aborts_intro; [exact Hv|exact HF|exact HM|exact E|]. exists g. split; [exact I|]. intros v Iv. apply G. intros e He.
  apply (has_run Hp (s0 vals)); [|apply has_input; exact He]. intros k0 Hk. apply Iv. cbn in Hk. lia.
Qed.
Lemma on_below vals x : on_inputs vals x -> below (S (length vals)) x.
Proof. intro H. eapply over_impl; [|exact H]. cbv beta. intros. lia. Qed.
Lemma on_belows vals l : on_inputs_all vals l -> belows (S (length vals)) l.
Proof. intro H. eapply Forall_impl; [|exact H]. intros e. apply on_below. Qed.

Lemma emits_inverse vals x : on_inputs vals x -> wv vals x = 0 -> emits (inverse x) (stops vals).
Proof.
  intros Hx H0. unfold inverse. apply emits_right. intro w. apply emits_right. intros []. apply emits_left; [|mono]. apply emits_generator. intros v Hv. cbn [g_run].
  rewrite (Hv x Hx), H0. reflexivity.
Qed.
Lemma emits_modulus vals x y : on_inputs vals x -> on_inputs vals y -> wv vals y = 0 -> emits (modulus x y) (stops vals).
Proof.
  intros Hx Hy H0. unfold modulus. apply emits_right. intro q. apply emits_right. intro r. apply emits_right. intros []. apply emits_right. intros [].
  apply emits_left; [|mono]. apply emits_generator. intros v Hv. cbn [g_run]. rewrite (Hv x Hx), (Hv y Hy), H0. reflexivity.
Qed.
Lemma costs_modulus N x y : (0 < N)%nat -> (4 <= max_bits)%nat -> costs N (modulus x y) (fun _ _ _ => True).
Proof.
  intros LN H4. unfold modulus. kbind ltac:(apply costs_wire). intros q N1 k1 L1 _. kbind ltac:(apply costs_wire). intros r N2 k2 L2 _.
  kbind ltac:(apply costs_assert_product). intros _ N3 k3 L3 _. eapply costs_bind with (Q := fun _ _ _ => True).
  - unfold assert_lt, lt. eapply costs_bind; [apply (costs_cmp Hp); [lia|exact H4]|]. cbv beta. intros c N4 k4 L4 _. eapply costs_weaken; [apply costs_assert_equal|]. cbv beta. intros a N5 k5 L5 _. exact I.
  - cbv beta. intros _ N4 k4 L4 _. kbind ltac:(apply costs_generator). intros _ N5 k5 L5 _. apply costs_ret. exact I.
Qed.
Lemma omap_inputs vals v l : (forall e, on_inputs vals e -> e_evaluate v e = Ok (wv vals e)) -> on_inputs_all vals l -> omap (e_evaluate v) l = Ok (map (wv vals) l).
Proof. intros H Hl. induction Hl as [|e l He _ IH]; cbn [omap map]; [reflexivity|]. rewrite (H e He). cbn [obind]. rewrite IH. reflexivity. Qed.
Lemma emits_permutation vals a b : on_inputs_all vals a -> on_inputs_all vals b -> length a = length b -> (2 <= length a)%nat ->
  ~ Permutation (map (wv vals) a) (map (wv vals) b) -> emits (assert_permutation a b) (stops vals).
Proof.
  intros Ha Hb E L HN. unfold assert_permutation. destruct (le_lt_dec 3 (length a)) as [L3|L3].
  - rewrite fuel_unfold by assumption. apply emits_right. intros []. unfold net. cbv zeta. apply emits_right. intro las. apply emits_right. intro lbs.
    apply emits_right. intros [[[c1a c1b] c2a] c2b]. apply emits_right. intros []. apply emits_right. intros []. apply emits_generator. intros v Hv. cbn [g_run].
    rewrite (omap_inputs vals v a Hv Ha), (omap_inputs vals v b Hv Hb). cbn [obind]. unfold route. rewrite !map_length, E, Nat.eqb_refl. cbn [oassert obind].
    rewrite (proj2 (C41_bimap Z Z.eqb Z.eqb_eq _ _) HN). reflexivity.
  - destruct a as [|x1 [|x2 [|]]]; cbn [length] in *; try lia. destruct b as [|y1 [|y2 [|]]]; cbn [length] in *; try lia.
    cbn [assert_permutation_fuel length]. apply emits_right. intros _. unfold assert_permutation_2x2. apply emits_right. intros [[w c] d].
    apply emits_right. intros []. apply emits_right. intros []. apply emits_generator. intros v Hv. cbn [g_run].
    unfold on_inputs_all in Ha, Hb. rewrite !Forall_cons_iff in Ha, Hb. destruct Ha as (H1 & H2 & _), Hb as (H3 & H4 & _).
    rewrite (Hv x1 H1), (Hv x2 H2), (Hv y1 H3), (Hv y2 H4). cbn [obind]. cbn [map] in HN.
    destruct (Z.eqb_spec (wv vals x1) (wv vals y1)) as [E1|]; destruct (Z.eqb_spec (wv vals x2) (wv vals y2)) as [E2|]; cbn [andb].
    + exfalso. apply HN. rewrite E1, E2. reflexivity.
    + destruct (Z.eqb_spec (wv vals x1) (wv vals y2)) as [E3|]; destruct (Z.eqb_spec (wv vals x2) (wv vals y1)) as [E4|]; cbn [andb]; try reflexivity. exfalso. apply HN. rewrite E3, E4. apply perm_swap.
    + destruct (Z.eqb_spec (wv vals x1) (wv vals y2)) as [E3|]; destruct (Z.eqb_spec (wv vals x2) (wv vals y1)) as [E4|]; cbn [andb]; try reflexivity. exfalso. apply HN. rewrite E3, E4. apply perm_swap.
    + destruct (Z.eqb_spec (wv vals x1) (wv vals y2)) as [E3|]; destruct (Z.eqb_spec (wv vals x2) (wv vals y1)) as [E4|]; cbn [andb]; try reflexivity. exfalso. apply HN. rewrite E3, E4. apply perm_swap.
Qed.
End Logic.

(** * The theorems *)
Theorem C87_equalities : forall (F : Field), prime order -> forall vals x y z, good_inputs vals -> on_inputs vals x -> on_inputs vals y -> on_inputs vals z ->
  decides vals (assert_product x y z) ((wv vals x * wv vals y) mod order = wv vals z) /\
  decides vals (assert_equal x y) (wv vals x = wv vals y) /\
  decides vals (assert_zero x) (wv vals x = 0) /\
  decides vals (assert_true x) (wv vals x = 1) /\
  decides vals (assert_false x) (wv vals x = 0) /\
  decides vals (assert_boolean x) (is_bit (wv vals x)).
Proof.
  intros F Hp vals x y z Hv Hx Hy Hz. split; [|split; [|split; [|split; [|split]]]].
  - apply (decide_product Hp); assumption.
  - apply (decide_equal Hp); assumption.
  - eapply decides_iff; [|apply (decide_equal Hp vals x e_zero); [assumption|assumption|apply on_zero]]. rewrite (wv_zero Hp). reflexivity.
  - eapply decides_iff; [|apply (decide_equal Hp vals x e_one); [assumption|assumption|apply on_one]]. rewrite (wv_one Hp). reflexivity.
  - eapply decides_iff; [|apply (decide_equal Hp vals x e_zero); [assumption|assumption|apply on_zero]]. rewrite (wv_zero Hp). reflexivity.
  - unfold assert_boolean. apply (decide_at_once Hp); [exact Hv|]. exists ([mkC x (e_sub x e_one) e_zero] ++ []), x. split.
    + eapply appends_bind; [intro; reflexivity|apply appends_ret].
    + cbn [app]. eapply checks_iff; [|apply (checks_product Hp); [apply has_input, Hx|apply (has_sub Hp); [apply has_input, Hx|apply has_input, on_one]|apply has_input, on_zero]].
      rewrite (wv_one Hp), (wv_zero Hp). pose proof (ev_infield (prime_ge2 Hp) (input_witness vals) x) as I. rewrite Z.mul_mod_idemp_r by (pose proof (prime_ge2 Hp); lia).
      split.
      * intro E. apply Z.mod_divide in E; [|pose proof (prime_ge2 Hp); lia]. apply (prime_mult _ Hp) in E. destruct E as [D|D].
        -- left. apply Z.mod_divide in D; [|pose proof (prime_ge2 Hp); lia]. rewrite Z.mod_small in D by exact I. exact D.
        -- right. destruct D as [q D]. unfold infield in I. pose proof (prime_ge2 Hp). assert (q = 0) as -> by nia. lia.
      * intros [->| ->]; [rewrite Z.mul_0_l|change ((1 * (1 - 1))) with 0]; apply Z.mod_0_l; pose proof (prime_ge2 Hp); lia.
Qed.
Print Assumptions C87_equalities.

Theorem C87_comparisons : forall (F : Field), prime order -> (4 <= max_bits)%nat -> forall vals x y, good_inputs vals -> on_inputs vals x -> on_inputs vals y ->
  decides vals (assert_lt x y) (wv vals x < wv vals y) /\
  decides vals (assert_le x y) (wv vals x <= wv vals y) /\
  decides vals (assert_gt x y) (wv vals x > wv vals y) /\
  decides vals (assert_ge x y) (wv vals x >= wv vals y).
Proof.
  intros F Hp H4 vals x y Hv Hx Hy. pose proof (max_bits_odd H4) as H2.
  assert (K : forall less strict (claim : Prop), (cmp_spec less strict (wv vals x) (wv vals y) = true <-> claim) -> decides vals (r <- cmp x y less strict ;; assert_true r) claim).
  { intros less strict claim Hc. eapply (decide_true Hp); [exact Hv|exact Hc|]. apply (cmpl_cmp Hp H2); [exact H4|apply has_input, Hx|apply has_input, Hy]. }
  split; [|split; [|split]]; apply K; unfold cmp_spec; rewrite ?Z.ltb_lt, ?Z.leb_le; lia.
Qed.
Print Assumptions C87_comparisons.

Theorem C87_word_comparisons : forall (F : Field), prime order -> forall vals x y, good_inputs vals -> on_inputs_all vals x -> on_inputs_all vals y ->
  bin_ok (input_witness vals) x -> bin_ok (input_witness vals) y ->
  length x = length y -> (0 < length x)%nat -> (S (cmp_chunk_bits (length x)) < max_bits)%nat ->
  let a := bin_val (input_witness vals) x in let b := bin_val (input_witness vals) y in
  decides vals (assert_lt_binary x y) (a < b) /\ decides vals (assert_le_binary x y) (a <= b) /\
  decides vals (assert_gt_binary x y) (a > b) /\ decides vals (assert_ge_binary x y) (a >= b).
Proof.
  intros F Hp vals x y Hv Hx Hy Bx By L L0 Hc a b. assert (H2 : 2 < order) by (apply (bits_odd (prime_ge2 Hp)); lia).
  assert (K : forall less strict (claim : Prop), (cmp_spec less strict a b = true <-> claim) -> decides vals (r <- cmp_binary x y less strict ;; assert_true r) claim).
  { intros less strict claim Hcl. eapply (decide_true Hp); [exact Hv|exact Hcl|]. apply (cmpl_cmp_binary Hp H2); try assumption; try (apply hasl_input; assumption); apply Forall_map; assumption. }
  split; [|split; [|split]]; apply K; unfold cmp_spec; rewrite ?Z.ltb_lt, ?Z.leb_le; lia.
Qed.
Print Assumptions C87_word_comparisons.

Theorem C87_words : forall (F : Field), prime order -> (2 <= max_bits)%nat -> forall vals, good_inputs vals ->
  (forall x, on_inputs_all vals x -> bin_ok (input_witness vals) x -> decides vals (binary_assert_zero x) (Forall (fun e => wv vals e = 0) x)) /\
  (forall ts, Forall (on_inputs_all vals) ts -> Forall (bin_ok (input_witness vals)) ts -> (sum_width ts < max_bits)%nat ->
   decides vals (binary_summation_asserting_no_overflow ts) (total (input_witness vals) ts < 2 ^ Z.of_nat (longest ts))).
Proof.
  intros F Hp H2 vals Hv. split.
  - intros x Hx Bx. apply (decide_at_once Hp); [exact Hv|]. destruct (s0_one vals) as [W L].
    destruct (assert_zero_word Hp (s0 vals) x W L H2 Bx) as (cs & A & C); [|exists cs, tt; split; assumption].
    eapply Forall_impl; [|exact Hx]. intros e. apply on_below.
  - intros ts Ht Hb Hm. pose proof (hasll_input vals ts Ht) as HH.
    assert (Bl : Forall (Forall is_bit) (map (map (wv vals)) ts)).
    { apply Forall_map. eapply Forall_impl; [|exact Hb]. intros t Hx. apply Forall_map. exact Hx. }
    assert (Hm' : (zbits (max_sum ts) < max_bits)%nat) by (rewrite max_sum_width; exact Hm).
    assert (EZ : zlsum (map bits_val (map (map (wv vals)) ts)) = total (input_witness vals) ts) by (rewrite map_map; reflexivity).
    destruct (max_sum_bound ts _ _ HH Bl) as (Bd & _). rewrite EZ in Bd.
    pose proof (zbits_spec (max_sum ts) ltac:(lia)) as ZS. assert (EL : longest ts = max_len ts) by (symmetry; apply max_len_longest). rewrite EL.
    unfold binary_summation_asserting_no_overflow. eapply (decide_after Hp); [exact Hv|apply (cmpl_binary_summation Hp); eassumption|].
    cbv beta. intros sm s Hs X. rewrite EZ in Hs. destruct (ext_one vals s X) as [W L].
    assert (Ls : length sm = zbits (max_sum ts)) by (rewrite (hasl_length _ _ _ Hs); apply zbl_length).
    assert (Lm : (max_len ts <= length sm)%nat) by (rewrite Ls; apply max_len_le).
    assert (Sk : hasl s (skipn (max_len ts) sm) (skipn (max_len ts) (zbl (total (input_witness vals) ts) (zbits (max_sum ts))))) by (apply hasl_skipn; exact Hs).
    set (tl := skipn (max_len ts) (zbl (total (input_witness vals) ts) (zbits (max_sum ts)))) in *.
    assert (Ez : zbl (total (input_witness vals) ts) (zbits (max_sum ts)) = zbl (total (input_witness vals) ts) (max_len ts) ++ tl).
    { unfold tl. rewrite <- (zbl_firstn (total (input_witness vals) ts) (zbits (max_sum ts)) (max_len ts)) by lia. symmetry. apply firstn_skipn. }
    assert (Bs : Forall is_bit tl) by (pose proof (zbl_bits (total (input_witness vals) ts) (zbits (max_sum ts))) as Z0; rewrite Ez in Z0; apply Forall_app in Z0; apply Z0).
    destruct (assert_zero_word Hp s (skipn (max_len ts) sm) W L H2) as (cs & A & C).
    + eapply hasl_bin_ok; [exact Sk|]. exact Bs.
    + clear - Sk. induction Sk as [|e c l l' [He _] _ IH]; constructor; assumption.
    + exists ([] ++ cs ++ []), (firstn (max_len ts) sm). split.
      * eapply appends_bind; [apply appends_lift; unfold oslice_from; destruct (Nat.leb_spec (max_len ts) (length sm)); [reflexivity|lia]|].
        eapply appends_bind; [exact A|]. apply appends_lift. unfold bin_truncate, oassert. destruct (Nat.leb_spec (max_len ts) (length sm)); [reflexivity|lia].
      * cbn [app]. rewrite app_nil_r. eapply checks_iff; [|exact C]. apply hasl_map_ev in Sk. destruct Sk as [Sk _].
        assert (Q : Forall (fun e => ev (wt s) e = 0) (skipn (max_len ts) sm) <-> Forall (fun b => b = 0) tl) by (rewrite <- Sk, Forall_map; reflexivity).
        rewrite Q. split; [|intro Hlt; apply zbl_skipn_zero; lia]. intro Z0. apply bits_val_all0 in Z0.
        pose proof (zbl_val (total (input_witness vals) ts) (zbits (max_sum ts)) (conj (proj1 Bd) (Z.le_lt_trans _ _ _ (proj2 Bd) ZS))) as V. rewrite Ez, bits_val_app, Z0 in V.
        pose proof (bits_val_bound (zbl (total (input_witness vals) ts) (max_len ts)) (zbl_bits _ _)) as Bd'. rewrite zbl_length in Bd'. lia.
Qed.
Print Assumptions C87_words.


Theorem C87_membership : forall (F : Field), prime order -> forall m H vals leaf root path, completes2 m H ->
  good_inputs vals -> on_inputs vals leaf -> on_inputs vals root -> on_inputs_all vals (prefix path) -> on_inputs_all vals (siblings path) ->
  bin_ok (input_witness vals) (prefix path) ->
  decides vals (assert_merkle_tree_membership m leaf root path)
    (wv vals root = path_fun H (wv vals leaf) (map (wv vals) (prefix path)) (map (wv vals) (siblings path))).
Proof.
  intros F Hp m H vals leaf root path Hm Hv Hl Hr Hb Hs Bb. unfold assert_merkle_tree_membership.
  eapply (decide_after Hp); [exact Hv|eapply (cmpl_merkle_root Hp); [exact Hm|apply has_input, Hl|apply hasl_input, Hb|apply hasl_input, Hs|apply Forall_map; exact Bb]|].
  cbv beta. intros r s Hc X. destruct (ext_one vals s X) as [W L]. exists [mkC root e_one r], tt. split; [apply appends_equal|].
  apply (checks_equal Hp); [exact W|exact L|eapply has_ext; [exact X|apply has_input, Hr]|exact Hc].
Qed.
Print Assumptions C87_membership.

Theorem C87_point : forall (F : Field), prime order -> forall C vals x y, good_inputs vals -> on_inputs vals x -> on_inputs vals y ->
  decides vals (ed_expr_new C x y) (on_curve (ed_a C) (ed_d C) (wv vals x, wv vals y)).
Proof.
  intros F Hp C vals x y Hv Hx Hy. change (ed_expr_new C x y) with (ed_expr_new C x y).
  assert (Pre : comp (fun k => (k <= length vals)%nat) [] (s0 vals) (xx <- product x x ;; yy <- product y y ;; xxyy <- product xx yy ;; bret (xx, yy, xxyy))
    (done [] (fun r s => has s (fst (fst r)) ((wv vals x * wv vals x) mod order) /\ has s (snd (fst r)) ((wv vals y * wv vals y) mod order) /\
       has s (snd r) (((wv vals x * wv vals x) mod order * ((wv vals y * wv vals y) mod order)) mod order)))).
  { pose proof (has_input vals x Hx) as Ix. pose proof (has_input vals y Hy) as Iy.
    cbind (apply (cmpl_product Hp); [exact Ix|exact Ix]). intros xx P1 s1 X1 G1 [-> Hxx]. carry.
    cbind (apply (cmpl_product Hp); [exact Iy|exact Iy]). intros yy P2 s2 X2 G2 [-> Hyy]. carry.
    cbind (apply (cmpl_product Hp); [exact Hxx|exact Hyy]). intros xy P3 s3 X3 G3 [-> Hxy]. carry.
    apply comp_ret. split; [reflexivity|]. cbn [fst snd]. auto. }
  intros v0 I.
  assert (D : decides vals (r <- (xx <- product x x ;; yy <- product y y ;; xxyy <- product xx yy ;; bret (xx, yy, xxyy)) ;;
    assert_equal (e_add (e_scale (fst (fst r)) (ed_a C)) (snd (fst r))) (e_add (e_scale (snd r) (ed_d C)) e_one) ;; bret (ed_new_unsafe x y))
    (on_curve (ed_a C) (ed_d C) (wv vals x, wv vals y))).
  { eapply (decide_after Hp); [exact Hv|exact Pre|]. cbv beta. intros [[xx yy] xy] s (Hxx & Hyy & Hxy) X. cbn [fst snd] in *. destruct (ext_one vals s X) as [W L].
    eexists (_ ++ []), _. split; [eapply appends_bind; [apply appends_equal|apply appends_ret]|]. rewrite app_nil_r.
    eapply checks_iff; [|apply (checks_equal Hp); [exact W|exact L|apply (has_add Hp); [apply (has_scale Hp); exact Hxx|exact Hyy]|
      apply (has_add Hp); [apply (has_scale Hp); exact Hxy|]]].
    2:{ split; [apply over_one; exact L|apply (ev_one (prime_ge2 Hp)); exact W]. }
    unfold on_curve, in_plane. cbn [fst snd]. pose proof (ev_infield (prime_ge2 Hp) (input_witness vals) x) as Ix. pose proof (ev_infield (prime_ge2 Hp) (input_witness vals) y) as Iy.
    set (a := wv vals x) in *. set (b := wv vals y) in *.
    pose proof (prime_ge2 Hp) as Hord. match goal with |- ?l = ?r <-> _ => assert (El : l = (ed_a C * a ^ 2 + b ^ 2) mod order) by (apply mod_mod_eq; pcong Hord); assert (Er : r = (1 + ed_d C * a ^ 2 * b ^ 2) mod order) by (apply mod_mod_eq; pcong Hord) end.
    rewrite El, Er. unfold infield in *. tauto. }
  destruct (D v0 I) as (ws & b0 & r & b' & ok & v & E1 & E2 & E3). exists ws, b0, r, b', ok, v. split; [exact E1|]. split; [|exact E3].
  rewrite <- E2. unfold ed_expr_new, bbind. destruct (product x x b0) as [[xx b1]| |]; [|reflexivity|reflexivity]. destruct (product y y b1) as [[yy b2]| |]; [|reflexivity|reflexivity].
  destruct (product xx yy b2) as [[xy b3]| |]; reflexivity.
Qed.
Print Assumptions C87_point.

Theorem C87_signature : forall (F : Field), prime order -> 2 < order -> forall C g m H,
  complete_curve (ed_a C) (ed_d C) -> on_curve (ed_a C) (ed_d C) g -> completes2 m H ->
  forall vals s e msg pk, good_inputs vals -> on_inputs vals s -> on_inputs vals e -> on_inputs vals msg -> on_inputs_p vals pk ->
  on_curve (ed_a C) (ed_d C) (evp (input_witness vals) pk) ->
  decides vals (schnorr_verify (mkCyclic (edwards_group C) (Ok g)) (s, e) msg pk m)
    (wv vals e = H (snd (ed_add (ed_a C) (ed_d C) (ed_mul (ed_a C) (ed_d C) (Z.to_nat (wv vals s)) g)
                                                  (ed_mul (ed_a C) (ed_d C) (Z.to_nat (wv vals e)) (evp (input_witness vals) pk)))) (wv vals msg)).
Proof.
  intros F Hp H2 C g m H Hcc Og Hm vals s e msg pk Hv Hs He Hmsg Hpk OP.
  set (CG := mkCyclic (edwards_group C) (Ok g)). set (PK := evp (input_witness vals) pk) in *.
  pose proof (has_input vals s Hs) as Is. pose proof (has_input vals e He) as Ie. pose proof (has_input vals msg Hmsg) as Im.
  pose proof (hasp_input vals pk Hpk) as Ipk. fold PK in Ipk.
  set (pre := generator <- blift (generator_expression CG) ;; gs <- mul_scalar_expression (cg_group CG) generator s ;; ye <- mul_scalar_expression (cg_group CG) pk e ;;
    gs_ye <- add_expressions (cg_group CG) gs ye ;; m (compressed (cg_group CG) gs_ye) msg).
  set (h := H (snd (ed_add (ed_a C) (ed_d C) (ed_mul (ed_a C) (ed_d C) (Z.to_nat (wv vals s)) g) (ed_mul (ed_a C) (ed_d C) (Z.to_nat (wv vals e)) PK))) (wv vals msg)).
  assert (D : decides vals (r <- pre ;; assert_equal r e) (wv vals e = h)).
  { eapply (decide_after Hp) with (Q := fun r s' => has s' r h); [exact Hv| |].
    - unfold pre. apply comp_hon. intros G _ _. eapply comp_liftb; [reflexivity|]. cbn [cg_group CG g_of_elem edwards_group add_expressions compressed].
      cbind (apply (cmpl_mul_scalar Hp H2 C _ _ _ _ g); [exact Hcc|exact Og|apply (hasp_const Hp); [exact G|apply Og]|exact Is]).
      intros gs P1 s1 X1 G1 [-> Hgs]. carry. apply (hasp_ext _ _ _ _ X1) in Ipk.
      cbind (apply (cmpl_mul_scalar Hp H2 C _ _ _ _ PK); [exact Hcc|exact OP|exact Ipk|exact Ie]).
      intros ye P2 s2 X2 G2 [-> Hye]. carry. apply (hasp_ext _ _ _ _ X2) in Hgs.
      cbind (eapply (cmpl_ed_add Hp H2 C); [exact Hcc|apply (mul_on_curve Hp H2 _ _ Hcc); exact Og|apply (mul_on_curve Hp H2 _ _ Hcc); exact OP|exact Hgs|exact Hye]).
      intros gy P3 s3 X3 G3 [-> [_ Hgy]]. carry.
      cweaken (apply Hm; [exact Hgy|exact Im]). intros r P4 s4 X4 G4 [-> Hh]. split; [reflexivity|exact Hh].
    - cbv beta. intros r s' Hr X. destruct (ext_one vals s' X) as [W L]. exists [mkC r e_one e], tt. split; [apply appends_equal|].
      eapply checks_iff; [|apply (checks_equal Hp); [exact W|exact L|exact Hr|eapply has_ext; [exact X|exact Ie]]]. split; congruence. }
  intros v0 I. destruct (D v0 I) as (ws & b0 & r & b' & ok & v & E1 & E2 & E3). exists ws, b0, r, b', ok, v. split; [exact E1|]. split; [|exact E3].
  rewrite <- E2. unfold pre, schnorr_verify. cbn [fst snd].
  rewrite bbind_assoc. apply bbind_ext. intros gen bg. rewrite bbind_assoc. apply bbind_ext. intros gs b1. rewrite bbind_assoc. apply bbind_ext. intros ye b2.
  rewrite bbind_assoc. reflexivity.
Qed.
Print Assumptions C87_signature.

Theorem C87_panics : forall (F : Field), prime order -> 2 < order -> forall vals x y, good_inputs vals -> on_inputs vals x -> on_inputs vals y ->
  accepts_or_aborts vals (inverse x) (wv vals x <> 0) /\
  accepts_or_aborts vals (assert_nonzero x) (wv vals x <> 0) /\
  accepts_or_aborts vals (assert_nonequal x y) (wv vals x <> wv vals y) /\
  accepts_or_aborts vals (quotient x y) (wv vals y <> 0) /\
  accepts_or_aborts vals (quotient_unsafe x y) (wv vals y <> 0) /\
  (forall n, (n < max_bits)%nat -> accepts_or_aborts vals (split_bounded x n) (wv vals x < 2 ^ Z.of_nat n)) /\
  ((4 <= max_bits)%nat -> accepts_or_aborts vals (modulus x y) (wv vals y <> 0) /\ accepts_or_aborts vals (divides x y) (wv vals x <> 0)).
Proof.
  intros F Hp H2 vals x y Hv Hx Hy. pose proof (on_below vals x Hx) as Bx. pose proof (on_below vals y Hy) as By.
  assert (dec : forall z, ~ z <> 0 -> z = 0) by (intros z Hz; lia).
  assert (Inv : forall e, on_inputs vals e -> wv vals e = 0 -> aborts vals (assert_nonzero e)).
  { intros e He E0. eapply (aborts_by Hp); [exact Hv|apply fl_assert_nonzero, on_below, He|mono| |].
    - apply costs_assert_nonzero.
    - unfold assert_nonzero. apply emits_left; [apply emits_inverse; assumption|mono]. }
  split; [|split; [|split; [|split; [|split; [|split]]]]].
  - split; intro E; [eapply runs_weaken; [apply C15_inverse_complete; assumption|auto]|]. apply dec in E.
    eapply (aborts_by Hp); [exact Hv|apply fl_inverse, Bx|mono|apply costs_inverse|apply emits_inverse; assumption].
  - split; intro E; [apply C15_assert_nonzero_complete; assumption|]. apply Inv; auto.
  - split; intro E; [apply C15_assert_nonequal_complete; assumption|]. unfold assert_nonequal. apply Inv; [apply over_sub; assumption|].
    apply (ev_sub_zero Hp). lia.
  - split; intro E; [eapply runs_weaken; [apply C18_quotient_complete; assumption|auto]|]. apply dec in E.
    eapply (aborts_by Hp); [exact Hv|apply fl_quotient; assumption|mono|apply costs_quotient|]. unfold quotient. apply emits_left; [apply emits_inverse; assumption|mono].
  - split; intro E; [eapply runs_weaken; [apply C19_quotient_unsafe_complete_partial; assumption|auto]|]. apply dec in E.
    eapply (aborts_by Hp); [exact Hv|apply fl_quotient_unsafe; assumption|mono|apply costs_quotient_unsafe|].
    unfold quotient_unsafe. apply emits_right. intro q. apply emits_left; [|mono]. apply emits_generator. intros v Iv. cbn [g_run]. rewrite (Iv x Hx), (Iv y Hy), E. reflexivity.
  - intros n Hn. split; intro E; [eapply runs_weaken; [apply C24_split_bounded_complete; assumption|auto]|].
    eapply (aborts_by Hp); [exact Hv|apply fl_split_bounded, Bx|mono|apply (costs_split_bounded (prime_ge2 Hp)); [lia|exact Hn]|].
    unfold split_bounded, split_without_range_check. apply emits_right. intros _. apply emits_right. intro ws. apply emits_right. intro wt. apply emits_right. intros [].
    apply emits_left; [|mono]. apply emits_generator. intros v Iv. cbn [g_run]. rewrite (Iv x Hx). cbn [obind]. unfold oassert.
    destruct (Nat.leb_spec (el_bits (wv vals x)) n) as [L|L]; [|reflexivity]. exfalso. apply E. apply zbits_le_iff; [apply (ev_infield (prime_ge2 Hp))|exact L].
  - intro H4. split; (split; intro E; [eapply runs_weaken; [first [apply C20_modulus_complete|apply C20_divides_complete]; assumption|auto]|apply dec in E]).
    + eapply (aborts_by Hp); [exact Hv|apply fl_modulus; assumption|mono|apply (costs_modulus Hp); [lia|exact H4]|apply emits_modulus; assumption].
    + eapply (aborts_by Hp) with (Qc := fun _ _ _ => True); [exact Hv|apply fl_divides; assumption|mono| |unfold divides; apply emits_left; [apply emits_modulus; assumption|mono]].
      unfold divides. kbind ltac:(apply (costs_modulus Hp); [lia|exact H4]). intros r N1 k1 L1 _. eapply costs_weaken; [apply costs_zero|]. auto.
Qed.
Print Assumptions C87_panics.

Theorem C87_permutation : forall (F : Field), prime order -> forall vals a b, good_inputs vals -> on_inputs_all vals a -> on_inputs_all vals b -> length a = length b ->
  ((2 <= length a)%nat -> accepts_or_aborts vals (assert_permutation a b) (Permutation (map (wv vals) a) (map (wv vals) b))) /\
  ((length a < 2)%nat -> decides vals (assert_permutation a b) (Permutation (map (wv vals) a) (map (wv vals) b))).
Proof.
  intros F Hp vals a b Hv Ha Hb E. split; intro L.
  - split; intro HP; [apply C39_assert_permutation_complete; assumption|].
    eapply (aborts_by Hp); [exact Hv|apply (fl_assert_permutation (prime_ge2 Hp)); apply on_belows; assumption|apply mono_assert_permutation|
      unfold assert_permutation; apply costs_permutation_fuel; [exact E|lia]|apply emits_permutation; assumption].
  - destruct a as [|x [|]]; cbn [length] in *; try lia.
    + destruct b; [|discriminate]. apply (decide_at_once Hp); [exact Hv|]. exists [], tt. split; [intro b; destruct b; unfold assert_permutation; cbn; rewrite app_nil_r; reflexivity|].
      eapply checks_iff; [|apply checks_nil]. cbn. split; auto.
    + destruct b as [|y [|]]; try discriminate. apply Forall_cons_iff in Ha, Hb. destruct Ha as [Hx _], Hb as [Hy _].
      eapply decides_iff; [|exact (decide_equal Hp vals x y Hv Hx Hy)]. cbn [map]. split; [intros ->; reflexivity|intro HP; apply Permutation_length_1; exact HP].
Qed.
Print Assumptions C87_permutation.

(** True and false claims side by side: the gadget reports [true], reports [false], or panics. *)
Example C87_example : let F : Field := F97 in let w := e_wire in
  demo [5; 7] (assert_lt (w 1%nat) (w 2%nat)) (fun _ => []) = Ok (true, []) /\ demo [7; 5] (assert_lt (w 1%nat) (w 2%nat)) (fun _ => []) = Ok (false, []) /\
  demo [5; 5] (assert_le (w 1%nat) (w 2%nat)) (fun _ => []) = Ok (true, []) /\ demo [6; 5] (assert_le (w 1%nat) (w 2%nat)) (fun _ => []) = Ok (false, []) /\
  demo [2] (assert_boolean (w 1%nat)) (fun _ => []) = Ok (false, []) /\ demo [5; 6] (assert_equal (w 1%nat) (w 2%nat)) (fun _ => []) = Ok (false, []) /\
  demo [1; 1; 0; 1] (binary_summation_asserting_no_overflow [map w [1; 2]%nat; map w [3; 4]%nat]) (fun _ => []) = Ok (false, []) /\
  demo [1; 0; 0; 1] (binary_summation_asserting_no_overflow [map w [1; 2]%nat; map w [3; 4]%nat]) (fun r => r) = Ok (true, [1; 1]) /\
  demo [0] (inverse (w 1%nat)) (fun _ => []) = Panic /\ demo [5; 0] (modulus (w 1%nat) (w 2%nat)) (fun _ => []) = Panic /\
  demo [8] (split_bounded (w 1%nat) 3) (fun _ => []) = Panic /\ demo [7] (split_bounded (w 1%nat) 3) (fun r => r) = Ok (true, [1; 1; 1]) /\
  demo [1; 2; 3; 3; 2; 2] (assert_permutation (map w [1; 2; 3]%nat) (map w [4; 5; 6]%nat)) (fun _ => []) = Panic /\
  demo [1; 2; 3; 3; 1; 2] (assert_permutation (map w [1; 2; 3]%nat) (map w [4; 5; 6]%nat)) (fun _ => []) = Ok (true, []) /\
  demo [1; 2] (assert_permutation [w 1%nat] [w 2%nat]) (fun _ => []) = Ok (false, []).
Proof. vm_compute. repeat split. Qed.
Example C87_example_curve :
  (let F : Field := F13 in let C := mkEd 1 2 in
   demo [4; 9] (ed_expr_new C (e_wire 1) (e_wire 2)) (fun _ => []) = Ok (true, []) /\ demo [4; 5] (ed_expr_new C (e_wire 1) (e_wire 2)) (fun _ => []) = Ok (false, [])) /\
  (let F : Field := F11 in
   demo [3; 6; 6; 4; 8] (schnorr_verify demo_group (e_wire 1, e_wire 2) (e_wire 3) (e_wire 4, e_wire 5) demo_hash) (fun _ => []) = Ok (true, []) /\
   demo [1; 6; 6; 4; 8] (schnorr_verify demo_group (e_wire 1, e_wire 2) (e_wire 3) (e_wire 4, e_wire 5) demo_hash) (fun _ => []) = Ok (false, [])).
Proof. vm_compute. repeat split. Qed.
