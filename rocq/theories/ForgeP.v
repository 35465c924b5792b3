(** Witnesses a prover may choose freely: satisfiability of the gadgets with results other than the
    honest ones. *)
From Coq Require Import ZArith List Bool Arith Lia Znumtheory Permutation.
From Verif Require Import Base FieldM FieldP ExprM BuilderM GadgetsM Spec ExprP BitsP MonoP LocalP SoundP
  CmpP GadgetSoundP HonestP CompleteP CmpCompleteP GadgetCompleteP SatP.
Import ListNotations.
Open Scope Z_scope.

Tactic Notation "fbind" tactic(t) := eapply csat_bind; [ solve [t] | cbv beta ].
Tactic Notation "fweaken" tactic(t) := eapply csat_weaken; [ solve [t] | cbv beta ].

Section Forge.
Context {F : Field} (Hp : prime order) (H2 : 2 < order).
Let Hord : 2 <= order := prime_ge2 Hp.

(** ** assertions *)
Lemma fs_assert_equal s x y a : has s x a -> has s y a -> csat s (assert_equal x y) (fun _ s' => s' = s).
Proof using Hp.
  intros Hx Hy. apply csat_good. intro G. unfold assert_equal.
  eapply csat_assert_product; [exact Hx|apply (has_one Hp), G|exact Hy|].
  rewrite Z.mul_1_r. symmetry. apply Z.mod_small. exact (has_infield Hp _ _ _ Hx).
Qed.

Lemma fs_assert_true s x : has s x 1 -> csat s (assert_true x) (fun _ s' => s' = s).
Proof using Hp.
  intro Hx. apply csat_good. intro G. eapply fs_assert_equal; [exact Hx|apply (has_one Hp), G].
Qed.

Lemma fs_assert_boolean s x a : has s x a -> is_bit a -> csat s (assert_boolean x) (fun r s' => r = x /\ s' = s).
Proof using Hp.
  intros Hx Ha. apply csat_good. intro G. unfold assert_boolean.
  fbind (eapply csat_assert_product; [exact Hx|apply (has_sub Hp); [exact Hx|apply (has_one Hp), G]|apply (has_zero Hp)|
    destruct Ha as [-> | ->]; [rewrite Z.mul_0_l|rewrite Z.sub_diag, (mod_small_0 Hp), Z.mul_0_r]; symmetry; apply (mod_small_0 Hp)]).
  intros _ s1 _ _ ->. apply csat_ret. auto.
Qed.

(** ** new wires with chosen values *)
Lemma fs_wires l : Forall infield l -> forall s,
  csat s (b_wires (length l)) (fun ws s' => ws = seq (nx s) (length l) /\ nx s' = (nx s + length l)%nat /\
    Forall2 (hasw s') ws l).
Proof using Hp.
  intros Hl. unfold b_wires.
  assert (G : forall l, Forall infield l -> forall k s, csat s (bmap (fun _ : nat => b_wire) (seq k (length l)))
    (fun ws s' => ws = seq (nx s) (length l) /\ nx s' = (nx s + length l)%nat /\ Forall2 (hasw s') ws l)).
  { clear l Hl. induction l as [|a l IH]; intros Hl k s; cbn [length seq bmap].
    - apply csat_ret. rewrite Nat.add_0_r. auto.
    - apply Forall_cons_iff in Hl. destruct Hl as [Ha Hl].
      fbind (apply csat_wire; exact Ha). intros w s1 X1 G1 (-> & N1 & W1).
      fbind (apply IH; exact Hl). intros ws s2 X2 G2 (-> & N2 & W2). apply csat_ret. rewrite N1 in *.
      split; [reflexivity|]. split; [lia|]. constructor; [eapply hasw_ext; eauto|exact W2]. }
  intro s. apply G, Hl.
Qed.

Lemma fs_binary_wire l : Forall is_bit l -> forall s,
  csat s (binary_wire (length l)) (fun ws s' => ws = seq (nx s) (length l) /\ nx s' = (nx s + length l)%nat /\
    Forall2 (hasw s') ws l).
Proof using Hp.
  intros Hl. unfold binary_wire.
  assert (G : forall l, Forall is_bit l -> forall k s, csat s (bmap (fun _ : nat => boolean_wire) (seq k (length l)))
    (fun ws s' => ws = seq (nx s) (length l) /\ nx s' = (nx s + length l)%nat /\ Forall2 (hasw s') ws l)).
  { clear l Hl. induction l as [|a l IH]; intros Hl k s; cbn [length seq bmap].
    - apply csat_ret. rewrite Nat.add_0_r. auto.
    - apply Forall_cons_iff in Hl. destruct Hl as [Ha Hl].
      eapply csat_bind with (Q := fun w s' => w = nx s /\ nx s' = S (nx s) /\ hasw s' w a).
      { unfold boolean_wire. fbind (apply (csat_wire s a); apply (is_bit_infield Hp), Ha).
        intros w s1 X1 G1 (-> & N1 & W1).
        fbind (eapply fs_assert_boolean; [apply (has_wire Hp); [exact G1|exact W1]|exact Ha]).
        intros r s2 _ _ (_ & ->). apply csat_ret. auto. }
      cbv beta. intros w s1 X1 G1 (-> & N1 & W1).
      fbind (apply IH; exact Hl). intros ws s2 X2 G2 (-> & N2 & W2). apply csat_ret. rewrite N1 in *.
      split; [reflexivity|]. split; [lia|]. constructor; [eapply hasw_ext; eauto|exact W2]. }
  intro s. apply G, Hl.
Qed.

(** ** splitting with any bits that represent the element *)
Lemma fs_swrc s x a l : has s x a -> Forall is_bit l -> bits_val l mod order = a -> (length l <= max_bits)%nat ->
  csat s (split_without_range_check x (length l)) (fun r s' => hasl s' r l).
Proof using Hp.
  intros Hx Hl Ha Hn. unfold split_without_range_check.
  fbind (apply fs_binary_wire; exact Hl). intros ws s1 X1 G1 (Ew & N1 & W1). carry. cbv zeta.
  pose proof (hasl_wires Hp s1 ws l G1 W1) as Hb.
  destruct (join_has Hp s1 (bin_of_wires ws) l Hb) as (e & Ee & He).
  { rewrite (hasl_length _ _ _ Hb). exact Hn. }
  eapply csat_liftb; [exact Ee|]. rewrite Ha in He.
  fbind (eapply fs_assert_equal; [exact Hx|exact He]). intros _ s2 _ _ ->.
  fbind (apply csat_generator). intros _ s3 _ _ ->. apply csat_ret. exact Hb.
Qed.

Lemma fs_split_amb s x a l : has s x a -> Forall is_bit l -> bits_val l mod order = a -> length l = max_bits ->
  csat s (split_allowing_ambiguity x) (fun r s' => hasl s' r l).
Proof using Hp.
  intros Hx Hl Ha Hn. unfold split_allowing_ambiguity. rewrite <- Hn. eapply fs_swrc; eauto. lia.
Qed.

(** ** the all-zero mask *)
Lemma fs_cmp_default s x y xl yl less strict : hasl s x xl -> hasl s y yl ->
  Forall is_bit xl -> Forall is_bit yl -> length x = length y -> (0 < length x)%nat ->
  (S (cmp_chunk_bits (length x)) < max_bits)%nat ->
  csat s (cmp_binary x y less strict) (fun r s' => has s' r (1 - b2z strict)).
Proof using Hp H2.
  intros Hx Hy Bx By Hlen Hpos Hcm. apply csat_good. intro G. unfold cmp_binary.
  eapply csat_liftb; [rewrite Hlen, Nat.eqb_refl; reflexivity|]. cbv zeta.
  destruct (cmp_chunk_bits_spec (length x)) as (Hc1 & _ & _).
  set (c := cmp_chunk_bits (length x)) in *.
  destruct (chunk_ok Hp c ltac:(lia) x) as (xc & Exc & Oxc).
  destruct (chunk_ok Hp c ltac:(lia) y) as (yc & Eyc & Oyc).
  eapply csat_liftb; [exact Exc|]. eapply csat_liftb; [exact Eyc|].
  apply (chunk_values Hp (wt s)) in Exc; [|eapply hasl_bin_ok; eauto|lia].
  apply (chunk_values Hp (wt s)) in Eyc; [|eapply hasl_bin_ok; eauto|lia].
  destruct Exc as (Lx & _ & _), Eyc as (Ly & _ & _). rewrite <- Hlen in Ly.
  assert (Hxc : hasl s xc (map (ev (wt s)) xc)) by (apply Forall2_nth_hasl; [reflexivity|apply Oxc, hasl_map_ev with (1 := Hx)]).
  assert (Hyc : hasl s yc (map (ev (wt s)) yc)) by (apply Forall2_nth_hasl; [reflexivity|apply Oyc, hasl_map_ev with (1 := Hy)]).
  set (n := length xc) in *.
  assert (Ln : length yc = n) by (unfold n; lia).
  assert (Hn0 : (0 < n)%nat).
  { destruct (Nat.eq_dec n 0) as [E|]; [|lia]. exfalso.
    destruct (ceil_div_spec (length x) c ltac:(lia)) as (A & _ & _). rewrite <- Lx, E in A. simpl in A. lia. }
  set (z := repeat 0 n). assert (Lz : length z = n) by apply repeat_length.
  assert (Hz : forall a, In a z -> a = 0) by (intro a; apply repeat_spec).
  rewrite <- Lz at 1.
  fbind (apply fs_wires; apply Forall_forall; intros a Ha; rewrite (Hz a Ha); unfold infield; lia).
  intros mask s1 X1 G1 (Em & N1 & W1). rewrite Lz in Em, N1. carry.
  assert (Lm : length mask = n) by (rewrite Em; apply seq_length).
  assert (NDm : NoDup mask) by (rewrite Em; apply seq_NoDup).
  assert (Wm : forall m, In m mask -> hasw s1 m 0).
  { intros m Hm. apply (In_nth _ _ 0%nat) in Hm. destruct Hm as (i & Hi & <-).
    replace 0 with (nth i z 0); [exact (hasw_nth _ _ _ W1 i Hi)|]. apply Hz, nth_In. lia. }
  eapply csat_bind; [apply csat_bmap with (R := fun _ _ _ => True); [auto|]|cbv beta].
  { intros m s2 Hm X2. apply csat_good. intro G2.
    fweaken (eapply fs_assert_boolean; [apply (has_wire Hp); [exact G2|eapply hasw_ext; [exact X2|apply Wm, Hm]]|left; reflexivity]).
    auto. }
  intros _l s2 X2 G2 _. carry.
  assert (Wm2 : forall m, In m mask -> hasw s2 m 0) by (intros m Hm; eapply hasw_ext; [exact X2|apply Wm, Hm]).
  assert (Hde : has s2 (e_sum_of_wires mask) 0).
  { split.
    - apply over_sum_of_wires, Forall_forall. intros m Hm. exact (proj1 (Wm2 m Hm)).
    - rewrite (ev_sum_of_wires _ _ NDm).
      assert (E : forall l, (forall m, In m l -> hasw s2 m 0) -> fold_right (fun k sm => wt s2 k + sm) 0 l = 0).
      { induction l as [|m l IH]; intro Hl; simpl; [reflexivity|]. rewrite IH by (intros; apply Hl; right; assumption).
        rewrite (proj2 (Hl m (or_introl eq_refl))). reflexivity. }
      rewrite (E mask Wm2). apply (mod_small_0 Hp). }
  fbind (eapply fs_assert_boolean; [exact Hde|left; reflexivity]).
  intros de s3 _ _ (-> & ->).
  fbind (apply csat_generator). intros _ s4 _ _ ->.
  assert (IX : forall s', ext s2 s' -> forall i, (i < n)%nat -> exists e v, oindex xc i = Ok e /\ has s' e v).
  { intros s' E i Hi. destruct (hasl_nth _ _ _ Hxc i Hi) as (e & Ee & _ & He). exists e. eexists. split; [exact Ee|]. eapply has_ext; eauto. }
  assert (IY : forall s', ext s2 s' -> forall i, (i < n)%nat -> exists e v, oindex yc i = Ok e /\ has s' e v).
  { intros s' E i Hi. destruct (hasl_nth _ _ _ Hyc i ltac:(lia)) as (e & Ee & _ & He). exists e. eexists. split; [exact Ee|]. eapply has_ext; eauto. }
  assert (IM : forall s', good s' -> ext s2 s' -> forall i, (i < n)%nat -> exists m, oindex mask i = Ok m /\ has s' (e_wire m) 0).
  { intros s' G' E i Hi. exists (nth i mask 0%nat). split.
    - unfold oindex. rewrite (nth_error_nth' _ 0%nat) by lia. reflexivity.
    - apply (has_wire Hp); auto. eapply hasw_ext; [exact E|]. apply Wm2, nth_In. lia. }
  eapply csat_bind with (Q := fun dc s' => has s' dc 0).
  { apply csat_bfold_seq with (k := 0%nat) (I := fun i dc s' => has s' dc 0).
    - apply (has_zero Hp).
    - intros i dc s5 Hi X5 Hdc. apply csat_good. intro G5.
      destruct (IX s5 X5 i ltac:(lia)) as (xe & xv & Ex & Hxe). destruct (IY s5 X5 i ltac:(lia)) as (ye & yv & Ey & Hye).
      destruct (IM s5 G5 X5 i ltac:(lia)) as (m & Emi & Hmi).
      eapply csat_liftb; [exact Ex|]. eapply csat_liftb; [exact Ey|]. eapply csat_liftb; [exact Emi|].
      fbind (apply csat_comp; [local|apply (cmpl_product Hp); [exact Hmi|apply (has_sub Hp); [exact Hxe|exact Hye]]]).
      intros t s6 X6 G6 Ht. apply csat_ret.
      eapply has_eq; [apply (has_add Hp); [eapply has_ext; [exact X6|exact Hdc]|exact Ht]|].
      rewrite Z.mul_0_l, Z.mod_0_l by lia. apply (mod_small_0 Hp). }
  cbv beta. intros dc s5 X5 G5 Hdc.
  destruct (IM s5 G5 X5 0%nat Hn0) as (m0 & Em0 & Hm0).
  eapply csat_liftb; [exact Em0|].
  eapply csat_bind with (Q := fun _ _ => True).
  { eapply csat_weaken.
    - apply csat_bfold_seq with (I := fun i e s' => has s' e 0); [exact Hm0|].
      intros i e s6 Hi X6 He. apply csat_good. intro G6.
      assert (X26 : ext s2 s6) by (eapply ext_trans; eauto).
      destruct (IX s6 X26 i ltac:(lia)) as (xe & xv & Ex & Hxe). destruct (IY s6 X26 i ltac:(lia)) as (ye & yv & Ey & Hye).
      destruct (IM s6 G6 X26 i ltac:(lia)) as (m & Emi & Hmi).
      eapply csat_liftb; [exact Ex|]. eapply csat_liftb; [exact Ey|].
      fbind (eapply csat_assert_product; [exact He|apply (has_sub Hp); [exact Hxe|exact Hye]|apply (has_zero Hp)|
         rewrite Z.mul_0_l; symmetry; apply (mod_small_0 Hp)]).
      intros _ s7 _ _ ->. eapply csat_liftb; [exact Emi|]. apply csat_ret.
      eapply has_eq; [apply (has_add Hp); [exact He|exact Hmi]|]. apply (mod_small_0 Hp).
    - auto. }
  intros _ s6 X6 G6 _. carry.
  eapply csat_bind with (Q := fun _ _ => True).
  { destruct strict; [apply csat_ret; auto|].
    fbind (apply csat_comp; [local|apply (cmpl_selection Hp); [exact Hde|exact Hdc|apply (has_one Hp), G6|left; reflexivity]]).
    intros nz s7 X7 G7 Hnz. simpl in Hnz.
    fweaken (apply csat_comp; [local|eapply (cmpl_assert_nonzero Hp H2); [exact Hnz|discriminate]]). auto. }
  intros _ s7 X7 G7 _. carry.
  fweaken (apply csat_comp; [local|apply (cmpl_cmp_subtractive Hp H2) with (d := 0); [exact Hcm|pose proof (pow2_pos c); lia|
     eapply has_eq; [exact Hdc|symmetry; apply (mod_small_0 Hp)]]]).
  intros r s8 _ _ Hr. eapply has_eq; [exact Hr|].
  replace (if less then - 0 else 0) with 0 by (destruct less; reflexivity).
  destruct strict; simpl b2z.
  - destruct (Z.leb_spec (2 ^ Z.of_nat c) (2 ^ Z.of_nat c - 1 + 0)); [lia|reflexivity].
  - destruct (Z.leb_spec (2 ^ Z.of_nat c) (2 ^ Z.of_nat c - 0 + 0)); [reflexivity|lia].
Qed.

(** every result [cmp_result] admits is possible *)
Lemma fs_cmp_binary s x y xl yl less strict r : hasl s x xl -> hasl s y yl ->
  Forall is_bit xl -> Forall is_bit yl -> length x = length y -> (0 < length x)%nat ->
  (S (cmp_chunk_bits (length x)) < max_bits)%nat ->
  cmp_result less strict (bits_val xl) (bits_val yl) r ->
  csat s (cmp_binary x y less strict) (fun e s' => has s' e r).
Proof using Hp H2.
  intros Hx Hy Bx By Hlen Hpos Hcm [->|[-> Hr]]; [eapply fs_cmp_default; eauto|].
  fweaken (apply csat_comp; [local|eapply (cmpl_cmp_binary Hp H2); eauto]).
  intros e s' _ _ He. eapply has_eq; [exact He|]. clear - Hr.
  destruct less, strict; cbn [Bool.eqb cmp_spec] in *; [destruct (Z.ltb_spec (bits_val xl) (bits_val yl))|
    destruct (Z.leb_spec (bits_val xl) (bits_val yl))|destruct (Z.ltb_spec (bits_val yl) (bits_val xl))|
    destruct (Z.leb_spec (bits_val yl) (bits_val xl))]; try reflexivity; lia.
Qed.

Lemma fs_split s x a : (4 <= max_bits)%nat -> has s x a -> csat s (split x) (fun r s' => hasl s' r (zbl a max_bits)).
Proof using Hp H2. intros H4 Hx. apply csat_comp; [local|apply (cmpl_split Hp H2); assumption]. Qed.

Lemma zbl_canon a : infield a -> bits_val (zbl a max_bits) = a.
Proof using Hp.
  intros [A1 A2]. apply zbl_val. split; [exact A1|]. pose proof (max_bits_upper Hord). lia.
Qed.

(** ** comparisons of field elements *)
Lemma fs_cmp_less s x y a b A strict r : (4 <= max_bits)%nat -> has s x a -> has s y b ->
  (A = a \/ (A = a + order /\ A < 2 ^ Z.of_nat max_bits)) -> cmp_result true strict A b r ->
  csat s (cmp x y true strict) (fun e s' => has s' e r).
Proof using Hp H2.
  intros H4 Hx Hy HA Hr. pose proof (has_infield Hp _ _ _ Hx) as Ia. pose proof (has_infield Hp _ _ _ Hy) as Ib.
  pose proof (max_bits_upper Hord) as Ho. unfold infield in *.
  assert (RA : 0 <= A < 2 ^ Z.of_nat max_bits) by (destruct HA as [->|[-> HA]]; lia).
  assert (EA : A mod order = a).
  { destruct HA as [->|[-> HA]]; [apply Z.mod_small; lia|].
    replace (a + order) with (a + 1 * order) by ring. rewrite Z.mod_add by lia. apply Z.mod_small; lia. }
  unfold cmp. fbind (eapply fs_split_amb with (l := zbl A max_bits); [exact Hx|apply zbl_bits|rewrite zbl_val by exact RA; exact EA|apply zbl_length]).
  intros xb s1 X1 G1 Hxb. carry. fbind (apply fs_split; [exact H4|exact Hy]). intros yb s2 X2 G2 Hyb. carry.
  pose proof (hasl_length _ _ _ Hxb) as Lx. pose proof (hasl_length _ _ _ Hyb) as Ly. rewrite zbl_length in Lx, Ly.
  eapply fs_cmp_binary; [exact Hxb|exact Hyb|apply zbl_bits|apply zbl_bits|lia|lia| |].
  - rewrite Lx. apply chunk_room. left. auto.
  - rewrite (zbl_val A _ RA), (zbl_canon b) by (unfold infield; lia). exact Hr.
Qed.

Lemma fs_cmp_greater s x y a b A strict r : (4 <= max_bits)%nat -> has s x a -> has s y b ->
  (A = b \/ (A = b + order /\ A < 2 ^ Z.of_nat max_bits)) -> cmp_result false strict a A r ->
  csat s (cmp x y false strict) (fun e s' => has s' e r).
Proof using Hp H2.
  intros H4 Hx Hy HA Hr. pose proof (has_infield Hp _ _ _ Hx) as Ia. pose proof (has_infield Hp _ _ _ Hy) as Ib.
  pose proof (max_bits_upper Hord) as Ho. unfold infield in *.
  assert (RA : 0 <= A < 2 ^ Z.of_nat max_bits) by (destruct HA as [->|[-> HA]]; lia).
  assert (EA : A mod order = b).
  { destruct HA as [->|[-> HA]]; [apply Z.mod_small; lia|].
    replace (b + order) with (b + 1 * order) by ring. rewrite Z.mod_add by lia. apply Z.mod_small; lia. }
  unfold cmp. fbind (apply fs_split; [exact H4|exact Hx]). intros xb s1 X1 G1 Hxb. carry.
  fbind (eapply fs_split_amb with (l := zbl A max_bits); [exact Hy|apply zbl_bits|rewrite zbl_val by exact RA; exact EA|apply zbl_length]).
  intros yb s2 X2 G2 Hyb. carry.
  pose proof (hasl_length _ _ _ Hxb) as Lx. pose proof (hasl_length _ _ _ Hyb) as Ly. rewrite zbl_length in Lx, Ly.
  eapply fs_cmp_binary; [exact Hxb|exact Hyb|apply zbl_bits|apply zbl_bits|lia|lia| |].
  - rewrite Lx. apply chunk_room. left. auto.
  - rewrite (zbl_val A _ RA), (zbl_canon a) by (unfold infield; lia). exact Hr.
Qed.

Lemma fs_assert_le s x y a b : (4 <= max_bits)%nat -> has s x a -> has s y b -> csat s (assert_le x y) (fun _ _ => True).
Proof using Hp H2.
  intros H4 Hx Hy. unfold assert_le, le.
  fbind (eapply fs_cmp_less with (r := 1) (strict := false); [exact H4|exact Hx|exact Hy|left; reflexivity|left; reflexivity]).
  intros r s1 X1 G1 Hr. fweaken (apply fs_assert_true; exact Hr). auto.
Qed.

Lemma fs_assert_ge s x y a b : (4 <= max_bits)%nat -> has s x a -> has s y b -> csat s (assert_ge x y) (fun _ _ => True).
Proof using Hp H2.
  intros H4 Hx Hy. unfold assert_ge, ge.
  fbind (eapply fs_cmp_greater with (r := 1) (strict := false); [exact H4|exact Hx|exact Hy|left; reflexivity|left; reflexivity]).
  intros r s1 X1 G1 Hr. fweaken (apply fs_assert_true; exact Hr). auto.
Qed.

Lemma fs_assert_le_binary s x y xl yl : hasl s x xl -> hasl s y yl ->
  Forall is_bit xl -> Forall is_bit yl -> length x = length y -> (0 < length x)%nat ->
  (S (cmp_chunk_bits (length x)) < max_bits)%nat -> csat s (assert_le_binary x y) (fun _ _ => True).
Proof using Hp H2.
  intros. unfold assert_le_binary, le_binary.
  eapply csat_bind; [eapply fs_cmp_default; eassumption|]. cbv beta.
  intros r s1 X1 G1 Hr. fweaken (apply fs_assert_true; exact Hr). auto.
Qed.

Lemma fs_assert_ge_binary s x y xl yl : hasl s x xl -> hasl s y yl ->
  Forall is_bit xl -> Forall is_bit yl -> length x = length y -> (0 < length x)%nat ->
  (S (cmp_chunk_bits (length x)) < max_bits)%nat -> csat s (assert_ge_binary x y) (fun _ _ => True).
Proof using Hp H2.
  intros. unfold assert_ge_binary, ge_binary.
  eapply csat_bind; [eapply fs_cmp_default; eassumption|]. cbv beta.
  intros r s1 X1 G1 Hr. fweaken (apply fs_assert_true; exact Hr). auto.
Qed.

Lemma fs_assert_lt s x y a b : (4 <= max_bits)%nat -> has s x a -> has s y b -> a < b -> csat s (assert_lt x y) (fun _ _ => True).
Proof using Hp H2.
  intros H4 Hx Hy Hlt. unfold assert_lt, lt.
  fbind (eapply fs_cmp_less with (r := 1) (strict := true); [exact H4|exact Hx|exact Hy|left; reflexivity|right; split; [reflexivity|exact Hlt]]).
  intros r s1 X1 G1 Hr. fweaken (apply fs_assert_true; exact Hr). auto.
Qed.

(** ** modulus: any remainder below the divisor *)
Lemma fs_modulus s x y a b r : (4 <= max_bits)%nat -> has s x a -> has s y b -> 0 <= r < b ->
  csat s (modulus x y) (fun e s' => has s' e r).
Proof using Hp H2.
  intros H4 Hx Hy Hr. pose proof (has_infield Hp _ _ _ Hx) as Ia. pose proof (has_infield Hp _ _ _ Hy) as Ib.
  unfold infield in *. unfold modulus.
  set (q := ((a - r) * finvv b) mod order).
  fbind (apply (csat_wire s q); apply Z.mod_pos_bound; lia). intros kq s1 X1 G1 (-> & N1 & W1).
  fbind (apply (csat_wire s1 r); lia). intros kr s2 X2 G2 (-> & N2 & W2). carry.
  pose proof (has_wire Hp _ _ _ G2 W1) as Hq. pose proof (has_wire Hp _ _ _ G2 W2) as Hr'.
  fbind (eapply csat_assert_product; [exact Hy|exact Hq|apply (has_sub Hp); [exact Hx|exact Hr']|
     unfold q; rewrite Zmult_mod_idemp_r; replace (b * ((a - r) * finvv b)) with ((a - r) * (b * finvv b)) by ring;
     rewrite <- Zmult_mod_idemp_r; fold (fmul b (finvv b)); rewrite (finvv_correct Hp b) by (unfold infield; lia); rewrite Z.mul_1_r; reflexivity]).
  intros _ s3 _ _ ->.
  fbind (eapply fs_assert_lt; [exact H4|exact Hr'|exact Hy|lia]). intros _ s4 X4 G4 _. carry.
  fbind (apply csat_generator). intros _ s5 _ _ ->. apply csat_ret. exact Hr'.
Qed.

Lemma fs_divides s x y a b (r : bool) : (4 <= max_bits)%nat -> has s x a -> has s y b -> (if r then 1 else 2) <= a ->
  csat s (divides x y) (fun e s' => has s' e (b2z r)).
Proof using Hp H2.
  intros H4 Hx Hy Hr. unfold divides.
  fbind (eapply fs_modulus with (r := if r then 0 else 1); [exact H4|exact Hy|exact Hx|destruct r; lia]).
  intros m s1 X1 G1 Hm.
  fweaken (apply csat_comp; [local|apply (cmpl_zero Hp H2); exact Hm]).
  intros e s2 _ _ He. eapply has_eq; [exact He|]. destruct r; reflexivity.
Qed.

(** ** inverse_or_zero of zero, quotient_unsafe *)
Lemma fs_inverse_or_zero s x c : has s x 0 -> infield c -> csat s (inverse_or_zero x) (fun e s' => has s' e c).
Proof using Hp H2.
  intros Hx Hc. unfold inverse_or_zero.
  fbind (apply (csat_wire s c); exact Hc). intros k s1 X1 G1 (-> & N1 & W1). carry.
  fbind (apply csat_comp; [local|apply (cmpl_nonzero Hp H2); exact Hx]). intros nz s2 X2 G2 Hnz. carry. simpl in Hnz.
  pose proof (has_wire Hp _ _ _ G2 W1) as Hk.
  fbind (eapply csat_assert_product; [exact Hx|exact Hk|exact Hnz|rewrite Z.mul_0_l; symmetry; apply (mod_small_0 Hp)]).
  intros _ s3 _ _ ->. fbind (apply csat_generator). intros _ s5 _ _ ->. apply csat_ret. exact Hk.
Qed.

Lemma fs_quotient_unsafe s x y c : infield c -> csat s (quotient_unsafe x y) (fun e s' => has s' e c).
Proof using Hp.
  intros Hc. unfold quotient_unsafe.
  fbind (apply (csat_wire s c); exact Hc). intros k s1 X1 G1 (-> & N1 & W1).
  fbind (apply csat_generator). intros _ s5 _ _ ->. apply csat_ret. apply (has_wire Hp); assumption.
Qed.

End Forge.
