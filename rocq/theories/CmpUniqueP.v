(** The wires made by the asserted strict comparisons and by splitting are determined by the operands:
    helper lemmas for PropsUnique.v. *)
From Coq Require Import ZArith Znumtheory List Bool Arith Lia.
From Verif Require Import Base FieldM FieldP ExprM BuilderM GadgetsM Spec ExprP BitsP MonoP LocalP SoundP CmpP GadgetSoundP HonestP UniqueP.
Import ListNotations.
Open Scope Z_scope.

Lemma bassoc {A C D} (m : B A) (f : A -> B C) (g : C -> B D) b : bbind (bbind m f) g b = bbind m (fun a => bbind (f a) g) b.
Proof. unfold bbind. destruct (m b) as [[a b1]| |]; reflexivity. Qed.
Lemma bind_ext {A C} (m : B A) (f g : A -> B C) b : (forall a b, f a b = g a b) -> bbind m f b = bbind m g b.
Proof. intro H. unfold bbind. destruct (m b) as [[a b1]| |]; [apply H|reflexivity|reflexivity]. Qed.

Section Rest.
Context {F : Field}.
(** [cmp_binary] with strict = true from the masks on, with its result asserted *)
Definition cmp_rest (x y : binexpr) (less : bool) (xc yc : list expr) (mask : list wire) : B unit :=
  bmap (fun m => assert_boolean (e_wire m)) mask ;;
  diff_exists <- assert_boolean (e_sum_of_wires mask) ;;
  b_generator (bin_deps x ++ bin_deps y) (cmp_mask_run xc yc mask) ;;
  diff_chunk <- bfold (fun sum i =>
      xc <- blift (oindex xc i) ;;
      yc <- blift (oindex yc i) ;;
      m <- blift (oindex mask i) ;;
      t <- product (e_wire m) (e_sub xc yc) ;;
      bret (e_add sum t)) (seq 0 (length xc)) e_zero ;;
  m0 <- blift (oindex mask 0) ;;
  bfold (fun diff_seen i =>
      xc <- blift (oindex xc i) ;;
      yc <- blift (oindex yc i) ;;
      assert_product diff_seen (e_sub xc yc) e_zero ;;
      m <- blift (oindex mask i) ;;
      bret (e_add diff_seen (e_wire m))) (seq 1 (length xc - 1)) (e_wire m0) ;;
  bret tt ;;
  r <- cmp_subtractive diff_chunk less true (cmp_chunk_bits (length x)) ;;
  assert_true r.
Lemma cmp_assert_eq x y less b :
  bbind (cmp_binary x y less true) assert_true b =
  (blift (oassert (length x =? length y)%nat) ;;
   xc <- blift (let! cs := bin_chunks x (cmp_chunk_bits (length x)) in omap bin_join cs) ;;
   yc <- blift (let! cs := bin_chunks y (cmp_chunk_bits (length x)) in omap bin_join cs) ;;
   mask <- b_wires (length xc) ;; cmp_rest x y less xc yc mask) b.
Proof.
  unfold cmp_binary, cmp_rest. cbv zeta. repeat (rewrite bassoc; apply bind_ext; intros). reflexivity.
Qed.

Context (Hp : prime order) (w : witness) (Hw : wf_witness w).
Let Hord : 2 <= order := prime_ge2 Hp.

(** exactly the mask of the most significant differing chunk is set *)
Definition mask_at (xc yc : list expr) (mask : list wire) : Prop := exists j, (j < length xc)%nat /\
  (forall i m, oindex mask i = Ok m -> w m = if (i =? j)%nat then 1 else 0) /\
  nth j (map (ev w) xc) 0 <> nth j (map (ev w) yc) 0 /\
  forall i, (j < i < length xc)%nat -> nth i (map (ev w) xc) 0 = nth i (map (ev w) yc) 0.

Lemma snd_cmp_rest x y less xc yc mask : bin_ok w x -> bin_ok w y -> length x = length y ->
  (let! cs := bin_chunks x (cmp_chunk_bits (length x)) in omap bin_join cs) = Ok xc ->
  (let! cs := bin_chunks y (cmp_chunk_bits (length x)) in omap bin_join cs) = Ok yc ->
  length mask = length xc -> NoDup mask -> sound w (cmp_rest x y less xc yc mask) (fun _ => mask_at xc yc mask).
Proof using Hp Hw.
  intros Hx Hy Hlen Ex Ey Lm Nm. unfold cmp_rest. destruct (cmp_chunk_bits_spec (length x)) as (Hc1 & _ & _).
  apply (chunk_values Hp w) in Ex; [|exact Hx|lia]. apply (chunk_values Hp w) in Ey; [|exact Hy|lia].
  destruct Ex as (Lx & Fx & Vx). destruct Ey as (Ly & Fy & Vy). rewrite <- Hlen in Ly.
  set (c := cmp_chunk_bits (length x)) in *. unfold mask_at. set (n := length xc) in *.
  sbind (apply sound_bmap with (Q := fun m _ => is_bit (w m));
    [intro; mono|intros m _; eapply sound_weaken; [apply (snd_assert_boolean Hp w Hw)|
      cbv beta; intros r [_ H]; rewrite (ev_wire_ Hp w Hw) in H; exact H]]).
  intros _mb Hmb.
  assert (Hbits : Forall (fun m => is_bit (w m)) mask).
  { clear - Hmb. induction Hmb; constructor; auto. }
  clear _mb Hmb.
  sbind (apply (snd_assert_boolean Hp w Hw)). intros de [-> Hde].
  rewrite (ev_sum_of_wires w mask Nm) in Hde.
  sbind (apply sound_true). intros _ _.
  set (X := fun i => nth i (map (ev w) xc) 0). set (Y := fun i => nth i (map (ev w) yc) 0).
  set (M := fun i => nth i (map w mask) 0).
  assert (IX : forall i e, oindex xc i = Ok e -> ev w e = X i) by (intros; symmetry; apply (nth_map_ev Hp w); auto).
  assert (IY : forall i e, oindex yc i = Ok e -> ev w e = Y i) by (intros; symmetry; apply (nth_map_ev Hp w); auto).
  assert (IM : forall i m, oindex mask i = Ok m -> w m = M i).
  { intros i m H. unfold M. apply (oindex_nth mask i m 0%nat) in H. destruct H as [H1 H2].
    rewrite (nth_indep _ 0 (w 0%nat)) by (rewrite map_length; exact H1).
    rewrite map_nth, H2. reflexivity. }
  eapply sound_bind with (Q := fun d => ev w d = zsum (fun i => M i * (X i - Y i)) n mod order);
    [|intro; mono|cbv beta].
  { apply sound_bfold_seq with (k := 0%nat) (I := fun i s => ev w s = zsum (fun i => M i * (X i - Y i)) i mod order).
    - intros. mono.
    - simpl. rewrite (ev_zero Hord). symmetry. apply (mod_small_0 Hp).
    - intros i s _ Hs.
      sbind (apply sound_lift; intros a Ha; apply IX, Ha). intros xi Hxi.
      sbind (apply sound_lift; intros a Ha; apply IY, Ha). intros yi Hyi.
      sbind (apply sound_lift; intros a Ha; apply IM, Ha). intros m Hm.
      sbind (apply (snd_product Hp w Hw)). intros t Ht. apply sound_ret.
      rewrite (ev_add_mod Hp w), Hs, Ht, (ev_wire_ Hp w Hw), (ev_sub_mod Hp w), Hxi, Hyi, Hm.
      zmod. reflexivity. }
  intros dc Hdc.
  sbind (apply sound_lift; intros a Ha; exact (conj (IM 0%nat a Ha) (proj1 (oindex_nth mask 0 a 0%nat Ha)))).
  intros m0 [Hm0 Hn0]. rewrite Lm in Hn0.
  eapply sound_bind with (Q := fun _ => forall i, (1 <= i < n)%nat ->
      (zsum M i * (X i - Y i)) mod order = 0); [|intro; mono|cbv beta].
  { eapply sound_weaken.
    - apply sound_bfold_seq with (I := fun i s => ev w s = zsum M i mod order /\
        forall j, (1 <= j < i)%nat -> (zsum M j * (X j - Y j)) mod order = 0).
      + intros. mono.
      + cbn [zsum]. rewrite (ev_wire_ Hp w Hw), Hm0, Z.add_0_l. split; [|intros; lia].
        symmetry. apply Z.mod_small. rewrite <- Hm0. apply Hw.
      + intros i s Hi [Hs Hall].
        sbind (apply sound_lift; intros a Ha; apply IX, Ha). intros xi Hxi.
        sbind (apply sound_lift; intros a Ha; apply IY, Ha). intros yi Hyi.
        sbind (apply sound_assert_product). intros _ Hpr.
        sbind (apply sound_lift; intros a Ha; apply IM, Ha). intros m Hm. apply sound_ret.
        split.
        * rewrite (ev_add_mod Hp w), Hs, (ev_wire_ Hp w Hw), Hm. zmod. reflexivity.
        * intros j Hj. destruct (Nat.eq_dec j i) as [->|]; [|apply Hall; lia].
          rewrite (ev_zero Hord), (ev_sub_mod Hp w), Hs, Hxi, Hyi, Zmult_mod_idemp_l, Zmult_mod_idemp_r in Hpr.
          exact Hpr.
    - cbv beta. intros s [_ H] i Hi. apply H. lia. }
  intros _ Heq. sbind (apply sound_true). intros _ _.
  sbind (apply (snd_cmp_subtractive Hp w Hw)). cbv zeta.
  intros r (Hcm & Hz & Hr). eapply sound_weaken; [apply (snd_assert_true Hp w Hw)|]. cbv beta. intros _ R1.
  (* pure reasoning from here *)
  pose proof (cmp_chunk_count (length x) Hcm) as Hcount. fold c in Hcount. rewrite <- Lx in Hcount.
  assert (Hn : Z.of_nat n < order).
  { pose proof (pow2_lt_order Hord (S c) Hcm). pose proof (pow2_gt (S c)). fold n in Hcount. lia. }
  assert (HM : forall j, (j < n)%nat -> is_bit (M j)).
  { intros j Hj. unfold M. rewrite Forall_forall in Hbits.
    rewrite (nth_indep _ 0 (w 0%nat)) by (rewrite map_length; lia). rewrite map_nth. apply Hbits, nth_In. lia. }
  assert (Hsum : fold_right (fun k s => w k + s) 0 mask = zsum M n).
  { unfold M. rewrite <- Lm, <- (map_length w mask), zsum_list. clear.
    induction mask; simpl; congruence. }
  assert (HS : is_bit (zsum M n)).
  { rewrite Hsum in Hde. rewrite Z.mod_small in Hde; auto.
    split; [apply zsum_nonneg; intros j Hj; destruct (HM j Hj); lia|].
    pose proof (zsum_le M n HM). lia. }
  set (B := 2 ^ Z.of_nat c) in *.
  assert (HB : 2 * B < order).
  { unfold B. rewrite <- pow2_S. apply (pow2_lt_order Hord), Hcm. }
  rewrite pow2_S in Hz. fold B in Hz. pose proof (pow2_pos c) as HB0. fold B in HB0. simpl b2z in Hr.
  destruct (unit_vector M n HM HS) as [Hall|(j & Hj & Hj1 & Hj0)].
  - (* empty mask *)
    assert (Hd0 : ev w dc = 0).
    { rewrite Hdc, zsum_zero; [apply (mod_small_0 Hp)|]. intros i Hi. rewrite Hall by exact Hi. lia. }
    exfalso. rewrite Hd0 in Hr. replace (if less then - 0 else 0) with 0 in Hr by (destruct less; reflexivity).
    rewrite Z.add_0_r, Z.mod_small in Hr by lia. destruct (Z.leb_spec B (B - 1)); simpl in Hr; lia.
  - (* chunk j was selected *)
    exists j. split; [exact Hj|]. split; [|split].
    + intros i m Hi. rewrite (IM i m Hi). apply (oindex_nth mask i m 0%nat) in Hi. destruct Hi as [Hi _].
      destruct (Nat.eqb_spec i j) as [->|N]; [exact Hj1|]. apply Hj0; [lia|exact N].
    + fold (X j) (Y j). intro E.
      assert (Hd : ev w dc = (X j - Y j) mod order).
      { rewrite Hdc, (zsum_single _ n j Hj); [rewrite Hj1; f_equal; lia|].
        intros i Hi Hne. rewrite Hj0 by assumption. lia. }
      rewrite E, Z.sub_diag, (mod_small_0 Hp) in Hd.
      rewrite Hd in Hr. replace (if less then - 0 else 0) with 0 in Hr by (destruct less; reflexivity).
      rewrite Z.add_0_r, Z.mod_small in Hr by lia. destruct (Z.leb_spec B (B - 1)); simpl in Hr; lia.
    + intros i Hi. fold (X i) (Y i). specialize (Heq i ltac:(lia)).
      rewrite (zsum_single M i j) in Heq; [|lia|intros; apply Hj0; lia]. rewrite Hj1, Z.mul_1_l in Heq.
      assert (0 <= X i < B). { unfold X. rewrite Forall_forall in Fx. apply Fx, nth_In. rewrite map_length. apply Hi. }
      assert (0 <= Y i < B). { unfold Y. rewrite Forall_forall in Fy. apply Fy, nth_In. rewrite map_length. fold n in Lx. lia. }
      apply (mod_sub_zero Hp); auto; unfold infield; lia.
Qed.
End Rest.

Section Fixed.
Context {F : Field} (Hp : prime order) (w1 w2 : witness) (Hw1 : wf_witness w1) (Hw2 : wf_witness w2).
Let Hord : 2 <= order := prime_ge2 Hp.
Notation same := (same w1 w2).
Notation sames := (sames w1 w2).
Notation fixed := (fixed w1 w2).
Notation pin := (pin w1 w2).
Local Tactic Notation "fbind" tactic(t) := eapply fixed_bind; [ solve [t] | intro; mono | cbv beta ].

Lemma sames_chunk_join x c es : (let! cs := bin_chunks x c in omap bin_join cs) = Ok es -> sames x -> sames es.
Proof using Hp.
  unfold bin_chunks, chunks. destruct (c =? 0)%nat; cbn [obind]; [discriminate|]. intros E H. eapply (same_joins Hp); [exact E|].
  eapply Forall_impl; [|apply chunks_fuel_Forall, H]. intros l [Hl _]. exact Hl.
Qed.
Lemma mask_same xc yc mask : length mask = length xc -> sames xc -> sames yc -> mask_at w1 xc yc mask -> mask_at w2 xc yc mask -> forall k, In k mask -> w1 k = w2 k.
Proof using.
  intros L Hx Hy (j & Hj & M1 & N1 & U1) (j' & Hj' & M2 & N2 & U2). rewrite (sames_map w1 w2 xc Hx), (sames_map w1 w2 yc Hy) in N1, U1.
  assert (j = j') as <-. { destruct (Nat.lt_trichotomy j j') as [A|[A|A]]; [|exact A|]; exfalso; [apply N2, U1|apply N1, U2]; lia. }
  intros k Hk. apply In_nth_error in Hk. destruct Hk as [i Hi].
  assert (Ei : oindex mask i = Ok k) by (unfold oindex, ounwrap; rewrite Hi; reflexivity). rewrite (M1 i k Ei), (M2 i k Ei). reflexivity.
Qed.
Lemma pin_wires U n : pin U (b_wires n) (fun ws U' => forall k, In k U' -> In k ws \/ In k U).
Proof using. apply pin_bmap_wires; [intros; apply pin_wire|intro; mono]. Qed.
Lemma fixed_cmp_rest x y less xc yc mask : sames xc -> sames yc -> (forall k, In k mask -> w1 k = w2 k) ->
  fixed (cmp_rest x y less xc yc mask) (fun _ => True).
Proof using Hp Hw1 Hw2.
  intros Hx Hy Hm. assert (Hms : sames (map e_wire mask)) by (apply (sames_wires Hp w1 w2 Hw1 Hw2), Hm). unfold cmp_rest.
  eapply fixed_bind; [apply fixed_bmap with (I := same); [intro; mono|]|intro; mono|].
  { intros m Im. apply fixed_assert_boolean. apply (same_wire Hp w1 w2 Hw1 Hw2), Hm, Im. }
  cbv beta. intros _ _. eapply fixed_bind with (Q := fun _ => True); [|intro; mono|].
  { unfold assert_boolean. fbind (apply fixed_product0). intros _ _. apply fixed_ret. exact I. }
  intros _ _. fbind (apply fixed_generator). intros _ _.
  assert (Hmi : forall i m, oindex mask i = Ok m -> same (e_wire m)).
  { intros i m E. apply (same_wire Hp w1 w2 Hw1 Hw2), Hm. apply (oindex_nth mask i m 0%nat) in E. destruct E as [L <-]. apply nth_In, L. }
  eapply fixed_bind with (Q := same); [apply fixed_bfold; [intros; mono| |apply (same_zero Hp)]|intro; mono|].
  { intros s i _ Hs. fbind (apply fixed_lift; intros e; apply sames_index, Hx). intros xe Hxe. fbind (apply fixed_lift; intros e; apply sames_index, Hy). intros ye Hye.
    fbind (apply fixed_lift; intros e; apply Hmi). intros m Hme. fbind (apply (fixed_product Hp w1 w2 Hw1 Hw2); [exact Hme|apply (same_sub Hp); assumption]). intros t Ht.
    apply fixed_ret. apply (same_add Hp); assumption. }
  intros dc Hdc. fbind (apply fixed_lift with (Q := fun _ => True); auto). intros m0 _.
  eapply fixed_bind with (Q := fun _ => True); [apply fixed_bfold; [intros; mono| |exact I]|intro; mono|].
  { intros s i _ _. fbind (apply fixed_lift with (Q := fun _ => True); auto). intros xe _. fbind (apply fixed_lift with (Q := fun _ => True); auto). intros ye _.
    fbind (apply fixed_product0). intros _ _. fbind (apply fixed_lift with (Q := fun _ => True); auto). intros m _. apply fixed_ret. exact I. }
  intros _ _. eapply fixed_bind with (Q := fun _ => True); [apply fixed_ret; exact I|intro; mono|]. intros _ _.
  eapply fixed_bind with (Q := fun _ => True); [|intro; mono|intros r _; apply fixed_assert_equal].
  unfold cmp_subtractive. fbind (apply fixed_lift with (Q := fun _ => True); auto). intros base _. cbv zeta.
  eapply fixed_bind; [apply (fixed_split_bounded Hp w1 w2 Hw1 Hw2)|intro; mono|].
  - apply (same_add Hp); [apply (same_const w1 w2 Hw1 Hw2)|]. destruct less; [apply (same_neg Hp)|]; exact Hdc.
  - intros zb _. apply fixed_lift. auto.
Qed.
Lemma fixed_cmp_assert x y less : sames x -> sames y -> bin_ok w1 x -> bin_ok w1 y -> bin_ok w2 x -> bin_ok w2 y ->
  fixed (bbind (cmp_binary x y less true) assert_true) (fun _ => True).
Proof using Hp Hw1 Hw2.
  intros Hx Hy B1x B1y B2x B2y. eapply pin_ext; [apply cmp_assert_eq|].
  apply fixed_lift_bind. intros [] Hlen. unfold oassert in Hlen. destruct (Nat.eqb_spec (length x) (length y)) as [L|]; [|discriminate].
  apply fixed_lift_bind. intros xc Ex. apply fixed_lift_bind. intros yc Ey.
  eapply (pin_bind_later w1 w2 [] _ _ _ _ (fun mask => length mask = length xc -> NoDup mask -> mask_at w1 xc yc mask)
    (fun mask => length mask = length xc -> NoDup mask -> mask_at w2 xc yc mask)); [eapply pin_sound; [apply pin_wires|apply snd_wires|apply snd_wires]|intro; unfold cmp_rest; mono| | |].
  - intros mask b a b' E S Lm Nm. exact (snd_cmp_rest Hp w1 Hw1 x y less xc yc mask B1x B1y L Ex Ey Lm Nm b a b' E S).
  - intros mask b a b' E S Lm Nm. exact (snd_cmp_rest Hp w2 Hw2 x y less xc yc mask B2x B2y L Ex Ey Lm Nm b a b' E S).
  - cbv beta. intros mask U M1 M2 (HU & [Lm Nm] & _). pose proof (sames_chunk_join _ _ _ Ex Hx) as Sx. pose proof (sames_chunk_join _ _ _ Ey Hy) as Sy.
    assert (Hm : forall k, In k mask -> w1 k = w2 k) by (eapply mask_same; eauto).
    apply (pin_start w1 w2 U []); [intros k Hk; right; destruct (HU k Hk) as [I|[]]; apply Hm, I|]. apply fixed_cmp_rest; assumption.
Qed.
Lemma fixed_assert_lt_binary x y : sames x -> sames y -> bin_ok w1 x -> bin_ok w1 y -> bin_ok w2 x -> bin_ok w2 y -> fixed (assert_lt_binary x y) (fun _ => True).
Proof using Hp Hw1 Hw2. apply fixed_cmp_assert. Qed.
Lemma fixed_assert_gt_binary x y : sames x -> sames y -> bin_ok w1 x -> bin_ok w1 y -> bin_ok w2 x -> bin_ok w2 y -> fixed (assert_gt_binary x y) (fun _ => True).
Proof using Hp Hw1 Hw2. apply fixed_cmp_assert. Qed.

Lemma pin_amb x : pin [] (split_allowing_ambiguity x) (fun r U => (exists ws, r = bin_of_wires ws /\ forall k, In k U -> In k ws) /\
  (length r = max_bits /\ bin_ok w1 r /\ (bin_val w1 r = ev w1 x \/ bin_val w1 r = ev w1 x + order)) /\
  (length r = max_bits /\ bin_ok w2 r /\ (bin_val w2 r = ev w2 x \/ bin_val w2 r = ev w2 x + order))).
Proof using Hp Hw1 Hw2.
  eapply pin_sound; [|apply (snd_split_amb Hp w1 Hw1)|apply (snd_split_amb Hp w2 Hw2)]. eapply pin_weaken; [apply pin_swrc|].
  cbv beta. intros r U (ws & -> & HU). exists ws. split; [reflexivity|]. intros k Hk. destruct (HU k Hk) as [I|[]]; exact I.
Qed.
(** an ambiguous split whose word is shown to be below the order is the canonical one *)
Lemma amb_resolved {C} x (k : binexpr -> B C) Q : same x -> (forall r, mono (k r)) ->
  (forall r, bin_ok w1 r -> sound w1 (k r) (fun _ => bin_val w1 r < order)) -> (forall r, bin_ok w2 r -> sound w2 (k r) (fun _ => bin_val w2 r < order)) ->
  (forall r, sames r -> bin_ok w1 r -> bin_ok w2 r -> bin_val w1 r = ev w1 x -> bin_val w2 r = ev w2 x -> fixed (k r) Q) ->
  fixed (bbind (split_allowing_ambiguity x) k) Q.
Proof using Hp Hw1 Hw2.
  intros Hx HM S1 S2 H. eapply (pin_bind_later w1 w2 [] _ _ _ _ (fun r => bin_ok w1 r -> bin_val w1 r < order) (fun r => bin_ok w2 r -> bin_val w2 r < order)); [apply pin_amb|exact HM| | |].
  - intros r b a b' E S B. exact (S1 r B b a b' E S).
  - intros r b a b' E S B. exact (S2 r B b a b' E S).
  - cbv beta. intros r U L1 L2 ((ws & -> & HU) & (_ & B1 & V1) & (_ & B2 & V2)). specialize (L1 B1). specialize (L2 B2).
    assert (E1 : bin_val w1 (bin_of_wires ws) = ev w1 x) by (pose proof (evi Hp w1 x); unfold infield in *; lia).
    assert (E2 : bin_val w2 (bin_of_wires ws) = ev w2 x) by (pose proof (evi Hp w2 x); unfold infield in *; lia).
    assert (E : forall k, In k ws -> w1 k = w2 k) by (apply (bits_same Hp w1 w2 Hw1 Hw2); [exact B1|exact B2|unfold UniqueP.same in Hx; congruence]).
    apply (pin_start w1 w2 U []); [intros j Hj; right; apply E, HU, Hj|]. apply H; auto. apply (sames_wires Hp w1 w2 Hw1 Hw2), E.
Qed.
Lemma from_order : sames (bin_from order) /\ bin_ok w1 (bin_from order) /\ bin_ok w2 (bin_from order) /\ bin_val w1 (bin_from order) = order /\ bin_val w2 (bin_from order) = order.
Proof using Hp Hw1 Hw2.
  assert (H0 : 0 <= order) by (pose proof Hord; lia).
  destruct (bin_from_val Hord w1 order (proj1 Hw1) H0) as (O1 & V1 & _). destruct (bin_from_val Hord w2 order (proj1 Hw2) H0) as (O2 & V2 & _).
  split; [|auto]. unfold bin_from. unfold UniqueP.sames. rewrite Forall_map. apply Forall_forall. intros. apply (same_bool Hp w1 w2 Hw1 Hw2).
Qed.
Lemma fixed_split x : same x -> fixed (split x) sames.
Proof using Hp Hw1 Hw2.
  intro Hx. unfold split. change (split_without_range_check x max_bits) with (split_allowing_ambiguity x).
  destruct from_order as (So & O1 & O2 & V1 & V2). apply amb_resolved; [exact Hx|intro; mono| | |].
  - intros r B. sbind (apply (snd_assert_lt_binary Hp w1 Hw1); assumption). intros _ [_ L]. apply sound_ret. lia.
  - intros r B. sbind (apply (snd_assert_lt_binary Hp w2 Hw2); assumption). intros _ [_ L]. apply sound_ret. lia.
  - intros r Sr B1 B2 E1 E2. fbind (apply fixed_assert_lt_binary; assumption). intros _ _. apply fixed_ret, Sr.
Qed.
Lemma fixed_split_ok x : same x -> fixed (split x) (fun r => sames r /\ (length r = max_bits /\ bin_ok w1 r /\ bin_val w1 r = ev w1 x) /\ (length r = max_bits /\ bin_ok w2 r /\ bin_val w2 r = ev w2 x)).
Proof using Hp Hw1 Hw2. intro Hx. apply fixed_sound; [apply fixed_split, Hx|apply (snd_split Hp w1 Hw1)|apply (snd_split Hp w2 Hw2)]. Qed.
Lemma fixed_assert_lt x y : same x -> same y -> fixed (assert_lt x y) (fun _ => True).
Proof using Hp Hw1 Hw2.
  intros Hx Hy. unfold assert_lt, lt, cmp.
  apply pin_ext with (m' := bbind (split_allowing_ambiguity x) (fun xb => bbind (split y) (fun yb => bbind (cmp_binary xb yb true true) assert_true))).
  { intro b. rewrite bassoc. apply bind_ext. intros xb b1. apply bassoc. }
  apply amb_resolved; [exact Hx|intro; mono| | |].
  - intros r B. sbind (apply (snd_split Hp w1 Hw1)). intros yb (_ & By & Vy). eapply sound_weaken; [apply (snd_assert_lt_binary Hp w1 Hw1); assumption|]. cbv beta. intros _ [_ L].
    pose proof (evi Hp w1 y). unfold infield in *. lia.
  - intros r B. sbind (apply (snd_split Hp w2 Hw2)). intros yb (_ & By & Vy). eapply sound_weaken; [apply (snd_assert_lt_binary Hp w2 Hw2); assumption|]. cbv beta. intros _ [_ L].
    pose proof (evi Hp w2 y). unfold infield in *. lia.
  - intros r Sr B1 B2 E1 E2. fbind (apply fixed_split_ok, Hy). intros yb (Sy & (_ & C1 & _) & (_ & C2 & _)). apply fixed_cmp_assert; assumption.
Qed.
Lemma fixed_assert_gt x y : same x -> same y -> fixed (assert_gt x y) (fun _ => True).
Proof using Hp Hw1 Hw2.
  intros Hx Hy. unfold assert_gt, gt, cmp.
  apply pin_ext with (m' := bbind (split x) (fun xb => bbind (split_allowing_ambiguity y) (fun yb => bbind (cmp_binary xb yb false true) assert_true))).
  { intro b. rewrite bassoc. apply bind_ext. intros xb b1. apply bassoc. }
  fbind (apply fixed_split_ok, Hx). intros xb (Sx & (_ & C1 & V1) & (_ & C2 & V2)).
  apply amb_resolved; [exact Hy|intro; mono| | |].
  - intros r B. eapply sound_weaken; [apply (snd_assert_gt_binary Hp w1 Hw1); assumption|]. cbv beta. intros _ [_ L]. pose proof (evi Hp w1 x). unfold infield in *. lia.
  - intros r B. eapply sound_weaken; [apply (snd_assert_gt_binary Hp w2 Hw2); assumption|]. cbv beta. intros _ [_ L]. pose proof (evi Hp w2 x). unfold infield in *. lia.
  - intros r Sr B1 B2 E1 E2. apply fixed_cmp_assert; assumption.
Qed.
End Fixed.
