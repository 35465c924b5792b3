(** C111: non-strict comparisons by strict ones. *)
From Coq Require Import ZArith List Bool Arith Lia Znumtheory.
From Verif Require Import Base FieldM FieldP ExprM BuilderM GadgetsM WaksmanM Spec ExprP BitsP MonoP LocalP SoundP CmpP GadgetSoundP HonestP
  CompleteP CmpCompleteP GadgetCompleteP SatP ForgeP Demo PropLib ProgramP PropsExact PropsCompare.
Import ListNotations.
Open Scope Z_scope.

(** ** Client circuits, not code of /repo: x <= y exactly when 2 x < 2 y + 1, and a word is doubled by a bit in front. *)
Section Client.
Context {F : Field}.
Definition assert_le_words (x y : binexpr) : B unit := assert_lt_binary (e_zero :: x) (e_one :: y).
Definition le_words (x y : binexpr) : B expr :=
  r <- lt_binary (e_zero :: x) (e_one :: y) ;; s <- lt_binary y x ;; _ <- assert_equal (e_add r s) e_one ;; bret r.
Definition assert_le_elements (x y : expr) : B unit := xb <- split_allowing_ambiguity x ;; yb <- split y ;; assert_le_words xb yb.
End Client.

Section Proofs.
Context {F : Field} (Hp : prime order).
Let Hord : 2 <= order := prime_ge2 Hp.

Lemma bits_val_front b l : bits_val (b :: l) = b + 2 * bits_val l.
Proof. reflexivity. Qed.
Lemma front w (Hw : wf_witness w) x y : bin_ok w x -> bin_ok w y ->
  bin_ok w (e_zero :: x) /\ bin_ok w (e_one :: y) /\ bin_val w (e_zero :: x) = 2 * bin_val w x /\ bin_val w (e_one :: y) = 1 + 2 * bin_val w y.
Proof using Hp.
  intros Hx Hy. unfold bin_val. cbn [map]. rewrite !bits_val_front, (ev_zero_ Hp), (ev_one_ Hp w Hw). split; [constructor; [left; apply (ev_zero_ Hp)|exact Hx]|].
  split; [constructor; [right; apply (ev_one_ Hp w Hw)|exact Hy]|]. lia.
Qed.
Lemma frontl s x y xl yl : good s -> hasl s x xl -> hasl s y yl -> hasl s (e_zero :: x) (0 :: xl) /\ hasl s (e_one :: y) (1 :: yl).
Proof using Hp. intros G Hx Hy. split; constructor; [apply (has_zero Hp)|exact Hx|apply (has_one Hp), G|exact Hy]. Qed.

Lemma snd_le_words w (Hw : wf_witness w) x y : bin_ok w x -> bin_ok w y -> sound w (assert_le_words x y) (fun _ => bin_val w x <= bin_val w y).
Proof using Hp.
  intros Hx Hy. destruct (front w Hw x y Hx Hy) as (A & C & E1 & E2). unfold assert_le_words. slast (apply (snd_assert_lt_binary Hp w Hw); assumption). intros _ [_ L]. lia.
Qed.
Lemma cmpl_le_words (H2 : 2 < order) D P s x y xl yl : good s -> hasl s x xl -> hasl s y yl -> Forall is_bit xl -> Forall is_bit yl -> length x = length y ->
  (S (cmp_chunk_bits (S (length x))) < max_bits)%nat -> bits_val xl <= bits_val yl -> comp D P s (assert_le_words x y) (done P (fun _ _ => True)).
Proof using Hp.
  intros G Hx Hy Bx By L Hc Le. destruct (frontl s x y xl yl G Hx Hy) as [A C]. unfold assert_le_words.
  eapply (cmpl_assert_lt_binary Hp H2); [exact A|exact C|constructor; [left; reflexivity|exact Bx]|constructor; [right; reflexivity|exact By]|cbn [length]; lia|cbn [length]; lia|exact Hc|].
  rewrite !bits_val_front. lia.
Qed.
Lemma snd_le_words_result (H2 : 2 < order) w (Hw : wf_witness w) x y : bin_ok w x -> bin_ok w y ->
  sound w (le_words x y) (fun r => ev w r = if bin_val w x <=? bin_val w y then 1 else 0).
Proof using Hp.
  intros Hx Hy. destruct (front w Hw x y Hx Hy) as (A & C & E1 & E2). unfold le_words. sbind (apply (snd_lt_binary Hp w Hw); assumption). intros r (_ & Br & Hr).
  sbind (apply (snd_lt_binary Hp w Hw); assumption). intros s (_ & Bs & Hs). sbind (apply (snd_assert_equal Hp w Hw)). intros _ E. apply sound_ret.
  rewrite (ev_add_mod Hp), (ev_one_ Hp w Hw), Z.mod_small in E by (destruct Br as [-> | ->], Bs as [-> | ->]; lia).
  destruct (Z.leb_spec (bin_val w x) (bin_val w y)), Br as [Er|Er], Bs as [Es|Es]; try specialize (Hr Er); try specialize (Hs Es); lia.
Qed.
Lemma cmpl_le_words_result (H2 : 2 < order) D P s x y xl yl : good s -> hasl s x xl -> hasl s y yl -> Forall is_bit xl -> Forall is_bit yl -> length x = length y ->
  (0 < length x)%nat -> (S (cmp_chunk_bits (S (length x))) < max_bits)%nat -> (S (cmp_chunk_bits (length x)) < max_bits)%nat ->
  comp D P s (le_words x y) (done P (fun r s' => has s' r (if bits_val xl <=? bits_val yl then 1 else 0))).
Proof using Hp.
  intros G Hx Hy Bx By L L0 Hc Hc'. destruct (frontl s x y xl yl G Hx Hy) as [A C]. unfold le_words.
  cbind (eapply (cmpl_cmp_binary Hp H2); [exact A|exact C|constructor; [left; reflexivity|exact Bx]|constructor; [right; reflexivity|exact By]|cbn [length]; lia|cbn [length]; lia|exact Hc]).
  intros r P1 s1 X1 G1 [-> Hr]. carry.
  cbind (eapply (cmpl_cmp_binary Hp H2); [exact Hy|exact Hx|exact By|exact Bx|symmetry; exact L|rewrite <- L; exact L0|rewrite <- L; exact Hc']). intros t P2 s2 X2 G2 [-> Ht]. carry.
  unfold cmp_spec in Hr, Ht. rewrite !bits_val_front in Hr.
  cbind (eapply (cmpl_assert_equal Hp); [apply (has_add Hp); [exact Hr|exact Ht]|eapply has_eq; [apply (has_one Hp), G2|]];
    symmetry; rewrite Z.mod_small; destruct (Z.ltb_spec (0 + 2 * bits_val xl) (1 + 2 * bits_val yl)), (Z.ltb_spec (bits_val yl) (bits_val xl)); cbn; lia).
  intros _ P3 s3 X3 G3 [-> ->]. apply comp_ret. split; [reflexivity|]. eapply has_eq; [exact Hr|].
  destruct (Z.ltb_spec (0 + 2 * bits_val xl) (1 + 2 * bits_val yl)), (Z.leb_spec (bits_val xl) (bits_val yl)); cbn; lia.
Qed.

Lemma room_elements : (5 <= max_bits)%nat -> (S (cmp_chunk_bits (S max_bits)) < max_bits)%nat.
Proof.
  intro H5. apply room_iff. exists (max_bits - 2)%nat. split; [lia|]. split; [lia|]. unfold charge, chunks_of. set (M := max_bits) in *. clearbody M.
  assert (E1 : ((S M + (M - 2) - 1) / (M - 2) <= 2)%nat) by (apply Nat.lt_succ_r, Nat.div_lt_upper_bound; lia).
  assert (E2 : (2 <= (S M + (M - 1) - 1) / (M - 1))%nat) by (apply Nat.div_le_lower_bound; lia). lia.
Qed.
Lemma snd_le_elements w (Hw : wf_witness w) x y : sound w (assert_le_elements x y) (fun _ => ev w x <= ev w y).
Proof using Hp.
  unfold assert_le_elements. sbind (apply (snd_split_amb Hp w Hw)). intros xb (_ & Bx & Vx). sbind (apply (snd_split Hp w Hw)). intros yb (_ & By & Vy).
  slast (apply (snd_le_words w Hw); assumption). intros _ L. rewrite Vy in L. lia.
Qed.
Lemma cmpl_le_elements (H5 : (5 <= max_bits)%nat) D P s x y a b : has s x a -> has s y b -> a <= b -> comp D P s (assert_le_elements x y) (done P (fun _ _ => True)).
Proof using Hp.
  intros Hx Hy L. assert (H4 : (4 <= max_bits)%nat) by lia. pose proof (max_bits_odd H4) as H2. pose proof (has_infield Hp _ _ _ Hx) as Ia. pose proof (has_infield Hp _ _ _ Hy) as Ib.
  unfold assert_le_elements. cbind (apply (cmpl_split_amb Hp); exact Hx). intros xb P1 s1 X1 G1 [-> Vx]. carry.
  cbind (apply (cmpl_split Hp H2); [exact H4|exact Hy]). intros yb P2 s2 X2 G2 [-> Vy]. carry.
  assert (Lx : length xb = max_bits) by (rewrite (hasl_length _ _ _ Vx); apply zbl_length). assert (Ly : length yb = max_bits) by (rewrite (hasl_length _ _ _ Vy); apply zbl_length).
  eapply (cmpl_le_words H2); [exact G2|exact Vx|exact Vy|apply zbl_bits|apply zbl_bits|congruence|rewrite Lx; apply room_elements, H5|].
  rewrite !(zbl_canon Hp) by assumption. exact L.
Qed.
End Proofs.

(** ** C111 *)
(** Words that can be compared with one more bit: the constraints mean exactly that one is at most the other. *)
Theorem C111_words : forall (F : Field), prime order -> forall x y, length x = length y -> (S (cmp_chunk_bits (S (length x))) < max_bits)%nat ->
  let on2 := fun n w => uses (x ++ y) n w /\ bits_of (x ++ y) w in
  asserts_exactly (assert_le_words x y) on2 (fun w => bin_val w x <= bin_val w y) /\
  ((0 < length x)%nat -> (S (cmp_chunk_bits (length x)) < max_bits)%nat ->
   allows_exactly (le_words x y) on2 ev (fun w z => z = if bin_val w x <=? bin_val w y then 1 else 0)).
Proof.
  intros F Hp x y L Hc on2. assert (H2 : 2 < order) by (apply (bits_odd (prime_ge2 Hp)); lia).
  assert (T : forall s, on2 (nx s) (wt s) -> hasl s x (map (ev (wt s)) x) /\ hasl s y (map (ev (wt s)) y) /\
    Forall is_bit (map (ev (wt s)) x) /\ Forall is_bit (map (ev (wt s)) y)).
  { intros s [U HB]. apply Forall_app in HB. apply Forall_app in U. destruct HB, U. split; [apply uses_hasl; assumption|]. split; [apply uses_hasl; assumption|]. split; apply Forall_map; assumption. }
  split.
  - apply exact_assert.
    + intros w Hw [n [_ B]]. apply Forall_app in B. apply (snd_le_words Hp w Hw); tauto.
    + intros s G U Le. destruct (T s U) as (A1 & A2 & A3 & A4). apply csat_comp; [unfold assert_le_words, assert_lt_binary, lt_binary; local|].
      eapply (cmpl_le_words Hp H2); [exact G|exact A1|exact A2|exact A3|exact A4|exact L|exact Hc|exact Le].
  - intros L0 Hc'. apply exact_det.
    + intros w Hw [n [_ B]]. apply Forall_app in B. apply (snd_le_words_result Hp H2 w Hw); tauto.
    + intros s G U. destruct (T s U) as (A1 & A2 & A3 & A4). apply csat_comp; [unfold le_words, lt_binary; local|].
      eapply (cmpl_le_words_result Hp H2); eassumption.
Qed.
Print Assumptions C111_words.

(** Elements of fields of at least 5 bits; executing the circuit on values in order satisfies it. *)
Theorem C111_elements : forall (F : Field), prime order -> (5 <= max_bits)%nat -> forall x y,
  asserts_exactly (assert_le_elements x y) (uses [x; y]) (fun w => ev w x <= ev w y) /\
  forall vals, good_inputs vals -> on_inputs vals x -> on_inputs vals y -> ev (input_witness vals) x <= ev (input_witness vals) y ->
  runs vals (assert_le_elements x y) (fun _ _ => True).
Proof.
  intros F Hp H5 x y. split.
  - apply exact_assert; [intros w Hw _; apply (snd_le_elements Hp w Hw)|]. intros s G U L.
    apply csat_comp; [unfold assert_le_elements, assert_le_words, assert_lt_binary, lt_binary; local|]. eapply (cmpl_le_elements Hp H5); [has_u|has_u|exact L].
  - intros vals Hv Hx Hy L. apply (to_runs0 Hp); [exact Hv|]. eapply (cmpl_le_elements Hp H5); [apply has_input; exact Hx|apply has_input; exact Hy|exact L].
Qed.
Print Assumptions C111_elements.

(** The same values for which assert_le accepts anything (C26): over the integers modulo 97, whose elements have 7 bits. *)
Example C111_example : let F : Field := F97 in
  prime order /\ (5 <= max_bits)%nat /\ (S (cmp_chunk_bits (S 3)) < max_bits)%nat /\
  demo [5; 5] (assert_le_elements (e_wire 1) (e_wire 2)) (fun _ => []) = Ok (true, []) /\
  demo [6; 5] (assert_le_elements (e_wire 1) (e_wire 2)) (fun _ => []) = Ok (false, []).
Proof. intro F. split; [exact prime_F97|]. split; [vm_compute; lia|]. split; [vm_compute; lia|]. split; vm_compute; reflexivity. Qed.
