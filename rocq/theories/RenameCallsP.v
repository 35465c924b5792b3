(** Every gadget does the same on corresponding wires. *)
From Coq Require Import ZArith List Bool Arith Lia.
From Verif Require Import Base FieldM FieldP ExprM BuilderM GadgetsM WaksmanM CryptoM CurveM Spec ExprP CoreP SpecRename RenameP.
Import ListNotations.
Open Scope Z_scope.

Section Calls.
Context {F : Field} (Hord : 2 <= order).
Variable W : nat -> nat -> Prop.
Hypothesis HW : one_to_one W.
Local Notation er := (same_expr W).
Local Notation vr := (same_values W).
Local Notation sc := (same_call W).
Local Notation so := same_outcome.

Create HintDb ren.
Local Hint Constants Opaque : ren.
Local Hint Resolve er_zero er_const er_one er_bool er_wire er_add er_scale er_neg er_sub er_sum er_sum_of_wires : ren.
Local Hint Resolve er_scale_u128 vr_get vr_set vr_set_boolean vr_eval vr_evals so_eq : ren.
Local Hint Resolve sw_deps sw_app sw_flat_map sw_bin_deps : ren.
Local Hint Resolve sc_wire sc_wires sc_assert_product : ren.
Local Hint Resolve F2_firstn F2_skipn F2_rev F2_refl F2_enumerate F2_concat Forall2_app F2_repeat so_oindex so_chunks F2_combine : ren.
Local Hint Constructors Forall2 : ren.

Local Ltac clean := repeat match goal with
  | H : pair_rel _ _ ?p ?q |- _ => is_var p; is_var q; destruct p, q; destruct H; simpl in *
  | H : pair_rel _ _ _ _ |- _ => destruct H; simpl in *
  | H : ?a = ?b |- _ => is_var b; subst b
  | H : ?a = ?b |- _ => is_var a; subst a
  | H : Forall2 _ ?x ?y |- context [length ?y] => is_var y; rewrite (Forall2_len _ _ _ H)
  end.
Local Ltac st := clean; match goal with
  | |- same_call _ _ (bbind _ _) (bbind _ _) => eapply sc_bind; [solve [eauto 12 with ren]|intros ? ? ?]
  | |- same_call _ _ (bret _) (bret _) => apply sc_ret
  | |- same_call _ _ (blift _) (blift _) => apply sc_lift
  | |- same_call _ _ (if ?c then _ else _) (if ?c then _ else _) => destruct c eqn:?
  | |- same_outcome _ (obind _ _) (obind _ _) => eapply so_bind; [solve [eauto 12 with ren]|intros ? ? ?]
  | |- same_outcome _ (if ?c then _ else _) (if ?c then _ else _) => destruct c eqn:?
  | |- same_outcome _ Panic Panic => exact I
  | |- same_outcome _ NoFuel NoFuel => exact I
  | |- same_outcome _ (Ok _) (Ok _) => simpl
  | |- same_call _ _ (b_generator _ _) (b_generator _ _) => apply sc_generator; [solve [eauto 12 with ren]|intros ? ? ?]
  | |- pair_rel _ _ _ _ => split; simpl
  | _ => solve [eauto 12 with ren]
  end.
Local Ltac gen := eapply sc_bind; [apply sc_generator; [solve [eauto 12 with ren]|intros v v' Hv; repeat st]|intros ? ? _].

Lemma sc_assert_boolean x x' : er x x' -> sc er (assert_boolean x) (assert_boolean x').
Proof using HW. intro. unfold assert_boolean. repeat st. Qed.
Lemma sc_assert_equal x x' y y' : er x x' -> er y y' -> sc eq (assert_equal x y) (assert_equal x' y').
Proof using HW. intros. unfold assert_equal. repeat st. Qed.
Local Hint Resolve sc_assert_boolean sc_assert_equal : ren.
Lemma sc_assert_zero x x' : er x x' -> sc eq (assert_zero x) (assert_zero x').
Proof using HW. intros. unfold assert_zero. repeat st. Qed.
Lemma sc_assert_true x x' : er x x' -> sc eq (assert_true x) (assert_true x').
Proof using HW. intros. unfold assert_true. repeat st. Qed.
Lemma sc_assert_false x x' : er x x' -> sc eq (assert_false x) (assert_false x').
Proof using HW. intros. unfold assert_false. repeat st. Qed.
Lemma sc_boolean_wire : sc W boolean_wire boolean_wire.
Proof using HW. unfold boolean_wire. repeat st. Qed.
Lemma sc_binary_wire n : sc (Forall2 W) (binary_wire n) (binary_wire n).
Proof using HW. apply sc_map_seq. intro. apply sc_boolean_wire. Qed.
Local Hint Resolve sc_assert_zero sc_assert_true sc_assert_false sc_boolean_wire sc_binary_wire : ren.

Lemma sc_product x x' y y' : er x x' -> er y y' -> sc er (product x y) (product x' y').
Proof using HW Hord.
  intros H1 H2. unfold product. rewrite (er_as_constant W HW _ _ H1), (er_as_constant W HW _ _ H2).
  destruct (e_as_constant x); [repeat st|]. destruct (e_as_constant y); [repeat st|]. do 2 st. gen. repeat st.
Qed.
Local Hint Resolve sc_product : ren.
Lemma sc_exponentiation x x' p : er x x' -> sc er (exponentiation x p) (exponentiation x' p).
Proof using HW Hord.
  intro H. unfold exponentiation. apply sc_bind with (R := pair_rel er er); [|intros [] [] []; apply sc_ret; assumption].
  apply sc_fold_seq; [|split; simpl; eauto with ren]. intros [a c] [a' c'] i [H1 H2]. simpl in *.
  apply sc_bind with (R := er); [repeat st|]. intros s s' Hs. apply sc_bind with (R := er); [repeat st|]. intros. repeat st.
Qed.
Lemma sc_inverse x x' : er x x' -> sc er (inverse x) (inverse x').
Proof using HW Hord. intro. unfold inverse. do 2 st. gen. repeat st. Qed.
Local Hint Resolve sc_inverse sc_exponentiation : ren.
Lemma sc_assert_nonzero x x' : er x x' -> sc eq (assert_nonzero x) (assert_nonzero x').
Proof using HW Hord. intro. unfold assert_nonzero. repeat st. Qed.
Local Hint Resolve sc_assert_nonzero : ren.
Lemma sc_assert_nonequal x x' y y' : er x x' -> er y y' -> sc eq (assert_nonequal x y) (assert_nonequal x' y').
Proof using HW Hord. intros. unfold assert_nonequal. repeat st. Qed.
Lemma sc_nonzero x x' : er x x' -> sc er (nonzero x) (nonzero x').
Proof using HW Hord. intro. unfold nonzero. do 4 st. gen. repeat st. Qed.
Lemma sc_b_not x x' : er x x' -> sc er (b_not x) (b_not x').
Proof using HW. intro. unfold b_not. repeat st. Qed.
Lemma sc_b_and x x' y y' : er x x' -> er y y' -> sc er (b_and x y) (b_and x' y').
Proof using HW Hord. intros. unfold b_and. repeat st. Qed.
Lemma sc_b_or x x' y y' : er x x' -> er y y' -> sc er (b_or x y) (b_or x' y').
Proof using HW Hord. intros. unfold b_or. repeat st. Qed.
Lemma sc_b_xor x x' y y' : er x x' -> er y y' -> sc er (b_xor x y) (b_xor x' y').
Proof using HW Hord. intros. unfold b_xor. st. eapply sc_bind; [apply sc_lift; eauto with ren|intros]. repeat st. Qed.
Local Hint Resolve sc_assert_nonequal sc_nonzero sc_b_not sc_b_and sc_b_or sc_b_xor : ren.
Lemma sc_g_zero x x' : er x x' -> sc er (g_zero x) (g_zero x').
Proof using HW Hord. intro. unfold g_zero. repeat st. Qed.
Local Hint Resolve sc_g_zero : ren.
Lemma sc_g_equal x x' y y' : er x x' -> er y y' -> sc er (g_equal x y) (g_equal x' y').
Proof using HW Hord. intros. unfold g_equal. repeat st. Qed.
Lemma sc_selection c c' x x' y y' : er c c' -> er x x' -> er y y' -> sc er (selection c x y) (selection c' x' y').
Proof using HW Hord. intros. unfold selection. repeat st. Qed.
Lemma sc_inverse_or_zero x x' : er x x' -> sc er (inverse_or_zero x) (inverse_or_zero x').
Proof using HW Hord. intro. unfold inverse_or_zero. do 3 st. gen. repeat st. Qed.
Lemma sc_quotient x x' y y' : er x x' -> er y y' -> sc er (quotient x y) (quotient x' y').
Proof using HW Hord. intros. unfold quotient. repeat st. Qed.
Lemma sc_quotient_unsafe x x' y y' : er x x' -> er y y' -> sc er (quotient_unsafe x y) (quotient_unsafe x' y').
Proof using HW Hord. intros. unfold quotient_unsafe. do 1 st. gen. repeat st. Qed.
Local Hint Resolve sc_g_equal sc_selection sc_inverse_or_zero sc_quotient sc_quotient_unsafe : ren.

(** ** Words *)
Lemma er_bin_of_wires ws ws' : Forall2 W ws ws' -> Forall2 er (bin_of_wires ws) (bin_of_wires ws').
Proof using HW. apply F2_map. intros. apply er_wire; assumption. Qed.
Lemma er_map_wire ws ws' : Forall2 W ws ws' -> Forall2 er (map e_wire ws) (map e_wire ws').
Proof using HW. apply er_bin_of_wires. Qed.
Lemma er_bin_from n : Forall2 er (bin_from n) (bin_from n).
Proof using HW. unfold bin_from. apply (F2_map eq); [|apply F2_refl]. intros a ? <-. apply er_bool, HW. Qed.
Local Hint Resolve er_bin_of_wires er_map_wire er_bin_from : ren.
Lemma so_join_over x x' : Forall2 er x x' -> so er (bin_join_allowing_overflow x) (bin_join_allowing_overflow x').
Proof using HW.
  intro H. unfold bin_join_allowing_overflow. apply (so_ofold (pair_rel eq er)); [|eauto with ren|eauto with ren].
  intros s s' [i e] [i' e'] Hs [H1 H2]. simpl in *. subst. repeat st.
Qed.
Local Hint Resolve so_join_over : ren.
Lemma so_join x x' : Forall2 er x x' -> so er (bin_join x) (bin_join x').
Proof using HW. intro H. unfold bin_join. repeat st. Qed.
Local Hint Resolve so_join : ren.
Lemma so_joins x x' : Forall2 (Forall2 er) x x' -> so (Forall2 er) (omap bin_join x) (omap bin_join x').
Proof using HW. apply so_omap. intros. eauto with ren. Qed.
Local Hint Resolve so_joins : ren.
Lemma so_bin_chunks x x' n : Forall2 er x x' -> so (Forall2 (Forall2 er)) (bin_chunks x n) (bin_chunks x' n).
Proof. apply so_chunks. Qed.
Local Hint Resolve so_bin_chunks : ren.
Lemma sc_lift_hint {A A'} (R : A -> A' -> Prop) o o' : so R o o' -> sc R (blift o) (blift o').
Proof. apply sc_lift. Qed.
Local Hint Resolve sc_lift_hint : ren.

Lemma sc_split_without_range_check x x' n : er x x' -> sc (Forall2 er) (split_without_range_check x n) (split_without_range_check x' n).
Proof using HW Hord.
  intro. unfold split_without_range_check. do 3 st.
  eapply sc_bind; [apply sc_generator; [solve [eauto 12 with ren]|intros v v' Hv]|intros ? ? _; repeat st].
  do 2 st. clean. apply (so_ofold eq vr); [|apply F2_refl|assumption]. intros s s' i i' Hs <-. repeat st.
Qed.
Local Hint Resolve sc_split_without_range_check : ren.
Lemma sc_split_allowing_ambiguity x x' : er x x' -> sc (Forall2 er) (split_allowing_ambiguity x) (split_allowing_ambiguity x').
Proof using HW Hord. intro. unfold split_allowing_ambiguity. repeat st. Qed.
Lemma sc_split_bounded x x' n : er x x' -> sc (Forall2 er) (split_bounded x n) (split_bounded x' n).
Proof using HW Hord. intro. unfold split_bounded. repeat st. Qed.
Local Hint Resolve sc_split_allowing_ambiguity sc_split_bounded : ren.
Lemma sc_cmp_subtractive d d' less strict n : er d d' -> sc er (cmp_subtractive d less strict n) (cmp_subtractive d' less strict n).
Proof using HW Hord.
  intro. unfold cmp_subtractive. st. cbv zeta. eapply sc_bind; [apply sc_split_bounded|intros; repeat st].
  destruct less; clean; eauto with ren.
Qed.
Local Hint Resolve sc_cmp_subtractive : ren.
Lemma so_cmp_mask_run xc xc' yc yc' m m' v v' : Forall2 er xc xc' -> Forall2 er yc yc' -> Forall2 W m m' -> vr v v' ->
  so vr (cmp_mask_run xc yc m v) (cmp_mask_run xc' yc' m' v').
Proof using HW Hord.
  intros. unfold cmp_mask_run. apply so_bind with (R := pair_rel vr eq).
  - apply (so_ofold (pair_rel eq W)); [|eauto with ren|split; auto]. intros [s c] [s' c'] [i e] [i' e'] [? ?] [? ?]. simpl in *. subst. repeat st.
  - intros [] [] []. simpl in *. assumption.
Qed.
Lemma sc_cmp_binary x x' y y' less strict : Forall2 er x x' -> Forall2 er y y' -> sc er (cmp_binary x y less strict) (cmp_binary x' y' less strict).
Proof using HW Hord.
  intros. unfold cmp_binary. cbv zeta. st. clean.
  apply sc_bind with (R := Forall2 er); [apply sc_lift; repeat st|intros xc xc' Hx].
  apply sc_bind with (R := Forall2 er); [apply sc_lift; repeat st|intros yc yc' Hy].
  clean. st. eapply sc_bind; [apply (sc_map W W (fun x y => er x y)); [|eassumption]; intros; eauto with ren|intros ? ? _].
  st. eapply sc_bind; [apply sc_generator; [solve [eauto 12 with ren]|intros; apply so_cmp_mask_run; assumption]|intros ? ? _].
  apply sc_bind with (R := er); [apply sc_fold_seq; [|eauto with ren]; intros; repeat st|intros dc dc' Hd].
  st. apply sc_bind with (R := er); [apply sc_fold_seq; [|eauto with ren]; intros; repeat st|intros ? ? _].
  apply sc_bind with (R := eq); [repeat st|]. intros. repeat st.
Qed.
Local Hint Resolve sc_cmp_binary : ren.
Lemma sc_lt_binary x x' y y' : Forall2 er x x' -> Forall2 er y y' -> sc er (lt_binary x y) (lt_binary x' y').
Proof using HW Hord. apply sc_cmp_binary. Qed.
Lemma sc_le_binary x x' y y' : Forall2 er x x' -> Forall2 er y y' -> sc er (le_binary x y) (le_binary x' y').
Proof using HW Hord. apply sc_cmp_binary. Qed.
Lemma sc_gt_binary x x' y y' : Forall2 er x x' -> Forall2 er y y' -> sc er (gt_binary x y) (gt_binary x' y').
Proof using HW Hord. apply sc_cmp_binary. Qed.
Lemma sc_ge_binary x x' y y' : Forall2 er x x' -> Forall2 er y y' -> sc er (ge_binary x y) (ge_binary x' y').
Proof using HW Hord. apply sc_cmp_binary. Qed.
Local Hint Resolve sc_lt_binary sc_le_binary sc_gt_binary sc_ge_binary : ren.
Lemma sc_assert_lt_binary x x' y y' : Forall2 er x x' -> Forall2 er y y' -> sc eq (assert_lt_binary x y) (assert_lt_binary x' y').
Proof using HW Hord. intros. unfold assert_lt_binary. eapply sc_bind; [apply sc_lt_binary; assumption|]. intros. apply sc_assert_true. assumption. Qed.
Lemma sc_assert_le_binary x x' y y' : Forall2 er x x' -> Forall2 er y y' -> sc eq (assert_le_binary x y) (assert_le_binary x' y').
Proof using HW Hord. intros. unfold assert_le_binary. eapply sc_bind; [apply sc_le_binary; assumption|]. intros. apply sc_assert_true. assumption. Qed.
Lemma sc_assert_gt_binary x x' y y' : Forall2 er x x' -> Forall2 er y y' -> sc eq (assert_gt_binary x y) (assert_gt_binary x' y').
Proof using HW Hord. intros. unfold assert_gt_binary. eapply sc_bind; [apply sc_gt_binary; assumption|]. intros. apply sc_assert_true. assumption. Qed.
Lemma sc_assert_ge_binary x x' y y' : Forall2 er x x' -> Forall2 er y y' -> sc eq (assert_ge_binary x y) (assert_ge_binary x' y').
Proof using HW Hord. intros. unfold assert_ge_binary. eapply sc_bind; [apply sc_ge_binary; assumption|]. intros. apply sc_assert_true. assumption. Qed.
Local Hint Resolve sc_assert_lt_binary sc_assert_le_binary sc_assert_gt_binary sc_assert_ge_binary : ren.
Lemma sc_split x x' : er x x' -> sc (Forall2 er) (split x) (split x').
Proof using HW Hord. intro. unfold split. st. eapply sc_bind; [apply sc_assert_lt_binary; eauto with ren|]. intros. repeat st. Qed.
Local Hint Resolve sc_split : ren.
Lemma sc_cmp x x' y y' less strict : er x x' -> er y y' -> sc er (cmp x y less strict) (cmp x' y' less strict).
Proof using HW Hord. intros. unfold cmp. repeat st. Qed.
Local Hint Resolve sc_cmp : ren.
Lemma sc_lt x x' y y' : er x x' -> er y y' -> sc er (lt x y) (lt x' y').
Proof using HW Hord. apply sc_cmp. Qed.
Lemma sc_le x x' y y' : er x x' -> er y y' -> sc er (le x y) (le x' y').
Proof using HW Hord. apply sc_cmp. Qed.
Lemma sc_gt x x' y y' : er x x' -> er y y' -> sc er (gt x y) (gt x' y').
Proof using HW Hord. apply sc_cmp. Qed.
Lemma sc_ge x x' y y' : er x x' -> er y y' -> sc er (ge x y) (ge x' y').
Proof using HW Hord. apply sc_cmp. Qed.
Local Hint Resolve sc_lt sc_le sc_gt sc_ge : ren.
Lemma sc_assert_lt x x' y y' : er x x' -> er y y' -> sc eq (assert_lt x y) (assert_lt x' y').
Proof using HW Hord. intros. unfold assert_lt. eapply sc_bind; [apply sc_lt; assumption|]. intros. apply sc_assert_true. assumption. Qed.
Lemma sc_assert_le x x' y y' : er x x' -> er y y' -> sc eq (assert_le x y) (assert_le x' y').
Proof using HW Hord. intros. unfold assert_le. eapply sc_bind; [apply sc_le; assumption|]. intros. apply sc_assert_true. assumption. Qed.
Lemma sc_assert_gt x x' y y' : er x x' -> er y y' -> sc eq (assert_gt x y) (assert_gt x' y').
Proof using HW Hord. intros. unfold assert_gt. eapply sc_bind; [apply sc_gt; assumption|]. intros. apply sc_assert_true. assumption. Qed.
Lemma sc_assert_ge x x' y y' : er x x' -> er y y' -> sc eq (assert_ge x y) (assert_ge x' y').
Proof using HW Hord. intros. unfold assert_ge. eapply sc_bind; [apply sc_ge; assumption|]. intros. apply sc_assert_true. assumption. Qed.
Local Hint Resolve sc_assert_lt sc_assert_le sc_assert_gt sc_assert_ge : ren.
Lemma sc_modulus x x' y y' : er x x' -> er y y' -> sc er (modulus x y) (modulus x' y').
Proof using HW Hord. intros. unfold modulus. do 3 st. eapply sc_bind; [apply sc_assert_lt; eauto with ren|intros ? ? _]. gen. repeat st. Qed.
Local Hint Resolve sc_modulus : ren.
Lemma sc_divides x x' y y' : er x x' -> er y y' -> sc er (divides x y) (divides x' y').
Proof using HW Hord. intros. unfold divides. repeat st. Qed.
Local Hint Resolve sc_divides : ren.

(** ** Binary arithmetic, bitwise operations, random access *)
Lemma fold_left_len {A A' S} (R : A -> A' -> Prop) (f : S -> list A -> S) (f' : S -> list A' -> S) l l' s :
  (forall s a a', length a' = length a -> f' s a' = f s a) -> Forall2 (Forall2 R) l l' -> fold_left f' l' s = fold_left f l s.
Proof. intros H HL. revert s. induction HL; simpl; auto. intro s. rewrite (H s x y) by (eapply Forall2_len; eassumption). auto. Qed.
Lemma max_sum_len l l' : Forall2 (Forall2 er) l l' -> max_sum l' = max_sum l.
Proof. apply fold_left_len. intros ? ? ? ->. reflexivity. Qed.
Lemma max_len_len l l' : Forall2 (Forall2 er) l l' -> max_len l' = max_len l.
Proof. apply fold_left_len. intros ? ? ? ->. reflexivity. Qed.
Lemma so_set_binary ws ws' n v v' : Forall2 W ws ws' -> vr v v' -> so vr (v_set_binary_unsigned ws n v) (v_set_binary_unsigned ws' n v').
Proof using HW.
  intros. unfold v_set_binary_unsigned. clean. st. apply (so_ofold (pair_rel eq W)); [|eauto with ren|assumption].
  intros s s' [i e] [i' e'] Hs [H1' H2]. simpl in *. subst. eauto with ren.
Qed.
Local Hint Resolve so_set_binary : ren.
Lemma so_truncate x x' n : Forall2 er x x' -> so (Forall2 er) (bin_truncate x n) (bin_truncate x' n).
Proof. intros. unfold bin_truncate. clean. repeat st. Qed.
Lemma so_slice_from x x' n : Forall2 er x x' -> so (Forall2 er) (oslice_from x n) (oslice_from x' n).
Proof. intros. unfold oslice_from. clean. repeat st. Qed.
Local Hint Resolve so_truncate so_slice_from : ren.
Lemma sc_binary_summation l l' : Forall2 (Forall2 er) l l' -> sc (Forall2 er) (binary_summation l) (binary_summation l').
Proof using HW Hord.
  intro H. unfold binary_summation. cbv zeta. rewrite (max_sum_len _ _ H). do 5 st. gen. repeat st.
Qed.
Local Hint Resolve sc_binary_summation : ren.
Lemma sc_binary_summation_ignoring_overflow l l' : Forall2 (Forall2 er) l l' ->
  sc (Forall2 er) (binary_summation_ignoring_overflow l) (binary_summation_ignoring_overflow l').
Proof using HW Hord. intro H. unfold binary_summation_ignoring_overflow. rewrite (max_len_len _ _ H). repeat st. Qed.
Lemma sc_binary_assert_zero x x' : Forall2 er x x' -> sc eq (binary_assert_zero x) (binary_assert_zero x').
Proof using HW.
  intro. unfold binary_assert_zero. do 2 st. eapply sc_bind; [apply (sc_map W (Forall2 er) eq); [|eassumption]; intros; repeat st|intros; repeat st].
Qed.
Local Hint Resolve sc_binary_assert_zero : ren.
Lemma sc_binary_summation_asserting_no_overflow l l' : Forall2 (Forall2 er) l l' ->
  sc (Forall2 er) (binary_summation_asserting_no_overflow l) (binary_summation_asserting_no_overflow l').
Proof using HW Hord. intro H. unfold binary_summation_asserting_no_overflow. rewrite (max_len_len _ _ H). repeat st. Qed.
Lemma sc_bitwise_not x x' : Forall2 er x x' -> sc (Forall2 er) (bitwise_not x) (bitwise_not x').
Proof using HW. apply sc_map. apply sc_b_not. Qed.
Lemma sc_bitwise2 op op' x x' y y' : (forall a a' c c', er a a' -> er c c' -> sc er (op a c) (op' a' c')) ->
  Forall2 er x x' -> Forall2 er y y' -> sc (Forall2 er) (bitwise2 op x y) (bitwise2 op' x' y').
Proof. intros. unfold bitwise2. clean. st. clean. apply sc_map_seq. intro. repeat st. Qed.
Lemma sc_rotate_inc x x' n : Forall2 er x x' -> sc (Forall2 er) (rotate_inc x n) (rotate_inc x' n).
Proof. intros. unfold rotate_inc. cbv zeta. clean. apply sc_map_seq. intro. repeat st. Qed.
Lemma sc_rotate_dec x x' n : Forall2 er x x' -> sc (Forall2 er) (rotate_dec x n) (rotate_dec x' n).
Proof. intros. unfold rotate_dec. cbv zeta. clean. apply sc_map_seq. intro. repeat st. Qed.
Lemma sc_shift_inc x x' n : Forall2 er x x' -> sc (Forall2 er) (shift_inc x n) (shift_inc x' n).
Proof using HW. intros. unfold shift_inc. cbv zeta. clean. apply sc_map_seq. intro. repeat st. Qed.
Lemma sc_shift_dec x x' n : Forall2 er x x' -> sc (Forall2 er) (shift_dec x n) (shift_dec x' n).
Proof using HW. intros. unfold shift_dec. cbv zeta. clean. apply sc_map_seq. intro. repeat st. Qed.
Lemma sc_select_pairs c c' : er c c' -> forall n l l', (length l <= n)%nat -> Forall2 er l l' -> sc (Forall2 er) (select_pairs c l) (select_pairs c' l').
Proof using HW Hord.
  intros Hc. induction n as [|n IH]; intros l l' L H.
  - destruct H; simpl in L; [|lia]. simpl. repeat st.
  - destruct H as [|a a' l l' Ha H]; simpl; [repeat st|]. destruct H as [|d d' l l' Hd H]; [repeat st|]. st.
    eapply sc_bind; [apply (IH l l'); [simpl in L; lia|assumption]|]. intros. repeat st.
Qed.
Lemma sc_random_access_binary bits bits' : Forall2 er bits bits' -> forall l l', Forall2 er l l' -> sc er (random_access_binary l bits) (random_access_binary l' bits').
Proof using HW Hord.
  induction 1 as [|c c' bits bits' Hc HB IH]; intros l l' H; pose proof H as H0; destruct H as [|a a' l l' Ha H]; simpl; try (destruct H as [|d d' l l' Hd H]); clean; repeat st.
  - eapply sc_bind; [apply sc_ret, H0|]. intros; apply IH; assumption.
  - eapply sc_bind; [apply (sc_select_pairs c c' Hc _ _ _ (le_n _) H0)|]. intros. apply IH. assumption.
Qed.
Lemma sc_random_access l l' i i' : Forall2 er l l' -> er i i' -> sc er (random_access l i) (random_access l' i').
Proof using HW Hord. intros. unfold random_access. clean. st. apply sc_random_access_binary; assumption. Qed.

(** ** Permutation networks, sorting *)
Local Notation swr := (pair_rel (Forall2 W) (Forall2 W)).
Lemma swr_sel s sw sw' : swr sw sw' -> Forall2 W (sel s sw) (sel s sw').
Proof. intros [H1 H2]. destruct s; assumption. Qed.
Lemma so_enqueue sw sw' bm pr v v' side i sub : swr sw sw' -> vr v v' -> so eq (enqueue_other_side sw bm pr v side i sub) (enqueue_other_side sw' bm pr v' side i sub).
Proof.
  intros H Hv. unfold enqueue_other_side. cbv zeta. apply so_bind with (R := eq); [apply so_eq|]. intros j ? <-.
  pose proof (swr_sel (negb side) _ _ H) as Hs. rewrite (Forall2_len _ _ _ Hs). st; [repeat st|].
  eapply so_bind; [apply (so_oindex W); exact Hs|]. intros w w' Hw. rewrite (vr_contains W v v' w w' Hv Hw). apply so_eq.
Qed.
Lemma so_route_switch sw sw' bm st0 st0' side i sp : swr sw sw' -> pair_rel eq vr st0 st0' ->
  so (pair_rel eq vr) (route_switch sw bm st0 side i sp) (route_switch sw' bm st0' side i sp).
Proof using HW.
  intros H. destruct st0 as [pr v], st0' as [pr' v']. intros [E Hv]. simpl in *. subst pr'. pose proof (swr_sel side _ _ H) as Hs.
  eapply so_bind; [apply (so_oindex W); exact Hs|]. intros w w' Hw. eapply so_bind; [apply vr_set_boolean; eassumption|]. intros u u' Hu.
  eapply so_bind; [apply so_enqueue; eassumption|]. intros p1 ? <-. eapply so_bind; [apply so_enqueue; eassumption|]. intros p2 ? <-. split; auto.
Qed.
Lemma scan_same ws ws' v v' : Forall2 W ws ws' -> vr v v' -> forall n k, scan n v' ws' k = scan n v ws k.
Proof.
  intros H Hv. induction n as [|n IH]; intro k; simpl; auto. pose proof (F2_nth W ws ws' k H) as N.
  destruct (nth_error ws k), (nth_error ws' k); try tauto. rewrite (vr_contains W v v' _ _ Hv N), IH. reflexivity.
Qed.
Lemma so_route_side sw sw' bm s s' side : swr sw sw' -> pair_rel (pair_rel eq vr) eq s s' ->
  so (pair_rel (pair_rel eq vr) eq) (route_side sw bm s side) (route_side sw' bm s' side).
Proof using HW.
  intros H. destruct s as [[pr v] si], s' as [[pr' v'] si']. intros [[E Hv] E2]. simpl in *. subst pr' si'. pose proof (swr_sel side _ _ H) as Hs.
  unfold route_side. destruct (sel side pr) as [|e es].
  - rewrite (Forall2_len _ _ _ Hs), (scan_same _ _ _ _ Hs Hv). cbv zeta.
    destruct (_ <? _)%nat; [|repeat split; assumption]. apply so_bind with (R := pair_rel eq vr); [apply (so_route_switch _ _ _ (pr, v) (pr, v')); [exact H|split; [reflexivity|exact Hv]]|].
    intros [p u] [p' u'] [E Hu]. simpl in *. subst. repeat split; assumption.
  - apply so_bind with (R := pair_rel eq vr).
    + apply (so_ofold eq (pair_rel eq vr)); [|apply F2_refl|split; auto]. intros a a' x ? Ha <-. apply so_route_switch; assumption.
    + intros [p u] [p' u'] [E Hu]. simpl in *. subst. repeat split; assumption.
Qed.
Lemma so_route_loop sw sw' bm : swr sw sw' -> forall f s s', pair_rel (pair_rel eq vr) eq s s' -> so vr (route_loop sw bm f s) (route_loop sw' bm f s').
Proof using HW.
  intros H. induction f as [|f IH]; intros s s' Hs; [exact I|]. pose proof Hs as Hs0. destruct s as [[pr v] si], s' as [[pr' v'] si']. destruct Hs as [[E Hv] E2]. cbn [fst snd] in *. subst pr' si'. cbn [route_loop].
  destruct H as [H1 H2]. rewrite (Forall2_len _ _ _ H1), (Forall2_len _ _ _ H2). destruct (_ || _); [|exact Hv].
  eapply so_bind; [apply so_route_side; [split; eassumption|exact Hs0]|]. intros t t' Ht.
  eapply so_bind; [apply so_route_side; [split; eassumption|exact Ht]|]. intros r r' Hr. apply IH, Hr.
Qed.
Lemma so_route a c ws ws' us us' v v' : Forall2 W ws ws' -> Forall2 W us us' -> vr v v' -> so vr (route a c ws us v) (route a c ws' us' v').
Proof using HW.
  intros H1 H2 Hv. assert (S : swr (ws, us) (ws', us')) by (split; assumption). unfold route. cbv zeta.
  eapply so_bind; [apply so_eq|]. intros _ _ _. eapply so_bind; [apply so_eq|]. intros bm ? <-. eapply so_bind; [apply so_eq|]. intros n1 ? <-.
  apply so_bind with (R := eq).
  - destruct (Nat.even _).
    + eapply so_bind; [apply so_eq|]. intros n2 ? <-. eapply so_bind; [apply so_enqueue; eassumption|]. intros p ? <-. apply so_enqueue; assumption.
    + eapply so_bind; [apply so_enqueue; eassumption|]. intros p ? <-. apply so_enqueue; assumption.
  - intros p ? <-. rewrite (Forall2_len _ _ _ H1), (Forall2_len _ _ _ H2). apply so_route_loop; [exact S|]. repeat split; auto.
Qed.
Local Notation srel := (pair_rel (pair_rel W er) er).
Lemma sc_create_switch x x' y y' : er x x' -> er y y' -> sc srel (create_switch x y) (create_switch x' y').
Proof using HW Hord. intros. unfold create_switch. do 2 st. apply sc_ret. split; [split; assumption|cbn [snd]; eauto with ren]. Qed.
Local Hint Resolve sc_create_switch : ren.
Lemma sc_assert_permutation_2x2 a a' c c' d d' e e' : er a a' -> er c c' -> er d d' -> er e e' ->
  sc eq (assert_permutation_2x2 a c d e) (assert_permutation_2x2 a' c' d' e').
Proof using HW Hord.
  intros. unfold assert_permutation_2x2. eapply sc_bind; [apply sc_create_switch; eassumption|]. intros [[s t] u] [[s' t'] u'] [[? ?] ?]. simpl in *.
  do 2 st. apply sc_generator; [solve [eauto 12 with ren]|]. intros v v' Hv. repeat st.
Qed.
Lemma sc_switch_layer l l' n : Forall2 er l l' -> sc (Forall2 srel) (switch_layer l n) (switch_layer l' n).
Proof using HW Hord. intro. apply sc_map_seq. intro. repeat st. Qed.
Local Hint Resolve sc_assert_permutation_2x2 sc_switch_layer : ren.
Local Notation quad := (pair_rel (pair_rel (pair_rel (Forall2 er) (Forall2 er)) (Forall2 er)) (Forall2 er)).
Lemma sc_assert_permutation_fuel : forall f a a' c c', Forall2 er a a' -> Forall2 er c c' ->
  sc eq (assert_permutation_fuel f a c) (assert_permutation_fuel f a' c').
Proof using HW Hord.
  induction f as [|f IH]; intros a a' c c' Ha Hc; [exact (sc_lift W eq NoFuel NoFuel I)|].
  cbn [assert_permutation_fuel]. rewrite (Forall2_len _ _ _ Ha), (Forall2_len _ _ _ Hc). eapply sc_bind; [apply sc_lift, so_eq|intros _ _ _].
  assert (BIG : forall n, sc eq
     (let even := Nat.even n in let an := (n / 2)%nat in let bn := (if even then an - 1 else an)%nat in
      las <- switch_layer a an ;; lbs <- switch_layer c bn ;;
      let c1a := map (fun s => snd (fst s)) las in let c2a := map snd las in let c1b := map (fun s => snd (fst s)) lbs in let c2b := map snd lbs in
      '(c1a, c1b, c2a, c2b) <- (if even then x <- blift (oindex c (n - 2)) ;; y <- blift (oindex c (n - 1)) ;; bret (c1a, c1b ++ [x], c2a, c2b ++ [y])
         else x <- blift (oindex a (n - 1)) ;; y <- blift (oindex c (n - 1)) ;; bret (c1a, c1b, c2a ++ [x], c2b ++ [y])) ;;
      assert_permutation_fuel f c1a c1b ;; assert_permutation_fuel f c2a c2b ;;
      b_generator (flat_map e_deps a ++ flat_map e_deps c) (fun v =>
        let! av := omap (e_evaluate v) a in let! bv := omap (e_evaluate v) c in
        route av bv (map (fun s => fst (fst s)) las) (map (fun s => fst (fst s)) lbs) v))
     (let even := Nat.even n in let an := (n / 2)%nat in let bn := (if even then an - 1 else an)%nat in
      las <- switch_layer a' an ;; lbs <- switch_layer c' bn ;;
      let c1a := map (fun s => snd (fst s)) las in let c2a := map snd las in let c1b := map (fun s => snd (fst s)) lbs in let c2b := map snd lbs in
      '(c1a, c1b, c2a, c2b) <- (if even then x <- blift (oindex c' (n - 2)) ;; y <- blift (oindex c' (n - 1)) ;; bret (c1a, c1b ++ [x], c2a, c2b ++ [y])
         else x <- blift (oindex a' (n - 1)) ;; y <- blift (oindex c' (n - 1)) ;; bret (c1a, c1b, c2a ++ [x], c2b ++ [y])) ;;
      assert_permutation_fuel f c1a c1b ;; assert_permutation_fuel f c2a c2b ;;
      b_generator (flat_map e_deps a' ++ flat_map e_deps c') (fun v =>
        let! av := omap (e_evaluate v) a' in let! bv := omap (e_evaluate v) c' in
        route av bv (map (fun s => fst (fst s)) las) (map (fun s => fst (fst s)) lbs) v))).
  { intro n. cbv zeta. eapply sc_bind; [apply sc_switch_layer, Ha|]. intros las las' HA. eapply sc_bind; [apply sc_switch_layer, Hc|]. intros lbs lbs' HB.
    assert (M1 : forall l l', Forall2 srel l l' -> Forall2 er (map (fun s => snd (fst s)) l) (map (fun s => snd (fst s)) l')) by (intros l l'; apply F2_map; intros ? ? [[? ?] ?]; assumption).
    assert (M2 : forall l l', Forall2 srel l l' -> Forall2 er (map snd l) (map snd l')) by (intros l l'; apply F2_map; intros ? ? [[? ?] ?]; assumption).
    assert (M3 : forall l l', Forall2 srel l l' -> Forall2 W (map (fun s => fst (fst s)) l) (map (fun s => fst (fst s)) l')) by (intros l l'; apply F2_map; intros ? ? [[? ?] ?]; assumption).
    apply sc_bind with (R := quad).
    - destruct (Nat.even n); (eapply sc_bind; [apply sc_lift, (so_oindex er); eassumption|]; intros x x' Hx; eapply sc_bind; [apply sc_lift, (so_oindex er); eassumption|]; intros y y' Hy;
        apply sc_ret; repeat split; simpl; auto using Forall2_app).
    - intros [[[p1 p2] p3] p4] [[[q1 q2] q3] q4] [[[Q1 Q2] Q3] Q4]. simpl in *. eapply sc_bind; [apply IH; assumption|]. intros _ _ _. eapply sc_bind; [apply IH; assumption|]. intros _ _ _.
      apply sc_generator; [apply sw_app; apply sw_flat_map; assumption|]. intros v v' Hv. eapply so_bind; [apply (vr_evals Hord W HW); eassumption|]. intros av ? <-.
      eapply so_bind; [apply (vr_evals Hord W HW); eassumption|]. intros bv ? <-. apply so_route; auto. }
  destruct Ha as [|x x' a a' Hx Ha]; [apply sc_ret; reflexivity|].
  destruct Ha as [|x2 x2' a a' Hx2 Ha].
  { destruct Hc as [|y y' c c' Hy Hc]; [apply (BIG 1%nat)|apply (sc_assert_equal); assumption]. }
  destruct Ha as [|x3 x3' a a' Hx3 Ha].
  { destruct Hc as [|y y' c c' Hy Hc]; [apply (BIG 2%nat)|]. destruct Hc as [|y2 y2' c c' Hy2 Hc]; [apply (BIG 2%nat)|]. apply sc_assert_permutation_2x2; assumption. }
  apply (BIG (length (x :: x2 :: x3 :: a))).
Qed.
Lemma sc_assert_permutation a a' c c' : Forall2 er a a' -> Forall2 er c c' -> sc eq (assert_permutation a c) (assert_permutation a' c').
Proof using HW Hord. intros H1 H2. unfold assert_permutation. rewrite (Forall2_len _ _ _ H1). apply sc_assert_permutation_fuel; assumption. Qed.
Local Hint Resolve sc_assert_permutation : ren.
Lemma sc_sort_ascending l l' : Forall2 er l l' -> sc (Forall2 er) (sort_ascending l) (sort_ascending l').
Proof using HW Hord.
  intro H. unfold sort_ascending. cbv zeta. rewrite (Forall2_len _ _ _ H). do 3 st. clean.
  eapply sc_bind; [apply (sc_map W er (Forall2 er)); [intros; apply sc_split_allowing_ambiguity; assumption|eauto with ren]|intros f f' Hf].
  st. eapply sc_bind; [apply sc_split; eassumption|]. intros g g' Hg.
  eapply sc_bind; [apply sc_map_seq with (Q := eq)|intros ? ? _].
  { intro i. eapply sc_bind; [apply sc_lift, (so_oindex (Forall2 er)); apply Forall2_app; eauto with ren|]. intros x x' Hx.
    eapply sc_bind; [apply sc_lift, (so_oindex (Forall2 er)); apply Forall2_app; eauto with ren|]. intros y y' Hy. apply sc_assert_le_binary; assumption. }
  eapply sc_bind; [apply sc_generator; [solve [eauto 12 with ren]|intros v v' Hv]|intros ? ? _; repeat st].
  eapply so_bind; [apply (vr_evals Hord W HW); eassumption|]. intros items ? <-. apply (so_ofold eq vr); [|apply F2_refl|assumption].
  intros s s' [i x] ? Hs <-. simpl. repeat st.
Qed.
Lemma sc_sort_descending l l' : Forall2 er l l' -> sc (Forall2 er) (sort_descending l) (sort_descending l').
Proof using HW Hord. intro H. unfold sort_descending. eapply sc_bind; [apply sc_sort_ascending, H|]. intros. repeat st. Qed.

(** ** Permutations, ciphers, hashes *)
Definition pl1 (m : expr -> B expr) : Prop := forall x x', er x x' -> sc er (m x) (m x').
Definition pl2 (m : expr -> expr -> B expr) : Prop := forall x x' y y', er x x' -> er y y' -> sc er (m x y) (m x' y').
Definition pll (m : list expr -> B (list expr)) : Prop := forall l l', Forall2 er l l' -> sc (Forall2 er) (m l) (m l').
Definition plp (p : permutation) : Prop := pl1 (permute p) /\ pl1 (p_inverse p).
Lemma plp_inverse : plp inverse_permutation.
Proof using HW Hord. split; intros x x' H; apply sc_inverse_or_zero; assumption. Qed.
Lemma plp_monomial n : plp (monomial n).
Proof using HW Hord.
  split; intros x x' H; [apply sc_exponentiation; assumption|]. change (sc er (monomial_inverse n x) (monomial_inverse n x')). unfold monomial_inverse.
  do 4 st. gen. repeat st.
Qed.
Lemma sc_mimc_encrypt cs p : plp p -> pl2 (mimc_encrypt cs p).
Proof using HW.
  intros [P _] k k' x x' Hk Hx. unfold mimc_encrypt. eapply sc_bind; [apply P; eauto with ren|]. intros c0 c0' H0.
  eapply sc_bind; [apply sc_fold_seq with (Q := same_expr W); [|exact H0]; intros; apply P; eauto with ren|]. intros. repeat st.
Qed.
Lemma sc_mimc_decrypt cs p : plp p -> pl2 (mimc_decrypt cs p).
Proof using HW.
  intros [_ P] k k' x x' Hk Hx. unfold mimc_decrypt.
  eapply sc_bind; [apply sc_fold_seq with (Q := same_expr W); [|eauto with ren]; intros; eapply sc_bind; [apply P; eauto with ren|intros; repeat st]|].
  intros. eapply sc_bind; [apply P; eauto with ren|intros; repeat st].
Qed.
Lemma sc_davies_meyer c : pl2 (encrypt c) -> pl2 (davies_meyer c).
Proof. intros H x x' y y' Hx Hy. unfold davies_meyer. eapply sc_bind; [apply H; eassumption|]. intros. repeat st. Qed.
Lemma sc_miyaguchi_preneel c : pl2 (encrypt c) -> pl2 (miyaguchi_preneel c).
Proof. intros H x x' y y' Hx Hy. unfold miyaguchi_preneel. eapply sc_bind; [apply H; eassumption|]. intros. repeat st. Qed.
Lemma so_from_uint n : so er (e_from_uint n) (e_from_uint n).
Proof using HW. unfold e_from_uint. repeat st. Qed.
Local Hint Resolve so_from_uint : ren.
Lemma sc_merkle_damgard iv m l l' : pl2 m -> Forall2 er l l' -> sc er (merkle_damgard iv m l) (merkle_damgard iv m l').
Proof using HW.
  intros H HL. unfold merkle_damgard. rewrite (Forall2_len _ _ _ HL).
  eapply sc_bind; [apply (sc_fold W er er); [|eassumption|eauto with ren]; intros; apply H; assumption|]. intros. st. apply H; assumption.
Qed.
Lemma sc_merkle_tree_step m x x' y y' c c' : pl2 m -> er x x' -> er y y' -> er c c' -> sc er (merkle_tree_step m x y c) (merkle_tree_step m x' y' c').
Proof using HW Hord. intros H ? ? ?. unfold merkle_tree_step. st. apply H; eauto with ren. Qed.
Definition path_rel (p p' : merkle_path) : Prop := Forall2 er (prefix p) (prefix p') /\ Forall2 er (siblings p) (siblings p').
Lemma so_merkle_path_new l l' m m' : Forall2 er l l' -> Forall2 er m m' -> so path_rel (merkle_path_new l m) (merkle_path_new l' m').
Proof. intros H1 H2. unfold merkle_path_new. clean. st. simpl. split; assumption. Qed.
Lemma sc_merkle_tree_root m x x' p p' : pl2 m -> er x x' -> path_rel p p' -> sc er (merkle_tree_root m x p) (merkle_tree_root m x' p').
Proof using HW Hord.
  intros H Hx [H1 H2]. apply (sc_fold W (pair_rel er er) er); [|apply F2_combine; assumption|assumption]. intros s s' [] [] Hs []. apply sc_merkle_tree_step; assumption.
Qed.
Lemma sc_merkle_tree_membership m x x' r r' p p' : pl2 m -> er x x' -> er r r' -> path_rel p p' ->
  sc eq (assert_merkle_tree_membership m x r p) (assert_merkle_tree_membership m x' r' p').
Proof using HW Hord. intros. unfold assert_merkle_tree_membership. eapply sc_bind; [apply sc_merkle_tree_root; eassumption|]. intros. repeat st. Qed.

Lemma so_sponge_add l l' c c' : Forall2 er l l' -> Forall2 er c c' -> so (Forall2 er) (sponge_add l c) (sponge_add l' c').
Proof.
  intros HL HC. revert l l' HL. induction HC as [|c c' cs cs' Hc HC IH]; intros l l' HL.
  - destruct HL; simpl; auto.
  - destruct HL as [|e e' l l' He HL]; simpl; auto. eapply so_bind; [apply IH, HL|]. intros. simpl. eauto with ren.
Qed.
Lemma sc_sponge_step s i i' c c' : pll (mp_permute (sp_perm s)) -> Forall2 er i i' -> Forall2 er c c' ->
  sc (pair_rel (Forall2 er) (Forall2 er)) (sponge_step s i c) (sponge_step s i' c').
Proof.
  intros H Hi Hc. unfold sponge_step. cbv zeta. assert (L : Forall2 er (i ++ c) (i' ++ c')) by (apply Forall2_app; assumption).
  eapply sc_bind; [apply H, L|]. intros n n' Hn. rewrite (Forall2_len _ _ _ L), (Forall2_len _ _ _ Hn). do 2 st. apply sc_ret. split; simpl; eauto with ren.
Qed.
Lemma sc_sponge_squeeze s n : pll (mp_permute (sp_perm s)) -> forall f i i' c c' o o', Forall2 er i i' -> Forall2 er c c' -> Forall2 er o o' ->
  sc (Forall2 er) (sponge_squeeze f s i c o n) (sponge_squeeze f s i' c' o' n).
Proof.
  intro H. induction f as [|f IH]; intros i i' c c' o o' Hi Hc Ho; cbn [sponge_squeeze]; rewrite (Forall2_len _ _ _ Ho); destruct (_ <? _)%nat; try (apply sc_ret; assumption).
  - apply (sc_lift W (Forall2 er) NoFuel NoFuel I).
  - eapply sc_bind; [apply sc_sponge_step; eassumption|]. intros [] [] []. simpl in *. apply IH; auto using Forall2_app.
Qed.
Lemma sc_sponge_evaluate s l l' n : pll (mp_permute (sp_perm s)) -> Forall2 er l l' -> sc (Forall2 er) (sponge_evaluate s l n) (sponge_evaluate s l' n).
Proof.
  intros H HL. unfold sponge_evaluate. st. apply sc_bind with (R := pair_rel (Forall2 er) (Forall2 er)).
  - eapply sc_fold; [|eassumption|split; simpl; apply F2_repeat, er_zero]. intros [] [] d d' [] Hd. simpl in *.
    eapply sc_bind; [apply sc_lift, so_sponge_add; eassumption|]. intros. apply sc_sponge_step; assumption.
  - intros [] [] []. simpl in *. eapply sc_bind; [apply sc_sponge_squeeze; eassumption|]. intros. repeat st.
Qed.
Lemma er_matrix_mul rows l l' : Forall2 er l l' -> Forall2 er (matrix_mul rows l) (matrix_mul rows l').
Proof.
  intro H. unfold matrix_mul. apply (F2_map (pair_rel eq er)); [|apply F2_combine; [apply F2_refl|exact H]].
  intros [r x] [r' x'] [E Hx]. simpl in *. subst. apply (fold_left_rel eq er); [|apply F2_refl|eauto with ren]. intros s s' a ? Hs <-. eauto with ren.
Qed.
Local Hint Resolve er_matrix_mul : ren.
Lemma plp_sbox sb : so (fun p p' => p = p' /\ plp p) (sbox_to_permutation sb) (sbox_to_permutation sb).
Proof using HW Hord.
  destruct sb; simpl; [| |split; [reflexivity|apply plp_inverse]]; (eapply so_bind; [apply so_eq|]; intros ? ? <-; eapply so_bind; [apply so_eq|]; intros ? ? <-; simpl; split; [reflexivity|apply plp_monomial]).
Qed.
Lemma sc_sbox_permute sb : pl1 (sbox_permute sb).
Proof using HW Hord. intros x x' H. unfold sbox_permute. eapply sc_bind; [apply sc_lift, plp_sbox|]. intros p ? [<- [P _]]. apply P, H. Qed.
Lemma sc_update_first m l l' : pl1 m -> Forall2 er l l' -> sc (Forall2 er) (update_first m l) (update_first m l').
Proof. intros H HL. destruct HL; simpl; [apply (sc_lift W (Forall2 er) Panic Panic I)|]. eapply sc_bind; [apply H; eassumption|]. intros. repeat st. Qed.
Lemma sc_poseidon_permute p : pll (poseidon_permute p).
Proof using HW Hord.
  intros l l' H. unfold poseidon_permute. rewrite (Forall2_len _ _ _ H). do 2 st. apply sc_fold_seq; [|exact H]. intros s s' r Hs.
  apply sc_bind with (R := Forall2 er); [|intros; repeat st]. destruct (poseidon_full_round p r); [apply (sc_map W er er); [apply sc_sbox_permute|exact Hs]|apply sc_update_first; [apply sc_sbox_permute|exact Hs]].
Qed.
Lemma sc_poseidon_inverse p : pll (poseidon_inverse p).
Proof. intros l l' H. unfold poseidon_inverse. rewrite (Forall2_len _ _ _ H). do 2 st. unfold mds_inverse. intros b b' S. exact I. Qed.
Lemma sc_rescue_permute r : pll (rescue_permute r).
Proof using HW Hord.
  intros l l' H. apply sc_fold_seq; [|exact H]. intros s s' _ Hs. pose proof plp_monomial as P.
  eapply sc_bind; [apply (sc_map W er er); [|exact Hs]; intros; eapply sc_bind; [apply sc_lift, so_eq|intros n ? <-; apply (proj1 (P n)); assumption]|]. intros.
  eapply sc_bind; [apply (sc_map W er er); [|apply er_matrix_mul; eassumption]; intros; eapply sc_bind; [apply sc_lift, so_eq|intros n ? <-; apply (proj2 (P n)); assumption]|]. intros. repeat st.
Qed.

(** ** Groups *)
(** A group whose operations do the same on corresponding wires, [R] being the correspondence of its expressions. *)
Record plg (G : group) (R : g_expr G -> g_expr G -> Prop) : Prop := {
  plg_of : forall e, R (g_of_elem G e) (g_of_elem G e);
  plg_add : forall x x' y y', R x x' -> R y y' -> sc R (add_expressions G x y) (add_expressions G x' y');
  plg_double : forall x x', R x x' -> sc R (double_expression G x) (double_expression G x');
  plg_compressed : forall x x', R x x' -> er (compressed G x) (compressed G x');
  plg_to : forall x x', R x x' -> Forall2 er (to_components G x) (to_components G x');
  plg_from : forall l l', Forall2 er l l' -> so R (from_components_unsafe G l) (from_components_unsafe G l') }.
Lemma so_identity G R : plg G R -> so R (identity_expression G) (identity_expression G).
Proof. intros P. unfold identity_expression. eapply so_bind; [apply so_eq|]. intros e ? <-. apply (plg_of _ _ P). Qed.
Lemma sc_mul_boolean G R x x' c c' : plg G R -> R x x' -> er c c' -> sc R (mul_boolean_expression G x c) (mul_boolean_expression G x' c').
Proof using HW Hord.
  intros P Hx Hc. unfold mul_boolean_expression. eapply sc_bind; [apply sc_lift, so_identity, P|]. intros i i' Hi.
  eapply sc_bind; [apply (sc_map W (pair_rel eq er) er); [|apply F2_enumerate, (plg_to _ _ P), Hx]|].
  - intros [k e] [k' e'] [E He]. cbn [fst snd] in *. subst k'. eapply sc_bind; [apply sc_lift, so_ounwrap, F2_nth, (plg_to _ _ P), Hi|]. intros. apply sc_selection; assumption.
  - intros. apply sc_lift. apply (plg_from _ _ P). assumption.
Qed.
Lemma sc_mul_scalar G R x x' c c' : plg G R -> R x x' -> er c c' -> sc R (mul_scalar_expression G x c) (mul_scalar_expression G x' c').
Proof using HW Hord.
  intros P Hx Hc. unfold mul_scalar_expression. st. eapply sc_bind; [apply sc_lift, so_identity, P|]. intros i i' Hi.
  apply sc_bind with (R := pair_rel R R); [|intros [] [] []; apply sc_ret; assumption].
  eapply sc_fold; [|eassumption|split; assumption]. intros [u w] [u' w'] d d' [Hu Hw] Hd. cbn [fst snd] in *.
  eapply sc_bind; [apply sc_mul_boolean; eassumption|]. intros. eapply sc_bind; [apply (plg_add _ _ P); eassumption|]. intros.
  eapply sc_bind; [apply (plg_double _ _ P); eassumption|]. intros. apply sc_ret. split; assumption.
Qed.
Lemma sc_schnorr CG R s s' m m' y y' h : plg (cg_group CG) R -> pl2 h -> pair_rel er er s s' -> er m m' -> R y y' ->
  sc eq (schnorr_verify CG s m y h) (schnorr_verify CG s' m' y' h).
Proof using HW Hord.
  intros P H [Hs He] Hm Hy. unfold schnorr_verify, generator_expression.
  apply sc_bind with (R := R); [apply sc_lift; eapply so_bind; [apply so_eq|]; intros e ? <-; apply (plg_of _ _ P)|]. intros g g' Hg.
  eapply sc_bind; [apply sc_mul_scalar; eassumption|]. intros. eapply sc_bind; [apply sc_mul_scalar; eassumption|]. intros.
  eapply sc_bind; [apply (plg_add _ _ P); eassumption|]. intros. eapply sc_bind; [apply H; [apply (plg_compressed _ _ P); eassumption|assumption]|]. intros. apply sc_assert_equal; assumption.
Qed.
Lemma sc_ed_expr_new C x x' y y' : er x x' -> er y y' -> sc (pair_rel er er) (ed_expr_new C x y) (ed_expr_new C x' y').
Proof using HW Hord. intros. unfold ed_expr_new. do 3 st. repeat st; assumption. Qed.
Lemma plg_edwards C : plg (edwards_group C) (pair_rel er er).
Proof using HW Hord.
  constructor; cbn [edwards_group g_expr g_elem g_of_elem add_expressions double_expression compressed to_components from_components_unsafe].
  - intros []. split; simpl; eauto with ren.
  - intros [] [] [] [] [] []. cbn [fst snd] in *. unfold ed_add_expressions. do 5 st. st. st. apply sc_ret. split; assumption.
  - intros [] [] []. cbn [fst snd] in *. unfold ed_double_expression. do 4 st. clean. st. st. clean. st. apply sc_ret. split; assumption.
  - intros ? ? []. assumption.
  - intros ? ? []. eauto with ren.
  - intros l l' HL. destruct HL as [|? ? ? ? ? HL]; simpl; auto. destruct HL; simpl; auto. split; assumption.
Qed.
End Calls.
