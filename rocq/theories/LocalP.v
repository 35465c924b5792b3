(** Builder calls depend on the builder only through the number of wires handed out, and only append. *)
From Coq Require Import ZArith List Bool Arith Lia.
From Verif Require Import Base FieldM ExprM BuilderM GadgetsM.
Import ListNotations.

(** Appending what a call added. *)
Definition grow (b d : builder) : builder :=
  mkB (next d) (constraints b ++ constraints d) (generators b ++ generators d).

(** The call behaves as on a builder without constraints and generators, and appends. *)
Definition local {A} (m : B A) : Prop := forall b,
  m b = match m (mkB (next b) [] []) with
        | Ok (a, d) => Ok (a, grow b d)
        | Panic => Panic
        | NoFuel => NoFuel
        end.

Lemma grow_nil b : grow b (mkB (next b) [] []) = b.
Proof. unfold grow. simpl. rewrite !app_nil_r. destruct b; reflexivity. Qed.

Lemma local_ret {A} (a : A) : local (bret a).
Proof. intro b. unfold bret. rewrite grow_nil. reflexivity. Qed.

Lemma local_lift {A} (o : outcome A) : local (blift o).
Proof. intro b. unfold blift. destruct o; simpl; try rewrite grow_nil; reflexivity. Qed.

Lemma local_bind {A C} (m : B A) (k : A -> B C) : local m -> (forall a, local (k a)) -> local (bbind m k).
Proof.
  intros H1 H2 b. unfold bbind. rewrite (H1 b). destruct (m (mkB (next b) [] [])) as [[a d]| |]; try reflexivity.
  rewrite (H2 a (grow b d)), (H2 a d). cbn [grow next].
  destruct (k a (mkB (next d) [] [])) as [[c e]| |]; try reflexivity.
  unfold grow. cbn [next constraints generators]. rewrite !app_assoc. reflexivity.
Qed.

Lemma local_bmap {A C} (f : A -> B C) l : (forall a, local (f a)) -> local (bmap f l).
Proof.
  intro H. induction l as [|a l IH]; simpl; [apply local_ret|].
  apply local_bind; auto. intro. apply local_bind; auto. intro. apply local_ret.
Qed.

Lemma local_bfold {A S} (f : S -> A -> B S) l : (forall s a, local (f s a)) -> forall s, local (bfold f l s).
Proof.
  intro H. induction l as [|a l IH]; intro s; simpl; [apply local_ret|]. apply local_bind; auto.
Qed.

Lemma local_wire : local b_wire.
Proof. intro b. unfold b_wire, grow. simpl. rewrite !app_nil_r. reflexivity. Qed.

Lemma local_generator d r : local (b_generator d r).
Proof. intro b. unfold b_generator, grow. simpl. rewrite app_nil_r. reflexivity. Qed.

Lemma local_assert_product x y z : local (assert_product x y z).
Proof. intro b. unfold assert_product, grow. simpl. rewrite app_nil_r. reflexivity. Qed.

Create HintDb local.
Global Hint Resolve local_ret local_lift local_wire local_generator local_assert_product : local.

Ltac local_step :=
  first
    [ solve [auto with local]
    | apply local_bind; [|intro]
    | apply local_bmap; intro
    | apply local_bfold; intros
    | match goal with
      | |- local (if ?b then _ else _) => destruct b
      | |- local (match ?o with _ => _ end) => destruct o
      end ].
Ltac local := repeat local_step.

Section Local.
Context {F : Field}.

Lemma local_wires n : local (b_wires n).
Proof. unfold b_wires. local. Qed.
Lemma local_assert_boolean x : local (assert_boolean x).
Proof. unfold assert_boolean. local. Qed.
Lemma local_assert_equal x y : local (assert_equal x y).
Proof. unfold assert_equal. local. Qed.
Lemma local_assert_zero x : local (assert_zero x).
Proof. apply local_assert_equal. Qed.
Lemma local_assert_true x : local (assert_true x).
Proof. apply local_assert_equal. Qed.
Lemma local_assert_false x : local (assert_false x).
Proof. apply local_assert_equal. Qed.
Hint Resolve local_wires local_assert_boolean local_assert_equal local_assert_zero local_assert_true
  local_assert_false : local.
Lemma local_boolean_wire : local boolean_wire.
Proof. unfold boolean_wire. local. Qed.
Hint Resolve local_boolean_wire : local.
Lemma local_binary_wire n : local (binary_wire n).
Proof. unfold binary_wire. local. Qed.
Hint Resolve local_binary_wire : local.
Lemma local_product x y : local (product x y).
Proof. unfold product. local. Qed.
Hint Resolve local_product : local.
Lemma local_exponentiation x p : local (exponentiation x p).
Proof. unfold exponentiation. local. Qed.
Lemma local_inverse x : local (inverse x).
Proof. unfold inverse. local. Qed.
Hint Resolve local_inverse local_exponentiation : local.
Lemma local_assert_nonzero x : local (assert_nonzero x).
Proof. unfold assert_nonzero. local. Qed.
Lemma local_nonzero x : local (nonzero x).
Proof. unfold nonzero. local. Qed.
Lemma local_not x : local (b_not x).
Proof. unfold b_not. local. Qed.
Lemma local_and x y : local (b_and x y).
Proof. unfold b_and. local. Qed.
Lemma local_or x y : local (b_or x y).
Proof. unfold b_or. local. Qed.
Lemma local_xor x y : local (b_xor x y).
Proof. unfold b_xor. local. Qed.
Hint Resolve local_assert_nonzero local_nonzero local_not local_and local_or local_xor : local.
Lemma local_assert_nonequal x y : local (assert_nonequal x y).
Proof. unfold assert_nonequal. local. Qed.
Lemma local_zero x : local (g_zero x).
Proof. unfold g_zero. local. Qed.
Hint Resolve local_zero local_assert_nonequal : local.
Lemma local_equal x y : local (g_equal x y).
Proof. unfold g_equal. local. Qed.
Lemma local_selection c x y : local (selection c x y).
Proof. unfold selection. local. Qed.
Lemma local_inverse_or_zero x : local (inverse_or_zero x).
Proof. unfold inverse_or_zero. local. Qed.
Lemma local_quotient x y : local (quotient x y).
Proof. unfold quotient. local. Qed.
Lemma local_quotient_unsafe x y : local (quotient_unsafe x y).
Proof. unfold quotient_unsafe. local. Qed.
Lemma local_swrc x n : local (split_without_range_check x n).
Proof. unfold split_without_range_check. local. Qed.
Hint Resolve local_equal local_selection local_inverse_or_zero local_quotient local_quotient_unsafe
  local_swrc : local.
Lemma local_split_amb x : local (split_allowing_ambiguity x).
Proof. apply local_swrc. Qed.
Lemma local_split_bounded x n : local (split_bounded x n).
Proof. unfold split_bounded. local. Qed.
Hint Resolve local_split_amb local_split_bounded : local.
Lemma local_cmp_sub d l s n : local (cmp_subtractive d l s n).
Proof. unfold cmp_subtractive. local. Qed.
Hint Resolve local_cmp_sub : local.
Lemma local_cmp_binary x y l s : local (cmp_binary x y l s).
Proof. unfold cmp_binary. local. Qed.
Hint Resolve local_cmp_binary : local.
Lemma local_lt_binary x y : local (lt_binary x y). Proof. unfold lt_binary; local. Qed.
Lemma local_le_binary x y : local (le_binary x y). Proof. unfold le_binary; local. Qed.
Lemma local_gt_binary x y : local (gt_binary x y). Proof. unfold gt_binary; local. Qed.
Lemma local_ge_binary x y : local (ge_binary x y). Proof. unfold ge_binary; local. Qed.
Hint Resolve local_lt_binary local_le_binary local_gt_binary local_ge_binary : local.
Lemma local_assert_lt_binary x y : local (assert_lt_binary x y). Proof. unfold assert_lt_binary; local. Qed.
Lemma local_assert_le_binary x y : local (assert_le_binary x y). Proof. unfold assert_le_binary; local. Qed.
Lemma local_assert_gt_binary x y : local (assert_gt_binary x y). Proof. unfold assert_gt_binary; local. Qed.
Lemma local_assert_ge_binary x y : local (assert_ge_binary x y). Proof. unfold assert_ge_binary; local. Qed.
Hint Resolve local_assert_lt_binary local_assert_le_binary local_assert_gt_binary
  local_assert_ge_binary : local.
Lemma local_split x : local (split x). Proof. unfold split; local. Qed.
Hint Resolve local_split : local.
Lemma local_cmp x y l s : local (cmp x y l s). Proof. unfold cmp; local. Qed.
Hint Resolve local_cmp : local.
Lemma local_lt x y : local (lt x y). Proof. unfold lt; local. Qed.
Lemma local_le x y : local (le x y). Proof. unfold le; local. Qed.
Lemma local_gt x y : local (gt x y). Proof. unfold gt; local. Qed.
Lemma local_ge x y : local (ge x y). Proof. unfold ge; local. Qed.
Hint Resolve local_lt local_le local_gt local_ge : local.
Lemma local_assert_lt x y : local (assert_lt x y). Proof. unfold assert_lt; local. Qed.
Lemma local_assert_le x y : local (assert_le x y). Proof. unfold assert_le; local. Qed.
Lemma local_assert_gt x y : local (assert_gt x y). Proof. unfold assert_gt; local. Qed.
Lemma local_assert_ge x y : local (assert_ge x y). Proof. unfold assert_ge; local. Qed.
Hint Resolve local_assert_lt local_assert_le local_assert_gt local_assert_ge : local.
Lemma local_modulus x y : local (modulus x y). Proof. unfold modulus; local. Qed.
Hint Resolve local_modulus : local.
Lemma local_divides x y : local (divides x y). Proof. unfold divides; local. Qed.
Lemma local_binary_summation ts : local (binary_summation ts).
Proof. unfold binary_summation; local. Qed.
Lemma local_binary_assert_zero x : local (binary_assert_zero x).
Proof. unfold binary_assert_zero; local. Qed.
Hint Resolve local_divides local_binary_summation local_binary_assert_zero : local.
Lemma local_bs_ignoring ts : local (binary_summation_ignoring_overflow ts).
Proof. unfold binary_summation_ignoring_overflow; local. Qed.
Lemma local_bs_asserting ts : local (binary_summation_asserting_no_overflow ts).
Proof. unfold binary_summation_asserting_no_overflow; local. Qed.
Lemma local_bitwise_not x : local (bitwise_not x).
Proof. unfold bitwise_not; local. Qed.
Lemma local_bitwise2 op x y : (forall a b, local (op a b)) -> local (bitwise2 op x y).
Proof. intro. unfold bitwise2; local. Qed.
Lemma local_rotate_inc x n : local (rotate_inc x n). Proof. unfold rotate_inc; local. Qed.
Lemma local_rotate_dec x n : local (rotate_dec x n). Proof. unfold rotate_dec; local. Qed.
Lemma local_shift_inc x n : local (shift_inc x n). Proof. unfold shift_inc; local. Qed.
Lemma local_shift_dec x n : local (shift_dec x n). Proof. unfold shift_dec; local. Qed.
Lemma local_select_pairs l : forall items, local (select_pairs l items).
Proof.
  assert (G : forall n items, (length items <= n)%nat -> local (select_pairs l items)).
  { induction n as [|n IH]; intros items L.
    - destruct items; [|simpl in L; lia]. simpl. local.
    - destruct items as [|a [|b items]]; simpl; local. apply IH. simpl in L. lia. }
  intro items. apply (G (length items)). lia.
Qed.
Lemma local_rab : forall bits items, local (random_access_binary items bits).
Proof.
  induction bits as [|b bits IH]; intros [|x [|y items]]; simpl; local; try apply local_select_pairs; auto.
  all: try (apply local_select_pairs).
Qed.
Lemma local_random_access items i : local (random_access items i).
Proof. unfold random_access. local. apply local_rab. Qed.

End Local.

Global Hint Resolve local_wires local_assert_boolean local_assert_equal local_assert_zero local_assert_true
  local_assert_false local_boolean_wire local_binary_wire local_product local_inverse local_exponentiation
  local_assert_nonzero local_nonzero local_not local_and local_or local_xor local_zero local_assert_nonequal
  local_equal local_selection local_inverse_or_zero local_quotient local_quotient_unsafe
  local_swrc local_split_amb local_split_bounded local_cmp_sub local_cmp_binary
  local_lt_binary local_le_binary local_gt_binary local_ge_binary
  local_assert_lt_binary local_assert_le_binary local_assert_gt_binary local_assert_ge_binary
  local_split local_cmp local_lt local_le local_gt local_ge local_assert_lt local_assert_le local_assert_gt
  local_assert_ge local_modulus local_divides local_binary_summation local_binary_assert_zero
  local_bs_ignoring local_bs_asserting local_bitwise_not local_rotate_inc local_rotate_dec local_shift_inc
  local_shift_dec local_select_pairs local_rab local_random_access : local.
