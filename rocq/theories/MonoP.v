(** Builder calls only ever append. *)
From Coq Require Import ZArith List Bool Arith Lia.
From Verif Require Import Base FieldM FieldP ExprM BuilderM GadgetsM Spec ExprP.
Import ListNotations.

(** [v'] still has every value of [v]. *)
Definition keeps (v v' : values) : Prop := forall k x, m_get k v = Some x -> m_get k v' = Some x.

(** A generator that never removes or changes a value. *)
Definition adds (run : values -> outcome values) : Prop := forall v v', run v = Ok v' -> keeps v v'.

Lemma keeps_refl v : keeps v v. Proof. intros k x H. exact H. Qed.
Lemma keeps_trans a b c : keeps a b -> keeps b c -> keeps a c.
Proof. intros H1 H2 k x H. apply H2, H1, H. Qed.
Lemma v_set_keeps k x v v' : v_set k x v = Ok v' -> keeps v v'.
Proof.
  intros H j y G. destruct (v_set_ok k x v v' H) as (N & O). rewrite O.
  destruct (Nat.eqb_spec j k) as [->|_]; [rewrite N in G; discriminate|exact G].
Qed.
Lemma v_set_boolean_keeps k x v v' : v_set_boolean k x v = Ok v' -> keeps v v'.
Proof. apply v_set_keeps. Qed.
Lemma ofold_keeps {A} (f : values -> A -> outcome values) :
  (forall a v v', f v a = Ok v' -> keeps v v') ->
  forall l v v', ofold f l v = Ok v' -> keeps v v'.
Proof.
  intros H l. induction l as [|a l IH]; intros v v' E; simpl in E.
  - inversion E; subst. apply keeps_refl.
  - destruct (f v a) as [v1| |] eqn:E1; try discriminate. eapply keeps_trans; [eapply H; eauto|eauto].
Qed.
Lemma ofold_keeps_pair {A S} (f : values * S -> A -> outcome (values * S)) :
  (forall a s s', f s a = Ok s' -> keeps (fst s) (fst s')) ->
  forall l s s', ofold f l s = Ok s' -> keeps (fst s) (fst s').
Proof.
  intros H l. induction l as [|a l IH]; intros v v' E; simpl in E.
  - inversion E; subst. apply keeps_refl.
  - destruct (f v a) as [v1| |] eqn:E1; try discriminate. eapply keeps_trans; [eapply H; eauto|eauto].
Qed.
Lemma v_set_binary_keeps bits x v v' : v_set_binary_unsigned bits x v = Ok v' -> keeps v v'.
Proof.
  unfold v_set_binary_unsigned. destruct (oassert _); try discriminate. simpl.
  apply ofold_keeps. intros ? ? ?. apply v_set_keeps.
Qed.

Ltac keeps_step :=
  match goal with
  | H : Ok _ = Ok _ |- _ => inversion H; subst; clear H
  | H : Panic = Ok _ |- _ => discriminate H
  | H : NoFuel = Ok _ |- _ => discriminate H
  | |- keeps ?v ?v => apply keeps_refl
  | H : v_set _ _ ?v = Ok ?v' |- keeps ?v ?v' => exact (v_set_keeps _ _ _ _ H)
  | H : v_set_boolean _ _ ?v = Ok ?v' |- keeps ?v ?v' => exact (v_set_boolean_keeps _ _ _ _ H)
  | H : v_set_binary_unsigned _ _ ?v = Ok ?v' |- keeps ?v ?v' => exact (v_set_binary_keeps _ _ _ _ H)
  | H : v_set _ _ ?v = Ok ?v1 |- keeps ?v ?v' => apply (keeps_trans v v1 v'); [exact (v_set_keeps _ _ _ _ H)|]
  | H : ofold _ _ ?v = Ok ?v' |- keeps ?v ?v' => apply ofold_keeps in H; [exact H|intros]
  | H : obind ?o _ = Ok _ |- _ => destruct o eqn:?; cbn [obind] in H
  | H : (if ?b then _ else _) = Ok _ |- _ => destruct b eqn:?
  end.
Ltac adds := intros ? ? ?; repeat keeps_step.

(** [b'] was reached from [b] by adding wires, constraints and generators at the end. *)
Definition extends (b b' : builder) : Prop :=
  (next b <= next b')%nat /\
  (exists cs, constraints b' = constraints b ++ cs) /\
  (exists gs, generators b' = generators b ++ gs /\ Forall (fun g => adds (g_run g)) gs).

Definition mono {A} (m : B A) : Prop := forall b a b', m b = Ok (a, b') -> extends b b'.

Lemma extends_refl b : extends b b.
Proof. repeat split; [lia|exists []|exists []]; rewrite app_nil_r; [reflexivity|split; [reflexivity|constructor]]. Qed.

Lemma extends_trans a b c : extends a b -> extends b c -> extends a c.
Proof.
  intros (N1 & [c1 C1] & (g1 & G1 & A1)) (N2 & [c2 C2] & (g2 & G2 & A2)). repeat split; [lia| |].
  - exists (c1 ++ c2). rewrite C2, C1, app_assoc. reflexivity.
  - exists (g1 ++ g2). rewrite G2, G1, app_assoc. split; [reflexivity|]. apply Forall_app. auto.
Qed.

Lemma mono_ret {A} (a : A) : mono (bret a).
Proof. intros b x b' E. inversion E; subst. apply extends_refl. Qed.

Lemma mono_lift {A} (o : outcome A) : mono (blift o).
Proof. intros b x b' E. unfold blift in E. destruct o; inversion E; subst. apply extends_refl. Qed.

Lemma mono_bind {A C} (m : B A) (k : A -> B C) :
  mono m -> (forall a, mono (k a)) -> mono (bbind m k).
Proof.
  intros H1 H2 b c b' E. unfold bbind in E. destruct (m b) as [[a b1]| |] eqn:E1; try discriminate.
  eapply extends_trans; [eapply H1; eauto|eapply H2; eauto].
Qed.

Lemma mono_bmap {A C} (f : A -> B C) l : (forall a, mono (f a)) -> mono (bmap f l).
Proof.
  intro H. induction l as [|a l IH]; simpl; [apply mono_ret|].
  apply mono_bind; auto. intro. apply mono_bind; auto. intro. apply mono_ret.
Qed.

Lemma mono_bfold {A S} (f : S -> A -> B S) l : (forall s a, mono (f s a)) ->
  forall s, mono (bfold f l s).
Proof.
  intro H. induction l as [|a l IH]; intro s; simpl; [apply mono_ret|].
  apply mono_bind; auto.
Qed.

Lemma mono_wire : mono b_wire.
Proof.
  intros b a b' E. inversion E; subst. repeat split; simpl; [lia|exists []|exists []];
    rewrite app_nil_r; [reflexivity|split; [reflexivity|constructor]].
Qed.

Lemma mono_generator d r : adds r -> mono (b_generator d r).
Proof.
  intros H b a b' E. inversion E; subst. repeat split; simpl; [lia|exists []|eexists; split; [reflexivity|]].
  - rewrite app_nil_r; reflexivity.
  - repeat constructor. exact H.
Qed.

Lemma mono_assert_product x y z : mono (assert_product x y z).
Proof.
  intros b a b' E. inversion E; subst. repeat split; simpl; [lia|eexists; reflexivity|exists []].
  rewrite app_nil_r; split; [reflexivity|constructor].
Qed.

Create HintDb mono.
Global Hint Resolve mono_ret mono_lift mono_wire mono_assert_product : mono.

Ltac mono_step :=
  first
    [ solve [auto with mono]
    | apply mono_bind; [|intro]
    | apply mono_bmap; intro
    | apply mono_bfold; intros
    | apply mono_generator; solve [adds]
    | match goal with
      | |- mono (if ?b then _ else _) => destruct b
      | |- mono (match ?o with _ => _ end) => destruct o
      end ].
Ltac mono := repeat mono_step.

Section Mono.
Context {F : Field}.

Lemma mono_wires n : mono (b_wires n).
Proof. unfold b_wires. mono. Qed.
Lemma mono_assert_boolean x : mono (assert_boolean x).
Proof. unfold assert_boolean. mono. Qed.
Lemma mono_assert_equal x y : mono (assert_equal x y).
Proof. unfold assert_equal. mono. Qed.
Lemma mono_assert_zero x : mono (assert_zero x).
Proof. apply mono_assert_equal. Qed.
Lemma mono_assert_true x : mono (assert_true x).
Proof. apply mono_assert_equal. Qed.
Lemma mono_assert_false x : mono (assert_false x).
Proof. apply mono_assert_equal. Qed.
Hint Resolve mono_wires mono_assert_boolean mono_assert_equal mono_assert_zero mono_assert_true
  mono_assert_false : mono.
Lemma mono_boolean_wire : mono boolean_wire.
Proof. unfold boolean_wire. mono. Qed.
Hint Resolve mono_boolean_wire : mono.
Lemma mono_binary_wire n : mono (binary_wire n).
Proof. unfold binary_wire. mono. Qed.
Hint Resolve mono_binary_wire : mono.
Lemma mono_product x y : mono (product x y).
Proof. unfold product. mono. Qed.
Hint Resolve mono_product : mono.
Lemma mono_exponentiation x p : mono (exponentiation x p).
Proof. unfold exponentiation. mono. Qed.
Lemma mono_inverse x : mono (inverse x).
Proof. unfold inverse. mono. Qed.
Hint Resolve mono_inverse mono_exponentiation : mono.
Lemma mono_assert_nonzero x : mono (assert_nonzero x).
Proof. unfold assert_nonzero. mono. Qed.
Lemma mono_nonzero x : mono (nonzero x).
Proof. unfold nonzero. mono. Qed.
Lemma mono_not x : mono (b_not x).
Proof. unfold b_not. mono. Qed.
Lemma mono_and x y : mono (b_and x y).
Proof. unfold b_and. mono. Qed.
Lemma mono_or x y : mono (b_or x y).
Proof. unfold b_or. mono. Qed.
Lemma mono_xor x y : mono (b_xor x y).
Proof. unfold b_xor. mono. Qed.
Hint Resolve mono_assert_nonzero mono_nonzero mono_not mono_and mono_or mono_xor : mono.
Lemma mono_assert_nonequal x y : mono (assert_nonequal x y).
Proof. unfold assert_nonequal. mono. Qed.
Lemma mono_zero x : mono (g_zero x).
Proof. unfold g_zero. mono. Qed.
Hint Resolve mono_zero mono_assert_nonequal : mono.
Lemma mono_equal x y : mono (g_equal x y).
Proof. unfold g_equal. mono. Qed.
Lemma mono_selection c x y : mono (selection c x y).
Proof. unfold selection. mono. Qed.
Lemma mono_inverse_or_zero x : mono (inverse_or_zero x).
Proof. unfold inverse_or_zero. mono. Qed.
Lemma mono_quotient x y : mono (quotient x y).
Proof. unfold quotient. mono. Qed.
Lemma mono_quotient_unsafe x y : mono (quotient_unsafe x y).
Proof. unfold quotient_unsafe. mono. Qed.
Lemma mono_swrc x n : mono (split_without_range_check x n).
Proof. unfold split_without_range_check. mono. Qed.
Hint Resolve mono_equal mono_selection mono_inverse_or_zero mono_quotient mono_quotient_unsafe
  mono_swrc : mono.
Lemma mono_split_amb x : mono (split_allowing_ambiguity x).
Proof. apply mono_swrc. Qed.
Lemma mono_split_bounded x n : mono (split_bounded x n).
Proof. unfold split_bounded. mono. Qed.
Hint Resolve mono_split_amb mono_split_bounded : mono.
Lemma mono_cmp_sub d l s n : mono (cmp_subtractive d l s n).
Proof. unfold cmp_subtractive. mono. Qed.
Hint Resolve mono_cmp_sub : mono.
Lemma adds_mask xc yc ms : adds (cmp_mask_run xc yc ms).
Proof.
  intros v v' E. unfold cmp_mask_run in E.
  destruct (ofold _ _ _) as [[v1 s1]| |] eqn:E1; try discriminate. simpl in E. inversion E; subst.
  apply ofold_keeps_pair in E1; [exact E1|]. intros [i m] [w s] [w' s'] E2. simpl in *. repeat keeps_step.
Qed.
Lemma mono_mask d xc yc ms : mono (b_generator d (cmp_mask_run xc yc ms)).
Proof. apply mono_generator, adds_mask. Qed.
Hint Resolve mono_mask : mono.
Lemma mono_cmp_binary x y l s : mono (cmp_binary x y l s).
Proof. unfold cmp_binary. mono. Qed.
Hint Resolve mono_cmp_binary : mono.
Lemma mono_lt_binary x y : mono (lt_binary x y). Proof. unfold lt_binary; mono. Qed.
Lemma mono_le_binary x y : mono (le_binary x y). Proof. unfold le_binary; mono. Qed.
Lemma mono_gt_binary x y : mono (gt_binary x y). Proof. unfold gt_binary; mono. Qed.
Lemma mono_ge_binary x y : mono (ge_binary x y). Proof. unfold ge_binary; mono. Qed.
Hint Resolve mono_lt_binary mono_le_binary mono_gt_binary mono_ge_binary : mono.
Lemma mono_assert_lt_binary x y : mono (assert_lt_binary x y). Proof. unfold assert_lt_binary; mono. Qed.
Lemma mono_assert_le_binary x y : mono (assert_le_binary x y). Proof. unfold assert_le_binary; mono. Qed.
Lemma mono_assert_gt_binary x y : mono (assert_gt_binary x y). Proof. unfold assert_gt_binary; mono. Qed.
Lemma mono_assert_ge_binary x y : mono (assert_ge_binary x y). Proof. unfold assert_ge_binary; mono. Qed.
Hint Resolve mono_assert_lt_binary mono_assert_le_binary mono_assert_gt_binary
  mono_assert_ge_binary : mono.
Lemma mono_split x : mono (split x). Proof. unfold split; mono. Qed.
Hint Resolve mono_split : mono.
Lemma mono_cmp x y l s : mono (cmp x y l s). Proof. unfold cmp; mono. Qed.
Hint Resolve mono_cmp : mono.
Lemma mono_lt x y : mono (lt x y). Proof. unfold lt; mono. Qed.
Lemma mono_le x y : mono (le x y). Proof. unfold le; mono. Qed.
Lemma mono_gt x y : mono (gt x y). Proof. unfold gt; mono. Qed.
Lemma mono_ge x y : mono (ge x y). Proof. unfold ge; mono. Qed.
Hint Resolve mono_lt mono_le mono_gt mono_ge : mono.
Lemma mono_assert_lt x y : mono (assert_lt x y). Proof. unfold assert_lt; mono. Qed.
Lemma mono_assert_le x y : mono (assert_le x y). Proof. unfold assert_le; mono. Qed.
Lemma mono_assert_gt x y : mono (assert_gt x y). Proof. unfold assert_gt; mono. Qed.
Lemma mono_assert_ge x y : mono (assert_ge x y). Proof. unfold assert_ge; mono. Qed.
Hint Resolve mono_assert_lt mono_assert_le mono_assert_gt mono_assert_ge : mono.
Lemma mono_modulus x y : mono (modulus x y). Proof. unfold modulus; mono. Qed.
Hint Resolve mono_modulus : mono.
Lemma mono_divides x y : mono (divides x y). Proof. unfold divides; mono. Qed.
Lemma mono_binary_summation ts : mono (binary_summation ts).
Proof. unfold binary_summation; mono. Qed.
Lemma mono_binary_assert_zero x : mono (binary_assert_zero x).
Proof. unfold binary_assert_zero; mono. Qed.
Hint Resolve mono_divides mono_binary_summation mono_binary_assert_zero : mono.
Lemma mono_bs_ignoring ts : mono (binary_summation_ignoring_overflow ts).
Proof. unfold binary_summation_ignoring_overflow; mono. Qed.
Lemma mono_bs_asserting ts : mono (binary_summation_asserting_no_overflow ts).
Proof. unfold binary_summation_asserting_no_overflow; mono. Qed.
Lemma mono_bitwise_not x : mono (bitwise_not x).
Proof. unfold bitwise_not; mono. Qed.
Lemma mono_bitwise2 op x y : (forall a b, mono (op a b)) -> mono (bitwise2 op x y).
Proof. intro. unfold bitwise2; mono. Qed.
Lemma mono_rotate_inc x n : mono (rotate_inc x n). Proof. unfold rotate_inc; mono. Qed.
Lemma mono_rotate_dec x n : mono (rotate_dec x n). Proof. unfold rotate_dec; mono. Qed.
Lemma mono_shift_inc x n : mono (shift_inc x n). Proof. unfold shift_inc; mono. Qed.
Lemma mono_shift_dec x n : mono (shift_dec x n). Proof. unfold shift_dec; mono. Qed.
Lemma mono_select_pairs l : forall items, mono (select_pairs l items).
Proof.
  assert (G : forall n items, (length items <= n)%nat -> mono (select_pairs l items)).
  { induction n as [|n IH]; intros items L.
    - destruct items; [|simpl in L; lia]. simpl. mono.
    - destruct items as [|a [|b items]]; simpl; mono. apply IH. simpl in L. lia. }
  intro items. apply (G (length items)). lia.
Qed.
Lemma mono_rab : forall bits items, mono (random_access_binary items bits).
Proof.
  induction bits as [|b bits IH]; intros [|x [|y items]]; simpl; mono; try apply mono_select_pairs; auto.
  all: try (apply mono_select_pairs).
Qed.
Lemma mono_random_access items i : mono (random_access items i).
Proof. unfold random_access. mono. apply mono_rab. Qed.

End Mono.

Global Hint Resolve mono_mask mono_wires mono_assert_boolean mono_assert_equal mono_assert_zero mono_assert_true
  mono_assert_false mono_boolean_wire mono_binary_wire mono_product mono_inverse mono_exponentiation
  mono_assert_nonzero mono_nonzero mono_not mono_and mono_or mono_xor mono_zero mono_assert_nonequal
  mono_equal mono_selection mono_inverse_or_zero mono_quotient mono_quotient_unsafe
  mono_swrc mono_split_amb mono_split_bounded mono_cmp_sub mono_cmp_binary
  mono_lt_binary mono_le_binary mono_gt_binary mono_ge_binary
  mono_assert_lt_binary mono_assert_le_binary mono_assert_gt_binary mono_assert_ge_binary
  mono_split mono_cmp mono_lt mono_le mono_gt mono_ge mono_assert_lt mono_assert_le mono_assert_gt
  mono_assert_ge mono_modulus mono_divides mono_binary_summation mono_binary_assert_zero
  mono_bs_ignoring mono_bs_asserting mono_bitwise_not mono_rotate_inc mono_rotate_dec mono_shift_inc
  mono_shift_dec mono_select_pairs mono_rab mono_random_access : mono.
