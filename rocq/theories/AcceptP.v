(** What a reported success means: the values left by [execute] satisfy whatever soundness promises. *)
From Coq Require Import ZArith List Bool Arith Lia Znumtheory.
From Verif Require Import Base FieldM FieldP ExprM BuilderM Spec ExprP MonoP ExecP GadgetCompleteP.
Import ListNotations.
Open Scope Z_scope.

Section Accept.
Context {F : Field}.

(** On a builder with one input wire per value, executing the built gadget never reports success. *)
Definition never_accepts {A} (vals : list Z) (m : B A) : Prop :=
  forall v0 ws b0 r b' v, input_values vals v0 -> b_wires (length vals) b_new = Ok (ws, b0) -> m b0 = Ok (r, b') ->
  execute (build b') v0 <> Ok (true, v).

(** The same with a conclusion about the reported values. *)
Definition when_accepted {A} (vals : list Z) (m : B A) (R : A -> values -> Prop) : Prop :=
  forall v0 ws b0 r b' v, input_values vals v0 -> b_wires (length vals) b_new = Ok (ws, b0) -> m b0 = Ok (r, b') ->
  execute (build b') v0 = Ok (true, v) -> R r v.

Context (Hp : prime order).
Let Hord : 2 <= order := prime_ge2 Hp.

Lemma accepted_inputs vals v0 v : good_inputs vals -> input_values vals v0 -> keeps v0 v ->
  wf_witness (witness_of v) /\ forall k, (k <= length vals)%nat -> witness_of v k = input_witness vals k.
Proof using Hp.
  intros Hv (I1 & I2 & _) K. split; [apply (witness_of_wf Hord), K, I1|]. intros k Hk. unfold witness_of. destruct k as [|k].
  - pose proof (K _ _ I1) as E. unfold ONE in E. rewrite E. cbn. apply Z.mod_small. pose proof Hord. lia.
  - rewrite (K _ _ (I2 k ltac:(lia))). cbn. apply Z.mod_small. unfold good_inputs in Hv. rewrite Forall_forall in Hv. apply Hv, nth_In. lia.
Qed.

Lemma ev_on_inputs vals w e : (forall k, (k <= length vals)%nat -> w k = input_witness vals k) -> on_inputs vals e ->
  ev w e = ev (input_witness vals) e.
Proof using.
  intros H O. unfold ev. f_equal. unfold on_inputs, over in O. revert O. induction e as [|[k c] e IH]; intro O; [reflexivity|].
  cbn [lin fold_right fst snd]. fold (lin w e) (lin (input_witness vals) e). rewrite IH, H; [reflexivity| |].
  - apply O. left. reflexivity.
  - intros j Hj. apply O. right. exact Hj.
Qed.

Theorem accepted {A} vals (m : B A) (R : witness -> A -> Prop) : good_inputs vals -> mono m -> sound_call m R ->
  when_accepted vals m (fun r v => exists w, wf_witness w /\ (forall k x, m_get k v = Some x -> w k = x mod order) /\
    (forall k, (k <= length vals)%nat -> w k = input_witness vals k) /\ R w r).
Proof using Hp.
  intros Hv Hm Hs v0 ws b0 r b' v I E0 E Ex. rewrite inputs_builder in E0. inversion E0; subst.
  destruct (Hm _ _ _ E) as (_ & _ & (gs & Eg & Ag)). cbn in Eg. subst gs.
  destruct (execute_rio _ _ _ _ Ex) as ((ran & Pm & Rio) & _).
  assert (K : keeps v0 v).
  { eapply rio_keeps; [|exact Rio]. cbn in Pm. rewrite Pm. exact Ag. }
  destruct (accepted_inputs vals v0 v Hv I K) as [W Hi]. exists (witness_of v). split; [exact W|]. split; [|split; [exact Hi|]].
  - intros k x Hx. unfold witness_of. rewrite Hx. reflexivity.
  - eapply Hs; [exact E|exact W|]. eapply (accept_sat Hord), Ex.
Qed.

(** If no witness with these inputs meets what soundness promises, success is never reported. *)
Theorem rejected {A} vals (m : B A) (R : witness -> A -> Prop) : good_inputs vals -> mono m -> sound_call m R ->
  (forall w r, wf_witness w -> (forall k, (k <= length vals)%nat -> w k = input_witness vals k) -> ~ R w r) ->
  never_accepts vals m.
Proof using Hp.
  intros Hv Hm Hs HR v0 ws b0 r b' v I E0 E Ex. destruct (accepted vals m R Hv Hm Hs _ _ _ _ _ _ I E0 E Ex) as (w & W & _ & Hi & H).
  exact (HR w r W Hi H).
Qed.
End Accept.
