(** What executing a gadget that asserts something reports. *)
From Coq Require Import ZArith List.
From Verif Require Import Base FieldM ExprM BuilderM Spec.
Import ListNotations.
Open Scope Z_scope.

Section Decide.
Context {F : Field}.
(** On a builder with one input wire per value, the call does not panic, and executing the built gadget on the values does not panic either, keeps
    them, and reports true exactly when [claim] holds: a false claim is reported as false. *)
Definition decides {A} (vals : list Z) (m : B A) (claim : Prop) : Prop := forall v0, input_values vals v0 ->
  exists ws b0 r b' ok v, b_wires (length vals) b_new = Ok (ws, b0) /\ m b0 = Ok (r, b') /\ execute (build b') v0 = Ok (ok, v) /\
    (forall k x, m_get k v0 = Some x -> m_get k v = Some x) /\ (ok = true <-> claim).
(** The call does not panic, but executing the built gadget does. *)
Definition aborts {A} (vals : list Z) (m : B A) : Prop := forall v0, input_values vals v0 ->
  exists ws b0 r b', b_wires (length vals) b_new = Ok (ws, b0) /\ m b0 = Ok (r, b') /\ execute (build b') v0 = Panic.
(** Executing reports success if the claim holds and panics if it does not. *)
Definition accepts_or_aborts {A} (vals : list Z) (m : B A) (claim : Prop) : Prop :=
  (claim -> runs vals m (fun _ _ => True)) /\ (~ claim -> aborts vals m).
End Decide.
