(** What it means that a call leaves the prover no freedom. *)
From Coq Require Import ZArith List.
From Verif Require Import Base FieldM ExprM BuilderM Spec.
Import ListNotations.
Open Scope Z_scope.

Section Freedom.
Context {F : Field}.
(** Two assignments that satisfy all constraints and give the same values to the expressions [xs] give the same values to the results of the
    call ([out] lists them) and to all the wires made by it.  [G]: what is known of the arguments (that words consist of bits). *)
Definition no_freedom_when {A} (G : witness -> Prop) (m : B A) (xs : list expr) (out : A -> list expr) : Prop :=
  forall b a b' w1 w2, m b = Ok (a, b') -> wf_witness w1 -> wf_witness w2 -> sat w1 b' -> sat w2 b' -> G w1 -> G w2 ->
  map (ev w1) xs = map (ev w2) xs ->
  map (ev w1) (out a) = map (ev w2) (out a) /\ forall k, (next b <= k < next b')%nat -> w1 k = w2 k.
Definition no_freedom {A} (m : B A) (xs : list expr) (out : A -> list expr) : Prop := no_freedom_when (fun _ => True) m xs out.
Definition no_result {A} (_ : A) : list expr := [].
Definition one_result (r : expr) : list expr := [r].
Definition all_results (r : list expr) : list expr := r.
(** The same for the round functions, compression functions and permutations that gadgets are parametrised by. *)
Definition no_freedom1 (m : expr -> B expr) : Prop := forall x, no_freedom (m x) [x] one_result.
Definition no_freedom2 (m : expr -> expr -> B expr) : Prop := forall x y, no_freedom (m x y) [x; y] one_result.
Definition no_freedoml (m : list expr -> B (list expr)) : Prop := forall xs, no_freedom (m xs) xs all_results.
End Freedom.
