(** Numbers that a field's order may be besides a prime. *)
From Coq Require Import ZArith Znumtheory.
Open Scope Z_scope.

Definition prime_power (n : Z) : Prop := exists p k, prime p /\ 1 <= k /\ n = p ^ k.
(** No square but 1 divides [n]. *)
Definition square_free (n : Z) : Prop := forall d, 1 < d -> ~ (d * d | n).
