(** Specification of twisted Edwards curves: a x^2 + y^2 = 1 + d x^2 y^2 over the integers modulo the
    order, with the textbook addition law.  Nothing here uses expressions, builders or the model's field
    operations. *)
From Coq Require Import ZArith List Bool Arith.
From Verif Require Import FieldM.
Open Scope Z_scope.

Section SpecCurve.
Context {F : Field}.

Definition point : Type := Z * Z.

(** Inverse modulo a prime order (0 for multiples of the order). *)
Definition zinv (x : Z) : Z := (x ^ (order - 2)) mod order.

(** Coordinates are field elements. *)
Definition in_plane (P : point) : Prop := 0 <= fst P < order /\ 0 <= snd P < order.

(** The curve equation. *)
Definition on_curve (a d : Z) (P : point) : Prop :=
  in_plane P /\
  (a * fst P ^ 2 + snd P ^ 2) mod order = (1 + d * fst P ^ 2 * snd P ^ 2) mod order.

(** The denominators of the sum of P and Q. *)
Definition den_x (d : Z) (P Q : point) : Z := (1 + d * fst P * fst Q * snd P * snd Q) mod order.
Definition den_y (d : Z) (P Q : point) : Z := (1 - d * fst P * fst Q * snd P * snd Q) mod order.

(** Addition, neutral element, negation, n-fold sum. *)
Definition ed_add (a d : Z) (P Q : point) : point :=
  (((fst P * snd Q + fst Q * snd P) * zinv (den_x d P Q)) mod order,
   ((snd P * snd Q - a * fst P * fst Q) * zinv (den_y d P Q)) mod order).
Definition ed_zero : point := (0, 1).
Definition ed_neg (P : point) : point := ((- fst P) mod order, snd P).
Fixpoint ed_mul (a d : Z) (n : nat) (P : point) : point :=
  match n with
  | O => ed_zero
  | S n' => ed_add a d P (ed_mul a d n' P)
  end.

(** [a] is a square and [d] is not: the condition under which the law has no exceptional pairs. *)
Definition complete_curve (a d : Z) : Prop :=
  (exists s, (s * s) mod order = a mod order) /\ (forall t, (t * t) mod order <> d mod order).

End SpecCurve.
