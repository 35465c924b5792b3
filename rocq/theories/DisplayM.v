(** Model of the textual forms: Display of elements, wires, expressions and constraints, and FromStr of elements. *)
From Coq Require Import ZArith NArith List Bool Arith String DecimalString.
From Verif Require Import Base FieldM ExprM BuilderM CryptoM.
Import ListNotations.
Open Scope Z_scope.
Open Scope string_scope.

(** Decimal text of an unsigned number without leading zeros (Display of BigUint and u32). *)
Definition show_N (n : N) : string := NilZero.string_of_uint (N.to_uint n).

(** field.rs 497-501 [Display for Element]. *)
Definition show_element (x : Z) : string := show_N (Z.to_N x).

(** field.rs 200-206 [FromStr for Element]: BigUint::from_str, then [Element::from], which panics on numbers that are
    not below the order.  [None] is the parse error.  Of the texts BigUint accepts only sequences of digits are
    modelled (it also accepts a leading plus sign and underscores between digits). *)
Definition element_from_str {F : Field} (s : string) : outcome (option Z) :=
  match NilZero.uint_of_string s with
  | None => Ok None
  | Some d => let! x := el_from (Z.of_N (N.of_uint d)) in Ok (Some x)
  end.

(** wire.rs 41-49 [Display for Wire]. *)
Definition show_wire (k : nat) : string :=
  if (k =? 0)%nat then "1" else "wire_" ++ show_N (N.of_nat k).

(** expression.rs 436-457 [Display for Expression]; the terms are already sorted in the model. *)
Definition show_term (kv : nat * Z) : string :=
  let '(k, v) := kv in
  if (k =? ONE)%nat then show_element v
  else if (v =? 1)%Z then show_wire k
  else show_wire k ++ " * " ++ show_element v.
Definition show_expr (e : expr) : string :=
  match map show_term e with
  | [] => "0"
  | terms => util_join " + " terms
  end.

(** constraint.rs 25-41 [Display for Constraint]. *)
Definition show_factor (e : expr) : string :=
  if (2 <=? e_num_terms e)%nat then "(" ++ show_expr e ++ ")" else show_expr e.
Definition show_constraint (c : constraint) : string :=
  show_factor (c_a c) ++ " * " ++ show_factor (c_b c) ++ " = " ++ show_expr (c_c c).

(** field.rs 447-461 [Div<u128> for Element]. *)
Definition fdiv_u128 {F : Field} (x n : Z) : outcome Z := let! y := el_from n in fdiv x y.
