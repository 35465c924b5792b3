(** Model of the programs shown in /repo/README.md and of wire_values.rs 35-37, 80-120. *)
From Coq Require Import ZArith List Bool Arith.
From Verif Require Import Base FieldM ExprM BuilderM GadgetsM CryptoM.
Import ListNotations.
Open Scope Z_scope.

Section Readme.
Context {F : Field}.

(** README.md 40-47: the gadget that computes x*x*x; returns the input wire and [x_cubed]. *)
Definition readme_cube : B (wire * expr) :=
  x <- b_wire ;;
  let x_exp := e_wire x in
  x_squared <- product x_exp x_exp ;;
  x_cubed <- product x_squared x_exp ;;
  bret (x, x_cubed).

(** wire_values.rs 35-37 [get_boolean]. *)
Definition v_get_boolean (v : values) (k : wire) : outcome bool := be_evaluate v (e_wire k).

(** wire_values.rs 80-91 [values!]. *)
Definition values_macro (l : list (wire * Z)) : outcome values :=
  ofold (fun v kx => v_set (fst kx) (snd kx) v) l v_new.

(** wire_values.rs 94-105 [boolean_values!]. *)
Definition boolean_values_macro (l : list (wire * bool)) : outcome values :=
  ofold (fun v kx => v_set_boolean (fst kx) (snd kx) v) l v_new.

(** wire_values.rs 108-119 [binary_unsigned_values!]. *)
Definition binary_unsigned_values_macro (l : list (list wire * Z)) : outcome values :=
  ofold (fun v kx => v_set_binary_unsigned (fst kx) (snd kx) v) l v_new.

(** README.md 49-59: build, set the input, execute, evaluate the result. *)
Definition readme_basic_example (input : Z) : outcome (bool * Z) :=
  let! '((x, x_cubed), b) := readme_cube b_new in
  let gadget := build b in
  let! values := values_macro [(x, input)] in
  let! '(ok, values') := execute gadget values in
  let! r := e_evaluate values' x_cubed in
  Ok (ok, r).

(** README.md 86-94 [hash]: MiMC, Davies-Meyer, Merkle-Damgard, all with their defaults.  [fuel] bounds the rejection
    loops of the LCG (lcg.rs 32-40). *)
Definition readme_hash (fuel : nat) (blocks : list expr) : B expr :=
  cipher <- blift (mimc_default fuel) ;;
  let compress := davies_meyer cipher in
  hash <- blift (merkle_damgard_defaults fuel compress) ;;
  hash blocks.

End Readme.
