(** Straight-line programs over the gadget library, as a user writes them: a list of calls whose arguments are earlier results.
    [run] says what a program means, on integers only; [compile] makes the calls of the model on a builder.
    Not a model of code in /repo, but of its use; the calls are those of gadget_builder.rs and the gadgets files. *)
From Coq Require Import ZArith List Bool Arith.
From Verif Require Import Base FieldM ExprM BuilderM GadgetsM SpecCurve.
Import ListNotations.
Open Scope Z_scope.

(** Numbers refer to the inputs, followed by the results of the earlier operations. *)
Inductive op : Type :=
| OConst (c : N) | OAdd (i j : nat) | OSub (i j : nat) | ONeg (i : nat) | OScale (i : nat) (c : Z)
| OMul (i j : nat) | ODiv (i j : nat) | OInv (i : nat) | OPow (i : nat) (e : N)
| ONonzero (i : nat) | OIsZero (i : nat) | OEqual (i j : nat)
| ONot (i : nat) | OAnd (i j : nat) | OOr (i j : nat) | OXor (i j : nat) | OSelect (c i j : nat)
| OBit (i k : nat)
| AZero (i : nat) | AEqual (i j : nat) | ANonzero (i : nat) | ANonequal (i j : nat)
| ABit (i : nat) | ATrue (i : nat) | AFalse (i : nat) | ALess (i j : nat) | AGreater (i j : nat).
Definition program := list op.

Section Meaning.
Context {F : Field}.

Definition with1 {R} (vs : list Z) (i : nat) (k : Z -> option R) : option R :=
  match nth_error vs i with Some a => k a | None => None end.
Definition with2 {R} (vs : list Z) (i j : nat) (k : Z -> Z -> option R) : option R :=
  with1 vs i (fun a => with1 vs j (k a)).
Definition when {R} (b : bool) (r : R) : option R := if b then Some r else None.
Definition bitb (a : Z) : bool := (a =? 0) || (a =? 1).
Definition truth (b : bool) : Z := if b then 1 else 0.

(** The value(s) an operation adds; [None] if it is undefined or an assertion fails. *)
Definition step (vs : list Z) (o : op) : option (list Z) :=
  match o with
  | OConst c => when (Z.of_N c <? order) [Z.of_N c]
  | OAdd i j => with2 vs i j (fun a b => Some [(a + b) mod order])
  | OSub i j => with2 vs i j (fun a b => Some [(a - b) mod order])
  | ONeg i => with1 vs i (fun a => Some [(- a) mod order])
  | OScale i c => with1 vs i (fun a => Some [(a * c) mod order])
  | OMul i j => with2 vs i j (fun a b => Some [(a * b) mod order])
  | ODiv i j => with2 vs i j (fun a b => when (negb (b =? 0)) [(a * zinv b) mod order])
  | OInv i => with1 vs i (fun a => when (negb (a =? 0)) [zinv a])
  | OPow i e => with1 vs i (fun a => Some [(a ^ Z.of_N e) mod order])
  | ONonzero i => with1 vs i (fun a => Some [truth (negb (a =? 0))])
  | OIsZero i => with1 vs i (fun a => Some [truth (a =? 0)])
  | OEqual i j => with2 vs i j (fun a b => Some [truth (a =? b)])
  | ONot i => with1 vs i (fun a => when (bitb a) [truth (negb (a =? 1))])
  | OAnd i j => with2 vs i j (fun a b => when (bitb a && bitb b) [truth ((a =? 1) && (b =? 1))])
  | OOr i j => with2 vs i j (fun a b => when (bitb a && bitb b) [truth ((a =? 1) || (b =? 1))])
  | OXor i j => with2 vs i j (fun a b => when (bitb a && bitb b) [truth (xorb (a =? 1) (b =? 1))])
  | OSelect c i j => with1 vs c (fun t => with2 vs i j (fun a b => when (bitb t) [if t =? 1 then a else b]))
  | OBit i k => with1 vs i (fun a => when (k <? max_bits)%nat [truth (Z.testbit a (Z.of_nat k))])
  | AZero i => with1 vs i (fun a => when (a =? 0) [])
  | AEqual i j => with2 vs i j (fun a b => when (a =? b) [])
  | ANonzero i => with1 vs i (fun a => when (negb (a =? 0)) [])
  | ANonequal i j => with2 vs i j (fun a b => when (negb (a =? b)) [])
  | ABit i => with1 vs i (fun a => when (bitb a) [])
  | ATrue i => with1 vs i (fun a => when (a =? 1) [])
  | AFalse i => with1 vs i (fun a => when (a =? 0) [])
  | ALess i j => with2 vs i j (fun a b => when (a <? b) [])
  | AGreater i j => with2 vs i j (fun a b => when (b <? a) [])
  end.

Fixpoint run (p : program) (vs : list Z) : option (list Z) :=
  match p with
  | [] => Some vs
  | o :: p' => match step vs o with Some new => run p' (vs ++ new) | None => None end
  end.

(** The same with gadget calls. *)
Definition arg (es : list expr) (i : nat) : B expr := blift (oindex es i).
Definition call1 (es : list expr) (i : nat) (k : expr -> B (list expr)) : B (list expr) := x <- arg es i ;; k x.
Definition call2 (es : list expr) (i j : nat) (k : expr -> expr -> B (list expr)) : B (list expr) :=
  x <- arg es i ;; y <- arg es j ;; k x y.
Definition out1 (m : B expr) : B (list expr) := r <- m ;; bret [r].
Definition out0 {A} (m : B A) : B (list expr) := _ <- m ;; bret [].

Definition cop (es : list expr) (o : op) : B (list expr) :=
  match o with
  | OConst c => out1 (blift (e_from_uint (Z.of_N c)))
  | OAdd i j => call2 es i j (fun x y => bret [e_add x y])
  | OSub i j => call2 es i j (fun x y => bret [e_sub x y])
  | ONeg i => call1 es i (fun x => bret [e_neg x])
  | OScale i c => call1 es i (fun x => bret [e_scale x c])
  | OMul i j => call2 es i j (fun x y => out1 (product x y))
  | ODiv i j => call2 es i j (fun x y => out1 (quotient x y))
  | OInv i => call1 es i (fun x => out1 (inverse x))
  | OPow i e => call1 es i (fun x => out1 (exponentiation x (Z.of_N e)))
  | ONonzero i => call1 es i (fun x => out1 (nonzero x))
  | OIsZero i => call1 es i (fun x => out1 (g_zero x))
  | OEqual i j => call2 es i j (fun x y => out1 (g_equal x y))
  | ONot i => call1 es i (fun x => out1 (b_not x))
  | OAnd i j => call2 es i j (fun x y => out1 (b_and x y))
  | OOr i j => call2 es i j (fun x y => out1 (b_or x y))
  | OXor i j => call2 es i j (fun x y => out1 (b_xor x y))
  | OSelect c i j => call1 es c (fun t => call2 es i j (fun x y => out1 (selection t x y)))
  | OBit i k => call1 es i (fun x => bits <- split x ;; out1 (blift (oindex bits k)))
  | AZero i => call1 es i (fun x => out0 (assert_zero x))
  | AEqual i j => call2 es i j (fun x y => out0 (assert_equal x y))
  | ANonzero i => call1 es i (fun x => out0 (assert_nonzero x))
  | ANonequal i j => call2 es i j (fun x y => out0 (assert_nonequal x y))
  | ABit i => call1 es i (fun x => out0 (assert_boolean x))
  | ATrue i => call1 es i (fun x => out0 (assert_true x))
  | AFalse i => call1 es i (fun x => out0 (assert_false x))
  | ALess i j => call2 es i j (fun x y => out0 (assert_lt x y))
  | AGreater i j => call2 es i j (fun x y => out0 (assert_gt x y))
  end.

Fixpoint compile (p : program) (es : list expr) : B (list expr) :=
  match p with
  | [] => bret es
  | o :: p' => new <- cop es o ;; compile p' (es ++ new)
  end.
End Meaning.

(** Which results are known to be bits: what Rust's type BooleanExpression tracks. *)
Definition isbit (t : list bool) (i : nat) : bool := nth i t false.
Fixpoint mark (i : nat) (t : list bool) : list bool :=
  match t, i with
  | [], _ => []
  | _ :: t', O => true :: t'
  | b :: t', S i' => b :: mark i' t'
  end.
Definition check1 (t : list bool) (o : op) : option (list bool) :=
  match o with
  | ONonzero _ | OIsZero _ | OEqual _ _ | OBit _ _ => Some (t ++ [true])
  | ONot i => when (isbit t i) (t ++ [true])
  | OAnd i j | OOr i j | OXor i j => when (isbit t i && isbit t j) (t ++ [true])
  | OSelect c i j => when (isbit t c) (t ++ [isbit t i && isbit t j])
  | ABit i => Some (mark i t)
  | AZero _ | AEqual _ _ | ANonzero _ | ANonequal _ _ | ATrue _ | AFalse _ | ALess _ _ | AGreater _ _ => Some t
  | _ => Some (t ++ [false])
  end.
Fixpoint check (p : program) (t : list bool) : bool :=
  match p with
  | [] => true
  | o :: p' => match check1 t o with Some t' => check p' t' | None => false end
  end.
