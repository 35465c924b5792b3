(** Outcomes, the panic monad and list helpers shared by the whole model.
    Nothing here models code of /repo by itself; [Panic] stands for any Rust panic
    (assert!, unwrap on None, index out of range, usize underflow, unimplemented!). *)
From Coq Require Import ZArith List Bool Arith.
Import ListNotations.
Open Scope Z_scope.

(** Result of a computation: a value, a Rust panic, or (only for loops that are not structurally
    bounded in the source) exhaustion of the model's fuel.  Theorems show [NoFuel] does not occur. *)
Inductive outcome (A : Type) : Type :=
| Ok (a : A)
| Panic
| NoFuel.
Arguments Ok {A} a.
Arguments Panic {A}.
Arguments NoFuel {A}.

Definition obind {A B} (m : outcome A) (k : A -> outcome B) : outcome B :=
  match m with
  | Ok a => k a
  | Panic => Panic
  | NoFuel => NoFuel
  end.

Notation "'let!' x := m 'in' k" := (obind m (fun x => k))
  (at level 200, x name, m at level 100, k at level 200, right associativity).
Notation "'let!' ' p := m 'in' k" := (obind m (fun x => let 'p := x in k))
  (at level 200, p strict pattern, m at level 100, k at level 200, right associativity).

(** Rust [assert!(b)]. *)
Definition oassert (b : bool) : outcome unit := if b then Ok tt else Panic.

(** Rust [Option::unwrap]. *)
Definition ounwrap {A} (o : option A) : outcome A :=
  match o with Some a => Ok a | None => Panic end.

(** Rust indexing [l[i]]. *)
Definition oindex {A} (l : list A) (i : nat) : outcome A := ounwrap (nth_error l i).

(** Rust usize subtraction, which panics on underflow (debug builds). *)
Definition osub (a b : nat) : outcome nat := if (b <=? a)%nat then Ok (a - b)%nat else Panic.

(** [iter().map(f).collect()] for a panicking [f]. *)
Fixpoint omap {A B} (f : A -> outcome B) (l : list A) : outcome (list B) :=
  match l with
  | [] => Ok []
  | a :: l' => let! b := f a in let! bs := omap f l' in Ok (b :: bs)
  end.

(** [for x in l { s = f(s, x) }] for a panicking body. *)
Fixpoint ofold {A S} (f : S -> A -> outcome S) (l : list A) (s : S) : outcome S :=
  match l with
  | [] => Ok s
  | a :: l' => let! s' := f s a in ofold f l' s'
  end.

(** [slice::chunks(n)] on a list; [fuel] only has to be at least the length. *)
Fixpoint chunks_fuel {A} (fuel n : nat) (l : list A) : list (list A) :=
  match fuel with
  | O => []
  | S f => match l with
           | [] => []
           | _ => firstn n l :: chunks_fuel f n (skipn n l)
           end
  end.

(** [slice::chunks(n)]: panics if [n = 0] (Rust std). *)
Definition chunks {A} (n : nat) (l : list A) : outcome (list (list A)) :=
  if (n =? 0)%nat then Panic else Ok (chunks_fuel (length l) n l).

(** Index every element: [enumerate]. *)
Definition enumerate {A} (l : list A) : list (nat * A) := combine (seq 0 (length l)) l.

(** [BigUint::bits]: number of bits of a non-negative integer, 0 for 0. *)
Definition zbits (z : Z) : nat := if z <=? 0 then 0%nat else S (Z.to_nat (Z.log2 z)).

(** [((z >> i) & 1).is_one()]. *)
Definition zbit (z : Z) (i : nat) : bool := Z.testbit z (Z.of_nat i).

Definition b2z (b : bool) : Z := if b then 1 else 0.
