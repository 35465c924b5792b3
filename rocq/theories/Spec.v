(** Specification vocabulary used in the statements of the theorems.  Everything here is defined
    from integers and lists, independently of how the model computes. *)
From Coq Require Import ZArith List Bool Arith.
From Verif Require Import Base FieldM ExprM BuilderM.
Import ListNotations.
Open Scope Z_scope.

(** A full witness vector: one integer per wire.  Wire 0 is the constant wire. *)
Definition witness := nat -> Z.

Section Spec.
Context {F : Field}.

(** A witness vector is well-formed if all entries are field elements and the constant wire is 1.
    Nothing else is assumed about it: it may have been chosen by a malicious prover. *)
Definition wf_witness (w : witness) : Prop := w ONE = 1 /\ forall k, 0 <= w k < order.

(** Integer value of a linear combination. *)
Definition lin (w : witness) (e : expr) : Z :=
  fold_right (fun kc s => w (fst kc) * snd kc + s) 0 e.

(** Value of an expression under a witness: the linear combination modulo the order. *)
Definition ev (w : witness) (e : expr) : Z := lin w e mod order.

(** A rank-1 constraint holds. *)
Definition sat1 (w : witness) (c : constraint) : Prop :=
  (ev w (c_a c) * ev w (c_b c)) mod order = ev w (c_c c).

(** All constraints of a builder hold. *)
Definition sat (w : witness) (b : builder) : Prop := Forall (sat1 w) (constraints b).

(** Value of an expression is a bit. *)
Definition is_bit (z : Z) : Prop := z = 0 \/ z = 1.

(** The integer denoted by a list of bits, least significant first. *)
Fixpoint bits_val (l : list Z) : Z :=
  match l with
  | [] => 0
  | b :: l' => b + 2 * bits_val l'
  end.

(** All bits of a binary expression are 0 or 1. *)
Definition bin_ok (w : witness) (x : binexpr) : Prop := Forall (fun e => is_bit (ev w e)) x.

(** The unsigned integer a binary expression denotes. *)
Definition bin_val (w : witness) (x : binexpr) : Z := bits_val (map (ev w) x).

(** The leaf reached in a tree over [n] items by following the bits of [i]: pairs are combined level by
    level, and an unpaired last node passes through whatever its bit is. *)
Fixpoint tree_pos (levels n i : nat) : nat :=
  match levels with
  | O => 0
  | S l => let k := tree_pos l ((n + 1) / 2) (i / 2) in
           if (2 * k + i mod 2 <? n)%nat then (2 * k + i mod 2)%nat else (2 * k)%nat
  end.

(** Partial values (as held by WireValues) that agree with a witness. *)
Definition agrees (v : values) (w : witness) : Prop :=
  forall k x, m_get k v = Some x -> x = w k.

(** Every wire of an expression is among the wires of the list. *)
Definition over (P : nat -> Prop) (e : expr) : Prop := forall k, In k (e_deps e) -> P k.

(** The values a user supplies: wire 0 is the constant 1, wires 1..n hold [vals], and no other wire
    has a value yet. *)
Definition input_values (vals : list Z) (v : values) : Prop :=
  m_get ONE v = Some 1 /\
  (forall i, (i < length vals)%nat -> m_get (S i) v = Some (nth i vals 0)) /\
  (forall k, (length vals < k)%nat -> m_get k v = None).

(** The same as a total vector. *)
Definition input_witness (vals : list Z) : witness :=
  fun k => match k with O => 1 | S i => nth i vals 0 end.

(** Shape of the soundness statements: whatever builder the call is made on, if it does not panic then
    in every well-formed witness satisfying all resulting constraints the returned value is as stated. *)
Definition sound_call {A} (m : B A) (R : witness -> A -> Prop) : Prop :=
  forall b r b' w, m b = Ok (r, b') -> wf_witness w -> sat w b' -> R w r.

(** Shape of the completeness statements: on a builder with one input wire per value, the call does not
    panic, and executing the built gadget on the values reports that all constraints are satisfied,
    keeps the given values and leaves values as stated. *)
Definition runs {A} (vals : list Z) (m : B A) (R : A -> values -> Prop) : Prop :=
  forall v0, input_values vals v0 ->
  exists ws b0 r b' v, b_wires (length vals) b_new = Ok (ws, b0) /\ m b0 = Ok (r, b') /\
    execute (build b') v0 = Ok (true, v) /\
    (forall k x, m_get k v0 = Some x -> m_get k v = Some x) /\ R r v.

(** Constraints mention only wires that were handed out. *)
Definition wf_builder (b : builder) : Prop :=
  (0 < next b)%nat /\
  Forall (fun c => over (fun k => (k < next b)%nat) (c_a c) /\ over (fun k => (k < next b)%nat) (c_b c) /\
                   over (fun k => (k < next b)%nat) (c_c c)) (constraints b).

(** Shape of the satisfiability statements: on any builder and any satisfying witness of what it
    holds so far that meets [Pre], the call does not panic and the witness can be extended to the new
    wires so that all constraints, including the new ones, hold and the result is as stated. *)
Definition sat_call {A} (m : B A) (Pre : nat -> witness -> Prop) (R : witness -> A -> Prop) : Prop :=
  forall b w, wf_builder b -> wf_witness w -> sat w b -> Pre (next b) w ->
  exists r b' w', m b = Ok (r, b') /\ wf_builder b' /\ wf_witness w' /\
    (forall k, (k < next b)%nat -> w' k = w k) /\ sat w' b' /\ R w' r.

(** The expression mentions only wires below [n]. *)
Definition below (n : nat) (e : expr) : Prop := over (fun k => (k < n)%nat) e.

(** Inputs are field elements; an expression mentions only the constant and the input wires. *)
Definition good_inputs (vals : list Z) : Prop := Forall (fun x => 0 <= x < order) vals.
Definition on_inputs (vals : list Z) (e : expr) : Prop := over (fun k => (k <= length vals)%nat) e.
Definition on_inputs_all (vals : list Z) (es : list expr) : Prop := Forall (on_inputs vals) es.

End Spec.
