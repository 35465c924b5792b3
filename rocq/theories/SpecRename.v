(** The same circuit on other wires: what it means that two builder calls differ only in the wires they use.
    [W k k'] says that wire [k] on one side plays the part of wire [k'] on the other. *)
From Coq Require Import ZArith List Bool Arith Sorted.
From Verif Require Import Base FieldM ExprM BuilderM CryptoM ExprP.
Import ListNotations.
Open Scope Z_scope.

(** A correspondence of wires: one to one, and the constant wire corresponds to itself. *)
Definition one_to_one (W : nat -> nat -> Prop) : Prop :=
  W ONE ONE /\ forall a a' b b', W a a' -> W b b' -> (a = b <-> a' = b').

Section Renamed.
Variable W : nat -> nat -> Prop.

(** Expressions (and other maps on wires): corresponding wires have the same coefficient, and no other wires occur. *)
Definition same_map {V} (x x' : list (nat * V)) : Prop :=
  StronglySorted wire_lt (map fst x) /\ StronglySorted wire_lt (map fst x') /\
  (forall k k', W k k' -> m_get k x = m_get k' x') /\
  (forall k, m_get k x <> None -> exists k', W k k') /\
  (forall k', m_get k' x' <> None -> exists k, W k k').
Definition same_expr (x x' : expr) : Prop := same_map x x'.
(** Values: corresponding wires have the same value or both none; other wires may have any. *)
Definition same_values (v v' : values) : Prop := forall k k', W k k' -> m_get k v = m_get k' v'.

(** The same outcome: both succeed with related results, both panic, or both run out of fuel. *)
Definition same_outcome {A A'} (R : A -> A' -> Prop) (o : outcome A) (o' : outcome A') : Prop :=
  match o, o' with
  | Ok a, Ok a' => R a a'
  | Panic, Panic => True
  | NoFuel, NoFuel => True
  | _, _ => False
  end.

Definition same_wires (d d' : list nat) : Prop :=
  (forall k, In k d -> exists k', W k k' /\ In k' d') /\ (forall k', In k' d' -> exists k, W k k' /\ In k d).
Definition same_constraint (c c' : constraint) : Prop :=
  same_expr (c_a c) (c_a c') /\ same_expr (c_b c) (c_b c') /\ same_expr (c_c c) (c_c c').
(** Generators: they wait for corresponding wires, and take corresponding values to corresponding values. *)
Definition same_generator (g g' : wgen) : Prop :=
  same_wires (g_inputs g) (g_inputs g') /\
  forall v v', same_values v v' -> same_outcome same_values (g_run g v) (g_run g' v').

(** The wires the two builders hand out next correspond. *)
Definition same_fresh (b b' : builder) : Prop := forall i, W (next b + i)%nat (next b' + i)%nat.

(** Two calls that do the same on corresponding wires: from any builders whose fresh wires correspond, both have the same
    outcome; they add the same number of wires, corresponding constraints and corresponding generators, in the same order. *)
Definition same_call {A A'} (R : A -> A' -> Prop) (m : B A) (m' : B A') : Prop :=
  forall b b', same_fresh b b' ->
  same_outcome (fun rb rb' =>
      R (fst rb) (fst rb') /\
      exists n cs cs' gs gs',
        snd rb = mkB (next b + n) (constraints b ++ cs) (generators b ++ gs) /\
        snd rb' = mkB (next b' + n) (constraints b' ++ cs') (generators b' ++ gs') /\
        Forall2 same_constraint cs cs' /\ Forall2 same_generator gs gs')
    (m b) (m' b').
End Renamed.

(** A gadget that cannot tell on which wires it is placed. *)
Definition placeable (m : list expr -> B (list expr)) : Prop :=
  forall W, one_to_one W -> forall es es', Forall2 (same_expr W) es es' -> same_call W (Forall2 (same_expr W)) (m es) (m es').
Definition placeable_cipher (c : block_cipher) : Prop :=
  forall W, one_to_one W -> forall x x' y y', same_expr W x x' -> same_expr W y y' ->
  same_call W (same_expr W) (encrypt c x y) (encrypt c x' y') /\ same_call W (same_expr W) (decrypt c x y) (decrypt c x' y').
Definition placeable_compression (m : compression) : Prop :=
  forall W, one_to_one W -> forall x x' y y', same_expr W x x' -> same_expr W y y' -> same_call W (same_expr W) (m x y) (m x' y').
