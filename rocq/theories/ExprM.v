(** Model of /repo/src/wire.rs, expression.rs and wire_values.rs. *)
From Coq Require Import ZArith List Bool Arith.
From Verif Require Import Base FieldM.
Import ListNotations.
Open Scope Z_scope.

(** wire.rs 8-12: [Wire { index: u32 }].  Simplification: indices are unbounded naturals. *)
Notation wire := nat (only parsing).

(** wire.rs 17 [Wire::ONE]. *)
Definition ONE : wire := 0%nat.

(** wire.rs 20-33 [Ord for Wire]: ascending index, except that ONE is the greatest. *)
Definition wire_cmp (a b : wire) : comparison :=
  if (a =? ONE)%nat && (b =? ONE)%nat then Eq
  else if (a =? ONE)%nat then Gt
  else if (b =? ONE)%nat then Lt
  else Nat.compare a b.

(** std BTreeMap<Wire, _>: an association list kept sorted by [wire_cmp]. *)
Notation wmap V := (list (nat * V)) (only parsing).

(** BTreeMap::get. *)
Fixpoint m_get {V} (k : wire) (m : wmap V) : option V :=
  match m with
  | [] => None
  | (k', v) :: m' => if (k =? k')%nat then Some v else m_get k m'
  end.

(** BTreeMap entry update: [upd (old value)] becomes the value of [k]; the key is inserted in
    order if it is absent. *)
Fixpoint m_alter {V} (upd : option V -> V) (k : wire) (m : wmap V) : wmap V :=
  match m with
  | [] => [(k, upd None)]
  | (k', v) :: m' =>
    match wire_cmp k k' with
    | Eq => (k', upd (Some v)) :: m'
    | Lt => (k, upd None) :: m
    | Gt => (k', v) :: m_alter upd k m'
    end
  end.

(** BTreeMap::insert. *)
Definition m_insert {V} (k : wire) (v : V) (m : wmap V) : wmap V := m_alter (fun _ => v) k m.

(** BTreeMap::contains_key. *)
Definition m_mem {V} (k : wire) (m : wmap V) : bool :=
  match m_get k m with Some _ => true | None => false end.

(** [iter().collect::<BTreeMap>()]: later duplicates replace earlier ones. *)
Definition m_collect {V} (l : list (wire * V)) : wmap V :=
  fold_left (fun m kv => m_insert (fst kv) (snd kv) m) l [].

(** wire_values.rs 14-17 [WireValues]. *)
Notation values := (list (nat * Z)) (only parsing).

(** wire_values.rs 20-24 [new]. *)
Definition v_new : values := m_insert ONE fone [].

(** wire_values.rs 30-33 [get]: panics without a value. *)
Definition v_get (v : values) (k : wire) : outcome Z := ounwrap (m_get k v).

(** wire_values.rs 39-42 [set]: panics if the wire already had a value. *)
Definition v_set (k : wire) (x : Z) (v : values) : outcome values :=
  match m_get k v with
  | Some _ => Panic
  | None => Ok (m_insert k x v)
  end.

(** wire_values.rs 44-46 [set_boolean]. *)
Definition v_set_boolean (k : wire) (b : bool) (v : values) : outcome values :=
  v_set k (fbool b) v.

(** wire_values.rs 58-60 [contains] (and 62-64 [contains_boolean]). *)
Definition v_contains (v : values) (k : wire) : bool := m_mem k v.

(** wire_values.rs 66-68 [contains_all]. *)
Definition v_contains_all (v : values) (ks : list wire) : bool := forallb (v_contains v) ks.

(** wire_values.rs 48-56 [set_binary_unsigned]; a BinaryWire is the list of its bit wires. *)
Definition v_set_binary_unsigned (bits : list wire) (x : Z) (v : values) : outcome values :=
  let! _ := oassert (zbits x <=? length bits)%nat in
  ofold (fun v' ik => v_set_boolean (snd ik) (zbit x (fst ik)) v') (enumerate bits) v.

(** expression.rs 28-33 [Expression]: wire coefficients. *)
Notation expr := (list (nat * Z)) (only parsing).

(** expression.rs 461-472 [BooleanExpression]: a wrapper around Expression; [new_unsafe] and
    [expression()] are the identity here. *)
Notation bexpr := (list (nat * Z)) (only parsing).

(** expression.rs 534-537 [BinaryExpression]: bits from least to most significant. *)
Notation binexpr := (list (list (nat * Z))) (only parsing).

Section Expr.
Context {F : Field}.

(** expression.rs 37-42 [Expression::new]: drops zero coefficients. *)
Definition e_new (m : wmap Z) : expr := filter (fun kv => negb (snd kv =? 0)) m.

(** expression.rs 49-55 [sum_of_wires]: collects (wire, 1) pairs into a map. *)
Definition e_sum_of_wires (ws : list wire) : expr := m_collect (map (fun w => (w, fone)) ws).

(** [*merged.entry(wire).or_insert_with(zero) += c] (expression.rs 63 and 227). *)
Definition m_add (k : wire) (c : Z) (m : wmap Z) : wmap Z :=
  m_alter (fun o => fadd (match o with Some v => v | None => fzero end) c) k m.

(** expression.rs 59-67 [sum_of_expressions]. *)
Definition e_sum (es : list expr) : expr :=
  e_new (fold_left (fun m e => fold_left (fun m' kc => m_add (fst kc) (snd kc) m') e m) es []).

(** expression.rs 69-71 [zero]. *)
Definition e_zero : expr := [].

(** expression.rs 112-117 [From<Wire>]. *)
Definition e_wire (w : wire) : expr := e_new (m_collect [(w, fone)]).

(** expression.rs 125-130 [From<Element>]. *)
Definition e_const (c : Z) : expr := e_new (m_collect [(ONE, c)]).

(** expression.rs 144-148 and the other unsigned [From] instances 138-172. *)
Definition e_from_uint (n : Z) : outcome expr := let! c := el_from n in Ok (e_const c).

(** expression.rs 174-178 [From<bool>]. *)
Definition e_bool (b : bool) : expr := e_const (fbool b).

(** expression.rs 73-75 [one] (order >= 2, see [fone]). *)
Definition e_one : expr := e_const fone.

(** expression.rs 82-84 [num_terms]. *)
Definition e_num_terms (e : expr) : nat := length e.

(** expression.rs 87-93 [as_constant]. *)
Definition e_as_constant (e : expr) : option Z :=
  if (e_num_terms e =? 1)%nat then m_get ONE e else None.

(** expression.rs 96-98 [dependencies]. *)
Definition e_deps (e : expr) : list wire := map fst e.

(** expression.rs 100-103 [evaluate]: panics if a wire has no value. *)
Definition e_evaluate (v : values) (e : expr) : outcome Z :=
  ofold (fun s kc => let! x := v_get v (fst kc) in Ok (fadd s (fmul x (snd kc)))) e fzero.

(** expression.rs 314-323 [Mul<&Element>]. *)
Definition e_scale (e : expr) (c : Z) : expr :=
  e_new (map (fun kv => (fst kv, fmul (snd kv) c)) e).

(** expression.rs 333-342 [Mul<u128>]: the constant is range-checked per coefficient. *)
Definition e_scale_u128 (e : expr) (n : Z) : outcome expr :=
  let! l := omap (fun kv => let! c := fmul_u128 (snd kv) n in Ok (fst kv, c)) e in
  Ok (e_new l).

(** expression.rs 386-395 [Div<&Element>]: divides every coefficient (panics on division by zero
    unless the expression is zero). *)
Definition e_div (e : expr) (c : Z) : outcome expr :=
  let! l := omap (fun kv => let! q := fdiv (snd kv) c in Ok (fst kv, q)) e in
  Ok (e_new l).

(** expression.rs 180-186 [Neg]. *)
Definition e_neg (e : expr) : expr := e_scale e (fopp fone).

(** expression.rs 78-80 [neg_one]. *)
Definition e_neg_one : expr := e_neg e_one.

(** expression.rs 220-231 [Add]. *)
Definition e_add (a b : expr) : expr :=
  e_new (fold_left (fun m kc => m_add (fst kc) (snd kc) m) b a).

(** expression.rs 270-276 [Sub]. *)
Definition e_sub (a b : expr) : expr := e_add a (e_neg b).

(** expression.rs 489-495 [BooleanExpression::evaluate]. *)
Definition be_evaluate (v : values) (e : bexpr) : outcome bool :=
  let! x := e_evaluate v e in
  if x =? 0 then Ok false else if x =? 1 then Ok true else Panic.

(** expression.rs 552-555 [truncate], 559-563 [truncated]. *)
Definition bin_truncate (x : binexpr) (l : nat) : outcome binexpr :=
  let! _ := oassert (l <=? length x)%nat in Ok (firstn l x).

(** expression.rs 566-571 [pad], 574-578 [padded]. *)
Definition bin_pad (x : binexpr) (l : nat) : outcome binexpr :=
  let! _ := oassert (length x <=? l)%nat in Ok (x ++ repeat (e_bool false) (l - length x)).

(** expression.rs 580-584 [chunks]. *)
Definition bin_chunks (x : binexpr) (n : nat) : outcome (list binexpr) := chunks n x.

(** expression.rs 600-603 [join_allowing_overflow]. *)
Definition bin_join_allowing_overflow (x : binexpr) : outcome expr :=
  ofold (fun s ib => let! c := fshl fone (fst ib) in Ok (e_add s (e_scale (snd ib) c)))
        (enumerate x) e_zero.

(** expression.rs 592-596 [join]. *)
Definition bin_join (x : binexpr) : outcome expr :=
  let! _ := oassert (2 ^ Z.of_nat (length x) <=? order) in
  bin_join_allowing_overflow x.

(** expression.rs 605-611 [dependencies]: through a BTreeSet (sorted, without duplicates). *)
Definition bin_deps (x : binexpr) : list wire :=
  map fst (fold_left (fun s w => m_insert w tt s) (flat_map e_deps x) []).

(** expression.rs 613-616 [evaluate]. *)
Definition bin_evaluate (v : values) (x : binexpr) : outcome Z :=
  ofold (fun s ib => let! b := be_evaluate v (snd ib) in
                     Ok (if b : bool then s + 2 ^ Z.of_nat (fst ib) else s))
        (enumerate x) 0.

(** expression.rs 618-621 [concat]. *)
Definition bin_concat (xs : list binexpr) : binexpr := concat xs.

(** expression.rs 504-514, 630-638 [From<&BooleanWire>], [From<&BinaryWire>]. *)
Definition bin_of_wires (ws : list wire) : binexpr := map e_wire ws.

(** expression.rs 646-655 [From<BigUint>]. *)
Definition bin_from (x : Z) : binexpr := map (fun i => e_bool (zbit x i)) (seq 0 (zbits x)).

(** expression.rs 586-588 [add_most_significant]. *)
Definition bin_add_most_significant (x : binexpr) (b : bexpr) : binexpr := x ++ [b].

End Expr.
