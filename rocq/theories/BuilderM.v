(** Model of /repo/src/constraint.rs, witness_generator.rs, gadget.rs, gadget_builder.rs,
    field_arithmetic.rs, boolean_algebra.rs, splitting.rs, comparisons.rs. *)
From Coq Require Import ZArith List Bool Arith.
From Verif Require Import Base FieldM ExprM.
Import ListNotations.
Open Scope Z_scope.

(** constraint.rs 8-14 [Constraint]: a * b = c. *)
Record constraint := mkC { c_a : expr; c_b : expr; c_c : expr }.

(** witness_generator.rs 10-14 [WitnessGenerator]: declared inputs and a closure that mutates the
    wire values (state passing; a panic inside the closure is an outcome). *)
Record wgen := mkG { g_inputs : list wire; g_run : values -> outcome values }.

(** gadget.rs 10-15 [Gadget]. *)
Record gadget := mkGadget { gd_constraints : list constraint; gd_generators : list wgen }.

(** gadget_builder.rs 12-16 [GadgetBuilder]. *)
Record builder := mkB { next : nat; constraints : list constraint; generators : list wgen }.

(** Builder methods: state and panic. *)
Definition B (A : Type) := builder -> outcome (A * builder).
Definition bret {A} (a : A) : B A := fun b => Ok (a, b).
Definition bbind {A C} (m : B A) (k : A -> B C) : B C :=
  fun b => match m b with
           | Ok (a, b') => k a b'
           | Panic => Panic
           | NoFuel => NoFuel
           end.
Definition blift {A} (o : outcome A) : B A := fun b => let! a := o in Ok (a, b).
Notation "x <- m ;; k" := (bbind m (fun x => k))
  (at level 61, m at next level, right associativity).
Notation "' p <- m ;; k" := (bbind m (fun x => let 'p := x in k))
  (at level 61, p strict pattern, m at next level, right associativity).
Notation "m ;; k" := (bbind m (fun _ => k)) (at level 61, right associativity).

(** [iter().map(|x| self.method(x)).collect()]. *)
Fixpoint bmap {A C} (f : A -> B C) (l : list A) : B (list C) :=
  match l with
  | [] => bret []
  | a :: l' => c <- f a ;; cs <- bmap f l' ;; bret (c :: cs)
  end.

(** [for x in l { s = ...self.method... }]. *)
Fixpoint bfold {A S} (f : S -> A -> B S) (l : list A) (s : S) : B S :=
  match l with
  | [] => bret s
  | a :: l' => s' <- f s a ;; bfold f l' s'
  end.

Section Builder.
Context {F : Field}.

(** constraint.rs 17-22 [Constraint::evaluate]. *)
Definition c_evaluate (v : values) (c : constraint) : outcome bool :=
  let! a := e_evaluate v (c_a c) in
  let! b := e_evaluate v (c_b c) in
  let! r := e_evaluate v (c_c c) in
  Ok (fmul a b =? r).

(** gadget.rs 33-41: one pass of [retain] over the pending generators: returns the generators
    kept, the values and whether progress was made. *)
Fixpoint exec_pass (pending : list wgen) (v : values) : outcome (list wgen * values * bool) :=
  match pending with
  | [] => Ok ([], v, false)
  | g :: gs =>
    if v_contains_all v (g_inputs g) then
      let! v' := g_run g v in
      let! '(kept, v'', _) := exec_pass gs v' in
      Ok (kept, v'', true)
    else
      let! '(kept, v', progress) := exec_pass gs v in
      Ok (g :: kept, v', progress)
  end.

(** gadget.rs 31-46: the loop, until a pass makes no progress. *)
Fixpoint exec_loop (fuel : nat) (pending : list wgen) (v : values)
  : outcome (list wgen * values) :=
  match fuel with
  | O => NoFuel
  | S f =>
    let! '(kept, v', progress) := exec_pass pending v in
    if progress : bool then exec_loop f kept v' else Ok (kept, v')
  end.

(** [Iterator::all] with a panicking predicate: stops at the first false. *)
Fixpoint oall {A} (f : A -> outcome bool) (l : list A) : outcome bool :=
  match l with
  | [] => Ok true
  | a :: l' => let! b := f a in if b : bool then oall f l' else Ok false
  end.

(** gadget.rs 24-51 [Gadget::execute]: every pass with progress removes a generator, so the number
    of generators plus one is enough fuel (proved). *)
Definition execute (g : gadget) (v : values) : outcome (bool * values) :=
  let! '(kept, v') := exec_loop (S (length (gd_generators g))) (gd_generators g) v in
  let! _ := oassert (length kept =? 0)%nat in
  let! ok := oall (c_evaluate v') (gd_constraints g) in
  Ok (ok, v').

(** gadget_builder.rs 22-28 [new]. *)
Definition b_new : builder := mkB 1 [] [].

(** gadget_builder.rs 161-166 [build]. *)
Definition build (b : builder) : gadget := mkGadget (constraints b) (generators b).

(** gadget_builder.rs 31-35 [wire].  Simplification: no u32 overflow. *)
Definition b_wire : B wire := fun b =>
  Ok (next b, mkB (S (next b)) (constraints b) (generators b)).

(** gadget_builder.rs 46-48 [wires]. *)
Definition b_wires (n : nat) : B (list wire) := bmap (fun _ => b_wire) (seq 0 n).

(** gadget_builder.rs 56-59 [generator]. *)
Definition b_generator (deps : list wire) (run : values -> outcome values) : B unit := fun b =>
  Ok (tt, mkB (next b) (constraints b) (generators b ++ [mkG deps run])).

(** gadget_builder.rs 113-119 [assert_product]. *)
Definition assert_product (x y z : expr) : B unit := fun b =>
  Ok (tt, mkB (next b) (constraints b ++ [mkC x y z]) (generators b)).

(** gadget_builder.rs 122-125 [assert_boolean]. *)
Definition assert_boolean (x : expr) : B bexpr :=
  assert_product x (e_sub x e_one) e_zero ;; bret x.

(** gadget_builder.rs 128-130 [assert_equal]. *)
Definition assert_equal (x y : expr) : B unit := assert_product x e_one y.

(** gadget_builder.rs 139-141 [assert_zero]. *)
Definition assert_zero (x : expr) : B unit := assert_equal x e_zero.

(** gadget_builder.rs 151-153 [assert_true]. *)
Definition assert_true (x : bexpr) : B unit := assert_equal x e_one.

(** gadget_builder.rs 156-158 [assert_false]. *)
Definition assert_false (x : bexpr) : B unit := assert_equal x e_zero.

(** gadget_builder.rs 38-42 [boolean_wire]. *)
Definition boolean_wire : B wire :=
  w <- b_wire ;; assert_boolean (e_wire w) ;; bret w.

(** gadget_builder.rs 51-53 [binary_wire]. *)
Definition binary_wire (n : nat) : B (list wire) := bmap (fun _ => boolean_wire) (seq 0 n).

(** field_arithmetic.rs 11-36 [product]. *)
Definition product (x y : expr) : B expr :=
  match e_as_constant x with
  | Some c => bret (e_scale y c)
  | None =>
    match e_as_constant y with
    | Some c => bret (e_scale x c)
    | None =>
      w <- b_wire ;;
      assert_product x y (e_wire w) ;;
      b_generator (e_deps x ++ e_deps y) (fun v =>
        let! a := e_evaluate v x in
        let! b := e_evaluate v y in
        v_set w (fmul a b) v) ;;
      bret (e_wire w)
    end
  end.

(** field_arithmetic.rs 39-59 [exponentiation]: the loop state is (product_exp, last_square). *)
Definition exponentiation (x : expr) (p : Z) : B expr :=
  st <- bfold (fun st i =>
          square <- (if (i =? 0)%nat then bret x else product (snd st) (snd st)) ;;
          prod <- (if el_bit p i then product (fst st) square else bret (fst st)) ;;
          bret (prod, square))
        (seq 0 (el_bits p)) (e_one, e_zero) ;;
  bret (fst st).

(** field_arithmetic.rs 63-78 [inverse]. *)
Definition inverse (x : expr) : B expr :=
  x_inv <- b_wire ;;
  assert_product x (e_wire x_inv) e_one ;;
  b_generator (e_deps x) (fun v =>
    let! a := e_evaluate v x in
    let! i := finv a in
    v_set x_inv i v) ;;
  bret (e_wire x_inv).

(** gadget_builder.rs 144-148 [assert_nonzero]. *)
Definition assert_nonzero (x : expr) : B unit := inverse x ;; bret tt.

(** gadget_builder.rs 133-136 [assert_nonequal]. *)
Definition assert_nonequal (x y : expr) : B unit := assert_nonzero (e_sub x y).

(** gadget_builder.rs 73-103 [nonzero].  (Sets m before y, like the source.) *)
Definition nonzero (x : expr) : B bexpr :=
  y <- b_wire ;;
  m <- b_wire ;;
  assert_product x (e_wire m) (e_wire y) ;;
  assert_product (e_sub e_one (e_wire y)) x e_zero ;;
  b_generator (e_deps x) (fun v =>
    let! xv := e_evaluate v x in
    let yv := if negb (xv =? 0) then fone else fzero in
    let! mv := (if negb (xv =? 0) then fdiv yv xv else Ok fone) in
    let! v' := v_set m mv v in
    v_set y yv v') ;;
  bret (e_wire y).

(** boolean_algebra.rs 9-11 [not]. *)
Definition b_not (x : bexpr) : B bexpr := bret (e_sub e_one x).

(** boolean_algebra.rs 14-18 [and]. *)
Definition b_and (x y : bexpr) : B bexpr := product x y.

(** boolean_algebra.rs 21-28 [or]. *)
Definition b_or (x y : bexpr) : B bexpr :=
  xy <- product x y ;; bret (e_sub (e_add x y) xy).

(** boolean_algebra.rs 31-37 [xor]. *)
Definition b_xor (x y : bexpr) : B bexpr :=
  xy <- product x y ;;
  xy2 <- blift (e_scale_u128 xy 2) ;;
  bret (e_sub (e_add x y) xy2).

(** gadget_builder.rs 67-70 [zero]. *)
Definition g_zero (x : expr) : B bexpr := nz <- nonzero x ;; b_not nz.

(** gadget_builder.rs 62-64 [equal]. *)
Definition g_equal (x y : expr) : B bexpr := g_zero (e_sub x y).

(** gadget_builder.rs 106-110 [selection]. *)
Definition selection (c : bexpr) (x y : expr) : B expr :=
  xy <- product c (e_sub x y) ;; bret (e_add y xy).

(** field_arithmetic.rs 81-96 [inverse_or_zero]. *)
Definition inverse_or_zero (x : expr) : B expr :=
  r <- b_wire ;;
  nz <- nonzero x ;;
  assert_product x (e_wire r) nz ;;
  b_generator (e_deps x) (fun v =>
    let! xv := e_evaluate v x in
    let! i := finv_or_zero xv in
    v_set r i v) ;;
  bret (e_wire r).

(** field_arithmetic.rs 100-103 [quotient]. *)
Definition quotient (x y : expr) : B expr :=
  y_inv <- inverse y ;; product x y_inv.

(** field_arithmetic.rs 111-126 [quotient_unsafe]: no constraint at all. *)
Definition quotient_unsafe (x y : expr) : B expr :=
  q <- b_wire ;;
  b_generator (e_deps x ++ e_deps y) (fun v =>
    let! xv := e_evaluate v x in
    let! yv := e_evaluate v y in
    let! _ := oassert (negb (yv =? 0)) in
    let! qv := fdiv xv yv in
    v_set q qv v) ;;
  bret (e_wire q).

(** splitting.rs 33-52 [split_without_range_check]. *)
Definition split_without_range_check (x : expr) (bits : nat) : B binexpr :=
  ws <- binary_wire bits ;;
  let bin := bin_of_wires ws in
  weighted <- blift (bin_join_allowing_overflow bin) ;;
  assert_equal x weighted ;;
  b_generator (e_deps x) (fun v =>
    let! xv := e_evaluate v x in
    let! _ := oassert (el_bits xv <=? bits)%nat in
    ofold (fun v' i => let! w := oindex ws i in v_set_boolean w (el_bit xv i) v')
          (seq 0 bits) v) ;;
  bret bin.

(** splitting.rs 21-23 [split_allowing_ambiguity]. *)
Definition split_allowing_ambiguity (x : expr) : B binexpr := split_without_range_check x max_bits.

(** splitting.rs 28-31 [split_bounded]. *)
Definition split_bounded (x : expr) (bits : nat) : B binexpr :=
  blift (oassert (bits <? max_bits)%nat) ;; split_without_range_check x bits.

(** comparisons.rs 223-226 [cmp_constraints]. *)
Definition cmp_constraints (operand_bits chunk_bits : nat) : nat :=
  let n := ((operand_bits + chunk_bits - 1) / chunk_bits)%nat in
  (3 * n + 2 + chunk_bits)%nat.

(** comparisons.rs 229-240 [cmp_chunk_bits]: state is (best_chunk_bits, best_constraints). *)
Definition cmp_chunk_bits (operand_bits : nat) : nat :=
  fst (fold_left
         (fun best chunk_bits =>
            let c := cmp_constraints operand_bits chunk_bits in
            if (c <? snd best)%nat then (chunk_bits, c) else best)
         (seq 2 (max_bits - 2)) (1%nat, cmp_constraints operand_bits 1)).

(** comparisons.rs 208-220 [cmp_subtractive]. *)
Definition cmp_subtractive (diff : expr) (less strict : bool) (bits : nat) : B bexpr :=
  base <- blift (fshl fone bits) ;;
  let z := e_add (e_const (fsub base (fbool strict))) (if less then e_neg diff else diff) in
  zb <- split_bounded z (bits + 1) ;;
  blift (oindex zb bits).

(** comparisons.rs 164-174: the mask generator; state is (values, seen_diff), chunks are visited
    from the most significant one down. *)
Definition cmp_mask_run (x_chunks y_chunks : list expr) (mask : list wire) (v : values)
  : outcome values :=
  let! '(v', _) :=
    ofold (fun (st : values * bool) im =>
             let '(v1, seen) := st in
             let! xe := oindex x_chunks (fst im) in
             let! xv := e_evaluate v1 xe in
             let! ye := oindex y_chunks (fst im) in
             let! yv := e_evaluate v1 ye in
             let diff := negb (xv =? yv) in
             let! v2 := v_set (snd im) (fbool (diff && negb seen)) v1 in
             Ok (v2, seen || diff))
          (rev (enumerate mask)) (v, false) in
  Ok v'.

(** comparisons.rs 130-205 [cmp_binary]. *)
Definition cmp_binary (x_bits y_bits : binexpr) (less strict : bool) : B bexpr :=
  blift (oassert (length x_bits =? length y_bits)%nat) ;;
  let chunk_bits := cmp_chunk_bits (length x_bits) in
  x_chunks <- blift (let! cs := bin_chunks x_bits chunk_bits in omap bin_join cs) ;;
  y_chunks <- blift (let! cs := bin_chunks y_bits chunk_bits in omap bin_join cs) ;;
  let n := length x_chunks in
  mask <- b_wires n ;;
  bmap (fun m => assert_boolean (e_wire m)) mask ;;
  diff_exists <- assert_boolean (e_sum_of_wires mask) ;;
  b_generator (bin_deps x_bits ++ bin_deps y_bits) (cmp_mask_run x_chunks y_chunks mask) ;;
  diff_chunk <- bfold (fun sum i =>
      xc <- blift (oindex x_chunks i) ;;
      yc <- blift (oindex y_chunks i) ;;
      m <- blift (oindex mask i) ;;
      t <- product (e_wire m) (e_sub xc yc) ;;
      bret (e_add sum t)) (seq 0 n) e_zero ;;
  m0 <- blift (oindex mask 0) ;;
  bfold (fun diff_seen i =>
      xc <- blift (oindex x_chunks i) ;;
      yc <- blift (oindex y_chunks i) ;;
      assert_product diff_seen (e_sub xc yc) e_zero ;;
      m <- blift (oindex mask i) ;;
      bret (e_add diff_seen (e_wire m))) (seq 1 (n - 1)) (e_wire m0) ;;
  (if strict then bret tt
   else nz <- selection diff_exists diff_chunk e_one ;; assert_nonzero nz) ;;
  cmp_subtractive diff_chunk less strict chunk_bits.

(** comparisons.rs 85-110 [lt_binary], [le_binary], [gt_binary], [ge_binary]. *)
Definition lt_binary (x y : binexpr) := cmp_binary x y true true.
Definition le_binary (x y : binexpr) := cmp_binary x y true false.
Definition gt_binary (x y : binexpr) := cmp_binary x y false true.
Definition ge_binary (x y : binexpr) := cmp_binary x y false false.

(** comparisons.rs 40-62 [assert_*_binary]. *)
Definition assert_lt_binary (x y : binexpr) : B unit := r <- lt_binary x y ;; assert_true r.
Definition assert_le_binary (x y : binexpr) : B unit := r <- le_binary x y ;; assert_true r.
Definition assert_gt_binary (x y : binexpr) : B unit := r <- gt_binary x y ;; assert_true r.
Definition assert_ge_binary (x y : binexpr) : B unit := r <- ge_binary x y ;; assert_true r.

(** splitting.rs 10-14 [split]. *)
Definition split (x : expr) : B binexpr :=
  r <- split_without_range_check x max_bits ;;
  assert_lt_binary r (bin_from order) ;;
  bret r.

(** comparisons.rs 112-126 [cmp]. *)
Definition cmp (x y : expr) (less strict : bool) : B bexpr :=
  if less then
    xb <- split_allowing_ambiguity x ;; yb <- split y ;; cmp_binary xb yb less strict
  else
    xb <- split x ;; yb <- split_allowing_ambiguity y ;; cmp_binary xb yb less strict.

(** comparisons.rs 65-82 [lt], [le], [gt], [ge]. *)
Definition lt (x y : expr) := cmp x y true true.
Definition le (x y : expr) := cmp x y true false.
Definition gt (x y : expr) := cmp x y false true.
Definition ge (x y : expr) := cmp x y false false.

(** comparisons.rs 16-37 [assert_lt], [assert_le], [assert_gt], [assert_ge]. *)
Definition assert_lt (x y : expr) : B unit := r <- lt x y ;; assert_true r.
Definition assert_le (x y : expr) : B unit := r <- le x y ;; assert_true r.
Definition assert_gt (x y : expr) : B unit := r <- gt x y ;; assert_true r.
Definition assert_ge (x y : expr) : B unit := r <- ge x y ;; assert_true r.

(** field_arithmetic.rs 130-155 [modulus]. *)
Definition modulus (x y : expr) : B expr :=
  q <- b_wire ;;
  r <- b_wire ;;
  assert_product y (e_wire q) (e_sub x (e_wire r)) ;;
  assert_lt (e_wire r) y ;;
  b_generator (e_deps x ++ e_deps y) (fun v =>
    let! xv := e_evaluate v x in
    let! yv := e_evaluate v y in
    let! qv := integer_division xv yv in
    let! v1 := v_set q qv v in
    let! rv := integer_modulus xv yv in
    v_set r rv v1) ;;
  bret (e_wire r).

(** field_arithmetic.rs 158-161 [divides]: x | y. *)
Definition divides (x y : expr) : B bexpr := m <- modulus y x ;; g_zero m.

End Builder.
