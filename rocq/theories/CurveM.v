(** Model of /repo/src/group.rs, curves/edwards.rs, curves/jubjub.rs and signature.rs.
    The traits [Group], [CyclicGroup] and their associated types become records; type parameters that
    only select an implementation (PhantomData) disappear. *)
From Coq Require Import ZArith List Bool Arith.
From Verif Require Import Base FieldM ExprM BuilderM CryptoM.
Import ListNotations.
Open Scope Z_scope.

(** group.rs 7-24, 40-45: the required methods of [Group] and [GroupExpression] (167-171), and
    [double_expression], which implementors may override.  The element constructor and
    [from_components_unsafe] may panic. *)
Record group := mkGroup {
  g_elem : Type;
  g_expr : Type;
  identity_element : outcome g_elem;
  g_of_elem : g_elem -> g_expr;
  g_evaluate : values -> g_expr -> outcome g_elem;
  add_expressions : g_expr -> g_expr -> B g_expr;
  double_expression : g_expr -> B g_expr;
  compressed : g_expr -> expr;
  to_components : g_expr -> list expr;
  from_components_unsafe : list expr -> outcome g_expr }.

(** curves/edwards.rs 9-12 [EdwardsCurve]. *)
Record edwards := mkEd { ed_a : Z; ed_d : Z }.

Section Group.
Context {F : Field}.
Variable G : group.

(** group.rs 16-18 [identity_expression]. *)
Definition identity_expression : outcome (g_expr G) :=
  let! e := identity_element G in Ok (g_of_elem G e).

(** group.rs 26-38 [add_elements]. *)
Definition add_elements (l r : g_elem G) : outcome (g_elem G) :=
  run_const (add_expressions G (g_of_elem G l) (g_of_elem G r)) (g_evaluate G).

(** group.rs 47-49 [double_element]. *)
Definition double_element (e : g_elem G) : outcome (g_elem G) := add_elements e e.

(** group.rs 90-105 [mul_boolean_expression]: [ic[i]] panics when the identity has fewer components. *)
Definition mul_boolean_expression (x : g_expr G) (b : bexpr) : B (g_expr G) :=
  id <- blift identity_expression ;;
  r <- bmap (fun ix => c <- blift (ounwrap (nth_error (to_components G id) (fst ix))) ;; selection b (snd ix) c)
            (enumerate (to_components G x)) ;;
  blift (from_components_unsafe G r).

(** group.rs 54-69 [mul_scalar_expression]: the loop state is (sum, current). *)
Definition mul_scalar_expression (x : g_expr G) (scalar : expr) : B (g_expr G) :=
  bits <- split_allowing_ambiguity scalar ;;
  id <- blift identity_expression ;;
  st <- bfold (fun st bit =>
          bp <- mul_boolean_expression (snd st) bit ;;
          sum <- add_expressions G (fst st) bp ;;
          cur <- double_expression G (snd st) ;;
          bret (sum, cur))
        bits (id, x) ;;
  bret (fst st).

(** group.rs 73-86 [mul_scalar_element]. *)
Definition mul_scalar_element (x : g_elem G) (scalar : Z) : outcome (g_elem G) :=
  run_const (mul_scalar_expression (g_of_elem G x) (e_const scalar)) (g_evaluate G).

End Group.

Section Edwards.
Context {F : Field}.
Variable C : edwards.

(** edwards.rs 82-86 [EdwardsPoint], 122-126 [EdwardsExpression]. *)
Definition ed_point : Type := Z * Z.
Definition ed_expr : Type := expr * expr.

(** edwards.rs 111-115 [EdwardsPoint::new]. *)
Definition ed_point_new (x y : Z) : outcome ed_point :=
  let! _ := oassert (fadd (fmul (fmul (ed_a C) x) x) (fmul y y) =?
                     fadd fone (fmul (fmul (fmul (fmul (ed_d C) x) x) y) y)) in
  Ok (x, y).

(** edwards.rs 149-151 [new_unsafe]. *)
Definition ed_new_unsafe (x y : expr) : ed_expr := (x, y).

(** edwards.rs 133-144 [EdwardsExpression::new]. *)
Definition ed_expr_new (x y : expr) : B ed_expr :=
  xx <- product x x ;;
  yy <- product y y ;;
  xxyy <- product xx yy ;;
  assert_equal (e_add (e_scale xx (ed_a C)) yy) (e_add (e_scale xxyy (ed_d C)) e_one) ;;
  bret (ed_new_unsafe x y).

(** edwards.rs 167-175 [From<&EdwardsPoint>]. *)
Definition ed_of_point (p : ed_point) : ed_expr := (e_const (fst p), e_const (snd p)).

(** edwards.rs 177-182 [From<(Element, Element)>]. *)
Definition ed_of_coordinates (x y : Z) : outcome ed_expr :=
  let! p := ed_point_new x y in Ok (ed_of_point p).

(** edwards.rs 184-195 [evaluate]: the point is not validated. *)
Definition ed_evaluate (v : values) (e : ed_expr) : outcome ed_point :=
  let! x := e_evaluate v (fst e) in
  let! y := e_evaluate v (snd e) in
  Ok (x, y).

(** edwards.rs 25-27 [identity_element]. *)
Definition ed_identity : outcome ed_point := ed_point_new fzero fone.

(** edwards.rs 33-54 [add_expressions]. *)
Definition ed_add_expressions (l r : ed_expr) : B ed_expr :=
  let '(x1, y1) := l in
  let '(x2, y2) := r in
  x1y2 <- product x1 y2 ;;
  x2y1 <- product y1 x2 ;;
  x1x2 <- product x1 x2 ;;
  x1x2y1y2 <- product x1y2 x2y1 ;;
  y1y2 <- product y1 y2 ;;
  x3 <- quotient_unsafe (e_add x1y2 x2y1) (e_add (e_scale x1x2y1y2 (ed_d C)) e_one) ;;
  y3 <- quotient_unsafe (e_sub y1y2 (e_scale x1x2 (ed_a C))) (e_add (e_scale x1x2y1y2 (fopp (ed_d C))) e_one) ;;
  bret (ed_new_unsafe x3 y3).

(** edwards.rs 61-76 [double_expression].  [Element::from(2u8)] and [Expression::from(2u8)] panic when
    the order is at most 2. *)
Definition ed_double_expression (p : ed_expr) : B ed_expr :=
  let '(x, y) := p in
  xy <- product x y ;;
  xx <- product x x ;;
  yy <- product y y ;;
  two <- blift (el_from 2) ;;
  x2 <- quotient_unsafe (e_scale xy two) (e_add (e_scale xx (ed_a C)) yy) ;;
  twoe <- blift (e_from_uint 2) ;;
  y2 <- quotient_unsafe (e_sub yy (e_scale xx (ed_a C)))
                        (e_add (e_sub (e_scale (e_neg xx) (ed_a C)) yy) twoe) ;;
  bret (ed_new_unsafe x2 y2).

(** edwards.rs 155-165 [compressed], [to_components], [from_components_unsafe]: [remove(0)] panics on an
    empty vector; further components are dropped. *)
Definition ed_from_components (l : list expr) : outcome ed_expr :=
  match l with
  | x :: y :: _ => Ok (ed_new_unsafe x y)
  | _ => Panic
  end.

(** edwards.rs 20-80 [EdwardsGroup]. *)
Definition edwards_group : group :=
  mkGroup ed_point ed_expr ed_identity ed_of_point ed_evaluate ed_add_expressions ed_double_expression
          snd (fun e => [fst e; snd e]) ed_from_components.

(** group.rs 109-123 [CyclicGroup], [CyclicGenerator] and 126-164 [CyclicSubgroup], which passes every
    method on to the group it is built from: a group together with a generator element. *)
Record cyclic_group := mkCyclic { cg_group : group; generator_element : outcome (g_elem cg_group) }.

Definition generator_expression (CG : cyclic_group) : outcome (g_expr (cg_group CG)) :=
  let! e := generator_element CG in Ok (g_of_elem (cg_group CG) e).

(** signature.rs 39-60 [Schnorr::verify]; a signature is (s, e). *)
Definition schnorr_verify (CG : cyclic_group) (signature : expr * expr) (message : expr)
    (public_key : g_expr (cg_group CG)) (compress : compression) : B unit :=
  generator <- blift (generator_expression CG) ;;
  gs <- mul_scalar_expression (cg_group CG) generator (fst signature) ;;
  ye <- mul_scalar_expression (cg_group CG) public_key (snd signature) ;;
  gs_ye <- add_expressions (cg_group CG) gs ye ;;
  hash_check <- compress (compressed (cg_group CG) gs_ye) message ;;
  assert_equal hash_check (snd signature).

End Edwards.

(** curves/jubjub.rs 9-20 [JubJub::a], [JubJub::d]. *)
Definition jubjub : edwards :=
  let F := Bls12_381 in
  mkEd (fopp fone) 19257038036680949359750312669786877991949435402254120286184196891950884077233.

(** curves/jubjub.rs 22-33 [generator_element]. *)
Definition jubjub_gx : Z := 11076627216317271660298050606127911965867021807910416450833192264015104452986.
Definition jubjub_gy : Z := 44412834903739585386157632289020980010620626017712148233229312325549216099227.
Definition jubjub_generator : outcome ed_point := let F := Bls12_381 in ed_point_new jubjub jubjub_gx jubjub_gy.

(** curves/jubjub.rs 7 [JubJubPrimeSubgroup]. *)
Definition jubjub_subgroup : cyclic_group :=
  let F := Bls12_381 in mkCyclic (edwards_group jubjub) jubjub_generator.
