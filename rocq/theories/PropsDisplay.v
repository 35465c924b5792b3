(** C69, C70: textual forms; shifts and integer literals. *)
From Coq Require Import ZArith NArith List Bool Arith Lia Znumtheory String Ascii DecimalString DecimalN.
From Verif Require Import Base FieldM FieldP ExprM BuilderM CryptoM DisplayM Spec ExprP DisplayP Demo PropLib PropsCore.
Import ListNotations.
Open Scope Z_scope.

(** ** C69 *)
(** Printing and parsing an element; numbers that are not below the order panic, anything but digits is an error. *)
Theorem C69_element : forall (F : Field),
  (forall x, 0 <= x < order -> element_from_str (show_element x) = Ok (Some x)) /\
  (forall x y, 0 <= x < order -> 0 <= y < order -> show_element x = show_element y -> x = y) /\
  (forall n, order <= Z.of_N n -> element_from_str (show_N n) = Panic) /\
  element_from_str EmptyString = Ok None /\
  (forall s c, In c (list_ascii_of_string s) -> ~ In c (list_ascii_of_string "0123456789") -> element_from_str s = Ok None).
Proof.
  intro F. split; [|split; [|split; [|split]]].
  - intros x Hx. unfold element_from_str, show_element. rewrite show_N_parse, DecimalN.Unsigned.of_to, Z2N.id by lia.
    rewrite (proj1 (C01_from F x ltac:(lia))) by lia. reflexivity.
  - intros x y Hx Hy E. apply show_N_inj in E. lia.
  - intros n Hn. unfold element_from_str. rewrite show_N_parse, DecimalN.Unsigned.of_to.
    rewrite (proj2 (C01_from F (Z.of_N n) ltac:(lia)) Hn). reflexivity.
  - reflexivity.
  - intros s c I N. unfold element_from_str.
    destruct (NilZero.uint_of_string s) as [d|] eqn:E; [exfalso|reflexivity].
    apply NilZero.sus in E. apply N. pose proof (uint_digits d) as U.
    destruct d; cbn [NilZero.string_of_uint] in E; subst s; try (rewrite Forall_forall in U; exact (U c I)).
    cbn in I. cbn. tauto.
Qed.
Print Assumptions C69_element.

(** The text of an expression made through the public interface determines the expression, hence its value under every
    assignment; the same for constraints. *)
Theorem C69_expression : forall (F : Field), 2 <= order -> forall a b, api_expr a -> api_expr b ->
  (show_expr a = show_expr b <-> forall w, wf_witness w -> ev w a = ev w b).
Proof.
  intros F H a b Ha Hb. rewrite <- (C07_equality F H a b Ha Hb). split; [|intros ->; reflexivity].
  assert (P : forall e, api_expr e -> positive e).
  { intros e He. destruct (C07_canonical F H e He) as (_ & _ & V). eapply Forall_impl; [|exact V]. cbv beta. lia. }
  apply show_expr_inj; apply P; assumption.
Qed.
Print Assumptions C69_expression.

Theorem C69_constraint : forall (F : Field), 2 <= order -> forall c c',
  api_expr (c_a c) -> api_expr (c_b c) -> api_expr (c_c c) -> api_expr (c_a c') -> api_expr (c_b c') -> api_expr (c_c c') ->
  show_constraint c = show_constraint c' -> c = c'.
Proof.
  intros F H c c' A1 A2 A3 B1 B2 B3.
  assert (P : forall e, api_expr e -> positive e).
  { intros e He. destruct (C07_canonical F H e He) as (_ & _ & V). eapply Forall_impl; [|exact V]. cbv beta. lia. }
  apply show_constraint_inj; apply P; assumption.
Qed.
Print Assumptions C69_constraint.

(** Wires: distinct names; only the constant wire is shown as 1. *)
Theorem C69_wire : forall k k', show_wire k = show_wire k' -> k = k'.
Proof.
  assert (N : forall k, (k <> 0)%nat -> show_wire k <> "1"%string).
  { intros k Hk E. unfold show_wire in E. rewrite (proj2 (Nat.eqb_neq _ _) Hk) in E. discriminate. }
  intros k k' E. destruct (Nat.eq_dec k 0) as [->|H], (Nat.eq_dec k' 0) as [->|H']; [reflexivity|..].
  - exfalso. exact (N k' H' (eq_sym E)).
  - exfalso. exact (N k H E).
  - apply show_wire_inj; assumption.
Qed.
Print Assumptions C69_wire.

Example C69_example : let F : Field := F257 in
  show_expr (e_add (e_scale (e_wire 2) 3) (e_add (e_wire 12) (e_const 5))) = "wire_2 * 3 + wire_12 + 5"%string /\
  show_constraint (mkC (e_add (e_wire 1) (e_const 1)) (e_scale (e_wire 2) 4) (e_wire 3)) = "(wire_1 + 1) * wire_2 * 4 = wire_3"%string /\
  show_expr e_zero = "0"%string /\ show_element 256 = "256"%string /\ element_from_str "256" = Ok (Some 256) /\
  element_from_str "257" = Panic /\ element_from_str "2_5" = Ok None /\ element_from_str "007" = Ok (Some 7).
Proof. intro F. repeat split; vm_compute; reflexivity. Qed.

(** ** C70 *)
(** A shift is multiplication of integers: it never wraps around the order, it panics instead.  Integer literals as
    factors and divisors are accepted exactly below the order. *)
Theorem C70_shift : forall (F : Field) x n, 0 <= x < order ->
  (x * 2 ^ Z.of_nat n < order -> fshl x n = Ok (x * 2 ^ Z.of_nat n)) /\
  (order <= x * 2 ^ Z.of_nat n -> fshl x n = Panic).
Proof.
  intros F x n Hx. unfold fshl. apply C01_from. apply Z.mul_nonneg_nonneg; [lia|apply Z.pow_nonneg; lia].
Qed.
Print Assumptions C70_shift.

Theorem C70_shift_sum : forall (F : Field) x m n y, 0 <= x < order -> fshl x m = Ok y -> fshl y n = fshl x (m + n).
Proof.
  intros F x m n y Hx H. assert (Hm : 0 <= x * 2 ^ Z.of_nat m) by (apply Z.mul_nonneg_nonneg; [lia|apply Z.pow_nonneg; lia]).
  destruct (Z_lt_le_dec (x * 2 ^ Z.of_nat m) order) as [L|L].
  - rewrite (proj1 (C70_shift F x m Hx) L) in H. injection H as <-. unfold fshl. f_equal.
    rewrite Nat2Z.inj_add, Z.pow_add_r by lia. ring.
  - rewrite (proj2 (C70_shift F x m Hx) L) in H. discriminate.
Qed.
Print Assumptions C70_shift_sum.

Theorem C70_literals : forall (F : Field), prime order -> 2 < order -> forall x n, 0 <= x < order -> 0 <= n ->
  (order <= n -> fmul_u128 x n = Panic /\ fdiv_u128 x n = Panic) /\
  (n < order -> fmul_u128 x n = Ok ((x * n) mod order)) /\
  (n = 0 -> fdiv_u128 x n = Panic) /\
  (0 < n < order -> exists q, fdiv_u128 x n = Ok q /\ 0 <= q < order /\ (q * n) mod order = x).
Proof.
  intros F Hp H2 x n Hx Hn. unfold fmul_u128, fdiv_u128. destruct (C01_from F n Hn) as [A B]. split; [|split; [|split]].
  - intro H. rewrite (B H). split; reflexivity.
  - intro H. rewrite (A H). reflexivity.
  - intros ->. rewrite (A ltac:(lia)). cbn [obind]. apply (C02_division F Hp H2 x 0 Hx ltac:(lia)). reflexivity.
  - intro H. rewrite (A ltac:(lia)). cbn [obind]. apply (C02_division F Hp H2 x n Hx ltac:(lia)). lia.
Qed.
Print Assumptions C70_literals.

Example C70_example : let F : Field := F257 in fshl 3 6 = Ok 192 /\ fshl 3 7 = Panic /\ fshl 0 1000 = Ok 0 /\
  fmul_u128 100 3 = Ok 43 /\ fmul_u128 1 257 = Panic /\ fdiv_u128 1 2 = Ok 129 /\ fdiv_u128 5 0 = Panic.
Proof. intro F. repeat split; vm_compute; reflexivity. Qed.
