(** Model of /repo/src/field.rs: field elements as integers in [0, order). *)
From Coq Require Import ZArith List Bool.
From Verif Require Import Base.
Import ListNotations.
Open Scope Z_scope.

(** field.rs 14-18: [trait Field { fn order() -> BigUint; }].  The order is the only datum. *)
Class Field := mkField { order : Z }.

Section FieldOps.
Context {F : Field}.

(** field.rs 151-156, [From<BigUint> for Element]: panics unless n < order.  All From<uN>
    instances (158-192) go through it.  Arguments are BigUints, i.e. non-negative. *)
Definition el_from (n : Z) : outcome Z := if n <? order then Ok n else Panic.

(** field.rs 55-61: [zero], [one].  (They panic for orders 0 and 1, which are excluded: every
    theorem assumes a prime order or order >= 2.) *)
Definition fzero : Z := 0.
Definition fone : Z := 1.

(** field.rs 194-198 [From<bool>] (same remark for order >= 2). *)
Definition fbool (b : bool) : Z := if b then fone else fzero.

(** field.rs 63-65 [largest_element]. *)
Definition largest_element : Z := order - 1.

(** field.rs 248-258 [Neg]. *)
Definition fopp (x : Z) : Z := if x =? 0 then fzero else order - x.

(** field.rs 284-290 [Add]: integer sum reduced modulo the order. *)
Definition fadd (x y : Z) : Z := (x + y) mod order.

(** field.rs 328-334 [Sub]: self + -rhs. *)
Definition fsub (x y : Z) : Z := fadd x (fopp y).

(** field.rs 372-378 [Mul]. *)
Definition fmul (x y : Z) : Z := (x * y) mod order.

(** field.rs 388-394 [Mul<u128>]: converts the right operand with the range check. *)
Definition fmul_u128 (x n : Z) : outcome Z := let! y := el_from n in Ok (fmul x y).

(** num-bigint [BigUint::modpow(e, m)], used in field.rs 101-103: x^e mod m.  Square-and-multiply
    over the binary digits of the exponent (the library's exact algorithm is not modelled; only
    that it is modular exponentiation). *)
Fixpoint modpow_pos (x : Z) (e : positive) (m : Z) : Z :=
  match e with
  | xH => x mod m
  | xO e' => let r := modpow_pos x e' m in (r * r) mod m
  | xI e' => let r := modpow_pos x e' m in (x * ((r * r) mod m)) mod m
  end.

Definition modpow (x e m : Z) : Z :=
  match e with
  | Zpos q => modpow_pos x q m
  | _ => 1 mod m
  end.

(** field.rs 101-103 [exponentiation]. *)
Definition fexp (x e : Z) : Z := modpow x e order.

(** field.rs 83-89 [multiplicative_inverse]: asserts non-zero, then x^(-2) where -2 is the field
    negation of [from(2u8)] (so it panics in a field of order 2). *)
Definition finv (x : Z) : outcome Z :=
  if x =? 0 then Panic
  else let! two := el_from 2 in Ok (fexp x (fopp two)).

(** field.rs 93-99 [multiplicative_inverse_or_zero]. *)
Definition finv_or_zero (x : Z) : outcome Z :=
  if x =? 0 then Ok fzero else finv x.

(** field.rs 438-445 [Div]: self * rhs.multiplicative_inverse(). *)
Definition fdiv (x y : Z) : outcome Z := let! i := finv y in Ok (fmul x i).

(** field.rs 105-107 [integer_division] (BigUint division panics on 0). *)
Definition integer_division (x y : Z) : outcome Z :=
  if y =? 0 then Panic else el_from (x / y).

(** field.rs 109-111 [integer_modulus]. *)
Definition integer_modulus (x y : Z) : outcome Z :=
  if y =? 0 then Panic else el_from (x mod y).

(** field.rs 113-120 [gcd]: the recursive Euclidean algorithm; the recursion is bounded by fuel. *)
Fixpoint fgcd_fuel (fuel : nat) (x y : Z) : outcome Z :=
  match fuel with
  | O => NoFuel
  | S f => if y =? 0 then Ok x
           else let! r := integer_modulus x y in fgcd_fuel f y r
  end.

(** field.rs 113-120.  The fuel (twice the bit length plus a few) is shown sufficient. *)
Definition fgcd (x y : Z) : outcome Z := fgcd_fuel (S (S (2 * zbits y))) x y.

(** field.rs 122-132 [is_prime]: trial division; note the square is computed IN THE FIELD. *)
Fixpoint is_prime_loop (fuel : nat) (x divisor : Z) : outcome bool :=
  match fuel with
  | O => NoFuel
  | S f =>
    if fmul divisor divisor <=? x then
      let! r := integer_modulus x divisor in
      if r =? 0 then Ok false
      else is_prime_loop f x (fadd divisor fone)
    else Ok true
  end.

Definition is_prime (fuel : nat) (x : Z) : outcome bool :=
  let! two := el_from 2 in is_prime_loop fuel x two.

(** field.rs 140-142 [bits]. *)
Definition el_bits (x : Z) : nat := zbits x.

(** field.rs 135-137 [max_bits]. *)
Definition max_bits : nat := el_bits largest_element.

(** field.rs 146-148 [bit]. *)
Definition el_bit (x : Z) (i : nat) : bool := zbit x i.

(** field.rs 489-495 [Shl<usize>]: shifts the integer, then range-checks (no reduction). *)
Definition fshl (x : Z) (n : nat) : outcome Z := el_from (x * 2 ^ Z.of_nat n).

End FieldOps.

(** field.rs 24-30 [Bn128::order]. *)
Definition Bn128 : Field := mkField
  21888242871839275222246405745257275088548364400416034343698204186575808495617.

(** field.rs 36-42 [Bls12_381::order]. *)
Definition Bls12_381 : Field := mkField
  52435875175126190479447740508185965837690552500527637822603658699938581184513.

(** test_util.rs 21-46: small fields used by the crate's own tests. *)
Definition F7 : Field := mkField 7.
Definition F11 : Field := mkField 11.
Definition F257 : Field := mkField 257.
