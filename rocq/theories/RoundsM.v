(** Model of the choice of the numbers of Poseidon rounds: poseidon.rs 75-101, 190-302. *)
From Coq Require Import ZArith List Bool Arith.
From Verif Require Import Base FieldM CryptoM.
Import ListNotations.
Open Scope Z_scope.

(** poseidon.rs 104-108 [NumberOfRounds]. *)
Record rounds := mkRounds { r_full : nat; r_partial : nat }.

(** poseidon.rs 246-257 [is_attackable], as a function of the numbers of rounds (sbox, width and security level
    fixed). *)
Definition attack := rounds -> outcome bool.

(** poseidon.rs 259-281, 296-298 [is_attackable_exponentiation_3], [is_attackable_exponentiation_5].  The two differ in the f64
    right hand sides of the three inequalities, which do not depend on the numbers of rounds; [t1], [t2a], [t2b] are
    their integer parts: an integer is at most a real exactly when it is at most its integer part.  [width - 1] is a
    usize subtraction, evaluated in any case. *)
Definition is_attackable_exponentiation (t1 t2a t2b : Z) (width : nat) : attack := fun r =>
  let inequality_1 := Z.of_nat (r_full r + r_partial r) <=? t1 in
  let inequality_2a := Z.of_nat (r_full r + r_partial r) <=? t2a in
  let! w1 := osub width 1 in
  let inequality_2b := Z.of_nat (w1 * r_full r + r_partial r) <=? t2b in
  Ok (inequality_1 || inequality_2a || inequality_2b).

(** poseidon.rs 283-292 [is_attackable_inverse]; [ineq1] is the first inequality (which multiplies the number of full
    rounds by log2 of the width), [t2] the integer part of the right hand side of the second. *)
Definition is_attackable_inverse (ineq1 : rounds -> bool) (t2 : Z) (width : nat) : attack := fun r =>
  let! w1 := osub width 1 in
  let inequality_2 := Z.of_nat (w1 * r_full r + r_partial r) <=? t2 in
  Ok (ineq1 r || inequality_2).

(** poseidon.rs 286-290 with exact instead of f64 arithmetic; [m] is min_n_m (296-298), an integer.
    full * log2 width + partial <= log2 width + 0.5 + m, doubled and exponentiated, is the comparison below; the integer part
    of 0.25 * m - 1 is m / 4 - 1. *)
Definition inverse_inequality_1 (m width : nat) : rounds -> bool := fun r =>
  Z.of_nat width ^ (2 * Z.of_nat (r_full r)) * 4 ^ Z.of_nat (r_partial r) <=? 2 * Z.of_nat width ^ 2 * 4 ^ Z.of_nat m.
Definition is_attackable_inverse_exact (m width : nat) : attack :=
  is_attackable_inverse (inverse_inequality_1 m width) (Z.of_nat m / 4 - 1) width.

(** poseidon.rs 300-302 [num_sboxes]. *)
Definition num_sboxes (width : nat) (r : rounds) : nat := r_full r * width + r_partial r.

(** poseidon.rs 232-244 [secure_partial_rounds_unpadded]: brute force from 0. *)
Fixpoint secure_partial_loop (fuel : nat) (att : attack) (full partial : nat) : outcome nat :=
  match fuel with
  | O => NoFuel
  | S f =>
    let! a := att (mkRounds full partial) in
    if negb a then Ok partial else secure_partial_loop f att full (partial + 1)
  end.
Definition secure_partial_rounds_unpadded (fuel : nat) (att : attack) (full : nat) : outcome nat :=
  secure_partial_loop fuel att full 0.

(** poseidon.rs 202-230 [secure_num_rounds_unpadded]. *)
Fixpoint secure_num_rounds_loop (fuel pfuel : nat) (att : attack) (width full : nat) (best : rounds) (best_sboxes : nat)
  : outcome rounds :=
  match fuel with
  | O => NoFuel
  | S f =>
    let full := (full + 2)%nat in
    let! partial := secure_partial_rounds_unpadded pfuel att full in
    let r := mkRounds full partial in
    let sboxes := num_sboxes width r in
    if (best_sboxes <? sboxes)%nat then Ok best else secure_num_rounds_loop f pfuel att width full r sboxes
  end.
Definition secure_num_rounds_unpadded (fuel pfuel : nat) (att : attack) (width : nat) : outcome rounds :=
  let! partial := secure_partial_rounds_unpadded pfuel att 6 in
  let best := mkRounds 6 partial in
  secure_num_rounds_loop fuel pfuel att width 6 best (num_sboxes width best).

(** [partial as f64 * 1.075], rounded by [f64::round]: the double nearest to 1.075 is 4841369599423283 / 2^52; the
    product is rounded to 53 significant bits, ties to even, and then to an integer, ties away from zero.  [P] is the
    product in units of 2^-52. *)
Definition f64_round53 (P : Z) : Z :=
  let e := Z.log2 P - 52 in
  if e <=? 0 then P
  else
    let q := P / 2 ^ e in
    let r := P mod 2 ^ e in
    let q := if (2 ^ (e - 1) <? r) || ((r =? 2 ^ (e - 1)) && Z.odd q) then q + 1 else q in
    q * 2 ^ e.
Definition pad_partial (n : nat) : nat :=
  Z.to_nat ((f64_round53 (Z.of_nat n * 4841369599423283) + 2 ^ 51) / 2 ^ 52).

(** poseidon.rs 192-200 [secure_num_rounds_padded]. *)
Definition secure_num_rounds_padded (fuel pfuel : nat) (att : attack) (width : nat) : outcome rounds :=
  let! unpadded := secure_num_rounds_unpadded fuel pfuel att width in
  Ok (mkRounds (r_full unpadded + 2) (pad_partial (r_partial unpadded))).

(** poseidon.rs 75-101 [PoseidonBuilder::build] with all its options; [att s b] is [is_attackable] for the S-box [s] and
    security level [b], and 128 is DEFAULT_SECURITY_BITS (8). *)
Definition poseidon_build_full {F : Field} (fuel pfuel : nat) (att : poseidon_sbox -> nat -> attack) (width : nat)
  (sbox : option poseidon_sbox) (num_rounds : option rounds) (security_bits : option nat)
  (mds : option (list (list Z))) : outcome poseidon :=
  let! m := ounwrap mds in
  let! sb := match sbox with Some s => Ok s | None => poseidon_default_sbox end in
  match num_rounds, security_bits with
  | Some _, Some _ => Panic
  | Some r, None => Ok (mkPoseidon width (r_full r) (r_partial r) sb m)
  | None, _ =>
    let bits := match security_bits with Some b => b | None => 128%nat end in
    let! r := secure_num_rounds_padded fuel pfuel (att sb bits) width in
    Ok (mkPoseidon width (r_full r) (r_partial r) sb m)
  end.
