(** Model of /repo/src/binary_arithmetic.rs, bitwise_operations.rs, random_access.rs. *)
From Coq Require Import ZArith List Bool Arith.
From Verif Require Import Base FieldM ExprM BuilderM.
Import ListNotations.
Open Scope Z_scope.

Section Gadgets.
Context {F : Field}.

(** binary_arithmetic.rs 39-44: the largest possible sum of terms of the given lengths. *)
Definition max_sum (terms : list binexpr) : Z :=
  fold_left (fun s t => s + (2 ^ Z.of_nat (length t) - 1)) terms 0.

(** binary_arithmetic.rs 35-68 [binary_summation]. *)
Definition binary_summation (terms : list binexpr) : B binexpr :=
  let sum_bits := zbits (max_sum terms) in
  blift (oassert (sum_bits <? max_bits)%nat) ;;
  ws <- binary_wire sum_bits ;;
  let sum := bin_of_wires ws in
  joined <- blift (omap bin_join terms) ;;
  let sum_of_terms := e_sum joined in
  sum_joined <- blift (bin_join sum) ;;
  assert_equal sum_of_terms sum_joined ;;
  b_generator (e_deps sum_of_terms) (fun v =>
    let! s := e_evaluate v sum_of_terms in
    v_set_binary_unsigned ws s v) ;;
  bret sum.

(** binary_arithmetic.rs 13-17 [binary_sum]. *)
Definition binary_sum (x y : binexpr) : B binexpr := binary_summation [x; y].

(** binary_arithmetic.rs 73 and 82: the longest input. *)
Definition max_len (terms : list binexpr) : nat :=
  fold_left (fun m t => Nat.max m (length t)) terms 0%nat.

(** binary_arithmetic.rs 71-77 [binary_summation_ignoring_overflow]. *)
Definition binary_summation_ignoring_overflow (terms : list binexpr) : B binexpr :=
  sum <- binary_summation terms ;;
  blift (bin_truncate sum (max_len terms)).

(** binary_arithmetic.rs 20-24 [binary_sum_ignoring_overflow]. *)
Definition binary_sum_ignoring_overflow (x y : binexpr) : B binexpr :=
  binary_summation_ignoring_overflow [x; y].

(** binary_arithmetic.rs 91-99 [binary_assert_zero]. *)
Definition binary_assert_zero (x : binexpr) : B unit :=
  bits <- blift (osub max_bits 1) ;;
  cs <- blift (bin_chunks x bits) ;;
  bmap (fun c => j <- blift (bin_join c) ;; assert_zero j) cs ;;
  bret tt.

(** Slice [l[n..]]: panics if n > len. *)
Definition oslice_from {A} (l : list A) (n : nat) : outcome (list A) :=
  let! _ := oassert (n <=? length l)%nat in Ok (skipn n l).

(** binary_arithmetic.rs 80-88 [binary_summation_asserting_no_overflow]. *)
Definition binary_summation_asserting_no_overflow (terms : list binexpr) : B binexpr :=
  sum <- binary_summation terms ;;
  carry <- blift (oslice_from sum (max_len terms)) ;;
  binary_assert_zero carry ;;
  blift (bin_truncate sum (max_len terms)).

(** binary_arithmetic.rs 27-31 [binary_sum_asserting_no_overflow]. *)
Definition binary_sum_asserting_no_overflow (x y : binexpr) : B binexpr :=
  binary_summation_asserting_no_overflow [x; y].

(** bitwise_operations.rs 10-15 [bitwise_not]. *)
Definition bitwise_not (x : binexpr) : B binexpr := bmap b_not x.

(** bitwise_operations.rs 21-26, 33-38, 45-50: apply a boolean gadget to the bit pairs. *)
Definition bitwise2 (op : bexpr -> bexpr -> B bexpr) (x y : binexpr) : B binexpr :=
  blift (oassert (length x =? length y)%nat) ;;
  bmap (fun i => xb <- blift (oindex x i) ;; yb <- blift (oindex y i) ;; op xb yb)
       (seq 0 (length x)).

(** bitwise_operations.rs 18-27, 30-39, 42-51 [bitwise_and], [bitwise_or], [bitwise_xor]. *)
Definition bitwise_and := bitwise2 b_and.
Definition bitwise_or := bitwise2 b_or.
Definition bitwise_xor := bitwise2 b_xor.

(** bitwise_operations.rs 55-65 [bitwise_rotate_inc_significance]. *)
Definition rotate_inc (x : binexpr) (n : nat) : B binexpr :=
  let l := length x in
  bmap (fun i => k <- blift (osub (l + i) (n mod l)) ;; blift (oindex x (k mod l))) (seq 0 l).

(** bitwise_operations.rs 69-78 [bitwise_rotate_dec_significance]. *)
Definition rotate_dec (x : binexpr) (n : nat) : B binexpr :=
  let l := length x in
  bmap (fun i => blift (oindex x ((i + n) mod l))) (seq 0 l).

(** bitwise_operations.rs 83-95 [bitwise_shift_inc_significance]. *)
Definition shift_inc (x : binexpr) (n : nat) : B binexpr :=
  bmap (fun i => if (i <? n)%nat then bret (e_bool false)
                 else blift (oindex x (i - n))) (seq 0 (length x)).

(** bitwise_operations.rs 100-113 [bitwise_shift_dec_significance]: [l - n] underflows if n > l. *)
Definition shift_dec (x : binexpr) (n : nat) : B binexpr :=
  let l := length x in
  bmap (fun i => d <- blift (osub l n) ;;
                 if (i <? d)%nat then blift (oindex x (i + n))
                 else bret (e_bool false)) (seq 0 l).

(** random_access.rs 23-26: the least number of bits with 2^bits >= len. *)
Fixpoint index_bits_loop (fuel bits : nat) (len : nat) : nat :=
  match fuel with
  | O => bits
  | S f => if (2 ^ bits <? len)%nat then index_bits_loop f (S bits) len else bits
  end.
Definition index_bits (len : nat) : nat := index_bits_loop len 0 len.

(** random_access.rs 55-65: filter one layer of the tree. *)
Fixpoint select_pairs (lsb : bexpr) (items : list expr) : B (list expr) :=
  match items with
  | [] => bret []
  | [l] => bret [l]
  | l :: r :: rest =>
    s <- selection lsb r l ;;
    ss <- select_pairs lsb rest ;;
    bret (s :: ss)
  end.

(** random_access.rs 33-68 [random_access_binary]: recursion on the index bits ([remove(0)] panics
    when none is left). *)
Fixpoint random_access_binary (items : list expr) (bits : list bexpr) : B expr :=
  match items with
  | [x] => blift (oassert (length bits =? 0)%nat) ;; bret x
  | _ =>
    match bits with
    | [] => blift Panic
    | lsb :: bits' => parents <- select_pairs lsb items ;; random_access_binary parents bits'
    end
  end.

(** random_access.rs 17-30 [random_access]. *)
Definition random_access (items : list expr) (index : expr) : B expr :=
  bits <- split_bounded index (index_bits (length items)) ;;
  random_access_binary items bits.

End Gadgets.
