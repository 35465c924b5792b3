(** Circuits put together from the gadgets of the library, as a user of the library does: each call takes earlier values and adds new ones.
    A component is a gadget call with what it means on integers; a circuit is a list of components with the positions of their arguments.
    Not a model of code in /repo, but of its use; the calls are those of gadget_builder.rs and the gadgets files. *)
From Coq Require Import ZArith List Bool Arith.
From Verif Require Import Base FieldM ExprM BuilderM GadgetsM CryptoM CurveM WaksmanM Spec SpecCrypto SpecCurve ProgramM.
Import ListNotations.
Open Scope Z_scope.

Section Components.
Context {F : Field}.

(** [c_in] and [c_out] say which arguments must be bits and which results are: what Rust's type BooleanExpression tracks.
    [c_run] gives the results as integers, [None] if the gadget is undefined there or an assertion fails. *)
Record component := mkComponent {
  c_in : list bool; c_out : list bool;
  c_call : list expr -> B (list expr);
  c_run : list Z -> option (list Z)
}.

Definition circuit := list (component * list nat).

(** The elements at the given positions. *)
Fixpoint pick {A} (l : list A) (positions : list nat) : option (list A) :=
  match positions with
  | [] => Some []
  | i :: is => match nth_error l i, pick l is with Some a, Some r => Some (a :: r) | _, _ => None end
  end.

Fixpoint meaning (p : circuit) (vs : list Z) : option (list Z) :=
  match p with
  | [] => Some vs
  | (c, is) :: p' =>
    match pick vs is with
    | Some args => match c_run c args with Some new => meaning p' (vs ++ new) | None => None end
    | None => None
    end
  end.

Fixpoint construct (p : circuit) (es : list expr) : B (list expr) :=
  match p with
  | [] => bret es
  | (c, is) :: p' =>
    args <- blift (ounwrap (pick es is)) ;; new <- c_call c args ;; construct p' (es ++ new)
  end.

(** Bits are passed where bits are wanted; [None] if not, else what is known about all values at the end. *)
Fixpoint allows (want have : list bool) : bool :=
  match want, have with
  | [], [] => true
  | a :: want', b :: have' => implb a b && allows want' have'
  | _, _ => false
  end.
Fixpoint typing (p : circuit) (t : list bool) : option (list bool) :=
  match p with
  | [] => Some t
  | (c, is) :: p' =>
    match pick t is with
    | Some have => if allows (c_in c) have then typing p' (t ++ c_out c) else None
    | None => None
    end
  end.

(** ** The components *)
Definition word (n : nat) : list bool := repeat true n.
Definition fields (n : nat) : list bool := repeat false n.
Definition bits_of (a : Z) (n : nat) : list Z := map (fun i => truth (Z.testbit a (Z.of_nat i))) (seq 0 n).
Fixpoint cut {A} (ns : list nat) (l : list A) : list (list A) :=
  match ns with [] => [] | n :: ns' => firstn n l :: cut ns' (skipn n l) end.
Definition total (ns : list nat) : nat := fold_right Nat.add 0%nat ns.
Definition addz (l : list Z) : Z := fold_right Z.add 0 l.
(** The largest sum of words of the given lengths, and the length of the longest. *)
Definition largest (ns : list nat) : Z := addz (map (fun n => 2 ^ Z.of_nat n - 1) ns).
Definition longest (ns : list nat) : nat := fold_right Nat.max 0%nat ns.
(** The number of bits of a number. *)
Definition size (a : Z) : nat := if a <=? 0 then 0%nat else Z.to_nat (Z.log2 a + 1).

(** The operations of [ProgramM] that add values; [out] says what is known of those. *)
Definition c_op (t : list bool) (o : op) (out : list bool) : component :=
  mkComponent t out (fun es => cop es o) (fun vs => step vs o).
(** gadget_builder.rs assert_boolean; the value may then be used as a bit. *)
Definition c_bit : component :=
  mkComponent [false] [true]
    (fun es => match es with [x] => _ <- assert_boolean x ;; bret [x] | _ => blift Panic end)
    (fun vs => match vs with [a] => when (bitb a) [a] | _ => None end).
(** boolean_expression.rs constants *)
Definition c_truth (b : bool) : component :=
  mkComponent [] [true] (fun _ => bret [if b then e_one else e_zero]) (fun _ => Some [truth b]).
(** splitting.rs *)
Definition c_split : component :=
  mkComponent [false] (word max_bits)
    (fun es => match es with [x] => split x | _ => blift Panic end)
    (fun vs => match vs with [a] => Some (bits_of a max_bits) | _ => None end).
Definition c_split_bounded (n : nat) : component :=
  mkComponent [false] (word n)
    (fun es => match es with [x] => split_bounded x n | _ => blift Panic end)
    (fun vs => match vs with [a] => when ((n <? max_bits)%nat && (a <? 2 ^ Z.of_nat n)) (bits_of a n) | _ => None end).
(** binary_expression.rs join *)
Definition c_join (n : nat) : component :=
  mkComponent (word n) [false]
    (fun es => out1 (blift (bin_join es)))
    (fun vs => when (2 ^ Z.of_nat n <=? order) [bits_val vs mod order]).
(** binary_arithmetic.rs *)
Definition c_sum (ns : list nat) : component :=
  mkComponent (word (total ns)) (word (size (largest ns)))
    (fun es => binary_summation (cut ns es))
    (fun vs => when (size (largest ns) <? max_bits)%nat (bits_of (addz (map bits_val (cut ns vs))) (size (largest ns)))).
Definition c_sum_wrapping (ns : list nat) : component :=
  mkComponent (word (total ns)) (word (longest ns))
    (fun es => binary_summation_ignoring_overflow (cut ns es))
    (fun vs => when (size (largest ns) <? max_bits)%nat (bits_of (addz (map bits_val (cut ns vs))) (longest ns))).
Definition c_sum_checked (ns : list nat) : component :=
  mkComponent (word (total ns)) (word (longest ns))
    (fun es => binary_summation_asserting_no_overflow (cut ns es))
    (fun vs => when ((size (largest ns) <? max_bits)%nat && (addz (map bits_val (cut ns vs)) <? 2 ^ Z.of_nat (longest ns)))
                 (bits_of (addz (map bits_val (cut ns vs))) (longest ns))).
(** bitwise_operations.rs *)
Definition c_wnot (n : nat) : component :=
  mkComponent (word n) (word n) (fun es => bitwise_not es) (fun vs => Some (bits_of (2 ^ Z.of_nat n - 1 - bits_val vs) n)).
Definition c_bitwise (n : nat) (call : binexpr -> binexpr -> B binexpr) (zop : Z -> Z -> Z) : component :=
  mkComponent (word (n + n)) (word n)
    (fun es => call (firstn n es) (skipn n es))
    (fun vs => Some (bits_of (zop (bits_val (firstn n vs)) (bits_val (skipn n vs))) n)).
(** comparisons.rs, words *)
Definition c_wless (n : nat) : component :=
  mkComponent (word (n + n)) []
    (fun es => out0 (assert_lt_binary (firstn n es) (skipn n es)))
    (fun vs => when (bits_val (firstn n vs) <? bits_val (skipn n vs)) []).
Definition c_wgreater (n : nat) : component :=
  mkComponent (word (n + n)) []
    (fun es => out0 (assert_gt_binary (firstn n es) (skipn n es)))
    (fun vs => when (bits_val (skipn n vs) <? bits_val (firstn n vs)) []).
(** random_access.rs: the index, then the items *)
Definition c_access (n : nat) : component :=
  mkComponent (false :: fields n) [false]
    (fun es => match es with i :: items => out1 (random_access items i) | [] => blift Panic end)
    (fun vs => match vs with
               | i :: items => when (i <? 2 ^ Z.of_nat (index_bits n)) [nth (tree_pos (index_bits n) n (Z.to_nat i)) items 0]
               | [] => None
               end).
(** permutations.rs *)
Definition same_items (a b : list Z) : bool :=
  forallb (fun x => (count_occ Z.eq_dec a x =? count_occ Z.eq_dec b x)%nat) (a ++ b).
Definition c_permutation (n : nat) : component :=
  mkComponent (fields (n + n)) []
    (fun es => out0 (assert_permutation (firstn n es) (skipn n es)))
    (fun vs => when (same_items (firstn n vs) (skipn n vs)) []).
(** compression functions, merkle_damgard.rs, merkle_trees.rs: the leaf, the bits, the siblings; for membership the root first *)
Definition c_compress (m : compression) (H : Z -> Z -> Z) : component :=
  mkComponent [false; false] [false]
    (fun es => match es with [x; y] => out1 (m x y) | _ => blift Panic end)
    (fun vs => match vs with [a; b] => Some [H a b] | _ => None end).
Definition c_hash (m : compression) (H : Z -> Z -> Z) (iv : Z) (n : nat) : component :=
  mkComponent (fields n) [false]
    (fun es => out1 (merkle_damgard iv m es))
    (fun vs => when (Z.of_nat n <? order) [md_fun H iv vs]).
Definition c_root (m : compression) (H : Z -> Z -> Z) (n : nat) : component :=
  mkComponent (false :: word n ++ fields n) [false]
    (fun es => match es with
               | leaf :: r => p <- blift (merkle_path_new (firstn n r) (skipn n r)) ;; out1 (merkle_tree_root m leaf p)
               | [] => blift Panic
               end)
    (fun vs => match vs with leaf :: r => Some [path_fun H leaf (firstn n r) (skipn n r)] | [] => None end).
Definition c_member (m : compression) (H : Z -> Z -> Z) (n : nat) : component :=
  mkComponent (false :: false :: word n ++ fields n) []
    (fun es => match es with
               | root :: leaf :: r =>
                 p <- blift (merkle_path_new (firstn n r) (skipn n r)) ;; out0 (assert_merkle_tree_membership m leaf root p)
               | _ => blift Panic
               end)
    (fun vs => match vs with
               | root :: leaf :: r => when (root =? path_fun H leaf (firstn n r) (skipn n r)) []
               | _ => None
               end).
(** permutations of several lanes (poseidon.rs, rescue.rs), sponge.rs *)
Definition c_lanes (m : list expr -> B (list expr)) (n : nat) (f : list Z -> list Z) : component :=
  mkComponent (fields n) (fields n) m (fun vs => Some (f vs)).
Definition c_sponge (s : sponge) (f : list Z -> list Z) (n outputs : nat) : component :=
  mkComponent (fields n) (fields outputs)
    (fun es => sponge_evaluate s es outputs)
    (fun vs => Some (sponge_fun f (bitrate s) (capacity s) vs outputs)).
(** edwards_curve.rs: the coordinates are those of a point of the curve *)
Definition on_curve_b (C : edwards) (x y : Z) : bool :=
  (ed_a C * x ^ 2 + y ^ 2) mod order =? (1 + ed_d C * x ^ 2 * y ^ 2) mod order.
Definition c_point (C : edwards) : component :=
  mkComponent [false; false] []
    (fun es => match es with [x; y] => out0 (ed_expr_new C x y) | _ => blift Panic end)
    (fun vs => match vs with [x; y] => when (on_curve_b C x y) [] | _ => None end).
(** A circuit used as a component: values at the positions [outs] are its results. *)
Definition c_circuit (p : circuit) (t : list bool) (outs : list nat) (to : list bool) : component :=
  mkComponent t to
    (fun es => all <- construct p es ;; blift (ounwrap (pick all outs)))
    (fun vs => match meaning p vs with Some all => pick all outs | None => None end).
End Components.
