(** The crate's own unit tests, run on the model: every [#[test]] of /repo/src with an assertion (or [#[should_panic]]) is an
    [Example] of the same name, prefixed by its module.  They are tests of the model, not proofs about it: where the expected values
    of the source are met, the model agrees with what the authors observed of the program. *)
From Coq Require Import ZArith List Bool Arith Lia.
From Verif Require Import Base FieldM ExprM BuilderM GadgetsM CryptoM WaksmanM CurveM RoundsM ReadmeM Spec ExprP PrimeP PropsBinary PropsCompare.
Import ListNotations.
Open Scope Z_scope.

Section Runner.
Context {F : Field}.
(** Build a gadget, then go on with what the building returned and the gadget. *)
Definition test {A R} (m : B A) (k : A -> gadget -> outcome R) : outcome R := let! '(a, b) := m b_new in k a (build b).
(** Execute with these values; the answer of [execute] and a value read off afterwards. *)
Definition run {R} (g : gadget) (vs : outcome values) (f : values -> outcome R) : outcome (bool * R) :=
  let! v0 := vs in let! '(ok, v) := execute g v0 in let! r := f v in Ok (ok, r).
Definition nothing (_ : values) : outcome unit := Ok tt.
Definition holds (g : gadget) (vs : outcome values) : outcome bool := let! v0 := vs in let! '(ok, _) := execute g v0 in Ok ok.
Definition constants (l : list Z) : list expr := map e_const l.
End Runner.

(** ** field.rs 501-620 *)
Example field_addition : let F : Field := F257 in fadd fone fone = 2 /\ fadd 13 20 = 33.
Proof. vm_compute. auto. Qed.
Example field_addition_overflow : let F : Field := F7 in fadd 5 5 = 3.
Proof. reflexivity. Qed.
Example field_additive_inverse : let F : Field := F7 in fopp fone = 6 /\ fadd 5 (fopp 5) = 0.
Proof. vm_compute. auto. Qed.
Example field_multiplicative_inverse : let F : Field := F7 in omap finv_or_zero [0; 1; 2; 3; 4; 5; 6] = Ok [0; 1; 4; 5; 2; 3; 6].
Proof. reflexivity. Qed.
Example field_multiplication_overflow : let F : Field := F7 in fmul 3 3 = 2.
Proof. reflexivity. Qed.
Example field_bits_0 : map (el_bit 0) (seq 0 20) = repeat false 20.
Proof. reflexivity. Qed.
Example field_bits_19 : map (el_bit 19) (seq 0 10) = [true; true; false; false; true; false; false; false; false; false].
Proof. reflexivity. Qed.
Example field_order_of_elements : forallb (fun i => Z.of_nat i <? Z.of_nat i + 1) (seq 0 50) = true.
Proof. reflexivity. Qed.

(** ** gadget.rs 54-96 *)
Example gadget_constraint_not_satisfied : let F : Field := F257 in
  test (x <- b_wire ;; y <- b_wire ;; assert_equal (e_wire x) (e_wire y) ;; bret (x, y))
    (fun '(x, y) g => holds g (values_macro [(x, 42); (y, 43)])) = Ok false.
Proof. reflexivity. Qed.
Example gadget_missing_generator : let F : Field := F257 in
  test (x <- b_wire ;; y <- b_wire ;; z <- b_wire ;; assert_product (e_wire x) (e_wire y) (e_wire z) ;; bret (x, y))
    (fun '(x, y) g => holds g (values_macro [(x, 2); (y, 3)])) = Panic.
Proof. reflexivity. Qed.
Example gadget_missing_input : let F : Field := F257 in
  test (x <- b_wire ;; inverse (e_wire x)) (fun _ g => holds g (Ok v_new)) = Panic.
Proof. reflexivity. Qed.

(** ** gadget_builder.rs, module tests *)
Example builder_assert_binary_0_1 : let F : Field := F257 in
  test (x <- b_wire ;; assert_boolean (e_wire x) ;; bret x)
    (fun x g => let! a := holds g (values_macro [(x, 0)]) in let! b := holds g (values_macro [(x, 1)]) in Ok (a, b)) = Ok (true, true).
Proof. reflexivity. Qed.
Example builder_assert_binary_2 : let F : Field := F257 in
  test (x <- b_wire ;; assert_boolean (e_wire x) ;; bret x) (fun x g => holds g (values_macro [(x, 2)])) = Ok false.
Proof. reflexivity. Qed.
Example builder_selection : let F : Field := F257 in
  test (c <- boolean_wire ;; x <- b_wire ;; y <- b_wire ;; s <- selection (e_wire c) (e_wire x) (e_wire y) ;; bret (c, x, y, s))
    (fun '(c, x, y, s) g =>
       let with_c b := let! v := values_macro [(x, 3); (y, 5)] in v_set_boolean c b v in
       let! r0 := run g (with_c false) (fun v => e_evaluate v s) in let! r1 := run g (with_c true) (fun v => e_evaluate v s) in Ok (r0, r1))
  = Ok ((true, 5), (true, 3)).
Proof. reflexivity. Qed.
Example builder_equal : let F : Field := F257 in
  test (x <- b_wire ;; y <- b_wire ;; e <- g_equal (e_wire x) (e_wire y) ;; bret (x, y, e))
    (fun '(x, y, e) g => omap (fun p => run g (values_macro [(x, fst p); (y, snd p)]) (fun v => be_evaluate v e)) [(7, 7); (6, 7); (7, 13)])
  = Ok [(true, true); (true, false); (true, false)].
Proof. vm_compute. reflexivity. Qed.

(** ** boolean_algebra.rs, module tests *)
Definition truth_table (op : expr -> expr -> B expr) : outcome (list (bool * bool)) := let F : Field := F257 in
  test (x <- boolean_wire ;; y <- boolean_wire ;; r <- op (e_wire x) (e_wire y) ;; bret (x, y, r))
    (fun '(x, y, r) g => omap (fun p => run g (boolean_values_macro [(x, fst p); (y, snd p)]) (fun v => be_evaluate v r))
       [(false, false); (false, true); (true, false); (true, true)]).
Example boolean_and : truth_table (@b_and F257) = Ok [(true, false); (true, false); (true, false); (true, true)].
Proof. vm_compute. reflexivity. Qed.
Example boolean_or : truth_table (@b_or F257) = Ok [(true, false); (true, true); (true, true); (true, true)].
Proof. vm_compute. reflexivity. Qed.
Example boolean_xor : truth_table (@b_xor F257) = Ok [(true, false); (true, true); (true, true); (true, false)].
Proof. vm_compute. reflexivity. Qed.

(** ** field_arithmetic.rs, module tests *)
Example arithmetic_exp : let F : Field := F257 in
  test (x <- b_wire ;; rs <- bmap (exponentiation (e_wire x)) [0; 1; 2; 3] ;; bret (x, rs))
    (fun '(x, rs) g => run g (values_macro [(x, 3)]) (fun v => omap (e_evaluate v) rs)) = Ok (true, [1; 3; 9; 27]).
Proof. vm_compute. reflexivity. Qed.
Example arithmetic_invert_zero : let F : Field := F257 in
  test (x <- b_wire ;; inverse (e_wire x) ;; bret x) (fun x g => holds g (values_macro [(x, 0)])) = Panic.
Proof. reflexivity. Qed.
Example arithmetic_divides : let F : Field := F257 in
  test (x <- b_wire ;; y <- b_wire ;; d <- divides (e_wire x) (e_wire y) ;; bret (x, y, d))
    (fun '(x, y, d) g => omap (fun p => run g (values_macro [(x, fst p); (y, snd p)]) (fun v => be_evaluate v d)) [(1, 1); (3, 6); (3, 7)])
  = Ok [(true, true); (true, true); (true, false)].
Proof. vm_compute. reflexivity. Qed.

(** ** expression.rs, module tests *)
Example expression_join_fermat_prime_field : let F : Field := F257 in
  test (w <- binary_wire 8 ;; blift (bin_join (bin_of_wires w))) (fun e _ => Ok (e_num_terms e)) = Ok 8%nat.
Proof. vm_compute. reflexivity. Qed.
Example expression_join_fermat_prime_field_overflow : let F : Field := F257 in
  test (w <- binary_wire 9 ;; blift (bin_join (bin_of_wires w))) (fun e _ => Ok (e_num_terms e)) = Panic.
Proof. vm_compute. reflexivity. Qed.

(** ** binary_arithmetic.rs, module tests *)
Definition sums (op : binexpr -> binexpr -> B binexpr) : outcome (list (bool * Z)) := let F : Field := F257 in
  test (x <- binary_wire 4 ;; y <- binary_wire 4 ;; s <- op (bin_of_wires x) (bin_of_wires y) ;; bret (x, y, s))
    (fun '(x, y, s) g => omap (fun p => run g (binary_unsigned_values_macro [(x, fst p); (y, snd p)]) (fun v => bin_evaluate v s)) [(10, 3); (10, 11)]).
Example arithmetic_binary_sum : sums (@binary_sum F257) = Ok [(true, 13); (true, 21)].
Proof. vm_compute. reflexivity. Qed.
Example arithmetic_binary_sum_ignoring_overflow : sums (@binary_sum_ignoring_overflow F257) = Ok [(true, 13); (true, 5)].
Proof. vm_compute. reflexivity. Qed.
Example arithmetic_binary_sum_asserting_no_overflow :
  match sums (@binary_sum_asserting_no_overflow F257) with Ok [(true, s); (false, _)] => s = 13 | _ => False end.
Proof. vm_compute. reflexivity. Qed.
Example arithmetic_assert_zero_f257 : let F : Field := F257 in
  test (x <- binary_wire 10 ;; binary_assert_zero (bin_of_wires x) ;; bret x) (fun x g => holds g (binary_unsigned_values_macro [(x, 0)])) = Ok true.
Proof. vm_compute. reflexivity. Qed.

(** ** bitwise_operations.rs, module tests *)
Definition bitwise1 (op : binexpr -> B binexpr) (l : list Z) : outcome (list (bool * Z)) := let F : Field := F257 in
  test (x <- binary_wire 8 ;; r <- op (bin_of_wires x) ;; bret (x, r))
    (fun '(x, r) g => omap (fun p => run g (binary_unsigned_values_macro [(x, p)]) (fun v => bin_evaluate v r)) l).
Example bitwise_test_not : bitwise1 (@bitwise_not F257) [19] = Ok [(true, 236)].
Proof. vm_compute. reflexivity. Qed.
Example bitwise_test_and : let F : Field := F257 in
  test (x <- binary_wire 8 ;; y <- binary_wire 8 ;; r <- bitwise_and (bin_of_wires x) (bin_of_wires y) ;; bret (x, y, r))
    (fun '(x, y, r) g => omap (fun p => run g (binary_unsigned_values_macro [(x, fst p); (y, snd p)]) (fun v => bin_evaluate v r))
       [(0, 0); (255, 0); (255, 255); (252, 63)]) = Ok [(true, 0); (true, 0); (true, 255); (true, 60)].
Proof. vm_compute. reflexivity. Qed.
Example bitwise_test_rotate_dec_significance : bitwise1 (fun x => rotate_dec x 3) [0; 19] = Ok [(true, 0); (true, 98)].
Proof. vm_compute. reflexivity. Qed.
Example bitwise_test_rotate_dec_significance_multiple_wraps : bitwise1 (fun x => rotate_dec x 19) [19] = Ok [(true, 98)].
Proof. vm_compute. reflexivity. Qed.

(** ** splitting.rs, random_access.rs, module tests *)
Example splitting_split_19_32 : let F : Field := Bn128 in
  test (w <- b_wire ;; bits <- split_bounded (e_wire w) 32 ;; bret (w, bits))
    (fun '(w, bits) g => run g (values_macro [(w, 19)]) (fun v => omap (be_evaluate v) bits))
  = Ok (true, [true; true; false; false; true] ++ repeat false 27).
Proof. vm_compute. reflexivity. Qed.
Example random_access_test : let F : Field := F257 in
  test (items <- b_wires 10 ;; i <- b_wire ;; r <- random_access (map e_wire items) (e_wire i) ;; bret (items, i, r))
    (fun '(items, i, r) g => omap (fun n => run g (values_macro (combine items [0; 1; 2; 3; 4; 5; 6; 7; 8; 9] ++ [(i, n)])) (fun v => e_evaluate v r))
       [0; 1; 2; 3; 4; 5; 6; 7; 8; 9])
  = Ok [(true, 0); (true, 1); (true, 2); (true, 3); (true, 4); (true, 5); (true, 6); (true, 7); (true, 8); (true, 9)].
Proof. vm_compute. reflexivity. Qed.

(** ** bimap_util.rs, verify_permutation.rs, sorting.rs, module tests; the letters are numbers *)
Example bimap_empty_lists : bimap_from_lists Nat.eqb [] [] = Ok [].
Proof. reflexivity. Qed.
Example bimap_without_duplicates :
  match bimap_from_lists Nat.eqb [1; 2; 3]%nat [2; 3; 1]%nat with Ok m => map (bm_left m) [0; 1; 2]%nat = [Some 2; Some 0; Some 1]%nat | _ => False end.
Proof. reflexivity. Qed.
Example bimap_with_duplicates :
  match bimap_from_lists Nat.eqb [1; 1; 2]%nat [1; 2; 1]%nat with
  | Ok m => map (fun i => match bm_left m i with Some j => nth_error [1; 2; 1]%nat j | None => None end) [0; 1; 2]%nat = [Some 1; Some 1; Some 2]%nat
  | _ => False end.
Proof. reflexivity. Qed.
Example bimap_lengths_differ : bimap_from_lists Nat.eqb [1; 1; 2]%nat [1; 2]%nat = Panic.
Proof. reflexivity. Qed.
Example bimap_not_a_permutation : bimap_from_lists Nat.eqb [1; 1; 2]%nat [1; 2; 2]%nat = Panic.
Proof. reflexivity. Qed.

Definition routes (a b : list Z) : outcome bool := let F : Field := F257 in
  test (assert_permutation (constants a) (constants b)) (fun _ g => holds g (Ok v_new)).
Example permutation_route_2x2 : routes [1; 2] [2; 1] = Ok true.
Proof. vm_compute. reflexivity. Qed.
Example permutation_route_3x3 : routes [1; 2; 3] [2; 1; 3] = Ok true.
Proof. vm_compute. reflexivity. Qed.
Example permutation_route_4x4 : routes [1; 2; 3; 4] [2; 1; 4; 3] = Ok true.
Proof. vm_compute. reflexivity. Qed.
Example permutation_route_5x5 : let F : Field := F257 in
  test (a <- b_wires 5 ;; b <- b_wires 5 ;; assert_permutation (map e_wire a) (map e_wire b) ;; bret (a, b))
    (fun '(a, b) g => omap (fun p => holds g (values_macro (combine a (fst p) ++ combine b (snd p))))
       [([0; 1; 2; 3; 4], [1; 4; 0; 3; 2]); ([0; 1; 2; 0; 1], [1; 1; 0; 0; 2])]) = Ok [true; true].
Proof. vm_compute. reflexivity. Qed.
Example permutation_not_a_permutation : routes [1; 2; 2] [1; 2; 1] = Panic.
Proof. vm_compute. reflexivity. Qed.
Example permutation_lengths_differ : let F : Field := F257 in test (assert_permutation (constants [1; 2; 3]) (constants [1; 2])) (fun _ _ => Ok tt) = Panic.
Proof. vm_compute. reflexivity. Qed.

Definition sorts (op : list expr -> B (list expr)) : outcome (bool * list Z) := let F : Field := F257 in
  test (ws <- b_wires 4 ;; os <- op (map e_wire ws) ;; bret (ws, os))
    (fun '(ws, os) g => run g (values_macro (combine ws [4; 7; 0; 1])) (fun v => omap (e_evaluate v) os)).
Example sorting_sort_4_ascending : sorts (@sort_ascending F257) = Ok (true, [0; 1; 4; 7]).
Proof. vm_compute. reflexivity. Qed.
Example sorting_sort_4_descending : sorts (@sort_descending F257) = Ok (true, [7; 4; 1; 0]).
Proof. vm_compute. reflexivity. Qed.

(** ** lcg.rs, permutations.rs, mimc.rs, module tests *)
Example lcg_next_u32 : let s1 := lcg_next lcg_new in let s2 := lcg_next s1 in let s3 := lcg_next s2 in
  [s1; s2; s3; lcg_next s3] = [1013904223; 1196435762; 3519870697; 2868466484].
Proof. vm_compute. reflexivity. Qed.
Example permutations_cube_and_cube_root : let F : Field := F11 in
  test (n <- blift (monomial_new 3) ;; x <- b_wire ;; c <- permute (monomial n) (e_wire x) ;; r <- p_inverse (monomial n) c ;; bret (x, r))
    (fun '(x, r) g => omap (fun i => run g (values_macro [(x, i)]) (fun v => e_evaluate v r)) [0; 1; 2; 3; 4; 5; 6; 7; 8; 9; 10])
  = Ok (map (fun i => (true, i)) [0; 1; 2; 3; 4; 5; 6; 7; 8; 9; 10]).
Proof. vm_compute. reflexivity. Qed.
Example permutations_not_a_permutation : let F : Field := F7 in monomial_new 3 = Panic.
Proof. reflexivity. Qed.
Example mimc_encrypt_and_decrypt : let F : Field := F11 in
  test (k <- b_wire ;; i <- b_wire ;; c <- blift (mimc_default 10) ;; e <- encrypt c (e_wire k) (e_wire i) ;; d <- decrypt c (e_wire k) e ;; bret (k, i, d))
    (fun '(k, i, d) g => run g (values_macro [(k, 2); (i, 3)]) (fun v => e_evaluate v d)) = Ok (true, 3).
Proof. vm_compute. reflexivity. Qed.
Example mimc_f11 : let F : Field := F11 in
  test (k <- b_wire ;; i <- b_wire ;; c <- blift (mimc_new [5; 7]) ;; e <- encrypt c (e_wire k) (e_wire i) ;; bret (k, i, e))
    (fun '(k, i, e) g => run g (values_macro [(k, 3); (i, 6)]) (fun v => e_evaluate v e)) = Ok (true, 2).
Proof. vm_compute. reflexivity. Qed.
Example mimc_f7_incompatible : let F : Field := F7 in mimc_default 10 = Panic.
Proof. vm_compute. reflexivity. Qed.

(** ** davies_meyer.rs, miyaguchi_preneel.rs, merkle_damgard.rs, sponge.rs, merkle_trees.rs, module tests *)
(** The test cipher (k, i) -> 2k + 4i + 3ki; its [decrypt] panics. *)
Definition test_cipher : block_cipher := let F : Field := F7 in
  mkBC (fun k i => p <- product k i ;; bret (e_add (e_add (e_scale k 2) (e_scale i 4)) (e_scale p 3))) (fun _ _ => blift Panic).
Definition compresses (c : compression) : outcome (bool * Z) := let F : Field := F7 in
  test (x <- b_wire ;; y <- b_wire ;; r <- c (e_wire x) (e_wire y) ;; bret (x, y, r)) (fun '(x, y, r) g => run g (values_macro [(x, 2); (y, 3)]) (fun v => e_evaluate v r)).
Example davies_meyer_test : let F : Field := F7 in compresses (davies_meyer test_cipher) = Ok (true, 6).
Proof. vm_compute. reflexivity. Qed.
Example miyaguchi_preneel_test : let F : Field := F7 in compresses (miyaguchi_preneel test_cipher) = Ok (true, 4).
Proof. vm_compute. reflexivity. Qed.
Example merkle_damgard_test : let F : Field := F7 in
  test (x <- b_wire ;; y <- b_wire ;; h <- merkle_damgard 2 (fun x y => bret (e_add (e_scale x 2) (e_scale y 3))) [e_wire x; e_wire y] ;; bret (x, y, h))
    (fun '(x, y, h) g => run g (values_macro [(x, 3); (y, 4)]) (fun v => e_evaluate v h)) = Ok (true, 5).
Proof. vm_compute. reflexivity. Qed.
(** The test permutation (x, y) -> (2y, 3x). *)
Definition test_permutation : multi_permutation := let F : Field := F7 in
  mkMP 2 (fun s => blift (oassert (length s =? 2)%nat) ;; bret [e_scale (nth 1 s e_zero) 2; e_scale (nth 0 s e_zero) 3])
         (fun s => blift (oassert (length s =? 2)%nat) ;; x <- blift (e_div (nth 1 s e_zero) 3) ;; y <- blift (e_div (nth 0 s e_zero) 2) ;; bret [x; y]).
Example sponge_1_1_1_f7 : let F : Field := F7 in
  test (x <- b_wire ;; y <- b_wire ;; s <- blift (sponge_new test_permutation 1 1) ;; h <- sponge_evaluate s [e_wire x; e_wire y] 1 ;; bret (x, y, h))
    (fun '(x, y, h) g => run g (values_macro [(x, 3); (y, 4)]) (fun v => omap (e_evaluate v) h)) = Ok (true, [4]).
Proof. vm_compute. reflexivity. Qed.
(** The test compression (x, y) -> 2x + y. *)
Definition test_compress {F : Field} : compression := fun x y => bret (e_add (e_scale x 2) y).
Example merkle_step : let F : Field := F257 in
  test (n <- b_wire ;; s <- b_wire ;; r <- boolean_wire ;; p <- merkle_tree_step test_compress (e_wire n) (e_wire s) (e_wire r) ;; bret (n, s, r, p))
    (fun '(n, s, r, p) g => omap (fun b => run g (let! v := values_macro [(n, 3); (s, 4)] in v_set_boolean r b v) (fun v => e_evaluate v p)) [false; true])
  = Ok [(true, 10); (true, 11)].
Proof. vm_compute. reflexivity. Qed.
Example merkle_root : let F : Field := F257 in
  test (pre <- binary_wire 3 ;; ss <- b_wires 3 ;; path <- blift (merkle_path_new (bin_of_wires pre) (map e_wire ss)) ;;
        r <- merkle_tree_root test_compress e_one path ;; bret (pre, ss, r))
    (fun '(pre, ss, r) g => run g (let! v := values_macro (combine ss [3; 3; 9]) in v_set_binary_unsigned pre 2 v) (fun v => e_evaluate v r)) = Ok (true, 31).
Proof. vm_compute. reflexivity. Qed.
Example merkle_large_root : let F : Field := F7 in
  test (pre <- binary_wire 8 ;; ss <- b_wires 8 ;; path <- blift (merkle_path_new (bin_of_wires pre) (map e_wire ss)) ;;
        r <- merkle_tree_root test_compress e_one path ;; bret (pre, ss, r))
    (fun '(pre, ss, r) g => run g (let! v := values_macro (combine ss (repeat 1 8)) in v_set_binary_unsigned pre 0 v) (fun v => e_evaluate v r)) = Ok (true, 0).
Proof. vm_compute. reflexivity. Qed.

(** ** poseidon.rs, rescue.rs, module tests *)
Definition test_matrix : list (list Z) := [[2; 3; 1; 1]; [1; 2; 3; 1]; [1; 1; 2; 3]; [3; 1; 1; 2]].
Example poseidon_x3_f11 : let F : Field := F11 in
  test (m <- blift (matrix_new test_matrix) ;; p <- blift (poseidon_build 4 (4, 6)%nat (Some Exponentiation3) (Some m)) ;;
        ws <- b_wires 4 ;; poseidon_permute p (map e_wire ws) ;; bret ws)
    (fun ws g => holds g (values_macro (combine ws [0; 1; 2; 3]))) = Ok true.
Proof. vm_compute. reflexivity. Qed.
Example rescue_permutation_f11 : let F : Field := F11 in
  match (let! m := matrix_new test_matrix in rescue_build 10 2 None None (Some 128%nat) (Some m)) with Ok _ => True | _ => False end.
Proof. vm_compute. exact I. Qed.

(** ** curves/edwards.rs, module tests *)
Definition on_jubjub (x y : Z) : outcome bool := let F : Field := Bls12_381 in
  test (ed_expr_new jubjub (e_const x) (e_const y)) (fun _ g => holds g (Ok v_new)).
Example edwards_point_on_curve : on_jubjub jubjub_gx jubjub_gy = Ok true.
Proof. vm_compute. reflexivity. Qed.
Example edwards_point_not_on_curve_with_expressions : on_jubjub jubjub_gx (jubjub_gy - 1) = Ok false.
Proof. vm_compute. reflexivity. Qed.
Example edwards_point_not_on_curve : let F : Field := Bls12_381 in ed_of_coordinates jubjub (jubjub_gx - 1) jubjub_gy = Panic.
Proof. vm_compute. reflexivity. Qed.
(** Evaluated only, to spare the kernel the inversions in a 255-bit field; the answer is [Ok (true, [0; 1])]. *)
Eval vm_compute in (let F : Field := Bls12_381 in
  test (p1 <- blift (ed_of_coordinates jubjub jubjub_gx jubjub_gy) ;; ed_add_expressions jubjub p1 (ed_new_unsafe (e_neg (fst p1)) (snd p1)))
    (fun p3 g => run g (Ok v_new) (fun v => omap (e_evaluate v) [fst p3; snd p3]))).
(** The tests mul_scalar (curves/edwards.rs) and verify (signature.rs) assert nothing. *)

(** ** comparisons.rs, module tests: over BN128 too large to be evaluated here; the values asserted follow from C27. *)
Example comparisons_test : let F : Field := Bn128 in
  let answers x y (l e g h : Z) :=
    runs [x; y] (lt (e_wire 1) (e_wire 2)) (fun r v => e_evaluate v r = Ok l) /\ runs [x; y] (le (e_wire 1) (e_wire 2)) (fun r v => e_evaluate v r = Ok e) /\
    runs [x; y] (gt (e_wire 1) (e_wire 2)) (fun r v => e_evaluate v r = Ok g) /\ runs [x; y] (ge (e_wire 1) (e_wire 2)) (fun r v => e_evaluate v r = Ok h) in
  answers 42 63 1 1 0 0 /\ answers 42 42 0 1 0 1 /\ answers 42 41 0 0 1 1 /\ answers (2 ^ 80 + 1) (2 ^ 81) 1 1 0 0.
Proof.
  cbv zeta.
  assert (H : forall x y, 0 <= x < 2 ^ 100 -> 0 <= y < 2 ^ 100 ->
    @runs Bn128 _ [x; y] (@lt Bn128 (e_wire 1) (e_wire 2)) (fun r v => @e_evaluate Bn128 v r = Ok (if x <? y then 1 else 0)) /\
    @runs Bn128 _ [x; y] (@le Bn128 (e_wire 1) (e_wire 2)) (fun r v => @e_evaluate Bn128 v r = Ok (if x <=? y then 1 else 0)) /\
    @runs Bn128 _ [x; y] (@gt Bn128 (e_wire 1) (e_wire 2)) (fun r v => @e_evaluate Bn128 v r = Ok (if x >? y then 1 else 0)) /\
    @runs Bn128 _ [x; y] (@ge Bn128 (e_wire 1) (e_wire 2)) (fun r v => @e_evaluate Bn128 v r = Ok (if x >=? y then 1 else 0))).
  { intros x y Hx Hy. assert (O : 2 ^ 100 < @order Bn128) by (vm_compute; reflexivity).
    assert (W1 : @ev Bn128 (input_witness [x; y]) (e_wire 1) = x) by (apply (@ev_wire Bn128); [lia|red; simpl; lia]).
    assert (W2 : @ev Bn128 (input_witness [x; y]) (e_wire 2) = y) by (apply (@ev_wire Bn128); [lia|red; simpl; lia]).
    pose proof (C27_compare_complete Bn128 prime_Bn128 ltac:(rewrite bits_Bn128; lia) [x; y] (e_wire 1) (e_wire 2)) as C.
    rewrite W1, W2 in C. apply C.
    - constructor; [|constructor; [|constructor]]; lia.
    - apply over_wire. simpl. lia.
    - apply over_wire. simpl. lia. }
  split; [|split; [|split]].
  all: match goal with |- context[runs [?x; ?y] (lt _ _)] => exact (H x y ltac:(lia) ltac:(lia)) end.
Qed.
