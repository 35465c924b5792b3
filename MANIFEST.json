{
 "claims": [
  {
   "property": "C01",
   "status": "proved",
   "theorems": [
    "C01_arithmetic",
    "C01_representative_unique",
    "C01_from",
    "C01_no_panic",
    "C01_mul_u128_panics"
   ],
   "note": ""
  },
  {
   "property": "C02",
   "status": "proved",
   "theorems": [
    "C02_inverse",
    "C02_division",
    "C02_exponentiation",
    "C02_order2_panics"
   ],
   "note": ""
  },
  {
   "property": "C03",
   "status": "proved",
   "theorems": [
    "C03_gcd",
    "C03_division_with_remainder"
   ],
   "note": ""
  },
  {
   "property": "C04",
   "status": "partial",
   "theorems": [
    "C04_is_prime_partial",
    "C04_zero_one_refuted",
    "C04_prime_rejected_refuted"
   ],
   "note": "False as stated: 0 and 1 are declared prime (C04_zero_one_refuted) and squares wrap around the order, so 5 is declared composite in the field of 7 elements (C04_prime_rejected_refuted). Proved for x >= 2: the exact criterion; composites are always rejected; primes are accepted when (sqrt x + 1)^2 < order. The exact behaviour is C81."
  },
  {
   "property": "C05",
   "status": "proved",
   "theorems": [
    "C05_bits",
    "C05_max_bits"
   ],
   "note": ""
  },
  {
   "property": "C06",
   "status": "proved",
   "theorems": [
    "C06_homomorphism",
    "C06_division",
    "C06_atoms",
    "C06_sum_of_expressions",
    "C06_evaluate_total",
    "C06_neg_one",
    "C06_boolean_evaluate"
   ],
   "note": ""
  },
  {
   "property": "C07",
   "status": "proved",
   "theorems": [
    "C07_canonical",
    "C07_equality",
    "C07_dependencies",
    "C07_as_constant"
   ],
   "note": ""
  },
  {
   "property": "C08",
   "status": "partial",
   "theorems": [
    "C08_sum_of_wires_partial",
    "C08_counts_once",
    "C08_repeated_wire_refuted"
   ],
   "note": "False for repeated wires (C08_repeated_wire_refuted): each wire counts once (C08_counts_once). True for lists without repetition. The exact behaviour is C81."
  },
  {
   "property": "C09",
   "status": "proved",
   "theorems": [
    "C09_constant_wire",
    "C09_set",
    "C09_set_boolean",
    "C09_set_binary",
    "C09_write_once",
    "C09_get_boolean"
   ],
   "note": ""
  },
  {
   "property": "C10",
   "status": "proved",
   "theorems": [
    "C10_calls_append",
    "C10_fresh_wires",
    "C10_sessions"
   ],
   "note": ""
  },
  {
   "property": "C11",
   "status": "proved",
   "theorems": [
    "C11_execute",
    "C11_terminates",
    "C11_stuck_panics"
   ],
   "note": ""
  },
  {
   "property": "C12",
   "status": "proved",
   "theorems": [
    "C12_order_independent",
    "C12_any_schedule"
   ],
   "note": ""
  },
  {
   "property": "C13",
   "status": "partial",
   "theorems": [
    "C13_product_sound",
    "C13_product_complete",
    "C13_product_constant_free",
    "C13_product_zero_constant_refuted"
   ],
   "note": "Sound and complete for all expressions. The last clause holds for every non-zero constant (C13_product_constant_free) and is false for the constant 0, which as_constant does not recognise (C13_product_zero_constant_refuted). The exact behaviour is C81."
  },
  {
   "property": "C14",
   "status": "proved",
   "theorems": [
    "C14_exponentiation_sound",
    "C14_exponentiation_complete"
   ],
   "note": ""
  },
  {
   "property": "C15",
   "status": "proved",
   "theorems": [
    "C15_inverse_sound",
    "C15_inverse_complete",
    "C15_assert_nonzero_sound",
    "C15_assert_nonzero_complete",
    "C15_assert_nonequal_sound",
    "C15_assert_nonequal_complete"
   ],
   "note": ""
  },
  {
   "property": "C16",
   "status": "proved",
   "theorems": [
    "C16_nonzero_sound",
    "C16_zero_sound",
    "C16_equal_sound",
    "C16_nonzero_complete",
    "C16_zero_complete",
    "C16_equal_complete"
   ],
   "note": ""
  },
  {
   "property": "C17",
   "status": "partial",
   "theorems": [
    "C17_inverse_or_zero_sound_partial",
    "C17_inverse_or_zero_complete",
    "C17_inverse_or_zero_refuted"
   ],
   "note": "False as stated: at x = 0 the result is unconstrained (C17_inverse_or_zero_refuted). Proved: the result is the inverse for x <> 0 in every satisfying assignment, and execute produces the inverse or zero."
  },
  {
   "property": "C18",
   "status": "proved",
   "theorems": [
    "C18_quotient_sound",
    "C18_quotient_complete"
   ],
   "note": ""
  },
  {
   "property": "C19",
   "status": "partial",
   "theorems": [
    "C19_quotient_unsafe_unconstrained_refuted",
    "C19_quotient_unsafe_refuted",
    "C19_quotient_unsafe_complete_partial"
   ],
   "note": "False as stated: quotient_unsafe adds no constraint (C19_quotient_unsafe_unconstrained_refuted, C19_quotient_unsafe_refuted). Proved: execute computes the quotient for y <> 0."
  },
  {
   "property": "C20",
   "status": "partial",
   "theorems": [
    "C20_modulus_sound_partial",
    "C20_modulus_complete",
    "C20_divides_complete",
    "C20_modulus_forgeable_refuted",
    "C20_divides_forgeable_refuted"
   ],
   "note": "False as stated: any r < y satisfies the constraints, so x mod y and divides can be forged (C20_modulus_forgeable_refuted, C20_divides_forgeable_refuted). Proved: what the constraints do enforce (r < y, y <> 0), and that execute computes x mod y and y | x."
  },
  {
   "property": "C21",
   "status": "proved",
   "theorems": [
    "C21_and_sound",
    "C21_or_sound",
    "C21_xor_sound",
    "C21_not_sound",
    "C21_selection_sound",
    "C21_and_complete",
    "C21_or_complete",
    "C21_xor_complete",
    "C21_not_complete",
    "C21_selection_complete",
    "C21_xor_order2_refuted"
   ],
   "note": "xor needs an odd order; with order 2 building it panics (C21_xor_order2_refuted)."
  },
  {
   "property": "C22",
   "status": "proved",
   "theorems": [
    "C22_assert_boolean_exact",
    "C22_assert_equal_exact",
    "C22_assert_zero_exact",
    "C22_assert_true_exact",
    "C22_assert_false_exact",
    "C22_boolean_wire_sound",
    "C22_binary_wire_sound"
   ],
   "note": ""
  },
  {
   "property": "C23",
   "status": "proved",
   "theorems": [
    "C23_split_sound",
    "C23_split_complete"
   ],
   "note": ""
  },
  {
   "property": "C24",
   "status": "proved",
   "theorems": [
    "C24_split_bounded_sound",
    "C24_split_bounded_panics",
    "C24_split_bounded_complete",
    "C24_split_ambiguous_sound",
    "C24_split_ambiguous_complete",
    "C24_split_ambiguous_alias"
   ],
   "note": ""
  },
  {
   "property": "C25",
   "status": "proved",
   "theorems": [
    "C25_assert_lt_sound",
    "C25_assert_gt_sound",
    "C25_assert_lt_binary_sound",
    "C25_assert_gt_binary_sound",
    "C25_assert_lt_complete",
    "C25_assert_gt_complete",
    "C25_assert_binary_complete"
   ],
   "note": ""
  },
  {
   "property": "C26",
   "status": "partial",
   "theorems": [
    "C26_assert_le_accepts_everything_refuted",
    "C26_assert_ge_accepts_everything_refuted",
    "C26_assert_binary_accepts_everything_refuted",
    "C26_assert_le_complete_partial"
   ],
   "note": "False as stated: assert_le/assert_ge and their binary forms accept every pair of values (C26_*_accepts_everything_refuted). Proved: true inequalities are accepted and execute succeeds on them."
  },
  {
   "property": "C27",
   "status": "partial",
   "theorems": [
    "C27_compare_complete",
    "C27_compare_binary_complete",
    "C27_compare_sound_partial",
    "C27_compare_binary_sound_partial",
    "C27_compare_forgeable_refuted"
   ],
   "note": "False as stated: lt/gt can be answered 0 and le/ge 1 regardless of the operands (C27_compare_forgeable_refuted). Proved: execute computes the right answer, and the one-sided implications the constraints enforce."
  },
  {
   "property": "C28",
   "status": "partial",
   "theorems": [
    "C28_cmp_binary_builds",
    "C28_cmp_binary_panics",
    "C28_no_panic_partial",
    "C28_small_order_panics_refuted",
    "C28_split_cost",
    "C28_cmp_cost",
    "C28_split_small_order_panics",
    "C28_chunk_width_optimal",
    "C28_no_wrap",
    "C28_cmp_binary_cost",
    "C28_estimate_not_exact_refuted"
   ],
   "note": "False for orders of 4 to 6 bits with words of max_bits - 1 bits (C28_small_order_panics_refuted) and the estimate omits two constraints of a non-strict comparison (C28_estimate_not_exact_refuted). Proved: exact panic criterion, no panic for max_bits >= 7 or full-width words, no wrap, optimal width, exact counts for split and comparisons. The exact criterion for all lengths is C89."
  },
  {
   "property": "C29",
   "status": "proved",
   "theorems": [
    "C29_summation_sound",
    "C29_sum_sound",
    "C29_ignoring_overflow_sound",
    "C29_asserting_no_overflow_sound",
    "C29_summation_complete",
    "C29_sum_complete"
   ],
   "note": ""
  },
  {
   "property": "C30",
   "status": "partial",
   "theorems": [
    "C30_sum_width_partial",
    "C30_sum_width_empty_refuted",
    "C30_summation_width"
   ],
   "note": "False for an empty operand (C30_sum_width_empty_refuted); proved for non-empty operands, and the exact width of a summation. The exact behaviour is C82."
  },
  {
   "property": "C31",
   "status": "proved",
   "theorems": [
    "C31_binary_assert_zero_sound",
    "C31_binary_assert_zero_complete",
    "C31_binary_assert_zero_order2"
   ],
   "note": ""
  },
  {
   "property": "C32",
   "status": "proved",
   "theorems": [
    "C32_bitwise_not_sound",
    "C32_bitwise_sound",
    "C32_different_lengths_panic",
    "C32_bitwise_complete"
   ],
   "note": ""
  },
  {
   "property": "C33",
   "status": "partial",
   "theorems": [
    "C33_rotate_inc",
    "C33_rotate_dec",
    "C33_rotations_inverse",
    "C33_shift_inc",
    "C33_shift_dec_partial",
    "C33_shift_dec_panics_refuted"
   ],
   "note": "bin shift_dec panics for n > length (C33_shift_dec_panics_refuted); everything else proved. The exact behaviour is C82."
  },
  {
   "property": "C34",
   "status": "proved",
   "theorems": [
    "C34_from",
    "C34_truncate",
    "C34_pad",
    "C34_chunks",
    "C34_concat",
    "C34_add_most_significant",
    "C34_join"
   ],
   "note": ""
  },
  {
   "property": "C35",
   "status": "partial",
   "theorems": [
    "C35_join_allowing_overflow_partial",
    "C35_join_allowing_overflow_panics_refuted"
   ],
   "note": "join_allowing_overflow panics for more than max_bits bits (order > 2): C35_*_panics_refuted. Proved for at most max_bits bits. The exact behaviour is C82."
  },
  {
   "property": "C36",
   "status": "proved",
   "theorems": [
    "C36_random_access_sound",
    "C36_index_bits",
    "C36_random_access_complete",
    "C36_random_access_empty_panics"
   ],
   "note": ""
  },
  {
   "property": "C37",
   "status": "partial",
   "theorems": [
    "C37_random_access_value_partial",
    "C37_random_access_never_zero_refuted"
   ],
   "note": "False as stated: an out-of-range index selects one of the items, never 0 (C37_random_access_never_zero_refuted). Proved: exactly which item."
  },
  {
   "property": "C38",
   "status": "proved",
   "theorems": [
    "C38_assert_permutation_sound",
    "C38_assert_permutation_panics"
   ],
   "note": ""
  },
  {
   "property": "C39",
   "status": "proved",
   "theorems": [
    "C39_assert_permutation_complete",
    "C39_assert_permutation_satisfiable",
    "C39_assert_permutation_rejects"
   ],
   "note": ""
  },
  {
   "property": "C40",
   "status": "partial",
   "theorems": [
    "C40_sort_complete",
    "C40_sort_permutation_sound",
    "C40_order_not_enforced_refuted",
    "C40_empty_panics"
   ],
   "note": "The sorted-order half of the soundness claim is false: every rearrangement of the inputs satisfies the constraints (C40_order_not_enforced_refuted), because assert_le_binary accepts everything. Proved: execute returns the sorted rearrangement for every non-empty list, and outputs are always a permutation of the inputs."
  },
  {
   "property": "C41",
   "status": "proved",
   "theorems": [
    "C41_bimap"
   ],
   "note": ""
  },
  {
   "property": "C42",
   "status": "partial",
   "theorems": [
    "C42_new",
    "C42_permute",
    "C42_injective",
    "C42_inverse_of_permute",
    "C42_permute_of_inverse",
    "C42_runs_partial",
    "C42_inverse_of_one_panics_refuted",
    "C42_new_exact"
   ],
   "note": "False for n = 1, which new accepts but whose inverse panics on every builder (C42_inverse_of_one_panics_refuted). Everything proved for 2 <= n < order; soundness, injectivity and the criterion of new also for n = 1. C42_new_exact: new succeeds exactly when x^n permutes the field. The exact behaviour is C83."
  },
  {
   "property": "C43",
   "status": "proved",
   "theorems": [
    "C43_new",
    "C43_encrypt_value",
    "C43_decrypt_encrypt",
    "C43_runs",
    "C43_permutation",
    "C43_shipped_fields_panic"
   ],
   "note": "Note: new panics for the two shipped fields because 3 divides order - 1 (C43_shipped_fields_panic)."
  },
  {
   "property": "C44",
   "status": "proved",
   "theorems": [
    "C44_davies_meyer",
    "C44_miyaguchi_preneel",
    "C44_mimc_runs",
    "C44_mimc_computes"
   ],
   "note": ""
  },
  {
   "property": "C45",
   "status": "proved",
   "theorems": [
    "C45_value",
    "C45_collision",
    "C45_gadget_collision",
    "C45_mimc_runs",
    "C45_too_long_never_ok"
   ],
   "note": "A collision is exhibited among the compression calls made while hashing the two messages."
  },
  {
   "property": "C46",
   "status": "proved",
   "theorems": [
    "C46_root_value",
    "C46_membership_sound",
    "C46_membership_complete",
    "C46_mimc_membership_complete",
    "C46_same_index_collision",
    "C46_tree_binding",
    "C46_tree_path",
    "C46_path_new"
   ],
   "note": "Also binding against a full binary tree (C46_tree_binding)."
  },
  {
   "property": "C47",
   "status": "partial",
   "theorems": [
    "C47_new",
    "C47_value",
    "C47_prefix",
    "C47_padding_same_length_partial",
    "C47_padding_confuses_refuted",
    "C47_zero_bitrate_panics",
    "C47_poseidon_runs",
    "C47_new_shipped",
    "C47_new_runs"
   ],
   "note": "The last clause is false: appending a zero to an input whose last block is not full never changes the hash (C47_padding_confuses_refuted). Proved: value, exact output length, prefixes, injectivity of padding for inputs of equal length, execution. The exact behaviour is C83."
  },
  {
   "property": "C48",
   "status": "partial",
   "theorems": [
    "C48_value_partial",
    "C48_expression_value_partial",
    "C48_only_diagonal_refuted",
    "C48_new"
   ],
   "note": "False as stated: component i is v[i] times the sum of row i (C48_value_partial, C48_expression_value_partial); right on all vectors only for diagonal matrices (C48_only_diagonal_refuted). The exact behaviour is C83."
  },
  {
   "property": "C49",
   "status": "partial",
   "theorems": [
    "C49_poseidon_value",
    "C49_poseidon_runs",
    "C49_rescue_value",
    "C49_no_diffusion_refuted",
    "C49_sponge_lanes_refuted",
    "C49_zero_fixed_refuted",
    "C49_inverse_panics_refuted",
    "C49_inverse_evaluate_refuted"
   ],
   "note": "Diffusion and the inverse are false: every lane is processed separately (C49_no_diffusion_refuted, C49_sponge_lanes_refuted), the zero state is a fixed point, inverse always panics. Proved: the value of permute for all parameters and that execute succeeds. The exact behaviour is C83."
  },
  {
   "property": "C50",
   "status": "proved",
   "theorems": [
    "C50_element_in_field",
    "C50_below_limit",
    "C50_deterministic",
    "C50_no_panic",
    "C50_diverges_refuted"
   ],
   "note": "Range and determinism proved; next_biguint may run forever (C50_diverges_refuted), which the statement does not exclude."
  },
  {
   "property": "C51",
   "status": "proved",
   "theorems": [
    "C51_complete_and_closed",
    "C51_group_law",
    "C51_add_runs",
    "C51_double_runs",
    "C51_elements",
    "C51_sum_unconstrained_refuted"
   ],
   "note": "Honest evaluation of the gadgets and the full group law. The gadgets do not constrain their result (C51_sum_unconstrained_refuted), which the statement does not claim."
  },
  {
   "property": "C52",
   "status": "proved",
   "theorems": [
    "C52_point_new",
    "C52_expression_sound",
    "C52_expression_satisfiable",
    "C52_expression_runs",
    "C52_of_coordinates"
   ],
   "note": ""
  },
  {
   "property": "C53",
   "status": "partial",
   "theorems": [
    "C53_scalar_runs",
    "C53_scalar_element",
    "C53_boolean_runs",
    "C53_product_unconstrained_refuted"
   ],
   "note": "First half proved for every scalar, point and curve with the hypotheses of C51. The second half is false: the constraints accept any result (C53_product_unconstrained_refuted)."
  },
  {
   "property": "C54",
   "status": "partial",
   "theorems": [
    "C54_valid_accepted",
    "C54_accepted_only_if",
    "C54_forgery_refuted",
    "C54_invalid_accepted_refuted"
   ],
   "note": "False as stated: any (s, H(c, m)) is accepted for every key (C54_forgery_refuted, concrete instance C54_invalid_accepted_refuted). Proved: valid signatures are accepted by execute; the exact condition the constraints enforce (C54_accepted_only_if)."
  },
  {
   "property": "C55",
   "status": "partial",
   "theorems": [
    "C55_compress",
    "C55_permute",
    "C55_mimc",
    "C55_monomial",
    "C55_merkle_damgard",
    "C55_poseidon",
    "C55_rescue",
    "C55_inverse_permutation_partial",
    "C55_inverse_permutation_refuted"
   ],
   "note": "Proved for all modelled gadgets except InversePermutation at 0, where the gadget accepts any result (C55_inverse_permutation_refuted)."
  },
  {
   "property": "C56",
   "status": "proved",
   "theorems": [
    "C56_bn128_prime",
    "C56_bls12_381_prime"
   ],
   "note": ""
  },
  {
   "property": "C57",
   "status": "proved",
   "theorems": [
    "C57_jubjub_complete",
    "C57_jubjub_group"
   ],
   "note": ""
  },
  {
   "property": "C58",
   "status": "partial",
   "theorems": [
    "C58_concat",
    "C58_join_partial",
    "C58_join_exact",
    "C58_join_refuted"
   ],
   "note": "concat proved; join drops separators after leading empty items (C58_join_refuted, exact behaviour C58_join_exact); right when the first item is not empty. The exact behaviour is C81."
  },
  {
   "property": "C59",
   "status": "partial",
   "theorems": [
    "C59_jubjub_odd_multiples",
    "C59_prime_order_refuted"
   ],
   "note": "False: no prime multiple of the generator is the identity (C59_prime_order_refuted); the order is 8r. Proved: every odd multiple of the generator is non-zero (C59_jubjub_odd_multiples)."
  },
  {
   "property": "C60",
   "status": "partial",
   "theorems": [
    "C60_signed_accepted",
    "C60_field_arithmetic_refuted"
   ],
   "note": "True when s is reduced modulo a multiple of the order of the generator (C60_signed_accepted). False for the recipe of the repository's test, which computes s in the field (C60_field_arithmetic_refuted). The exact criterion is C88."
  },
  {
   "property": "C61",
   "status": "proved",
   "theorems": [
    "C61_sound",
    "C61_deterministic",
    "C61_complete",
    "C61_rejects",
    "C61_extends_iff"
   ],
   "note": ""
  },
  {
   "property": "C62",
   "status": "partial",
   "theorems": [
    "C62_network_size",
    "C62_permutation_exact",
    "C62_permutation_bounds",
    "C62_exponentiation",
    "C62_quotient_two",
    "C62_quotient_unsafe_single_refuted",
    "C62_edwards_add_seven_refuted",
    "C62_edwards_bounds"
   ],
   "note": "Proved for assert_permutation (exact count on distinct wires, bounds for arbitrary expressions), quotient and exponentiation. The documentation is wrong about quotient_unsafe (no constraint: C62_quotient_unsafe_single_refuted) and Edwards addition (five: C62_edwards_add_seven_refuted). The exact behaviour is C84."
  },
  {
   "property": "C63",
   "status": "proved",
   "theorems": [
    "C63_field_gadgets",
    "C63_tests",
    "C63_boolean_gadgets",
    "C63_assertions"
   ],
   "note": ""
  },
  {
   "property": "C64",
   "status": "proved",
   "theorems": [
    "C64_compare",
    "C64_compare_binary",
    "C64_assert_compare",
    "C64_assert_compare_binary"
   ],
   "note": ""
  },
  {
   "property": "C65",
   "status": "proved",
   "theorems": [
    "C65_division"
   ],
   "note": ""
  },
  {
   "property": "C66",
   "status": "proved",
   "theorems": [
    "C66_splitting",
    "C66_random_access",
    "C66_permutation",
    "C66_sorting"
   ],
   "note": ""
  },
  {
   "property": "C67",
   "status": "proved",
   "theorems": [
    "C67_curve",
    "C67_schnorr"
   ],
   "note": ""
  },
  {
   "property": "C68",
   "status": "proved",
   "theorems": [
    "C68_partial_search",
    "C68_search",
    "C68_exponentiation",
    "C68_inverse",
    "C68_terminates",
    "C68_minimal",
    "C68_padding",
    "C68_padded_secure",
    "C68_inverse_padded_secure",
    "C68_build"
   ],
   "note": ""
  },
  {
   "property": "C69",
   "status": "proved",
   "theorems": [
    "C69_element",
    "C69_expression",
    "C69_constraint",
    "C69_wire"
   ],
   "note": ""
  },
  {
   "property": "C70",
   "status": "proved",
   "theorems": [
    "C70_shift",
    "C70_shift_sum",
    "C70_literals"
   ],
   "note": ""
  },
  {
   "property": "C71",
   "status": "proved",
   "theorems": [
    "C71_instance",
    "C71_execute"
   ],
   "note": ""
  },
  {
   "property": "C72",
   "status": "proved",
   "theorems": [
    "C72_cube_sound",
    "C72_cube_runs",
    "C72_power_agrees"
   ],
   "note": ""
  },
  {
   "property": "C73",
   "status": "partial",
   "theorems": [
    "C73_hash_value",
    "C73_hash_runs",
    "C73_shipped_fields_refuted",
    "C73_initial_state_is_first_constant"
   ],
   "note": "Exact fields: C92. The first half is false: on both shipped fields the function always panics because 3 divides p - 1 (C73_shipped_fields_refuted). The value is proved for all fields where MiMC exists."
  },
  {
   "property": "C74",
   "status": "proved",
   "theorems": [
    "C74_values",
    "C74_boolean_values",
    "C74_binary_values"
   ],
   "note": ""
  },
  {
   "property": "C75",
   "status": "proved",
   "theorems": [
    "C75_default_sbox",
    "C75_poseidon_permutation_iff",
    "C75_rescue_permutation_iff",
    "C75_sboxes",
    "C75_poseidon_binding",
    "C75_rescue_binding",
    "C75_mds_not_enough_refuted"
   ],
   "note": "C75_mds_not_enough_refuted proves the last sentence of the statement: an MDS matrix for which the function is not injective. C75_default_sbox: the S-box chosen by default is always a permutation."
  },
  {
   "property": "C76",
   "status": "proved",
   "theorems": [
    "C76_one_origin",
    "C76_any_order",
    "C76_all_wires_set"
   ],
   "note": ""
  },
  {
   "property": "C77",
   "status": "proved",
   "theorems": [
    "C77_acyclic",
    "C77_never_stuck"
   ],
   "note": ""
  },
  {
   "property": "C78",
   "status": "proved",
   "theorems": [
    "C78_alpha",
    "C78_alpha_refuted",
    "C78_rounds",
    "C78_build",
    "C78_default_binding"
   ],
   "note": "C78_alpha_refuted proves the exceptions named in the statement (orders 7, 2 and 3)."
  },
  {
   "property": "C79",
   "status": "proved",
   "theorems": [
    "C79_rounds",
    "C79_default",
    "C79_permutation",
    "C79_permutation_runs"
   ],
   "note": ""
  },
  {
   "property": "C80",
   "status": "proved",
   "theorems": [
    "C80_order",
    "C80_same_multiple",
    "C80_prime_subgroup",
    "C80_signed_accepted",
    "C80_second_signature"
   ],
   "note": ""
  },
  {
   "property": "C81",
   "status": "proved",
   "theorems": [
    "C81_is_prime",
    "C81_is_prime_small",
    "C81_sum_of_wires",
    "C81_product",
    "C81_join"
   ],
   "note": ""
  },
  {
   "property": "C82",
   "status": "proved",
   "theorems": [
    "C82_sum_width",
    "C82_shift_dec",
    "C82_join_allowing_overflow"
   ],
   "note": ""
  },
  {
   "property": "C83",
   "status": "proved",
   "theorems": [
    "C83_padding",
    "C83_sponge_collisions",
    "C83_monomial",
    "C83_matrix",
    "C83_lanes"
   ],
   "note": ""
  },
  {
   "property": "C84",
   "status": "proved",
   "theorems": [
    "C84_tests",
    "C84_boolean",
    "C84_splitting",
    "C84_words",
    "C84_mimc",
    "C84_modes",
    "C84_poseidon",
    "C84_rescue",
    "C84_sponge",
    "C84_sort",
    "C84_schnorr"
   ],
   "note": ""
  },
  {
   "property": "C85",
   "status": "proved",
   "theorems": [
    "C85_sound",
    "C85_deterministic",
    "C85_complete",
    "C85_rejects",
    "C85_extends_iff",
    "C85_bits"
   ],
   "note": ""
  },
  {
   "property": "C86",
   "status": "proved",
   "theorems": [
    "C86_arithmetic",
    "C86_boolean",
    "C86_words",
    "C86_access",
    "C86_monomial",
    "C86_mimc",
    "C86_compression",
    "C86_hashes",
    "C86_lanes",
    "C86_circuits",
    "C86_unique",
    "C86_executed",
    "C86_nonzero_leaves_freedom",
    "C86_permutation_leaves_freedom",
    "C86_compare_leaves_freedom"
   ],
   "note": ""
  },
  {
   "property": "C87",
   "status": "proved",
   "theorems": [
    "C87_equalities",
    "C87_comparisons",
    "C87_word_comparisons",
    "C87_words",
    "C87_membership",
    "C87_point",
    "C87_signature",
    "C87_panics",
    "C87_permutation"
   ],
   "note": ""
  },
  {
   "property": "C88",
   "status": "proved",
   "theorems": [
    "C88_same_height",
    "C88_decided",
    "C88_field_recipe",
    "C88_test_setting",
    "C88_repository_test"
   ],
   "note": ""
  },
  {
   "property": "C89",
   "status": "proved",
   "theorems": [
    "C89_criterion",
    "C89_longest",
    "C89_first_failure",
    "C89_shipped_fields"
   ],
   "note": ""
  },
  {
   "property": "C90",
   "status": "proved",
   "theorems": [
    "C90_terminates",
    "C90_preset_refused",
    "C90_router_accepts",
    "C90_missing"
   ],
   "note": ""
  },
  {
   "property": "C91",
   "status": "proved",
   "theorems": [
    "C91_period",
    "C91_all_states",
    "C91_low_bits",
    "C91_bound",
    "C91_terminates_iff",
    "C91_up_to_96_bits",
    "C91_97_bits",
    "C91_shipped_fields"
   ],
   "note": ""
  },
  {
   "property": "C92",
   "status": "proved",
   "theorems": [
    "C92_next_element",
    "C92_usable",
    "C92_unusable",
    "C92_too_long",
    "C92_bit_lengths"
   ],
   "note": ""
  },
  {
   "property": "C93",
   "status": "proved",
   "theorems": [
    "C93_reduction",
    "C93_capacity_constant",
    "C93_second_preimage",
    "C93_poseidon_collision",
    "C93_rescue_collision"
   ],
   "note": ""
  },
  {
   "property": "C94",
   "status": "proved",
   "theorems": [
    "C94_excess",
    "C94_version",
    "C94_same",
    "C94_checked",
    "C94_fits",
    "C94_circuit",
    "C94_at_the_limit"
   ],
   "note": ""
  },
  {
   "property": "C95",
   "status": "proved",
   "theorems": [
    "C95_mimc",
    "C95_poseidon_3",
    "C95_poseidon_5",
    "C95_shipped",
    "C95_inverse"
   ],
   "note": ""
  },
  {
   "property": "C96",
   "status": "proved",
   "theorems": [
    "C96_passes",
    "C96_execute",
    "C96_results_first",
    "C96_one_pass"
   ],
   "note": ""
  },
  {
   "property": "C97",
   "status": "proved",
   "theorems": [
    "C97_generates",
    "C97_number_of_points",
    "C97_every_point_is_a_key",
    "C97_constrained_points",
    "C97_cofactor",
    "C97_verification"
   ],
   "note": ""
  },
  {
   "property": "C98",
   "status": "proved",
   "theorems": [
    "C98_same_commitment",
    "C98_secret_revealed",
    "C98_shifted_key",
    "C98_eight_keys"
   ],
   "note": ""
  },
  {
   "property": "C99",
   "status": "proved",
   "theorems": [
    "C99_shorter",
    "C99_inner_node",
    "C99_longer",
    "C99_membership",
    "C99_inner_node_accepted"
   ],
   "note": ""
  },
  {
   "property": "C100",
   "status": "proved",
   "theorems": [
    "C100_davies_meyer",
    "C100_miyaguchi_preneel",
    "C100_exists",
    "C100_expandable",
    "C100_merkle_damgard",
    "C100_merkle_tree",
    "C100_merkle_tree_right"
   ],
   "note": ""
  },
  {
   "property": "C101",
   "status": "proved",
   "theorems": [
    "C101_rescue_value",
    "C101_rescue_sponge_linear",
    "C101_poseidon_value",
    "C101_poseidon_inverse_linear",
    "C101_poseidon_multiplicative"
   ],
   "note": ""
  },
  {
   "property": "C102",
   "status": "proved",
   "theorems": [
    "C102_value",
    "C102_evaluate",
    "C102_circuit"
   ],
   "note": ""
  },
  {
   "property": "C103",
   "status": "proved",
   "theorems": [
    "C103_satisfied",
    "C103_execute",
    "C103_anywhere",
    "C103_operations",
    "C103_words",
    "C103_networks",
    "C103_crypto",
    "C103_curve",
    "C103_circuit"
   ],
   "note": ""
  },
  {
   "property": "C104",
   "status": "proved",
   "theorems": [
    "C104_boolean",
    "C104_inverse",
    "C104_nonzero",
    "C104_product",
    "C104_execute"
   ],
   "note": ""
  },
  {
   "property": "C105",
   "status": "proved",
   "theorems": [
    "C105_exchange",
    "C105_operations",
    "C105_words",
    "C105_networks",
    "C105_crypto",
    "C105_curve",
    "C105_circuit"
   ],
   "note": ""
  },
  {
   "property": "C106",
   "status": "proved",
   "theorems": [
    "C106_carried",
    "C106_exactly"
   ],
   "note": ""
  },
  {
   "property": "C107",
   "status": "proved",
   "theorems": [
    "C107_replaced",
    "C107_updates",
    "C107_honest"
   ],
   "note": ""
  },
  {
   "property": "C108",
   "status": "proved",
   "theorems": [
    "C108_again",
    "C108_agree",
    "C108_disagree"
   ],
   "note": ""
  },
  {
   "property": "C109",
   "status": "proved",
   "theorems": [
    "C109_exact",
    "C109_honest",
    "C109_remainders"
   ],
   "note": ""
  },
  {
   "property": "C110",
   "status": "proved",
   "theorems": [
    "C110_exact",
    "C110_honest"
   ],
   "note": ""
  },
  {
   "property": "C111",
   "status": "proved",
   "theorems": [
    "C111_words",
    "C111_elements"
   ],
   "note": ""
  },
  {
   "property": "C112",
   "status": "proved",
   "theorems": [
    "C112_addition",
    "C112_scalar",
    "C112_readings",
    "C112_signature",
    "C112_forgery_rejected"
   ],
   "note": ""
  },
  {
   "property": "C113",
   "status": "proved",
   "theorems": [
    "C113_checked",
    "C113_padded"
   ],
   "note": ""
  },
  {
   "property": "C114",
   "status": "proved",
   "theorems": [
    "C114_confused_exactly",
    "C114_marked_injective",
    "C114_marked"
   ],
   "note": ""
  },
  {
   "property": "C115",
   "status": "proved",
   "theorems": [
    "C115_scalar_sound",
    "C115_scalar_complete",
    "C115_signature",
    "C115_checked_curve",
    "C115_affine"
   ],
   "note": ""
  },
  {
   "property": "C116",
   "status": "proved",
   "theorems": [
    "C116_product",
    "C116_value",
    "C116_runs",
    "C116_permutation_iff",
    "C116_diffusion"
   ],
   "note": ""
  },
  {
   "property": "C117",
   "status": "proved",
   "theorems": [
    "C117_sbox",
    "C117_inverse",
    "C117_round_trip",
    "C117_runs"
   ],
   "note": ""
  },
  {
   "property": "C118",
   "status": "proved",
   "theorems": [
    "C118_value",
    "C118_round_trip",
    "C118_diffusion"
   ],
   "note": ""
  },
  {
   "property": "C119",
   "status": "proved",
   "theorems": [
    "C119_any_sbox",
    "C119_inverse_sbox",
    "C119_library_zero"
   ],
   "note": ""
  },
  {
   "property": "C120",
   "status": "proved",
   "theorems": [
    "C120_accepted",
    "C120_lanes",
    "C120_short",
    "C120_idle",
    "C120_enough_poseidon",
    "C120_enough_rescue",
    "C120_extra",
    "C120_width"
   ],
   "note": ""
  }
 ]
}