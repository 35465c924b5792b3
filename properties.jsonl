{"id": "C01", "title": "Field element arithmetic is exact arithmetic modulo the field order", "statement": "For every Field whose order is at least 2 and all elements x, y: x+y, x-y, x*y and -x return (without panicking) the unique element in [0, order) congruent to the integer result modulo the order; Element::from(n) succeeds exactly when n < order.", "quantifier": "all field orders >= 2 and all pairs of elements", "why_tests_cant": "the operand space is of size order^2 for a 254-bit order, and for every order", "anchors": ["src/field.rs: Element::from(BigUint), Neg, Add, Sub, Mul, zero, one, largest_element"]}
{"id": "C02", "title": "Multiplicative inverse and division are total exactly on non-zero divisors", "statement": "For a Field of odd prime order, x.multiplicative_inverse() panics exactly when x = 0, otherwise it returns the element y with x*y = 1; multiplicative_inverse_or_zero() returns 0 for 0 and the inverse otherwise; (a / b) * b = a for every b != 0.", "quantifier": "all odd prime field orders, all elements", "why_tests_cant": "the claim is a universally quantified algebraic identity (Fermat's little theorem), not a finite table", "anchors": ["src/field.rs: Element::multiplicative_inverse, multiplicative_inverse_or_zero, exponentiation, Div"]}
{"id": "C03", "title": "gcd and integer helpers on elements agree with the integers", "statement": "x.gcd(y) terminates and returns the greatest common divisor of the integer representatives; integer_division and integer_modulus agree with integer quotient and remainder and x = (x div y)*y + (x mod y).", "quantifier": "all field orders and all pairs of elements", "why_tests_cant": "termination and correctness for every pair of 254-bit integers", "anchors": ["src/field.rs: Element::gcd, integer_division, integer_modulus"]}
{"id": "C04", "title": "Element::is_prime decides primality", "statement": "x.is_prime() returns true exactly when the integer representative of x is a prime number.", "quantifier": "all field orders and all elements", "why_tests_cant": "a test tries a handful of numbers; the loop squares its candidate in the field, so the answer depends on wrap-around that only shows for elements near the order (and 0 and 1 are special)", "anchors": ["src/field.rs: Element::is_prime"]}
{"id": "C05", "title": "Bit accessors describe the canonical integer", "statement": "For every element x the bits returned by x.bit(i) for i < max_bits() sum to x with weights 2^i, bits at or beyond x.bits() are all zero, bits() is minimal, and max_bits() is the least width that can hold every element of the field.", "quantifier": "all field orders, all elements, all bit positions", "why_tests_cant": "unbounded number of positions and elements", "anchors": ["src/field.rs: Element::bit, bits, max_bits"]}
{"id": "C06", "title": "Linear-combination arithmetic is a homomorphism under evaluation", "statement": "For every assignment of the wires, evaluating e1+e2, e1-e2, -e, e*c, e/c, Expression::from(c), Expression::from(wire), sum_of_expressions(es) yields the same field operation applied to the evaluated operands.", "quantifier": "all expressions, all constants, all wire assignments, all prime orders", "why_tests_cant": "infinitely many expressions and assignments; errors (e.g. cancelled terms or the constant wire) only show on particular coefficient overlaps", "anchors": ["src/expression.rs: Expression::new, sum_of_expressions, evaluate, Neg, Add, Sub, Mul, Div"]}
{"id": "C07", "title": "Expressions are canonical", "statement": "Every expression constructible through the public API stores each wire at most once, in order, with a non-zero coefficient; consequently two expressions are equal (==) exactly when they evaluate equally under every assignment, and dependencies() lists exactly the wires the value depends on.", "quantifier": "all expressions reachable through the API, all assignments", "why_tests_cant": "equality under all assignments is not testable; canonicity must survive every sequence of operations", "anchors": ["src/expression.rs: Expression::new, Add, Mul, dependencies, as_constant, num_terms"]}
{"id": "C08", "title": "sum_of_wires adds the listed wires", "statement": "Expression::sum_of_wires(ws) evaluates to the sum of the values of the wires in the list ws (as its documentation says: the sum of the given wires).", "quantifier": "all lists of wires (including repeated wires) and all assignments", "why_tests_cant": "tests use distinct wires; the claim is about every list", "anchors": ["src/expression.rs: Expression::sum_of_wires"]}
{"id": "C09", "title": "Witness values are write-once and the constant wire is always 1", "statement": "In every WireValues reachable from new() by any sequence of non-panicking set/set_boolean/set_binary_unsigned calls, Wire::ONE has value 1, a wire that has a value never changes it, setting an already-set wire panics, and a set changes no other wire.", "quantifier": "all sequences of calls, all wires, all values", "why_tests_cant": "ranges over call histories", "anchors": ["src/wire_values.rs: WireValues::new, get, set, set_boolean, set_binary_unsigned, contains"]}
{"id": "C10", "title": "The builder hands out fresh wires and never forgets a constraint", "statement": "Every wire returned by a GadgetBuilder is new (different from Wire::ONE and from every wire handed out before), and no gadget method ever removes or changes a constraint or generator that was added before: the constraints of the built gadget are exactly the concatenation, in call order, of what each call added.", "quantifier": "all sequences of calls to the modelled gadget methods, from any builder state", "why_tests_cant": "ranges over all call histories; a dropped constraint is invisible to positive tests", "anchors": ["src/gadget_builder.rs: GadgetBuilder::new, wire, wires, generator, assert_product, build"]}
{"id": "C11", "title": "Gadget::execute terminates, never overwrites inputs and reports exactly constraint satisfaction", "statement": "For every gadget (with arbitrary generators that only add values) and every initial WireValues, execute makes finitely many passes; if it does not panic, every generator has run exactly once after all its declared dependencies were available, the initial values are all preserved, and the returned boolean is true exactly when every constraint holds on the final values. It panics if some generator can never run.", "quantifier": "all gadgets, all generators, all initial values", "why_tests_cant": "ranges over all generator behaviours and all dependency graphs", "anchors": ["src/gadget.rs: Gadget::execute", "src/constraint.rs: Constraint::evaluate"]}
{"id": "C12", "title": "The witness computed by execute does not depend on the order of the generators", "statement": "If the generators of a gadget are functions of their declared dependencies (they read only those wires and write a fixed set of wires), then reordering the generators of a gadget in any way leaves the outcome of execute unchanged: the same final value on every wire, the same boolean, or failure in both cases.", "quantifier": "all gadgets with dependency-determined generators, all permutations of the generator list, all initial values", "why_tests_cant": "ranges over all n! schedules of every gadget", "anchors": ["src/gadget.rs: Gadget::execute", "src/witness_generator.rs: WitnessGenerator"]}
{"id": "C13", "title": "product is sound and complete", "statement": "In every satisfying assignment of the built constraints, the value of the expression returned by product(x, y) is the field product of the values of x and y; conversely execute fills it in for every input; and multiplying by a constant expression adds no constraint.", "quantifier": "all builder states, all expressions x and y, all assignments, all prime orders", "why_tests_cant": "malicious assignments are not reachable by running execute; the set of all assignments is infinite", "anchors": ["src/field_arithmetic.rs: product", "src/gadget_builder.rs: assert_product"]}
{"id": "C14", "title": "exponentiation is sound and complete", "statement": "In every satisfying assignment, the expression returned by exponentiation(x, e) has value x^e (with x^0 = 1), for every element e; execute computes that value from every input.", "quantifier": "all exponents, all expressions, all assignments", "why_tests_cant": "unbounded exponent sizes and adversarial assignments", "anchors": ["src/field_arithmetic.rs: exponentiation"]}
{"id": "C15", "title": "inverse, assert_nonzero and assert_nonequal are sound and complete", "statement": "In every satisfying assignment, inverse(x) has value y with x*y = 1, so the constraints are unsatisfiable when x = 0; assert_nonzero(x) is satisfiable exactly when x != 0 and assert_nonequal(x, y) exactly when x != y; for the good inputs execute succeeds.", "quantifier": "all expressions, all assignments, all odd prime orders", "why_tests_cant": "unsatisfiability is a statement about all assignments", "anchors": ["src/field_arithmetic.rs: inverse", "src/gadget_builder.rs: assert_nonzero, assert_nonequal"]}
{"id": "C16", "title": "nonzero, zero and equal are sound and complete", "statement": "In every satisfying assignment nonzero(x) is 1 if x != 0 and 0 otherwise, zero(x) is its negation, and equal(x, y) is 1 exactly when x = y; execute finds such an assignment for every input.", "quantifier": "all expressions, all assignments, all odd prime orders", "why_tests_cant": "adversarial choice of the helper wire m cannot be enumerated by tests", "anchors": ["src/gadget_builder.rs: nonzero, zero, equal"]}
{"id": "C17", "title": "inverse_or_zero returns the inverse, or zero for zero", "statement": "In every satisfying assignment the value of inverse_or_zero(x) is the inverse of x when x != 0, and 0 when x = 0.", "quantifier": "all expressions, all assignments", "why_tests_cant": "the x = 0 case concerns adversarial assignments which execute never produces", "anchors": ["src/field_arithmetic.rs: inverse_or_zero", "src/permutations.rs: InversePermutation"]}
{"id": "C18", "title": "quotient is sound and complete", "statement": "In every satisfying assignment quotient(x, y) has value x/y and y != 0; execute produces it for every x and every y != 0.", "quantifier": "all expressions, all assignments, all odd prime orders", "why_tests_cant": "adversarial assignments", "anchors": ["src/field_arithmetic.rs: quotient"]}
{"id": "C19", "title": "quotient_unsafe is constrained to the quotient when it is not 0/0", "statement": "As its documentation says, quotient_unsafe(x, y) adds a constraint so that in every satisfying assignment with y != 0 its value is x/y.", "quantifier": "all expressions, all assignments", "why_tests_cant": "missing constraints are invisible to execute-based tests, since the honest prover always fills in the right quotient", "anchors": ["src/field_arithmetic.rs: quotient_unsafe"]}
{"id": "C20", "title": "modulus and divides are honest and sound", "statement": "execute computes modulus(x, y) = x mod y and divides(x, y) = (y mod x = 0) on integer representatives for every y != 0 (x != 0), and in every satisfying assignment the results have these values.", "quantifier": "all expressions, all assignments, all supported prime orders", "why_tests_cant": "soundness ranges over all assignments; the quotient is a field quotient so wrap-around matters", "anchors": ["src/field_arithmetic.rs: modulus, divides"]}
{"id": "C21", "title": "Boolean gadgets compute boolean logic", "statement": "For boolean operands, in every satisfying assignment and[x,y], or, xor, not and selection(c, x, y) evaluate to the boolean/conditional function of the operand values, results are again 0 or 1, and execute succeeds for all inputs.", "quantifier": "all boolean expressions, all assignments, all prime orders (odd for xor)", "why_tests_cant": "adversarial assignments and compound operands (e.g. xor of a wire with itself)", "anchors": ["src/boolean_algebra.rs: not, and, or, xor", "src/gadget_builder.rs: selection"]}
{"id": "C22", "title": "Boolean and binary wires are forced to 0/1", "statement": "assert_boolean(x) is satisfied exactly when the value of x is 0 or 1; hence every wire returned by boolean_wire or binary_wire, and every bit of it, is 0 or 1 in every satisfying assignment; assert_true, assert_false, assert_equal and assert_zero hold exactly when their condition holds.", "quantifier": "all expressions and assignments, all prime orders", "why_tests_cant": "statement about all assignments", "anchors": ["src/gadget_builder.rs: boolean_wire, binary_wire, assert_boolean, assert_true, assert_false, assert_equal, assert_zero"]}
{"id": "C23", "title": "split gives the unique canonical bit decomposition", "statement": "In every satisfying assignment, the binary expression returned by split(x) has exactly max_bits bits, each 0 or 1, and as an integer equals the canonical representative of x in [0, order): no alias x + order is accepted; execute produces it for every x.", "quantifier": "all expressions, all assignments, all prime orders for which the method does not panic", "why_tests_cant": "aliasing only affects values below 2^max_bits - order, and only for adversarial assignments", "anchors": ["src/splitting.rs: split", "src/comparisons.rs: assert_lt_binary"]}
{"id": "C24", "title": "split_bounded and split_allowing_ambiguity", "statement": "In every satisfying assignment, split_bounded(x, n) (which panics unless n < max_bits) yields n bits whose integer value is exactly x, so x < 2^n; split_allowing_ambiguity(x) yields max_bits bits whose integer value is x or x + order, and nothing else; execute produces the canonical one (for split_bounded, whenever x < 2^n, and panics/fails otherwise).", "quantifier": "all expressions, widths and assignments", "why_tests_cant": "adversarial assignments and all widths", "anchors": ["src/splitting.rs: split_bounded, split_allowing_ambiguity, split_without_range_check"]}
{"id": "C25", "title": "assert_lt and assert_gt enforce strict order", "statement": "assert_lt(x, y) (and assert_gt with swapped arguments, and the _binary forms on binary operands) can be satisfied only if the canonical integer of x is less than that of y; execute succeeds whenever x < y.", "quantifier": "all expressions, all assignments, all prime orders and widths for which the method does not panic", "why_tests_cant": "soundness is a statement about every assignment of dozens of helper wires", "anchors": ["src/comparisons.rs: assert_lt, assert_gt, assert_lt_binary, assert_gt_binary, cmp_binary, cmp_subtractive"]}
{"id": "C26", "title": "assert_le and assert_ge enforce non-strict order", "statement": "assert_le(x, y) (and assert_ge with swapped arguments, and the _binary forms) can be satisfied only if x <= y as canonical integers; execute succeeds whenever x <= y.", "quantifier": "all expressions, all assignments", "why_tests_cant": "needs adversarial assignments of the chunk-selection mask; execute-based tests cannot produce them", "anchors": ["src/comparisons.rs: assert_le, assert_ge, assert_le_binary, assert_ge_binary, cmp_binary"]}
{"id": "C27", "title": "lt, le, gt, ge return the comparison result", "statement": "execute makes lt/le/gt/ge(_binary) return 1 or 0 according to the order of the canonical integers for every input, and in every satisfying assignment the returned value is that comparison.", "quantifier": "all expressions, all assignments", "why_tests_cant": "adversarial assignments and 2^508 input pairs", "anchors": ["src/comparisons.rs: lt, le, gt, ge, lt_binary, le_binary, gt_binary, ge_binary, cmp, cmp_binary"]}
{"id": "C28", "title": "Comparisons do not panic while building, and chunking cannot wrap", "statement": "Building a comparison or split never panics for a prime field with max_bits >= 4 and for binary operands of equal non-zero length at most max_bits; the automatically chosen chunk width keeps every chunk difference and the mask sum below the order; and the number of constraints added equals the estimate used for the choice.", "quantifier": "all field orders and operand lengths", "why_tests_cant": "all field sizes and lengths; tests use a handful of fields", "anchors": ["src/comparisons.rs: cmp_binary, cmp_constraints, cmp_chunk_bits"]}
{"id": "C29", "title": "Binary sums are exact", "statement": "In every satisfying assignment, binary_summation(terms) (and binary_sum) has as integer value the exact sum of the integer values of the terms; the ignoring_overflow versions give the sum modulo 2^len; the asserting_no_overflow versions are satisfiable only if the sum fits; execute succeeds correspondingly for all inputs.", "quantifier": "all lists of binary expressions of one length, all assignments, all orders", "why_tests_cant": "all numbers and widths of terms; adversarial assignments", "anchors": ["src/binary_arithmetic.rs: binary_summation, binary_sum, binary_summation_ignoring_overflow, binary_summation_asserting_no_overflow"]}
{"id": "C30", "title": "binary_sum is one bit longer than its operands", "statement": "The result of binary_sum(x, y) has one bit more than the longer operand and binary_summation never returns fewer bits than needed.", "quantifier": "all operand widths including zero", "why_tests_cant": "all widths", "anchors": ["src/binary_arithmetic.rs: binary_sum, binary_summation"]}
{"id": "C31", "title": "binary_assert_zero forces every bit to zero", "statement": "binary_assert_zero(x) can be satisfied by bits in {0,1} only if every bit of x is 0, however many bits x has (no wrap-around of the summed bits), and is satisfied if they are.", "quantifier": "all widths, all assignments", "why_tests_cant": "wrap-around needs as many bits as the field order", "anchors": ["src/binary_arithmetic.rs: binary_assert_zero"]}
{"id": "C32", "title": "Bitwise gadgets agree with bitwise integer operations", "statement": "In every satisfying assignment, bitwise_not/and/or/xor of binary operands have the integer value of complement-in-width/land/lor/lxor of the operand values, with the same length; operands of different length panic; execute succeeds for all inputs.", "quantifier": "all widths, all operands, all assignments", "why_tests_cant": "all widths and adversarial assignments", "anchors": ["src/bitwise_operations.rs: bitwise_not, bitwise_and, bitwise_or, bitwise_xor"]}
{"id": "C33", "title": "Rotations and shifts agree with integer rotations and shifts", "statement": "bitwise_rotate_inc/dec_significance(x, n) are rotations by n modulo the length (mutually inverse); bitwise_shift_inc_significance(x, n) is multiplication by 2^n modulo 2^len and shift_dec is integer division by 2^n, for every n including n >= len.", "quantifier": "all widths, shift amounts and assignments", "why_tests_cant": "all widths and shift amounts", "anchors": ["src/bitwise_operations.rs: bitwise_rotate_inc_significance, bitwise_rotate_dec_significance, bitwise_shift_inc_significance, bitwise_shift_dec_significance"]}
{"id": "C34", "title": "BinaryExpression utilities preserve the represented integer", "statement": "BinaryExpression::from(n) evaluates to n with exactly n.bits() bits; truncate(l) takes the value modulo 2^l and panics when longer; pad preserves the value; chunks followed by concat is the identity and chunk values are the base-2^c digits; concat adds shifted values; join has the value as a field element and panics exactly when 2^len exceeds the order.", "quantifier": "all binary expressions, widths and assignments", "why_tests_cant": "all widths", "anchors": ["src/expression.rs: BinaryExpression::from(BigUint), truncate, pad, chunks, concat, join, evaluate"]}
{"id": "C35", "title": "join_allowing_overflow accepts any number of bits", "statement": "As documented, join_allowing_overflow joins a binary expression of any length into one expression whose value is the integer value of the bits modulo the order.", "quantifier": "all lengths", "why_tests_cant": "the failure only shows for lengths above max_bits", "anchors": ["src/expression.rs: BinaryExpression::join_allowing_overflow", "src/field.rs: Shl"]}
{"id": "C36", "title": "random_access returns the selected item", "statement": "In every satisfying assignment, random_access(items, index) has the value of items[i] where i is the value of index, for every i < items.len(); execute succeeds for those; an index that does not fit in the index bits is unsatisfiable.", "quantifier": "all item lists, all indices, all assignments", "why_tests_cant": "all list lengths (not only powers of two) and adversarial assignments", "anchors": ["src/random_access.rs: random_access, random_access_binary"]}
{"id": "C37", "title": "random_access out of range yields zero", "statement": "As documented, random_access(items, index) yields 0 if the index is out of range.", "quantifier": "all item lists and out-of-range indices", "why_tests_cant": "documentation claim about all list lengths; tests only use in-range indices", "anchors": ["src/random_access.rs: random_access"]}
{"id": "C38", "title": "assert_permutation is sound", "statement": "assert_permutation(a, b) can be satisfied only if the multiset of the values of a equals the multiset of the values of b (and panics while building if lengths differ).", "quantifier": "all list lengths, all expressions, all assignments of the switch wires", "why_tests_cant": "all lengths (odd and even recursive networks) and all switch settings", "anchors": ["src/verify_permutation.rs: assert_permutation, assert_permutation_2x2, assert_permutation_recursive, create_switch"]}
{"id": "C39", "title": "assert_permutation is complete: the network can be routed", "statement": "For every two lists of values where one is a permutation of the other (repetitions allowed), execute finds switch settings so that all constraints of assert_permutation hold; routing terminates and never panics. If the values are not a permutation of each other execute does not return true.", "quantifier": "all list lengths, all permutations, all value lists", "why_tests_cant": "n! permutations for every n; the routing algorithm's loop invariants are not visible to tests", "anchors": ["src/verify_permutation.rs: route, AsWaksmanNetwork generators", "src/bimap_util.rs: bimap_from_lists"]}
{"id": "C40", "title": "sort_ascending and sort_descending", "statement": "execute makes sort_ascending(inputs) return the non-decreasing rearrangement of the input values (sort_descending: non-increasing), for every non-empty list; in every satisfying assignment the outputs are a permutation of the inputs and are in sorted order.", "quantifier": "all list lengths, all values, all assignments", "why_tests_cant": "all lengths and adversarial assignments", "anchors": ["src/sorting.rs: sort_ascending, sort_descending"]}
{"id": "C41", "title": "bimap_from_lists finds a value-preserving bijection", "statement": "bimap_from_lists(a, b) returns a bijection f between the index sets with a[i] = b[f(i)] whenever b is a permutation of a (also with repeated values) and panics otherwise.", "quantifier": "all lists over any type with equality", "why_tests_cant": "all lists", "anchors": ["src/bimap_util.rs: bimap_from_lists"]}
{"id": "C42", "title": "MonomialPermutation is a permutation with the given inverse", "statement": "MonomialPermutation::new(n) panics unless gcd(n, order-1) = 1; when it succeeds permute is injective on the field (x^n), inverse(permute(x)) = x for every x, and inverse never panics.", "quantifier": "all odd prime orders, all exponents, all elements", "why_tests_cant": "all field elements and exponents; the search loop for the inverse exponent must terminate for every exponent", "anchors": ["src/permutations.rs: MonomialPermutation::new, permute, inverse"]}
{"id": "C43", "title": "MiMC decrypt inverts encrypt", "statement": "For every list of round constants and cube-compatible field, decrypt(key, encrypt(key, x)) = x and encrypt(key, decrypt(key, y)) = y in every satisfying assignment, and encrypt has the value of the mathematical MiMC iteration; execute succeeds for all inputs.", "quantifier": "all keys, messages, round counts and constants, all assignments", "why_tests_cant": "all keys, inputs and adversarial assignments", "anchors": ["src/mimc.rs: MiMCBlockCipher::new, encrypt, decrypt", "src/gadget_traits.rs: BlockCipher::encrypt_evaluate, decrypt_evaluate"]}
{"id": "C44", "title": "Davies-Meyer and Miyaguchi-Preneel compress as specified", "statement": "compress(x, y) of DaviesMeyer is E_y(x) + x and of MiyaguchiPreneel is E_x(y) + x + y in every satisfying assignment, for every block cipher gadget computing E.", "quantifier": "all block cipher gadgets, inputs and assignments", "why_tests_cant": "quantifies over all ciphers", "anchors": ["src/davies_meyer.rs: DaviesMeyer::compress", "src/miyaguchi_preneel.rs: MiyaguchiPreneel::compress"]}
{"id": "C45", "title": "Merkle-Damgard hashing is the length-strengthened fold and is collision resistant if the compression function is", "statement": "hash(blocks) evaluates to the left fold of the compression function over the initial value, the blocks and finally the number of blocks; two different block lists (of possibly different lengths below the order) with equal hash yield an explicit collision of the compression function.", "quantifier": "all compression functions, all block lists", "why_tests_cant": "a reduction over all messages; not a finite check", "anchors": ["src/merkle_damgard.rs: MerkleDamgard::hash"]}
{"id": "C46", "title": "Merkle tree roots bind the leaf and the index", "statement": "merkle_root evaluates to the hash path of the leaf, index bits and siblings; assert_merkle_tree_membership holds exactly if the recomputed root equals the given root; two different leaves with the same index bits (and path length) leading to the same root yield an explicit collision of the compression function.", "quantifier": "all compression functions, path lengths, leaves, siblings", "why_tests_cant": "all depths; reduction statement", "anchors": ["src/merkle_trees.rs: MerklePath, merkle_tree_step, merkle_tree_root, assert_merkle_tree_membership"]}
{"id": "C47", "title": "Sponge hashing is the specified absorb/squeeze function", "statement": "evaluate(inputs, n) of a Sponge has as value the zero-padded absorb / squeeze function of its permutation, returns exactly n outputs, shorter output requests are prefixes of longer ones, and differently long inputs give differently defined hashes (inputs are not confused by padding).", "quantifier": "all permutations, bitrates, capacities, input lists and output lengths", "why_tests_cant": "all input lengths and lists", "anchors": ["src/sponge.rs: Sponge::new, evaluate"]}
{"id": "C48", "title": "Matrix-vector multiplication", "statement": "&matrix * &vector returns the mathematical product: component i is the sum over j of m[i][j]*v[j].", "quantifier": "all matrices and vectors", "why_tests_cant": "all dimensions and entries (the existing tests only cover special shapes)", "anchors": ["src/matrices.rs: Mul for ElementMatrix and vector"]}
{"id": "C49", "title": "Poseidon and Rescue mix their state", "statement": "Every output of the Poseidon / Rescue permutation depends on every input lane (full diffusion), and permute computes the round function given by the parameters; the permutation's inverse is available.", "quantifier": "all parameter sets and inputs", "why_tests_cant": "dependence over all inputs", "anchors": ["src/poseidon.rs: Poseidon::permute, inverse", "src/rescue.rs: Rescue::permute, inverse", "src/matrices.rs: MdsMatrix"]}
{"id": "C50", "title": "LCG output is in range", "statement": "next_element yields an element of the field, next_element-derived bounded integers are below the limit, and the generator is deterministic: the same seed yields the same sequence.", "quantifier": "all states, all limits, all fields", "why_tests_cant": "all states", "anchors": ["src/lcg.rs: LCG"]}
{"id": "C51", "title": "Twisted Edwards addition is complete and closed, doubling is addition", "statement": "On a twisted Edwards curve whose a is a square and d a non-square, for any two points satisfying the curve equation the point produced by add_expressions (honestly evaluated) is defined (no division by zero), satisfies the curve equation, identity is neutral, the negation gives the identity, and double_expression agrees with adding a point to itself.", "quantifier": "all curves with such parameters, all points, all odd prime orders", "why_tests_cant": "algebraic identities over all points", "anchors": ["src/curves/edwards.rs: EdwardsGroup::add_expressions, double_expression, identity_element", "src/curves/jubjub.rs"]}
{"id": "C52", "title": "EdwardsPoint and EdwardsExpression constructors validate", "statement": "EdwardsPoint::new panics exactly when the coordinates do not satisfy the curve equation; EdwardsExpression::new adds constraints that are satisfiable exactly by points on the curve.", "quantifier": "all coordinates, all assignments", "why_tests_cant": "all assignments", "anchors": ["src/curves/edwards.rs: EdwardsPoint::new, EdwardsExpression::new"]}
{"id": "C53", "title": "Scalar multiplication is repeated addition", "statement": "execute makes mul_scalar_expression(P, s) evaluate to the s-fold sum of P, for every scalar s; and in every satisfying assignment the result is s*P.", "quantifier": "all scalars, points, assignments", "why_tests_cant": "all scalars", "anchors": ["src/group.rs: Group::mul_scalar_expression", "src/curves/edwards.rs"]}
{"id": "C54", "title": "Schnorr verification accepts only valid signatures", "statement": "verify(public_key, message, signature) is satisfiable only if the signature satisfies the Schnorr equation e = H(s*G + e*PK, m).", "quantifier": "all keys, messages, signatures, assignments", "why_tests_cant": "needs adversarial assignments", "anchors": ["src/signature.rs: SchnorrSignature::verify"]}
{"id": "C55", "title": "Gadget methods and their *_evaluate counterparts agree", "statement": "compress_evaluate, encrypt_evaluate, decrypt_evaluate, permute_evaluate, inverse_evaluate and hash_evaluate return the value that the corresponding gadget method has in every satisfying assignment.", "quantifier": "all inputs", "why_tests_cant": "all inputs and assignments", "anchors": ["src/gadget_traits.rs: *_evaluate"]}
{"id": "C56", "title": "The shipped field orders are prime", "statement": "The orders of Bn128 and Bls12_381 are prime numbers, so all results for prime orders apply to them.", "quantifier": "the two 254/255-bit constants (all potential divisors)", "why_tests_cant": "trial division of a 254-bit number is not feasible; needs a certificate", "anchors": ["src/field.rs: Bn128, Bls12_381"]}
{"id": "C57", "title": "JubJub parameters are safe for the complete addition law", "statement": "JubJub's a is a square and d is a non-square in the Bls12_381 scalar field and its subgroup generator lies on the curve, so that the complete addition theorem applies to it.", "quantifier": "the JubJub constants, all points of the curve", "why_tests_cant": "non-squareness quantifies over all field elements", "anchors": ["src/curves/jubjub.rs: JubJub::a, d, JubJubPrimeSubgroup::generator_element"]}
{"id": "C58", "title": "String join helper", "statement": "util::join(separator, items) is the concatenation of the items with the separator between consecutive items; util::concat is list concatenation.", "quantifier": "all lists of strings", "why_tests_cant": "all lists, including empty strings", "anchors": ["src/util.rs: join, concat"]}
{"id": "C59", "title": "JubJubPrimeSubgroup has prime order", "statement": "The generator of JubJubPrimeSubgroup generates a subgroup of prime order, as the type's name says: some prime multiple of it is the identity.", "quantifier": "all primes q (the order of the group is a 255-bit number)", "why_tests_cant": "the multiples of the generator cannot be enumerated", "anchors": ["src/curves/jubjub.rs: JubJubPrimeSubgroup::generator_element"]}
{"id": "C60", "title": "Honestly made Schnorr signatures verify", "statement": "For every secret key x, nonce k and message m, the signature (s, e) with e = H(compress(k g), m) and s = k - x e is accepted by Schnorr::verify for the public key x g.", "quantifier": "all curves with a complete addition law, all keys, nonces and messages", "why_tests_cant": "all keys and nonces; the repository's test ignores the result of execute", "anchors": ["src/signature.rs: Schnorr::verify and test verify"]}
{"id": "C61", "title": "Programs that combine gadgets mean what they say", "statement": "For every straight-line program of gadget calls (constants, linear combinations, products, quotients, powers, zero and equality tests, boolean operations, selection, bit extraction, and the zero/equal/nonzero/nonequal/boolean/less/greater assertions) whose boolean arguments are known to be bits: every satisfying assignment carries the values the program computes, execute succeeds with them when no assertion fails, and never reports success when one fails.", "quantifier": "all programs, all inputs, all builders, all assignments", "why_tests_cant": "all programs of every length, adversarial witnesses", "anchors": ["src/gadget_builder.rs", "src/field_arithmetic.rs", "src/boolean_algebra.rs", "src/comparisons.rs", "src/splitting.rs"]}
{"id": "C62", "title": "Documented numbers of constraints and switches", "statement": "assert_permutation on n distinct wires builds the AS-Waksman network with sum of ceil(log2 i) for i up to n switches (the documented 'roughly n log2 n - n': between n*ceil(log2 n) - 2n + 1 and n*ceil(log2 n) - n + 1), with two constraints for each switch and one equality for each item; quotient uses two constraints and quotient_unsafe one; Edwards addition uses seven; exponentiation by p uses one constraint for each squaring and each further set bit.", "quantifier": "all list lengths, all expressions, all exponents, all curves, all builders", "why_tests_cant": "recursion over every list length; no test counts constraints", "anchors": ["README.md:100", "src/verify_permutation.rs:24-132", "src/field_arithmetic.rs:39-126", "src/curves/edwards.rs:32-76"]}
{"id": "C63", "title": "Exact meaning of the field, test and boolean gadgets", "statement": "For product, exponentiation, inverse, quotient, inverse_or_zero, quotient_unsafe, nonzero, zero, equal, not, and, or, xor, selection and the corresponding assertions: the results (or operand values) that satisfying assignments admit are exactly the documented ones, each being reachable by extending any satisfying assignment of the constraints already present; the two unconstrained cases (inverse_or_zero at zero, quotient_unsafe) admit every field element.", "quantifier": "all prime fields, all builders, all operand expressions, all assignments, all results", "why_tests_cant": "both directions quantify over every witness, including adversarial ones", "anchors": ["src/field_arithmetic.rs:11-126", "src/boolean_algebra.rs:9-44", "src/gadget_builder.rs:62-159"]}
{"id": "C64", "title": "Exact meaning of the comparison gadgets", "statement": "What the constraints of comparisons accept, exactly: lt and gt may return 1 only if the comparison holds and may always return 0; le and ge may always return 1, and may return 0 only if the comparison fails or the operand that is split without a range check has a second representation; assert_lt and assert_gt are satisfiable exactly when the comparison holds; assert_le and assert_ge always. The same for the binary forms, without the second-representation case.", "quantifier": "all prime fields with at least four bits, all operands, all builders, all assignments, all results", "why_tests_cant": "adversarial witnesses; tests only run the honest generator", "anchors": ["src/comparisons.rs:16-248"]}
{"id": "C65", "title": "Exact meaning of modulus and divides", "statement": "The results satisfying assignments admit for modulus(x, y) are exactly the values below y, whatever x is; divides(x, y) admits 1 exactly when x is at least 1 and 0 exactly when x is at least 2.", "quantifier": "all prime fields with at least four bits, all operands, all builders, all assignments, all results", "why_tests_cant": "adversarial quotient and remainder witnesses", "anchors": ["src/field_arithmetic.rs:130-164"]}
{"id": "C66", "title": "Exact meaning of splitting, lookup, permutation and sorting", "statement": "split admits exactly the canonical bits, split_allowing_ambiguity exactly the bit lists of the value or of the value plus the order, split_bounded exactly the bits of the value; random_access admits exactly the item its selection tree reaches for an index of the right width; assert_permutation is satisfiable exactly on permutations; the sorting gadgets admit exactly the rearrangements of their inputs.", "quantifier": "all prime fields, all operands and list lengths, all builders, all assignments, all results", "why_tests_cant": "adversarial witnesses over every list length", "anchors": ["src/splitting.rs:10-52", "src/random_access.rs:17-72", "src/verify_permutation.rs:24-132", "src/sorting.rs:16-72"]}
{"id": "C67", "title": "Exact meaning of the curve gadgets and of Schnorr verification", "statement": "The constraints of Edwards addition, doubling and scalar multiplication admit every pair of field elements as the result; creating a point expression is satisfiable exactly on points of the curve; Schnorr verification of (s, e) is satisfiable exactly when e is the hash of some field element with the message.", "quantifier": "all prime fields of odd order, all curve parameters, all generators, hashes with a known value, keys, signatures and messages, all builders and assignments", "why_tests_cant": "adversarial witnesses", "anchors": ["src/curves/edwards.rs:32-147", "src/group.rs", "src/signature.rs:31-61"]}
{"id": "C68", "title": "Poseidon's default numbers of rounds are secure, least and padded as documented", "statement": "The brute-force search returns the least number of partial rounds that the attack criterion rejects as attackable, for any criterion; the outer search returns an even number of full rounds (at least 6) with no more S-boxes than any smaller choice. For the exponentiation S-boxes the result has the fewest S-boxes of all secure choices with at least 6 full rounds, is always 6 full rounds when the width is at least 2, and the search terminates; the 7.5 percent margin computed in double precision equals the exact product rounded to nearest; the padded numbers are still secure; explicit rounds and a security level exclude each other.", "quantifier": "all attack criteria, all thresholds, all widths, all security levels, all round numbers below 2^46", "why_tests_cant": "two nested unbounded searches and floating point rounding, over all parameters", "anchors": ["src/poseidon.rs:75-101", "src/poseidon.rs:190-302"]}
{"id": "C69", "title": "Printed forms are faithful", "statement": "Parsing the printed form of an element gives the element back; numbers not below the order panic and texts with other characters are errors. Two expressions made through the public interface print alike exactly when they have the same value under every assignment; two constraints that print alike are equal; distinct wires have distinct names.", "quantifier": "all field orders, all elements, expressions, constraints and wires", "why_tests_cant": "injectivity over unboundedly many expressions and constraints", "anchors": ["src/field.rs:200-206", "src/field.rs:497-501", "src/wire.rs:41-49", "src/expression.rs:436-457", "src/constraint.rs:25-41", "src/util.rs:22-31"]}
{"id": "C70", "title": "Shifts and integer literals never wrap around", "statement": "x << n is the exact integer x*2^n if that is below the order and panics otherwise, and shifts compose; multiplying or dividing an element by an integer literal panics exactly when the literal is not below the order (or, for division, is 0), and otherwise is multiplication or division in the field.", "quantifier": "all field orders, all elements, all shift distances and literals", "why_tests_cant": "boundary behaviour for every order and element", "anchors": ["src/field.rs:380-394", "src/field.rs:447-461", "src/field.rs:481-495"]}
{"id": "C71", "title": "What a builder collects is an R1CS instance", "statement": "For everything that has been built there are three matrices A, B, C over the field, with one row per constraint and one column per wire, whose entries are the coefficients in the constraints, such that a vector satisfies all constraints exactly when Aw o Bw = Cw; execute returns true exactly when the vector it produces, which extends the given values, satisfies this equation.", "quantifier": "all field orders, all builders, all vectors, all executions", "why_tests_cant": "quantifies over all vectors and all builders", "anchors": ["README.md:5-7", "src/constraint.rs:8-22", "src/gadget.rs:24-51"]}
{"id": "C72", "title": "The README's basic example computes the cube", "statement": "The gadget of the README's basic example forces its result to be x^3 in every satisfying assignment, executing it on any x returns true and x^3, and the shorter form by exponentiation has the same value.", "quantifier": "all prime fields, all inputs, all assignments", "why_tests_cant": "the example tests one input in one field", "anchors": ["README.md:40-62", "src/field_arithmetic.rs:11-59"]}
{"id": "C73", "title": "The README's hash function", "statement": "The hash function of the README (MiMC, Davies-Meyer, Merkle-Damgard with their defaults) can be used on the fields the library ships, and its value is the Merkle-Damgard hash over the Davies-Meyer compression function of MiMC with the LCG's constants.", "quantifier": "all prime fields, all numbers of blocks, all assignments", "why_tests_cant": "all fields and inputs; the crate's tests use small fields only", "anchors": ["README.md:86-95", "src/mimc.rs:25-43", "src/merkle_damgard.rs:24-40", "src/davies_meyer.rs:24-29"]}
{"id": "C74", "title": "The macros that make wire values", "statement": "values!, boolean_values! and binary_unsigned_values! give every listed wire its value (every listed binary wire the bits of its number), the constant wire 1, and no other wire a value; they panic exactly when a wire is listed twice, is the constant wire, or a number does not fit.", "quantifier": "all lists of wires and values", "why_tests_cant": "all lists", "anchors": ["src/wire_values.rs:20-56", "src/wire_values.rs:80-120"]}
{"id": "C75", "title": "When Poseidon and Rescue permute the state", "statement": "With an S-box that permutes the field and at least one round, the function computed by the Poseidon gadget and by the Rescue gadget permutes the states (is injective, and is onto) exactly when no row of the matrix sums to zero; then equal outputs in two satisfying assignments come from equal inputs. That the matrix is MDS is not enough.", "quantifier": "all prime fields, all matrices, all round numbers, all states and assignments", "why_tests_cant": "quantifies over all pairs of states and all matrices", "anchors": ["src/poseidon.rs:104-190", "src/rescue.rs:38-47", "src/matrices.rs:1-80", "src/permutations.rs:22-60"]}
{"id": "C76", "title": "Every wire has exactly one origin and the witness does not depend on the order of the generators", "statement": "In every program made of wires asked for by the user and calls of the library's gadgets, each wire other than Wire::ONE is either one the user asked for or is set by exactly one generator, never both and never neither; every generator reads only the wires it declares and sets only its own. Hence, when only the user's wires are given values, the outcome of execute is the same for every order of the generators, and a successful execution gives every wire a value and leaves the given values alone.", "quantifier": "all fields of order at least 2, all programs of library calls with arbitrary expressions as arguments, all values given to the user's wires, all orders of the generators", "why_tests_cant": "ranges over all call sequences and all n! schedules; a wire without a generator or with two, or an undeclared dependency, only shows for particular compositions and orders", "anchors": ["src/gadget_builder.rs:30-110", "src/field_arithmetic.rs", "src/splitting.rs:33-52", "src/comparisons.rs:130-205", "src/binary_arithmetic.rs:35-68", "src/permutations.rs:42-70", "src/verify_permutation.rs:24-243", "src/sorting.rs:16-59", "src/gadget.rs:24-51"]}
{"id": "C77", "title": "Witness generation never gets stuck", "statement": "In every program made of wires asked for by the user and calls of the library's gadgets on expressions over wires handed out before the call, each generator reads only wires handed out before every wire it sets, and each constraint mentions only wires that were handed out. Hence, when exactly Wire::ONE and the user's wires are given values, execute either finishes with a value for every wire, or panics inside a generator all of whose declared inputs have values; it never stops with pending generators and never meets a wire without a value in a constraint.", "quantifier": "all fields of order at least 2, all programs of library calls with arbitrary in-scope expressions as arguments, all values given to the user's wires", "why_tests_cant": "ranges over all call sequences; a cyclic or forward dependency between generators, or a constraint over a wire nobody sets, only shows for particular compositions", "anchors": ["src/gadget.rs:24-51", "src/gadget_builder.rs:30-110", "src/field_arithmetic.rs", "src/splitting.rs:33-52", "src/comparisons.rs", "src/binary_arithmetic.rs:35-68", "src/permutations.rs:42-70", "src/verify_permutation.rs:24-243", "src/sorting.rs:16-59"]}
{"id": "C78", "title": "RescueBuilder's defaults give a permutation", "statement": "When no exponent is given, RescueBuilder::build chooses the smallest prime a for which x^a permutes the field, for every prime order >= 5 except 7; in the field of order 7 it chooses 1 and permuting then panics, and for orders up to 3 it panics. The number of rounds chosen for a security level is max(2h, 10) with the least h such that bits <= 4*width*h; 128 bits is the default; a matrix is required, rounds and security level exclude each other and width 0 panics. With the chosen exponent and rows with nonzero sums, two satisfying assignments with equal outputs have equal inputs.", "quantifier": "for all prime field orders, widths, security levels, options, matrices, builders and assignments", "why_tests_cant": "the search over primes runs for one field per test; that its result is the least usable exponent in every field needs number theory (x^n is injective only if gcd(n, order-1) = 1)", "anchors": ["src/rescue.rs", "src/permutations.rs", "src/field.rs"]}
{"id": "C79", "title": "The default MiMC cipher and MiMCPermutation", "statement": "The number of round constants of the default MiMC cipher is the least r with 2^bits <= 3^r, where bits is the bit length of the largest field element; all constants are field elements; the cipher computes x -> (x + k + c)^3 over these constants followed by adding the key. MiMCPermutation computes the encryption under key zero; its two directions undo each other, in every satisfying assignment and when executed.", "quantifier": "for all prime field orders for which the cipher can be built, all keys, inputs, builders and assignments", "why_tests_cant": "tests encrypt a few values in one field", "anchors": ["src/mimc.rs", "src/lcg.rs"]}
{"id": "C80", "title": "The order of the JubJub generator", "statement": "The generator of JubJubPrimeSubgroup has order exactly 8r, where r = 6554484396890773809930967563523245729705921265872317281365359162392183254199 is prime: a multiple of it vanishes iff 8r divides the scalar, and two multiples agree iff the scalars agree modulo 8r. Eight times it has prime order r. A Schnorr signer over JubJub who reduces s modulo 8r is always accepted by verify; adding 8r to s gives a second solution of the verification equation.", "quantifier": "for all scalars, keys, nonces, messages, hash functions and inputs", "why_tests_cant": "the group has about 2^252 elements; tests can only compute a few multiples", "anchors": ["src/curves/jubjub.rs", "src/signature.rs"]}
{"id": "C81", "title": "Exact behaviour of is_prime, sum_of_wires, product and join", "statement": "In a field with more than four elements is_prime returns true exactly on 0, 1 and those primes x for which some d <= x has (d*d mod order) > x; so it decides primality whenever (floor(sqrt x)+1)^2 is below the order. sum_of_wires adds each listed wire once; it is the sum of the list in every assignment iff each wire occurs a number of times congruent to 1 modulo the order. product is free iff an operand is a non-zero constant, and otherwise adds exactly one wire, constraint and generator. join puts the separator between the items left after dropping the empty items in front, and equals the usual join iff the separator is empty or the first item is not an empty item followed by others.", "quantifier": "for all field elements, wire lists, expressions, texts, builders and assignments", "why_tests_cant": "tests try a few numbers, lists and texts; the exact sets of failing inputs are infinite", "anchors": ["src/field.rs", "src/expression.rs", "src/field_arithmetic.rs", "src/util.rs"]}
{"id": "C82", "title": "Exact behaviour of sums, shifts and joins of binary words", "statement": "binary_sum of two words is one bit longer than the longer operand, except that it has the length of the longer operand when one of them is empty. shift_dec by n succeeds exactly on words that have at least n bits or none, and then divides the value by 2^n, keeping the length; otherwise it panics. join_allowing_overflow succeeds exactly on at most max_bits bits and gives the value modulo the order.", "quantifier": "for all words, distances, builders, prime orders and assignments", "why_tests_cant": "tests use a few short words", "anchors": ["src/binary_arithmetic.rs", "src/bitwise_operations.rs", "src/expression.rs"]}
{"id": "C83", "title": "Exact behaviour of padding, monomials, matrices and lanes", "statement": "Two sponge inputs are absorbed as the same blocks iff they fill the same number of blocks and agree up to trailing zeros, and then have equal outputs in all satisfying assignments. MonomialPermutation::new accepts n iff x^n permutes the field; its inverse undoes it when executed, and panics iff n = 1. The product of a square matrix with vectors is the mathematical one iff all entries off the diagonal vanish. Lane i of a Poseidon or Rescue state is a function of lane i of the input and row i of the matrix alone.", "quantifier": "for all inputs, bitrates, exponents, matrices, parameters, builders and assignments", "why_tests_cant": "tests hash a few inputs with one matrix", "anchors": ["src/sponge.rs", "src/permutations.rs", "src/matrices.rs", "src/poseidon.rs", "src/rescue.rs"]}
{"id": "C84", "title": "Constraint counts of all gadgets", "statement": "The number of constraints: tests for zero and equality 2, assertions and inverse 1, inverse_or_zero 3, quotient_unsafe 0; boolean operations and selection at most 1 (exactly 1 on non-constant expressions), bitwise operations that for each bit; splitting into n bits n+1; a sum of words its width plus 1; random access to n items at most ceil(log2 n) + n; powers p at most bits(p)-1 + ones(p)-1; MiMC encryption 2 and decryption 3 for each round; a mode of operation as many calls as blocks, plus one selection per level of a Merkle tree; Poseidon (2, 3 or 3) times (full rounds * width + partial rounds) and Rescue rounds * width * (2e+1), as bounds always and exactly on non-constant inputs with usable matrices; a sponge that times the number of input blocks plus further output blocks; sorting n items the permutation network, n binary forms and n-1 comparisons; a Schnorr check at most 22*max_bits + compression + 8. None of these calls panics.", "quantifier": "for all expressions, lists, parameters, builders and prime orders", "why_tests_cant": "tests count the constraints of a few calls with fixed sizes", "anchors": ["src/field_arithmetic.rs", "src/boolean_algebra.rs", "src/bitwise_operations.rs", "src/splitting.rs", "src/binary_arithmetic.rs", "src/random_access.rs", "src/mimc.rs", "src/poseidon.rs", "src/rescue.rs", "src/sponge.rs", "src/merkle_trees.rs", "src/sorting.rs", "src/signature.rs"]}
{"id": "C85", "title": "Circuits composed from the library mean what their reference functions compute", "statement": "Take any circuit wired together from sound gadgets of the library (field and boolean operations and assertions, bounded splitting and joining, sums of words, bitwise operations, comparisons of words, random access, permutation assertions, compression functions with the hashes and Merkle proofs over them, multi-lane permutations and the sponges over them, curve membership, and such circuits themselves as gadgets), with bits passed where bits are wanted. Every satisfying assignment carries exactly the values the reference functions compute, so the inputs determine all values; values typed as bits are bits; when the reference is defined, building and executing succeed with the same values; when it is not, execution never reports success; and inside a larger circuit a witness extends to the new wires iff the reference is defined.", "quantifier": "for all circuits of any size and nesting, all inputs, builders, assignments and prime orders above 2 of at least 4 bits", "why_tests_cant": "tests run single gadgets on a few values; the combinations are unbounded", "anchors": ["src/gadget_builder.rs", "src/gadget.rs", "src/splitting.rs", "src/binary_arithmetic.rs", "src/bitwise_operations.rs", "src/comparisons.rs", "src/random_access.rs", "src/verify_permutation.rs", "src/merkle_trees.rs", "src/sponge.rs", "src/merkle_damgard.rs", "src/curves/edwards.rs"]}
{"id": "C86", "title": "The witness is unique: no malleability, except where named", "statement": "In a satisfying assignment the values of the arguments of a gadget determine not only its results but every auxiliary wire it makes, for products, inverses, quotients, powers, boolean operations, selection, asserted comparisons, asserted inequality, canonical and bounded splitting, sums of words, bitwise operations, random access, monomial permutations, MiMC, the compression functions, hashes and Merkle proofs over gadgets with the same property, Poseidon (power S-boxes), Rescue, sponges and curve membership; hence for every circuit composed of them the inputs determine the whole witness, and the one found by executing the circuit is the only one. Tests for zero, permutation assertions and comparisons with an unasserted result do leave freedom.", "quantifier": "for all arguments, builders, pairs of assignments, circuits of any size and nesting, and prime orders (above 2 and of at least 4 bits for circuits)", "why_tests_cant": "uniqueness compares all pairs of assignments, of which tests see at most the generated one", "anchors": ["src/gadget_builder.rs", "src/gadget.rs", "src/field_arithmetic.rs", "src/boolean_algebra.rs", "src/splitting.rs", "src/comparisons.rs", "src/binary_arithmetic.rs", "src/bitwise_operations.rs", "src/random_access.rs", "src/permutations.rs", "src/mimc.rs", "src/merkle_trees.rs", "src/sponge.rs", "src/poseidon.rs", "src/rescue.rs", "src/curves/edwards.rs"]}
{"id": "C87", "title": "Executing an assertion decides it", "statement": "Running a gadget that asserts something never reports a wrong verdict: for equalities, products, booleans, comparisons of elements and words, zero words, sums without overflow, tree membership, points on a curve and signatures, execution terminates without a panic and returns true exactly if the asserted statement holds of the input values. Gadgets that must produce a value (inverse, nonzero, nonequal, quotient, modulus, divides, bounded split, permutations of two or more items) return true if the value exists and panic if it does not; they never return false.", "quantifier": "all prime fields, all input values, all argument expressions over the inputs, all lists and paths", "why_tests_cant": "A test runs an assertion on a few true and false inputs; the verdict on every other input, and which failures are panics rather than a false result, needs the whole execution.", "anchors": ["src/gadget.rs", "src/gadget_builder.rs", "src/comparisons.rs", "src/field_arithmetic.rs", "src/splitting.rs", "src/binary_arithmetic.rs", "src/verify_permutation.rs", "src/merkle_trees.rs", "src/signature.rs", "src/curves/edwards.rs"]}
{"id": "C88", "title": "Which signatures made from a secret and a nonce verify", "statement": "For a generator of order N, a key pair (x, xg), a nonce k and e = H(y(kg), msg), executing the verifier reports true for s exactly if s + xe is congruent to k or to -k modulo N (compression to the Y-coordinate forgets exactly the sign of the point) or H collides on two different Y-coordinates; otherwise it reports false without panicking. Computing s in the field, as the repository's test does, therefore gives a valid signature over JubJub only in exceptional cases, and the very signature of the repository's test is reported as invalid, while the same keys, nonce and message with s reduced modulo 8r verify.", "quantifier": "all prime fields, complete twisted Edwards curves, generators of known order, hash gadgets, keys, nonces, messages and values of s", "why_tests_cant": "the repository test never looks at the verdict; a passing or failing run for one key says nothing about which s are accepted for others, nor that nothing but the sign is lost by compression", "anchors": ["src/signature.rs", "src/curves/edwards.rs", "src/curves/jubjub.rs"]}
{"id": "C89", "title": "Which word lengths can be compared", "statement": "Two binary words of the same non-zero length n can be compared exactly if some chunk width c below max_bits - 1 is charged at most as much as the width M = max_bits - 1, the charge being three per chunk plus the width; otherwise building the comparison panics. Hence, for M at least 6, all words of at most (M-3)(M/3+1) bits can be compared and (for M at least 7) words one bit longer cannot; words of (M-1)^2 bits still can, longer ones never. On the shipped fields the limits are 21250 bits and 63504 bits (Bn128), 21335 and 64009 (Bls12_381).", "quantifier": "all prime fields, all word lengths, contents and builders", "why_tests_cant": "the admissible lengths are irregular and the first failures lie at tens of thousands of bits, far beyond the lengths tests use", "anchors": ["src/comparisons.rs"]}
{"id": "C90", "title": "Missing inputs and values supplied for computed wires", "statement": "Executing a circuit built from the library always returns or panics, whatever values the wires were given. A wire handed to the user and left without a value makes execute panic if a generator reads it, and keeps it from returning true if a constraint mentions it. A wire that a generator sets and that is given a value beforehand makes execute panic, right value or not; the only exception is a switch of a permutation network on three or more elements, whose router keeps the values it finds.", "quantifier": "for all programs of library calls, all partial assignments of values to wires, all orders in which generators become ready", "why_tests_cant": "a test supplies one set of inputs to one circuit; that no choice of values makes witness generation loop, accept with an input missing, or silently overwrite or adopt a computed wire, concerns every generator of every circuit", "anchors": ["src/gadget.rs", "src/wire_values.rs", "src/verify_permutation.rs"]}
{"id": "C91", "title": "Period of the random number generator and termination of rejection sampling", "statement": "next_u32 has full period: k calls return to the same state exactly if 2^32 divides k, and fewer than 2^32 calls pass through every 32-bit value, while the w low bits repeat after 2^w calls. Hence next_biguint returns for every limit of 32n + r bits (1 <= r <= 32) from every state exactly if 2^r does not divide n + 1 or the length is 33 bits, then after at most 2^r draws; all limits up to 2^96 and both shipped fields are safe, and limit 2^96 + 1 is not.", "quantifier": "for all states, numbers of calls, limits and bit lengths", "why_tests_cant": "The period is 2^32 and the states from which the loop never returns are only found by an argument about residues modulo powers of two; a test can only observe that a few calls return.", "anchors": ["src/lcg.rs"]}
{"id": "C92", "title": "On which fields the README's hash function can be used", "statement": "On every prime field whose bit length is one of those of C91, the README's hash can be built exactly if 3 < p and 3 is prime to p - 1; then executing it on fewer than p blocks gives the Merkle-Damgard hash over Davies-Meyer over MiMC with fixed constants and initial state in the field. On all other prime fields it panics after drawing its constants, and it never accepts p blocks or more.", "quantifier": "all prime fields, all numbers and values of blocks, all builders", "why_tests_cant": "Tests fix one field; which fields work depends on number theory of p - 1 and on the termination of the generator for every order.", "anchors": ["README.md", "src/lcg.rs", "src/mimc.rs", "src/merkle_damgard.rs"]}
{"id": "C93", "title": "Collisions of sponges", "statement": "For a permutation of the states, two sponge inputs with the same number of blocks that lead to the same state have the same blocks, or two different states on the way agree on the capacity (an inner collision). For Poseidon and Rescue as implemented such inner collisions are unavoidable: the capacity after k blocks does not depend on the blocks, and every input of at least two blocks has, for every other first block, a second preimage of the same length, on which executing the gadget returns the same outputs, however many are requested.", "quantifier": "all permutations, bitrates, capacities, inputs, parameters of Poseidon and Rescue, numbers of outputs", "why_tests_cant": "A test compares a few hash values; that colliding inputs exist for every input, and where collisions can come from in general, needs an argument over all inputs and block numbers.", "anchors": ["src/sponge.rs", "src/poseidon.rs", "src/rescue.rs", "src/matrices.rs"]}
{"id": "C94", "title": "Wire indices fit in u32 whenever the constraints do", "statement": "Every builder method hands out at most as many wires as it adds constraints, except for a fixed excess per method (one for wire and quotient_unsafe, two for a curve addition or doubling, 4 per scalar bit for a multiplication, n for wires(n)). Hence a circuit whose inputs and constraints number less than 2^32 - 1 never reaches the end of the u32 wire counter, and with the bounded counter every method does exactly what it does with an unbounded one. At the limit a checked build panics; an unchecked one wraps, and the wire after the next is wire 0, the constant one.", "quantifier": "all builder methods and their compositions, all builders, all behaviours of the counter at its limit", "why_tests_cant": "Reaching the limit takes billions of wires; the relation between wires and constraints has to hold for every method and every composition.", "anchors": ["src/gadget_builder.rs", "src/wire.rs", "src/field_arithmetic.rs", "src/curves/edwards.rs"]}
{"id": "C95", "title": "Rounding of the logarithms does not change the numbers of rounds", "statement": "The numbers of rounds of MiMC and Poseidon are computed with double precision logarithms. For fields of up to 1053 bits every quotient within 2^-30 of bits / log2 3 is rounded up to the least r with 2^bits <= 3^r. At Poseidon's default security level and for 2 to 64 lanes, any right hand sides within 2^-30 of the exact ones lead to 8 full rounds and the same number of partial rounds (55 for three lanes and x^5); over the shipped fields these are the rounds of a Poseidon built from a matrix alone. For the inverse S-box the search finds what it finds in exact arithmetic, at every security level.", "quantifier": "all field sizes up to 1053 bits, all security levels (inverse S-box), 2 to 64 lanes, all approximations of logarithms, products, sums and quotients within the error bound", "why_tests_cant": "A test observes the rounding of one platform's libm; the claim is about every rounding within the error bound.", "anchors": ["src/mimc.rs", "src/poseidon.rs"]}
{"id": "C96", "title": "How many passes witness generation makes", "statement": "Gadget::execute goes over its pending generators in passes. For every program of library calls there is a number k, at most the largest of the lags of its calls, such that after k + 1 passes every generator has run, unless one has panicked. The lag is 0 for most calls; 1 for modulus, divides, inverse monomials, MiMC decryption and Rescue; ceil(log2 n) for a permutation check of n items and one more for sorting; compositions (Merkle-Damgard, Merkle trees, sponges, signatures) have the lag of what they are built from, however long the input. Lags of calls in sequence do not add up, because the first pass already sets every wire in the result of every call. With lag 0 the generators run in the order in which they were registered.", "quantifier": "all fields of order at least 2, all programs of library calls and wires of the user in any order and length, all values of the user's wires", "why_tests_cant": "A test executes a few circuits and does not observe the number of passes; that the number does not grow with the length of the program is a statement about all programs, and quadratic behaviour would only show on large ones.", "anchors": ["src/gadget.rs", "src/gadget_builder.rs", "src/verify_permutation.rs", "src/sorting.rs", "src/field_arithmetic.rs", "src/permutations.rs"]}
{"id": "C97", "title": "The points of JubJub", "statement": "JubJub has exactly 8r points and the generator of JubJubPrimeSubgroup generates all of them: every point that EdwardsPoint::new accepts is the multiple of the generator by exactly one scalar below 8r, so every public key has a secret. 8r annihilates every point, r annihilates exactly the multiples of 8g, and 8 annihilates exactly the eight multiples of rg. Schnorr verification with any public key on the curve therefore decides e = H(y((s + xe)g), msg) for the secret x of that key, including keys in the small subgroups.", "quantifier": "all points of the curve over the Bls12_381 scalar field, all signatures, messages, hash gadgets with a known value and inputs", "why_tests_cant": "The curve has about 2^255 points; no enumeration or sampling can show that there are no further ones.", "anchors": ["src/curves/jubjub.rs", "src/curves/edwards.rs", "src/group.rs", "src/signature.rs"]}
{"id": "C98", "title": "Repeated commitments and keys shifted by points of small order", "statement": "Two signatures (s1, e1), (s2, e2) under the key xg have commitments sg + e(xg) of the same height exactly if s1 + x e1 and s2 + x e2 agree up to sign modulo the order of g; then the secret x is known modulo every prime divisor r of that order modulo which e1 - e2 and e1 + e2 are invertible: it is one of two values computed from the signatures alone, so a nonce must not be used twice. If n T = 0 and n divides e, executing verify with the key PK + T decides the same claim as with PK; over JubJub a signature with e divisible by 8 is valid for eight keys at once.", "quantifier": "all prime fields, complete twisted Edwards curves, generators of known order, secrets, pairs of signatures, hash gadgets with a known value, inputs", "why_tests_cant": "Concerns all keys and signatures of a group of about 2^255 elements.", "anchors": ["src/signature.rs", "src/curves/edwards.rs", "src/curves/jubjub.rs"]}
{"id": "C99", "title": "Merkle paths of other lengths", "statement": "assert_merkle_tree_membership does not bind a leaf to its depth. Against the root of a full tree of height k + n, a path of length n proves (up to an explicit collision of the compression function) that the claimed leaf is the root of the subtree of height k at that index, and every such inner node is accepted with the path of roots of sibling subtrees. A path longer than the tree proves that the leaf of the tree at the index of its upper part is itself the hash of the lower part.", "quantifier": "all compression functions with a known value, tree heights, path lengths, leaves, paths, inputs; in every satisfying assignment", "why_tests_cant": "Trees and paths of all heights; a test has one tree of one height and honest paths.", "anchors": ["src/merkle_trees.rs"]}
{"id": "C100", "title": "Fixed points of Davies-Meyer and Miyaguchi-Preneel", "statement": "Over MiMC, compress_evaluate of DaviesMeyer maps x under y to x exactly if x is the decryption of 0 under y, and MiyaguchiPreneel maps x, y to y exactly if y is the decryption of -x under x: every block has exactly one fixed point and one decryption finds it. In MerkleDamgard blocks may therefore be inserted at a fixed point without changing the state, and only the length block tells the messages apart; a Merkle leaf that is such a fixed point is accepted below any position where it is accepted, at every depth.", "quantifier": "all prime fields with gcd(3, p - 1) = 1, round constants, blocks, initial values, numbers of repetitions, paths, inputs", "why_tests_cant": "An equation for all blocks and all round constants, and messages and paths of every length.", "anchors": ["src/davies_meyer.rs", "src/miyaguchi_preneel.rs", "src/merkle_damgard.rs", "src/merkle_trees.rs"]}
{"id": "C101", "title": "Closed forms of Rescue and Poseidon as implemented", "statement": "Because the matrix product only scales each lane, the S-boxes x^alpha and x^(1/alpha) of Rescue cancel: lane i of the output is lane i of the input times (root * s)^rounds, where s is the sum of row i and root^alpha = s. The permutation and every sponge over it are therefore linear: the outputs for a*l1 + b*l2 are a*H(l1) + b*H(l2), for all inputs of equal length. Poseidon with the S-box x^e is K*x^(e^m) in every lane, where m is the number of full rounds (all rounds for the first lane) and K depends only on the parameters: it is multiplicative up to a constant, and with the inverse S-box all lanes but the first are linear.", "quantifier": "all prime fields, accepted exponents, matrices, numbers of rounds, widths, bitrates, inputs and output lengths; all satisfying assignments and executions", "why_tests_cant": "An identity for all inputs, matrices and numbers of rounds; single outputs look random.", "anchors": ["src/rescue.rs", "src/poseidon.rs", "src/matrices.rs", "src/sponge.rs"]}
{"id": "C102", "title": "Length extension of Merkle-Damgard hashes", "statement": "MerkleDamgard appends the number of blocks, but the hash is still the whole state: the hash of a message followed by its length and any extension is obtained by compressing from the hash of the message, without the message and without the initial value. So hash(secret, message) does not authenticate a message; in a circuit, the value of one such hash fixes the other.", "quantifier": "all compression functions with a known value, initial values, messages, extensions; all satisfying assignments", "why_tests_cant": "An identity for all messages and extensions, which an honest user never evaluates.", "anchors": ["src/merkle_damgard.rs", "src/gadget_traits.rs"]}
{"id": "C103", "title": "A gadget does not depend on where it is placed", "statement": "Nothing a gadget call does depends on the indices of the wires involved: called on any two builders with corresponding argument wires (distinct, in any order and at any indices), the two calls panic together or add the same number of wires, constraints and generators, which correspond one to one; executed on corresponding values they give the same verdict and the same results, and corresponding assignments satisfy them together. So a gadget that is right on a fresh builder is right inside any circuit, and two instances never differ. This holds for every gadget of the library and for circuits composed of them.", "quantifier": "all fields, builders, argument wires, gadgets of the library and circuits composed of them; all values, witnesses and executions", "why_tests_cant": "Tests call gadgets on fresh builders with low wire indices only; the order of terms in an expression and the special place of the constant wire depend on indices.", "anchors": ["src/gadget_builder.rs", "src/expression.rs", "src/wire.rs", "src/gadget.rs"]}
{"id": "C104", "title": "What needs the order of the field to be prime", "statement": "The Field trait only supplies an order and nothing checks that it is prime. For every order of at least 2, products mean products modulo the order. assert_boolean accepts exactly the idempotent values, and these are 0 and 1 only exactly if the order is a power of a prime. assert_nonzero accepts exactly the values coprime to the order, which are all but 0 exactly if the order is prime. nonzero never gives a wrong answer exactly if the order is a power of a prime, has an answer for every value exactly if no square divides the order, and so is exact exactly for primes. multiplicative_inverse inverts every non-zero element, and executing assert_nonzero succeeds on every non-zero value, exactly if the order is prime.", "quantifier": "every order, all expressions, builders and assignments, honest or not", "why_tests_cant": "a test runs over one order; the equivalences range over all orders and all assignments", "anchors": ["src/field.rs", "src/gadget_builder.rs", "src/boolean_algebra.rs", "src/field_arithmetic.rs"]}
{"id": "C105", "title": "Independent calls can be made in either order", "statement": "Two gadget calls on a builder whose arguments are expressions on wires that existed before both calls can be swapped. Either both orders succeed or neither does. When they succeed they allocate the same number of wires and the same number of constraints, and there is a bijection of wires that fixes all earlier wires, maps allocated wires to allocated wires, and turns the satisfying assignments of one circuit into exactly those of the other, with the same values of all results. Holds for all gadgets of the library, for straight-line programs and for circuits put together from such components: each constrains and returns only wires that have been handed out, and none depends on where it is placed.", "quantifier": "for all field orders of at least 2, all pairs of gadgets and circuits of the library, all well-formed builders, all arguments on existing wires, all assignments", "why_tests_cant": "A test builds two circuits in one order on one builder; here the equivalence is of the solution sets of the two constraint systems for all builders, arguments and assignments, which needs a relation between two symbolic executions.", "anchors": ["src/gadget_builder.rs", "src/expression.rs", "src/wire.rs"]}
{"id": "C106", "title": "Signatures carry over to related keys", "statement": "The hash in Schnorr::verify covers the commitment and the message but not the public key. Let (s0, e) be a signature of a message and L a number with L g = 0. Executing verify with the key PK + t g and any s congruent to s0 - e t modulo L, or with the key -PK + t g and any s congruent to -s0 - e t, decides the same claim as with PK and s0, so anyone can turn a signature under one key into signatures under all related ones, without a secret; in particular s can be replaced by anything congruent to it. Conversely, for keys x g and x' g, g of order N and a message for which no other coordinate has the same hash, verify accepts (s, e) for x' g exactly if s + x' e is s0 + x e or its opposite modulo N.", "quantifier": "for all prime field orders above 2, all complete twisted Edwards curves, generators, compression functions, keys, shifts, signatures and messages", "why_tests_cant": "A test verifies one signature under one key; the property relates the verdicts for infinitely many keys and signatures and rests on the group law of the curve.", "anchors": ["src/signature.rs", "src/group.rs", "src/curves/edwards.rs"]}
{"id": "C107", "title": "Replacing leaves of a Merkle tree", "statement": "A circuit that asserts membership of an old leaf and computes a new root from a new leaf with the same path replaces exactly that leaf; a sequence of such steps replaces leaves one after the other. In every satisfying assignment in which the index bits are bits and the first root is that of a full tree of the paths' depth, every old leaf is the one that stands at its index when its turn comes and the last root is the root of the tree with all replacements made, unless one of the paths contains a collision of the compression function with the hashes of the tree as it stands then. With the right old leaves and the tree's own siblings, executing the sequence succeeds and yields that root.", "quantifier": "for all prime field orders, compression functions, depths, trees, sequences of replacements, satisfying assignments and inputs", "why_tests_cant": "A test would update one small tree honestly; the property rules out dishonest witnesses for sequences of any length over trees of any depth, up to explicit collisions.", "anchors": ["src/merkle_trees.rs"]}
{"id": "C108", "title": "Calling a gadget again with the same arguments adds nothing", "statement": "Let a gadget be called on a builder, then any other calls be made, then the same gadget be called again with the same arguments. The second call succeeds, with as many wires and constraints as the first, and never restricts the circuit: every assignment that satisfies the circuit before it extends to one that satisfies it after, with the results of the first call. For circuits of the sound gadgets of the library the results of both calls agree in every satisfying assignment, so the second call can be dropped. For comparisons with an unasserted result they need not: two calls of lt on the same two values can give 1 and 0 in one satisfying assignment.", "quantifier": "for all gadgets and circuits of the library that are placeable and tidy (C103, C105), all builders, arguments on existing wires, calls in between and assignments", "why_tests_cant": "A test compares two executed results; here all assignments, honest or not, of all circuits with a repeated call are covered.", "anchors": ["src/gadget_builder.rs", "src/comparisons.rs"]}
{"id": "C109", "title": "Callers can make the unsound gadgets sound", "statement": "The gadgets whose results a dishonest prover can choose (inverse_or_zero, quotient_unsafe, lt, le, assert_le, sort_ascending, modulus, divides) become sound when the caller adds assertions with the sound ones. An inverse r of x with (1 - x r) r = 0, a quotient q with q y = x, a comparison where exactly one of x < y, y < x and x = y has come out as 1, a sorted list in which each item is less than or equal to the next by lt and equal, and a remainder r with (x - r) / y and y of at most k bits where 2 k is less than the bits of the field: the results that satisfying assignments allow are then exactly the right ones. Executing these circuits on inputs (divisors not zero, for remainders numbers of at most k bits) computes them and satisfies the added assertions.", "quantifier": "for all prime fields of at least 4 bits, all expressions, builders, assignments and inputs, all list lengths and all k", "why_tests_cant": "No test shows that every dishonest assignment is rejected once the assertions are added; the statement is about all of them.", "anchors": ["src/field_arithmetic.rs", "src/comparisons.rs", "src/sorting.rs"]}
{"id": "C110", "title": "Distinct items, membership and inclusion", "statement": "From the gadgets of the library circuits for sets can be built whose constraints mean exactly what they should, although sort_ascending does not enforce its order. Sorting a list and asserting with assert_lt that each output is less than the next is satisfiable exactly when no item occurs twice, as are assertions that each pair differs. The zero test of the product of the differences of x and all items is 1 exactly when x is one of them, and asserting that for each item of a list means that the list is included in the other. Executed on inputs for which the claims hold, the circuits are satisfied.", "quantifier": "for all prime fields of at least 4 bits, all lists of expressions of any length, builders, assignments and inputs", "why_tests_cant": "Tests check some lists with honest values; here all lists, lengths and dishonest assignments are covered.", "anchors": ["src/sorting.rs", "src/comparisons.rs", "src/field_arithmetic.rs"]}
{"id": "C111", "title": "Non-strict comparisons by strict ones", "statement": "assert_le and assert_le_binary accept every pair of values (C26), but assert_lt_binary does not: x is at most y exactly when 2 x is less than 2 y + 1, and a word is doubled by putting a bit in front. Asserting with assert_lt_binary that the word 0, x is less than the word 1, y is satisfiable exactly when x is at most y, for words of every length that can be compared with one more bit; the result of lt_binary on these words, asserted to be the opposite of the result of lt_binary on y and x, is exactly whether x is at most y. For field elements of at least 5 bits the bits of x may be ambiguous if those of y are canonical, and executing the circuit on values in order satisfies it.", "quantifier": "for all prime fields, all words of equal length that can be compared, all elements, builders, assignments and inputs", "why_tests_cant": "That every dishonest assignment is rejected, and that no wrap-around occurs at any length, is beyond any finite set of test values.", "anchors": ["src/comparisons.rs", "src/splitting.rs"]}
{"id": "C112", "title": "The generic group code over a checked addition", "statement": "The Edwards addition and doubling leave their results unconstrained (C51), so scalar multiplication and Schnorr verification over that group enforce almost nothing (C53, C54). Implementing the Group trait with the same addition formulas and checked quotients, and the trait's default doubling, is enough to repair the addition: over a complete curve the sum and double of curve points are determined by the constraints. The trait's own mul_scalar_expression and Schnorr::verify, used unchanged over this group, then enforce exactly the following: the product is the n-fold sum for an integer n of at most as many bits as the order that reduces to the scalar, i.e. the scalar or, when it still fits, the scalar plus the order; and the Schnorr equation holds for such a reading of s and of e. Every reading can be used by a prover, scalars of at least 2^bits - order have only one, honest execution uses the scalars themselves, and the forged signature that the library's own group admits is rejected.", "quantifier": "for all prime fields of order above 2, complete Edwards curves, points, scalars, generators, compression functions, builders, assignments and inputs", "why_tests_cant": "Tests run the honest prover; what the constraints leave open, including the second reading of a scalar, appears only to a prover who chooses wire values.", "anchors": ["src/group.rs", "src/signature.rs", "src/curves/edwards.rs", "src/splitting.rs"]}
{"id": "C113", "title": "Random access with the index range under control", "statement": "random_access is documented to return 0 for an index out of range, which it does not do (C37), and its documentation advises a separate call to assert_lt to prohibit such indices. The advice is right: asserting the index less than the number of items before the call makes the circuit satisfiable exactly for the indices of items, with exactly that item as the result. The documented result is obtained by padding the items with zeros to 2^m entries: an index of at most m bits yields its item, or 0 if there is none, and no other index or result satisfies the constraints. Honest execution succeeds in both cases.", "quantifier": "for all prime fields (of at least 4 bits for the comparison), all lists of items and indices, all m with 2^m entries addressable, all builders, assignments and inputs", "why_tests_cant": "Tests access a few in-range items; the padding and the range check matter for the indices between the number of items and the next power of two, chosen by the prover.", "anchors": ["src/random_access.rs", "src/comparisons.rs"]}
{"id": "C114", "title": "Inputs the sponge confuses, and a mark that separates them", "statement": "The sponge pads the last block with zeros, so inputs of different lengths can absorb the same blocks (C47). Exactly which ones: two inputs absorb the same blocks if and only if filling the last block of each with zeros makes them equal. Appending a one to the message before hashing removes the confusion: distinct messages of any lengths absorb distinct sequences of blocks, and the circuit that does so computes, in every satisfying assignment and in honest execution, the sponge function of the marked message.", "quantifier": "for all bitrates above 0, all lists of field elements, all permutations, capacities, output lengths, fields, builders, assignments and inputs", "why_tests_cant": "The confused pairs are a relation on all pairs of inputs; tests hash single inputs and compare with expected outputs.", "anchors": ["src/sponge.rs"]}
{"id": "C115", "title": "Scalar multiplication and signatures over any implementation of the group trait", "statement": "Scalar multiplication and Schnorr verification are written once for every implementation of the Group trait. If the additions and doublings of an implementation enforce an associative operation with the given identity on its component values, then scalar multiplication enforces the n-fold sum for an integer n of at most the bit length of the field that reduces to the scalar, every such n can be used by a prover, and honest execution uses the scalar itself; Schnorr verification enforces, accepts and computes the Schnorr equation in the same sense. Commutativity and inverses are not needed. A curve group with checked divisions meets the conditions for every complete curve, and so do affine maps under composition.", "quantifier": "for all implementations of the trait, all associative operations with an identity, fields of prime order, generators, hash functions, builders, assignments and inputs", "why_tests_cant": "Tests run the generic functions on one curve; what they need of an implementation, and that it suffices, concerns all implementations and all assignments of their constraints.", "anchors": ["src/group.rs", "src/signature.rs"]}
{"id": "C116", "title": "Poseidon over the matrix product", "statement": "The library's matrix product is not the matrix product (C48), so the lanes of its Poseidon never mix (C49) and rows summing to zero make it forget lanes (C75). The same rounds over the library's S-boxes with the matrix product, written as a client circuit, compute in every satisfying assignment and in honest execution the rounds of Poseidon, and the library's sponge over them computes the sponge function. They permute the states exactly when the matrix does, whatever its row sums, and if no entry of the matrix is zero a change of any one lane changes every lane within one round, full or partial.", "quantifier": "for all matrices, widths, round numbers, S-boxes permuting the field, fields of prime order, builders, assignments and inputs", "why_tests_cant": "Permutation and diffusion are claims about all pairs of states; soundness concerns all satisfying assignments.", "anchors": ["src/matrices.rs", "src/poseidon.rs", "src/sponge.rs"]}
{"id": "C117", "title": "The inverse of Poseidon over the matrix product", "statement": "Poseidon's inverse panics because the inverse of the matrix is not implemented (C49). Its loop, with the inverse matrix supplied and the matrix product in place of the library's, inverts the permutation of C116: in every satisfying assignment its result is the one state that the permutation takes to the given outputs, permuting and inverting in either order gives back the state, and honest execution succeeds. The loop counts the rounds forwards; that this is right rests on full rounds being placed symmetrically. The library's own inverse S-boxes undo its S-boxes and are undone by them, the inverse S-box away from zero (C55).", "quantifier": "for all widths, matrices with a two-sided inverse, even numbers of full rounds, numbers of partial rounds, available power S-boxes, fields of prime order, builders, assignments and inputs", "why_tests_cant": "An inverse is a claim about all states, and soundness one about all satisfying assignments.", "anchors": ["src/poseidon.rs", "src/matrices.rs"]}
{"id": "C118", "title": "Rescue over the matrix product, and its inverse", "statement": "Rescue's rounds over the library's two S-boxes, with the matrix product in place of that of matrices.rs (C48), compute in every satisfying assignment the iterated round of powers, roots and matrix products; honest execution agrees, and the library's sponge over them computes the sponge function. With a two-sided inverse of the matrix, the loop run backwards, each S-box standing in for the other, undoes the permutation and is undone by it. If no entry of the matrix is zero, a change of one lane changes every lane within half a round.", "quantifier": "for all widths, numbers of rounds, exponents coprime to the order less one, matrices (with a two-sided inverse for the round trip), fields of prime order, builders, assignments and inputs", "why_tests_cant": "A round trip is a claim about all states, and soundness one about all satisfying assignments.", "anchors": ["src/rescue.rs", "src/matrices.rs", "src/sponge.rs"]}
{"id": "C119", "title": "Poseidon over the matrix product, with any S-box", "statement": "C116 and C117 leave out the inverse S-box, whose value at zero is not constrained (C55): over it, one round takes a zero lane to any value at all. If the rounds take the S-box as an argument, they compute the rounds of whatever function the S-box gadget computes, alone and in the library's sponge, and a gadget for the inverse function undoes them. With the inverse checked by its caller (C109) this holds for the inverse S-box too: sound for all states, including those with zero lanes, executable, injective if the matrix is, and undone by the same S-box with the inverse matrix.", "quantifier": "for all S-box gadgets and functions they compute, widths, matrices, numbers of rounds, fields of prime order (of at least 4 bits for the checked inverse), builders, assignments and inputs", "why_tests_cant": "Soundness at zero lanes concerns all satisfying assignments, which honest tests do not show; the S-box gadget is arbitrary.", "anchors": ["src/poseidon.rs", "src/permutations.rs", "src/field_arithmetic.rs", "src/sponge.rs"]}
{"id": "C120", "title": "Matrices of another size than the state", "statement": "Neither the Poseidon nor the Rescue builder compares the size of the matrix with the width: any matrix is accepted. The permutation then returns as many lanes as the smaller of the two. With fewer rows than lanes no sponge over it ever returns once the permutation is called, that is for any non-empty input or for more outputs than the rate; otherwise the outputs are zeros and nothing is constrained. With at least as many rows as lanes the sponges over both compute the sponge function and every honest run succeeds. With more rows than lanes the extra rows are ignored: the circuit is exactly the one of the matrix cut to the width. Poseidon refuses a state whose length is not the declared width; Rescue never looks at the declared width and takes states of any length.", "quantifier": "for all fields, widths, matrices, positive numbers of rounds, S-boxes, builders, states, inputs and output lengths", "why_tests_cant": "Tests use square matrices of the right size; a statement about all sizes, states and builders needs an invariant over the rounds.", "anchors": ["src/matrices.rs", "src/poseidon.rs", "src/rescue.rs", "src/sponge.rs"]}
