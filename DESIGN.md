# Formal model of mir-protocol/r1cs: design

## 1. Shape of the model

Everything lives in `/verif/rocq/theories` (logical root `Verif`).

* **Field orders** are a parameter `p : Z` of every definition; theorems assume `prime p`
  (Znumtheory) and, where the code needs it, `2 < p` or a lower bound on the bit length.
  A field element (`Element<F>`, a `BigUint` below the order) is a `Z`; the invariant
  `0 <= x < p` is proved, not assumed, for results of field operations.
* **Wires** are `nat` (`Wire::ONE` is 0). The `u32` counter is modelled without overflow; C94
  shows when that makes no difference.
* **Panics** (assert!, unwrap on None, index out of range, usize underflow) are an explicit
  result `Panic` of `outcome A := Ok a | Panic | NoFuel`. Loops that are not structurally
  bounded take fuel and return `NoFuel`; theorems prove the fuel suffices.
* **BTreeMap / HashMap / BiMap** are association lists; `Expression` maps are sorted by the wire
  order used in the code (ONE last).
* **GadgetBuilder** is a record (next wire index, constraints, generators); gadget methods are
  functions in a state-and-panic monad that mirror the Rust methods statement by statement.
  A generator is a pair (dependencies, closure `values -> outcome values`).
* **Gadget::execute** is the retain-loop over pending generators followed by the check of all
  constraints.

Statement shapes:

* *Soundness*: for every builder state `b`, if the method call returns result `r` and state `b'`,
  then for **every** witness vector `w : wire -> Z` with `w ONE = 1` and values in `[0,p)` that
  satisfies all constraints of `b'`, the values of the outputs under `w` are related to the values
  of the inputs by the specification.  The witness is adversarial: nothing is assumed about how it
  was found.
* *Completeness*: starting from any builder state that execute can handle, the call does not panic
  and for all input values execute produces a witness that satisfies all constraints and gives the
  outputs their specified values.
* *Refutations*: where the code does not have the property, a `_refuted` theorem exhibits a
  concrete gadget, and a witness accepted by its constraints which violates the claim; the
  strongest true part is a `_partial` theorem.

## 2. Per-property plan

| id | modelled | method |
|----|----------|--------|
| C01-C03, C05 | `field.rs` on `Z` | modular arithmetic; Fermat's little theorem by permutation of 1..p-1; Euclid by strong induction |
| C04 | `is_prime` loop | refuted in F7 (5) and for 0, 1; partial: correct for every element when the loop cannot wrap |
| C06-C08 | `expression.rs` | induction on association lists; equality by separating assignments; duplicate wires refute C08 |
| C09 | `wire_values.rs` | invariant over call sequences |
| C10 | `gadget_builder.rs`, all gadgets | monotonicity lemma for every method |
| C11, C12 | `gadget.rs` | invariant over passes; confluence by induction (diamond argument) |
| C13-C22 | `field_arithmetic.rs`, `gadget_builder.rs`, `boolean_algebra.rs` | soundness by field algebra; completeness by the Honest invariant (below); C17, C19, C20 are refuted in part |
| C23-C28 | `splitting.rs`, `comparisons.rs` | bits/chunks arithmetic; assert_lt analysis over arbitrary masks; C26/C27 refuted by the all-zero mask |
| C29-C35 | `binary_arithmetic.rs`, `bitwise_operations.rs`, `BinaryExpression` | induction on bits |
| C36-C37 | `random_access.rs` | induction on index bits; C37 refuted with 3 items, index 3 |
| C38-C39 | `verify_permutation.rs` | soundness by induction on the network; completeness by invariant of `route` (2-colouring of the switch graph) |
| C40, C41 | `sorting.rs`, `bimap_util.rs` | from C38/C39; sortedness refuted through C26 |
| C42 | `permutations.rs` | Fermat, Bezout |
| C43-C47, C55 | MiMC, Davies-Meyer, Miyaguchi-Preneel, Merkle-Damgard, Merkle trees, sponge | functional specs, inductions, collision extraction |
| C48, C49 | `matrices.rs`, `poseidon.rs`, `rescue.rs` | the product is `v_i * sum row_i`: refuted; lanes proved independent |
| C50 | `lcg.rs` | arithmetic bounds |
| C51-C54 | `curves/edwards.rs`, `group.rs`, `signature.rs` | Bernstein-Lange completeness; soundness refuted since `quotient_unsafe` adds no constraint |
| C56, C57 | constants | Pocklington certificates, Euler criterion |
| C58 | `util.rs` | induction; refuted for leading empty strings |
| C59, C60 | `curves/jubjub.rs`, `signature.rs` | group order by Lagrange-type argument on the concrete point; refuted for the recipe in the tests |
| C61 | straight-line programs of gadget calls (`ProgramM.v`) | induction on programs, using the per-gadget theorems in any order and combination |
| C62 | counts of constraints | exact cost logic (`CostP.v`), ceil-log2 recursion of the network |
| C68 | round number search of `poseidon.rs` (`RoundsM.v`) | inductions on the two loops; exact integer model of the double precision product |
| C69, C70 | Display, FromStr, shifts, literals (`DisplayM.v`) | cutting texts at separators; decimal conversions of the standard library |
| C71 | any builder | matrices of coefficients, dot products |
| C72, C73 | the programs in README.md (`ReadmeM.v`) | the gadget logics; C73 refuted on the shipped fields |
| C74 | macros of `wire_values.rs` | induction on the list |
| C75 | `poseidon.rs`, `rescue.rs` | rounds as compositions of injective maps; states merged by a zero row |
| C76 | every gadget, `gadget.rs` | ownership logic (`DetP.v`): each call settles the wires it creates; then confluence with guarded generators |
| C77 | every gadget, `gadget.rs` | flow logic (`FlowP.v`): ownership plus an upper bound on the wires read; strong induction on the wire numbers |
| C78 | `RescueBuilder` | least prime coprime to order - 1; polynomials have at most as many roots as their degree (`PolyP.v`), so the criterion is exact |
| C79 | default MiMC, `MiMCPermutation` | induction on the loop; C43 with key zero |
| C80 | `JubJubPrimeSubgroup` | primality certificate for r; a list of 312 additions with hints (`ChainP.v`), each checked, leading to 8r times the generator (`ProjP.v`); vanishing multiples form an ideal |
| C81-C83 | functions whose first property is false | exact characterisation of the inputs on which the claim holds, and of the result on the others |
| C84 | counts of constraints of all gadgets | the cost logic of C28 and C62; a lane of a permutation stays non-constant, since its S-box ends in a new wire or a power |
| C85 | circuits composed from the gadgets (`LibraryM.v`) | each gadget is paired with a reference function and shown correct once; induction on the composition, circuits being gadgets again |
| C86 | every gadget and composed circuits | relational logic over two assignments (`UniqueP.v`): each constraint pins the wire made for it; comparisons need their asserted bit (`CmpUniqueP.v`); induction on the composition (`TightP.v`) |
| C87 | assertions executed on true and false inputs | a complete prefix followed by constraints that only check (`DecideP.v`); generators that panic on the inputs whatever the order of execution (`execute_flow` of `FlowP.v`) |
| C88 | which signatures made from a secret and a nonce verify; the repository's own test signature | the height of a curve point determines it up to sign; exact order of the generator; a checked addition chain for the nonce (`NonceP.v`) |
| C89 | which word lengths can be compared | the chosen width is the first minimum of the charge; arithmetic of rounded divisions |
| C90 | execute with inputs missing or computed wires given (`RefuseP.v`) | every generator stops, and panics on a wire it would set twice; a measure for the router's rounds that needs no assumption on the values |
| C91 | period of the LCG, limits for which rejection sampling ends (`LcgP.v`) | exact power of two in the geometric sum of the multiplier; lifting of residues bit by bit |
| C92 | fields on which the README's hash exists | C91 with C43 and C73 |
| C93 | collisions of sponges | backward induction over the blocks; for separate lanes the second block compensates the first |
| C94 | wires against constraints, the u32 counter | excess of each method, added up along binds; simulation of the bounded counter |
| C95 | rounding errors in the f64 logarithms of `mimc.rs`, `poseidon.rs` | rational bounds on logarithms from comparisons of powers |
| C96 | the passes of `Gadget::execute` | ranks for generators (`TickP.v`): a late generator has rank 0 and delays those registered before it that read its wires; ranks compose without shifts because results have rank 0 (`TickCallsP.v`) |
| C97 | `curves/jubjub.rs`, `curves/edwards.rs` | a subgroup of order 8r has index at most 2, since a height belongs to at most two points and 3 * 8r > 2 * order; index 2 would make the generator a double, which it is not (`PropsCyclic.v`) |
| C98 | `signature.rs` over `curves/edwards.rs` | multiples of the generator are compared modulo its order; multiplication by n distributes over the sum (`PropsReuse.v`) |
| C99 | `merkle_trees.rs` | the levels of a tree are trees themselves (induction on the height), binding of C46 at that level (`PropsDepth.v`) |
| C100 | `davies_meyer.rs`, `miyaguchi_preneel.rs`, `merkle_damgard.rs`, `merkle_trees.rs` | decryption inverts encryption (C41); induction on the number of repetitions (`PropsDepth.v`) |
| C101 | `rescue.rs`, `poseidon.rs`, `matrices.rs`, `sponge.rs` | induction on the rounds with a closed form of a lane; injectivity of x^alpha; linearity is kept by absorbing and squeezing (`PropsLinear.v`) |
| C102 | `merkle_damgard.rs`, `gadget_traits.rs` | the fold over the message and its length is the hash (`PropsDepth.v`) |
| C103 | `gadget_builder.rs`, `expression.rs`, `wire.rs`, all gadgets | no call depends on wire indices: relation of two runs on corresponding wires (`SpecRename.v`, `RenameP.v`, `RenameCallsP.v`, `PropsRename.v`) |
| C104 | `field.rs` 14-18, 83-89; `gadget_builder.rs` 73-148 | which guarantees hold for composite orders, with equivalences to prime, prime power and square free (`SpecOrder.v`, `OrderP.v`, `PropsModulus.v`) |
| C105 | `gadget_builder.rs` 20-72, all gadgets | two calls on earlier wires commute up to a bijection of the new wires (`PropsExchange.v`, from C103 and the flow lemmas) |
| C106 | `signature.rs` 31-60 | commitments under shifted and negated keys; exact set of accepted signatures for related keys (`PropsCarry.v`) |
| C107 | `merkle_trees.rs` 51-80 | sequences of membership assertion and new root with the same path; spec `put` and `replay` on the list of leaves (`PropsUpdate.v`). The circuit `updates` is a client of the two library calls, not a function of the repository |
| C108 | `gadget_builder.rs` 20-72, all gadgets; `comparisons.rs` | repeated calls: copying the witness of the first call (from C103 and C105), agreement by C85, disagreement by C64 (`PropsTwice.v`) |
| C109 | `field_arithmetic.rs`, `comparisons.rs`, `sorting.rs` | client circuits that add assertions to the gadgets found unsound (C17, C19, C20, C26, C27, C40); exact meaning with the logics of C63-C66, honest runs (`PropsChecked.v`) |
| C110 | `sorting.rs`, `comparisons.rs`, `field_arithmetic.rs` | client circuits for sets; exact meaning and honest runs by induction on the lists (`PropsSets.v`) |
| C111 | `comparisons.rs`, `splitting.rs` | client circuits: non-strict comparison as a strict one of doubled words; exact meaning, lengths by C89 (`PropsNonStrict.v`) |
| C112 | `group.rs`, `signature.rs`, `curves/edwards.rs` | a client implementation of the trait with checked divisions; the library's scalar multiplication and Schnorr verification over it, exactly, with the ambiguity of scalars that remains (`PropsSafeCurve.v`) |
| C113 | `random_access.rs` | client circuits: the documented advice (a separate `assert_lt`) and the documented result (0, by padding) made exact (`PropsAccess.v`) |
| C114 | `sponge.rs` | the pairs of inputs confused by zero padding, exactly; client circuit with an end mark that confuses none (`PropsPadding.v`) |
| C115 | `group.rs`, `signature.rs` | the generic scalar multiplication and Schnorr verification over any implementation of the trait: conditions on the implementation (`sound_group`, `complete_group`, `compresses`) that are hypotheses of the theorems, and two implementations meeting them (`PropsAnyGroup.v`) |
| C116 | `matrices.rs`, `poseidon.rs`, `sponge.rs` | client circuit: the rounds of Poseidon with the matrix product; value, honest runs, permutation iff the matrix is one, diffusion in one round (`PropsDiffuse.v`) |
| C117 | `poseidon.rs` 160-187 | client circuit: the loop of `inverse` with the inverse matrix supplied inverts the permutation of C116; symmetry of the full rounds (`PropsUndo.v`) |
| C118 | `rescue.rs` 37-52 | client circuit: the rounds of Rescue over the matrix product, in the sponge, and their inverse with the inverse matrix supplied (`PropsRescueMix.v`) |
| C119 | `poseidon.rs` 119-187 | client circuit: the rounds and their inverse over any S-box gadget, and over the checked inverse of C109; what the library's inverse S-box allows (`PropsAnySbox.v`) |
| C120 | `rescue.rs` 101-117, `poseidon.rs` 75-101, `matrices.rs` 42-51 | matrices with more or fewer rows than the width: what is accepted, returned, ignored, and exactly when a sponge runs (`PropsSize.v`) |
| C63-C67 | every gadget again | both directions: the set of results accepted is exactly the stated set |

The *Honest invariant* for completeness: a builder state together with a target witness `w` such
that every wire is either external input or the output of exactly one generator whose inputs have
smaller indices, each generator run on a partial witness that agrees with `w` produces `w`'s values
on its outputs, and all constraints hold under `w`.  Master theorem: then `execute` returns true and
its values agree with `w`.

## 3. Files

Model (definitions only, each citing the Rust lines it mirrors):

| file | Rust source |
|------|-------------|
| `Base.v` | outcome monad, list helpers |
| `FieldM.v` | `field.rs`, `test_util.rs` (small fields) |
| `ExprM.v` | `wire.rs`, `wire_values.rs`, `expression.rs` |
| `BuilderM.v` | `constraint.rs`, `witness_generator.rs`, `gadget.rs`, `gadget_builder.rs`, `field_arithmetic.rs`, `boolean_algebra.rs`, `splitting.rs`, `comparisons.rs` |
| `GadgetsM.v` | `binary_arithmetic.rs`, `bitwise_operations.rs`, `random_access.rs` |
| `WaksmanM.v` | `verify_permutation.rs`, `bimap_util.rs`, `sorting.rs` |
| `CryptoM.v` | `util.rs`, `lcg.rs`, `gadget_traits.rs`, `permutations.rs`, `mimc.rs`, `davies_meyer.rs`, `miyaguchi_preneel.rs`, `merkle_damgard.rs`, `merkle_trees.rs`, `sponge.rs`, `matrices.rs`, `poseidon.rs`, `rescue.rs` |
| `RoundsM.v` | round numbers of `poseidon.rs` (lines 75-101, 190-302) |
| `DisplayM.v` | Display and FromStr of `field.rs`, `wire.rs`, `expression.rs`, `constraint.rs`; division by a literal |
| `ReadmeM.v` | the programs in `README.md`; `wire_values.rs` lines 35-37 and the macros at 80-120 |
| `CurveM.v` | `group.rs`, `curves/edwards.rs`, `curves/jubjub.rs`, `signature.rs` |
| `ProgramM.v` | a language of gadget calls, with its reference interpreter and its compilation to builder calls |
| `LibraryM.v` | gadgets paired with reference functions, and circuits wired from them (uses of the library, not code of it) |

Specifications, written without the model's helpers: `Spec.v` (assignments, satisfaction, what a call
guarantees, bits and numbers), `SpecCrypto.v` (functions computed by hashes and ciphers),
`SpecCurve.v` (affine Edwards group),
`SpecUnique.v` (two assignments agreeing on the arguments of a call agree on its wires), `SpecDecide.v` (what executing an assertion reports),
`SpecRename.v` (two calls that differ only in the wires used), `SpecOrder.v` (prime powers, square-free numbers).  Statements and concrete instances: `Props*.v`.  Everything else
(`*P.v`, `PropLib.v`, `Demo.v`) is proof.

## 4. Trusted base

* The kernel of Coq 8.16.1, including its `vm_compute` reduction machine.
* `Print Assumptions` of every `Cxx_` theorem (printed by the build of the `Props*.v` files) answers
  "Closed under the global context".  No axiom is used, neither ours nor the library's.  `coqchk` lists
  seven constants `Coq.ssr.ssrunder.Under_rel.*` (opaque module parameters of the standard library's
  ssreflect files, loaded by `Lia`/`Ring` dependencies); no theorem here depends on them.
* That the definitions of the model files say what the Rust code does.  They follow the code function by
  function; the comments name the lines and every simplification.  `RepoTests.v` runs the crate's own unit tests
  on the model: all values the authors assert come out (evidence for the model, not part of the claims).
* The specifications in `Spec*.v` and the statements in `Props*.v`.

Modelled faithfully: all panics that come from assertions, `unwrap`/`expect`, indexing, slices and
unsigned subtraction; the order in which generators are tried; BTreeMap order of coefficients;
evaluation of generators on partial assignments; the exact constraints, in order.

Simplified:

* wire indices and lengths are unbounded naturals. For wire indices C94 closes the gap: every method has a version with
  the `u32` counter, which does the same as long as inputs and constraints together stay below 2^32 - 1 (plus two wires
  per curve addition or doubling). `usize` overflow of lengths is not modelled;
* `HashMap`s are association lists; no modelled function depends on their iteration order;
* the `From<u8>..From<u128>` conversions of `Element` are one function on integers;
* trait objects and generic parameters are records of functions; type parameters such as
  `C: EdwardsCurve<F>` are values;
* in the attack criteria of Poseidon, the f64 right hand sides (logarithms) are parameters; the comparison of logarithms
  for the inverse S-box and the number of MiMC rounds are exact instead of f64. C95 shows that the rounding does not matter
  (MiMC: fields of up to 1053 bits; Poseidon: 2 to 64 lanes), given that the accumulated f64 errors stay below 2^-30, which
  remains an assumption about f64 and libm; the 7.5 percent padding is modelled exactly, as double precision arithmetic;
* of the texts that `BigUint::from_str` accepts, only sequences of digits;
* operators on references and values of `Element`/`Expression` are one function.

Not modelled: `Debug` formatting; `Hash`; `curves/montgomery.rs` and
`curves/weierstrass.rs` (data types without functions); test code other than in `RepoTests.v`.

Not part of the repository: the client circuits of C107 and C109-C119.  They are defined in their `Props*.v` files, call the
modelled library, and show how gadgets found wanting can be used safely; a theorem about them says something about
the library only through the library functions they call.  The theorems of C115 take what an implementation of the
`Group` trait must satisfy as hypotheses, and show two implementations that satisfy them.

## 5. Findings

Claims a user would rely on which the code does not have.  Each has a `_refuted` theorem about the model.

Accepting too much (the constraints admit a false statement):

1. `assert_le`, `assert_ge` and their binary forms accept every pair of values (C26); `le`/`ge` can always
   be answered 1 and `lt`/`gt` always 0 (C27).  The all-zero mask of `cmp_binary` is accepted.  Exact
   behaviour: C64.
2. Sorting gadgets only enforce a rearrangement, not the order (C40; exact: C66).
3. `quotient_unsafe` adds no constraint at all, although its documentation speaks of one (C19, C62).  Hence
   Edwards addition, doubling and scalar multiplication accept any result (C51, C53) and Schnorr
   verification accepts forged signatures for every key (C54; exact: C67).
4. `modulus` accepts every value below the divisor, `divides` is equally forgeable (C20; exact: C65).
5. `inverse_or_zero` is unconstrained at zero, so `InversePermutation` is (C17, C55).

Wrong values:

6. `MdsMatrix * vector` multiplies component i by the sum of row i (C48).  So Poseidon and Rescue process
   every lane separately, fix the zero state, and their inverses panic (C49).
   Every sponge input of two blocks or more has explicit second preimages (C93).  Rescue, and every sponge over it, is
   a linear function, and Poseidon a constant times a power in every lane (C101).
7. The sponge pads with zeros: appending zeros inside the last block does not change the hash (C47).
8. `is_prime` calls 0 and 1 prime and wraps around in small fields (C04).
9. `sum_of_wires` counts a repeated wire once (C08).
10. `random_access` with an index outside the list selects some item (C37).
11. `util::join` drops separators after leading empty strings (C58).
12. The generator called `JubJubPrimeSubgroup` has order 8r, not a prime (C59; exact: C80), and generates the whole curve (C97); the Schnorr test computes s
    modulo the field order instead of the group order and ignores the result of `execute` (C60), which is false: the
    signature that test makes does not verify (C88).
13. In the field of order 7 Rescue's search for the smallest usable exponent returns 1 (C78); permuting then panics.

Panics or divergence on legitimate arguments:

14. `MonomialPermutation::new(1)` is accepted but its inverse panics (C42).
15. MiMC with the default exponent panics on both shipped fields, since 3 divides p - 1; so does the hash function
    shown in the README (C73), whose initial value equals MiMC's first round constant.
16. `bitwise` `shift_dec` by more than the length (C33), `join_allowing_overflow` beyond `max_bits` bits (C35),
    `split` for orders of at most 3 bits, comparisons of words of `max_bits - 1` bits for orders of 4 to 6
    bits (C28) and of all words longer than `(max_bits - 2)^2` bits, some shorter ones included (exact: C89), `xor` and `multiplicative_inverse` for order 2 (C21), `sort_ascending` of an empty list,
    `Element * u128` with a factor not below the order.
17. The LCG loops forever for some moduli (C50), the smallest being 2^96 + 1 (exact: C91).
18. A failed assertion in a generator panics instead of making `execute` return false.
19. Values given beforehand for the switches of a permutation network are adopted by its router instead of being
    refused like every other computed wire; a wrong one makes `execute` panic or return false on a correct permutation (C90).

Documentation off: `cmp_constraints` omits two constraints (C28); "uses 7 constraints" in `edwards.rs` is 5
(C62); `binary_sum` is not one bit longer when an operand is empty (C30); `product` by the constant 0 is not
free because `as_constant` does not recognise it (C13).

Not a fault, but perhaps not expected: for an exponentiation S-box and at least two lanes the search for the
number of full rounds in `poseidon.rs` always stops at its starting value 6 (C68).
Merkle paths do not bind the depth: inner nodes pass as leaves with shorter paths (C99), and decryptions of zero are
fixed points of Davies-Meyer (C100).  Merkle-Damgard hashes can be extended by anyone who knows the length (C102).
The `Field` trait does not check that the order is prime; C104 says what fails when it is not.
Schnorr's hash leaves out the public key, so a signature under one key gives signatures under all keys that differ from it by a known multiple of the generator or by sign (C106).

## 6. Checking the theorems against wrong programs

`seeded/LOG.jsonl` records edits of the model that break a claim, made in a scratch copy, with the lemmas and
property theorems that no longer hold, and the theorems tightened when an edit was not noticed.  Entries for client
circuits and for statements say so in a note; there the build stops at the first proof that fails.
