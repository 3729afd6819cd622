{"id": "C01", "title": "Tower fields are fields", "statement": "Addition (XOR) and the portable recursive multiplication on the bit representation of the tower fields of 1,2,4,...,2^k bits satisfy all commutative-ring laws, with ZERO and ONE as identities, and every nonzero element has a multiplicative inverse, at every tower height.", "quantifier": "all tower levels, all pairs/triples of underlier values of that width", "why_tests_cant": "The 128-bit field has 2^384 triples; sampled property tests cannot establish associativity or distributivity on all of them.", "anchors": ["crates/field/src/arch/portable/pairwise_recursive_arithmetic.rs: PairwiseRecursiveStrategy mul", "crates/field/src/binary_field.rs: TowerField, binary_tower!", "crates/field/src/binary_field_arithmetic.rs: impl_arithmetic_using_packed!, TowerFieldArithmetic"]}
{"id": "C02", "title": "invert_or_zero is the true inverse", "statement": "invert_or_zero(x) returns y with x*y = 1 for each nonzero x and returns 0 exactly for x = 0.", "quantifier": "all tower levels, all elements", "why_tests_cant": "2^128 elements; the recursion through delta could be zero on one unlucky nonzero element.", "anchors": ["crates/field/src/arch/portable/pairwise_recursive_arithmetic.rs: InvertOrZero", "crates/field/src/arithmetic_traits.rs: InvertOrZero", "crates/field/src/field.rs: Field::invert"]}
{"id": "C03", "title": "square and mul_alpha are specialised products", "statement": "square(x) = x*x and mul_alpha(x) = x times the tower generator of x's level; hence also (x+y)^2 = x^2+y^2.", "quantifier": "all tower levels, all elements", "why_tests_cant": "Optimised routines take different code paths from multiplication on every input.", "anchors": ["crates/field/src/arch/portable/pairwise_recursive_arithmetic.rs: Square, MulAlpha"]}
{"id": "C04", "title": "Subfield embedding and projection", "statement": "Converting from a smaller tower field into a larger one is an injective ring homomorphism, and the checked conversion back succeeds exactly on the image, returning the original element.", "quantifier": "all pairs of levels, all elements", "why_tests_cant": "Homomorphism claims range over all pairs of elements of both fields.", "anchors": ["crates/field/src/binary_field.rs: impl_field_extension!, TryFrom, min_tower_level", "crates/field/src/extension.rs: ExtensionField"]}
{"id": "C05", "title": "Field exponentiation and Frobenius", "statement": "pow(x,e) is the e-fold product for every e, and x^(2^(2^k)) = x in the field of 2^k bits.", "quantifier": "all elements, all u64 exponents, all levels", "why_tests_cant": "All exponents and elements; the square-and-multiply loop has data dependent control.", "anchors": ["crates/field/src/field.rs: Field::pow", "crates/field/src/arithmetic_traits.rs"]}
{"id": "C06", "title": "Extension basis decomposition", "statement": "Decomposing an element into subfield coordinates and rebuilding it is the identity in both directions; decomposition is linear over the subfield, and multiplying by a subfield scalar multiplies every coordinate.", "quantifier": "all level pairs, all elements/scalars", "why_tests_cant": "Linear-algebraic identity over all elements.", "anchors": ["crates/field/src/extension.rs: ExtensionField::{basis,from_bases,into_iter_bases}", "crates/field/src/binary_field.rs: mul_primitive, TowerField::basis, impl Mul<subfield>"]}
{"id": "C07", "title": "Table-driven small-field arithmetic agrees with the tower", "statement": "The 8-bit log/antilog multiplication and the square / invert / mul_alpha lookup tables return exactly the tower-field result for every operand.", "quantifier": "all pairs of bytes, all bytes", "why_tests_cant": "The tables are literal data; one wrong entry is only visible on the operands hitting it (the statement is finite but is used as a lemma about all packed inputs).", "anchors": ["crates/field/src/arch/portable/pairwise_table_arithmetic.rs"]}
{"id": "C08", "title": "AES field isomorphism", "statement": "The conversion between the AES-basis 8-bit field and the tower 8-bit field is a ring isomorphism (bijective, additive, multiplicative, preserves one).", "quantifier": "all pairs of bytes", "why_tests_cant": "Must hold on every pair; the maps are literal 8x8 bit matrices.", "anchors": ["crates/field/src/aes_field.rs: AES_TO_BINARY_LINEAR_TRANSFORMATION, BINARY_TO_AES_LINEAR_TRANSFORMATION"]}
{"id": "C09", "title": "Packed arithmetic is lane-wise", "statement": "Adding, multiplying, squaring and inverting a packed field element by the masked shift-and-interleave routines acts independently on every lane, giving in lane i exactly the scalar operation on lane i of the operands.", "quantifier": "all packed widths 2^w, all lane sizes, all packed values", "why_tests_cant": "Cross-lane leakage appears only on particular bit patterns; 2^256 operand pairs per width.", "anchors": ["crates/field/src/arch/portable/packed_arithmetic.rs: UnderlierWithBitConstants, interleave, PackedTowerField mul/square/invert", "crates/field/src/arch/portable/packed.rs: PackedPrimitiveType"]}
{"id": "C10", "title": "Interleave, get and set", "statement": "interleave(log_block) exchanges exactly the documented blocks, is an involution, and get/set of a lane satisfy read-over-write laws.", "quantifier": "all widths, block lengths, values, indices", "why_tests_cant": "Ranges over all widths and values.", "anchors": ["crates/field/src/packed.rs: PackedField::{interleave,get_checked,set_checked,broadcast}", "crates/field/src/arch/portable/packed_arithmetic.rs: interleave_bits"]}
{"id": "C11", "title": "Square transpose", "statement": "square_transpose of 2^n packed rows exchanges entry (i,j) with (j,i) and so is an involution.", "quantifier": "all n, all matrices", "why_tests_cant": "The blockwise algorithm must be right for every size.", "anchors": ["crates/field/src/transpose.rs: square_transpose"]}
{"id": "C12", "title": "F2-linear transformations", "statement": "Applying a FieldLinearTransformation by bit decomposition is additive and sends basis vector i to column i; hence equals the matrix-vector product.", "quantifier": "all dimensions, all matrices, all inputs", "why_tests_cant": "All inputs.", "anchors": ["crates/field/src/linear_transformation.rs: FieldLinearTransformation, Transformation"]}
{"id": "C13", "title": "Tensor expansion is the equality indicator", "statement": "tensor_prod_eq_ind / MultilinearQuery expansion produce at index v the product over coordinates of r_i if bit i of v is set and 1-r_i otherwise; expansions by parts compose.", "quantifier": "every field, every number of coordinates, all points", "why_tests_cant": "Polynomial identity in unboundedly many variables.", "anchors": ["crates/math/src/tensor_prod_eq_ind.rs: tensor_prod_eq_ind, eq_ind_partial_eval", "crates/math/src/multilinear_query.rs: MultilinearQuery"]}
{"id": "C14", "title": "Multilinear extension evaluation", "statement": "evaluate(q) agrees with the stored values on the Boolean hypercube, is affine in every coordinate, and is the only such function; evaluation with a query of the wrong size returns an error.", "quantifier": "every field, n, evaluations, point", "why_tests_cant": "Polynomial identity over all points.", "anchors": ["crates/math/src/multilinear_extension.rs: MultilinearExtension::{evaluate,evaluate_on_hypercube}", "crates/math/src/fold.rs: fold_right"]}
{"id": "C15", "title": "Partial evaluation composes", "statement": "evaluate_partial_low/high (and the middle variant) followed by full evaluation at the remaining coordinates equals evaluation at the concatenated point.", "quantifier": "every field, splits, evaluations, points", "why_tests_cant": "All splits and points.", "anchors": ["crates/math/src/multilinear_extension.rs: evaluate_partial, evaluate_partial_low, evaluate_partial_high", "crates/math/src/fold.rs: fold_left, fold_right, fold_middle"]}
{"id": "C16", "title": "Optimised one-variable folds", "statement": "The in-place and constant-suffix folds compute the same multilinear as substituting the challenge for one variable of the (suffix-extended) evaluation table.", "quantifier": "every table length, suffix value, challenge", "why_tests_cant": "The non-power-of-two pivot logic depends on length parity and packing for every size.", "anchors": ["crates/math/src/fold.rs: fold_left_lerp_inplace, fold_left_lerp, fold_right_lerp"]}
{"id": "C17", "title": "Lookup-table fold of 1-bit tables", "statement": "The 1-bit fast paths of fold_right return the same values as the generic fold for all bit tables and queries.", "quantifier": "all sizes, bit tables, queries", "why_tests_cant": "Fast path selected by sizes; all inputs.", "anchors": ["crates/math/src/fold.rs: fold_right_1bit_evals_small_query, fold_right_1bit_evals_medium_query, fold_right_fallback"]}
{"id": "C18", "title": "Univariate extrapolation", "statement": "EvaluationDomain built from pairwise distinct points extrapolates: for every polynomial of degree less than the domain size, extrapolate of its values at the points returns its value at any z (also when z is a domain point, also with the point at infinity); duplicates are rejected.", "quantifier": "every field, domain, polynomial, z", "why_tests_cant": "Interpolation identity for all degrees.", "anchors": ["crates/math/src/univariate.rs: EvaluationDomain::{from_points,lagrange_evals,extrapolate}, compute_barycentric_weights"]}
{"id": "C19", "title": "Univariate interpolation round trip", "statement": "InterpolationDomain::interpolate returns the coefficients of the unique polynomial through the values; evaluate_univariate is Horner evaluation.", "quantifier": "every field, domain, values", "why_tests_cant": "All inputs.", "anchors": ["crates/math/src/univariate.rs: InterpolationDomain::interpolate, evaluate_univariate"]}
{"id": "C20", "title": "Matrix inversion", "statement": "inverse_into returns the two-sided inverse whenever the matrix is invertible and reports singularity exactly otherwise.", "quantifier": "every field, every dimension, every square matrix", "why_tests_cant": "Pivoting depends on zero patterns of arbitrary matrices.", "anchors": ["crates/math/src/matrix.rs: Matrix::{inverse_into,mul_into,mul_vec_into}"]}
{"id": "C21", "title": "Piecewise multilinear evaluation", "statement": "evaluate_piecewise_multilinear equals evaluating the single multilinear obtained by concatenating the pieces (largest first) and zero-padding.", "quantifier": "all piece counts per size, points, piece evaluations", "why_tests_cant": "The segment folding must be right for every combination of piece counts.", "anchors": ["crates/math/src/piecewise_multilinear.rs: evaluate_piecewise_multilinear, fold_segment"]}
{"id": "C22", "title": "Circuit optimisation preserves meaning", "statement": "optimize (constant folding, de-duplication, removing unused steps) never changes the value the circuit computes on any input, and converting expressions to circuits preserves their value.", "quantifier": "all circuits, all inputs, every field", "why_tests_cant": "A rewriting pass must be right on every circuit.", "anchors": ["crates/math/src/arith_expr.rs: ArithCircuit::{optimize,optimize_constants,deduplicate_steps,compress_unused_steps}, From<ArithExpr>"]}
{"id": "C23", "title": "Circuit substitution, remapping, degree", "statement": "remap_vars and const_subst commute with evaluation; degree() bounds the degree of the computed polynomial along every line; linear_normal_form, when returned, computes the same function.", "quantifier": "all circuits, inputs", "why_tests_cant": "All circuits.", "anchors": ["crates/math/src/arith_expr.rs: remap_vars, const_subst, degree, linear_normal_form, vars_usage"]}
{"id": "C24", "title": "Binary subspaces", "statement": "get enumerates each element of the span exactly once for a linearly independent basis, get_checked rejects exactly indices out of range, iter agrees with get, reduce_dim is a prefix.", "quantifier": "all dimensions, bases, indices", "why_tests_cant": "All dimensions and indices.", "anchors": ["crates/math/src/binary_subspace.rs: BinarySubspace"]}
{"id": "C25", "title": "Twiddle factors", "statement": "On-the-fly and precomputed twiddle access return the same value, equal to the normalised subspace vanishing polynomial evaluated at the indexed domain element; restricting to a coset is shifting the index.", "quantifier": "every binary field, domain, round, index, coset", "why_tests_cant": "All domains and indices.", "anchors": ["crates/ntt/src/twiddle.rs: OnTheFlyTwiddleAccess, PrecomputedTwiddleAccess, precompute_subspace_evals"]}
{"id": "C26", "title": "Inverse NTT inverts the forward NTT", "statement": "For every admissible shape, coset and number of skipped rounds inverse_transform(forward_transform(v)) = v and conversely.", "quantifier": "all sizes, shapes, cosets, skip rounds, data", "why_tests_cant": "Sizes and data unbounded.", "anchors": ["crates/ntt/src/single_threaded.rs: forward_transform, inverse_transform", "crates/ntt/src/additive_ntt.rs"]}
{"id": "C27", "title": "Forward NTT is evaluation", "statement": "forward_transform maps coefficients in the novel polynomial basis to the evaluations of that polynomial on the (coset of the) domain subspace.", "quantifier": "every binary field, domain, coefficients", "why_tests_cant": "Polynomial identity for all sizes.", "anchors": ["crates/ntt/src/single_threaded.rs", "crates/ntt/src/tests/ntt_tests.rs"]}
{"id": "C28", "title": "Multithreaded NTT equals single-threaded", "statement": "The multithreaded transform returns the single-threaded result for every thread count and shape.", "quantifier": "all thread limits, shapes, data, schedules of the independent row/column jobs", "why_tests_cant": "Independence of schedule and partition.", "anchors": ["crates/ntt/src/multithreaded.rs"]}
{"id": "C29", "title": "Reed-Solomon encoding", "statement": "The encoder returns evaluations of the message polynomial, is linear and injective, and two different messages agree on fewer than dim positions.", "quantifier": "every code length/rate, messages", "why_tests_cant": "The distance bound quantifies over all message pairs.", "anchors": ["crates/core/src/reed_solomon/reed_solomon.rs: ReedSolomonCode::encode_batch_inplace"]}
{"id": "C30", "title": "FRI folding commutes with encoding", "statement": "Folding a Reed-Solomon codeword with fold_chunk and challenges r gives at each index the codeword of the message whose coefficient table is partially evaluated at r.", "quantifier": "every length, arity, challenges, messages", "why_tests_cant": "Completeness of FRI for every message.", "anchors": ["crates/ntt/src/fri.rs: fold_pair, fold_chunk, fold_interleaved_chunk", "crates/compute/src/cpu/layer.rs: fri_fold"]}
{"id": "C31", "title": "Merkle completeness", "statement": "For every leaf vector and index, the opening produced by the prover is accepted by the verifier against the committed root (and against any committed layer).", "quantifier": "all tree sizes, leaves, indices, layer depths, hash functions", "why_tests_cant": "All sizes and indices.", "anchors": ["crates/core/src/merkle_tree/binary_merkle_tree.rs", "crates/core/src/merkle_tree/scheme.rs: verify_opening, verify_layer, verify_vector", "crates/core/src/merkle_tree/prover.rs"]}
{"id": "C32", "title": "Merkle binding", "statement": "If two openings of different values at the same index are both accepted against one root, a collision of the leaf hash or of the compression function can be computed from them.", "quantifier": "all depths, indices, values, paths, hash functions", "why_tests_cant": "Adversarial inputs.", "anchors": ["crates/core/src/merkle_tree/scheme.rs: verify_opening"]}
{"id": "C33", "title": "Transcript agreement", "statement": "If the verifier replays the prover's sequence of message/observe/sample operations on the prover's tape it reads the same messages, draws the same challenges and finishes with an empty tape; a leftover tape is an error.", "quantifier": "all operation sequences, message contents, hash functions", "why_tests_cant": "All histories.", "anchors": ["crates/core/src/transcript/mod.rs: ProverTranscript, VerifierTranscript", "crates/core/src/fiat_shamir/hasher_challenger.rs"]}
{"id": "C34", "title": "Challenger is independent of buffering", "statement": "The byte stream sampled and the state reached depend only on the concatenation of observed bytes between samples, not on how it is cut into writes or reads.", "quantifier": "all sequences of observe/sample with all chunkings", "why_tests_cant": "All chunkings and histories.", "anchors": ["crates/core/src/fiat_shamir/hasher_challenger.rs: HasherChallenger, ObserverState/SamplerState"]}
{"id": "C35", "title": "Serialization round trip", "statement": "Every value written by SerializeBytes is read back equal by DeserializeBytes, consuming exactly the written bytes, for all supported composites; reading a truncated buffer is an error and never a value.", "quantifier": "all values, all trailing bytes, all prefixes", "why_tests_cant": "Recursive types with unbounded sizes.", "anchors": ["crates/utils/src/serialization.rs"]}
{"id": "C36", "title": "Sumcheck verifier soundness", "statement": "If a sumcheck claim is false and the verifier accepts with final evaluations that are the true evaluations of the multilinears at the challenge point, then in some round the challenge is a root of a nonzero polynomial of degree at most the claimed degree; so at most degree many bad challenges exist per round for any prover strategy.", "quantifier": "all multilinears, compositions, batchings, prover messages, challenges", "why_tests_cant": "Adversarial prover.", "anchors": ["crates/core/src/protocols/sumcheck/verify_sumcheck.rs: batch_verify", "crates/core/src/protocols/sumcheck/common.rs: RoundProof, interpolate_round_proof"]}
{"id": "C37", "title": "Sumcheck completeness", "statement": "If all claims are true and the prover sends the true round polynomials, the verifier accepts and outputs the true evaluations.", "quantifier": "all multilinears, compositions, challenges", "why_tests_cant": "All instances.", "anchors": ["crates/core/src/protocols/sumcheck/verify_sumcheck.rs", "crates/core/src/protocols/sumcheck/front_loaded.rs"]}
{"id": "C38", "title": "Round proof compression", "statement": "Truncating the last coefficient of a round polynomial and recovering it from the claimed sum returns the polynomial exactly when the claim matches, and any recovered polynomial satisfies the sum check.", "quantifier": "all coefficients lists, sums", "why_tests_cant": "All inputs.", "anchors": ["crates/core/src/protocols/sumcheck/common.rs: RoundCoeffs::truncate, RoundProof::recover, batch_weighted_value"]}
{"id": "C39", "title": "Front-loaded batch verifier state machine", "statement": "The batch verifier accepts only the documented call order, finishes every claim exactly in the round equal to its number of variables, and never panics on any call sequence.", "quantifier": "all call sequences, claims", "why_tests_cant": "All histories.", "anchors": ["crates/core/src/protocols/sumcheck/front_loaded.rs: BatchVerifier"]}
{"id": "C40", "title": "Zerocheck and eq-indicator reductions", "statement": "An accepted eq-ind sumcheck output equals the sum of composition times the equality indicator; the reduction from zerocheck claims to sumcheck claims is faithful, and verify_sumcheck_outputs accepts exactly when the eq evaluations match.", "quantifier": "all claims, points", "why_tests_cant": "All instances.", "anchors": ["crates/core/src/protocols/sumcheck/eq_ind.rs", "crates/core/src/protocols/sumcheck/zerocheck.rs", "crates/core/src/protocols/sumcheck/verify_zerocheck.rs"]}
{"id": "C41", "title": "Grand product reduction", "statement": "The layered witness evaluates to the product of all inputs, every layer is the pairwise product of the next, and the verifier's layer step is sound and complete with respect to layer claims.", "quantifier": "all sizes including truncated witnesses, all values", "why_tests_cant": "All sizes and inputs.", "anchors": ["crates/core/src/protocols/gkr_gpa/gkr_gpa.rs: GrandProductWitness", "crates/core/src/protocols/gkr_gpa/verify.rs"]}
{"id": "C42", "title": "Shift indicator", "statement": "The shift-indicator transparent polynomial evaluates on Boolean inputs to exactly the matrix of circular-left / logical-left / logical-right shift by the offset, and its fast evaluation is the multilinear extension of that matrix.", "quantifier": "all block sizes, offsets, variants, points", "why_tests_cant": "All sizes and points.", "anchors": ["crates/core/src/transparent/shift_ind.rs"]}
{"id": "C43", "title": "Transparent polynomials", "statement": "evaluate() of eq-ind, step-up, step-down, select-row, powers, constant, tower-basis and disjoint-product polynomials equals the multilinear extension of their tabulated values.", "quantifier": "all n_vars, parameters, points", "why_tests_cant": "All points and sizes.", "anchors": ["crates/core/src/transparent/*.rs"]}
{"id": "C44", "title": "Evalcheck soundness reduction", "statement": "If the evalcheck verifier accepts and every claim it defers (committed evaluation claims and new sumcheck constraints) is true, then every input claim is true.", "quantifier": "all oracle DAGs, proofs, claims", "why_tests_cant": "Adversarial proofs on arbitrary DAGs.", "anchors": ["crates/core/src/protocols/evalcheck/verify.rs"]}
{"id": "C45", "title": "Channel balancing", "statement": "Witness validation accepts flushes exactly when, for every channel and every tuple, the multiset of pushes equals the multiset of pulls with multiplicities, boundary values included.", "quantifier": "all flush sequences, tables, selectors, multiplicities", "why_tests_cant": "All histories.", "anchors": ["crates/core/src/constraint_system/channel.rs"]}
{"id": "C46", "title": "Integer gadgets", "statement": "The addition, subtraction, multiplication, division, comparison and shift gadgets are sound (constraints imply the integer relation) and complete (populated witness satisfies the constraints).", "quantifier": "all inputs, all satisfying assignments", "why_tests_cant": "2^64 inputs and adversarial witnesses.", "anchors": ["crates/m3/src/gadgets/{add,sub,mul,div,barrel_shifter}.rs"]}
{"id": "C47", "title": "Bump allocator", "statement": "Allocated slices are pairwise disjoint, inside the buffer and never exceed capacity; a failed allocation leaves the allocator unchanged.", "quantifier": "all sequences of allocations/subscopes, schedules of concurrent callers under the lock", "why_tests_cant": "All histories.", "anchors": ["crates/compute/src/alloc.rs: BumpAllocator"]}
{"id": "C48", "title": "Sorting helpers", "statement": "unsort(stable_sort(xs)) returns the original order, and stable sort is a permutation ordered by key preserving the order of equal keys.", "quantifier": "all lists, keys", "why_tests_cant": "All inputs.", "anchors": ["crates/utils/src/sorting.rs", "crates/core/src/protocols/gkr_gpa/verify.rs"]}
{"id": "C49", "title": "Sparse index and strided containers", "statement": "SparseIndex behaves as a finite map with default; strided mutable views address pairwise disjoint elements covering the array; Array2D get/set obey map laws.", "quantifier": "all operation sequences", "why_tests_cant": "All histories.", "anchors": ["crates/utils/src/sparse_index.rs", "crates/utils/src/strided_array.rs", "crates/utils/src/array_2d.rs"]}
{"id": "C50", "title": "Checked arithmetic", "statement": "checked_log_2, strict_log_2, log2_ceil, checked_int_div return the documented value on all accepted inputs and fail exactly on the documented ones.", "quantifier": "all 64-bit integers", "why_tests_cant": "2^64 inputs.", "anchors": ["crates/utils/src/checked_arithmetics.rs"]}
{"id": "C51", "title": "Tensor algebra", "statement": "transposition exchanges vertical and horizontal scaling, scale_vertical/horizontal are ring actions, and fold_vertical is the horizontal-linear functional defined by the coefficients.", "quantifier": "all dimensions, elements, scalars", "why_tests_cant": "All inputs.", "anchors": ["crates/core/src/tensor_algebra.rs"]}
{"id": "C52", "title": "Compute layer tensor and kernel ops", "statement": "tensor_expand, extrapolate_line, fold_left, fold_right, inner_product and pairwise_product_reduce of the CPU layer compute the documented algebraic result and reject wrong sizes.", "quantifier": "all sizes, data", "why_tests_cant": "All inputs.", "anchors": ["crates/compute/src/cpu/layer.rs"]}
{"id": "C53", "title": "Commit metadata layout", "statement": "CommitMeta assigns disjoint consecutive index ranges by number of variables covering all committed multilinears, total_vars is the least power-of-two cover, and the PIOP claim grouping accepts exactly claims whose indices lie in range.", "quantifier": "all multisets of n_vars, claims", "why_tests_cant": "All inputs.", "anchors": ["crates/core/src/piop/verify.rs: CommitMeta, make_sumcheck_claim_descs"]}
{"id": "C54", "title": "FRI parameters", "statement": "FRIParams accepted by the constructor satisfy the round accounting: fold rounds partition the message dimension, query index bits shrink by each arity to the final code, and optimal layer depths never exceed the tree depth.", "quantifier": "all codes, arities, query counts", "why_tests_cant": "All parameters.", "anchors": ["crates/core/src/protocols/fri/common.rs: FRIParams"]}
{"id": "C55", "title": "FRI query verification completeness", "statement": "For an honest prover every query at every index is accepted.", "quantifier": "all messages, challenges, indices, arities", "why_tests_cant": "All instances.", "anchors": ["crates/core/src/protocols/fri/verify.rs"]}
{"id": "C56", "title": "Scalar access to slices of packed elements", "statement": "Viewed through the scalar accessors, a slice of packed field elements behaves as the flat list of its scalars: reading after writing returns the written value and leaves every other index unchanged; accesses beyond the end are reported as out of range; packing a list of scalars keeps each scalar at its index and pads with zeros; iterating from an offset yields exactly the scalars from that offset on; copying scalars into a packed slice writes scalar i at index i and nothing else; multiplying by a subfield scalar multiplies every scalar.", "quantifier": "all packed widths, scalar sizes, slice lengths, indices and offsets", "why_tests_cant": "the failing case of copying (a length that is not a multiple of the width) depends on width and length together and the tests use full elements", "anchors": ["crates/field/src/packed.rs:get_packed_slice", "crates/field/src/packed.rs:set_packed_slice", "crates/field/src/packed.rs:pack_slice", "crates/field/src/packed.rs:copy_packed_from_scalars_slice", "crates/field/src/packed.rs:iter_packed_slice_with_offset", "crates/field/src/packed.rs:mul_by_subfield_scalar"]}
{"id": "C57", "title": "Zero padding of a multilinear polynomial", "statement": "zero_pad inserts the requested number of variables at the requested position: the new table equals the old table where the inserted coordinates equal the chosen index and is zero elsewhere, so its extension is the old extension times the equality indicator of the inserted coordinates; out-of-range arguments are errors.", "quantifier": "all tables, packing widths, positions, indices", "why_tests_cant": "All sizes, widths and positions; the packed loop has width-dependent bounds.", "anchors": ["crates/math/src/fold.rs: zero_pad", "crates/math/src/multilinear_extension.rs: zero_pad"]}
{"id": "C58", "title": "Leading term and evaluation cost of a circuit", "statement": "For every circuit with a highest-degree part, ArithCircuit::leading_term returns a circuit whose value at a direction b is the coefficient of t^degree in the composition evaluated along any line a + t*b (this is what the prover uses to evaluate a round polynomial at infinity); the evaluation cost is defined for every circuit without zero exponents.", "quantifier": "all circuits, all fields, all base points and directions", "why_tests_cant": "a unit test checks a handful of expressions; the claim ranges over all circuits and all lines", "anchors": ["crates/math/src/arith_expr.rs:ArithCircuit::leading_term", "crates/math/src/arith_expr.rs:ArithCircuit::eval_cost", "crates/math/src/arith_expr.rs:ArithCircuit::degree"]}
{"id": "C59", "title": "Fiat-Shamir challenges bind the whole history", "statement": "If two interactions with the challenger, each an alternation of observed byte strings and sampled amounts, end in the same freshly sampled digest, then they observed the same bytes and sampled the same amounts at the same points, or two different byte strings that were hashed during them have the same digest", "quantifier": "all pairs of alternating histories of observations and samplings, all hash functions", "why_tests_cant": "a test sees finitely many histories; a missing separation between two histories shows only for specially crafted pairs", "anchors": ["crates/core/src/fiat_shamir/hasher_challenger.rs:HasherChallenger,HasherObserver,HasherSampler"]}
{"id": "C60", "title": "Subcube accessors return the partial evaluations on the subcube", "statement": "For a multilinear polynomial behind an adapter, a tensor query for a point with q coordinates and a subcube given by its number of variables and its index, the low accessor fills the output with the values of the multilinear extension with the first q variables set to the point, the high accessor with the last q variables set to the point, and the plain accessor with the table entries, at every vertex of the subcube; whatever the output buffer held before; out-of-range subcubes are rejected.", "quantifier": "all tables, packing widths, points, subcube sizes and indices, previous buffer contents", "why_tests_cant": "a wrong stride, a stale accumulator or a lost tail of a partial packed word shows only for particular combinations of packing width, subcube size and query length", "anchors": ["crates/math/src/mle_adapters.rs:subcube_partial_low_evals", "crates/math/src/mle_adapters.rs:subcube_partial_high_evals", "crates/math/src/mle_adapters.rs:subcube_evals", "crates/math/src/mle_adapters.rs:validate_subcube_partial_evals_params"]}
{"id": "C61", "title": "A tabulated transparent multilinear survives serialization", "statement": "Serializing a tabulated transparent multilinear polynomial and deserializing the bytes gives a polynomial with the same number of variables and the same values, and deserialization of malformed tables reports an error. The code meets this only for tables over the 128-bit field that fill a packed element of the smallest subfield containing the values: smaller tables gain variables, tables over proper subfields come back as other polynomials, and malformed tables panic.", "quantifier": "every table, subfield level and underlier width", "why_tests_cant": "A test tries a few tables; the failing classes depend on the interplay of table size, subfield and packing width, and a test over full-width random values misses all of them.", "anchors": ["crates/core/src/transparent/multilinear_extension.rs:MultilinearExtensionTransparent", "crates/math/src/mle_adapters.rs:packed_evals"]}
{"id": "C62", "title": "Connected components are labelled by their smallest node", "statement": "Given any family of node sets, connected_components terminates without panicking and returns, for every node from 0 to the largest node mentioned, the smallest node reachable from it through shared sets; two nodes get the same label exactly when they are connected.", "quantifier": "every finite family of finite sets of node indices", "why_tests_cant": "Union-find correctness depends on arbitrary union orders, path compressions and rank histories; unit tests fix a handful of graphs.", "anchors": ["crates/utils/src/graph.rs:connected_components", "crates/utils/src/graph.rs:UnionFind"]}
{"id": "C63", "title": "An accepted FRI proof is consistent with the committed oracles at every queried coset", "statement": "If the FRI verifier accepts a proof under commitments to some vectors, then either the proof contains an explicit hash collision with those vectors, or the vector of the last round folds to the returned value at every point of the final repetition code, and at every query index the chain of folds agrees: the fold of each committed vector over the queried coset equals the entry of the next committed vector.", "quantifier": "every parameter set with first arity at least the interleaving, every commitment, challenge list, set of query indices and proof byte string", "why_tests_cant": "A test checks a few corrupted proofs; the claim must hold for every byte string an adversarial prover can send.", "anchors": ["crates/core/src/protocols/fri/verify.rs:FRIVerifier", "crates/core/src/protocols/fri/common.rs:fold_chunk", "crates/core/src/merkle_tree/scheme.rs:BinaryMerkleTreeScheme"]}
{"id": "C64", "title": "Ring-switching equality indicator", "statement": "The transparent multilinear used by the ring-switching reduction takes at each vertex x of the cube the value of the row-batching coefficients applied to the subfield coordinates of the mixing coefficient times eq(z, x). The verifier's succinct evaluation at any point equals the multilinear extension of exactly these values, the prover's table (computed in a zeroed buffer) is exactly these values, construction fails exactly when there are fewer row-batching coefficients than the extension degree, and evaluation fails exactly when the query has the wrong length.", "quantifier": "every extension degree, suffix point, coefficient vector, mixing coefficient and query point", "why_tests_cant": "the field and the point range over sets far too large to enumerate; tests compare a handful of random points", "anchors": ["crates/core/src/ring_switch/eq_ind.rs: RingSwitchEqInd::new, RingSwitchEqInd::evaluate, RingSwitchEqInd::multilinear_extension"]}
{"id": "C65", "title": "Ring switching reduces evaluation claims soundly and completely", "statement": "Reducing evaluation claims on committed multilinears over subfields to sumcheck claims on the packed multilinears: (soundness) if some evaluation claim is false, then whatever the prover sends, the verifier either rejects or ends with a reduced claim that is false, except for challenges in a set of fraction at most (ceil(log2 #claims) + tower level)/(size of the field); (completeness) if all claims are true and packing degrees supported, the honest prover's proof is accepted for every choice of challenges, is read exactly, both sides end with the same reduced claims, and these are true; (totality) the verifier of an accepted claim system never panics whatever the proof.", "quantifier": "every set of oracles, claims (mixed tower levels, points shorter than the packing degree included), committed values, proof and challenges", "why_tests_cant": "malicious proofs and challenges cannot be enumerated; tests run only honest provers on random data", "anchors": ["crates/core/src/ring_switch/verify.rs: verify", "crates/core/src/ring_switch/prove.rs: prove", "crates/core/src/ring_switch/common.rs: EvalClaimSystem::new"]}
{"id": "C66", "title": "Virtual oracles mean what their constructors say", "statement": "Each function that adds an oracle (committed, transparent, structured, repeating, projected, shifted, packed, linear combination, zero-padded, composite) fails exactly when its arguments are inconsistent with the inner oracles; otherwise it appends one oracle, leaves the others as they were, and in every assignment of values to the oracles the new one has the documented values as a function of the inner ones. Whatever the committed columns are, the virtual oracles have values, and only one choice of values.", "quantifier": "all oracle sets built by the constructors, all arguments, all column contents", "why_tests_cant": "Tests build a handful of oracles; the claim ranges over arbitrary nested definitions and column contents", "anchors": ["crates/core/src/oracle/multilinear.rs:MultilinearOracleSetAddition, crates/core/src/oracle/multilinear.rs:MultilinearOracleSet"]}
{"id": "C67", "title": "Constraint sets keep the meaning of their constraints", "statement": "Building a constraint set from constraints over lists of oracles of one size always succeeds, lists each oracle once in increasing order, and each constraint of the set has, on all values of the oracles, the same composition value and the same expected sum as the constraint it comes from; the constraints the evaluation-claim verifier hands over are satisfied exactly when all it has recorded is true.", "quantifier": "all lists of constraints, oracle sets and values", "why_tests_cant": "Index remapping must be right for every overlap of the oracle lists", "anchors": ["crates/core/src/oracle/constraint.rs:ConstraintSetBuilder, crates/core/src/protocols/evalcheck/verify.rs:EvalcheckVerifier"]}
{"id": "C68", "title": "A compiled composition polynomial computes its circuit", "statement": "Building a composition polynomial from an arithmetic circuit (after the optimiser has run on it) and evaluating it, at one point or on a batch of points given as rows, returns the value that the circuit has there; points of the wrong length and batches of the wrong size are refused.", "quantifier": "all circuits, including shared subexpressions and nested powers, all points, all batches", "why_tests_cant": "the compiler reuses slots, so its result depends on the global sharing pattern of the circuit; tests cover a handful of expressions", "anchors": ["crates/fast_compute/src/arith_circuit.rs: convert_circuit_steps, ArithCircuitPoly::new, with_n_vars, evaluate, batch_evaluate"]}
{"id": "C69", "title": "Exponentiation claims are reduced soundly", "statement": "Batch-verifying claims that base^exponent, with the exponents given by columns of bits and the base a constant or a column, has a claimed value at a point: if some claimed value is wrong, then whatever the prover sends, at most a fraction (max bits) (#claims + 5 max variables) / (size of the challenge set) of the challenge vectors lead the verifier to accept evaluation claims on the bit and base columns that are all true. The verifier never panics on well-formed claims, and returns one claim per bit (and base) column per layer, at a point of the right size. Constant bases must differ from one and have at most 64 bits.", "quantifier": "every field, every list of claims with any bit widths, numbers of variables, shared or different points, constant or column bases, every prover strategy and every set of challenge vectors", "why_tests_cant": "soundness quantifies over all prover strategies; widths, grouping by points and the order of claims cannot be enumerated", "anchors": ["crates/core/src/protocols/gkr_exp/batch_verify.rs:batch_verify", "crates/core/src/protocols/gkr_exp/verifiers.rs:ExpVerifier", "crates/core/src/protocols/gkr_exp/compositions.rs", "crates/core/src/protocols/gkr_exp/oracles.rs:construct_gkr_exp_claims,make_eval_claims"]}
{"id": "C70", "title": "A proof binds the results of exponentiations", "statement": "When the constraint system verifier accepts and the evaluation claims it derived from the exponentiation phase are true, the committed result column of every exponentiation holds base^exponent. False of the code: no evaluation claim on a result column is derived, so that the claims stay true for any result column.", "quantifier": "every list of exponentiations, every transcript and every content of the result columns", "why_tests_cant": "a test with an honest prover commits the right results; a wrong result column is not noticed by any accepted-proof test", "anchors": ["crates/core/src/constraint_system/verify.rs:verify", "crates/core/src/constraint_system/exp.rs:make_claims,make_eval_claims,reorder_exponents"]}
{"id": "C71", "title": "Unbalanced channels and forbidden zeros are caught", "statement": "During verification of a constraint system, if over a channel that is used by a table with at least one row some tuple is not pushed as often as it is pulled (flushes of the table rows selected by the selectors plus boundary values, counted with multiplicities, all tuples of the channel having w elements), then whatever the prover sends, at most a fraction (events * (w - 1) + max(pushes, pulls) + N (K + 3 N)) / (size of the challenge set) of the challenge vectors let the verifier reach evaluation claims that are all true, where K products over at most N variables are checked. The same holds with the last term alone if a column listed as non-zero has a zero. Balanced channels always pass. The oracle of each flush is r + sum_i s^i v_i on the rows sent and one elsewhere, also for tables whose size is no power of two.", "quantifier": "every oracle set and its values, every list of flushes with any selectors, directions, multiplicities and table sizes, every list of boundaries, every prover strategy and every set of challenge vectors", "why_tests_cant": "soundness quantifies over all prover strategies and the number of accepting challenges; tests run the honest prover", "anchors": ["crates/core/src/constraint_system/verify.rs:verify,verify_channels_balance,augment_flush_po2_step_down,make_flush_oracles", "crates/core/src/constraint_system/mod.rs:check_table_sizes", "crates/core/src/protocols/gkr_gpa/oracles.rs:construct_grand_product_claims,make_eval_claims"]}
{"id": "C72", "title": "Every channel is checked", "statement": "A proof is accepted only if every channel of the constraint system is balanced, whatever table sizes the prover claims and whatever the widths of the tuples. False of the code: a channel without flushes of a non-empty table is skipped, so that a prover who declares the tables empty gets any boundary values accepted; and tuples that differ by trailing zeros are mixed to the same value.", "quantifier": "every list of flushes and boundaries, every choice of table sizes by the prover", "why_tests_cant": "tests use honest table sizes and tuples of equal width", "anchors": ["crates/core/src/constraint_system/verify.rs:verify,verify_channels_balance"]}
{"id": "C73", "title": "Evaluation claims on any oracle reduce to claims on committed oracles", "statement": "If the greedy evaluation-claim verifier accepts, then all evaluation claims given to it are true or one of the claims it returns is false, except for a fraction of the challenges that is at most the work of the claims divided by the size of the challenge set. The work counts, along the definitions of the oracles, one composite claim with its rounds and degree for every shifted, packed and composite oracle. Every returned claim is about a committed oracle of the caller at a point of its dimension, the oracle set only gains derived oracles, and the verifier ends after a number of rounds bounded by the same work.", "quantifier": "every field of the tower, every well-formed oracle set, every list of claims, every adaptive prover strategy, every challenge set", "why_tests_cant": "the prover is adaptive and the oracle definitions nest without bound", "anchors": ["crates/core/src/protocols/greedy_evalcheck/verify.rs:verify", "crates/core/src/protocols/sumcheck/oracles.rs:constraint_set_sumcheck_claim,constraint_set_mlecheck_claim,make_eval_claims", "crates/core/src/protocols/evalcheck/verify.rs:EvalcheckVerifier"]}
{"id": "C74", "title": "The verifier's reductions catch every violated condition of the constraint system", "statement": "For a constraint system whose columns fit their tables and whose compositions are compiled correctly: if a zero constraint of a table with rows fails on some row, or a channel over which a table with rows is flushed is not balanced, or a column of the non-zero list is zero on some row, then against any prover the reductions of constraint_system::verify (exponentiation, product argument, flush reduction, zerocheck, greedy evalcheck) succeed with evaluation claims that are all true of the committed columns for at most a stated fraction err over the size of S of the challenges from any set S, and every claim returned is about a committed column at a point of its dimension.", "quantifier": "every tower field, oracle set, system of tables, flushes, non-zero columns and exponentiations, table sizes, boundaries, violated condition, prover strategy and finite set of challenges", "why_tests_cant": "the failure probability is over all challenges and all cheating provers, and the five sub-protocols hand claims to each other in ways a test of one of them does not see", "anchors": ["crates/core/src/constraint_system/verify.rs: verify, reduce_flush_evalcheck_claims", "crates/core/src/protocols/sumcheck/oracles.rs: constraint_set_zerocheck_claim"]}
{"id": "C75", "title": "The polynomial IOP verifier catches every wrong sum about committed multilinears", "statement": "The message that the prover commits to holds exactly its multilinears, each at the place given by its number of variables and its position. If one of the sums of products of a committed and a transparent multilinear passed to piop::verify is not the sum of the multilinears in the message, then against any prover, for all but a fraction (number of claims plus 3 times the number of variables of the message) over the size of S of the challenges from any set S, piop::verify rejects or the value it obtained from FRI is not the value of the message at the challenges.", "quantifier": "every field, batch of multilinears of any sizes, message, transparent polynomials, claims, FRI fold arities, FRI verifier, prover strategy and finite set of challenges", "why_tests_cant": "soundness is over all cheating provers and challenges, and the layout of the message (bit reversal, descending order) has to agree between the prover, the order of the sumcheck rounds and the piecewise evaluation for all combinations of sizes", "anchors": ["crates/core/src/piop/verify.rs: verify, verify_interleaved_fri_sumcheck, verify_transparent_evals", "crates/core/src/piop/prove.rs: merge_multilins, reverse_index_bits"]}
{"id": "C76", "title": "Accepted constraint systems are satisfied by the committed message", "statement": "Take any statement of a constraint system and any message fixed by the commitment. If the columns held by the message, together with the virtual columns derived from them, violate the system - a constraint does not vanish on a row, a channel over which a table with rows is flushed is unbalanced, or a column that must not vanish is zero somewhere - then, except with probability at most a closed-form error over the field size, the verifier rejects or the value it obtained from FRI is not the evaluation of the message at the challenges.", "quantifier": "all constraint systems with columns of consistent sizes and faithfully compiled circuits, all statements, all messages, all prover strategies, all FRI verifiers yielding a value, every bound on the number of evaluation claims", "why_tests_cant": "tests run the verifier on honest proofs and a few tampered ones; soundness is about every adaptive prover and every violating witness, across five composed subprotocols", "anchors": ["crates/core/src/constraint_system/verify.rs:verify", "crates/core/src/ring_switch/verify.rs:verify", "crates/core/src/piop/verify.rs:verify", "crates/core/src/piop/commit.rs:make_oracle_commit_meta"]}
{"id": "C77", "title": "Oracles instantiated from the table sizes are the declared ones", "statement": "When the sizes of the tables are read from the proof, the symbolic oracles of a constraint system whose declared shapes fit together are turned into concrete ones: those of empty tables are skipped, every other oracle has log2_ceil(table size) plus its values per row as number of variables and its declared level, the set satisfies everything the evaluation-claim reductions rely on, and an assignment of values is consistent with it exactly if every value is the declared function of the other columns; a missing table size is an error", "quantifier": "every set of symbolic oracles, every list of table sizes, every assignment of values", "why_tests_cant": "table sizes are chosen by the prover and unit tests fix a few of them; a wrong variable count or start index only shows for particular shapes", "anchors": ["crates/core/src/oracle/symbolic.rs SymbolicMultilinearOracleSet::instantiate, instantiate_oracle_variant, Builder", "crates/core/src/oracle/multilinear.rs Projected::new, Shifted::new, ZeroPadded::new, LinearCombination::new, CompositeMLE::new"]}
{"id": "C78", "title": "The table builder compiles tables to a constraint system that says the same", "statement": "Tables built with the methods of the table builder compile, except for the cases listed, to a constraint system in which every column has its own oracle of the declared shape. The oracles and the cells of the tables correspond: values consistent with the oracles are exactly cells in which every derived column (shifted, packed, selected, block, padded, constant, structured, fixed or computed) is what its method promises, and the constraints, flushes, exponentiations and non-zero columns of the compiled system are those asserted on the tables.", "quantifier": "every sequence of calls of the builder methods that does not panic, every number of tables, every list of table sizes the verifier accepts, every assignment of cells", "why_tests_cant": "a gadget test fills one table with a few rows; an index remapped wrongly, a column looked up in the wrong partition or a shape one off only shows for particular tables", "anchors": ["crates/m3/src/builder/table.rs TableBuilder, Table, TablePartition", "crates/m3/src/builder/column.rs ColumnDef", "crates/m3/src/builder/expr.rs", "crates/m3/src/builder/constraint_system.rs compile, add_oracles_for_columns, translate_constraint_set"]}
{"id": "C79", "title": "Tables accepted by the verifier satisfy every assertion", "statement": "Take tables made with the table builder, compiled, and any message fixed by the commitment. If the cells that the message encodes violate the tables - an expression asserted zero is not zero in some row, a column asserted non-zero is zero somewhere, or what the rows and the boundaries push on a channel used by a table with rows is not what they pull - then, except with probability at most a closed-form error over the field size, the verifier of the constraint system rejects or the value it obtained from FRI is not the evaluation of the message.", "quantifier": "all tables reachable with the builder whose circuits are compiled faithfully, all table sizes, all boundaries, all messages, all prover strategies", "why_tests_cant": "it is about every adaptive prover and every violating table; tests try a few tampered tables", "anchors": ["crates/m3/src/builder/constraint_system.rs compile", "crates/m3/src/builder/table.rs assert_zero, assert_nonzero, push, pull, push_with_opts, pull_with_opts, read", "crates/core/src/constraint_system/verify.rs verify"]}
{"id": "C80", "title": "Lookups answer with entries of the table", "statement": "In a system whose channels balance, every tuple that a table pulls from a lookup channel is an entry of the lookup table: for the bitwise AND table the output of every read is the bitwise AND of its inputs, for the increment table the output and the carry out of every read are those of adding the carry in to the input. Conversely, if every read is an entry, the counts returned by the tally are the numbers of times each entry is read, and filling the lookup table with the entries in any order and those counts makes the lookup channel and the permutation channel balance.", "quantifier": "all tables made with the builder that read from the channel, all sizes and contents of tables, all boundary pulls, all multiplicity widths (completeness: counts that fit), all orders of the entries, all field levels that hold an entry", "why_tests_cant": "a single forged read must be rejected for every table and every multiplicity the prover picks; tests only fill lookup tables honestly", "anchors": ["crates/m3/src/gadgets/lookup.rs LookupProducer::new, populate", "crates/m3/src/gadgets/indexed_lookup/and.rs BitAnd, BitAndLookup, BitAndIndexedLookup", "crates/m3/src/gadgets/indexed_lookup/incr.rs Incr, IncrLookup, IncrIndexedLookup", "crates/m3/src/builder/indexed_lookup.rs tally"]}
{"id": "C81", "title": "The witness check agrees with the constraint system", "statement": "validate_witness returns Ok on every witness that satisfies the constraint system: the table sizes are as declared, every column has the size and level of its oracle and the values its definition gives, every constraint vanishes on every row of a non-empty table, the columns declared non-zero have no zero, and every channel is balanced. Conversely, when it returns Ok and there is no zero-padded oracle, all of these hold of the witness, except that exponentiations and constraint sets without columns are not looked at.", "quantifier": "all constraint systems, table sizes, boundaries and witness indices, all oracle variants, all tower fields, with and without overflow checks", "why_tests_cant": "A test tries a few tables and witnesses; agreement is about every oracle variant, row, packing level and every wrong witness.", "anchors": ["crates/core/src/constraint_system/validate.rs:validate_witness, validate_virtual_oracle, check_eval, validate_nonzero", "crates/math/src/mle_adapters.rs:evaluate_on_hypercube"]}
{"id": "C82", "title": "Recorded tower levels contain the values", "statement": "The tower level that the oracle builder records for a derived oracle is that of a subfield containing all of its values: for repeated, shifted, zero-padded, packed, linearly combined and structured oracles whenever the values of the committed and transparent columns are in their declared levels, and for compositions and projections whenever their constants and points are.", "quantifier": "all sets of oracles made by the builder methods, all table sizes, all values of the committed and transparent columns, all tower fields", "why_tests_cant": "A level that is too small makes a column unstorable or the packed ring-switching sizes wrong for some values only; a test with small coefficients does not show it.", "anchors": ["crates/core/src/oracle/symbolic.rs:linear_combination_with_offset, composite_mle, packed, projected, shifted, repeating, zero_padded, structured", "crates/field/src/binary_field.rs:min_tower_level"]}
{"id": "C83", "title": "The Keccak-f gadget accepts exactly the Keccak-f[1600] permutation", "statement": "On every row on which the constraints of the Keccak-f gadget (stacked, or with conjunctions looked up) hold, the state read at its output is Keccak-f[1600] (24 rounds, FIPS 202) of the state read at its input, whatever the prover put into the other columns. Conversely, for every input state the trace generator computes the permutation and the columns that populate writes satisfy every constraint and agree with the definition of every derived column.", "quantifier": "all 25-lane states of 64-bit words, all assignments of the committed columns, all 24 rounds, all tracks", "why_tests_cant": "there are 2^1600 states and far more assignments of the columns; the tests try one vector and some random states, and never an adversarial witness", "anchors": ["crates/m3/src/gadgets/hash/keccak/stacked.rs: Keccakf::new, Keccakf::populate, RoundBatch::new, RoundBatch::populate, round_consts_for_batch, nth_round_per_batch", "crates/m3/src/gadgets/hash/keccak/trace.rs: RoundTrace::gather, keccakf_trace, PermutationTrace", "crates/m3/src/gadgets/hash/keccak/state.rs: StateMatrix, StateRow", "crates/m3/src/gadgets/hash/keccak/mod.rs: RHO, RC", "crates/m3/src/gadgets/hash/keccak/lookedup.rs: KeccakfLookedup::new, LookedupRoundBatch::new, LookedupRoundBatch::populate"]}
{"id": "C84", "title": "The SHA-256 gadget accepts exactly the compression of the message block", "statement": "On every row on which the constraints of the SHA-256 gadget hold, the eight output words are the FIPS 180-4 compression of the sixteen message words, from the initial hash value of the standard, whatever the prover put into the other columns. Conversely every message block has a row that satisfies all constraints. The round constants and the initial hash value are the fractional parts of roots of primes that the standard prescribes.", "quantifier": "all 512-bit message blocks, all assignments of the committed columns, all 64 rounds", "why_tests_cant": "there are 2^512 blocks and far more assignments; the tests compare random blocks with a reference implementation and never try an adversarial witness", "anchors": ["crates/m3/src/gadgets/hash/sha256.rs: Sha256::new, Round::first_round, Round::next_round, Sigma0, Sigma1, BigSigma0, BigSigma1, ROUND_CONSTS_K, INIT, SCHEDULE_EXPAND_SELECTOR, compute_message_schedule", "crates/m3/src/gadgets/add.rs: U32Add, U32AddStacked"]}
