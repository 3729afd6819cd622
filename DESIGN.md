# Formal model of binius in Rocq (Coq 8.16.1)

## Method

* Every modelled function is a small total Gallina function in a `*Model.v` file (or the model
  section of a file), with a comment citing the file and lines of /repo it models and any
  simplification. `&mut` functions return the new value. Panics and `Err` results are explicit
  constructors of an option/result type.
* Independent specifications (what the English says) are in `*Spec.v` files or in clearly marked
  spec sections and do not use the helpers of the model.
* Theorems are proved for all sizes and inputs. Beside each there is an `Example` (suffix `_ex`)
  showing a concrete, non trivial case meeting its hypotheses.
* Generic protocol code (math, ntt, core) is generic over a field in Rust; the model is generic over
  a record `field` (Base/Fld.v) of a commutative field with decidable equality; where binary fields
  are required the hypothesis `1 + 1 = 0` is explicit. The tower fields are instances of this
  record, so no generic theorem is vacuous.
* Where the code violates the expected property, a theorem with suffix `_refuted` gives the
  counterexample, and the positive theorem carries the exact side condition.

## Trusted base

* The kernel of Coq 8.16.1, including its bytecode conversion (`vm_compute`); coqchk re-checks every
  compiled file without it.
* Axioms. `Print Assumptions` prints "Closed under the global context" for every theorem named in
  MANIFEST.json (the full list, one line per theorem, is in `assumptions.txt`). No file declares an
  axiom, a parameter, or a section-less variable; there is no `Admitted`, no functor and no module type.
* coqchk also lists every axiom of the library files that are loaded, used or not. These are
  seven constants of the SSReflect plugin's sealed module, loaded through a standard library tactic
  file and used by no theorem here: `Coq.ssr.ssrunder.Under_rel.Under_rel`, `Under_rel_from_rel`,
  `Under_relE`, `Over_rel`, `over_rel`, `over_rel_done`, `under_rel_done`.
* The correspondence between the Rust text and the Gallina text, which is by inspection (each
  definition cites file and lines). rustc, LLVM, SIMD intrinsics, rayon's implementation and the
  dependencies (`bytes`, `digest`, `groestl`, `rayon`, ...) are trusted to do what their
  documentation says.

### Modelling conventions that are part of the trusted base

* Values of `usize` are unbounded `nat`/`N` unless a file says otherwise (Utils/CheckedModel.v,
  Transcript/SerModel.v, Cs/ChannelModel.v and the exponents of Math/ArithModel.v have explicit word
  sizes). An underflow is a panic, as in a build with overflow checks; where a build without them
  behaves differently and it matters, both are modelled.
* Debug assertions are checked only where a file says so.
* `&mut` arguments are returned. Uninitialised memory is an arbitrary list supplied from outside
  (so a theorem about it holds for every content) or `None` cells.
* Parallel loops: where iterations write disjoint cells, the model quantifies over the order of
  the writes (Base/Par.v, Ntt/ParNttModel.v, Merkle/MerkleModel.v); otherwise the loop is
  sequential and the comment says so.
* Hash and compression functions are arbitrary functions; nothing about their security is assumed.
  Binding theorems say "or here is a collision" (Merkle/MerkleProps.v, Fri/FriSound.v).
* Interactive protocols (Protocol/Proto.v): a verifier is a program of reads, samples and
  a result. Soundness (`sound good e p`): whatever the prover sends, chosen as a function of the
  challenges so far, the number of challenge tuples that lead to acceptance with a bad result is at most the fraction
  `e / |F|` of all. Challenges are uniform; that Fiat-Shamir challenges are functions of the whole
  history is C33, C34 and C59.

## What is modelled

| directory | code of /repo | claims |
|---|---|---|
| Field/ | field: binary_field.rs, aes_field.rs, the portable packed arithmetic, underliers, packed.rs, transpose.rs | C01-C12, C56 |
| Math/ | math: tensor_prod_eq_ind, multilinear_query, multilinear_extension, fold, mle_adapters, univariate, matrix, piecewise_multilinear, arith_expr, binary_subspace (Ntt/SubspaceModel.v) | C13-C24, C57, C58, C60 |
| Ntt/, Code/ | ntt: twiddle, single_threaded, multithreaded, fri; core: reed_solomon | C25-C30 |
| Merkle/ | core: merkle_tree | C31, C32 |
| Transcript/ | core: transcript, fiat_shamir; utils: serialization; macros: the derives; hash: serialization.rs | C33-C35, C59 |
| Protocol/, Sumcheck/ | core: protocols/sumcheck (verifiers, front-loaded batches, regular prover and its state in hal, batch provers, eq-ind and zerocheck reductions) | C36-C40 |
| Gkr/ | core: protocols/gkr_gpa (verifier; prover on top of an abstract eq-ind prover), protocols/gkr_exp (verifier), constraint_system/exp.rs | C41, C69, C70 |
| Transparent/ | core: transparent | C42, C43, C61 |
| Evalcheck/ | core: protocols/evalcheck/verify.rs and its helpers, protocols/greedy_evalcheck/verify.rs, oracle/{multilinear,constraint,symbolic}.rs | C44, C66, C67, C73, C77, C82 |
| Cs/ | core: constraint_system/channel.rs; constraint_system/verify.rs up to the evaluation claims (sizes, exponentiations, flush oracles, channel balance, grand products, flush reduction, zerocheck, greedy evalcheck); constraint_system/validate.rs | C45, C71, C72, C74, C81 |
| M3/ | m3: builder (tables, columns, compile to a constraint system, tally), gadgets add, sub, mul, div, barrel_shifter, lookup, indexed_lookup, hash/keccak (state, trace, stacked, lookedup), hash/sha256 | C46, C78, C79, C80, C83, C84 |
| Compute/ | compute: alloc, cpu layer, ops; fast_compute: arith_circuit | C47, C52, C68 |
| Utils/ | utils: sorting, graph, sparse_index, array_2d, strided_array, checked_arithmetics | C48-C50, C62 |
| RingSwitch/ | core: tensor_algebra, ring_switch | C51, C64, C65 |
| Piop/ | core: piop/{verify, commit, util, prove (message layout)} | C53 C75 |
| Fri/ | core: protocols/fri; the three fri_fold implementations | C54, C55, C63 |

## What is not modelled

* SIMD and other architecture-specific back-ends of the field crate; byte-sliced packed fields;
  POLYVAL; the linear transformation factories beyond those of C08.
* hash: Groestl, Vision, the multi-digest implementations (hashes are parameters).
* fast_compute except its `fri_fold`, memory splitting and compiled circuits; compute_test_utils; benches; examples.
* core: the eq-ind, zerocheck and univariate-skip provers (their verifiers are modelled), the v3
  sumcheck provers, the gkr_exp prover, the evalcheck prover (completeness of C44 is about the
  existence of an accepted proof), `constraint_system::prove`, witness indices (except as read by `validate_witness`).
* m3: statement and witness plumbing of the builder, the Groestl gadget, the order of filling in SHA-256, the Merkle tree gadget, BitAndLooker and IncrLooker.
* Time, memory use and side channels.

## Plan per property

| property | what is modelled | how it is proved |
|---|---|---|
| C01 C02 C03 | bit-level recursive mul/square/mul_alpha/invert on `N` at every level | isomorphism with the quadratic tower `T k` of pairs; ring laws by induction; irreducibility of X^2+aX+1 by the trace argument |
| C04 C05 C06 | embedding, try-conversion, pow, basis decomposition | induction on levels |
| C07 C08 | literal tables and bit matrices | finite sweep by vm_compute lifted by linearity / log-homomorphism |
| C09 C10 C11 C12 | underlier masks, interleave, packed mul, transpose | bit-lane reasoning with N.testbit |
| C13..C17 | tensor expansion, MLE evaluation, folds | induction on the number of variables |
| C18..C20 | barycentric weights, Lagrange, Gauss-Jordan | polynomials as coefficient lists, root counting |
| C21 | piecewise evaluation loop | loop invariant |
| C22 C23 | circuit steps as lists, evaluation left to right | simulation between step tables |
| C24..C28 | subspaces, twiddles, butterfly network | induction on rounds, linearised polynomials |
| C29 C30 | encoder, fold_chunk | from NTT = evaluation |
| C31 C32 | flattened Merkle tree, paths | induction on depth |
| C33..C35 | byte tapes, challenger, codec | operation histories, induction |
| C36..C40 | sumcheck verifiers | round invariant; univariate root bound |
| C41 | GPA layers | induction |
| C42 C43 | transparent polynomials | induction on variables, uniqueness of MLE |
| C44 | evalcheck verifier on oracle DAG | induction over the DAG and proof tree |
| C45 | channels as finite maps of multiplicities | fold invariant |
| C46 | gadget constraints over bits | induction over bit position |
| C47..C50 | allocator, sorting, containers, checked arithmetic | direct |
| C51 C52 | tensor algebra, CPU compute layer | linear algebra on lists |
| C53 | commitment metadata and claim grouping | direct |
| C54 | FRI parameters, arity choice, proof size (Fri/FriParamsProps.v) | arithmetic over the arity list |
| C55 C63 | FRI prover, verifier, folding implementations (Fri/) | completeness by induction on fold rounds from C30 and C31; soundness at the queried cosets: either the openings agree with the committed codewords or the proof exhibits an explicit hash collision |
| C56 C57 | slices of packed fields, zero padding | index arithmetic; the code violates both outside the stated side conditions |
| C58 | leading term and cost of a circuit (Math/ArithOpt.v) | induction over steps |
| C59 | challenger and transcript (Transcript/ChallengerBinding.v) | the observed bytes are recovered from the hash inputs |
| C60 | MLE adapters (Math/SubcubeProps.v) | MLE as a sum over the cube, split of the index |
| C61 | serialized multilinears (Transparent/TowerBasisProps.v) | codec round trip of C35 |
| C62 | connected components (Utils/GraphProps.v) | union-find invariant |
| C64 C65 | ring switching: equality indicator, claim reduction, prover and verifier (RingSwitch/) | tensor algebra as matrices over the subfield; root counting for soundness; agreement of the prover's and verifier's programs for completeness |
| C66 C67 | oracle sets and constraint sets (Evalcheck/OracleModel.v, OracleProps.v) | case analysis over constructors; consistency of value assignments by induction over oracle ids |
| C68 | compilation of circuits to slots, evaluation of the steps (Compute/CircuitPolyModel.v) | invariant on the slot map during the recursion, generic in the type of slot contents so that single and batch evaluation are both instances |
| C69 C70 | exponentiation reduction and the exponentiation phase of the verifier (Gkr/Exp*.v) | layer by layer: each layer's claims are grouped by point into sumchecks over the columns of partial powers; error terms add up; counterexamples by computation |
| C71 C72 | product phase of constraint_system::verify (Cs/FlushModel.v) | the oracle of every flush is the table of its events; if a channel is unbalanced, the two sides differ as polynomials in the permutation challenge unless the mixing challenge makes two tuples collide (Cs/BalanceAlg.v); then some product is wrong and the grand-product theorem applies; counterexamples by computation |
| C73 | greedy_evalcheck verifier and the conversions of sumcheck/oracles.rs (Evalcheck/Greedy*.v) | a potential (the work of the obligations) pays for the error of every sumcheck batch and decreases in every round; evalcheck moves the work of a claim into its state without challenges (C44); the sumcheck stages are instances of C39 and C40 |
| C74 | constraint_system::verify from the table sizes to the evaluation claims (Cs/VerifyModel.v, lines 73-241, 271-303, 579-668) | the product phase (C71), the flush reduction (Cs/VerifyReduce.v: claims by point, an instance of the composite stage of C73), the zerocheck (C40, with compiled circuits as polynomials on curves, Cs/VerifyComp.v) and greedy evalcheck (C73) are composed; the shapes of the claims they hand on are proved without error (Cs/VerifyFlush.v, VerifyExp.v, VerifyZero.v), so that the total error has a closed form |
| C75 | piop::verify and the message layout of piop::prove (Piop/PiopModel.v) | the committed multilinears are read off the message by position (merge_layout); a wrong claim makes a claim of the front-loaded batch wrong, so its claimed evaluations are not all true (C39 interleaved with the commitments); either a transparent evaluation is wrong and is caught, or a committed one is wrong, and then the multilinear with the claimed values as pieces differs from the message and the later challenges keep them apart (PiopLayout.differs_*), with one root per round |
| C76 | constraint_system::verify as a whole (Cs/TotalModel.v: verify.rs 73-265) | the reductions (C74) hand on a false claim about a committed column; the message holds the columns through the numbering of C36 and the layout of C75, so ring switching (C65) turns it into a false sum and the PIOP (C75) into a wrong value of the message; errors add |
| C77 | symbolic oracles and their instantiation (Evalcheck/SymbolicModel.v) | induction over the set from the end: every shape that fits gives a well-formed variant over the oracles instantiated so far; declared and instantiated values are related case by case |
| C78 | the table builder and ConstraintSystem::compile (M3/CompileModel.v: builder/table.rs, column.rs, expr.rs, structured.rs, constraint_system.rs 182-648) | invariant of the builder over an inductive of its method calls; invariant of the loop over columns relating each registered oracle to the definition of its column; evaluation of a remapped circuit; cells and oracle values are related by recursion over the order of columns |
| C79 | the same, with the verifier of C76 | the compiled system meets the hypotheses of C76; each violated assertion of a table is a violation of the compiled system, and the events of the tables are those of its flushes |
| C80 | LookupProducer, BitAnd, BitAndLookup, Incr, IncrLookup and tally (M3/LookupModel.v: gadgets/lookup.rs, gadgets/indexed_lookup, builder/indexed_lookup.rs) | a pulled tuple of a balanced channel has a pushed occurrence, pushes come only from the sorted column, which is a permutation of the fixed column, whose circuit is evaluated at the bits of the row; bits and tower elements are related by the encoding of C01; completeness sums the pushes over rows and multiplicity bits |
| C81 | validate_witness, validate_virtual_oracle, check_eval and evaluate_on_hypercube over packed witness entries (Cs/ValidateModel.v) | each loop is equivalent to a statement about all rows; compiled circuits agree with their expressions (C62), the balance check with multisets (C45); oracle definitions are those of C44 |
| C82 | levels recorded by the builder methods of oracle/symbolic.rs (Evalcheck/SymbolicModel.v) | elements below 2^(2^l) are closed under addition and multiplication; induction over the oracles in the order in which they were added |
| C83 | state, trace, tables, stacked and looked-up gadgets of m3/gadgets/hash/keccak (M3/KeccakModel.v); a column is a function from the 512 positions of a row | the specification is FIPS 202 at bit level (walk for the offsets, LFSR for the constants); each step bit by bit, then induction over the rounds and tracks |
| C84 | Sha256::new with its rounds and sigma columns (M3/ShaModel.v); a column is a function from the positions of a row | the specification is FIPS 180-4 on words; bit by bit for the logical functions, ripple-carry invariant for additions, induction over schedule and rounds |

## Where the code does not do what its documentation or interface promises

Each item is a theorem of this development with a concrete counterexample.

* `fold_interleaved_wide_refuted` (Code/FriFoldProps.v): FRI folding of an interleaved codeword panics or misreads when the packed type is wider than the batch.
* `rs_encode_narrow_refuted` (Code/RsProps.v): Reed-Solomon encoding of a message shorter than one packed element.
* `alloc_zero_panics_refuted` (Compute/AllocProps.v): A request for zero elements, which the documented precondition allows (0 is a multiple of every alignment), panics and poisons the allocator, on every memory and every live buffer.
* `shared_accumulator_refuted` (Compute/CircuitPolyProps.v): ArithCircuitPoly: x0 x1 (x0 x1 + x2 x3) is compiled to a program that computes (x0 x1 + x2 x3)^2, because the slot of the shared product is overwritten.
* `shared_odd_power_refuted` (Compute/CircuitPolyProps.v): ArithCircuitPoly: the second use of x0^3 in (x0^3 + x1) x0^3 reads the slot of x0^2.
* `zero_power_refuted` (Compute/CircuitPolyProps.v): x0^0: the polynomial cannot be built.
* `fold_size_mismatch_refuted` (Compute/CpuProps.v): The documentation promises an error for every size mismatch; an empty matrix, an empty vector and a vector longer than the matrix panic instead.
* `tensor_expand_stale_refuted` (Compute/CpuProps.v): The documented result depends only on the first 2^log_n entries; the code adds to what the rest of the buffer held, so stale entries survive in the result.
* `hal_eq_ind_partial_eval_stale_refuted` (Compute/CpuProps.v): `eq_ind_partial_eval` of the compute layer is wrong by the old contents of the allocated slice, which the allocator does not clear.
* `map_kernels_error_refuted` (Compute/KernelProps.v): map_kernels reports success even if every kernel fails.
* `scratch_not_zeroed_refuted` (Compute/KernelProps.v): Kernel scratch memory is cleared once, not for each kernel, contrary to the documentation.
* `two_pushes_balance_refuted` (Cs/ChannelProps.v): Beyond that bound the claim fails: multiplicities are cast to signed words, so two pushes can cancel, with or without overflow checks.
* `validate_witness_panics_refuted` (Cs/ChannelProps.v): The range check lets channel 0 through when there is no channel, and a flush of constants only panics on a table with more than one row.
* `empty_table_refuted` (Cs/FlushProps.v): constraint_system::verify: the prover sends the table sizes; if it declares every table that uses a channel empty, the boundary values of that channel are never compared with anything and any boundary is accepted.
* `widths_refuted` (Cs/FlushProps.v): constraint_system::verify: tuples that differ only by trailing zeros are mixed to the same value, so that an unbalanced channel with tuples of different widths is accepted (channel.rs rejects it).
* `validate_zero_padded_refuted` (Cs/ValidateExamples.v): core constraint_system/validate.rs checks a zero-padded oracle only on its first 2^n_pad_vars rows, where n_pad_vars is the number of added variables: a witness with wrong values in the other rows is accepted.
* `validate_exponents_refuted` (Cs/ValidateExamples.v): core constraint_system/validate.rs never looks at the exponentiations of a constraint system: a witness with a wrong power is accepted.
* `validate_constant_refuted` (Cs/ValidateExamples.v): core constraint_system/validate.rs skips constraint sets without columns: the constraint 1 = 0 is accepted.
* `evalcheck_panics_refuted` (Evalcheck/EvalExamples.v): A proof that names an earlier claim that does not exist, for a term of a linear combination, makes the verifier panic: lines 331-337 of verify.rs index [round_claims] without a check.
* `padded_index_refuted` (Evalcheck/EvalExamples.v): An index equal to the number of rows is accepted for a zero-padded oracle (line 763 of multilinear.rs compares with [>]); its column is zero, and no proof of that is accepted.
* `structured_n_vars_refuted` (Evalcheck/EvalExamples.v): A structured oracle over more variables than its circuit has is accepted; the verifier panics on any claim about it (line 168 of verify.rs subtracts).
* `packed_level_refuted` (Evalcheck/EvalExamples.v): m3 builder/table.rs add_computed, constraint_system.rs: the oracle of a computed column gets the maximal level of its inputs, not the level of its type; packing such a column then uses the basis of the wrong subfield.
* `empty_composite_refuted` (Evalcheck/EvalExamples.v): A composition over no oracles is accepted, and so is a claim about it, but the constraints cannot be built.
* `projected_last_vars_refuted` (Evalcheck/EvalExamples.v): Too many values for the last variables: panic instead of the documented error.
* `composite_level_refuted` (Evalcheck/LevelProps.v): core oracle/symbolic.rs composite_mle takes the largest level of the inner oracles and ignores the constants of the circuit: x + c over bits is recorded with level 0 whatever c is.
* `projected_level_refuted` (Evalcheck/LevelProps.v): core oracle/symbolic.rs projected and projected_last_vars record the level of the inner oracle although the point can be in a larger field (a TODO in the code says so).
* `projected_last_refuted` (Evalcheck/SymbolicProps.v): symbolic.rs line 272: for a projection of the last variables, the number of values is subtracted from the variables of the projected oracle instead of those of the inner one, so that other variables are projected (or the subtraction underflows).
* `foreign_shift_refuted` (Evalcheck/SymbolicProps.v): symbolic.rs: instantiate takes the number of variables from the table of the oracle and does not compare it with the inner oracle for shifted, packed, projected and zero-padded oracles; a shift of a column of another table gives an inconsistent oracle set.
* `packed_shape_refuted` (Evalcheck/SymbolicProps.v): symbolic.rs: the same for a packed oracle declared with the wrong number of values per row.
* `is_aes_tower_refuted` (Field/AesProps.v): is_aes_tower is meant to tell AES tower fields from the others; it answers true for every field type.
* `copy_packed_from_scalars_slice_refuted` (Field/SliceProps.v): The remainder is written to the wrong place: 129 one-bit scalars do not fit "beside" the first packed element and the call panics although the destination holds 256 scalars; with a larger destination the last scalar lands at scalar index 128 * 128.
* `copy_packed_from_scalars_slice_wrong_place_refuted` (Field/SliceProps.v): ... and with a larger destination the last scalar is written at index 128 * 128.
* `tower_from_bases_sparse_full_stride_refuted` (Field/TowerProps.v): With log_stride = d the stride wraps to zero and over-long input is accepted: two elements are OR-ed on the same coefficient although only one fits.
* `fast_fri_fold_packed_refuted` (Fri/FriFolds.v): Otherwise it takes the output buffer for the codeword, and panics whenever anything is folded.
* `fri_zero_arity_refuted` (Fri/FriProps.v): Parameters with a zero arity are accepted, but then the prover never sends the commitments that the verifier asks for.
* `fri_small_first_arity_refuted` (Fri/FriProps.v): Parameters whose first arity is smaller than the batch are accepted, but proving and checking panic.
* `exp_base_one_refuted` (Gkr/ExpProps.v): gkr_exp with a constant base equal to one: a false claim is accepted, a true claim leads to a false claim on a bit.
* `exp_phase_binds_result_refuted` (Gkr/ExpProps.v): constraint_system::verify: the values claimed for the results of exponentiations are reduced to claims on bit and base columns, but no claim on the result column is made: any committed result is accepted.
* `exp_wide_fixed_base_refuted` (Gkr/ExpProps.v): gkr_exp with a constant base and more than 64 exponent bits: the exponent `1 << layer` overflows.
* `packed_level_refuted` (M3/CompileExamples.v): m3 builder/table.rs add_computed, constraint_system.rs: the oracle of a computed column gets the maximal level of its inputs, not the level of its type; packing such a column then uses the basis of the wrong subfield.
* `shift_offset_refuted` (M3/CompileExamples.v): m3 builder/table.rs add_shifted accepts offsets 0 and 2^log_block_size, for which compile returns an error.
* `block_index_refuted` (M3/CompileExamples.v): m3 builder/table.rs add_selected_block does not check the index of the block (add_selected does); a block past the end aliases another one.
* `foreign_expression_refuted` (M3/CompileExamples.v): m3 builder/table.rs assert_zero and the linear case of add_computed do not compare the table of the expression: an expression over another table is read as one over this table.
* `bit_and_populate_refuted` (M3/LookupExamples.v): m3 gadgets/indexed_lookup/and.rs BitAnd<V>::populate loops over the rows of the segment, not over its rows times V values: with V > 1 the remaining outputs and merged values are left as they were.
* `tally_multiplicity_refuted` (M3/LookupExamples.v): m3 builder/indexed_lookup.rs tally adds 1 for a pull whatever its multiplicity: with a multiplicity other than 1 the counts are not the numbers of reads.
* `tally_selector_refuted` (M3/LookupExamples.v): m3 builder/indexed_lookup.rs tally panics (todo!) on a pull with a selector.
* `div_uu_refuted` (M3/MulProps.v): DivUU32 also accepts a wrong quotient: zero with the dividend as remainder, for all dividends and nonzero divisors.
* `mul_ss_refuted` (M3/MulProps.v): MulSS32 also accepts wrong products: when the first operand is negative and the second is not, every high half with the right lowest bit is accepted.
* `div_ss_exact_refuted` (M3/SignedDiv.v): m3 gadgets/div.rs DivSS32: the dividend and the remainder must have equal sign bits, so no exact division of a negative number (for example -6 / 3) can be proved.
* `div_ss_refuted` (M3/SignedDiv.v): m3 gadgets/div.rs DivSS32: a remainder one too small is accepted (the first carry of WideAdd is free).
* `mul_su_refuted` (M3/SignedProps.v): m3 gadgets/mul.rs MulSU32: with a negative signed operand every high half with the right lowest bit is accepted (it uses WideSub).
* `wide_add_carry_refuted` (M3/WideProps.v): WideAdd without a carry-in column does not constrain its first carry: it also accepts [x + y + 1].
* `wide_add_populate_refuted` (M3/WideProps.v): WideAdd::populate with a carry-in column: it fills the first carry of row [r] from flat position [r] of the carry column instead of the first bit of row [r], so that no assignment extending what it writes satisfies the table as soon as these differ in some row.
* `wide_sub_refuted` (M3/WideProps.v): WideSub accepts every difference with the right lowest bit.
* `eval_cost_zero_exponent_refuted` (Math/ArithProps.v): `eval_cost` panics on a power with exponent 0.
* `optimize_wrapping_refuted` (Math/ArithProps.v): In a build without overflow checks, nested powers are merged with a wrapped exponent.
* `fold_right_1b_long_table_refuted` (Math/Fold1b.v): The argument checks accept a table longer than [2^log_evals_size]; the specialised fold then goes over all of it and writes past the end of the output, while the generic fold succeeds.
* `fold_left_lerp_suffix_refuted` (Math/MleProps.v): [fold_left_lerp] writes zero, not [suffix], past the non-constant prefix.
* `fold_left_lerp_uninit_refuted` (Math/MleProps.v): When the whole table is constant and fits in one packed element, [fold_left_lerp] leaves the (uninitialised) output untouched although it reports success.
* `zero_pad_wide_refuted` (Math/MleProps.v): [zero_pad] loses values when the packed element is wider than the original table.
* `zero_pad_range_refuted` (Math/MleProps.v): The free function [zero_pad] accepts the out-of-range position [2^extra] and then drops the table.
* `piecewise_empty_refuted` (Math/PiecewiseProps.v): No pieces at all: the concatenation is the zero polynomial, but the function panics.
* `merkle_layer_above_leaves_refuted` (Merkle/MerkleProps.v): A layer depth greater than the tree depth underflows in verify_opening instead of being refused.
* `merkle_commit_iterated_short_refuted` (Merkle/MerkleProps.v): commit_iterated with fewer batches than 2^log_len reads uninitialised memory (here: [Panic]) instead of returning an error.
* `merkle_proof_size_refuted` (Merkle/MerkleProps.v): proof_size counts one digest per query too few: the proof of a layer and its openings is longer.
* `merkle_proof_size_leaf_refuted` (Merkle/MerkleProps.v): ... and with the openings at the leaf layer it underflows.
* `ntt_subspace_eval_refuted` (Ntt/NttProps.v): ... so it is not the [j]-th basis element promised by its documentation and returned by the default implementation, for any dimension.
* `ntt_subspace_zero_refuted` (Ntt/NttProps.v): The subspace of dimension 0 cannot be asked for: the access panics.
* `multithreaded_two_elements_refuted` (Ntt/ParNttProps.v): In the excepted case the single-threaded transform works and the multithreaded one panics, whatever the schedule.
* `subspace_get_checked_large_refuted` (Ntt/SubspaceProps.v): A subspace of dimension 64 or more (such as the default one of the 128-bit field) rejects or panics on valid indices.
* `claim_descs_panic_refuted` (Piop/MetaProps.v): A transparent or a claim with more variables than any committed multilinear is a panic, not an error.
* `tensor_kappa_refuted` (RingSwitch/SwitchExamples.v): TowerTensorAlgebra::kappa does not return the logarithm of the extension degree for any variant of the 128-bit tower: an element made with [kappa] reports [7 - kappa].
* `regular_constant_composition_refuted` (Sumcheck/RegularProps.v): A composition of degree 0: the prover is built, and panics in the first round.
* `constant_composition_refuted` (Sumcheck/SumcheckProps.v): A claim whose composite has degree 0 is accepted with a wrong sum.
* `round_proof_constant_refuted` (Sumcheck/SumcheckProps.v): With a single coefficient the round trip fails, and the recovered polynomial has the wrong sum.
* `dropped_claim_refuted` (Sumcheck/SumcheckProps.v): A failed [try_finish_claim] has already removed the claim. If the caller goes on, [finish] succeeds although the claim was never checked.
* `deserialize_noncanonical_refuted` (Transcript/SerProps.v): Deserialization accepts encodings that serialization never produces: two different byte strings are read as the same boolean (any nonzero byte is true) or as the same small field element (the unused bits of the byte are dropped).
* `oracle_id_refuted` (Transcript/SerProps.v): OracleId::serialize truncates its index to 32 bits without an error; OracleId::invalid(), the default id, is not read back equal.
* `read_debug_panics_refuted` (Transcript/TranscriptProps.v): A debug message is an assertion: a hostile proof makes a verifier built with debug assertions panic instead of returning an error.
* `powers_extension_wide_refuted` (Transparent/TowerBasisProps.v): With two lanes per packed element the second chunk of the powers table starts at the wrong power: entry 2048 is the power 1024.
* `mlet_roundtrip_narrow_refuted` (Transparent/TowerBasisProps.v): Smaller multilinears come back with more variables.
* `mlet_roundtrip_subfield_refuted` (Transparent/TowerBasisProps.v): Multilinears over a proper subfield come back as another polynomial: runs of scalars are read back as single elements. Here 128 bits with a single one at position 1 become 64 values, the first of which is the element with pattern 2.
* `a2_index_out_of_range_refuted` (Utils/ContainersProps.v): An out-of-range column is not detected: indexing a 2 by 3 array at column 3 of row 0 reads row 1, and writing there changes row 1.
* `a2_rows_no_columns_refuted` (Utils/ContainersProps.v): The row count of an array without columns panics (it divides by zero).

Read but not modelled: `DivSS32::populate` panics on `i32::MIN / -1` and both division gadgets on a zero
divisor; `try_build_partial_eval` (evalcheck/subclaims.rs 305-345, prover only) adds the offset of an
inner linear combination without multiplying it by the outer coefficient; the eq-ind prover divides
by `1 - alpha` and so cannot be built for a coordinate `alpha = 1`.

## Testing the theorems

`seeded/LOG.jsonl` has one line per edit of the model that mimics a realistic bug: the definition, the
edit, the claim it breaks, the theorems that stopped compiling and, where nothing failed at first, the
theorems that were added or tightened.
