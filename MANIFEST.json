{
 "claims": [
  {
   "property": "C01",
   "status": "proved",
   "theorems": [
    "tower_is_field",
    "tower_generator_relation"
   ],
   "note": "all levels k; the Rust code instantiates k = 0..7"
  },
  {
   "property": "C02",
   "status": "proved",
   "theorems": [
    "tower_invert_or_zero",
    "tower_invert"
   ],
   "note": ""
  },
  {
   "property": "C03",
   "status": "proved",
   "theorems": [
    "tower_square",
    "tower_mul_alpha",
    "tower_square_additive"
   ],
   "note": ""
  },
  {
   "property": "C04",
   "status": "proved",
   "theorems": [
    "tower_embedding",
    "tower_try_from",
    "tower_scalar_mul",
    "tower_scalar_mul_1b",
    "tower_min_level"
   ],
   "note": ""
  },
  {
   "property": "C05",
   "status": "proved",
   "theorems": [
    "tower_pow",
    "tower_frobenius"
   ],
   "note": ""
  },
  {
   "property": "C06",
   "status": "proved",
   "theorems": [
    "tower_bases_roundtrip",
    "tower_from_bases",
    "tower_from_bases_sparse",
    "tower_from_bases_sparse_full_stride_refuted",
    "tower_basis_expansion",
    "tower_coefficients_linear",
    "tower_mul_primitive"
   ],
   "note": "the full-stride corner of from_bases_sparse violates the property and is refuted"
  },
  {
   "property": "C07",
   "status": "proved",
   "theorems": [
    "table_mul_4b",
    "table_mul_2b",
    "table_mul_8b",
    "table_unary_8b",
    "table_invert_small"
   ],
   "note": "every table in the source is transcribed and checked on its whole domain"
  },
  {
   "property": "C08",
   "status": "proved",
   "theorems": [
    "aes_8b_is_rijndael",
    "aes_tables_total",
    "aes_isomorphism",
    "aes_inverse",
    "aes_mul_primitive",
    "aes_min_level",
    "is_aes_tower_refuted"
   ],
   "note": "is_aes_tower does not distinguish the two towers; that part of the API is refuted"
  },
  {
   "property": "C09",
   "status": "proved",
   "theorems": [
    "packed_strategy_lanewise",
    "packed_strategy_step",
    "hybrid_strategy_step",
    "pairwise_strategy",
    "packed_aes_lanewise",
    "packed_pow"
   ],
   "note": "portable back-end; SIMD intrinsics are not modelled"
  },
  {
   "property": "C10",
   "status": "proved",
   "theorems": [
    "packed_get_set",
    "packed_extensional",
    "packed_from_fn",
    "packed_broadcast",
    "packed_from_scalars",
    "packed_interleave",
    "packed_unzip",
    "packed_spread"
   ],
   "note": ""
  },
  {
   "property": "C11",
   "status": "proved",
   "theorems": [
    "square_transpose_spec",
    "square_transpose_errors"
   ],
   "note": ""
  },
  {
   "property": "C12",
   "status": "proved",
   "theorems": [
    "linear_transformation_additive",
    "linear_transformation_basis",
    "packed_linear_transformation"
   ],
   "note": ""
  },
  {
   "property": "C13",
   "status": "proved",
   "theorems": [
    "tensor_prod_eq_ind_correct",
    "tensor_prod_eq_ind_rejects",
    "eq_ind_partial_eval_correct",
    "query_expand_correct",
    "query_update_correct",
    "query_history_correct",
    "expansion_correct"
   ],
   "note": ""
  },
  {
   "property": "C14",
   "status": "proved",
   "theorems": [
    "evaluate_correct",
    "evaluate_at_vertex",
    "evaluate_affine",
    "evaluate_on_hypercube_correct",
    "me_new_correct",
    "me_from_values_correct",
    "mle_on_cube",
    "mle_affine",
    "mle_unique"
   ],
   "note": ""
  },
  {
   "property": "C15",
   "status": "proved",
   "theorems": [
    "evaluate_partial_correct",
    "evaluate_partial_low_correct",
    "evaluate_partial_high_correct"
   ],
   "note": ""
  },
  {
   "property": "C16",
   "status": "partial",
   "theorems": [
    "fold_right_lerp_correct",
    "fold_left_lerp_correct",
    "fold_left_lerp_inplace_correct",
    "fold_all_correct",
    "fold_left_lerp_suffix_refuted",
    "fold_left_lerp_uninit_refuted"
   ],
   "note": "right fold and in-place left fold proved in full; the out-of-place left fold is proved on the non-constant prefix and for zero suffix, and refuted past the prefix for a nonzero suffix"
  },
  {
   "property": "C17",
   "status": "proved",
   "theorems": [
    "fold_right_1b_correct",
    "fold_right_1b_same",
    "fold_left_1b_correct",
    "fold_right_1b_long_table_refuted"
   ],
   "note": "for tables of the stated size; a longer table passes the argument checks and makes the specialised path write out of bounds (refuted)"
  },
  {
   "property": "C18",
   "status": "proved",
   "theorems": [
    "from_points_correct",
    "extrapolate_correct",
    "extrapolate_wrong_length",
    "extrapolate_line_correct"
   ],
   "note": ""
  },
  {
   "property": "C19",
   "status": "proved",
   "theorems": [
    "interpolate_correct",
    "evaluate_univariate_correct"
   ],
   "note": ""
  },
  {
   "property": "C20",
   "status": "proved",
   "theorems": [
    "inverse_into_correct",
    "inverse_into_not_square",
    "mul_into_correct",
    "mul_vec_into_correct",
    "mat_identity_correct"
   ],
   "note": ""
  },
  {
   "property": "C21",
   "status": "proved",
   "theorems": [
    "piecewise_correct",
    "piecewise_rejects",
    "piecewise_empty_refuted"
   ],
   "note": "for at least one piece; with no pieces the function panics (refuted)"
  },
  {
   "property": "C22",
   "status": "proved",
   "theorems": [
    "from_expr_correct",
    "to_expr_correct",
    "optimize_correct",
    "optimize_checked_correct",
    "circuit_eq_correct",
    "circuit_ops",
    "csum_correct",
    "circuits_wf",
    "evaluate_total",
    "optimize_wrapping_refuted"
   ],
   "note": "optimisation preserves the value when merged exponents fit in 64 bits or the build checks overflow; in a wrapping build an overflowing merge changes the value (refuted)"
  },
  {
   "property": "C23",
   "status": "proved",
   "theorems": [
    "remap_vars_correct",
    "const_subst_correct",
    "degree_leading_term_correct",
    "linear_normal_form_correct",
    "get_constant_correct",
    "vars_usage_correct",
    "convert_field_correct"
   ],
   "note": ""
  },
  {
   "property": "C24",
   "status": "proved",
   "theorems": [
    "subspace_get_spec",
    "subspace_get_bijective",
    "subspace_get_add",
    "subspace_get_checked_spec",
    "subspace_get_checked_large_refuted",
    "subspace_iter_spec",
    "subspace_iter_nodup",
    "subspace_reduce_dim_spec",
    "domain_create_spec",
    "subspace_isomorphic_spec",
    "with_dim_tower"
   ],
   "note": "get_checked misbehaves for dimension 64 and above (refuted)"
  },
  {
   "property": "C25",
   "status": "proved",
   "theorems": [
    "twiddle_correct",
    "twiddle_tables_exist",
    "twiddle_affine_subspace",
    "twiddle_generate_rejects"
   ],
   "note": ""
  },
  {
   "property": "C26",
   "status": "proved",
   "theorems": [
    "ntt_roundtrip",
    "ntt_rejects"
   ],
   "note": "exact equality of the whole buffer; all other parameters return an error"
  },
  {
   "property": "C27",
   "status": "proved",
   "theorems": [
    "ntt_forward_evaluates",
    "ntt_rejects",
    "ntt_subspace_correct",
    "ntt_subspace_eval_correct",
    "ntt_subspace_eval_refuted",
    "ntt_subspace_zero_refuted"
   ],
   "note": "get_subspace_eval does not return the documented basis element (refuted); subspace(0) panics (refuted)"
  },
  {
   "property": "C28",
   "status": "proved",
   "theorems": [
    "multithreaded_forward",
    "multithreaded_inverse",
    "multithreaded_two_elements_refuted"
   ],
   "note": "for every interleaving of the parallel tasks; the size computation underflows for two packed elements with a wide batch (refuted)"
  },
  {
   "property": "C29",
   "status": "proved",
   "theorems": [
    "rs_encode_correct",
    "rs_encode_rejects",
    "rs_distance",
    "rs_linear",
    "rs_new_correct",
    "novel_poly_is_poly",
    "novel_poly_unique",
    "rs_encode_narrow_refuted"
   ],
   "note": "rejection case too narrow a buffer refuted"
  },
  {
   "property": "C30",
   "status": "proved",
   "theorems": [
    "fold_chunk_correct",
    "fold_interleaved_chunk_correct",
    "fold_interleaved_correct",
    "fri_fold_commutes",
    "fold_interleaved_wide_refuted"
   ],
   "note": "packed elements wider than the number of challenges leave outputs unwritten (refuted)"
  },
  {
   "property": "C31",
   "status": "proved",
   "theorems": [
    "merkle_completeness",
    "merkle_completeness_iterated",
    "merkle_commit_refuses",
    "merkle_verify_no_panic",
    "merkle_proof_size_refuted",
    "merkle_proof_size_leaf_refuted",
    "merkle_commit_iterated_short_refuted",
    "merkle_layer_above_leaves_refuted"
   ],
   "note": "all schedules of the parallel loops; proof_size is one digest per query short, commit_iterated accepts too few batches, a layer above the leaves underflows (refuted)"
  },
  {
   "property": "C32",
   "status": "proved",
   "theorems": [
    "merkle_opening_binding",
    "merkle_commit_binding",
    "merkle_layer_binding",
    "merkle_vector_binding"
   ],
   "note": "otherwise an explicit collision among the inputs hashed in the runs"
  },
  {
   "property": "C33",
   "status": "proved",
   "theorems": [
    "transcript_agreement",
    "verifier_challenges",
    "verifier_no_panic",
    "read_debug_checks",
    "read_debug_panics_refuted"
   ],
   "note": "typed operation histories, any buffering on both sides; read_debug panics on hostile tapes in debug builds (refuted)"
  },
  {
   "property": "C34",
   "status": "proved",
   "theorems": [
    "challenger_is_sponge",
    "challenger_split_observe",
    "challenger_split_sample",
    "hash_serialize_correct"
   ],
   "note": "for every hash with fixed output length and every history of observations and samples"
  },
  {
   "property": "C35",
   "status": "proved",
   "theorems": [
    "serialize_roundtrip",
    "deserialize_truncated",
    "serialize_injective",
    "serialize_room",
    "deserialize_total",
    "serialize_vec_bytes",
    "serialize_via_roundtrip",
    "serialize_aes_roundtrip",
    "deserialize_noncanonical_refuted",
    "oracle_id_refuted"
   ],
   "note": "universe of serializable types; non-canonical bool/small field bytes accepted and OracleId truncated to 32 bits (refuted)"
  },
  {
   "property": "C36",
   "status": "proved",
   "theorems": [
    "sumcheck_batch_soundness",
    "front_loaded_prebatched_soundness",
    "front_loaded_soundness",
    "constant_composition_refuted"
   ],
   "note": "counted over challenge vectors against every adaptive prover strategy; constant compositions are excluded and the verifier is unsound for them (refuted)"
  },
  {
   "property": "C37",
   "status": "proved",
   "theorems": [
    "sumcheck_batch_complete",
    "front_loaded_prebatched_complete",
    "front_loaded_complete",
    "regular_prover_serves",
    "regular_batch_complete",
    "regular_front_loaded_complete",
    "subspace_factory_ok",
    "regular_constant_composition_refuted"
   ],
   "note": "for every prover that meets the documented contract (serves), and the regular prover is proved to meet it for compositions of degree at least 1; with a constant composition it panics"
  },
  {
   "property": "C38",
   "status": "proved",
   "theorems": [
    "round_proof_roundtrip",
    "recovered_sum",
    "round_reduces",
    "round_coeffs_add",
    "round_coeffs_mul",
    "batch_weighted",
    "round_proof_constant_refuted"
   ],
   "note": "fails for a single coefficient (refuted)"
  },
  {
   "property": "C39",
   "status": "proved",
   "theorems": [
    "front_loaded_call_order",
    "front_loaded_finish",
    "front_loaded_never_panics",
    "batch_verify_never_panics",
    "try_finish_step_run",
    "receive_step_run",
    "finish_round_step_run",
    "dropped_claim_refuted"
   ],
   "note": "any sequence of calls, also after errors; a failed try_finish_claim drops its claim (refuted)"
  },
  {
   "property": "C40",
   "status": "proved",
   "theorems": [
    "eq_fn_spec",
    "reduce_to_regular_spec",
    "reduced_ok",
    "reduced_true",
    "verify_outputs_spec",
    "extra_product_ok",
    "eqind_soundness",
    "eqind_complete",
    "zerocheck_soundness",
    "zerocheck_eval_claims"
   ],
   "note": "Eq-ind claims: the reduction is faithful, the output check accepts exactly the matching equality evaluations, soundness against every prover strategy with explicit error, completeness from provers of the reduced claims. Zerocheck: soundness of the whole verifier (univariate skip included) and the evaluation claims derived from its output. Provers of zerocheck are not modelled."
  },
  {
   "property": "C41",
   "status": "proved",
   "theorems": [
    "gp_witness_spec",
    "reduce_layer_sound",
    "gpa_output_shape",
    "gpa_soundness",
    "gpa_complete",
    "gpa_ex",
    "gp_witness_ex"
   ],
   "note": "Completeness is relative to an eq-ind sumcheck prover that serves its instance (builder_ok)."
  },
  {
   "property": "C42",
   "status": "proved",
   "theorems": [
    "shift_new_correct",
    "shift_matrix_action",
    "shift_evaluate_correct",
    "shift_extension_correct",
    "shift_evaluate_cube"
   ],
   "note": "All block sizes, offsets, variants, partial points, query points and packing widths."
  },
  {
   "property": "C43",
   "status": "proved",
   "theorems": [
    "fast_eval_is_slow_eval",
    "constant_correct",
    "disjoint_product_correct",
    "eq_ind_correct",
    "eq_ind_table",
    "eq_ind_extension_correct",
    "powers_correct",
    "powers_extension_correct",
    "powers_extension_wide_refuted",
    "select_row_new_spec",
    "select_row_correct",
    "select_row_extension_correct",
    "step_new_spec",
    "step_down_correct",
    "step_up_correct",
    "step_populate_correct",
    "step_down_extension_correct",
    "step_up_extension_correct",
    "mlet_correct",
    "tower_basis_elt_correct",
    "tower_basis_new_spec",
    "tower_basis_correct",
    "tower_basis_extension_correct"
   ],
   "note": "Every transparent polynomial: evaluate() is the multilinear extension of its documented table, and its tabulation produces that table for every packing width. Refuted for Powers::multilinear_extension with more than 1024 packed elements of width above one; TowerBasis and SelectRow refuse tables narrower than the packing."
  },
  {
   "property": "C44",
   "status": "proved",
   "theorems": [
    "evalcheck_sound",
    "evalcheck_run_sound",
    "evalcheck_complete",
    "evalcheck_no_panic",
    "evalcheck_panics_refuted",
    "padded_index_refuted",
    "structured_n_vars_refuted",
    "packed_level_refuted",
    "empty_composite_refuted",
    "evalcheck_sound_ex",
    "evalcheck_complete_ex",
    "run16_ex",
    "run16_rejects",
    "run16_duplicate"
   ],
   "note": "All kinds of oracles, all proofs, with duplicate-claim hints. Well-formedness of the oracle set is what the constructors establish (C66), plus multilinearity of transparent and structured polynomials. No panic is proved for sets without linear combinations; with them the verifier panics on an out-of-range duplicate index (evalcheck_panics_refuted). Completeness: some proof is accepted for true claims; the prover itself is not modelled."
  },
  {
   "property": "C45",
   "status": "proved",
   "theorems": [
    "validate_witness_correct",
    "validate_witness_mod",
    "two_pushes_balance_refuted",
    "validate_witness_panics_refuted"
   ],
   "note": "accepts exactly balanced channels of uniform width as long as multiplicities add up to less than 2^63; findings: counts are only compared modulo 2^64 (u64 to i64 cast), so two pushes can cancel; channel id 0 with no channels and constant-only flushes of tables with several rows panic"
  },
  {
   "property": "C46",
   "status": "partial",
   "theorems": [
    "u32_add_sound",
    "u32_add_complete",
    "u32_sub_sound",
    "u32_sub_complete",
    "wide_add_sound",
    "wide_add_complete",
    "wide_add_carry_refuted",
    "wide_add_populate_refuted",
    "incr_sound",
    "incr_complete",
    "wide_sub_complete",
    "wide_sub_sound_partial",
    "wide_sub_refuted",
    "mul_sound",
    "mul_complete",
    "div_uu_complete",
    "div_uu_sound_partial",
    "div_uu_refuted",
    "mul_ss_complete",
    "mul_ss_refuted",
    "barrel_sound",
    "barrel_complete",
    "u32_add_ex",
    "u32_sub_ex",
    "mul_ex",
    "div_uu_ex",
    "wide_add_ex",
    "wide_sub_ex",
    "incr_ex",
    "mul_ss_ex",
    "barrel_ex",
    "mul_ss_sound_partial",
    "twos_complement_sound",
    "twos_complement_complete",
    "sign_converter_sound",
    "sign_converter_complete",
    "mul_su_complete",
    "mul_su_sound_partial",
    "mul_su_refuted",
    "div_ss_complete",
    "div_ss_sound_partial",
    "div_ss_refuted",
    "div_ss_exact_refuted",
    "twos_ex",
    "sign_ex",
    "mul_su_ex",
    "div_ss_ex"
   ],
   "note": "Sound and complete: U32Add, U32AddStacked, U32Sub, Incr, Mul (UU), TwosComplement, SignConverter, BarrelShifter. The property is false of the others, and what is missing is refuted: WideAdd without a carry column (x + y + 1 accepted), WideSub (borrows unconstrained), DivUU32 (quotient 0 accepted), MulSS32 and MulSU32 (high half of a product with a negative operand), DivSS32 (remainder one too small accepted; no exact division of a negative number is accepted). For each of these the partial theorem says what is guaranteed and the complete theorem which inputs can be proved."
  },
  {
   "property": "C47",
   "status": "proved",
   "theorems": [
    "alloc_behaviour",
    "alloc_failure_unchanged",
    "allocations_disjoint",
    "scope_restores",
    "alloc_zero_panics_refuted",
    "alloc_ex",
    "alloc_small_ex"
   ],
   "note": "Slices are intervals of element positions; alignment any power of two; concurrency through the lock is a sequence of calls. Finding: alloc(0) panics although 0 satisfies the documented precondition."
  },
  {
   "property": "C48",
   "status": "proved",
   "theorems": [
    "stable_sort_spec",
    "unsort_spec",
    "sort_unsort",
    "sorted_asc_windows_spec",
    "stable_sort_ex"
   ],
   "note": ""
  },
  {
   "property": "C49",
   "status": "proved",
   "theorems": [
    "sparse_is_map",
    "sparse_contains",
    "sparse_is_empty",
    "sparse_iter",
    "sparse_keys",
    "sparse_values",
    "sparse_len",
    "sparse_from_iter",
    "sparse_index",
    "a2_new_wf",
    "a2_new_index",
    "a2_set_get",
    "a2_get_row_correct",
    "a2_rows_correct",
    "a2_reshape_correct",
    "a2_sum_rows_correct",
    "a2_index_out_of_range_refuted",
    "a2_rows_no_columns_refuted",
    "sv_without_stride_correct",
    "sv_in_bounds",
    "sv_column_correct",
    "strides_partition",
    "strides_ex",
    "sparse_ex",
    "array_ex"
   ],
   "note": "Finding: Array2D indexing does not check the column, so (i, cols) addresses the next row; rows() of an array without columns divides by zero."
  },
  {
   "property": "C50",
   "status": "proved",
   "theorems": [
    "strict_log_2_correct",
    "strict_log_2_none",
    "checked_log_2_correct",
    "log2_strict_usize_correct",
    "min_bits_correct",
    "log2_ceil_correct",
    "checked_int_div_correct",
    "checked_int_div_panics",
    "checked_ex"
   ],
   "note": "All 64-bit unsigned integers."
  },
  {
   "property": "C51",
   "status": "proved",
   "theorems": [
    "square_transpose_correct",
    "square_transpose_rejects",
    "tensor_transpose",
    "tensor_transpose_product",
    "tensor_transpose_scale",
    "tensor_scale_vertical_action",
    "tensor_scale_horizontal_action",
    "tensor_scale_commute",
    "tensor_product_scaling",
    "tensor_span",
    "tensor_extract_vertical",
    "tensor_fold",
    "tensor_new",
    "tensor_kappa_refuted",
    "tensor_ex"
   ],
   "note": "Square transpose is correct and rejects bad shapes; the tensor algebra operations obey the algebra laws for every extension of degree 2^kappa with a basis (tower_ext: every level of the tower is one). TowerTensorAlgebra::kappa returns the tower level of the subfield, not kappa, for every variant of the 128-bit tower (tensor_kappa_refuted)."
  },
  {
   "property": "C52",
   "status": "proved",
   "theorems": [
    "inner_product_correct",
    "fold_left_correct",
    "fold_right_correct",
    "fold_rejects",
    "fold_size_mismatch_refuted",
    "tensor_expand_correct",
    "tensor_expand_rejects",
    "tensor_expand_stale_refuted",
    "hal_eq_ind_partial_eval_correct",
    "hal_eq_ind_partial_eval_stale_refuted",
    "copy_fill_correct",
    "extrapolate_line_correct",
    "extrapolate_line_rejects",
    "kernel_add_correct",
    "compute_composite_correct",
    "compute_composite_rejects",
    "sum_composition_evals_correct",
    "pairwise_product_reduce_correct",
    "pairwise_product_reduce_rejects",
    "launch_log_chunks_correct",
    "process_kernels_correct",
    "accumulate_kernels_correct",
    "map_kernels_error_refuted",
    "scratch_not_zeroed_refuted",
    "tower_bases_length",
    "compute_ex",
    "kernels_ex",
    "kernels_ex_hypotheses"
   ],
   "note": "Reference compute layer, including kernel launches. Found: size mismatches panic where an error is documented (empty matrix, empty vector, vector longer than the matrix); tensor_expand and eq_ind_partial_eval add to stale memory; map_kernels drops kernel errors; scratch memory is zeroed only before the first kernel."
  },
  {
   "property": "C53",
   "status": "proved",
   "theorems": [
    "commit_meta_correct",
    "with_vars_correct",
    "oracle_commit_meta_correct",
    "collect_committed_witnesses_correct",
    "claim_descs_correct",
    "claim_descs_panic_refuted"
   ],
   "note": "layout of committed batches and grouping of sumcheck claims; finding: a transparent or a claim with more variables than the largest committed multilinear panics (index out of bounds) instead of returning an error"
  },
  {
   "property": "C54",
   "status": "proved",
   "theorems": [
    "new_params_accepts",
    "fri_params_accounting",
    "fri_layer_depths",
    "choose_constant_correct",
    "choose_constant_rejects",
    "estimate_optimal_arity_correct",
    "cpu_fri_fold_correct",
    "fast_fri_fold_correct",
    "fast_fri_fold_packed_refuted"
   ],
   "note": "Parameter selection and round accounting. Found: choose_with_constant_fold_arity is rejected by its own constructor when the requested cap does not exceed the inverse rate and the arity divides the message length. The folding kernels of both compute layers agree with the multilinear fold; the packed path of the fast layer reads the output buffer instead of the input."
  },
  {
   "property": "C55",
   "status": "proved",
   "theorems": [
    "fri_completeness",
    "fri_completeness_cpu",
    "fri_completeness_fast",
    "fri_zero_arity_refuted",
    "fri_small_first_arity_refuted",
    "fri_completeness_ex"
   ],
   "note": "Whole interactive oracle proof: commit, fold rounds, decommitment, verification; the returned value is the multilinear extension of the message at the challenges, and exactly the proof is consumed. Found: parameters with a zero arity, or with a first arity below the batch size, are accepted by the constructor but cannot be used."
  },
  {
   "property": "C56",
   "status": "partial",
   "theorems": [
    "packed_slice_get_set",
    "pack_slice_spec",
    "iter_packed_slice_with_offset_spec",
    "mul_by_subfield_scalar_spec",
    "copy_packed_from_scalars_slice_partial",
    "copy_packed_from_scalars_slice_refuted",
    "copy_packed_from_scalars_slice_wrong_place_refuted"
   ],
   "note": "copying a number of scalars that is not a multiple of the width violates the property (refuted); everything else is proved"
  },
  {
   "property": "C57",
   "status": "partial",
   "theorems": [
    "zero_pad_correct",
    "zero_pad_wide_refuted",
    "zero_pad_range_refuted"
   ],
   "note": "proved when the packed element is not wider than the original table; refuted otherwise"
  },
  {
   "property": "C58",
   "status": "proved",
   "theorems": [
    "degree_leading_term_correct",
    "eval_cost_total",
    "eval_cost_zero_exponent_refuted"
   ],
   "note": "eval_cost panics for a zero exponent (refuted)"
  },
  {
   "property": "C59",
   "status": "proved",
   "theorems": [
    "challenger_binding"
   ],
   "note": "explicit collision among the hashed inputs of the two runs otherwise"
  },
  {
   "property": "C60",
   "status": "proved",
   "theorems": [
    "subcube_partial_low_correct",
    "subcube_partial_low_rejects",
    "subcube_partial_high_correct",
    "subcube_evals_correct",
    "subcube_partial_low_as_documented",
    "subcube_partial_high_as_documented"
   ],
   "note": "log_embedding_degree = 0; the many-to-one embedding of subcube_evals is not modelled"
  },
  {
   "property": "C61",
   "status": "proved",
   "theorems": [
    "mlet_roundtrip",
    "mlet_roundtrip_narrow_refuted",
    "mlet_roundtrip_subfield_refuted",
    "mlet_deserialize_panics"
   ],
   "note": "Round trip proved for the class where it holds; the property fails elsewhere (three counterexample theorems)."
  },
  {
   "property": "C62",
   "status": "proved",
   "theorems": [
    "connected_components_correct",
    "components_ex"
   ],
   "note": "Unbounded naturals for node indices."
  },
  {
   "property": "C63",
   "status": "proved",
   "theorems": [
    "fri_soundness",
    "folds_to_unique",
    "fri_soundness_ex"
   ],
   "note": "The deterministic part of FRI soundness: consistency at the queried positions up to an exhibited hash collision. The probability that random queries miss an inconsistency, and proximity gaps, are not modelled."
  },
  {
   "property": "C64",
   "status": "proved",
   "theorems": [
    "eqind_evaluate_correct",
    "eqind_table_correct",
    "eqind_prover_verifier",
    "eqind_new_correct",
    "eqind_ex"
   ],
   "note": ""
  },
  {
   "property": "C65",
   "status": "proved",
   "theorems": [
    "ring_switch_sound",
    "ring_switch_complete",
    "ring_switch_no_panic",
    "system_new_spec",
    "system_ex",
    "ring_switch_run",
    "ring_switch_run_false",
    "ring_switch_complete_ex"
   ],
   "note": "The partial evaluations the prover starts from are an input of the modelled prover (their computation is C06). The prover's precomputed transparent tables are C64."
  },
  {
   "property": "C66",
   "status": "proved",
   "theorems": [
    "add_committed_correct",
    "add_transparent_correct",
    "add_structured_correct",
    "add_repeating_correct",
    "add_shifted_correct",
    "add_packed_correct",
    "add_projected_correct",
    "add_projected_last_vars_correct",
    "add_linear_combination_correct",
    "add_linear_combination_mismatch",
    "add_composite_correct",
    "add_composite_mismatch",
    "add_zero_padded_correct",
    "consistent_exists",
    "consistent_extends",
    "consistent_unique",
    "build16_ex",
    "os16_ok",
    "V16_consistent",
    "add_shifted_ex",
    "add_packed_ex",
    "add_projected_last_ex",
    "add_composite_ex",
    "projected_last_vars_refuted"
   ],
   "note": "Oracle ids are unbounded; names are left out. projected_last_vars panics instead of failing."
  },
  {
   "property": "C67",
   "status": "proved",
   "theorems": [
    "regroup_correct",
    "build_one_correct",
    "build_one_empty",
    "take_sumchecks_correct",
    "take_mlechecks_correct",
    "build_one_ex",
    "build_one_err",
    "take16_ex"
   ],
   "note": ""
  },
  {
   "property": "C68",
   "status": "partial",
   "theorems": [
    "circuit_poly_partial",
    "circuit_poly_vars",
    "supportedb_ok",
    "circuit_poly_ex",
    "shared_accumulator_refuted",
    "shared_odd_power_refuted",
    "zero_power_refuted"
   ],
   "note": "proved for circuits in which no accumulator (left operand of a sum with a product) and no odd power is shared; the compiler computes another polynomial for circuits that share one (refuted), and panics on exponent 0"
  },
  {
   "property": "C69",
   "status": "proved",
   "theorems": [
    "exp_soundness",
    "exp_oracle_soundness",
    "exp_never_panics",
    "exp_output_shape",
    "exp_ex",
    "exp_oracle_ex",
    "exp_base_one_refuted",
    "exp_wide_fixed_base_refuted"
   ],
   "note": "A constant base equal to one, or with more than 64 bits, is accepted by the API: the counterexamples show that the restriction is needed."
  },
  {
   "property": "C70",
   "status": "partial",
   "theorems": [
    "exp_phase_binds_result_refuted",
    "exp_phase_ignores_results",
    "exp_phase_claims_operands"
   ],
   "note": "The property is false of the code. Proved: the claims of the phase are about bit and base columns only, and an accepted run stays accepted for every content of the result columns."
  },
  {
   "property": "C71",
   "status": "proved",
   "theorems": [
    "channel_balance_soundness",
    "nonzero_soundness",
    "flush_oracles_correct",
    "channel_balance_complete",
    "phase_ok_nonvacuous",
    "unbalanced_nonvacuous"
   ],
   "note": "selector columns are assumed to hold bits and the columns of a flush to have the variables of its table; the evaluation claims are checked by the later phases of the verifier"
  },
  {
   "property": "C72",
   "status": "partial",
   "theorems": [
    "empty_table_refuted",
    "unused_channel_ignored",
    "widths_refuted"
   ],
   "note": "the property is false of the code; proved: a boundary of a channel without flush has no influence on the result"
  },
  {
   "property": "C73",
   "status": "proved",
   "theorems": [
    "greedy_soundness",
    "greedy_sound",
    "greedy_returns",
    "greedy_fuel",
    "greedy_soundness_ex",
    "greedy_run_ex"
   ],
   "note": "composite oracles are assumed to be compiled faithfully (C68 shows circuits for which they are not) and to have degree at most D; only sum constraints are modelled"
  },
  {
   "property": "C74",
   "status": "proved",
   "theorems": [
    "broken_constraint_soundness",
    "unbalanced_channel_soundness",
    "zero_column_soundness",
    "verify_reductions_returns",
    "supported_compiled",
    "system_ok_nonvacuous",
    "violations_nonvacuous"
   ],
   "note": "the exponentiation phase is run and its claims are passed on, but the result columns of exponentiations are not bound by the code (see exp_phase_binds_result_refuted); what follows the reductions (ring switching, PIOP) is not part of it; supported_compiled gives a decidable condition for correct compilation"
  },
  {
   "property": "C75",
   "status": "proved",
   "theorems": [
    "piop_soundness",
    "piop_sound",
    "merge_layout",
    "fri_commitments",
    "piop_soundness_ex",
    "fri_commitments_ex"
   ],
   "note": "the FRI verifier is a parameter (an arbitrary protocol yielding a value); what an accepted FRI proof says about its value is the subject of C55 and C63; packed fields and machine sizes are not modelled"
  },
  {
   "property": "C76",
   "status": "proved",
   "theorems": [
    "constraint_system_soundness",
    "violation_caught",
    "message_nonvacuous",
    "violation_nonvacuous"
   ],
   "note": "the FRI verifier is a parameter (see C55 and C63 for what it establishes); exponentiations are not among the violations because the code does not bind their results (exp_phase_binds_result_refuted); the number of evaluation claims of the run enters the error through a bound B; finalizing the transcript and the Fiat-Shamir transform are outside the model"
  },
  {
   "property": "C77",
   "status": "proved",
   "theorems": [
    "instantiate_correct",
    "instantiate_missing",
    "projected_last_refuted",
    "foreign_shift_refuted",
    "packed_shape_refuted",
    "sym16_built",
    "sym16_shapes",
    "sym16_instance",
    "instantiate_checks"
   ],
   "note": "shapes that do not fit together are not rejected by the code (foreign_shift_refuted, packed_shape_refuted); projecting the last variables is wrong unless no value is given (projected_last_refuted)"
  },
  {
   "property": "C78",
   "status": "proved",
   "theorems": [
    "builder_correct",
    "columns_mean",
    "compile_correct",
    "compile_cells",
    "built13",
    "tables13",
    "compilable13",
    "sizes13",
    "cells13",
    "compile13",
    "packed_level_refuted",
    "shift_offset_refuted",
    "block_index_refuted",
    "foreign_expression_refuted",
    "foreign_columns",
    "own_columns_flushed"
   ],
   "note": "compilation can only fail, or differ from the declared columns, in the cases excluded by all_compilable: a shift by 0 or by the whole block (shift_offset_refuted), a structured column wider than the field, and a packed column over one whose oracle has a lower level than its type (packed_level_refuted); names and the statement's channel ids are left out"
  },
  {
   "property": "C79",
   "status": "proved",
   "theorems": [
    "m3_soundness",
    "built5",
    "tables5",
    "compilable5",
    "sizes5",
    "verifiable5",
    "m3_soundness_nonvacuous"
   ],
   "note": "composes C78 with C76; same limits: the FRI verifier is a parameter, exponentiation results are not bound by the code, and channels used only by empty tables are not checked (empty_table_refuted); selectors must be 0 or 1"
  },
  {
   "property": "C80",
   "status": "proved",
   "theorems": [
    "pulled_pushed",
    "lookup_sound",
    "bit_and_sound",
    "incr_lookup_sound",
    "tally_correct",
    "lookup_complete",
    "methods_later",
    "table_lookup_built",
    "bitand_lookup_built",
    "incr_lookup_built",
    "bitand_entries",
    "incr_entries_table",
    "bit_and_populate_correct",
    "incr_populate_correct",
    "lk_balanced",
    "lk_conjunctions",
    "ik_balanced",
    "ik_increments",
    "bit_and_populate_refuted",
    "tally_multiplicity_refuted",
    "tally_selector_refuted"
   ],
   "note": "The limb width (8 bits in the code) is a parameter. Channels balance as multisets of events, which C79 enforces. Two limits of the counting are refuted: tally ignores the multiplicity of a flush or boundary, and panics on a selected read; BitAnd::populate fills only the first position of each row of a column with several values per row. LookupProducer with several value columns is covered by pulled_pushed only; BitAndLooker and IncrLooker are not modelled"
  },
  {
   "property": "C81",
   "status": "partial",
   "theorems": [
    "validate_sound_partial",
    "validate_sound",
    "validate_complete",
    "satisfied81",
    "validate81",
    "validate81_rejects",
    "validate_zero_padded_refuted",
    "validate_exponents_refuted",
    "validate_constant_refuted"
   ],
   "note": "completeness holds for every oracle variant and with overflow checks on or off. Soundness is proved without zero-padded oracles (validate_sound); with them the definition holds on the rows that are looked at and channels balance modulo 2^64 (validate_sound_partial). The code does not look at the padded rows of a zero-padded oracle, at exponentiations, or at constraint sets without columns: these parts of the converse are refuted. Memory handed out without initialisation is a parameter"
  },
  {
   "property": "C82",
   "status": "partial",
   "theorems": [
    "levels_hold_partial",
    "sym16_made",
    "vals82_ok",
    "levels82",
    "composite_level_refuted",
    "projected_level_refuted"
   ],
   "note": "compositions with constants and projections at points outside of the level of the inner columns are excluded: there the recorded level is too small, which is refuted. Committed and transparent columns are taken at their word"
  },
  {
   "property": "C83",
   "status": "proved",
   "theorems": [
    "gather_correct",
    "keccakf_trace_correct",
    "batch_correct",
    "keccakf_sound",
    "keccakf_complete",
    "keccakf_columns",
    "keccakf_lookedup_sound",
    "keccakf_lookedup_complete",
    "zero_lanes",
    "zero_vector",
    "zero_gadget",
    "zero_bit",
    "zero_lookedup"
   ],
   "note": "One row of the table: shifts, packings and selections act within a row, as C78 shows of the builder; lanes are bit strings. For the variant with lookups, that a value read on the lookup channel is an entry of the conjunction table is what C80 proves of the channel"
  },
  {
   "property": "C84",
   "status": "proved",
   "theorems": [
    "constants_correct",
    "sha256_sound",
    "sha256_complete",
    "message_schedule_correct",
    "schedule_columns",
    "addition_columns",
    "addition_case",
    "empty_digest",
    "empty_gadget",
    "padded_small"
   ],
   "note": "One row of the table. Completeness exhibits a satisfying row; schedule_columns and addition_columns show that the schedule and addition columns populate writes are those of the row. That populate visits the gadgets in an order in which their inputs are filled is not modelled"
  }
 ]
}