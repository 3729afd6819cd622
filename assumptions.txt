Verif.Code.FriFoldProps.fold_chunk_correct: Closed under the global context
Verif.Code.FriFoldProps.fold_interleaved_chunk_correct: Closed under the global context
Verif.Code.FriFoldProps.fold_interleaved_correct: Closed under the global context
Verif.Code.FriFoldProps.fri_fold_commutes: Closed under the global context
Verif.Code.FriFoldProps.fold_interleaved_wide_refuted: Closed under the global context
Verif.Code.RsProps.rs_encode_correct: Closed under the global context
Verif.Code.RsProps.rs_encode_rejects: Closed under the global context
Verif.Code.RsProps.rs_distance: Closed under the global context
Verif.Code.RsProps.rs_linear: Closed under the global context
Verif.Code.RsProps.rs_new_correct: Closed under the global context
Verif.Code.RsProps.novel_poly_is_poly: Closed under the global context
Verif.Code.RsProps.novel_poly_unique: Closed under the global context
Verif.Code.RsProps.rs_encode_narrow_refuted: Closed under the global context
Verif.Compute.AllocProps.alloc_behaviour: Closed under the global context
Verif.Compute.AllocProps.alloc_failure_unchanged: Closed under the global context
Verif.Compute.AllocProps.allocations_disjoint: Closed under the global context
Verif.Compute.AllocProps.scope_restores: Closed under the global context
Verif.Compute.AllocProps.alloc_zero_panics_refuted: Closed under the global context
Verif.Compute.AllocProps.alloc_ex: Closed under the global context
Verif.Compute.AllocProps.alloc_small_ex: Closed under the global context
Verif.Compute.CircuitPolyProps.circuit_poly_partial: Closed under the global context
Verif.Compute.CircuitPolyProps.circuit_poly_vars: Closed under the global context
Verif.Compute.CircuitPolyProps.supportedb_ok: Closed under the global context
Verif.Compute.CircuitPolyProps.circuit_poly_ex: Closed under the global context
Verif.Compute.CircuitPolyProps.shared_accumulator_refuted: Closed under the global context
Verif.Compute.CircuitPolyProps.shared_odd_power_refuted: Closed under the global context
Verif.Compute.CircuitPolyProps.zero_power_refuted: Closed under the global context
Verif.Compute.CpuProps.inner_product_correct: Closed under the global context
Verif.Compute.CpuProps.fold_left_correct: Closed under the global context
Verif.Compute.CpuProps.fold_right_correct: Closed under the global context
Verif.Compute.CpuProps.fold_rejects: Closed under the global context
Verif.Compute.CpuProps.fold_size_mismatch_refuted: Closed under the global context
Verif.Compute.CpuProps.tensor_expand_correct: Closed under the global context
Verif.Compute.CpuProps.tensor_expand_rejects: Closed under the global context
Verif.Compute.CpuProps.tensor_expand_stale_refuted: Closed under the global context
Verif.Compute.CpuProps.hal_eq_ind_partial_eval_correct: Closed under the global context
Verif.Compute.CpuProps.hal_eq_ind_partial_eval_stale_refuted: Closed under the global context
Verif.Compute.CpuProps.copy_fill_correct: Closed under the global context
Verif.Compute.CpuProps.extrapolate_line_rejects: Closed under the global context
Verif.Compute.CpuProps.kernel_add_correct: Closed under the global context
Verif.Compute.CpuProps.compute_composite_correct: Closed under the global context
Verif.Compute.CpuProps.compute_composite_rejects: Closed under the global context
Verif.Compute.CpuProps.sum_composition_evals_correct: Closed under the global context
Verif.Compute.CpuProps.pairwise_product_reduce_correct: Closed under the global context
Verif.Compute.CpuProps.pairwise_product_reduce_rejects: Closed under the global context
Verif.Compute.KernelProps.launch_log_chunks_correct: Closed under the global context
Verif.Compute.KernelProps.process_kernels_correct: Closed under the global context
Verif.Compute.KernelProps.accumulate_kernels_correct: Closed under the global context
Verif.Compute.KernelProps.map_kernels_error_refuted: Closed under the global context
Verif.Compute.KernelProps.scratch_not_zeroed_refuted: Closed under the global context
Verif.Compute.KernelProps.tower_bases_length: Closed under the global context
Verif.Compute.KernelProps.compute_ex: Closed under the global context
Verif.Compute.KernelProps.kernels_ex: Closed under the global context
Verif.Compute.KernelProps.kernels_ex_hypotheses: Closed under the global context
Verif.Cs.ChannelProps.validate_witness_correct: Closed under the global context
Verif.Cs.ChannelProps.validate_witness_mod: Closed under the global context
Verif.Cs.ChannelProps.two_pushes_balance_refuted: Closed under the global context
Verif.Cs.ChannelProps.validate_witness_panics_refuted: Closed under the global context
Verif.Cs.FlushProps.channel_balance_soundness: Closed under the global context
Verif.Cs.FlushProps.nonzero_soundness: Closed under the global context
Verif.Cs.FlushProps.flush_oracles_correct: Closed under the global context
Verif.Cs.FlushProps.channel_balance_complete: Closed under the global context
Verif.Cs.FlushProps.phase_ok_nonvacuous: Closed under the global context
Verif.Cs.FlushProps.unbalanced_nonvacuous: Closed under the global context
Verif.Cs.FlushProps.empty_table_refuted: Closed under the global context
Verif.Cs.FlushProps.unused_channel_ignored: Closed under the global context
Verif.Cs.FlushProps.widths_refuted: Closed under the global context
Verif.Cs.TotalProps.constraint_system_soundness: Closed under the global context
Verif.Cs.TotalProps.violation_caught: Closed under the global context
Verif.Cs.TotalProps.message_nonvacuous: Closed under the global context
Verif.Cs.TotalProps.violation_nonvacuous: Closed under the global context
Verif.Cs.ValidateExamples.satisfied81: Closed under the global context
Verif.Cs.ValidateExamples.validate81: Closed under the global context
Verif.Cs.ValidateExamples.validate81_rejects: Closed under the global context
Verif.Cs.ValidateExamples.validate_zero_padded_refuted: Closed under the global context
Verif.Cs.ValidateExamples.validate_exponents_refuted: Closed under the global context
Verif.Cs.ValidateExamples.validate_constant_refuted: Closed under the global context
Verif.Cs.ValidateProps.validate_sound_partial: Closed under the global context
Verif.Cs.ValidateProps.validate_sound: Closed under the global context
Verif.Cs.ValidateProps.validate_complete: Closed under the global context
Verif.Cs.VerifyProps.broken_constraint_soundness: Closed under the global context
Verif.Cs.VerifyProps.unbalanced_channel_soundness: Closed under the global context
Verif.Cs.VerifyProps.zero_column_soundness: Closed under the global context
Verif.Cs.VerifyProps.verify_reductions_returns: Closed under the global context
Verif.Cs.VerifyProps.supported_compiled: Closed under the global context
Verif.Cs.VerifyProps.system_ok_nonvacuous: Closed under the global context
Verif.Cs.VerifyProps.violations_nonvacuous: Closed under the global context
Verif.Evalcheck.EvalComplete.evalcheck_complete: Closed under the global context
Verif.Evalcheck.EvalExamples.evalcheck_panics_refuted: Closed under the global context
Verif.Evalcheck.EvalExamples.padded_index_refuted: Closed under the global context
Verif.Evalcheck.EvalExamples.structured_n_vars_refuted: Closed under the global context
Verif.Evalcheck.EvalExamples.empty_composite_refuted: Closed under the global context
Verif.Evalcheck.EvalExamples.evalcheck_sound_ex: Closed under the global context
Verif.Evalcheck.EvalExamples.evalcheck_complete_ex: Closed under the global context
Verif.Evalcheck.EvalExamples.run16_ex: Closed under the global context
Verif.Evalcheck.EvalExamples.run16_rejects: Closed under the global context
Verif.Evalcheck.EvalExamples.run16_duplicate: Closed under the global context
Verif.Evalcheck.EvalExamples.build16_ex: Closed under the global context
Verif.Evalcheck.EvalExamples.os16_ok: Closed under the global context
Verif.Evalcheck.EvalExamples.V16_consistent: Closed under the global context
Verif.Evalcheck.EvalExamples.add_shifted_ex: Closed under the global context
Verif.Evalcheck.EvalExamples.add_packed_ex: Closed under the global context
Verif.Evalcheck.EvalExamples.add_projected_last_ex: Closed under the global context
Verif.Evalcheck.EvalExamples.add_composite_ex: Closed under the global context
Verif.Evalcheck.EvalExamples.projected_last_vars_refuted: Closed under the global context
Verif.Evalcheck.EvalExamples.build_one_ex: Closed under the global context
Verif.Evalcheck.EvalExamples.build_one_err: Closed under the global context
Verif.Evalcheck.EvalExamples.take16_ex: Closed under the global context
Verif.Evalcheck.EvalExtend.consistent_exists: Closed under the global context
Verif.Evalcheck.EvalExtend.consistent_extends: Closed under the global context
Verif.Evalcheck.EvalExtend.consistent_unique: Closed under the global context
Verif.Evalcheck.EvalSafe.evalcheck_no_panic: Closed under the global context
Verif.Evalcheck.EvalSound.evalcheck_sound: Closed under the global context
Verif.Evalcheck.EvalSound.evalcheck_run_sound: Closed under the global context
Verif.Evalcheck.GreedyExamples.greedy_soundness_ex: Closed under the global context
Verif.Evalcheck.GreedyExamples.greedy_run_ex: Closed under the global context
Verif.Evalcheck.GreedyProps.greedy_soundness: Closed under the global context
Verif.Evalcheck.GreedyProps.greedy_sound: Closed under the global context
Verif.Evalcheck.GreedyProps.greedy_returns: Closed under the global context
Verif.Evalcheck.GreedyProps.greedy_fuel: Closed under the global context
Verif.Evalcheck.LevelProps.levels_hold_partial: Closed under the global context
Verif.Evalcheck.LevelProps.sym16_made: Closed under the global context
Verif.Evalcheck.LevelProps.vals82_ok: Closed under the global context
Verif.Evalcheck.LevelProps.levels82: Closed under the global context
Verif.Evalcheck.LevelProps.composite_level_refuted: Closed under the global context
Verif.Evalcheck.LevelProps.projected_level_refuted: Closed under the global context
Verif.Evalcheck.OracleProps.add_committed_correct: Closed under the global context
Verif.Evalcheck.OracleProps.add_transparent_correct: Closed under the global context
Verif.Evalcheck.OracleProps.add_structured_correct: Closed under the global context
Verif.Evalcheck.OracleProps.add_repeating_correct: Closed under the global context
Verif.Evalcheck.OracleProps.add_shifted_correct: Closed under the global context
Verif.Evalcheck.OracleProps.add_packed_correct: Closed under the global context
Verif.Evalcheck.OracleProps.add_projected_correct: Closed under the global context
Verif.Evalcheck.OracleProps.add_projected_last_vars_correct: Closed under the global context
Verif.Evalcheck.OracleProps.add_linear_combination_correct: Closed under the global context
Verif.Evalcheck.OracleProps.add_linear_combination_mismatch: Closed under the global context
Verif.Evalcheck.OracleProps.add_composite_correct: Closed under the global context
Verif.Evalcheck.OracleProps.add_composite_mismatch: Closed under the global context
Verif.Evalcheck.OracleProps.add_zero_padded_correct: Closed under the global context
Verif.Evalcheck.OracleProps.regroup_correct: Closed under the global context
Verif.Evalcheck.OracleProps.build_one_correct: Closed under the global context
Verif.Evalcheck.OracleProps.build_one_empty: Closed under the global context
Verif.Evalcheck.OracleProps.take_sumchecks_correct: Closed under the global context
Verif.Evalcheck.OracleProps.take_mlechecks_correct: Closed under the global context
Verif.Evalcheck.SymbolicProps.instantiate_correct: Closed under the global context
Verif.Evalcheck.SymbolicProps.instantiate_missing: Closed under the global context
Verif.Evalcheck.SymbolicProps.projected_last_refuted: Closed under the global context
Verif.Evalcheck.SymbolicProps.foreign_shift_refuted: Closed under the global context
Verif.Evalcheck.SymbolicProps.packed_shape_refuted: Closed under the global context
Verif.Evalcheck.SymbolicProps.sym16_built: Closed under the global context
Verif.Evalcheck.SymbolicProps.sym16_shapes: Closed under the global context
Verif.Evalcheck.SymbolicProps.sym16_instance: Closed under the global context
Verif.Evalcheck.SymbolicProps.instantiate_checks: Closed under the global context
Verif.Field.AesProps.table_mul_4b: Closed under the global context
Verif.Field.AesProps.table_mul_2b: Closed under the global context
Verif.Field.AesProps.table_mul_8b: Closed under the global context
Verif.Field.AesProps.table_unary_8b: Closed under the global context
Verif.Field.AesProps.table_invert_small: Closed under the global context
Verif.Field.AesProps.aes_8b_is_rijndael: Closed under the global context
Verif.Field.AesProps.aes_tables_total: Closed under the global context
Verif.Field.AesProps.aes_isomorphism: Closed under the global context
Verif.Field.AesProps.aes_inverse: Closed under the global context
Verif.Field.AesProps.aes_mul_primitive: Closed under the global context
Verif.Field.AesProps.aes_min_level: Closed under the global context
Verif.Field.AesProps.is_aes_tower_refuted: Closed under the global context
Verif.Field.PackedProps.packed_strategy_lanewise: Closed under the global context
Verif.Field.PackedProps.packed_strategy_step: Closed under the global context
Verif.Field.PackedProps.hybrid_strategy_step: Closed under the global context
Verif.Field.PackedProps.pairwise_strategy: Closed under the global context
Verif.Field.PackedProps.packed_aes_lanewise: Closed under the global context
Verif.Field.PackedProps.packed_pow: Closed under the global context
Verif.Field.PackedProps.packed_get_set: Closed under the global context
Verif.Field.PackedProps.packed_extensional: Closed under the global context
Verif.Field.PackedProps.packed_from_fn: Closed under the global context
Verif.Field.PackedProps.packed_broadcast: Closed under the global context
Verif.Field.PackedProps.packed_from_scalars: Closed under the global context
Verif.Field.PackedProps.packed_interleave: Closed under the global context
Verif.Field.PackedProps.packed_unzip: Closed under the global context
Verif.Field.PackedProps.packed_spread: Closed under the global context
Verif.Field.PackedProps.linear_transformation_additive: Closed under the global context
Verif.Field.PackedProps.linear_transformation_basis: Closed under the global context
Verif.Field.PackedProps.packed_linear_transformation: Closed under the global context
Verif.Field.SliceProps.square_transpose_spec: Closed under the global context
Verif.Field.SliceProps.square_transpose_errors: Closed under the global context
Verif.Field.SliceProps.packed_slice_get_set: Closed under the global context
Verif.Field.SliceProps.pack_slice_spec: Closed under the global context
Verif.Field.SliceProps.iter_packed_slice_with_offset_spec: Closed under the global context
Verif.Field.SliceProps.mul_by_subfield_scalar_spec: Closed under the global context
Verif.Field.SliceProps.copy_packed_from_scalars_slice_partial: Closed under the global context
Verif.Field.SliceProps.copy_packed_from_scalars_slice_refuted: Closed under the global context
Verif.Field.SliceProps.copy_packed_from_scalars_slice_wrong_place_refuted: Closed under the global context
Verif.Field.TowerProps.tower_is_field: Closed under the global context
Verif.Field.TowerProps.tower_generator_relation: Closed under the global context
Verif.Field.TowerProps.tower_invert_or_zero: Closed under the global context
Verif.Field.TowerProps.tower_invert: Closed under the global context
Verif.Field.TowerProps.tower_square: Closed under the global context
Verif.Field.TowerProps.tower_mul_alpha: Closed under the global context
Verif.Field.TowerProps.tower_square_additive: Closed under the global context
Verif.Field.TowerProps.tower_embedding: Closed under the global context
Verif.Field.TowerProps.tower_try_from: Closed under the global context
Verif.Field.TowerProps.tower_scalar_mul: Closed under the global context
Verif.Field.TowerProps.tower_scalar_mul_1b: Closed under the global context
Verif.Field.TowerProps.tower_min_level: Closed under the global context
Verif.Field.TowerProps.tower_pow: Closed under the global context
Verif.Field.TowerProps.tower_frobenius: Closed under the global context
Verif.Field.TowerProps.tower_bases_roundtrip: Closed under the global context
Verif.Field.TowerProps.tower_from_bases: Closed under the global context
Verif.Field.TowerProps.tower_from_bases_sparse: Closed under the global context
Verif.Field.TowerProps.tower_from_bases_sparse_full_stride_refuted: Closed under the global context
Verif.Field.TowerProps.tower_basis_expansion: Closed under the global context
Verif.Field.TowerProps.tower_coefficients_linear: Closed under the global context
Verif.Field.TowerProps.tower_mul_primitive: Closed under the global context
Verif.Fri.FriFolds.cpu_fri_fold_correct: Closed under the global context
Verif.Fri.FriFolds.fast_fri_fold_correct: Closed under the global context
Verif.Fri.FriFolds.fast_fri_fold_packed_refuted: Closed under the global context
Verif.Fri.FriParamsProps.new_params_accepts: Closed under the global context
Verif.Fri.FriParamsProps.fri_params_accounting: Closed under the global context
Verif.Fri.FriParamsProps.fri_layer_depths: Closed under the global context
Verif.Fri.FriParamsProps.choose_constant_correct: Closed under the global context
Verif.Fri.FriParamsProps.choose_constant_rejects: Closed under the global context
Verif.Fri.FriParamsProps.estimate_optimal_arity_correct: Closed under the global context
Verif.Fri.FriProps.fri_completeness: Closed under the global context
Verif.Fri.FriProps.fri_completeness_cpu: Closed under the global context
Verif.Fri.FriProps.fri_completeness_fast: Closed under the global context
Verif.Fri.FriProps.fri_zero_arity_refuted: Closed under the global context
Verif.Fri.FriProps.fri_small_first_arity_refuted: Closed under the global context
Verif.Fri.FriProps.fri_completeness_ex: Closed under the global context
Verif.Fri.FriSound.fri_soundness: Closed under the global context
Verif.Fri.FriSound.folds_to_unique: Closed under the global context
Verif.Fri.FriSound.fri_soundness_ex: Closed under the global context
Verif.Gkr.ExpProps.exp_soundness: Closed under the global context
Verif.Gkr.ExpProps.exp_oracle_soundness: Closed under the global context
Verif.Gkr.ExpProps.exp_never_panics: Closed under the global context
Verif.Gkr.ExpProps.exp_output_shape: Closed under the global context
Verif.Gkr.ExpProps.exp_ex: Closed under the global context
Verif.Gkr.ExpProps.exp_oracle_ex: Closed under the global context
Verif.Gkr.ExpProps.exp_base_one_refuted: Closed under the global context
Verif.Gkr.ExpProps.exp_wide_fixed_base_refuted: Closed under the global context
Verif.Gkr.ExpProps.exp_phase_binds_result_refuted: Closed under the global context
Verif.Gkr.ExpProps.exp_phase_ignores_results: Closed under the global context
Verif.Gkr.ExpProps.exp_phase_claims_operands: Closed under the global context
Verif.Gkr.GpaComplete.gpa_complete: Closed under the global context
Verif.Gkr.GpaProps.gp_witness_spec: Closed under the global context
Verif.Gkr.GpaProps.reduce_layer_sound: Closed under the global context
Verif.Gkr.GpaProps.gpa_output_shape: Closed under the global context
Verif.Gkr.GpaProps.gpa_soundness: Closed under the global context
Verif.Gkr.GpaProps.gpa_ex: Closed under the global context
Verif.Gkr.GpaProps.gp_witness_ex: Closed under the global context
Verif.M3.AddProps.u32_add_sound: Closed under the global context
Verif.M3.AddProps.u32_add_complete: Closed under the global context
Verif.M3.AddProps.u32_sub_sound: Closed under the global context
Verif.M3.AddProps.u32_sub_complete: Closed under the global context
Verif.M3.BarrelProps.barrel_sound: Closed under the global context
Verif.M3.BarrelProps.barrel_complete: Closed under the global context
Verif.M3.CompileExamples.packed_level_refuted: Closed under the global context
Verif.M3.CompileExamples.built13: Closed under the global context
Verif.M3.CompileExamples.tables13: Closed under the global context
Verif.M3.CompileExamples.compilable13: Closed under the global context
Verif.M3.CompileExamples.sizes13: Closed under the global context
Verif.M3.CompileExamples.cells13: Closed under the global context
Verif.M3.CompileExamples.compile13: Closed under the global context
Verif.M3.CompileExamples.shift_offset_refuted: Closed under the global context
Verif.M3.CompileExamples.block_index_refuted: Closed under the global context
Verif.M3.CompileExamples.foreign_expression_refuted: Closed under the global context
Verif.M3.CompileExamples.built5: Closed under the global context
Verif.M3.CompileExamples.tables5: Closed under the global context
Verif.M3.CompileExamples.compilable5: Closed under the global context
Verif.M3.CompileExamples.sizes5: Closed under the global context
Verif.M3.CompileExamples.verifiable5: Closed under the global context
Verif.M3.CompileExamples.m3_soundness_nonvacuous: Closed under the global context
Verif.M3.CompileProps.builder_correct: Closed under the global context
Verif.M3.CompileProps.columns_mean: Closed under the global context
Verif.M3.CompileProps.compile_correct: Closed under the global context
Verif.M3.CompileProps.compile_cells: Closed under the global context
Verif.M3.CompileProps.foreign_columns: Closed under the global context
Verif.M3.CompileProps.own_columns_flushed: Closed under the global context
Verif.M3.CompileProps.m3_soundness: Closed under the global context
Verif.M3.GadgetEx.u32_add_ex: Closed under the global context
Verif.M3.GadgetEx.u32_sub_ex: Closed under the global context
Verif.M3.GadgetEx.mul_ex: Closed under the global context
Verif.M3.GadgetEx.div_uu_ex: Closed under the global context
Verif.M3.GadgetEx.wide_add_ex: Closed under the global context
Verif.M3.GadgetEx.wide_sub_ex: Closed under the global context
Verif.M3.GadgetEx.incr_ex: Closed under the global context
Verif.M3.GadgetEx.mul_ss_ex: Closed under the global context
Verif.M3.GadgetEx.barrel_ex: Closed under the global context
Verif.M3.KeccakLookup.keccakf_lookedup_sound: Closed under the global context
Verif.M3.KeccakLookup.keccakf_lookedup_complete: Closed under the global context
Verif.M3.KeccakLookup.zero_lookedup: Closed under the global context
Verif.M3.KeccakProps.gather_correct: Closed under the global context
Verif.M3.KeccakProps.keccakf_trace_correct: Closed under the global context
Verif.M3.KeccakProps.batch_correct: Closed under the global context
Verif.M3.KeccakProps.keccakf_sound: Closed under the global context
Verif.M3.KeccakProps.keccakf_complete: Closed under the global context
Verif.M3.KeccakProps.keccakf_columns: Closed under the global context
Verif.M3.KeccakProps.zero_lanes: Closed under the global context
Verif.M3.KeccakProps.zero_vector: Closed under the global context
Verif.M3.KeccakProps.zero_gadget: Closed under the global context
Verif.M3.KeccakProps.zero_bit: Closed under the global context
Verif.M3.LookupComplete.tally_correct: Closed under the global context
Verif.M3.LookupComplete.lookup_complete: Closed under the global context
Verif.M3.LookupExamples.table_lookup_built: Closed under the global context
Verif.M3.LookupExamples.bitand_lookup_built: Closed under the global context
Verif.M3.LookupExamples.incr_lookup_built: Closed under the global context
Verif.M3.LookupExamples.bitand_entries: Closed under the global context
Verif.M3.LookupExamples.incr_entries_table: Closed under the global context
Verif.M3.LookupExamples.bit_and_populate_correct: Closed under the global context
Verif.M3.LookupExamples.incr_populate_correct: Closed under the global context
Verif.M3.LookupExamples.lk_balanced: Closed under the global context
Verif.M3.LookupExamples.lk_conjunctions: Closed under the global context
Verif.M3.LookupExamples.ik_balanced: Closed under the global context
Verif.M3.LookupExamples.ik_increments: Closed under the global context
Verif.M3.LookupExamples.bit_and_populate_refuted: Closed under the global context
Verif.M3.LookupExamples.tally_multiplicity_refuted: Closed under the global context
Verif.M3.LookupExamples.tally_selector_refuted: Closed under the global context
Verif.M3.LookupProps.pulled_pushed: Closed under the global context
Verif.M3.LookupProps.lookup_sound: Closed under the global context
Verif.M3.LookupProps.bit_and_sound: Closed under the global context
Verif.M3.LookupProps.incr_lookup_sound: Closed under the global context
Verif.M3.LookupProps.methods_later: Closed under the global context
Verif.M3.MulProps.mul_sound: Closed under the global context
Verif.M3.MulProps.mul_complete: Closed under the global context
Verif.M3.MulProps.div_uu_complete: Closed under the global context
Verif.M3.MulProps.div_uu_sound_partial: Closed under the global context
Verif.M3.MulProps.div_uu_refuted: Closed under the global context
Verif.M3.MulProps.mul_ss_complete: Closed under the global context
Verif.M3.MulProps.mul_ss_refuted: Closed under the global context
Verif.M3.ShaProps.constants_correct: Closed under the global context
Verif.M3.ShaProps.sha256_sound: Closed under the global context
Verif.M3.ShaProps.sha256_complete: Closed under the global context
Verif.M3.ShaProps.empty_digest: Closed under the global context
Verif.M3.ShaProps.empty_gadget: Closed under the global context
Verif.M3.ShaProps.padded_small: Closed under the global context
Verif.M3.SignedDiv.div_ss_complete: Closed under the global context
Verif.M3.SignedDiv.div_ss_sound_partial: Closed under the global context
Verif.M3.SignedDiv.div_ss_refuted: Closed under the global context
Verif.M3.SignedDiv.div_ss_exact_refuted: Closed under the global context
Verif.M3.SignedEx.twos_ex: Closed under the global context
Verif.M3.SignedEx.sign_ex: Closed under the global context
Verif.M3.SignedEx.mul_su_ex: Closed under the global context
Verif.M3.SignedEx.div_ss_ex: Closed under the global context
Verif.M3.SignedProps.mul_ss_sound_partial: Closed under the global context
Verif.M3.SignedProps.twos_complement_sound: Closed under the global context
Verif.M3.SignedProps.twos_complement_complete: Closed under the global context
Verif.M3.SignedProps.sign_converter_sound: Closed under the global context
Verif.M3.SignedProps.sign_converter_complete: Closed under the global context
Verif.M3.SignedProps.mul_su_complete: Closed under the global context
Verif.M3.SignedProps.mul_su_sound_partial: Closed under the global context
Verif.M3.SignedProps.mul_su_refuted: Closed under the global context
Verif.M3.WideProps.wide_add_sound: Closed under the global context
Verif.M3.WideProps.wide_add_complete: Closed under the global context
Verif.M3.WideProps.wide_add_carry_refuted: Closed under the global context
Verif.M3.WideProps.wide_add_populate_refuted: Closed under the global context
Verif.M3.WideProps.incr_sound: Closed under the global context
Verif.M3.WideProps.incr_complete: Closed under the global context
Verif.M3.WideProps.wide_sub_complete: Closed under the global context
Verif.M3.WideProps.wide_sub_sound_partial: Closed under the global context
Verif.M3.WideProps.wide_sub_refuted: Closed under the global context
Verif.Math.ArithProps.from_expr_correct: Closed under the global context
Verif.Math.ArithProps.to_expr_correct: Closed under the global context
Verif.Math.ArithProps.optimize_correct: Closed under the global context
Verif.Math.ArithProps.optimize_checked_correct: Closed under the global context
Verif.Math.ArithProps.circuit_eq_correct: Closed under the global context
Verif.Math.ArithProps.circuit_ops: Closed under the global context
Verif.Math.ArithProps.csum_correct: Closed under the global context
Verif.Math.ArithProps.circuits_wf: Closed under the global context
Verif.Math.ArithProps.evaluate_total: Closed under the global context
Verif.Math.ArithProps.optimize_wrapping_refuted: Closed under the global context
Verif.Math.ArithProps.remap_vars_correct: Closed under the global context
Verif.Math.ArithProps.const_subst_correct: Closed under the global context
Verif.Math.ArithProps.degree_leading_term_correct: Closed under the global context
Verif.Math.ArithProps.linear_normal_form_correct: Closed under the global context
Verif.Math.ArithProps.get_constant_correct: Closed under the global context
Verif.Math.ArithProps.vars_usage_correct: Closed under the global context
Verif.Math.ArithProps.convert_field_correct: Closed under the global context
Verif.Math.ArithProps.eval_cost_total: Closed under the global context
Verif.Math.ArithProps.eval_cost_zero_exponent_refuted: Closed under the global context
Verif.Math.Fold1b.fold_right_1b_correct: Closed under the global context
Verif.Math.Fold1b.fold_right_1b_same: Closed under the global context
Verif.Math.Fold1b.fold_left_1b_correct: Closed under the global context
Verif.Math.Fold1b.fold_right_1b_long_table_refuted: Closed under the global context
Verif.Math.MatrixProps.inverse_into_correct: Closed under the global context
Verif.Math.MatrixProps.inverse_into_not_square: Closed under the global context
Verif.Math.MatrixProps.mul_into_correct: Closed under the global context
Verif.Math.MatrixProps.mul_vec_into_correct: Closed under the global context
Verif.Math.MatrixProps.mat_identity_correct: Closed under the global context
Verif.Math.MleProps.evaluate_correct: Closed under the global context
Verif.Math.MleProps.evaluate_at_vertex: Closed under the global context
Verif.Math.MleProps.evaluate_affine: Closed under the global context
Verif.Math.MleProps.evaluate_on_hypercube_correct: Closed under the global context
Verif.Math.MleProps.me_new_correct: Closed under the global context
Verif.Math.MleProps.me_from_values_correct: Closed under the global context
Verif.Math.MleProps.evaluate_partial_correct: Closed under the global context
Verif.Math.MleProps.evaluate_partial_low_correct: Closed under the global context
Verif.Math.MleProps.evaluate_partial_high_correct: Closed under the global context
Verif.Math.MleProps.fold_right_lerp_correct: Closed under the global context
Verif.Math.MleProps.fold_left_lerp_correct: Closed under the global context
Verif.Math.MleProps.fold_left_lerp_inplace_correct: Closed under the global context
Verif.Math.MleProps.fold_all_correct: Closed under the global context
Verif.Math.MleProps.fold_left_lerp_suffix_refuted: Closed under the global context
Verif.Math.MleProps.fold_left_lerp_uninit_refuted: Closed under the global context
Verif.Math.MleProps.zero_pad_correct: Closed under the global context
Verif.Math.MleProps.zero_pad_wide_refuted: Closed under the global context
Verif.Math.MleProps.zero_pad_range_refuted: Closed under the global context
Verif.Math.MleSpec.mle_on_cube: Closed under the global context
Verif.Math.MleSpec.mle_affine: Closed under the global context
Verif.Math.MleSpec.mle_unique: Closed under the global context
Verif.Math.PiecewiseProps.piecewise_correct: Closed under the global context
Verif.Math.PiecewiseProps.piecewise_rejects: Closed under the global context
Verif.Math.PiecewiseProps.piecewise_empty_refuted: Closed under the global context
Verif.Math.SubcubeProps.subcube_partial_low_correct: Closed under the global context
Verif.Math.SubcubeProps.subcube_partial_low_rejects: Closed under the global context
Verif.Math.SubcubeProps.subcube_partial_high_correct: Closed under the global context
Verif.Math.SubcubeProps.subcube_evals_correct: Closed under the global context
Verif.Math.SubcubeProps.subcube_partial_low_as_documented: Closed under the global context
Verif.Math.SubcubeProps.subcube_partial_high_as_documented: Closed under the global context
Verif.Math.TensorProps.tensor_prod_eq_ind_correct: Closed under the global context
Verif.Math.TensorProps.tensor_prod_eq_ind_rejects: Closed under the global context
Verif.Math.TensorProps.eq_ind_partial_eval_correct: Closed under the global context
Verif.Math.TensorProps.query_expand_correct: Closed under the global context
Verif.Math.TensorProps.query_update_correct: Closed under the global context
Verif.Math.TensorProps.query_history_correct: Closed under the global context
Verif.Math.TensorProps.expansion_correct: Closed under the global context
Verif.Math.UnivariateProps.from_points_correct: Closed under the global context
Verif.Math.UnivariateProps.extrapolate_correct: Closed under the global context
Verif.Math.UnivariateProps.extrapolate_wrong_length: Closed under the global context
Verif.Math.UnivariateProps.extrapolate_line_correct: Closed under the global context
Verif.Math.UnivariateProps.interpolate_correct: Closed under the global context
Verif.Math.UnivariateProps.evaluate_univariate_correct: Closed under the global context
Verif.Merkle.MerkleProps.merkle_completeness: Closed under the global context
Verif.Merkle.MerkleProps.merkle_completeness_iterated: Closed under the global context
Verif.Merkle.MerkleProps.merkle_commit_refuses: Closed under the global context
Verif.Merkle.MerkleProps.merkle_verify_no_panic: Closed under the global context
Verif.Merkle.MerkleProps.merkle_proof_size_refuted: Closed under the global context
Verif.Merkle.MerkleProps.merkle_proof_size_leaf_refuted: Closed under the global context
Verif.Merkle.MerkleProps.merkle_commit_iterated_short_refuted: Closed under the global context
Verif.Merkle.MerkleProps.merkle_layer_above_leaves_refuted: Closed under the global context
Verif.Merkle.MerkleProps.merkle_opening_binding: Closed under the global context
Verif.Merkle.MerkleProps.merkle_commit_binding: Closed under the global context
Verif.Merkle.MerkleProps.merkle_layer_binding: Closed under the global context
Verif.Merkle.MerkleProps.merkle_vector_binding: Closed under the global context
Verif.Ntt.NttProps.ntt_roundtrip: Closed under the global context
Verif.Ntt.NttProps.ntt_rejects: Closed under the global context
Verif.Ntt.NttProps.ntt_forward_evaluates: Closed under the global context
Verif.Ntt.NttProps.ntt_subspace_correct: Closed under the global context
Verif.Ntt.NttProps.ntt_subspace_eval_correct: Closed under the global context
Verif.Ntt.NttProps.ntt_subspace_eval_refuted: Closed under the global context
Verif.Ntt.NttProps.ntt_subspace_zero_refuted: Closed under the global context
Verif.Ntt.ParNttProps.multithreaded_forward: Closed under the global context
Verif.Ntt.ParNttProps.multithreaded_inverse: Closed under the global context
Verif.Ntt.ParNttProps.multithreaded_two_elements_refuted: Closed under the global context
Verif.Ntt.SubspaceProps.subspace_get_spec: Closed under the global context
Verif.Ntt.SubspaceProps.subspace_get_bijective: Closed under the global context
Verif.Ntt.SubspaceProps.subspace_get_add: Closed under the global context
Verif.Ntt.SubspaceProps.subspace_get_checked_spec: Closed under the global context
Verif.Ntt.SubspaceProps.subspace_get_checked_large_refuted: Closed under the global context
Verif.Ntt.SubspaceProps.subspace_iter_spec: Closed under the global context
Verif.Ntt.SubspaceProps.subspace_iter_nodup: Closed under the global context
Verif.Ntt.SubspaceProps.subspace_reduce_dim_spec: Closed under the global context
Verif.Ntt.SubspaceProps.domain_create_spec: Closed under the global context
Verif.Ntt.SubspaceProps.subspace_isomorphic_spec: Closed under the global context
Verif.Ntt.SubspaceProps.with_dim_tower: Closed under the global context
Verif.Ntt.TwiddleProps.twiddle_correct: Closed under the global context
Verif.Ntt.TwiddleProps.twiddle_tables_exist: Closed under the global context
Verif.Ntt.TwiddleProps.twiddle_affine_subspace: Closed under the global context
Verif.Ntt.TwiddleProps.twiddle_generate_rejects: Closed under the global context
Verif.Piop.MetaProps.commit_meta_correct: Closed under the global context
Verif.Piop.MetaProps.with_vars_correct: Closed under the global context
Verif.Piop.MetaProps.oracle_commit_meta_correct: Closed under the global context
Verif.Piop.MetaProps.collect_committed_witnesses_correct: Closed under the global context
Verif.Piop.MetaProps.claim_descs_correct: Closed under the global context
Verif.Piop.MetaProps.claim_descs_panic_refuted: Closed under the global context
Verif.Piop.PiopLayout.merge_layout: Closed under the global context
Verif.Piop.PiopProps.piop_soundness: Closed under the global context
Verif.Piop.PiopProps.piop_sound: Closed under the global context
Verif.Piop.PiopProps.fri_commitments: Closed under the global context
Verif.Piop.PiopProps.piop_soundness_ex: Closed under the global context
Verif.Piop.PiopProps.fri_commitments_ex: Closed under the global context
Verif.RingSwitch.AlgebraProps.tensor_transpose: Closed under the global context
Verif.RingSwitch.AlgebraProps.tensor_transpose_product: Closed under the global context
Verif.RingSwitch.AlgebraProps.tensor_transpose_scale: Closed under the global context
Verif.RingSwitch.AlgebraProps.tensor_scale_vertical_action: Closed under the global context
Verif.RingSwitch.AlgebraProps.tensor_scale_horizontal_action: Closed under the global context
Verif.RingSwitch.AlgebraProps.tensor_scale_commute: Closed under the global context
Verif.RingSwitch.AlgebraProps.tensor_product_scaling: Closed under the global context
Verif.RingSwitch.AlgebraProps.tensor_span: Closed under the global context
Verif.RingSwitch.AlgebraProps.tensor_extract_vertical: Closed under the global context
Verif.RingSwitch.AlgebraProps.tensor_fold: Closed under the global context
Verif.RingSwitch.AlgebraProps.tensor_new: Closed under the global context
Verif.RingSwitch.SwitchComplete.ring_switch_complete: Closed under the global context
Verif.RingSwitch.SwitchComplete.ring_switch_no_panic: Closed under the global context
Verif.RingSwitch.SwitchEqProps.eqind_evaluate_correct: Closed under the global context
Verif.RingSwitch.SwitchEqProps.eqind_table_correct: Closed under the global context
Verif.RingSwitch.SwitchEqProps.eqind_prover_verifier: Closed under the global context
Verif.RingSwitch.SwitchEqProps.eqind_new_correct: Closed under the global context
Verif.RingSwitch.SwitchExamples.tensor_kappa_refuted: Closed under the global context
Verif.RingSwitch.SwitchExamples.tensor_ex: Closed under the global context
Verif.RingSwitch.SwitchExamples.eqind_ex: Closed under the global context
Verif.RingSwitch.SwitchExamples.system_ex: Closed under the global context
Verif.RingSwitch.SwitchExamples.ring_switch_run: Closed under the global context
Verif.RingSwitch.SwitchExamples.ring_switch_run_false: Closed under the global context
Verif.RingSwitch.SwitchExamples.ring_switch_complete_ex: Closed under the global context
Verif.RingSwitch.SwitchSound.ring_switch_sound: Closed under the global context
Verif.RingSwitch.SwitchSound.system_new_spec: Closed under the global context
Verif.RingSwitch.TransposeProps.square_transpose_correct: Closed under the global context
Verif.RingSwitch.TransposeProps.square_transpose_rejects: Closed under the global context
Verif.Sumcheck.EqIndProps.eq_fn_spec: Closed under the global context
Verif.Sumcheck.EqIndProps.reduce_to_regular_spec: Closed under the global context
Verif.Sumcheck.EqIndProps.reduced_ok: Closed under the global context
Verif.Sumcheck.EqIndProps.reduced_true: Closed under the global context
Verif.Sumcheck.EqIndProps.verify_outputs_spec: Closed under the global context
Verif.Sumcheck.EqIndProps.extra_product_ok: Closed under the global context
Verif.Sumcheck.EqIndProps.eqind_soundness: Closed under the global context
Verif.Sumcheck.EqIndProps.eqind_complete: Closed under the global context
Verif.Sumcheck.RegularProps.regular_prover_serves: Closed under the global context
Verif.Sumcheck.RegularProps.regular_batch_complete: Closed under the global context
Verif.Sumcheck.RegularProps.regular_front_loaded_complete: Closed under the global context
Verif.Sumcheck.RegularProps.subspace_factory_ok: Closed under the global context
Verif.Sumcheck.RegularProps.regular_constant_composition_refuted: Closed under the global context
Verif.Sumcheck.SumcheckProps.sumcheck_batch_soundness: Closed under the global context
Verif.Sumcheck.SumcheckProps.front_loaded_prebatched_soundness: Closed under the global context
Verif.Sumcheck.SumcheckProps.front_loaded_soundness: Closed under the global context
Verif.Sumcheck.SumcheckProps.constant_composition_refuted: Closed under the global context
Verif.Sumcheck.SumcheckProps.sumcheck_batch_complete: Closed under the global context
Verif.Sumcheck.SumcheckProps.front_loaded_prebatched_complete: Closed under the global context
Verif.Sumcheck.SumcheckProps.front_loaded_complete: Closed under the global context
Verif.Sumcheck.SumcheckProps.round_proof_roundtrip: Closed under the global context
Verif.Sumcheck.SumcheckProps.recovered_sum: Closed under the global context
Verif.Sumcheck.SumcheckProps.round_reduces: Closed under the global context
Verif.Sumcheck.SumcheckProps.round_coeffs_add: Closed under the global context
Verif.Sumcheck.SumcheckProps.round_coeffs_mul: Closed under the global context
Verif.Sumcheck.SumcheckProps.batch_weighted: Closed under the global context
Verif.Sumcheck.SumcheckProps.round_proof_constant_refuted: Closed under the global context
Verif.Sumcheck.SumcheckProps.front_loaded_call_order: Closed under the global context
Verif.Sumcheck.SumcheckProps.front_loaded_finish: Closed under the global context
Verif.Sumcheck.SumcheckProps.front_loaded_never_panics: Closed under the global context
Verif.Sumcheck.SumcheckProps.batch_verify_never_panics: Closed under the global context
Verif.Sumcheck.SumcheckProps.try_finish_step_run: Closed under the global context
Verif.Sumcheck.SumcheckProps.receive_step_run: Closed under the global context
Verif.Sumcheck.SumcheckProps.finish_round_step_run: Closed under the global context
Verif.Sumcheck.SumcheckProps.dropped_claim_refuted: Closed under the global context
Verif.Sumcheck.ZerocheckProps.zerocheck_soundness: Closed under the global context
Verif.Sumcheck.ZerocheckProps.zerocheck_eval_claims: Closed under the global context
Verif.Transcript.ChallengerBinding.challenger_binding: Closed under the global context
Verif.Transcript.ChallengerProps.challenger_is_sponge: Closed under the global context
Verif.Transcript.ChallengerProps.challenger_split_observe: Closed under the global context
Verif.Transcript.ChallengerProps.challenger_split_sample: Closed under the global context
Verif.Transcript.ChallengerProps.hash_serialize_correct: Closed under the global context
Verif.Transcript.SerProps.serialize_roundtrip: Closed under the global context
Verif.Transcript.SerProps.deserialize_truncated: Closed under the global context
Verif.Transcript.SerProps.serialize_injective: Closed under the global context
Verif.Transcript.SerProps.serialize_room: Closed under the global context
Verif.Transcript.SerProps.deserialize_total: Closed under the global context
Verif.Transcript.SerProps.serialize_vec_bytes: Closed under the global context
Verif.Transcript.SerProps.serialize_via_roundtrip: Closed under the global context
Verif.Transcript.SerProps.serialize_aes_roundtrip: Closed under the global context
Verif.Transcript.SerProps.deserialize_noncanonical_refuted: Closed under the global context
Verif.Transcript.SerProps.oracle_id_refuted: Closed under the global context
Verif.Transcript.TranscriptProps.transcript_agreement: Closed under the global context
Verif.Transcript.TranscriptProps.verifier_challenges: Closed under the global context
Verif.Transcript.TranscriptProps.verifier_no_panic: Closed under the global context
Verif.Transcript.TranscriptProps.read_debug_checks: Closed under the global context
Verif.Transcript.TranscriptProps.read_debug_panics_refuted: Closed under the global context
Verif.Transparent.ShiftProps.shift_new_correct: Closed under the global context
Verif.Transparent.ShiftProps.shift_matrix_action: Closed under the global context
Verif.Transparent.ShiftProps.shift_evaluate_correct: Closed under the global context
Verif.Transparent.ShiftProps.shift_extension_correct: Closed under the global context
Verif.Transparent.ShiftProps.shift_evaluate_cube: Closed under the global context
Verif.Transparent.TowerBasisProps.powers_extension_wide_refuted: Closed under the global context
Verif.Transparent.TowerBasisProps.tower_basis_elt_correct: Closed under the global context
Verif.Transparent.TowerBasisProps.tower_basis_new_spec: Closed under the global context
Verif.Transparent.TowerBasisProps.tower_basis_correct: Closed under the global context
Verif.Transparent.TowerBasisProps.tower_basis_extension_correct: Closed under the global context
Verif.Transparent.TowerBasisProps.mlet_roundtrip: Closed under the global context
Verif.Transparent.TowerBasisProps.mlet_roundtrip_narrow_refuted: Closed under the global context
Verif.Transparent.TowerBasisProps.mlet_roundtrip_subfield_refuted: Closed under the global context
Verif.Transparent.TowerBasisProps.mlet_deserialize_panics: Closed under the global context
Verif.Transparent.TransparentProps.fast_eval_is_slow_eval: Closed under the global context
Verif.Transparent.TransparentProps.constant_correct: Closed under the global context
Verif.Transparent.TransparentProps.disjoint_product_correct: Closed under the global context
Verif.Transparent.TransparentProps.eq_ind_correct: Closed under the global context
Verif.Transparent.TransparentProps.eq_ind_table: Closed under the global context
Verif.Transparent.TransparentProps.eq_ind_extension_correct: Closed under the global context
Verif.Transparent.TransparentProps.powers_correct: Closed under the global context
Verif.Transparent.TransparentProps.powers_extension_correct: Closed under the global context
Verif.Transparent.TransparentProps.select_row_new_spec: Closed under the global context
Verif.Transparent.TransparentProps.select_row_correct: Closed under the global context
Verif.Transparent.TransparentProps.select_row_extension_correct: Closed under the global context
Verif.Transparent.TransparentProps.step_new_spec: Closed under the global context
Verif.Transparent.TransparentProps.step_down_correct: Closed under the global context
Verif.Transparent.TransparentProps.step_up_correct: Closed under the global context
Verif.Transparent.TransparentProps.step_populate_correct: Closed under the global context
Verif.Transparent.TransparentProps.step_down_extension_correct: Closed under the global context
Verif.Transparent.TransparentProps.step_up_extension_correct: Closed under the global context
Verif.Transparent.TransparentProps.mlet_correct: Closed under the global context
Verif.Utils.CheckedProps.strict_log_2_correct: Closed under the global context
Verif.Utils.CheckedProps.strict_log_2_none: Closed under the global context
Verif.Utils.CheckedProps.checked_log_2_correct: Closed under the global context
Verif.Utils.CheckedProps.log2_strict_usize_correct: Closed under the global context
Verif.Utils.CheckedProps.min_bits_correct: Closed under the global context
Verif.Utils.CheckedProps.log2_ceil_correct: Closed under the global context
Verif.Utils.CheckedProps.checked_int_div_correct: Closed under the global context
Verif.Utils.CheckedProps.checked_int_div_panics: Closed under the global context
Verif.Utils.CheckedProps.checked_ex: Closed under the global context
Verif.Utils.ContainersProps.sparse_is_map: Closed under the global context
Verif.Utils.ContainersProps.sparse_contains: Closed under the global context
Verif.Utils.ContainersProps.sparse_is_empty: Closed under the global context
Verif.Utils.ContainersProps.sparse_iter: Closed under the global context
Verif.Utils.ContainersProps.sparse_keys: Closed under the global context
Verif.Utils.ContainersProps.sparse_values: Closed under the global context
Verif.Utils.ContainersProps.sparse_len: Closed under the global context
Verif.Utils.ContainersProps.sparse_from_iter: Closed under the global context
Verif.Utils.ContainersProps.sparse_index: Closed under the global context
Verif.Utils.ContainersProps.a2_new_wf: Closed under the global context
Verif.Utils.ContainersProps.a2_new_index: Closed under the global context
Verif.Utils.ContainersProps.a2_set_get: Closed under the global context
Verif.Utils.ContainersProps.a2_get_row_correct: Closed under the global context
Verif.Utils.ContainersProps.a2_rows_correct: Closed under the global context
Verif.Utils.ContainersProps.a2_reshape_correct: Closed under the global context
Verif.Utils.ContainersProps.a2_sum_rows_correct: Closed under the global context
Verif.Utils.ContainersProps.a2_index_out_of_range_refuted: Closed under the global context
Verif.Utils.ContainersProps.a2_rows_no_columns_refuted: Closed under the global context
Verif.Utils.ContainersProps.sv_without_stride_correct: Closed under the global context
Verif.Utils.ContainersProps.sv_in_bounds: Closed under the global context
Verif.Utils.ContainersProps.sv_column_correct: Closed under the global context
Verif.Utils.ContainersProps.strides_partition: Closed under the global context
Verif.Utils.ContainersProps.strides_ex: Closed under the global context
Verif.Utils.ContainersProps.sparse_ex: Closed under the global context
Verif.Utils.ContainersProps.array_ex: Closed under the global context
Verif.Utils.GraphProps.connected_components_correct: Closed under the global context
Verif.Utils.GraphProps.components_ex: Closed under the global context
Verif.Utils.SortProps.stable_sort_spec: Closed under the global context
Verif.Utils.SortProps.unsort_spec: Closed under the global context
Verif.Utils.SortProps.sort_unsort: Closed under the global context
Verif.Utils.SortProps.sorted_asc_windows_spec: Closed under the global context
Verif.Utils.SortProps.stable_sort_ex: Closed under the global context
Verif.M3.ShaPopulate.message_schedule_correct: Closed under the global context
Verif.M3.ShaPopulate.schedule_columns: Closed under the global context
Verif.M3.ShaPopulate.addition_columns: Closed under the global context
Verif.M3.ShaPopulate.addition_case: Closed under the global context
