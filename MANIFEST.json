{
 "claims": [
  {
   "property": "C01",
   "status": "partial",
   "theorems": [
    "C01_restore_newest_partial",
    "C01_restore_newest_refuted"
   ],
   "note": "Proved for steps below 1,000,000; refuted beyond (file names compared as text)."
  },
  {
   "property": "C02",
   "status": "partial",
   "theorems": [
    "C02_round_trip",
    "C02_distinct_names",
    "C02_slash_keys_refuted",
    "C02_reserved_name_refuted"
   ],
   "note": "Round trip proved for every storable tree; slash keys collide and a leaf called 'step' makes save raise (refuted witnesses)."
  },
  {
   "property": "C03",
   "status": "partial",
   "theorems": [
    "C03_torn_skipped_partial",
    "C03_all_torn_partial",
    "C03_torn_refuted"
   ],
   "note": "Proved for files cut at 0 or >= 4 bytes; refuted for 1-3 bytes (ValueError is not caught)."
  },
  {
   "property": "C04",
   "status": "proved",
   "theorems": [
    "C04_strict_returns_stored",
    "C04_lenient",
    "C04_nothing_there"
   ],
   "note": ""
  },
  {
   "property": "C05",
   "status": "partial",
   "theorems": [
    "C05_prefix_isolation_iff",
    "C05_restore_ignores_other_stages",
    "C05_pretrain_train",
    "C05_isolation_refuted"
   ],
   "note": "Exact characterisation; isolation fails only when one prefix starts with the other followed by 'ckpt_' (refuted witness)."
  },
  {
   "property": "C06",
   "status": "proved",
   "theorems": [
    "C06_each_step_once",
    "C06_normal_return_saved"
   ],
   "note": ""
  },
  {
   "property": "C07",
   "status": "proved",
   "theorems": [
    "C07_finished_idempotent"
   ],
   "note": ""
  },
  {
   "property": "C08",
   "status": "proved",
   "theorems": [
    "C08_save_rule",
    "C08_resume_point"
   ],
   "note": ""
  },
  {
   "property": "C09",
   "status": "partial",
   "theorems": [
    "C09_resume_deterministic_partial",
    "C09_resume_refuted"
   ],
   "note": "Proved for computations that ignore the random key; refuted in general because the key is not checkpointed."
  },
  {
   "property": "C10",
   "status": "partial",
   "theorems": [
    "C10_nan_is_last",
    "C10_disabled_never_stops",
    "C10_imaginary_nan_refuted"
   ],
   "note": "Proved for the real part; a NaN in the imaginary part only is not noticed (refuted witness)."
  },
  {
   "property": "C11",
   "status": "partial",
   "theorems": [
    "C11_later_signals_reach_the_original_handlers",
    "C11_first_signal_only_requests_exit",
    "C11_no_exit_without_signal",
    "C11_handler_never_fails",
    "C11_second_signal_during_handler_refuted",
    "C11_signal_during_construction_refuted"
   ],
   "note": "Proved for every interleaving once one handler call has finished; refuted for a second signal that arrives while the first is still being handled and for a signal during construction."
  },
  {
   "property": "C12",
   "status": "partial",
   "theorems": [
    "C12_csv_aligned_partial",
    "C12_torn_header_refuted"
   ],
   "note": "Proved for histories in which the header line itself is not torn; refuted for a torn header."
  },
  {
   "property": "C13",
   "status": "partial",
   "theorems": [
    "C13_hdf5_aligned_partial",
    "C13_hdf5_aligned_with_kills",
    "C13_kill_loses_rows_refuted"
   ],
   "note": "Proved without kills; refuted with a kill (no flush)."
  },
  {
   "property": "C14",
   "status": "partial",
   "theorems": [
    "C14_eval_once_partial",
    "C14_kill_duplicates_refuted"
   ],
   "note": "Proved without kills; refuted with a kill (file is never truncated on resume)."
  },
  {
   "property": "C15",
   "status": "partial",
   "theorems": [
    "C15_precedence",
    "C15_command_line_wins",
    "C15_dataclass_field",
    "C15_masked_refuted"
   ],
   "note": "Proved when no source puts a non-mapping on the way to the key; refuted otherwise (masked by a later file that sets an ancestor)."
  },
  {
   "property": "C16",
   "status": "proved",
   "theorems": [
    "C16_merge_pathwise",
    "C16_override_wins",
    "C16_base_kept",
    "C16_right_identity",
    "C16_left_identity",
    "C16_idempotent",
    "C16_associative_without_conflict",
    "C16_associative_refuted"
   ],
   "note": "All laws proved; unrestricted associativity refuted, proved without conflicts as the property says."
  },
  {
   "property": "C17",
   "status": "partial",
   "theorems": [
    "C17_report_is_exact",
    "C17_stops_iff_unread",
    "C17_unknown_field_raises",
    "C17_empty_mapping_not_reported_refuted",
    "C17_dotted_key_not_reported_refuted",
    "C17_value_for_dataclass_ignored_refuted"
   ],
   "note": "Exact characterisation proved. The corollary 'a misspelt key is always reported' is refuted for an empty mapping, a literal dotted key and a plain value where a dataclass is expected."
  },
  {
   "property": "C18",
   "status": "proved",
   "theorems": [
    "C18_override_is_set",
    "C18_later_wins",
    "C18_nothing_else_is_set",
    "C18_unrelated_unchanged",
    "C18_conflicting_override_raises"
   ],
   "note": ""
  },
  {
   "property": "C19",
   "status": "partial",
   "theorems": [
    "C19_wire_sets_everything",
    "C19_nothing_unset_after_wire",
    "C19_wire_error_is_exact",
    "C19_check_wired_own_fields",
    "C19_check_wired_nested_refuted",
    "C19_already_set_refuted"
   ],
   "note": "Proved for the nested component tree; check_wired itself looks only at the top-level object and already-set dependencies are refused (refuted witnesses)."
  },
  {
   "property": "C20",
   "status": "proved",
   "theorems": [
    "C20_chunked_equals_vmap",
    "C20_inconsistent_batch_raises",
    "C20_chunk_size_zero_raises"
   ],
   "note": "All batch and chunk sizes."
  },
  {
   "property": "C21",
   "status": "proved",
   "theorems": [
    "C21_old_or_proposal",
    "C21_cached_log_prob",
    "C21_test_uses_current_position",
    "C21_walkers_independent",
    "C21_acceptance_rate",
    "C21_step_returns_run",
    "C21_zero_steps"
   ],
   "note": "All step counts, batches, proposals and random streams; log-probabilities abstract."
  },
  {
   "property": "C22",
   "status": "proved",
   "theorems": [
    "C22_acceptance_is_metropolis",
    "C22_detailed_balance",
    "C22_detailed_balance_chain",
    "C22_density_stationary",
    "C22_weight_is_psi_squared",
    "C22_nan_walker_stuck"
   ],
   "note": "Over the reals (library axioms of Reals). NaN log-probabilities never accept (proved)."
  },
  {
   "property": "C23",
   "status": "proved",
   "theorems": [
    "C23_adaptation_rule",
    "C23_width_positive",
    "C23_width_is_power",
    "C23_step_feeds_adaptation"
   ],
   "note": "Every history of acceptance rates; exact rationals."
  },
  {
   "property": "C24",
   "status": "partial",
   "theorems": [
    "C24_plan_step_is_sweep",
    "C24_undeclared_unchanged",
    "C24_every_update_kept",
    "C24_declaration",
    "C24_overlapping_fields_refuted",
    "C24_stats_of_all_samplers_refuted"
   ],
   "note": "Proved for plans with disjoint field sets. Overlapping plans and stats keys shared by two samplers are refuted (witnesses)."
  },
  {
   "property": "C25",
   "status": "partial",
   "theorems": [
    "C25_each_sees_all_before",
    "C25_evaluate_total",
    "C25_distinct_keys",
    "C25_finalised_by_owner",
    "C25_unshared_key",
    "C25_finalize_before_evaluate",
    "C25_finalize_after_evaluate",
    "C25_digest",
    "C25_shared_key_refuted",
    "C25_added_after_evaluate"
   ],
   "note": "Proved for every pipeline whose estimators return dictionaries; ownership of a key needs that no other estimator reduces to it (C25_shared_key_refuted: the first is given the second one's value). Estimators added after evaluate make finalising raise KeyError."
  },
  {
   "property": "C26",
   "status": "partial",
   "theorems": [
    "C26_batch_statistics",
    "C26_layout_independent",
    "C26_variance_nonnegative",
    "C26_nan_layout_refuted",
    "C26_nan_device_spoils",
    "C26_reduced_keys"
   ],
   "note": "Proved when every device holds the same number of valid walkers; with NaN walkers the mean depends on the layout and one all-NaN device spoils the result (refuted witnesses)."
  },
  {
   "property": "C27",
   "status": "proved",
   "theorems": [
    "C27_bin_found",
    "C27_each_sample_once",
    "C27_cell_found",
    "C27_count_is_count",
    "C27_total_up_to_last_compensation",
    "C27_total_exact",
    "C27_interruption",
    "C27_layout_independent"
   ],
   "note": "Any rounding of the running sum; exact whenever counts up to K are representable and no device exceeds K in a cell. The two Kahan subtractions are taken as exact."
  },
  {
   "property": "C28",
   "status": "proved",
   "theorems": [
    "C28_total_is_sum_of_all_components",
    "C28_total_of_components",
    "C28_bad_component_raises"
   ],
   "note": "Exact arithmetic."
  },
  {
   "property": "C29",
   "status": "partial",
   "theorems": [
    "C29_layout_independent",
    "C29_gradient_exact",
    "C29_clipped_gradient",
    "C29_gradient_is_covariance_partial",
    "C29_complex_refuted",
    "C29_shift_invariant",
    "C29_imaginary_shift_refuted"
   ],
   "note": "loss_grad.py line 126 multiplies the two averages without conjugation: the result is twice the covariance plus 4 Im<E> Im<O> (C29_gradient_exact); equal to the covariance when one of the two vanishes; shift invariance holds for real shifts with any clipping, fails for imaginary shifts."
  },
  {
   "property": "C30",
   "status": "proved",
   "theorems": [
    "C30_quantile_splits",
    "C30_same_window_everywhere",
    "C30_whole_layout",
    "C30_documented_window",
    "C30_clipped_values",
    "C30_order_preserved",
    "C30_none_is_identity",
    "C30_unknown_method_raises",
    "C30_window_layout_independent"
   ],
   "note": "Real arithmetic, NaN kept; no infinities."
  },
  {
   "property": "C31",
   "status": "partial",
   "theorems": [
    "C31_assignment",
    "C31_atoms",
    "C31_terminates",
    "C31_raises_only_if_impossible",
    "C31_local_charge_sign_refuted",
    "C31_ions_refuted"
   ],
   "note": "Assignment, termination and the converse of the error are proved for the assignment loop; the per-atom charge given by the user is used with the opposite sign of its documentation (initialization.py:25), and ions cannot be initialised (their electron counts never match)."
  },
  {
   "property": "C32",
   "status": "partial",
   "theorems": [
    "C32_tiles_partial",
    "C32_nonpositive_column_refuted",
    "C32_reflection_refuted"
   ],
   "note": "Holds exactly when every column of S has a positive entry (the range stops before the maximum, supercell.py:110); |det S| < 10^5 because of the rounding tolerance. The remaining matrices lose cells (proved)."
  },
  {
   "property": "C33",
   "status": "partial",
   "theorems": [
    "C33_symmetric_partial",
    "C33_nonsymmetric_refuted",
    "C33_missing_kpoints_refuted"
   ],
   "note": "Holds for symmetric S. supercell.py:73 multiplies by inv(S) where inv(S) transposed is required: refuted for non-symmetric S."
  },
  {
   "property": "C34",
   "status": "proved",
   "theorems": [
    "C34_moves_by_lattice_vector",
    "C34_lands_in_cell",
    "C34_cell_unique",
    "C34_translation_invariant",
    "C34_fixes_cell",
    "C34_idempotent",
    "C34_proposal_reversible"
   ],
   "note": "Any dimension, exact real arithmetic; also the reversibility of the wrapped proposal."
  },
  {
   "property": "C35",
   "status": "partial",
   "theorems": [
    "C35_diagonal",
    "C35_orthogonal_branch_dead",
    "C35_nearby_partial",
    "C35_orthogonal_partial",
    "C35_far_refuted",
    "C35_skewed_refuted"
   ],
   "note": "Proved for diagonal lattices; for other lattices only for particles in the primary cell and close pairs, or mutually orthogonal vectors. Refuted for far separations and for skewed lattices. The branch for orthogonal lattices is dead code (the test of pbc.py:138 includes the diagonal)."
  },
  {
   "property": "C36",
   "status": "partial",
   "theorems": [
    "C36_half_space",
    "C36_reciprocal_sum",
    "C36_reciprocal_pairs",
    "C36_reciprocal_periodic",
    "C36_energy_periodic_partial",
    "C36_real_sum",
    "C36_left_handed_refuted",
    "C36_handedness_refuted"
   ],
   "note": "Half space, real and reciprocal sums and periodicity of the reciprocal part proved; periodicity of the whole energy for diagonal lattices. Handedness independence refuted: ewald.py:76 takes the determinant without absolute value."
  },
  {
   "property": "C37",
   "status": "partial",
   "theorems": [
    "C37_columns",
    "C37_symmetric_partial",
    "C37_transposed_refuted"
   ],
   "note": "Holds for symmetric lattice matrices only: fractional.py:77 multiplies by the transpose of the inverse."
  },
  {
   "property": "C38",
   "status": "proved",
   "theorems": [
    "C38_from_any_inputs",
    "C38_forward_laplacian",
    "C38_gradient_is_unique"
   ],
   "note": "All straight-line programs over the modelled dense rules (elementwise, linear and indexing, multiplication, division, contraction, general Hessian rule, max/min/abs/select/compare/sign), real-valued, at points where the program is smooth; JAX's own jvp of each primitive is trusted. Loops: see the loop theorems; complex values not modelled."
  },
  {
   "property": "C39",
   "status": "partial",
   "theorems": [
    "C39_equation",
    "C39_program",
    "C39_seed",
    "C39_sparse_laplacian",
    "C39_concat_error_refuted",
    "C39_concat_owners_refuted",
    "C39_max_tie_refuted",
    "C39_abs_kink_refuted"
   ],
   "note": "For every program over the modelled primitives (unary smooth, neg, add, sub, mul, div, abs, max, min, select, sum, transpose, squeeze, rev, slice, broadcast, reshape, concatenate, dot_general, any other primitive through densification), every shape and every input: if sparse evaluation succeeds and the kink/owner-axis side conditions hold (safe_program), its densified values, Jacobians and Laplacians equal the dense evaluation's (C39_equation, C39_program), the sparse seed densifies to the dense seed (C39_seed), and the Laplacian is the mathematical one (C39_sparse_laplacian, with C38). Missing/refuted: concatenating plain segments along the owner axis raises an exception or shifts owners (C39_concat_error_refuted, C39_concat_owners_refuted); max/min ties with a plain operand and abs at 0 use other subgradients (C39_max_tie_refuted, C39_abs_kink_refuted). Modelled separately in C91: pow, rem, round, reduce_max/min, gather owner remapping, split. Complex values: C92. Not modelled: compact broadcast dense Jacobians; empty arrays are excluded."
  },
  {
   "property": "C40",
   "status": "proved",
   "theorems": [
    "C40_results",
    "C40_liveness",
    "C40_limit_is_sharp"
   ],
   "note": "Straight-line programs of any length; holds while each result is read at most 2^31 - 1 times (shown sharp)."
  },
  {
   "property": "C41",
   "status": "proved",
   "theorems": [
    "C41_robust",
    "C41_gamma_range",
    "C41_standard",
    "C41_modes",
    "C41_descent",
    "C41_history",
    "C41_lift",
    "C41_prune",
    "C41_leaf_selection"
   ],
   "note": "Exact-arithmetic model of update_fn with devices, complex scores, clipping, SPRING, MARCH (both modes), adaptive damping, chunked Gram, null-space lift, Cholesky solve (elimination) and pruning. C41_robust: every update equals the parameter-space robust/SPRING/MARCH solution; C41_standard: the only solution of (Fisher + lambda) delta = g for gamma = 1/lambda, no momentum, no metric, lambda >= eps; C41_modes: documented eigenvalue formula; C41_history: every history from init; C41_descent; C41_gamma_range; C41_lift; C41_prune; C41_leaf_selection. Positive damping is assumed (usable); floating point is not modelled."
  },
  {
   "property": "C42",
   "status": "proved",
   "theorems": [
    "C42_gram"
   ],
   "note": "For every number of devices, rows, parameters, chunks >= 1 and nonnegative scale, full and chunked Gram matrices (row normalisation, padding, resharding, masking of the clamped last chunk, symmetrisation) equal score diag(scale) score^T; exact arithmetic."
  },
  {
   "property": "C43",
   "status": "proved",
   "theorems": [
    "C43_constrained",
    "C43_step"
   ],
   "note": "For every update, nonnegative rate and limit, eps > 0; includes 'fixed' and the sign flip of robust_sr."
  },
  {
   "property": "C44",
   "status": "partial",
   "theorems": [
    "C44_sound_partial",
    "C44_pruned_partial",
    "C44_straight",
    "C44_scan_refuted",
    "C44_while_refuted"
   ],
   "note": "Proved: a leaf the mask drops has no influence, unconditionally for straight-line programs with nested calls and conds (C44_straight), and for programs with scans/whiles whose loops are closed in the sense of Active_Spec (C44_sound_partial, C44_pruned_partial). Refuted in general: the analysis makes one backward pass over a scan body, so an input entering the requested carry only in a later round is dropped (C44_scan_refuted); while-loop operand positions are not realigned when constants are closed over (C44_while_refuted)."
  },
  {
   "property": "C45",
   "status": "partial",
   "theorems": [
    "C45_vary_weight",
    "C45_vary_aligned",
    "C45_vary_unbiased",
    "C45_vary_merged",
    "C45_vary_split",
    "C45_round",
    "C45_vary_succeeds",
    "C45_vary_crash_refuted",
    "C45_fixed_size",
    "C45_fixed_aligned",
    "C45_fixed_weight_partial",
    "C45_fixed_unbiased_partial",
    "C45_fixed_low_merged_partial",
    "C45_fixed_high_split_partial",
    "C45_fixed_tie_refuted",
    "C45_fixed_edge_refuted",
    "C45_fixed_overlap_refuted",
    "C45_fixed_crash_refuted"
   ],
   "note": "Variable population (branch.py): weight conserved for all weights and draws, arrays aligned, every observable unbiased (mean over the uniform draws as an iterated Riemann integral), exact merge and split counts; raises for a single walker or when (nearly) all walkers are small (C45_vary_crash_refuted). Fixed population: size and alignment unconditionally; weight and unbiasedness for distinct weights, 3*num_to_change <= n and draws off their threshold; refuted for tied weights, for a draw equal to its threshold, and when the pairs reach the largest walkers (C45_fixed_*_refuted). Weights are reals; floating-point rounding is not modelled."
  },
  {
   "property": "C46",
   "status": "partial",
   "theorems": [
    "C46_metric",
    "C46_trace",
    "C46_files",
    "C46_rollback",
    "C46_promoted",
    "C46_restart",
    "C46_final",
    "C46_restart_unprotected",
    "C46_torn_refuted"
   ],
   "note": "Over every history of steps, outlier rejections, rollbacks, aborts, kills and restarts: metric rows list each step once in order; rows and state are those of a failure-free execution; rollback returns to a saved step; promoted data is at least a block old; the last block is in the save path when the loop ends. Refuted: a kill during the copy into the save path leaves a torn newest file and no later process can start. Local paths, one host, equal block size across runs for C46_final."
  },
  {
   "property": "C47",
   "status": "partial",
   "theorems": [
    "C47_nothing_removed",
    "C47_keeps_partial",
    "C47_repaired",
    "C47_removes_refuted"
   ],
   "note": "As written the function rebinds its argument to [] before reading it, so nothing is ever removed: the keep half holds (C47_keeps_partial), removal is refuted; with a separate name the policy is proved in full (C47_repaired). clean_up_save_path is not called by the DMC loop."
  },
  {
   "property": "C48",
   "status": "proved",
   "theorems": [
    "C48_value",
    "C48_bounds",
    "C48_stable",
    "C48_window",
    "C48_empty_window"
   ],
   "note": "Real arithmetic, positive total weights, window size at least 1 (0 fails, C48_empty_window)."
  },
  {
   "property": "C49",
   "status": "partial",
   "theorems": [
    "C49_effective",
    "C49_effective_bounds",
    "C49_effective_ebye",
    "C49_rejected_partial",
    "C49_flag_off",
    "C49_outlier",
    "C49_rejected_refuted",
    "C49_period_refuted",
    "C49_always_updated"
   ],
   "note": "Refuted twice: an outlier is detected after the effective-time-step calculator was updated in place, and the loop computes but never passes should_update_effective_time_step. Proved: everything else in the state and the index are unchanged by a rejection; with the flag off nothing changes; closed form and bounds of the effective time step. dmc_step and branch are arbitrary parameters; non-ebye iteration."
  },
  {
   "property": "C50",
   "status": "proved",
   "theorems": [
    "C50_average_is_mean_after_warmup",
    "C50_negative_warmup_refused"
   ],
   "note": ""
  },
  {
   "property": "C51",
   "status": "proved",
   "theorems": [
    "C51_only_comment_lines_added",
    "C51_final_break_dropped",
    "C51_comments_at_true_path"
   ],
   "note": "Only comment lines are added; the final line break is dropped when anything was annotated (proved); comments carry the true path for the block-style documents of the emitter subset."
  },
  {
   "property": "C52",
   "status": "proved",
   "theorems": [
    "C52_old_config_preserved",
    "C52_no_write",
    "C52_crash_safe",
    "C52_history_keeps_every_config",
    "C52_crash_same_config_refuted",
    "C52_even_split"
   ],
   "note": "Old configuration preserved under an unused name, no write in dry runs, crash-safe at every file operation and over histories. Refuted only for a rewrite of an unchanged configuration torn by a crash, which is outside the property as stated."
  },
  {
   "property": "C53",
   "status": "partial",
   "theorems": [
    "C53_exact",
    "C53_integral_functional",
    "C53_identifiers",
    "C53_rule_shape",
    "C53_rotation_proper",
    "C53_unbiased_refuted"
   ],
   "note": "Exactness is proved for all six rules and the default, against a Riemann surface integral (Coquelicot), for every pair of draws; rule shape, identifiers and properness of rotations proved. The last sentence is false and refuted: over the rotations the code draws (two uniforms instead of three parameters), the average of octahedron_6 on x^4 is 13/12 of the integral (C53_unbiased_refuted). Exact real arithmetic; identifier string given already split."
  },
  {
   "property": "C54",
   "status": "partial",
   "theorems": [
    "C54_subset_exact",
    "C54_subset_raises_iff_unknown",
    "C54_merge_exact",
    "C54_merge_raises_iff_unknown",
    "C54_merge_subset_identity",
    "C54_check_exact",
    "C54_check_unknown_name_refuted",
    "C54_vmap_axis",
    "C54_fully_batched"
   ],
   "note": "Laws proved; the documented KeyError for an unknown name is a TypeError in the code (refuted witness)."
  },
  {
   "property": "C55",
   "status": "partial",
   "theorems": [
    "C55_parse_intended",
    "C55_parse_lossless",
    "C55_key_with_digit_refuted",
    "C55_format_without_digit_refuted",
    "C55_printed_every_interval",
    "C55_row_content",
    "C55_missing_reported_once",
    "C55_zero_interval_raises"
   ],
   "note": "Proved for keys without digits and formats with digits as the regex expects; refuted otherwise (witnesses)."
  },
  {
   "property": "C56",
   "status": "proved",
   "theorems": [
    "C56_resolved_records_value",
    "C56_resolved_value_persists",
    "C56_read_fails_only_on_conflict",
    "C56_resolved_records_section"
   ],
   "note": ""
  },
  {
   "property": "C57",
   "status": "partial",
   "theorems": [
    "C57_same_shape_difference_frozen",
    "C57_independent_moves_refuted"
   ],
   "note": "Refuted: gaussian_proposal uses one key for all leaves, so equally shaped fields always receive the same noise; the positive theorem gives the exact consequence."
  },
  {
   "property": "C58",
   "status": "proved",
   "theorems": [
    "C58_simulation_translations",
    "C58_primitive_translations"
   ],
   "note": "SolidFeatures with either distance and every symmetry type; any dimension."
  },
  {
   "property": "C59",
   "status": "partial",
   "theorems": [
    "C59_real_valued",
    "C59_nu_contact",
    "C59_tri_contact_partial",
    "C59_tri_hexagonal_refuted"
   ],
   "note": "nu: every symmetry type. tri: minimal, fcc, bcc; with the hexagonal set the distance vanishes at the honeycomb site (refuted)."
  },
  {
   "property": "C60",
   "status": "proved",
   "theorems": [
    "C60_offset_schedule",
    "C60_offset_sign",
    "C60_offset_monotone",
    "C60_average_scale",
    "C60_average_bounds",
    "C60_clip_bounds"
   ],
   "note": "Real arithmetic, one host."
  },
  {
   "property": "C61",
   "status": "proved",
   "theorems": [
    "C61_pad",
    "C61_padded",
    "C61_unpadded"
   ],
   "note": "The 0.1 of one-digit sizes is computed with IEEE double arithmetic (Coq SpecFloat); the bound holds for any digit count the logarithm may report (target_any_digit)."
  },
  {
   "property": "C62",
   "status": "partial",
   "theorems": [
    "C62_sum",
    "C62_mean_partial",
    "C62_mean_refuted",
    "C62_devices_refuted",
    "C62_success"
   ],
   "note": "Exact rationals. The unweighted agg_mean (used for the acceptance ratio) is the mean only when hosts hold equally many walkers; refuted otherwise. agg_sum needs equal device counts per host."
  },
  {
   "property": "C64",
   "status": "partial",
   "theorems": [
    "C64_cap_partial",
    "C64_cap_ratio",
    "C64_not_above",
    "C64_nonneg",
    "C64_cap_refuted"
   ],
   "note": "The cap itself is refuted: ten power iterations give a Rayleigh quotient strictly below the largest eigenvalue (C64_cap_refuted, for every start vector with a component on a smaller eigenvector and every target), so the condition number exceeds max_cond_num. Proved: the cap holds when the estimate is not below the spectrum (C64_cap_partial); in general it is exceeded by at most the factor of the underestimate (C64_cap_ratio); the damping is non-negative and never more than the exact largest eigenvalue would ask for."
  },
  {
   "property": "C63",
   "status": "proved",
   "theorems": [
    "C63_radial",
    "C63_channel_count",
    "C63_nearest",
    "C63_ratio",
    "C63_evaluated_in_cell",
    "C63_channel",
    "C63_projector",
    "C63_component_unique",
    "C63_energy",
    "C63_refuses_high_l",
    "C63_atoms",
    "C63_component_exists"
   ],
   "note": "All tables, positions, rules, rotations. The exactness claim is for ratios that are polynomial on the sphere (any other ratio is only approximated). Exact reals; a wavefunction value is a unit phase and a logarithm. With an empty list of electrons the code would still refuse l>=3; the model does not."
  },
  {
   "property": "C65",
   "status": "proved",
   "theorems": [
    "C65_ferminet",
    "C65_psiformer",
    "C65_lapnet",
    "C65_solid",
    "C65_psi_changes_sign",
    "C65_coincidence_refuted"
   ],
   "note": "All parameters, depths, positions and pairs. Networks over exact reals. Beyond the property: with two same-spin electrons in one place every determinant vanishes and log|psi| is NaN (C65_coincidence_refuted, see C67)."
  },
  {
   "property": "C67",
   "status": "partial",
   "theorems": [
    "C67_real_sum",
    "C67_real_scaled",
    "C67_all_zero_refuted",
    "C67_complex_sum",
    "C67_complex_all_zero_refuted"
   ],
   "note": "Proved whenever one determinant is non-zero, including exact cancellation (-inf). Refuted when all determinants are zero: the maximum is -inf, -inf minus -inf is NaN, and the result is NaN rather than -inf (C67_all_zero_refuted, C67_complex_all_zero_refuted)."
  },
  {
   "property": "C66",
   "status": "partial",
   "theorems": [
    "C66_bloch",
    "C66_kpoints_partial",
    "C66_workflow_partial",
    "C66_crystal_momentum",
    "C66_nonsymmetric_refuted",
    "C66_ecp_partial"
   ],
   "note": "The condition holds for every k-point list that matches the twist (C66_bloch), and the workflow's k-points match it when the supercell matrix is symmetric (C66_kpoints_partial, C66_workflow_partial; |det| < 100000). Refuted for other matrices: with rows (2,1,0),(0,1,0),(0,0,1) moving an electron by a cell vector multiplies |psi| by sqrt 3 (C66_nonsymmetric_refuted), because of C33. C66_ecp_partial discharges the Bloch hypothesis of C63. The occupation numbers found by PySCF are universally quantified."
  },
  {
   "property": "C68",
   "status": "partial",
   "theorems": [
    "C68_pairs",
    "C68_cusp",
    "C68_psiformer_factor",
    "C68_lapnet_factor",
    "C68_positive_bounded",
    "C68_negative_parameter_refuted"
   ],
   "note": "Psi of PsiFormer and LapNet is the product of this factor and the value without it (C68_psiformer_factor, C68_lapnet_factor). Pair counting and cusp slopes proved for all non-zero parameters; boundedness for positive ones. Refuted for negative ones, which nothing prevents training from reaching: the factor has a pole at distance -alpha (C68_negative_parameter_refuted)."
  },
  {
   "property": "C69",
   "status": "partial",
   "theorems": [
    "C69_pair_factor",
    "C69_laughlin_value",
    "C69_laughlin",
    "C69_laughlin_cf_refuted",
    "C69_laughlin_exchange",
    "C69_mhpo_exchange",
    "C69_mhpo_odd_refuted",
    "C69_mhpo_value",
    "C69_mhpo_turn",
    "C69_free_exchange",
    "C69_free_filling",
    "C69_free_lowest",
    "C69_free_filled",
    "C69_example"
   ],
   "note": "Two parts of the property are false of the code and refuted: an odd flux_per_elec gives a wavefunction that is symmetric under exchange of equal spins (nothing rejects it), and Laughlin with cf_flux other than 1 always multiplies in the square of the pair product, so its value is the cube of the pair factors and not the power 2 cf + 1. The product formula of the filled level is for 0 < theta < pi (at the poles the code multiplies 0 by an infinite power). When flux_per_elec > 0 the electrons are assumed to be at different points, since the code takes the logarithm of the pair factor."
  },
  {
   "property": "C71",
   "status": "proved",
   "theorems": [
    "C71_kinetic_energy",
    "C71_modes_agree",
    "C71_laughlin_level",
    "C71_lowest_level",
    "C71_example"
   ],
   "note": "psi need only have a logarithm near the configuration. The derivatives of log psi are given by a record of facts (what jax.grad/hessian return); in the forward mode jac and lap are the weighted jacobian and laplacian that C38 shows the interpreter returns. Configurations with an electron exactly on a pole (sin theta = 0) divide by zero in the code and are excluded."
  },
  {
   "property": "C72",
   "status": "proved",
   "theorems": [
    "C72_angular_momentum",
    "C72_modes_agree",
    "C72_single_electron",
    "C72_single_orbital",
    "C72_laughlin_singlet",
    "C72_laughlin_zero",
    "C72_example"
   ],
   "note": "The double-operator mode is given the jacobian of the first application as a derivative fact. Laughlin states are the pair products C69 shows the code computes. Configurations with an electron exactly on a pole are excluded."
  },
  {
   "property": "C73",
   "status": "proved",
   "theorems": [
    "C73_move",
    "C73_move_angle",
    "C73_move_back",
    "C73_potential",
    "C73_example"
   ],
   "note": "Exact arithmetic; the draws are arguments. C73_move includes the plane y = 0, where sign(0) = 0 makes the longitude 0. sphere_proposal applies the same key to every leaf of a pytree (one leaf in the hall app)."
  },
  {
   "property": "C74",
   "status": "proved",
   "theorems": [
    "C74_orbital",
    "C74_orbitals_complete",
    "C74_filled",
    "C74_filled_trace",
    "C74_free",
    "C74_rotation",
    "C74_exchange",
    "C74_free_symmetric",
    "C74_example"
   ],
   "note": "For the filled level the identity needs the configuration and the auxiliary point outside the cutoff (|cos theta| <= 1 - 1e-4), because inside it the estimator's orbitals are not those of the wavefunction. The averages over walkers and auxiliary points are not modelled."
  },
  {
   "property": "C75",
   "status": "proved",
   "theorems": [
    "C75_penalty",
    "C75_definite",
    "C75_laughlin",
    "C75_example"
   ],
   "note": "penalized_loss on top of the statistics of C72; a penalty of 0 switches its term off."
  },
  {
   "property": "C76",
   "status": "partial",
   "theorems": [
    "C76_angle_exists",
    "C76_histogram",
    "C76_uniform",
    "C76_accumulates",
    "C76_devices_refuted",
    "C76_digest_refuted"
   ],
   "note": "REFUTED in two respects. (1) The state has shape (bins,) without a device axis, but the stage splits every estimator state along its first axis: with more than one device the first step raises, or, with one bin per device, the array changes size (C76_devices_refuted). (2) finalize_stats returns {} and finalize_state is inherited ({}), so nothing of the result is in the digest (C76_digest_refuted). Proved: what a step adds (C76_histogram), normalisation for uniform electrons (C76_uniform, with the density sin/2 of the angle as its input), accumulation on one device (C76_accumulates). Pairs at angle 0 or pi give an infinite weight and are excluded."
  },
  {
   "property": "C70",
   "status": "partial",
   "theorems": [
    "C70_value",
    "C70_rule",
    "C70_declines",
    "C70_owner_axis_refuted"
   ],
   "note": "C70_rule: exact value, Jacobian and Laplacian when the tracked input has the electrons on its first axis (all of jaqmc's own calls, sparse_axis=0). C70_owner_axis_refuted: with sparse_axis=1, which make_laplacian_input accepts, the support test does not look at input_owner_axis and the returned Jacobian rows are permuted."
  },
  {
   "property": "C77",
   "status": "proved",
   "theorems": [
    "C77_nan_iff_not_elliptic",
    "C77_defined",
    "C77_backends_agree",
    "C77_local_energy_forward",
    "C77_local_energy_standard",
    "C77_operator_unique",
    "C77_exact_pass_exists",
    "C77_tables",
    "C77_reconstruct_exact",
    "C77_reconstruct_s",
    "C77_potential",
    "C77_local_part",
    "C77_loaded",
    "C77_local_part_loaded",
    "C77_atom_charge",
    "C77_example"
   ],
   "note": "Real log psi only, as the class documents (with a complex log psi the forward backend uses |g|^2 instead of g^2). Electrons on a PH atom (r = 0) are excluded: there both terms are not numbers. The gradient, Hessian and forward-Laplacian pass are taken exact (C38 proves the pass); the XML parser is not modelled."
  },
  {
   "property": "C78",
   "status": "proved",
   "theorems": [
    "C78_local",
    "C78_eigenstate",
    "C78_polarised",
    "C78_node",
    "C78_restricted",
    "C78_two_electrons",
    "C78_example"
   ],
   "note": "C78_local: the value equals (S^2 f)/f with S^2 built from Pauli matrices (Spin_Spec.v), for every fermionic f whose amplitude at the canonical spin order is the wavefunction. C78_eigenstate, C78_polarised, C78_restricted (zero variance for restricted determinants, by Cramer's rule), C78_two_electrons, C78_node (psi = 0: no value, NaN in the code), C78_example. logsumexp is the library function, modelled with its shift. Exact arithmetic."
  },
  {
   "property": "C79",
   "status": "partial",
   "theorems": [
    "C79_spins",
    "C79_accepts",
    "C79_charge",
    "C79_terms",
    "C79_walker",
    "C79_solid_walker",
    "C79_starts",
    "C79_elements",
    "C79_starts_table",
    "C79_custom_charge_refuted",
    "C79_example"
   ],
   "note": "Elements_Model, Sys_Model, Sys_Props. C79_spins (up to 4e8 electrons, because math.isclose is relative), C79_accepts, C79_charge, C79_terms, C79_walker, C79_solid_walker, C79_starts (atoms whose charge has the parity of the element), C79_starts_table (all of the package's element table without ECPs or with ph), C79_elements. Refuted in part: an atom with a charge of its own whose parity differs from the element's passes validation and then no electrons can be assigned (C79_custom_charge_refuted)."
  },
  {
   "property": "C80",
   "status": "partial",
   "theorems": [
    "C80_lattice",
    "C80_refused",
    "C80_flat_refuted",
    "C80_rock_salt",
    "C80_chain",
    "C80_diatomic",
    "C80_formula",
    "C80_formula_only",
    "C80_alkane_formula",
    "C80_alkane_chain",
    "C80_alkane_hydrogens",
    "C80_alkane_starts"
   ],
   "note": "Cell_Model, Cell_Props. C80_lattice, C80_refused, C80_rock_salt, C80_chain, C80_diatomic, C80_formula, C80_formula_only, C80_alkane_formula, C80_alkane_chain, C80_alkane_hydrogens, C80_alkane_starts. Refuted in part: gamma = 0 with alpha = beta is not refused but gives a lattice of NaN (C80_flat_refuted). Angles within 1e-12 degrees of 90 are taken to be 90 or -90."
  },
  {
   "property": "C81",
   "status": "partial",
   "theorems": [
    "C81_nearest",
    "C81_clip",
    "C81_drift",
    "C81_proposal",
    "C81_draw",
    "C81_slater",
    "C81_rate",
    "C81_balance",
    "C81_fixed_node",
    "C81_outcome",
    "C81_weight",
    "C81_weight_bound",
    "C81_ebye_move",
    "C81_ebye_balance",
    "C81_ebye_sweep",
    "C81_radial_refuted",
    "C81_hydrogen_refuted",
    "C81_reachable"
   ],
   "note": "Move_Model, Move_Props. C81_nearest, C81_clip, C81_drift, C81_proposal (the density), C81_draw and C81_slater (the draws have it), C81_reachable, C81_rate, C81_balance, C81_fixed_node, C81_outcome, C81_weight, C81_weight_bound, C81_ebye_move, C81_ebye_balance, C81_ebye_sweep; C81_example meets the hypotheses. Exact arithmetic; erfc is any function with values in (0, 2); the measure-theoretic step from densities to distributions is not formalised. Refuted in part: an electron whose velocity is exactly along the line to its nearest nucleus, or zero, gives 0/0: the walker does not move and its averaged energy is reported as 0 (C81_radial_refuted; C81_hydrogen_refuted: no walker of a hydrogen atom ever moves, in exact arithmetic)."
  },
  {
   "property": "C82",
   "status": "partial",
   "theorems": [
    "C82_weights_readback",
    "C82_atomic_orbitals",
    "C82_threshold",
    "C82_solid_harmonics",
    "C82_low_shells",
    "C82_empty_contraction_refuted",
    "C82_slater",
    "C82_antisymmetric",
    "C82_block_determinant",
    "C82_loss_zero",
    "C82_loss_zero_blocks",
    "C82_pretrained_determinants",
    "C82_pretrained_molecule",
    "C82_amplitude_range",
    "C82_amplitude",
    "C82_split_raises_refuted",
    "C82_split_refuted",
    "C82_image_order",
    "C82_bloch_sum",
    "C82_crystal_orbital_unique",
    "C82_orbital_columns",
    "C82_periodic_slater",
    "C82_one_electron",
    "C82_crystal_momentum",
    "C82_twist_partial",
    "C82_pretrained_solid",
    "C82_occupied_restricted",
    "C82_occupied_unrestricted",
    "C82_fractional_occupation"
   ],
   "note": "Proved over exact reals for every basis with every contraction used. Refuted corners: a contraction with all weights below 1e-12 at the end of the list shifts the read-back (C82_empty_contraction_refuted); solids accept full_det=False, for which the loss raises or compares the wrong blocks (C82_split_*). The twist law is stated for symmetric supercell matrices, as in C66. Not modelled: pyscf's self-consistent field, and the truncation error of the lattice sum (C82_bloch_sum says exactly what the cut-off changes)."
  },
  {
   "property": "C83",
   "status": "proved",
   "theorems": [
    "C83_real",
    "C83_complex",
    "C83_modes",
    "C83_forward_dense",
    "C83_forward_sparse",
    "C83_zero_variance",
    "C83_hydrogen",
    "C83_hydrogen_ground_state",
    "C83_hydrogen_only",
    "C83_hydrogen_init"
   ],
   "note": "The forward-Laplacian modes are covered for real-valued programs of the modelled primitives (as C38, C39; sparse with the restrictions named there); the loop modes for real and complex wavefunctions."
  },
  {
   "property": "C84",
   "status": "partial",
   "theorems": [
    "C84_parameter_split",
    "C84_repeated_dense",
    "C84_dense",
    "C84_patterns_refuted",
    "C84_fixed_scale",
    "C84_fixed_scale_refuted",
    "C84_layer",
    "C84_layer_matrix",
    "C84_layer_gradient",
    "C84_kronecker",
    "C84_kronecker_exact",
    "C84_moving_average",
    "C84_psd",
    "C84_scale_shift",
    "C84_scale_shift_gradient",
    "C84_generic",
    "C84_generic_refuted",
    "C84_vjp",
    "C84_vjp_refuted",
    "C84_patch_restored",
    "C84_patch_not_reentrant"
   ],
   "note": "kfac_jax's own parts (WeightedMovingAverage, Kronecker block structure, compatible_sum, graph matching) are modelled by what they compute. Refuted: patterns without repeated axis but with two contracted or produced axes are routed to the two-axis block and fail; fixed_scale counts all but the last contracted axis as repeats; the generic diagonal sums the batch before squaring and can vanish where S does not; vjp_rc_with_aux looks at the first output's type only."
  },
  {
   "property": "C85",
   "status": "proved",
   "theorems": [
    "C85_schedule",
    "C85_robbins_monro",
    "C85_constant",
    "C85_step",
    "C85_counts"
   ],
   "note": "optax.scale_by_learning_rate and OptaxPreconditioner.apply are modelled by what they compute; the inverse of the damped curvature is taken as an exact right inverse."
  },
  {
   "property": "C86",
   "status": "partial",
   "theorems": [
    "C86_notation",
    "C86_relative_first",
    "C86_mapping",
    "C86_direct",
    "C86_absent_is_empty",
    "C86_round_trip",
    "C86_switch_refuted",
    "C86_file_class_refuted",
    "C86_optax_call",
    "C86_optax_refused",
    "C86_optax_order_refuted",
    "C86_optax_update"
   ],
   "note": "Python's import system is an arbitrary environment; nested dataclasses and pyserde's coercion are not modelled. Refuted: keyword defaults are merged under a class the user chose and make it fail if it lacks the field; a class from a .py file is recorded under a per-process module name that no other process can import; a required array parameter after the learning rate gives a TypeError instead of a wrapper."
  },
  {
   "property": "C87",
   "status": "partial",
   "theorems": [
    "C87_energy",
    "C87_independent",
    "C87_survivor",
    "C87_eigenstate_refuted",
    "C87_partition",
    "C87_gradient",
    "C87_gradient_all",
    "C87_masked_gradient_refuted",
    "C87_clipped_gradient",
    "C87_nan_moves_window_refuted",
    "C87_uneven_devices_refuted",
    "C87_empty_device_refuted",
    "C87_percentile",
    "C87_penalty_mask",
    "C87_width_zero_refuted",
    "C87_infinite_hides_outliers_refuted",
    "C87_penalty_clip",
    "C87_estimator_gradient",
    "C87_estimator_covariance",
    "C87_energy_derivative",
    "C87_spin_derivative",
    "C87_spin_at_zero",
    "C87_side",
    "C87_all_vanish_refuted",
    "C87_spin_square",
    "C87_plus_is_square",
    "C87_swap_cycle",
    "C87_step_not_counted_refuted",
    "C87_polarised_refuted",
    "C87_ratio_mean",
    "C87_overlap",
    "C87_overlap_derivative",
    "C87_overlap_targets",
    "C87_missing_weight_refuted",
    "C87_factory",
    "C87_loss_is_energy",
    "C87_kwargs",
    "C87_unknown_kwarg_refuted"
   ],
   "note": "Loss_Spec/Model/Props/Pen/Spin/Over.v. Exact real arithmetic (NaN and infinities kept where the code handles them), one scalar parameter, derivatives of log psi and of the local penalty as inputs. The overlap derivative is over a finite set of points sampled exactly. Refuted parts are concrete counterexamples or exact characterisations."
  },
  {
   "property": "C88",
   "status": "partial",
   "theorems": [
    "C88_slogdet_of_complex_matrices",
    "C88_slogdet_of_real_matrices",
    "C88_real_imag_conj",
    "C88_complex_from_parts",
    "C88_straight_line",
    "C88_scan",
    "C88_while",
    "C88_dispatch",
    "C88_jit_is_transparent",
    "C88_slogdet_in_a_program",
    "C88_jit_by_name_refuted",
    "C88_scan_raises_iff",
    "C88_scan_reset_carry_refuted",
    "C88_while_untracked_start_refuted",
    "C88_init",
    "C88_custom_rule_under_vmap",
    "C88_custom_rule_under_nested_vmaps",
    "C88_custom_rule",
    "C88_missing_rule",
    "C88_registration",
    "C88_jit_keeps_first_trace",
    "C88_rule_used_inside_refuted"
   ],
   "note": "Soundness is proved for every block built from the modelled pieces: straight-line programs (C38's primitives), scan, while, dispatch, jit, slogdet, custom rules and vmaps of them. _refuted theorems record the departures named in the statement: lookup of jitted functions by name, scan/while carries that change trackedness raise, and the jit cache fixes whether a custom rule is used. Sparse Jacobians are densified before these handlers in the code; the model starts from dense ones."
  },
  {
   "property": "C89",
   "status": "partial",
   "theorems": [
    "C89_kinetic",
    "C89_partitions",
    "C89_coulomb",
    "C89_dmc_energy",
    "C89_legendre",
    "C89_quadratures",
    "C89_ecp",
    "C89_pseudo_hamiltonian",
    "C89_pseudo_hamiltonian_nan",
    "C89_parse",
    "C89_parse_refuted",
    "C89_spline_tables",
    "C89_refused",
    "C89_routing",
    "C89_each_once",
    "C89_each_once_refuted",
    "C89_semilocal",
    "C89_energy",
    "C89_energy_ph",
    "C89_effective_charge",
    "C89_channels_refused",
    "C89_channel_labels_refuted",
    "C89_custom_local",
    "C89_optim",
    "C89_p_wave_example",
    "C89_ph_example",
    "C89_optim_hph_refuted"
   ],
   "note": "Proved for real wavefunctions (sign and log modulus), exact derivatives and an exact forward pass (lapjax is an argument, as in C77). C89_energy and C89_energy_ph are the whole-energy theorems. _refuted theorems record the departures named in the statement: C89_each_once_refuted, C89_optim_hph_refuted, C89_channel_labels_refuted, C89_parse_refuted; C89_channels_refused covers only-local and l>7 tables. The cubic spline library is an argument (C89_effective_charge asks it to commute with adding a constant). Padding/masking of DMC walkers is C62. Uniform draws are arguments; the icosahedral rotation bias is not part of this property."
  },
  {
   "property": "C90",
   "status": "partial",
   "theorems": [
    "C90_names",
    "C90_names_only",
    "C90_names_refuted",
    "C90_trace",
    "C90_files",
    "C90_newest",
    "C90_survives",
    "C90_remote_copy_refuted",
    "C90_failed_download_refuted",
    "C90_leftover_refuted",
    "C90_torn_local_refuted",
    "C90_lazy_refuted",
    "C90_paths"
   ],
   "note": "Histories over a local and a remote directory with the three storage handlers; transfers may succeed, fail or be killed, the machine may be lost, listings come in any order. Proved for every history: the rows and state of any process and every whole file belong to an execution without failures (C90_trace, C90_files); a start with working downloads continues after the newest file of the four directories (C90_newest); with a storage that works every start succeeds and loses less than two blocks (C90_survives); names give the step back (C90_names, C90_names_only); which path settings raise (C90_paths). Refuted: with the default handler, or when hdfs commands fail, nothing remote is ever stored and nobody is told (C90_remote_copy_refuted); a failed hdfs download restarts from step 0 although good data are remote (C90_failed_download_refuted); the ._COPYING_ leftover of a killed upload matches the unanchored pattern and stops every later start on another machine (C90_leftover_refuted, C90_names_refuted); hdfs -get does not replace a torn local file (C90_torn_local_refuted); lazy_setup never lets data be loaded (C90_lazy_refuted). The hdfs command line's behaviour (temporary name, no overwrite without -f) is an assumption about the environment."
  },
  {
   "property": "C91",
   "status": "proved",
   "theorems": [
    "C91_gather",
    "C91_gather_exact",
    "C91_gather_stays_sparse",
    "C91_take",
    "C91_reduce",
    "C91_reduce_value",
    "C91_reduce_exact",
    "C91_tie_unsound",
    "C91_split",
    "C91_split_covers",
    "C91_split_exact",
    "C91_round_value",
    "C91_round",
    "C91_rem_value",
    "C91_rem",
    "C91_rem_exact",
    "C91_pow",
    "C91_pow_exact"
   ],
   "note": "C91_gather, C91_reduce, C91_rem, C91_pow: the rule's result is well formed and its densified derivatives equal the dense rule's, for sparse and dense operands (reductions: also at ties); C91_split per piece. *_exact: exact value, gradient and Laplacian of the composed function (gather incl. fill value; max/min with a unique extreme element per window; rem away from integer quotients, tracked divisor included; pow with positive base; split; round away from halves). C91_take: numpy-style x[..., idx, ...] reads the listed rows. C91_gather_stays_sparse: with concrete indices the factorisation is complete. C91_reduce_value, C91_round_value, C91_rem_value: what the values are. C91_split_covers: every element in exactly one piece. C91_tie_unsound: at a tie the averaged Laplacian of max(x^2, 0) at 0 is 1 instead of 2 (the dense rule does the same), which is why ties are excluded. Left out: ONE_HOT gather mode (rejected by the code), a tracked exponent (general dense rule of C38), bases <= 0."
  },
  {
   "property": "C92",
   "status": "partial",
   "theorems": [
    "C92_densify",
    "C92_unary",
    "C92_abs",
    "C92_components",
    "C92_convert",
    "C92_functions",
    "C92_add",
    "C92_mul",
    "C92_div",
    "C92_complex",
    "C92_stays_sparse",
    "C92_sign_partial",
    "C92_sign_refuted"
   ],
   "note": "Complex derivative, holomorphy and exactness are defined in Cx_Spec.v (value, gradient and Laplacian of both parts along real coordinates). C92_unary: any f twice complex differentiable on an open set; C92_functions: exp, inverse and integer powers are such. C92_abs: |f| away from 0 (Hermitian trace for the sparse layout, sum of squared moduli for the dense one). C92_components: real, imag, conj, neg. C92_convert: complex, floating (real part) and integer conversion. C92_add, C92_mul, C92_div, C92_complex: sparse/dense/plain operands with broadcasting, including slot merging of two-owner values. C92_stays_sparse: when owners survive. C92_densify: the layout does not change the numbers. Refuted: C92_sign_refuted - jax.lax.sign of a complex value is its phase z/|z|, which varies, but the rule returns it without derivatives (q + i at q = 0: true derivative 1, code 0); C92_sign_partial proves the real case. Branch cuts (log, sqrt) are covered by C92_unary on an open set without the cut, but no holomorphy lemma for them is proved."
  },
  {
   "property": "C93",
   "status": "partial",
   "theorems": [
    "C93_one_process",
    "C93_in_step_partial",
    "C93_only_master_saves",
    "C93_clock_refuted",
    "C93_signal_refuted",
    "C93_init",
    "C93_checkpoint_portable",
    "C93_density_partial",
    "C93_density_devices_refuted",
    "C93_density_more_devices_refuted",
    "C93_density_processes_refuted",
    "C93_writers",
    "C93_keys",
    "C93_keys_after_resume_refuted"
   ],
   "note": "Proved: one process always completes; processes complete and end alike if they see exit requests at the same step and judge elapsed times alike (or no save depends on the clock); files are written by process 0 only and are exactly the gathers; walkers, checkpoint portability, writers, keys. Refuted: each process decides on its own clock (time.time) whether to save and on its own signal flag whether to abort, so clocks one tick apart (C93_clock_refuted) or a signal seen one step apart (C93_signal_refuted) leave one process in a gather the others never enter; density estimator state is stored per device, so resuming on fewer devices counts samples several times, on more devices the checkpoint is refused, and with two or more processes saving it raises (C93_density_*_refuted); keys start over after a resume (C93_keys_after_resume_refuted)."
  },
  {
   "property": "C94",
   "status": "proved",
   "theorems": [
    "C94_cartesian",
    "C94_direction",
    "C94_disabled",
    "C94_no_direction",
    "C94_total",
    "C94_default_axes",
    "C94_sphere",
    "C94_sphere_sampled",
    "C94_marginal",
    "C94_sphere_total",
    "C94_sphere_measure"
   ],
   "note": "Exact arithmetic; counting over steps and devices reuses the histogram model of C27. A zero direction is shown to count nothing (C94_no_direction)."
  },
  {
   "property": "C95",
   "status": "proved",
   "theorems": [
    "C95_general",
    "C95_vjp",
    "C95_jacobian",
    "C95_mixed_inputs",
    "C95_elementwise",
    "C95_elementwise_real",
    "C95_mixed_strategies_differ"
   ],
   "note": "Proved by C95_general (general rule), C95_elementwise and C95_elementwise_real (elementwise rule), C95_vjp (transposition), C95_jacobian (jacrev and hessian entries). Boundary: C95_mixed_inputs and C95_mixed_strategies_differ (i r z with r real and z complex gets half of the second-order term from the Hessian strategy). jax.jvp is taken to be the exact directional derivative and jax.vjp to be its transpose in JAX's documented complex convention; second derivatives of complex differentiable functions are assumed independent of the order. Examples: C95_product, C95_square, C95_tracked, C95_square_laplacian."
  },
  {
   "property": "C96",
   "status": "proved",
   "theorems": [
    "C96_order",
    "C96_dry_run",
    "C96_file_must_be_a_mapping",
    "C96_connects_as_configured",
    "C96_first_process_checks",
    "C96_other_processes_do_not_check",
    "C96_dry_run_verdict",
    "C96_only_first_process_writes",
    "C96_settings_applied",
    "C96_dry_run_refuses_what_the_run_accepts"
   ],
   "note": "Effects are a trace of events; configuration reading is Config_Model, the file operations of prepare are Backup_Model. serde's conversion of values, the workflow's reads and settings and the YAML printer are arbitrary functions. jax.distributed.initialize is assumed to succeed and to set jax.process_index() to the given process_id. Not modelled: click's argument parsing, log text, what the JAX flags do. Finding (theorem C96_dry_run_refuses_what_the_run_accepts, C96_ex_saved_configuration): configure_runtime does not ask for the section distributed in a dry run, so finalize reports it as unused and --dry-run exits with an error for any configuration that sets distributed.*, including the config file saved by a successful run. Finding (C96_other_processes_do_not_check): only process 0 checks for unread keys, so with a misspelt key process 0 exits while the others enter the run."
  },
  {
   "property": "C97",
   "status": "proved",
   "theorems": [
    "C97_total_is_the_sum_of_the_terms",
    "C97_total_does_not_depend_on_the_order",
    "C97_components",
    "C97_missing_component",
    "C97_molecule_training",
    "C97_solid_training",
    "C97_hydrogen_training",
    "C97_hall_training",
    "C97_evaluation_without_energy",
    "C97_evaluation_energy",
    "C97_unknown_loss_key",
    "C97_estimators_run"
   ],
   "note": "One walker with scalar (complex) statistics; the values of the single terms are arbitrary inputs, their formulas being the subject of other properties. The matrix-valued one-body density matrix and the gradients are left out of the statistics. Configuration that replaces the fields of an estimator is not modelled, except the loss key."
  }
 ]
}