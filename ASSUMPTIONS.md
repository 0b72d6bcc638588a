# Print Assumptions, theorem by theorem

Generated by tools/assumptions.py.

## Closed under the global context (282 theorems)

C01_restore_newest_partial (Ckpt_Props), C01_witness (Ckpt_Props), C01_restore_newest_refuted (Ckpt_Props), C02_round_trip (Ckpt_Props), C02_distinct_names (Ckpt_Props), C02_witness (Ckpt_Props), C02_slash_keys_refuted (Ckpt_Props), C02_reserved_name_refuted (Ckpt_Props), C03_torn_skipped_partial (Ckpt_Props), C03_all_torn_partial (Ckpt_Props), C03_witness (Ckpt_Props), C03_torn_refuted (Ckpt_Props), C04_strict_returns_stored (Ckpt_Props), C04_lenient (Ckpt_Props), C04_nothing_there (Ckpt_Props), C04_witness (Ckpt_Props), C05_prefix_isolation_iff (Ckpt_Props), C05_restore_ignores_other_stages (Ckpt_Props), C05_pretrain_train (Ckpt_Props), C05_isolation_refuted (Ckpt_Props), C06_each_step_once (Stage_Props), C06_normal_return_saved (Stage_Props), C06_witness (Stage_Props), C07_finished_idempotent (Stage_Props), C08_save_rule (Stage_Props), C08_resume_point (Stage_Props), C08_witness (Stage_Props), C09_resume_deterministic_partial (Stage_Props), C09_resume_refuted (Stage_Props), C10_nan_is_last (Stage_Props), C10_disabled_never_stops (Stage_Props), C10_imaginary_nan_refuted (Stage_Props), C10_witness (Stage_Props), C12_csv_aligned_partial (Stage_Props), C12_witness (Stage_Props), C12_torn_header_refuted (Stage_Props), C13_hdf5_aligned_partial (Stage_Props), C13_hdf5_aligned_with_kills (Stage_Props), C13_kill_loses_rows_refuted (Stage_Props), C14_eval_once_partial (Stage_Props), C14_kill_duplicates_refuted (Stage_Props), C13_C14_witness (Stage_Props), C13_kills_witness (Stage_Props), C11_later_signals_reach_the_original_handlers (Signal_Props), C11_first_signal_only_requests_exit (Signal_Props), C11_no_exit_without_signal (Signal_Props), C11_handler_never_fails (Signal_Props), C11_second_signal_during_handler_refuted (Signal_Props), C11_signal_during_construction_refuted (Signal_Props), C11_example (Signal_Props), C50_average_is_mean_after_warmup (Timer_Props), C50_negative_warmup_refused (Timer_Props), C50_example (Timer_Props), C16_merge_pathwise (Config_Props), C16_override_wins (Config_Props), C16_base_kept (Config_Props), C16_right_identity (Config_Props), C16_left_identity (Config_Props), C16_idempotent (Config_Props), C16_associative_without_conflict (Config_Props), C16_associative_refuted (Config_Props), C16_example (Config_Props), C18_override_is_set (Config_Props), C18_later_wins (Config_Props), C18_nothing_else_is_set (Config_Props), C18_unrelated_unchanged (Config_Props), C18_conflicting_override_raises (Config_Props), C18_example (Config_Props), C15_precedence (Config_Props), C15_command_line_wins (Config_Props), C17_report_is_exact (Config_Props), C17_stops_iff_unread (Config_Props), C17_unknown_field_raises (Config_Props), C56_resolved_records_value (Config_Props), C56_resolved_value_persists (Config_Props), C56_read_fails_only_on_conflict (Config_Props), C15_dataclass_field (Config_Props), C56_resolved_records_section (Config_Props), C15_masked_refuted (Config_Props), C17_empty_mapping_not_reported_refuted (Config_Props), C17_dotted_key_not_reported_refuted (Config_Props), C17_value_for_dataclass_ignored_refuted (Config_Props), C15_C17_example (Config_Props), C15_dataclass_example (Config_Props), C19_wire_sets_everything (Wiring_Props), C19_nothing_unset_after_wire (Wiring_Props), C19_wire_error_is_exact (Wiring_Props), C19_check_wired_own_fields (Wiring_Props), C19_check_wired_nested_refuted (Wiring_Props), C19_already_set_refuted (Wiring_Props), C19_example (Wiring_Props), C20_chunked_equals_vmap (Chunk_Props), C20_inconsistent_batch_raises (Chunk_Props), C20_chunk_size_zero_raises (Chunk_Props), C20_example (Chunk_Props), C54_subset_exact (Data_Props), C54_subset_raises_iff_unknown (Data_Props), C54_merge_exact (Data_Props), C54_merge_raises_iff_unknown (Data_Props), C54_merge_subset_identity (Data_Props), C54_check_exact (Data_Props), C54_check_unknown_name_refuted (Data_Props), C54_vmap_axis (Data_Props), C54_fully_batched (Data_Props), C54_example (Data_Props), C52_old_config_preserved (Backup_Props), C52_no_write (Backup_Props), C52_crash_safe (Backup_Props), C52_history_keeps_every_config (Backup_Props), C52_crash_same_config_refuted (Backup_Props), C52_even_split (Backup_Props), C52_example (Backup_Props), C55_parse_intended (Console_Props), C55_parse_lossless (Console_Props), C55_doc_examples (Console_Props), C55_key_with_digit_refuted (Console_Props), C55_format_without_digit_refuted (Console_Props), C55_printed_every_interval (Console_Props), C55_row_content (Console_Props), C55_missing_reported_once (Console_Props), C55_zero_interval_raises (Console_Props), C55_example (Console_Props), C51_only_comment_lines_added (Yaml_Props), C51_final_break_dropped (Yaml_Props), C51_comments_at_true_path (Yaml_Props), C51_example (Yaml_Props), C21_old_or_proposal (Sampler_Props), C21_cached_log_prob (Sampler_Props), C21_test_uses_current_position (Sampler_Props), C21_walkers_independent (Sampler_Props), C21_acceptance_rate (Sampler_Props), C21_step_returns_run (Sampler_Props), C21_zero_steps (Sampler_Props), C57_same_shape_difference_frozen (Sampler_Props), C57_independent_moves_refuted (Sampler_Props), C23_adaptation_rule (Sampler_Props), C23_width_positive (Sampler_Props), C23_width_is_power (Sampler_Props), C23_step_feeds_adaptation (Sampler_Props), C21_example (Sampler_Props), C23_example (Sampler_Props), C24_plan_step_is_sweep (Plan_Props), C24_undeclared_unchanged (Plan_Props), C24_every_update_kept (Plan_Props), C24_declaration (Plan_Props), C24_overlapping_fields_refuted (Plan_Props), C24_stats_of_all_samplers_refuted (Plan_Props), C24_example (Plan_Props), C30_unknown_method_raises (Clip_Props), C25_each_sees_all_before (Pipeline_Props), C25_evaluate_total (Pipeline_Props), C25_distinct_keys (Pipeline_Props), C25_finalised_by_owner (Pipeline_Props), C25_unshared_key (Pipeline_Props), C25_finalize_before_evaluate (Pipeline_Props), C25_finalize_after_evaluate (Pipeline_Props), C25_digest (Pipeline_Props), C25_example (Pipeline_Props), C25_shared_key_refuted (Pipeline_Props), C25_added_after_evaluate (Pipeline_Props), C31_assignment (Spins_Props), C31_atoms (Spins_Props), C31_terminates (Spins_Props), C31_raises_only_if_impossible (Spins_Props), C31_local_charge_sign_refuted (Spins_Props), C31_ions_refuted (Spins_Props), C31_example (Spins_Props), C32_tiles_partial (Supercell_Props), C32_nonpositive_column_refuted (Supercell_Props), C32_reflection_refuted (Supercell_Props), C33_symmetric_partial (Supercell_Props), C33_nonsymmetric_refuted (Supercell_Props), C33_missing_kpoints_refuted (Supercell_Props), C32_example (Supercell_Props), C33_example (Supercell_Props), C36_half_space (Ewald_Props), C40_results (Interp_Props), C40_liveness (Interp_Props), C40_limit_is_sharp (Interp_Props), C40_example (Interp_Props), C41_leaf_selection (Sr_Prune), C44_sound_partial (Active_Props), C44_pruned_partial (Active_Props), C44_straight (Active_Props), C44_scan_refuted (Active_Props), C44_while_refuted (Active_Props), C45_round (Branch_Vary), C46_metric (Roll_Props), C46_trace (Roll_Props), C46_files (Roll_Props), C46_rollback (Roll_Props), C46_promoted (Roll_Props), C46_restart (Roll_Props), C46_final (Roll_Props), C46_restart_unprotected (Roll_Props), C46_torn_refuted (Roll_Props), C47_nothing_removed (Clean_Props), C47_keeps_partial (Clean_Props), C47_repaired (Clean_Props), C47_removes_refuted (Clean_Props), C61_pad (Pad_Props), C61_padded (Pad_Props), C61_unpadded (Pad_Props), C62_sum (Pad_Props), C62_mean_partial (Pad_Props), C62_mean_refuted (Pad_Props), C62_devices_refuted (Pad_Props), C62_success (Pad_Props), C63_channel_count (Ecp_Props), C69_free_filling (Hall_Free), C77_atom_charge (Ph_Props), C79_charge (Sys_Props), C79_terms (Sys_Props), C79_walker (Sys_Props), C79_solid_walker (Sys_Props), C79_elements (Sys_Props), C80_formula (Cell_Props), C80_formula_only (Cell_Props), C80_formula_example (Cell_Props), C84_parameter_split (Kfac_Props), C84_fixed_scale (Kfac_Props), C84_fixed_scale_refuted (Kfac_Props), C84_patch_restored (Kfac_Curv), C84_patch_not_reentrant (Kfac_Curv), C85_constant (Kfac_Step), C86_notation (Mod_Props), C86_relative_first (Mod_Props), C86_mapping (Mod_Props), C86_direct (Mod_Props), C86_absent_is_empty (Mod_Props), C86_round_trip (Mod_Props), C86_switch_refuted (Mod_Props), C86_file_class_refuted (Mod_Props), C86_base_example (Mod_Props), C86_round_trip_example (Mod_Props), C86_optax_call (Mod_Props), C86_optax_refused (Mod_Props), C86_optax_order_refuted (Mod_Props), C86_optax_update (Mod_Props), C86_optax_example (Mod_Props), C87_partition (Loss_Props), C87_swap_cycle (Loss_Spin), C87_polarised_refuted (Loss_Spin), C87_kwargs (Loss_Over), C87_unknown_kwarg_refuted (Loss_Over), C88_while_untracked_start_refuted (Fl_Props), C88_registration (Fl_Custom_Props), C88_jit_keeps_first_trace (Fl_Custom_Props), C88_rule_used_inside_refuted (Fl_Custom_Props), C89_refused (Lpp_Route), C89_each_once (Lpp_Route), C89_each_once_refuted (Lpp_Route), C90_names (Rem_Names), C90_names_only (Rem_Names), C90_names_refuted (Rem_Names), C90_trace (Rem_Props), C90_files (Rem_Props), C90_newest (Rem_Props), C90_survives (Rem_Calm), C90_remote_copy_refuted (Rem_Cases), C90_failed_download_refuted (Rem_Cases), C90_leftover_refuted (Rem_Cases), C90_torn_local_refuted (Rem_Cases), C90_lazy_refuted (Rem_Cases), C90_paths (Rem_Cases), C90_survives_case (Rem_Cases), C91_take (Gather_Props), C91_split_covers (Gather_More), C93_one_process (Mh_Props), C93_in_step_partial (Mh_Props), C93_only_master_saves (Mh_Props), C93_clock_refuted (Mh_Props), C93_signal_refuted (Mh_Props), C93_init (Mh_Data), C93_checkpoint_portable (Mh_Data), C93_density_partial (Mh_Data), C93_density_devices_refuted (Mh_Data), C93_density_more_devices_refuted (Mh_Data), C93_density_processes_refuted (Mh_Data), C93_writers (Mh_Rest), C93_keys (Mh_Rest), C93_keys_after_resume_refuted (Mh_Rest)

## ClassicalDedekindReals.sig_forall_dec, ClassicalDedekindReals.sig_not_dec, Classical_Prop.classic, FunctionalExtensionality.functional_extensionality_dep (186 theorems)

C22_acceptance_is_metropolis (Balance_Props), C22_detailed_balance (Balance_Props), C22_detailed_balance_chain (Balance_Props), C22_density_stationary (Balance_Props), C22_weight_is_psi_squared (Balance_Props), C22_nan_walker_stuck (Balance_Props), C22_example (Balance_Props), C36_handedness_refuted (Ewald_Props), C38_hypotheses_met (Lap_Examples), C38_demo (Lap_Examples), C48_stable (Dmc_Props), C49_effective (Dmc_Iter), C49_effective_bounds (Dmc_Iter), C49_effective_ebye (Dmc_Iter), C49_rejected_partial (Dmc_Iter), C49_flag_off (Dmc_Iter), C49_rejected_refuted (Dmc_Iter), C49_period_refuted (Dmc_Iter), C49_always_updated (Dmc_Iter), C60_offset_schedule (Dmc_Iter), C60_offset_sign (Dmc_Iter), C60_offset_monotone (Dmc_Iter), C53_exact (Quad_Props), C53_integral_functional (Quad_Props), C53_identifiers (Quad_Props), C53_rule_shape (Quad_Props), C53_sharp (Quad_Props), C53_unbiased_refuted (Quad_Props), C53_nonvacuous (Quad_Props), C63_channel (Ecp_Props), C63_projector (Ecp_Props), C63_energy (Ecp_Props), C63_component_exists (Ecp_Props), C63_p_wave (Ecp_Props), C67_real_sum (Wf_Logdet), C67_real_scaled (Wf_Logdet), C67_all_zero_refuted (Wf_Logdet), C67_real_example (Wf_Logdet), C67_complex_sum (Wf_Logdet), C67_complex_all_zero_refuted (Wf_Logdet), C65_ferminet (Wf_Props), C65_psiformer (Wf_Props), C65_lapnet (Wf_Props), C65_solid (Wf_Props), C65_psi_changes_sign (Wf_Props), C65_coincidence_refuted (Wf_Props), C65_example (Wf_Props), C66_bloch (Bloch_Props), C66_workflow_partial (Bloch_Props), C66_crystal_momentum (Bloch_Props), C66_nonsymmetric_refuted (Bloch_Props), C66_ecp_partial (Bloch_Ecp), C68_cusp (Jastrow_Props), C68_psiformer_factor (Jastrow_Props), C68_lapnet_factor (Jastrow_Props), C68_example (Jastrow_Props), C69_laughlin_value (Hall_Props), C69_laughlin (Hall_Props), C69_laughlin_cf_refuted (Hall_Props), C69_laughlin_exchange (Hall_Props), C69_mhpo_exchange (Hall_Props), C69_mhpo_odd_refuted (Hall_Props), C69_mhpo_value (Hall_Props), C69_mhpo_turn (Hall_Props), C69_free_exchange (Hall_Free), C69_free_lowest (Hall_Free), C69_free_filled (Hall_Free), C69_example (Hall_Free), C71_kinetic_energy (Sph_Props), C72_angular_momentum (Sph_Props), C72_modes_agree (Sph_Props), C71_lowest_level (Sph_Level), C72_single_electron (Sph_Level), C72_single_orbital (Sph_Level), C72_laughlin_singlet (Sph_Level), C72_laughlin_zero (Sph_Level), C71_example (Sph_Level), C72_example (Sph_Level), C73_move (Sphere_Props), C73_move_angle (Sphere_Props), C73_move_back (Sphere_Props), C73_example (Sphere_Props), C74_orbital (Rdm_Props), C74_orbitals_complete (Rdm_Props), C74_filled (Rdm_Props), C74_filled_trace (Rdm_Props), C74_free (Rdm_Props), C74_rotation (Rdm_Props), C74_exchange (Rdm_Props), C74_free_symmetric (Rdm_Props), C74_example (Rdm_Props), C75_penalty (Penalty_Props), C75_definite (Penalty_Props), C75_laughlin (Penalty_Props), C75_example (Penalty_Props), C76_angle_exists (Pair_Props), C76_histogram (Pair_Props), C76_accumulates (Pair_Props), C76_devices_refuted (Pair_Props), C76_digest_refuted (Pair_Props), C77_nan_iff_not_elliptic (Ph_Props), C77_defined (Ph_Props), C77_backends_agree (Ph_Props), C77_local_energy_standard (Ph_Props), C77_example (Ph_Props), C78_local (Spin_Props), C78_eigenstate (Spin_Props), C78_polarised (Spin_Props), C78_node (Spin_Props), C78_restricted (Spin_Props), C78_two_electrons (Spin_Props), C78_example (Spin_Props), C81_proposal (Move_Props), C81_draw (Move_Props), C81_slater (Move_Props), C81_rate (Move_Props), C81_balance (Move_Props), C81_fixed_node (Move_Props), C81_outcome (Move_Props), C81_weight (Move_Props), C81_ebye_move (Move_Props), C81_ebye_balance (Move_Props), C81_ebye_sweep (Move_Props), C81_radial_refuted (Move_Props), C81_hydrogen_refuted (Move_Props), C81_reachable (Move_Props), C81_example (Move_Props), C82_atomic_orbitals (Gto_Props), C82_threshold (Gto_Props), C82_solid_harmonics (Gto_Props), C82_empty_contraction_refuted (Gto_Props), C82_slater (Hf_Props), C82_antisymmetric (Hf_Props), C82_pretrained_molecule (Hf_Props), C82_amplitude (Hf_Props), C82_image_order (Hf_Periodic), C82_bloch_sum (Hf_Periodic), C82_crystal_orbital_unique (Hf_Periodic), C82_orbital_columns (Hf_Periodic), C82_periodic_slater (Hf_Periodic), C82_one_electron (Hf_Periodic), C82_crystal_momentum (Hf_Periodic), C82_twist_partial (Hf_Periodic), C82_pretrained_solid (Hf_Periodic), C82_fractional_occupation (Hf_Periodic), C83_real (Kin_Props), C83_forward_dense (Kin_Props), C83_forward_sparse (Kin_Props), C83_zero_variance (Kin_Props), C83_log_abs_example (Kin_Props), C83_plane_wave (Kin_Props), C83_hydrogen (Kin_Hydrogen), C83_hydrogen_ground_state (Kin_Hydrogen), C83_hydrogen_only (Kin_Hydrogen), C84_vjp_example (Kfac_Curv), C85_schedule (Kfac_Step), C85_robbins_monro (Kfac_Step), C85_step (Kfac_Step), C85_step_example (Kfac_Step), C87_spin_square (Loss_Spin), C87_spin_example (Loss_Spin), C87_overlap (Loss_Over), C87_overlap_derivative (Loss_Over), C88_slogdet_of_complex_matrices (Fl_Slogdet), C88_slogdet_of_real_matrices (Fl_Slogdet), C88_slogdet_in_a_program (Fl_Props), C88_jit_by_name_refuted (Fl_Props), C89_kinetic (Lpp_Kin), C89_kinetic_example (Lpp_Kin), C89_dmc_energy (Lpp_Kin), C89_quadratures (Lpp_Ecp), C89_ecp (Lpp_Ecp), C89_pseudo_hamiltonian_nan (Lpp_Ph), C89_semilocal (Lpp_Props), C89_energy (Lpp_Props), C89_energy_ph (Lpp_Props), C89_channels_refused (Lpp_Cases), C89_custom_local (Lpp_Cases), C89_optim (Lpp_Cases), C89_p_wave_example (Lpp_Cases), C89_ph_example (Lpp_Cases), C89_optim_hph_refuted (Lpp_Cases), C91_pow (Gather_Pointwise), C91_pow_exact (Gather_Pointwise), C94_sphere_sampled (Axes_Sphere), C94_sphere_measure (Axes_Sphere)

## ClassicalDedekindReals.sig_forall_dec, FunctionalExtensionality.functional_extensionality_dep (183 theorems)

C26_batch_statistics (Est_Props), C26_layout_independent (Est_Props), C26_variance_nonnegative (Est_Props), C26_nan_layout_refuted (Est_Props), C26_nan_device_spoils (Est_Props), C26_reduced_keys (Est_Props), C26_example (Est_Props), C28_total_is_sum_of_all_components (Est_Props), C28_total_of_components (Est_Props), C30_quantile_splits (Clip_Props), C30_same_window_everywhere (Clip_Props), C30_whole_layout (Clip_Props), C30_documented_window (Clip_Props), C30_clipped_values (Clip_Props), C30_order_preserved (Clip_Props), C30_none_is_identity (Clip_Props), C30_window_layout_independent (Clip_Props), C30_example (Clip_Props), C29_layout_independent (Grad_Props), C29_gradient_exact (Grad_Props), C29_clipped_gradient (Grad_Props), C29_gradient_is_covariance_partial (Grad_Props), C29_complex_refuted (Grad_Props), C29_shift_invariant (Grad_Props), C29_imaginary_shift_refuted (Grad_Props), C29_example (Grad_Props), C27_bin_found (Hist_Props), C27_each_sample_once (Hist_Props), C27_cell_found (Hist_Props), C27_count_is_count (Hist_Props), C27_total_up_to_last_compensation (Hist_Props), C27_total_exact (Hist_Props), C27_interruption (Hist_Props), C27_layout_independent (Hist_Props), C27_example (Hist_Props), C34_moves_by_lattice_vector (Geom_Props), C34_lands_in_cell (Geom_Props), C34_cell_unique (Geom_Props), C34_translation_invariant (Geom_Props), C34_fixes_cell (Geom_Props), C34_idempotent (Geom_Props), C34_proposal_reversible (Geom_Props), C35_orthogonal_branch_dead (Geom_Props), C34_example (Geom_Props), C35_example (Geom_Props), C58_example (Periodic_Props), C37_columns (Density_Props), C37_symmetric_partial (Density_Props), C37_transposed_refuted (Density_Props), C37_example (Density_Props), C36_example (Ewald_Props), C38_from_any_inputs (Lap_Props), C38_forward_laplacian (Lap_Props), C38_gradient_is_unique (Lap_Props), C39_equation (Sparse_Props), C39_program (Sparse_Program), C39_seed (Sparse_Program), C39_sparse_laplacian (Sparse_Program), C39_concat_error_refuted (Sparse_Examples), C39_concat_owners_refuted (Sparse_Examples), C39_max_tie_refuted (Sparse_Examples), C39_abs_kink_refuted (Sparse_Examples), C41_hypotheses_met (Sr_Prune), C45_vary_weight (Branch_Vary), C45_vary_aligned (Branch_Vary), C45_vary_unbiased (Branch_Vary), C45_vary_merged (Branch_Vary), C45_vary_split (Branch_Vary), C45_vary_succeeds (Branch_Vary), C45_vary_crash_refuted (Branch_Vary), C45_fixed_size (Branch_Fixed), C45_fixed_aligned (Branch_Fixed), C45_fixed_weight_partial (Branch_Fixed), C45_fixed_unbiased_partial (Branch_Fixed), C45_fixed_low_merged_partial (Branch_Fixed), C45_fixed_high_split_partial (Branch_Fixed), C45_fixed_tie_refuted (Branch_Fixed), C45_fixed_edge_refuted (Branch_Fixed), C45_fixed_overlap_refuted (Branch_Fixed), C45_fixed_crash_refuted (Branch_Fixed), C48_positive (Dmc_Props), C49_outlier (Dmc_Iter), C60_average_scale (Dmc_Iter), C60_average_bounds (Dmc_Iter), C60_clip_bounds (Dmc_Iter), C60_average_example (Dmc_Iter), C63_nearest (Ecp_Props), C68_pairs (Jastrow_Props), C68_positive_bounded (Jastrow_Props), C68_negative_parameter_refuted (Jastrow_Props), C77_tables (Ph_Props), C77_reconstruct_exact (Ph_Props), C77_loaded (Ph_Props), C79_spins (Sys_Props), C79_accepts (Sys_Props), C79_starts (Sys_Props), C79_starts_table (Sys_Props), C79_custom_charge_refuted (Sys_Props), C79_example (Sys_Props), C82_basis_example (Gto_Props), C82_block_determinant (Hf_Props), C82_amplitude_range (Hf_Props), C82_occupied_restricted (Hf_Periodic), C82_occupied_unrestricted (Hf_Periodic), C82_filled_example (Hf_Periodic), C84_repeated_dense (Kfac_Props), C84_dense (Kfac_Props), C84_patterns_refuted (Kfac_Props), C84_layer (Kfac_Props), C84_layer_matrix (Kfac_Props), C84_layer_gradient (Kfac_Curv), C84_kronecker (Kfac_Curv), C84_kronecker_exact (Kfac_Curv), C84_moving_average (Kfac_Curv), C84_psd (Kfac_Curv), C84_scale_shift (Kfac_Curv), C84_scale_shift_gradient (Kfac_Curv), C84_generic (Kfac_Curv), C84_generic_refuted (Kfac_Curv), C84_dense_example (Kfac_Curv), C84_history_example (Kfac_Curv), C87_energy (Loss_Props), C87_independent (Loss_Props), C87_survivor (Loss_Props), C87_eigenstate_refuted (Loss_Props), C87_gradient (Loss_Props), C87_gradient_all (Loss_Props), C87_masked_gradient_refuted (Loss_Props), C87_clipped_gradient (Loss_Props), C87_nan_moves_window_refuted (Loss_Props), C87_uneven_devices_refuted (Loss_Props), C87_empty_device_refuted (Loss_Props), C87_example (Loss_Props), C87_percentile (Loss_Pen), C87_penalty_mask (Loss_Pen), C87_width_zero_refuted (Loss_Pen), C87_infinite_hides_outliers_refuted (Loss_Pen), C87_penalty_clip (Loss_Pen), C87_estimator_gradient (Loss_Pen), C87_estimator_covariance (Loss_Pen), C87_spin_at_zero (Loss_Pen), C87_overlap_targets (Loss_Over), C87_missing_weight_refuted (Loss_Over), C87_factory (Loss_Over), C87_loss_is_energy (Loss_Over), C87_sampling_example (Loss_Over), C88_real_imag_conj (Fl_Slogdet), C88_complex_from_parts (Fl_Slogdet), C88_straight_line (Fl_Props), C88_scan (Fl_Props), C88_while (Fl_Props), C88_dispatch (Fl_Props), C88_jit_is_transparent (Fl_Props), C88_scan_raises_iff (Fl_Props), C88_scan_reset_carry_refuted (Fl_Props), C88_init (Fl_Props), C88_custom_rule_under_vmap (Fl_Custom_Props), C88_custom_rule_under_nested_vmaps (Fl_Custom_Props), C88_custom_rule (Fl_Custom_Props), C89_legendre (Lpp_Ecp), C89_parse (Lpp_Ph), C89_parse_refuted (Lpp_Ph), C91_gather (Gather_Props), C91_gather_exact (Gather_Props), C91_reduce (Gather_Reduce), C91_reduce_value (Gather_Reduce), C91_reduce_exact (Gather_Reduce), C91_tie_unsound (Gather_Reduce), C91_split_exact (Gather_More), C91_round_value (Gather_Pointwise), C91_round (Gather_Pointwise), C91_rem_value (Gather_Pointwise), C91_rem (Gather_Pointwise), C91_rem_exact (Gather_Pointwise), C92_densify (Cx_Props), C92_components (Cx_Props), C92_convert (Cx_Props), C92_add (Cx_Binary), C92_mul (Cx_Binary), C92_complex (Cx_Binary), C95_product (Ad_Examples), C95_square (Ad_Examples), C95_tracked (Ad_Examples)

## ClassicalDedekindReals.sig_forall_dec (11 theorems)

C28_bad_component_raises (Est_Props), C28_example (Est_Props), C63_atoms (Ecp_Props), C77_reconstruct_s (Ph_Props), C82_weights_readback (Gto_Props), C87_step_not_counted_refuted (Loss_Spin), C88_missing_rule (Fl_Custom_Props), C89_spline_tables (Lpp_Ph), C89_routing (Lpp_Route), C91_gather_stays_sparse (Gather_Props), C91_split (Gather_More)

## ClassicalDedekindReals.sig_forall_dec, ClassicalDedekindReals.sig_not_dec, FunctionalExtensionality.functional_extensionality_dep (131 theorems)

C35_diagonal (Geom_Props), C35_nearby_partial (Geom_Props), C35_orthogonal_partial (Geom_Props), C35_far_refuted (Geom_Props), C35_skewed_refuted (Geom_Props), C58_simulation_translations (Periodic_Props), C58_primitive_translations (Periodic_Props), C59_real_valued (Periodic_Props), C59_nu_contact (Periodic_Props), C59_tri_contact_partial (Periodic_Props), C59_tri_hexagonal_refuted (Periodic_Props), C59_example (Periodic_Props), C36_reciprocal_sum (Ewald_Props), C36_reciprocal_pairs (Ewald_Props), C36_reciprocal_periodic (Ewald_Props), C36_energy_periodic_partial (Ewald_Props), C36_real_sum (Ewald_Props), C36_left_handed_refuted (Ewald_Props), C39_hypotheses_met (Sparse_Examples), C39_demo (Sparse_Examples), C42_gram (Sr_Props), C42_demo (Sr_Props), C41_robust (Sr_Props), C41_gamma_range (Sr_More), C41_standard (Sr_More), C41_modes (Sr_More), C41_descent (Sr_More), C41_history (Sr_More), C43_constrained (Sr_More), C43_step (Sr_More), C43_demo (Sr_More), C41_lift (Sr_Prune), C41_prune (Sr_Prune), C41_demo (Sr_Prune), C48_value (Dmc_Props), C48_bounds (Dmc_Props), C48_window (Dmc_Props), C48_empty_window (Dmc_Props), C48_one (Dmc_Props), C53_rotation_proper (Quad_Props), C64_cap_partial (Sr_Cond), C64_cap_ratio (Sr_Cond), C64_not_above (Sr_Cond), C64_nonneg (Sr_Cond), C64_cap_refuted (Sr_Cond), C64_nonvacuous (Sr_Cond), C63_radial (Ecp_Props), C63_ratio (Ecp_Props), C63_evaluated_in_cell (Ecp_Props), C63_component_unique (Ecp_Props), C63_refuses_high_l (Ecp_Props), C66_kpoints_partial (Bloch_Props), C66_example (Bloch_Props), C69_pair_factor (Hall_Props), C71_modes_agree (Sph_Props), C71_laughlin_level (Sph_Level), C73_potential (Sphere_Props), C76_uniform (Pair_Props), C70_value (Attn_Props), C70_rule (Attn_Props), C70_declines (Attn_Props), C70_owner_axis_refuted (Attn_Props), C70_example (Attn_Props), C77_local_energy_forward (Ph_Props), C77_operator_unique (Ph_Props), C77_exact_pass_exists (Ph_Props), C77_potential (Ph_Props), C77_local_part (Ph_Props), C77_local_part_loaded (Ph_Props), C80_lattice (Cell_Props), C80_refused (Cell_Props), C80_flat_refuted (Cell_Props), C80_rock_salt (Cell_Props), C80_chain (Cell_Props), C80_diatomic (Cell_Props), C80_alkane_formula (Cell_Props), C80_alkane_chain (Cell_Props), C80_alkane_hydrogens (Cell_Props), C80_alkane_starts (Cell_Props), C80_alkane_example (Cell_Props), C81_nearest (Move_Props), C81_clip (Move_Props), C81_drift (Move_Props), C81_weight_bound (Move_Props), C82_low_shells (Gto_Props), C82_loss_zero (Hf_Props), C82_loss_zero_blocks (Hf_Props), C82_pretrained_determinants (Hf_Props), C82_split_raises_refuted (Hf_Props), C82_split_refuted (Hf_Props), C83_complex (Kin_Props), C83_modes (Kin_Props), C83_hydrogen_init (Kin_Hydrogen), C84_vjp (Kfac_Curv), C84_vjp_refuted (Kfac_Curv), C85_counts (Kfac_Step), C87_energy_derivative (Loss_Pen), C87_spin_derivative (Loss_Pen), C87_side (Loss_Spin), C87_all_vanish_refuted (Loss_Spin), C87_plus_is_square (Loss_Spin), C87_ratio_mean (Loss_Over), C89_partitions (Lpp_Kin), C89_coulomb (Lpp_Kin), C89_pseudo_hamiltonian (Lpp_Ph), C89_effective_charge (Lpp_Cases), C89_channel_labels_refuted (Lpp_Cases), C92_unary (Cx_Props), C92_abs (Cx_Props), C92_functions (Cx_Holo), C92_div (Cx_Binary), C92_stays_sparse (Cx_Binary), C92_sign_partial (Cx_Cases), C92_sign_refuted (Cx_Cases), C94_cartesian (Axes_Props), C94_direction (Axes_Props), C94_disabled (Axes_Props), C94_no_direction (Axes_Props), C94_total (Axes_Props), C94_default_axes (Axes_Props), C94_sphere (Axes_Sphere), C94_marginal (Axes_Sphere), C94_sphere_total (Axes_Sphere), C95_general (Ad_Main), C95_vjp (Ad_Main), C95_jacobian (Ad_Cases), C95_mixed_inputs (Ad_Cases), C95_elementwise (Ad_Cases), C95_elementwise_real (Ad_Cases), C95_square_laplacian (Ad_Examples), C95_mixed_strategies_differ (Ad_Examples)
