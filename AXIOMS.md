# What `Print Assumptions` lists for each claimed theorem

Generated by `tools/gen_axioms.py`.

## Closed under the global context

`C08_default_ids`, `C16_one_mode_raises`, `C24_columns_partition`, `C24_any_sequence`, `C24_cached_columns`, `C24_invert_involutive`, `C24_offset_column_refuted`, `C39_no_pml_partial`, `C48_small_matrices`, `C50_parse_partial`, `C50_degenerate_refuted`, `C55_correct_iff`, `C55_one_side_partial`, `C55_order_refuted`, `C55_two_modes_refuted`, `C64_fundamental_partial`, `C64_names_refuted`, `C64_higher_mode_refuted`, `C72_sweep_refuted`, `C73_place_3d_refuted`, `C73_place_3d_slices_refuted`, `C73_place_3d_slices_y_refuted`, `C73_place_3d_slices_z_refuted`, `C74_right_handed`, `C76_no_write_partial`, `C76_stale_refuted`, `C78_divisor_partial`, `C78_first_port_partial`, `C78_divisor_refuted`, `C81_alpha_above`, `C81_alpha_below`, `C81_alpha_off_board`, `C107_arguments_kept_partial`, `C108_getter_partial`, `C108_setter_refuted`, `C119_three_d_partial`, `C119_low_dimension_refuted`, `C124_value_error_partial`, `C125_shape_partial`, `C125_fill_axis_refuted`, `C126_other_partial`, `C126_scalar_partial`, `C126_shared_refuted`, `C150_int_partial`, `C150_open_partial`, `C150_slice_refuted`, `C150_numpy_refuted`, `C158_real_refuted`, `C158_no_inputs_refuted`, `C162_implicit_refuted`

## `ClassicalDedekindReals.sig_forall_dec`

`C10_tree`, `C11_chain`, `C18_butterfly`, `C19_bowtie_count`, `C19_bowtie_columns`, `C24_negative_column_dropped`, `C19_bowtie4_raises`, `C73_place_2d_partial`, `C82_rows_refuted`, `C102_parse_partial`, `C102_single_name_refuted`, `C104_fresh_meshes`, `C108_layer_refuted`, `C142_init`, `C173_never_returns_partial`, `C173_unchanged_refuted`

## `ClassicalDedekindReals.sig_forall_dec`, `FunctionalExtensionality.functional_extensionality_dep`

`C27_matrix_is_roll_partial`, `C27_matrix_is_bloch_difference`, `C27_bloch_refuted`, `C28_adjoint_matrix`, `C28_adjoint_roll`, `C28_nonuniform_refuted`, `C29_div_curl_roll`, `C29_div_curl_matrix`, `C29_div_curl_beta`, `C35_first_two_steps_partial`, `C35_constant_forcing`, `C35_memory_refuted`, `C36_round_trip_is_minus`, `C36_round_trip_refuted`, `C37_op3_is_mat_partial`, `C37_te_matrix`, `C37_tm_matrix_partial`, `C37_bloch_refuted`, `C38_factor_partial`, `C38_right_layer_refuted`, `C38_graded`, `C38_interior`, `C39_pml_preserved_iff`, `C39_fine_spacing_refuted`, `C40_average_in_range`, `C40_homogeneous`, `C40_numpy_jax`, `C40_total_preserved`, `C41_mask_exact`, `C41_set_eps_exact`, `C41_mask_fn_exact`, `C41_box_accuracy`, `C41_rounding`, `C41_shape`, `C41_fill_exact`, `C41_low_edge_dropped`, `C42_safe_partial`, `C42_idempotent`, `C42_crowded_refuted`, `C43_inside_accepted_partial`, `C43_rejected_exactly`, `C43_outside_accepted_refuted`, `C44_port_horizontal`, `C44_port_vertical`, `C44_port_other_raises`, `C44_port_half_turn`, `C45_align`, `C45_align_to_point`, `C45_halign`, `C45_valign`, `C45_translate_additive`, `C45_mask_exact`, `C47_linear`, `C47_separates`, `C47_mode_itself`, `C48_never_stale_partial`, `C48_solves_partial`, `C48_middle_change_refuted`, `C48_rejected_rhs_refuted`, `C48_free_refuted`, `C49_exact_change`, `C51_ortho_partial`, `C51_diag_partial`, `C51_symmetric_fixed`, `C51_even_refuted`, `C51_mixed_refuted`, `C52_mask_list`, `C52_mask_one`, `C52_design_region`, `C52_design_region_one`, `C56_solve3_maxwell`, `C56_solve_te_maxwell`, `C59_tm_homogeneous_partial`, `C59_ampere_partial`, `C59_tm_refuted`, `C60_reciprocity_3d`, `C60_reciprocity_te`, `C60_reciprocity_tm`, `C61_hermitian`, `C61_no_net_work`, `C62_fresh_partial`, `C62_frozen_refuted`, `C63_slab_partial`, `C63_slab_refuted`, `C65_axis2_partial`, `C65_other_axes_refuted`, `C66_te_backward`, `C66_te_linear`, `C67_maxwell_are_modes`, `C68_te_partial`, `C68_tm_uniform_partial`, `C68_tm_refuted`, `C69_tm_power_partial`, `C69_te_power_refuted`, `C74_view_power_partial`, `C74_view_power_refuted`, `C75_profile_y_partial`, `C75_profile_refuted`, `C75_profile_power`, `C77_to_2d_refuted`, `C77_to_2d_shape_refuted`, `C86_viz_required_refuted`, `C86_pbar_required_refuted`, `C86_returns_partial`, `C87_costs_and_params`, `C88_histories_partial`, `C88_eps_ahead_refuted`, `C89_interval_refuted`, `C90_no_sim_refuted`, `C90_shared_name_refuted`, `C90_no_source_refuted`, `C97_splitter_metrics`, `C106_phases`, `C109_equivalent_outputs`, `C111_modes_orthogonal_1d`, `C112_index_bound_1d`, `C113_uniform_partial`, `C113_crosstalk_refuted`, `C118_edges_partial`, `C118_centres_refuted`, `C120_pair_partial`, `C120_blocks_partial`, `C120_pixel_gap_partial`, `C120_gap_refuted`, `C120_zero_height_refuted`, `C121_position_independent`, `C121_repeat`, `C122_block_layers_partial`, `C122_pattern_layers_partial`, `C122_no_substrate_refuted`, `C123_dims_iff`, `C124_success_partial`, `C124_cells_partial`, `C124_atomic_2d_refuted`, `C124_atomic_3d_refuted`, `C136_fdfd`, `C148_default_wavelength_partial`, `C148_modes_ignored_refuted`, `C148_wavelength_refuted`, `C148_labels_refuted`, `C148_order_refuted`, `C149_across_partial`, `C149_own_axis_refuted`, `C153_plane_balance`, `C153_line_absorbs`, `C153_line_total`, `C153_line_regular`, `C154_poynting`, `C154_no_source`, `C164_equations`, `C164_maxwell`, `C164_real`, `C164_lossless_refuted`, `C166_reciprocity_3d`, `C166_reciprocity_te`, `C166_reciprocity_tm`, `C166_shift_3d`, `C166_shift_te`, `C166_mirror_3d`, `C166_mirror_te`, `C166_units_3d`, `C166_units_te`, `C167_other_sign_refuted`, `C169_change_3d`, `C169_change_te`, `C169_change_tm`, `C171_hermitian_1d`, `C171_hermitian_2d`, `C171_waveguide_refuted`, `C172_axes_partial`, `C172_flat_refuted`, `C172_no_width_refuted`, `C172_rejected`, `C172_one_flat`, `C174_exact_1d`, `C175_sparams_partial`, `C175_order_partial`, `C175_inverse_refuted`, `C175_formats_refuted`, `C175_mode_idx_refuted`, `C175_unlisted_refuted`, `C175_two_modes_refuted`, `C176_fdfd_3d_partial`, `C176_fdfd_te_partial`, `C176_fdfd_tm_partial`, `C176_mode_spectrum_partial`, `C176_cycle_fdfd_partial`

## `ClassicalDedekindReals.sig_forall_dec`, `ClassicalDedekindReals.sig_not_dec`, `FunctionalExtensionality.functional_extensionality_dep`

`C23_csinv_unitary`, `C23_csinv_blocks`, `C23_other_partitions_raise`, `C26_ideal_unitary_partial`, `C30_superposition`, `C30_zero_state_stays`, `C31_charge_conserved`, `C31_continuity`, `C32_energy_conserved`, `C32_energy_nonnegative`, `C32_no_exponential_growth`, `C32_bounded_above_vacuum`, `C32_bounded_in_vacuum_refuted`, `C33_backends_agree_without_source_partial`, `C33_source_cell`, `C33_same_source_refuted`, `C34_jax_keeps_state_partial`, `C34_numpy_overwrites`, `C34_numpy_sync_is_new_h`, `C34_jax_sync_is_mean`, `C34_numpy_state_kept_refuted`, `C46_guided_first_partial`, `C46_order_refuted`, `C49_derivative`, `C54_defined_partial`, `C54_lossy_refuted`, `C70_evolve_phase`, `C70_beat_period`, `C71_evolve_te_partial`, `C72_update_wavelength_partial`, `C77_to_2d_k0`, `C79_directional_partial`, `C79_matched`, `C80_common_mode_flow`, `C80_default_gamma_square`, `C80_default_gamma_refuted`, `C96_complex_refuted`, `C96_insertion_only`, `C97_te_ratio`, `C99_resume_partial`, `C99_resume_refuted`, `C100_weights_ignored`, `C100_weights_refuted`, `C101_measured_at_default`, `C101_wavelength_refuted`, `C101_default_partial`, `C101_fields`, `C102_run_returns`, `C114_finite_speed`, `C114_finite_speed_pml`, `C115_interior`, `C116_superposition`, `C116_rest`, `C116_backends`, `C133_free`, `C133_driven`, `C134_translation`, `C135_mirror_partial`, `C135_mirror_z_partial`, `C135_mirror_z_refuted`, `C136_fdtd`, `C137_dispersion`, `C138_3d`, `C138_te`, `C138_tm`, `C139_cw_run_is_fdfd`, `C139_resonance`, `C139_only_fdfd`, `C140_balance`, `C140_balance_run`, `C141_reciprocity`, `C141_dipoles`, `C141_jax_refuted`, `C142_first_step`, `C142_step_bound`, `C143_response`, `C143_every_profile`, `C143_all_pass`, `C143_energy`, `C143_many_raise_refuted`, `C143_many_square_refuted`, `C143_column_refuted`, `C149_yee_positions`, `C149_transverse_partial`, `C149_oblique_refuted`, `C160_rounding`, `C160_vacuum`, `C160_exact`, `C165_stability_3d`, `C165_stability_te`, `C165_stability_tm`, `C166_shift_tm`, `C166_units_tm`, `C169_gradient_3d`, `C169_gradient_te`, `C169_gradient_tm`, `C170_uniform`, `C171_default_1d`, `C171_near`, `C171_range_partial`, `C171_negative_refuted`, `C171_reported_partial`, `C171_count_refuted`, `C171_rejected`, `C174_response_1d`, `C174_group_index_1d`, `C174_monotone_1d`, `C176_fdtd_partial`, `C176_unique_partial`, `C176_cycle_fdtd_partial`, `C176_cycle_refuted`, `C177_index_partial`, `C177_derived`, `C177_evolve`, `C177_negative_refuted`, `C177_empty_refuted`, `C177_stale_refuted`, `C181_never_forgets`, `C181_cw_never_settles`, `C182_lock_in`, `C184_sources_add_up`, `C184_currents`, `C184_two_runs`, `C184_two_runs_vacuum`, `C184_cw_rate`

## `ClassicalDedekindReals.sig_forall_dec`, `Classical_Prop.classic`, `FunctionalExtensionality.functional_extensionality_dep`

`C153_line_solvable`, `C164_solvable_3d`, `C164_solvable_te`, `C164_solvable_tm`, `C167_same_sign_te`, `C167_same_sign_tm`, `C180_tm`

## `ClassicalDedekindReals.sig_forall_dec`, `ClassicalDedekindReals.sig_not_dec`, `Classical_Prop.classic`, `FunctionalExtensionality.functional_extensionality_dep`

`C01_node_unitary`, `C02_mesh_is_product_partial`, `C02_elements_partial`, `C02_right_loss_refuted`, `C03_power_conserved`, `C03_unitary`, `C03_total`, `C04_never_amplifies`, `C05_linear`, `C05_matrix`, `C06_reciprocal_partial`, `C06_scalar_error_partial`, `C06_differential_refuted`, `C06_unequal_errors_refuted`, `C07_jax_same`, `C08_own_errors_partial`, `C08_error_on_wrong_node_refuted`, `C09_implicit`, `C09_explicit_partial`, `C09_explicit_actual`, `C09_explicit_refuted`, `C09_explicit_raises`, `C12_vector_unit_partial`, `C12_differential_refuted`, `C12_symmetric_raises`, `C13_realises`, `C13_exact`, `C14_style_is_always_top`, `C14_phase_style_refuted`, `C15_structure`, `C15_named`, `C16_rectangular_geometry`, `C17_rectangular_realises_u`, `C20_split_clamped`, `C20_split_exact`, `C20_ideal`, `C21_null_top_partial`, `C21_null_bottom_partial`, `C21_symmetric_raises`, `C21_differential_refuted`, `C21_unequal_errors_refuted`, `C22_dirichlet`, `C22_dirichlet_embedded`, `C25_in_situ_gradient_partial`, `C25_in_situ_batch_partial`, `C25_digital_gradient_partial`, `C25_digital_batch_partial`, `C25_schemes_agree`, `C25_parameter_order_refuted`, `C25_bottom_style_refuted`, `C26_coupling_matrix_phase_refuted`, `C26_coupling_matrix_phase_partial`, `C26_coupling_matrix_phase_loss`, `C26_mmi_raises_refuted`, `C34_pml_memory_refuted`, `C36_mode_round_trip_refuted`, `C53_projection_range`, `C53_projection_fixes`, `C53_projection_monotone`, `C53_smooth_range`, `C53_smooth_monotone`, `C53_smooth_disk`, `C53_smooth_solid`, `C53_solid_border_eroded`, `C57_input_cotangent_refuted`, `C95_even_refuted`, `C67_modes_are_maxwell`, `C71_evolve_direction_refuted`, `C79_unidirectional_refuted`, `C81_random_theta_is_beta`, `C83_null_vectors`, `C83_no_cutoff`, `C83_differential_refuted`, `C84_error_correction_partial`, `C84_residual`, `C84_guard`, `C84_guard_refuted`, `C84_symmetric_raises`, `C85_round_trip_partial`, `C85_guard_refuted`, `C91_hessian_blocks_partial`, `C91_exact_without_guard_partial`, `C91_hessian_refuted`, `C91_exact_refuted`, `C92_hessian_fd_agrees`, `C92_exact_without_guard`, `C93_vector_unit_minimum`, `C93_exact_without_guard`, `C94_cs_roundtrip`, `C94_cs_factors`, `C94_block_diagonal_refuted`, `C95_bowtie2_partial`, `C95_crossing_refuted`, `C95_diagonal_refuted`, `C95_bowtie3_moduli`, `C95_bowtie3_refuted`, `C96_fidelity_optimum`, `C96_real_weights_partial`, `C98_pulse_partial`, `C98_width_refuted`, `C98_jump`, `C103_psvd`, `C103_row_raises`, `C104_composition`, `C104_two`, `C105_column_ordered_partial`, `C105_errors_refuted`, `C106_error_variance`, `C107_aggregate_refuted`, `C107_offset_refuted`, `C109_rectangular_layers`, `C109_tree_layers`, `C109_footprint`, `C109_no_gain`, `C110_elements_partial`, `C110_arguments_partial`, `C110_default_refuted`, `C111_modes_orthogonal`, `C111_evolve_power`, `C112_index_bound`, `C117_coefficients`, `C117_graded`, `C127_retrace_backward`, `C127_retrace_forward`, `C128_even_partial`, `C128_odd_refuted`, `C128_two_refuted`, `C129_whole_turns`, `C129_double_turns_symmetric`, `C129_double_turns_differential`, `C129_one_turn_negates`, `C129_one_turn_phi_negates`, `C130_phase_errors`, `C131_listing_order_partial`, `C131_listing_order_refuted`, `C132_independent_rails`, `C132_no_crosstalk`, `C132_untouched_rail`, `C137_real_frequency`, `C142_reports_cost`, `C142_differentiable`, `C142_corner`, `C142_gradient_at_match_refuted`, `C143_peak`, `C144_chain`, `C144_balanced_partial`, `C144_balanced_refuted`, `C144_split`, `C145_layer`, `C145_start`, `C145_losses`, `C145_isometry`, `C145_contracts`, `C145_noise`, `C145_fresh_noise_refuted`, `C146_no_noise`, `C146_unbiased`, `C146_digital_no_noise`, `C146_digital_unbiased`, `C147_pdf`, `C147_phase_partial`, `C147_density_refuted`, `C147_rand_theta`, `C151_io_noise`, `C152_step`, `C152_first`, `C155_nearest_partial`, `C155_grid_partial`, `C155_grid_near_partial`, `C155_slice_partial`, `C155_fill_partial`, `C155_fill_exact_partial`, `C155_fill_refuted`, `C155_shift_refuted`, `C155_pml_partial`, `C155_pml_refuted`, `C156_samples_partial`, `C156_hessian_refuted`, `C157_rounding`, `C157_complex128`, `C157_complex64`, `C157_exact`, `C158_propagate_partial`, `C158_complex_partial`, `C158_hessian_complex_partial`, `C158_hessian_real_refuted`, `C159_convergence`, `C159_second_order`, `C159_free`, `C160_total`, `C160_complex128`, `C160_constants`, `C160_binary64`, `C161_nullify_partial`, `C161_lower_refuted`, `C162_same_partial`, `C162_cutoff_forward`, `C162_cutoff_backward`, `C162_cutoff_refuted`, `C163_fabrication_errors`, `C163_uniform`, `C166_mirror_tm_refuted`, `C168_convergence_3d`, `C168_convergence_te`, `C170_hardware`, `C170_nulls`, `C170_limit`, `C171_default_2d`, `C174_exact`, `C174_response`, `C174_group_index`, `C174_group_velocity`, `C176_mode_fields_partial`, `C178_convergence_tm`, `C178_electric_tm_partial`, `C178_electric_tm_refuted`, `C179_te`, `C179_tm`, `C179_3d`, `C179_unique`, `C179_bounded`, `C179_resonance`, `C180_te`, `C180_3d`, `C182_above_band`, `C183_bounded_iff_solvable`, `C183_linear_growth`, `C183_solvable_iff_orthogonal`, `C185_finitely_many`, `C185_almost_every_frequency`
