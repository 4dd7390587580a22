"""Writes MANIFEST.json and rocq/_CoqProject's file list. Claims are kept here, in Python, one call per property."""
import json, os, re, glob
claims = []
def claim(p, status, theorems, note=""):
    claims.append(dict(property=p, status=status, theorems=theorems.split(), note=note))

claim("C01", "proved", "C01_node_unitary")
claim("C02", "partial", "C02_mesh_is_product_partial C02_elements_partial C02_right_loss_refuted",
      "Proved when the right coupler of each node is lossless; refuted otherwise: _parallel_mzi puts the right "
      "coupler's loss on the phi arm's input instead of on the top output.")
claim("C03", "proved", "C03_power_conserved C03_unitary C03_total")
claim("C04", "proved", "C04_never_amplifies")
claim("C05", "proved", "C05_linear C05_matrix")
claim("C06", "partial", "C06_reciprocal_partial C06_scalar_error_partial C06_differential_refuted C06_unequal_errors_refuted",
      "Proved for TOP, BOTTOM, SYMMETRIC with equal left/right errors; false of the code for DIFFERENTIAL and for unequal errors.")
claim("C07", "proved", "C07_jax_same")
claim("C09", "partial", "C09_implicit C09_explicit_partial C09_explicit_actual C09_explicit_refuted C09_explicit_raises",
      "Implicit propagation proved in full; explicit=True proved without errors and losses, refuted with errors, raises for SYMMETRIC/DIFFERENTIAL.")
claim("C26", "partial", "C26_ideal_unitary_partial C26_coupling_matrix_phase_refuted C26_coupling_matrix_phase_partial C26_coupling_matrix_phase_loss C26_mmi_raises_refuted",
      "ideal_node is unitary; coupling_matrix_phase is not and mmi_node_matrix raises on every node.")
claim("C08", "partial", "C08_own_errors_partial C08_default_ids C08_error_on_wrong_node_refuted",
      "Holds when ids are the list positions (the default); false for tree(4): add_error_mean stores arrays in list order but they are indexed by node id.")
claim("C10", "proved", "C10_tree")
claim("C11", "proved", "C11_chain")
claim("C20", "proved", "C20_split_clamped C20_split_exact C20_ideal")
claim("C21", "partial", "C21_null_top_partial C21_null_bottom_partial C21_symmetric_raises C21_differential_refuted C21_unequal_errors_refuted",
      "Proved for TOP and BOTTOM with equal splitter errors; false of the code for DIFFERENTIAL and for unequal errors.")
claim("C12", "partial", "C12_vector_unit_partial C12_differential_refuted C12_symmetric_raises",
      "Proved for TOP and BOTTOM; false of the code for DIFFERENTIAL; SYMMETRIC raises.")
claim("C13", "proved", "C13_realises C13_exact", "For the default TOP style; the code's np.spacing(1) regulariser appears as eps.")
claim("C14", "partial", "C14_style_is_always_top C14_phase_style_refuted", "False of the code: aggregate drops the phase style.")
claim("C15", "proved", "C15_structure C15_named")
claim('C18', 'proved', 'C18_butterfly', '')
claim('C19', 'proved', 'C19_bowtie_count C19_bowtie_columns', 'all n >= 2')
claim('C25', 'partial', 'C25_in_situ_gradient_partial C25_in_situ_batch_partial C25_digital_gradient_partial C25_digital_batch_partial C25_schemes_agree C25_parameter_order_refuted C25_bottom_style_refuted', 'Proved (vector and batch inputs, all_analog True and False) for TOP meshes with ideal couplers, gradients in column order; false of the code for parameter order = node id on tree(3) and for style BOTTOM.')
claim('C57', 'partial', 'C57_input_cotangent_refuted C25_in_situ_gradient_partial', 'False of the code: the returned vector is M^T g / |g| (last conjunct of the C25 theorem).')
claim('C58', 'partial', 'C19_bowtie4_raises C19_bowtie_columns C95_even_refuted', 'Exact: columns are enumerable for n = 2 and odd n; for every even n >= 4 a column is empty and ForwardMesh.columns raises.')
claim('C22', 'proved', 'C22_dirichlet C22_dirichlet_embedded', '')
claim('C23', 'proved', 'C23_csinv_unitary C23_csinv_blocks C23_other_partitions_raise', '')
claim('C24', 'partial', 'C24_columns_partition C24_any_sequence C24_cached_columns C24_invert_involutive C24_offset_column_refuted C24_negative_column_dropped', 'Proved for columns, offset and invert_columns, any call sequence; false of the code for offset_column (stale num_columns).')
claim('C27', 'partial', 'C27_matrix_is_roll_partial C27_matrix_is_bloch_difference C27_bloch_refuted', 'Agreement proved for bloch_phase=0, all shapes and complex pixel sizes; with any other Bloch phase diff_fn ignores it and the claim is refuted.')
claim('C28', 'proved', 'C28_adjoint_matrix C28_adjoint_roll C28_nonuniform_refuted', 'Matrices with Bloch phase and rolls; uniformity shown necessary.')
claim('C29', 'proved', 'C29_div_curl_roll C29_div_curl_matrix C29_div_curl_beta', 'All shapes and pixel sizes, Bloch included for matrices, plus the beta curl.')
claim('C30', 'proved', 'C30_superposition C30_zero_state_stays', 'Both backends, any source schedule, no PML.')
claim('C31', 'proved', 'C31_charge_conserved C31_continuity', 'Plus the continuity equation with sources (numpy).')
claim('C32', 'proved', 'C32_energy_conserved C32_energy_nonnegative C32_no_exponential_growth C32_bounded_above_vacuum C32_bounded_in_vacuum_refuted', 'Energy conserved, nonnegative at built-in dt, at most linear field growth (tight: dt is on the stability limit), bounded for eps>=kap>1.')
claim('C33', 'partial', 'C33_backends_agree_without_source_partial C33_source_cell C33_same_source_refuted', 'Refuted with sources: jax .set overwrites where numpy subtracts.')
claim('C34', 'partial', 'C34_jax_keeps_state_partial C34_numpy_overwrites C34_numpy_sync_is_new_h C34_jax_sync_is_mean C34_numpy_state_kept_refuted C34_pml_memory_refuted', 'Refuted for numpy (in-place +=); holds for jax without PML; with PML the memory lists of the given state are overwritten, so repeating a call gives another result (proved).')
claim('C35', 'partial', 'C35_first_two_steps_partial C35_constant_forcing C35_memory_refuted', 'The stored memory is only the last difference; documented recursion holds for two steps only.')
claim('C40', 'proved', 'C40_average_in_range C40_homogeneous C40_numpy_jax C40_total_preserved', '')
claim('C36', 'partial', 'C36_round_trip_is_minus C36_round_trip_refuted C36_mode_round_trip_refuted', 'Refuted as stated: for every source-free field h2e(e2h(e)) = -e (the sign in h2e contradicts its docstring); concrete two-cell counterexample.')
claim('C37', 'partial', 'C37_op3_is_mat_partial C37_te_matrix C37_tm_matrix_partial C37_bloch_refuted', 'TE: proved for all grids and Bloch phases. 3D: proved without Bloch phase (with any other, refuted: diff_fn ignores it). TM: proved without Bloch phase, positive permittivity and pixels with positive real part.')
claim('C38', 'partial', 'C38_factor_partial C38_right_layer_refuted C38_graded C38_interior', "Interior factors are 1 and layers graded, but 'exactly outside the PML' is false: the innermost cell n-t of the right layer has factor 1. Uniform cells, integer exponent.")
claim('C39', 'partial', 'C39_pml_preserved_iff C39_no_pml_partial C39_fine_spacing_refuted', 'Refuted: from_simgrid passes the pixel count where a length is expected; the exact set of spacings for which the thickness survives is proved (t/(t+1) < spacing <= 1).')
claim('C56', 'proved', 'C56_solve3_maxwell C56_solve_te_maxwell', 'For any exact linear solve, PML included, Bloch phase 0; the TM branch is C59.')
claim('C59', 'partial', 'C59_tm_homogeneous_partial C59_ampere_partial C59_tm_refuted', 'Proved for homogeneous permittivity on a uniform grid; refuted for varying permittivity (mat_hz has D_b and D_f exchanged).')
claim('C60', 'proved', 'C60_reciprocity_3d C60_reciprocity_te C60_reciprocity_tm', 'Bloch phase 0; arbitrary complex nonzero pixels (PML).')
claim('C61', 'proved', 'C61_hermitian C61_no_net_work', '')
claim('C41', 'proved', 'C41_mask_exact C41_set_eps_exact C41_mask_fn_exact C41_box_accuracy C41_rounding C41_shape C41_fill_exact C41_low_edge_dropped', "In-bounds boxes. C41_low_edge_dropped records what happens outside the property's hypothesis.")
claim('C42', 'partial', 'C42_safe_partial C42_idempotent C42_crowded_refuted', 'Safe whenever both margins fit; refuted for grids the constructor accepts in which they do not.')
claim('C43', 'partial', 'C43_inside_accepted_partial C43_rejected_exactly C43_outside_accepted_refuted', 'Operator-precedence bug: only patterns sticking out on the low-x side alone are rejected.')
claim('C44', 'proved', 'C44_port_horizontal C44_port_vertical C44_port_other_raises C44_port_half_turn', '')
claim('C45', 'proved', 'C45_align C45_align_to_point C45_halign C45_valign C45_translate_additive C45_mask_exact', '')
claim('C62', 'partial', 'C62_fresh_partial C62_frozen_refuted', 'lru_cache: true only before the first read.')
claim('C63', 'partial', 'C63_slab_partial C63_slab_refuted', 'Right for equal spacings; spacing[0], spacing[1] are used along z.')
claim('C51', 'partial', 'C51_ortho_partial C51_diag_partial C51_symmetric_fixed C51_even_refuted C51_mixed_refuted', 'Refuted for even lengths without averaging and for one ortho flag combined with a diagonal one.')
claim('C52', 'proved', 'C52_mask_list C52_mask_one C52_design_region C52_design_region_one', 'np.float in the list branch is an AttributeError on numpy >= 1.24: the model is of older numpy.')
claim('C53', 'proved', 'C53_projection_range C53_projection_fixes C53_projection_monotone C53_smooth_range C53_smooth_monotone C53_smooth_disk C53_smooth_solid C53_solid_border_eroded', '')
claim('C46', 'partial', 'C46_guided_first_partial C46_order_refuted', "Correct exactly when the positive eigenvalues come first in the eigensolver's order; IndexError otherwise.")
claim('C48', 'partial', 'C48_never_stale_partial C48_solves_partial C48_small_matrices C48_middle_change_refuted C48_rejected_rhs_refuted C48_free_refuted', 'Cache key is hash(str(mat)), and str elides the middle of matrices with more than 50 entries.')
claim('C50', 'partial', 'C50_parse_partial C50_degenerate_refuted', 'All documented values except the empty list, a list of one bare name and an empty index list, which raise.')
claim('C55', 'partial', 'C55_correct_iff C55_one_side_partial C55_order_refuted C55_two_modes_refuted', 'Depends on the iteration order of a Python set (string hashing is randomised).')
claim('C64', 'partial', 'C64_fundamental_partial C64_names_refuted C64_higher_mode_refuted', 'Only fundamental modes given as (port, 0).')
claim('C47', 'proved', 'C47_linear C47_separates C47_mode_itself', '')
claim('C49', 'proved', 'C49_exact_change C49_derivative', 'The solver is abstract: any exact solution.')
claim('C54', 'partial', 'C54_defined_partial C54_lossy_refuted', 'Holds when uhat carries at least the power of a unitary; NaN for every lossy copy of u.')
claim('C65', 'partial', 'C65_axis2_partial C65_other_axes_refuted', 'Only axis 2; the others raise IndexError (numpy).')
claim('C66', 'proved', 'C66_te_backward C66_te_linear', '')
claim('C67', 'proved', 'C67_modes_are_maxwell C67_maxwell_are_modes', '2-D modes: every eigenpair with real beta gives Maxwell fields travelling as exp(-i beta z), and conversely. The eigensolver itself (eigs) is outside the model: the theorems quantify over its possible results.')
claim('C68', 'partial', 'C68_te_partial C68_tm_uniform_partial C68_tm_refuted', "TE proved. TM holds in a uniform medium only: solve uses the TE operator for both, and the reported TM fields of a waveguide violate Faraday's law (C68_tm_refuted).")
claim('C69', 'partial', 'C69_tm_power_partial C69_te_power_refuted', 'TM: nonnegative. TE: the reported power of a guided mode is never positive (fields follow the opposite time convention).')
claim('C70', 'proved', 'C70_evolve_phase C70_beat_period', '')
claim('C71', 'partial', 'C71_evolve_te_partial C71_evolve_direction_refuted', '1-D TE modes: right direction. 2-D modes solve Maxwell with exp(-i beta z) while evolve uses exp(+i beta z).')
claim('C72', 'partial', 'C72_sweep_refuted C72_update_wavelength_partial', 'dispersion_sweep passes the wavelength as beta_guess: every solution is for the same wavelength; the default pbar=range raises. update_wavelength is right.')
claim('C73', 'partial', 'C73_place_2d_partial C73_place_3d_refuted C73_place_3d_slices_refuted C73_place_3d_slices_y_refuted C73_place_3d_slices_z_refuted', '2-D simulations proved for regions inside the grid; in 3-D place raises for every plane (the component axis is indexed by the region).')
claim('C74', 'partial', 'C74_view_power_partial C74_view_power_refuted C74_right_handed', 'x and z proved; along y the view is left-handed and the power changes sign.')
claim('C75', 'partial', 'C75_profile_y_partial C75_profile_refuted C75_profile_power', 'y proved; x and z flip one component.')
claim('C76', 'partial', 'C76_no_write_partial C76_stale_refuted', 'lru_cache keyed without eps: stale after any edit. The 128-entry bound of the cache is not modelled.')
claim('C77', 'partial', 'C77_to_2d_refuted C77_to_2d_shape_refuted C77_to_2d_k0', 'to_2d raises for every 3-D grid; the formula uses k0 = 2 pi wavelength.')
claim('C78', 'partial', 'C78_divisor_partial C78_first_port_partial C78_divisor_refuted', "Right with the default measure_info; wrong when measure_info is in another order than the grid's ports.")
claim('C79', 'partial', 'C79_directional_partial C79_unidirectional_refuted C79_matched', 'In a uniform single-mode lattice waveguide: strictly more power forward than backward, never exactly none backward. Uniform cross section, outgoing waves assumed.')
claim('C16', 'proved', 'C16_rectangular_geometry C16_one_mode_raises', 'n(n-1)/2 nodes, checkerboard positions each exactly once, ids 0.. in list order, well-formed mesh, for every n >= 2 and any u; for n = 2 num_columns is 1; n = 1 raises')
claim('C17', 'proved', 'C17_rectangular_realises_u', 'exact equality of the mesh matrix and u for every n >= 2 and every unitary u, over exact arithmetic')
claim('C80', 'partial', 'C80_common_mode_flow C80_default_gamma_square C80_default_gamma_refuted', 'true with gamma given; without gamma it raises whenever units differ from layers (the default has one entry per layer)')
claim('C81', 'proved', 'C81_alpha_above C81_alpha_below C81_alpha_off_board C81_random_theta_is_beta', 'all diagonals, all n')
claim('C82', 'partial', 'C82_rows_refuted', 'false: rectangular_rows raises for every n >= 3 because the odd rows leave columns empty; holds for n = 2')
claim('C84', 'partial', 'C84_error_correction_partial C84_residual C84_guard C84_guard_refuted C84_symmetric_raises', 'exact correction with the np.spacing(1) guard neglected (eps = 0); with the guard kept: at most eps residual power per column (C84_residual), first-column split ratios divided by 1 + eps (C84_guard), so not exact (C84_guard_refuted); equal left/right errors; hardware style TOP or BOTTOM (SYMMETRIC raises, DIFFERENTIAL is wrong already for one node: C21).')
claim('C85', 'partial', 'C85_round_trip_partial C85_guard_refuted', 'np.spacing(1) guard neglected (eps = 0), with it the phases are not restored exactly (C85_guard_refuted); otherwise for every mesh, setting and start.')
claim('C83', 'proved', 'C83_null_vectors C83_no_cutoff C83_differential_refuted', 'Also shown: the DIFFERENTIAL exclusion is necessary.')
claim('C86', 'partial', 'C86_viz_required_refuted C86_pbar_required_refuted C86_returns_partial', 'Property false: viz=None always raises (viz.metric_config) and pbar=None raises on the first iteration (range has no set_description). With both given a run is proved to return for distinct simulations with sources, metrics off or every iteration.')
claim('C87', 'proved', 'C87_costs_and_params', 'For an arbitrary optimiser. The docstring says sum of the objectives; the code reports and differentiates the mean.')
claim('C88', 'partial', 'C88_histories_partial C88_eps_ahead_refuted', 'Series proved exactly; the permittivity labelled i is that of the parameters after update i while field and metrics are those before it, so the alignment claim is refuted.')
claim('C89', 'partial', 'C89_interval_refuted', 'False: for every metric_interval >= 2 and at least 2 iterations the run raises (iteration coordinate has the wrong length). C86_returns_partial covers metric_interval = 1.')
claim('C90', 'partial', 'C90_no_sim_refuted C90_shared_name_refuted C90_no_source_refuted', 'False: a problem without sim always raises; shared names raise with opt_viz; a problem without source shifts the pairing of simulations and results.')
claim('C91', 'partial', 'C91_hessian_blocks_partial C91_exact_without_guard_partial C91_hessian_refuted C91_exact_refuted', 'For every division guard eps >= 0: diagonal blocks are the second partials (exactly without the guard), matrix symmetric, off-diagonal blocks are the transposes of the true ones (refuted for every n >= 3 and vectors without zeros, also with the guard). Ideal couplers, as the function uses.')
claim('C92', 'proved', 'C92_hessian_fd_agrees C92_exact_without_guard', 'For every step and every division guard eps >= 0.')
claim('C93', 'proved', 'C93_vector_unit_minimum C93_exact_without_guard', 'For every division guard eps >= 0; default style TOP and ideal couplers are what the functions use.')
claim('C94', 'partial', 'C94_cs_roundtrip C94_cs_factors C94_block_diagonal_refuted', 'Exact characterisation: the round trip holds iff the lower-left block is injective; false e.g. for the identity.')
claim('C95', 'partial', 'C95_bowtie2_partial C95_crossing_refuted C95_diagonal_refuted C95_bowtie3_moduli C95_bowtie3_refuted C95_even_refuted', 'False: exact for n = 2, 3 and even n >= 4; the general odd n >= 5 is not done.')
claim('C96', 'partial', 'C96_fidelity_optimum C96_real_weights_partial C96_complex_refuted C96_insertion_only', 'Bounds and uniqueness proved for all outputs; the optimum is the conjugate of the requested amplitudes, so the claim holds for real weights and is refuted for complex ones.')
claim('C97', 'proved', 'C97_splitter_metrics C97_te_ratio', '')
claim('C98', 'partial', 'C98_pulse_partial C98_width_refuted C98_jump', 'All clauses but the width, which is refuted: it goes like sqrt(pulse_width).')
claim('C99', 'partial', 'C99_resume_partial C99_resume_refuted', 'Holds when the first part is a whole number of periods; otherwise refuted, the phase restarts.')
claim('C100', 'partial', 'C100_weights_ignored C100_weights_refuted', 'Refuted: the run is independent of the weights.')
claim('C101', 'partial', 'C101_measured_at_default C101_wavelength_refuted C101_default_partial C101_fields', 'The fluxes are the right measurements at 1.55 (jax backend); at every other wavelength still measured at 1.55.')
claim('C102', 'partial', 'C102_parse_partial C102_single_name_refuted C102_run_returns', 'All documented formats except a list of one bare name, which raises.')
claim('C103', 'proved', 'C103_psvd C103_row_raises', 'A single row or column raises (outside the quantifier).')
claim('C104', 'proved', 'C104_composition C104_two C104_fresh_meshes', 'Other styles: aggregate drops the style (C14).')
claim('C105', 'partial', 'C105_column_ordered_partial C105_errors_refuted', 'Same matrix for style TOP and uniform errors; refuted for per-node errors.')
claim('C106', 'proved', 'C106_error_variance C106_phases', '')
claim('C107', 'partial', 'C107_arguments_kept_partial C107_aggregate_refuted C107_offset_refuted', 'Refuted for single-node meshes and for offset.')
claim('C108', 'partial', 'C108_getter_partial C108_setter_refuted C108_layer_refuted', 'Getter copies; setter and in-situ layer refuted.')
claim('C109', 'proved', 'C109_rectangular_layers C109_tree_layers C109_footprint C109_equivalent_outputs C109_no_gain', '')
claim('C110', 'partial', 'C110_elements_partial C110_arguments_partial C110_default_refuted', 'Refuted for the default phis.')
claim('C111', 'proved', 'C111_modes_orthogonal C111_modes_orthogonal_1d C111_evolve_power', 'Every eigenpair of the modelled operator; the eigensolver itself is not modelled.')
claim('C112', 'proved', 'C112_index_bound C112_index_bound_1d', '')
claim('C113', 'partial', 'C113_uniform_partial C113_crosstalk_refuted', 'Refuted in waveguides for both polarisations (averaged fields, 1/eps weight); proved in uniform media.')
claim('C114', 'proved', 'C114_finite_speed C114_finite_speed_pml', '')
claim('C115', 'proved', 'C115_interior', '')
claim('C116', 'proved', 'C116_superposition C116_rest C116_backends', '')
claim('C117', 'proved', 'C117_coefficients C117_graded', 'integer grading exponent')
claim('C118', 'partial', 'C118_edges_partial C118_centres_refuted', 'False at the cell centres: the upper layer is weaker at every cell, its innermost cell absorbs nothing.')
claim('C119', 'partial', 'C119_three_d_partial C119_low_dimension_refuted', 'False in 1-D and 2-D: _set_pml reads pml_shape[2].')
claim('C120', 'partial', 'C120_pair_partial C120_blocks_partial C120_pixel_gap_partial C120_gap_refuted C120_zero_height_refuted', 'Exact geometry of the boxes; drawn gap within one pixel. The pixel-exact gap is false (proved).')
claim('C121', 'proved', 'C121_position_independent C121_repeat', '')
claim('C122', 'partial', 'C122_block_layers_partial C122_pattern_layers_partial C122_no_substrate_refuted', 'Exact for a positive substrate; false for the default 0.')
claim('C123', 'proved', 'C123_dims_iff', '')
claim('C124', 'partial', 'C124_value_error_partial C124_success_partial C124_cells_partial C124_atomic_2d_refuted C124_atomic_3d_refuted', 'False when zmin/thickness are left at None.')
claim('C125', 'partial', 'C125_shape_partial C125_fill_axis_refuted', 'Exact characterisation; false with an axis of one cell.')
claim('C126', 'partial', 'C126_other_partial C126_scalar_partial C126_shared_refuted', 'True of distinct buffers; false of grids built from one array.')
claim('C127', 'proved', 'C127_retrace_backward C127_retrace_forward', 'Lossless meshes of style TOP or BOTTOM (explicit propagation raises for the other styles), any splitting errors.')
claim('C128', 'partial', 'C128_even_partial C128_odd_refuted C128_two_refuted', 'True for even n >= 4; false for odd n (entries missing) and n = 2 (IndexError).')
claim('C129', 'proved', 'C129_whole_turns C129_double_turns_symmetric C129_double_turns_differential C129_one_turn_negates C129_one_turn_phi_negates', 'Periods per style, with sharpness.')
claim('C130', 'proved', 'C130_phase_errors', 'Sum over columns of the largest phase movement.')
claim('C131', 'partial', 'C131_listing_order_partial C131_listing_order_refuted', 'Proved for nodes with the same errors and losses; false otherwise: bs_errors and losses are indexed by list position, not by node_id.')
claim('C132', 'proved', 'C132_independent_rails C132_no_crosstalk C132_untouched_rail', '')
claim('C133', 'proved', 'C133_free C133_driven', 'Both backends without sources, numpy with electric sources (jax sets instead of adding, C33).')
claim('C134', 'proved', 'C134_translation', 'Periodic grid without PML; all sources, both backends.')
claim('C135', 'partial', 'C135_mirror_partial C135_mirror_z_partial C135_mirror_z_refuted', 'Along x and y for every permittivity; along z only when eps does not depend on z: yee_avg does not average eps along z for Ex and Ey, and the mirrored run differs (refuted).')
claim('C136', 'proved', 'C136_fdtd C136_fdfd', 'FDTD without PML; FDFD matrices for any (also stretched) pixels.')
claim('C137', 'proved', 'C137_dispersion C137_real_frequency', 'Existence of H given E and w; the frequency is real when eps >= 1.')
claim('C138', 'proved', 'C138_3d C138_te C138_tm', 'Axes with one cell must have no Bloch phase (deriv drops it).')
claim('C139', 'proved', 'C139_cw_run_is_fdfd C139_resonance C139_only_fdfd', 'FDTD without PML, no Bloch phase; the FDFD solve is assumed exact for the given source (exact3, shown to be met by every field for some source).')
claim('C140', 'proved', 'C140_balance C140_balance_run', "NumPy stepping without PML (jax sources overwrite the field, C33). Without sources this is C32's conservation law.")
claim('C141', 'proved', 'C141_reciprocity C141_dipoles C141_jax_refuted', 'NumPy stepping without PML; the jax backend is refuted by a three-cell example.')
claim('C142', 'partial', 'C142_init C142_reports_cost C142_differentiable C142_first_step C142_step_bound C142_corner C142_gradient_at_match_refuted', 'Everything but the existence of the gradient at a perfect match, which is refuted: the error has a corner there. jax.value_and_grad is a parameter of the model; adam as documented by jax.example_libraries (defaults).')
claim('C143', 'partial', 'C143_response C143_every_profile C143_all_pass C143_peak C143_energy C143_many_raise_refuted C143_many_square_refuted C143_column_refuted', 'One profile: proved. Several profiles (T, M): refuted, numpy broadcasts the pulse spectrum along the wrong axis.')
claim('C144', 'partial', 'C144_chain C144_balanced_partial C144_balanced_refuted C144_split', "Chain: proved. Balanced tree: proved when every node draws with its own counts; the code's list-order draws are refuted for five outputs. betaincinv and the uniform generator are parameters (range [0,1] and mean beta/(alpha+beta) assumed).")
claim('C145', 'partial', 'C145_layer C145_start C145_losses C145_isometry C145_contracts C145_noise C145_fresh_noise_refuted', 'Everything but fresh noise under jit, which is refuted (np.random is called at trace time).')
claim('C146', 'proved', 'C146_no_noise C146_unbiased C146_digital_no_noise C146_digital_unbiased', 'both values of all_analog; io noise 0.')
claim('C147', 'partial', 'C147_pdf C147_phase_partial C147_density_refuted C147_rand_theta', 'beta_phase is the density up to a factor 1/pi (refuted as a density).')
claim('C148', 'partial', 'C148_default_wavelength_partial C148_modes_ignored_refuted C148_wavelength_refuted C148_labels_refuted C148_order_refuted', "true at 1.55 um with factor 3 and the device's port order; the simulation wavelength never reaches source and measurement (default 1.55), the measurement ignores profile_size_factor, default or partial port labels raise, labels are positional")
claim('C149', 'partial', 'C149_yee_positions C149_across_partial C149_own_axis_refuted C149_transverse_partial C149_oblique_refuted', 'labels are right across each component and half a cell off along it: one coordinate set is shared by the three components')
claim('C150', 'partial', 'C150_int_partial C150_open_partial C150_slice_refuted C150_numpy_refuted', 'ints and open slices work; a slice with integer ends raises TypeError (slice += slice); numpy integers are not moved')
claim('C151', 'proved', 'C151_io_noise', 'style TOP or BOTTOM (the explicit propagation supports no other); the two averages are iterated (draws independent)')
claim('C152', 'proved', 'C152_step C152_first', 'layers as the constructor admits them in 3-D (more than 3 cells, less than half the axis); sources of the observed step are empty (they are added afterwards, C30)')
claim('C153', 'proved', 'C153_plane_balance C153_line_absorbs C153_line_total C153_line_regular C153_line_solvable', "power is minus Re(E x H*): the solver's h goes with exp(-i w t) while its layers absorb exp(-i k x); absorption and non-singularity for lines, the balance for any grid with layers across one axis; bloch phases 1")
claim('C154', 'proved', 'C154_poynting C154_no_source', '3-D solve with bloch phases 1, boxes not reaching the last cell of an axis; exact linear solve assumed (C56)')
claim('C155', 'partial', 'C155_nearest_partial C155_grid_partial C155_grid_near_partial C155_slice_partial C155_fill_partial C155_fill_exact_partial C155_fill_refuted C155_shift_refuted C155_pml_partial C155_pml_refuted', "true of the grid's shape and of slice/mask/set_eps, which round; false of fill, add and Box, which truncate: with spacing 0.1, fill(0.3) fills two cells. Uses Flocq (no axioms beyond the standard library's)")
claim('C156', 'partial', 'C156_samples_partial C156_hessian_refuted', 'each sample is only the first row of the Hessian: the [0] indexes the array')
claim('C157', 'proved', 'C157_rounding C157_complex128 C157_complex64 C157_exact', 'overflow is not modelled; the accuracy e of sin, cos and exp is a parameter')
claim('C158', 'partial', 'C158_propagate_partial C158_complex_partial C158_hessian_complex_partial C158_real_refuted C158_hessian_real_refuted C158_no_inputs_refuted', 'inputs += 0j raises for real arrays; propagate() passes None on')
claim('C159', 'proved', 'C159_convergence C159_second_order C159_free', 'periodic boundaries without PML; exact arithmetic; numpy backend when there are sources (jax overwrites, see C33); the permittivity is the one the grid averages at each E sample')
claim('C160', 'proved', 'C160_rounding C160_vacuum C160_total C160_complex128 C160_constants C160_binary64 C160_exact', 'numpy backend, periodic boundaries without PML, at most one source per step, no overflow')
claim('C161', 'partial', 'C161_nullify_partial C161_lower_refuted', 'with lower_theta or lower_phi the returned vector and matrix are not nulled (the matrix keeps the phases in the upper arms): the power left is computed exactly; only the returned phases are right, in the lower arms')
claim('C162', 'partial', 'C162_same_partial C162_cutoff_forward C162_cutoff_backward C162_cutoff_refuted C162_implicit_refuted', 'true with explicit=True and no cut-off; with a cut-off (documented as ignored) all columns are propagated but the gammas are left out; explicit=False raises TypeError for every mesh')
claim('C163', 'proved', 'C163_fabrication_errors C163_uniform', '')
claim('C164', 'proved', 'C164_equations C164_maxwell C164_solvable_3d C164_solvable_te C164_solvable_tm C164_real C164_lossless_refuted', 'the lossless counterexample shows the absorption hypothesis is needed; it is part of the statement')
claim('C165', 'proved', 'C165_stability_3d C165_stability_te C165_stability_tm', 'as stated')
claim('C166', 'partial', 'C166_reciprocity_3d C166_reciprocity_te C166_reciprocity_tm C166_shift_3d C166_shift_te C166_shift_tm C166_mirror_3d C166_mirror_te C166_mirror_tm_refuted C166_units_3d C166_units_te C166_units_tm', 'everything but the mirror symmetry of TM, which is false: mat_hz multiplies the forward difference of h by the permittivity of the edge on the other side of the cell')
claim('C167', 'partial', 'C167_same_sign_te C167_same_sign_tm C167_other_sign_refuted', "one-dimensional; the opposite sign of absorption is refuted with the default PML parameters: scpml absorbs waves exp(-ikx) of the convention exp(+iwt), the returned (e, h) satisfy Maxwell's equations of the convention exp(-iwt)")
claim('C168', 'proved', 'C168_convergence_3d C168_convergence_te', 'second order, for permittivities with a loss (or gain) bounded away from zero; periodic grid without PML')
claim('C169', 'proved', 'C169_change_3d C169_change_te C169_change_tm C169_gradient_3d C169_gradient_te C169_gradient_tm', 'exact change and first-order expansion with explicit remainder in 3-D, TE and TM for Bloch phase 0')
claim('C170', 'proved', 'C170_hardware C170_nulls C170_limit C170_uniform', 'common (mean) errors; per-coupler random spread is covered for sampling by the C160 family, not for programming')
claim('C171', 'partial', 'C171_default_1d C171_default_2d C171_near C171_range_partial C171_negative_refuted C171_reported_partial C171_count_refuted C171_hermitian_1d C171_hermitian_2d C171_waveguide_refuted C171_rejected', 'default search and 1-D Hermiticity hold; 2-D Hermitian only for constant averaged permittivity (refuted for a strip), a negative lower bound searches an empty range, values left by the eigensolver beyond the number found are reported')
claim('C172', 'partial', 'C172_axes_partial C172_flat_refuted C172_no_width_refuted C172_rejected C172_one_flat', 'holds in 2-D, and in 3-D for ports with a height; refuted for 3-D ports of height 0 and for ports of width 0 (both defaults)')
claim('C173', 'partial', 'C173_never_returns_partial C173_unchanged_refuted', 'never returns a result; but the failing call zeroes pixel sizes of the grid in place')
claim('C174', 'proved', 'C174_exact C174_response C174_group_index C174_group_velocity C174_exact_1d C174_response_1d C174_group_index_1d C174_monotone_1d', 'an analytic family of modes at every wavelength meets the hypotheses, in 2-d and in 1-d')
claim('C175', 'partial', 'C175_sparams_partial C175_order_partial C175_inverse_refuted C175_formats_refuted C175_mode_idx_refuted C175_unlisted_refuted C175_two_modes_refuted', 'holds for fundamental-mode sources with a default or pair-list measure_info at ports facing one way; refuted otherwise: ports facing each other may give the inverse ratios, the declared dictionary form and higher-order sources always raise, two modes at one port lose entries')
claim('C176', 'partial', 'C176_fdtd_partial C176_fdfd_3d_partial C176_fdfd_te_partial C176_fdfd_tm_partial C176_unique_partial C176_mode_spectrum_partial C176_mode_fields_partial C176_cycle_fdtd_partial C176_cycle_fdfd_partial C176_cycle_refuted', 'exchanging x and y holds for FDTD (2-D, 3-D), FDFD (3-D, TE, TM) and 2-D modes; rotating all axes holds for uniform permittivities and is false for layered ones, because eps_t does not average along z')
claim('C177', 'partial', 'C177_index_partial C177_derived C177_evolve C177_negative_refuted C177_empty_refuted C177_stale_refuted', 'indices from 0 on are right after every history; negative indices are accepted, cross sections without guided modes raise IndexError, an update that fails leaves old modes under the new wavelength or an emptied library')
claim('C178', 'partial', 'C178_convergence_tm C178_electric_tm_partial C178_electric_tm_refuted', 'h_z converges (second order where the permittivity is constant, first order where it varies); the electric field returned converges to the opposite of the electric field (C59)')
claim('C179', 'proved', 'C179_te C179_tm C179_3d C179_unique C179_bounded C179_resonance', 'exact criterion for uniform boxes; includes lossless materials, which C164 excludes')
claim('C180', 'proved', 'C180_te C180_tm C180_3d', 'the lists are exactly the resonances')
claim('C181', 'proved', 'C181_never_forgets C181_cw_never_settles', 'permittivity above 1, periodic grid, numpy update with sources')
claim('C182', 'proved', 'C182_lock_in C182_above_band', 'the constant A depends on the run, not on the window')
claim('C183', 'proved', 'C183_bounded_iff_solvable C183_linear_growth C183_solvable_iff_orthogonal', 'permittivity above 1, periodic grid, numpy update, electric CW source')
claim('C184', 'proved', 'C184_sources_add_up C184_currents C184_two_runs C184_two_runs_vacuum C184_cw_rate', 'numpy update, periodic grid, no absorbing layers')
claim('C185', 'proved', 'C185_finitely_many C185_almost_every_frequency', 'numpy update, periodic grid, no absorbing layers')
#INSERT
ids = [json.loads(l)["id"] for l in open("/verif/properties.jsonl")]
claims.sort(key=lambda c: ids.index(c["property"]))
src = "".join(open(f).read() for f in glob.glob("/verif/rocq/theories/*.v"))
for c in claims:
    for t in c["theorems"]:
        assert re.search(r"\b(Theorem|Lemma|Corollary)\s+%s\b" % t, src), t
print("missing:", [i for i in ids if i not in [c["property"] for c in claims]])
json.dump({"claims": claims}, open("/verif/MANIFEST.json", "w"), indent=1)
fs = sorted(os.path.basename(f) for f in glob.glob("/verif/rocq/theories/*.v"))
open("/verif/rocq/_CoqProject", "w").write("-Q theories Verif\n" + "".join("theories/%s\n" % f for f in fs))
