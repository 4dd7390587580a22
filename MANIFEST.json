{
 "claims": [
  {
   "property": "C01",
   "status": "proved",
   "theorems": [
    "C01_node_unitary"
   ],
   "note": ""
  },
  {
   "property": "C02",
   "status": "partial",
   "theorems": [
    "C02_mesh_is_product_partial",
    "C02_elements_partial",
    "C02_right_loss_refuted"
   ],
   "note": "Proved when the right coupler of each node is lossless; refuted otherwise: _parallel_mzi puts the right coupler's loss on the phi arm's input instead of on the top output."
  },
  {
   "property": "C03",
   "status": "proved",
   "theorems": [
    "C03_power_conserved",
    "C03_unitary",
    "C03_total"
   ],
   "note": ""
  },
  {
   "property": "C04",
   "status": "proved",
   "theorems": [
    "C04_never_amplifies"
   ],
   "note": ""
  },
  {
   "property": "C05",
   "status": "proved",
   "theorems": [
    "C05_linear",
    "C05_matrix"
   ],
   "note": ""
  },
  {
   "property": "C06",
   "status": "partial",
   "theorems": [
    "C06_reciprocal_partial",
    "C06_scalar_error_partial",
    "C06_differential_refuted",
    "C06_unequal_errors_refuted"
   ],
   "note": "Proved for TOP, BOTTOM, SYMMETRIC with equal left/right errors; false of the code for DIFFERENTIAL and for unequal errors."
  },
  {
   "property": "C07",
   "status": "proved",
   "theorems": [
    "C07_jax_same"
   ],
   "note": ""
  },
  {
   "property": "C08",
   "status": "partial",
   "theorems": [
    "C08_own_errors_partial",
    "C08_default_ids",
    "C08_error_on_wrong_node_refuted"
   ],
   "note": "Holds when ids are the list positions (the default); false for tree(4): add_error_mean stores arrays in list order but they are indexed by node id."
  },
  {
   "property": "C09",
   "status": "partial",
   "theorems": [
    "C09_implicit",
    "C09_explicit_partial",
    "C09_explicit_actual",
    "C09_explicit_refuted",
    "C09_explicit_raises"
   ],
   "note": "Implicit propagation proved in full; explicit=True proved without errors and losses, refuted with errors, raises for SYMMETRIC/DIFFERENTIAL."
  },
  {
   "property": "C10",
   "status": "proved",
   "theorems": [
    "C10_tree"
   ],
   "note": ""
  },
  {
   "property": "C11",
   "status": "proved",
   "theorems": [
    "C11_chain"
   ],
   "note": ""
  },
  {
   "property": "C12",
   "status": "partial",
   "theorems": [
    "C12_vector_unit_partial",
    "C12_differential_refuted",
    "C12_symmetric_raises"
   ],
   "note": "Proved for TOP and BOTTOM; false of the code for DIFFERENTIAL; SYMMETRIC raises."
  },
  {
   "property": "C13",
   "status": "proved",
   "theorems": [
    "C13_realises",
    "C13_exact"
   ],
   "note": "For the default TOP style; the code's np.spacing(1) regulariser appears as eps."
  },
  {
   "property": "C14",
   "status": "partial",
   "theorems": [
    "C14_style_is_always_top",
    "C14_phase_style_refuted"
   ],
   "note": "False of the code: aggregate drops the phase style."
  },
  {
   "property": "C15",
   "status": "proved",
   "theorems": [
    "C15_structure",
    "C15_named"
   ],
   "note": ""
  },
  {
   "property": "C16",
   "status": "proved",
   "theorems": [
    "C16_rectangular_geometry",
    "C16_one_mode_raises"
   ],
   "note": "n(n-1)/2 nodes, checkerboard positions each exactly once, ids 0.. in list order, well-formed mesh, for every n >= 2 and any u; for n = 2 num_columns is 1; n = 1 raises"
  },
  {
   "property": "C17",
   "status": "proved",
   "theorems": [
    "C17_rectangular_realises_u"
   ],
   "note": "exact equality of the mesh matrix and u for every n >= 2 and every unitary u, over exact arithmetic"
  },
  {
   "property": "C18",
   "status": "proved",
   "theorems": [
    "C18_butterfly"
   ],
   "note": ""
  },
  {
   "property": "C19",
   "status": "proved",
   "theorems": [
    "C19_bowtie_count",
    "C19_bowtie_columns"
   ],
   "note": "all n >= 2"
  },
  {
   "property": "C20",
   "status": "proved",
   "theorems": [
    "C20_split_clamped",
    "C20_split_exact",
    "C20_ideal"
   ],
   "note": ""
  },
  {
   "property": "C21",
   "status": "partial",
   "theorems": [
    "C21_null_top_partial",
    "C21_null_bottom_partial",
    "C21_symmetric_raises",
    "C21_differential_refuted",
    "C21_unequal_errors_refuted"
   ],
   "note": "Proved for TOP and BOTTOM with equal splitter errors; false of the code for DIFFERENTIAL and for unequal errors."
  },
  {
   "property": "C22",
   "status": "proved",
   "theorems": [
    "C22_dirichlet",
    "C22_dirichlet_embedded"
   ],
   "note": ""
  },
  {
   "property": "C23",
   "status": "proved",
   "theorems": [
    "C23_csinv_unitary",
    "C23_csinv_blocks",
    "C23_other_partitions_raise"
   ],
   "note": ""
  },
  {
   "property": "C24",
   "status": "partial",
   "theorems": [
    "C24_columns_partition",
    "C24_any_sequence",
    "C24_cached_columns",
    "C24_invert_involutive",
    "C24_offset_column_refuted",
    "C24_negative_column_dropped"
   ],
   "note": "Proved for columns, offset and invert_columns, any call sequence; false of the code for offset_column (stale num_columns)."
  },
  {
   "property": "C25",
   "status": "partial",
   "theorems": [
    "C25_in_situ_gradient_partial",
    "C25_in_situ_batch_partial",
    "C25_digital_gradient_partial",
    "C25_digital_batch_partial",
    "C25_schemes_agree",
    "C25_parameter_order_refuted",
    "C25_bottom_style_refuted"
   ],
   "note": "Proved (vector and batch inputs, all_analog True and False) for TOP meshes with ideal couplers, gradients in column order; false of the code for parameter order = node id on tree(3) and for style BOTTOM."
  },
  {
   "property": "C26",
   "status": "partial",
   "theorems": [
    "C26_ideal_unitary_partial",
    "C26_coupling_matrix_phase_refuted",
    "C26_coupling_matrix_phase_partial",
    "C26_coupling_matrix_phase_loss",
    "C26_mmi_raises_refuted"
   ],
   "note": "ideal_node is unitary; coupling_matrix_phase is not and mmi_node_matrix raises on every node."
  },
  {
   "property": "C27",
   "status": "partial",
   "theorems": [
    "C27_matrix_is_roll_partial",
    "C27_matrix_is_bloch_difference",
    "C27_bloch_refuted"
   ],
   "note": "Agreement proved for bloch_phase=0, all shapes and complex pixel sizes; with any other Bloch phase diff_fn ignores it and the claim is refuted."
  },
  {
   "property": "C28",
   "status": "proved",
   "theorems": [
    "C28_adjoint_matrix",
    "C28_adjoint_roll",
    "C28_nonuniform_refuted"
   ],
   "note": "Matrices with Bloch phase and rolls; uniformity shown necessary."
  },
  {
   "property": "C29",
   "status": "proved",
   "theorems": [
    "C29_div_curl_roll",
    "C29_div_curl_matrix",
    "C29_div_curl_beta"
   ],
   "note": "All shapes and pixel sizes, Bloch included for matrices, plus the beta curl."
  },
  {
   "property": "C30",
   "status": "proved",
   "theorems": [
    "C30_superposition",
    "C30_zero_state_stays"
   ],
   "note": "Both backends, any source schedule, no PML."
  },
  {
   "property": "C31",
   "status": "proved",
   "theorems": [
    "C31_charge_conserved",
    "C31_continuity"
   ],
   "note": "Plus the continuity equation with sources (numpy)."
  },
  {
   "property": "C32",
   "status": "proved",
   "theorems": [
    "C32_energy_conserved",
    "C32_energy_nonnegative",
    "C32_no_exponential_growth",
    "C32_bounded_above_vacuum",
    "C32_bounded_in_vacuum_refuted"
   ],
   "note": "Energy conserved, nonnegative at built-in dt, at most linear field growth (tight: dt is on the stability limit), bounded for eps>=kap>1."
  },
  {
   "property": "C33",
   "status": "partial",
   "theorems": [
    "C33_backends_agree_without_source_partial",
    "C33_source_cell",
    "C33_same_source_refuted"
   ],
   "note": "Refuted with sources: jax .set overwrites where numpy subtracts."
  },
  {
   "property": "C34",
   "status": "partial",
   "theorems": [
    "C34_jax_keeps_state_partial",
    "C34_numpy_overwrites",
    "C34_numpy_sync_is_new_h",
    "C34_jax_sync_is_mean",
    "C34_numpy_state_kept_refuted",
    "C34_pml_memory_refuted"
   ],
   "note": "Refuted for numpy (in-place +=); holds for jax without PML; with PML the memory lists of the given state are overwritten, so repeating a call gives another result (proved)."
  },
  {
   "property": "C35",
   "status": "partial",
   "theorems": [
    "C35_first_two_steps_partial",
    "C35_constant_forcing",
    "C35_memory_refuted"
   ],
   "note": "The stored memory is only the last difference; documented recursion holds for two steps only."
  },
  {
   "property": "C36",
   "status": "partial",
   "theorems": [
    "C36_round_trip_is_minus",
    "C36_round_trip_refuted",
    "C36_mode_round_trip_refuted"
   ],
   "note": "Refuted as stated: for every source-free field h2e(e2h(e)) = -e (the sign in h2e contradicts its docstring); concrete two-cell counterexample."
  },
  {
   "property": "C37",
   "status": "partial",
   "theorems": [
    "C37_op3_is_mat_partial",
    "C37_te_matrix",
    "C37_tm_matrix_partial",
    "C37_bloch_refuted"
   ],
   "note": "TE: proved for all grids and Bloch phases. 3D: proved without Bloch phase (with any other, refuted: diff_fn ignores it). TM: proved without Bloch phase, positive permittivity and pixels with positive real part."
  },
  {
   "property": "C38",
   "status": "partial",
   "theorems": [
    "C38_factor_partial",
    "C38_right_layer_refuted",
    "C38_graded",
    "C38_interior"
   ],
   "note": "Interior factors are 1 and layers graded, but 'exactly outside the PML' is false: the innermost cell n-t of the right layer has factor 1. Uniform cells, integer exponent."
  },
  {
   "property": "C39",
   "status": "partial",
   "theorems": [
    "C39_pml_preserved_iff",
    "C39_no_pml_partial",
    "C39_fine_spacing_refuted"
   ],
   "note": "Refuted: from_simgrid passes the pixel count where a length is expected; the exact set of spacings for which the thickness survives is proved (t/(t+1) < spacing <= 1)."
  },
  {
   "property": "C40",
   "status": "proved",
   "theorems": [
    "C40_average_in_range",
    "C40_homogeneous",
    "C40_numpy_jax",
    "C40_total_preserved"
   ],
   "note": ""
  },
  {
   "property": "C41",
   "status": "proved",
   "theorems": [
    "C41_mask_exact",
    "C41_set_eps_exact",
    "C41_mask_fn_exact",
    "C41_box_accuracy",
    "C41_rounding",
    "C41_shape",
    "C41_fill_exact",
    "C41_low_edge_dropped"
   ],
   "note": "In-bounds boxes. C41_low_edge_dropped records what happens outside the property's hypothesis."
  },
  {
   "property": "C42",
   "status": "partial",
   "theorems": [
    "C42_safe_partial",
    "C42_idempotent",
    "C42_crowded_refuted"
   ],
   "note": "Safe whenever both margins fit; refuted for grids the constructor accepts in which they do not."
  },
  {
   "property": "C43",
   "status": "partial",
   "theorems": [
    "C43_inside_accepted_partial",
    "C43_rejected_exactly",
    "C43_outside_accepted_refuted"
   ],
   "note": "Operator-precedence bug: only patterns sticking out on the low-x side alone are rejected."
  },
  {
   "property": "C44",
   "status": "proved",
   "theorems": [
    "C44_port_horizontal",
    "C44_port_vertical",
    "C44_port_other_raises",
    "C44_port_half_turn"
   ],
   "note": ""
  },
  {
   "property": "C45",
   "status": "proved",
   "theorems": [
    "C45_align",
    "C45_align_to_point",
    "C45_halign",
    "C45_valign",
    "C45_translate_additive",
    "C45_mask_exact"
   ],
   "note": ""
  },
  {
   "property": "C46",
   "status": "partial",
   "theorems": [
    "C46_guided_first_partial",
    "C46_order_refuted"
   ],
   "note": "Correct exactly when the positive eigenvalues come first in the eigensolver's order; IndexError otherwise."
  },
  {
   "property": "C47",
   "status": "proved",
   "theorems": [
    "C47_linear",
    "C47_separates",
    "C47_mode_itself"
   ],
   "note": ""
  },
  {
   "property": "C48",
   "status": "partial",
   "theorems": [
    "C48_never_stale_partial",
    "C48_solves_partial",
    "C48_small_matrices",
    "C48_middle_change_refuted",
    "C48_rejected_rhs_refuted",
    "C48_free_refuted"
   ],
   "note": "Cache key is hash(str(mat)), and str elides the middle of matrices with more than 50 entries."
  },
  {
   "property": "C49",
   "status": "proved",
   "theorems": [
    "C49_exact_change",
    "C49_derivative"
   ],
   "note": "The solver is abstract: any exact solution."
  },
  {
   "property": "C50",
   "status": "partial",
   "theorems": [
    "C50_parse_partial",
    "C50_degenerate_refuted"
   ],
   "note": "All documented values except the empty list, a list of one bare name and an empty index list, which raise."
  },
  {
   "property": "C51",
   "status": "partial",
   "theorems": [
    "C51_ortho_partial",
    "C51_diag_partial",
    "C51_symmetric_fixed",
    "C51_even_refuted",
    "C51_mixed_refuted"
   ],
   "note": "Refuted for even lengths without averaging and for one ortho flag combined with a diagonal one."
  },
  {
   "property": "C52",
   "status": "proved",
   "theorems": [
    "C52_mask_list",
    "C52_mask_one",
    "C52_design_region",
    "C52_design_region_one"
   ],
   "note": "np.float in the list branch is an AttributeError on numpy >= 1.24: the model is of older numpy."
  },
  {
   "property": "C53",
   "status": "proved",
   "theorems": [
    "C53_projection_range",
    "C53_projection_fixes",
    "C53_projection_monotone",
    "C53_smooth_range",
    "C53_smooth_monotone",
    "C53_smooth_disk",
    "C53_smooth_solid",
    "C53_solid_border_eroded"
   ],
   "note": ""
  },
  {
   "property": "C54",
   "status": "partial",
   "theorems": [
    "C54_defined_partial",
    "C54_lossy_refuted"
   ],
   "note": "Holds when uhat carries at least the power of a unitary; NaN for every lossy copy of u."
  },
  {
   "property": "C55",
   "status": "partial",
   "theorems": [
    "C55_correct_iff",
    "C55_one_side_partial",
    "C55_order_refuted",
    "C55_two_modes_refuted"
   ],
   "note": "Depends on the iteration order of a Python set (string hashing is randomised)."
  },
  {
   "property": "C56",
   "status": "proved",
   "theorems": [
    "C56_solve3_maxwell",
    "C56_solve_te_maxwell"
   ],
   "note": "For any exact linear solve, PML included, Bloch phase 0; the TM branch is C59."
  },
  {
   "property": "C57",
   "status": "partial",
   "theorems": [
    "C57_input_cotangent_refuted",
    "C25_in_situ_gradient_partial"
   ],
   "note": "False of the code: the returned vector is M^T g / |g| (last conjunct of the C25 theorem)."
  },
  {
   "property": "C58",
   "status": "partial",
   "theorems": [
    "C19_bowtie4_raises",
    "C19_bowtie_columns",
    "C95_even_refuted"
   ],
   "note": "Exact: columns are enumerable for n = 2 and odd n; for every even n >= 4 a column is empty and ForwardMesh.columns raises."
  },
  {
   "property": "C59",
   "status": "partial",
   "theorems": [
    "C59_tm_homogeneous_partial",
    "C59_ampere_partial",
    "C59_tm_refuted"
   ],
   "note": "Proved for homogeneous permittivity on a uniform grid; refuted for varying permittivity (mat_hz has D_b and D_f exchanged)."
  },
  {
   "property": "C60",
   "status": "proved",
   "theorems": [
    "C60_reciprocity_3d",
    "C60_reciprocity_te",
    "C60_reciprocity_tm"
   ],
   "note": "Bloch phase 0; arbitrary complex nonzero pixels (PML)."
  },
  {
   "property": "C61",
   "status": "proved",
   "theorems": [
    "C61_hermitian",
    "C61_no_net_work"
   ],
   "note": ""
  },
  {
   "property": "C62",
   "status": "partial",
   "theorems": [
    "C62_fresh_partial",
    "C62_frozen_refuted"
   ],
   "note": "lru_cache: true only before the first read."
  },
  {
   "property": "C63",
   "status": "partial",
   "theorems": [
    "C63_slab_partial",
    "C63_slab_refuted"
   ],
   "note": "Right for equal spacings; spacing[0], spacing[1] are used along z."
  },
  {
   "property": "C64",
   "status": "partial",
   "theorems": [
    "C64_fundamental_partial",
    "C64_names_refuted",
    "C64_higher_mode_refuted"
   ],
   "note": "Only fundamental modes given as (port, 0)."
  },
  {
   "property": "C65",
   "status": "partial",
   "theorems": [
    "C65_axis2_partial",
    "C65_other_axes_refuted"
   ],
   "note": "Only axis 2; the others raise IndexError (numpy)."
  },
  {
   "property": "C66",
   "status": "proved",
   "theorems": [
    "C66_te_backward",
    "C66_te_linear"
   ],
   "note": ""
  },
  {
   "property": "C67",
   "status": "proved",
   "theorems": [
    "C67_modes_are_maxwell",
    "C67_maxwell_are_modes"
   ],
   "note": "2-D modes: every eigenpair with real beta gives Maxwell fields travelling as exp(-i beta z), and conversely. The eigensolver itself (eigs) is outside the model: the theorems quantify over its possible results."
  },
  {
   "property": "C68",
   "status": "partial",
   "theorems": [
    "C68_te_partial",
    "C68_tm_uniform_partial",
    "C68_tm_refuted"
   ],
   "note": "TE proved. TM holds in a uniform medium only: solve uses the TE operator for both, and the reported TM fields of a waveguide violate Faraday's law (C68_tm_refuted)."
  },
  {
   "property": "C69",
   "status": "partial",
   "theorems": [
    "C69_tm_power_partial",
    "C69_te_power_refuted"
   ],
   "note": "TM: nonnegative. TE: the reported power of a guided mode is never positive (fields follow the opposite time convention)."
  },
  {
   "property": "C70",
   "status": "proved",
   "theorems": [
    "C70_evolve_phase",
    "C70_beat_period"
   ],
   "note": ""
  },
  {
   "property": "C71",
   "status": "partial",
   "theorems": [
    "C71_evolve_te_partial",
    "C71_evolve_direction_refuted"
   ],
   "note": "1-D TE modes: right direction. 2-D modes solve Maxwell with exp(-i beta z) while evolve uses exp(+i beta z)."
  },
  {
   "property": "C72",
   "status": "partial",
   "theorems": [
    "C72_sweep_refuted",
    "C72_update_wavelength_partial"
   ],
   "note": "dispersion_sweep passes the wavelength as beta_guess: every solution is for the same wavelength; the default pbar=range raises. update_wavelength is right."
  },
  {
   "property": "C73",
   "status": "partial",
   "theorems": [
    "C73_place_2d_partial",
    "C73_place_3d_refuted",
    "C73_place_3d_slices_refuted",
    "C73_place_3d_slices_y_refuted",
    "C73_place_3d_slices_z_refuted"
   ],
   "note": "2-D simulations proved for regions inside the grid; in 3-D place raises for every plane (the component axis is indexed by the region)."
  },
  {
   "property": "C74",
   "status": "partial",
   "theorems": [
    "C74_view_power_partial",
    "C74_view_power_refuted",
    "C74_right_handed"
   ],
   "note": "x and z proved; along y the view is left-handed and the power changes sign."
  },
  {
   "property": "C75",
   "status": "partial",
   "theorems": [
    "C75_profile_y_partial",
    "C75_profile_refuted",
    "C75_profile_power"
   ],
   "note": "y proved; x and z flip one component."
  },
  {
   "property": "C76",
   "status": "partial",
   "theorems": [
    "C76_no_write_partial",
    "C76_stale_refuted"
   ],
   "note": "lru_cache keyed without eps: stale after any edit. The 128-entry bound of the cache is not modelled."
  },
  {
   "property": "C77",
   "status": "partial",
   "theorems": [
    "C77_to_2d_refuted",
    "C77_to_2d_shape_refuted",
    "C77_to_2d_k0"
   ],
   "note": "to_2d raises for every 3-D grid; the formula uses k0 = 2 pi wavelength."
  },
  {
   "property": "C78",
   "status": "partial",
   "theorems": [
    "C78_divisor_partial",
    "C78_first_port_partial",
    "C78_divisor_refuted"
   ],
   "note": "Right with the default measure_info; wrong when measure_info is in another order than the grid's ports."
  },
  {
   "property": "C79",
   "status": "partial",
   "theorems": [
    "C79_directional_partial",
    "C79_unidirectional_refuted",
    "C79_matched"
   ],
   "note": "In a uniform single-mode lattice waveguide: strictly more power forward than backward, never exactly none backward. Uniform cross section, outgoing waves assumed."
  },
  {
   "property": "C80",
   "status": "partial",
   "theorems": [
    "C80_common_mode_flow",
    "C80_default_gamma_square",
    "C80_default_gamma_refuted"
   ],
   "note": "true with gamma given; without gamma it raises whenever units differ from layers (the default has one entry per layer)"
  },
  {
   "property": "C81",
   "status": "proved",
   "theorems": [
    "C81_alpha_above",
    "C81_alpha_below",
    "C81_alpha_off_board",
    "C81_random_theta_is_beta"
   ],
   "note": "all diagonals, all n"
  },
  {
   "property": "C82",
   "status": "partial",
   "theorems": [
    "C82_rows_refuted"
   ],
   "note": "false: rectangular_rows raises for every n >= 3 because the odd rows leave columns empty; holds for n = 2"
  },
  {
   "property": "C83",
   "status": "proved",
   "theorems": [
    "C83_null_vectors",
    "C83_no_cutoff",
    "C83_differential_refuted"
   ],
   "note": "Also shown: the DIFFERENTIAL exclusion is necessary."
  },
  {
   "property": "C84",
   "status": "partial",
   "theorems": [
    "C84_error_correction_partial",
    "C84_residual",
    "C84_guard",
    "C84_guard_refuted",
    "C84_symmetric_raises"
   ],
   "note": "exact correction with the np.spacing(1) guard neglected (eps = 0); with the guard kept: at most eps residual power per column (C84_residual), first-column split ratios divided by 1 + eps (C84_guard), so not exact (C84_guard_refuted); equal left/right errors; hardware style TOP or BOTTOM (SYMMETRIC raises, DIFFERENTIAL is wrong already for one node: C21)."
  },
  {
   "property": "C85",
   "status": "partial",
   "theorems": [
    "C85_round_trip_partial",
    "C85_guard_refuted"
   ],
   "note": "np.spacing(1) guard neglected (eps = 0), with it the phases are not restored exactly (C85_guard_refuted); otherwise for every mesh, setting and start."
  },
  {
   "property": "C86",
   "status": "partial",
   "theorems": [
    "C86_viz_required_refuted",
    "C86_pbar_required_refuted",
    "C86_returns_partial"
   ],
   "note": "Property false: viz=None always raises (viz.metric_config) and pbar=None raises on the first iteration (range has no set_description). With both given a run is proved to return for distinct simulations with sources, metrics off or every iteration."
  },
  {
   "property": "C87",
   "status": "proved",
   "theorems": [
    "C87_costs_and_params"
   ],
   "note": "For an arbitrary optimiser. The docstring says sum of the objectives; the code reports and differentiates the mean."
  },
  {
   "property": "C88",
   "status": "partial",
   "theorems": [
    "C88_histories_partial",
    "C88_eps_ahead_refuted"
   ],
   "note": "Series proved exactly; the permittivity labelled i is that of the parameters after update i while field and metrics are those before it, so the alignment claim is refuted."
  },
  {
   "property": "C89",
   "status": "partial",
   "theorems": [
    "C89_interval_refuted"
   ],
   "note": "False: for every metric_interval >= 2 and at least 2 iterations the run raises (iteration coordinate has the wrong length). C86_returns_partial covers metric_interval = 1."
  },
  {
   "property": "C90",
   "status": "partial",
   "theorems": [
    "C90_no_sim_refuted",
    "C90_shared_name_refuted",
    "C90_no_source_refuted"
   ],
   "note": "False: a problem without sim always raises; shared names raise with opt_viz; a problem without source shifts the pairing of simulations and results."
  },
  {
   "property": "C91",
   "status": "partial",
   "theorems": [
    "C91_hessian_blocks_partial",
    "C91_exact_without_guard_partial",
    "C91_hessian_refuted",
    "C91_exact_refuted"
   ],
   "note": "For every division guard eps >= 0: diagonal blocks are the second partials (exactly without the guard), matrix symmetric, off-diagonal blocks are the transposes of the true ones (refuted for every n >= 3 and vectors without zeros, also with the guard). Ideal couplers, as the function uses."
  },
  {
   "property": "C92",
   "status": "proved",
   "theorems": [
    "C92_hessian_fd_agrees",
    "C92_exact_without_guard"
   ],
   "note": "For every step and every division guard eps >= 0."
  },
  {
   "property": "C93",
   "status": "proved",
   "theorems": [
    "C93_vector_unit_minimum",
    "C93_exact_without_guard"
   ],
   "note": "For every division guard eps >= 0; default style TOP and ideal couplers are what the functions use."
  },
  {
   "property": "C94",
   "status": "partial",
   "theorems": [
    "C94_cs_roundtrip",
    "C94_cs_factors",
    "C94_block_diagonal_refuted"
   ],
   "note": "Exact characterisation: the round trip holds iff the lower-left block is injective; false e.g. for the identity."
  },
  {
   "property": "C95",
   "status": "partial",
   "theorems": [
    "C95_bowtie2_partial",
    "C95_crossing_refuted",
    "C95_diagonal_refuted",
    "C95_bowtie3_moduli",
    "C95_bowtie3_refuted",
    "C95_even_refuted"
   ],
   "note": "False: exact for n = 2, 3 and even n >= 4; the general odd n >= 5 is not done."
  },
  {
   "property": "C96",
   "status": "partial",
   "theorems": [
    "C96_fidelity_optimum",
    "C96_real_weights_partial",
    "C96_complex_refuted",
    "C96_insertion_only"
   ],
   "note": "Bounds and uniqueness proved for all outputs; the optimum is the conjugate of the requested amplitudes, so the claim holds for real weights and is refuted for complex ones."
  },
  {
   "property": "C97",
   "status": "proved",
   "theorems": [
    "C97_splitter_metrics",
    "C97_te_ratio"
   ],
   "note": ""
  },
  {
   "property": "C98",
   "status": "partial",
   "theorems": [
    "C98_pulse_partial",
    "C98_width_refuted",
    "C98_jump"
   ],
   "note": "All clauses but the width, which is refuted: it goes like sqrt(pulse_width)."
  },
  {
   "property": "C99",
   "status": "partial",
   "theorems": [
    "C99_resume_partial",
    "C99_resume_refuted"
   ],
   "note": "Holds when the first part is a whole number of periods; otherwise refuted, the phase restarts."
  },
  {
   "property": "C100",
   "status": "partial",
   "theorems": [
    "C100_weights_ignored",
    "C100_weights_refuted"
   ],
   "note": "Refuted: the run is independent of the weights."
  },
  {
   "property": "C101",
   "status": "partial",
   "theorems": [
    "C101_measured_at_default",
    "C101_wavelength_refuted",
    "C101_default_partial",
    "C101_fields"
   ],
   "note": "The fluxes are the right measurements at 1.55 (jax backend); at every other wavelength still measured at 1.55."
  },
  {
   "property": "C102",
   "status": "partial",
   "theorems": [
    "C102_parse_partial",
    "C102_single_name_refuted",
    "C102_run_returns"
   ],
   "note": "All documented formats except a list of one bare name, which raises."
  },
  {
   "property": "C103",
   "status": "proved",
   "theorems": [
    "C103_psvd",
    "C103_row_raises"
   ],
   "note": "A single row or column raises (outside the quantifier)."
  },
  {
   "property": "C104",
   "status": "proved",
   "theorems": [
    "C104_composition",
    "C104_two",
    "C104_fresh_meshes"
   ],
   "note": "Other styles: aggregate drops the style (C14)."
  },
  {
   "property": "C105",
   "status": "partial",
   "theorems": [
    "C105_column_ordered_partial",
    "C105_errors_refuted"
   ],
   "note": "Same matrix for style TOP and uniform errors; refuted for per-node errors."
  },
  {
   "property": "C106",
   "status": "proved",
   "theorems": [
    "C106_error_variance",
    "C106_phases"
   ],
   "note": ""
  },
  {
   "property": "C107",
   "status": "partial",
   "theorems": [
    "C107_arguments_kept_partial",
    "C107_aggregate_refuted",
    "C107_offset_refuted"
   ],
   "note": "Refuted for single-node meshes and for offset."
  },
  {
   "property": "C108",
   "status": "partial",
   "theorems": [
    "C108_getter_partial",
    "C108_setter_refuted",
    "C108_layer_refuted"
   ],
   "note": "Getter copies; setter and in-situ layer refuted."
  },
  {
   "property": "C109",
   "status": "proved",
   "theorems": [
    "C109_rectangular_layers",
    "C109_tree_layers",
    "C109_footprint",
    "C109_equivalent_outputs",
    "C109_no_gain"
   ],
   "note": ""
  },
  {
   "property": "C110",
   "status": "partial",
   "theorems": [
    "C110_elements_partial",
    "C110_arguments_partial",
    "C110_default_refuted"
   ],
   "note": "Refuted for the default phis."
  },
  {
   "property": "C111",
   "status": "proved",
   "theorems": [
    "C111_modes_orthogonal",
    "C111_modes_orthogonal_1d",
    "C111_evolve_power"
   ],
   "note": "Every eigenpair of the modelled operator; the eigensolver itself is not modelled."
  },
  {
   "property": "C112",
   "status": "proved",
   "theorems": [
    "C112_index_bound",
    "C112_index_bound_1d"
   ],
   "note": ""
  },
  {
   "property": "C113",
   "status": "partial",
   "theorems": [
    "C113_uniform_partial",
    "C113_crosstalk_refuted"
   ],
   "note": "Refuted in waveguides for both polarisations (averaged fields, 1/eps weight); proved in uniform media."
  },
  {
   "property": "C114",
   "status": "proved",
   "theorems": [
    "C114_finite_speed",
    "C114_finite_speed_pml"
   ],
   "note": ""
  },
  {
   "property": "C115",
   "status": "proved",
   "theorems": [
    "C115_interior"
   ],
   "note": ""
  },
  {
   "property": "C116",
   "status": "proved",
   "theorems": [
    "C116_superposition",
    "C116_rest",
    "C116_backends"
   ],
   "note": ""
  },
  {
   "property": "C117",
   "status": "proved",
   "theorems": [
    "C117_coefficients",
    "C117_graded"
   ],
   "note": "integer grading exponent"
  },
  {
   "property": "C118",
   "status": "partial",
   "theorems": [
    "C118_edges_partial",
    "C118_centres_refuted"
   ],
   "note": "False at the cell centres: the upper layer is weaker at every cell, its innermost cell absorbs nothing."
  },
  {
   "property": "C119",
   "status": "partial",
   "theorems": [
    "C119_three_d_partial",
    "C119_low_dimension_refuted"
   ],
   "note": "False in 1-D and 2-D: _set_pml reads pml_shape[2]."
  },
  {
   "property": "C120",
   "status": "partial",
   "theorems": [
    "C120_pair_partial",
    "C120_blocks_partial",
    "C120_pixel_gap_partial",
    "C120_gap_refuted",
    "C120_zero_height_refuted"
   ],
   "note": "Exact geometry of the boxes; drawn gap within one pixel. The pixel-exact gap is false (proved)."
  },
  {
   "property": "C121",
   "status": "proved",
   "theorems": [
    "C121_position_independent",
    "C121_repeat"
   ],
   "note": ""
  },
  {
   "property": "C122",
   "status": "partial",
   "theorems": [
    "C122_block_layers_partial",
    "C122_pattern_layers_partial",
    "C122_no_substrate_refuted"
   ],
   "note": "Exact for a positive substrate; false for the default 0."
  },
  {
   "property": "C123",
   "status": "proved",
   "theorems": [
    "C123_dims_iff"
   ],
   "note": ""
  },
  {
   "property": "C124",
   "status": "partial",
   "theorems": [
    "C124_value_error_partial",
    "C124_success_partial",
    "C124_cells_partial",
    "C124_atomic_2d_refuted",
    "C124_atomic_3d_refuted"
   ],
   "note": "False when zmin/thickness are left at None."
  },
  {
   "property": "C125",
   "status": "partial",
   "theorems": [
    "C125_shape_partial",
    "C125_fill_axis_refuted"
   ],
   "note": "Exact characterisation; false with an axis of one cell."
  },
  {
   "property": "C126",
   "status": "partial",
   "theorems": [
    "C126_other_partial",
    "C126_scalar_partial",
    "C126_shared_refuted"
   ],
   "note": "True of distinct buffers; false of grids built from one array."
  },
  {
   "property": "C127",
   "status": "proved",
   "theorems": [
    "C127_retrace_backward",
    "C127_retrace_forward"
   ],
   "note": "Lossless meshes of style TOP or BOTTOM (explicit propagation raises for the other styles), any splitting errors."
  },
  {
   "property": "C128",
   "status": "partial",
   "theorems": [
    "C128_even_partial",
    "C128_odd_refuted",
    "C128_two_refuted"
   ],
   "note": "True for even n >= 4; false for odd n (entries missing) and n = 2 (IndexError)."
  },
  {
   "property": "C129",
   "status": "proved",
   "theorems": [
    "C129_whole_turns",
    "C129_double_turns_symmetric",
    "C129_double_turns_differential",
    "C129_one_turn_negates",
    "C129_one_turn_phi_negates"
   ],
   "note": "Periods per style, with sharpness."
  },
  {
   "property": "C130",
   "status": "proved",
   "theorems": [
    "C130_phase_errors"
   ],
   "note": "Sum over columns of the largest phase movement."
  },
  {
   "property": "C131",
   "status": "partial",
   "theorems": [
    "C131_listing_order_partial",
    "C131_listing_order_refuted"
   ],
   "note": "Proved for nodes with the same errors and losses; false otherwise: bs_errors and losses are indexed by list position, not by node_id."
  },
  {
   "property": "C132",
   "status": "proved",
   "theorems": [
    "C132_independent_rails",
    "C132_no_crosstalk",
    "C132_untouched_rail"
   ],
   "note": ""
  },
  {
   "property": "C133",
   "status": "proved",
   "theorems": [
    "C133_free",
    "C133_driven"
   ],
   "note": "Both backends without sources, numpy with electric sources (jax sets instead of adding, C33)."
  },
  {
   "property": "C134",
   "status": "proved",
   "theorems": [
    "C134_translation"
   ],
   "note": "Periodic grid without PML; all sources, both backends."
  },
  {
   "property": "C135",
   "status": "partial",
   "theorems": [
    "C135_mirror_partial",
    "C135_mirror_z_partial",
    "C135_mirror_z_refuted"
   ],
   "note": "Along x and y for every permittivity; along z only when eps does not depend on z: yee_avg does not average eps along z for Ex and Ey, and the mirrored run differs (refuted)."
  },
  {
   "property": "C136",
   "status": "proved",
   "theorems": [
    "C136_fdtd",
    "C136_fdfd"
   ],
   "note": "FDTD without PML; FDFD matrices for any (also stretched) pixels."
  },
  {
   "property": "C137",
   "status": "proved",
   "theorems": [
    "C137_dispersion",
    "C137_real_frequency"
   ],
   "note": "Existence of H given E and w; the frequency is real when eps >= 1."
  },
  {
   "property": "C138",
   "status": "proved",
   "theorems": [
    "C138_3d",
    "C138_te",
    "C138_tm"
   ],
   "note": "Axes with one cell must have no Bloch phase (deriv drops it)."
  },
  {
   "property": "C139",
   "status": "proved",
   "theorems": [
    "C139_cw_run_is_fdfd",
    "C139_resonance",
    "C139_only_fdfd"
   ],
   "note": "FDTD without PML, no Bloch phase; the FDFD solve is assumed exact for the given source (exact3, shown to be met by every field for some source)."
  },
  {
   "property": "C140",
   "status": "proved",
   "theorems": [
    "C140_balance",
    "C140_balance_run"
   ],
   "note": "NumPy stepping without PML (jax sources overwrite the field, C33). Without sources this is C32's conservation law."
  },
  {
   "property": "C141",
   "status": "proved",
   "theorems": [
    "C141_reciprocity",
    "C141_dipoles",
    "C141_jax_refuted"
   ],
   "note": "NumPy stepping without PML; the jax backend is refuted by a three-cell example."
  },
  {
   "property": "C142",
   "status": "partial",
   "theorems": [
    "C142_init",
    "C142_reports_cost",
    "C142_differentiable",
    "C142_first_step",
    "C142_step_bound",
    "C142_corner",
    "C142_gradient_at_match_refuted"
   ],
   "note": "Everything but the existence of the gradient at a perfect match, which is refuted: the error has a corner there. jax.value_and_grad is a parameter of the model; adam as documented by jax.example_libraries (defaults)."
  },
  {
   "property": "C143",
   "status": "partial",
   "theorems": [
    "C143_response",
    "C143_every_profile",
    "C143_all_pass",
    "C143_peak",
    "C143_energy",
    "C143_many_raise_refuted",
    "C143_many_square_refuted",
    "C143_column_refuted"
   ],
   "note": "One profile: proved. Several profiles (T, M): refuted, numpy broadcasts the pulse spectrum along the wrong axis."
  },
  {
   "property": "C144",
   "status": "partial",
   "theorems": [
    "C144_chain",
    "C144_balanced_partial",
    "C144_balanced_refuted",
    "C144_split"
   ],
   "note": "Chain: proved. Balanced tree: proved when every node draws with its own counts; the code's list-order draws are refuted for five outputs. betaincinv and the uniform generator are parameters (range [0,1] and mean beta/(alpha+beta) assumed)."
  },
  {
   "property": "C145",
   "status": "partial",
   "theorems": [
    "C145_layer",
    "C145_start",
    "C145_losses",
    "C145_isometry",
    "C145_contracts",
    "C145_noise",
    "C145_fresh_noise_refuted"
   ],
   "note": "Everything but fresh noise under jit, which is refuted (np.random is called at trace time)."
  },
  {
   "property": "C146",
   "status": "proved",
   "theorems": [
    "C146_no_noise",
    "C146_unbiased",
    "C146_digital_no_noise",
    "C146_digital_unbiased"
   ],
   "note": "both values of all_analog; io noise 0."
  },
  {
   "property": "C147",
   "status": "partial",
   "theorems": [
    "C147_pdf",
    "C147_phase_partial",
    "C147_density_refuted",
    "C147_rand_theta"
   ],
   "note": "beta_phase is the density up to a factor 1/pi (refuted as a density)."
  },
  {
   "property": "C148",
   "status": "partial",
   "theorems": [
    "C148_default_wavelength_partial",
    "C148_modes_ignored_refuted",
    "C148_wavelength_refuted",
    "C148_labels_refuted",
    "C148_order_refuted"
   ],
   "note": "true at 1.55 um with factor 3 and the device's port order; the simulation wavelength never reaches source and measurement (default 1.55), the measurement ignores profile_size_factor, default or partial port labels raise, labels are positional"
  },
  {
   "property": "C149",
   "status": "partial",
   "theorems": [
    "C149_yee_positions",
    "C149_across_partial",
    "C149_own_axis_refuted",
    "C149_transverse_partial",
    "C149_oblique_refuted"
   ],
   "note": "labels are right across each component and half a cell off along it: one coordinate set is shared by the three components"
  },
  {
   "property": "C150",
   "status": "partial",
   "theorems": [
    "C150_int_partial",
    "C150_open_partial",
    "C150_slice_refuted",
    "C150_numpy_refuted"
   ],
   "note": "ints and open slices work; a slice with integer ends raises TypeError (slice += slice); numpy integers are not moved"
  },
  {
   "property": "C151",
   "status": "proved",
   "theorems": [
    "C151_io_noise"
   ],
   "note": "style TOP or BOTTOM (the explicit propagation supports no other); the two averages are iterated (draws independent)"
  },
  {
   "property": "C152",
   "status": "proved",
   "theorems": [
    "C152_step",
    "C152_first"
   ],
   "note": "layers as the constructor admits them in 3-D (more than 3 cells, less than half the axis); sources of the observed step are empty (they are added afterwards, C30)"
  },
  {
   "property": "C153",
   "status": "proved",
   "theorems": [
    "C153_plane_balance",
    "C153_line_absorbs",
    "C153_line_total",
    "C153_line_regular",
    "C153_line_solvable"
   ],
   "note": "power is minus Re(E x H*): the solver's h goes with exp(-i w t) while its layers absorb exp(-i k x); absorption and non-singularity for lines, the balance for any grid with layers across one axis; bloch phases 1"
  },
  {
   "property": "C154",
   "status": "proved",
   "theorems": [
    "C154_poynting",
    "C154_no_source"
   ],
   "note": "3-D solve with bloch phases 1, boxes not reaching the last cell of an axis; exact linear solve assumed (C56)"
  },
  {
   "property": "C155",
   "status": "partial",
   "theorems": [
    "C155_nearest_partial",
    "C155_grid_partial",
    "C155_grid_near_partial",
    "C155_slice_partial",
    "C155_fill_partial",
    "C155_fill_exact_partial",
    "C155_fill_refuted",
    "C155_shift_refuted",
    "C155_pml_partial",
    "C155_pml_refuted"
   ],
   "note": "true of the grid's shape and of slice/mask/set_eps, which round; false of fill, add and Box, which truncate: with spacing 0.1, fill(0.3) fills two cells. Uses Flocq (no axioms beyond the standard library's)"
  },
  {
   "property": "C156",
   "status": "partial",
   "theorems": [
    "C156_samples_partial",
    "C156_hessian_refuted"
   ],
   "note": "each sample is only the first row of the Hessian: the [0] indexes the array"
  },
  {
   "property": "C157",
   "status": "proved",
   "theorems": [
    "C157_rounding",
    "C157_complex128",
    "C157_complex64",
    "C157_exact"
   ],
   "note": "overflow is not modelled; the accuracy e of sin, cos and exp is a parameter"
  },
  {
   "property": "C158",
   "status": "partial",
   "theorems": [
    "C158_propagate_partial",
    "C158_complex_partial",
    "C158_hessian_complex_partial",
    "C158_real_refuted",
    "C158_hessian_real_refuted",
    "C158_no_inputs_refuted"
   ],
   "note": "inputs += 0j raises for real arrays; propagate() passes None on"
  },
  {
   "property": "C159",
   "status": "proved",
   "theorems": [
    "C159_convergence",
    "C159_second_order",
    "C159_free"
   ],
   "note": "periodic boundaries without PML; exact arithmetic; numpy backend when there are sources (jax overwrites, see C33); the permittivity is the one the grid averages at each E sample"
  },
  {
   "property": "C160",
   "status": "proved",
   "theorems": [
    "C160_rounding",
    "C160_vacuum",
    "C160_total",
    "C160_complex128",
    "C160_constants",
    "C160_binary64",
    "C160_exact"
   ],
   "note": "numpy backend, periodic boundaries without PML, at most one source per step, no overflow"
  },
  {
   "property": "C161",
   "status": "partial",
   "theorems": [
    "C161_nullify_partial",
    "C161_lower_refuted"
   ],
   "note": "with lower_theta or lower_phi the returned vector and matrix are not nulled (the matrix keeps the phases in the upper arms): the power left is computed exactly; only the returned phases are right, in the lower arms"
  },
  {
   "property": "C162",
   "status": "partial",
   "theorems": [
    "C162_same_partial",
    "C162_cutoff_forward",
    "C162_cutoff_backward",
    "C162_cutoff_refuted",
    "C162_implicit_refuted"
   ],
   "note": "true with explicit=True and no cut-off; with a cut-off (documented as ignored) all columns are propagated but the gammas are left out; explicit=False raises TypeError for every mesh"
  },
  {
   "property": "C163",
   "status": "proved",
   "theorems": [
    "C163_fabrication_errors",
    "C163_uniform"
   ],
   "note": ""
  },
  {
   "property": "C164",
   "status": "proved",
   "theorems": [
    "C164_equations",
    "C164_maxwell",
    "C164_solvable_3d",
    "C164_solvable_te",
    "C164_solvable_tm",
    "C164_real",
    "C164_lossless_refuted"
   ],
   "note": "the lossless counterexample shows the absorption hypothesis is needed; it is part of the statement"
  },
  {
   "property": "C165",
   "status": "proved",
   "theorems": [
    "C165_stability_3d",
    "C165_stability_te",
    "C165_stability_tm"
   ],
   "note": "as stated"
  },
  {
   "property": "C166",
   "status": "partial",
   "theorems": [
    "C166_reciprocity_3d",
    "C166_reciprocity_te",
    "C166_reciprocity_tm",
    "C166_shift_3d",
    "C166_shift_te",
    "C166_shift_tm",
    "C166_mirror_3d",
    "C166_mirror_te",
    "C166_mirror_tm_refuted",
    "C166_units_3d",
    "C166_units_te",
    "C166_units_tm"
   ],
   "note": "everything but the mirror symmetry of TM, which is false: mat_hz multiplies the forward difference of h by the permittivity of the edge on the other side of the cell"
  },
  {
   "property": "C167",
   "status": "partial",
   "theorems": [
    "C167_same_sign_te",
    "C167_same_sign_tm",
    "C167_other_sign_refuted"
   ],
   "note": "one-dimensional; the opposite sign of absorption is refuted with the default PML parameters: scpml absorbs waves exp(-ikx) of the convention exp(+iwt), the returned (e, h) satisfy Maxwell's equations of the convention exp(-iwt)"
  },
  {
   "property": "C168",
   "status": "proved",
   "theorems": [
    "C168_convergence_3d",
    "C168_convergence_te"
   ],
   "note": "second order, for permittivities with a loss (or gain) bounded away from zero; periodic grid without PML"
  },
  {
   "property": "C169",
   "status": "proved",
   "theorems": [
    "C169_change_3d",
    "C169_change_te",
    "C169_change_tm",
    "C169_gradient_3d",
    "C169_gradient_te",
    "C169_gradient_tm"
   ],
   "note": "exact change and first-order expansion with explicit remainder in 3-D, TE and TM for Bloch phase 0"
  },
  {
   "property": "C170",
   "status": "proved",
   "theorems": [
    "C170_hardware",
    "C170_nulls",
    "C170_limit",
    "C170_uniform"
   ],
   "note": "common (mean) errors; per-coupler random spread is covered for sampling by the C160 family, not for programming"
  },
  {
   "property": "C171",
   "status": "partial",
   "theorems": [
    "C171_default_1d",
    "C171_default_2d",
    "C171_near",
    "C171_range_partial",
    "C171_negative_refuted",
    "C171_reported_partial",
    "C171_count_refuted",
    "C171_hermitian_1d",
    "C171_hermitian_2d",
    "C171_waveguide_refuted",
    "C171_rejected"
   ],
   "note": "default search and 1-D Hermiticity hold; 2-D Hermitian only for constant averaged permittivity (refuted for a strip), a negative lower bound searches an empty range, values left by the eigensolver beyond the number found are reported"
  },
  {
   "property": "C172",
   "status": "partial",
   "theorems": [
    "C172_axes_partial",
    "C172_flat_refuted",
    "C172_no_width_refuted",
    "C172_rejected",
    "C172_one_flat"
   ],
   "note": "holds in 2-D, and in 3-D for ports with a height; refuted for 3-D ports of height 0 and for ports of width 0 (both defaults)"
  },
  {
   "property": "C173",
   "status": "partial",
   "theorems": [
    "C173_never_returns_partial",
    "C173_unchanged_refuted"
   ],
   "note": "never returns a result; but the failing call zeroes pixel sizes of the grid in place"
  },
  {
   "property": "C174",
   "status": "proved",
   "theorems": [
    "C174_exact",
    "C174_response",
    "C174_group_index",
    "C174_group_velocity",
    "C174_exact_1d",
    "C174_response_1d",
    "C174_group_index_1d",
    "C174_monotone_1d"
   ],
   "note": "an analytic family of modes at every wavelength meets the hypotheses, in 2-d and in 1-d"
  },
  {
   "property": "C175",
   "status": "partial",
   "theorems": [
    "C175_sparams_partial",
    "C175_order_partial",
    "C175_inverse_refuted",
    "C175_formats_refuted",
    "C175_mode_idx_refuted",
    "C175_unlisted_refuted",
    "C175_two_modes_refuted"
   ],
   "note": "holds for fundamental-mode sources with a default or pair-list measure_info at ports facing one way; refuted otherwise: ports facing each other may give the inverse ratios, the declared dictionary form and higher-order sources always raise, two modes at one port lose entries"
  },
  {
   "property": "C176",
   "status": "partial",
   "theorems": [
    "C176_fdtd_partial",
    "C176_fdfd_3d_partial",
    "C176_fdfd_te_partial",
    "C176_fdfd_tm_partial",
    "C176_unique_partial",
    "C176_mode_spectrum_partial",
    "C176_mode_fields_partial",
    "C176_cycle_fdtd_partial",
    "C176_cycle_fdfd_partial",
    "C176_cycle_refuted"
   ],
   "note": "exchanging x and y holds for FDTD (2-D, 3-D), FDFD (3-D, TE, TM) and 2-D modes; rotating all axes holds for uniform permittivities and is false for layered ones, because eps_t does not average along z"
  },
  {
   "property": "C177",
   "status": "partial",
   "theorems": [
    "C177_index_partial",
    "C177_derived",
    "C177_evolve",
    "C177_negative_refuted",
    "C177_empty_refuted",
    "C177_stale_refuted"
   ],
   "note": "indices from 0 on are right after every history; negative indices are accepted, cross sections without guided modes raise IndexError, an update that fails leaves old modes under the new wavelength or an emptied library"
  },
  {
   "property": "C178",
   "status": "partial",
   "theorems": [
    "C178_convergence_tm",
    "C178_electric_tm_partial",
    "C178_electric_tm_refuted"
   ],
   "note": "h_z converges (second order where the permittivity is constant, first order where it varies); the electric field returned converges to the opposite of the electric field (C59)"
  },
  {
   "property": "C179",
   "status": "proved",
   "theorems": [
    "C179_te",
    "C179_tm",
    "C179_3d",
    "C179_unique",
    "C179_bounded",
    "C179_resonance"
   ],
   "note": "exact criterion for uniform boxes; includes lossless materials, which C164 excludes"
  },
  {
   "property": "C180",
   "status": "proved",
   "theorems": [
    "C180_te",
    "C180_tm",
    "C180_3d"
   ],
   "note": "the lists are exactly the resonances"
  },
  {
   "property": "C181",
   "status": "proved",
   "theorems": [
    "C181_never_forgets",
    "C181_cw_never_settles"
   ],
   "note": "permittivity above 1, periodic grid, numpy update with sources"
  },
  {
   "property": "C182",
   "status": "proved",
   "theorems": [
    "C182_lock_in",
    "C182_above_band"
   ],
   "note": "the constant A depends on the run, not on the window"
  },
  {
   "property": "C183",
   "status": "proved",
   "theorems": [
    "C183_bounded_iff_solvable",
    "C183_linear_growth",
    "C183_solvable_iff_orthogonal"
   ],
   "note": "permittivity above 1, periodic grid, numpy update, electric CW source"
  },
  {
   "property": "C184",
   "status": "proved",
   "theorems": [
    "C184_sources_add_up",
    "C184_currents",
    "C184_two_runs",
    "C184_two_runs_vacuum",
    "C184_cw_rate"
   ],
   "note": "numpy update, periodic grid, no absorbing layers"
  },
  {
   "property": "C185",
   "status": "proved",
   "theorems": [
    "C185_finitely_many",
    "C185_almost_every_frequency"
   ],
   "note": "numpy update, periodic grid, no absorbing layers"
  }
 ]
}