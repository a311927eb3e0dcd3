{
 "claims": [
  {
   "property": "C01",
   "status": "proved",
   "theorems": [
    "C01_index_bijection",
    "C01_index_no_overflow"
   ],
   "note": ""
  },
  {
   "property": "C02",
   "status": "proved",
   "theorems": [
    "C02_shell_layout",
    "C02_sphere_sizes",
    "C02_planes_bijective"
   ],
   "note": ""
  },
  {
   "property": "C03",
   "status": "proved",
   "theorems": [
    "C03_row_R",
    "C03_get_row_R",
    "C03_row_th",
    "C03_get_row_th",
    "C03_get_row_ph",
    "C03_row_th_ph",
    "C03_get_row_th_ph",
    "C03_row_R_th",
    "C03_set_row_R_ph",
    "C03_row_n",
    "C03_set_row_l"
   ],
   "note": ""
  },
  {
   "property": "C04",
   "status": "proved",
   "theorems": [
    "C04_set_row_ph_square",
    "C04_set_row_ph_reads_past_end",
    "C04_set_row_ph_correct_iff"
   ],
   "note": ""
  },
  {
   "property": "C05",
   "status": "proved",
   "theorems": [
    "C05_get_row_R_ph_release",
    "C05_get_row_R_ph_debug_aborts",
    "C05_get_row_R_ph_asserted_size_overflows"
   ],
   "note": ""
  },
  {
   "property": "C06",
   "status": "proved",
   "theorems": [
    "C06_coordinate_values",
    "C06_tables",
    "C06_constructor_ok",
    "C06_xyz_length"
   ],
   "note": ""
  },
  {
   "property": "C07",
   "status": "proved",
   "theorems": [
    "C07_der_exact"
   ],
   "note": ""
  },
  {
   "property": "C08",
   "status": "proved",
   "theorems": [
    "C08_der2_exact"
   ],
   "note": ""
  },
  {
   "property": "C09",
   "status": "proved",
   "theorems": [
    "C09_der_sixth_order",
    "C09_der2_sixth_order"
   ],
   "note": ""
  },
  {
   "property": "C10",
   "status": "proved",
   "theorems": [
    "C10_memory_safety"
   ],
   "note": ""
  },
  {
   "property": "C11",
   "status": "proved",
   "theorems": [
    "C11_boundary_unchanged",
    "C11_polynomials_unchanged",
    "C11_mode_damping",
    "C11_symbol_range"
   ],
   "note": ""
  },
  {
   "property": "C12",
   "status": "proved",
   "theorems": [
    "C12_not_TVD_refuted",
    "C12_TVD_iff_small"
   ],
   "note": ""
  },
  {
   "property": "C13",
   "status": "proved",
   "theorems": [
    "C13_linear",
    "C13_reflection"
   ],
   "note": ""
  },
  {
   "property": "C14",
   "status": "proved",
   "theorems": [
    "C14_fd_points",
    "C14_cheb_points"
   ],
   "note": ""
  },
  {
   "property": "C15",
   "status": "proved",
   "theorems": [
    "C15_to_po_after_to_ch",
    "C15_to_ch_after_to_po",
    "C15_to_ch_of_T"
   ],
   "note": ""
  },
  {
   "property": "C16",
   "status": "proved",
   "theorems": [
    "C16_to_po_consumes"
   ],
   "note": ""
  },
  {
   "property": "C17",
   "status": "proved",
   "theorems": [
    "C17_der_exact"
   ],
   "note": ""
  },
  {
   "property": "C18",
   "status": "proved",
   "theorems": [
    "C18_top_modes_dropped",
    "C18_exact_to_degree_n_minus_1_refuted"
   ],
   "note": ""
  },
  {
   "property": "C19",
   "status": "proved",
   "theorems": [
    "C19_filter_modes",
    "C19_filter_linear",
    "C19_factors",
    "C19_constants_unchanged"
   ],
   "note": ""
  },
  {
   "property": "C20",
   "status": "proved",
   "theorems": [
    "C20_too_few_points",
    "C20_enough_points"
   ],
   "note": ""
  },
  {
   "property": "C21",
   "status": "proved",
   "theorems": [
    "C21_fd_exact_first",
    "C21_fd_exact_second",
    "C21_cheb_exact",
    "C21_fd_accuracy"
   ],
   "note": ""
  },
  {
   "property": "C22",
   "status": "proved",
   "theorems": [
    "C22_R_to_r_of_compactification",
    "C22_compactification_of_R_to_r",
    "C22_infinity",
    "C22_compactification_increasing",
    "C22_R_to_r_increasing",
    "C22_infinity_is_largest_refuted",
    "C22_tables"
   ],
   "note": ""
  },
  {
   "property": "C23",
   "status": "proved",
   "theorems": [
    "C23_angular",
    "C23_radial",
    "C23_first_radial",
    "C23_locality",
    "C23_output_buffer_irrelevant"
   ],
   "note": ""
  },
  {
   "property": "C24",
   "status": "proved",
   "theorems": [
    "C24_angular_operators",
    "C24_radial_operators",
    "C24_filter",
    "C24_power_spectrum",
    "C24_n_l_coef",
    "C24_shift",
    "C24_set_level",
    "C24_set_k_sections",
    "C24_filter_sections",
    "C24_set_rho_sections",
    "C24_time_step"
   ],
   "note": ""
  },
  {
   "property": "C25",
   "status": "proved",
   "theorems": [
    "C25_norm_indep_res_exact",
    "C25_total_variation_exact",
    "C25_norm_indep_res_schedule_dependent_in_double",
    "C25_total_variation_schedule_dependent_in_double"
   ],
   "note": ""
  },
  {
   "property": "C26",
   "status": "proved",
   "theorems": [
    "C26_radial_data_untouched",
    "C26_radial_filtering_refuted",
    "C26_filter_is_angular_only",
    "C26_radial_pass_is_identity",
    "C26_monopole_constant"
   ],
   "note": ""
  },
  {
   "property": "C27",
   "status": "proved",
   "theorems": [
    "C27_norm_indep_res_is_rms",
    "C27_total_variation_zero",
    "C27_total_variation_const",
    "C27_total_variation_affine",
    "C27_total_variation_blind",
    "C27_zero_implies_constant_refuted"
   ],
   "note": ""
  },
  {
   "property": "C28",
   "status": "proved",
   "theorems": [
    "C28_partial_phi",
    "C28_is_d_phi",
    "C28_contract_satisfiable"
   ],
   "note": ""
  },
  {
   "property": "C29",
   "status": "proved",
   "theorems": [
    "C29_laplace_beltrami",
    "C29_harmonics_are_eigenfunctions",
    "C29_is_laplacian"
   ],
   "note": ""
  },
  {
   "property": "C30",
   "status": "proved",
   "theorems": [
    "C30_edge_modes_bypass",
    "C30_edge_eigenvalue_refuted",
    "C30_top_order_not_reported"
   ],
   "note": ""
  },
  {
   "property": "C31",
   "status": "proved",
   "theorems": [
    "C31_raise",
    "C31_lower",
    "C31_positions",
    "C31_raise_is_Lplus",
    "C31_lower_is_Lminus"
   ],
   "note": ""
  },
  {
   "property": "C32",
   "status": "proved",
   "theorems": [
    "C32_ladder_algebra"
   ],
   "note": ""
  },
  {
   "property": "C33",
   "status": "proved",
   "theorems": [
    "C33_negative_occurs",
    "C33_sphereX_general",
    "C33_nonnegative",
    "C33_product_real",
    "C33_edge_returns_zero",
    "C33_negative_at_edge_refuted",
    "C33_is_gradient_squared"
   ],
   "note": ""
  },
  {
   "property": "C34",
   "status": "proved",
   "theorems": [
    "C34_power_spectrum",
    "C34_all_orders",
    "C34_previous_content_irrelevant"
   ],
   "note": ""
  },
  {
   "property": "C35",
   "status": "proved",
   "theorems": [
    "C35_compute_ylm",
    "C35_layout",
    "C35_order_above_degree",
    "C35_alias"
   ],
   "note": ""
  },
  {
   "property": "C36",
   "status": "proved",
   "theorems": [
    "C36_filter",
    "C36_factors",
    "C36_monopole"
   ],
   "note": ""
  },
  {
   "property": "C37",
   "status": "proved",
   "theorems": [
    "C37_set_k_solves_field_equation"
   ],
   "note": ""
  },
  {
   "property": "C38",
   "status": "proved",
   "theorems": [
    "C38_horizons",
    "C38_Delta",
    "C38_tolerance_windows"
   ],
   "note": ""
  },
  {
   "property": "C39",
   "status": "proved",
   "theorems": [
    "C39_set_k_at_infinity",
    "C39_limit_of_solutions",
    "C39_coefficients_are_limits"
   ],
   "note": ""
  },
  {
   "property": "C40",
   "status": "proved",
   "theorems": [
    "C40_k_and_V"
   ],
   "note": ""
  },
  {
   "property": "C41",
   "status": "proved",
   "theorems": [
    "C41_set_rho_value",
    "C41_documented_vs_stress_tensor"
   ],
   "note": ""
  },
  {
   "property": "C42",
   "status": "proved",
   "theorems": [
    "C42_set_rho_nonneg"
   ],
   "note": ""
  },
  {
   "property": "C43",
   "status": "proved",
   "theorems": [
    "C43_speeds_are_the_documented_ones",
    "C43_signs",
    "C43_speeds_at_infinity",
    "C43_boundaries"
   ],
   "note": ""
  },
  {
   "property": "C44",
   "status": "proved",
   "theorems": [
    "C44_rhs_exists",
    "C44_time_step_is_rk4",
    "C44_weights",
    "C44_order_on_linear_problems"
   ],
   "note": ""
  },
  {
   "property": "C45",
   "status": "proved",
   "theorems": [
    "C45_time_step_total",
    "C45_depends_on_current_level_only"
   ],
   "note": ""
  },
  {
   "property": "C46",
   "status": "proved",
   "theorems": [
    "C46_invalid_level",
    "C46_shift",
    "C46_shift_cells"
   ],
   "note": ""
  },
  {
   "property": "C47",
   "status": "proved",
   "theorems": [
    "C47_contract_gives_zero_sht",
    "C47_vacuum_step",
    "C47_vacuum_stays"
   ],
   "note": ""
  },
  {
   "property": "C48",
   "status": "proved",
   "theorems": [
    "C48_outputs"
   ],
   "note": ""
  },
  {
   "property": "C49",
   "status": "proved",
   "theorems": [
    "C49_zero_stride",
    "C49_launcher_never_zero"
   ],
   "note": ""
  },
  {
   "property": "C50",
   "status": "proved",
   "theorems": [
    "C50_number_of_outputs"
   ],
   "note": ""
  },
  {
   "property": "C51",
   "status": "proved",
   "theorems": [
    "C51_iterates",
    "C51_longer_run"
   ],
   "note": ""
  },
  {
   "property": "C52",
   "status": "proved",
   "theorems": [
    "C52_read_back",
    "C52_cut",
    "C52_integers",
    "C52_absent",
    "C52_all_parameters"
   ],
   "note": ""
  },
  {
   "property": "C53",
   "status": "proved",
   "theorems": [
    "C53_first_match",
    "C53_one_name",
    "C53_word_unique",
    "C53_missing",
    "C53_found",
    "C53_spec"
   ],
   "note": ""
  },
  {
   "property": "C54",
   "status": "proved",
   "theorems": [
    "C54_missing_exit_zero",
    "C54_never_starts",
    "C54_unreadable",
    "C54_only_there"
   ],
   "note": ""
  },
  {
   "property": "C55",
   "status": "proved",
   "theorems": [
    "C55_stored",
    "C55_accepts",
    "C55_rejects",
    "C55_one_value",
    "C55_examples"
   ],
   "note": ""
  },
  {
   "property": "C56",
   "status": "proved",
   "theorems": [
    "C56_names_unique",
    "C56_plain_names_unique",
    "C56_plain_vs_kind",
    "C56_run_files_distinct"
   ],
   "note": ""
  },
  {
   "property": "C57",
   "status": "proved",
   "theorems": [
    "C57_write",
    "C57_write_R_psl",
    "C57_write_n_psl",
    "C57_write_x_y_z",
    "C57_second_run_doubles"
   ],
   "note": ""
  },
  {
   "property": "C58",
   "status": "proved",
   "theorems": [
    "C58_rows",
    "C58_log10_floor"
   ],
   "note": ""
  },
  {
   "property": "C59",
   "status": "proved",
   "theorems": [
    "C59_selected_points",
    "C59_end_shells_omitted"
   ],
   "note": ""
  },
  {
   "property": "C60",
   "status": "proved",
   "theorems": [
    "C60_amplitude",
    "C60_whole_grid"
   ],
   "note": ""
  },
  {
   "property": "C61",
   "status": "proved",
   "theorems": [
    "C61_support"
   ],
   "note": ""
  },
  {
   "property": "C62",
   "status": "proved",
   "theorems": [
    "C62_pulse_derivative",
    "C62_direction"
   ],
   "note": ""
  },
  {
   "property": "C63",
   "status": "proved",
   "theorems": [
    "C63_skipped_shell",
    "C63_skipped_values",
    "C63_fd_harmless",
    "C63_cheb_horizon_refuted"
   ],
   "note": ""
  },
  {
   "property": "C64",
   "status": "proved",
   "theorems": [
    "C64_domain",
    "C64_shells",
    "C64_boundary_coefficients",
    "C64_pulse_support"
   ],
   "note": ""
  },
  {
   "property": "C65",
   "status": "proved",
   "theorems": [
    "C65_run_completes"
   ],
   "note": ""
  },
  {
   "property": "C66",
   "status": "proved",
   "theorems": [
    "C66_time_step",
    "C66_evolve_time"
   ],
   "note": ""
  },
  {
   "property": "C67",
   "status": "proved",
   "theorems": [
    "C67_right_hand_side_is_exact"
   ],
   "note": ""
  },
  {
   "property": "C68",
   "status": "proved",
   "theorems": [
    "C68_energy_density_of_resolved_data"
   ],
   "note": ""
  },
  {
   "property": "C69",
   "status": "proved",
   "theorems": [
    "C69_coefficients",
    "C69_rows",
    "C69_negative_coefficients_lost"
   ],
   "note": ""
  },
  {
   "property": "C70",
   "status": "proved",
   "theorems": [
    "C70_set_k_evolves_the_documented_action",
    "C70_inverse_metric",
    "C70_volume_element",
    "C70_printed_metric_refuted",
    "C70_box_is_covariant",
    "C70_field_equation_is_euler_lagrange"
   ],
   "note": ""
  },
  {
   "property": "C71",
   "status": "proved",
   "theorems": [
    "C71_raise_is_Lplus",
    "C71_lower_is_Lminus",
    "C71_sphereX_is_gradient_squared",
    "C71_above_mmax_refuted",
    "C71_lower_reads_unwritten_memory_refuted",
    "C71_contract_satisfiable"
   ],
   "note": ""
  },
  {
   "property": "C72",
   "status": "proved",
   "theorems": [
    "C72_superposition",
    "C72_contract_satisfiable"
   ],
   "note": ""
  },
  {
   "property": "C73",
   "status": "proved",
   "theorems": [
    "C73_sign_symmetry"
   ],
   "note": ""
  },
  {
   "property": "C74",
   "status": "proved",
   "theorems": [
    "C74_rotations",
    "C74_symmetric_data",
    "C74_axisymmetry",
    "C74_contract_satisfiable"
   ],
   "note": ""
  },
  {
   "property": "C75",
   "status": "proved",
   "theorems": [
    "C75_reflection",
    "C75_even_data",
    "C75_odd_data"
   ],
   "note": ""
  },
  {
   "property": "C76",
   "status": "proved",
   "theorems": [
    "C76_local_error_is_fifth_order",
    "C76_free_solutions_exist"
   ],
   "note": ""
  },
  {
   "property": "C77",
   "status": "proved",
   "theorems": [
    "C77_small_steps_erase_angular_structure",
    "C77_refining_the_step_does_not_converge"
   ],
   "note": ""
  },
  {
   "property": "C78",
   "status": "proved",
   "theorems": [
    "C78_right_hand_side_sixth_order"
   ],
   "note": ""
  },
  {
   "property": "C79",
   "status": "proved",
   "theorems": [
    "C79_azimuthal_orders_do_not_mix"
   ],
   "note": ""
  },
  {
   "property": "C80",
   "status": "proved",
   "theorems": [
    "C80_harmonics_evolve_separately",
    "C80_single_harmonic_keeps_shape",
    "C80_spherical_data_stay_spherical"
   ],
   "note": ""
  },
  {
   "property": "C81",
   "status": "proved",
   "theorems": [
    "C81_der_rounding",
    "C81_der2_rounding",
    "C81_filter_rounding",
    "C81_der_total_error",
    "C81_der2_total_error"
   ],
   "note": ""
  },
  {
   "property": "C82",
   "status": "proved",
   "theorems": [
    "C82_norm_indep_res",
    "C82_total_variation"
   ],
   "note": ""
  },
  {
   "property": "C83",
   "status": "proved",
   "theorems": [
    "C83_total",
    "C83_wrong_size_aborts",
    "C83_nYlm_is_too_small_refuted",
    "C83_to_Sph",
    "C83_to_Ylm",
    "C83_round_trip_coefficients",
    "C83_round_trip_samples",
    "C83_order_0_imaginary_part_dropped",
    "C83_to_Sph_complex",
    "C83_to_Ylm_complex",
    "C83_round_trip_complex",
    "C83_real_data_through_complex",
    "C83_to_Sph_complex_truncated",
    "C83_round_trip_complex_truncated"
   ],
   "note": ""
  },
  {
   "property": "C84",
   "status": "proved",
   "theorems": [
    "C84_integer",
    "C84_spec",
    "C84_unreadable",
    "C84_round_trip",
    "C84_truncates",
    "C84_fraction",
    "C84_negative",
    "C84_doubles",
    "C84_same_line"
   ],
   "note": ""
  },
  {
   "property": "C85",
   "status": "proved",
   "theorems": [
    "C85_formulas",
    "C85_coefficients",
    "C85_nodes",
    "C85_launch",
    "C85_tables",
    "C85_last_node_refuted"
   ],
   "note": ""
  },
  {
   "property": "C86",
   "status": "proved",
   "theorems": [
    "C86_nearest",
    "C86_one_value",
    "C86_order",
    "C86_separates",
    "C86_identifies_refuted",
    "C86_short_refuted",
    "C86_characters",
    "C86_integers",
    "C86_values_file",
    "C86_spectrum_file",
    "C86_nodes"
   ],
   "note": ""
  },
  {
   "property": "C87",
   "status": "proved",
   "theorems": [
    "C87_nearest",
    "C87_zero",
    "C87_too_large",
    "C87_too_small",
    "C87_round_trip",
    "C87_seventeen",
    "C87_write_read",
    "C87_write_read_refuted",
    "C87_integers",
    "C87_launched",
    "C87_around",
    "C87_rejects",
    "C87_hazards"
   ],
   "note": ""
  },
  {
   "property": "C88",
   "status": "proved",
   "theorems": [
    "C88_launch",
    "C88_occupied",
    "C88_history",
    "C88_jobs",
    "C88_job_outputs",
    "C88_outputs",
    "C88_named",
    "C88_same_object"
   ],
   "note": ""
  },
  {
   "property": "C89",
   "status": "proved",
   "theorems": [
    "C89_trace",
    "C89_killed",
    "C89_front"
   ],
   "note": ""
  },
  {
   "property": "C90",
   "status": "proved",
   "theorems": [
    "C90_stride",
    "C90_steps",
    "C90_steps_fit_refuted",
    "C90_time_step",
    "C90_exceptions",
    "C90_exceptions_exact"
   ],
   "note": ""
  },
  {
   "property": "C91",
   "status": "proved",
   "theorems": [
    "C91_operators",
    "C91_evolution",
    "C91_density",
    "C91_pulse",
    "C91_tiny_units_refuted"
   ],
   "note": ""
  },
  {
   "property": "C92",
   "status": "proved",
   "theorems": [
    "C92_bounded",
    "C92_near_best",
    "C92_spectral",
    "C92_converges"
   ],
   "note": ""
  },
  {
   "property": "C93",
   "status": "proved",
   "theorems": [
    "C93_minus_one_nan",
    "C93_minus_one_set_k",
    "C93_minus_one_time_step",
    "C93_rhs_rounding",
    "C93_time_step_rounding",
    "C93_sign_symmetry_refuted"
   ],
   "note": ""
  },
  {
   "property": "C94",
   "status": "proved",
   "theorems": [
    "C94_coefficients",
    "C94_rhs",
    "C94_time_step",
    "C94_run",
    "C94_files"
   ],
   "note": ""
  },
  {
   "property": "C95",
   "status": "proved",
   "theorems": [
    "C95_library_exists",
    "C95_same_results",
    "C95_schedule_independent",
    "C95_assertions_irrelevant",
    "C95_storage_order",
    "C95_exact_diagnostics"
   ],
   "note": ""
  },
  {
   "property": "C96",
   "status": "proved",
   "theorems": [
    "C96_energy_density",
    "C96_finite_speed",
    "C96_window",
    "C96_cone",
    "C96_pulse_stays_compact",
    "C96_chebyshev_global"
   ],
   "note": ""
  },
  {
   "property": "C97",
   "status": "proved",
   "theorems": [
    "C97_weak_field_limit"
   ],
   "note": ""
  },
  {
   "property": "C98",
   "status": "proved",
   "theorems": [
    "C98_cheb_filter_TVD_refuted",
    "C98_grid_filter_TVD_refuted"
   ],
   "note": ""
  },
  {
   "property": "C99",
   "status": "proved",
   "theorems": [
    "C99_same_point",
    "C99_refined",
    "C99_doubling",
    "C99_nodes_bitwise"
   ],
   "note": ""
  },
  {
   "property": "C100",
   "status": "proved",
   "theorems": [
    "C100_reads_closed",
    "C100_sources_current",
    "C100_contents",
    "C100_executable_stays",
    "C100_same_options",
    "C100_clean_build",
    "C100_no_object_survives",
    "C100_config_cheb",
    "C100_config_fd",
    "C100_config_ok",
    "C100_config_refuted",
    "C100_debug_refuted",
    "C100_recompile",
    "C100_test_program",
    "C100_test_current_refuted",
    "C100_test_then_recompile_refuted",
    "C100_nonvacuous"
   ],
   "note": ""
  },
  {
   "property": "C101",
   "status": "proved",
   "theorems": [
    "C101_finite_differences",
    "C101_chebyshev",
    "C101_sphere",
    "C101_sphere_complex",
    "C101_rows",
    "C101_planes",
    "C101_grid",
    "C101_evolution",
    "C101_release_refuted"
   ],
   "note": ""
  },
  {
   "property": "C102",
   "status": "proved",
   "theorems": [
    "C102_setattr",
    "C102_stem_unique",
    "C102_automatic",
    "C102_parameters",
    "C102_stored",
    "C102_solver_reads_derived",
    "C102_local",
    "C102_script",
    "C102_injection_refuted"
   ],
   "note": ""
  },
  {
   "property": "C103",
   "status": "proved",
   "theorems": [
    "C103_calm",
    "C103_not_calm",
    "C103_point",
    "C103_rho_point",
    "C103_time_step",
    "C103_sign_symmetry",
    "C103_rho",
    "C103_residual",
    "C103_variation",
    "C103_negated_data"
   ],
   "note": ""
  }
 ]
}