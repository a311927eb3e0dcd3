# Print Assumptions of every theorem in MANIFEST.json

Generated by tools/assumptions.py. All axioms are those of the Coq 8.16.1 standard library.

Axioms that occur anywhere:

* `ClassicalDedekindReals.sig_forall_dec`
* `ClassicalDedekindReals.sig_not_dec`
* `Classical_Prop.classic`
* `FunctionalExtensionality.functional_extensionality_dep`

## Closed under the global context (no axioms)

`C01_index_bijection`, `C01_index_no_overflow`, `C02_shell_layout`, `C02_sphere_sizes`, `C02_planes_bijective`, `C03_row_R`, `C03_get_row_R`, `C03_row_th`, `C03_get_row_th`, `C03_get_row_ph`, `C03_row_th_ph`, `C03_get_row_th_ph`, `C03_row_R_th`, `C03_set_row_R_ph`, `C03_row_n`, `C03_set_row_l`, `C04_set_row_ph_square`, `C04_set_row_ph_reads_past_end`, `C04_set_row_ph_correct_iff`, `C05_get_row_R_ph_release`, `C05_get_row_R_ph_debug_aborts`, `C05_get_row_R_ph_asserted_size_overflows`, `C06_tables`, `C06_constructor_ok`, `C10_memory_safety`, `C20_too_few_points`, `C23_angular`, `C23_radial`, `C23_first_radial`, `C23_locality`, `C23_output_buffer_irrelevant`, `C24_angular_operators`, `C24_radial_operators`, `C24_filter`, `C24_power_spectrum`, `C24_n_l_coef`, `C24_shift`, `C24_set_level`, `C24_set_k_sections`, `C24_filter_sections`, `C24_set_rho_sections`, `C24_time_step`, `C25_norm_indep_res_schedule_dependent_in_double`, `C25_total_variation_schedule_dependent_in_double`, `C26_filter_is_angular_only`, `C26_radial_pass_is_identity`, `C31_raise`, `C31_lower`, `C31_positions`, `C35_layout`, `C35_order_above_degree`, `C35_alias`, `C44_rhs_exists`, `C44_time_step_is_rk4`, `C45_time_step_total`, `C45_depends_on_current_level_only`, `C46_invalid_level`, `C46_shift`, `C46_shift_cells`, `C48_outputs`, `C49_zero_stride`, `C51_iterates`, `C51_longer_run`, `C52_read_back`, `C52_cut`, `C52_integers`, `C52_absent`, `C52_all_parameters`, `C53_first_match`, `C53_one_name`, `C53_word_unique`, `C53_missing`, `C53_found`, `C53_spec`, `C54_missing_exit_zero`, `C54_never_starts`, `C54_unreadable`, `C54_only_there`, `C55_accepts`, `C55_rejects`, `C55_one_value`, `C55_examples`, `C56_names_unique`, `C56_plain_names_unique`, `C56_plain_vs_kind`, `C56_run_files_distinct`, `C57_write`, `C57_write_R_psl`, `C57_write_n_psl`, `C57_write_x_y_z`, `C57_second_run_doubles`, `C58_rows`, `C65_run_completes`

## Uses `Classical_Prop.classic`

`C55_stored`

## Uses `ClassicalDedekindReals.sig_forall_dec`, `FunctionalExtensionality.functional_extensionality_dep`

`C22_compactification_increasing`, `C49_launcher_never_zero`, `C50_number_of_outputs`, `C66_evolve_time`

## Uses `ClassicalDedekindReals.sig_forall_dec`, `ClassicalDedekindReals.sig_not_dec`, `FunctionalExtensionality.functional_extensionality_dep`

`C11_symbol_range`, `C26_monopole_constant`, `C41_documented_vs_stress_tensor`, `C43_signs`, `C64_domain`, `C64_pulse_support`, `C70_inverse_metric`, `C70_volume_element`, `C70_printed_metric_refuted`

## Uses `ClassicalDedekindReals.sig_forall_dec`, `ClassicalDedekindReals.sig_not_dec`, `Classical_Prop.classic`, `FunctionalExtensionality.functional_extensionality_dep`

`C06_coordinate_values`, `C06_xyz_length`, `C07_der_exact`, `C08_der2_exact`, `C09_der_sixth_order`, `C09_der2_sixth_order`, `C11_boundary_unchanged`, `C11_polynomials_unchanged`, `C11_mode_damping`, `C12_not_TVD_refuted`, `C12_TVD_iff_small`, `C13_linear`, `C13_reflection`, `C14_fd_points`, `C14_cheb_points`, `C15_to_po_after_to_ch`, `C15_to_ch_after_to_po`, `C15_to_ch_of_T`, `C16_to_po_consumes`, `C17_der_exact`, `C18_top_modes_dropped`, `C18_exact_to_degree_n_minus_1_refuted`, `C19_filter_modes`, `C19_filter_linear`, `C19_factors`, `C19_constants_unchanged`, `C20_enough_points`, `C21_fd_exact_first`, `C21_fd_exact_second`, `C21_cheb_exact`, `C21_fd_accuracy`, `C22_R_to_r_of_compactification`, `C22_compactification_of_R_to_r`, `C22_infinity`, `C22_R_to_r_increasing`, `C22_infinity_is_largest_refuted`, `C22_tables`, `C25_norm_indep_res_exact`, `C25_total_variation_exact`, `C26_radial_data_untouched`, `C26_radial_filtering_refuted`, `C27_norm_indep_res_is_rms`, `C27_total_variation_zero`, `C27_total_variation_const`, `C27_total_variation_affine`, `C27_total_variation_blind`, `C27_zero_implies_constant_refuted`, `C28_partial_phi`, `C28_is_d_phi`, `C28_contract_satisfiable`, `C29_laplace_beltrami`, `C29_harmonics_are_eigenfunctions`, `C29_is_laplacian`, `C30_edge_modes_bypass`, `C30_edge_eigenvalue_refuted`, `C30_top_order_not_reported`, `C31_raise_is_Lplus`, `C31_lower_is_Lminus`, `C32_ladder_algebra`, `C33_sphereX_general`, `C33_nonnegative`, `C33_product_real`, `C33_edge_returns_zero`, `C33_negative_at_edge_refuted`, `C33_is_gradient_squared`, `C34_power_spectrum`, `C34_all_orders`, `C34_previous_content_irrelevant`, `C35_compute_ylm`, `C36_filter`, `C36_factors`, `C36_monopole`, `C37_set_k_solves_field_equation`, `C38_horizons`, `C38_Delta`, `C38_tolerance_windows`, `C39_set_k_at_infinity`, `C39_limit_of_solutions`, `C39_coefficients_are_limits`, `C40_k_and_V`, `C41_set_rho_value`, `C42_set_rho_nonneg`, `C43_speeds_are_the_documented_ones`, `C43_speeds_at_infinity`, `C43_boundaries`, `C44_weights`, `C44_order_on_linear_problems`, `C47_contract_gives_zero_sht`, `C47_vacuum_step`, `C47_vacuum_stays`, `C58_log10_floor`, `C59_selected_points`, `C59_end_shells_omitted`, `C60_amplitude`, `C60_whole_grid`, `C61_support`, `C62_pulse_derivative`, `C62_direction`, `C63_skipped_shell`, `C63_skipped_values`, `C63_fd_harmless`, `C63_cheb_horizon_refuted`, `C64_shells`, `C64_boundary_coefficients`, `C66_time_step`, `C67_right_hand_side_is_exact`, `C68_energy_density_of_resolved_data`, `C69_coefficients`, `C69_rows`, `C69_negative_coefficients_lost`, `C70_set_k_evolves_the_documented_action`, `C70_box_is_covariant`, `C70_field_equation_is_euler_lagrange`, `C71_raise_is_Lplus`, `C71_lower_is_Lminus`, `C71_sphereX_is_gradient_squared`, `C71_above_mmax_refuted`, `C71_lower_reads_unwritten_memory_refuted`, `C71_contract_satisfiable`

