# Print Assumptions of every property theorem

Generated by tools/assumptions.py. All names are of the standard library of Coq 8.16.1.

## Closed under the global context

C01_osa_bijection, C01_osa_ordered, C02_noll_bijection, C02_noll_even_is_cosine, C02_noll_ordered, C03_fringe_bijection, C03_fringe_ordered, C04_fringe_range, C04_index2orders_fringe, C04_index2orders_noll, C04_index2orders_osa, C05_fringe_out_of_range, C05_no_invented_orders_refuted, C05_noll_out_of_range, C05_osa_out_of_range, C06_beyond_range_refuted, C06_noll_osa_noll, C06_osa_noll_osa, C06_same_polynomial, C07_fringe_osa_fringe, C07_literal_roundtrip_refuted, C07_osa_fringe_osa, C08_accepts_exactly_partial, C08_accepts_exactly_valid_refuted, C08_accepts_exactly_when_m_le_n_partial, C09_all_spellings_agree, C10_eq_iff_same_orders, C10_lt_transitive, C10_trichotomy_partial, C10_trichotomy_refuted, C25_generate_polynomials, C25_generate_polynomials_rejects, C38_single_element_refuted, C41_calculation_accepted, C41_points_refuted, C45_answers, C45_fair_exists, C45_no_deadlock, C45_one_cpu_hangs, C45_raise_hangs, C45_rejected, C46_never_right, C46_reuse_hangs, C46_reuse_refuted, C46_two_refuted, C48_names_injective, C48_names_present, C48_str_distinguishes_refuted, C73_polynomials, C75_unparsable, C75_version, C75_version_refuted, C75_without_numba, C76_equal_coeffs, C76_max_order, C76_table_lines, C76_tested_orders, C81_size

## `ClassicalDedekindReals.sig_forall_dec`, `FunctionalExtensionality.functional_extensionality_dep`

C13_derivative_routes, C28_contract_satisfiable, C32_normalized_range, C43_written_partial, C44_black_scaled_refuted, C44_bounds, C44_identity, C44_linear, C44_scaled, C44_scaled_unsigned, C44_shape, C44_tiny_kernel_refuted, C44_unsigned, C44_value, C49_amplitudes, C55_uninitialised_differs, C73_rejects, C77_kernel, C77_titles

## `ClassicalDedekindReals.sig_forall_dec`, `ClassicalDedekindReals.sig_not_dec`, `FunctionalExtensionality.functional_extensionality_dep`

C11_radial_is_factorial_sum, C11_value_is_zernike, C12_high_order_exact_is_zero, C12_routes_agree, C13_radial_dr_partial, C13_radial_dr_refuted, C14_boundary_parity_bound, C15_normf, C16_triangular, C17_value_bounded_periodic, C18_coefficients_dr_history_independent, C18_coefficients_history_independent, C18_radial_dr_history_independent, C18_radial_history_independent, C18_value_history_independent, C19_coefficients, C19_derivative_coefficients, C19_derivative_unsupported, C20_meshgrid_surface, C20_rejects_lengths, C20_sum_at_points, C20_surface, C21_linear, C21_order_independent, C21_zero_coefficients_dropped, C22_large_steps_accepted, C22_negative_steps, C22_very_negative_steps, C23_covers_exact, C23_equal_mesh, C24_empty_rejected, C24_inside_polynomial_value, C24_inside_radial, C24_inside_radial_dr, C24_nan_refuted, C24_outside_rejected, C24_set_refuted, C24_zero_surface_unchecked, C28_vectors_exact_recovery, C29_least_squares, C29_linear, C29_permutation, C29_rejects_dimensions, C30_values_exact, C30_values_exact_list, C31_focus_value, C32_values_nonneg, C36_equal_orders_refuted, C37_foreign_jobs_refuted, C38_other_accepted_refuted, C38_sequence_partial, C38_single_partial, C41_unchanged_partial, C50_all_return, C50_derivative, C50_single_thread, C50_threads, C50_value, C57_unrounded, C58_failure_keeps_figure, C58_failure_refuted, C58_given_surface_on_fig, C58_profile_given, C58_profile_refuted, C58_surface_rejects, C59_rounding_is_small, C59_unrounded, C59_unrounded_list, C61_unrounded, C64_error_is_small, C64_unrounded_sum, C64_unrounded_surface, C66_integral, C69_same_bits, C69_same_bits_list, C69_unrounded, C71_resolving_sizes, C72_matrix_error, C73_check_conformity, C73_result, C76_coefficients_exact, C76_derivatives_exact, C76_missed_bug, C76_outcome, C76_radial_exact, C76_table_tests, C78_exists, C78_piston, C78_scaling, C78_triangle, C80_exists, C80_unique

## `ClassicalDedekindReals.sig_forall_dec`, `ClassicalDedekindReals.sig_not_dec`, `Classical_Prop.classic`, `FunctionalExtensionality.functional_extensionality_dep`

C15_orthonormal, C22_never_rejects, C22_zero_steps, C23_binary64_dense, C23_binary64_partial, C23_end_refuted, C23_equal_mesh_binary64, C23_strict_refuted, C26_deterministic, C26_image_shows_phases, C26_polar_coordinates, C26_rejects, C27_crop, C27_rejects, C28_image_exact_recovery, C28_sampling_exists, C29_rejects, C30_unit_interval_refuted, C30_values_binary64_partial, C32_airy_kernel, C32_kernel, C32_kernel_list, C33_list_of_one, C34_piston, C34_piston_alone, C35_sign_rotates, C35_sign_rotates_list, C36_documented_refuted, C36_int_amplitude_refuted, C36_kernel_refuted, C36_list_partial, C36_single_partial, C37_class_parallel, C37_class_same_kernel, C37_class_unsupported_refuted, C37_class_wavelength_refuted, C37_kernels_agree, C37_methods_agree, C39_accepted, C39_ranges_partial, C39_stored_partial, C39_wavenumber_lags, C39_wavenumber_refuted, C39_zero_na_refuted, C40_kernel_size_partial, C40_size_mismatch_refuted, C40_size_odd_partial, C40_size_one_refuted, C40_unset_several_refuted, C41_kept_partial, C41_pixel_size_refuted, C42_crop, C42_idempotent, C42_other_cases, C43_airy_flag_kept, C43_airy_flag_refuted, C43_configured, C43_kernel_size_estimated, C43_kernel_size_refuted, C43_names, C43_other_file, C43_round_trip_partial, C43_stale_file_refuted, C44_identity_binary64_refuted, C47_image, C47_overflow, C49_random_phases, C51_derivative_bound, C51_radial_sensitivity, C51_value_sensitivity, C52_kernel, C52_limit, C52_point, C52_point_list, C53_airy_ref_pattern, C53_centre, C53_integral_is_airy, C53_kernels_agree, C54_atomic_refuted, C54_crash, C54_prefix_unreadable, C54_repair_refuted, C54_save_read, C54_text_round_trip, C54_trailing, C55_after_deinitialise_refuted, C55_any_schedule, C55_ends, C55_second_object_refuted, C55_too_many_refuted, C55_uninitialised_refuted, C56_after_read_refuted, C56_configured, C56_kernel_partial, C57_bounded_refuted, C57_radial_error, C57_value_error, C58_equal_surface, C58_profile, C58_sum_on_fig, C58_surface, C58_surface_on_fig, C59_functions_exist, C59_kernel, C59_kernel_list, C59_methods_agree, C59_normalized, C59_point, C59_point_list, C60_array_refuted, C60_as_if_copied_partial, C60_calculation_immune, C60_cropped_window_refuted, C60_default_kernel_refuted, C60_list_refuted, C60_never_written, C60_new_array, C60_returned_kernel_refuted, C61_radial_dr_error, C61_triangular_dtheta_error, C62_exact_recovery, C62_noise, C62_wavefront, C62_well_posed, C63_background_fitted, C63_piston_refuted, C63_round_trip_partial, C63_tilt_refuted, C64_image_error, C64_sum_error, C64_surface_error, C64_unrounded_image, C65_central_pixel, C65_integral_range, C65_integral_sensitivity, C65_kernels_close, C65_rms, C65_strehl, C66_binary64, C66_kernel, C66_single, C67_half_turn, C67_integral, C67_integral_symmetric, C67_kernel, C67_left_right, C67_sign, C67_sign_kernel, C67_symmetric, C67_up_down, C68_integral_slope, C68_neighbours, C68_normalised, C69_agree, C69_kernel, C69_kernel_list, C70_program, C70_scaled, C70_scaled_maximum_refuted, C70_scaled_unsigned, C70_uniform, C70_unsigned, C70_value, C71_noise_factor, C72_exact_model, C72_fit_error, C72_fit_rejects, C73_half_pyramid, C74_accelerated, C74_accelerated_list, C74_binary64, C74_binary64_accelerated, C74_binary64_accelerated_list, C74_binary64_list, C74_binary64_usual, C74_cropped, C74_list, C74_object, C74_single, C75_objects, C75_short_version_refuted, C76_derivatives_binary64, C76_high_orders_exact, C76_radial_binary64, C77_after_calculation, C77_composed_titles, C77_dark, C77_overflow, C77_visualize, C77_visualize_new, C78_equal_surface, C78_found, C78_printed, C78_single, C78_surface, C79_measured_psf, C79_strehl, C80_amplitude, C80_amplitude_refuted, C80_covers, C80_covers_refuted, C80_largest, C80_order, C80_pixel, C80_several, C80_single, C80_symmetric, C80_units, C81_airy_quiet, C81_calculate, C81_coefficients, C81_only_warnings, C81_only_warnings_refuted, C81_outcome, C81_pixel_quiet, C81_pixel_quiet_refuted, C81_rejected, C81_suppressed
