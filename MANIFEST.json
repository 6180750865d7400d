{
 "claims": [
  {
   "property": "C01",
   "status": "proved",
   "theorems": [
    "C01_osa_bijection",
    "C01_osa_ordered"
   ],
   "note": "bijection onto Z>=0 and order, every n"
  },
  {
   "property": "C02",
   "status": "proved",
   "theorems": [
    "C02_noll_bijection",
    "C02_noll_ordered",
    "C02_noll_even_is_cosine"
   ],
   "note": "bijection, order, even index <-> cosine, every n"
  },
  {
   "property": "C03",
   "status": "proved",
   "theorems": [
    "C03_fringe_bijection",
    "C03_fringe_ordered"
   ],
   "note": "bijection, order, every n"
  },
  {
   "property": "C04",
   "status": "proved",
   "theorems": [
    "C04_index2orders_osa",
    "C04_index2orders_noll",
    "C04_index2orders_fringe",
    "C04_fringe_range"
   ],
   "note": "every index in the code's search range (osa<=1595, noll<=1596, fringe range characterised)"
  },
  {
   "property": "C05",
   "status": "partial",
   "theorems": [
    "C05_no_invented_orders_refuted",
    "C05_osa_out_of_range",
    "C05_noll_out_of_range",
    "C05_fringe_out_of_range"
   ],
   "note": "the claim is false of the code; the refutation and the exact out-of-range behaviour are proved"
  },
  {
   "property": "C06",
   "status": "partial",
   "theorems": [
    "C06_osa_noll_osa",
    "C06_noll_osa_noll",
    "C06_same_polynomial",
    "C06_beyond_range_refuted"
   ],
   "note": "round trip proved in the search range; refuted beyond it"
  },
  {
   "property": "C07",
   "status": "partial",
   "theorems": [
    "C07_osa_fringe_osa",
    "C07_fringe_osa_fringe",
    "C07_literal_roundtrip_refuted"
   ],
   "note": "round trip proved when the numpy integer is converted with int(); the literal composition is refuted"
  },
  {
   "property": "C08",
   "status": "partial",
   "theorems": [
    "C08_accepts_exactly_valid_refuted",
    "C08_accepts_exactly_partial",
    "C08_accepts_exactly_when_m_le_n_partial"
   ],
   "note": "refuted (abs m > n accepted for n > 0); the exact acceptance set is proved"
  },
  {
   "property": "C09",
   "status": "proved",
   "theorems": [
    "C09_all_spellings_agree"
   ],
   "note": "all keyword spellings"
  },
  {
   "property": "C10",
   "status": "partial",
   "theorems": [
    "C10_eq_iff_same_orders",
    "C10_trichotomy_partial",
    "C10_lt_transitive",
    "C10_trichotomy_refuted"
   ],
   "note": "equality and transitivity proved; trichotomy only for valid orders, refuted for the accepted abs m > n objects"
  },
  {
   "property": "C11",
   "status": "proved",
   "theorems": [
    "C11_radial_is_factorial_sum",
    "C11_value_is_zernike"
   ],
   "note": "exact arithmetic"
  },
  {
   "property": "C12",
   "status": "proved",
   "theorems": [
    "C12_routes_agree",
    "C12_high_order_exact_is_zero"
   ],
   "note": "exact arithmetic"
  },
  {
   "property": "C13",
   "status": "partial",
   "theorems": [
    "C13_derivative_routes",
    "C13_radial_dr_partial",
    "C13_radial_dr_refuted"
   ],
   "note": "proved for n-|m|<=38; refuted for every polynomial with n-|m|>=40 (calc_zernike_pol.py 550-551)"
  },
  {
   "property": "C14",
   "status": "proved",
   "theorems": [
    "C14_boundary_parity_bound"
   ],
   "note": "exact arithmetic"
  },
  {
   "property": "C15",
   "status": "proved",
   "theorems": [
    "C15_normf",
    "C15_orthonormal"
   ],
   "note": "Coquelicot Riemann integrals"
  },
  {
   "property": "C16",
   "status": "proved",
   "theorems": [
    "C16_triangular"
   ],
   "note": ""
  },
  {
   "property": "C17",
   "status": "proved",
   "theorems": [
    "C17_value_bounded_periodic"
   ],
   "note": ""
  },
  {
   "property": "C18",
   "status": "proved",
   "theorems": [
    "C18_coefficients_history_independent",
    "C18_coefficients_dr_history_independent",
    "C18_radial_history_independent",
    "C18_radial_dr_history_independent",
    "C18_value_history_independent"
   ],
   "note": "all histories of calls, including calls aborted by RecursionError; mutation of a returned dict by the caller is not modelled here"
  },
  {
   "property": "C19",
   "status": "proved",
   "theorems": [
    "C19_coefficients",
    "C19_derivative_coefficients",
    "C19_derivative_unsupported"
   ],
   "note": "every valid (m,n), any history"
  },
  {
   "property": "C20",
   "status": "proved",
   "theorems": [
    "C20_sum_at_points",
    "C20_surface",
    "C20_meshgrid_surface",
    "C20_rejects_lengths"
   ],
   "note": "number/number, vector/number, number/vector, vector/vector and surface requests; exact arithmetic on finite values"
  },
  {
   "property": "C21",
   "status": "proved",
   "theorems": [
    "C21_order_independent",
    "C21_zero_coefficients_dropped",
    "C21_linear"
   ],
   "note": "for calls at one point; vectors and surfaces follow pointwise from C20; dropping zero coefficients needs at least one non-zero one (an empty list is rejected)"
  },
  {
   "property": "C22",
   "status": "partial",
   "theorems": [
    "C22_never_rejects",
    "C22_large_steps_accepted",
    "C22_zero_steps",
    "C22_negative_steps",
    "C22_very_negative_steps"
   ],
   "note": "the claim is false of the code: no step is ever rejected with ValueError; the actual behaviour of each kind of bad step is proved"
  },
  {
   "property": "C23",
   "status": "partial",
   "theorems": [
    "C23_covers_exact",
    "C23_binary64_partial",
    "C23_binary64_dense",
    "C23_strict_refuted",
    "C23_end_refuted",
    "C23_equal_mesh",
    "C23_equal_mesh_binary64"
   ],
   "note": "proved in exact arithmetic; in binary64 start, order, range and density (every radius and angle within the step of a generated one) are proved, strict increase and the end point 1.0 are refuted for gen_polar_coordinates; gen_equal_polar_mesh is proved in binary64 as well"
  },
  {
   "property": "C24",
   "status": "partial",
   "theorems": [
    "C24_outside_rejected",
    "C24_inside_radial",
    "C24_inside_radial_dr",
    "C24_inside_polynomial_value",
    "C24_empty_rejected",
    "C24_nan_refuted",
    "C24_set_refuted",
    "C24_zero_surface_unchecked"
   ],
   "note": "proved for arrays, lists, tuples and numbers without NaN (radial_dr acceptance for n-|m|<=38); refuted with NaN, for sets and for all-zero surfaces"
  },
  {
   "property": "C25",
   "status": "proved",
   "theorems": [
    "C25_generate_polynomials",
    "C25_generate_polynomials_rejects"
   ],
   "note": ""
  },
  {
   "property": "C26",
   "status": "proved",
   "theorems": [
    "C26_image_shows_phases",
    "C26_polar_coordinates",
    "C26_deterministic",
    "C26_rejects"
   ],
   "note": "exact arithmetic; every image size, any history"
  },
  {
   "property": "C27",
   "status": "proved",
   "theorems": [
    "C27_crop",
    "C27_rejects"
   ],
   "note": "every image size >= 3, every sane rounding (exact arithmetic and binary64); angles in exact arithmetic"
  },
  {
   "property": "C28",
   "status": "proved",
   "theorems": [
    "C28_vectors_exact_recovery",
    "C28_image_exact_recovery",
    "C28_sampling_exists",
    "C28_contract_satisfiable"
   ],
   "note": "for every solver meeting the lstsq contract (one is constructed), every coefficient vector, every list of distinct polynomials, paired and mesh sampling, and images; independence at the sampled points is a hypothesis, and for every list of distinct valid polynomials sampling points with independence exist (C28_sampling_exists). Exact arithmetic; the returned values are rounded to the requested digits"
  },
  {
   "property": "C29",
   "status": "proved",
   "theorems": [
    "C29_least_squares",
    "C29_permutation",
    "C29_linear",
    "C29_rejects",
    "C29_rejects_dimensions"
   ],
   "note": "uniqueness, permutation, linearity (before the final rounding), rejection of empty/repeated/foreign polynomials and of N-D arrays; exact arithmetic"
  },
  {
   "property": "C30",
   "status": "partial",
   "theorems": [
    "C30_values_exact",
    "C30_values_exact_list",
    "C30_values_binary64_partial",
    "C30_unit_interval_refuted"
   ],
   "note": "proved (even < 1) in exact arithmetic; with binary64 node placement non-negativity and the bound (1+2/n_r+2^-49)^2 are proved and the bound 1 is refuted (n_r = 24)"
  },
  {
   "property": "C31",
   "status": "partial",
   "theorems": [
    "C31_focus_value"
   ],
   "note": "the claim is false of the code: the exact focus value ((n-2)/n)^2 (even n) or ((n-1)/n)^2 (odd n) is proved, never 1"
  },
  {
   "property": "C32",
   "status": "proved",
   "theorems": [
    "C32_kernel",
    "C32_kernel_list",
    "C32_normalized_range",
    "C32_values_nonneg",
    "C32_airy_kernel"
   ],
   "note": "explicit kernel size >= 3 (single polynomial) or >= 1 (list); normalised maximum is 1 unless every value is 0 (then 0/0)"
  },
  {
   "property": "C33",
   "status": "proved",
   "theorems": [
    "C33_list_of_one"
   ],
   "note": "amplitude of the list is the amplitude divided by the wavelength, as the class passes it; exact and binary64 node placement"
  },
  {
   "property": "C34",
   "status": "proved",
   "theorems": [
    "C34_piston",
    "C34_piston_alone"
   ],
   "note": "exact and binary64 node placement"
  },
  {
   "property": "C35",
   "status": "proved",
   "theorems": [
    "C35_sign_rotates",
    "C35_sign_rotates_list"
   ],
   "note": "every polynomial and every list, exact and binary64 node placement"
  },
  {
   "property": "C36",
   "status": "partial",
   "theorems": [
    "C36_single_partial",
    "C36_list_partial",
    "C36_equal_orders_refuted",
    "C36_kernel_refuted",
    "C36_documented_refuted",
    "C36_int_amplitude_refuted"
   ],
   "note": "Equality of the accelerated and the normal kernel proved for single polynomials and lists of every accepted order (n <= 10) except |m| = n with n = 8, 9, 10; for these it is false in the code (calc_psfs_numba.py 153-154 returns r^n without normalisation and angular part): refuted at the level of values and with a concrete kernel. Documented acceptance of n > 10 with |m| = n or n-2 is refuted (the condition in 337/345 is always true), and so is an integer amplitude."
  },
  {
   "property": "C37",
   "status": "partial",
   "theorems": [
    "C37_methods_agree",
    "C37_kernels_agree",
    "C37_foreign_jobs_refuted",
    "C37_class_parallel",
    "C37_class_same_kernel",
    "C37_class_wavelength_refuted",
    "C37_class_unsupported_refuted"
   ],
   "note": "loop, vectorised and joblib evaluation agree, and get_kernel_parallel (with workers) performs the same steps as calculate_psf_kernel when its wavenumber is that of the stored wavelength; refuted for a paralleljobs object that is not a joblib Parallel, for get_kernel_parallel after a change of the wavelength (kernel of another pixel size), with kernel_size < 3 (TypeError) and with several polynomials (0/0)"
  },
  {
   "property": "C38",
   "status": "partial",
   "theorems": [
    "C38_sequence_partial",
    "C38_single_partial",
    "C38_other_accepted_refuted",
    "C38_single_element_refuted"
   ],
   "note": "sequences of length other than 1 and single ZernPols as documented; refuted: a non-sequence that is not a ZernPol is silently accepted, [x] with x not a ZernPol raises AttributeError"
  },
  {
   "property": "C39",
   "status": "partial",
   "theorems": [
    "C39_accepted",
    "C39_stored_partial",
    "C39_ranges_partial",
    "C39_wavenumber_lags",
    "C39_wavenumber_refuted",
    "C39_zero_na_refuted"
   ],
   "note": "which calls are accepted, what they store, and the ranges after every history (accepted and rejected calls of all methods) are proved; refuted: the wavenumber is that of the previous wavelength (C39_wavenumber_lags says exactly when it is right), NA = 0 passes the check and is stored, rejected calls change attributes (C41)"
  },
  {
   "property": "C40",
   "status": "partial",
   "theorems": [
    "C40_size_odd_partial",
    "C40_kernel_size_partial",
    "C40_size_one_refuted",
    "C40_size_mismatch_refuted",
    "C40_unset_several_refuted"
   ],
   "note": "kernel_size is odd and positive after every history, the calculated kernel is square of odd size with values >= 0 and has size kernel_size if that is >= 3; refuted: size 1 after an accepted call, kernel_size 1 with a larger kernel, several polynomials without properties"
  },
  {
   "property": "C41",
   "status": "partial",
   "theorems": [
    "C41_unchanged_partial",
    "C41_kept_partial",
    "C41_pixel_size_refuted",
    "C41_points_refuted",
    "C41_calculation_accepted"
   ],
   "note": "calls rejected for NA, wavelength, kernel size change nothing, and which attributes every rejected call keeps; refuted for the pixel size and the number of points"
  },
  {
   "property": "C42",
   "status": "proved",
   "theorems": [
    "C42_crop",
    "C42_other_cases",
    "C42_idempotent"
   ],
   "note": "every reachable object, kernels of numbers and with NaN; moreover cropping keeps the maximum and is idempotent"
  },
  {
   "property": "C43",
   "status": "partial",
   "theorems": [
    "C43_round_trip_partial",
    "C43_written_partial",
    "C43_names",
    "C43_other_file",
    "C43_configured",
    "C43_kernel_size_estimated",
    "C43_kernel_size_refuted",
    "C43_airy_flag_kept",
    "C43_airy_flag_refuted",
    "C43_stale_file_refuted"
   ],
   "note": "kernel, physical properties, integration points, polynomial(s) and coefficient(s) are restored for every configured writer and every reader; refuted for kernel_size (re-estimated), the Airy flag, and files kept by overwrite=False. C43_names, C43_other_file: different polynomials or one polynomial with another coefficient are different files (several polynomials that differ in the coefficients only may share one: the printed array has 8 digits)"
  },
  {
   "property": "C44",
   "status": "partial",
   "theorems": [
    "C44_shape",
    "C44_value",
    "C44_linear",
    "C44_identity",
    "C44_bounds",
    "C44_unsigned",
    "C44_scaled",
    "C44_scaled_unsigned",
    "C44_black_scaled_refuted",
    "C44_tiny_kernel_refuted",
    "C44_identity_binary64_refuted"
   ],
   "note": "Exact arithmetic: shape, convolution formula, linearity, identity kernel, bounds, unsigned images, scaling proved for every image and kernel (scipy's convolve is a contract: reflect mode, weights up to DBL_EPSILON dropped). Refuted: black image with scale2original gives NaN; a kernel of weights up to DBL_EPSILON turns the image black; in binary64 the one-pixel kernel [[0.1]] turns the uint8 pixel 43 into 42. Rounding of general convolutions is not bounded."
  },
  {
   "property": "C45",
   "status": "proved",
   "theorems": [
    "C45_fair_exists",
    "C45_answers",
    "C45_no_deadlock",
    "C45_rejected",
    "C45_raise_hangs",
    "C45_one_cpu_hangs"
   ],
   "note": "interleaving model of manager, workers, queues with feeder threads and events; safety for every schedule, termination for every fair schedule; hang when f raises or os.cpu_count() = 1 proved"
  },
  {
   "property": "C46",
   "status": "partial",
   "theorems": [
    "C46_reuse_refuted",
    "C46_never_right",
    "C46_reuse_hangs",
    "C46_two_refuted"
   ],
   "note": "the claim is false of the code: the exact wrong behaviour of a second manager (parameters returned as results, IndexError, endless wait, other manager's function) is proved for every history of calls before and every schedule, with concrete runs"
  },
  {
   "property": "C47",
   "status": "proved",
   "theorems": [
    "C47_image",
    "C47_overflow"
   ],
   "note": "Exact arithmetic for exp, sqrt and the powers; roundings to 6 digits and to integers are modelled. max_intensity above 65535 raises OverflowError (C47_overflow; older NumPy wraps around instead)."
  },
  {
   "property": "C48",
   "status": "partial",
   "theorems": [
    "C48_names_injective",
    "C48_names_present",
    "C48_str_distinguishes_refuted"
   ],
   "note": "names distinct and present for n<=7; refuted for str() of higher orders"
  },
  {
   "property": "C49",
   "status": "proved",
   "theorems": [
    "C49_random_phases",
    "C49_amplitudes"
   ],
   "note": "random module and np.round as arbitrary oracles"
  },
  {
   "property": "C50",
   "status": "proved",
   "theorems": [
    "C50_single_thread",
    "C50_threads",
    "C50_value",
    "C50_derivative",
    "C50_all_return"
   ],
   "note": "actions are single dictionary or lru_cache operations (CPython with the interpreter lock); safety for every schedule by rely-guarantee, termination for every fair one; coefficient dictionaries are values because no code in the package mutates one after it is shared"
  },
  {
   "property": "C51",
   "status": "proved",
   "theorems": [
    "C51_derivative_bound",
    "C51_radial_sensitivity",
    "C51_value_sensitivity"
   ],
   "note": "exact arithmetic"
  },
  {
   "property": "C52",
   "status": "proved",
   "theorems": [
    "C52_point",
    "C52_point_list",
    "C52_kernel",
    "C52_limit"
   ],
   "note": "first-order error bound (the order is sharp, see C31) and limit; rounding of the nodes is modelled, other rounding is not"
  },
  {
   "property": "C53",
   "status": "proved",
   "theorems": [
    "C53_integral_is_airy",
    "C53_airy_ref_pattern",
    "C53_kernels_agree",
    "C53_centre"
   ],
   "note": "the Bessel function is a parameter of the model (scipy.special.jv(1, .)); the theorems assume it returns Bessel's integral, over real numbers. Kernels compared before normalisation. The identity is proved by differentiating under the integral sign: (x J1)' = x J0."
  },
  {
   "property": "C54",
   "status": "partial",
   "theorems": [
    "C54_text_round_trip",
    "C54_save_read",
    "C54_crash",
    "C54_prefix_unreadable",
    "C54_atomic_refuted",
    "C54_trailing",
    "C54_repair_refuted"
   ],
   "note": "json.dump and json.load are modelled on characters (Python's number, string, list and dict grammar); the printed form of floats is any decimal text that rounds back to the float (such texts exist for every binary64 number). Proved: round trip through text, every strict prefix is rejected, never other data. Refuted: atomicity (overwriting destroys the old file at the first instant) and repair (a broken file is kept by the default overwrite=False). Strings with escapes are not modelled (none is written)."
  },
  {
   "property": "C55",
   "status": "partial",
   "theorems": [
    "C55_any_schedule",
    "C55_ends",
    "C55_too_many_refuted",
    "C55_uninitialised_refuted",
    "C55_uninitialised_differs",
    "C55_after_deinitialise_refuted",
    "C55_second_object_refuted"
   ],
   "note": "Proved for any number of live objects (as long as the number of angles suffices for the common pool of workers), every schedule, with termination under fairness. False of the code, and proved so: workers cannot be started again after deinitialize_workers() (TypeError), another object's workers do not answer correctly after the first object's were closed, too many objects give IndexError (the fifth with 36 angles, the 38th with the default 300), and without initialisation (or for the piston) a wrong kernel is returned without an error."
  },
  {
   "property": "C56",
   "status": "partial",
   "theorems": [
    "C56_kernel_partial",
    "C56_configured",
    "C56_after_read_refuted"
   ],
   "note": "Proved for every history without read_json, kernel_size >= 3 (C40: smaller sizes are estimated again), and, if accelerated, the orders that the compiled functions calculate properly (C36). Refuted for objects that read the file of another polynomial: they keep their Airy flag, so that a piston object that reads a tilt returns the Airy pattern whatever the coefficient. Real arithmetic apart from the placement of the integration nodes."
  },
  {
   "property": "C57",
   "status": "proved",
   "theorems": [
    "C57_unrounded",
    "C57_radial_error",
    "C57_value_error",
    "C57_bounded_refuted"
   ],
   "note": "Every operation of the value routes is rounded (Flocq, binary64 with gradual underflow, no overflow); power/cos/sin are parameters within one ulp. C57_unrounded ties the rounded programs to the exact ones of C11. C57_bounded_refuted: with a correctly rounded power radial() of (0,40) returns a value above 1.02 and of (0,42) above 1.05, so the source's own stability check (|R| <= 1) fails for some radii."
  },
  {
   "property": "C58",
   "status": "partial",
   "theorems": [
    "C58_surface",
    "C58_equal_surface",
    "C58_surface_rejects",
    "C58_sum_on_fig",
    "C58_surface_on_fig",
    "C58_profile",
    "C58_profile_given",
    "C58_given_surface_on_fig",
    "C58_failure_keeps_figure",
    "C58_failure_refuted",
    "C58_profile_refuted"
   ],
   "note": "Everything proved except two clauses that are false of the code: a surface that does not fit its coordinates clears the figure before the error, and plot_profile of something that is no ZernPol silently draws nothing. Matplotlib is a contract (what it is given, and its check of shapes). Mesh in exact arithmetic and binary64; values and the products r*cos(theta) exact."
  },
  {
   "property": "C59",
   "status": "proved",
   "theorems": [
    "C59_unrounded",
    "C59_unrounded_list",
    "C59_point_list",
    "C59_point",
    "C59_methods_agree",
    "C59_kernel_list",
    "C59_kernel",
    "C59_rounding_is_small",
    "C59_normalized",
    "C59_functions_exist"
   ],
   "note": "Every arithmetic operation of the point, pixel and normalisation formulas is rounded (binary64 with gradual underflow, no overflow); numpy's functions are parameters within one ulp (C59_functions_exist: correctly rounded ones satisfy this), np.sum any order and bracketing. C59_unrounded ties the rounded programs to M_Psf. The aberration of a single-polynomial kernel has the rounded quotient alpha/wavelength as amplitude. Kernel sizes below 3 (estimated) and the Airy option are C28/C53."
  },
  {
   "property": "C60",
   "status": "partial",
   "theorems": [
    "C60_as_if_copied_partial",
    "C60_calculation_immune",
    "C60_never_written",
    "C60_new_array",
    "C60_returned_kernel_refuted",
    "C60_cropped_window_refuted",
    "C60_default_kernel_refuted",
    "C60_list_refuted",
    "C60_array_refuted"
   ],
   "note": "Heap model: arrays and lists are references, views of cropped kernels included. Proved for every program: no method writes into an existing container; programs that do not write into containers in use see what private copies would give; setters and calculations of objects made from ZernPol instances or tuples are immune to any write (if kernels are not cropped). False of the code, each with a program: the list given to the constructor (emptied: a one-point kernel without an error), the coefficient array (saved file shows coefficients the kernel was not calculated with), the returned kernel, the window kept by crop_kernel and the class-wide default kernel stay shared with the caller."
  },
  {
   "property": "C61",
   "status": "proved",
   "theorems": [
    "C61_unrounded",
    "C61_radial_dr_error",
    "C61_triangular_dtheta_error"
   ],
   "note": "Every operation of the three derivative routes (table and recurrences, exact equation, coefficient dictionaries) is rounded (binary64 with gradual underflow, no overflow); power/cos/sin are parameters within one ulp (correctly rounded ones satisfy this). C61_unrounded ties the rounded programs to the exact ones of C13 and C16. Orders for which the algorithm itself is wrong (C13_radial_dr_refuted) are excluded."
  },
  {
   "property": "C62",
   "status": "proved",
   "theorems": [
    "C62_well_posed",
    "C62_exact_recovery",
    "C62_noise",
    "C62_wavefront"
   ],
   "note": "Independence is proved at the actual pixels (two-dimensional polynomial argument on lines through the centre with integer slopes), for every image size and list of polynomials; K is the inverse of the smallest singular value times sqrt of the number of pixels (its existence is proved, no number is computed). lstsq is any function with numpy's documented contract, values are exact reals, the crop's arithmetic has any sane rounding. (N+1)(N+3) pixels is sufficient, not necessary."
  },
  {
   "property": "C63",
   "status": "partial",
   "theorems": [
    "C63_round_trip_partial",
    "C63_tilt_refuted",
    "C63_background_fitted",
    "C63_piston_refuted"
   ],
   "note": "Proved: odd sides up to 1601 pixels come back within the steepest radial slope times the mismatch of the radii (mean square over the pixels). False of the code: generate_phases_image scales the radius with 1 + min//2 and the fit with (size-1)/2, so that a tilt on 3 to 21 pixels comes back at most 0.92 times as large (C63_tilt_refuted); for even sides of 88 pixels or more the default border takes background zeros into the fit (C63_background_fitted), so that even a constant comes back too small (C63_piston_refuted)."
  },
  {
   "property": "C64",
   "status": "proved",
   "theorems": [
    "C64_unrounded_sum",
    "C64_unrounded_surface",
    "C64_unrounded_image",
    "C64_sum_error",
    "C64_surface_error",
    "C64_image_error",
    "C64_error_is_small"
   ],
   "note": "Every operation of the sum loops and of the pixel coordinates is rounded (binary64 with gradual underflow, no overflow); power, cos, sin and arctan2 are parameters within one ulp (correctly rounded ones satisfy this, C59_functions_exist). C64_unrounded_* tie the rounded programs to the exact ones of C20 and C26. Arrays are handled element by element; the radius given by the user must be a float."
  },
  {
   "property": "C65",
   "status": "proved",
   "theorems": [
    "C65_rms",
    "C65_integral_range",
    "C65_integral_sensitivity",
    "C65_strehl",
    "C65_kernels_close",
    "C65_central_pixel"
   ],
   "note": "Mean over the disk is Coquelicot's Riemann integral in polar coordinates. The bounds are proved for the diffraction integral of C52 and carried over to the binary64 kernels (normalize=False) by C52 and C59. size is the sum of |c|N, a bound of the wavefront."
  },
  {
   "property": "C66",
   "status": "proved",
   "theorems": [
    "C66_integral",
    "C66_kernel",
    "C66_single",
    "C66_binary64"
   ],
   "note": "Exact for the calculated kernels (exact arithmetic, and with binary64 placement of the radial nodes); binary64 up to the stated errors. Positive coefficients of (1,1) move the content of the kernel to smaller column numbers (the x axis of the kernel points to the left, unlike that of generate_phases_image)."
  },
  {
   "property": "C67",
   "status": "proved",
   "theorems": [
    "C67_integral",
    "C67_integral_symmetric",
    "C67_kernel",
    "C67_up_down",
    "C67_left_right",
    "C67_half_turn",
    "C67_symmetric",
    "C67_sign",
    "C67_sign_kernel"
   ],
   "note": "Exact for the diffraction integral; for calculated kernels the symmetry cannot be exact because the angular rule leaves out nodes on one side (C31), so the theorems give it up to total_error. Normalised kernels are not covered."
  },
  {
   "property": "C68",
   "status": "proved",
   "theorems": [
    "C68_integral_slope",
    "C68_neighbours",
    "C68_normalised"
   ],
   "note": "Binary64 kernels of get_psf_kernel_zerns; T is any number that bounds total_error on the kernel and is below the Strehl bound (1-s^2/2)^2. Normalised values may be below 0 only by the stated error (numpy's power is only assumed to be within one ulp)."
  },
  {
   "property": "C69",
   "status": "proved",
   "theorems": [
    "C69_unrounded",
    "C69_same_bits",
    "C69_same_bits_list",
    "C69_kernel",
    "C69_kernel_list",
    "C69_agree"
   ],
   "note": "Rounded model of the compiled functions; bit-for-bit equality with the rounded model of the normal calculation for any rounding function; error bounds with numba's own functions; pow(x, 0) = 1 is assumed (C standard). np.arange of numba is taken as numpy's. Orders outside the list are refuted in C36."
  },
  {
   "property": "C70",
   "status": "partial",
   "theorems": [
    "C70_program",
    "C70_value",
    "C70_unsigned",
    "C70_uniform",
    "C70_scaled",
    "C70_scaled_maximum_refuted",
    "C70_scaled_unsigned"
   ],
   "note": "Proved: the distance from the exact image (C70_value, C70_scaled), the range of integer images, and that a uniform image and the brightest scaled pixel lose at most one. False of the code: with scale2original the largest pixel of an integer image is kept only up to truncation - [[255, 0]] with the kernel [[15, 34, 15]] comes back with the maximum 254 (C70_scaled_maximum_refuted). Overflow is excluded by hypotheses; scipy's convolve is a contract (products accumulated one by one)."
  },
  {
   "property": "C71",
   "status": "proved",
   "theorems": [
    "C71_noise_factor",
    "C71_resolving_sizes"
   ],
   "note": "Default crop radius and border margin 0.001 only; C62_noise covers the other radii with a factor that is not explicit. Exact arithmetic on values, crop arithmetic with any sane rounding; lstsq is a parameter with its documented contract."
  },
  {
   "property": "C72",
   "status": "proved",
   "theorems": [
    "C72_fit_error",
    "C72_exact_model",
    "C72_fit_rejects",
    "C72_matrix_error"
   ],
   "note": "Default crop radius and border margin 0.001 (as C71). The solver is a parameter with a backward-stability contract; overflow is not modelled."
  },
  {
   "property": "C73",
   "status": "proved",
   "theorems": [
    "C73_polynomials",
    "C73_result",
    "C73_rejects",
    "C73_half_pyramid",
    "C73_check_conformity"
   ],
   "note": "Real arithmetic for the values. C73_polynomials, C73_result and C73_rejects cover all pairs of integer orders; the off-by-one of the message is part of C73_result. The two timed sums at the end of check_conformity (results dropped) are not modelled."
  },
  {
   "property": "C74",
   "status": "proved",
   "theorems": [
    "C74_single",
    "C74_list",
    "C74_accelerated",
    "C74_accelerated_list",
    "C74_binary64_list",
    "C74_binary64",
    "C74_binary64_accelerated",
    "C74_binary64_accelerated_list",
    "C74_binary64_usual",
    "C74_object",
    "C74_cropped"
   ],
   "note": "Values in real arithmetic, node positions exact or binary64. C32_normalized_range had 'not all values are 0' as hypothesis; here it is proved from the size of the coefficients. The accelerated versions are for the polynomials it calculates correctly (C36). C74_binary64*: the same with every operation rounded to binary64 (numpy's functions within one ulp, np.power(x, 2) never negative), as long as the rounding bound of C59 at the focus is below 3/4 cos^2 of the size; C74_binary64_usual shows this for orders up to 10, amplitude times norm up to 1.5 and up to 1000 x 1000 nodes. C74_object: the same from the calls of the user (exact values), C74_cropped: after crop_kernel."
  },
  {
   "property": "C75",
   "status": "partial",
   "theorems": [
    "C75_without_numba",
    "C75_objects",
    "C75_version",
    "C75_version_refuted",
    "C75_short_version_refuted",
    "C75_unparsable"
   ],
   "note": "C75_objects is proved for all histories and versions that pass the check; C75_version states what the check does for all versions of three numbers; the claim about older versions is false: C75_version_refuted, C75_short_version_refuted. Printing, timing and the compilation by numba are not modelled."
  },
  {
   "property": "C76",
   "status": "proved",
   "theorems": [
    "C76_tested_orders",
    "C76_max_order",
    "C76_radial_exact",
    "C76_derivatives_exact",
    "C76_coefficients_exact",
    "C76_high_orders_exact",
    "C76_outcome",
    "C76_radial_binary64",
    "C76_derivatives_binary64",
    "C76_equal_coeffs",
    "C76_table_tests",
    "C76_table_lines",
    "C76_missed_bug"
   ],
   "note": "The binary64 theorems cover max_order up to 15 (radial) and 12 (derivatives); for the larger ranges only the exact-arithmetic theorems hold, since the proved bound on the rounding errors exceeds the tolerance there."
  },
  {
   "property": "C77",
   "status": "proved",
   "theorems": [
    "C77_kernel",
    "C77_after_calculation",
    "C77_titles",
    "C77_composed_titles",
    "C77_visualize",
    "C77_visualize_new",
    "C77_overflow",
    "C77_dark"
   ],
   "note": "Exact arithmetic. Titles are given by their parts; colours, layout and colour bars are not modelled. Kernels with NaN are excluded (C74 says when there are none)."
  },
  {
   "property": "C78",
   "status": "proved",
   "theorems": [
    "C78_exists",
    "C78_surface",
    "C78_equal_surface",
    "C78_single",
    "C78_scaling",
    "C78_triangle",
    "C78_piston",
    "C78_found",
    "C78_printed"
   ],
   "note": "The values on the surfaces are exact (their rounding error: C57); coordinates, amplitudes and goals exact or binary64. C78_found says of all smaller amplitudes that they had not passed the goal by more than the mesh hides."
  },
  {
   "property": "C79",
   "status": "proved",
   "theorems": [
    "C79_measured_psf",
    "C79_strehl"
   ],
   "note": "binary64 throughout: C79_measured_psf gives a bound computable from the fitted coefficients and one computable from the true ones before the measurement (C79 composes C72, C65 and C59 through the state left by the fit); C79_strehl does the same for the central pixel (Strehl ratio) in terms of the true coefficients. Preconditions on the image as in C71/C72 (default crop radius, resolved polynomials)."
  },
  {
   "property": "C80",
   "status": "proved",
   "theorems": [
    "C80_single",
    "C80_unique",
    "C80_exists",
    "C80_several",
    "C80_largest",
    "C80_order",
    "C80_symmetric",
    "C80_units",
    "C80_pixel",
    "C80_amplitude",
    "C80_covers",
    "C80_amplitude_refuted",
    "C80_covers_refuted"
   ],
   "note": "C80_single/C80_several: the stored size against an independent specification (SpecSize.v: rounding to nearest even as a relation, factor by kind of polynomial, extra pixels), C80_exists/C80_unique: it is determined; C80_symmetric, C80_units, C80_pixel, C80_amplitude, C80_order, C80_largest, C80_covers. What a user might expect beyond that is refuted: C80_amplitude_refuted (0.49 wavelengths: 39 pixels, 0.5: 31), C80_covers_refuted. Exact arithmetic."
  },
  {
   "property": "C81",
   "status": "proved",
   "theorems": [
    "C81_outcome",
    "C81_coefficients",
    "C81_rejected",
    "C81_size",
    "C81_calculate",
    "C81_suppressed",
    "C81_only_warnings",
    "C81_only_warnings_refuted",
    "C81_pixel_quiet",
    "C81_pixel_quiet_refuted",
    "C81_airy_quiet"
   ],
   "note": "C81_outcome (the functions with warnings return what those of C39 return), C81_coefficients, C81_rejected, C81_size, C81_calculate (against cut_off of SpecWarn.v), C81_suppressed, C81_only_warnings, C81_pixel_quiet, C81_airy_quiet (needs |J1(x)/x| below 1/9 far out, from |J1| <= 1; for NA < 1 sharper bounds of the Bessel function would be needed and nothing is claimed). The exceptions: C81_only_warnings_refuted (1 against 19 pixels), C81_pixel_quiet_refuted (the pixel warning appears after a rejected call). The texts and the filters of module warnings are not modelled. Exact arithmetic."
  }
 ]
}