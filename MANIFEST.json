{
 "claims": [
  {
   "property": "C01",
   "status": "proved",
   "theorems": [
    "C01_get_returns_latest",
    "C01_contains_iff_present",
    "C01_add_line_parsing",
    "C01_add_line_verbatim",
    "C01_keys_in_insertion_order",
    "C01_keys_distinct",
    "C01_comments_kept",
    "C01_stringsEqual",
    "C01_stringsEqual_cstring"
   ],
   "note": ""
  },
  {
   "property": "C02",
   "status": "proved",
   "theorems": [
    "C02_ini_roundtrip",
    "C02_read_is_wellformed",
    "C02_read_no_ub",
    "C02_edit_save_reload",
    "C02_unnamed_section_refuted"
   ],
   "note": "Round trip proved for well-formed configurations (and everything the reader can produce is well-formed); the unrestricted claim is refuted: an unnamed section created after a named one is merged into it."
  },
  {
   "property": "C03",
   "status": "proved",
   "theorems": [
    "C03_split_is_tokenisation",
    "C03_endsWith"
   ],
   "note": ""
  },
  {
   "property": "C04",
   "status": "proved",
   "theorems": [
    "C04_toInt_saturates",
    "C04_toInt_errors",
    "C04_toBool_language"
   ],
   "note": ""
  },
  {
   "property": "C05",
   "status": "partial",
   "theorems": [
    "C05_binSearch_real",
    "C05_binSearch_int",
    "C05_binSearch_double_safe",
    "C05_binSearch_double_partial",
    "C05_binSearch_double_refuted",
    "C05_degenerate_grid_refuted"
   ],
   "note": "Exact theorem for exact arithmetic and integers; for IEEE doubles (Flocq) memory safety is proved for every finite increasing array, the enclosing-bin claim is proved partially and refuted for overflowing/degenerate grids."
  },
  {
   "property": "C06",
   "status": "partial",
   "theorems": [
    "C06_constructor",
    "C06_write_then_read",
    "C06_values_complete",
    "C06_elem_enumerates_partial",
    "C06_elem_enumerates_refuted"
   ],
   "note": "elem(k) enumerates values() when N>=2B; refuted otherwise (3x3 matrix with bandwidth 2 reports column 3)."
  },
  {
   "property": "C07",
   "status": "proved",
   "theorems": [
    "C07_solveBand_correct",
    "C07_solveBand_dominant",
    "C07_solveBand_length"
   ],
   "note": ""
  },
  {
   "property": "C08",
   "status": "proved",
   "theorems": [
    "C08_dgemv_band",
    "C08_dgemv_length",
    "C08_daxpy_band",
    "C08_dmul_band",
    "C08_product_undoes_solve"
   ],
   "note": ""
  },
  {
   "property": "C09",
   "status": "partial",
   "theorems": [
    "C09_elem_position",
    "C09_elem_range",
    "C09_values_match_elem",
    "C09_triplets_distinct",
    "C09_triplets_accumulate",
    "C09_triplets_duplicates_refuted",
    "C09_band_to_dense",
    "C09_band_to_dense_generic_partial"
   ],
   "note": "Enumeration proved for every well-formed CSC matrix, both builds. Construction of a dense matrix from triplets differs between the Eigen and GSL builds for duplicate positions (refuted); band->dense through elem is partial (2B<=N)."
  },
  {
   "property": "C10",
   "status": "proved",
   "theorems": [
    "C10_disposed_exactly_once",
    "C10_operation_effect",
    "C10_reset_releases_refuted"
   ],
   "note": "Proved for single-threaded histories with nested destruction of member pointers and allocation failures; reset() of an aliasing pointer that stores null keeps ownership (refuted corner case)."
  },
  {
   "property": "C11",
   "status": "proved",
   "theorems": [
    "C11_nested_handlers",
    "C11_interrupt_persists"
   ],
   "note": ""
  },
  {
   "property": "C12",
   "status": "proved",
   "theorems": [
    "C12_thread_generator_exact_period",
    "C12_thread_generator_visits_all_states",
    "C12_jump_is_2pow64_steps",
    "C12_seeding_never_zero",
    "C12_thread_streams_do_not_overlap",
    "C12_one_state_per_thread",
    "C12_different_seeds_differ",
    "C12_user_generator_exact_period",
    "C12_user_state_zero_refuted"
   ],
   "note": "Proved for every seed; a user-provided state of zero stays at zero forever (refuted corner case)."
  },
  {
   "property": "C13",
   "status": "partial",
   "theorems": [
    "C13_no_out_of_bounds",
    "C13_thread_private_if_not_adjacent_partial",
    "C13_adjacent_threads_share_state_refuted",
    "C13_thread_uses_its_seeded_state_refuted",
    "C13_upper_half_of_seeds_never_changes"
   ],
   "note": "With explicit states the streams are independent of scheduling; random(NULL) indexes state[tid] although two words per thread are used, so adjacent threads share a word (refuted)."
  },
  {
   "property": "C14",
   "status": "proved",
   "theorems": [
    "C14_random_in_closed_unit_interval",
    "C14_random_is_one_iff",
    "C14_random_below_one_refuted"
   ],
   "note": "Range [0,1] with an exact characterisation; the half-open range [0,1) is refuted: 1.0 is returned for the top 1024 values."
  },
  {
   "property": "C15",
   "status": "proved",
   "theorems": [
    "C15_output_is_a_permutation",
    "C15_each_permutation_from_exactly_one_choice_sequence"
   ],
   "note": ""
  },
  {
   "property": "C16",
   "status": "proved",
   "theorems": [
    "C16_halton_is_radical_inverse",
    "C16_halton_terminates_in_range",
    "C16_halton_injective",
    "C16_halton_stratified",
    "C16_halton_bad_base_refuted"
   ],
   "note": "Termination and distinctness for bases >= 2."
  },
  {
   "property": "C17",
   "status": "proved",
   "theorems": [
    "C17_unit_vector",
    "C17_every_unit_vector_reachable",
    "C17_perpendicular_vector",
    "C17_rotation_matrix",
    "C17_normal_numbers"
   ],
   "note": ""
  },
  {
   "property": "C18",
   "status": "proved",
   "theorems": [
    "C18_any_history_is_consistent",
    "C18_operations_are_safe",
    "C18_boundaries_are_the_box",
    "C18_run",
    "C18_result_independent_of_schedule",
    "C18_loop_over_cells_terminates"
   ],
   "note": "Exact-real arithmetic; the quasi-random numbers are an arbitrary function with values in [0,1) and the user's function is arbitrary (may fail). Floating-point corner not covered: a coordinate lower+(upper-lower)*u may round up to the upper boundary, where the histogram index 16 would be out of range. Termination of the loop over cells is shown for pairwise distinct coordinates (the general claim is false for coincident points); the outer loop has a fixed number of iterations. The error estimate and Ctrl-Break are not modelled."
  },
  {
   "property": "C19",
   "status": "proved",
   "theorems": [
    "C19_exactly_N_distinct_points",
    "C19_sampleNdim",
    "C19_constant_function"
   ],
   "note": "Exact-real arithmetic (the accumulated sum equals the integral exactly; in floating point the final assertion relies on identical order of summation). At least one requested sample: for zero samples the code takes &permutation.front() of an empty vector."
  },
  {
   "property": "C20",
   "status": "proved",
   "theorems": [
    "C20_roundtrip_positions",
    "C20_roundtrip_velocities",
    "C20_roundtrip_full",
    "C20_crash_positions",
    "C20_crash_velocities",
    "C20_crash_full",
    "C20_ignored_lines",
    "C20_reader_safe",
    "C20_detected",
    "C20_short_file_refuted",
    "C20_header_newline_refuted",
    "C20_nonfinite_refuted"
   ],
   "note": "Unit conversions in exact rational arithmetic; printf/strtod after the C standard. Particles must have finite x (a particle with x = NaN or +inf is silently dropped on reading: refuted), the header must not contain a newline (refuted otherwise), and an empty file makes readSnapshot read uninitialised memory (refuted). Optional UNSIO formats not modelled."
  },
  {
   "property": "C21",
   "status": "proved",
   "theorems": [
    "C21_well_formed",
    "C21_roundtrip",
    "C21_append",
    "C21_elements",
    "C21_python_roundtrip",
    "C21_no_particles_refuted",
    "C21_python_empty_refuted",
    "C21_truncated_hangs_refuted",
    "C21_header_nul_refuted"
   ],
   "note": "Float/double conversion is an arbitrary function into 32/64-bit patterns (little-endian machine). Zero particles are undefined behaviour (refuted). Python reader: story items, PhaseSpace entry and byte-swapped files not modelled. A file truncated inside a tag makes the Python reader loop forever (refuted)."
  },
  {
   "property": "C22",
   "status": "proved",
   "theorems": [
    "C22_gravitational_constant",
    "C22_conversion",
    "C22_invariance",
    "C22_compound",
    "C22_external",
    "C22_arcsec_refuted"
   ],
   "note": "The arcsec constant is written with 7 digits of pi, so exactness of the angular units is refuted; everything else exact in real arithmetic."
  },
  {
   "property": "C23",
   "status": "proved",
   "theorems": [
    "C23_car_cyl_car",
    "C23_car_sph_car",
    "C23_positions_car",
    "C23_cyl_car_cyl",
    "C23_sph_car_sph",
    "C23_cyl_sph_cyl",
    "C23_positions_cyl_sph",
    "C23_sph_cyl_sph",
    "C23_direct_equals_two_step",
    "C23_ranges",
    "C23_speed",
    "C23_angular_momentum",
    "C23_velocity_from_cyl",
    "C23_velocity_from_sph",
    "C23_velocity_to_cyl",
    "C23_velocity_to_sph",
    "C23_cyl_sph_at_origin_refuted"
   ],
   "note": "All six conversions of positions and velocities among Car/Cyl/Sph, everywhere incl. the axis and the origin, in exact arithmetic. Corner case refuted: Cyl->Sph at the origin drops vphi and may return theta<0. Infinite coordinates and the Axi/ProlSph systems are not part of this theorem."
  },
  {
   "property": "C24",
   "status": "proved",
   "theorems": [
    "C24_cyl_function_in_cartesian",
    "C24_sph_function_in_cartesian",
    "C24_car_function_in_cylindrical",
    "C24_sph_function_in_cylindrical",
    "C24_car_function_in_spherical",
    "C24_cyl_function_in_spherical",
    "C24_value_everywhere",
    "C24_two_step",
    "C24_radial_cartesian",
    "C24_radial_cylindrical",
    "C24_radial_spherical",
    "C24_gradient_meaning"
   ],
   "note": "All six conversions, first and second derivatives, any function possessing derivatives; Car<-Cyl/Sph off the z axis (on the half-plane where atan2 jumps for 2pi-periodic functions); radial functions everywhere; the two-step conversion for the instance Car<-Cyl<-Sph."
  },
  {
   "property": "C25",
   "status": "proved",
   "theorems": [
    "C25_sum_of_components",
    "C25_derivatives",
    "C25_closed",
    "C25_density",
    "C25_composite_density",
    "C25_batch",
    "C25_batch_density",
    "C25_poisson",
    "C25_symmetry",
    "C25_symmetry_density",
    "C25_rejected"
   ],
   "note": "For arbitrary lists of components of any native coordinate system; nested composites included. The enclosed-mass loop is a parameter."
  },
  {
   "property": "C26",
   "status": "proved",
   "theorems": [
    "C26_accepted",
    "C26_clamped",
    "C26_linear",
    "C26_at_nodes",
    "C26_nearest",
    "C26_derivatives",
    "C26_closed",
    "C26_symmetry"
   ],
   "note": "Exact-real times; also true derivatives in all systems and closure under composition."
  },
  {
   "property": "C27",
   "status": "proved",
   "theorems": [
    "C27_shifted",
    "C27_tilted",
    "C27_rotating",
    "C27_scaled",
    "C27_uniform_acceleration",
    "C27_points",
    "C27_closed",
    "C27_density_shifted",
    "C27_density_tilted",
    "C27_density_rotating",
    "C27_density_scaled",
    "C27_poisson",
    "C27_batch",
    "C27_symmetry",
    "C27_mass"
   ],
   "note": "Shifted, Tilted, Rotating, Scaled and UniformAcceleration, potentials and densities, with time-dependent parameters as arbitrary functions."
  },
  {
   "property": "C28",
   "status": "proved",
   "theorems": [
    "C28_regular_sampling",
    "C28_integrate_trajectory",
    "C28_every_timestep",
    "C28_last_state_only",
    "C28_large_times_refuted",
    "C28_second_run_gap_refuted"
   ],
   "note": "Exact-real times, arbitrary internal steps. Sampling interval comparable to the rounding slack of the time variable leads to an out-of-bounds write, and a second run() starting at the solver's overshoot leaves unassigned points (both refuted)."
  },
  {
   "property": "C29",
   "status": "proved",
   "theorems": [
    "C29_initial_conditions",
    "C29_normalisation",
    "C29_newton_car",
    "C29_newton_cyl",
    "C29_newton_sph",
    "C29_jacobi_integral",
    "C29_angular_momentum",
    "C29_energy_car",
    "C29_hermite",
    "C29_hermite_refused",
    "C29_negative_R_refuted",
    "C29_theta_beyond_pole_refuted",
    "C29_hermite_time_dependent_refuted"
   ],
   "note": "All three coordinate systems, rotating frame included, arbitrary (time-dependent) potentials; refuted corner states: R<0 or theta outside [0,pi] with non-zero azimuthal velocity (the integrator can step there, the initial conditions cannot), and the Hermite jerk for a time-dependent potential. Exact-real right-hand sides; the ODE stepping itself is not modelled."
  },
  {
   "property": "C30",
   "status": "proved",
   "theorems": [
    "C30_index_roundtrip",
    "C30_constructor",
    "C30_selection",
    "C30_no_coefficient_lost",
    "C30_rotation_refuted",
    "C30_reported_symmetry_refuted",
    "C30_inferred",
    "C30_azimuthal",
    "C30_restrict"
   ],
   "note": "All sizes up to 2^32 coefficients (the integer square root goes through binary64). Refuted: a declared rotational symmetry with mmax>0 does not remove m>0 harmonics; the symmetry reported by an object may be refused when passed back to the constructor."
  },
  {
   "property": "C31",
   "status": "proved",
   "theorems": [
    "C31_trig_multiples"
   ],
   "note": "Exact-real recurrence."
  },
  {
   "property": "C32",
   "status": "partial",
   "theorems": [
    "C32_linear",
    "C32_quadratic",
    "C32_zero_equation_all_points_refuted",
    "C32_cubic_partial",
    "C32_cubic_lower_degree",
    "C32_cubic_root_count_refuted",
    "C32_quartic_partial",
    "C32_quartic_finds_roots_refuted"
   ],
   "note": "Linear and quadratic solvers: exact root sets. Cubic/quartic: returned values are roots within the proved conditions; refuted: a cubic with a slightly negative discriminant within the tolerance returns a non-root double, x^4+x^2=0 returns no roots, and the zero equation returns [0]."
  },
  {
   "property": "C33",
   "status": "proved",
   "theorems": [
    "C33_integer_power",
    "C33_minimum_int_refuted",
    "C33_real_power"
   ],
   "note": "All int exponents except INT_MIN (undefined behaviour, refuted)."
  },
  {
   "property": "C34",
   "status": "proved",
   "theorems": [
    "C34_no_bracket_is_reported",
    "C34_answer_is_bracketed",
    "C34_continuous_root",
    "C34_both_endpoints_zero_refuted"
   ],
   "note": "Modelled with arbitrary (NaN/infinite derivative included) user functions. If both endpoints evaluate to zero the midpoint is returned although it need not be a root (refuted)."
  },
  {
   "property": "C35",
   "status": "proved",
   "theorems": [
    "C35_average",
    "C35_average_shift",
    "C35_dispersion_documented_refuted"
   ],
   "note": "Mean, count, and variance with 1/(N-1); the header documents 1/N (refuted)."
  },
  {
   "property": "C36",
   "status": "proved",
   "theorems": [
    "C36_wrap",
    "C36_wrap_double_range",
    "C36_wrap_double_identity",
    "C36_wrap_double_idempotent",
    "C36_wrap_double_accuracy",
    "C36_unwrap",
    "C36_unwrap_sequence"
   ],
   "note": "Exact arithmetic for any period; wrapAngle also in IEEE binary64 for every double (range, identity, idempotence, accuracy)."
  },
  {
   "property": "C37",
   "status": "partial",
   "theorems": [
    "C37_scale_of_unscale",
    "C37_unscale_of_scale",
    "C37_derivative",
    "C37_cubic_quintic_bijection",
    "C37_cubic_scale_partial",
    "C37_cubic_scale_accuracy",
    "C37_scaled_function",
    "C37_scaled_integral"
   ],
   "note": "Mutual inverses for all closed-form transformations; cubic: the approximate inverse is within a relative 2e-13 of the exact one everywhere; quintic: bijection proved; the iterative inverse of ScalingDoubleInf with u0>0 and of ScalingQui is not modelled."
  },
  {
   "property": "C38",
   "status": "proved",
   "theorems": [
    "C38_rotation",
    "C38_elementary",
    "C38_inverse",
    "C38_inverse_angles",
    "C38_euler_angles",
    "C38_euler_angles_recovered",
    "C38_face_on",
    "C38_derivatives",
    "C38_second_moments"
   ],
   "note": "For every rotation matrix (not only those built from angles)."
  },
  {
   "property": "C39",
   "status": "proved",
   "theorems": [
    "C39_bad_grid",
    "C39_bad_length",
    "C39_linear",
    "C39_cubic_hermite",
    "C39_cubic_spline",
    "C39_natural_unique",
    "C39_clamped_symmetric_refuted",
    "C39_clamped_left_only_refuted",
    "C39_quintic_hermite",
    "C39_quintic_spline"
   ],
   "note": "Exact-real arithmetic, grids of any length. Refuted: for data symmetric about the middle of the grid the prescribed end slopes are ignored (clamped_symmetric), and a slope prescribed at the left end only is ignored for two-point grids (clamped_left_only). The quintic spline built from values only, B-spline amplitudes and log-scaled splines are not modelled."
  },
  {
   "property": "C40",
   "status": "proved",
   "theorems": [
    "C40_hash_injective_in_each_word",
    "C40_hash_injective_in_seed"
   ],
   "note": ""
  },
  {
   "property": "C41",
   "status": "partial",
   "theorems": [
    "C41_product",
    "C41_shifted",
    "C41_monomial",
    "C41_gaussian",
    "C41_loglog_partial",
    "C41_loglog_second_derivative_refuted"
   ],
   "note": "All objects; LogLogScaledFnc second derivative returns 0 when f'' is (nearly) zero, refuted for f=1+x."
  },
  {
   "property": "C42",
   "status": "partial",
   "theorems": [
    "C42_monomial_integral",
    "C42_gaussian_integral_partial"
   ],
   "note": "Gaussian moments n<=7 relative to an antiderivative of exp(-y^2/2); n>=8 (incomplete gamma functions of GSL) not modelled."
  },
  {
   "property": "C43",
   "status": "partial",
   "theorems": [
    "C43_linear",
    "C43_linear_nodes",
    "C43_hermite_nodes",
    "C43_hermite_cubic",
    "C43_hermite_derivatives_partial",
    "C43_hermite_third_derivative_refuted",
    "C43_finite_differences",
    "C43_nearest_root",
    "C43_between_roots_refuted"
   ],
   "note": "hermiteDerivs gives NaN for the third derivative on a uniform grid (refuted); dxBetweenRoots returns half the documented distance (refuted)."
  },
  {
   "property": "C44",
   "status": "proved",
   "theorems": [
    "C44_cartesian",
    "C44_cylindrical",
    "C44_spherical",
    "C44_on_axis",
    "C44_at_centre",
    "C44_nonaxisymmetric_on_axis_refuted"
   ],
   "note": "Exact off the singular axis; on the axis for axisymmetric functions and at the centre for spherical ones; on the axis the result is wrong for other functions (refuted). The strip 0<R<=|z|*2^-26 is an approximation and not covered."
  },
  {
   "property": "C45",
   "status": "proved",
   "theorems": [
    "C45_harmonics",
    "C45_refused",
    "C45_orthonormal",
    "C45_table"
   ],
   "note": "Exact-real arithmetic; in the strips 0<sin(theta)<1e-8 (m<=2) the code deliberately uses leading-order expansions of the derivatives: there only the value is covered."
  },
  {
   "property": "C46",
   "status": "proved",
   "theorems": [
    "C46_coefficients",
    "C46_even",
    "C46_samples"
   ],
   "note": "Exact-real arithmetic."
  },
  {
   "property": "C47",
   "status": "proved",
   "theorems": [
    "C47_inverse",
    "C47_roundtrip",
    "C47_symmetry",
    "C47_table"
   ],
   "note": "The nodes and weights returned by prepareIntegrationTableGL are a parameter, assumed to form a symmetric Gauss-Legendre rule (exact up to degree 2n-1); shown to be satisfiable for n=3."
  },
  {
   "property": "C48",
   "status": "proved",
   "theorems": [
    "C48_parse_printed",
    "C48_print_parse_print",
    "C48_double_exact",
    "C48_15_digits_refuted"
   ],
   "note": "printf %g and strtod are modelled after the C standard (exact decimal arithmetic); 17-digit exactness for Flocq binary64 with round-to-nearest. The sign of zero is not tracked; inf and nan are covered in C20."
  },
  {
   "property": "C49",
   "status": "proved",
   "theorems": [
    "C49_monotone_increasing",
    "C49_monotone_decreasing"
   ],
   "note": "Exact-real arithmetic."
  },
  {
   "property": "C50",
   "status": "proved",
   "theorems": [
    "C50_Plummer",
    "C50_Plummer_mass",
    "C50_point_mass",
    "C50_Isochrone",
    "C50_NFW",
    "C50_NFW_density",
    "C50_NFW_centre",
    "C50_MiyamotoNagai",
    "C50_Logarithmic",
    "C50_Harmonic",
    "C50_symmetry",
    "C50_symmetry_recognized",
    "C50_outputs_independent"
   ],
   "note": "Exact-real arithmetic. Miyamoto-Nagai in Cartesian coordinates: off the z axis. NFW within 7e-4 scale radii: error bounds instead of exactness. Enclosed masses computed numerically by the base class (Isochrone, NFW, Miyamoto-Nagai, ...) are not modelled."
  },
  {
   "property": "C51",
   "status": "partial",
   "theorems": [
    "C51_kepler_root",
    "C51_solver_accuracy",
    "C51_solver_terminates_partial",
    "C51_newton",
    "C51_orbit",
    "C51_apsides",
    "C51_single",
    "C51_value_and_gradient",
    "C51_hessian_sign_refuted",
    "C51_hessian_refuted",
    "C51_symmetry",
    "C51_mass",
    "C51_enclosed_mass_refuted",
    "C51_enclosed_mass_single_refuted"
   ],
   "note": "Exact-real arithmetic. Missing: termination of the solver for eccentricities above 0.7 (accuracy at return is proved up to 1-1e-10). Orbit theorems are for an exact solver (shown to exist; the actual one is within 2e-15/(1-e)). Refuted: the Hessian returned by KeplerBinary has the wrong sign; enclosedMass is zero inside the semimajor axis even when the black holes are within the radius."
  },
  {
   "property": "C52",
   "status": "partial",
   "theorems": [
    "C52_pieces",
    "C52_integrate_power",
    "C52_integrate_power_exact_rule",
    "C52_integrate_trivial",
    "C52_integrate_fnc_partial",
    "C52_integrate_fnc_refuted",
    "C52_high_power_refuted",
    "C52_convolve",
    "C52_vandermonde",
    "C52_skipped_segment_refuted"
   ],
   "note": "Exact-real arithmetic with the actual tabulated constants (doubles nearest to the literals). Refuted: integrate(x1,x2,f), and integrate(x1,x2,n) with n above ~35, read uninitialised memory (sum += I0[i] instead of I0[i-i1]) whenever x1 lies at or beyond the second node; a segment where f integrates to zero is dropped although f changes sign there (7/3 instead of 3 in the example)."
  },
  {
   "property": "C53",
   "status": "partial",
   "theorems": [
    "C53_polynomials",
    "C53_bounded",
    "C53_monotone",
    "C53_nonneg",
    "C53_bad_order",
    "C53_many",
    "C53_table_partial",
    "C53_table_negative_refuted"
   ],
   "note": "The tables are the exact doubles; the sums are over the reals. Missing: prepareIntegrationTableGL for orders without a table (iterative computation)."
  },
  {
   "property": "C54",
   "status": "partial",
   "theorems": [
    "C54_construct",
    "C54_basis",
    "C54_support",
    "C54_basis_outside",
    "C54_wrapper",
    "C54_interpolate",
    "C54_addPoint",
    "C54_deriv",
    "C54_antideriv",
    "C54_integrate",
    "C54_integrate_exact_rule",
    "C54_integrate_fnc_partial",
    "C54_integrate_fnc_refuted",
    "C54_convolve",
    "C54_eval_refuted"
   ],
   "note": "Everything but eval is proved for every degree; eval(x, values) is refuted (writes to a local array instead of the output, out of bounds beyond the first segment), and integrate(x1,x2,f) inherits the undefined behaviour of C52."
  },
  {
   "property": "C55",
   "status": "partial",
   "theorems": [
    "C55_linear_roots",
    "C55_bspline_roots",
    "C55_cubic_roots_partial",
    "C55_no_failure",
    "C55_cubic_extrema",
    "C55_bspline_extrema",
    "C55_linear_extrema_partial",
    "C55_extrema_complete",
    "C55_degree_0",
    "C55_disjoint_interval_refuted",
    "C55_point_interval_refuted",
    "C55_distinct_roots_refuted",
    "C55_linear_extrema_right_end_refuted",
    "C55_linear_extrema_disjoint_refuted"
   ],
   "note": "Linear and B-spline roots and cubic/B-spline extrema are proved; cubic roots assume the discriminant of each cubic piece is not within rounding error of zero without being zero (C32's solver tolerance); linear extrema assume the right limit is not at an inner node. Refuted: limits outside of the grid (failed assertion), degenerate interval, duplicate roots at x=0, missing right end for linear interpolators. Quintic extrema: only order, range and absence of failures; quintic roots are not modelled."
  },
  {
   "property": "C56",
   "status": "partial",
   "theorems": [
    "C56_uniform_grid",
    "C56_exp_grid",
    "C56_nonuniform_grid_partial",
    "C56_nonuniform_grid_equal",
    "C56_nonuniform_grid_rejects",
    "C56_two_nodes_refuted",
    "C56_mirror_grid",
    "C56_symmetric_grid"
   ],
   "note": "Uniform, exponential, mirrored and symmetric grids are proved. Growing steps: proved when xmax >= 1.001 n xmin (n nonzero nodes, n(ln(xmax/xmin)+3) <= 1e5) and the root finder does not hit its iteration limit, and when xmax = n xmin; the undocumented case xmax < n xmin is missing. Refuted: two nonzero nodes (and symmetric grids of 5 nodes) throw an exception although the documentation allows them."
  },
  {
   "property": "C57",
   "status": "partial",
   "theorems": [
    "C57_area",
    "C57_inside",
    "C57_inside_orientation_refuted",
    "C57_clip",
    "C57_safe",
    "C57_integrals",
    "C57_quadratic_partial",
    "C57_constants",
    "C57_total"
   ],
   "note": "Proved for every polygon with the constants of the code: area, inclusion, clipping, memory safety, flag, and exact integrals for spline degrees 0 and 1; for degree 2 the integrals are exact for the exact values of the quadrature constants, from which the decimal constants of the code differ by less than 1e-15 each. Missing: accuracy for degree 3 (the rules are not exact there by design; only the sum of all integrals is proved). Refuted: the documented dependence of isPointInsidePolygon on the orientation."
  },
  {
   "property": "C58",
   "status": "partial",
   "theorems": [
    "C58_point_actions",
    "C58_hamiltonian_increasing",
    "C58_unbound",
    "C58_map_actions",
    "C58_map_negative",
    "C58_frequencies",
    "C58_orbit",
    "C58_angles_partial",
    "C58_inverse_partial",
    "C58_angles_defined",
    "C58_periodic_partial",
    "C58_periodic_thetar_refuted",
    "C58_polar_refuted",
    "C58_circular_refuted",
    "C58_zero_energy_refuted"
   ],
   "note": "Proved over the reals with an exact solver of Kepler's equation: actions of every bound point, frequencies as derivatives of the Hamiltonian, Newton's equations along the mapped orbit, actions of the mapped point for any solver, and both conversions there and back for non-circular orbits with Jphi<>0. Refuted: the mapped point is not periodic in thetar (a turn added to thetar shifts the orbital phase; no range is documented); orbits with Jphi=0 keep the azimuth beyond the pole; exactly circular orbits have undefined angles; frequencies at E=0 are zero instead of the documented NaN."
  },
  {
   "property": "C59",
   "status": "partial",
   "theorems": [
    "C59_init",
    "C59_index",
    "C59_index_error",
    "C59_step_given",
    "C59_step_auto",
    "C59_step_ends",
    "C59_dense",
    "C59_linear_order",
    "C59_linear_dense",
    "C59_dense_sharp",
    "C59_linear_error",
    "C59_quadrature",
    "C59_quadrature_dense",
    "C59_poly_int",
    "C59_hermite_step",
    "C59_hermite_dense",
    "C59_hermite_polynomial",
    "C59_hermite_continuity_refuted",
    "C59_hermite_backward_refuted",
    "C59_hermite_uniform_refuted",
    "C59_hermite_index_refuted",
    "C59_hermite_init_refuted"
   ],
   "note": "Proved over the reals with the exact decimal coefficients: step accounting, step-size selection and its termination, C1 dense output, order 8 (step) and error h^7 (interpolation, sharp) for every linear autonomous system and for polynomial right-hand sides of time. Missing: the order conditions for nonlinear systems. Refuted for the Hermite solver: the interpolated position at the end of a step differs from the new position by dt^5/720 times the crackle; after a step in a uniform field the next timestep is NaN; backward steps are never repeated; an index out of range is not an error; getSol right after init does not give the state."
  },
  {
   "property": "C60",
   "status": "partial",
   "theorems": [
    "C60_construct",
    "C60_index",
    "C60_init",
    "C60_time",
    "C60_continuous_gl3",
    "C60_velocity_gl3",
    "C60_continuous_gl4_partial",
    "C60_velocity_gl4_partial",
    "C60_velocity_gl4_refuted",
    "C60_collocation_gl3",
    "C60_collocation_gl4_partial",
    "C60_nodes",
    "C60_exact_gl3",
    "C60_exact_gl4_partial",
    "C60_linear"
   ],
   "note": "Proved over the reals with the exact decimal nodes (themselves proved to be within 1e-16 of the Gauss-Legendre roots): GL3 completely (continuity, velocity = derivative, existence, uniqueness and geometric convergence to the collocation solution, exactness for quartics over any history, superposition). GL4 refuted in one point: the velocity returned by getSol inside the previous timestep has a misplaced parenthesis (4*(r+T*5*s) instead of 4*r+T*5*s), so it is not the derivative of position and is discontinuous at the beginning of the step (concrete system: 3/4 instead of 0); positions and the velocity at the current time are right, for these the same theorems as for GL3 are proved. Missing: the orders 6 and 8 with respect to the exact solution; dt=0 (division by zero) is not modelled."
  },
  {
   "property": "C61",
   "status": "partial",
   "theorems": [
    "C61_construct",
    "C61_linear",
    "C61_linear_mixed_refuted",
    "C61_cubic",
    "C61_cubic_lines",
    "C61_cubic_spline",
    "C61_clamped_symmetric_refuted",
    "C61_cubic_transpose",
    "C61_cubic_superposition",
    "C61_cubic_bilinear",
    "C61_quintic_construct",
    "C61_quintic",
    "C61_quintic_lines",
    "C61_quintic_bicubic",
    "C61_quintic_separable",
    "C61_quintic_flat",
    "C61_quintic_estimate",
    "C61_quintic_flat_refuted"
   ],
   "note": "Exact-real arithmetic, finite data. Proved for the linear and cubic interpolators (any boundary conditions and regularization for interpolation, true derivatives, NaN region and agreement with the one-dimensional spline on grid lines; C2 smoothness, sides, superposition, transposition without regularization). Refuted: the linear interpolator reports a zero mixed derivative although it is not zero; prescribed derivatives are lost on symmetric grids with symmetric data. Smoothness with regularization is not claimed. Also proved for the quintic splines, with and without the table of mixed derivatives: constructor errors, node values and derivatives, true derivatives up to the second everywhere, agreement with one-dimensional quintic splines on grid lines, exactness for bicubic (or separable cubic plus xy) polynomials, the estimate of the mixed derivative at nodes, flat lines; refuted: df/dx zero along an interior line x=x_i does not make it zero between the nodes, contrary to the code comment."
  },
  {
   "property": "C62",
   "status": "partial",
   "theorems": [
    "C62_construct",
    "C62_radial",
    "C62_radial_centre",
    "C62_radial_hole",
    "C62_vertical",
    "C62_vtol",
    "C62_density",
    "C62_ansatz",
    "C62_generic",
    "C62_residual",
    "C62_thin",
    "C62_mass",
    "C62_centre_refuted"
   ],
   "note": "Exact-real arithmetic with infinities and NaN. Proved: constructor errors, surface density with true derivatives for R>0 (and in the centre for a plain exponential or with a hole), vertical profiles with unit mass and antiderivatives (the second one exact outside the thin layer |z/h|<1e-5 or 1e-3, error bounded by 1e-20 h inside), potential, gradient, Hessian and density of the ansatz everywhere except the origin, for the built-in and for any user-supplied functions, residual density, thin disks off the plane, total mass for any Sersic index without hole and ripples (given the gamma integral). Refuted: in the centre of a disk without hole that is not a plain exponential the force, its derivatives and the ansatz density are NaN although the gradient is zero. Not modelled: mass with a hole or ripples (Bessel functions, numerical integration), infinite radii."
  },
  {
   "property": "C63",
   "status": "partial",
   "theorems": [
    "C63_construct",
    "C63_qexp",
    "C63_qexp_limit",
    "C63_exponential",
    "C63_quasiisothermal",
    "C63_dpl_value",
    "C63_dpl_gradient",
    "C63_dpl_even",
    "C63_dpl_core",
    "C63_dpl_core_refuted",
    "C63_dpl_rotation_refuted"
   ],
   "note": "Exact-real arithmetic (infinities and NaN in DoublePowerLaw). Proved: constructor conditions, documented values, positivity, true gradients at Jphi<>0, parity, the limit of small actions with a core. Not covered: the truncated series of qexp for 0<q<=1e-7, derivatives of Exponential and QuasiIsothermal at J=0 with zero additive constants, and the root-finder for beta (any 0<=beta<2 is allowed). Refuted: with a core and slopeIn>0 the value at J=0 is 0 instead of the positive limit; a rotating model with the default Jphi0=0 returns NaN for Jphi=0."
  },
  {
   "property": "C64",
   "status": "partial",
   "theorems": [
    "C64_construct",
    "C64_density",
    "C64_root",
    "C64_derivatives",
    "C64_integral",
    "C64_far",
    "C64_root_indep",
    "C64_dehnen",
    "C64_dehnen_potential_partial"
   ],
   "note": "Exact-real arithmetic; elliptic integrals as Riemann integrals; the root-finder is assumed to return the exact positive root (existence and uniqueness proved). Not covered: the sphere r=10R where the code switches to the quadrupole expansion (no continuity there), NaN for infinite positions, the flattened/triaxial Dehnen branch (numerical integration), and the accuracy of the series used by the spherical Dehnen potential at r>500(4-gamma)a."
  },
  {
   "property": "C65",
   "status": "partial",
   "theorems": [
    "C65_sampling",
    "C65_sampling_complete",
    "C65_sampling_rounding_refuted",
    "C65_selection",
    "C65_potential_samples",
    "C65_potential_mass",
    "C65_potential_mass_lost",
    "C65_output_gap",
    "C65_output_cover",
    "C65_output_multiple",
    "C65_output_zero_refuted",
    "C65_capture_radius_single",
    "C65_capture_radius_binary_refuted",
    "C65_capture_detection",
    "C65_captured_position_refuted",
    "C65_mass_history",
    "C65_mass_conserved",
    "C65_binary_masses",
    "C65_fraction_refuted",
    "C65_binary_bounds",
    "C65_binary_energy",
    "C65_binary_ecc",
    "C65_binary_momentum",
    "C65_binary_terminates",
    "C65_binary_diverges_refuted",
    "C65_kick",
    "C65_energies"
   ],
   "note": "Exact-real arithmetic except one theorem in binary64. Not modelled: detection of encounters with the binary, construction of the relaxation model and of the spherical potential, initialization, log I/O. Root-finder, random numbers and the orbit integrator are arbitrary. Refuted: rounding may lose the last sample of every star (episodeLength=100, 11 samples) and hence 1/11 of the mass of the potential; outputInterval=0 is documented to disable the output but writes snapshots twice at each boundary of episodes; capture radii of a binary use the whole mass for the first black hole and zero for the second (inverted condition, raga_losscone.cpp:121-122); the position of a captured star is an extrapolation to a wrong moment; captureMassFraction<1 is not taken into account in the mass ratio of a binary; the loop evolving the binary never ends when stars supply enough energy to dissolve it."
  },
  {
   "property": "C66",
   "status": "partial",
   "theorems": [
    "C66_derivatives",
    "C66_poisson",
    "C66_value",
    "C66_focal_derivatives",
    "C66_focal_sign_refuted",
    "C66_focal_coefs",
    "C66_focal_expansion",
    "C66_coordinates",
    "C66_oblate_construct",
    "C66_oblate_value",
    "C66_oblate_derivatives"
   ],
   "note": "Exact-real arithmetic. Proved off the symmetry axis, off the disc inside the focal ring and off the boundary of the region of the expansion (the switch itself is not claimed to be continuous; the expansion is shown to be the third-order one with an explicit remainder). Refuted: for prolate models (A<B) below the equatorial plane near the focal ring dPhi/dR and d2Phi/dRdz have the wrong sign (signp tests D instead of D2, potential_perfect_ellipsoid.cpp:148). The oblate class: derivatives proved where tau/c^2>1e-5 (below that short series are used), value where it is zero or above 1e-16."
  },
  {
   "property": "C67",
   "status": "proved",
   "theorems": [
    "C67_constructors",
    "C67_axes",
    "C67_radial_segment",
    "C67_classic0_cell",
    "C67_classic1_nodes",
    "C67_classic_partition",
    "C67_classic1_radius",
    "C67_cyl0_cells",
    "C67_cyl1_bilinear",
    "C67_sph_nodes",
    "C67_sph_origin",
    "C67_sph_linear",
    "C67_classic_projection"
   ],
   "note": "Exact-real arithmetic, int indices do not overflow; the angular functions (Legendre, cos m phi) are arbitrary here. Of computeDensityProjection only the classic scheme is covered (its quadrature increments equal addPoint's, C67_classic_projection); computeDensityProjection of the other two schemes, the choice of quadrature nodes and weights, and computeDFProjection are not modelled. The top-hat cylindrical scheme has its cell and weights proved instead of moments."
  },
  {
   "property": "C68",
   "status": "proved",
   "theorems": [
    "C68_particles",
    "C68_eddington",
    "C68_jeans_sph",
    "C68_jeans_axi",
    "C68_moments_symmetric",
    "C68_moments_inside",
    "C68_moments_rotation",
    "C68_moments_outside",
    "C68_epicycle_ratio"
   ],
   "note": "Exact reals; the generator of random numbers and the Eddington sampler are arbitrary functions of their state; construction of the Jeans and Eddington models is not modelled (interpolators are arbitrary functions). The Jeans samplers return an unbound particle after 100 rejected draws (C68_ex_unbound), so boundness is claimed for Eddington only. The comment in galaxymodel_velocitysampler.h about kappa (sigma_phi=sigma_R) differs from the code and galaxymodel_jeans.h (epicyclic ratio), which are followed here."
  },
  {
   "property": "C69",
   "status": "proved",
   "theorems": [
    "C69_polynomials",
    "C69_derivative",
    "C69_orthonormal",
    "C69_value",
    "C69_norm",
    "C69_normn_literals",
    "C69_normn_values",
    "C69_moments",
    "C69_fit_residual",
    "C69_fit_jacobian"
   ],
   "note": "Exact-real arithmetic; integrals over the real axis are limits of Riemann integrals, and norms are relative to the normalized Gaussian (its own integral is not computed). Not modelled: moments of interpolated functions and the matrix for B-splines (Gauss-Legendre quadrature), classic moments, the fitter for generic functions, orders above 2 in the fit (never used), the minimizer."
  }
 ]
}