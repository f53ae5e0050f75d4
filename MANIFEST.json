{
 "claims": [
  {
   "property": "C01",
   "status": "proved",
   "theorems": [
    "C01_bisection_near_root",
    "C01_bisection_returns",
    "C01_bisection_same_sign_throws",
    "C01_bisection_sound"
   ],
   "note": "exact (real) arithmetic; also: returns whenever maxiter > log2(|xr-xl|/xtol)"
  },
  {
   "property": "C02",
   "status": "partial",
   "theorems": [
    "C02_endpoint_root_always_wrong",
    "C02_endpoint_root_refuted",
    "C02_throw_only_if_short_partial",
    "C02_throws_though_converged_refuted"
   ],
   "note": "both halves of the claim are false of the code (witnesses proved); what holds is C02_throw_only_if_short_partial"
  },
  {
   "property": "C03",
   "status": "partial",
   "theorems": [
    "C03_secant_affine_exact",
    "C03_secant_never_reports_failure",
    "C03_secant_silent_failure_refuted",
    "C03_secant_sound_partial"
   ],
   "note": "affine exactness proved; the failure exception is unreachable, so silent failure is proved (refuted claim); C03_secant_sound_partial states what a return does guarantee"
  },
  {
   "property": "C04",
   "status": "proved",
   "theorems": [
    "C04_nan_accepted_refuted",
    "C04_search_range",
    "C04_search_spec",
    "C04_search_succeeds",
    "C04_trial_rule"
   ],
   "note": "real arithmetic; NaN acceptance in binary64 is recorded as C04_nan_accepted_refuted"
  },
  {
   "property": "C05",
   "status": "partial",
   "theorems": [
    "C05_cubic_degenerate_refuted",
    "C05_cubic_local_min_partial",
    "C05_quadInterp_stationary",
    "C05_quadratic_min",
    "C05_quadratic_stationary"
   ],
   "note": "quadratic case and the regular cubic branch proved; degenerate cubic branch has a sign error (refuted)"
  },
  {
   "property": "C06",
   "status": "proved",
   "theorems": [
    "C06_inexact_newton"
   ],
   "note": "exact arithmetic; aborted runs (mfem_error) excluded by hypothesis"
  },
  {
   "property": "C07",
   "status": "partial",
   "theorems": [
    "C07_slope_refuted",
    "C07_slope_selfadjoint_partial"
   ],
   "note": "holds for self-adjoint Jacobians only; refuted for a rotation"
  },
  {
   "property": "C08",
   "status": "proved",
   "theorems": [
    "C08_contracts_satisfiable",
    "C08_distance_euclidean",
    "C08_nearest_is_exact"
   ],
   "note": "any monotone idempotent rounding, any nth_element meeting the ISO contract"
  },
  {
   "property": "C09",
   "status": "proved",
   "theorems": [
    "C09_add_after_finalize_refuted",
    "C09_empty_tree_throws",
    "C09_queries_do_not_interfere"
   ],
   "note": "add_node after finalize without re-finalize is UB (conservative), shown as C09_add_after_finalize_refuted"
  },
  {
   "property": "C10",
   "status": "proved",
   "theorems": [
    "C10_binary_history",
    "C10_binary_never_saved",
    "C10_slash_lost_refuted"
   ],
   "note": "field names without '/'; a field name with '/' is silently lost (C10_slash_lost_refuted)"
  },
  {
   "property": "C11",
   "status": "partial",
   "theorems": [
    "C11_ascii_history",
    "C11_nonfinite_refuted",
    "C11_print_then_read"
   ],
   "note": "proved for every finite binary64 (sign of zero not tracked); refuted for NaN/Inf"
  },
  {
   "property": "C12",
   "status": "proved",
   "theorems": [
    "C12_filenames_injective",
    "C12_loggers_disjoint"
   ],
   "note": ""
  },
  {
   "property": "C13",
   "status": "proved",
   "theorems": [
    "C13_backwards_refuted",
    "C13_exact_final_time",
    "C13_free_final_time",
    "C13_relaxed_overshoot_refuted",
    "C13_state_is_marched"
   ],
   "note": "exact arithmetic; t-initial < t-final and a marcher with t += dt; otherwise refuted (backwards run, relaxed overshoot)"
  },
  {
   "property": "C14",
   "status": "partial",
   "theorems": [
    "C14_each_step_logged_partial",
    "C14_final_overwrites_last_step_refuted",
    "C14_final_state_logged",
    "C14_initial_state_default_partial",
    "C14_log_is_readable",
    "C14_record_unique",
    "C14_steady_log"
   ],
   "note": "when t-final ends the run the final record overwrites the last step's record (refuted); everything else of the log proved"
  },
  {
   "property": "C15",
   "status": "proved",
   "theorems": [
    "C15_default_kept",
    "C15_nothing_invented",
    "C15_null_removes",
    "C15_setOptions_keeps",
    "C15_setOptions_not_atomic_refuted",
    "C15_setOptions_throws_iff",
    "C15_setOptions_wins",
    "C15_user_value_wins"
   ],
   "note": "also: a throwing setOptions may have changed part of the options (C15_setOptions_not_atomic_refuted)"
  },
  {
   "property": "C16",
   "status": "proved",
   "theorems": [
    "C16_deep_copy_callers_safe",
    "C16_deep_copy_history",
    "C16_mixed_modes_clobber_refuted",
    "C16_scalar_parameter",
    "C16_shallow_aliases",
    "C16_vector_absent_or_wrong"
   ],
   "note": "per mode; mixing shallow and deep sets on one vector overwrites the first caller's buffer (C16_mixed_modes_clobber_refuted)"
  },
  {
   "property": "C17",
   "status": "proved",
   "theorems": [
    "C17_duplicate_refused",
    "C17_fresh_accepted",
    "C17_queries_throw_iff_never_created",
    "C17_registry_after_history",
    "C17_unknown_wrt_swallowed_refuted"
   ],
   "note": "unknown derivative names are silently swallowed (C17_unknown_wrt_swallowed_refuted)"
  },
  {
   "property": "C18",
   "status": "partial",
   "theorems": [
    "C18_functional_scalar_partial_nan_refuted",
    "C18_scalar_partial_accumulates_refuted",
    "C18_vector_partial_overwrites_partial"
   ],
   "note": "the vector form overwrites for functional outputs; the scalar form accumulates and is NaN for functional outputs (refuted)"
  },
  {
   "property": "C19",
   "status": "partial",
   "theorems": [
    "C19_functional_adjoint_partial",
    "C19_mass_fill_factor_refuted",
    "C19_one_dof_state_refuted",
    "C19_quotient_adjoint_partial",
    "C19_quotient_derivative",
    "C19_reverse_accumulates"
   ],
   "note": "proved for functional and quotient outputs; the mass output wrt fill_factor and one-dof states are not adjoint (refuted); the mfem forms' own derivatives are given"
  },
  {
   "property": "C20",
   "status": "proved",
   "theorems": [
    "C20_addJacobians_sum",
    "C20_addJacobians_unsupported_refuted",
    "C20_argument_ignored_refuted",
    "C20_jacobian_is_derivative",
    "C20_relaxed_newton_stalls_refuted",
    "C20_residual_is_Mk_plus_R",
    "C20_solve_inputs_accepted"
   ],
   "note": "plus refuted side claims: unsupported addJacobians combinations keep the old Jacobian, the residual ignores its argument, hence RelaxedNewton stalls on time-dependent residuals"
  },
  {
   "property": "C21",
   "status": "proved",
   "theorems": [
    "C21_explicit_rk_scheme",
    "C21_midpoint_scheme",
    "C21_ptc_is_backward_euler",
    "C21_relaxed_step_total",
    "C21_steady_marcher_on_time_residual_refuted"
   ],
   "note": "the steady marcher applied to a time residual is refuted"
  },
  {
   "property": "C22",
   "status": "partial",
   "theorems": [
    "C22_explicit_entropy_balance_partial",
    "C22_midpoint_entropy_balance_partial",
    "C22_midpoint_quadratic_entropy",
    "C22_no_progress_refuted",
    "C22_relaxation_factor_positive"
   ],
   "note": "entropy balance up to the root finder's defect (the secant solver may stop on a small update or the iteration limit); no-progress step refuted"
  },
  {
   "property": "C23",
   "status": "proved",
   "theorems": [
    "C23_not_order_seven",
    "C23_order_six",
    "C23_row_sums",
    "C23_table_in_bounds"
   ],
   "note": "order-6 conditions of all rooted trees within 1e-34 (the published decimals), not order 7"
  },
  {
   "property": "C24",
   "status": "partial",
   "theorems": [
    "C24_sum_of_operators_partial",
    "C24_zero_coefficient_stale_refuted"
   ],
   "note": "proved for coefficients not within the code's tolerance of zero; zero coefficient leaves stale data (refuted)"
  },
  {
   "property": "C25",
   "status": "partial",
   "theorems": [
    "C25_error_bound",
    "C25_exact_on_affine_partial",
    "C25_step_size",
    "C25_zero_scale_stale_refuted"
   ],
   "note": "proved for a non-zero scale; scale 0 leaves the stale destination in the result (refuted)"
  },
  {
   "property": "C26",
   "status": "proved",
   "theorems": [
    "C26_adjoint_pair",
    "C26_blockwise"
   ],
   "note": ""
  },
  {
   "property": "C27",
   "status": "partial",
   "theorems": [
    "C27_flow_preconditioner_unknown_throws",
    "C27_hypre_solver_needs_hypre_prec_refuted",
    "C27_hyprefgmres_abstol_refuted",
    "C27_line_search",
    "C27_linear_solver_partial",
    "C27_linear_solver_unknown_throws",
    "C27_none_crashes_flow_refuted",
    "C27_nonlinear_solver",
    "C27_silent_no_preconditioner_refuted",
    "C27_time_marcher_names",
    "C27_unknown_marcher_refuted"
   ],
   "note": "documented names give the documented objects with the requested settings; exceptions proved as refuted: hyprefgmres drops abstol, magnetostatic/thermal preconditioner names fall through to nullptr, bad_cast for blockilu with hypre solvers, unknown marcher is undefined behaviour"
  },
  {
   "property": "C28",
   "status": "proved",
   "theorems": [
    "C28_conservative_roundtrip",
    "C28_entropy_roundtrip",
    "C28_entropy_variables_admissible",
    "C28_physical_iff",
    "C28_pressure"
   ],
   "note": "exact arithmetic, any dimension"
  },
  {
   "property": "C29",
   "status": "proved",
   "theorems": [
    "C29_entropy_convex",
    "C29_entropy_gradient",
    "C29_entropy_strictly_convex",
    "C29_entropy_value",
    "C29_physical_convex",
    "C29_pressure_gradient",
    "C29_relative_entropy",
    "C29_spectral_radius"
   ],
   "note": "exact arithmetic, any dimension"
  },
  {
   "property": "C30",
   "status": "proved",
   "theorems": [
    "C30_between",
    "C30_equal",
    "C30_error",
    "C30_exact_when_spread",
    "C30_symmetric"
   ],
   "note": "exact arithmetic; relative error of the series branch at most 1e-16"
  },
  {
   "property": "C31",
   "status": "proved",
   "theorems": [
    "C31_coordinate_consistent",
    "C31_coordinate_symmetric",
    "C31_coordinate_tadmor",
    "C31_entropy_variable_versions",
    "C31_euler_flux",
    "C31_face_consistent",
    "C31_face_is_combination",
    "C31_face_symmetric",
    "C31_face_tadmor"
   ],
   "note": "exact arithmetic; the Tadmor identity is exact outside the series branch of logavg and within a 1e-16 relative defect inside it"
  },
  {
   "property": "C32",
   "status": "proved",
   "theorems": [
    "C32_dissipation_entropy_variables",
    "C32_dissipation_signed",
    "C32_dissipation_vanishes",
    "C32_dissipation_versions_agree",
    "C32_dqdw_is_derivative",
    "C32_dqdw_positive_definite",
    "C32_dqdw_symmetric",
    "C32_lps_scaling"
   ],
   "note": "exact arithmetic"
  },
  {
   "property": "C33",
   "status": "proved",
   "theorems": [
    "C33_roe_average",
    "C33_roe_conservative",
    "C33_roe_consistent",
    "C33_roe_supersonic",
    "C33_roe_waves"
   ],
   "note": "exact arithmetic; also the full wave decomposition and the supersonic limit"
  },
  {
   "property": "C34",
   "status": "proved",
   "theorems": [
    "C34_boundary_characteristic",
    "C34_boundary_consistent",
    "C34_control_flux",
    "C34_entropy_constrained",
    "C34_far_field2_consistent",
    "C34_far_field2_upwind",
    "C34_far_field_versions_agree",
    "C34_supersonic_inflow",
    "C34_supersonic_outflow"
   ],
   "note": "exact arithmetic; also the characteristic decomposition and both supersonic limits"
  },
  {
   "property": "C35",
   "status": "proved",
   "theorems": [
    "C35_projection",
    "C35_projection_raises_pressure",
    "C35_slip_wall_entropy",
    "C35_slip_wall_flux",
    "C35_slip_wall_versions_agree"
   ],
   "note": "the projection keeps the energy, hence raises the pressure (C35_projection_raises_pressure)"
  },
  {
   "property": "C36",
   "status": "proved",
   "theorems": [
    "C36_equal_axes_refuted",
    "C36_free_stream",
    "C36_free_stream_1d"
   ],
   "note": "for distinct roll and pitch axes; equal axes (unchecked) refuted"
  },
  {
   "property": "C37",
   "status": "partial",
   "theorems": [
    "C37_beta_nonzero_refuted",
    "C37_degree",
    "C37_end_points",
    "C37_legendre",
    "C37_orthonormal",
    "C37_tetrahedron_orthonormal",
    "C37_tetrahedron_polynomial",
    "C37_triangle_orthonormal",
    "C37_triangle_polynomial"
   ],
   "note": "orthonormality, degree and end-point values proved for beta = 0 (the only value the code's tri/tet bases with alpha any even number need); the beta <> 0 recurrence is refuted by a witness"
  },
  {
   "property": "C38",
   "status": "proved",
   "theorems": [
    "C38_column_counts",
    "C38_segment",
    "C38_tetrahedron",
    "C38_triangle"
   ],
   "note": "exact arithmetic; column order and count of the Vandermonde matrices, each column the stated orthonormal polynomial"
  },
  {
   "property": "C39",
   "status": "proved",
   "theorems": [
    "C39_attribute_list",
    "C39_other_values",
    "C39_out_of_range"
   ],
   "note": "an attribute outside 1..n is an unchecked out-of-range write (C39_out_of_range)"
  },
  {
   "property": "C40",
   "status": "partial",
   "theorems": [
    "C40_nodes_partial",
    "C40_nodes_refuted",
    "C40_topology"
   ],
   "note": "vertices, elements, attributes and connectivity proved; node copying on curved meshes is right exactly when the marked boundary elements come first, otherwise refuted"
  },
  {
   "property": "C41",
   "status": "partial",
   "theorems": [
    "C41_distance_to_a_point",
    "C41_minimum_refuted",
    "C41_straight_element"
   ],
   "note": "returned distances are distances to a surface point, and minimal over the searched element when it is straight; minimality over the surface is refuted (only one element at the nearest node is searched)"
  },
  {
   "property": "C42",
   "status": "partial",
   "theorems": [
    "C42_borrowed_library",
    "C42_construct_mesh",
    "C42_construct_pumi_mesh_refuted",
    "C42_later_use_refuted",
    "C42_own_library"
   ],
   "note": "proved while only MISO uses the library or another owner keeps it alive; refuted when the other owner finalises it, and when constructPumiMesh is called directly"
  },
  {
   "property": "C43",
   "status": "partial",
   "theorems": [
    "C43_converged_start_refuted",
    "C43_step_sizes",
    "C43_stopping"
   ],
   "note": "exact arithmetic; a start with residual exactly zero gives a NaN step (refuted)"
  },
  {
   "property": "C44",
   "status": "proved",
   "theorems": [
    "C44_columns",
    "C44_dimensions",
    "C44_least_squares_interpolation",
    "C44_minimal_interpolation"
   ],
   "note": "exact arithmetic; LAPACK's answer is a hypothesis (solution of the system / least-squares solution, full column rank)"
  },
  {
   "property": "C45",
   "status": "proved",
   "theorems": [
    "C45_accumulates",
    "C45_blocks_symmetric",
    "C45_dissipative",
    "C45_dissipative_strict",
    "C45_sutherland",
    "C45_sutherland_freestream",
    "C45_viscous_flux_is_physical"
   ],
   "note": "exact arithmetic, any dimension"
  },
  {
   "property": "C46",
   "status": "proved",
   "theorems": [
    "C46_merit_slope_is_derivative",
    "C46_relaxed_newton_decrease"
   ],
   "note": ""
  },
  {
   "property": "C47",
   "status": "partial",
   "theorems": [
    "C47_torn_header_partial",
    "C47_torn_save_detected_refuted",
    "C47_torn_save_prefix_partial"
   ],
   "note": "the claim is false of the code: what a torn file reads as is proved for every crash point from byte 12 on and below byte 8"
  },
  {
   "property": "C48",
   "status": "proved",
   "theorems": [
    "C48_adiabatic_at_rest",
    "C48_adiabatic_entropy_neutral",
    "C48_control_penalty",
    "C48_dual_flux_is_transpose",
    "C48_no_slip_penalty_at_rest",
    "C48_no_slip_penalty_dissipative",
    "C48_no_slip_penalty_rate",
    "C48_zero_normal_derivative"
   ],
   "note": "exact arithmetic, any dimension; the assembly of the viscous boundary integrator around these point functions is not modelled here"
  },
  {
   "property": "C49",
   "status": "proved",
   "theorems": [
    "C49_affine",
    "C49_projection",
    "C49_skew",
    "C49_strong_operator",
    "C49_weak_operator"
   ],
   "note": "exact arithmetic; the numerical operator tables themselves are not checked here"
  },
  {
   "property": "C50",
   "status": "proved",
   "theorems": [
    "C50_boundary",
    "C50_dyadic_conservative",
    "C50_dyadic_entropy",
    "C50_dyadic_uniform",
    "C50_interface",
    "C50_inviscid",
    "C50_lps_conservative",
    "C50_lps_dissipative",
    "C50_lps_inactive",
    "C50_viscous"
   ],
   "note": "exact arithmetic, any flux/scaling with the stated properties"
  },
  {
   "property": "C51",
   "status": "proved",
   "theorems": [
    "C51_assembles",
    "C51_closed_domain_entropy",
    "C51_conservation",
    "C51_entropy_balance",
    "C51_entropy_state_same_residual",
    "C51_free_stream"
   ],
   "note": "exact arithmetic; the entropy identities hold up to the explicit allowance of the logarithmic average's series branch; manufactured source terms and viscous boundary terms not included"
  },
  {
   "property": "C52",
   "status": "partial",
   "theorems": [
    "C52_boundary",
    "C52_dyadic",
    "C52_interface",
    "C52_interface_negative_alpha_refuted",
    "C52_inviscid",
    "C52_lps",
    "C52_lps_coefficient_refuted",
    "C52_mass",
    "C52_viscous"
   ],
   "note": "LPS with lps_coeff other than 1 and interface terms with negative alpha are refuted; everything else proved"
  },
  {
   "property": "C53",
   "status": "partial",
   "theorems": [
    "C53_return",
    "C53_small_rules",
    "C53_stationary_points",
    "C53_stationary_rule_exact_partial"
   ],
   "note": "exactness proved for every rule whose points are stationary for the Newton step and distinct; convergence of the Newton iteration itself for all n is not proved (small n are)"
  },
  {
   "property": "C54",
   "status": "proved",
   "theorems": [
    "C54_dispatch",
    "C54_extension",
    "C54_given_mesh_needs_dot"
   ],
   "note": ""
  },
  {
   "property": "C55",
   "status": "proved",
   "theorems": [
    "C55_cfl_condition"
   ],
   "note": "exact arithmetic; distinct node positions and physical states"
  },
  {
   "property": "C56",
   "status": "partial",
   "theorems": [
    "C56_element_term",
    "C56_inviscid_2d_refuted",
    "C56_inviscid_3d_partial",
    "C56_inviscid_3d_refuted",
    "C56_viscous_2d",
    "C56_viscous_3d_partial",
    "C56_viscous_3d_refuted"
   ],
   "note": "2-D viscous case and element term fully proved; 3-D inviscid source is right for a physical flow but not for the exact solution in the code (refuted; that function is not called by the solver); inviscid 2-D overruns a 4-entry array (refuted); 3-D viscous mass and momentum right, energy wrong and exact solution reads x[3] (refuted)"
  },
  {
   "property": "C57",
   "status": "partial",
   "theorems": [
    "C57_left_half_refuted",
    "C57_vortex_boundary_flux",
    "C57_vortex_is_steady",
    "C57_vortex_state"
   ],
   "note": "proved right of the y axis outside the vacuum core; left of it the angle is wrong (refuted)"
  },
  {
   "property": "C58",
   "status": "partial",
   "theorems": [
    "C58_P_symmetric",
    "C58_coupled",
    "C58_entropy_change",
    "C58_jacobian",
    "C58_open_loop_dissipates",
    "C58_open_loop_refuted",
    "C58_parameters",
    "C58_pid",
    "C58_test_controller_lossless"
   ],
   "note": "all proved except open loop through the coupled residual, which is refuted: every later input set without the flag closes the loop again, and the coupled residual always passes such a set"
  },
  {
   "property": "C59",
   "status": "partial",
   "theorems": [
    "C59_continuation",
    "C59_continuation_second_refuted",
    "C59_derivative",
    "C59_derivative_three",
    "C59_derivative_two",
    "C59_nested",
    "C59_product",
    "C59_registration",
    "C59_reverse",
    "C59_value",
    "C59_vector",
    "C59_wrong_arity_refuted"
   ],
   "note": "proved; refuted parts: asking a coefficient of another arity for a value silently evaluates it at state zero (C59_wrong_arity_refuted), and the second derivative through a continuation is wrong (C59_continuation_second_refuted)"
  },
  {
   "property": "C60",
   "status": "partial",
   "theorems": [
    "C60_default_refuted",
    "C60_mixture_derivative",
    "C60_mixture_value",
    "C60_single_material_refuted",
    "C60_table",
    "C60_table_state",
    "C60_unknown_rule_refuted",
    "C60_weight_history"
   ],
   "note": "values, weights and derivatives proved; refuted: the default value argument is ignored, an unknown mixing rule silently gives 0, a mixture of one material is undefined behaviour"
  },
  {
   "property": "C61",
   "status": "partial",
   "theorems": [
    "C61_derivatives",
    "C61_finite_refuted",
    "C61_single_attribute_refuted",
    "C61_table",
    "C61_value"
   ],
   "note": "proved away from zero flux density and zeros of the first polynomial, where value or derivatives are not finite (refuted); a component given by \"attr\" cannot be constructed (refuted)"
  },
  {
   "property": "C62",
   "status": "proved",
   "theorems": [
    "C62_derivatives",
    "C62_sign",
    "C62_table",
    "C62_value"
   ],
   "note": "exact arithmetic, nonzero denominators; construction with \"attr\" never completes (C61_single_attribute_refuted)"
  },
  {
   "property": "C63",
   "status": "proved",
   "theorems": [
    "C63_conductivity",
    "C63_conductivity_derivatives",
    "C63_conductivity_model",
    "C63_demag_flux",
    "C63_remnant",
    "C63_unknown_model"
   ],
   "note": "exact arithmetic; reverse pass of the knee flux not covered"
  },
  {
   "property": "C64",
   "status": "partial",
   "theorems": [
    "C64_bh",
    "C64_bh_refuted",
    "C64_choice",
    "C64_lognu",
    "C64_lognu_refuted"
   ],
   "note": "model choice, lognu and BH away from the last knot and zero proved; refuted: jump of the lognu model at its last knot, BH derivative at zero flux, BH second derivative.  Splines are any functions with correct derivatives"
  },
  {
   "property": "C65",
   "status": "partial",
   "theorems": [
    "C65_boundary_rows_refuted",
    "C65_newton_partial",
    "C65_newton_refuted",
    "C65_product_partial",
    "C65_residual",
    "C65_reverse",
    "C65_transpose"
   ],
   "note": "exact arithmetic; integrators abstract with correct gradient, mfem matrix elimination by its documented effect.  Refuted: with a boundary field the products omit the boundary rows, and the step from a state violating the boundary values is not the Newton direction"
  },
  {
   "property": "C66",
   "status": "partial",
   "theorems": [
    "C66_adjoint_partial",
    "C66_adjoint_unconstrained",
    "C66_boundary_refuted",
    "C66_total_derivative"
   ],
   "note": "proved for state changes that keep the essential dofs (exact linear solver); refuted for changes of prescribed values, and finalizeAdjointSystem (never called) would flip the sign"
  },
  {
   "property": "C67",
   "status": "partial",
   "theorems": [
    "C67_history",
    "C67_linearize_refuted",
    "C67_options_refuted",
    "C67_products",
    "C67_unlinearized"
   ],
   "note": "consistency and provenance proved for every history; refuted that linearize refers to the state it is given when a matrix is already stored, or after the essential dofs change"
  },
  {
   "property": "C68",
   "status": "partial",
   "theorems": [
    "C68_field",
    "C68_load",
    "C68_scalar_partial",
    "C68_scalar_refuted"
   ],
   "note": "vector parameters and loads proved; scalar parameters proved for r vanishing on the essential dofs and refuted otherwise; jvp wrt parameters is not implemented in the code (throws or adds nothing)"
  },
  {
   "property": "C69",
   "status": "partial",
   "theorems": [
    "C69_duplicate",
    "C69_magnets_refuted",
    "C69_named_sources",
    "C69_names_refuted",
    "C69_no_current_refuted",
    "C69_sensitivity_partial",
    "C69_value"
   ],
   "note": "value after every history, refusal of duplicates and, with no magnets, both products proved; refuted: with magnets the products contain the magnets' load, without a current option they dereference a null pointer, and a group named current_density:a collides with group a"
  },
  {
   "property": "C70",
   "status": "partial",
   "theorems": [
    "C70_load_partial",
    "C70_options_refuted",
    "C70_sensitivity_partial",
    "C70_stator_refuted"
   ],
   "note": "load and sensitivity proved for histories that do not change the essential boundaries, on option tables without stator sources; refuted: setOptions keeps stale zeros, and with a stator source the sensitivity throws.  The projection onto divergence-free fields is an abstract linear assembly"
  },
  {
   "property": "C71",
   "status": "partial",
   "theorems": [
    "C71_axes",
    "C71_box",
    "C71_cw_refuted",
    "C71_magnets",
    "C71_ring",
    "C71_stator",
    "C71_stator_continuous",
    "C71_stator_ends",
    "C71_team13"
   ],
   "note": "proved except that the source named cw turns counter-clockwise (C71_cw_refuted)"
  },
  {
   "property": "C72",
   "status": "partial",
   "theorems": [
    "C72_cutoff_refuted",
    "C72_definite",
    "C72_jacobian_partial",
    "C72_magnetization_refuted",
    "C72_monotone",
    "C72_symmetric",
    "C72_variational"
   ],
   "note": "energy gradient, symmetry, definiteness, monotonicity and adjointness proved at every state; the Jacobian is the derivative where the field at each point is 0 or above the code's cut-off 1e-14, and refuted below it; the Jacobian of the magnetization integrator is refuted (class unused in the library)"
  },
  {
   "property": "C73",
   "status": "partial",
   "theorems": [
    "C73_density",
    "C73_density_derivatives",
    "C73_gradient_partial",
    "C73_zero_field_refuted"
   ],
   "note": "density and its derivatives proved; the gradient proved where the field vanishes at no quadrature point, refuted (0/0) elsewhere"
  },
  {
   "property": "C74",
   "status": "partial",
   "theorems": [
    "C74_curl_partial",
    "C74_curl_refuted",
    "C74_diffusion_partial",
    "C74_energy_partial"
   ],
   "note": "proved given that the RevDiff functions of the MFEM fork are the transposed derivatives (shown for isoparametric elements), at fields that are 0 or above the cut-off (diffusion) or nonzero (others); refuted: the curl-curl sensitivity omits alpha and divides by a zero field"
  },
  {
   "property": "C75",
   "status": "partial",
   "theorems": [
    "C75_contact",
    "C75_heat",
    "C75_jacobian_partial",
    "C75_mesh_partial",
    "C75_outflux_refuted",
    "C75_parameters_partial",
    "C75_projection",
    "C75_rule_refuted"
   ],
   "note": "laws, conservation, dissipation and projection proved; the Jacobian of internal convection, the h sensitivity of contact resistance and the mesh sensitivity of internal convection are proved when the transformation's weight has order 0 and refuted otherwise (they use other quadrature orders than the vector); the flux of the outflux condition has no sensitivity (refuted)"
  },
  {
   "property": "C76",
   "status": "partial",
   "theorems": [
    "C76_alias_refuted",
    "C76_caller_refuted",
    "C76_load_partial",
    "C76_products_partial",
    "C76_products_refuted",
    "C76_size_refuted"
   ],
   "note": "value proved for loads of the right size in a buffer of its own; refuted: evaluation zeroes the essential entries in the caller's load, a load aliasing the result, a load of the wrong size, and the products overwrite and ignore the essential entries"
  },
  {
   "property": "C77",
   "status": "partial",
   "theorems": [
    "C77_coefficient",
    "C77_construction",
    "C77_equilibrium_partial",
    "C77_reluctivity_refuted",
    "C77_sensitivities",
    "C77_temperature_3d_refuted",
    "C77_unknown_refuted",
    "C77_value"
   ],
   "note": "value, construction, mesh and temperature sensitivities proved; equilibrium proved for a reluctivity independent of the flux density; refuted: the 2-D load evaluates the reluctivity at the temperature, the 3-D load evaluates the remnant flux at temperature 0, an unknown direction is silently ignored and a missing material is undefined behaviour"
  },
  {
   "property": "C78",
   "status": "partial",
   "theorems": [
    "C78_average",
    "C78_average_constant",
    "C78_average_derivatives",
    "C78_boundary_flux",
    "C78_fill_factor_partial",
    "C78_fill_factor_refuted",
    "C78_named_state_refuted",
    "C78_null_density_refuted",
    "C78_shape_buffer_refuted",
    "C78_state_integral",
    "C78_volume",
    "C78_volume_mesh"
   ],
   "note": "volume, mesh and state derivatives, bounds of the average and boundary flux proved; refuted: mesh sensitivity with a density pointer that points to nothing, forward product and suffixed reverse product with respect to the fill factor (they use the density, not its derivative), an average of a named field (averages the state or stale scratch), and the shape buffer that is never sized (out-of-bounds write for tensor-product elements)"
  },
  {
   "property": "C79",
   "status": "partial",
   "theorems": [
    "C79_bounds",
    "C79_derivatives",
    "C79_maximum",
    "C79_monotone",
    "C79_named_field_refuted",
    "C79_processes_refuted",
    "C79_value"
   ],
   "note": "value, bounds, monotonicity, gap to the maximum and all derivatives proved on one process; refuted: on several processes every one uses its own shift, and a named field without an input state has no finite shift"
  },
  {
   "property": "C80",
   "status": "proved",
   "theorems": [
    "C80_aggregate",
    "C80_average",
    "C80_derivatives",
    "C80_products"
   ],
   "note": "average, aggregate and all derivatives proved; overflow of the unshifted exponential is outside exact arithmetic"
  },
  {
   "property": "C81",
   "status": "partial",
   "theorems": [
    "C81_mesh",
    "C81_prefix_refuted",
    "C81_scalars",
    "C81_temperature",
    "C81_value"
   ],
   "note": "value and all products proved for names given in full and nonzero conductivity, radius, strands, volume; refuted: a name that merely begins with a parameter's name gets a nonzero product although the output does not depend on it"
  },
  {
   "property": "C82",
   "status": "partial",
   "theorems": [
    "C82_fields",
    "C82_frequency_forward_refuted",
    "C82_scalars_partial",
    "C82_value"
   ],
   "note": "value, reverse products and field products proved; refuted: the forward product with respect to the frequency is the derivative divided by the strand radius (radius^3 instead of radius^4)"
  },
  {
   "property": "C83",
   "status": "partial",
   "theorems": [
    "C83_forward_refuted",
    "C83_mesh_partial",
    "C83_reverse",
    "C83_stale_mesh_refuted",
    "C83_total",
    "C83_volume_fresh_partial"
   ],
   "note": "conservation and reverse products proved, the mesh product when the stored winding volume is that of the mesh, which holds after an evaluation that does not set it; refuted: the mesh product after setting a mesh without evaluating (stale volume), and the forward products, which add nothing"
  },
  {
   "property": "C84",
   "status": "proved",
   "theorems": [
    "C84_core_loss"
   ],
   "note": "given that the coefficients' derivative functions are derivatives"
  },
  {
   "property": "C85",
   "status": "partial",
   "theorems": [
    "C85_alternating_refuted",
    "C85_one_point_partial"
   ],
   "note": "proved for one-point rules; refuted for others: the sign is flipped at every quadrature point, so contributions alternate in sign"
  },
  {
   "property": "C86",
   "status": "partial",
   "theorems": [
    "C86_continuous_output_refuted",
    "C86_copy",
    "C86_planar_curl_refuted",
    "C86_planar_field",
    "C86_planar_magnitude",
    "C86_values"
   ],
   "note": "values proved, copy and constants too; refuted: the two-dimensional curl has the wrong sign, (-dA/dy, dA/dx); a space whose elements share degrees of freedom is accepted and the elements' values are added up"
  },
  {
   "property": "C87",
   "status": "partial",
   "theorems": [
    "C87_curl",
    "C87_identity",
    "C87_magnitude",
    "C87_uninitialised_refuted",
    "C87_vector_identity"
   ],
   "note": "proved for output spaces with a nodal, value-mapped basis (what the DG option creates); where the field vanishes the magnitude's products are NaN; refuted for integral-mapped spaces: the vector transfer's mesh product depends on uninitialised memory"
  },
  {
   "property": "C88",
   "status": "partial",
   "theorems": [
    "C88_last_inputs",
    "C88_products",
    "C88_unknown_name_refuted"
   ],
   "note": "proved for histories of one operator that owns its fields; refuted: an unknown input name is silently ignored"
  },
  {
   "property": "C89",
   "status": "proved",
   "theorems": [
    "C89_closest",
    "C89_irrotational",
    "C89_projection"
   ],
   "note": "exact arithmetic, one process; the linear solver is assumed to solve the system (the code stops at 200 iterations without checking), the gradient matrix to take gradients"
  },
  {
   "property": "C90",
   "status": "partial",
   "theorems": [
    "C90_divergence_free",
    "C90_in_place_refuted",
    "C90_projection"
   ],
   "note": "proved when the destination is another vector; refuted in place: the result is then zero"
  },
  {
   "property": "C91",
   "status": "proved",
   "theorems": [
    "C91_transposed"
   ],
   "note": "same assumptions as C89, for the transposed system as well"
  },
  {
   "property": "C92",
   "status": "partial",
   "theorems": [
    "C92_mesh_partial",
    "C92_refused",
    "C92_rules_differ_refuted"
   ],
   "note": "proved when the default rules of the two mesh-sensitivity integrators give the element matrices of the projector's rule (linear simplices, equal rules); refuted otherwise: the integrators are not given ir_order (two curved segments); a vector that is not a grid function is refused"
  },
  {
   "property": "C93",
   "status": "proved",
   "theorems": [
    "C93_current_mesh",
    "C93_stale_mesh"
   ],
   "note": ""
  },
  {
   "property": "C94",
   "status": "proved",
   "theorems": [
    "C94_compatible",
    "C94_load"
   ],
   "note": "exact arithmetic, one process; the iterative solvers are assumed to solve their systems; the rule of the mass matrix and that of the projector give the same element matrices (the constructor takes the same order from element 0; meshes with one element type)"
  },
  {
   "property": "C95",
   "status": "partial",
   "theorems": [
    "C95_mesh_partial"
   ],
   "note": "proved when the default rules of the sensitivity integrators give the matrices of the projector's rule (see C92 for the refutation otherwise)"
  },
  {
   "property": "C96",
   "status": "proved",
   "theorems": [
    "C96_density"
   ],
   "note": "same assumptions as C94; the current is linear in the densities (Current.v)"
  },
  {
   "property": "C97",
   "status": "partial",
   "theorems": [
    "C97_load",
    "C97_mass_partial",
    "C97_mass_scaled_refuted"
   ],
   "note": "load: proved for every factor; mass: proved for factor 1 (the only one used in the library), refuted for other factors: the derivative through the weight lacks the factor"
  },
  {
   "property": "C98",
   "status": "partial",
   "theorems": [
    "C98_mesh_partial",
    "C98_quad_refuted",
    "C98_value"
   ],
   "note": "value: proved; derivative: proved on simplices (Pk), refuted on quadrilaterals: the load uses the rule of order 2p-2, its sensitivity that of order 2p+dim-1"
  },
  {
   "property": "C99",
   "status": "partial",
   "theorems": [
    "C99_integrator",
    "C99_mesh_refuted",
    "C99_silent"
   ],
   "note": "refuted: the sensitivity integrator is registered by a function of another name that nothing calls, so the product leaves the destination unchanged for every argument; the integrator itself is proved to give the derivative"
  },
  {
   "property": "C100",
   "status": "partial",
   "theorems": [
    "C100_solve",
    "C100_surface_input_refuted",
    "C100_tolerance"
   ],
   "note": "proved for the surface held in the state vector; refuted for \"surf_mesh_coords\": solveForState pushes it to the residual, whose Mult passes only the state, so it is ignored"
  },
  {
   "property": "C101",
   "status": "partial",
   "theorems": [
    "C101_affine_partial",
    "C101_history",
    "C101_rigid",
    "C101_undeformed"
   ],
   "note": "affine maps other than rigid ones: proved where the discrete divergence theorem holds at interior nodes (exact quadrature); all else proved. Essential boundaries must be the whole surface"
  },
  {
   "property": "C102",
   "status": "partial",
   "theorems": [
    "C102_forward",
    "C102_reverse",
    "C102_state_partial",
    "C102_state_surface_refuted"
   ],
   "note": "surface: proved; state: proved on the rows of free nodes, refuted on surface rows, where the residual is state minus surface and the product is zero"
  },
  {
   "property": "C103",
   "status": "partial",
   "theorems": [
    "C103_adjoint_product",
    "C103_surface_product_refuted",
    "C103_total"
   ],
   "note": "refuted: setUpAdjointSystem zeroes the surface entries and nothing restores them, so the product is zero for every function; proved: the total derivative is the given derivative on the surface minus the product of the adjoint with respect to \"state\" there"
  },
  {
   "property": "C104",
   "status": "proved",
   "theorems": [
    "C104_positive_definite",
    "C104_symmetric"
   ],
   "note": "mfem's ElasticityIntegrator is modelled by its documented element matrix"
  },
  {
   "property": "C105",
   "status": "partial",
   "theorems": [
    "C105_by_nodes_refuted",
    "C105_degree",
    "C105_initial",
    "C105_python_reverse",
    "C105_python_reverse_refuted"
   ],
   "note": "proved for meshes whose nodal field is ordered by component of each node; refuted for the other ordering (wrong numbers); a state of higher degree than the mesh reads out of range (proved for all); the component calls the forward product in reverse mode, out of range as soon as a surface dof is numbered beyond their number"
  },
  {
   "property": "C106",
   "status": "partial",
   "theorems": [
    "C106_essential_refuted",
    "C106_no_residual",
    "C106_no_residual_refuted",
    "C106_rate_partial",
    "C106_refused"
   ],
   "note": "proved for evolvers with a nonlinear residual (stiffness rows of essential dofs are those of the identity); refuted: rates at essential dofs are not zero, because the list is still empty when the mass matrix is eliminated; without a residual the work vector is never reset, so every call adds to the last and the first uses uninitialised memory"
  },
  {
   "property": "C107",
   "status": "partial",
   "theorems": [
    "C107_gradient_partial",
    "C107_no_mass",
    "C107_no_mass_refuted",
    "C107_residual"
   ],
   "note": "proved with a mass matrix or a nonlinear mass on the free rows along directions that vanish at essential dofs; without any mass the gradient lacks the factor dt (refuted with an example)"
  },
  {
   "property": "C108",
   "status": "partial",
   "theorems": [
    "C108_implicit",
    "C108_linear",
    "C108_no_solver",
    "C108_nonlinear_mass_partial",
    "C108_nonlinear_mass_refuted",
    "C108_stiffness_ignored",
    "C108_stiffness_refuted"
   ],
   "note": "proved without the stiffness term; refuted with it: the implicit step ignores the stiffness matrix while the explicit rate uses it; a nonlinear mass is evaluated at x - k because dt_stage keeps its default -1 (proved right for affine mass, refuted otherwise); null dereference when no Newton solver was set"
  },
  {
   "property": "C109",
   "status": "partial",
   "theorems": [
    "C109_entropy",
    "C109_gradient",
    "C109_gradient_early",
    "C109_gradient_refuted",
    "C109_ode_operator_refuted"
   ],
   "note": "GetGradient takes its argument for a slope from the last implicit step and dereferences null before the first; ODESystemOperator::Mult ignores the slope (refuted)"
  },
  {
   "property": "C110",
   "status": "partial",
   "theorems": [
    "C110_nan",
    "C110_virtual_work",
    "C110_zero_field_refuted"
   ],
   "note": "proved whenever the output is a number, for bodies with no displacement below 1e-14 and an air region that contains the neighbours of the body; the output is NaN exactly when the flux vanishes at a quadrature point of a deformed element, in particular without any field (refuted there: the virtual work is 0)"
  },
  {
   "property": "C111",
   "status": "proved",
   "theorems": [
    "C111_defined",
    "C111_state"
   ],
   "note": "for quadrature points with positive weights of the transformation; the displacement field is held fixed"
  },
  {
   "property": "C112",
   "status": "proved",
   "theorems": [
    "C112_mesh",
    "C112_output"
   ],
   "note": "the stored displacement field does not follow the mesh (C113), so neither does the derivative; RevDiff functions of the MFEM fork are the transposed derivatives"
  },
  {
   "property": "C113",
   "status": "partial",
   "theorems": [
    "C113_axis_length",
    "C113_independence_refuted",
    "C113_name_refuted",
    "C113_new_axis",
    "C113_set_options",
    "C113_shared_field",
    "C113_short_axis",
    "C113_stale_field",
    "C113_stale_rotation_refuted"
   ],
   "note": "refuted: every output stores its displacement under the fixed name vforce (vtorque), so outputs with other names throw out_of_range unless the plain one exists, and then share one field (last options win, with an example where the sign turns); setOutputOptions changes the displacement but not the attributes of the integrator; a torque keeps the rotation about old positions; short axes are read out of bounds; the force grows with the length of the axis, the torque does not"
  },
  {
   "property": "C114",
   "status": "proved",
   "theorems": [
    "C114_any_flux",
    "C114_mesh_derivative",
    "C114_translation"
   ],
   "note": "given that AdjugateJacobianRevDiff of the MFEM fork is the transposed derivative; the sum over the nodes needs mesh shape functions that sum to a constant"
  },
  {
   "property": "C115",
   "status": "partial",
   "theorems": [
    "C115_any_flux",
    "C115_position_refuted",
    "C115_slip_wall"
   ],
   "note": "slip wall proved, and any flux that does not depend on the position; refuted for fluxes that do (the template has no position sensitivity)"
  },
  {
   "property": "C116",
   "status": "proved",
   "theorems": [
    "C116_definite",
    "C116_homogeneous",
    "C116_l2",
    "C116_max",
    "C116_norm",
    "C116_partition",
    "C116_scalar",
    "C116_triangle",
    "C116_vector"
   ],
   "note": "non-negative quadrature weights, except for independence of the partition and agreement of calcL2Error with calcLpError"
  },
  {
   "property": "C117",
   "status": "partial",
   "theorems": [
    "C117_cancel_refuted",
    "C117_component_partial",
    "C117_inf_refuted",
    "C117_l2",
    "C117_nan_refuted",
    "C117_pythagoras"
   ],
   "note": "proved for every even p; refuted for others: the component error is used without fabs, so errors cancel for odd p, negative errors are ignored for p = infinity, and a non-integer p gives NaN"
  },
  {
   "property": "C118",
   "status": "partial",
   "theorems": [
    "C118_exact",
    "C118_ignored_refuted",
    "C118_local_norm_refuted",
    "C118_nan_refuted",
    "C118_overwrites",
    "C118_set",
    "C118_set_function_refuted",
    "C118_twice_refuted",
    "C118_unknown",
    "C118_vector_error",
    "C118_wrong_size"
   ],
   "note": "refuted: a function editing the state in place is applied twice to state; an mfem::Vector or unknown type is silently ignored by setState and gives NaN in calcStateError; the error against a vector is the norm of the local part and differs between processes"
  },
  {
   "property": "C119",
   "status": "proved",
   "theorems": [
    "C119_dual",
    "C119_local",
    "C119_pairing",
    "C119_state"
   ],
   "note": "the operators of ParFiniteElementSpace are MFEM's: any matrices with Rs P = I"
  },
  {
   "property": "C120",
   "status": "partial",
   "theorems": [
    "C120_copy",
    "C120_gd",
    "C120_made",
    "C120_missing_refuted",
    "C120_misspelt_refuted",
    "C120_names",
    "C120_range"
   ],
   "note": "refuted: a misspelt basis-type silently gives continuous H1, and a missing degree or basis-type is undefined behaviour"
  },
  {
   "property": "C121",
   "status": "partial",
   "theorems": [
    "C121_crash",
    "C121_distinct",
    "C121_file_names",
    "C121_history",
    "C121_other_files",
    "C121_rank",
    "C121_second_run_refuted",
    "C121_times"
   ],
   "note": "proved for the first run of a solver; refuted for later ones: emplace keeps the closed stream, so a second solveForState removes the history of the first and leaves every file empty"
  },
  {
   "property": "C122",
   "status": "partial",
   "theorems": [
    "C122_cfl_refuted",
    "C122_construct",
    "C122_entvar_refuted",
    "C122_extension",
    "C122_mesh_refuted",
    "C122_null_refuted",
    "C122_set_pair",
    "C122_steady",
    "C122_time_loop"
   ],
   "note": "refuted: with entropy variables construction demands steady and every solve then throws; a passed serial mesh is rejected if the file name has no dot; an unknown extension dereferences null; const-cfl overruns t-final"
  },
  {
   "property": "C123",
   "status": "partial",
   "theorems": [
    "C123_integrals_exist",
    "C123_tetrahedron_degree_zero_refuted",
    "C123_tetrahedron_derivative",
    "C123_tetrahedron_quadrature",
    "C123_tetrahedron_summation_by_parts",
    "C123_triangle_degree_zero_refuted",
    "C123_triangle_derivative",
    "C123_triangle_quadrature",
    "C123_triangle_summation_by_parts"
   ],
   "note": "proved for triangles of degree 1-4 and tetrahedra of degree 1; refuted at degree 0: the triangle operator has no diagonal boundary operator, the tetrahedron operator is not exact beyond constants"
  },
  {
   "property": "C124",
   "status": "partial",
   "theorems": [
    "C124_affine_gradient",
    "C124_constant_gradient_degree_zero_refuted"
   ],
   "note": "proved for degree 1-4 (error 1e-14 per unit coefficient and metric term); refuted at degree 0, where a constant field gets a spurious derivative of 1/2 of its value"
  },
  {
   "property": "C125",
   "status": "partial",
   "theorems": [
    "C125_constant_derivative_refuted",
    "C125_degree_zero",
    "C125_scaling"
   ],
   "note": "proved at degree 0 (equal weights); refuted for every triangle of degree 1-4 and the tetrahedron of degree 1: entries are divided by the weight of the other node, a constant field gets a derivative of at least 3 at node 1"
  },
  {
   "property": "C126",
   "status": "partial",
   "theorems": [
    "C126_nodal",
    "C126_segment_constant_refuted",
    "C126_triangle_reproduces"
   ],
   "note": "proved for triangles up to the defect of discrete orthonormality; refuted for segments: at every degree and point off the node objects a constant field is multiplied by sqrt 2 (basis scaled by 2 instead of sqrt 2)"
  },
  {
   "property": "C127",
   "status": "partial",
   "theorems": [
    "C127_counts",
    "C127_segment_order",
    "C127_segment_order_refuted",
    "C127_segment_reversal_refuted",
    "C127_shared_edge_nodes_coincide"
   ],
   "note": "the sharing along triangle edges and the counts are proved for degrees 0-4; refuted: the segment element's node order agrees with the triangle edges only up to degree 2, and at degree 3 its reversal table is wrong for its own nodes"
  },
  {
   "property": "C128",
   "status": "proved",
   "theorems": [
    "C128_at_rest_not_differentiable",
    "C128_boundary_conditions",
    "C128_euler_form",
    "C128_flow_jacobian",
    "C128_linear_in_v",
    "C128_mass",
    "C128_matrix_exists"
   ],
   "note": "automatic differentiation is modelled as exact partial derivatives; viscous boundary integrators (no-slip walls) are added in C129; for gas at rest the stabilisation is shown not to be differentiable at all"
  },
  {
   "property": "C129",
   "status": "partial",
   "theorems": [
    "C129_assembles",
    "C129_residual_form",
    "C129_scaled_wall_refuted",
    "C129_unscaled",
    "C129_viscous_jacobian",
    "C129_wall_conditions"
   ],
   "note": "exact for the scale factor 1 that the flow residual uses; the integrator also takes another scale factor, which its matrix ignores (C129_scaled_wall_refuted); the far-field-type ViscousInflow/Outflow/FarField classes that the flow residual never attaches are not modelled"
  },
  {
   "property": "C130",
   "status": "partial",
   "theorems": [
    "C130_closed_box",
    "C130_closed_box_entropy",
    "C130_conservation",
    "C130_entropy_balance",
    "C130_entropy_variables_refuted",
    "C130_no_mass_through_walls",
    "C130_uniform_flow_is_steady",
    "C130_wall_momentum_and_energy"
   ],
   "note": "true for conservative variables; the entropy-variable instance with viscous terms is not refused and reads entropy variables as conservative ones (C130_entropy_variables_refuted); entropy statements are up to the allowance of the logarithmic average (C51)"
  },
  {
   "property": "C131",
   "status": "proved",
   "theorems": [
    "C131_axes",
    "C131_axes_checked_refuted",
    "C131_boundaries",
    "C131_converged_force",
    "C131_directions",
    "C131_gradient",
    "C131_half_the_usual_coefficient",
    "C131_lift_is_drag_turned",
    "C131_momentum_balance",
    "C131_one_dimension",
    "C131_pressure_force",
    "C131_uniform_pressure",
    "C131_variables_agree"
   ],
   "note": "for axes of the space; the option checks (distinct, 0..2) accept axis 2 in the plane, where forming the direction writes outside a vector (C131_axes_checked_refuted); the result is D/(rho U^2), half the usual coefficient (C131_half_the_usual_coefficient)"
  },
  {
   "property": "C132",
   "status": "proved",
   "theorems": [
    "C132_converged_force",
    "C132_gradient",
    "C132_momentum_balance",
    "C132_pressure_and_traction",
    "C132_wall_momentum"
   ],
   "note": "for conservative variables and the scale factor 1 that constructOutput uses; on walls other than no-slip the output still adds the no-slip penalty and adiabatic flux, so it is not their momentum flux"
  },
  {
   "property": "C133",
   "status": "partial",
   "theorems": [
    "C133_boundary_entropy_gradient_refuted",
    "C133_boundary_entropy_value",
    "C133_boundary_entropy_variables_refuted",
    "C133_supply_rate_at_free_stream",
    "C133_supply_rate_bounded",
    "C133_supply_rate_inflow",
    "C133_supply_rate_outflow",
    "C133_supply_rate_refuted",
    "C133_weight",
    "C133_weight_in_space_refuted",
    "C133_weight_in_unit_interval",
    "C133_weighted_entropy_partial",
    "C133_weighted_entropy_refuted"
   ],
   "note": "true: the weight (up to two dimensions), the closed form of both integrands, the supply rate at the free stream, its bound for inflow.  False: the integrand adds a pressure term to the entropy, uses the conservative pressure formula on entropy variables, the supply rate uses another far-field flux than the residual, the actuator has two entries in space, and the gradient is a stale work vector (\u2026_refuted)"
  },
  {
   "property": "C134",
   "status": "partial",
   "theorems": [
    "C134_accepted",
    "C134_flow_solvers_refuted",
    "C134_last_component_wins",
    "C134_library_kept",
    "C134_own_description_refuted",
    "C134_unmentioned_kept"
   ],
   "note": "false: two descriptions under one name share it, so a component's own value or the library value another component refers to is replaced (C134_own_description_refuted), and the constructor of the flow solvers ignores descriptions (C134_flow_solvers_refuted)"
  },
  {
   "property": "C135",
   "status": "partial",
   "theorems": [
    "C135_accepted",
    "C135_external_refuted",
    "C135_field_size",
    "C135_magnetostatic_fields",
    "C135_thermal_fields"
   ],
   "note": "false for external fields called state, adjoint, dirichlet_bc or mesh_coords (dropped silently) and residual (reported with the state's size) (C135_external_refuted); an external temperature is always reset"
  },
  {
   "property": "C136",
   "status": "partial",
   "theorems": [
    "C136_attributes",
    "C136_average_state_refuted",
    "C136_create_magnetostatic",
    "C136_create_thermal",
    "C136_flux_density_space_refuted",
    "C136_flux_magnitude",
    "C136_history",
    "C136_loss_attributes_refuted",
    "C136_names_unambiguous",
    "C136_no_options_refuted",
    "C136_second_flux_magnitude_refuted"
   ],
   "note": "false: dc_loss and ac_loss ignore the attributes option and without a current are restricted to nothing; force, torque, max_flux_magnitude, max_state and heat_source throw a type error without options; a second flux_magnitude output is impossible; a flux-density output named like a field keeps that field's space; average_state of another field reads the state (\u2026_refuted)"
  },
  {
   "property": "C137",
   "status": "partial",
   "theorems": [
    "C137_change_is_weighted_residual",
    "C137_closed_box_change",
    "C137_entropy_conserving_boundary",
    "C137_entropy_is_integral",
    "C137_euler_flux_refuted",
    "C137_reported_when_defined"
   ],
   "note": "false with the Euler flux option: that integrator's energy is zero (C137_euler_flux_refuted); the documented state u + dt*du_dt is not used, the state passed in is (which is what the relaxation schemes pass)"
  },
  {
   "property": "C138",
   "status": "proved",
   "theorems": [
    "C138_closed_box_conserves",
    "C138_entropy_rate",
    "C138_local_time_step",
    "C138_mass_integrates",
    "C138_rate_exists",
    "C138_step_conserves",
    "C138_total_rate"
   ],
   "note": "conservative variables (the solver refuses unsteady runs in entropy variables, flow_solver.cpp:45); assembly only, the linear solves are exact"
  },
  {
   "property": "C139",
   "status": "partial",
   "theorems": [
    "C139_accepted",
    "C139_axes_refuted",
    "C139_boundaries",
    "C139_defaults",
    "C139_every_condition_applied_refuted",
    "C139_flux_names_refuted",
    "C139_lps_kind_refuted",
    "C139_missing_section_refuted",
    "C139_refused"
   ],
   "note": "refuted parts: any flux name but IR means the Euler flux; unknown conditions and those of the other equations are ignored; a missing flow-param is read before it is checked; lps-coeff true means none; axes are checked against 3 dimensions; attributes outside the mesh are undefined behaviour rather than refused"
  },
  {
   "property": "C140",
   "status": "partial",
   "theorems": [
    "C140_basis_spelling_refuted",
    "C140_conservation",
    "C140_free_stream",
    "C140_pump_state",
    "C140_residual"
   ],
   "note": "Ismail-Roe flux and no manufactured source in the end-to-end statements; false for the basis spelled DSBP, which selects the discontinuous space but adds no interface terms (C140_basis_spelling_refuted); the pump state only in two dimensions"
  },
  {
   "property": "C141",
   "status": "partial",
   "theorems": [
    "C141_actuator_default_refuted",
    "C141_actuator_remembered",
    "C141_change_ignores_inputs",
    "C141_change_is_rate",
    "C141_change_is_weighted_residual",
    "C141_change_moves_clock_refuted",
    "C141_evaluate_independent_of_history",
    "C141_same_inputs_refuted",
    "C141_test_controller",
    "C141_total_entropy"
   ],
   "note": "one process; the rate statement for conservative variables (the unsteady solver refuses the others); false parts: the built-in actuator position is never used, so nothing has a value until x-actuator is supplied; calcEntropyChange_ ignores every input but time and dt, so with the same inputs it need not be the rate of the reported entropy; it leaves the flow's clock at time + dt"
  },
  {
   "property": "C142",
   "status": "partial",
   "theorems": [
    "C142_bad_component_refuted",
    "C142_components",
    "C142_either_variables",
    "C142_error_is_distance",
    "C142_triangle",
    "C142_zero_iff_exact"
   ],
   "note": "exact reals; false part: a component number past the last one is not refused but reads out of bounds (C142_bad_component_refuted)"
  },
  {
   "property": "C143",
   "status": "partial",
   "theorems": [
    "C143_accepted",
    "C143_force_refuted",
    "C143_missing_field",
    "C143_named_steinmetz_refuted",
    "C143_residual_domain_attribute_refuted",
    "C143_residual_domain_refuted",
    "C143_sensitivity",
    "C143_unknown_attribute",
    "C143_value"
   ],
   "note": "one rank; exact reals; the integrators' own kernels are parameters (proved elsewhere, C78 to C115).  False parts: a residual's attribute-restricted domain integrator acts on the whole mesh while its sensitivities are restricted, and its marker is sized by the boundary attributes (C143_residual_domain_refuted, C143_residual_domain_attribute_refuted); a restricted ForceIntegrator has an unrestricted sensitivity (C143_force_refuted); a named SteinmetzLossIntegrator registers its flux sensitivity under another input's name (C143_named_steinmetz_refuted); an unknown attribute is undefined behaviour (C143_unknown_attribute)"
  },
  {
   "property": "C144",
   "status": "partial",
   "theorems": [
    "C144_conservation",
    "C144_consistency",
    "C144_flat_state_refuted",
    "C144_graded_material_refuted",
    "C144_interface_removes",
    "C144_jacobian_partial",
    "C144_mesh_boundary_partial",
    "C144_mesh_interior_partial",
    "C144_rule_refuted",
    "C144_stability",
    "C144_symmetric",
    "C144_weak_forms"
   ],
   "note": "one face; exact reals; MFEM's transformations and their reverse functions are parameters assumed right; mesh sensitivities hold the material and boundary value fixed at reference points.  False parts: on a material that varies inside an element the matrices are wrong, because its derivative is evaluated at the face's point (C144_graded_material_refuted); the boundary term's mesh sensitivity is NaN where the gradient vanishes and undefined on segments (C144_flat_state_refuted), and uses another rule than the vector on elements not of type Pk (C144_rule_refuted)"
  },
  {
   "property": "C145",
   "status": "partial",
   "theorems": [
    "C145_accepted",
    "C145_continuous_contact_refuted",
    "C145_double_interface_refuted",
    "C145_equations",
    "C145_heat_balance",
    "C145_interfaces_partial",
    "C145_silent_condition_refuted",
    "C145_stability"
   ],
   "note": "one process; exact reals; arrays of objects in options not represented; essential dofs of continuous spaces and setOptions are C22 and C67.  False parts: a face named in two interfaces has its coupling subtracted twice, so heat flows from cold to hot (C145_double_interface_refuted); on continuous bases a contact resistance does nothing (C145_continuous_contact_refuted); a convection or outflux of another JSON kind is accepted and forgotten (C145_silent_condition_refuted)"
  },
  {
   "property": "C146",
   "status": "partial",
   "theorems": [
    "C146_accepted",
    "C146_circulation",
    "C146_equations",
    "C146_out_of_plane_magnet_refuted",
    "C146_temperature_refuted",
    "C146_unknown_source_refuted"
   ],
   "note": "one process; exact reals; arrays in place of the option objects not represented; essential dofs and setOptions are C22 and C67; the 3-D case is C72, C94, C99.  False parts: an unknown source name is accepted and carries no current (C146_unknown_source_refuted); magnets without a temperature field are undefined behaviour rather than an exception (C146_temperature_refuted); a magnet along z is accepted and stops the program at the first evaluation (C146_out_of_plane_magnet_refuted)"
  },
  {
   "property": "C147",
   "status": "partial",
   "theorems": [
    "C147_definite",
    "C147_jacobian_partial",
    "C147_linear",
    "C147_one_step",
    "C147_step_unique",
    "C147_symmetric"
   ],
   "note": "one process, dense matrices, exact reals.  The derivative statement asks for a gradient that is 0 or above the code's cut-off 1e-14 (refuted below it: C72), element-wise uniform laws on faces (refuted otherwise: C144_graded_material_refuted) and straight channel faces (refuted otherwise: C75); laws independent of the field need none of the first"
  },
  {
   "property": "C148",
   "status": "proved",
   "theorems": [
    "C148_energy",
    "C148_existence",
    "C148_minimum",
    "C148_newton",
    "C148_solution",
    "C148_stability",
    "C148_unique"
   ],
   "note": "one process, dense matrices, exact reals; the statement is about continuous bases without weak conditions and interfaces; it says nothing about whether Newton iterations converge"
  },
  {
   "property": "C149",
   "status": "proved",
   "theorems": [
    "C149_definite",
    "C149_small_penalty_refuted",
    "C149_solution",
    "C149_stability"
   ],
   "note": "one process, dense matrices, exact reals; linear materials; mu = 0 is shown not to be positive; that mu is above the trace constant is a hypothesis on the mesh (penalised)"
  },
  {
   "property": "C150",
   "status": "proved",
   "theorems": [
    "C150_bh",
    "C150_bh_derivative",
    "C150_continuous_refuted",
    "C150_derivative",
    "C150_hiperco50",
    "C150_hiperco50_bh",
    "C150_machine",
    "C150_options",
    "C150_range",
    "C150_refused",
    "C150_team13_refuted"
   ],
   "note": "exact reals; the spline library is modelled by de Boor's recursion with exact comparison of knots (the real one snaps parameters to near knots); only one-dimensional control points; refuted parts of the intent: continuity at the last knot and use of the team13 data"
  },
  {
   "property": "C151",
   "status": "partial",
   "theorems": [
    "C151_flux_shared",
    "C151_frequency",
    "C151_growth",
    "C151_heat",
    "C151_mesh",
    "C151_scalars",
    "C151_scaling",
    "C151_two_names_refuted",
    "C151_unknown",
    "C151_value"
   ],
   "note": "refuted for functionals with integrators of two names (C151_two_names_refuted): all are registered under one key, so the product is the sum of the derivatives for every name (C151_flux_shared); the frequency product is right for any names (C151_frequency); products are derivatives at positive frequency and flux (at zero flux the mesh product takes log(0)); EvalRevDiff of the coefficients is assumed to be the transposed derivative"
  },
  {
   "property": "C152",
   "status": "partial",
   "theorems": [
    "C152_annulus",
    "C152_boundary",
    "C152_injective",
    "C152_not_tangled",
    "C152_tangled_refuted"
   ],
   "note": "refuted for perturbations of a quarter of a cell or more, which are accepted (C152_tangled_refuted: some draws invert a triangle); exact reals; triangles are those of the straight mesh in (r, theta) before the curved nodes are placed; that the curved elements of a given degree are not inverted is not shown"
  }
 ]
}