# Formal model of MISO in Rocq (Coq 8.16.1)

## Approach
* Every modelled C++ function becomes a total Gallina function; each definition carries a comment with
  the file and lines it models and the simplifications made. Exceptions, undefined behaviour and fuel
  exhaustion are distinct outcomes; loops are recursion on the loop's own bound or on explicit fuel whose
  exhaustion is an outcome that theorems exclude or prove unreachable.
* Control-flow code on doubles (root finders, line search, Newton, step-size control) is written over a
  record of arithmetic operations `num` and instantiated with the reals (theorems) and with Coq's
  primitive binary64 floats (NaN and rounding witnesses computed by the kernel).
* Pure algebra (fluxes, coefficients, quadrature, assembly) is written over R, in every dimension the code
  is a template in (and in general for all d). "exact arithmetic" in a note means this: rounding is not
  modelled there.
* Code with sharing (inputs, time-dependent residuals, operators) runs on an explicit heap of buffers.
* mfem, hypre, LAPACK, PUMI and nlohmann objects are modelled by the functions / lists / trees they denote.
  What those libraries do is an explicit argument or hypothesis of a theorem, never an axiom.
* `X.v` is the model, `XSpec.v` the independent vocabulary, `XProofs.v` lemmas, `Props_*.v` the property
  theorems (name `C##_...`), each followed by `Print Assumptions`, with an `Example` showing that a concrete
  non-trivial case meets the hypotheses.
* Suffix `_partial`: only part of the English claim. Suffix `_refuted`: the theorem exhibits an input on which the
  English claim is false of the code (a finding); the rest of the claim is proved by the other theorems.

## Trusted base
* Coq 8.16.1's kernel (including its primitive 63-bit integers and binary64 floats, used only by the binary64 witnesses) and `vm_compute`.
* That the model renders the cited C++ faithfully: it was written by hand from the source, there is no
  extraction from C++ and nothing was run against the compiled program.
* Libraries used: Coq's standard library, Coquelicot and Flocq (definitions and theorems; their own axioms
  are those of the standard library's reals).
* No axioms of our own, no `Admitted`, no functors, no plugins, no kernel flags.

### What Print Assumptions reports
The axioms are those of the standard library:
`ClassicalDedekindReals.sig_not_dec`, `ClassicalDedekindReals.sig_forall_dec` (construction of R),
`FunctionalExtensionality.functional_extensionality_dep`, `Classical_Prop.classic` (Coquelicot, Flocq), and, for binary64
witnesses, the primitive types and operations of `PrimInt63` / `PrimFloat`.
Per theorem (the letters: N = sig_not_dec, D = sig_forall_dec, F = functional_extensionality_dep, C = classic, P = primitive ints/floats):

* **D**: C08_distance_euclidean, C109_gradient_early, C118_ignored_refuted, C118_set, C118_twice_refuted, C143_residual_domain_attribute_refuted, C14_steady_log, C17_queries_throw_iff_never_created, C17_unknown_wrt_swallowed_refuted, C18_functional_scalar_partial_nan_refuted, C18_scalar_partial_accumulates_refuted, C18_vector_partial_overwrites_partial, C26_blockwise, C49_weak_operator, C59_value, C59_vector, C61_single_attribute_refuted, C65_residual, C67_history, C67_unlinearized, C76_caller_refuted, C83_volume_fresh_partial, C88_last_inputs, C88_products, C88_unknown_name_refuted
* **DF**: C09_empty_tree_throws, C09_queries_do_not_interfere, C105_by_nodes_refuted, C105_python_reverse, C105_python_reverse_refuted, C106_essential_refuted, C106_no_residual, C106_no_residual_refuted, C107_residual, C108_nonlinear_mass_partial, C109_ode_operator_refuted, C114_translation, C118_set_function_refuted, C119_dual, C119_local, C119_pairing, C119_state, C121_crash, C121_history, C121_other_files, C121_rank, C121_second_run_refuted, C121_times, C122_cfl_refuted, C122_entvar_refuted, C122_steady, C122_time_loop, C123_tetrahedron_summation_by_parts, C123_triangle_degree_zero_refuted, C123_triangle_summation_by_parts, C124_constant_gradient_degree_zero_refuted, C125_constant_derivative_refuted, C125_degree_zero, C125_scaling, C127_segment_order, C127_segment_order_refuted, C127_segment_reversal_refuted, C127_shared_edge_nodes_coincide, C129_residual_form, C135_accepted, C135_external_refuted, C135_magnetostatic_fields, C136_flux_density_space_refuted, C136_second_flux_magnitude_refuted, C13_backwards_refuted, C13_exact_final_time, C13_free_final_time, C13_relaxed_overshoot_refuted, C13_state_is_marched, C143_force_refuted, C143_named_steinmetz_refuted, C143_residual_domain_refuted, C143_value, C145_accepted, C14_each_step_logged_partial, C14_final_overwrites_last_step_refuted, C14_final_state_logged, C14_initial_state_default_partial, C150_options, C150_refused, C150_team13_refuted, C19_functional_adjoint_partial, C19_mass_fill_factor_refuted, C19_one_dof_state_refuted, C19_quotient_adjoint_partial, C19_reverse_accumulates, C20_addJacobians_sum, C20_addJacobians_unsupported_refuted, C20_argument_ignored_refuted, C20_residual_is_Mk_plus_R, C21_ptc_is_backward_euler, C21_steady_marcher_on_time_residual_refuted, C22_midpoint_quadratic_entropy, C22_relaxation_factor_positive, C23_not_order_seven, C23_order_six, C23_row_sums, C24_sum_of_operators_partial, C24_zero_coefficient_stale_refuted, C26_adjoint_pair, C27_flow_preconditioner_unknown_throws, C27_hypre_solver_needs_hypre_prec_refuted, C27_hyprefgmres_abstol_refuted, C27_line_search, C27_linear_solver_partial, C27_linear_solver_unknown_throws, C27_silent_no_preconditioner_refuted, C28_physical_iff, C28_pressure, C29_physical_convex, C31_euler_flux, C32_dqdw_positive_definite, C32_dqdw_symmetric, C34_far_field2_consistent, C34_far_field2_upwind, C44_columns, C44_least_squares_interpolation, C44_minimal_interpolation, C45_accumulates, C45_blocks_symmetric, C45_dissipative, C45_dissipative_strict, C49_affine, C49_projection, C49_skew, C49_strong_operator, C50_boundary, C50_dyadic_conservative, C50_dyadic_entropy, C50_dyadic_uniform, C50_interface, C50_inviscid, C50_lps_conservative, C50_lps_dissipative, C50_lps_inactive, C50_viscous, C56_element_term, C58_P_symmetric, C58_coupled, C58_open_loop_dissipates, C58_open_loop_refuted, C58_parameters, C58_test_controller_lossless, C59_derivative, C59_derivative_three, C59_derivative_two, C59_nested, C59_reverse, C59_wrong_arity_refuted, C60_default_refuted, C60_mixture_value, C60_single_material_refuted, C60_table, C60_table_state, C60_unknown_rule_refuted, C60_weight_history, C61_table, C61_value, C62_sign, C62_table, C62_value, C63_conductivity, C63_conductivity_model, C65_newton_partial, C65_product_partial, C65_reverse, C65_transpose, C66_adjoint_unconstrained, C67_products, C68_scalar_refuted, C69_magnets_refuted, C69_named_sources, C69_names_refuted, C69_no_current_refuted, C69_value, C70_load_partial, C75_contact, C75_heat, C76_alias_refuted, C76_load_partial, C76_size_refuted, C78_average_constant, C78_named_state_refuted, C78_volume, C85_alternating_refuted, C85_one_point_partial, C86_continuous_output_refuted, C86_planar_curl_refuted, C86_planar_field, C87_uninitialised_refuted, C89_closest, C89_irrotational, C89_projection, C90_divergence_free, C90_in_place_refuted, C90_projection, C91_transposed, C92_refused, C93_current_mesh, C93_stale_mesh, C94_compatible, C94_load, C98_value, C99_silent
* **NDF**: C01_bisection_near_root, C01_bisection_returns, C01_bisection_same_sign_throws, C01_bisection_sound, C02_endpoint_root_always_wrong, C02_endpoint_root_refuted, C02_throw_only_if_short_partial, C02_throws_though_converged_refuted, C03_secant_affine_exact, C03_secant_never_reports_failure, C03_secant_silent_failure_refuted, C03_secant_sound_partial, C04_search_range, C04_search_spec, C04_search_succeeds, C04_trial_rule, C05_cubic_degenerate_refuted, C05_cubic_local_min_partial, C05_quadInterp_stationary, C05_quadratic_min, C05_quadratic_stationary, C06_inexact_newton, C07_slope_refuted, C07_slope_selfadjoint_partial, C08_nearest_is_exact, C100_solve, C100_surface_input_refuted, C100_tolerance, C101_affine_partial, C101_history, C101_rigid, C101_undeformed, C102_reverse, C103_adjoint_product, C104_positive_definite, C104_symmetric, C105_degree, C106_rate_partial, C106_refused, C107_no_mass, C108_implicit, C108_linear, C108_nonlinear_mass_refuted, C108_stiffness_ignored, C108_stiffness_refuted, C109_entropy, C109_gradient, C109_gradient_refuted, C110_nan, C110_zero_field_refuted, C111_defined, C113_axis_length, C113_independence_refuted, C113_name_refuted, C113_new_axis, C113_set_options, C113_shared_field, C113_short_axis, C113_stale_field, C113_stale_rotation_refuted, C115_position_refuted, C131_axes, C131_axes_checked_refuted, C131_directions, C131_lift_is_drag_turned, C131_one_dimension, C133_weight, C139_accepted, C139_axes_refuted, C139_boundaries, C139_defaults, C139_every_condition_applied_refuted, C139_flux_names_refuted, C139_lps_kind_refuted, C139_missing_section_refuted, C139_refused, C143_sensitivity, C144_conservation, C144_consistency, C144_flat_state_refuted, C144_interface_removes, C144_stability, C144_symmetric, C144_weak_forms, C145_continuous_contact_refuted, C145_double_interface_refuted, C145_equations, C145_heat_balance, C145_interfaces_partial, C145_silent_condition_refuted, C145_stability, C146_accepted, C146_circulation, C146_equations, C146_out_of_plane_magnet_refuted, C146_temperature_refuted, C146_unknown_source_refuted, C147_definite, C147_step_unique, C147_symmetric, C148_stability, C148_unique, C150_bh, C152_annulus, C152_boundary, C152_injective, C152_not_tangled, C19_quotient_derivative, C20_relaxed_newton_stalls_refuted, C21_explicit_rk_scheme, C21_midpoint_scheme, C21_relaxed_step_total, C22_explicit_entropy_balance_partial, C22_midpoint_entropy_balance_partial, C22_no_progress_refuted, C25_error_bound, C25_exact_on_affine_partial, C25_step_size, C25_zero_scale_stale_refuted, C27_none_crashes_flow_refuted, C27_nonlinear_solver, C33_roe_average, C33_roe_conservative, C33_roe_consistent, C33_roe_supersonic, C33_roe_waves, C34_boundary_characteristic, C34_boundary_consistent, C34_supersonic_outflow, C35_projection, C35_projection_raises_pressure, C36_equal_axes_refuted, C36_free_stream, C36_free_stream_1d, C41_distance_to_a_point, C41_minimum_refuted, C41_straight_element, C45_sutherland, C45_sutherland_freestream, C46_merit_slope_is_derivative, C46_relaxed_newton_decrease, C48_adiabatic_at_rest, C48_control_penalty, C48_no_slip_penalty_at_rest, C48_zero_normal_derivative, C53_return, C53_small_rules, C56_inviscid_2d_refuted, C58_entropy_change, C58_pid, C59_continuation, C59_product, C61_finite_refuted, C63_unknown_model, C64_choice, C64_lognu, C64_lognu_refuted, C66_adjoint_partial, C66_total_derivative, C68_field, C68_load, C68_scalar_partial, C71_axes, C71_cw_refuted, C71_magnets, C71_team13, C72_definite, C72_jacobian_partial, C72_magnetization_refuted, C72_monotone, C72_symmetric, C72_variational, C73_density, C73_density_derivatives, C73_gradient_partial, C73_zero_field_refuted, C74_curl_partial, C74_curl_refuted, C74_diffusion_partial, C74_energy_partial, C75_jacobian_partial, C75_mesh_partial, C75_outflux_refuted, C75_parameters_partial, C75_projection, C75_rule_refuted, C76_products_partial, C76_products_refuted, C77_coefficient, C77_construction, C77_equilibrium_partial, C77_reluctivity_refuted, C77_sensitivities, C77_temperature_3d_refuted, C77_unknown_refuted, C77_value, C78_average, C78_average_derivatives, C78_boundary_flux, C78_fill_factor_partial, C78_state_integral, C78_volume_mesh, C79_bounds, C79_derivatives, C79_named_field_refuted, C79_value, C80_average, C80_derivatives, C80_products, C81_mesh, C81_prefix_refuted, C81_temperature, C81_value, C82_value, C83_total, C86_copy, C86_planar_magnitude, C86_values, C87_curl, C87_identity, C87_magnitude, C87_vector_identity, C92_mesh_partial, C95_mesh_partial, C96_density, C97_load, C97_mass_partial, C98_mesh_partial, C99_integrator
* **NDFC**: C08_contracts_satisfiable, C102_forward, C102_state_partial, C102_state_surface_refuted, C103_surface_product_refuted, C103_total, C107_gradient_partial, C107_no_mass_refuted, C110_virtual_work, C111_state, C112_mesh, C112_output, C114_any_flux, C114_mesh_derivative, C115_any_flux, C115_slip_wall, C116_definite, C116_homogeneous, C116_l2, C116_max, C116_norm, C116_partition, C116_scalar, C116_triangle, C116_vector, C117_cancel_refuted, C117_component_partial, C117_inf_refuted, C117_l2, C117_nan_refuted, C117_pythagoras, C118_exact, C118_local_norm_refuted, C118_nan_refuted, C118_overwrites, C118_unknown, C118_vector_error, C118_wrong_size, C11_ascii_history, C11_nonfinite_refuted, C11_print_then_read, C123_integrals_exist, C123_tetrahedron_degree_zero_refuted, C123_tetrahedron_derivative, C123_tetrahedron_quadrature, C123_triangle_derivative, C123_triangle_quadrature, C124_affine_gradient, C126_nodal, C126_segment_constant_refuted, C126_triangle_reproduces, C128_at_rest_not_differentiable, C128_boundary_conditions, C128_euler_form, C128_flow_jacobian, C128_linear_in_v, C128_mass, C128_matrix_exists, C129_assembles, C129_scaled_wall_refuted, C129_unscaled, C129_viscous_jacobian, C129_wall_conditions, C130_closed_box, C130_closed_box_entropy, C130_conservation, C130_entropy_balance, C130_entropy_variables_refuted, C130_no_mass_through_walls, C130_uniform_flow_is_steady, C130_wall_momentum_and_energy, C131_converged_force, C131_gradient, C131_half_the_usual_coefficient, C131_momentum_balance, C131_pressure_force, C131_uniform_pressure, C131_variables_agree, C132_converged_force, C132_gradient, C132_momentum_balance, C132_pressure_and_traction, C132_wall_momentum, C133_boundary_entropy_gradient_refuted, C133_boundary_entropy_value, C133_boundary_entropy_variables_refuted, C133_supply_rate_at_free_stream, C133_supply_rate_bounded, C133_supply_rate_inflow, C133_supply_rate_outflow, C133_supply_rate_refuted, C133_weight_in_unit_interval, C133_weighted_entropy_partial, C133_weighted_entropy_refuted, C137_change_is_weighted_residual, C137_closed_box_change, C137_entropy_conserving_boundary, C137_entropy_is_integral, C137_euler_flux_refuted, C137_reported_when_defined, C138_closed_box_conserves, C138_entropy_rate, C138_local_time_step, C138_mass_integrates, C138_rate_exists, C138_step_conserves, C138_total_rate, C140_basis_spelling_refuted, C140_conservation, C140_free_stream, C140_pump_state, C140_residual, C141_actuator_default_refuted, C141_actuator_remembered, C141_change_ignores_inputs, C141_change_is_rate, C141_change_is_weighted_residual, C141_change_moves_clock_refuted, C141_evaluate_independent_of_history, C141_same_inputs_refuted, C141_test_controller, C141_total_entropy, C142_bad_component_refuted, C142_components, C142_either_variables, C142_error_is_distance, C142_triangle, C142_zero_iff_exact, C144_graded_material_refuted, C144_jacobian_partial, C144_mesh_boundary_partial, C144_mesh_interior_partial, C144_rule_refuted, C147_jacobian_partial, C147_linear, C147_one_step, C148_energy, C148_existence, C148_minimum, C148_newton, C148_solution, C149_definite, C149_small_penalty_refuted, C149_solution, C149_stability, C150_bh_derivative, C150_continuous_refuted, C150_derivative, C150_hiperco50, C150_hiperco50_bh, C150_machine, C150_range, C151_flux_shared, C151_frequency, C151_growth, C151_heat, C151_mesh, C151_scalars, C151_scaling, C151_two_names_refuted, C151_unknown, C151_value, C152_tangled_refuted, C20_jacobian_is_derivative, C28_conservative_roundtrip, C28_entropy_roundtrip, C28_entropy_variables_admissible, C29_entropy_convex, C29_entropy_gradient, C29_entropy_strictly_convex, C29_entropy_value, C29_pressure_gradient, C29_relative_entropy, C29_spectral_radius, C30_between, C30_equal, C30_error, C30_exact_when_spread, C30_symmetric, C31_coordinate_consistent, C31_coordinate_symmetric, C31_coordinate_tadmor, C31_entropy_variable_versions, C31_face_consistent, C31_face_is_combination, C31_face_symmetric, C31_face_tadmor, C32_dissipation_entropy_variables, C32_dissipation_signed, C32_dissipation_vanishes, C32_dissipation_versions_agree, C32_dqdw_is_derivative, C32_lps_scaling, C34_control_flux, C34_entropy_constrained, C34_far_field_versions_agree, C34_supersonic_inflow, C35_slip_wall_entropy, C35_slip_wall_flux, C35_slip_wall_versions_agree, C37_beta_nonzero_refuted, C37_degree, C37_end_points, C37_legendre, C37_orthonormal, C37_tetrahedron_orthonormal, C37_tetrahedron_polynomial, C37_triangle_orthonormal, C37_triangle_polynomial, C43_step_sizes, C43_stopping, C45_viscous_flux_is_physical, C48_adiabatic_entropy_neutral, C48_dual_flux_is_transpose, C48_no_slip_penalty_dissipative, C48_no_slip_penalty_rate, C51_assembles, C51_closed_domain_entropy, C51_conservation, C51_entropy_balance, C51_entropy_state_same_residual, C51_free_stream, C52_boundary, C52_dyadic, C52_interface, C52_interface_negative_alpha_refuted, C52_inviscid, C52_lps, C52_lps_coefficient_refuted, C52_mass, C52_viscous, C53_stationary_points, C53_stationary_rule_exact_partial, C55_cfl_condition, C56_inviscid_3d_partial, C56_inviscid_3d_refuted, C56_viscous_2d, C56_viscous_3d_partial, C56_viscous_3d_refuted, C57_left_half_refuted, C57_vortex_boundary_flux, C57_vortex_is_steady, C57_vortex_state, C58_jacobian, C59_continuation_second_refuted, C60_mixture_derivative, C61_derivatives, C62_derivatives, C63_conductivity_derivatives, C63_demag_flux, C63_remnant, C64_bh, C64_bh_refuted, C65_boundary_rows_refuted, C65_newton_refuted, C66_boundary_refuted, C67_linearize_refuted, C67_options_refuted, C69_sensitivity_partial, C70_options_refuted, C70_sensitivity_partial, C70_stator_refuted, C71_box, C71_ring, C71_stator, C71_stator_continuous, C71_stator_ends, C72_cutoff_refuted, C78_fill_factor_refuted, C78_null_density_refuted, C79_maximum, C79_monotone, C79_processes_refuted, C80_aggregate, C81_scalars, C82_fields, C82_frequency_forward_refuted, C82_scalars_partial, C83_forward_refuted, C83_mesh_partial, C83_reverse, C83_stale_mesh_refuted, C84_core_loss, C92_rules_differ_refuted, C97_mass_scaled_refuted, C98_quad_refuted, C99_mesh_refuted
* **P**: C04_nan_accepted_refuted, C43_converged_start_refuted
* **none (closed under the global context)**: C09_add_after_finalize_refuted, C105_initial, C108_no_solver, C10_binary_history, C10_binary_never_saved, C10_slash_lost_refuted, C120_copy, C120_gd, C120_made, C120_missing_refuted, C120_misspelt_refuted, C120_names, C120_range, C121_distinct, C121_file_names, C122_construct, C122_extension, C122_mesh_refuted, C122_null_refuted, C122_set_pair, C127_counts, C12_filenames_injective, C12_loggers_disjoint, C131_boundaries, C133_weight_in_space_refuted, C134_accepted, C134_flow_solvers_refuted, C134_last_component_wins, C134_library_kept, C134_own_description_refuted, C134_unmentioned_kept, C135_field_size, C135_thermal_fields, C136_attributes, C136_average_state_refuted, C136_create_magnetostatic, C136_create_thermal, C136_flux_magnitude, C136_history, C136_loss_attributes_refuted, C136_names_unambiguous, C136_no_options_refuted, C143_accepted, C143_missing_field, C143_unknown_attribute, C14_log_is_readable, C14_record_unique, C15_default_kept, C15_nothing_invented, C15_null_removes, C15_setOptions_keeps, C15_setOptions_not_atomic_refuted, C15_setOptions_throws_iff, C15_setOptions_wins, C15_user_value_wins, C16_deep_copy_callers_safe, C16_deep_copy_history, C16_mixed_modes_clobber_refuted, C16_scalar_parameter, C16_shallow_aliases, C16_vector_absent_or_wrong, C17_duplicate_refused, C17_fresh_accepted, C17_registry_after_history, C20_solve_inputs_accepted, C23_table_in_bounds, C27_time_marcher_names, C27_unknown_marcher_refuted, C38_column_counts, C38_segment, C38_tetrahedron, C38_triangle, C39_attribute_list, C39_other_values, C39_out_of_range, C40_nodes_partial, C40_nodes_refuted, C40_topology, C42_borrowed_library, C42_construct_mesh, C42_construct_pumi_mesh_refuted, C42_later_use_refuted, C42_own_library, C44_dimensions, C47_torn_header_partial, C47_torn_save_detected_refuted, C47_torn_save_prefix_partial, C54_dispatch, C54_extension, C54_given_mesh_needs_dot, C59_registration, C69_duplicate, C78_shape_buffer_refuted

## What is modelled
| model | source |
|---|---|
| Aero.v | The aerodynamic outputs of the flow solver: FlowResidual::constructOutput "drag", "lift", "boundary-entropy" and "far-field-supply-rate" (flow_residual.cpp:697-826), with the integrators PressureForce, BoundaryEntropy and SupplyRate (euler_integ_def.hpp:922-1000) and SurfaceForce (navier_stokes_integ_def.hpp:1247-1625). As in Sbp.v the face's position argument is folded into the face node index. |
| AeroSpec.v | Vocabulary for the theorems about the aerodynamic outputs. |
| AnnulusMesh.v | buildQuarterAnnulusMesh, src/utils/utils.{hpp,cpp}: the mesh of the quarter annulus of radii 1 and 3. Simplifications: arithmetic over R (M_PI is PI). Mesh::MakeCartesian2D is represented by its vertices and by the two triangles into which it cuts every cell, from the lower left to the upper right vertex. The random numbers are arbitrary functions of the vertex; the theorems bound them as uniform_real_distribution does. NewNodes and ProjectCoefficient put the nodes of the curved mesh at the images of points of the straight one. |
| Attach.v | Model of how integrators, restricted to mesh attributes or not, are added to the three forms (FunctionalOutput, src/common/functional_output.hpp:155-268; MISOLinearForm, src/common/miso_linearform.hpp:176-322; MISONonlinearForm, src/physics/miso_nonlinearform.hpp:217-340), of the overloads that register their sensitivities (src/physics/mfem_common_integ.hpp, src/physics/thermal/thermal_integ.hpp, src/physics/electromagnetics/electromag_integ.hpp) and of the sums the forms assemble. |
| AttachSpec.v | What restricting an integrator to attributes means, independently of the forms' code. |
| BdrArray.v | Model of the boundary-marker helpers, src/utils/utils.cpp:98-137. |
| Coef.v | Model of the coefficient classes of src/common/coefficient.{hpp,cpp} and of constructMaterialCoefficient. A coefficient is evaluated at one integration point of one element; what varies is the element's attribute, the coordinates X of the element's mesh nodes (trans.GetPointMat()) and the state values handed in. Exact reals. |
| CoefMix.v | Model of composite materials: the four weighted coefficients, setInputs on a mesh-dependent coefficient, and the three constructMaterial...Coefficient functions of src/common/coefficient.cpp. Exact reals. |
| CommonFun.v | Model of the volume, mass, state-average, boundary-flux and induced-exponential functionals. src/physics/mfem_common_integ.{cpp,hpp}, src/physics/common_outputs.{cpp,hpp}, src/common/functional_output.cpp, src/physics/thermal/thermal.cpp:52-106. Simplifications: arithmetic over R; the transformation of an element at a quadrature point is its Weight as a function of the element's node coordinates, together with WeightRevDiff of the MFEM fork (what it adds to PointMat_bar); scalar H1 or L2 elements (CalcShape does not depend on the mesh, no dof transformations); mfem's forms are represented by their documented effect: sum of element energies, sum of scattered element vectors. |
| CommonFunSpec.v | What the theorems about the common functionals mean. |
| Control.v | Model of the flow controller: ControlResidual and FlowControlResidual, src/physics/fluidflow/flow_control_residual.cpp. Exact reals; vectors by value (sharing of the caller's memory is the subject of the Inputs model); MPI_Bcast hands rank 0's number to every rank. |
| ControlEntropy.v | The coupled flow-control residual as an object with memory: setInputs_, evaluate_, calcEntropy_, calcEntropyChange_ and calcSupplyRate_ of FlowControlResidual, src/physics/fluidflow/flow_control_residual.cpp:338-449, on one process. Vectors by value (sharing of memory with the caller is the subject of Inputs). |
| ControlRun.v | FlowControlSolver, src/physics/fluidflow/flow_control_solver.cpp: construction, setState and the time loop of AbstractSolver2::solveForState (src/common/abstract_solver.cpp:81-116) with its hooks, in particular the output histories that rank 0 writes to text files. Exact real times. St is the compound state of all ranks, Fl the flow state (extractStates). |
| ControlRunSpec.v | Vocabulary of the flow-control run theorems. |
| Current.v | Current density: CurrentDensityCoefficient(2D), src/physics/electromagnetics/current_source_functions.{hpp,cpp}; its use in MagnetostaticResidual (magnetostatic_residual.cpp) and in the 3-D CurrentLoad (current_load.{hpp,cpp}). Simplifications. One process. std::map is a list in insertion order (no operation below depends on the order). A call that throws has no modelled final state. The domain integral of the 2-D load is a sum over quadrature points with fixed weights; the 3-D assembly (mass solve, divergence-free projection, mass product) is an abstract function of the mesh and of the coefficient, i.e. its linear solves are exact. |
| CurrentAsm.v | Model of the assembly of the 3-D current load and of its mesh sensitivity, src/physics/electromagnetics/current_load.cpp, with VectorFEMassIntegratorMeshSens and VectorFEDomainLFIntegratorMeshSens, src/physics/mfem_common_integ.cpp:2734-2985. (Current.v has the coefficient, the sensitivities with respect to the current densities and the bookkeeping.) Simplifications: those of Projector.v; the current density is a function of element attribute and position, with the reverse function of its EvalRevDiff; the GMRES solver is a function of matrix, right-hand side and initial guess, HyprePCG of matrix and right-hand side. |
| CurrentAsmSpec.v | What the theorems about the 3-D current load mean. |
| CurrentSpec.v | What the user said, for the current density properties: read off the calls, without the model's state. |
| Deriv.v | Derivatives of sums, products, norms and composites along a real parameter (proof support only). |
| DgFace.v | Symmetric interior penalty terms on faces, src/physics/electromagnetics/electromag_integ.cpp:450-1752 and .hpp:165-480: NonlinearDGDiffusionIntegrator (weak Dirichlet condition on a boundary face) and DGInteriorFaceDiffusionIntegrator, with their matrices and mesh sensitivities. One face at a time. A rule is what mfem::IntRules.Get(geometry, order) returns for the face, so points and weights depend on the order the code asks for; IntRule is null. Vectors of the two sides are one vector, side 1 first, as in the code. The model is evaluated at a point of an element, given by its reference coordinates. InverseJacobian, Weight, CalcOrtho of the face's Jacobian and their RevDiff counterparts belong to the project's MFEM fork: parameters here, DgFaceSpec says what is assumed. Transformations of the dofs are the identity. Arithmetic is exact; 0/0 is None, and so is reading uninitialised memory. |
| DgFaceMesh.v |  |
| DgFaceSpec.v | What the theorems about interior penalty terms mean, without the model's helpers. |
| Direction.v | Direction fields of magnets (src/physics/electromagnetics/magnetic_source_functions.cpp) and of currents (current_source_functions.cpp). Positions and values are vectors of which the first vdim (3 for currents) entries matter. Real arithmetic; a division 0/0 (NaN in C++) is modelled where it can happen by None. |
| EmCoef.v | Model of the electromagnetic material coefficients, src/physics/electromagnetics/: cal2_kh_coefficient.cpp (and cal2_ke_coefficient.cpp, the same code with ke for kh), pm_demag_constraint_coeff.cpp, conductivity_coefficient.cpp, remnant_flux_coefficient.cpp, demag_flux_coefficient.cpp, reluctivity_coefficient.cpp. Exact reals; [None] is a result that is not a finite number (a division by zero or pow(0, negative)). |
| EmInteg.v | Element integrators of the magnetostatic residual and of the magnetic energy, src/physics/electromagnetics/electromag_integ.cpp. One element. Quadrature points are numbered q < nq; their reference data (weights, reference shape functions) do not depend on the mesh. Loops that add into a vector that starts at 0 are finite sums. Arithmetic is exact; where the C++ divides by a norm that is 0 the result is NaN, here None. A coefficient evaluated at a point is a function of one number, pnu q, and its EvalStateDeriv is pdnu q. Transformations of the dofs (InvTransformPrimal) are the identity. Weight, Jacobian, AdjugateJacobian and their RevDiff counterparts belong to the project's MFEM fork, which is not part of /repo: they are parameters here, and EmIntegSpec says what is assumed of them. |
| EmIntegSpec.v | What the theorems about the electromagnetic integrators mean, without the model's helpers. |
| EnergyOptionsSpec.v | The energy of a thermal or two-dimensional magnetostatic problem given by options, on a continuous basis. |
| EntropyRate.v | The entropy a flow residual reports, the entropy change it reports, and the mass matrix of the time integrators: FlowResidual::calcEntropy_, calcEntropyChange_ and getMassMatrix_ (src/physics/fluidflow/flow_residual.cpp:121-133, 373-376, 438-460, 554-569). calcFormOutput is mfem's GetEnergy on the residual's own form (src/physics/miso_nonlinearform.cpp:55-61): the project's mfem adds GetElementEnergy over the elements and GetFaceEnergy over interior and boundary faces (mfem, not part of /repo). |
| EntropyRateSpec.v | Vocabulary for the theorems about entropy reports and the mass matrix. |
| Euler.v | Model of src/physics/fluidflow/euler_fluxes.hpp:1-1250 over exact reals, for any number [d] of space dimensions (the code is instantiated at 1, 2 and 3). A state of d+2 entries is a [vec]: entry 0 density, 1..d momentum, d+1 energy. [xdouble] = R; log = ln, pow = Rpower (only ever applied to positive bases in the theorems), fabs = Rabs. |
| EulerDeriv.v | Derivatives: entropy variables are the entropy gradient, calcdQdWProduct is dq/dw, dpressdq is dp/dq; and dq/dw is symmetric positive definite. |
| EulerSpec.v | Independent vocabulary for the Euler theorems: a conservative state in terms of density, velocity and pressure of an ideal gas with heat-capacity ratio 7/5. |
| Evolver.v | Model of MISOEvolver and ODESystemOperator, src/common/evolver.{hpp,cpp}. Simplifications. One process: true dofs are 0..n-1; matrices are dense. mfem is modelled by its documented effect: ParNonlinearForm::Mult zeroes the form's own essential rows, GetLocalGradient is the gradient without boundary conditions, EliminateRowsCols turns the essential rows and columns into those of the identity, NewtonSolver::Mult is the loop below; the CG solver of the mass matrix is a function of matrix, right-hand side and initial contents of the result (mfem's iterative solvers start from them), the linear solver of Newton's method a function of matrix and right-hand side. Assembled ("legacy full") matrices; partial assembly is left out. The pointer to the state kept by the system operator is modelled by the vector it points to; null is None. |
| EvolverSpec.v | What a user expects of a time-marching operator M dx/dt + R(x) + K x + l = 0. |
| Factory.v | Model of the string-keyed solver factories: constructLinearSolver and constructNonlinearSolver (src/common/mfem_extensions.cpp:392-583), createLineSearch and RelaxedNewton's constructor (src/common/relaxed_newton.cpp:15-66), the preconditioner factories of the flow, magnetostatic and thermal residuals, and the flow solver's constructor tail (src/physics/fluidflow/flow_solver.cpp:55-73). The time-marcher factory is [Ode.setTimestepper]. |
| FeState.v | Finite-element fields: error norms (src/physics/finite_element_state.cpp), the maps between true and local dofs (finite_element_state.hpp:30-60, finite_element_dual.hpp:30-50), choice and copying of the space (finite_element_vector.cpp:9-120), and setState / calcStateError of the solvers (src/common/abstract_solver.hpp:395-474, abstract_solver.cpp:45-79, src/physics/pde_solver.cpp:459-520, src/utils/utils.hpp:272-318). All processes together have L local dofs and T true dofs; P (L x T) is the prolongation and Rs (T x L) the restriction of the ParFiniteElementSpace (MFEM). A quadrature point carries ip.weight * T->Weight(), its position and the values of the shape functions of the local dofs (component c, local dof l); the loops over elements and their points only accumulate, so the points of a process form one list. Exact arithmetic; None is a result that is not a finite number. |
| FeStateSpec.v | Vocabulary of the finite-element field theorems. |
| FieldFun.v | Functionals of the magnitude of the curl of the state: MagnitudeCurlStateIntegrator and the numerator and denominator of its induced-exponential aggregate, src/physics/mfem_common_integ.cpp:421-729, 1056-1733; the outputs built on them, src/physics/common_outputs.{hpp,cpp}: AverageMagnitudeCurlState, IECurlMagnitudeAggregateFunctional. The conventions are those of EmInteg and CommonFun: a quadrature point has a reference shape matrix (CalcDShape in two dimensions, CalcCurlShape in three), and Adjugate, Jacobian, Weight of the transformation as functions of the nodes with their RevDiff counterparts. None: a division 0/0. |
| FieldFunSpec.v | What the theorems about the field magnitude functionals mean. |
| FlowError.v | The solution error a flow solver reports: FlowResidual::calcConservativeVarsL2Error, src/physics/fluidflow/flow_residual.cpp:632-693 (FlowSolver's forwards to it, flow_solver.cpp:205-212). |
| FlowErrorSpec.v | Vocabulary for the solution error. |
| FlowJac.v | The assembled Jacobian of the flow residual: what NonlinearForm::GetGradient of FlowResidual's form assembles when every integrator differentiates its own flux with adept. adept (an external library) is modelled by [partial], the partial derivatives of the recorded function (SmoothCalc.v). |
| FlowJacSpec.v | When the flow residual is differentiable, in terms of density, velocity and pressure. |
| FlowOptions.v | From options to the terms of a flow residual: the constructor of FlowResidual, setOptions_ and addFlow*Integrators, src/physics/fluidflow/flow_residual.cpp:84-134, 136-371, 391-417. The options are const inside: operator[] on a const json throws type_error 305 when the value is no object, and is undefined when the object has no such key; implicit conversions throw type_error 302 for a value of another kind. Comparisons between kinds order null < boolean < number < object < array < string (nlohmann::json). |
| FlowOptionsSpec.v | What flow options mean, independently of how the constructor reads them. |
| FlowSens.v | Mesh sensitivities of the flow residual: DyadicMeshSensIntegrator and BoundaryMeshSensIntegrator (src/physics/fluidflow/mesh_sens_integ_def.hpp), IsmailRoeMeshSensIntegrator and SlipWallBCMeshSens (euler_sens_integ_def.hpp), and the residual terms they differentiate with the mesh made explicit. Two and three dimensions ([three]). The transformation of an element is isoparametric (J = PointMat dN); the face transformation of MFEM is the element's composed with the affine map Loc1 of the reference face, so its Jacobian is J times the derivative of Loc1. AdjugateJacobianRevDiff and JacobianRevDiff of the project's MFEM fork add, and CalcOrthoRevDiff sets, the transposed derivatives. State and adjoint are nodal (SBP), so their values at the nodes do not depend on the mesh. Adept's reverse sweep is exact. One process; exact arithmetic. |
| FlowSensSpec.v | Vocabulary of the flow mesh-sensitivity theorems. |
| FlowStep.v | Model of the flow solver's step-size control: src/physics/fluidflow/flow_solver.cpp:88-182 (steady pseudo-transient continuation) and flow_residual.cpp:582-630 (constant-CFL step). |
| FluxSmooth.v | Smoothness of the model's fluxes at physical states, over an arbitrary space of unknowns: every entry of a state is a differentiable function of the unknowns (proof file). |
| FluxSmooth2.v | Smoothness of the two-point fluxes, of the interface flux with dissipation and of the viscous scaling (proof file). |
| Force.v | Force and torque outputs of the magnetostatic solver: ForceIntegrator3 and ForceIntegratorMeshSens3 (src/physics/electromagnetics/electromag_integ.cpp:9689-10571), the options of ForceFunctional and TorqueFunctional (electromag_outputs.cpp:25-82, electromag_outputs.hpp:21-176) and their creation (magnetostatic.cpp:186-207). Two and three dimensions ([three]). The element's transformation is isoparametric: J = PointMat * dN, Weight = det J, AdjugateJacobian = adj J, InverseJacobian = adj J / det J; the RevDiff functions of the project's MFEM fork, which is not part of /repo, add the transposed derivatives. The displacement field v lives in the space of the mesh nodes. Loops that add into zero are finite sums; a division by a norm that is 0 gives NaN, here None. nu does not depend on the position inside a quadrature point: at point q it is the function pnu q of the flux density, pdnu q and pd2nu q are EvalStateDeriv and EvalState2ndDeriv. One process. |
| ForceSpec.v | What a user expects of a force: minus the change of the magnetic energy per displacement of a body. |
| Form.v | Nonlinear and linear forms with essential (Dirichlet) degrees of freedom: src/physics/miso_nonlinearform.{cpp,hpp}, src/common/miso_linearform.cpp, AbstractSolver2::solveForAdjoint (src/common/abstract_solver.cpp:136-174). Simplifications. One process: true dofs are 0..n-1 and grid functions are identified with their true vectors. Matrices are dense (mfem::HypreParMatrix). mfem is modelled by its documented effect: ParNonlinearForm::Mult zeroes the essential rows of its result, GetGradient with no essential dofs is the full gradient, EliminateRowsCols turns the essential rows and columns into those of the identity and returns what it removed, EliminateRows zeroes rows. The integrators are abstract: [raw] is the assembled form without boundary conditions, [grad] its gradient, both depending on the fields and integrator inputs (type W). Printing to std::cout is left out. |
| FormSpec.v | What a user expects of a residual with prescribed (essential) degrees of freedom; written without reference to the model in Form.v. |
| Inputs.v | Model of named inputs, src/physics/miso_input.{hpp,cpp}, on an explicit memory. |
| Interp.v | Model of the reconstruction operators buildInterpolation and buildLSInterpolation, src/utils/utils.cpp:441-730 (compiled with MFEM_USE_LAPACK). A DenseMatrix is a function of (row, column); [x_center a i] is coordinate a of element centre i. pow with a non-negative integer exponent is [pow] (both give 1 for exponent 0, also at base 0). LAPACK's dgels is not modelled: the routines are split into the matrix handed to it and what is done with the solution it returns. |
| IsoGeom.v | An isoparametric transformation in two and three dimensions, as an instance of what the mesh sensitivities assume of MFEM (IsoparametricTransformation: J = PointMat * dN, Weight = det J, AdjugateJacobian = adj J). The functions with suffix Rev are the transposed derivatives, which is what the RevDiff functions of the project's MFEM fork are documented to add; that fork is not part of /repo. |
| JacOptions.v | The matrix Newton's method solves with, for a set of thermal or two-dimensional magnetostatic options: mfem::NonlinearForm::GetGradient over the terms of ThermalOptions.v (domain, interior face, boundary face and internal boundary face integrators, with the markers of miso_nonlinearform.hpp:206-339), called by getJacobian of src/physics/miso_nonlinearform.cpp:104-137 through thermal_residual.cpp:59-64 and magnetostatic_residual.cpp:128-133. The element and face matrices are those of EmInteg.v (electromag_integ.cpp:172-270), DgFace.v (:543-653, :1051-1291) and Thermal.v (thermal_integ.cpp:412-534, 887-1010, 1428-1470, 1772-1782). Simplifications: dense matrices, one rank; essential dofs are those of Form.v (elim_left). |
| JacOptionsSpec.v | What is asked of the materials, the state and the mesh for the Newton matrix of a set of options. |
| KdTree.v | Model of src/utils/kdtree.hpp (coord_type = double, dim = space dimension). Pointers to nodes are indices into nodes_ (valid as long as nodes_ is not reallocated). Arithmetic is real arithmetic followed by an arbitrary rounding function [rnd] after every operation; [rnd := fun x => x] is exact arithmetic, round-to-nearest-even is IEEE without overflow/NaN. std::nth_element is an arbitrary function (its contract is a hypothesis of the theorems: [nth_element_contract]). |
| KdTreeWitness.v | Witnesses that the contracts used for the kd-tree are satisfiable: a sorting nth_element, and IEEE rounding. |
| LineSearch.v | Model of src/common/linesearch.cpp and of quadInterp (src/utils/utils.cpp:140-153). |
| LoadInteg.v | Model of the linear-form integrators of the magnetostatic loads: miso::DomainLFIntegrator and miso::VectorFEDomainLFCurlIntegrator (src/physics/mfem_common_integ.hpp:1121-1292) with their mesh sensitivities (src/physics/mfem_common_integ.cpp:2987-3237), and of the forms that hold them: the 2-D current load (magnetostatic_residual.cpp:338-365) and the 3-D MagneticLoad (magnetic_load.cpp:11-36, magnetic_load.hpp). Simplifications: one process; exact arithmetic; coefficients are functions of element attribute and position with the reverse function of EvalRevDiff; CalcPhysCurlShape and its reverse function are MFEM's (C, CRev below); CalcPhysShape of an H1 element is the reference shape, so its reverse function adds nothing. The MISOLinearForm is that of Form.v; its mesh is the node matrix, stored by dimension (byNODES). |
| LoadIntegSpec.v | What the theorems about the magnetostatic load integrators mean. |
| Logger.v | Model of the state loggers, src/common/data_logging.hpp. |
| Loss.v | Winding and core losses of an electric machine: the functionals DCLossFunctional, ACLossFunctional, CoreLossFunctional, PMDemagOutput and the heat source distributions DCLossDistribution, ACLossDistribution, CAL2CoreLossDistribution, EMHeatSourceOutput, src/physics/electromagnetics/electromag_outputs.{hpp,cpp}, with their integrators in src/physics/electromagnetics/electromag_integ.cpp. Simplifications: those of CommonFun (arithmetic over R, one process, scalar finite elements whose shape functions do not depend on the mesh, so that CalcPhysShapeRevDiff adds nothing). A FunctionalOutput or MISOLinearForm is represented by its value and assembled sensitivities; the values of its inputs are those last distributed. Divisions by zero give 0 in R; the theorems assume nonzero denominators. |
| LossSpec.v | What the theorems about losses and heat sources mean. |
| Magnet.v | Magnets: MagnetizationCoefficient (src/physics/electromagnetics/magnetic_source_functions.cpp:478-705), the product with the reluctivity formed by the 2-D residual (magnetostatic_residual.cpp:366-383) and the 3-D load (magnetic_load.cpp:11-35), and MagnetizationSource2DIntegrator with its sensitivities (electromag_integ.cpp:2739-3190). Real arithmetic. |
| MagnetOptions.v | From options to the two-dimensional magnetostatic residual with its load: src/physics/electromagnetics/magnetostatic_residual.cpp:49-75, 86-121, 231-388. The form is magnetConfig of ThermalOptions.v, the current density that of Current.v, the magnets' table and integrator those of Magnet.v; the load's integrators are added to a MISOLinearForm with a marker (miso_linearform.hpp:193-212). Simplifications: the objects under "current" and "magnets" are read before anything else about them happens, and arrays in their place are not represented; the preconditioner and setOptions (essential dofs, C22, C67) are left out; the three dimensional case is only told apart (its loads are C94, C99). |
| MagnetOptionsSpec.v | What the options of a two-dimensional magnetostatic problem mean: Ampere's law for the potential, tested with v. |
| MagnetSpec.v | What the user wrote in the "magnets" option and in the material library, read off the tables. |
| Mms.v | Model of the manufactured solutions and their source terms: InviscidMMSExact and calcInviscidMMS (src/physics/fluidflow/euler_fluxes.hpp:1278-1420), viscousMMSExact and calcViscousMMS (navier_stokes_fluxes.hpp:362-788), and MMSIntegrator (mms_integ_def.hpp:13-60). The long assignments were translated mechanically from the source text. Decimal literals such as 0.33333333333333337 stand for the small fraction they round (here 1/3); pow with a literal exponent is ^. |
| MmsSpec.v | What a manufactured source term must be: the divergence of the (compressible Navier-Stokes) flux of the manufactured fields. Independent of the code. |
| MonotoneSolve.v | Strongly monotone Lipschitz equations in finitely many unknowns, some of them held, have a solution. |
| NavierStokes.v | Model of src/physics/fluidflow/navier_stokes_fluxes.hpp:1-352 over exact reals, for any number [d] of space dimensions (the code is instantiated at 1, 2, 3). Column-major derivative arrays are [nat -> R] indexed exactly as in the code: entry k of the derivative in direction j is at j*(d+2)+k. |
| NavierStokesSpec.v | Independent vocabulary for the viscous theorems. |
| Newton.v | Model of InexactNewton (src/common/inexact_newton.{hpp,cpp}) and of the merit function / scaling factor of RelaxedNewton (src/common/linesearch.cpp:110-136, src/common/relaxed_newton.cpp). Arithmetic is exact (reals). The residual operator, its gradient and the linear solver are arbitrary functions ("oracles"). |
| Num.v | Arithmetic interface for the floating-point control-flow code. C++ [double] code is written once over this record. [Rnum] is the real-number instance (exact arithmetic; used for the theorems), [Fnum] is Coq's primitive IEEE binary64 (used for concrete runs). Simplification: theorems over [Rnum] say nothing about rounding. |
| Ode.v | Model of the time-dependent residual and the first-order ODE, src/common/ode.{hpp,cpp}, on the explicit memory of [Inputs]: the residual keeps views of the caller's buffers, as the code does. |
| Operators.v | Model of src/common/matrix_operators.cpp and of the block-Jacobi preconditioner (src/common/mfem_extensions.cpp:264-385). |
| Options.v | Model of the option trees: nlohmann::json objects as used by src/common/abstract_solver.cpp:28-32 (constructor) and abstract_solver.hpp:27-30 (setOptions). |
| OrthoPoly.v | Model of src/common/orthopoly.cpp: Jacobi, Proriol and Vandermonde builders. mfem Vectors are processed entry by entry, so the polynomial evaluators are modelled as functions of one abscissa; doubles are reals. [tgamma] (the C library's gamma function) is a parameter. |
| OrthoPolySpec.v | Specification vocabulary for the orthogonal-polynomial code: independent of the model. |
| Outputs.v | Model of the output registry and of output derivative products. src/common/abstract_solver.cpp:213-441, src/common/functional_output.cpp, src/physics/common_outputs.{hpp,cpp} |
| PdeFields.v | What a PDE solver owns after construction, and how outputs are added to it. src/physics/pde_solver.cpp:319-460 (PDESolver), src/physics/electromagnetics/magnetostatic.cpp:54-488 (MagnetostaticSolver), src/physics/thermal/thermal.cpp:17-110 (ThermalSolver), src/common/abstract_solver.cpp:201-247. nlohmann::json: operator[] on a const value throws type_error 305 when it is not an object and is undefined behaviour (an assertion in debug builds) when the object has no such key; get<T> throws type_error 302 for another type; value() throws type_error 306 on a value that is no object; contains() is false there. |
| PenaltyOptionsSpec.v | A thermal or two-dimensional magnetostatic problem given by options on a discontinuous basis: what its interior penalty form controls. |
| Projector.v | Model of the projectors of Nedelec fields, src/utils/irrotational_projector.{hpp,cpp} and src/utils/div_free_projector.{hpp,cpp}, and of the mesh sensitivities they use, src/physics/mfem_common_integ.cpp:2205-2502. Simplifications: arithmetic over R; one process (true dofs are local dofs), space dimension equal to the dimension of the elements; dof transformations (null except for high-order simplices) left out, orientation signs of Nedelec dofs kept; AdjugateJacobian, Weight at a quadrature point are functions of the element's mesh nodes, with the RevDiff counterparts of the MFEM fork; assembled matrices are dense; HyprePCG with BoomerAMG is a function of matrix and right-hand side (what the theorems need from it is a hypothesis: it solves the system); the matrix of the GradientInterpolator is given (it does not depend on the mesh nodes). |
| ProjectorSpec.v | What the theorems about the projectors mean: Nedelec fields and gradients of H1 functions at the quadrature points, the inner product of the rule, and what is required of the mesh, the solver and the gradient matrix. |
| Pumi.v | Model of the PUMI (PCU) life-cycle handling and of the mesh-file dispatch, src/physics/pde_solver.cpp:96-250 (compiled with MFEM_USE_PUMI). |
| RKSpec.v | Independent specification: explicit Runge-Kutta schemes in textbook form, Butcher's rooted trees and order conditions. |
| RootFind.v | Model of the scalar root finders, src/utils/utils.cpp:288-385. |
| RungeKutta.v | Model of the time marchers of src/common/mfem_extensions.cpp:15-242. |
| Sbp.v | Model of the SBP element operators (src/common/sbp_fe.cpp:12-314) and of the element and face assembly loops of src/physics/fluidflow/inviscid_integ_def.hpp and viscous_integ_def.hpp:40-117, over exact reals. Node/state arrays DenseMatrix(num_nodes, num_states) are functions node -> state -> R; the operators, the mapping adjugates and the point fluxes are parameters, so every theorem holds for any element type, any mesh geometry and any flux with the stated properties. |
| SbpElem.v | Model of the concrete SBP elements: SBPTriangleElement and SBPTetrahedronElement constructors (src/common/sbp_fe.cpp:651-839, 929-1022), which load the tables of SbpTables into the element operators of Sbp.v, and the basis evaluations CalcDShape / CalcShape (sbp_fe.cpp:426-506, 841-926, 1024-1126). Exact rationals of the literals. |
| SbpIntegrals.v | Integrals of monomials over the reference simplices and their boundaries (proof file). |
| SbpMesh.v | The assembled flow residual: FlowResidual::addFlowDomainIntegrators / addFlowInterfaceIntegrators / addFlowBoundaryIntegrators (src/physics/fluidflow/flow_residual.cpp:138-330) on a whole mesh. What mfem contributes (looping over elements, interior faces and boundary faces and adding each local vector into the global one) is [scatter] and the three folds. A continuous space maps local nodes of different elements to the same global node, a discontinuous one does not; the theorems cover both. |
| SbpMeshSpec.v | What a valid SBP mesh is, and the error bound of the two-point flux. |
| SbpPolySpec.v | Specification vocabulary for the SBP element tables: polynomials of d variables as finite sums of monomials, the size of their coefficients, integrals over the reference simplices by iterated Riemann integrals. |
| SbpSpec.v | Vocabulary of the SBP theorems, independent of the assembly code. |
| SbpTables.v | The literal operator tables of src/common/data/sbp_operators.hpp and the literal node coordinates and weights of src/common/sbp_fe.cpp, transcribed digit for digit (generated from the sources; exponents such as e-16 written out). Simplification: a decimal literal denotes the exact rational, where the program holds the nearest double (relative difference at most 2^-53). Entries commented out in the source are not part of the tables. |
| SbpTablesOk.v | The tables themselves: every check evaluated by the kernel, and integrals of monomials over the reference simplices. |
| SmoothCalc.v | Differentiability of functions of finitely many coordinates, and gradients by algorithmic differentiation. adept's stack.jacobian / compute_adjoint (an external library) is modelled by the partial derivatives of the very function that is recorded: what the integrators obtain from it is [partial]. |
| Steel.v | The nonlinear reluctivity of a material from spline data, and the data shipped with the code. |
| Steinmetz.v | Core losses by the Steinmetz equation: SteinmetzLossIntegrator, its frequency, peak flux and mesh sensitivities and the heat source SteinmetzLossDistributionIntegrator, src/physics/electromagnetics/electromag_integ.{hpp,cpp}, in a FunctionalOutput src/common/functional_output.{hpp,cpp}. Simplifications: those of Loss (arithmetic over R, one process, the assembled sensitivities are sums over elements and points). The shipped outputs have the integrator only in comments (electromag_outputs.cpp:1665-1692); a user adds it with addOutputDomainIntegrator. pow and log are those of R: pow(0, a) is 1 for a = 0 and 0 otherwise (in C++ infinite for negative a), log of 0 is not modelled; the theorems about sensitivities assume a positive frequency and flux. |
| Surface.v | Model of src/common/surface_def.hpp: extraction of a surface mesh and the point-to-surface distance. The class refuses dim <> 2 (lines 15-18 and 33-36), so the distance part is for curves in the plane. |
| Thermal.v | Heat exchange on boundaries and interfaces, src/physics/thermal/thermal_integ.cpp and .hpp. One face at a time. A rule is what mfem::IntRules.Get(geometry, order) returns for the face, so points, weights and shape functions at the points depend on the order the code asks for. trans.Face->Weight() and trans.Weight() are the same number (in MFEM the face transformation is the FaceElementTransformations object itself), SetIntPoint and SetAllIntPoints are the same call on such an object, and on a boundary face el2 is el1. IntRule is null. Vectors of the two sides are one vector, side 1 first, as in the code. Arithmetic is exact. |
| ThermalOptions.v | From options to the terms of a thermal residual and of a two-dimensional magnetostatic residual, and the vector they assemble: src/physics/thermal/thermal_residual.cpp:162-373, src/physics/thermal/thermal.cpp:19-50, src/physics/electromagnetics/magnetostatic_residual.cpp:250-330, src/physics/miso_nonlinearform.hpp:206-339. Options are those of FlowOptions.v (const json). An array kept as [LBad] has an element that is no number and no object: arrays of objects under "interfaces" are not represented. Coefficients, preconditioners and printing are left out, and so is setOptions of the form of the solver, thermal.cpp:31, which concerns the essential dofs of continuous spaces (C22, C67). The space's global vectors are indexed by numbers; one rank. |
| ThermalOptionsSpec.v | What the options of a thermal (magnetostatic) problem mean: the equations they stand for. |
| ThermalRes.v | The thermal residual around its nonlinear form, src/physics/thermal/thermal_residual.cpp:20-160: the thermal load. The form (C67, C68 and C75 are about it) is an arbitrary function of memory and inputs. Memory is that of Inputs.v: an input vector is a block of its owner. The lifetime of blocks is not modelled. |
| ThermalResSpec.v | What the user of the thermal residual means by its load: the numbers in the buffer when it was last given. |
| ThermalSpec.v | What the theorems about heat exchange on boundaries and interfaces mean. |
| TimeLoop.v | Model of the time loop and the logging hooks, src/common/abstract_solver.cpp. Times are real numbers (exact arithmetic); [S] is the type of state vectors. |
| Transfer.v | Model of the L2 transfer operators, src/utils/l2_transfer_operator.{hpp,cpp}: ScalarL2IdentityProjection, L2IdentityProjection, L2CurlProjection, L2CurlMagnitudeProjection. An element is the record of CommonFun; its "quadrature points" are here the nodes of the output element (GetNodes of output_fe, one per output dof), e_pw and e_shape are not used. Simplifications: arithmetic over R; one process (true dofs are local dofs); orientation signs of the state's dofs are kept (GetSubVector / AddElementVector with negative indices), dof transformations (which are null except for high-order simplices) are not; CalcPhysShape, CalcVShape, Jacobian, AdjugateJacobian, Weight at a node are functions of the element's mesh nodes, with the RevDiff counterparts of the MFEM fork. mfem::DenseMatrix::GradToCurl of a matrix with columns (x, y) writes -y and x. A product that contains NaN (0/0, or infinity times zero) is None. |
| TransferSpec.v | What the theorems about transfers to discontinuous spaces mean. |
| Vec.v | Finite sums and vectors. A vector of size n is a function nat -> R of which only the entries below n matter (mfem::Vector of size n). |
| ViscWall.v | The boundary integrators of viscous flow: ViscousBoundaryIntegrator (viscous_integ_def.hpp:246-616) and the fluxes of the boundary conditions that addViscousBoundaryIntegrators attaches (flow_residual.cpp:305-371). As in Sbp.v the face's position argument is folded into the face node index. |
| ViscWallSpec.v | Vocabulary for the theorems about viscous walls. |
| Vortex.v | Model of the isentropic vortex: calcIsentropicVortexState and calcIsentropicVortexFlux, src/physics/fluidflow/euler_fluxes.hpp:868-922, over exact reals (pow = Rpower on positive bases, atan, sqrt). 1/sqrt(0) at the origin is left to Coq's total division. |
| Warp.v | The mesh warper: src/utils/mesh_warper/{mesh_warper,mesh_move_integ}.{cpp,hpp}, the steady branch of AbstractSolver2::solveForState (src/common/abstract_solver.cpp:81-135) and the OpenMDAO component miso/mesh_warper.py. Simplifications. One process: true dofs are 0..n-1 and a grid function is its true vector. Real arithmetic. mfem is modelled by its documented effect: ElasticityIntegrator::AssembleElementMatrix, NewtonSolver::Mult, IsoparametricTransformation (Jacobian = PointMat * dshape, Weight = det, InverseJacobian = adjugate / det), GetEssentialTrueDofs (increasing list of the true dofs of the nodes on the marked boundaries). The linear solver is an arbitrary function of the matrix and right-hand side. Logging, printing, the preconditioner and the choice of nonlinear solver are left out; the solver modelled is mfem's NewtonSolver (type "newton"). |
| WarpSpec.v | What a user expects of a mesh warper; written without reference to Warp.v's functions (only to its description of a mesh). |

## What is not modelled
* Rounding, except where a theorem says binary64; MPI communication other than reductions and counts; memory exhaustion.
* Files that are not part of the build (`equation_solver.cpp`, `fluidflow/euler.cpp`, `navier_stokes.cpp`, `advection.cpp`).
* mfem itself: finite element spaces, element transformations, assembly of global vectors from element vectors
  (taken as a sum over elements), linear solvers, hypre, file output of fields.
* Galerkin-difference reconstruction spaces beyond `build(LS)Interpolation`, the EGADS mesh movement, ParaView output.

## Plan and status per property

* **C01** bisection stays inside its bracket and returns only a certified approximation (proved). Model: RootFind.v, RootFindProofs.v. Method: fuelled loop of bisection over an abstract number type; loop invariant (bracket, sign change, halving) and a log2 bound on the passes. Exact (real) arithmetic; also: returns whenever maxiter > log2(|xr-xl|/xtol)
* **C02** bisection reports failure only when it failed, and finds a root at an end point (partial). Model: RootFind.v. Method: counter-programs run by the kernel for the false half, invariant for the rest. Both halves of the claim are false of the code (witnesses proved); what holds is C02_throw_only_if_short_partial
* **C03** secant is exact on affine functions and never returns an unconverged point silently (partial). Model: RootFind.v. Method: exactness by field; unreachability of the failure branch by invariant. Affine exactness proved; the failure exception is unreachable, so silent failure is proved (refuted claim); C03_secant_sound_partial states what a return does guarantee
* **C04** backtracking line search returns a sufficient-decrease step or zero (proved). Model: LineSearch.v, LineSearchProofs.v. Method: invariant of the backtracking loop for any merit function; binary64 NaN witness. Real arithmetic; NaN acceptance in binary64 is recorded as C04_nan_accepted_refuted
* **C05** line-search interpolation steps are stationary points of the interpolant (partial). Model: LineSearch.v. Method: interpolants as polynomials, derivative computed and shown zero at the returned step. Quadratic case and the regular cubic branch proved; degenerate cubic branch has a sign error (refuted)
* **C06** inexact Newton: converged flag, final norm and monotone residual (proved). Model: Newton.v, NewtonProofs.v. Method: loop over an arbitrary residual, gradient and linear solver; invariant linking state, norm and flag. Exact arithmetic; aborted runs (mfem_error) excluded by hypothesis
* **C07** inexact Newton uses the true directional derivative of the merit function (partial). Model: Newton.v. Method: directional derivative with Coquelicot; rotation as counterexample. Holds for self-adjoint Jacobians only; refuted for a rotation
* **C08** kd-tree nearest-neighbour search is exact (proved). Model: KdTree.v, KdTreeProofs.v, KdTreeWitness.v. Method: tree invariant by induction on construction, pruning correctness for any monotone rounding (Flocq instance), any nth_element meeting the ISO contract. Any monotone idempotent rounding, any nth_element meeting the ISO contract
* **C09** kd-tree structural safety (proved). Model: KdTree.v. Method: index-safety invariant. Add_node after finalize without re-finalize is UB (conservative), shown as C09_add_after_finalize_refuted
* **C10** binary state log round-trips (proved). Model: Logger.v, LoggerProofs.v. Method: file system as a map from names to byte lists, round trip for all vectors. Field names without '/'; a field name with '/' is silently lost (C10_slash_lost_refuted)
* **C11** ASCII state log round-trips (partial). Model: Logger.v. Method: Flocq: 18 significant digits separate binary64 values. Proved for every finite binary64 (sign of zero not tracked); refuted for NaN/Inf
* **C12** log file names are unambiguous (proved). Model: Logger.v. Method: injectivity of the printed names. 
* **C13** unsteady time loop ends at t-final and never past it (proved). Model: TimeLoop.v, TimeLoopProofs.v. Method: loop invariant over an arbitrary step function. Exact arithmetic; t-initial < t-final and a marcher with t += dt; otherwise refuted (backwards run, relaxed overshoot)
* **C14** time-step logs form a faithful history (partial). Model: TimeLoop.v. Method: trace of log records characterised by induction. When t-final ends the run the final record overwrites the last step's record (refuted); everything else of the log proved
* **C15** solver options override defaults and leave the rest (proved). Model: Options.v, OptionsProofs.v. Method: JSON trees, merge_patch and update specified path by path. Also: a throwing setOptions may have changed part of the options (C15_setOptions_not_atomic_refuted)
* **C16** named inputs reach exactly the parameters they name (proved). Model: Inputs.v, InputsProofs.v. Method: heap of buffers with aliasing; frame reasoning. Per mode; mixing shallow and deep sets on one vector overwrites the first caller's buffer (C16_mixed_modes_clobber_refuted)
* **C17** output registry is sound (proved). Model: Outputs.v, OutputsProofs.v. Method: registry as a state machine, any history of calls. Unknown derivative names are silently swallowed (C17_unknown_wrt_swallowed_refuted)
* **C18** output partials: overwrite versus accumulate is uniform (partial). Model: Outputs.v. Method: value semantics of the product calls. The vector form overwrites for functional outputs; the scalar form accumulates and is NaN for functional outputs (refuted)
* **C19** forward and reverse output products are adjoint (partial). Model: Outputs.v. Method: adjoint identity for any forms whose own products are adjoint. Proved for functional and quotient outputs; the mass output wrt fill_factor and one-dof states are not adjoint (refuted); the mfem forms' own derivatives are given
* **C20** implicit time residual and its Jacobian agree (proved). Model: Ode.v, OdeProofs.v. Method: derivative of the stage residual with Coquelicot on the explicit memory. Plus refuted side claims: unsupported addJacobians combinations keep the old Jacobian, the residual ignores its argument, hence RelaxedNewton stalls on time-dependent residuals
* **C21** time-marching updates are the documented schemes (proved). Model: RungeKutta.v, RKSpec.v. Method: each marcher equals the textbook scheme for any right-hand side. The steady marcher applied to a time residual is refuted
* **C22** relaxation Runge-Kutta conserves or dissipates entropy exactly as predicted (partial). Model: RungeKutta.v, RelaxationProofs.v. Method: entropy balance along the relaxed update. Entropy balance up to the root finder's defect (the secant solver may stop on a small update or the iteration limit); no-progress step refuted
* **C23** the sixth-order RRK tableau is consistent (proved). Model: RungeKutta.v, RKSpec.v. Method: Butcher trees; the decimals of the tableau as rationals, conditions decided by computation on all trees up to order 6. Order-6 conditions of all rooted trees within 1e-34 (the published decimals), not order 7
* **C24** sums of operators depend only on their operands (partial). Model: Operators.v, OperatorsProofs.v. Method: operators with their private buffers; history independence. Proved for coefficients not within the code's tolerance of zero; zero coefficient leaves stale data (refuted)
* **C25** Jacobian-free product is exact on affine residuals (partial). Model: Operators.v. Method: exactness on affine residuals for any step. Proved for a non-zero scale; scale 0 leaves the stale destination in the result (refuted)
* **C26** block-Jacobi preconditioner and its transpose are an adjoint pair (proved). Model: Operators.v. Method: adjointness for any blocks. 
* **C27** solver factories accept exactly the documented names (partial). Model: Factory.v, FactoryProofs.v. Method: dispatch on all strings. Documented names give the documented objects with the requested settings; exceptions proved as refuted: hyprefgmres drops abstol, magnetostatic/thermal preconditioner names fall through to nullptr, bad_cast for blockilu with hypre solvers, unknown marcher is undefined behaviour
* **C28** conservative and entropy variables are mutual inverses (proved). Model: Euler.v, EulerSpec.v, EulerProofs.v, EulerDeriv.v. Method: algebra over R in any dimension; inverses, gradients. Exact arithmetic, any dimension
* **C29** pressure, entropy and spectral radius are independent of the choice of variables (proved). Model: Euler.v. Method: same. Exact arithmetic, any dimension
* **C30** logarithmic average (proved). Model: Euler.v, LogAvgProofs.v. Method: series bound by alternating/geometric estimates. Exact arithmetic; relative error of the series branch at most 1e-16
* **C31** Ismail-Roe flux is symmetric, consistent and entropy conservative (proved). Model: Euler.v, IsmailRoeProofs.v. Method: Tadmor identity; explicit allowance inside the series branch. Exact arithmetic; the Tadmor identity is exact outside the series branch of logavg and within a 1e-16 relative defect inside it
* **C32** interface dissipation never creates entropy (proved). Model: Euler.v, FluxProofs.v. Method: positive definiteness of dq/dw. Exact arithmetic
* **C33** Roe flux is consistent and conservative (proved). Model: Euler.v, RoeProofs.v. Method: eigen-decomposition. Exact arithmetic; also the full wave decomposition and the supersonic limit
* **C34** boundary fluxes are consistent (proved). Model: Euler.v, BoundaryProofs.v. Method: eigen-decomposition. Exact arithmetic; also the characteristic decomposition and both supersonic limits
* **C35** slip-wall treatment lets nothing through (proved). Model: Euler.v, BoundaryProofs.v. Method: algebra. The projection keeps the energy, hence raises the pressure (C35_projection_raises_pressure)
* **C36** free-stream state matches the requested flow conditions (proved). Model: Euler.v, BoundaryProofs.v. Method: algebra. For distinct roll and pitch axes; equal axes (unchecked) refuted
* **C37** orthonormal polynomial recurrences (partial). Model: OrthoPoly.v, OrthoPolySpec.v, OrthoPoly*Proofs.v. Method: three-term recurrence by induction on the degree, integrals with Coquelicot, change of variables on triangle and tetrahedron. Orthonormality, degree and end-point values proved for beta = 0 (the only value the code's tri/tet bases with alpha any even number need); the beta <> 0 recurrence is refuted by a witness
* **C38** Vandermonde matrices fill every column exactly once (proved). Model: OrthoPoly.v. Method: loop counters in closed form. Exact arithmetic; column order and count of the Vandermonde matrices, each column the stated orthonormal polynomial
* **C39** boundary attribute arrays (proved). Model: BdrArray.v. Method: induction on the list. An attribute outside 1..n is an unchecked out-of-range write (C39_out_of_range)
* **C40** surface mesh extraction (partial). Model: Surface.v, SurfaceProofs.v. Method: specification of the numbering pass by induction; the node copy refuted in general. Vertices, elements, attributes and connectivity proved; node copying on curved meshes is right exactly when the marked boundary elements come first, otherwise refuted
* **C41** minimum-distance Newton certification (partial). Model: Surface.v, SurfaceProofs.v. Method: Newton iteration with clipping, invariant; witness for the missed neighbour. Returned distances are distances to a surface point, and minimal over the searched element when it is straight; minimality over the surface is refuted (only one element at the nearest node is searched)
* **C42** PUMI library reference counting (partial). Model: Pumi.v, PumiProofs.v. Method: invariant over all event histories. Proved while only MISO uses the library or another owner keeps it alive; refuted when the other owner finalises it, and when constructPumiMesh is called directly
* **C43** steady pseudo-transient step size (partial). Model: FlowStep.v, FlowStepProofs.v. Method: loop invariant; binary64 NaN witness. Exact arithmetic; a start with residual exactly zero gives a NaN step (refuted)
* **C44** least-squares reconstruction reproduces polynomials (proved). Model: Interp.v, InterpProofs.v. Method: monomial enumeration, Taylor shift, least-squares optimality. Exact arithmetic; LAPACK's answer is a hypothesis (solution of the system / least-squares solution, full column rank)
* **C45** viscous flux is entropy dissipative and consistent (proved). Model: NavierStokes.v, NavierStokesSpec.v, NavierStokesProofs.v. Method: viscous coefficient matrices symmetric positive semidefinite in any dimension. Exact arithmetic, any dimension
* **C46** relaxed Newton uses the true merit slope and reduces the residual (proved). Model: Newton.v. Method: directional derivative of the merit function. 
* **C47** an interrupted save is never mistaken for a complete one (partial). Model: Logger.v. Method: every crash point of the byte stream. The claim is false of the code: what a torn file reads as is proved for every crash point from byte 12 on and below byte 8
* **C48** viscous wall conditions are entropy stable and vanish for a fluid at rest (proved). Model: NavierStokes.v. Method: sign of the boundary entropy term. Exact arithmetic, any dimension; the assembly of the viscous boundary integrator around these point functions is not modelled here
* **C49** SBP difference and projection operators are consistent with each other (proved). Model: Sbp.v, SbpSpec.v, SbpProofs*.v. Method: operator identities from Q + Q' = E. Exact arithmetic; the numerical operator tables themselves are not checked here
* **C50** element, boundary and interface terms are conservative and entropy consistent (proved). Model: Sbp.v. Method: summation over element and face loops. Exact arithmetic, any flux/scaling with the stated properties
* **C51** the assembled flow residual conserves, is entropy stable and preserves a free stream (proved). Model: SbpMesh.v, SbpMeshSpec.v. Method: sum over the whole mesh: conservation, entropy, free stream. Exact arithmetic; the entropy identities hold up to the explicit allowance of the logarithmic average's series branch; manufactured source terms and viscous boundary terms not included
* **C52** assembled element Jacobians are the derivatives of the element residuals (partial). Model: Sbp.v. Method: derivatives with Coquelicot, entry by entry. LPS with lps_coeff other than 1 and interface terms with negative alpha are refuted; everything else proved
* **C53** Lobatto quadrature rules are exact to degree 2n-3 and contain the end points (partial). Model: OrthoPoly.v, LobattoProofs.v. Method: Newton fixed points are Lobatto points; exactness by polynomial division; small n by computation. Exactness proved for every rule whose points are stationary for the Newton step and distinct; convergence of the Newton iteration itself for all n is not proved (small n are)
* **C54** mesh source selection (proved). Model: Pumi.v, PumiProofs.v. Method: induction on the string. 
* **C55** constant-CFL time step (proved). Model: FlowStep.v, FlowStepProofs.v. Method: minimum over nested loops is a lower bound and attained. Exact arithmetic; distinct node positions and physical states
* **C56** manufactured source terms belong to their exact solutions (partial). Model: MmsSpec, Mms, MmsProofs, Props_Mms. Method: the generated source expressions transcribed mechanically from the C++; partial derivatives of the fields by Coquelicot, divergence by product rules, identity by ring/field with the double-angle identities as rewriting hypotheses; refutations at a rational point. 2-D viscous case and element term fully proved; 3-D inviscid source is right for a physical flow but not for the exact solution in the code (refuted; that function is not called by the solver); inviscid 2-D overruns a 4-entry array (refuted); 3-D viscous mass and momentum right, energy wrong and exact solution reads x[3] (refuted)
* **C57** the isentropic vortex is an exact steady Euler flow (partial). Model: MmsSpec, Vortex, VortexProofs, Props_Mms. Method: closed form of the state (Rpower algebra, atan in the right half plane), then the divergence identity as for C56; boundary flux by consistency of the characteristic boundary flux. Proved right of the y axis outside the vacuum core; left of it the angle is wrong (refuted)
* **C58** the flow controller is a filtered PID law coupled consistently to the flow (partial). Model: Control, ControlProofs, Props_Control. Method: setInputs as a sequence of updates with exceptions; PID law by differentiating the state equations (Coquelicot) and field; entropy statements by quadratic-form algebra; coupling by computation on an arbitrary number of ranks. All proved except open loop through the coupled residual, which is refuted: every later input set without the flag closes the loop again, and the coupled residual always passes such a set
* **C59** material-dependent coefficients evaluate and differentiate the coefficient of the element's material (partial). Model: Coef, CoefProofs, Props_Coef. Method: coefficient objects as a sum type of arities holding arbitrary functions; registration as a map with unique keys; derivative theorems for arbitrary registered functions by case analysis (Coquelicot). Proved; refuted parts: asking a coefficient of another arity for a value silently evaluates it at state zero (C59_wrong_arity_refuted), and the second derivative through a continuation is wrong (C59_continuation_second_refuted)
* **C60** material coefficients built from the options and the library, and mixtures (partial). Model: CoefMix, CoefMixProofs, Props_Coef. Method: option objects, library and input history as data; induction over components and inputs; derivative of the mixing rules by Coquelicot. Values, weights and derivatives proved; refuted: the default value argument is ignored, an unknown mixing rule silently gives 0, a mixture of one material is undefined behaviour
* **C61** temperature- and flux-dependent loss coefficients interpolate their data (partial). Model: EmCoef, EmCoefProofs, Props_EmCoef. Method: loops over coefficient lists proved equal to polynomial specification by induction on the list; derivatives by induction; construction as induction over components. Proved away from zero flux density and zeros of the first polynomial, where value or derivatives are not finite (refuted); a component given by "attr" cannot be constructed (refuted)
* **C62** the demagnetisation constraint has the sign of the distance to the knee (proved). Model: EmCoef, EmCoefProofs, Props_EmCoef. Method: field algebra for the two lines; derivatives by quotient rule; construction by induction over components. Exact arithmetic, nonzero denominators; construction with "attr" never completes (C61_single_attribute_refuted)
* **C63** conductivity, remnant flux and knee flux follow their documented temperature laws (proved). Model: EmCoef, EmCoefProofs, Props_EmCoef. Method: as C61; derivatives by auto_derive. Exact arithmetic; reverse pass of the knee flux not covered
* **C64** reluctivity models are positive, continuous and consistently differentiated (partial). Model: EmCoef, EmCoefProofs, Props_EmCoef. Method: splines abstracted as functions with derivatives; local agreement of piecewise functions; refutation of continuity by epsilon-delta. Model choice, lognu and BH away from the last knot and zero proved; refuted: jump of the lognu model at its last knot, BH derivative at zero flux, BH second derivative.  Splines are any functions with correct derivatives
* **C65** the residual form respects prescribed dofs and its Jacobian products are its derivative (partial). Model: FormSpec, Form, FormProofs, Props_Form. Method: forms as abstract functions with gradients, matrices as functions of two indices; row identities of the eliminated matrices by sum manipulation; derivatives by Coquelicot. Exact arithmetic; integrators abstract with correct gradient, mfem matrix elimination by its documented effect.  Refuted: with a boundary field the products omit the boundary rows, and the step from a state violating the boundary values is not the Newton direction
* **C66** the adjoint gives total derivatives (partial). Model: FormSpec, Form, FormProofs, Props_Form. Method: transposed row identities plus uniqueness of derivatives; total derivative from the implicit relation. Proved for state changes that keep the essential dofs (exact linear solver); refuted for changes of prescribed values, and finalizeAdjointSystem (never called) would flip the sign
* **C67** which linearisation is in use after any sequence of calls (partial). Model: Form, FormProofs, Props_Form. Method: simulation between the form and a ghost state that remembers the assembling call; induction on the call sequence. Consistency and provenance proved for every history; refuted that linearize refers to the state it is given when a matrix is already stored, or after the essential dofs change
* **C68** vector-Jacobian products wrt parameters differentiate the residual and load actually returned (partial). Model: FormSpec, Form, FormProofs, Props_Form. Method: derivative of finite sums, masking on essential dofs. Vector parameters and loads proved; scalar parameters proved for r vanishing on the essential dofs and refuted otherwise; jvp wrt parameters is not implemented in the code (throws or adds nothing)
* **C69** the current density of the 2-D magnetostatic residual and its sensitivities (partial). Model: Current, CurrentSpec, CurrentProofs, Props_Current. Method: option tables as association lists; invariant relating the two maps of the coefficient to the last number given, by induction on the call history; linearity of quadrature for the derivative. Value after every history, refusal of duplicates and, with no magnets, both products proved; refuted: with magnets the products contain the magnets' load, without a current option they dereference a null pointer, and a group named current_density:a collides with group a
* **C70** the 3-D current load is never stale and its sensitivity is its derivative (partial). Model: Current, CurrentSpec, CurrentProofs, Props_Current. Method: state machine with dirty flag; invariant by induction on the history: a clean load equals the assembly of the present data on free dofs. Load and sensitivity proved for histories that do not change the essential boundaries, on option tables without stator sources; refuted: setOptions keeps stale zeros, and with a stator source the sensitivity throws.  The projection onto divergence-free fields is an abstract linear assembly
* **C71** current and magnetisation directions have their named geometry (partial). Model: Direction, DirectionProofs, Props_Direction. Method: real geometry: case analysis on the piecewise definitions, sqrt identities, continuity by Coquelicot. Proved except that the source named cw turns counter-clockwise (C71_cw_refuted)
* **C72** the magnetostatic element residual is the gradient of an energy and its Jacobian is its derivative (partial). Model: EmInteg, EmIntegSpec, Deriv, EmIntegProofs, Props_EmInteg. Method: one element as finite sums over any number of dofs and points; derivative of the norm by the chain rule away from 0 and by a squeeze at 0. Energy gradient, symmetry, definiteness, monotonicity and adjointness proved at every state; the Jacobian is the derivative where the field at each point is 0 or above the code's cut-off 1e-14, and refuted below it; the Jacobian of the magnetization integrator is refuted (class unused in the library)
* **C73** magnetic energy density, energy functional and their derivatives (partial). Model: EmInteg, EmIntegSpec, Deriv, EmIntegProofs, Props_EmInteg. Method: change of variable in the Riemann integral, chain rule per point. Density and its derivatives proved; the gradient proved where the field vanishes at no quadrature point, refuted (0/0) elsewhere
* **C74** mesh sensitivities of the magnetostatic residual and the energy (partial). Model: EmInteg, EmIntegSpec, Deriv, EmMeshProofs, IsoGeom, Props_EmInteg. Method: reverse pass as written; the transformation's RevDiff functions are hypotheses (transposed derivative), instantiated for isoparametric elements in 2-D and 3-D. Proved given that the RevDiff functions of the MFEM fork are the transposed derivatives (shown for isoparametric elements), at fields that are 0 or above the cut-off (diffusion) or nonzero (others); refuted: the curl-curl sensitivity omits alpha and divides by a zero field
* **C75** heat exchanged over boundaries and interfaces obeys its law, and its derivatives are exact (partial). Model: Thermal, ThermalSpec, ThermalProofs, Props_Thermal. Method: face integrals as finite sums over any rule; laws stated separately; derivatives by Deriv; mesh by transposed derivatives of the face weight; refutation on a cubic face with Gauss rules. Laws, conservation, dissipation and projection proved; the Jacobian of internal convection, the h sensitivity of contact resistance and the mesh sensitivity of internal convection are proved when the transformation's weight has order 0 and refuted otherwise (they use other quadrature orders than the vector); the flux of the outflux condition has no sensitivity (refuted)
* **C76** the thermal residual includes exactly the load it was given (partial). Model: ThermalRes, ThermalResSpec, Props_ThermalRes. Method: heap of buffers with a shallow reference to the load; induction on the history. Value proved for loads of the right size in a buffer of its own; refuted: evaluation zeroes the essential entries in the caller's load, a load aliasing the result, a load of the wrong size, and the products overwrite and ignore the essential entries
* **C77** magnet options give remnant flux times direction, and the magnet load and its sensitivities follow (partial). Model: Magnet, MagnetSpec, MagnetProofs, Props_Magnet. Method: option tables as association lists, induction on the table; element load as finite sums; derivatives by Deriv and transposed RevDiff hypotheses. Value, construction, mesh and temperature sensitivities proved; equilibrium proved for a reluctivity independent of the flux density; refuted: the 2-D load evaluates the reluctivity at the temperature, the 3-D load evaluates the remnant flux at temperature 0, an unknown direction is silently ignored and a missing material is undefined behaviour
* **C78** volume, mass, averages and boundary flux are the integrals they name, with exact derivatives (partial). Model: CommonFun, CommonFunSpec, CommonFunProofs, Props_CommonFun. Method: meshes as lists of elements, assembled sums; derivatives by Deriv and transposed RevDiff hypotheses. Volume, mesh and state derivatives, bounds of the average and boundary flux proved; refuted: mesh sensitivity with a density pointer that points to nothing, forward product and suffixed reverse product with respect to the fill factor (they use the density, not its derivative), an average of a named field (averages the state or stale scratch), and the shape buffer that is never sized (out-of-bounds write for tensor-product elements)
* **C79** the induced-exponential aggregate approximates the maximum from below and has exact derivatives (partial). Model: CommonFun, CommonFunSpec, CommonFunProofs, Props_CommonFun. Method: sums over the list of samples; Chebyshev-type pairing for monotonicity; quotient rule. Value, bounds, monotonicity, gap to the maximum and all derivatives proved on one process; refuted: on several processes every one uses its own shift, and a named field without an input state has no finite shift
* **C80** flux-magnitude outputs: average and aggregate of |B| and their derivatives (proved). Model: FieldFun, FieldFunSpec, FieldFunProofs, Props_FieldFun. Method: one reverse pass parametrised by the point functional; chain rule along paths of shapes and weights; sums over samples. Average, aggregate and all derivatives proved; overflow of the unshifted exponential is outside exact arithmetic
* **C81** DC winding loss: value and derivatives (partial). Model: Loss, LossSpec, LossProofs, Props_Loss. Method: quadrature sums over elements; scalar derivatives by case analysis on the name and auto_derive; field and mesh products by assembly duality; histories of setInputs/calcOutput for the stored volume. Value and all products proved for names given in full and nonzero conductivity, radius, strands, volume; refuted: a name that merely begins with a parameter's name gets a nonzero product although the output does not depend on it
* **C82** AC winding loss: value and derivatives (partial). Model: Loss, LossSpec, LossProofs, Props_Loss. Method: quadrature sums over elements; scalar derivatives by case analysis on the name and auto_derive; field and mesh products by assembly duality; histories of setInputs/calcOutput for the stored volume. Value, reverse products and field products proved; refuted: the forward product with respect to the frequency is the derivative divided by the strand radius (radius^3 instead of radius^4)
* **C83** heat sources: conservation and derivatives (partial). Model: Loss, LossSpec, LossProofs, Props_Loss. Method: quadrature sums over elements; scalar derivatives by case analysis on the name and auto_derive; field and mesh products by assembly duality; histories of setInputs/calcOutput for the stored volume. Conservation and reverse products proved, the mesh product when the stored winding volume is that of the mesh, which holds after an evaluation that does not set it; refuted: the mesh product after setting a mesh without evaluating (stale volume), and the forward products, which add nothing
* **C84** core loss: value and derivatives (proved). Model: Loss, LossSpec, LossProofs, Props_Loss. Method: quadrature sums over elements; scalar derivatives by case analysis on the name and auto_derive; field and mesh products by assembly duality; histories of setInputs/calcOutput for the stored volume. Given that the coefficients' derivative functions are derivatives
* **C85** demagnetisation output: minus the integral of the constraint (partial). Model: Loss, LossSpec, LossProofs, Props_Loss. Method: quadrature sums over elements; scalar derivatives by case analysis on the name and auto_derive; field and mesh products by assembly duality; histories of setInputs/calcOutput for the stored volume. Proved for one-point rules; refuted for others: the sign is flipped at every quadrature point, so contributions alternate in sign
* **C86** transferred fields hold the values at the nodes (partial). Model: Transfer, TransferSpec, TransferProofs, Props_Transfer. Method: a list of elements with output dofs owned by one element; direct evaluation of the affine triangle by field. Values proved, copy and constants too; refuted: the two-dimensional curl has the wrong sign, (-dA/dy, dA/dx); a space whose elements share degrees of freedom is accepted and the elements' values are added up
* **C87** reverse products of the transfers are derivatives (partial). Model: Transfer, TransferSpec, TransferProofs, Props_Transfer. Method: assembly duality; chain rule along paths of nodes; the element functionals of C80 weighted by the adjoint. Proved for output spaces with a nodal, value-mapped basis (what the DG option creates); where the field vanishes the magnitude's products are NaN; refuted for integral-mapped spaces: the vector transfer's mesh product depends on uninitialised memory
* **C88** transfers refer to the last inputs (partial). Model: Transfer, Props_Transfer. Method: induction on the list of calls. Proved for histories of one operator that owns its fields; refuted: an unknown input name is silently ignored
* **C89** the irrotational projector returns the closest gradient (proved). Model: Projector, ProjectorSpec, ProjectorProofs, Props_Projector. Method: bilinear forms of the assembled matrices; Galerkin orthogonality; positivity of the rule's inner product. Exact arithmetic, one process; the linear solver is assumed to solve the system (the code stops at 200 iterations without checking), the gradient matrix to take gradients
* **C90** the divergence-free projector returns the divergence-free part (partial). Model: Projector, ProjectorSpec, ProjectorProofs, Props_Projector. Method: from C89. Proved when the destination is another vector; refuted in place: the result is then zero
* **C91** reverse products of the projectors are transposes (proved). Model: Projector, ProjectorSpec, ProjectorProofs, Props_Projector. Method: adjoint identity with the transposed system. Same assumptions as C89, for the transposed system as well
* **C92** mesh sensitivities of the projectors are derivatives (partial). Model: Projector, ProjectorSpec, ProjectorProofs, Props_Projector. Method: continuity of solutions of linear systems in their data, then the adjoint identity; chain rule for weight and adjugate. Proved when the default rules of the two mesh-sensitivity integrators give the element matrices of the projector's rule (linear simplices, equal rules); refuted otherwise: the integrators are not given ir_order (two curved segments); a vector that is not a grid function is refused
* **C93** projectors use the current mesh (proved). Model: Projector, ProjectorProofs, Props_Projector. Method: induction on the list of calls. 
* **C94** the 3-D current load is the dual of a divergence-free current (proved). Model: CurrentAsm, CurrentAsmSpec, CurrentAsmProofs, Props_CurrentAsm. Method: invariant over histories (flag false means the stored vectors belong to the current inputs); Galerkin identities of C89. Exact arithmetic, one process; the iterative solvers are assumed to solve their systems; the rule of the mass matrix and that of the projector give the same element matrices (the constructor takes the same order from element 0; meshes with one element type)
* **C95** the mesh sensitivity of the 3-D current load is its derivative (partial). Model: CurrentAsm, CurrentAsmSpec, CurrentAsmProofs, Props_CurrentAsm. Method: two coupled linear systems (mass, diffusion): continuity of their solutions, frozen-coefficient derivative, then adjoint identities. Proved when the default rules of the sensitivity integrators give the matrices of the projector's rule (see C92 for the refutation otherwise)
* **C96** the sensitivity of the 3-D current load to a current density is its derivative (proved). Model: CurrentAsm, CurrentAsmSpec, CurrentAsmProofs, Props_CurrentAsm. Method: uniqueness of the solutions of both systems gives linearity of the load in the current. Same assumptions as C94; the current is linear in the densities (Current.v)
* **C97** element mesh sensitivities of the current load (partial). Model: CurrentAsm, CurrentAsmSpec, CurrentAsmProofs, Props_CurrentAsm. Method: product rule at each point; counterexample: one segment, factor 2. Load: proved for every factor; mass: proved for factor 1 (the only one used in the library), refuted for other factors: the derivative through the weight lacks the factor
* **C98** the 2-D current load integrates the current, and its mesh sensitivity is its derivative (partial). Model: LoadInteg, LoadIntegSpec, LoadIntegProofs, Props_LoadInteg. Method: product rule at each point, assembly as a pairing; counterexample: unit square, one corner moved. Value: proved; derivative: proved on simplices (Pk), refuted on quadrilaterals: the load uses the rule of order 2p-2, its sensitivity that of order 2p+dim-1
* **C99** mesh sensitivity of the 3-D magnet load (partial). Model: LoadInteg, LoadIntegSpec, LoadIntegProofs, Props_LoadInteg. Method: overload resolution read from the declarations; counterexample: one tetrahedron with its top raised. Refuted: the sensitivity integrator is registered by a function of another name that nothing calls, so the product leaves the destination unchanged for every argument; the integrator itself is proved to give the derivative
* **C100** warping a mesh leaves the surface where it was put and the interior in elastic equilibrium (partial). Model: Warp, WarpSpec, WarpProofs, WarpSolveProofs, WarpSensProofs, Props_Warp. Method: assembled matrix as a symmetric non-negative form, Newton on an affine residual, minimum from the first variation. Proved for the surface held in the state vector; refuted for "surf_mesh_coords": solveForState pushes it to the residual, whose Mult passes only the state, so it is ignored
* **C101** the warped mesh depends on the surface only (partial). Model: Warp, WarpSpec, WarpProofs, WarpSolveProofs, WarpSensProofs, Props_Warp. Method: uniqueness from the solvability of the symmetric system; induction on the history; affine fields have zero residual. Affine maps other than rigid ones: proved where the discrete divergence theorem holds at interior nodes (exact quadrature); all else proved. Essential boundaries must be the whole surface
* **C102** partial derivatives of the warper's residual (partial). Model: Warp, WarpSpec, WarpProofs, WarpSolveProofs, WarpSensProofs, Props_Warp. Method: derivative of each residual entry; pairing of the two products by exchanging sums. Surface: proved; state: proved on the rows of free nodes, refuted on surface rows, where the residual is state minus surface and the product is zero
* **C103** total derivative of a function of the warped mesh with respect to the surface (partial). Model: Warp, WarpSpec, WarpProofs, WarpSolveProofs, WarpSensProofs, Props_Warp. Method: the warped mesh is affine in the surface (uniqueness); adjoint identity for the symmetric matrix. Refuted: setUpAdjointSystem zeroes the surface entries and nothing restores them, so the product is zero for every function; proved: the total derivative is the given derivative on the surface minus the product of the adjoint with respect to "state" there
* **C104** the warper's linear systems suit a conjugate-gradient solver (proved). Model: Warp, WarpSpec, WarpProofs, WarpSolveProofs, WarpSensProofs, Props_Warp. Method: quadratic form as an integral of squares; null vectors of the form are null vectors of the matrix. Mfem's ElasticityIntegrator is modelled by its documented element matrix
* **C105** initial coordinates and the reverse mode of the OpenMDAO component (partial). Model: Warp, WarpSpec, WarpProofs, WarpSolveProofs, WarpSensProofs, Props_Warp. Method: unfolding of the index arithmetic; outcomes with out-of-range access as a value. Proved for meshes whose nodal field is ordered by component of each node; refuted for the other ordering (wrong numbers); a state of higher degree than the mesh reads out of range (proved for all); the component calls the forward product in reverse mode, out of range as soon as a surface dof is numbered beyond their number
* **C106** the explicit rate of an evolver (partial). Model: Evolver, EvolverSpec, EvolverProofs, Props_Evolver. Method: invariant over the history of calls; induction on the number of calls for the accumulating case. Proved for evolvers with a nonlinear residual (stiffness rows of essential dofs are those of the identity); refuted: rates at essential dofs are not zero, because the list is still empty when the mass matrix is eliminated; without a residual the work vector is never reset, so every call adds to the last and the first uses uninitialised memory
* **C107** residual and gradient of an evolver's implicit equation (partial). Model: Evolver, EvolverSpec, EvolverProofs, Props_Evolver. Method: Coquelicot derivative of each entry. Proved with a mass matrix or a nonlinear mass on the free rows along directions that vanish at essential dofs; without any mass the gradient lacks the factor dt (refuted with an example)
* **C108** an implicit step solves the equation it stands for (partial). Model: Evolver, EvolverSpec, EvolverProofs, Props_Evolver. Method: loop invariant of Newton's method; exactness of one step for affine residuals. Proved without the stiffness term; refuted with it: the implicit step ignores the stiffness matrix while the explicit rate uses it; a nonlinear mass is evaluated at x - k because dt_stage keeps its default -1 (proved right for affine mass, refuted otherwise); null dereference when no Newton solver was set
* **C109** gradient, entropy and entropy change of an evolver (partial). Model: Evolver, EvolverSpec, EvolverProofs, Props_Evolver. Method: case analysis over outcomes. GetGradient takes its argument for a slope from the last implicit step and dereferences null before the first; ODESystemOperator::Mult ignores the slope (refuted)
* **C110** force and torque are virtual work (partial). Model: Force, ForceSpec, ForceProofs, Props_Force. Method: derivatives of determinant and adjugate along a motion; rigid elements contribute nothing; induction over the elements; sessions of create/set/calc. Proved whenever the output is a number, for bodies with no displacement below 1e-14 and an air region that contains the neighbours of the body; the output is NaN exactly when the flux vanishes at a quadrature point of a deformed element, in particular without any field (refuted there: the virtual work is 0)
* **C111** state derivative of force and torque (proved). Model: Force, ForceSpec, ForceProofs, Props_Force. Method: reverse pass paired with a direction equals the Coquelicot derivative, element by element; the output stays defined near the state. For quadrature points with positive weights of the transformation; the displacement field is held fixed
* **C112** mesh derivative of force and torque (proved). Model: Force, ForceSpec, ForceProofs, Props_Force. Method: derivative of the inverse and adjugate of the Jacobian; pairing of the reverse pass. The stored displacement field does not follow the mesh (C113), so neither does the derivative; RevDiff functions of the MFEM fork are the transposed derivatives
* **C113** options and names of force and torque outputs (partial). Model: Force, ForceSpec, ForceProofs, Props_Force. Method: inversion of session steps; linearity of the force in the displacement. Refuted: every output stores its displacement under the fixed name vforce (vtorque), so outputs with other names throw out_of_range unless the plain one exists, and then share one field (last options win, with an example where the sign turns); setOutputOptions changes the displacement but not the attributes of the integrator; a torque keeps the rotation about old positions; short axes are read out of bounds; the force grows with the length of the axis, the torque does not
* **C114** mesh sensitivity of the two-point volume flux (proved). Model: FlowSens, FlowSensSpec, FlowSensProofs, Props_FlowSens. Method: reading the accumulated reverse pass with a displacement; derivative of the adjugate along a motion; induction over node pairs, directions and elements. Given that AdjugateJacobianRevDiff of the MFEM fork is the transposed derivative; the sum over the nodes needs mesh shape functions that sum to a constant
* **C115** mesh sensitivity of boundary fluxes (partial). Model: FlowSens, FlowSensSpec, FlowSensProofs, Props_FlowSens. Method: the computed Jac_map is the derivative of the face parametrisation; derivative of CalcOrtho; pairing of the reverse pass. Slip wall proved, and any flux that does not depend on the position; refuted for fluxes that do (the template has no position sensitivity)
* **C116** error norms of a field (proved). Model: FeState, FeStateSpec, FeStateProofs, Props_FeState. Method: signed powers invert each other; sums over processes and points; Bernoulli, convexity and Minkowski. Non-negative quadrature weights, except for independence of the partition and agreement of calcL2Error with calcLpError
* **C117** error of one component (partial). Model: FeState, FeStateSpec, FeStateProofs, Props_FeState. Method: even powers ignore the sign; counterexamples and general failure statements. Proved for every even p; refuted for others: the component error is used without fabs, so errors cancel for odd p, negative errors are ignored for p = infinity, and a non-integer p gives NaN
* **C118** setState and calcStateError (partial). Model: FeState, FeStateSpec, FeStateProofs, Props_FeState. Method: case analysis of the dispatch; left inverse of the prolongation. Refuted: a function editing the state in place is applied twice to state; an mfem::Vector or unknown type is silently ignored by setState and gives NaN in calcStateError; the error against a vector is the norm of the local part and differs between processes
* **C119** true and local dofs (proved). Model: FeState, FeStateSpec, FeStateProofs, Props_FeState. Method: exchange of sums. The operators of ParFiniteElementSpace are MFEM's: any matrices with Rs P = I
* **C120** choice and copy of the space (partial). Model: FeState, FeStateSpec, FeStateProofs, Props_FeState. Method: case analysis; evaluation of the names of all spaces that can exist. Refuted: a misspelt basis-type silently gives continuous H1, and a missing degree or basis-type is undefined behaviour
* **C121** output histories of a controlled flow (partial). Model: ControlRun, ControlRunSpec, ControlRunProofs, Props_ControlRun. Method: per-file invariant (one open stream owns the file) through every hook, induction over steps and outputs. Proved for the first run of a solver; refuted for later ones: emplace keeps the closed stream, so a second solveForState removes the history of the first and leaves every file empty
* **C122** construction and time loop of the flow-control solver (partial). Model: ControlRun, ControlRunSpec, ControlRunProofs, Props_ControlRun. Method: case analysis; simulation of the base loop by induction over steps. Refuted: with entropy variables construction demands steady and every solve then throws; a passed serial mesh is rejected if the file name has no dot; an unknown extension dereferences null; const-cfl overruns t-final
* **C123** the shipped SBP operators are summation-by-parts operators (partial). Model: SbpTables, SbpElem, SbpPolySpec, SbpElemProofs, SbpElemProofs2, SbpElemProofs3, SbpTablesOk, SbpIntegrals, Props_SbpElem. Method: the literal tables as exact rationals; an integer check of all monomials, accepted by the kernel by computation, lifted to all polynomials by linearity; integrals of monomials by iterated Riemann integration. Proved for triangles of degree 1-4 and tetrahedra of degree 1; refuted at degree 0: the triangle operator has no diagonal boundary operator, the tetrahedron operator is not exact beyond constants
* **C124** gradient operator of the viscous terms (partial). Model: SbpTables, SbpElem, SbpPolySpec, SbpElemProofs, SbpElemProofs2, SbpElemProofs3, SbpTablesOk, SbpIntegrals, Props_SbpElem. Method: the table's exact skew-symmetry turns the entry into the metric-weighted operator; C123. Proved for degree 1-4 (error 1e-14 per unit coefficient and metric term); refuted at degree 0, where a constant field gets a spurious derivative of 1/2 of its value
* **C125** derivatives of the SBP shape functions (partial). Model: SbpTables, SbpElem, SbpPolySpec, SbpElemProofs, SbpElemProofs2, SbpElemProofs3, SbpTablesOk, SbpIntegrals, Props_SbpElem. Method: exact characterisation of the returned scaling; kernel computation on the tables. Proved at degree 0 (equal weights); refuted for every triangle of degree 1-4 and the tetrahedron of degree 1: entries are divided by the weight of the other node, a constant field gets a derivative of at least 3 at node 1
* **C126** values of the SBP shape functions (partial). Model: SbpTables, SbpElem, SbpPolySpec, SbpElemProofs, SbpElemProofs2, SbpElemProofs3, SbpTablesOk, SbpIntegrals, Props_SbpElem. Method: exchange of sums, orthonormality of the Legendre polynomials (C37). Proved for triangles up to the defect of discrete orthonormality; refuted for segments: at every degree and point off the node objects a constant field is multiplied by sqrt 2 (basis scaled by 2 instead of sqrt 2)
* **C127** nodes shared between SBP elements (partial). Model: SbpTables, SbpElem, SbpPolySpec, SbpElemProofs, SbpElemProofs2, SbpElemProofs3, SbpTablesOk, SbpIntegrals, Props_SbpElem. Method: barycentric form of the edge nodes, checked on the tables and lifted to all vertex positions. The sharing along triangle edges and the counts are proved for degrees 0-4; refuted: the segment element's node order agrees with the triangle edges only up to degree 2, and at degree 3 its reversal table is wrong for its own nodes
* **C128** the flow system matrix is the derivative of the flow residual (proved). Model: SmoothCalc, FluxSmooth, FluxSmooth2, FlowJac, FlowJacSpec, FlowJacProofs, Props_FlowJac. Method: a closure calculus for maps with continuous-direction derivatives (sums, products, quotients, roots, logs, powers, absolute values off zero) shows every flux differentiable along curves with its partials as Jacobian; the assembly lemmas of C52 add the terms up. Automatic differentiation is modelled as exact partial derivatives; viscous boundary integrators (no-slip walls) are added in C129; for gas at rest the stabilisation is shown not to be differentiable at all
* **C129** the viscous system matrix is exact, walls included (partial). Model: ViscWall, ViscWallSpec, ViscWallProofs, Props_ViscWall. Method: tested form of the face residual and of its matrix; smoothness closure lemmas for the adiabatic, penalty and tangential fluxes; added to C128's mesh sum. Exact for the scale factor 1 that the flow residual uses; the integrator also takes another scale factor, which its matrix ignores (C129_scaled_wall_refuted); the far-field-type ViscousInflow/Outflow/FarField classes that the flow residual never attaches are not modelled
* **C130** viscous walls conserve mass, do no spurious work, and never produce entropy of the wrong sign (partial). Model: ViscWall, ViscWallSpec, ViscWallProofs2, Props_ViscWall. Method: with the derivatives frozen, the viscous residual is a flow residual with extra boundary faces, so C51's balances apply; the wall rates follow from the strain-rate form of the fluxes (C45, C48). True for conservative variables; the entropy-variable instance with viscous terms is not refused and reads entropy variables as conservative ones (C130_entropy_variables_refuted); entropy statements are up to the allowance of the logarithmic average (C51)
* **C131** drag and lift are the pressure force, balance the far field, and have exact gradients (proved). Model: Aero, AeroSpec, AeroProofs, Props_Aero. Method: value: slip-wall flux in primitive variables; balance: C51's conservation split by boundary; gradient: smoothness closure of the slip-wall flux and tested form of the face vectors. For axes of the space; the option checks (distinct, 0..2) accept axis 2 in the plane, where forming the direction writes outside a vector (C131_axes_checked_refuted); the result is D/(rho U^2), half the usual coefficient (C131_half_the_usual_coefficient)
* **C132** the viscous force is the wall condition's momentum flux, with an exact gradient (proved). Model: Aero, AeroSpec, AeroProofs, Props_Aero. Method: wall functional gradient in tested form, chain rule through the discrete derivatives, C130's conservation split by boundary. For conservative variables and the scale factor 1 that constructOutput uses; on walls other than no-slip the output still adds the no-slip penalty and adiabatic flux, so it is not their momentum flux
* **C133** the boundary-entropy and supply-rate outputs integrate what they document (partial). Model: Aero, AeroProofs2, Props_Aero. Method: entropy contraction of an upwinded convective flux; convexity of the entropy for the bound; explicit counterexamples. True: the weight (up to two dimensions), the closed form of both integrands, the supply rate at the free stream, its bound for inflow.  False: the integrand adds a pressure term to the entropy, uses the conservative pressure formula on entropy variables, the supply rate uses another far-field flux than the residual, the actuator has two entries in space, and the gradient is a stale work vector (…_refuted)
* **C134** materials described by components are laid over the library (partial). Model: PdeFields, PdeFieldsProofs, Props_PdeFields. Method: induction over the components on top of C15's merge_patch theory, with preservation of key uniqueness. False: two descriptions under one name share it, so a component's own value or the library value another component refers to is replaced (C134_own_description_refuted), and the constructor of the flow solvers ignores descriptions (C134_flow_solvers_refuted)
* **C135** the fields a solver owns after construction (partial). Model: PdeFields, PdeFieldsProofs, Props_PdeFields. Method: map lookups after emplace, by induction over the external fields. False for external fields called state, adjoint, dirichlet_bc or mesh_coords (dropped silently) and residual (reported with the state's size) (C135_external_refuted); an external temperature is always reset
* **C136** adding outputs by name (partial). Model: PdeFields, PdeFieldsProofs, Props_PdeFields. Method: case analysis of addOutput into one invariant per kind; prefix-freeness of the name table; induction over histories. False: dc_loss and ac_loss ignore the attributes option and without a current are restricted to nothing; force, torque, max_flux_magnitude, max_state and heat_source throw a type error without options; a second flux_magnitude output is impossible; a flux-density output named like a field keeps that field's space; average_state of another field reads the state (…_refuted)
* **C137** the entropy and entropy change a flow residual reports (partial). Model: EntropyRate, EntropyRateSpec, EntropyRateProofs, Props_EntropyRate. Method: the energies are the assembled residual read with the entropy variables as test field (flow_test, face_test'); the entropy-conserving flux has the same entropy rate whatever flux it corrects. False with the Euler flux option: that integrator's energy is zero (C137_euler_flux_refuted); the documented state u + dt*du_dt is not used, the state passed in is (which is what the relaxation schemes pass)
* **C138** mass matrix and balance laws of the time-dependent flow equations (proved). Model: EntropyRate, EntropyRateSpec, EntropyRateProofs, EntropyRateProofs2, Props_EntropyRate. Method: element mass matrix entry by entry through the loop; test fields turn the mass equation into integrals; C51/C130 conservation for the residual. Conservative variables (the solver refuses unsteady runs in entropy variables, flow_solver.cpp:45); assembly only, the linear solves are exact
* **C139** flow options select exactly the terms they name (partial). Model: FlowOptions, FlowOptionsSpec, FlowOptionsProofs, FlowOptionsProofs2, Props_FlowOptions. Method: the constructor as a reader of a json tree with four outcomes; a closed form of its result by case analysis on the settings; marker arrays from the boundary-array proofs. Refuted parts: any flux name but IR means the Euler flux; unknown conditions and those of the other equations are ignored; a missing flow-param is read before it is checked; lps-coeff true means none; axes are checked against 3 dimensions; attributes outside the mesh are undefined behaviour rather than refused
* **C140** the residual a set of flow options describes (partial). Model: FlowOptions, FlowOptionsSpec, FlowOptionsProofs2, Props_FlowOptions. Method: read the assembled residual with test fields (fold_read) and compare with flow_test and viscous_residual_test; C51/C130 for the corollaries. Ismail-Roe flux and no manufactured source in the end-to-end statements; false for the basis spelled DSBP, which selects the discontinuous space but adds no interface terms (C140_basis_spelling_refuted); the pump state only in two dimensions
* **C141** entropy of the coupled flow-control residual over every history of calls (partial). Model: ControlEntropy, ControlEntropyProofs, Props_ControlEntropy. Method: state machine with the members that outlive a call; invariant over every history (actuator of residual and boundary conditions agree, P symmetric); C137, C138 and C58 for the values. One process; the rate statement for conservative variables (the unsteady solver refuses the others); false parts: the built-in actuator position is never used, so nothing has a value until x-actuator is supplied; calcEntropyChange_ ignores every input but time and dt, so with the same inputs it need not be the rate of the reported entropy; it leaves the flow's clock at time + dt
* **C142** the solution error a flow solver reports is a distance of conservative states (partial). Model: FlowError, FlowErrorSpec, FlowErrorProofs, Props_FlowError. Method: loops with an error outcome; closed form by induction over nodes, elements and processes; Cauchy-Schwarz for the quadrature by the discriminant. Exact reals; false part: a component number past the last one is not refused but reads out of bounds (C142_bad_component_refuted)
* **C143** restricting integrators to attributes restricts values and sensitivities alike (partial). Model: Attach, AttachSpec, AttachProofs, Props_Attach. Method: form as lists of integrators with markers; induction over the add calls; marker contents from C39's lemmas; table of all registration overloads. One rank; exact reals; the integrators' own kernels are parameters (proved elsewhere, C78 to C115).  False parts: a residual's attribute-restricted domain integrator acts on the whole mesh while its sensitivities are restricted, and its marker is sized by the boundary attributes (C143_residual_domain_refuted, C143_residual_domain_attribute_refuted); a restricted ForceIntegrator has an unrestricted sensitivity (C143_force_refuted); a named SteinmetzLossIntegrator registers its flux sensitivity under another input's name (C143_named_steinmetz_refuted); an unknown attribute is undefined behaviour (C143_unknown_attribute)
* **C144** interior penalty terms: conservation, consistency, symmetry, stability and derivatives (partial). Model: DgFace, DgFaceSpec, DgFaceProofs, DgFaceMesh, Props_DgFace. Method: point-wise weak forms by linear algebra over sums; Young's inequality for stability; directional derivatives composed from shape, material and geometry; adjoint pairing for the mesh sensitivities. One face; exact reals; MFEM's transformations and their reverse functions are parameters assumed right; mesh sensitivities hold the material and boundary value fixed at reference points.  False parts: on a material that varies inside an element the matrices are wrong, because its derivative is evaluated at the face's point (C144_graded_material_refuted); the boundary term's mesh sensitivity is NaN where the gradient vanishes and undefined on segments (C144_flat_state_refuted), and uses another rule than the vector on elements not of type Pk (C144_rule_refuted)
* **C145** thermal problem options: the equations they stand for (partial). Model: ThermalOptions, ThermalOptionsSpec, ThermalOptionsProofs, Props_ThermalOptions. Method: every accepted option tree is inverted term by term into the list of integrators, whose marked sums are rewritten as sums over listed attributes; face terms are those of C75 and C144. One process; exact reals; arrays of objects in options not represented; essential dofs of continuous spaces and setOptions are C22 and C67.  False parts: a face named in two interfaces has its coupling subtracted twice, so heat flows from cold to hot (C145_double_interface_refuted); on continuous bases a contact resistance does nothing (C145_continuous_contact_refuted); a convection or outflux of another JSON kind is accepted and forgotten (C145_silent_condition_refuted)
* **C146** two-dimensional magnetostatic options: the equations they stand for (partial). Model: MagnetOptions, MagnetOptionsSpec, MagnetOptionsProofs, Props_MagnetOptions. Method: the accepted option tree is read into the tables of C69 and C77, whose values hold after every history; marked element sums become sums over listed attributes; testing with 1 gives the circulation. One process; exact reals; arrays in place of the option objects not represented; essential dofs and setOptions are C22 and C67; the 3-D case is C72, C94, C99.  False parts: an unknown source name is accepted and carries no current (C146_unknown_source_refuted); magnets without a temperature field are undefined behaviour rather than an exception (C146_temperature_refuted); a magnet along z is accepted and stops the program at the first evaluation (C146_out_of_plane_magnet_refuted)
* **C147** Newton's matrix of thermal and magnetostatic options (partial). Model: JacOptions, JacOptionsSpec, JacOptionsProofs, Props_JacOptions. Method: every term of an accepted configuration is traced to the option it comes from, which gives the side conditions of the element and face matrices (C72, C75, C144); scattering commutes with derivatives and quadratic forms; an affine residual by a constant derivative along lines. One process, dense matrices, exact reals.  The derivative statement asks for a gradient that is 0 or above the code's cut-off 1e-14 (refuted below it: C72), element-wise uniform laws on faces (refuted otherwise: C144_graded_material_refuted) and straight channel faces (refuted otherwise: C75); laws independent of the field need none of the first
* **C148** Energy and unique solvability of thermal and magnetostatic options (proved). Model: EnergyOptionsSpec, EnergyOptionsProofs, MonotoneSolve, EnergyExistProofs, Props_EnergyOptions. Method: existence by a contraction in the norm of the linear part (Zarantonello); derivative of the energy along every direction; monotonicity of the vector flux from that of its size (Cauchy-Schwarz); mean value theorem along the segment to another field; an injective square matrix is onto. One process, dense matrices, exact reals; the statement is about continuous bases without weak conditions and interfaces; it says nothing about whether Newton iterations converge
* **C149** Unique solvability of discontinuous thermal and magnetostatic options (proved). Model: PenaltyOptionsSpec, PenaltyOptionsProofs, Props_PenaltyOptions. Method: difference of the form at v and at 0 term by term; Young's inequality at half the penalty; an injective square matrix is onto. One process, dense matrices, exact reals; linear materials; mu = 0 is shown not to be positive; that mu is above the trace constant is a hypothesis on the mesh (penalised)
* **C150** Nonlinear reluctivities from spline data and the shipped steels (proved). Model: Steel, SteelProofs, SplineProofs, SteelDataProofs, SteelBhProofs, SteelBhDataProofs, Props_Steel. Method: weights of de Boor's recursion lie in [0,1]; induction on de Boor's recursion for the derivative; the pieces join with their slopes; numeric intervals of the shipped data; squarings bound the exponential; C148 for the machine. Exact reals; the spline library is modelled by de Boor's recursion with exact comparison of knots (the real one snaps parameters to near knots); only one-dimensional control points; refuted parts of the intent: continuity at the last knot and use of the team13 data
* **C151** Core losses by the Steinmetz equation (partial). Model: Steinmetz, SteinmetzProofs, Props_Steinmetz. Method: pointwise derivatives of powers in base and exponent, summed over points, elements and integrators with the lemmas of the losses C81 - C84. Refuted for functionals with integrators of two names (C151_two_names_refuted): all are registered under one key, so the product is the sum of the derivatives for every name (C151_flux_shared); the frequency product is right for any names (C151_frequency); products are derivatives at positive frequency and flux (at zero flux the mesh product takes log(0)); EvalRevDiff of the coefficients is assumed to be the transposed derivative
* **C152** The quarter annulus mesh (partial). Model: AnnulusMesh, AnnulusMeshProofs, Props_AnnulusMesh. Method: every vertex is a grid vertex displaced by at most the perturbation; a two by two determinant bound; monotone sine. Refuted for perturbations of a quarter of a cell or more, which are accepted (C152_tangled_refuted: some draws invert a triangle); exact reals; triangles are those of the straight mesh in (r, theta) before the curved nodes are placed; that the curved elements of a given degree are not inverted is not shown

## Testing against wrong programs
`seeded/LOG.jsonl` lists every seeded fault: the edited definition, the edit, the claim it breaks and the theorems that
stopped proving. Faults were planted in a scratch copy of the model; a surviving fault led to a tightened theorem.
