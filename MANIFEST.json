{
 "claims": [
  {
   "property": "C01",
   "status": "proved",
   "theorems": [
    "C01_end_is_hit_exactly",
    "C01_not_yet_at_end"
   ],
   "note": "Every arithmetic (incl. binary64), every legal history of next/set_time_step/set_desired_time_step; one-percent gap over R."
  },
  {
   "property": "C02",
   "status": "proved",
   "theorems": [
    "C02_time_loop_terminates",
    "C02_plain_loop_terminates",
    "C02_terminates_in_binary64_refuted"
   ],
   "note": "Exact arithmetic: bound proved for arbitrary adaptive requests; binary64: non-termination witness for all n."
  },
  {
   "property": "C03",
   "status": "proved",
   "theorems": [
    "C03_bookkeeping",
    "C03_steps_add_up",
    "C03_setters"
   ],
   "note": "step_no modulo 2^32; sums over R."
  },
  {
   "property": "C04",
   "status": "proved",
   "theorems": [
    "C04_desired_step_control",
    "C04_growth_limit_refuted"
   ],
   "note": "The growth limit at now()==0 is refuted, as the statement says."
  },
  {
   "property": "C05",
   "status": "partial",
   "theorems": [
    "C05_bdf2_weights_partial",
    "C05_first_step_is_euler",
    "C05_bdf2_weights_refuted",
    "C05_uniform_weight"
   ],
   "note": "Code violates the full property when a step size call lies between two next() (refuted); proved for all other histories up to the 1e-12 retention of weight()."
  },
  {
   "property": "C06",
   "status": "partial",
   "theorems": [
    "C06_restart_is_fresh_partial",
    "C06_restart_is_fresh_refuted"
   ],
   "note": "Code violates the full property (refuted); partial theorem lists what does agree, for every arithmetic."
  },
  {
   "property": "C07",
   "status": "proved",
   "theorems": [
    "C07_scheme_constants",
    "C07_name_identifies_scheme",
    "C07_constructors_agree"
   ],
   "note": ""
  },
  {
   "property": "C08",
   "status": "partial",
   "theorems": [
    "C08_extrapolation_partial",
    "C08_extrapolation_refuted"
   ],
   "note": "Refuted when a step size call lies between the last two next()."
  },
  {
   "property": "C09",
   "status": "partial",
   "theorems": [
    "C09_at_tick_partial",
    "C09_every_tick_reported_refuted"
   ],
   "note": "Partial theorem characterises the result for non-negative times in int range; documented reading refuted."
  },
  {
   "property": "C10",
   "status": "partial",
   "theorems": [
    "C10_weight_flag",
    "C10_weights_partial"
   ],
   "note": "Sum of weights proved for histories without restart(); with restart it is refuted by C06_restart_is_fresh_refuted."
  },
  {
   "property": "C11",
   "status": "proved",
   "theorems": [
    "C11_density_and_viscosity_selection"
   ],
   "note": "For every arithmetic."
  },
  {
   "property": "C12",
   "status": "partial",
   "theorems": [
    "C12_accepted_parameters_are_consistent_partial",
    "C12_enumerations",
    "C12_only_documented_rejections",
    "C12_negative_degree_refuted"
   ],
   "note": "A negative velocity degree is accepted (wraps to unsigned): refuted; everything else proved."
  },
  {
   "property": "C13",
   "status": "proved",
   "theorems": [
    "C13_unsupported_files_are_rejected",
    "C13_extension_recognised"
   ],
   "note": ""
  },
  {
   "property": "C14",
   "status": "proved",
   "theorems": [
    "C14_registry_is_the_history",
    "C14_rejections",
    "C14_wrong_components_change_nothing",
    "C14_atomic_rejection_refuted"
   ],
   "note": "Registry content after any history equals a history-based specification; the non-atomic rejection is part of the statement and witnessed."
  },
  {
   "property": "C15",
   "status": "partial",
   "theorems": [
    "C15_clear_all_partial",
    "C15_clear_all_refuted"
   ],
   "note": "Code violates the documented behaviour (refuted); the partial theorem says exactly what survives."
  },
  {
   "property": "C16",
   "status": "proved",
   "theorems": [
    "C16_setup_accepts_exactly_compatible_registrations",
    "C16_normal_flux_exclusive",
    "C16_imposed_velocity"
   ],
   "note": ""
  },
  {
   "property": "C17",
   "status": "partial",
   "theorems": [
    "C17_files_not_shared",
    "C17_master_record",
    "C17_cycle_numbers_partial",
    "C17_no_overwriting_refuted"
   ],
   "note": "File names and master record proved for all runs; two outputs of one run can share a cycle number (refuted)."
  },
  {
   "property": "C18",
   "status": "partial",
   "theorems": [
    "C18_fluid_types_reach_advection_partial",
    "C18_fluid_types_reach_advection_refuted"
   ],
   "note": "Proved for the matrix-based solver, refuted for every history of the matrix-free solver."
  },
  {
   "property": "C19",
   "status": "proved",
   "theorems": [
    "C19_bounded_and_honest",
    "C19_failure_is_reported_as_zero"
   ],
   "note": "All linear solvers and residuals (oracles); iteration sums modulo 2^32."
  },
  {
   "property": "C20",
   "status": "proved",
   "theorems": [
    "C20_linear_budget",
    "C20_linear_tolerance",
    "C20_projection_step"
   ],
   "note": "Assumes only that SolverControl is respected; tolerance in exact arithmetic."
  },
  {
   "property": "C21",
   "status": "proved",
   "theorems": [
    "C21_history_vectors",
    "C21_two_phase_history",
    "C21_projection_pressure_guess"
   ],
   "note": ""
  },
  {
   "property": "C22",
   "status": "partial",
   "theorems": [
    "C22_initial_stokes_restores_parameters_partial",
    "C22_initial_stokes_restores_parameters_refuted",
    "C22_coefficients_restored_refuted"
   ],
   "note": "Parameters are restored on normal return; refuted on exceptions and for variable coefficient fields."
  },
  {
   "property": "C23",
   "status": "proved",
   "theorems": [
    "C23_marks_respect_limits",
    "C23_levels_stay_within_limits",
    "C23_answer_true_means_some_cell_is_marked",
    "C23_pressure_based_limit"
   ],
   "note": "All meshes, partitions, indicator fields and any number of adaptations; deal.II smoothing/execution enters as a stated contract."
  },
  {
   "property": "C24",
   "status": "proved",
   "theorems": [
    "C24_residual_expansion",
    "C24_newton_operator_is_the_derivative"
   ],
   "note": "Global (all meshes, dofs, constraints, modes), exact arithmetic; the expansion also covers Picard with its explicit remainder."
  },
  {
   "property": "C25",
   "status": "proved",
   "theorems": [
    "C25_vmult_linear",
    "C25_velocity_vmult_linear",
    "C25_affine_steps_are_exact"
   ],
   "note": ""
  },
  {
   "property": "C26",
   "status": "proved",
   "theorems": [
    "C26_projection",
    "C26_disabled",
    "C26_enabled_changes"
   ],
   "note": "Both modes (augmented Taylor-Hood)."
  },
  {
   "property": "C27",
   "status": "partial",
   "theorems": [
    "C27_velocity_vmult_restores",
    "C27_pressure_poisson_vmult_restores",
    "C27_pressure_mass_vmult_restores",
    "C27_amg_histories",
    "C27_amg_vmult_is_safe",
    "C27_ilu_histories_partial",
    "C27_refuted_after_compute",
    "C27_refuted_after_velocity_vmult",
    "C27_initialize"
   ],
   "note": "Proved for every history with an AMG velocity preconditioner; refuted for ILU with variable coefficients or velocity_vmult (fields are moved away)."
  },
  {
   "property": "C28",
   "status": "proved",
   "theorems": [
    "C28_vector",
    "C28_block",
    "C28_vector_on_blocks"
   ],
   "note": "Exact arithmetic, any number of processes."
  },
  {
   "property": "C29",
   "status": "proved",
   "theorems": [
    "C29_poisson_wrapper",
    "C29_index_list"
   ],
   "note": ""
  },
  {
   "property": "C30",
   "status": "proved",
   "theorems": [
    "C30_inverts_block_triangular",
    "C30_is_left_inverse",
    "C30_two_step_convergence",
    "C30_stationary",
    "C30_inner_tolerance",
    "C30_no_memory"
   ],
   "note": "All sizes; inner solvers arbitrary functions assumed exact."
  },
  {
   "property": "C31",
   "status": "proved",
   "theorems": [
    "C31_sub_elements",
    "C31_sub_quad",
    "C31_sub_quad_bijective",
    "C31_sub_elements_cover"
   ],
   "note": "All degrees, dim 1-3; includes absence of out-of-range accesses."
  },
  {
   "property": "C32",
   "status": "partial",
   "theorems": [
    "C32_minimum",
    "C32_cell_diameters",
    "C32_maximum",
    "C32_epsilon_used",
    "C32_points",
    "C32_refuted_coarse_cells"
   ],
   "note": "Proved over reals; eigenvalues are inputs. The maximum covers only the finest level by design (witness for coarse cells)."
  },
  {
   "property": "C33",
   "status": "partial",
   "theorems": [
    "C33_partial",
    "C33_monotone",
    "C33_refuted_capillary_limit"
   ],
   "note": "Convective limit proved; the capillary limit with densities is refuted (the code uses viscosities). Zero velocity (IEEE infinity) not covered."
  },
  {
   "property": "C34",
   "status": "partial",
   "theorems": [
    "C34_exact_area",
    "C34_bounds",
    "C34_complement",
    "C34_segment",
    "C34_weights_partition",
    "C34_cell_area",
    "C34_cell_totals",
    "C34_saddle_refuted",
    "C34_perimeter"
   ],
   "note": "Proved for all sign patterns but saddles (two opposite positive corners), for which the fraction is negative: refuted for every saddle."
  },
  {
   "property": "C35",
   "status": "proved",
   "theorems": [
    "C35_partition_independent",
    "C35_partition_independent_3d",
    "C35_reported",
    "C35_circle",
    "C35_reported_3d",
    "C35_gather"
   ],
   "note": "All partitions and rank counts."
  },
  {
   "property": "C36",
   "status": "partial",
   "theorems": [
    "C36_concentration_range",
    "C36_samples",
    "C36_partition_independent",
    "C36_refuted_between_samples"
   ],
   "note": "Exact over the sample points of all ranks; refuted between sample points."
  },
  {
   "property": "C37",
   "status": "proved",
   "theorems": [
    "C37_even",
    "C37_support",
    "C37_nonnegative",
    "C37_moments",
    "C37_continuous"
   ],
   "note": ""
  },
  {
   "property": "C38",
   "status": "proved",
   "theorems": [
    "C38_symmetric",
    "C38_outside",
    "C38_derivative",
    "C38_monotone",
    "C38_range",
    "C38_continuous"
   ],
   "note": ""
  },
  {
   "property": "C39",
   "status": "partial",
   "theorems": [
    "C39_level_set",
    "C39_faces",
    "C39_phase_field",
    "C39_phase_field_values",
    "C39_sharp_interface_range",
    "C39_violation_sharp_interface"
   ],
   "note": "Level set and phase field solvers proved; the sharp-interface solver violates it exactly outside of [-1,1] (both directions proved)."
  },
  {
   "property": "C40",
   "status": "partial",
   "theorems": [
    "C40_nodal",
    "C40_order",
    "C40_monotone",
    "C40_midpoint",
    "C40_violation_monotone",
    "C40_violation_order",
    "C40_violation_unresolved"
   ],
   "note": "Proved for 6 epsilon >= 2 subdivisions and resolved interfaces; refuted for every smaller epsilon and for unresolved cells."
  },
  {
   "property": "C41",
   "status": "partial",
   "theorems": [
    "C41_matrix_free",
    "C41_step_counts",
    "C41_no_stale_normals",
    "C41_matrix_normals",
    "C41_matrix_violation_only_diffusion",
    "C41_matrix_violation_stale_normals"
   ],
   "note": "Matrix-free solver proved for all operators; both violations of the matrix-based solver proved in general."
  },
  {
   "property": "C42",
   "status": "partial",
   "theorems": [
    "C42_step",
    "C42_reinitialize",
    "C42_refuted_dirichlet"
   ],
   "note": "Proved for every mesh without Dirichlet constraints on the level set (hanging nodes included through the assembled operator); with Dirichlet constraints it is refuted."
  },
  {
   "property": "C43",
   "status": "proved",
   "theorems": [
    "C43_reinitialization",
    "C43_pseudo_time_step",
    "C43_normal",
    "C43_curvature",
    "C43_unique_solution",
    "C43_pseudo_time_step_value",
    "C43_normal_energy"
   ],
   "note": ""
  },
  {
   "property": "C44",
   "status": "partial",
   "theorems": [
    "C44_implicit_equation",
    "C44_independent_of_guess",
    "C44_keeps_constants",
    "C44_matrix_equation",
    "C44_matrix_conserves",
    "C44_violation_matrix_stabilized",
    "C44_matrix_constrained",
    "C44_matrix_stabilized_equation"
   ],
   "note": "Matrix-free solver and unstabilized matrix solver proved; the stabilized matrix solver violates it."
  },
  {
   "property": "C45",
   "status": "partial",
   "theorems": [
    "C45_diffusion_keeps_constants",
    "C45_pure_diffusion_keeps_constants",
    "C45_violation_step",
    "C45_violation_factor"
   ],
   "note": "The setting the code calls applies the mass term: a constant curvature is multiplied by 0.95 in each of the eight sweeps."
  },
  {
   "property": "C46",
   "status": "partial",
   "theorems": [
    "C46_advection_times",
    "C46_advection_weights_partial",
    "C46_violation_final_weights",
    "C46_reinit_runs_ahead",
    "C46_violation_reinit_after_end"
   ],
   "note": "Times and step sizes of the advection clock agree always, the weights except in a shortened final step (violation proved in general); the reinitialization clock violates it for every uniform run."
  },
  {
   "property": "C47",
   "status": "proved",
   "theorems": [
    "C47_weak_form",
    "C47_expansion",
    "C47_newton_operator_is_derivative"
   ],
   "note": "Exact expansion of the residual (explicit quadratic and cubic remainder) and Gateaux derivative in every admissible direction, contact angle term included."
  },
  {
   "property": "C48",
   "status": "proved",
   "theorems": [
    "C48_exact_inverse",
    "C48_left_inverse",
    "C48_operators",
    "C48_coefficient"
   ],
   "note": "All sizes, with the factors the code computes."
  },
  {
   "property": "C49",
   "status": "proved",
   "theorems": [
    "C49_grouping",
    "C49_one_cell_per_point"
   ],
   "note": "The sort is modelled as any sorted permutation."
  },
  {
   "property": "C50",
   "status": "partial",
   "theorems": [
    "C50_force_is_sum",
    "C50_front_tracking_multiplicity",
    "C50_front_tracking_generic",
    "C50_violation_face",
    "C50_linear_in_surface_tension",
    "C50_assembled_linear",
    "C50_violation_quadratic",
    "C50_front_tracking_total",
    "C50_regularized_gradient"
   ],
   "note": "Proved for points inside of cells and for front tracking, marching cubes and regularized forces; the quadratic dependence of the mixed variant and double counting on faces are proved as violations."
  },
  {
   "property": "C51",
   "status": "partial",
   "theorems": [
    "C51_undeclared_entry_rejected_partial",
    "C51_undeclared_entry_rejected_refuted"
   ],
   "note": "Holds for prm, refuted for json."
  },
  {
   "property": "C52",
   "status": "partial",
   "theorems": [
    "C52_fixed_pressure_dof_partial",
    "C52_fixed_pressure_dof_refuted"
   ],
   "note": "Refuted if the lowest boundary dof is constrained already."
  },
  {
   "property": "C53",
   "status": "proved",
   "theorems": [
    "C53_preconditioner_built_before_first_solve",
    "C53_rebuild_on_deterioration",
    "C53_reference_and_next_build",
    "C53_why_built",
    "C53_rebuild_frequency",
    "C53_built_when_due"
   ],
   "note": ""
  },
  {
   "property": "C54",
   "status": "proved",
   "theorems": [
    "C54_pressure_shift"
   ],
   "note": "Exact arithmetic."
  },
  {
   "property": "C55",
   "status": "proved",
   "theorems": [
    "C55_residual_weak_form",
    "C55_stokes_symmetric"
   ],
   "note": ""
  },
  {
   "property": "C56",
   "status": "partial",
   "theorems": [
    "C56_pinned_dof_partial",
    "C56_pinned_dof_is_unconstrained_refuted"
   ],
   "note": "Agreement, minimality and rejection proved; that the dof is unconstrained is refuted."
  },
  {
   "property": "C57",
   "status": "partial",
   "theorems": [
    "C57_not_variable_means_linear",
    "C57_objects_exist_partial",
    "C57_projection_with_scalar_ilu_refuted",
    "C57_stationary_without_density_refuted"
   ],
   "note": "Linearity proved; object existence proved outside of two configurations, for which it is refuted."
  },
  {
   "property": "C58",
   "status": "proved",
   "theorems": [
    "C58_scalar_dof_indices",
    "C58_component_preconditioner",
    "C58_local_ordering"
   ],
   "note": ""
  },
  {
   "property": "C59",
   "status": "proved",
   "theorems": [
    "C59_maximal_velocity"
   ],
   "note": ""
  },
  {
   "property": "C60",
   "status": "partial",
   "theorems": [
    "C60_extrapolation",
    "C60_not_bounded_refuted"
   ],
   "note": "Exactness and history shift proved; range violation refuted with a witness."
  },
  {
   "property": "C61",
   "status": "proved",
   "theorems": [
    "C61_weight",
    "C61_weight_phase_field",
    "C61_linear_in_tension",
    "C61_well_balanced",
    "C61_only_at_interface",
    "C61_well_balanced_phase_field",
    "C61_tables",
    "C61_one_fluid"
   ],
   "note": ""
  },
  {
   "property": "C62",
   "status": "partial",
   "theorems": [
    "C62_same_if_in_range",
    "C62_violation"
   ],
   "note": "Proved while the level set is in range, violated for every level set outside."
  },
  {
   "property": "C63",
   "status": "proved",
   "theorems": [
    "C63_order",
    "C63_smoothing_distance",
    "C63_memory"
   ],
   "note": ""
  },
  {
   "property": "C64",
   "status": "partial",
   "theorems": [
    "C64_matrix",
    "C64_matrix_last_registration",
    "C64_elsewhere",
    "C64_violation_not_imposed",
    "C64_violation_frozen"
   ],
   "note": "Matrix-based solver proved; matrix-free solver refuted for all histories."
  },
  {
   "property": "C65",
   "status": "proved",
   "theorems": [
    "C65_first_block_solved",
    "C65_balance",
    "C65_mass_conserved",
    "C65_time_step"
   ],
   "note": "Discrete balance after one exact Newton step and after the loop."
  },
  {
   "property": "C66",
   "status": "partial",
   "theorems": [
    "C66_newton_loop",
    "C66_no_other_scheme",
    "C66_violation_silent_failure"
   ],
   "note": "Loop bounds and stopping proved; reporting of failure is violated by the code (theorem)."
  },
  {
   "property": "C67",
   "status": "partial",
   "theorems": [
    "C67_boundary_value_frozen",
    "C67_density_away_from_boundary",
    "C67_violation_density_at_boundary"
   ],
   "note": "The claim is false of the code at fluid type boundaries: quantified violation; correct away from them."
  },
  {
   "property": "C68",
   "status": "proved",
   "theorems": [
    "C68_level_set_slope",
    "C68_reinitialization_keeps_profile",
    "C68_phase_field_equilibrium",
    "C68_interface_energy",
    "C68_distance_recovered"
   ],
   "note": ""
  },
  {
   "property": "C69",
   "status": "partial",
   "theorems": [
    "C69_unit_or_zero",
    "C69_direction_only",
    "C69_reinitialization_normal",
    "C69_flat_interface",
    "C69_total_curvature",
    "C69_slope_bound",
    "C69_violation_length_unit",
    "C69_planar_level_set",
    "C69_total_normal"
   ],
   "note": "All parts proved except independence of the length unit, which is violated (theorem)."
  },
  {
   "property": "C70",
   "status": "partial",
   "theorems": [
    "C70_sphere",
    "C70_far",
    "C70_violation_orientation",
    "C70_violation_sign"
   ],
   "note": "Exact for spheres of positive curvature; violations for the other orientation and for overestimates proved."
  },
  {
   "property": "C71",
   "status": "partial",
   "theorems": [
    "C71_history_independent",
    "C71_sum_of_forces",
    "C71_total_weight",
    "C71_total_surface_force_partial",
    "C71_violation_hanging_node"
   ],
   "note": "Total surface force only without hanging nodes; violation proved."
  },
  {
   "property": "C72",
   "status": "partial",
   "theorems": [
    "C72_position",
    "C72_violation_final_step",
    "C72_extrapolation",
    "C72_extrapolation_error"
   ],
   "note": "Exact for all but the final step; violation in a shortened final step proved."
  },
  {
   "property": "C73",
   "status": "partial",
   "theorems": [
    "C73_interior_value",
    "C73_range",
    "C73_violation_boundary",
    "C73_front_tracking"
   ],
   "note": "Away from fluid type boundaries; violation next to them proved."
  },
  {
   "property": "C74",
   "status": "proved",
   "theorems": [
    "C74_every_node_once",
    "C74_order_independent",
    "C74_translation"
   ],
   "note": ""
  },
  {
   "property": "C75",
   "status": "partial",
   "theorems": [
    "C75_front_tracking",
    "C75_mixed_constant_density_partial",
    "C75_violation_wrong_points"
   ],
   "note": "Holds for front tracking and for constant densities; violation for the mixed level set solver proved."
  },
  {
   "property": "C76",
   "status": "proved",
   "theorems": [
    "C76_every_member_holds_its_entry",
    "C76_read_value",
    "C76_defaults"
   ],
   "note": "Added after mutation testing (swapped members survived C11/C12)."
  },
  {
   "property": "C77",
   "status": "partial",
   "theorems": [
    "C77_value",
    "C77_bounds",
    "C77_vanishes_on_solutions",
    "C77_order_and_sign",
    "C77_violation_at_rest"
   ],
   "note": "Over the reals; floating-point violation at rest with packed minimum proved."
  },
  {
   "property": "C78",
   "status": "proved",
   "theorems": [
    "C78_largest_distance",
    "C78_order_independent"
   ],
   "note": ""
  },
  {
   "property": "C79",
   "status": "partial",
   "theorems": [
    "C79_accepted_residual_partial",
    "C79_violation_fallback",
    "C79_state"
   ],
   "note": "Residual bound relative to the start of the solver that succeeded; violation of the full claim and the state after failure proved."
  },
  {
   "property": "C80",
   "status": "partial",
   "theorems": [
    "C80_phase_field",
    "C80_two_phase",
    "C80_no_oscillation",
    "C80_level_set",
    "C80_level_set_at_rest",
    "C80_level_set_far",
    "C80_level_set_mesh",
    "C80_other_solvers_mesh",
    "C80_violation_oscillation",
    "C80_violation_vertex_order"
   ],
   "note": "Exact criterion of all three routines; oscillation and vertex order claims hold for the base class and phase field, violations proved for the level set. Added after mutation testing (wrong thresholds survived C23)."
  },
  {
   "property": "C81",
   "status": "partial",
   "theorems": [
    "C81_newton_block",
    "C81_explicit_block",
    "C81_scalar_matrix",
    "C81_linear_block",
    "C81_violation_stokes"
   ],
   "note": "Equal to the diagonal block (plus grad-div Laplacian) for every problem with density; for Stokes problems all entries are NaN (violation theorem, binary64)."
  },
  {
   "property": "C82",
   "status": "partial",
   "theorems": [
    "C82_poisson",
    "C82_mass",
    "C82_symmetric_positive",
    "C82_violation_zero_density"
   ],
   "note": "For positive densities; violated with density zero at a point."
  },
  {
   "property": "C83",
   "status": "proved",
   "theorems": [
    "C83_matrix_is_operator",
    "C83_symmetric_positive",
    "C83_mask_loses_nothing",
    "C83_iso_q1_points"
   ],
   "note": ""
  },
  {
   "property": "C84",
   "status": "partial",
   "theorems": [
    "C84_positive",
    "C84_diagonal",
    "C84_violation_hanging"
   ],
   "note": "Equality with the diagonal holds for unknowns that are not masters of hanging nodes; violation proved."
  },
  {
   "property": "C85",
   "status": "partial",
   "theorems": [
    "C85_fields_survive",
    "C85_next_step_commutes",
    "C85_others_not_read",
    "C85_second_initialization",
    "C85_violation_user_rhs",
    "C85_violation_curvature_conformity",
    "C85_other_vectors_new"
   ],
   "note": "All parts proved except the two violated details, which are proved as violations."
  },
  {
   "property": "C86",
   "status": "partial",
   "theorems": [
    "C86_setup",
    "C86_flow_solver_velocity",
    "C86_violation_velocity_conformity"
   ],
   "note": "Continuity of the velocity at hanging nodes violated; the rest proved."
  },
  {
   "property": "C87",
   "status": "partial",
   "theorems": [
    "C87_prescribed_values",
    "C87_which_value",
    "C87_linear_conditions",
    "C87_elsewhere",
    "C87_violation_shared",
    "C87_violation_hanging",
    "C87_only_there"
   ],
   "note": "Holds for unknowns with a unique prescription and without a hanging node line; the two exceptions are proved as violations."
  },
  {
   "property": "C88",
   "status": "proved",
   "theorems": [
    "C88_virtual_work",
    "C88_constrained_rows",
    "C88_fresh",
    "C88_equilibrium"
   ],
   "note": "Equilibrium assumes that the quadrature fulfils the divergence theorem for the shape functions."
  },
  {
   "property": "C89",
   "status": "partial",
   "theorems": [
    "C89_fields",
    "C89_names",
    "C89_patches",
    "C89_indicators",
    "C89_indicators_at_rest",
    "C89_violation_indicators",
    "C89_violation_higher_order"
   ],
   "note": "Refinement indicators shown and the higher-order flag violate the property; the rest proved."
  },
  {
   "property": "C90",
   "status": "partial",
   "theorems": [
    "C90_when",
    "C90_fields",
    "C90_start",
    "C90_idempotent",
    "C90_flags_partial",
    "C90_violation_flags",
    "C90_two_phase",
    "C90_run_matrix_free",
    "C90_violation_run_matrix"
   ],
   "note": "User flags are cleared; the matrix-based solver depends on the initial output; the rest proved."
  },
  {
   "property": "C91",
   "status": "partial",
   "theorems": [
    "C91_step",
    "C91_first_step_partial",
    "C91_run",
    "C91_prediction_partial",
    "C91_steady",
    "C91_violation_initial_pressure",
    "C91_violation_prediction"
   ],
   "note": "Initial pressure lost in the first step; prediction only right for constant weights; both proved as violations."
  },
  {
   "property": "C92",
   "status": "partial",
   "theorems": [
    "C92_divergence",
    "C92_rotational_partial",
    "C92_poisson",
    "C92_mass_partial",
    "C92_momentum_partial",
    "C92_violation_viscosity",
    "C92_violation_stale_weight",
    "C92_violation_pinned",
    "C92_violation_stale_matrix",
    "C92_violation_momentum",
    "C92_constrained_rows",
    "C92_right_hand_sides"
   ],
   "note": "Systems are right for constant viscosity, fresh preconditioner and no pinned unknown; the exceptions are proved as violations."
  },
  {
   "property": "C93",
   "status": "partial",
   "theorems": [
    "C93_virtual_work",
    "C93_force",
    "C93_tables",
    "C93_weight",
    "C93_well_balanced",
    "C93_same_as_matrix_free",
    "C93_theta_at_rest_partial",
    "C93_violation_old_curvature",
    "C93_violation_old_heaviside",
    "C93_table_in_range",
    "C93_violation_table",
    "C93_tables_constant",
    "C93_theta_partial"
   ],
   "note": "Implicit schemes and first step complete; theta schemes are right only with interpolation and the level set as indicator (violations proved); table of gradients too small for rich pressure spaces (violation proved)."
  },
  {
   "property": "C94",
   "status": "partial",
   "theorems": [
    "C94_which_cells",
    "C94_weak_form",
    "C94_conservation",
    "C94_diffusion_stable",
    "C94_pure_phase",
    "C94_pseudo_time_step",
    "C94_defined_partial",
    "C94_violation_zero_normal",
    "C94_violation_width",
    "C94_violation_one_fluid"
   ],
   "note": "Weak form, conservation, stability complete; definedness needs nonzero normals in transition cells (0/0 otherwise, proved); width of the equilibrium differs from the initial width with subdivisions (proved)."
  },
  {
   "property": "C95",
   "status": "partial",
   "theorems": [
    "C95_reused_matrices",
    "C95_normal_weak_form",
    "C95_curvature_weak_form",
    "C95_unit_normals",
    "C95_total_normal",
    "C95_planar_normals",
    "C95_flat_partial",
    "C95_violation_flat",
    "C95_violation_total_curvature",
    "C95_hanging_partial",
    "C95_violation_hanging",
    "C95_smoothing_length",
    "C95_correction"
   ],
   "note": "Projections complete; flat interfaces only if no test function feels the boundary (missing boundary term, violations proved); continuity at hanging nodes only without curvature correction (violation proved)."
  },
  {
   "property": "C96",
   "status": "partial",
   "theorems": [
    "C96_taylor",
    "C96_beltrami",
    "C96_initial",
    "C96_poiseuille",
    "C96_wedge_stokes",
    "C96_wedge",
    "C96_similarity",
    "C96_fluids",
    "C96_violation_density"
   ],
   "note": "The solutions hold; the vortex references are solutions for density one only while the programs read the density from the input file (C96_violation_density)."
  },
  {
   "property": "C97",
   "status": "partial",
   "theorems": [
    "C97_inflow",
    "C97_inflow_mean",
    "C97_lid",
    "C97_grids",
    "C97_channel",
    "C97_violation_divergence",
    "C97_violation_force",
    "C97_violation_laminar"
   ],
   "note": "Violated for the periodic channel: the start velocity is not divergence free and the force acts against the start flow."
  },
  {
   "property": "C98",
   "status": "partial",
   "theorems": [
    "C98_normals",
    "C98_normals_smooth",
    "C98_violation_order",
    "C98_circle",
    "C98_stored_partial",
    "C98_violation_location",
    "C98_moves_along",
    "C98_inside_partial",
    "C98_polygon_defined",
    "C98_violation_corner",
    "C98_violation_three_dimensions"
   ],
   "note": "Violated by the code: the curvature of the degree-3 element is stored at the wrong nodes (C98_violation_location), normals at kinks depend on the cell order, corners are cut off and the third coordinate is ignored; proved: normals are unit normals of a cell of the node, equivariance, exactness on circles, inside implies in every half plane of the front."
  },
  {
   "property": "C99",
   "status": "partial",
   "theorems": [
    "C99_form",
    "C99_densities",
    "C99_symmetric",
    "C99_constants",
    "C99_semidefinite",
    "C99_pattern",
    "C99_scales",
    "C99_violation_stationary",
    "C99_violation_parallel",
    "C99_coefficients",
    "C99_penalty"
   ],
   "note": "Holds whenever both sides of every face use the same density. Violated in stationary problems (cells have coefficient 1, faces 1/density: indefinite for small densities) and in parallel at hanging faces whose child belongs to another process (not symmetric; acknowledged by a comment in the code)."
  },
  {
   "property": "C100",
   "status": "partial",
   "theorems": [
    "C100_every_row_once",
    "C100_one_file",
    "C100_crash",
    "C100_other_processes",
    "C100_micro_particle",
    "C100_rising_bubble_partial",
    "C100_spurious_currents",
    "C100_names",
    "C100_violation_split",
    "C100_violation_names",
    "C100_join",
    "C100_file_names"
   ],
   "note": "Complete for micro_particle. rising_bubble and spurious_currents put the current step size into the file name: with a shortened last step or adaptive steps the record is split over several files and appended to old ones (C100_violation_split); all step sizes below 1e-4 share a name (C100_violation_names); the other processes keep all rows in memory."
  },
  {
   "property": "C101",
   "status": "proved",
   "theorems": [
    "C101_line_messages",
    "C101_surface_messages",
    "C101_no_deadlock",
    "C101_terminates",
    "C101_result",
    "C101_meanwhile",
    "C101_exchange",
    "C101_line_exchange",
    "C101_surface_exchange"
   ],
   "note": "Small-step semantics of the processes and the network; MPI contract: messages of one pair of processes are not reordered."
  },
  {
   "property": "C102",
   "status": "partial",
   "theorems": [
    "C102_velocity_defined",
    "C102_velocity",
    "C102_pressure_defined",
    "C102_pressure",
    "C102_same_with_and_without_matrix",
    "C102_symmetric_positive",
    "C102_magnitude",
    "C102_order_and_history",
    "C102_violation_initial_stokes",
    "C102_violation_simplex",
    "C102_violation_mass",
    "C102_violation_scalar_symmetry",
    "C102_mass",
    "C102_jumps",
    "C102_initial_stokes"
   ],
   "note": "Proved except where the code violates it: the initial Stokes solve after a setup with the scalar matrix leaves the sparsity pattern; on simplex meshes it uses a zero velocity matrix; constrained unknowns of the pressure mass matrix keep their local diagonal instead of one; the scalar matrix ignores symmetry and normal flux boundaries."
  },
  {
   "property": "C103",
   "status": "partial",
   "theorems": [
    "C103_residual",
    "C103_derivative",
    "C103_energy",
    "C103_processes",
    "C103_young",
    "C103_surface_energies",
    "C103_face_value",
    "C103_violation_cosine",
    "C103_violation_indicator",
    "C103_violation_face_value_2",
    "C103_violation_face_value_34",
    "C103_no_contact"
   ],
   "note": "Gradient structure, linearisation, independence of processes and Young's law are proved. Violated by the code: the entry is the cosine of the angle, not the angle of the documentation (no equilibrium for values above one); every no-slip or Dirichlet wall is used, not the documented indicators 0 and 2; with two or more subdivisions the face values come from FE_Q instead of FE_Q_iso_Q1 shape functions, wrong for 2 subdivisions unless the field is linear and for 3, 4 even for linear fields."
  },
  {
   "property": "C104",
   "status": "partial",
   "theorems": [
    "C104_fits",
    "C104_registered",
    "C104_silent",
    "C104_phase_field_never_silent",
    "C104_flow_range",
    "C104_level_set_range",
    "C104_phase_field_range",
    "C104_violation_degree_6",
    "C104_subdivisions",
    "C104_lengths",
    "C104_violation_lengths"
   ],
   "note": "every kernel that runs fits; the only call that can silently do nothing (Jacobian product of the phase field solver outside 1..4 subdivisions) is always preceded by a throwing one; exact ranges. The property as stated is false of the code: the documented velocity degree 6 throws in the first time step of every two-phase run (C104_violation_degree_6), more than four subdivisions are accepted and throw in the set-up (C104_subdivisions), and on simplex meshes the lengths h/degree in the normal, curvature and reinitialization kernels are computed with degree -1 (C104_violation_lengths)"
  },
  {
   "property": "C105",
   "status": "partial",
   "theorems": [
    "C105_current",
    "C105_weak_form",
    "C105_complete",
    "C105_violation_hanging",
    "C105_violation_foreign"
   ],
   "note": "Proved for all histories of the solver's own calls; complete on meshes where the masters of a cell's unknowns belong to the cell. Violated: the sparsity pattern is made without the constraints, so a mesh with hanging nodes has entries without room (exception in debug mode, lost otherwise); a call of init_time_advance outside advance_time_step hides a weight change."
  },
  {
   "property": "C106",
   "status": "partial",
   "theorems": [
    "C106_values",
    "C106_pressure",
    "C106_balance",
    "C106_balance_phase_field",
    "C106_rest",
    "C106_range",
    "C106_cartesian",
    "C106_corner",
    "C106_hanging_constant",
    "C106_violation_hanging"
   ],
   "note": "Proved for every mesh with a continuous indicator (proved for all Cartesian meshes), every element and numbering. Violated at hanging nodes at the interface: the values there are those of the indicator, not the mean required of a discrete pressure; nothing is lost where the indicator is constant around the hanging node."
  },
  {
   "property": "C107",
   "status": "partial",
   "theorems": [
    "C107_clock",
    "C107_run",
    "C107_accepted",
    "C107_returned",
    "C107_next_call",
    "C107_lost",
    "C107_clocks",
    "C107_full_iteration",
    "C107_violation_retry",
    "C107_projection_success",
    "C107_projection_failed",
    "C107_violation_projection"
   ],
   "note": "The state after an exception is characterised for every ending of a call. Violated: the failed step cannot be repeated, since a second call takes the unfinished fields for the solution of the last time and starts one step later; after three failures no vector holds the accepted solution; after a failed velocity solve of the projection scheme one pressure correction of the history is overwritten by the other. With \"full nonlinear iteration\" every call throws and the interface never moves."
  },
  {
   "property": "C108",
   "status": "partial",
   "theorems": [
    "C108_implicit_run",
    "C108_linearized_run",
    "C108_violation_always_success",
    "C108_violation_unreported"
   ],
   "note": "Proved for BDF-2 and implicit Euler with the coupled formulations, without hanging nodes: for the fully implicit ones the report is correct in both directions; for the linearized ones under the condition that the linear solvers converge. Violated for the linearized formulations: a linear solver that gives up is not reported. The other time schemes and the projection scheme do not solve this system; step size requests during the run are excluded because of C05."
  },
  {
   "property": "C109",
   "status": "partial",
   "theorems": [
    "C109_balance",
    "C109_volume",
    "C109_fixed_step",
    "C109_violation_stabilization",
    "C109_guess"
   ],
   "note": "Matrix-free solver, fixed mesh, no Dirichlet values for the level set, exact linear solves (C109_balance has the residual of the solver as a term). Exact with a fixed time step up to the end; with step size requests at most 2e-12 relative per step, from weight changes the clock ignores. Violated with convection stabilization and boundaries that are not symmetry boundaries: the stabilization lets the level set diffuse through the boundary."
  },
  {
   "property": "C110",
   "status": "proved",
   "theorems": [
    "C110_euler_step",
    "C110_euler_run",
    "C110_bdf_step",
    "C110_bdf_run",
    "C110_violation_convective",
    "C110_constrained_euler_step",
    "C110_constrained_euler_run",
    "C110_constrained_bdf_step",
    "C110_constrained_bdf_run"
   ],
   "note": "For problems where the integration formula fulfils the divergence theorem for the convective term and the pressure modes (record container, with an example); the C110_constrained theorems are the same for meshes with hanging nodes, periodic and symmetry boundaries (run of C127), where the identities are asked for velocities that fulfil the constraints. The factor (1 - 2e-12) per step comes from the weight changes the clock ignores. C110_violation_convective: the same with the formulation \"convective\" gains energy in a step that solves the discrete equations exactly, so the hypothesis on the formulation is needed. Examples that meet the hypotheses: C110_constrained_nonvacuous."
  },
  {
   "property": "C111",
   "status": "partial",
   "theorems": [
    "C111_one_fluid",
    "C111_drag",
    "C111_two_fluids",
    "C111_before_indicator",
    "C111_violation_damping",
    "C111_violation_stokes"
   ],
   "note": "Proved for one fluid with every preconditioner and for densities and viscosities of two fluids with AMG (without AMG the fields themselves get lost, C27). Violated with two fluids: the damping field is filled with zeros and never with the entry, so the entry is ignored without a message; after compute_initial_stokes_field the densities are zero until somebody writes new ones."
  },
  {
   "property": "C112",
   "status": "partial",
   "theorems": [
    "C112_same_answer",
    "C112_answer",
    "C112_distribution_partial",
    "C112_distribution_base_partial",
    "C112_violation_limit"
   ],
   "note": "All processes always give the same answer. The marks are independent of the distribution if every process stored a cell of the finest level at setup (base class: and its last stored cell has the common diameter). Violated by the code otherwise: refine_lower_level_limit is n_levels() of the part of the mesh a process stores, so a process that owned no cells at setup (or only coarse ones of a locally refined initial mesh) never refines the cells it gets later to the requested level. Examples that meet the hypotheses: C112_nonvacuous."
  },
  {
   "property": "C113",
   "status": "partial",
   "theorems": [
    "C113_marching_cubes",
    "C113_mixed",
    "C113_front_tracking",
    "C113_violation_front_distributed",
    "C113_violation_mixed_replicated"
   ],
   "note": "Marching cubes: independent. Front tracking: right if every process has the whole surface mesh (there is no compress(), points of other processes are lost otherwise, proved). Mixed level set: right if every surface point is on one process; with the class Triangulation used by the solvers, which is on every process, the force is multiplied by the number of processes (proved for all inputs). Examples that meet the hypotheses: C113_nonvacuous."
  },
  {
   "property": "C114",
   "status": "proved",
   "theorems": [
    "C114_steady_flow",
    "C114_constant_steps",
    "C114_affine_stress",
    "C114_plane_channel",
    "C114_hydrostatic"
   ],
   "note": "Proved for the coupled formulations in exact arithmetic, under the hypothesis that the leading weight of the clock is that of the formula (shown for steps of constant size; the clock keeps it when it would change by less than 1e-12, C03) and that Krylov solvers return zero for a zero right-hand side. The divergence theorem for the shape functions of the mesh is a hypothesis about the quadrature, shown to hold for a concrete mesh. Examples that meet the hypotheses: C114_nonvacuous."
  },
  {
   "property": "C115",
   "status": "proved",
   "theorems": [
    "C115_mass",
    "C115_fixed_step",
    "C115_accepted_step"
   ],
   "note": "Proved for exact linear solves on a fixed mesh without inflow boundaries: exactly with fixed step sizes, and up to a relative change of 2e-12 per step with variable ones (the clock keeps the leading weight when it would change by less than 1e-12, C03). Unsolved linear systems are accepted silently by the code, see C66. Examples that meet the hypotheses: C115_nonvacuous."
  },
  {
   "property": "C116",
   "status": "partial",
   "theorems": [
    "C116_energy_step",
    "C116_energy_run",
    "C116_violation_large_step"
   ],
   "note": "Proved for the Euler discretization (every scheme but BDF-2) when dt * L^2 <= 8 eps^3 / (3 sigma) (diffusion length L), with a lower bound for the dissipation, per step and for whole runs with fixed steps. Violated for larger steps: the equations of a step then have solutions with more energy (nothing in the code limits the step size by it). Examples that meet the hypotheses: C116_nonvacuous, C116_run_nonvacuous."
  },
  {
   "property": "C117",
   "status": "partial",
   "theorems": [
    "C117_current",
    "C117_setup",
    "C117_factors",
    "C117_violation_never_set"
   ],
   "note": "Proved for both level set solvers for every history of calls. False for the phase field and the sharp-interface solvers (C117_violation_never_set): PhaseFieldSolver::compute_density_on_faces is never called and sharp_interface.h never sets the face densities, so for every history the tables hold the zeros of their allocation and the factor 1/(density*weight) divides by zero. What the assembly does with the densities is C99. Examples that meet the hypotheses: C117_nonvacuous."
  },
  {
   "property": "C118",
   "status": "proved",
   "theorems": [
    "C118_euler_step",
    "C118_bdf_step",
    "C118_euler_run",
    "C118_bdf_run",
    "C118_rest_euler",
    "C118_rest_bdf",
    "C118_drop",
    "C118_constrained_euler_step",
    "C118_constrained_bdf_step",
    "C118_constrained_euler_run",
    "C118_constrained_bdf_run",
    "C118_constrained_rest_euler",
    "C118_constrained_rest_bdf"
   ],
   "note": "Proved for containers with one density and any viscosities, as C110 (skew-symmetric convection, exact integration of the convective term); the slack contains the solver tolerance times the size of velocity and pressure error. The C118_constrained theorems are the same for meshes with hanging nodes, periodic and symmetry boundaries (run of C127): the force has to be minus the weak pressure gradient for conforming velocities only. That the quadrature integrates pressure times divergence exactly by parts is a hypothesis of C118_drop, shown for a concrete mesh. Examples that meet the hypotheses: C118_nonvacuous, C118_constrained_nonvacuous."
  },
  {
   "property": "C119",
   "status": "partial",
   "theorems": [
    "C119_level_set",
    "C119_normals",
    "C119_indicator",
    "C119_force",
    "C119_phase_field",
    "C119_phase_field_density",
    "C119_matrix_based_partial",
    "C119_violation_outlet",
    "C119_violation_stabilized"
   ],
   "note": "Proved for the matrix-free level set solver (uniquely solvable advection systems) and the phase field solver over whole runs with fixed step size. False for the matrix-based level set solver: the boundary term of the integrated-by-parts transport is missing, so an outlet creates the other fluid (C119_violation_outlet), and with convection stabilization the new solution is added to the old one, so the level set doubles in a fluid at rest (C119_violation_stabilized); without stabilization and with a discretely solenoidal velocity it holds (C119_matrix_based_partial). Examples that meet the hypotheses: C119_nonvacuous, C119_nonvacuous_phase_field, C119_nonvacuous_force."
  },
  {
   "property": "C120",
   "status": "partial",
   "theorems": [
    "C120_no_abort",
    "C120_balanced_partial",
    "C120_exceptions",
    "C120_no_convergence",
    "C120_booking",
    "C120_session",
    "C120_programs",
    "C120_violation_retry",
    "C120_violation_setup",
    "C120_violation_pressure_fix",
    "C120_violation_stokes_boundary",
    "C120_violation_cavity"
   ],
   "note": "Proved for every execution (any branch, iteration count and exception) of every listed call: no abort, exact restoration of the open sections and equal numbers of openings and closings when a call returns, the booking of the listed work, sessions with user sections, containment of the nonlinear failure, scoped sections closed under exceptions. The rest of the English statement is false of the code and its failure is proved: sections opened by hand stay open after an exception (so a repeated set-up aborts a debug build), the initial Stokes solve may leave the set-up section open, the pressure fix and the boundary values of the initial Stokes solve are booked to no section of their own, and the processes of rank > 0 of the driven cavity program never close the output section, so that with an adaptive refinement they cannot finish in a debug build. Run-time conditions are nondeterministic in the model; times are not modelled. Examples that meet the hypotheses: C120_nonvacuous, C120_nonvacuous_failed_step, C120_nonvacuous_session."
  },
  {
   "property": "C121",
   "status": "partial",
   "theorems": [
    "C121_run",
    "C121_linearized_run",
    "C121_debug_refuses",
    "C121_violation_missing_force",
    "C121_violation_slow_motion",
    "C121_violation_frozen_flow",
    "C121_violation_crank_nicolson"
   ],
   "note": "C121_run and C121_linearized_run give, for all four schemes, the equation that an accepted step fulfils (coupled formulations, no hanging nodes); for implicit Euler and BDF-2 it is that of the scheme. Violated by Crank-Nicolson and explicit Euler in release builds: the forces of the old time level are left out, so a Crank-Nicolson run is an implicit Euler run in slow motion and in an explicit Euler run viscosity and convection do not act at all; debug builds stop in the first step (C121_debug_refuses). Examples that meet the hypotheses: C121_nonvacuous."
  },
  {
   "property": "C122",
   "status": "partial",
   "theorems": [
    "C122_volume",
    "C122_fixed_step",
    "C122_continuous",
    "C122_violation_growth",
    "advance_balance"
   ],
   "note": "run of the matrix-based solver with hanging nodes: integral kept (exact for fixed steps, 2e-12 relative per step otherwise) for every velocity without stabilization; with convection stabilization the code violates the property: the integral at least doubles in each step, for every mesh and velocity (C122_violation_growth). Partial because of this violation; inflow boundaries and mesh adaptation are not part of the run model. Examples that meet the hypotheses: C122_nonvacuous, C122_violation_growth_witness."
  },
  {
   "property": "C123",
   "status": "proved",
   "theorems": [
    "C123_vmult",
    "C123_velocity_vmult",
    "C123_residual",
    "C123_one_thread",
    "C123_schedule",
    "C123_preconditioner"
   ],
   "note": "Refinement of the operator of C24-C26 (one list of points with coefficients) by the loops of the code with flat arrays, running pointers and lanes, for every partition into ranges and every schedule of the batches. What one batch adds to a vector is added in one go (contract of the task colouring of deal.II); no hanging nodes. The local matrix of a cell is arbitrary in C123_preconditioner. Examples that meet the hypotheses: C123_nonvacuous, C123_nonvacuous_preconditioner."
  },
  {
   "property": "C124",
   "status": "partial",
   "theorems": [
    "C124_conditions",
    "C124_inflow",
    "C124_ramp",
    "C124_particle",
    "C124_inlet_fluid",
    "C124_corners",
    "C124_violation_inlet_fluid",
    "C124_violation_profile",
    "C124_violation_plates"
   ],
   "note": "conditions of all boundary faces, direction, start and continuity in time of the inflow, particle and manifolds of the corners proved; partial because the code violates the rest: the default method imposes no fluid at the inlets (C124_violation_inlet_fluid), the inflow jumps at the walls and is oblique at the lower inlet in 3D (C124_violation_profile), flat plates get cylinder manifolds (C124_violation_plates). The mesh file applications/microfluidic_2D.msh has only quadrilaterals, so its boundary lines get the id 0, and its boundary is that of the specification (up to rounding of the corners); that extrude_triangulation keeps the ids of the lines is the contract in the definition given_by_mesh. Examples that meet the hypotheses: C124_nonvacuous, C124_nonvacuous_corner."
  },
  {
   "property": "C125",
   "status": "partial",
   "theorems": [
    "C125_implicit",
    "C125_linearized",
    "C125_violation_enclosed",
    "C125_constrained",
    "C125_constrained_linearized"
   ],
   "note": "balance of every resolved part in every accepted step proved for all time schemes and formulations with coupled pressure; partial because the code accepts enclosed flows whose boundary data do not balance (C125_violation_enclosed). Gauss theorem for the shape functions on the mesh is the hypothesis gauss (used only for the flow through faces); the projection scheme is not covered here. On meshes with hanging nodes, periodic boundaries and symmetry planes: C125_constrained and C125_constrained_linearized (BDF-2 and implicit Euler). Examples that meet the hypotheses: C125_nonvacuous, C125_constrained_nonvacuous."
  },
  {
   "property": "C126",
   "status": "partial",
   "theorems": [
    "C126_reports",
    "C126_conservation",
    "C126_nested",
    "C126_processes",
    "C126_row",
    "C126_table",
    "C126_defined",
    "C126_violation_projection",
    "C126_violation_direct"
   ],
   "note": "Accounting, nesting and rows of the table proved for all sessions; partial because the code violates the rest: the projection scheme counts nothing and divides zero by zero (C126_violation_projection), direct calls of solve_system are added to the next report (C126_violation_direct). Executions that end with an exception inside a linear solver are not modelled. Examples that meet the hypotheses: C126_nonvacuous."
  },
  {
   "property": "C127",
   "status": "proved",
   "theorems": [
    "C127_constrained_run",
    "C127_constrained_linearized"
   ],
   "note": "All coupled formulations: fully implicit (Newton, Picard; verdict by the solver itself) and linearized (given linear solvers that reach their tolerance and return zero at constrained unknowns). The failure direction is stated for problems without pressure modes and user forces that vanish at constrained unknowns. A constrained unknown on a Dirichlet boundary gets the combination of its masters, not the prescribed value (C87_violation_hanging). Coefficients constant in time. Examples that meet the hypotheses: C127_nonvacuous, C127_rejected, C127_linearized_nonvacuous."
  },
  {
   "property": "C128",
   "status": "partial",
   "theorems": [
    "C128_table",
    "C128_total_partial",
    "C128_violation_arrays",
    "C128_violation_total",
    "C128_violation_scalar_ilu"
   ],
   "note": "The printed table is complete. memory_consumption() is only for constant coefficients, without the scalar ILU and before the preconditioner copies at least the occupied memory (up to array headers); else it is smaller by any margin because the code adds numbers of elements instead of bytes, leaves out the damping coefficients and the scalar ILU. Sizes reported by deal.II and Trilinos are parameters. Examples that meet the hypotheses: C128_nonvacuous, C128_table_variable."
  }
 ]
}