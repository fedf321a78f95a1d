{
 "claims": [
  {
   "property": "C01",
   "status": "proved",
   "theorems": [
    "C01_time_stepping_covers_interval",
    "C01_too_small_iff"
   ],
   "note": ""
  },
  {
   "property": "C02",
   "status": "proved",
   "theorems": [
    "C02_time_stepping_terminates"
   ],
   "note": ""
  },
  {
   "property": "C03",
   "status": "partial",
   "theorems": [
    "C03_len_is_number_of_steps_partial",
    "C03_len_refuted",
    "C03_len_adaptive_is_zero"
   ],
   "note": "len() is right except when the last remainder is exactly 1e-12, where it is one too large (C03_len_refuted)."
  },
  {
   "property": "C04",
   "status": "proved",
   "theorems": [
    "C04_generator_history",
    "C04_steps_follow_generator",
    "C04_mesh_dependent_steps"
   ],
   "note": ""
  },
  {
   "property": "C05",
   "status": "proved",
   "theorems": [
    "C05_check_only_warns",
    "C05_warns_iff_violated",
    "C05_cfl_check_exact"
   ],
   "note": "The CFL check itself; the solver only warns: see C47."
  },
  {
   "property": "C06",
   "status": "proved",
   "theorems": [
    "C06_history_refines_log",
    "C06_history_lengths_agree",
    "C06_history_times_increase",
    "C06_time_steps_are_differences",
    "C06_rejected_update_changes_nothing"
   ],
   "note": "For updates (accepted or rejected) and accepted set_value calls; a rejected set_value is C07's finding."
  },
  {
   "property": "C07",
   "status": "partial",
   "theorems": [
    "C07_set_value_rewinds_partial",
    "C07_rejected_set_value_truncates_refuted"
   ],
   "note": "Accepted values: full. A rejected value truncates the history (C07_rejected_set_value_truncates_refuted)."
  },
  {
   "property": "C08",
   "status": "proved",
   "theorems": [
    "C08_coarse_value_follows_fine",
    "C08_coarse_history_is_block_average_of_log"
   ],
   "note": ""
  },
  {
   "property": "C09",
   "status": "proved",
   "theorems": [
    "C09_coarsen_block_averages"
   ],
   "note": ""
  },
  {
   "property": "C10",
   "status": "proved",
   "theorems": [
    "C10_coarsen_conserves_integral",
    "C10_coarsen_stays_in_block_bounds",
    "C10_coarsen_composes",
    "C10_coarsen_linear",
    "C10_coarsen_monotone",
    "C10_coarsen_constant"
   ],
   "note": ""
  },
  {
   "property": "C11",
   "status": "proved",
   "theorems": [
    "C11_uniform_mesh_partitions_domain",
    "C11_interval_constructor",
    "C11_interval_geometry"
   ],
   "note": ""
  },
  {
   "property": "C12",
   "status": "proved",
   "theorems": [
    "C12_coarsen_undoes_refine",
    "C12_coarsen_rejects_exactly_nonmultiples",
    "C12_fine_grid_indices_exact",
    "C12_fine_cells_partitioned",
    "C12_fine_grid_mapping_validation"
   ],
   "note": ""
  },
  {
   "property": "C13",
   "status": "proved",
   "theorems": [
    "C13_find_cell_indices_sound_complete",
    "C13_find_cells_exact",
    "C13_number_of_cells_found"
   ],
   "note": ""
  },
  {
   "property": "C14",
   "status": "proved",
   "theorems": [
    "C14_affine_bijection"
   ],
   "note": ""
  },
  {
   "property": "C15",
   "status": "proved",
   "theorems": [
    "C15_execute_is_runge_kutta_step",
    "C15_step_is_unique",
    "C15_tableaus_are_explicit",
    "C15_euler_formula",
    "C15_heun_formula",
    "C15_ssp3_formula",
    "C15_time_adds_up"
   ],
   "note": "That execute leaves the caller's array alone is about aliasing and is proved in C47."
  },
  {
   "property": "C16",
   "status": "proved",
   "theorems": [
    "C16_euler_order_1",
    "C16_heun_order_2",
    "C16_ssp3_order_3",
    "C16_rk8_order_8",
    "C16_orders_are_sharp",
    "C16_nodes_are_row_sums"
   ],
   "note": ""
  },
  {
   "property": "C17",
   "status": "proved",
   "theorems": [
    "C17_convex_invariants_survive_ssp_steps"
   ],
   "note": ""
  },
  {
   "property": "C18",
   "status": "proved",
   "theorems": [
    "C18_node_neighbours_are_extension_values",
    "C18_cell_neighbours",
    "C18_cell_neighbours_not_periodic"
   ],
   "note": ""
  },
  {
   "property": "C19",
   "status": "proved",
   "theorems": [
    "C19_boundary_names_validated",
    "C19_no_condition",
    "C19_inflow_needs_time"
   ],
   "note": ""
  },
  {
   "property": "C20",
   "status": "proved",
   "theorems": [
    "C20_update_is_flux_balance",
    "C20_fluxes_are_single_valued"
   ],
   "note": ""
  },
  {
   "property": "C21",
   "status": "proved",
   "theorems": [
    "C21_periodic_runs_conserve_mass",
    "C21_fluxes_are_local",
    "C21_scalar_schemes_conserve_mass"
   ],
   "note": ""
  },
  {
   "property": "C22",
   "status": "proved",
   "theorems": [
    "C22_riemann_solver_relations",
    "C22_riemann_solver_consistent",
    "C22_riemann_solver_total",
    "C22_advection_upwind"
   ],
   "note": ""
  },
  {
   "property": "C23",
   "status": "partial",
   "theorems": [
    "C23_llf_local_maximum_principle",
    "C23_optimal_time_step",
    "C23_llf_runs_stay_in_range",
    "C23_burgers_negative_states_refuted",
    "C23_burgers_zero_states_refuted"
   ],
   "note": "Local and global maximum principle proved for advection and for Burgers with positive states (any dt up to the optimal time step). Two refutations: negative Burgers states (wave speed without absolute value) break it for every dt > 0; adjacent zero states divide by zero."
  },
  {
   "property": "C24",
   "status": "proved",
   "theorems": [
    "C24_limiter"
   ],
   "note": ""
  },
  {
   "property": "C25",
   "status": "partial",
   "theorems": [
    "C25_mcl_local_maximum_principle",
    "C25_mcl_runs_stay_in_range",
    "C25_mcl_flux_balance",
    "C25_periodic_mass_conservation_refuted"
   ],
   "note": "Local and global maximum principle and telescoping flux balance proved; periodic mass conservation is false (C25_periodic_mass_conservation_refuted)."
  },
  {
   "property": "C26",
   "status": "proved",
   "theorems": [
    "C26_velocity",
    "C26_positivity_fix",
    "C26_nullify"
   ],
   "note": ""
  },
  {
   "property": "C27",
   "status": "partial",
   "theorems": [
    "C27_flux",
    "C27_jacobian_rows_swapped",
    "C27_jacobian_refuted"
   ],
   "note": "The flux: full. FluxJacobian is not the derivative: its second row is swapped (C27_jacobian_refuted, C27_jacobian_rows_swapped)."
  },
  {
   "property": "C28",
   "status": "proved",
   "theorems": [
    "C28_low_order_step",
    "C28_mcl_step",
    "C28_low_order_runs",
    "C28_mcl_runs",
    "C28_low_order_defined",
    "C28_adjacent_dry_cells"
   ],
   "note": "Finding: two neighbouring dry cells (h = 0) make the scheme divide by zero (C28_adjacent_dry_cells)."
  },
  {
   "property": "C29",
   "status": "proved",
   "theorems": [
    "C29_lake_at_rest_rhs",
    "C29_lake_at_rest_runs"
   ],
   "note": ""
  },
  {
   "property": "C30",
   "status": "proved",
   "theorems": [
    "C30_source_keeps_heights",
    "C30_water_is_conserved"
   ],
   "note": ""
  },
  {
   "property": "C31",
   "status": "proved",
   "theorems": [
    "C31_recorded_windows",
    "C31_recorded_subgrid_fluxes",
    "C31_exact_subgrid_fluxes",
    "C31_data_is_exact",
    "C31_window_parameters"
   ],
   "note": ""
  },
  {
   "property": "C32",
   "status": "proved",
   "theorems": [
    "C32_required_values",
    "C32_corrected_flux_adds",
    "C32_arbitrary_input",
    "C32_history",
    "C32_dof_vector_is_extended_vector"
   ],
   "note": ""
  },
  {
   "property": "C33",
   "status": "proved",
   "theorems": [
    "C33_diffusion_matrix",
    "C33_diffusion_removes_energy"
   ],
   "note": ""
  },
  {
   "property": "C34",
   "status": "proved",
   "theorems": [
    "C34_numbering",
    "C34_refusals",
    "C34_basis_nodes"
   ],
   "note": "Numbering onto, shared nodes, periodic identification, distinctness, refusals and basis nodes, for every mesh and degree."
  },
  {
   "property": "C35",
   "status": "proved",
   "theorems": [
    "C35_fe_neighbours_share_a_cell",
    "C35_fv_neighbours_share_a_node",
    "C35_sharing_is_symmetric",
    "C35_local_bounds_are_extrema"
   ],
   "note": "Finite volume and finite element mappings, and the local bounds computed with them."
  },
  {
   "property": "C36",
   "status": "proved",
   "theorems": [
    "C36_basis",
    "C36_interpolation",
    "C36_elements",
    "C36_initial_values",
    "C36_fast_elements"
   ],
   "note": "Every degree: nodal, partition of unity, derivatives, reproduction; elements, initial values and the cached (fast) evaluation agree with the definition."
  },
  {
   "property": "C37",
   "status": "proved",
   "theorems": [
    "C37_lumped_masses_positive",
    "C37_degree_8_masses_negative",
    "C37_mass_matrix",
    "C37_lumped_masses",
    "C37_discrete_gradient"
   ],
   "note": "Every degree and mesh. Hypothesis: np.linalg.eig returns an orthogonal eigen decomposition of the Golub-Welsch matrix."
  },
  {
   "property": "C38",
   "status": "proved",
   "theorems": [
    "C38_artificial_diffusion",
    "C38_rows_in_general"
   ],
   "note": "Every skew symmetric matrix and every state; the row sums for arbitrary matrices are stated separately."
  },
  {
   "property": "C39",
   "status": "proved",
   "theorems": [
    "C39_low_order_conserves",
    "C39_low_order_bounds",
    "C39_low_order_succeeds",
    "C39_degree_8_has_no_time_step"
   ],
   "note": "All degrees; the time step of degree 8 is proved to be negative (finding)."
  },
  {
   "property": "C40",
   "status": "partial",
   "theorems": [
    "C40_mcl_conserves",
    "C40_mcl_bounds",
    "C40_mcl_target",
    "C40_mcl_succeeds",
    "C40_one_cell_bounds_refuted"
   ],
   "note": "Conservation, bounds and solvability of the MCL step for every mesh with at least two cells; on a mesh of a single cell of degree 3 the pairs of degrees of freedom are counted twice and the bounds fail (C40_one_cell_bounds_refuted)."
  },
  {
   "property": "C41",
   "status": "proved",
   "theorems": [
    "C41_integral_norms_are_seminorms",
    "C41_L2_is_the_integral",
    "C41_finite_volume_norms",
    "C41_maximum_norm"
   ],
   "note": "Contract: np.linalg.eig returns an orthonormal eigendecomposition of the Golub-Welsch matrix (eig_works). Scalar functions; for vector valued ones numpy works component by component."
  },
  {
   "property": "C42",
   "status": "proved",
   "theorems": [
    "C42_two_point_average",
    "C42_temporal",
    "C42_temporal_nodes_and_errors",
    "C42_spatial",
    "C42_cell_averages",
    "C42_components"
   ],
   "note": "numpy.interp is modelled by its documented formula on increasing sample points; arrays as lists of rows in row-major order. Cell averages use the eigendecomposition contract of C43."
  },
  {
   "property": "C43",
   "status": "proved",
   "theorems": [
    "C43_decomposition_exists",
    "C43_rule_independent_of_solver",
    "C43_gauss_exact",
    "C43_degree_zero_refused"
   ],
   "note": ""
  },
  {
   "property": "C44",
   "status": "proved",
   "theorems": [
    "C44_error_is_a_distance",
    "C44_table",
    "C44_exact_order"
   ],
   "note": "errors of the table are a parameter (the three norms of C41 applied to the differences); nan is modelled by None; pandas formatting not modelled."
  },
  {
   "property": "C45",
   "status": "partial",
   "theorems": [
    "C45_integers",
    "C45_floats_partial",
    "C45_nan_refuted"
   ],
   "note": "Exact for integers and for all floats except nan; nan is accepted by positive_float and percent_number (C45_nan_refuted)."
  },
  {
   "property": "C46",
   "status": "proved",
   "theorems": [
    "C46_groups",
    "C46_namespaces",
    "C46_other_options_do_not_protect"
   ],
   "note": ""
  },
  {
   "property": "C47",
   "status": "proved",
   "theorems": [
    "C47_solve_drives_ode_solver_and_solution",
    "C47_time_of_the_solution",
    "C47_solvers_start_in_sync",
    "C47_values_read_are_independent",
    "C47_reinitialized_is_like_new",
    "C47_solving_twice",
    "C47_solve_raises_before_the_first_step"
   ],
   "note": ""
  },
  {
   "property": "C48",
   "status": "proved",
   "theorems": [
    "C48_generated_files",
    "C48_one_header",
    "C48_appending_to_missing_file_writes_no_header"
   ],
   "note": ""
  },
  {
   "property": "C49",
   "status": "proved",
   "theorems": [
    "C49_advection",
    "C49_advection_data",
    "C49_burgers",
    "C49_burgers_critical",
    "C49_lake_at_rest",
    "C49_moving_water",
    "C49_oscillations",
    "C49_random_zero_parameters_ignored",
    "C49_dam_break",
    "C49_dam_break_root",
    "C49_dam_break_refused"
   ],
   "note": "scipy's newton is any function returning roots (for the dam break: the root between the two wave speeds, proved to exist and to be unique). Findings: the Burgers shock benchmark's default end time lies after shock formation, so its exact_solution always raises; random oscillation benchmarks ignore parameters given as 0. Exact real arithmetic."
  },
  {
   "property": "C50",
   "status": "partial",
   "theorems": [
    "C50_entries",
    "C50_dot",
    "C50_dot_undefined",
    "C50_dot_current_partial",
    "C50_inverse",
    "C50_stale_dot_refuted",
    "C50_stale_inverse_refuted"
   ],
   "note": "Exact history semantics proved; dot is stale after single-entry assignment and inverse is stale after build_inverse (refuted theorems)."
  },
  {
   "property": "C51",
   "status": "proved",
   "theorems": [
    "C51_maximum_minimum",
    "C51_maximum_minimum_defined",
    "C51_minmod"
   ],
   "note": ""
  },
  {
   "property": "C52",
   "status": "partial",
   "theorems": [
    "C52_wall_mirrors_edge_cells_partial",
    "C52_wall_second_ghost_refuted"
   ],
   "note": "True for one ghost layer, false for the second ghost layer (radius 2)."
  },
  {
   "property": "C53",
   "status": "partial",
   "theorems": [
    "C53_exceptions_keep_the_solution_partial",
    "C53_refused_step_refuted",
    "C53_only_cfl_violations_become_warnings"
   ],
   "note": "Refuted as stated (C53_refused_step_refuted): from the second step on the solution shares the ODE solver's array, so a step refused as not finite is already visible in solution.value at the old time. Proved for exceptions of the right hand side and for the first step."
  },
  {
   "property": "C54",
   "status": "proved",
   "theorems": [
    "C54_relative_error",
    "C54_self_and_errors"
   ],
   "note": "Division by a zero norm gives nan/inf with a warning in numpy, None in the model. Scalar solutions."
  },
  {
   "property": "C55",
   "status": "proved",
   "theorems": [
    "C55_cg_weak_form",
    "C55_cg_conserves",
    "C55_cg_energy"
   ],
   "note": "spsolve enters through the contract S_Solve.solves (positive definite systems are solved); C55_ex shows by elimination that a solver exists for every space."
  },
  {
   "property": "C56",
   "status": "partial",
   "theorems": [
    "C56_flux_of_the_argument",
    "C56_first_call_refuted",
    "C56_modified_in_place_refuted"
   ],
   "note": "Proved for arrays that are not modified between calls when the first argument differs from the uninitialised memory; refuted without either condition (AttributeError, stale result)."
  },
  {
   "property": "C57",
   "status": "proved",
   "theorems": [
    "C57_runs_conserve_mass",
    "C57_runs_keep_bounds"
   ],
   "note": "The integral is the Riemann integral over the cells of the element function. Floating point is not modelled."
  },
  {
   "property": "C58",
   "status": "partial",
   "theorems": [
    "C58_integrator_fits_degree",
    "C58_integrator_exists",
    "C58_solver_can_be_built_refuted"
   ],
   "note": "The table fits the degree for 1..7; building the solver fails with TypeError for degrees 3..7 (RungeKutta8 has no parameter initial_time) and KeyError from degree 8."
  },
  {
   "property": "C59",
   "status": "proved",
   "theorems": [
    "C59_wave_speeds"
   ],
   "note": "Height at least the dry tolerance on both sides; square roots over the reals."
  },
  {
   "property": "C60",
   "status": "partial",
   "theorems": [
    "C60_energy_decays",
    "C60_central_energy",
    "C60_equal_velocities",
    "C60_energy_stable_refuted",
    "C60_entropy_is_energy_gradient",
    "C60_potential"
   ],
   "note": "Gradient, potential, decay for the low order and Lax-Friedrichs schemes, the formula for the central scheme and the case of equal velocities proved; that the energy stable schemes never increase the energy is refuted (with and without the first order diffusion)."
  },
  {
   "property": "C61",
   "status": "partial",
   "theorems": [
    "C61_limited_mirror_refuted",
    "C61_mirror"
   ],
   "note": "Proved for the low order, central, Lax-Friedrichs, energy stable, Lax-Wendroff and antidiffusive schemes; refuted for the limited scheme, whose limiter treats left and right differently."
  },
  {
   "property": "C62",
   "status": "partial",
   "theorems": [
    "C62_translation",
    "C62_uniform_flow",
    "C62_wet_states",
    "C62_periodic_bottom_refuted"
   ],
   "note": "Translation proved for flat bottoms and refuted for a bottom that is not flat (the bottom is extended by its edge values on periodic domains); uniform flow and totality proved."
  },
  {
   "property": "C63",
   "status": "partial",
   "theorems": [
    "C63_lake_at_rest_refuted"
   ],
   "note": "Refuted for Lax-Friedrichs, energy stable, first order energy stable and Lax-Wendroff; well-balancing of the low order, central and limited schemes is C29."
  },
  {
   "property": "C64",
   "status": "partial",
   "theorems": [
    "C64_networks_between_walls_refuted",
    "C64_solvers_can_be_built",
    "C64_water_is_conserved",
    "C64_lax_wendroff_water"
   ],
   "note": "Proved for all getters on periodic domains (networks reading an even number of cells) and between walls for getters without a network; refuted between walls for networks that depend on their inputs."
  },
  {
   "property": "C65",
   "status": "proved",
   "theorems": [
    "C65_lake_stays",
    "C65_lake_run_completes",
    "C65_lake_at_rest_benchmark",
    "C65_lake_without_bottom_benchmark"
   ],
   "note": "The whole chain (nodes of the 2-point rule, averages, resolution of the bump, balance of the fluxes, time stepping, histories) are derived from the model; np.linalg.eig enters as a quantified routine that diagonalises a 2x2 matrix."
  },
  {
   "property": "C66",
   "status": "partial",
   "theorems": [
    "C66_reduced_flux",
    "C66_zero_network_flat_bottom",
    "C66_zero_network_refuted",
    "C66_given_bottom_refuted"
   ],
   "note": "The structure of the flux and the equality over a flat bottom are proved. Refuted over a step of the bottom: the source term is subtracted by the inner scheme and again by the wrapper. Every getter that is given the bottom as an array with two or more entries raises ValueError (truth value of an array)."
  },
  {
   "property": "C67",
   "status": "proved",
   "theorems": [
    "C67_coarse_solver_shows_coarsened_solution",
    "C67_degree_must_divide"
   ],
   "note": "Simulation proof. For a degree that does not divide: with a history the solver cannot be built; without one it can be built, but reading the value, solving and reinitialising raise with nothing changed."
  },
  {
   "property": "C68",
   "status": "partial",
   "theorems": [
    "C68_reinitialized_is_a_new_solver",
    "C68_new_end_time_refuted"
   ],
   "note": "Proved for a new benchmark that differs in the initial data only. Refuted in general: the end time (as well as bottom, gravity and boundary conditions) of the new benchmark is ignored."
  },
  {
   "property": "C69",
   "status": "partial",
   "theorems": [
    "C69_scalar_solvers_can_be_built",
    "C69_bounds_hold",
    "C69_run_completes",
    "C69_constants_stay",
    "C69_advection_benchmarks",
    "C69_burgers_shock_benchmark_refuted"
   ],
   "note": "Proved end to end for advection and for Burgers' equation with positive data; both Burgers benchmarks of the program have negative data, and the shock benchmark is refuted (C69_burgers_shock_benchmark_refuted: value below -1 after one step, because the scheme uses the wave speed without absolute value)."
  },
  {
   "property": "C70",
   "status": "partial",
   "theorems": [
    "C70_mass_is_conserved",
    "C70_limited_solver_refuted"
   ],
   "note": "Proved for local Lax-Friedrichs and central, all four integrators; refuted for the limited solver (C70_limited_solver_refuted): its neighbour table and numbering lose mass at the periodic seam."
  },
  {
   "property": "C71",
   "status": "proved",
   "theorems": [
    "C71_fe_solvers_can_be_built",
    "C71_integral_is_conserved",
    "C71_bounds_hold",
    "C71_data_bounds_hold",
    "C71_run_completes",
    "C71_safe_cfl",
    "C71_default_cfl_keeps_bounds"
   ],
   "note": "End to end from the benchmark. C71_safe_cfl shows, from the entries of the matrices, that the condition on the CFL number for Burgers' equation holds on every mesh for the numbers of safe_cfl (1, 2/5, 3/5, 8/25, 2/5, 11/100, 3/10 for the degrees 1 to 7), so the default 1/10 is always allowed."
  },
  {
   "property": "C72",
   "status": "partial",
   "theorems": [
    "C72_calculate",
    "C72_one_solver",
    "C72_no_solver_refuted",
    "C72_end_time",
    "C72_calculate_advection"
   ],
   "note": "Proved for every list of solvers; C72_no_solver_refuted: the command without a solver ends with a TypeError (len of None) instead of doing nothing."
  },
  {
   "property": "C73",
   "status": "partial",
   "theorems": [
    "C73_lines",
    "C73_saved_data",
    "C73_file_of_a_scalar_plot",
    "C73_equal_labels_refuted",
    "C73_shallow_water_axes"
   ],
   "note": "The lines are proved for every input; C73_equal_labels_refuted: two lines with the same label (the default for two solvers of the same kind) overwrite each other in the saved data, so one is lost."
  },
  {
   "property": "C74",
   "status": "partial",
   "theorems": [
    "C74_frames",
    "C74_recorded_values",
    "C74_histories_can_be_animated",
    "C74_late_start",
    "C74_start_time_refuted",
    "C74_exact_solution_alone_refuted"
   ],
   "note": "Proved for every start time not after all recorded times; C74_start_time_refuted: a later start time raises an IndexError, and C74_exact_solution_alone_refuted: without solver the command ends with a TypeError although the plot command shows the exact solution."
  },
  {
   "property": "C75",
   "status": "partial",
   "theorems": [
    "C75_curvature_of_the_parabola",
    "C75_the_parabola",
    "C75_properties",
    "C75_transform",
    "C75_deleted_rows",
    "C75_command_refuted"
   ],
   "note": "The formula and the selection of rows are proved; C75_command_refuted: the command itself always raises AttributeError because core.load_data and core.save_data do not exist (also analyze-data and analyze-curvature)."
  },
  {
   "property": "C76",
   "status": "partial",
   "theorems": [
    "C76_series",
    "C76_series_of_solvers",
    "C76_saving_plots_refuted",
    "C76_average",
    "C76_no_success_refuted"
   ],
   "note": "Proved for all series without saved plots; C76_saving_plots_refuted: with save_plot the command ends with a TypeError at the first success (the plotter has no argument `save`); C76_no_success_refuted: if no benchmark succeeds, the average raises ValueError."
  },
  {
   "property": "C77",
   "status": "partial",
   "theorems": [
    "C77_same_experiments",
    "C77_admissible",
    "C77_references_refuted",
    "C77_directory_refuted",
    "C77_chosen"
   ],
   "note": "Proved between the values of a parameter; C77_references_refuted: compared with the reference benchmarks all later random parameters differ too, since giving a parameter saves a draw; C77_directory_refuted: results land beside the directory unless its name ends with a slash."
  },
  {
   "property": "C78",
   "status": "partial",
   "theorems": [
    "C78_training_data",
    "C78_scaling",
    "C78_perfect_network",
    "C78_saved_networks",
    "C78_untrained_networks_refuted",
    "C78_confirmation"
   ],
   "note": "All but the last clause is proved; C78_untrained_networks_refuted: a network whose files are missing is announced as untrained but cannot predict, since its scalers were never fitted."
  },
  {
   "property": "C79",
   "status": "partial",
   "theorems": [
    "C79_heights",
    "C79_low_order_average",
    "C79_low_order_velocities",
    "C79_limited_velocities_partial",
    "C79_high_order_kept",
    "C79_limited_velocities_refuted"
   ],
   "note": "Heights: proved for the low order and the limited scheme over any bottom. Velocities: proved for the low order scheme; for the limited scheme only in cells whose right face moves no more water to the right than the low order flux (C79_limited_velocities_partial), because the general claim is false: C79_limited_velocities_refuted gives two cells whose velocity leaves every bound in one admissible step (the limiter multiplies the velocity bounds of both neighbours of a face with the limited height of its right side)."
  },
  {
   "property": "C80",
   "status": "partial",
   "theorems": [
    "C80_units",
    "C80_energy_stable_refuted",
    "C80_lax_wendroff_viscosity",
    "C80_lax_wendroff_refuted",
    "C80_lax_wendroff_units_refuted"
   ],
   "note": "Proved for the low order, central, Lax-Friedrichs and energy stable schemes, antidiffusion on top of them, and the limited scheme with any of them (C80_units). False for the first order energy stable scheme (C80_energy_stable_refuted) and for the scheme called Lax-Wendroff (C80_lax_wendroff_units_refuted, C80_lax_wendroff_refuted; C80_lax_wendroff_viscosity says exactly what it computes). The vertical unit is not covered: heights are compared with a fixed epsilon."
  },
  {
   "property": "C81",
   "status": "partial",
   "theorems": [
    "C81_given_constant_bottom",
    "C81_given_zero_bottom_refuted",
    "C81_network_given_bottom_refuted",
    "C81_antidiffusion",
    "C81_defaults",
    "C81_zero_options_refuted",
    "C81_lax_wendroff_step",
    "C81_lax_wendroff_bottom_refuted",
    "C81_scalar_schemes"
   ],
   "note": "Constant bottoms, antidiffusion, Lax-Wendroff steps, the scalar schemes and defaults are proved; refuted for zero values (x or default), for the bottom given to network solvers and for the bottom of the Lax-Wendroff solver."
  },
  {
   "property": "C82",
   "status": "partial",
   "theorems": [
    "C82_options",
    "C82_nothing_ignored",
    "C82_no_exception",
    "C82_several_solvers",
    "C82_several_solvers_only",
    "C82_unknown_solver_refuted",
    "C82_unknown_flux_refuted",
    "C82_unknown_integrator_refuted",
    "C82_polynomial_degree_refuted",
    "C82_long_flux_option_refuted"
   ],
   "note": "Proved: all offered options are granted, nothing is ignored, no exception, several solvers. Refuted: exit status and message for unknown names, +p, ++flux."
  },
  {
   "property": "C83",
   "status": "partial",
   "theorems": [
    "C83_everything_granted",
    "C83_uncaught_exceptions_refuted",
    "C83_nothing_ignored",
    "C83_unknown_benchmark_refuted",
    "C83_random_benchmark_refuted",
    "C83_help",
    "C83_help_page_refuted",
    "C83_end_time_of_generate_data_refuted",
    "C83_generation_script_refuted",
    "C83_no_solver_refuted",
    "C83_still_water"
   ],
   "note": "Granting and nothing-ignored theorems for all lines of the seven commands; the run to the end is proved for still water; refuted parts: uncaught exceptions, random benchmark key, help pages, end time of generate-data, the script line. Abbreviated options, \"=\" and \"--\" are not modelled (result Unmodelled), neither are the words of analyze-*, train-network, test and print-network."
  },
  {
   "property": "C84",
   "status": "proved",
   "theorems": [
    "C84_solvers_are_built",
    "C84_calculate_ends",
    "C84_water_is_kept",
    "C84_mass_is_kept",
    "C84_bounds_are_kept"
   ],
   "note": ""
  },
  {
   "property": "C85",
   "status": "partial",
   "theorems": [
    "C85_keywords_fit",
    "C85_printing",
    "C85_args_of_commands",
    "C85_args_and_profile",
    "C85_args_and_profile_granted",
    "C85_refusals",
    "C85_args_adaptive_refuted"
   ],
   "note": "--args with an adaptive solver raises AttributeError: C85_args_adaptive_refuted; everything else is proved."
  },
  {
   "property": "C86",
   "status": "proved",
   "theorems": [
    "C86_variation_never_grows",
    "C86_advection_benchmarks",
    "C86_element_variation_never_grows",
    "C86_calculated_variation"
   ],
   "note": "C86_variation_never_grows for the finite volume solvers, C86_element_variation_never_grows for the finite element solvers, C86_advection_benchmarks for the default options, C86_calculated_variation from the words of calculate. Specification: S_Variation, S_VariationLine (variation, admissible CFL numbers)."
  },
  {
   "property": "C87",
   "status": "proved",
   "theorems": [
    "C87_error_of_smooth_solutions",
    "C87_error_of_rough_solutions",
    "C87_solutions_converge",
    "C87_advection_benchmarks",
    "C87_element_benchmarks",
    "C87_element_error",
    "C87_element_solutions_converge",
    "C87_calculated_error"
   ],
   "note": "errors of Lax-Friedrichs and low order finite element (degree one) solutions against the exact solution, with explicit constants; convergence for continuous data; the benchmarks with continuous data; lines of calculate"
  },
  {
   "property": "C88",
   "status": "proved",
   "theorems": [
    "C88_what_the_tables_contain",
    "C88_never_warns",
    "C88_error_lines",
    "C88_advection_tables",
    "C88_tables_asked_for"
   ],
   "note": "The orders themselves are not claimed to be near one: only the errors are bounded from above. The exact solution of Burgers' equation (a Newton iteration of scipy) is a parameter. \"completed run\" means that the run ends within the fuel n; for the smooth advection data some n suffices for all tables."
  },
  {
   "property": "C89",
   "status": "partial",
   "theorems": [
    "C89_one_refinement_missing_partial",
    "C89_refinements_refuted"
   ],
   "note": "The claim is false (C89_refinements_refuted). Proved for every line: as many rows as the number given, that is one refinement fewer."
  },
  {
   "property": "C90",
   "status": "proved",
   "theorems": [
    "C90_order_is_kept",
    "C90_distance_never_grows",
    "C90_ordered_data",
    "C90_small_changes",
    "C90_convex_totals_never_grow",
    "C90_half_a_cell_is_sharp"
   ],
   "note": "All steps of the argument are in the model: the flux is monotone in both arguments, the update of a cell in all three, the sum is conserved, hence (Crandall-Tartar) distances shrink, hence (Kruzkov) sums of |u - k| and (Hardy-Littlewood-Polya) of every convex function. The bound of half a cell for Burgers' equation is what the own-cell derivative 1 - lambda (2 w - (l + r) / 2) needs."
  },
  {
   "property": "C91",
   "status": "partial",
   "theorems": [
    "C91_everything_granted",
    "C91_nothing_ignored",
    "C91_parameter_refuted",
    "C91_split_lists_refuted",
    "C91_profile_refuted",
    "C91_tests_started",
    "C91_data_commands_refuted"
   ],
   "note": "full lines granted and accounted for; four claims refuted: split lists, --profile before a network, parameters that are no numbers, the commands that load data"
  },
  {
   "property": "C92",
   "status": "proved",
   "theorems": [
    "C92_area_of_solutions_with_jumps",
    "C92_element_area",
    "C92_solutions_converge",
    "C92_advection_benchmarks",
    "C92_element_benchmarks",
    "C92_calculated_area",
    "C92_tables",
    "C92_tables_asked_for"
   ],
   "note": "The distance is the variation of the data times the mean distance of a random walk (Cauchy-Schwarz gives the root). The bound is checked for the Lax-Friedrichs solver on cell averages and for the low order solver on nodes; the limited solvers are not covered."
  },
  {
   "property": "C93",
   "status": "partial",
   "theorems": [
    "C93_neighbours",
    "C93_accepted",
    "C93_same_water_solver_partial",
    "C93_same_lax_wendroff",
    "C93_same_scalar_solver",
    "C93_same_scalar_limiter",
    "C93_periodic_twice_refuted"
   ],
   "note": "partial because the claim is false for the limited shallow water solver on periodic domains (C93_periodic_twice_refuted, heights 9, 4, 1: the first height falls at rate 15 or 39/2 depending on the spelling); all other cases are proved. C93_same_scalar_limiter compares right hand sides, not solver objects, because the neighbour arrays differ."
  },
  {
   "property": "C94",
   "status": "proved",
   "theorems": [
    "C94_exact_solution",
    "C94_element_error",
    "C94_element_solutions_converge",
    "C94_burgers_benchmarks",
    "C94_positive_solutions_converge"
   ],
   "note": ""
  },
  {
   "property": "C95",
   "status": "proved",
   "theorems": [
    "C95_rows_of_generate_data",
    "C95_command_starts",
    "C95_fluxes_of_the_rows_exist",
    "C95_appending_repeats_the_data",
    "C95_training_benchmarks_are_tested"
   ],
   "note": ""
  },
  {
   "property": "C96",
   "status": "proved",
   "theorems": [
    "C96_euler_step_loses_entropy",
    "C96_entropy_never_grows",
    "C96_default_cfl_loses_entropy",
    "C96_advection_keeps_order",
    "C96_advection_distance_never_grows"
   ],
   "note": ""
  },
  {
   "property": "C97",
   "status": "partial",
   "theorems": [
    "C97_exact_arithmetic",
    "C97_steps_cover_interval",
    "C97_rounding_never_raises",
    "C97_terminates",
    "C97_late_times_refuted"
   ],
   "note": "All claims are proved for times below 4096; without this bound termination is false (C97_late_times_refuted). Overflow is not modelled."
  },
  {
   "property": "C98",
   "status": "proved",
   "theorems": [
    "C98_arrays_round",
    "C98_exact_arithmetic",
    "C98_step_conserves_mass_up_to_rounding",
    "C98_runs_conserve_mass_up_to_rounding",
    "C98_fluxes_meet_the_hypotheses",
    "C98_methods_meet_the_hypotheses",
    "C98_rounding_changes_mass"
   ],
   "note": "The fluxes are a parameter (any values whose two sides are opposite); values and fluxes are assumed to stay below bounds, so overflow is excluded. The sum of the cells is the exact one, not the rounded one of np.sum."
  },
  {
   "property": "C99",
   "status": "proved",
   "theorems": [
    "C99_constant_states_are_kept",
    "C99_arithmetics",
    "C99_double_precision",
    "C99_exact",
    "C99_interrupted_runs",
    "C99_start_times",
    "C99_shifts"
   ],
   "note": "The flux is a parameter with the hypotheses of C98 and C01 (one value per node, opposite sides, local); C98_fluxes_meet_the_hypotheses shows them for the fluxes of the project. Overflow is not modelled (doubles have no largest exponent here). Runs that raise an exception are not concerned. C99_shifts uses no law of arithmetic at all."
  }
 ]
}
