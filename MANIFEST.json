{
 "claims": [
  {
   "property": "C01",
   "status": "proved",
   "theorems": [
    "C01_index_lists_partition_w"
   ],
   "note": ""
  },
  {
   "property": "C02",
   "status": "proved",
   "theorems": [
    "C02_options_of_the_problem",
    "C02_index_list_shapes",
    "C02_C07_states_v_z",
    "C02_C07_algebraic_variables",
    "C02_end_point_states",
    "C02_C07_step_sizes",
    "C02_C07_controls",
    "C02_C07_speed_of_time",
    "C02_C07_global_variables",
    "C02_C07_elastic_slack",
    "C02_boolean_variables",
    "C02_symbols_distinct"
   ],
   "note": ""
  },
  {
   "property": "C03",
   "status": "proved",
   "theorems": [
    "C03_matching_lengths"
   ],
   "note": ""
  },
  {
   "property": "C04",
   "status": "proved",
   "theorems": [
    "C04_number_of_variables",
    "C04_no_boolean_variables"
   ],
   "note": ""
  },
  {
   "property": "C05",
   "status": "proved",
   "theorems": [
    "C05_closed",
    "C05_functions"
   ],
   "note": "closedness of every constructed problem; the CasADi functions of (w, p) exist for every assembled problem whose user functions were accepted"
  },
  {
   "property": "C06",
   "status": "partial",
   "theorems": [
    "C06_parameters_partial",
    "C06_two_subsystems_refuted"
   ],
   "note": "false for STEP with two or more subsystems (refuted with witness); proved for Stewart with any number of subsystems and for Step with one"
  },
  {
   "property": "C07",
   "status": "proved",
   "theorems": [
    "C02_C07_states_v_z",
    "C02_C07_algebraic_variables",
    "C02_C07_step_sizes",
    "C02_C07_controls",
    "C02_C07_speed_of_time",
    "C02_C07_global_variables",
    "C02_C07_elastic_slack"
   ],
   "note": ""
  },
  {
   "property": "C08",
   "status": "partial",
   "theorems": [
    "C08_grid_ends_at_terminal_time_partial",
    "C08_refuted",
    "C08_least_squares_refuted"
   ],
   "note": "false for one control stage with a non-equidistant grid and with LEAST_SQUARES (refuted with witnesses); otherwise proved for problems whose results can be extracted"
  },
  {
   "property": "C09",
   "status": "partial",
   "theorems": [
    "C09_control_grid_equidistant_partial",
    "C09_control_grid_standard",
    "C09_least_squares_refuted"
   ],
   "note": "false with FESD and LEAST_SQUARES (refuted with witness); otherwise proved for problems whose results can be extracted"
  },
  {
   "property": "C10",
   "status": "proved",
   "theorems": [
    "C10_time_runs_forward"
   ],
   "note": "for problems whose results can be extracted, terminal_time >= 0"
  },
  {
   "property": "C11",
   "status": "proved",
   "theorems": [
    "C11_complementarity",
    "C11_fischer_burmeister",
    "C11_fischer_sum_refuted",
    "C11_boolean",
    "C11_boolean_pair"
   ],
   "note": "also shown: FISCHER_BURMEISTER with several x (used by SUM_LAMBDAS) does not imply x >= 0 or x*y = 0; BOOLEAN (continuous z) only bounds |sum x| + |y|"
  },
  {
   "property": "C12",
   "status": "partial",
   "theorems": [
    "C12_convex_weights_partial",
    "C12_elastic_two_sided_refuted",
    "C12_boolean_refuted",
    "C12_least_squares_refuted"
   ],
   "note": "false for ELASTIC_TWO_SIDED, BOOLEAN and LEAST_SQUARES (refuted with witnesses); proved for all other modes with EXACT constraints"
  },
  {
   "property": "C13",
   "status": "partial",
   "theorems": [
    "C13_stewart_active_mode",
    "C13_step_active_mode",
    "C13_stewart_switch_on_boundary_partial",
    "C13_step_switch_on_boundary_partial",
    "C13_complement_all_refuted"
   ],
   "note": "second half false for COMPLEMENT_ALL with Gauss-Legendre (refuted with witness); proved for SUM_LAMBDAS with every scheme and for both modes with Radau; zero relaxation is defined for SCHOLTES_* and ELASTIC_INEQ/EQ"
  },
  {
   "property": "C14",
   "status": "partial",
   "theorems": [
    "C14_cross_modes_equivalent_partial",
    "C14_gauss_refuted"
   ],
   "note": "false for Gauss-Legendre with FESD (refuted with witness); proved for Radau and without FESD"
  },
  {
   "property": "C15",
   "status": "partial",
   "theorems": [
    "C15_switching_equations_partial",
    "C15_last_element_coupled",
    "C15_own_multipliers_refuted"
   ],
   "note": "the equations hold at every stage and boundary point; 'own multipliers' is false for the last element of a control stage with Gauss-Legendre (refuted: a problem without any feasible point)"
  },
  {
   "property": "C16",
   "status": "partial",
   "theorems": [
    "C16_path_complementarities_partial",
    "C16_control_rows_refuted"
   ],
   "note": "false for control rows when a control stage has fewer elements than N_finite_elements (refuted with witness); otherwise proved"
  },
  {
   "property": "C17",
   "status": "partial",
   "theorems": [
    "C17_residual_is_the_largest_product",
    "C17_products_below_tolerance_partial",
    "C17_path_complementarities_refuted"
   ],
   "note": "path complementarities are not part of comp_res (refuted with witness); proved for all weight/multiplier products"
  },
  {
   "property": "C18",
   "status": "proved",
   "theorems": [
    "C18_cost_terms",
    "C18_constraint_terms",
    "C18_scaled_term_nonneg",
    "C18_direct_equal_steps",
    "C18_without_fesd"
   ],
   "note": "constraint handling EXACT; C18_constraint_terms for modes other than BOOLEAN"
  },
  {
   "property": "C19",
   "status": "partial",
   "theorems": [
    "C19_least_squares_partial",
    "C19_upper_bounds_refuted"
   ],
   "note": "upper bounds are not checked (refuted with witness); everything else proved"
  },
  {
   "property": "C20",
   "status": "proved",
   "theorems": [
    "C20_elastic_cost",
    "C20_same_minimizers"
   ],
   "note": ""
  },
  {
   "property": "C21",
   "status": "proved",
   "theorems": [
    "C21_coefficients_exist",
    "C21_end_point",
    "C21_derivatives",
    "C21_quadrature",
    "C21_constant_slope",
    "C21_polynomial_solves"
   ],
   "note": ""
  },
  {
   "property": "C22",
   "status": "partial",
   "theorems": [
    "C22_integral",
    "C22_integral_exact_partial",
    "C22_differential",
    "C22_radau1_refuted"
   ],
   "note": "false for INTEGRAL with one Radau point (refuted with witness); proved whenever the left boundary weight vanishes, and for DIFFERENTIAL"
  },
  {
   "property": "C23",
   "status": "proved",
   "theorems": [
    "C23_order_conditions"
   ],
   "note": ""
  },
  {
   "property": "C24",
   "status": "proved",
   "theorems": [
    "C24_quadrature_of_polynomials"
   ],
   "note": ""
  },
  {
   "property": "C25",
   "status": "partial",
   "theorems": [
    "C25_radau_raises_NotImplementedError_partial",
    "C25_gauss_raises",
    "C25_gauss_refuted",
    "C25_supported"
   ],
   "note": "false for Gauss-Legendre: UnboundLocalError is raised instead (refuted with witness); proved for Radau IIA"
  },
  {
   "property": "C26",
   "status": "proved",
   "theorems": [
    "C26_right_boundary_point",
    "C26_end_state_is_last_stage",
    "C26_end_state_continuity",
    "C02_end_point_states"
   ],
   "note": "for INTEGRAL the last collocation point is a hypothesis on the CasADi oracle"
  },
  {
   "property": "C27",
   "status": "proved",
   "theorems": [
    "C27_differential",
    "C27_constant_field"
   ],
   "note": ""
  },
  {
   "property": "C28",
   "status": "proved",
   "theorems": [
    "C28_path_terminal_time"
   ],
   "note": ""
  },
  {
   "property": "C29",
   "status": "partial",
   "theorems": [
    "C29_smallest_g_partial",
    "C29_full_rows_partial",
    "C29_refuted"
   ],
   "note": "false for sign matrices with zeros (refuted with witness: another mode is selected inside a region); proved for regions whose row of S has no zero, and in general for the mode with the smallest g"
  },
  {
   "property": "C30",
   "status": "proved",
   "theorems": [
    "C30_step_modes",
    "C30_alpha"
   ],
   "note": "entries of S in {-1, 0, 1}, one column per switching function"
  },
  {
   "property": "C31",
   "status": "proved",
   "theorems": [
    "C31_stewart",
    "C31_step",
    "C31_mu00_refuted"
   ],
   "note": "also shown: mu00_stewart_fun has the wrong sign"
  },
  {
   "property": "C32",
   "status": "proved",
   "theorems": [
    "C32_weights",
    "C32_sum_to_one"
   ],
   "note": "entries of S in {-1, 0, 1}"
  },
  {
   "property": "C33",
   "status": "partial",
   "theorems": [
    "C33_constructor",
    "C33_accepted",
    "C33_refuted"
   ],
   "note": "exact characterisation of the accepted models; 'matching numbers of rows/columns' is false (refuted: surplus c/S entries, F with one row, S with too few columns in Step mode are accepted)"
  },
  {
   "property": "C34",
   "status": "proved",
   "theorems": [
    "C34_relaxation",
    "C34_nonnegative",
    "C34_negative"
   ],
   "note": "C34_relaxation is for sigma_0 > 0; the other two say what happens otherwise."
  },
  {
   "property": "C35",
   "status": "proved",
   "theorems": [
    "C35_loop",
    "C35_ends",
    "C35_histories"
   ],
   "note": "C35_ends excludes RK4_SMOOTHENED, which can raise (see C46)"
  },
  {
   "property": "C36",
   "status": "partial",
   "theorems": [
    "C36_automatic_partial",
    "C36_large_tolerance_refuted"
   ],
   "note": "false for comp_tol > sigma_0 (refuted with witness); proved for comp_tol <= sigma_0"
  },
  {
   "property": "C37",
   "status": "proved",
   "theorems": [
    "C37_chain"
   ],
   "note": ""
  },
  {
   "property": "C38",
   "status": "proved",
   "theorems": [
    "C38_status"
   ],
   "note": ""
  },
  {
   "property": "C39",
   "status": "partial",
   "theorems": [
    "C39_residual_partial",
    "C39_success_refuted"
   ],
   "note": "false: only the status of the last NLP solve counts (refuted with witness)"
  },
  {
   "property": "C40",
   "status": "proved",
   "theorems": [
    "C40_w0_start",
    "C40_wopt_prev",
    "C40_external"
   ],
   "note": ""
  },
  {
   "property": "C41",
   "status": "proved",
   "theorems": [
    "C41_rest",
    "C41_x_stages",
    "C41_x_elements",
    "C41_x_other",
    "C41_u",
    "C41_v_global",
    "C41_p_global",
    "C41_p_time_var",
    "C41_w",
    "C41_p_global_solved",
    "C41_p_time_var_solved",
    "C41_none"
   ],
   "note": "set('x'), set('w') write and then raise Warning unless the guess is EXTERNAL"
  },
  {
   "property": "C42",
   "status": "partial",
   "theorems": [
    "C42_theta_partial",
    "C42_two_subsystems_refuted"
   ],
   "note": "false for two or more subsystems (refuted with witness); proved for one"
  },
  {
   "property": "C43",
   "status": "partial",
   "theorems": [
    "C43_pins_partial",
    "C43_negative_refuted"
   ],
   "note": "false: the test for 0 is one-sided (refuted with witness); exact description of the pinned variables proved"
  },
  {
   "property": "C44",
   "status": "partial",
   "theorems": [
    "C44_handled_partial",
    "C44_runs_partial",
    "C44_speed_of_time_refuted"
   ],
   "note": "false with speed of time or booleans (refuted with witness); exact condition proved"
  },
  {
   "property": "C45",
   "status": "proved",
   "theorems": [
    "C45_fixed",
    "C45_no_solution_lost"
   ],
   "note": "constraint handling EXACT for the soundness part"
  },
  {
   "property": "C46",
   "status": "partial",
   "theorems": [
    "C46_differential_partial",
    "C46_differential_total",
    "C46_integral",
    "C46_integral_first_stage",
    "C46_refuted",
    "C46_enough_slots",
    "C46_last_point",
    "C46_only_first_control_stage"
   ],
   "note": "proved for DIFFERENTIAL(_LIFT_X); false for INTEGRAL (points shifted by one, refuted with witness); raises with one state per element or Gauss points"
  },
  {
   "property": "C47",
   "status": "partial",
   "theorems": [
    "C47_results_consistent_partial",
    "C47_results_values",
    "C47_refuted",
    "C47_overlong_raises",
    "C47_ragged_raises"
   ],
   "note": "false for a superfluous entry of Nfe_list (lengths differ, or IndexError with FESD) and for Stewart subsystems of different sizes (ValueError); otherwise proved"
  },
  {
   "property": "C48",
   "status": "partial",
   "theorems": [
    "C48_switch_elements_partial",
    "C48_refuted"
   ],
   "note": "false: the reported numbers are element lengths, not grid times (refuted with a feasible point)"
  },
  {
   "property": "C49",
   "status": "proved",
   "theorems": [
    "C49_glued",
    "C49_runs",
    "C49_w_init_raises"
   ],
   "note": "results extractable; for any behaviour of the NLP solver that returns vectors of the right length or raises; w_init raises unless EXTERNAL"
  },
  {
   "property": "C50",
   "status": "proved",
   "theorems": [
    "C50_rows",
    "C50_no_table",
    "C49_glued"
   ],
   "note": ""
  },
  {
   "property": "C51",
   "status": "partial",
   "theorems": [
    "C51_never_stops",
    "C51_refuted"
   ],
   "note": "false: a Status is compared with a string (refuted with witness; run() never returns False)"
  },
  {
   "property": "C52",
   "status": "proved",
   "theorems": [
    "C52_accepted",
    "C52_errors"
   ],
   "note": ""
  },
  {
   "property": "C53",
   "status": "proved",
   "theorems": [
    "C53_preprocess_twice"
   ],
   "note": ""
  },
  {
   "property": "C54",
   "status": "partial",
   "theorems": [
    "C54_derived_options_are_kept",
    "C54_refuted",
    "C54_fresh_if_nothing_derived_partial"
   ],
   "note": "false: derived options stay (refuted with witness); proved if no option was derived by the first preprocess()"
  },
  {
   "property": "C55",
   "status": "partial",
   "theorems": [
    "C55_shared_tolerance",
    "C55_shared_iteration_limit",
    "C55_setters_keep_the_rest",
    "C55_refuted",
    "C55_derived_tolerance_refuted",
    "C55_other_options_are_own_partial"
   ],
   "note": "false: the IPOPT dict is a class attribute (refuted with witness); proved for all other options"
  },
  {
   "property": "C56",
   "status": "proved",
   "theorems": [
    "C56_type_error_iff",
    "C56_well_typed_options_pass"
   ],
   "note": ""
  },
  {
   "property": "C57",
   "status": "partial",
   "theorems": [
    "C57_refuted",
    "C57_every_combination_refuted",
    "C57_accepted_whenever_tableau_exists"
   ],
   "note": "false: the Warning objects are never raised (refuted with witness)"
  },
  {
   "property": "C58",
   "status": "partial",
   "theorems": [
    "C58_speed_partial",
    "C58_global_never_built",
    "C58_global_refuted"
   ],
   "note": "GLOBAL raises AttributeError (refuted); NONE and LOCAL proved"
  },
  {
   "property": "C59",
   "status": "proved",
   "theorems": [
    "C59_rebuild",
    "C59_model"
   ],
   "note": "for every node simplification of CasADi that keeps values"
  },
  {
   "property": "C60",
   "status": "partial",
   "theorems": [
    "C60_smooth_partial",
    "C60_refuted"
   ],
   "note": "false for nested switching nodes (refuted with max(sign x0, x1)); proved without nesting"
  },
  {
   "property": "C61",
   "status": "proved",
   "theorems": [
    "C61_sum",
    "C61_not_sums"
   ],
   "note": ""
  },
  {
   "property": "C62",
   "status": "proved",
   "theorems": [
    "C62_check_smooth"
   ],
   "note": ""
  },
  {
   "property": "C63",
   "status": "partial",
   "theorems": [
    "C63_filippov_partial",
    "C63_value_refuted",
    "C63_min_refuted",
    "C63_no_smooth_part_refuted",
    "C63_smooth_refuted"
   ],
   "note": "false: two switching nodes in one component lose one, fmin and rows without smooth part raise (refuted with witnesses); proved for one sign/fmax per component"
  },
  {
   "property": "C64",
   "status": "proved",
   "theorems": [
    "C64_flatten",
    "C64_increment_indices",
    "C64_increment_indices_fails",
    "C64_flatten_layer",
    "C64_flatten_outer_layers",
    "C64_vertcat_list",
    "C64_sum_list"
   ],
   "note": ""
  },
  {
   "property": "C65",
   "status": "proved",
   "theorems": [
    "C65_groups_of_path_complementarities"
   ],
   "note": ""
  },
  {
   "property": "C66",
   "status": "partial",
   "theorems": [
    "C66_counted_partial",
    "C66_refuted"
   ],
   "note": "false: guesses above the upper bound are not counted (refuted with witness); exact count proved"
  },
  {
   "property": "C67",
   "status": "proved",
   "theorems": [
    "C67_accepted_iff_consistent",
    "C67_absent_bounds",
    "C67_absent_bounds_same_problem",
    "C67_errors"
   ],
   "note": ""
  },
  {
   "property": "C68",
   "status": "proved",
   "theorems": [
    "C68_grid",
    "C68_rk4",
    "C68_total",
    "C68_constant",
    "C68_linear",
    "C68_scaling"
   ],
   "note": ""
  },
  {
   "property": "C69",
   "status": "partial",
   "theorems": [
    "C69_same_stages_partial",
    "C69_other_stages",
    "C69_refuted"
   ],
   "note": "false: another N_stages always raises (refuted with witness); same outcome proved for equal N_stages"
  },
  {
   "property": "C70",
   "status": "partial",
   "theorems": [
    "C70_accepted_partial",
    "C70_exactly",
    "C70_aug_sum_never",
    "C70_global_refuted",
    "C70_aug_refuted",
    "C70_least_squares_refuted",
    "C70_smooth_refuted"
   ],
   "note": "false for four groups of options (each refuted with a consistent model that raises); proved for all others; with EXACT constraints and no smoothed initialisation the accepted enum combinations are characterised exactly"
  },
  {
   "property": "C71",
   "status": "proved",
   "theorems": [
    "C71_constraints",
    "C71_constraints_all_modes",
    "C71_cost"
   ],
   "note": "constraint handling EXACT; the equivalence for modes other than BOOLEAN, the implication for all"
  },
  {
   "property": "C72",
   "status": "partial",
   "theorems": [
    "C72_step",
    "C72_two_switches_refuted"
   ],
   "note": "false: step models with two or more switches are never accepted (exact characterisation, refuted with witness)"
  },
  {
   "property": "C73",
   "status": "partial",
   "theorems": [
    "C73_second_call",
    "C73_refuted"
   ],
   "note": "false: the second model repeats the switching functions of the first (refuted with witness)"
  },
  {
   "property": "C74",
   "status": "partial",
   "theorems": [
    "C74_stewart_partial",
    "C74_step_partial",
    "C74_active_modes",
    "C74_stewart_element_partial",
    "C74_step_element_partial",
    "C74_complement_all_refuted",
    "C74_without_fesd_refuted"
   ],
   "note": "false for COMPLEMENT_ALL with schemes that do not end on the right boundary (refuted with witness, as is use_fesd=False); proved for all other combinations"
  },
  {
   "property": "C75",
   "status": "partial",
   "theorems": [
    "C75_stewart_partial",
    "C75_step_partial",
    "C75_stewart_error_partial",
    "C75_step_error_partial",
    "C75_scalar_partial",
    "C75_scalar_final_partial",
    "C75_scalar_error_partial",
    "C75_complement_all_refuted",
    "C75_without_fesd_refuted",
    "C75_without_one_sided_refuted"
   ],
   "note": "false for COMPLEMENT_ALL with schemes that do not end on the right boundary, for use_fesd=False and without the one-sided condition (each refuted with witness); proved for all other combinations, exactly for INTEGRAL and with an explicit rounding bound for the other representations"
  },
  {
   "property": "C76",
   "status": "partial",
   "theorems": [
    "C76_feasible_set",
    "C76_solutions_feasible_partial",
    "C76_step_solutions_feasible_partial",
    "C76_gauss_refuted",
    "C76_differential_refuted",
    "C76_differential_inexact",
    "C76_step_refuted"
   ],
   "note": "the description of the feasible set for every MPCC mode but BOOLEAN; feasibility of solutions for Radau IIA: degree n_s with INTEGRAL, degree 1 with DIFFERENTIAL and at most two stages, for Stewart and (multi-affine combinations) Step; false otherwise (refuted with witnesses): Gauss points, degree 2 with the rounded DIFFERENTIAL tables, any velocity with three or more stages of them, Filippov solutions that are not multi-affine with Step"
  },
  {
   "property": "C77",
   "status": "proved",
   "theorems": [
    "C77_solvable",
    "C77_solvable_and_exact",
    "C77_one_element_infeasible"
   ],
   "note": ""
  },
  {
   "property": "C78",
   "status": "proved",
   "theorems": [
    "C78_initial_guess",
    "C78_guess_inside"
   ],
   "note": "the bounds part for every MPCC mode but BOOLEAN"
  },
  {
   "property": "C79",
   "status": "partial",
   "theorems": [
    "C79_indices_partial",
    "C79_rows_partial",
    "C79_rows_bool_partial",
    "C79_refuted"
   ],
   "note": "false for LEAST_SQUARES, where the rows are gone but the indices stay (refuted with witness); proved for EXACT (BOOLEAN: the rows imply the conditions; the converse needs the binary variables)"
  },
  {
   "property": "C80",
   "status": "partial",
   "theorems": [
    "C80_created_partial",
    "C80_one_root",
    "C80_projection",
    "C80_call_refuted",
    "C80_never_returns",
    "C80_weights_refuted",
    "C80_subsystems_refuted"
   ],
   "note": "the returned function always raises (model.F_fun does not exist), and its root system does not select Stewart's weights, not even for small sigma (it projects -g onto the simplex), nor weights that sum up to one per subsystem (all refuted with witnesses); proved: creation, argument g, existence and uniqueness of the root, what it is"
  },
  {
   "property": "C81",
   "status": "partial",
   "theorems": [
    "C81_stewart",
    "C81_step",
    "C81_controls_refused",
    "C81_refuted"
   ],
   "note": "false without rootfinder_for_initial_z, where the user's guess z0 is used (refuted with witness); proved with the option, for algebraic equations without controls (others are refused)"
  },
  {
   "property": "C82",
   "status": "partial",
   "theorems": [
    "C82_dumped_parameters_partial",
    "C82_refuted"
   ],
   "note": "false for STEP with two subsystems (refuted with witness, as in C06); otherwise proved; rootfinder_for_initial_z = False"
  },
  {
   "property": "C83",
   "status": "partial",
   "theorems": [
    "C83_cost_partial",
    "C83_sign_refuted",
    "C83_polished_refuted"
   ],
   "note": "cost_val is the absolute value of the objective of the last homotopy pass: false for negative objectives and with polishing (refuted with witnesses); otherwise proved"
  },
  {
   "property": "C84",
   "status": "partial",
   "theorems": [
    "C84_statistics_partial",
    "C84_missing",
    "C84_refuted"
   ],
   "note": "false with polishing and at least two control stages: the same NLP is polished N_stages times and only the last solve is recorded (refuted with witness); otherwise proved"
  },
  {
   "property": "C85",
   "status": "proved",
   "theorems": [
    "C85_plot_timings",
    "C85_looper_times"
   ],
   "note": "drawing itself is not modelled"
  },
  {
   "property": "C86",
   "status": "partial",
   "theorems": [
    "C86_refused_partial",
    "C86_always_raises",
    "C86_refuted"
   ],
   "note": "false: every nonempty list raises KeyError since the results have no mu_list (refuted with witness, proved for all Stewart problems)"
  },
  {
   "property": "C87",
   "status": "partial",
   "theorems": [
    "C87_colors_partial",
    "C87_errors",
    "C87_one_time",
    "C87_refuted"
   ],
   "note": "false when all times are equal (ZeroDivisionError, refuted with witness); otherwise proved"
  },
  {
   "property": "C88",
   "status": "partial",
   "theorems": [
    "C88_keeps_partial",
    "C88_step",
    "C88_sound",
    "C88_pinned",
    "C88_refuted"
   ],
   "note": "false for negative mu, i.e. region functions g_Stewart with a positive minimum: mu is fixed to 0 and no feasible point is left (refuted with witness); proved for nonnegative multipliers, in particular for Step; the converse is proved"
  },
  {
   "property": "C89",
   "status": "partial",
   "theorems": [
    "C89_check_additive",
    "C89_path_partial",
    "C89_refuted"
   ],
   "note": "the check is exact; but reformulate() takes the step-function path for additive ODEs and the Filippov path for all others, so the second part is false (refuted with witness)"
  },
  {
   "property": "C90",
   "status": "partial",
   "theorems": [
    "C90_stewart_partial",
    "C90_step_partial",
    "C90_times",
    "C90_stewart_exact_partial",
    "C90_step_exact_partial",
    "C90_scalar_partial"
   ],
   "note": "false for COMPLEMENT_ALL with Gauss points and for use_fesd=False (C74, C75, refuted with witness); proved for all other options; Step with one subsystem"
  },
  {
   "property": "C91",
   "status": "proved",
   "theorems": [
    "C91_multipliers",
    "C91_close",
    "C91_negative",
    "C91_weights",
    "C91_field"
   ],
   "note": "C91_negative: the smoothed lambda of the active mode is negative (lambda_smooth_fun is not a nonnegative multiplier)"
  },
  {
   "property": "C92",
   "status": "proved",
   "theorems": [
    "C92_trajectory"
   ],
   "note": "exact quadrature points (points_ok), zero relaxation, fields without algebraic variables"
  },
  {
   "property": "C93",
   "status": "proved",
   "theorems": [
    "C93_error",
    "C93_convergence"
   ],
   "note": "the rate is the one that holds with and without FESD; with FESD see C94"
  },
  {
   "property": "C94",
   "status": "proved",
   "theorems": [
    "C94_trajectory",
    "C94_error",
    "C94_convergence"
   ],
   "note": "orders above one on grids that detect the switches are not proved (for constant fields see C75: exact)"
  },
  {
   "property": "C95",
   "status": "partial",
   "theorems": [
    "C95_one_mode_partial",
    "C95_stewart_partial",
    "C95_step_partial",
    "C95_stewart_simulation_partial",
    "C95_step_simulation_partial",
    "C95_scalar_partial",
    "C95_without_fesd_refuted",
    "C95_complement_all_refuted"
   ],
   "note": "false for use_fesd=False and for COMPLEMENT_ALL with schemes that do not end on the right boundary (refuted with witnesses); proved for all other combinations"
  },
  {
   "property": "C96",
   "status": "proved",
   "theorems": [
    "C96_parameter",
    "C96_residual",
    "C96_trajectory",
    "C96_error",
    "C96_convergence",
    "C96_one_switch"
   ],
   "note": "for models whose nearly active weights can be corrected (correctable_on; proved for two modes separated by one switching function)"
  },
  {
   "property": "C97",
   "status": "partial",
   "theorems": [
    "C97_error",
    "C97_relaxed",
    "C97_fesd",
    "C97_exists",
    "C97_unique",
    "C97_radau1_refuted"
   ],
   "note": "proved for methods whose INTEGRAL quadrature has no weight at the left end (Radau with two or more points, Gauss, all DIFFERENTIAL representations); false for INTEGRAL with one Radau point, where the objective is half the cost (C97_radau1_refuted). Convergence statements for the INTEGRAL representation"
  },
  {
   "property": "C98",
   "status": "proved",
   "theorems": [
    "C98_same",
    "C98_accepted",
    "C98_solve"
   ],
   "note": "options of the model; the attribute use_upper_bound_h is not part of it because no code reads it (nosnoc_opts.py:40)"
  },
  {
   "property": "C99",
   "status": "proved",
   "theorems": [
    "C99_error",
    "C99_convergence",
    "C99_residual"
   ],
   "note": "errors over whole simulations with relaxed steps: bound by the constants of one problem at the total time, convergence as the steps and the relaxation go to zero, relaxation of a step from the residual that solve() reports; the existence of feasible points is C90, the NLP solver is an arbitrary function and each step is assumed to return a feasible point"
  },
  {
   "property": "C100",
   "status": "proved",
   "theorems": [
    "C100_order",
    "C100_solution",
    "C100_one_mode",
    "C100_tangent",
    "C100_sliding"
   ],
   "note": "INTEGRAL representation with any distinct points in [0, 1]; the order proved is the number of stages n (the classical order 2n - 1 of Radau IIA or 2n of Gauss at the ends of elements is not claimed). That the point has the sequence of modes of the solution is a hypothesis (follows); that switches lie at element boundaries in FESD problems is C94 and C95"
  },
  {
   "property": "C101",
   "status": "partial",
   "theorems": [
    "C101_two_sided_partial",
    "C101_equal_steps_partial",
    "C101_upper_partial",
    "C101_refuted",
    "C101_fischer_partial",
    "C101_fischer_refuted",
    "C101_delta_h_comp_vacuous",
    "C101_delta_h_comp_infeasible"
   ],
   "note": "true for DIRECT (C18) and for DIRECT_COMPLEMENTARITY in the equality modes. False: DIRECT_COMPLEMENTARITY with SCHOLTES_INEQ (the default) or ELASTIC_INEQ bounds nu * (h_i - h_{i-1}) from above only, so steps may shrink without a switch; with Fischer-Burmeister steps may never shrink, also at switches, and solutions are lost; HEURISTIC_DELTA_H_COMP passes a zero to create_complementarity, which restricts nothing in the inequality modes and makes every relaxed problem infeasible in the equality modes and with Fischer-Burmeister"
  },
  {
   "property": "C102",
   "status": "proved",
   "theorems": [
    "C102_limit",
    "C102_larger",
    "C102_solution",
    "C102_subsequence",
    "C102_elastic"
   ],
   "note": "about global solutions of the NLPs; that IPOPT finds them is not claimed. The user's expressions are assumed to be continuous at the limit and not to mention sigma and tau"
  },
  {
   "property": "C103",
   "status": "proved",
   "theorems": [
    "C103_relaxed",
    "C103_fesd"
   ],
   "note": "about global solutions of the NLP without elastic variable, whose competitors are the feasible points of the same NLP; the solutions of the switched system are assumed to exist, unique by a one-sided Lipschitz condition"
  },
  {
   "property": "C104",
   "status": "partial",
   "theorems": [
    "C104_even_partial",
    "C104_nominal_partial",
    "C104_determined_partial",
    "C104_mean_penalty",
    "C104_mean_partial",
    "C104_delta_refuted"
   ],
   "note": "true for DIRECT and for DIRECT_COMPLEMENTARITY in the equality modes (all feasible points), and for minimizers with HEURISTIC_MEAN without costs of the user wherever the even grid is feasible. False for HEURISTIC_DELTA, the default: it smooths the steps across the switch, so no minimizer of the simulation of the witness is even after its switch. DIRECT_COMPLEMENTARITY in the other modes: see C101"
  },
  {
   "property": "C105",
   "status": "partial",
   "theorems": [
    "C105_unchanged_partial",
    "C105_time_var",
    "C105_time_var_refuted",
    "C105_warning_refuted"
   ],
   "note": "false for 'x' and 'w' (Warning is raised after the guess was written unless the strategy is EXTERNAL) and for 'p_time_var' with too few rows (the rows present are written); proved for the other fields and for wrong numbers of rows of 'x' and 'theta'. Rows of 'x' and 'theta' of wrong length are not covered"
  },
  {
   "property": "C106",
   "status": "proved",
   "theorems": [
    "C106_order",
    "C106_solution"
   ],
   "note": "for solutions given as finitely many smooth pieces, each crossing transversally, and simulations whose steps are solved with relaxation 0 and follow the same sequence of pieces; a piece may last over many steps. The case is a run of two steps."
  },
  {
   "property": "C107",
   "status": "proved",
   "theorems": [
    "C107_solution",
    "C107_bounded",
    "C107_exists",
    "C107_homotopy"
   ],
   "note": "C107_solution is for all modes and takes a bound on the better points; C107_bounded derives the bound for the irk_representations INTEGRAL and DIFFERENTIAL_LIFT_X (with continuous vector fields), the MPCC modes built on products (Scholtes, exact and elastic) and all schemes, when the user bounds states, algebraic states, controls and global variables and the switching functions are continuous. With DIFFERENTIAL the states at the stages are no variables of the NLP and have no bounds. The constraints and the objective have to be continuous within the bounds (no division by zero, no sign function)."
  },
  {
   "property": "C108",
   "status": "partial",
   "theorems": [
    "C108_collocation",
    "C108_matrix",
    "C108_exists_partial",
    "C108_unique_partial",
    "C108_point_partial",
    "C108_steps_refuted"
   ],
   "note": "Proved for Radau points, INTEGRAL irk_representation and the Stewart reformulation, for problems that stay in one mode on a ball around the initial state. C108_collocation has no such restriction on the modes: every solution of the collocation equations gives a feasible point. Missing: the DIFFERENTIAL representations, Gauss points, the Step reformulation, and existence across switches. Without short steps the statement is false: C108_steps_refuted."
  },
  {
   "property": "C109",
   "status": "partial",
   "theorems": [
    "C109_warning",
    "C109_exception",
    "C109_value",
    "C109_freezing",
    "C109_inclusion",
    "C109_index",
    "C109_checks_refuted"
   ],
   "note": "Warning and Exception are characterised exactly, ValueError up to surplus entries of g_Stewart. False in the cases of C109_checks_refuted: g_Stewart with too few or too many entries, S with too many columns, and fewer switching functions than matrices (C109_index) raise errors that no check of the model intends."
  },
  {
   "property": "C110",
   "status": "partial",
   "theorems": [
    "C110_forward",
    "C110_negative",
    "C110_gamma_refuted",
    "C110_horizon_refuted"
   ],
   "note": "Proved for gamma_h up to 1 and a nonnegative terminal time. False without these hypotheses, which no check of the options enforces: gamma_h = 2 has feasible points with a step backwards, a negative terminal time is accepted and gives an infeasible NLP with FESD and backward solutions without."
  },
  {
   "property": "C111",
   "status": "partial",
   "theorems": [
    "C111_scholtes",
    "C111_elastic",
    "C111_exact",
    "C111_rate",
    "C111_run_scholtes",
    "C111_run_elastic",
    "C111_equality_refuted"
   ],
   "note": "Proved for SCHOLTES_INEQ and the elastic modes, for global solutions, EXACT constraints and problems whose user functions do not mention sigma. False for SCHOLTES_EQ (refuted with witness: the objective falls); FISCHER_BURMEISTER modes and LEAST_SQUARES are not covered."
  },
  {
   "property": "C112",
   "status": "proved",
   "theorems": [
    "C112_unused"
   ],
   "note": "For models given by F, c and S. C33_refuted records that such surplus entries are accepted."
  },
  {
   "property": "C113",
   "status": "proved",
   "theorems": [
    "C113_rebuild"
   ],
   "note": "For values of the right sizes."
  },
  {
   "property": "C114",
   "status": "partial",
   "theorems": [
    "C114_fresh",
    "C114_repeat",
    "C114_wopt_prev_refuted"
   ],
   "note": "Proved for ALL_XCURRENT_W0_START and EXTERNAL and NLP solvers without memory; refuted for ALL_XCURRENT_WOPT_PREV, where a solve starts from the last solution; RK4_SMOOTHENED is not covered."
  }
 ]
}