# What `Print Assumptions` lists for each theorem

Generated by tools/gen_assumptions.py. 399 theorems.

## Closed under the global context (93)

* Props_Atomic: C105_unchanged_partial, C105_time_var
* Props_Auto: C62_check_smooth, C63_min_refuted, C63_no_smooth_part_refuted, C63_smooth_refuted, C89_check_additive, C89_path_partial
* Props_Check: C109_warning, C109_exception, C109_value, C109_freezing, C109_inclusion, C109_index, C109_checks_refuted, C67_errors
* Props_Dcs: C33_constructor, C33_accepted, C33_refuted
* Props_Extras: C81_controls_refused
* Props_Guess: C78_initial_guess, C78_guess_inside
* Props_IndComp: C79_refuted
* Props_Index: C01_index_lists_partition_w, C02_options_of_the_problem, C02_index_list_shapes, C02_C07_states_v_z, C02_C07_algebraic_variables, C02_end_point_states, C02_C07_step_sizes, C02_C07_controls, C02_C07_speed_of_time, C02_C07_global_variables, C02_C07_elastic_slack, C02_boolean_variables, C02_symbols_distinct, C03_matching_lengths, C04_number_of_variables, C04_no_boolean_variables
* Props_Misc: C66_counted_partial, C66_refuted, C69_same_stages_partial, C69_other_stages, C69_refuted
* Props_Nlp: C58_global_never_built, C58_global_refuted
* Props_Option: C98_same, C98_accepted
* Props_Opts: C25_radau_raises_NotImplementedError_partial, C25_gauss_raises, C25_gauss_refuted, C25_supported, C26_right_boundary_point, C53_preprocess_twice, C54_derived_options_are_kept, C54_refuted, C54_fresh_if_nothing_derived_partial, C55_shared_tolerance, C55_shared_iteration_limit, C55_refuted, C55_derived_tolerance_refuted, C55_other_options_are_own_partial, C57_refuted, C57_accepted_whenever_tableau_exists, C57_every_combination_refuted, C55_setters_keep_the_rest
* Props_Solver: C05_closed, C41_rest, C41_x_other, C41_p_global, C41_p_time_var, C41_w, C41_none, C42_two_subsystems_refuted, C44_handled_partial
* Props_Tableau: C23_order_conditions
* Props_Total: C70_aug_sum_never, C70_global_refuted, C70_aug_refuted, C70_least_squares_refuted, C70_smooth_refuted
* Props_Utils: C64_flatten, C64_increment_indices, C64_increment_indices_fails, C64_flatten_layer, C64_flatten_outer_layers, C64_vertcat_list, C65_groups_of_path_complementarities, C67_accepted_iff_consistent, C67_absent_bounds, C67_absent_bounds_same_problem, C56_type_error_iff, C56_well_typed_options_pass

## `ClassicalDedekindReals.sig_forall_dec` (7)

* Props_Looper: C52_accepted, C52_errors
* Props_Solver: C41_x_stages, C41_x_elements, C41_u, C41_v_global, C42_theta_partial

## `ClassicalDedekindReals.sig_forall_dec`, `FunctionalExtensionality.functional_extensionality_dep` (29)

* Props_Atomic: C105_time_var_refuted, C105_warning_refuted
* Props_Nlp: C11_boolean_pair
* Props_Report: C85_plot_timings, C86_refused_partial, C86_always_raises, C86_refuted, C87_colors_partial, C87_errors, C87_one_time, C87_refuted
* Props_Results: C09_control_grid_standard, C10_time_runs_forward, C47_results_consistent_partial, C47_results_values, C47_refuted, C47_overlong_raises, C47_ragged_raises, C48_switch_elements_partial
* Props_Rk4: C68_grid, C68_rk4, C68_total, C68_constant, C68_linear, C68_scaling
* Props_Solver: C43_negative_refuted
* Props_Tableau: C21_coefficients_exist, C21_end_point, C21_derivatives

## `ClassicalDedekindReals.sig_forall_dec`, `ClassicalDedekindReals.sig_not_dec`, `FunctionalExtensionality.functional_extensionality_dep` (4)

* Props_Even: C104_mean_penalty
* Props_Nlp: C11_fischer_burmeister, C11_fischer_sum_refuted, C18_without_fesd

## `ClassicalDedekindReals.sig_forall_dec`, `ClassicalDedekindReals.sig_not_dec`, `Classical_Prop.classic`, `FunctionalExtensionality.functional_extensionality_dep` (266)

* Props_Auto: C59_rebuild, C59_model, C60_smooth_partial, C60_refuted, C61_sum, C61_not_sums, C63_filippov_partial, C63_value_refuted, C72_step, C72_two_switches_refuted, C73_second_call, C73_refuted, C89_refuted
* Props_Conv: C92_trajectory, C93_error, C93_convergence
* Props_Cost: C97_error, C97_relaxed, C97_fesd, C97_exists, C97_unique, C97_radau1_refuted
* Props_Dcs: C29_smallest_g_partial, C29_full_rows_partial, C29_refuted, C30_step_modes, C30_alpha, C31_stewart, C31_step, C31_mu00_refuted, C32_weights, C32_sum_to_one
* Props_Detect: C95_one_mode_partial, C95_stewart_partial, C95_step_partial, C95_stewart_simulation_partial, C95_step_simulation_partial, C95_scalar_partial, C95_without_fesd_refuted, C95_complement_all_refuted
* Props_Even: C104_even_partial, C104_nominal_partial, C104_determined_partial, C104_mean_partial, C104_delta_refuted
* Props_Exact: C75_stewart_partial, C75_step_partial, C75_stewart_error_partial, C75_step_error_partial, C75_scalar_partial, C75_scalar_final_partial, C75_scalar_error_partial, C75_complement_all_refuted, C75_without_fesd_refuted, C75_without_one_sided_refuted
* Props_Exist: C76_feasible_set, C76_solutions_feasible_partial, C76_step_solutions_feasible_partial, C76_gauss_refuted, C76_differential_refuted, C76_differential_inexact, C76_step_refuted, C77_solvable, C77_solvable_and_exact, C77_one_element_infeasible
* Props_Extras: C80_created_partial, C80_one_root, C80_projection, C80_call_refuted, C80_never_returns, C80_weights_refuted, C80_subsystems_refuted, C81_stewart, C81_step, C81_refuted, C82_dumped_parameters_partial, C82_refuted
* Props_Filippov: C74_stewart_partial, C74_step_partial, C74_active_modes, C74_stewart_element_partial, C74_step_element_partial, C74_complement_all_refuted, C74_without_fesd_refuted
* Props_Forward: C110_forward, C110_negative, C110_gamma_refuted, C110_horizon_refuted
* Props_Fresh: C114_fresh, C114_repeat, C114_wopt_prev_refuted
* Props_Homot: C102_limit, C102_larger, C102_solution, C102_subsequence, C102_elastic
* Props_Hord: C100_order, C100_solution, C100_one_mode, C100_tangent, C100_sliding
* Props_Hsim: C106_order, C106_solution
* Props_IndComp: C79_indices_partial, C79_rows_partial, C79_rows_bool_partial
* Props_Looper: C49_glued, C49_runs, C49_w_init_raises, C50_rows, C50_no_table, C51_never_stops, C51_refuted
* Props_Mono: C111_scholtes, C111_elastic, C111_exact, C111_rate, C111_run_scholtes, C111_run_elastic, C111_equality_refuted
* Props_Nlp: C71_constraints, C71_constraints_all_modes, C71_cost, C11_complementarity, C11_boolean, C12_convex_weights_partial, C12_elastic_two_sided_refuted, C12_boolean_refuted, C12_least_squares_refuted, C13_stewart_active_mode, C13_step_active_mode, C13_stewart_switch_on_boundary_partial, C13_step_switch_on_boundary_partial, C13_complement_all_refuted, C14_cross_modes_equivalent_partial, C14_gauss_refuted, C15_switching_equations_partial, C15_last_element_coupled, C15_own_multipliers_refuted, C16_path_complementarities_partial, C16_control_rows_refuted, C17_residual_is_the_largest_product, C17_products_below_tolerance_partial, C17_path_complementarities_refuted, C18_cost_terms, C18_constraint_terms, C18_scaled_term_nonneg, C18_direct_equal_steps, C19_least_squares_partial, C19_upper_bounds_refuted, C20_elastic_cost, C20_same_minimizers, C21_polynomial_solves, C22_integral, C22_integral_exact_partial, C22_differential, C22_radau1_refuted, C26_end_state_is_last_stage, C26_end_state_continuity, C27_differential, C27_constant_field, C28_path_terminal_time, C58_speed_partial
* Props_Optim: C103_relaxed, C103_fesd
* Props_Option: C98_solve
* Props_Order: C94_trajectory, C94_error, C94_convergence
* Props_Picard: C108_collocation, C108_matrix, C108_exists_partial, C108_unique_partial, C108_point_partial, C108_steps_refuted
* Props_Polish: C88_keeps_partial, C88_step, C88_sound, C88_pinned, C88_refuted
* Props_Rebuild: C113_rebuild
* Props_Relax: C96_parameter, C96_residual, C96_trajectory, C96_error, C96_convergence, C96_one_switch
* Props_Report: C83_cost_partial, C83_sign_refuted, C83_polished_refuted, C84_statistics_partial, C84_missing, C84_refuted, C85_looper_times
* Props_Results: C08_grid_ends_at_terminal_time_partial, C08_refuted, C08_least_squares_refuted, C09_control_grid_equidistant_partial, C09_least_squares_refuted, C48_refuted
* Props_RkInit: C46_differential_partial, C46_differential_total, C46_integral, C46_integral_first_stage, C46_refuted, C46_enough_slots, C46_only_first_control_stage, C46_last_point
* Props_Run: C99_error, C99_convergence, C99_residual
* Props_Sigma: C34_nonnegative, C34_negative
* Props_Sim: C90_stewart_partial, C90_step_partial, C90_times, C90_stewart_exact_partial, C90_step_exact_partial, C90_scalar_partial
* Props_Soft: C91_multipliers, C91_close, C91_negative, C91_weights, C91_field
* Props_Solver: C05_functions, C06_parameters_partial, C06_two_subsystems_refuted, C34_relaxation, C35_loop, C35_ends, C35_histories, C36_automatic_partial, C36_large_tolerance_refuted, C37_chain, C38_status, C39_residual_partial, C39_success_refuted, C40_w0_start, C40_wopt_prev, C40_external, C41_p_global_solved, C41_p_time_var_solved, C43_pins_partial, C44_runs_partial, C44_speed_of_time_refuted, C45_fixed, C45_no_solution_lost
* Props_Steps: C101_two_sided_partial, C101_equal_steps_partial, C101_upper_partial, C101_refuted, C101_fischer_partial, C101_fischer_refuted, C101_delta_h_comp_vacuous, C101_delta_h_comp_infeasible
* Props_Tableau: C24_quadrature_of_polynomials, C21_quadrature, C21_constant_slope
* Props_Total: C70_accepted_partial, C70_exactly
* Props_Unused: C112_unused
* Props_Utils: C64_sum_list
* Props_Weier: C107_solution, C107_bounded, C107_exists, C107_homotopy
