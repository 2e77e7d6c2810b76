#!/usr/bin/env python3
"""Generates /verif/properties.jsonl (kept as source so ids stay stable)."""
import json, os
P = []
def prop(title, statement, quantifier, why, anchors):
    P.append(dict(id="C%02d" % (len(P) + 1), title=title, statement=statement,
                  quantifier=quantifier, why_tests_cant=why, anchors=anchors))

# ---------------------------------------------------------------- NLP layout
prop("Index lists partition the decision vector",
     "After NosnocSolver(opts, model, ocp) / construct_problem succeeds, every position of problem.w occurs in exactly one of the published index lists (ind_x, ind_v, ind_theta, ind_lam, ind_mu, ind_alpha, ind_lambda_n, ind_lambda_p, ind_z, ind_h, ind_u, ind_sot, ind_v_global, ind_elastic, ind_bool), and no list contains a position outside problem.w.",
     "all option combinations, all numbers of stages, Nfe_list entries, IRK stages, subsystems and dimensions for which construction succeeds",
     "the layout depends on a product of a dozen options and unbounded dimensions; tests only count len(w) on a few sizes",
     ["nosnoc/problem.py: add_variable, FiniteElement.__init__, __collect_final_element, increment_indices", "nosnoc/utils.py: increment_indices"])
prop("Index lists point at the variable they name",
     "After construction, the entries of problem.w selected by an index list are exactly the variables that list is named after, for the control stage, finite element, RK stage and subsystem given by its position: e.g. w[ind_theta[k][i][j][s]] is the theta vector of subsystem s at RK stage j of finite element i of control stage k, with n_f components.",
     "all option combinations and all stage / element / RK-stage / subsystem positions",
     "tests never look at the identity of the selected symbols, and a shifted slice is invisible for most inputs",
     ["nosnoc/problem.py: FiniteElement.__init__, NosnocProblem.__collect_final_element"])
prop("Vectors handed to the NLP solver have matching lengths",
     "After construction len(w) = len(lbw) = len(ubw) = len(w0) and len(g) = len(lbg) = len(ubg), for the problem and for every finite element.",
     "all option combinations and dimensions for which construction succeeds",
     "must hold for every combination of modes that append to the vectors",
     ["nosnoc/problem.py: add_variable, add_constraint, _add_primal_vector, add_step_size_variable"])
prop("Number of decision variables",
     "len(problem.w) equals the sum of the sizes of the elastic slack, v_global, the controls and speed-of-time variables of every control stage and, per finite element, the step size (FESD only), the RK-stage variables, the boundary multipliers (only FESD with a non-stiffly-accurate scheme, and not on the last element of a control stage) and the end-point state.",
     "all N_stages, Nfe_list, n_s, n_sys, dimensions, schemes, IRK representations and PSS modes; all MPCC modes except BOOLEAN",
     "test_problem_dimensions checks n_s<5, Nfe<5, one stage, one subsystem, one state",
     ["nosnoc/problem.py: FiniteElement.__init__, NosnocProblem.__create_primal_variables", "test/test_problem_dimensions.py"])
prop("The NLP is closed",
     "Every symbol occurring in the cost, the constraints and the complementarity residual of a constructed problem is an entry of problem.w or problem.p, so the CasADi functions f, g, comp_res built from (w, p) exist.",
     "all option combinations, all user models and OCPs whose own functions are closed",
     "a free symbol only shows up for the particular option combination that introduces it",
     ["nosnoc/problem.py: NosnocProblem.__init__ (cost_fun, comp_res, g_fun)", "nosnoc/solver.py: NosnocSolver.__init__"])
prop("Parameter values reach the symbol they belong to",
     "The numeric parameter vector assembled before every NLP solve has, at the position of every symbol of problem.p, that symbol's value: stage parameters, sigma, tau, each component of lambda00 evaluated at the initial state, and x0.",
     "all models (any number of subsystems), PSS modes, parameter values and initial states",
     "the layout of problem.p and of the numeric vector are produced by different code paths; tests use one subsystem",
     ["nosnoc/problem.py: __create_primal_variables", "nosnoc/model.py: lambda00_expr, compute_lambda00", "nosnoc/solver.py: setup_p_val"])
prop("Variable bounds of the problem",
     "In a constructed problem every state variable has bounds lbx/ubx, every control lbu/ubu, v_global lbv_global/ubv_global, user algebraics lbz/ubz, local speed-of-time variables [speed_of_time_min, speed_of_time_max], the elastic slack [s_elastic_min, s_elastic_max], and every step size [(1-gamma_h) h0, (1+gamma_h) h0] with h0 = terminal_time/(N_stages*Nfe).",
     "all positions of all control stages and finite elements, all options",
     "needs every position of every size of problem",
     ["nosnoc/problem.py: FiniteElement.__init__, __create_control_stage, __create_primal_variables"])
# ---------------------------------------------------------------- time grid
prop("The time grid ends at terminal_time",
     "For every feasible point of the constructed NLP, results['t_grid'] starts at 0 and its last entry equals opts.terminal_time.",
     "all feasible points, N_stages, Nfe_list, use_fesd and equidistant_control_grid settings",
     "quantifies over every feasible point of every problem",
     ["nosnoc/problem.py: lines 800-801, 836-839", "nosnoc/solver.py: get_results_from_primal_vector"])
prop("The control grid is equidistant when requested",
     "With equidistant_control_grid, for every feasible point results['t_grid_u'][k] = k*terminal_time/N_stages for k = 0..N_stages.",
     "all feasible points, N_stages, Nfe_list, with and without FESD",
     "quantifies over every feasible point of every problem",
     ["nosnoc/problem.py: lines 800-801", "nosnoc/solver.py: get_results_from_primal_vector"])
prop("The time grid never runs backwards",
     "If gamma_h <= 1, then for every point within the variable bounds all entries of results['time_steps'] are >= 0 (and > 0 if gamma_h < 1), so t_grid is nondecreasing.",
     "all points within bounds, all sizes",
     "quantifies over all iterates the NLP solver may return",
     ["nosnoc/problem.py: FiniteElement.__init__ lines 273-282", "nosnoc/solver.py: get_results_from_primal_vector"])
# ---------------------------------------------------------------- complementarity
prop("Relaxed complementarity conditions mean what MpccMode documents",
     "The constraints added for a complementarity pair (x_1..x_m, y) are satisfied exactly when, componentwise: SCHOLTES_INEQ (sum x_i) y <= sigma; SCHOLTES_EQ (sum x_i) y = sigma; ELASTIC_INEQ (sum x_i) y <= s; ELASTIC_EQ (sum x_i) y = s; ELASTIC_TWO_SIDED |(sum x_i) y| <= s; FISCHER_BURMEISTER with a single x: x y = sigma^2/2 and x + y >= 0.",
     "all real values of the variables, all vector lengths, all numbers of x vectors",
     "statement about all real assignments",
     ["nosnoc/problem.py: create_complementarity", "nosnoc/nosnoc_types.py: MpccMode"])
prop("Feasible points give convex combinations of the modes",
     "In PssMode.STEWART, at every RK stage of every feasible point the weights theta of each subsystem are nonnegative and sum to one, so the right-hand side used by the discretization is a convex combination of the columns of F.",
     "all feasible points, all MPCC modes, all stages and subsystems",
     "quantifies over every feasible point",
     ["nosnoc/problem.py: lines 284-287, 302-312", "nosnoc/model.py: g_convex, f_x"])
prop("Switches happen only on finite element boundaries",
     "With FESD and zero relaxation, at every feasible point: if mode k of a subsystem is active (theta_k > 0) at some RK stage of a finite element, then lambda_k = 0 at every RK stage of that element and at its left boundary; and if mode k is active in an element and mode k' is active in the next element of the same horizon, then g_k(x) = g_k'(x) at the state on their common boundary.",
     "all feasible points, all elements of all control stages, all subsystems and modes, both cross-complementarity modes",
     "the central guarantee of the FESD method; tests check it on two scalar examples",
     ["nosnoc/problem.py: create_complementarity_constraints, get_Lambdas_incl_last_prev_fe, forward_simulation", "nosnoc/model.py: g_switching"])
prop("The two cross-complementarity modes are equivalent",
     "With zero relaxation and nonnegative multipliers, a point satisfies the complementarity constraints generated with SUM_LAMBDAS_COMPLEMENT_WITH_EVERY_THETA iff it satisfies those generated with COMPLEMENT_ALL_STAGE_VALUES_WITH_EACH_OTHER.",
     "all points, all schemes and sizes",
     "equivalence over all points",
     ["nosnoc/problem.py: create_complementarity_constraints"])
prop("Algebraic equations are imposed once per stage point and boundary point",
     "Every feasible point satisfies the switching equations (g - lambda + mu = 0, respectively c - lambda_p + lambda_n = 0) at every RK stage with that stage's multipliers, and, for schemes without right boundary point, at the end point of every element with that boundary's own multipliers; no switching equation relates the state at one point to the multipliers of another point.",
     "all feasible points, schemes, elements",
     "an over-constraint only removes solutions; tests cannot see removed solutions",
     ["nosnoc/problem.py: forward_simulation lines 507-510, rk_stage_z"])
prop("Path complementarities are imposed where the OCP documents",
     "Each row of ocp.g_path_comp is imposed: rows depending on x or z at every RK stage of every element, rows depending only on u/p_time_var once per control stage, all others once.",
     "all g_path_comp, all N_stages, Nfe_list, n_s",
     "depends on the Nfe_list entry of each control stage",
     ["nosnoc/ocp.py: preprocess_ocp", "nosnoc/problem.py: create_complementarity_constraints, create_global_compl_constraints"])
prop("comp_res bounds every complementarity product",
     "If prob.comp_res(w, p) < tol then every product of a theta-type weight and a lambda-type multiplier that the discretization complements, and every path complementarity product a*b, is < tol.",
     "all points w, p",
     "statement about all points",
     ["nosnoc/problem.py: get_complementarity_vector, J_comp", "nosnoc/solver.py: solve"])
prop("Step equilibration modes",
     "Each StepEquilibrationMode adds its documented term: HEURISTIC_MEAN rho_h (h - h0)^2 on every element; HEURISTIC_DELTA rho_h (h_i - h_{i-1})^2; L2_RELAXED rho_h nu (dh)^2; L2_RELAXED_SCALED rho_h tanh(nu/sigma) (dh)^2 >= 0; DIRECT nu dh = 0, so wherever no switch occurs (nu > 0) neighbouring steps are equal; with use_fesd = False nothing is added.",
     "all elements, all points",
     "statement about all points and element positions",
     ["nosnoc/problem.py: step_equilibration"])
prop("LEAST_SQUARES constraint handling",
     "With ConstraintHandling.LEAST_SQUARES, construction is rejected unless all lower and upper constraint bounds are zero; if accepted, the objective equals the original objective plus the sum of the squared constraints and no constraints remain.",
     "all constraint vectors and bounds",
     "quantifies over all constraint bounds",
     ["nosnoc/problem.py: lines 852-863"])
prop("Elastic penalty scaling",
     "In the ELASTIC modes the cost is cost + s/sigma (objective_scaling_direct) or sigma*cost + s, for all values; for sigma > 0 both differ by the positive factor sigma, so they have the same minimizers.",
     "all points, sigma > 0",
     "statement about all points",
     ["nosnoc/problem.py: lines 829-834"])
# ---------------------------------------------------------------- discretisation
prop("Collocation equations are exact on polynomials",
     "With the INTEGRAL representation built from any distinct collocation points: for every polynomial trajectory of degree <= n_s the collocation residuals and the end-point continuity residual vanish; constants are reproduced exactly.",
     "all n_s, all distinct points, all polynomials of degree <= n_s, all step sizes",
     "all n_s and all polynomials",
     ["nosnoc/rk_utils.py: generate_butcher_tableu_integral", "nosnoc/problem.py: forward_simulation"])
prop("Stage cost quadrature is consistent",
     "For a constant running cost f_q = q0 and speed of time 1, the stage-cost contribution of a finite element of length h is h*q0 (exactly for INTEGRAL; up to 1e-11 relative for the tabulated DIFFERENTIAL coefficients), for every scheme and number of stages.",
     "all schemes, n_s = 1..9, all h, q0",
     "needs every scheme/stage combination and all values",
     ["nosnoc/problem.py: forward_simulation lines 482, 487", "nosnoc/rk_utils.py: generate_butcher_tableu_integral"])
prop("Tabulated Butcher tableaux satisfy their order conditions",
     "For n_s = 1..9, generate_butcher_tableu(n_s, scheme) returns tables of the right shape with order 2 n_s - 1 (Radau IIA) / 2 n_s (Gauss-Legendre) whose row sums equal c, whose quadrature conditions sum b c^(k-1) = 1/k hold for k <= order and whose stage conditions sum a_ij c_j^(k-1) = c_i^k/k hold for k <= n_s, up to 1e-11; Radau tables are stiffly accurate (last row of A is b, last c is 1).",
     "both schemes, all supported n_s (a finite domain), all order conditions",
     "tests use n_s <= 4",
     ["nosnoc/rk_utils.py: generate_butcher_tableu"])
prop("Quadrature with the tabulated weights integrates polynomials",
     "For every polynomial p of degree < order, |sum_i b_i p(c_i) - int_0^1 p| <= 1e-11 * (sum of |coefficients|).",
     "all polynomials of degree < order, both schemes, n_s = 1..9",
     "infinitely many polynomials",
     ["nosnoc/rk_utils.py: generate_butcher_tableu"])
prop("Unsupported stage numbers are rejected cleanly",
     "generate_butcher_tableu raises NotImplementedError for every n_s outside 1..9, for both schemes.",
     "all n_s, both schemes",
     "infinitely many n_s",
     ["nosnoc/rk_utils.py: generate_butcher_tableu"])
prop("End-point flag is decided by the scheme",
     "After opts.preprocess(), right_boundary_point_explicit is True exactly for Radau IIA, for all supported n_s and representations; the end state is then the last RK stage and otherwise a separate variable tied by the continuity equation.",
     "all schemes, n_s, representations",
     "all combinations",
     ["nosnoc/nosnoc_opts.py: preprocess", "nosnoc/problem.py: FiniteElement.__init__, forward_simulation"])
prop("States are chained across finite elements",
     "At every feasible point the state at the end of an element equals its initial state plus h*sum_j b_j v_j (DIFFERENTIAL), and a constant right-hand side f (all modes equal) moves the state by exactly h*sot*f per element in the INTEGRAL representation.",
     "all feasible points, elements, n_s",
     "quantifies over feasible points",
     ["nosnoc/problem.py: X_fe, forward_simulation"])
prop("Path, terminal and time-freezing constraints are imposed",
     "At every feasible point: lbg <= g_path <= ubg at the end state of every control stage (every element if g_path_at_fe, additionally at every interior RK stage if g_path_at_stg); g_terminal = 0 at the final state; with time_freezing and equidistant_control_grid |t(x_end of stage k) - t(x0) - (k+1) T/N| <= time_freezing_tolerance.",
     "all feasible points and all stages",
     "quantifies over feasible points",
     ["nosnoc/problem.py: forward_simulation, NosnocProblem.__init__"])
# ---------------------------------------------------------------- model reformulation
prop("Stewart reformulation selects the right mode",
     "For a model given by c and S in PssMode.STEWART: if x lies in region R_i (S_ik c_k(x) > 0 for all k with S_ik != 0, regions disjoint), then every solution of the algebraic equations with theta, lambda >= 0 and theta_k lambda_k = 0 has theta = e_i, so the dynamics are f_i(x).",
     "all x off the switching surfaces, all sign matrices S, all numbers of modes and switching functions",
     "statement about all x and all S",
     ["nosnoc/model.py: g_Stewart_list, g_switching, g_convex, f_x", "nosnoc/model.py: NosnocModel docstring"])
prop("Step reformulation selects the right mode",
     "For a model given by c and S in PssMode.STEP: if x lies in R_i and the other regions are disjoint from it, every solution of the algebraic equations with complementary alpha, lambda_n, lambda_p gives dynamics f_i(x).",
     "all x off the switching surfaces, all sign matrices",
     "statement about all x and all S",
     ["nosnoc/model.py: upsilon, g_switching, f_x"])
prop("lambda00 solves the switching problem at the initial state",
     "compute_lambda00 returns nonnegative multipliers with lambda00 = g(x0) - min g(x0) per subsystem (Stewart; minimum entry zero) respectively lambda_p - lambda_n = c(x0), lambda_p*lambda_n = 0 (Step); they satisfy g_switching at x0 with mu = -min g.",
     "all models, x0 and parameters",
     "all reals",
     ["nosnoc/model.py: lambda00_expr, compute_lambda00, mu00_stewart_fun"])
prop("Smoothed representation is a partition of unity",
     "After add_smooth_step_representation(s) the smoothed weights theta_smooth(x) are positive, each equals the Step weight at alpha = (tanh(c/s)+1)/2, and for a complete sign matrix they sum to one for all x.",
     "all x, all s > 0, all complete sign matrices",
     "all reals and all matrix sizes",
     ["nosnoc/model.py: add_smooth_step_representation"])
prop("Model input checks",
     "NosnocModel(...) / preprocess_model accept exactly consistent inputs: either F or (f_x and alpha); with F either (c and S) or g_Stewart; at least two columns per F; matching numbers of rows/columns; parameter values of the right shape; otherwise an exception is raised and no problem is built.",
     "all combinations of present/absent arguments and all shapes",
     "all combinations and shapes",
     ["nosnoc/model.py: __init__, preprocess_model"])
# ---------------------------------------------------------------- solver
prop("Homotopy parameter sequence",
     "In solve(), the relaxation parameters handed to the NLP solver are sigma_0, then iterates of homotopy_sigma_update; for 0 < homotopy_update_slope < 1 and sigma_0 > 0 they are positive and strictly decreasing for LINEAR (sigma_k = sigma_0 slope^k) and, for SUPERLINEAR, never below sigma_N and at most slope*sigma while above it.",
     "all option values, all behaviours of the NLP solver",
     "unbounded sequences and arbitrary solver behaviour",
     ["nosnoc/solver.py: homotopy_sigma_update, solve"])
prop("Homotopy loop always terminates with a defined result",
     "solve() performs at least one and at most max_iter_homotopy NLP solves (plus polishing), stops at the first iterate with complementarity residual < comp_tol or sigma <= sigma_N, and len(results['w_all']) is the number of homotopy solves + 1.",
     "all behaviours (return values, statuses, failures) of the NLP solver",
     "arbitrary solver behaviour",
     ["nosnoc/solver.py: solve"])
prop("Automatic number of homotopy iterations reaches comp_tol",
     "If max_iter_homotopy is left at 0, LINEAR updates from sigma_0 with the computed number of iterations end at a sigma within a factor slope^(1/2) of comp_tol.",
     "all sigma_0, comp_tol, slope in (0,1)",
     "all reals",
     ["nosnoc/nosnoc_opts.py: preprocess", "nosnoc/solver.py: homotopy_sigma_update"])
prop("Warm start chain",
     "Within one solve() the k-th NLP is started from the solution of the (k-1)-st, the first one from the initialized w0; the returned w_sol is the last NLP solution (or the polished one).",
     "all NLP solver behaviours and histories",
     "arbitrary histories",
     ["nosnoc/solver.py: solve"])
prop("Reported status",
     "results['status'] is SUCCESS iff the return status of the last NLP solve is one of the four accepted IPOPT statuses.",
     "all status strings and solver behaviours",
     "arbitrary solver behaviour",
     ["nosnoc/solver.py: solve", "nosnoc/utils.py: check_ipopt_success"])
prop("SUCCESS implies complementarity tolerance",
     "If solve() reports SUCCESS then the complementarity residual of the returned point is below comp_tol.",
     "all NLP solver behaviours",
     "arbitrary solver behaviour",
     ["nosnoc/solver.py: solve lines 425-432, 464-467"])
prop("Repeated solves are history independent with ALL_XCURRENT_W0_START",
     "With InitializationStrategy.ALL_XCURRENT_W0_START and a fixed x0, every solve() hands the first NLP the same initial guess (original w0 with all states replaced by x0), whatever solves happened before; with ALL_XCURRENT_WOPT_PREV it is the previous solution with all states replaced by x0; with EXTERNAL exactly the guess the user set.",
     "all histories of solve() calls and all NLP solver behaviours",
     "unbounded histories",
     ["nosnoc/solver.py: initialize, solve"])
prop("set() changes exactly what it names",
     "solver.set(field, value) writes the addressed entries and leaves every other entry of w0, x0 and the parameter values unchanged; after set('x', v) with one row per control stage (or per finite element) every state guess of that stage (element) equals its row; set('p_global'/'p_time_var', v) is what the next solve passes as parameters.",
     "all fields, values, sizes and histories of set() calls",
     "all histories and frames",
     ["nosnoc/solver.py: set, setup_p_val"])
prop("set('theta') initializes theta",
     "solver.set('theta', v) with v of shape (sum(Nfe_list), n_theta), n_theta the total number of weights, sets the theta guess of every RK stage of element i to row i.",
     "all models (any number of subsystems), sizes",
     "tests use one subsystem",
     ["nosnoc/solver.py: set lines 86-95"])
prop("Polishing fixes only (numerically) decided algebraic variables",
     "polish_solution pins a variable to 0 (1) only if it is an algebraic variable whose value is within 10*comp_tol of 0 (1); states, controls, step sizes and global variables keep their bounds.",
     "all iterates, all problems",
     "all points",
     ["nosnoc/solver.py: polish_solution"])
prop("Polishing handles every constructible problem",
     "polish_solution never raises 'not handled properly' for a problem built by construct_problem.",
     "all option combinations",
     "product of options",
     ["nosnoc/solver.py: polish_solution lines 212-220"])
prop("fix_active_set_fe0 removes no solution",
     "With fix_active_set_fe0 in STEWART mode exactly the weights theta of the first finite element whose lambda00 component exceeds 10*comp_tol are fixed to zero, on all RK stages; with FESD and zero relaxation every feasible point of the original problem satisfies the added fixings.",
     "all points, models",
     "all feasible points",
     ["nosnoc/solver.py: solve lines 352-387"])
prop("RK4_SMOOTHENED places guesses at the stage times",
     "With InitializationStrategy.RK4_SMOOTHENED the state guess of RK stage k of element i is the RK4 approximation at the time of that stage, i.e. the RK4 step lengths up to stage k add up to c_k * h.",
     "all schemes, n_s, representations",
     "all tableaux",
     ["nosnoc/solver.py: initialize lines 125-177", "nosnoc/rk_utils.py: rk4_on_timegrid"])
# ---------------------------------------------------------------- results
prop("Result trajectories are consistent",
     "In results: len(x_traj) = len(t_grid) = sum(Nfe_list)+1, x_traj[0] is the initial state, x_traj[-1] = x_out = w at the last state indices, len(u_list) = N_stages, len(t_grid_u) = N_stages+1, t_grid[i+1]-t_grid[i] = time_steps[i].",
     "all problems and all primal vectors",
     "all sizes and vectors",
     ["nosnoc/solver.py: get_results_from_primal_vector"])
prop("switch_times are times on the grid where the active mode changes",
     "results['switch_times'] lists exactly the grid times t_grid[i+1] between elements i and i+1 at which some theta (alpha) entry changes by more than 0.1.",
     "all primal vectors and sizes",
     "tests use two finite elements, where the defect is invisible",
     ["nosnoc/solver.py: get_results_from_primal_vector lines 521-537"])
prop("Simulation looper glues steps correctly",
     "After NosnocSimLooper.run(): every step starts from the end state of the previous one, X_sim has one entry more than time_steps (so X_sim and t_grid have equal length), X_sim[0] = x0, one status / cost / w_sim entry per step, in order.",
     "all numbers of steps and all solver behaviours",
     "arbitrary solver behaviour and step counts",
     ["nosnoc/helpers.py: NosnocSimLooper.run, get_results"])
prop("Simulation looper applies p_values row by row",
     "With p_values given, step i is solved with p_global = p_values[i,:]; without, parameters never change.",
     "all parameter tables and numbers of steps",
     "unbounded steps",
     ["nosnoc/helpers.py: run", "nosnoc/solver.py: set"])
prop("stop_on_failure stops the loop",
     "run(stop_on_failure=True) returns False at the first step whose status is not SUCCESS and performs no further solves.",
     "all solver behaviours",
     "arbitrary solver behaviour",
     ["nosnoc/helpers.py: run lines 96-99"])
prop("Looper accepts only simulation problems",
     "NosnocSimLooper raises unless the problem has no controls, one stage and no OCP; and raises unless p_values has shape (Nsim, n_p_glob).",
     "all problems and shapes",
     "all combinations",
     ["nosnoc/helpers.py: __init__", "nosnoc/problem.py: is_sim_problem"])
# ---------------------------------------------------------------- options
prop("preprocess is idempotent",
     "Calling opts.preprocess() again without changing options changes nothing.",
     "all options",
     "all option values",
     ["nosnoc/nosnoc_opts.py: preprocess"])
prop("Changed options take effect",
     "Changing N_stages, N_finite_elements, comp_tol, sigma_0 or homotopy_update_slope after a preprocess() has, at the next preprocess(), the same effect as on a fresh options object.",
     "all histories of option changes",
     "histories",
     ["nosnoc/nosnoc_opts.py: preprocess lines 147-151"])
prop("IPOPT options belong to one NosnocOpts object",
     "Setting tol_ipopt / nlp_max_iter (or letting preprocess derive the tolerance from comp_tol) on one NosnocOpts object does not change any other object.",
     "all histories over any number of option objects",
     "histories over several objects",
     ["nosnoc/nosnoc_opts.py: opts_casadi_nlp, tol_ipopt, nlp_max_iter, preprocess"])
prop("Option types are validated",
     "preprocess() raises TypeError iff some annotated option holds a value that is not an instance of its annotated type.",
     "all values of all options",
     "all values",
     ["nosnoc/utils.py: validate", "nosnoc/nosnoc_opts.py"])
prop("Unsupported option combinations are reported",
     "preprocess() reports (exception or warning) the combinations its code declares UNSUPPORTED.",
     "all option combinations",
     "product of options",
     ["nosnoc/nosnoc_opts.py: preprocess lines 174-190"])
prop("Speed-of-time modes",
     "SpeedOfTimeVariableMode.NONE uses speed 1; LOCAL creates one speed variable per control stage scaling dynamics and stage cost of that stage; GLOBAL creates a single variable used by all stages.",
     "all problems",
     "all sizes",
     ["nosnoc/problem.py: __create_control_stage, __create_primal_variables, NosnocProblem.__init__"])
# ---------------------------------------------------------------- auto model
prop("Automatic Step reformulation preserves the ODE",
     "For every expression, the ODE rebuilt by NosnocAutoModel with multipliers alpha equals the given nonsmooth ODE at every x with no vanishing switching expression when each alpha_i is the step function of c_i(x); exactly one fresh alpha and one c are created per switching node visited.",
     "all expressions (any depth) and all x",
     "all expressions",
     ["nosnoc/auto_model.py: _rebuild_nonlin, _reformulate_nonlin"])
prop("Automatic reformulation removes all nonsmooth operators",
     "The rebuilt right-hand side contains no sign, fmax or fmin.",
     "all expressions",
     "all expressions",
     ["nosnoc/auto_model.py: _rebuild_nonlin"])
prop("Additive splitting preserves the expression",
     "The components returned by _find_nonlinear_components sum to the original expression, and none of them is itself a sum or difference.",
     "all expressions and all values",
     "all expressions",
     ["nosnoc/auto_model.py: _find_nonlinear_components"])
prop("Smoothness check is sound",
     "_check_smooth(e) is True iff e contains no sign, fmax or fmin node.",
     "all expressions",
     "all expressions",
     ["nosnoc/auto_model.py: _check_smooth"])
prop("Automatic Filippov reformulation preserves the ODE",
     "The model (F, c, S) built by the additive reformulation has, in the interior of every region, the same right-hand side as the given ODE; reformulate() succeeds for every sum of products of smooth terms with sign / fmax / fmin.",
     "all expressions",
     "all expressions",
     ["nosnoc/auto_model.py: reformulate, _reformulate_linear, _rebuild_additive_component"])
# ---------------------------------------------------------------- utils / misc
prop("List utilities",
     "flatten returns the leaves in order; increment_indices adds inc to every leaf and keeps the shape; flatten_layer(L, k) removes exactly layer k and keeps the leaves; casadi_vertcat_list / casadi_sum_list concatenate / add all elements.",
     "all nested lists",
     "all depths and shapes",
     ["nosnoc/utils.py"])
prop("Path complementarities are classified without loss",
     "preprocess_ocp puts every row of g_path_comp into exactly one of the stage / control / global groups, in order.",
     "all g_path_comp",
     "all lists",
     ["nosnoc/ocp.py: preprocess_ocp lines 78-94"])
prop("print_problem reports every inconsistent bound or guess",
     "problem.print() counts every variable whose bounds cross or whose initial guess violates a bound.",
     "all problems",
     "all values",
     ["nosnoc/problem.py: print"])
prop("OCP input checks and defaults",
     "preprocess_ocp rejects bound vectors of wrong length; absent bounds become -inf/inf (zero for lbg/ubg, guesses zero), so that an absent bound never restricts a feasible point.",
     "all lengths and models",
     "all sizes",
     ["nosnoc/ocp.py: preprocess_ocp"])
prop("RK4 integration",
     "rk4 and rk4_on_timegrid return one state per grid point plus the initial one, reproduce constant vector fields exactly and apply the order-4 stability polynomial to linear ones.",
     "all grids, step counts, initial states",
     "all grids",
     ["nosnoc/rk_utils.py: rk4, rk4_on_timegrid"])
prop("Reusing one model for several solvers",
     "A NosnocModel that was used to build a solver can be used again, with other options, with the same outcome as a fresh model.",
     "all option pairs",
     "histories",
     ["nosnoc/model.py: preprocess_model lines 127-197"])
prop("Construction succeeds for consistent inputs",
     "construct_problem succeeds for every consistent model/OCP and every combination of option enums (speed of time, PSS, MPCC, cross-complementarity, step equilibration, IRK representation and scheme).",
     "all option combinations, models",
     "product of all option enums",
     ["nosnoc/solver.py: construct_problem", "nosnoc/problem.py: NosnocProblem.__init__"])
prop("The constructed NLP is the documented discretisation",
     "With exact constraint handling and every MPCC mode but BOOLEAN, a point satisfies the constraints of the constructed NLP exactly when it satisfies the FESD equations: algebraic equations at every stage, collocation and continuity equations, path, boundary and complementarity conditions, step equilibration, equidistant grid, terminal condition; and the objective is the quadrature of the running cost plus step-equilibration terms plus terminal cost.",
     "all points, all options (schemes, stages, elements), models and OCPs for which construction succeeds",
     "equivalence over all real points and all problem sizes",
     ["nosnoc/problem.py: FiniteElement, NosnocProblem"])
prop("A model returned by reformulate() can be used",
     "preprocess_model accepts the NosnocModel returned by NosnocAutoModel.reformulate(), with the pss_mode that fits its form, for every nonsmooth right-hand side.",
     "all right-hand sides, all options",
     "all expressions",
     ["nosnoc/auto_model.py: reformulate", "nosnoc/model.py: preprocess_model"])
prop("reformulate() is repeatable",
     "Calling NosnocAutoModel.reformulate() twice on the same object returns equivalent models.",
     "all right-hand sides",
     "histories",
     ["nosnoc/auto_model.py: reformulate"])
prop("FESD solutions are Filippov solutions",
     "For piecewise constant vector fields and affine switching functions, a feasible point of the FESD problem with zero relaxation defines a Filippov solution of the switched system: one Lipschitz trajectory through x0 and the end states of all finite elements whose derivative between grid points is a convex combination of the modes that are active there; switches happen at grid points only.",
     "all models of the class, all feasible points, all schemes, stage counts, elements, cross-complementarity modes, Stewart and Step",
     "a statement about every time of every trajectory",
     ["nosnoc/problem.py: FiniteElement.forward_simulation, create_complementarity_constraints, step_equilibration", "nosnoc/model.py: preprocess_model"])
prop("FESD solutions are exact",
     "For piecewise constant vector fields with affine switching functions that satisfy a one-sided Lipschitz condition, every feasible point of the FESD problem with zero relaxation passes through the exact solution of the switched system at every grid point, whatever the scheme and the number of elements (up to the rounding of the Butcher tables); in particular the scalar system x' = a (x < 0), b (x > 0) ends at the analytic solution, crossing or sliding.",
     "all models of the class, all feasible points, all a, b, x0, schemes, stage counts, elements, representations, Stewart and Step",
     "equality with the exact solution over all systems and discretisations; tests compare a few runs up to a tolerance",
     ["nosnoc/problem.py: FiniteElement.forward_simulation, create_complementarity_constraints, step_equilibration", "test/simple_sim_test.py"])
prop("The feasible set contains the solutions of the switched system",
     "A point is feasible exactly when every variable respects its documented bounds and the FESD equations hold; and every Filippov solution that is a polynomial of degree n_s between grid points, switches at grid points only and respects the bounds and constraints of the OCP is a feasible point with zero relaxation.",
     "all points; all models, polynomials, stage counts, elements, schemes and representations",
     "an equivalence over all real points and an existence statement over all solutions",
     ["nosnoc/problem.py: FiniteElement, NosnocProblem.__create_primal_variables, create_complementarity_constraints"])
prop("The problem of the scalar switched system can be solved",
     "With Radau IIA (INTEGRAL, or DIFFERENTIAL with at most two stages), Stewart or Step and at least two elements per stage, the FESD problem of x' = a (x < 0), b (x > 0) with a > 0, x0 <= 0 has a feasible point with zero relaxation that passes through the exact solution at every grid point, for every step equilibration and cross-complementarity mode; with INTEGRAL, b <= a and gamma_h = 1 all feasible points end there. With INTEGRAL and a single element in the stage of the switch the problem is infeasible.",
     "all a, b, x0, horizons, stage counts, element counts, n_s",
     "existence and uniqueness for all parameters; tests run a solver on a few",
     ["nosnoc/problem.py: FiniteElement, NosnocProblem", "test/simple_sim_test.py"])
prop("Initial guess of every variable",
     "In a constructed problem w0 has one entry per entry of w: terminal_time/(N_stages*Nfe) for step sizes, x0 for states, z0 (or zero) for algebraic variables, zero for stage derivatives, the user's guess (or zero) for controls and global variables, 1 for speed of time and mu, s_elastic_0 for the slack, sigma_0/n_modes for theta and lambda, 1/2 for alpha, lambda_n, lambda_p and booleans; it respects the bounds lbw/ubw whenever the user's own guesses respect theirs, sigma_0, gamma_h, terminal_time >= 0 and 1 is an admissible speed of time.",
     "all positions of all problem sizes, all options, models and OCPs",
     "needs every position of every size of problem",
     ["nosnoc/problem.py: FiniteElement.__init__, __create_control_stage, __create_primal_variables, create_complementarity"])
prop("problem.ind_comp lists the complementarity rows",
     "problem.ind_comp[c][e] holds the indices of the rows of problem.g that state the complementarity conditions of finite element e of control stage c: every index is a row of g, no row is listed twice, and the listed rows hold at a point exactly when the path and cross complementarities (and the complementarity of the step equilibration) of that element hold.",
     "all points, elements, options, models and OCPs",
     "a statement about the meaning of rows at all real points of problems of every size",
     ["nosnoc/problem.py: add_constraint, create_complementarity, add_fe_constraints"])
prop("Vector field function",
     "For a Stewart model create_function_calculate_vector_field(sigma) returns a function of (x, u, z) whose value is the vector field F(x, u) theta with the weights theta of Stewart's linear program in each subsystem, up to the smoothing sigma; for other models it raises NotImplementedError.",
     "all models, all x, u, z, all sigma > 0",
     "needs all states and all smoothing parameters; the package has no test for it",
     ["nosnoc/solver.py: create_function_calculate_vector_field lines 271-294"])
prop("Multipliers of the initial state with algebraic variables",
     "lambda00 belongs to a consistent initial state: it is evaluated at x0, the parameters of the first stage and values z of the algebraic variables that solve g_z(z, x0, p0) = 0; with rootfinder_for_initial_z these come from the rootfinder.",
     "all models, initial states, parameters, rootfinders",
     "needs all algebraic equations and all rootfinders",
     ["nosnoc/model.py: preprocess_model lines 209-212, compute_lambda00"])
prop("Parameter vector of dump",
     "The vector p0 stored by NosnocProblem.dump has one entry per entry of problem.p, and each entry is the current value of that parameter with sigma = tau = 0.",
     "all problems, all values set before",
     "positions of a vector of arbitrary size",
     ["nosnoc/problem.py: dump lines 899-919"])
prop("Reported objective",
     "results['cost_val'] of solve() is the value of the objective of the NLP at the returned solution w_sol.",
     "all problems, all behaviours of an NLP solver that reports the objective at the point it returns",
     "all executions; the tests only look at the cost of problems with a nonnegative objective, without polishing",
     ["nosnoc/solver.py: solve lines 400-470"])
prop("Reported CPU times and iteration counts",
     "results['cpu_time_nlp'] and results['nlp_iter'] hold, for every NLP solve of solve(), its CPU time and number of iterations in the order of the solves; entries of homotopy iterations that were not needed are nan, and the sum of the others is the CPU time of all NLP solves.",
     "all problems, all behaviours of the NLP solver",
     "all executions with every number of passes",
     ["nosnoc/solver.py: solve lines 400-470, polish_solution"])
prop("Plot of CPU times",
     "plot_timings draws, for every simulation step, one bar per homotopy iteration with the height of its CPU time that starts where the one before ends, and a line at the mean total per step; in the table returned by NosnocSimLooper.get_results the entries of a step sum up to the CPU time recorded by that step's solve().",
     "all tables; all simulations",
     "tables of every size",
     ["nosnoc/plot_utils.py: plot_timings lines 27-59", "nosnoc/helpers.py: get_results"])
prop("Plot of iterates",
     "plot_iterates draws every iterate of a Stewart problem (w_all of solve()), and raises NotImplementedError for Step.",
     "all problems, all lists of iterates",
     "the package has no test for it",
     ["nosnoc/plot_utils.py: plot_iterates lines 62-129"])
prop("Colours along a trajectory",
     "_plot_color_hack_3d gives every segment the colour of its start time relative to the earliest and latest time, a number between 0 and 1.",
     "all trajectories",
     "all lists of times",
     ["nosnoc/plot_utils.py: _plot_color_hack_3d lines 180-188"])
prop("Polishing keeps solutions",
     "If the point that polish_solution starts from solves the problem with sigma = 0 and all its multipliers are 0, 1 or at least 10 comp_tol away from both, it satisfies the bounds and constraints of the polishing NLP; conversely every feasible point of the polishing NLP solves the problem with sigma = 0.",
     "all problems and points",
     "all executions; the tests polish only models given by S and c, where mu is nonnegative",
     ["nosnoc/solver.py: polish_solution lines 206-268"])
prop("Choice of the automatic reformulation",
     "_check_additive(e) is True iff e is, up to its sign, a sign, fmin or fmax node or the product of one with a smooth expression; reformulate() turns an ODE whose components are all smooth or additive into a Filippov system (F, c, S).",
     "all expressions",
     "all expressions; the tests check two of them and never look at the path taken",
     ["nosnoc/auto_model.py: reformulate lines 53-63, _detect_additive lines 123-131, _check_additive lines 220-243"])
prop("A simulation follows the switched system",
     "If every step of a NosnocSimLooper simulation of a piecewise constant field with affine switching functions is solved exactly (sigma = 0), the states X_sim lie at the times t_grid on one Lipschitz curve from x0 that moves with velocities of the Filippov set everywhere off the grid, each step lasting terminal_time; with the INTEGRAL representation and a one-sided Lipschitz field X_sim[j] is the value of the solution of the switched system at t_grid[j].",
     "all models of this class, all options, all numbers of steps, parameters and solver behaviours",
     "all simulations; the tests compare the last state of single examples with a tolerance",
     ["nosnoc/helpers.py: NosnocSimLooper.run lines 61-99, get_results lines 101-119", "nosnoc/problem.py: NosnocProblem", "nosnoc/solver.py: solve"])
prop("The smoothed representation is an approximation",
     "add_smooth_step_representation: mu_smooth_fun and lambda_smooth_fun return -smin(g) and g - smin(g) with smin the average of g weighted by exp(-g/s), so they satisfy g - lambda + mu = 0 and are within (n_f - 1) s/e of the multipliers -min g, g - min g; inside a region the weights are within sum_k s/(2|c_k|) of 0 or 1 and f_x_smooth_fun is within that error times the spread of the modes of the active field (smaller parameter -> more exact).",
     "all models with F, c, S, all smoothing parameters, points, numbers of modes and switching functions",
     "the approximation error for every parameter and point; the test looks at one model and parameter",
     ["nosnoc/model.py: add_smooth_step_representation lines 362-410"])
prop("Feasible points follow the switched system",
     "For each IRK method (representation, scheme, number of stages) there is a constant K such that every feasible point (sigma = 0) of every problem built with it, with vector fields that vary with the state and are bounded by M on a set containing the stages, and steps at most h long, yields a Lipschitz curve from x0 through the states at the grid points whose velocity at any other time is an average of velocities the switched system allows in states at most K M h away.",
     "all models, options (with or without FESD, every cross complementarity), methods, sizes, feasible points",
     "one constant for all problems and grids; the tests compare single trajectories with a tolerance",
     ["nosnoc/problem.py: FiniteElement.forward_simulation lines 450-512, NosnocProblem", "nosnoc/rk_utils.py"])
prop("Convergence under refinement",
     "For vector fields that are bounded and one-sided Lipschitz on a set that contains the stages and the solution of the switched system, the distance of the states at the grid points from the solution is bounded by a constant times sqrt(h); with INTEGRAL it vanishes as the number of finite elements grows: distance^2 <= B / k for k elements over the horizon, with B depending only on method, dimension, horizon and the bounds of the field.",
     "all models, options, methods, grids, feasible points",
     "a limit over all grids; the tests run single grids",
     ["nosnoc/problem.py: FiniteElement.forward_simulation lines 450-512, NosnocProblem", "nosnoc/rk_utils.py"])
prop("First order convergence with FESD",
     "With FESD (sum of multipliers, or right boundary points) and affine switching functions every stage of an element uses only modes that are active along the whole straight line between the states at its ends: no element straddles a switch. Hence, for fields that are also Lipschitz for fixed weights, the distance of the states at the grid points from the solution is of the order of h instead of sqrt(h): with INTEGRAL distance^2 <= B / k^2 for k elements over the horizon.",
     "all models, options, methods, grids, feasible points",
     "a limit over all grids; the tests run single grids",
     ["nosnoc/problem.py: FiniteElement.forward_simulation lines 450-512, create_complementarity_constraints lines 533-564, NosnocProblem", "nosnoc/rk_utils.py"])
prop("Switches are detected",
     "With FESD every switch of the solution is a grid point: no finite element straddles a switching surface (each subsystem has a mode that is active from the state at the start of the element to the state at its end), and for piecewise constant fields every time at which the solution of the switched system has a kink is in t_grid, of one solve and of a whole simulation. For x' = a (x < 0), b (x > 0) a simulation ends at N_sim * terminal_time in the exact state and has a grid point at -x0/a with state 0.",
     "all models of this class, options, methods, grids, numbers of steps, feasible points",
     "all switching times and grids; the tests look for one switch in one example with a tolerance",
     ["nosnoc/problem.py: FiniteElement.create_complementarity_constraints lines 533-564", "nosnoc/helpers.py: NosnocSimLooper.run lines 61-99", "examples/simplest/simplest_example.py lines 26-86", "test/simple_sim_test.py: compute_errors lines 22-45"])
prop("Relaxed solutions are approximate solutions",
     "In the SCHOLTES and ELASTIC_INEQ/EQ modes every feasible point of the problem with relaxation sigma > 0, as solve() computes it, follows the switched system approximately: products of weight and multiplier of a stage are at most sigma (and at most the residual that solve() compares with comp_tol), modes with a weight above sqrt(sigma) are active up to sqrt(sigma), and the distance from the solution of the switched system at the grid points goes to zero as the grid is refined and sigma goes to zero (squared distance at most B (1/k + sqrt(sigma)) for k elements).",
     "all models with bounded one-sided Lipschitz fields, options, methods, grids, relaxations, feasible points",
     "all fields, relaxations and grids; the tests compare one solution with a tolerance",
     ["nosnoc/solver.py: NosnocSolver.solve lines 326-430", "nosnoc/problem.py: NosnocFormulationObject.create_complementarity lines 94-150"])
prop("The objective is the cost of the solution",
     "At every feasible point the objective of the NLP approximates the cost of the solution of the switched system: the integral of the running cost f_q along the Filippov solution plus the terminal cost f_q_T at its end, plus the step penalties and, in the elastic modes, scaled and with the elastic variable added. The error is bounded by the errors of the states and the lengths of the steps, goes to zero as the grid is refined and the relaxation vanishes, and is of first order with FESD.",
     "all models with bounded one-sided Lipschitz fields, Lipschitz costs, options, methods, grids, feasible points",
     "a limit over all grids and an integral along the exact solution; the tests compare single objective values",
     ["nosnoc/problem.py: FiniteElement.forward_simulation lines 450-512, NosnocProblem lines 815-834", "nosnoc/rk_utils.py"])
prop("The NLP depends on the applicable options only",
     "Two option objects that agree on every option that applies (for example gamma_h, cross_comp_mode and the step equilibration options only with use_fesd, rho_h only if the step equilibration mode is a penalty, the elastic options only in the elastic modes, sigma_0 only with Stewart where it is the initial value of theta and lambda, speed_of_time bounds only with LOCAL) give the same problem: variables, bounds, initial values, constraints, objective, residual, parameters, index lists. max_iter_homotopy, initialization_strategy, smoothing_parameter, fix_active_set_fe0, comp_tol, sigma_N, the homotopy update options and do_polishing_step never enter the NLP. If the options that solve() reads agree too, every sequence of set() and solve() gives the same NLP calls and the same results.",
     "all pairs of option objects, models, OCPs",
     "all pairs of options; the tests fix one setting at a time",
     ["nosnoc/problem.py: NosnocProblem, FiniteElement", "nosnoc/nosnoc_opts.py: NosnocOpts", "nosnoc/solver.py: construct_problem lines 17-25"])
prop("Simulations converge to the solution",
     "In simulations of any number of steps with NosnocSimLooper, with steps whose NLPs are solved with relaxation sigma > 0 and fields that vary with the state, every state of X_sim at its time in the grid of the looper is close to the solution of the switched system that starts at x0: errors of the steps add up as in one problem, with the same constants, and the squared distance is at most B (h + sqrt(tol)) for steps up to h and reported residuals up to tol, B depending on the total time and not on the number of steps.",
     "all models with bounded one-sided Lipschitz fields, options, methods, numbers of steps, NLP solvers, relaxations",
     "all numbers of steps and all fields; the tests compare one simulation with a tolerance",
     ["nosnoc/helpers.py: NosnocSimLooper.run lines 61-99", "nosnoc/solver.py: NosnocSolver.solve lines 326-430"])
prop("The order of the method is kept across switches",
     "For a solution of the switched system that consists of finitely many smooth pieces (in the interior of a region or sliding), each entered at the start of a control stage or by crossing a surface with at least a given speed, the feasible points of the FESD problem that follow the same sequence of pieces, with all switches at element boundaries, approximate the states at the ends of all elements and the times of all switches with errors of at most K h^n, n being the number of stages of the INTEGRAL method and K independent of the grid, the model and the point. The weights of the stages are those of the pieces: with one active mode its weight is one, with two active modes on a plane they make the velocity tangent to the plane.",
     "all models, control and element grids, step lengths, numbers of switches, sets of collocation points, feasible points",
     "an order of convergence is a statement on all step lengths; the tests run a few grids",
     ["nosnoc/problem.py: FiniteElement.forward_simulation lines 450-512, FiniteElement.create_complementarity_constraints lines 533-600", "nosnoc/rk_utils.py: generate_butcher_tableu_integral"])
prop("Step equilibration by complementarity",
     "The step equilibration modes that are constraints (DIRECT, DIRECT_COMPLEMENTARITY, HEURISTIC_DELTA_H_COMP) make neighbouring steps equal wherever no switch happens, up to the relaxation of the MPCC mode, restrict nothing where a switch happens, and leave every relaxed problem (sigma > 0) of the homotopy feasible.",
     "all models, grids, MPCC modes, relaxations, feasible points",
     "statement about all feasible points of all modes; only some combinations of modes are run by the tests",
     ["nosnoc/problem.py: FiniteElement.step_equilibration lines 566-606, NosnocFormulationObject.create_complementarity lines 94-160", "nosnoc/nosnoc_types.py: StepEquilibrationMode lines 52-60"])
prop("Limits of the homotopy solve the problem with complementarity constraints",
     "The problem that the homotopy solves is closed under limits: if points that are feasible for the NLPs of the homotopy converge as sigma goes to 0, the limit is feasible for the NLP with sigma = 0, in every MPCC mode. With SCHOLTES_INEQ every feasible point stays feasible, with the same objective, when sigma grows; limits of global solutions of the NLPs are global solutions of the NLP with sigma = 0, and every bounded sequence of them has a subsequence that converges to one. In the elastic modes limits of global solutions have the least possible elastic variable, zero if the complementarity constraints can be met, and the least objective among the points with this value.",
     "all models, OCPs, options, sequences of relaxation parameters, convergent or bounded sequences of points",
     "a limit of infinitely many NLPs; the tests run single homotopies that stop at comp_tol",
     ["nosnoc/solver.py: NosnocSolver.solve lines 326-443, NosnocSolver.homotopy_sigma_update lines 185-192", "nosnoc/problem.py: NosnocFormulationObject.create_complementarity lines 94-160, NosnocProblem lines 815-834"])
prop("Minimizers of the NLP are nearly optimal for the switched system",
     "Global solutions of the NLP are nearly optimal for the optimal control problem: the solution of the switched system with the controls of a global solution of the NLP costs at most as much as the solution with the controls of any other feasible point (running and terminal cost plus the step penalties), up to an error that goes to 0 as the grid is refined and the relaxation parameter goes to 0, and that is of first order in the grid with exact complementarity and FESD.",
     "all models, OCPs, grids, relaxations, global solutions and competing feasible points",
     "a statement on all competing controls and all grids; the tests look at single solutions",
     ["nosnoc/problem.py: NosnocProblem lines 815-834 and 887-960, FiniteElement.forward_simulation lines 450-512", "nosnoc/solver.py: NosnocSolver.solve lines 326-443"])
prop("The grid between switches is even",
     "Step equilibration makes the grid even between switches: the finite elements of a control stage between two switches (or between a switch and a boundary of the control stage) have equal lengths, so that the switches determine the grid and a control stage without switches has the nominal step lengths.",
     "all models, grids, feasible points and minimizers, step equilibration modes",
     "statement about all feasible points or all minimizers; the tests compare some step lengths of single solutions",
     ["nosnoc/problem.py: FiniteElement.step_equilibration lines 566-606, ControlStage constraints on the stage length lines 887-960", "nosnoc/nosnoc_opts.py: step_equilibration line 59"])
prop("A call of set() that raises changes nothing",
     "If NosnocSolver.set raises, the solver (initial state, parameters, initial guess) is as it was before the call.",
     "all constructed problems, fields, values and states of the solver",
     "statement on the state after every exception; no test looks at the solver after an exception",
     ["nosnoc/solver.py: NosnocSolver.set lines 49-116"])
prop("Simulations keep the order of the method across switches",
     "For a solution of the switched system that consists of finitely many smooth pieces, each entered by crossing a surface with at least a given speed, a simulation of any number of steps whose NLPs are solved with relaxation 0 and that follows the same sequence of pieces stores states X_sim at times t_grid that differ from the solution at the same times by at most K h^n, and hits the times of all switches up to K h^n; K does not depend on the number of steps, on the model or on the grids. The pieces make up a Filippov solution over the whole simulation.",
     "all models, numbers of simulation steps, element grids, step lengths, numbers of switches, NLP solvers, sequences of parameter values",
     "an order of convergence of whole simulations is a statement on all step lengths and numbers of steps; the tests run a few",
     ["nosnoc/helpers.py: NosnocSimLooper.run lines 61-99", "nosnoc/problem.py: FiniteElement.forward_simulation lines 450-512", "nosnoc/solver.py: get_results_from_primal_vector"])
prop("With bounded variables the NLP has a global solution",
     "When the OCP bounds states, algebraic states, controls and global variables, every multiplier of the discretised dynamic complementarity system is bounded over all feasible points with the same data and sigma below a given value. Hence an NLP with a feasible point has a global solution. With SCHOLTES_INEQ, if the problem with sigma = 0 has a feasible point, then every NLP of the homotopy has a global solution, and every sequence of global solutions with sigma going to 0 has a subsequence that converges to a global solution of the problem with complementarity constraints.",
     "all models, OCPs, tableaux, element grids, parameter values, relaxation parameters",
     "existence of minimisers and boundedness of the feasible set are statements on all real points; the tests call a local solver",
     ["nosnoc/problem.py: FiniteElement.__init__ lines 224-391", "nosnoc/problem.py: NosnocProblem.__init__ lines 714-863", "nosnoc/problem.py: create_complementarity lines 94-175", "nosnoc/solver.py: NosnocSolver.solve lines 326-469"])
prop("Initial value problems have exactly one discrete solution when the steps are short",
     "When the mode with the smallest region value is the same on a ball around the initial state, on which its vector field is bounded and Lipschitz, and the steps are short compared with these constants and the row sums of the Butcher matrix, the NLP with sigma = 0 has a feasible point whose states lie in the ball, and all such feasible points have the same values of all variables.",
     "all models, tableaux, element grids, parameter values, Lipschitz constants",
     "existence and uniqueness are statements on all real points; a solver that finds a point shows neither that every such problem has one nor that there is no other",
     ["nosnoc/problem.py: FiniteElement.__init__ lines 224-391", "nosnoc/problem.py: FiniteElement.forward_simulation lines 450-512", "nosnoc/problem.py: create_complementarity lines 94-175", "nosnoc/problem.py: NosnocProblem.__init__ lines 714-863"])
prop("Malformed models raise the exception of the first failing check",
     "preprocess_model raises ValueError for z0, lbz, ubz of the wrong length, for F, c, S or g_Stewart that do not fit, for general inclusions with STEWART and for time freezing without t_var; Warning exactly for a matrix F with one column; Exception exactly for parameter values of the wrong shape; each only when the earlier checks pass. No other part of preprocess_model raises these exceptions.",
     "all models, options, sizes of the lists",
     "the tests cover single malformed models; which exception a model with several mistakes raises, and that nothing else raises it, is a statement on all models",
     ["nosnoc/model.py: NosnocModel.preprocess_model lines 120-328"])
prop("Accepted options let time run forward",
     "For all options that preprocess() accepts: at every feasible point of the NLP the finite elements follow each other in time in the order of ind_x: all steps are nonnegative, an element ends before every later one starts, and all times lie between 0 and the end of the horizon.",
     "all models, OCPs, options, grids, feasible points",
     "the tests see the steps of the solutions IPOPT returns, not those of all feasible points, and use no gamma_h above 1 and no negative horizon",
     ["nosnoc/problem.py: FiniteElement.__init__ lines 273-282 (bounds of h)", "nosnoc/nosnoc_opts.py: gamma_h, terminal_time lines 21, 41"])
prop("The objective grows along the homotopy",
     "If the NLP solver returns global solutions, the objective does not fall from one homotopy pass to a later one; in the elastic modes the user's objective does not fall and s_elastic does not grow, and a solution with s_elastic = 0 stays a solution for all smaller sigma.",
     "all models, OCPs, options, grids, runs of solve(), numbers of passes",
     "the tests only look at the last pass, and IPOPT finds local solutions",
     ["nosnoc/solver.py: NosnocSolver.solve lines 376-420", "nosnoc/problem.py: create_complementarity, objective with s_elastic"])
prop("Switching functions without subsystem have no effect",
     "preprocess_model accepts c and S with more entries than F. Entries behind those of the subsystems of F have no effect: with them added, removed or changed the model is still accepted, the NLP, its bounds and guess are the same, and every call of set() and solve() and every history of calls gives the same result.",
     "all models given by F, c and S, OCPs, options, initialisation strategies, NLP solvers, histories of calls",
     "no test has surplus entries, and equality of all later runs is not observable from a few of them",
     ["nosnoc/model.py: preprocess_model lines 120-328, add_smooth_step_representation lines 362-410"])
prop("Setting parameters has the same effect as building the solver anew",
     "A solver built from the model with other values p_time_var_val and p_global_val has the same NLP, bounds and guess, set() and solve() act on every state in the same way, and every history of calls ends in the same state as for the old solver after set('p_time_var') and set('p_global') with these values.",
     "all models, OCPs, options, values of the right sizes, NLP solvers, histories of calls",
     "tests set parameters once and never compare with a new solver",
     ["nosnoc/model.py: preprocess_model lines 184-203", "nosnoc/solver.py: NosnocSolverBase.set", "nosnoc/problem.py: NosnocProblem.__init__"])
prop("The outcome of solve() does not depend on earlier solves",
     "If the NLP solver has no memory, solve() after any history of calls of set() and solve() returns the same results or raises the same error as after the calls of set() of this history alone; two solves in a row agree.",
     "all models, OCPs, options, memoryless NLP solvers, histories of calls of the right shapes",
     "tests solve once, or step by step with changing x0, and never compare a repeated solve with the first",
     ["nosnoc/solver.py: NosnocSolver.solve", "nosnoc/solver.py: NosnocSolverBase.initialize"])
with open(os.path.join(os.path.dirname(__file__), "..", "properties.jsonl"), "w") as f:
    for p in P:
        f.write(json.dumps(p) + "\n")
print(len(P))
