# Formal model of nosnoc_py in Rocq (Coq 8.16.1)

## What is modelled and how

The model is a shallow embedding: each Python function of `nosnoc/` that builds, solves or post-processes
a problem becomes a total Gallina function with the same branches. Exceptions are values
(`res A := Ok a | Err exn`). Mutable objects are records passed and returned. CasADi `SX` expressions are
a small syntax tree (`Sx.expr`) over labelled symbols with rational constants. An expression is evaluated
in the stdlib reals under an assignment `sym -> R`; a `ca.Function` is a pair (input symbols, outputs)
whose creation fails when an output has a free symbol and whose call is simultaneous substitution.
NLP feasibility is the set of assignments with `lbw <= w <= ubw` and `lbg <= g <= ubg`.

### Model files (each definition cites the Python lines it stands for)

| file | Python code |
|---|---|
| Base.v | exceptions as values, Python list operations |
| Sx.v | the CasADi SX subset: symbols, expressions, evaluation, substitution, `ca.Function` |
| Numeric.v | numeric calls of CasADi functions; `NosnocModel.compute_lambda00` |
| Utils.v | `utils.py` |
| Tableau.v, TableauData.v | `rk_utils.py`: Butcher tables (generated by tools/gen_tableau.py), integral representation |
| Rk4.v | `rk_utils.py`: `rk4`, `rk4_on_timegrid` |
| Opts.v | `nosnoc_types.py`, `nosnoc_opts.py` |
| Model.v | `model.py`, `dims.py` |
| Ocp.v | `ocp.py` |
| Problem.v | `problem.py`: finite elements, complementarities, step equilibration, assembly, `print` |
| Solver.v | `solver.py`: `construct_problem`, `set`, `initialize`, homotopy loop, polishing, `solve` |
| Results.v | `solver.py`: `get_results_from_primal_vector` and the numpy indexing it uses |
| Looper.v | `helpers.py`: `NosnocSimLooper` |
| AutoModel.v | `auto_model.py` |
| Extras.v | `model.py`, `solver.py`: `create_function_calculate_vector_field`, `rootfinder_for_initial_z`, the parameters of the JSON dump |
| Plot.v | `plot_utils.py`: numbers handed to matplotlib by `plot_timings`, `plot_iterates`, `_plot_color_hack_3d`; CPU times in `helpers.py` `get_results` |

### Specification files (vocabulary of the statements; the model uses none of it)

| file | content |
|---|---|
| Spec.v, Spec2.v | published attributes of a constructed problem, feasibility, collocation points, zero relaxation |
| Fesd.v | the documented nonlinear program as equations between real numbers |
| Spec3.v | regions, modes, sign matrices (C29-C33) |
| Spec4.v, Spec5.v, Spec6.v | results, solves and histories of calls, looper and RK4 |
| Spec7.v, Spec8.v | `print()` and auto models; which inputs construction has to accept |
| Spec9.v, Spec10.v | Filippov solutions; exact solutions of the switched system, one-sided Lipschitz condition |
| Spec11.v | bounds of all variables; piecewise polynomial solutions of the switched system |
| Spec14.v | the same solutions for the Step reformulation; times of the Radau stages |
| Spec12.v | initial guess of every variable, by its name |
| Spec13.v | the complementarity rows of an element |
| Spec15.v | root system of the vector field, simplex, consistent algebraic variables, what a rootfinder returns |
| Spec16.v | an NLP solver that reports its objective, tables of numbers |
| Spec17.v | feasible points of one call of the NLP solver; decided multipliers |
| Spec18.v | the model of a plain ODE; additive terms |
| Spec19.v | simulations whose steps are solved exactly; the curve and the solution of a whole run |
| Spec20.v | exponentially weighted minimum, error of the smoothed step functions |
| Spec21.v | state-dependent fields: bounds on a set of states, trajectories with velocities of nearby states, error bound |
| Spec22.v | FESD with state-dependent fields: trajectories that use active modes only, Lipschitz condition, first order error bound |
| Spec23.v | kinks of a function of time, ends of elements |
| Spec24.v | relaxed problems: nearly active modes, correction, error bound |
| Spec25.v | running cost along a solution, total cost, penalties, Lipschitz and bounded costs |
| Spec26.v | which options apply |
| Spec27.v | simulations whose steps are solved up to a relaxation |
| Spec28.v | solutions that consist of smooth pieces, discrete solutions that follow the pieces, planes |
| Spec29.v | step equilibration by complementarity: kinds of MPCC modes, elements without a switch between them |
| Spec30.v | limits of points, continuity of expressions, global solutions of the NLP, other values of sigma and tau |
| Spec31.v | data under which the objective approximates the cost of the solution, families of fine grids |
| Spec32.v | groups of elements without switches, even grids, points with the same switches |
| Spec33.v | calls of set() that write at most once |
| Spec34.v | simulations that go through the smooth pieces of a solution |
| Spec35.v | problems with bounded variables |
| Spec36.v | solutions of the collocation equations |
| Spec37.v | initial value problems that stay in one mode, short steps |
| Spec38.v | the checks of a model and of an OCP, in the order of the code |
| Spec39.v | a model with other switching functions (C112) |
| Spec40.v | a model with other parameter values (C113) |
| Spec41.v | NLP solvers without memory (C114) |

Lemmas live in `*_proofs.v`, concrete models, options and points in `Cases.v` and `Witness*.v`. Theorem
statements live in `Props_*.v`, which contain only theorems (closed by `exact`, in a few places after
naming hypotheses), examples and `Print Assumptions`. `properties.jsonl` is written by
tools/gen_properties.py and `MANIFEST.json` by tools/gen_manifest.py. `seeded/LOG.jsonl` records wrong
programs (edits of the model) and the theorems that noticed them.

## Trusted base

* Coq's kernel (and its `vm_compute`).
* Axioms: only those of the standard library: `ClassicalDedekindReals.sig_forall_dec`,
  `ClassicalDedekindReals.sig_not_dec`, `FunctionalExtensionality.functional_extensionality_dep` (the
  reals) and `Classical_Prop.classic` (used by the stdlib's real analysis). `ASSUMPTIONS.md`
  (written by tools/gen_assumptions.py) lists them theorem by theorem. `vcheck` also lists the sealed
  module fields of `Rdefinitions` and `ssrunder` that come with the libraries; they have bodies.
* The reading of the Python code: every definition names its lines, nothing checks the correspondence.
  The code was read, never run.
* Oracles (universally quantified arguments, no assumption made unless a theorem states it as a hypothesis):
  the NLP solver (IPOPT), CPU time, `np.log`/`np.round` in the iteration count (`lr`), CasADi collocation
  points for INTEGRAL (`cp`), node simplification by CasADi in `auto_model.py` (`simp`), CasADi's
  rootfinder (`root`; the theorems assume that what it returns is a root).

## Limits of the model

* Numbers: options and table entries are exact rationals, evaluation is in R. No rounding, no nan.
* CasADi's simplification at construction time (`x*0 -> 0`, ...) is not modelled outside AutoModel.v;
  expression identity is up to `eval`. `SX.__str__` is taken to be injective on symbols.
* Symbolic calls with an argument of the wrong size are errors, also where CasADi would expand a scalar.
  Numeric calls do model this: an empty argument is filled with zeros, a scalar is repeated.
* Matrix products with a 1x1 operand, 2-D and row arguments of `set` are not modelled.
* numpy >= 1.24 is assumed: indexing with rows of different lengths raises ValueError.
* Python objects are values. Aliasing is modelled only where a property is about it: the shared IPOPT
  dictionary (C55) and the model shared by several solvers (C69). Dictionary order and object ids in
  `auto_model.py` are parameters.
* `rootfinder_for_initial_z` (Extras.v) is a variant of `preprocess_model` with its own errors, in the order
  in which the code raises them; the rest of the development has the option off. Of the JSON dump only the
  parameter vector is modelled.
* Not modelled: drawing with matplotlib (only the numbers handed to it, Plot.v), output text of printing, the `theta` argument of NosnocModel, the
  numerical quality of what IPOPT returns, `examples/` (except the scalar systems of examples/simplest, C77, C90, C95).

## Properties

Plan column: P = to be proved as stated, G = proved under an explicit guard and refuted without it (a
finding), B = behavioural refutation with witness. Status and remarks are those of `MANIFEST.json`.

| id | plan | status |
|---|---|---|
| C01 | P. Model of add_variable/collect; invariant "concat of index lists is a permutation of 0..len-1" through FE construction and collection. | proved |
| C02 | P. Symbols carry their label (family, ctrl, fe, stage, sys, comp); invariant `sel w idx = labels`. | proved |
| C03 | P. Length invariant through every append. | proved |
| C04 | P. Closed formula by induction over stages / elements. | proved |
| C05 | P. Invariant: free symbols of g, cost, comp_res are in w or p, from closedness of user functions. | proved. closedness of every constructed problem; the CasADi functions of (w, p) exist for every assembled problem whose user functions were accepted |
| C06 | G. Layout of p vs. p_val; holds for STEWART and for n_sys = 1; refuted for STEP with two subsystems. | partial. false for STEP with two or more subsystems (refuted with witness); proved for Stewart with any number of subsystems and for Step with one |
| C07 | P. Same invariant as C02, with bounds. | proved |
| C08 | G. Sum of step sizes from feasibility; refuted for one stage without equidistant_control_grid. | partial. false for one control stage with a non-equidistant grid and with LEAST_SQUARES (refuted with witnesses); otherwise proved for problems whose results can be extracted |
| C09 | G. Telescoping sums; refuted with LEAST_SQUARES. | partial. false with FESD and LEAST_SQUARES (refuted with witness); otherwise proved for problems whose results can be extracted |
| C10 | P. Bounds on h. | proved. for problems whose results can be extracted, terminal_time >= 0 |
| C11 | P. Real algebra per mode, induction over vector length. | proved. also shown: FISCHER_BURMEISTER with several x (used by SUM_LAMBDAS) does not imply x >= 0 or x*y = 0; BOOLEAN (continuous z) only bounds \|sum x\| + \|y\| |
| C12 | G. For modes with lower bound 0 and EXACT constraints; refuted for ELASTIC_TWO_SIDED, BOOLEAN and LEAST_SQUARES. | partial. false for ELASTIC_TWO_SIDED, BOOLEAN and LEAST_SQUARES (refuted with witnesses); proved for all other modes with EXACT constraints |
| C13 | P/G. From feasibility of the generated constraints with sigma = 0 (Radau: all elements). | partial. second half false for COMPLEMENT_ALL with Gauss-Legendre (refuted with witness); proved for SUM_LAMBDAS with every scheme and for both modes with Radau; zero relaxation is defined for SCHOLTES_* and ELASTIC_INEQ/EQ |
| C14 | G. Radau; refuted for Gauss-Legendre. | partial. false for Gauss-Legendre with FESD (refuted with witness); proved for Radau and without FESD |
| C15 | G. Radau; refuted on the last element of a control stage for Gauss-Legendre. | partial. the equations hold at every stage and boundary point; 'own multipliers' is false for the last element of a control stage with Gauss-Legendre (refuted: a problem without any feasible point) |
| C16 | G. Holds if Nfe_list is constant = N_finite_elements; refuted otherwise. | partial. false for control rows when a control stage has fewer elements than N_finite_elements (refuted with witness); otherwise proved |
| C17 | G. Path complementarities are not in comp_res. | partial. path complementarities are not part of comp_res (refuted with witness); proved for all weight/multiplier products |
| C18 | P/G. HEURISTIC_DELTA_H_COMP shown vacuous/infeasible. | proved. constraint handling EXACT; C18_constraint_terms for modes other than BOOLEAN |
| C19 | G. Upper bounds are not checked. | partial. upper bounds are not checked (refuted with witness); everything else proved |
| C20 | P. | proved |
| C21 | P. Lagrange interpolation over R for arbitrary distinct points; polynomial identity lemma. | proved |
| C22 | G. Holds except INTEGRAL Radau n_s=1 (refuted). | partial. false for INTEGRAL with one Radau point (refuted with witness); proved whenever the left boundary weight vanishes, and for DIFFERENTIAL |
| C23 | P. Finite domain: executable check on exact rationals by vm_compute. | proved |
| C24 | P. From C23 by linearity, all polynomials. | proved |
| C25 | G. Gauss-Legendre raises UnboundLocalError. | partial. false for Gauss-Legendre: UnboundLocalError is raised instead (refuted with witness); proved for Radau IIA |
| C26 | P. | proved. for INTEGRAL the last collocation point is a hypothesis on the CasADi oracle |
| C27 | P. | proved |
| C28 | P. | proved |
| C29 | G. Dense S; refuted for S with zeros. | partial. false for sign matrices with zeros (refuted with witness: another mode is selected inside a region); proved for regions whose row of S has no zero, and in general for the mode with the smallest g |
| C30 | P. | proved. entries of S in {-1, 0, 1}, one column per switching function |
| C31 | P/G. mu00 sign. | proved. also shown: mu00_stewart_fun has the wrong sign |
| C32 | P. | proved. entries of S in {-1, 0, 1} |
| C33 | P. Characterisation of acceptance. | partial. exact characterisation of the accepted models; 'matching numbers of rows/columns' is false (refuted: surplus c/S entries, F with one row, S with too few columns in Step mode are accepted) |
| C34 | P. Induction over the homotopy loop with the NLP solver as an oracle. Parameters that are not positive: Sigma3. | proved |
| C35 | P. Induction over the homotopy loop with the NLP solver as an oracle. | proved. C35_ends excludes RK4_SMOOTHENED, which can raise (see C46) |
| C36 | P. Induction over the homotopy loop with the NLP solver as an oracle. | partial. false for comp_tol > sigma_0 (refuted with witness); proved for comp_tol <= sigma_0 |
| C37 | P. Induction over the homotopy loop with the NLP solver as an oracle. | proved |
| C38 | P. Induction over the homotopy loop with the NLP solver as an oracle. | proved |
| C39 | G/B. SUCCESS does not look at the residual. | partial. false: only the status of the last NLP solve counts (refuted with witness) |
| C40 | P. Solver state machine. | proved |
| C41 | P. Solver state machine. | proved. set('x'), set('w') write and then raise Warning unless the guess is EXTERNAL |
| C42 | B/G. n_sys = 1 only. | partial. false for two or more subsystems (refuted with witness); proved for one |
| C43 | P/G. one-sided test. | partial. false: the test for 0 is one-sided (refuted with witness); exact description of the pinned variables proved |
| C44 | B. ind_sot / ind_bool missing. | partial. false with speed of time or booleans (refuted with witness); exact condition proved |
| C45 | P/G. | proved. constraint handling EXACT for the soundness part |
| C46 | G. LIFT_X; refuted for INTEGRAL. | partial. proved for DIFFERENTIAL(_LIFT_X); false for INTEGRAL (points shifted by one, refuted with witness); raises with one state per element or Gauss points |
| C47 | P. | partial. false for a superfluous entry of Nfe_list (lengths differ, or IndexError with FESD) and for Stewart subsystems of different sizes (ValueError); otherwise proved |
| C48 | B. step lengths instead of times. | partial. false: the reported numbers are element lengths, not grid times (refuted with a feasible point) |
| C49 | P. | proved. results extractable; for any behaviour of the NLP solver that returns vectors of the right length or raises; w_init raises unless EXTERNAL |
| C50 | P. | proved |
| C51 | B. | partial. false: a Status is compared with a string (refuted with witness; run() never returns False) |
| C52 | P. | proved |
| C53 | P. | proved |
| C54 | B/G. | partial. false: derived options stay (refuted with witness); proved if no option was derived by the first preprocess() |
| C55 | B/G. | partial. false: the IPOPT dict is a class attribute (refuted with witness); proved for all other options |
| C56 | P. | proved |
| C57 | B. | partial. false: the Warning objects are never raised (refuted with witness) |
| C58 | G. GLOBAL always raises. | partial. GLOBAL raises AttributeError (refuted); NONE and LOCAL proved |
| C59 | P. structural induction on expressions. | proved. for every node simplification of CasADi that keeps values |
| C60 | G. Nested nonsmooth operands survive. | partial. false for nested switching nodes (refuted with max(sign x0, x1)); proved without nesting |
| C61 | P. | proved |
| C62 | P. | proved |
| C63 | G/B. | partial. false: two switching nodes in one component lose one, fmin and rows without smooth part raise (refuted with witnesses); proved for one sign/fmax per component |
| C64 | P. | proved |
| C65 | P. | proved |
| C66 | B/G. | partial. false: guesses above the upper bound are not counted (refuted with witness); exact count proved |
| C67 | P. | proved |
| C68 | P. | proved |
| C69 | B/G. | partial. false: another N_stages always raises (refuted with witness); same outcome proved for equal N_stages |
| C70 | G. Exceptions characterised. | partial. false for four groups of options (each refuted with a consistent model that raises); proved for all others; with EXACT constraints and no smoothed initialisation the accepted enum combinations are characterised exactly |
| C71 | P. Feasible points of the generated constraints against Fesd.v, both directions. | proved. constraint handling EXACT; the equivalence for modes other than BOOLEAN, the implication for all |
| C72 | G. Exact characterisation of the accepted models. | partial. false: step models with two or more switches are never accepted (exact characterisation, refuted with witness) |
| C73 | B. Second call on the same object. | partial. false: the second model repeats the switching functions of the first (refuted with witness) |
| C74 | G. Piecewise constant fields: weights are constant on an element, so the trajectory is piecewise linear; glued over the horizon. | partial. false for COMPLEMENT_ALL with schemes that do not end on the right boundary (refuted with witness, as is use_fesd=False); proved for all other combinations |
| C75 | G. C74 and Gronwall; the scalar system by its explicit solution. | partial. false for COMPLEMENT_ALL with schemes that do not end on the right boundary, for use_fesd=False and without the one-sided condition (each refuted with witness); proved for all other combinations, exactly for INTEGRAL and with an explicit rounding bound for the other representations |
| C76 | G. Bounds collected from the variable blocks (Bounds_proofs.v) and C71; states and weights of the solution at the collocation points, multipliers from the smallest region value (Stewart) or the parts of the switching functions (Step). | partial. the description of the feasible set for every MPCC mode but BOOLEAN; feasibility of solutions for Radau IIA with the degree up to which the tables are exact; false for Gauss points, rounded tables and Filippov solutions that are no multi-affine combinations with Step (each refuted with witness) |
| C77 | P. The grid is chosen so that the switch is a grid point; then C76 and C75. | proved |
| C78 | I. Invariant "w and w0 agree with the guess of each symbol" through every add_variable call and the collection. | proved |
| C79 | I. Invariant "the indices recorded so far are increasing rows of g" through the element; the meaning of the recorded rows alone; element rows move as a block. | partial. false for LEAST_SQUARES (refuted with witness); proved for EXACT |
| C80 | B. Root system of the optimality conditions; uniqueness by monotonicity of the projection. | partial. the returned function always raises, and the system does not select Stewart's weights (refuted with witnesses); proved: creation, uniqueness of the root, what it is (the projection of -g onto the simplex) |
| C81 | G. lambda00 as a function of z, then C31 and C32 at the root. | partial. false without the option (refuted with witness); proved with it, for algebraic equations without controls |
| C82 | G. Same layout as C06. | partial. false for STEP with two subsystems (refuted with witness); otherwise proved |
| C83 | C. Last pass of the homotopy against `w_sol`. | partial. false for negative objectives and with polishing (refuted with witnesses); otherwise proved |
| C84 | C. Induction over passes and polishing stages with the ghost call counter. | partial. false with polishing and several stages (refuted with witness); otherwise proved |
| C85 | G. Prefix sums by induction over the columns; looper invariant of C49. | proved |
| C86 | G. Keys of the results. | partial. every nonempty list raises (refuted with witness) |
| C87 | G. Minimum and maximum of a list. | partial. false for a single time (refuted with witness); otherwise proved |
| C88 | N. The pinned values 0 and 1 lie inside the bounds; mu = -min g. | partial. false for negative mu (refuted with witness); otherwise proved |
| C89 | B. Structural induction over expressions. | partial. the check is exact; the paths of `reformulate` are the other way round (refuted with witness) |
| C90 | B. Induction over the steps: the curves of the steps are joined at their common end states; for the exactness the start of every step lies on the given solution. | partial. as C74 and C75 |
| C91 | A. Exponential inequality 1 + x <= exp x; the weighted average is compared term by term; product of factors close to 1. | proved |
| C92 | A. Stage offsets are h times a fixed combination of the stage velocities (the inverse of the collocation matrix, constant per method); the curve is piecewise linear between the grid points with the averaged stage velocity. | proved |
| C93 | A. Comparison with the solution: derivative of the squared distance, one-sided Lipschitz condition, Gronwall; step bounds give h <= 2T/k. | proved |
| C94 | A. Stages of an element use modes active on its whole segment (lemmas of C74); then only the change of the fields over one step is left in the comparison, Gronwall. | proved |
| C95 | G. From C74: the trajectory is smooth off the grid; it equals the solution (one-sided condition, Gronwall over the whole run). | partial. false for use_fesd=False and for COMPLEMENT_ALL with schemes that do not end on the right boundary (refuted); proved for all other combinations |
| C96 | P. Products bounded by sigma resp. comp_res; weights above sqrt(sigma) belong to nearly active modes; comparison as in C93 with corrected states. | proved. for models whose nearly active weights can be corrected (correctable_on; proved for two modes separated by one switching function) |
| C97 | G. Each element contributes its quadrature of the running cost; weights sum to 1; running cost Lipschitz along states close to the solution; telescoping of the accumulated cost; step errors from C94 and C96. | partial. false for INTEGRAL with one Radau point: half the cost (C97_radau1_refuted) |
| C98 | P. Every function of problem.py and model.py is equal as a function for two option objects that agree on the applicable options; then the same for solver.py. | proved. |
| C99 | P. The comparison of C96 without the assumption that trajectory and solution start in the same state, then induction over the steps: the distance at the end of a step is the initial distance of the next one. | proved. |
| C100 | P. Collocation is exact for polynomials up to degree n, hence the defect of a smooth curve is of order h^(n+1) per element (Taylor with remainder); errors accumulate over the elements of a piece, and a transversal crossing turns the error of the state into an error of the switching time, which costs a constant factor per switch. Sliding weights from the columns of C, which sum to zero. | proved for the order n; superconvergence not claimed. |
| C101 | G. The constraint of the element read off the NLP (C71); algebra of the relaxed complementarity of each mode. | partial. false for the inequality modes, Fischer-Burmeister and HEURISTIC_DELTA_H_COMP, refuted with witnesses and characterised. |
| C102 | G. Continuity of the expressions along sequences and closed bounds; the NLP written out (C10) is monotone in sigma for SCHOLTES_INEQ and independent of it in the elastic modes; Bolzano-Weierstrass per variable for the subsequence. | proved |
| C103 | G. The objective of each feasible point is the cost of the solution with its controls up to the error of C97; compare at the minimizer and at the competitor. | proved |
| C104 | G. Equal neighbouring steps (C18, C101) summed over a group; the groups are found by search from each element; for HEURISTIC_MEAN the penalty is split into mean and deviation. | partial. false for HEURISTIC_DELTA (default), refuted with witness: no minimizer is even; proved for DIRECT, DIRECT_COMPLEMENTARITY in the equality modes and minimizers of HEURISTIC_MEAN. |
| C105 | P. Case analysis of set() in the state/exception monad; induction over the rows for p_time_var. | partial. false for x and w (Warning after the write) and p_time_var with too few rows, refuted with witnesses |
| C106 | P. The elements of all steps as one sequence (Hord7), the recursion of C100 for sequences (Hord6), matching of the stored grid (Hord8); run of two steps as case (Hord9). | proved |
| C107 | P. Continuity of expressions by epsilon and delta, cluster points without choice (Weier); bounds of all symbols of w family by family, multipliers from the identity lambda = g - mu and the relaxed products (Weier2); a controlled problem as case (Weier3). | proved |
| C108 | P. Fixed points of contractions on balls of stage values, primitives of interpolation polynomials (Picard), induction over the elements with the radius used so far (Picard2), existence through C76 at the nodes and uniqueness from the complementarity conditions (Picard3), x' = x^2/8 as case (Picard4), implicit Euler with a long step as counterexample (Picard5), multipliers from the switching equations (Picard6). Missing: other tableaux, Step, switches. | partial |
| C109 | P. Case analysis of the checks; all later steps raise none of the documented exceptions (Check). | partial. false for g_Stewart with a wrong number of entries and S with too many columns |
| C110 | P. Bounds of h and sums of nonnegative steps; witnesses with gamma_h = 2 and terminal_time = -1 (Forward). | partial. needs gamma_h <= 1 and terminal_time >= 0 |
| C111 | P. Points stay feasible when sigma grows (C102); comparison of the penalised objectives of two passes (Mono). | partial. false for SCHOLTES_EQ; not for Fischer-Burmeister |
| C112 | P. Both runs are related step by step: the checks and expressions read only the entries of the subsystems, everything later reads only what preprocess_model computed (Unused). | proved |
| C113 | P. Values are only stored by preprocess_model and read by the solver state; the two calls of set write the same rows (Rebuild). | proved |
| C114 | P/R. Two states that differ at most in the guesses of the states and in the number of calls give the same outcome (simulation over solve, Fresh); ALL_XCURRENT_WOPT_PREV is refuted (Fresh2). | partial |

## Findings

Every partial claim is partial because the property is false in some cases; each has a theorem
`..._refuted` with a witness. What goes wrong in the code:

| claim | finding |
|---|---|
| C06 | STEP with several subsystems: the values of lambda00 are stored in another order than the symbols of p |
| C08 | one control stage without `equidistant_control_grid`: nothing fixes the end time |
| C12, C09 | LEAST_SQUARES moves the convexity and grid equations into the cost |
| C13-C15 | Gauss-Legendre: COMPLEMENT_ALL leaves out the multipliers at element boundaries, and the last element of a stage has no boundary multipliers of its own |
| C16 | a stage with fewer elements than `N_finite_elements` loses the control rows of the path complementarities |
| C17, C39 | `comp_res` ignores path complementarities; SUCCESS does not look at the residual |
| C19 | LEAST_SQUARES does not look at upper bounds: an inequality becomes an equation in the cost |
| C22 | INTEGRAL with one Radau point: the weight of the left boundary is not part of the stage cost, which is half of what it should be |
| C25 | Gauss-Legendre with an unsupported n_s: UnboundLocalError |
| C29 | sign matrices with zeros: Stewart's g selects another mode inside a region |
| C31 | `mu00_stewart_fun` has the wrong sign |
| C33 | surplus entries of c and S are accepted |
| C36 | `comp_tol > sigma_0`: the automatic iteration count runs past the tolerance |
| C42, C44, C46 | `set('theta')`, polishing and RK4 guesses for several subsystems, speed of time, INTEGRAL |
| C43, C66 | one-sided tests |
| C47, C48 | superfluous entries of `Nfe_list`; `switch_times` are step lengths |
| C51, C57 | `stop_on_failure` compares a Status with a string; Warning objects are never raised |
| C54, C55, C69 | derived options stay; one IPOPT dictionary for all objects; a used model keeps its stage count |
| C58 | speed of time GLOBAL raises AttributeError |
| C60, C63, C72, C73 | `auto_model.py`: nested switches survive, switches get lost, models with two switches are rejected, second call |
| C70 | four groups of options for which consistent models raise |
| C79 | LEAST_SQUARES empties `g` but `ind_comp` keeps its row indices |
| C80 | `create_function_calculate_vector_field`: `model.F_fun` does not exist, so every call raises; the smoothed system returns other weights than Stewart's, and with several subsystems they do not sum to one each |
| C81 | without `rootfinder_for_initial_z` the initial multipliers are computed at the user's guess z0, which may violate the algebraic equations |
| C82 | the JSON dump repeats the wrong order of C06 |
| C83 | `cost_val` is the absolute value of the objective of the last homotopy pass: negative objectives lose their sign, polishing is ignored |
| C84 | `polish_solution` solves the same NLP `N_stages` times (the fixings of each stage are computed from scratch and not passed on) and the time of all but the last solve is not reported |
| C86 | `plot_iterates` reads `results['mu_list']`, whose assignment is commented out: KeyError for every iterate |
| C87 | `_plot_color_hack_3d` divides by zero if all times are equal |
| C88 | `polish_solution` fixes every multiplier below 10 comp_tol to 0, also mu, which has no sign: with `g_Stewart` of positive minimum (squared distances) mu < 0 and the polishing NLP has no feasible point |
| C89 | `reformulate` sends additive ODEs to `_reformulate_nonlin` and all others to `_reformulate_linear`, which is written for additive ones: `x' = -sign(x)` cannot be used with STEWART |
| C77 | a control stage with a single element and a switch inside it makes the problem infeasible; nothing warns |
| C76 | Gauss points: a solution that switches on the grid need not be feasible; there may be no feasible point at all |
| C76 | the DIFFERENTIAL Radau tables are rounded: with three or more stages their weights do not sum to 1, so not even constant velocities are integrated exactly |
| C76 | Step and Stewart are not equivalent: when several switching functions vanish, Step admits only multi-affine combinations of the modes, Stewart the whole convex hull |
| C74, C75 | COMPLEMENT_ALL with Gauss points and `use_fesd=False`: feasible points that are no solutions |
| C95 | the same two settings: a switch that is not a grid point |
| C97 | INTEGRAL with one Radau point: the weight 1/2 of the left end is dropped, the objective is half the running cost (consequence of C22) |
| C101 | DIRECT_COMPLEMENTARITY with SCHOLTES_INEQ (default) or ELASTIC_INEQ is one-sided: steps may shrink where no switch happens |
| C101 | DIRECT_COMPLEMENTARITY with Fischer-Burmeister: h_i >= h_{i-1} in every control stage, for every sigma, also at switches; solutions whose last element is shorter are lost |
| C101 | HEURISTIC_DELTA_H_COMP passes `SX.zeros()`: no effect in the inequality modes, no feasible point for sigma > 0 in the equality modes and with Fischer-Burmeister |
| C104 | HEURISTIC_DELTA (the default) does not leave the grid even between switches: the penalty is smaller for steps that change gradually after the switch |
| C105 | set("x"), set("w") replace the guess and then raise Warning unless the strategy is EXTERNAL; set("p_time_var") with too few rows writes the rows it has and then raises IndexError |
| C108 | A long step can make the NLP infeasible although the differential equation has a solution: x' = x^2/2 from 1, one implicit Euler step over [0, 1] |
| C109 | g_Stewart with too few or too many entries, fewer entries in c than in F (IndexError) and S with too many columns (error of CasADi) are not caught by the checks of preprocess_model |
| C110 | gamma_h > 1 permits steps backwards; a negative terminal_time is accepted, with FESD every such NLP is infeasible, without FESD time runs backwards |
| C111 | with SCHOLTES_EQ the objective of global solutions may fall from pass to pass |
