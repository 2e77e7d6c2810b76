(* Props_Run.v -- C99: simulations whose steps are solved with relaxed complementarity conditions, fields that vary with the state *)
From Coq Require Import Reals Qreals.
From Verif Require Import Base Sx Utils Tableau Opts Model Ocp Problem Numeric Rk4 Results Solver Looper Spec Cases Fesd Spec2 Spec3 Spec4 Spec5 Spec6 Witness Spec9 Spec10 Spec11 Spec19 Spec21 Spec22 Spec24
  Conv5_proofs Relax4_proofs Spec27 Run2_proofs Run3_proofs.
Local Open Scope R_scope.

(* all states that the looper returns, over all steps: the bound of one problem at the time since the start of the simulation *)
Theorem C99_error cp re sc n : exists K, 0 <= K /\
  forall lr d o m oc C nlp x0 Nsim pv pc wi lp s tr lp' rho act near D M h eps r L Y, fesd_problem lr cp d o m oc C -> extractable (the_opts C) m ->
  (o_pss (the_opts C) = Stewart \/ (gS_given m = false /\ n_subsystems m = 1%nat)) ->
  relaxed_setting cp (the_opts C) m -> method re sc n (the_opts C) -> near_rule (the_opts C) m act near ->
  looper_init (cn_prob C) x0 Nsim pv pc wi = Ok lp -> simulation nlp C m 0 lp s tr lp' ->
  (forall k q, nth_error tr k = Some q -> solved_relaxed C (snd q) (rho k) /\ step_within C m act near D M h eps r L (rho k)) ->
  0 <= eps -> 0 <= M -> 0 <= r -> 0 <= L ->
  run_solution (the_opts C) m act rho tr x0 Y -> (forall tm, 0 <= tm <= elapsed tr (length tr) -> D (Y tm)) ->
  forall j tm x, nth_error (looper_t_grid lp') j = Some tm -> nth_error (lp_X_sim lp') j = Some x ->
  distance2 m (fun i => nth i x 0) (Y tm) <= relaxed_bound (the_opts C) m L M (K * M * h + r) r tm.
Proof. exact (simulation_error cp re sc n). Qed.
Print Assumptions C99_error.
(* as steps and relaxation go to zero, over simulations of any number of steps up to the time H *)
Theorem C99_convergence cp sc n nx L M kappa H : 0 <= L -> 0 <= M -> 0 <= kappa -> 0 <= H -> exists B, 0 <= B /\
  forall lr d o m oc C nlp x0 Nsim pv pc wi lp s tr lp' rho act near D h eps Y, fesd_problem lr cp d o m oc C -> extractable (the_opts C) m ->
  (o_pss (the_opts C) = Stewart \/ (gS_given m = false /\ n_subsystems m = 1%nat)) ->
  relaxed_setting cp (the_opts C) m -> method Integral sc n (the_opts C) -> near_rule (the_opts C) m act near -> (m_nx m <= nx)%nat ->
  looper_init (cn_prob C) x0 Nsim pv pc wi = Ok lp -> simulation nlp C m 0 lp s tr lp' ->
  (forall k q, nth_error tr k = Some q -> solved_relaxed C (snd q) (rho k) /\ step_within C m act near D M h eps (kappa * eps) L (rho k)) ->
  0 <= h <= 1 -> 0 <= eps <= 1 ->
  run_solution (the_opts C) m act rho tr x0 Y -> (forall tm, 0 <= tm <= elapsed tr (length tr) -> D (Y tm)) ->
  forall j tm x, nth_error (looper_t_grid lp') j = Some tm -> nth_error (lp_X_sim lp') j = Some x -> 0 <= tm <= H ->
  distance2 m (fun i => nth i x 0) (Y tm) <= B * (h + eps).
Proof. exact (simulation_convergence cp sc n nx L M kappa H). Qed.
Print Assumptions C99_convergence.
(* the relaxation of a step is the residual of its last pass, the one that solve() compares with comp_tol *)
Theorem C99_residual lr cp d o m oc C nlp s s' out h rho tol : fesd_problem lr cp d o m oc C ->
  (o_pss (the_opts C) = Stewart \/ (gS_given m = false /\ n_subsystems m = 1%nat)) -> sized C m s -> solve nlp C s = (s', Ok out) ->
  o_do_polishing (the_opts C) = false -> last_is (so_steps out) h -> primal C rho = so_w_sol out -> feasible rho (the_nlp C) ->
  (forall i y v, nth_error (p_p (the_problem C)) i = Some y -> nth_error (nc_p (hs_call h)) i = Some v -> y = SSigma \/ y = STau \/ rho y = v) ->
  hs_comp h <= tol -> solved_relaxed C out rho /\ relaxed_by (the_opts C) m rho tol.
Proof. exact (simulation_residual lr cp d o m oc C nlp s s' out h rho tol). Qed.
Print Assumptions C99_residual.

(* two steps of x' = 1 (x < 0), x' = -x - 1 (x > 0) from 1 with sigma = 1/100: 102/299, 1/50, then 0 with weights 12/25, 13/25 and 1/2, 1/2 *)
Example C99_case : exists L s' L' tr, looper_init (cn_prob CK) [1] 2 None 0 None = Ok L /\
  run (pick_nlp CK (pt relaxedK) (pt relaxedK2)) CK false L (initial_state CK) = (s', L', Ok true) /\
  simulation (pick_nlp CK (pt relaxedK) (pt relaxedK2)) CK decay_model 0 L (initial_state CK) tr L' /\ length tr = 2%nat /\
  (forall k q, nth_error tr k = Some q -> solved_relaxed CK (snd q) (rhosK k) /\ exists h, last_is (so_steps (snd q)) h /\ hs_comp h <= / 10 * / 10).
Proof. exact simK. Qed.
(* settings as in C96_case *)
Example C99_case_step k : step_within CK decay_model (smallest decay_model) (near_smallest decay_model) unit_interval 2 (/ 2) (/ 10) (6 * / 10) 0 (rhosK k).
Proof. exact (withinK k). Qed.
Example C99_case_solution tr : extractable (the_opts CK) decay_model /\
  run_solution (the_opts CK) decay_model (smallest decay_model) rhosK tr [1] (fun z _ => decay_solution z) /\
  forall tm, 0 <= tm <= elapsed tr (length tr) -> unit_interval (fun _ => decay_solution tm).
Proof. exact (conj extractK1 (run_solutionK tr)). Qed.
