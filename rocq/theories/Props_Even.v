(* Props_Even.v -- C104: the grid between switches *)
From Coq Require Import Reals Qreals.
From Verif Require Import Base Sx Utils Tableau Opts Model Ocp Problem Spec Cases Fesd Spec2 Spec3 Spec9 Spec25 Witness Spec29 Spec30 Spec32 Even_proofs Even2_proofs.
Local Open Scope R_scope.

(* DIRECT, and DIRECT_COMPLEMENTARITY in the equality modes: the elements between two switches divide the time evenly *)
Theorem C104_even_partial lr cp d o m oc C rho c a b : fesd_problem lr cp d o m oc C -> o_use_fesd (the_opts C) = true -> product_mode (the_opts C) ->
  feasible rho (the_nlp C) -> initial_nonneg rho -> equalizing (the_opts C) rho -> (c < o_N_stages (the_opts C))%nat -> (b <= nfe_of (the_opts C) c)%nat ->
  quiet (the_opts C) (cn_tab C) m rho c a b -> even_grid (the_opts C) rho c a b.
Proof. intros H1 H2 H3. exact (quiet_even lr cp d o m oc C H1 H2 H3 rho c a b). Qed.
Print Assumptions C104_even_partial.
(* a control stage without switches has the nominal steps *)
Theorem C104_nominal_partial lr cp d o m oc C rho c e : fesd_problem lr cp d o m oc C -> o_use_fesd (the_opts C) = true -> product_mode (the_opts C) ->
  feasible rho (the_nlp C) -> initial_nonneg rho -> equalizing (the_opts C) rho -> o_equidistant (the_opts C) = true -> is_element (the_opts C) c e ->
  quiet (the_opts C) (cn_tab C) m rho c 0 (nfe_of (the_opts C) c) ->
  step_len (the_opts C) rho c e = T (the_opts C) / INR (o_N_stages (the_opts C)) / INR (nfe_of (the_opts C) c).
Proof. intros H1 H2 H3. exact (quiet_nominal lr cp d o m oc C H1 H2 H3 rho c e). Qed.
Print Assumptions C104_nominal_partial.
(* the switches determine the whole grid *)
Theorem C104_determined_partial lr cp d o m oc C rho rho' c e : fesd_problem lr cp d o m oc C -> o_use_fesd (the_opts C) = true -> product_mode (the_opts C) ->
  feasible rho (the_nlp C) -> feasible rho' (the_nlp C) -> initial_nonneg rho -> initial_nonneg rho' -> equalizing (the_opts C) rho -> equalizing (the_opts C) rho' ->
  o_equidistant (the_opts C) = true -> same_switches (the_opts C) (cn_tab C) m rho rho' -> is_element (the_opts C) c e ->
  step_len (the_opts C) rho c e = step_len (the_opts C) rho' c e.
Proof. intros H1 H2 H3. exact (same_grid lr cp d o m oc C H1 H2 H3 rho rho' c e). Qed.
Print Assumptions C104_determined_partial.
(* from -1 to the surface in the first step, then three equal steps *)
Example C104_case : is_problem (optsE Direct) model3 None (CE Direct) /\ feasible (pt evenE) (the_nlp (CE Direct)) /\ o_use_fesd (the_opts (CE Direct)) = true /\ product_mode (the_opts (CE Direct)) /\
  initial_nonneg (pt evenE) /\ equalizing (the_opts (CE Direct)) (pt evenE) /\ nfe_of (the_opts (CE Direct)) 0 = 4%nat /\ quiet (the_opts (CE Direct)) (cn_tab (CE Direct)) model3 (pt evenE) 0 1 4.
Proof. exact even_case. Qed.
(* two points without switches *)
Example C104_case_same : feasible (pt (awayE 1)) (the_nlp (CE Direct)) /\ feasible (pt (awayE 2)) (the_nlp (CE Direct)) /\ initial_nonneg (pt (awayE 1)) /\ initial_nonneg (pt (awayE 2)) /\
  o_equidistant (the_opts (CE Direct)) = true /\ same_switches (the_opts (CE Direct)) (cn_tab (CE Direct)) model3 (pt (awayE 1)) (pt (awayE 2)) /\
  pt (awayE 1) (SX0 0) <> pt (awayE 2) (SX0 0).
Proof. exact same_case. Qed.

(* HEURISTIC_MEAN: the penalty is that of the mean step plus the deviations from it ... *)
Theorem C104_mean_penalty o t m rho c a b : o_use_fesd o = true -> o_step_eq o = HeuristicMean -> (a < b)%nat ->
  rbetween a b (step_cost o t m rho c) = Q2R (o_rho_h o) *
    (INR (b - a) * ((grid_time o rho c b - grid_time o rho c a) / INR (b - a) - Q2R (nominal_step o (nfe_of o c))) ^ 2 +
     rbetween a b (fun e => (step_len o rho c e - (grid_time o rho c b - grid_time o rho c a) / INR (b - a)) ^ 2)).
Proof. exact (mean_penalty o t m rho c a b). Qed.
Print Assumptions C104_mean_penalty.
(* ... so minimizers of problems without costs of the user are even wherever the even grid is feasible *)
Theorem C104_mean_partial lr cp d o m oc C rho rho' c a b : fesd_problem lr cp d o m oc C -> o_use_fesd (the_opts C) = true -> o_step_eq (the_opts C) = HeuristicMean ->
  (0 < o_rho_h (the_opts C))%Q -> elastic (the_opts C) = false -> oc_fq (the_ocp oc) = ECst 0 -> oc_fT (the_ocp oc) = ECst 0 ->
  solution_of C rho -> feasible rho' (the_nlp C) -> (forall y, In y (p_p (the_problem C)) -> rho' y = rho y) ->
  (c < o_N_stages (the_opts C))%nat -> (a < b <= nfe_of (the_opts C) c)%nat ->
  (forall c' e, is_element (the_opts C) c' e -> ~ (c' = c /\ (a <= e < b)%nat) -> step_len (the_opts C) rho' c' e = step_len (the_opts C) rho c' e) ->
  grid_time (the_opts C) rho' c b = grid_time (the_opts C) rho c b -> even_grid (the_opts C) rho' c a b -> even_grid (the_opts C) rho c a b.
Proof. exact (mean_solution lr cp d o m oc C rho rho' c a b). Qed.
Print Assumptions C104_mean_partial.
Example C104_case_mean : is_problem (optsE HeuristicMean) model3 None (CE HeuristicMean) /\ (0 < o_rho_h (the_opts (CE HeuristicMean)))%Q /\ elastic (the_opts (CE HeuristicMean)) = false /\
  oc_fq (the_ocp None) = ECst 0 /\ oc_fT (the_ocp None) = ECst 0 /\ solution_of (CE HeuristicMean) (pt (awayE 1)) /\ feasible (pt (awayE 1)) (the_nlp (CE HeuristicMean)) /\
  even_grid (the_opts (CE HeuristicMean)) (pt (awayE 1)) 0 0 4.
Proof. exact mean_case. Qed.

(* HEURISTIC_DELTA, the default: a grid that is uneven after the switch at 1/3 is cheaper than the even one, so no minimizer with this switch is even: finding *)
Theorem C104_delta_refuted : exists o m C rho0 rho1, o = optsE HeuristicDelta /\ is_problem o m None C /\ feasible rho0 (the_nlp C) /\ feasible rho1 (the_nlp C) /\
  (forall y, In y (p_p (the_problem C)) -> rho1 y = rho0 y) /\ o_use_fesd (the_opts C) = true /\ o_equidistant (the_opts C) = true /\ nfe_of (the_opts C) 0 = 4%nat /\ product_mode (the_opts C) /\ initial_nonneg rho0 /\
  quiet (the_opts C) (cn_tab C) m rho0 0 1 4 /\ quiet (the_opts C) (cn_tab C) m rho1 0 1 4 /\
  grid_time (the_opts C) rho0 0 1 = / 3 /\ grid_time (the_opts C) rho1 0 1 = / 3 /\ even_grid (the_opts C) rho0 0 1 4 /\ ~ even_grid (the_opts C) rho1 0 1 4 /\
  eval rho1 (cost (the_nlp C)) < eval rho0 (cost (the_nlp C)) /\
  forall v, solution_of C v -> (forall y, In y (p_p (the_problem C)) -> v y = rho0 y) -> v (SH 0 0) = / 3 -> ~ even_grid (the_opts C) v 0 1 4.
Proof. exact delta_uneven. Qed.
Print Assumptions C104_delta_refuted.
