(* Props_Conv.v -- C92, C93: feasible points of a problem with vector fields that vary with the state follow the
   switched system up to errors of the order of the step length, and converge to its solution as the grid is refined *)
From Coq Require Import Reals Qreals.
From Verif Require Import Base Sx Utils Tableau Opts Model Ocp Problem Spec Cases Fesd Spec2 Spec3 Spec4 Witness Spec9 Spec10 Spec11 Spec21 Conv4_proofs Conv5_proofs.
Local Open Scope R_scope.

Theorem C92_trajectory cp re sc n : exists K, 0 <= K /\
  forall lr d o m oc C rho act D M h, fesd_problem lr cp d o m oc C -> feasible rho (the_nlp C) ->
  convergence_setting cp (the_opts C) m rho -> method re sc n (the_opts C) -> mode_rule (the_opts C) m act ->
  stages_in (the_opts C) (cn_tab C) rho D -> bounded_on (the_opts C) m rho D M -> 0 <= M -> steps_upto (the_opts C) rho h ->
  exists X, approximate_trajectory (the_opts C) (cn_tab C) m rho act D (K * M * h) X.
Proof. exact (method_constant cp re sc n). Qed.
Print Assumptions C92_trajectory.

Theorem C93_error cp re sc n : exists K, 0 <= K /\
  forall lr d o m oc C rho act D M h L Y, fesd_problem lr cp d o m oc C -> feasible rho (the_nlp C) ->
  convergence_setting cp (the_opts C) m rho -> method re sc n (the_opts C) -> mode_rule (the_opts C) m act ->
  stages_in (the_opts C) (cn_tab C) rho D -> bounded_on (the_opts C) m rho D M -> 0 <= M -> steps_upto (the_opts C) rho h ->
  one_sided_on (the_opts C) m rho act D L -> 0 <= L -> exact_solution (the_opts C) m rho act Y ->
  (forall tm, 0 <= tm <= end_time (the_opts C) rho -> D (Y tm)) ->
  forall c e, is_element (the_opts C) c e -> let tm := grid_time (the_opts C) rho c e + step_len (the_opts C) rho c e in
  distance2 m (end_state (the_opts C) (cn_tab C) rho c e) (Y tm) <= error_bound (the_opts C) m L M (K * M * h) tm.
Proof. exact (grid_error cp re sc n). Qed.
Print Assumptions C93_error.

Theorem C93_convergence cp sc n nx L M T : 0 <= L -> 0 <= M -> exists B, 0 <= B /\
  forall lr d o m oc C rho act D k Y, fesd_problem lr cp d o m oc C -> feasible rho (the_nlp C) ->
  convergence_setting cp (the_opts C) m rho -> method Integral sc n (the_opts C) -> mode_rule (the_opts C) m act -> (m_nx m <= nx)%nat ->
  o_terminal_time (the_opts C) = T -> (0 <= T)%Q -> ext_upto (o_gamma_h (the_opts C)) 1 ->
  stages_in (the_opts C) (cn_tab C) rho D -> bounded_on (the_opts C) m rho D M ->
  one_sided_on (the_opts C) m rho act D L -> exact_solution (the_opts C) m rho act Y ->
  (forall tm, 0 <= tm <= end_time (the_opts C) rho -> D (Y tm)) ->
  (0 < k)%nat -> 2 * Q2R T <= INR k -> (forall c, (c < o_N_stages (the_opts C))%nat -> (k <= o_N_stages (the_opts C) * nfe_of (the_opts C) c)%nat) ->
  (o_use_fesd (the_opts C) = false \/ o_equidistant (the_opts C) = true \/ (1 < o_N_stages (the_opts C))%nat) ->
  forall c e, is_element (the_opts C) c e ->
  distance2 m (end_state (the_opts C) (cn_tab C) rho c e) (Y (grid_time (the_opts C) rho c e + step_len (the_opts C) rho c e)) <= B / INR k.
Proof. exact (refinement cp sc n nx L M T). Qed.
Print Assumptions C93_convergence.

(* two implicit Euler steps of x' = 1 (x < 0), x' = -x - 1 (x > 0) from 1: 1/3, then sliding at 0 *)
Example C92_case : is_problem optsK decay_model None CK /\ feasible (pt eulerK) (the_nlp CK) /\ convergence_setting case_cpoints (the_opts CK) decay_model (pt eulerK) /\
  method Integral RadauIIA 1 (the_opts CK) /\ mode_rule (the_opts CK) decay_model (smallest decay_model) /\
  stages_in (the_opts CK) (cn_tab CK) (pt eulerK) unit_interval /\ bounded_on (the_opts CK) decay_model (pt eulerK) unit_interval 2 /\
  steps_upto (the_opts CK) (pt eulerK) (/ 2).
Proof. exact conv_caseK. Qed.
Example C92_case_step : is_problem optsL decay_model None CL /\ feasible (pt eulerL) (the_nlp CL) /\ convergence_setting case_cpoints (the_opts CL) decay_model (pt eulerL) /\
  method Integral RadauIIA 1 (the_opts CL) /\ mode_rule (the_opts CL) decay_model (in_closed_region decay_model) /\
  stages_in (the_opts CL) (cn_tab CL) (pt eulerL) unit_interval /\ bounded_on (the_opts CL) decay_model (pt eulerL) unit_interval 2 /\
  steps_upto (the_opts CL) (pt eulerL) (/ 2).
Proof. exact conv_caseL. Qed.
Example C93_case : one_sided_on (the_opts CK) decay_model (pt eulerK) (smallest decay_model) unit_interval 0 /\
  exact_solution (the_opts CK) decay_model (pt eulerK) (smallest decay_model) (fun z _ => decay_solution z) /\
  (forall tm, 0 <= tm <= end_time (the_opts CK) (pt eulerK) -> unit_interval (fun _ => decay_solution tm)).
Proof. exact fieldsK. Qed.
Example C93_case_step : one_sided_on (the_opts CL) decay_model (pt eulerL) (in_closed_region decay_model) unit_interval 0 /\
  exact_solution (the_opts CL) decay_model (pt eulerL) (in_closed_region decay_model) (fun z _ => decay_solution z) /\
  (forall tm, 0 <= tm <= end_time (the_opts CL) (pt eulerL) -> unit_interval (fun _ => decay_solution tm)).
Proof. exact fieldsL. Qed.
Example C93_case_refine : o_terminal_time (the_opts CK) = 1%Q /\ ext_upto (o_gamma_h (the_opts CK)) 1 /\ 2 * Q2R 1 <= INR 2 /\
  (forall c, (c < o_N_stages (the_opts CK))%nat -> (2 <= o_N_stages (the_opts CK) * nfe_of (the_opts CK) c)%nat) /\ o_use_fesd (the_opts CK) = false.
Proof. exact refine_caseK. Qed.
