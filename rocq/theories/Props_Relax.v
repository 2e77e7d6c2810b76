(* Props_Relax.v -- C96: feasible points of the relaxed problem (sigma > 0), the ones that solve() computes *)
From Coq Require Import Reals Qreals.
From Verif Require Import Base Sx Utils Tableau Opts Model Ocp Problem Spec Cases Fesd Spec2 Spec3 Spec4 Witness Spec9 Spec10 Spec11 Spec21 Spec22 Spec24 Conv5_proofs
  Relax_proofs Relax3_proofs Relax4_proofs Relax5_proofs.
Local Open Scope R_scope.

(* the products of a stage are bounded by the relaxation parameter of the homotopy, and by the residual that solve() compares with comp_tol *)
Theorem C96_parameter lr cp d o m oc C rho : fesd_problem lr cp d o m oc C -> feasible rho (the_nlp C) -> product_mode (the_opts C) -> initial_nonneg rho ->
  relaxed_by (the_opts C) m rho (relaxation (the_opts C) rho).
Proof. exact (relaxed_by_parameter lr cp d o m oc C rho). Qed.
Print Assumptions C96_parameter.
Theorem C96_residual lr cp d o m oc C rho tol : fesd_problem lr cp d o m oc C -> comp_residual C rho <= tol -> relaxed_by (the_opts C) m rho tol.
Proof. intros H. exact (relaxed_by_residual lr cp d o m oc C rho H tol). Qed.
Print Assumptions C96_residual.

(* every mode with a weight above sqrt tol is active up to sqrt tol; velocities are those of states of the same element *)
Theorem C96_trajectory cp re sc n : exists K, 0 <= K /\
  forall lr d o m oc C rho act near D M h eps, fesd_problem lr cp d o m oc C -> feasible rho (the_nlp C) ->
  relaxed_setting cp (the_opts C) m -> method re sc n (the_opts C) -> near_rule (the_opts C) m act near -> 0 <= eps -> relaxed_by (the_opts C) m rho (eps * eps) ->
  stages_in (the_opts C) (cn_tab C) rho D -> bounded_on (the_opts C) m rho D M -> 0 <= M -> steps_upto (the_opts C) rho h ->
  exists X, relaxed_trajectory (the_opts C) (cn_tab C) m rho near D (K * M * h) eps X.
Proof. exact (relaxed_constant cp re sc n). Qed.
Print Assumptions C96_trajectory.
Theorem C96_error cp re sc n : exists K, 0 <= K /\
  forall lr d o m oc C rho act near D M h eps r L Y, fesd_problem lr cp d o m oc C -> feasible rho (the_nlp C) ->
  relaxed_setting cp (the_opts C) m -> method re sc n (the_opts C) -> near_rule (the_opts C) m act near -> 0 <= eps -> relaxed_by (the_opts C) m rho (eps * eps) ->
  stages_in (the_opts C) (cn_tab C) rho D -> bounded_on (the_opts C) m rho D M -> 0 <= M -> steps_upto (the_opts C) rho h ->
  correctable_on (the_opts C) m rho act near D eps r -> 0 <= r ->
  one_sided_on (the_opts C) m rho act D L -> 0 <= L -> exact_solution (the_opts C) m rho act Y ->
  (forall tm, 0 <= tm <= end_time (the_opts C) rho -> D (Y tm)) ->
  forall c e, is_element (the_opts C) c e -> let tm := grid_time (the_opts C) rho c e + step_len (the_opts C) rho c e in
  distance2 m (end_state (the_opts C) (cn_tab C) rho c e) (Y tm) <= relaxed_bound (the_opts C) m L M (K * M * h + r) r tm.
Proof. exact (relaxed_error cp re sc n). Qed.
Print Assumptions C96_error.
(* as the grid is refined and the relaxation goes to zero *)
Theorem C96_convergence cp sc n nx L M kappa T : 0 <= L -> 0 <= M -> 0 <= kappa -> exists B, 0 <= B /\
  forall lr d o m oc C rho act near D k eps Y, fesd_problem lr cp d o m oc C -> feasible rho (the_nlp C) ->
  relaxed_setting cp (the_opts C) m -> method Integral sc n (the_opts C) -> near_rule (the_opts C) m act near -> (m_nx m <= nx)%nat ->
  0 <= eps <= 1 -> relaxed_by (the_opts C) m rho (eps * eps) ->
  o_terminal_time (the_opts C) = T -> (0 <= T)%Q -> ext_upto (o_gamma_h (the_opts C)) 1 ->
  stages_in (the_opts C) (cn_tab C) rho D -> bounded_on (the_opts C) m rho D M ->
  correctable_on (the_opts C) m rho act near D eps (kappa * eps) ->
  one_sided_on (the_opts C) m rho act D L -> exact_solution (the_opts C) m rho act Y ->
  (forall tm, 0 <= tm <= end_time (the_opts C) rho -> D (Y tm)) ->
  (0 < k)%nat -> 2 * Q2R T <= INR k -> (forall c, (c < o_N_stages (the_opts C))%nat -> (k <= o_N_stages (the_opts C) * nfe_of (the_opts C) c)%nat) ->
  (o_use_fesd (the_opts C) = false \/ o_equidistant (the_opts C) = true \/ (1 < o_N_stages (the_opts C))%nat) ->
  forall c e, is_element (the_opts C) c e ->
  distance2 m (end_state (the_opts C) (cn_tab C) rho c e) (Y (grid_time (the_opts C) rho c e + step_len (the_opts C) rho c e)) <= B * (/ INR k + eps).
Proof. exact (relaxed_refinement cp sc n nx L M kappa T). Qed.
Print Assumptions C96_convergence.
(* two modes separated by one switching function whose zero set is close where it is small *)
Theorem C96_one_switch o m rho act near D M Lf a eps : one_switch m -> near_rule o m act near ->
  bounded_on o m rho D M -> lipschitz_on o m rho D Lf -> surface_close o m rho D a eps -> 0 <= M -> 0 <= Lf -> 0 <= a -> 0 <= eps < / 2 ->
  correctable_on o m rho act near D eps ((a + Lf * a + 2 * M) * eps).
Proof. intros A B. exact (one_switch_correctable o m rho act near D A B M Lf a eps). Qed.
Print Assumptions C96_one_switch.

(* two implicit Euler steps of x' = 1 (x < 0), x' = -x - 1 (x > 0) from 1 with sigma = 1/100: 102/299, then 1/50 with weight 0.19 on the left mode *)
Example C96_case : is_problem optsK decay_model None CK /\ feasible (pt relaxedK) (the_nlp CK) /\ relaxed_setting case_cpoints (the_opts CK) decay_model /\
  method Integral RadauIIA 1 (the_opts CK) /\ near_rule (the_opts CK) decay_model (smallest decay_model) (near_smallest decay_model) /\
  relaxation (the_opts CK) (pt relaxedK) = / 10 * / 10 /\ relaxed_by (the_opts CK) decay_model (pt relaxedK) (/ 10 * / 10) /\
  stages_in (the_opts CK) (cn_tab CK) (pt relaxedK) unit_interval /\ bounded_on (the_opts CK) decay_model (pt relaxedK) unit_interval 2 /\
  steps_upto (the_opts CK) (pt relaxedK) (/ 2).
Proof. exact relaxed_caseK. Qed.
Example C96_case_step : is_problem optsL decay_model None CL /\ feasible (pt relaxedL) (the_nlp CL) /\ relaxed_setting case_cpoints (the_opts CL) decay_model /\
  method Integral RadauIIA 1 (the_opts CL) /\ near_rule (the_opts CL) decay_model (in_closed_region decay_model) (near_region decay_model) /\
  relaxation (the_opts CL) (pt relaxedL) = / 10 * / 10 /\ relaxed_by (the_opts CL) decay_model (pt relaxedL) (/ 10 * / 10) /\
  stages_in (the_opts CL) (cn_tab CL) (pt relaxedL) unit_interval /\ bounded_on (the_opts CL) decay_model (pt relaxedL) unit_interval 2 /\
  steps_upto (the_opts CL) (pt relaxedL) (/ 2).
Proof. exact relaxed_caseL. Qed.
(* grid and horizon as in C93_case_refine *)
Example C96_case_fields : one_switch decay_model /\ lipschitz_on (the_opts CK) decay_model (pt relaxedK) unit_interval 1 /\
  surface_close (the_opts CK) decay_model (pt relaxedK) unit_interval 1 (/ 10) /\
  correctable_on (the_opts CK) decay_model (pt relaxedK) (smallest decay_model) (near_smallest decay_model) unit_interval (/ 10) (6 * / 10) /\
  one_sided_on (the_opts CK) decay_model (pt relaxedK) (smallest decay_model) unit_interval 0 /\
  exact_solution (the_opts CK) decay_model (pt relaxedK) (smallest decay_model) (fun z _ => decay_solution z) /\
  (forall tm, 0 <= tm <= end_time (the_opts CK) (pt relaxedK) -> unit_interval (fun _ => decay_solution tm)).
Proof. exact relaxed_fieldsK. Qed.
