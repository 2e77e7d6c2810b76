(* Props_Order.v -- C94: with FESD the elements never straddle a switch, and the method converges with order one in the
   step length (the plain discretization, C93, with order one half) *)
From Coq Require Import Reals Qreals.
From Verif Require Import Base Sx Utils Tableau Opts Model Ocp Problem Spec Cases Fesd Spec2 Spec3 Spec4 Witness Spec9 Spec10 Spec11 Spec21 Spec22 Conv7_proofs Conv8_proofs.
Local Open Scope R_scope.

Theorem C94_trajectory cp re sc n : exists K, 0 <= K /\
  forall lr d o m oc C rho act D M h, fesd_problem lr cp d o m oc C -> feasible rho (the_nlp C) ->
  fesd_setting cp (the_opts C) (cn_tab C) m rho -> method re sc n (the_opts C) -> mode_rule (the_opts C) m act ->
  stages_in (the_opts C) (cn_tab C) rho D -> segments_in (the_opts C) (cn_tab C) rho D ->
  bounded_on (the_opts C) m rho D M -> 0 <= M -> steps_upto (the_opts C) rho h ->
  exists X, tracking_trajectory (the_opts C) (cn_tab C) m rho act D (K * M * h) X.
Proof. exact (tracking_constant cp re sc n). Qed.
Print Assumptions C94_trajectory.

Theorem C94_error cp re sc n : exists K, 0 <= K /\
  forall lr d o m oc C rho act D M h L Lf Y, fesd_problem lr cp d o m oc C -> feasible rho (the_nlp C) ->
  fesd_setting cp (the_opts C) (cn_tab C) m rho -> method re sc n (the_opts C) -> mode_rule (the_opts C) m act ->
  stages_in (the_opts C) (cn_tab C) rho D -> segments_in (the_opts C) (cn_tab C) rho D ->
  bounded_on (the_opts C) m rho D M -> 0 <= M -> steps_upto (the_opts C) rho h ->
  one_sided_on (the_opts C) m rho act D L -> 0 <= L -> lipschitz_on (the_opts C) m rho D Lf -> 0 <= Lf ->
  exact_solution (the_opts C) m rho act Y -> (forall tm, 0 <= tm <= end_time (the_opts C) rho -> D (Y tm)) ->
  forall c e, is_element (the_opts C) c e -> let tm := grid_time (the_opts C) rho c e + step_len (the_opts C) rho c e in
  distance2 m (end_state (the_opts C) (cn_tab C) rho c e) (Y tm) <= first_order_bound (the_opts C) m L Lf M (K * M * h) tm.
Proof. exact (tracking_error cp re sc n). Qed.
Print Assumptions C94_error.

Theorem C94_convergence cp sc n nx L Lf M T : 0 <= L -> 0 <= Lf -> 0 <= M -> exists B, 0 <= B /\
  forall lr d o m oc C rho act D k Y, fesd_problem lr cp d o m oc C -> feasible rho (the_nlp C) ->
  fesd_setting cp (the_opts C) (cn_tab C) m rho -> method Integral sc n (the_opts C) -> mode_rule (the_opts C) m act -> (m_nx m <= nx)%nat ->
  o_terminal_time (the_opts C) = T -> (0 <= T)%Q -> ext_upto (o_gamma_h (the_opts C)) 1 ->
  stages_in (the_opts C) (cn_tab C) rho D -> segments_in (the_opts C) (cn_tab C) rho D -> bounded_on (the_opts C) m rho D M ->
  one_sided_on (the_opts C) m rho act D L -> lipschitz_on (the_opts C) m rho D Lf -> exact_solution (the_opts C) m rho act Y ->
  (forall tm, 0 <= tm <= end_time (the_opts C) rho -> D (Y tm)) ->
  (0 < k)%nat -> (forall c, (c < o_N_stages (the_opts C))%nat -> (k <= o_N_stages (the_opts C) * nfe_of (the_opts C) c)%nat) ->
  (o_equidistant (the_opts C) = true \/ (1 < o_N_stages (the_opts C))%nat) ->
  forall c e, is_element (the_opts C) c e ->
  distance2 m (end_state (the_opts C) (cn_tab C) rho c e) (Y (grid_time (the_opts C) rho c e + step_len (the_opts C) rho c e)) <= B / (INR k * INR k).
Proof. exact (refinement1 cp sc n nx L Lf M T). Qed.
Print Assumptions C94_convergence.

(* x' = 1 (x < 0), x' = -x - 1 (x > 0) from 1 over [0, 2]: the first element ends exactly on the surface, the second one slides *)
Example C94_case : is_problem optsM decay_model None CM /\ feasible (pt fesdM) (the_nlp CM) /\ fesd_setting case_cpoints (the_opts CM) (cn_tab CM) decay_model (pt fesdM) /\
  method Integral RadauIIA 1 (the_opts CM) /\ mode_rule (the_opts CM) decay_model (smallest decay_model) /\
  stages_in (the_opts CM) (cn_tab CM) (pt fesdM) unit_interval /\ segments_in (the_opts CM) (cn_tab CM) (pt fesdM) unit_interval /\
  bounded_on (the_opts CM) decay_model (pt fesdM) unit_interval 2 /\ steps_upto (the_opts CM) (pt fesdM) 1.
Proof. exact track_caseM. Qed.
Example C94_case_step : is_problem optsMs decay_model None CMs /\ feasible (pt fesdMs) (the_nlp CMs) /\ fesd_setting case_cpoints (the_opts CMs) (cn_tab CMs) decay_model (pt fesdMs) /\
  method Integral RadauIIA 1 (the_opts CMs) /\ mode_rule (the_opts CMs) decay_model (in_closed_region decay_model) /\
  stages_in (the_opts CMs) (cn_tab CMs) (pt fesdMs) unit_interval /\ segments_in (the_opts CMs) (cn_tab CMs) (pt fesdMs) unit_interval /\
  bounded_on (the_opts CMs) decay_model (pt fesdMs) unit_interval 2 /\ steps_upto (the_opts CMs) (pt fesdMs) 1.
Proof. exact track_caseMs. Qed.
Example C94_case_fields : one_sided_on (the_opts CM) decay_model (pt fesdM) (smallest decay_model) unit_interval 0 /\ lipschitz_on (the_opts CM) decay_model (pt fesdM) unit_interval 1 /\
  exact_solution (the_opts CM) decay_model (pt fesdM) (smallest decay_model) (fun z _ => decay_solution z) /\
  (forall tm, 0 <= tm <= end_time (the_opts CM) (pt fesdM) -> unit_interval (fun _ => decay_solution tm)).
Proof. exact fieldsM. Qed.
Example C94_case_fields_step : one_sided_on (the_opts CMs) decay_model (pt fesdMs) (in_closed_region decay_model) unit_interval 0 /\ lipschitz_on (the_opts CMs) decay_model (pt fesdMs) unit_interval 1 /\
  exact_solution (the_opts CMs) decay_model (pt fesdMs) (in_closed_region decay_model) (fun z _ => decay_solution z) /\
  (forall tm, 0 <= tm <= end_time (the_opts CMs) (pt fesdMs) -> unit_interval (fun _ => decay_solution tm)).
Proof. exact fieldsMs. Qed.
Example C94_case_refine : o_terminal_time (the_opts CM) = 2%Q /\ ext_upto (o_gamma_h (the_opts CM)) 1 /\
  (forall c, (c < o_N_stages (the_opts CM))%nat -> (2 <= o_N_stages (the_opts CM) * nfe_of (the_opts CM) c)%nat) /\ o_equidistant (the_opts CM) = true.
Proof. exact refine_caseM. Qed.
