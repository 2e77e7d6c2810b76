(* Props_Cost.v -- C97: the objective of the NLP and the cost of the solution of the switched system *)
From Coq Require Import Reals Qreals.
From Verif Require Import Base Sx Utils Tableau Opts Model Ocp Problem Spec Cases Fesd Spec2 Spec3 Spec4 Witness Witness5 Spec9 Spec10 Spec11 Spec20 Spec21 Spec22 Spec24 Spec25 Conv5_proofs Feas_proofs
  Exact_proofs Exact2_proofs Cost_proofs Cost2_proofs Cost3_proofs.
Local Open Scope R_scope.

(* the objective is the cost of the solution (integral of the running cost plus terminal cost) plus the penalties, up to the errors of the states and of the quadrature *)
Theorem C97_error cp re sc n : exists K, 0 <= K /\
  forall lr d o m oc C rho act near D M h eta Lq LT Mq Y J, fesd_problem lr cp d o m oc C -> feasible rho (the_nlp C) ->
  relaxed_setting cp (the_opts C) m -> method re sc n (the_opts C) -> near_rule (the_opts C) m act near -> no_left_weight (the_opts C) (cn_tab C) ->
  stages_in (the_opts C) (cn_tab C) rho D -> bounded_on (the_opts C) m rho D M -> 0 <= M -> steps_upto (the_opts C) rho h ->
  exact_solution (the_opts C) m rho act Y -> (forall tm, 0 <= tm <= end_time (the_opts C) rho -> D (Y tm)) ->
  grid_close (the_opts C) (cn_tab C) m rho eta Y -> 0 <= eta ->
  uses_only (plain_sym m) (oc_fq (the_ocp oc)) -> rate_lipschitz (the_opts C) m (the_ocp oc) rho D Lq -> 0 <= Lq -> rate_bounded (the_opts C) m (the_ocp oc) rho D Mq ->
  end_lipschitz (the_opts C) m (the_ocp oc) rho D LT ->
  D (end_state (the_opts C) (cn_tab C) rho (last_stage (the_opts C)) (last_elem (the_opts C) (last_stage (the_opts C)))) ->
  accumulated_cost (the_opts C) m (the_ocp oc) rho Y J ->
  Rabs (eval rho (cost (the_nlp C)) - (elastic_penalty (the_opts C) rho +
    cost_scale (the_opts C) rho * (step_penalty (the_opts C) (cn_tab C) m rho + total_cost (the_opts C) m (the_ocp oc) rho Y J))) <=
  Rabs (cost_scale (the_opts C) rho) * ((K * (Lq * (eta + K * M * h)) + weight_error (the_opts C) * Mq) * end_time (the_opts C) rho + LT * eta).
Proof. exact (objective_error cp re sc n). Qed.
Print Assumptions C97_error.
(* as the grid is refined and the relaxation goes to zero *)
Theorem C97_relaxed cp sc n nx L M kappa T Lq LT : 0 <= L -> 0 <= M -> 0 <= kappa -> 0 <= Lq -> 0 <= LT -> exists B, 0 <= B /\
  forall lr d o m oc C rho act near D k eps Mq Y J, fesd_problem lr cp d o m oc C -> feasible rho (the_nlp C) ->
  relaxed_setting cp (the_opts C) m -> method Integral sc n (the_opts C) -> near_rule (the_opts C) m act near -> (m_nx m <= nx)%nat -> no_left_weight (the_opts C) (cn_tab C) ->
  0 <= eps <= 1 -> relaxed_by (the_opts C) m rho (eps * eps) ->
  o_terminal_time (the_opts C) = T -> (0 <= T)%Q -> ext_upto (o_gamma_h (the_opts C)) 1 ->
  stages_in (the_opts C) (cn_tab C) rho D -> bounded_on (the_opts C) m rho D M ->
  correctable_on (the_opts C) m rho act near D eps (kappa * eps) ->
  one_sided_on (the_opts C) m rho act D L -> exact_solution (the_opts C) m rho act Y ->
  (forall tm, 0 <= tm <= end_time (the_opts C) rho -> D (Y tm)) ->
  (0 < k)%nat -> 2 * Q2R T <= INR k -> (forall c, (c < o_N_stages (the_opts C))%nat -> (k <= o_N_stages (the_opts C) * nfe_of (the_opts C) c)%nat) ->
  (o_use_fesd (the_opts C) = false \/ o_equidistant (the_opts C) = true \/ (1 < o_N_stages (the_opts C))%nat) ->
  uses_only (plain_sym m) (oc_fq (the_ocp oc)) -> rate_lipschitz (the_opts C) m (the_ocp oc) rho D Lq -> rate_bounded (the_opts C) m (the_ocp oc) rho D Mq ->
  end_lipschitz (the_opts C) m (the_ocp oc) rho D LT ->
  D (end_state (the_opts C) (cn_tab C) rho (last_stage (the_opts C)) (last_elem (the_opts C) (last_stage (the_opts C)))) ->
  accumulated_cost (the_opts C) m (the_ocp oc) rho Y J ->
  Rabs (eval rho (cost (the_nlp C)) - (elastic_penalty (the_opts C) rho +
    cost_scale (the_opts C) rho * (step_penalty (the_opts C) (cn_tab C) m rho + total_cost (the_opts C) m (the_ocp oc) rho Y J))) <=
  Rabs (cost_scale (the_opts C) rho) * (B * sqrt (/ INR k + eps)).
Proof. exact (objective_relaxed cp sc n nx L M kappa T Lq LT). Qed.
Print Assumptions C97_relaxed.
(* first order with FESD *)
Theorem C97_fesd cp sc n nx L Lf M T Lq LT : 0 <= L -> 0 <= Lf -> 0 <= M -> 0 <= Lq -> 0 <= LT -> exists B, 0 <= B /\
  forall lr d o m oc C rho act D k Mq Y J, fesd_problem lr cp d o m oc C -> feasible rho (the_nlp C) ->
  fesd_setting cp (the_opts C) (cn_tab C) m rho -> method Integral sc n (the_opts C) -> mode_rule (the_opts C) m act -> (m_nx m <= nx)%nat -> no_left_weight (the_opts C) (cn_tab C) ->
  o_terminal_time (the_opts C) = T -> (0 <= T)%Q -> ext_upto (o_gamma_h (the_opts C)) 1 ->
  stages_in (the_opts C) (cn_tab C) rho D -> segments_in (the_opts C) (cn_tab C) rho D -> bounded_on (the_opts C) m rho D M ->
  one_sided_on (the_opts C) m rho act D L -> lipschitz_on (the_opts C) m rho D Lf -> exact_solution (the_opts C) m rho act Y ->
  (forall tm, 0 <= tm <= end_time (the_opts C) rho -> D (Y tm)) ->
  (0 < k)%nat -> (forall c, (c < o_N_stages (the_opts C))%nat -> (k <= o_N_stages (the_opts C) * nfe_of (the_opts C) c)%nat) ->
  (o_equidistant (the_opts C) = true \/ (1 < o_N_stages (the_opts C))%nat) ->
  uses_only (plain_sym m) (oc_fq (the_ocp oc)) -> rate_lipschitz (the_opts C) m (the_ocp oc) rho D Lq -> rate_bounded (the_opts C) m (the_ocp oc) rho D Mq ->
  end_lipschitz (the_opts C) m (the_ocp oc) rho D LT ->
  accumulated_cost (the_opts C) m (the_ocp oc) rho Y J ->
  Rabs (eval rho (cost (the_nlp C)) - cost_scale (the_opts C) rho * (step_penalty (the_opts C) (cn_tab C) m rho + total_cost (the_opts C) m (the_ocp oc) rho Y J)) <=
  Rabs (cost_scale (the_opts C) rho) * (B / INR k).
Proof. exact (objective_fesd cp sc n nx L Lf M T Lq LT). Qed.
Print Assumptions C97_fesd.
(* the cost of a solution exists and is unique *)
Theorem C97_exists o m oc rho act Y (D : (nat -> R) -> Prop) Lq : steps_nonneg o rho -> exact_solution o m rho act Y -> (forall tm, 0 <= tm <= end_time o rho -> D (Y tm)) -> 0 <= Lq ->
  rate_lipschitz o m oc rho D Lq -> exists J, accumulated_cost o m oc rho Y J.
Proof. exact (cost_exists o m oc rho act Y D Lq). Qed.
Print Assumptions C97_exists.
Theorem C97_unique o m oc rho Y J J' : (0 < o_N_stages o)%nat -> steps_nonneg o rho -> (forall c, (c < o_N_stages o)%nat -> (0 < nfe_of o c)%nat) ->
  accumulated_cost o m oc rho Y J -> accumulated_cost o m oc rho Y J' -> J (end_time o rho) = J' (end_time o rho).
Proof. exact (cost_unique o m oc rho Y J J'). Qed.
Print Assumptions C97_unique.

(* x' = 1 (x < 0), x' = -x - 1 (x > 0) from 1 with running and terminal cost x; two midpoint steps with FESD: 1 to 0 in 2/3, then sliding; the 4/9 are 1/3 + 1/9 for the steps *)
Example C97_case : is_problem optsO decay_model (Some ocpO) CO /\ feasible (pt gaussO) (the_nlp CO) /\ eval (pt gaussO) (cost (the_nlp CO)) = 4 / 9 /\
  fesd_setting case_cpoints (the_opts CO) (cn_tab CO) decay_model (pt gaussO) /\ method Integral GaussLegendre 1 (the_opts CO) /\ mode_rule (the_opts CO) decay_model (smallest decay_model) /\ no_left_weight (the_opts CO) (cn_tab CO) /\
  stages_in (the_opts CO) (cn_tab CO) (pt gaussO) unit_interval /\ segments_in (the_opts CO) (cn_tab CO) (pt gaussO) unit_interval /\ bounded_on (the_opts CO) decay_model (pt gaussO) unit_interval 2 /\
  one_sided_on (the_opts CO) decay_model (pt gaussO) (smallest decay_model) unit_interval 0 /\ lipschitz_on (the_opts CO) decay_model (pt gaussO) unit_interval 1 /\
  exact_solution (the_opts CO) decay_model (pt gaussO) (smallest decay_model) (fun z _ => decay_solution z) /\
  (forall tm, 0 <= tm <= end_time (the_opts CO) (pt gaussO) -> unit_interval (fun _ => decay_solution tm)).
Proof. exact cost_case. Qed.
Example C97_case_cost : grid_close (the_opts CO) (cn_tab CO) decay_model (pt gaussO) (/ 8) (fun z _ => decay_solution z) /\ steps_upto (the_opts CO) (pt gaussO) (2 / 3) /\
  uses_only (plain_sym decay_model) (oc_fq (the_ocp (Some ocpO))) /\ rate_lipschitz (the_opts CO) decay_model (the_ocp (Some ocpO)) (pt gaussO) unit_interval 1 /\ rate_bounded (the_opts CO) decay_model (the_ocp (Some ocpO)) (pt gaussO) unit_interval 1 /\
  end_lipschitz (the_opts CO) decay_model (the_ocp (Some ocpO)) (pt gaussO) unit_interval 1 /\ unit_interval (end_state (the_opts CO) (cn_tab CO) (pt gaussO) (last_stage (the_opts CO)) (last_elem (the_opts CO) (last_stage (the_opts CO)))) /\
  (exists J, accumulated_cost (the_opts CO) decay_model (the_ocp (Some ocpO)) (pt gaussO) (fun z _ => decay_solution z) J) /\
  o_terminal_time (the_opts CO) = 1%Q /\ ext_upto (o_gamma_h (the_opts CO)) 1 /\ 2 * Q2R 1 <= INR 2 /\
  (forall c, (c < o_N_stages (the_opts CO))%nat -> (2 <= o_N_stages (the_opts CO) * nfe_of (the_opts CO) c)%nat) /\ o_equidistant (the_opts CO) = true.
Proof. exact cost_case_cost. Qed.
Example C97_case_relaxed : feasible (pt relaxedO) (the_nlp CO) /\ relaxed_setting case_cpoints (the_opts CO) decay_model /\ near_rule (the_opts CO) decay_model (smallest decay_model) (near_smallest decay_model) /\
  relaxed_by (the_opts CO) decay_model (pt relaxedO) (/ 10 * / 10) /\ stages_in (the_opts CO) (cn_tab CO) (pt relaxedO) unit_interval /\ bounded_on (the_opts CO) decay_model (pt relaxedO) unit_interval 2 /\
  correctable_on (the_opts CO) decay_model (pt relaxedO) (smallest decay_model) (near_smallest decay_model) unit_interval (/ 10) (6 * / 10) /\
  one_sided_on (the_opts CO) decay_model (pt relaxedO) (smallest decay_model) unit_interval 0 /\ exact_solution (the_opts CO) decay_model (pt relaxedO) (smallest decay_model) (fun z _ => decay_solution z) /\
  rate_lipschitz (the_opts CO) decay_model (the_ocp (Some ocpO)) (pt relaxedO) unit_interval 1 /\ rate_bounded (the_opts CO) decay_model (the_ocp (Some ocpO)) (pt relaxedO) unit_interval 1 /\
  end_lipschitz (the_opts CO) decay_model (the_ocp (Some ocpO)) (pt relaxedO) unit_interval 1 /\ unit_interval (end_state (the_opts CO) (cn_tab CO) (pt relaxedO) (last_stage (the_opts CO)) (last_elem (the_opts CO) (last_stage (the_opts CO)))) /\
  (exists J, accumulated_cost (the_opts CO) decay_model (the_ocp (Some ocpO)) (pt relaxedO) (fun z _ => decay_solution z) J).
Proof. exact cost_case_relaxed. Qed.

(* false without no_left_weight: with one Radau point the weight 1/2 at the left end is dropped and the objective is half the cost *)
Theorem C97_radau1_refuted : exists o m oc C rho act near D M h eta Mq Y J, is_problem o m (Some oc) C /\ feasible rho (the_nlp C) /\
  relaxed_setting case_cpoints (the_opts C) m /\ method Integral RadauIIA 1 (the_opts C) /\ near_rule (the_opts C) m act near /\
  stages_in (the_opts C) (cn_tab C) rho D /\ bounded_on (the_opts C) m rho D M /\ 0 <= M /\ steps_upto (the_opts C) rho h /\
  exact_solution (the_opts C) m rho act Y /\ (forall tm, 0 <= tm <= end_time (the_opts C) rho -> D (Y tm)) /\
  grid_close (the_opts C) (cn_tab C) m rho eta Y /\ 0 <= eta /\
  uses_only (plain_sym m) (oc_fq oc) /\ rate_lipschitz (the_opts C) m oc rho D 0 /\ rate_bounded (the_opts C) m oc rho D Mq /\
  end_lipschitz (the_opts C) m oc rho D 0 /\
  D (end_state (the_opts C) (cn_tab C) rho (last_stage (the_opts C)) (last_elem (the_opts C) (last_stage (the_opts C)))) /\
  accumulated_cost (the_opts C) m oc rho Y J /\ elastic_penalty (the_opts C) rho = 0 /\ cost_scale (the_opts C) rho = 1 /\ step_penalty (the_opts C) (cn_tab C) m rho = 0 /\
  eval rho (cost (the_nlp C)) = / 2 /\ total_cost (the_opts C) m oc rho Y J = 1 /\
  forall K, ~ Rabs (eval rho (cost (the_nlp C)) - (elastic_penalty (the_opts C) rho +
    cost_scale (the_opts C) rho * (step_penalty (the_opts C) (cn_tab C) m rho + total_cost (the_opts C) m oc rho Y J))) <=
  Rabs (cost_scale (the_opts C) rho) * ((K * (0 * (eta + K * M * h)) + weight_error (the_opts C) * Mq) * end_time (the_opts C) rho + 0 * eta).
Proof. exact half_cost. Qed.
Print Assumptions C97_radau1_refuted.
