(* Props_Optim.v -- C103: minimizers of the NLP are nearly optimal for the switched system *)
From Coq Require Import Reals Qreals.
From Verif Require Import Base Sx Utils Tableau Opts Model Ocp Problem Spec Cases Fesd Spec2 Spec3 Spec4 Spec9 Spec10 Spec11 Witness Feas6_proofs Spec20 Spec21 Spec22 Conv5_proofs Spec24 Spec25 Spec30 Spec31
  Cost3_proofs Optim_proofs Optim2_proofs.
Local Open Scope R_scope.

(* rho minimizes the objective over the feasible points; rho' is any feasible point with the same parameters. The cost that the solution of the switched system
   with the controls of rho has is at most that of the solution with the controls of rho', up to an error that vanishes as the grid is refined and the relaxation
   goes to 0. B depends only on the method and the bounds of the data *)
Theorem C103_relaxed cp sc n nx L M kappa T Lq LT : 0 <= L -> 0 <= M -> 0 <= kappa -> 0 <= Lq -> 0 <= LT -> exists B, 0 <= B /\
  forall lr d o m oc C rho rho' act near D k eps Mq Y J Y' J', fesd_problem lr cp d o m oc C -> elastic (the_opts C) = false ->
  solution_of C rho -> feasible rho' (the_nlp C) -> (forall y, In y (p_p (the_problem C)) -> rho' y = rho y) ->
  relaxed_setting cp (the_opts C) m -> method Integral sc n (the_opts C) -> near_rule (the_opts C) m act near -> (m_nx m <= nx)%nat -> no_left_weight (the_opts C) (cn_tab C) ->
  0 <= eps <= 1 -> relaxed_by (the_opts C) m rho (eps * eps) -> relaxed_by (the_opts C) m rho' (eps * eps) -> (0 <= T)%Q -> fine_grid (the_opts C) T k -> 2 * Q2R T <= INR k ->
  correctable_on (the_opts C) m rho act near D eps (kappa * eps) -> correctable_on (the_opts C) m rho' act near D eps (kappa * eps) ->
  uses_only (plain_sym m) (oc_fq (the_ocp oc)) ->
  cost_data (the_opts C) (cn_tab C) m (the_ocp oc) rho act D M L Lq LT Mq Y J -> cost_data (the_opts C) (cn_tab C) m (the_ocp oc) rho' act D M L Lq LT Mq Y' J' ->
  penalized_cost (the_opts C) (cn_tab C) m (the_ocp oc) rho Y J <= penalized_cost (the_opts C) (cn_tab C) m (the_ocp oc) rho' Y' J' + B * sqrt (/ INR k + eps).
Proof. exact (nearly_optimal cp sc n nx L M kappa T Lq LT). Qed.
Print Assumptions C103_relaxed.
(* exact complementarity and FESD: the error is of first order *)
Theorem C103_fesd cp sc n nx L Lf M T Lq LT : 0 <= L -> 0 <= Lf -> 0 <= M -> 0 <= Lq -> 0 <= LT -> exists B, 0 <= B /\
  forall lr d o m oc C rho rho' act D k Mq Y J Y' J', fesd_problem lr cp d o m oc C -> elastic (the_opts C) = false ->
  solution_of C rho -> feasible rho' (the_nlp C) -> (forall y, In y (p_p (the_problem C)) -> rho' y = rho y) ->
  fesd_setting cp (the_opts C) (cn_tab C) m rho -> fesd_setting cp (the_opts C) (cn_tab C) m rho' -> method Integral sc n (the_opts C) -> mode_rule (the_opts C) m act -> (m_nx m <= nx)%nat ->
  no_left_weight (the_opts C) (cn_tab C) -> (0 <= T)%Q -> fine_grid (the_opts C) T k -> (o_equidistant (the_opts C) = true \/ (1 < o_N_stages (the_opts C))%nat) ->
  segments_in (the_opts C) (cn_tab C) rho D -> segments_in (the_opts C) (cn_tab C) rho' D -> lipschitz_on (the_opts C) m rho D Lf -> lipschitz_on (the_opts C) m rho' D Lf ->
  uses_only (plain_sym m) (oc_fq (the_ocp oc)) ->
  cost_data (the_opts C) (cn_tab C) m (the_ocp oc) rho act D M L Lq LT Mq Y J -> cost_data (the_opts C) (cn_tab C) m (the_ocp oc) rho' act D M L Lq LT Mq Y' J' ->
  penalized_cost (the_opts C) (cn_tab C) m (the_ocp oc) rho Y J <= penalized_cost (the_opts C) (cn_tab C) m (the_ocp oc) rho' Y' J' + B / INR k.
Proof. exact (nearly_optimal_fesd cp sc n nx L Lf M T Lq LT). Qed.
Print Assumptions C103_fesd.

(* x' = 1 (x < 0), x' = -x - 1 (x > 0) from 1, terminal cost x^2, two midpoint steps: 1 to 0 in 2/3, then sliding, is a minimizer *)
Example C103_case : is_problem (with_step_eq optsO Direct) decay_model (Some ocpP) CP /\ elastic (the_opts CP) = false /\ solution_of CP (pt gaussO) /\
  fesd_setting case_cpoints (the_opts CP) (cn_tab CP) decay_model (pt gaussO) /\ method Integral GaussLegendre 1 (the_opts CP) /\
  mode_rule (the_opts CP) decay_model (smallest decay_model) /\ no_left_weight (the_opts CP) (cn_tab CP) /\
  fine_grid (the_opts CP) 1 2 /\ o_equidistant (the_opts CP) = true /\ segments_in (the_opts CP) (cn_tab CP) (pt gaussO) unit_interval /\
  lipschitz_on (the_opts CP) decay_model (pt gaussO) unit_interval 1 /\ uses_only (plain_sym decay_model) (oc_fq (the_ocp (Some ocpP))) /\
  exists J, cost_data (the_opts CP) (cn_tab CP) decay_model (the_ocp (Some ocpP)) (pt gaussO) (smallest decay_model) unit_interval 2 0 0 2 0 (fun z _ => decay_solution z) J.
Proof. exact optimal_case. Qed.
(* the same states with weights that violate complementarity by 1/100 *)
Example C103_case_relaxed : solution_of CP (pt relaxedO) /\ relaxed_setting case_cpoints (the_opts CP) decay_model /\
  near_rule (the_opts CP) decay_model (smallest decay_model) (near_smallest decay_model) /\ relaxed_by (the_opts CP) decay_model (pt relaxedO) (/ 10 * / 10) /\ 2 * Q2R 1 <= INR 2 /\
  correctable_on (the_opts CP) decay_model (pt relaxedO) (smallest decay_model) (near_smallest decay_model) unit_interval (/ 10) (6 * / 10) /\
  exists J, cost_data (the_opts CP) (cn_tab CP) decay_model (the_ocp (Some ocpP)) (pt relaxedO) (smallest decay_model) unit_interval 2 0 0 2 0 (fun z _ => decay_solution z) J.
Proof. exact optimal_case_relaxed. Qed.
