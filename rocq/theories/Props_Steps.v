(* Props_Steps.v -- C101: step equilibration by complementarity constraints *)
From Coq Require Import Reals Qreals.
From Verif Require Import Base Sx Utils Tableau Opts Model Ocp Problem Spec Cases Fesd Spec2 Spec3 Witness Feas_proofs Feas6_proofs Spec9 Spec29 Steps_proofs Steps2_proofs.
Local Open Scope R_scope.

(* DIRECT_COMPLEMENTARITY in the equality modes and ELASTIC_TWO_SIDED. Missing: the other modes, where the property is false *)
Theorem C101_two_sided_partial lr cp d o m oc C rho c e : fesd_problem lr cp d o m oc C -> constraints_ok rho (the_nlp C) ->
  o_use_fesd (the_opts C) = true -> is_element (the_opts C) c e -> (0 < e)%nat -> o_step_eq (the_opts C) = DirectComplementarity -> two_sided (o_mpcc (the_opts C)) ->
  Rabs (nu (the_opts C) (cn_tab C) m rho c e * (rho (SH c e) - rho (SH c (e - 1)))) <= Rabs (relaxation (o_mpcc (the_opts C)) rho).
Proof. intros H1 H2 H3 H4 H5. exact (two_sided_steps lr cp d o m oc C rho H1 H2 H3 c e H4 H5). Qed.
Print Assumptions C101_two_sided_partial.
Theorem C101_equal_steps_partial lr cp d o m oc C rho c e : fesd_problem lr cp d o m oc C -> feasible rho (the_nlp C) ->
  o_use_fesd (the_opts C) = true -> is_element (the_opts C) c e -> (0 < e)%nat -> o_step_eq (the_opts C) = DirectComplementarity -> two_sided (o_mpcc (the_opts C)) ->
  product_mode (the_opts C) -> initial_nonneg rho -> relaxation (o_mpcc (the_opts C)) rho = 0 -> no_switch (the_opts C) (cn_tab C) m rho c e ->
  rho (SH c e) = rho (SH c (e - 1)).
Proof. intros H1 H2 H3 H4 H5 H6 H7. exact (two_sided_equal lr cp d o m oc C rho H1 (proj2 H2) H3 c e H4 H5 H6 H7 (proj1 H2)). Qed.
Print Assumptions C101_equal_steps_partial.
Example C101_equal_steps_case : is_problem optsVe model3 None CVe /\ feasible restD (the_nlp CVe) /\ o_use_fesd (the_opts CVe) = true /\ is_element (the_opts CVe) 0 1 /\
  o_step_eq (the_opts CVe) = DirectComplementarity /\ two_sided (o_mpcc (the_opts CVe)) /\ product_mode (the_opts CVe) /\ initial_nonneg restD /\
  relaxation (o_mpcc (the_opts CVe)) restD = 0 /\ no_switch (the_opts CVe) (cn_tab CVe) model3 restD 0 1.
Proof. exact two_case. Qed.

(* SCHOLTES_INEQ and ELASTIC_INEQ: steps do not grow where no switch happens ... *)
Theorem C101_upper_partial lr cp d o m oc C rho c e : fesd_problem lr cp d o m oc C -> feasible rho (the_nlp C) ->
  o_use_fesd (the_opts C) = true -> is_element (the_opts C) c e -> (0 < e)%nat -> o_step_eq (the_opts C) = DirectComplementarity -> upper_only (o_mpcc (the_opts C)) ->
  product_mode (the_opts C) -> initial_nonneg rho -> relaxation (o_mpcc (the_opts C)) rho = 0 -> no_switch (the_opts C) (cn_tab C) m rho c e ->
  rho (SH c e) <= rho (SH c (e - 1)).
Proof. intros H1 H2 H3 H4 H5 H6 H7. exact (upper_shrink lr cp d o m oc C rho H1 (proj2 H2) H3 c e H4 H5 H6 H7 (proj1 H2)). Qed.
Print Assumptions C101_upper_partial.
(* ... but may shrink: finding *)
Theorem C101_refuted : exists o m C rho, is_problem o m None C /\ feasible rho (the_nlp C) /\ o_use_fesd (the_opts C) = true /\ is_element (the_opts C) 0 1 /\
  o_step_eq (the_opts C) = DirectComplementarity /\ upper_only (o_mpcc (the_opts C)) /\ product_mode (the_opts C) /\ initial_nonneg rho /\
  relaxation (o_mpcc (the_opts C)) rho = 0 /\ no_switch (the_opts C) (cn_tab C) m rho 0 1 /\ rho (SH 0 0) = 3 / 4 /\ rho (SH 0 1) = 1 / 4.
Proof. exact (ex_intro _ _ (ex_intro _ _ (ex_intro _ _ (ex_intro _ _ uneven_case)))). Qed.
Print Assumptions C101_refuted.

(* Fischer-Burmeister: steps never shrink inside a control stage, whatever sigma is, also where a switch happens *)
Theorem C101_fischer_partial lr cp d o m oc C rho c e : fesd_problem lr cp d o m oc C -> constraints_ok rho (the_nlp C) ->
  o_use_fesd (the_opts C) = true -> is_element (the_opts C) c e -> (0 < e)%nat -> o_step_eq (the_opts C) = DirectComplementarity -> fischer_mode (o_mpcc (the_opts C)) ->
  rho (SH c (e - 1)) <= rho (SH c e) /\ 0 <= nu (the_opts C) (cn_tab C) m rho c e /\
  nu (the_opts C) (cn_tab C) m rho c e * (rho (SH c e) - rho (SH c (e - 1))) = rho SSigma * rho SSigma / 2.
Proof. intros H1 H2 H3 H4 H5. exact (fischer_steps lr cp d o m oc C rho H1 H2 H3 c e H4 H5). Qed.
Print Assumptions C101_fischer_partial.
Example C101_fischer_case : is_problem (optsVf DirectComplementarity) model3 None (CVf DirectComplementarity) /\ feasible (pt early) (the_nlp (CVf DirectComplementarity)) /\
  o_use_fesd (the_opts (CVf DirectComplementarity)) = true /\ is_element (the_opts (CVf DirectComplementarity)) 0 1 /\
  o_step_eq (the_opts (CVf DirectComplementarity)) = DirectComplementarity /\ fischer_mode (o_mpcc (the_opts (CVf DirectComplementarity))).
Proof. exact fischer_case. Qed.
(* so a solution with a switch at 3/4 of the horizon is lost: finding *)
Theorem C101_fischer_refuted : exists o1 o2 m C1 C2 rho0, o1 = optsVf Direct /\ o2 = optsVf DirectComplementarity /\ is_problem o1 m None C1 /\ is_problem o2 m None C2 /\
  feasible rho0 (the_nlp C1) /\ rho0 (SH 0 0) = 3 / 4 /\ rho0 (SH 0 1) = 1 / 4 /\
  forall rho, rho (SH 0 0) = 3 / 4 -> rho (SH 0 1) = 1 / 4 -> ~ constraints_ok rho (the_nlp C2).
Proof. exact late_lost. Qed.
Print Assumptions C101_fischer_refuted.

(* HEURISTIC_DELTA_H_COMP: no restriction at all in the inequality modes ... *)
Theorem C101_delta_h_comp_vacuous lr cp d o m oc C1 C2 rho : construct_problem lr cp d (with_step_eq o HeuristicDeltaHComp) m oc = Ok C1 ->
  construct_problem lr cp d (with_step_eq o HeuristicMean) m oc = Ok C2 -> o_constr o = Exact -> well_sized m ->
  (upper_only (o_mpcc o) \/ o_mpcc o = ElasticTwoSided) -> 0 <= relaxation (o_mpcc o) rho ->
  (constraints_ok rho (the_nlp C1) <-> constraints_ok rho (the_nlp C2)).
Proof. exact (heuristic_vacuous lr cp d o m oc C1 C2 rho). Qed.
Print Assumptions C101_delta_h_comp_vacuous.
(* ... and no feasible point in the equality modes and with Fischer-Burmeister as long as the relaxation is not zero *)
Theorem C101_delta_h_comp_infeasible lr cp d o m oc C rho : fesd_problem lr cp d o m oc C -> o_use_fesd (the_opts C) = true ->
  o_step_eq (the_opts C) = HeuristicDeltaHComp -> refined (the_opts C) ->
  (o_mpcc (the_opts C) = ScholtesEq \/ o_mpcc (the_opts C) = ElasticEq \/ fischer_mode (o_mpcc (the_opts C))) ->
  relaxation (o_mpcc (the_opts C)) rho <> 0 -> ~ constraints_ok rho (the_nlp C).
Proof. exact (heuristic_infeasible lr cp d o m oc C rho). Qed.
Print Assumptions C101_delta_h_comp_infeasible.
Example C101_delta_h_comp_case : exists C, is_problem (with_modes optsS Stewart ScholtesEq SumLambdas HeuristicDeltaHComp SotNone true true) model3 None C /\ o_use_fesd (the_opts C) = true /\
  o_step_eq (the_opts C) = HeuristicDeltaHComp /\ refined (the_opts C) /\ o_mpcc (the_opts C) = ScholtesEq /\ 0 < Q2R (o_sigma_0 (the_opts C)).
Proof. exact stuck_case. Qed.
