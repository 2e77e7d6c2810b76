(* Props_Homot.v -- C102: limits of the homotopy solve the problem with complementarity constraints *)
From Coq Require Import Reals Qreals.
From Verif Require Import Base Sx Utils Tableau Opts Model Ocp Problem Spec Cases Fesd Spec2 Spec3 Witness Spec11 Spec30 Feas6_proofs Homot3_proofs Homot4_proofs Homot5_proofs.
Local Open Scope R_scope.

(* limits of feasible points are feasible for the limit of the parameters, whatever the modes *)
Theorem C102_limit lr cp d o m oc C r rho : construct_problem lr cp d o m oc = Ok C -> (forall k, feasible (r k) (the_nlp C)) ->
  converge_in (w (the_nlp C) ++ p_p (the_problem C)) r rho -> (forall e, In e (g (the_nlp C)) -> regular rho e) -> feasible rho (the_nlp C).
Proof. exact (limit_feasible lr cp d o m oc C r rho). Qed.
Print Assumptions C102_limit.
(* SCHOLTES_INEQ: points stay feasible with the same objective when sigma grows, whatever tau *)
Theorem C102_larger lr cp d o m oc C rho sigma tau : fesd_problem lr cp d o m oc C -> o_mpcc (the_opts C) = ScholtesIneq -> free_of_relaxation m (the_ocp oc) ->
  rho SSigma <= sigma -> feasible rho (the_nlp C) ->
  feasible (with_relaxation rho sigma tau) (the_nlp C) /\ eval (with_relaxation rho sigma tau) (cost (the_nlp C)) = eval rho (cost (the_nlp C)).
Proof. exact (larger_sigma lr cp d o m oc C rho sigma tau). Qed.
Print Assumptions C102_larger.
(* SCHOLTES_INEQ: global solutions converge to global solutions *)
Theorem C102_solution lr cp d o m oc C r rho : fesd_problem lr cp d o m oc C -> o_mpcc (the_opts C) = ScholtesIneq -> free_of_relaxation m (the_ocp oc) ->
  (forall k, solution_of C (r k)) -> (forall k, same_data C (r k) rho) -> (forall k, rho SSigma <= r k SSigma) ->
  converge_in (w (the_nlp C) ++ p_p (the_problem C)) r rho -> (forall e, In e (g (the_nlp C)) -> regular rho e) -> regular rho (cost (the_nlp C)) -> solution_of C rho.
Proof. exact (solution_limit lr cp d o m oc C r rho). Qed.
Print Assumptions C102_solution.
(* and bounded sequences of them have a subsequence that converges to a solution with sigma = 0 *)
Theorem C102_subsequence lr cp d o m oc C r data B : fesd_problem lr cp d o m oc C -> o_mpcc (the_opts C) = ScholtesIneq -> free_of_relaxation m (the_ocp oc) ->
  (forall k, solution_of C (r k)) -> (forall k, same_data C (r k) data) -> (forall k, 0 <= r k SSigma) -> Un_cv (fun k => r k SSigma) 0 ->
  (forall k y, In y (w (the_nlp C) ++ p_p (the_problem C)) -> Rabs (r k y) <= B) ->
  (forall v, bounds_ok v (the_nlp C) -> (forall e, In e (g (the_nlp C)) -> regular v e) /\ regular v (cost (the_nlp C))) ->
  exists phi rho, picks phi /\ converge_in (w (the_nlp C) ++ p_p (the_problem C)) (fun k => r (phi k)) rho /\ rho SSigma = 0 /\ same_data C rho data /\ solution_of C rho.
Proof. exact (solution_cluster lr cp d o m oc C r data B). Qed.
Print Assumptions C102_subsequence.
Example C102_case : is_problem (with_step_eq optsS Direct) model3 None CD /\ o_mpcc (the_opts CD) = ScholtesIneq /\ free_of_relaxation model3 (the_ocp None) /\
  (forall k, solution_of CD (shrinking k)) /\ (forall k, same_data CD (shrinking k) restD) /\ (forall k, 0 < shrinking k SSigma) /\ restD SSigma = 0 /\
  (forall y, Un_cv (fun k => shrinking k y) (restD y)) /\
  (forall v, (forall e, In e (g (the_nlp CD)) -> regular v e) /\ regular v (cost (the_nlp CD))) /\ (10 < length (g (the_nlp CD)))%nat.
Proof. exact caseH. Qed.
Example C102_bounded_case : exists B, forall k y, In y (w (the_nlp CD) ++ p_p (the_problem CD)) -> Rabs (shrinking k y) <= B.
Proof. exact boundedD. Qed.
(* elastic modes: limits have the least possible relaxation and, among the points with this relaxation, the least objective *)
Theorem C102_elastic lr cp d o m oc C r rho : fesd_problem lr cp d o m oc C -> elastic (the_opts C) = true -> free_of_relaxation m (the_ocp oc) ->
  (forall k, solution_of C (r k)) -> (forall k, same_data C (r k) rho) -> (forall k, 0 < r k SSigma) -> rho SSigma = 0 -> (forall y, Un_cv (fun k => r k y) (rho y)) ->
  (forall e, In e (g (the_nlp C)) -> regular rho e) -> regular_costs (the_opts C) (cn_tab C) m (the_ocp oc) rho ->
  feasible rho (the_nlp C) /\
  (forall rho', feasible rho' (the_nlp C) -> same_data C rho' rho -> rho SElastic <= rho' SElastic) /\
  forall rho', feasible rho' (the_nlp C) -> same_data C rho' rho -> rho' SElastic = rho SElastic ->
    plain_cost (the_opts C) (cn_tab C) m (the_ocp oc) rho <= plain_cost (the_opts C) (cn_tab C) m (the_ocp oc) rho'.
Proof. exact (elastic_limit lr cp d o m oc C r rho). Qed.
Print Assumptions C102_elastic.
Example C102_elastic_case : is_problem optsE model3 None CE /\ elastic (the_opts CE) = true /\ free_of_relaxation model3 (the_ocp None) /\
  (forall k, solution_of CE (shrinking k)) /\ (forall k, same_data CE (shrinking k) restD) /\ (forall k, 0 < shrinking k SSigma) /\ restD SSigma = 0 /\
  (forall y, Un_cv (fun k => shrinking k y) (restD y)) /\ (forall e, In e (g (the_nlp CE)) -> regular restD e) /\ regular_costs (the_opts CE) (cn_tab CE) model3 (the_ocp None) restD.
Proof. exact caseHE. Qed.
