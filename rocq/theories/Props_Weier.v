(* Props_Weier.v -- C107: with bounded variables the NLP has a global solution *)
From Coq Require Import Reals Qreals.
From Verif Require Import Base Sx Utils Tableau Opts Model Ocp Problem Spec Cases Fesd Spec2 Spec3 Witness Spec11 Spec30 Spec35 Weier_proofs Weier2_proofs Weier3_proofs.
Local Open Scope R_scope.

(* a bounded set of better points suffices, whatever the modes *)
Theorem C107_solution lr cp d o m oc C data B : construct_problem lr cp d o m oc = Ok C -> feasible data (the_nlp C) ->
  (forall v, feasible v (the_nlp C) -> params_of C v data -> eval v (cost (the_nlp C)) <= eval data (cost (the_nlp C)) -> forall y, In y (w (the_nlp C)) -> Rabs (v y) <= B) ->
  (forall v, bounds_ok v (the_nlp C) -> (forall e, In e (g (the_nlp C)) -> regular v e) /\ regular v (cost (the_nlp C))) ->
  exists rho, solution_of C rho /\ params_of C rho data /\ forall y, In y (w (the_nlp C)) -> Rabs (rho y) <= B.
Proof. intros H. exact (has_solution lr cp d o m oc C H data B). Qed.
Print Assumptions C107_solution.
(* bounds for states, controls and global variables bound the multipliers too, also the ones of the relaxed problems *)
Theorem C107_bounded lr cp d o m oc C data sigma : fesd_problem lr cp d o m oc C -> product_mode (the_opts C) -> stages_bounded (the_opts C) m ->
  finite_bounds (the_opts C) m (the_ocp oc) -> continuous_switching m -> initial_nonneg data ->
  exists B, forall v, feasible v (the_nlp C) -> same_data C v data -> v SSigma <= sigma -> forall y, In y (w (the_nlp C)) -> Rabs (v y) <= B.
Proof. intros FP PM RI FB CS. exact (points_bounded lr cp d o m oc C FP PM RI FB CS data sigma). Qed.
Print Assumptions C107_bounded.
Theorem C107_exists lr cp d o m oc C data : fesd_problem lr cp d o m oc C -> product_mode (the_opts C) -> stages_bounded (the_opts C) m ->
  finite_bounds (the_opts C) m (the_ocp oc) -> continuous_switching m ->
  (forall v, bounds_ok v (the_nlp C) -> (forall e, In e (g (the_nlp C)) -> regular v e) /\ regular v (cost (the_nlp C))) ->
  feasible data (the_nlp C) -> initial_nonneg data -> exists rho, solution_of C rho /\ params_of C rho data.
Proof. exact (bounded_solution lr cp d o m oc C data). Qed.
Print Assumptions C107_exists.
(* SCHOLTES_INEQ: every problem of the homotopy has a solution, and solutions have a subsequence that converges to a solution of the problem with complementarity constraints *)
Theorem C107_homotopy lr cp d o m oc C data : fesd_problem lr cp d o m oc C -> o_mpcc (the_opts C) = ScholtesIneq -> stages_bounded (the_opts C) m ->
  finite_bounds (the_opts C) m (the_ocp oc) -> continuous_switching m -> free_of_relaxation m (the_ocp oc) ->
  (forall v, bounds_ok v (the_nlp C) -> (forall e, In e (g (the_nlp C)) -> regular v e) /\ regular v (cost (the_nlp C))) ->
  feasible data (the_nlp C) -> data SSigma = 0 -> initial_nonneg data ->
  (forall sigma tau, 0 <= sigma -> exists rho, solution_of C rho /\ params_of C rho (with_relaxation data sigma tau)) /\
  forall r b, (forall k, solution_of C (r k)) -> (forall k, same_data C (r k) data) -> (forall k, 0 <= r k SSigma) -> Un_cv (fun k => r k SSigma) 0 -> (forall k, Rabs (r k STau) <= b) ->
  exists phi rho, picks phi /\ converge_in (w (the_nlp C) ++ p_p (the_problem C)) (fun k => r (phi k)) rho /\ rho SSigma = 0 /\ same_data C rho data /\ solution_of C rho.
Proof. exact (bounded_homotopy lr cp d o m oc C data). Qed.
Print Assumptions C107_homotopy.
Example C107_case : is_problem (with_step_eq optsS Direct) model_u (Some ocp_u) CU /\ o_mpcc (the_opts CU) = ScholtesIneq /\ stages_bounded (the_opts CU) model_u /\
  finite_bounds (the_opts CU) model_u (the_ocp (Some ocp_u)) /\ continuous_switching model_u /\ free_of_relaxation model_u (the_ocp (Some ocp_u)) /\
  (forall v, (forall e, In e (g (the_nlp CU)) -> regular v e) /\ regular v (cost (the_nlp CU))) /\
  feasible (pt pointU) (the_nlp CU) /\ pt pointU SSigma = 0 /\ initial_nonneg (pt pointU) /\ (10 < length (w (the_nlp CU)))%nat.
Proof. exact case_bounded. Qed.
(* step reformulation, slopes and stage values as variables *)
Example C107_case_lifted : is_problem optsL model_u (Some ocp_u) CL /\ o_mpcc (the_opts CL) = ScholtesIneq /\ o_repr (the_opts CL) = DifferentialLiftX /\ stages_bounded (the_opts CL) model_u /\
  finite_bounds (the_opts CL) model_u (the_ocp (Some ocp_u)) /\ continuous_switching model_u /\ free_of_relaxation model_u (the_ocp (Some ocp_u)) /\
  (forall v, (forall e, In e (g (the_nlp CL)) -> regular v e) /\ regular v (cost (the_nlp CL))) /\
  feasible (pt pointL) (the_nlp CL) /\ pt pointL SSigma = 0 /\ initial_nonneg (pt pointL).
Proof. exact case_lifted. Qed.
(* Gauss points: multipliers at the end of an element *)
Example C107_case_gauss : is_problem (with_cross optsG ComplementAll) model4 (Some ocp_g) CGb /\ o_mpcc (the_opts CGb) = ScholtesIneq /\ explicit_end CGb = false /\ stages_bounded (the_opts CGb) model4 /\
  finite_bounds (the_opts CGb) model4 (the_ocp (Some ocp_g)) /\ continuous_switching model4 /\ free_of_relaxation model4 (the_ocp (Some ocp_g)) /\
  (forall v, (forall e, In e (g (the_nlp CGb)) -> regular v e) /\ regular v (cost (the_nlp CGb))) /\
  feasible rhoG (the_nlp CGb) /\ rhoG SSigma = 0 /\ initial_nonneg rhoG /\ In (S2 FLam 0 0 1 0 0) (w (the_nlp CGb)).
Proof. exact case_gauss. Qed.
