(* Props_Exist.v -- C76, C77: which points are feasible, and that there are any *)
From Coq Require Import Reals Qreals.
From Verif Require Import Base Sx Utils Tableau Opts Model Ocp Problem Spec Cases Fesd Spec2 Spec3 Spec4 Witness Spec9 Spec10 Spec11 Spec14
  Exist_proofs ExistStep_proofs Exist2_proofs Exist3_proofs Exist4_proofs Exist5_proofs.
Local Open Scope R_scope.

(* ---- C76 ---- *)
(* every variable and every constraint of the problem: nothing else restricts the feasible points *)
Theorem C76_feasible_set lr cp d o m oc C rho : fesd_problem lr cp d o m oc C -> o_mpcc (the_opts C) <> MBoolean ->
  (feasible rho (the_nlp C) <-> var_bounds (the_opts C) (explicit_end C) m (the_ocp oc) rho /\ nlp_constraints (the_opts C) (cn_tab C) m (the_ocp oc) rho).
Proof. exact (feasible_set lr cp d o m oc C rho). Qed.
Print Assumptions C76_feasible_set.
(* Filippov solutions that are polynomials of degree exact_degree between the grid points are feasible, for arbitrary
   vector fields and switching functions; exact_degree is n_s for the INTEGRAL representation, 1 for the DIFFERENTIAL ones
   with one or two stages. Missing: Gauss points, higher degrees with the DIFFERENTIAL representations, and Filippov
   solutions of the Step problem that are no multi-affine combinations; false in these cases (below). *)
Theorem C76_solutions_feasible_partial lr cp d o m oc C rho p th : fesd_problem lr cp d o m oc C ->
  points_ok cp (the_opts C) -> points_inside cp (the_opts C) -> o_scheme (the_opts C) = RadauIIA ->
  o_use_fesd (the_opts C) = true -> o_time_freezing (the_opts C) = false -> zero_relaxation (the_opts C) rho ->
  plain_model m -> plain_ocp m (the_ocp oc) -> same_globals m rho -> grid_ok (the_opts C) m (the_ocp oc) rho ->
  o_pss (the_opts C) = Stewart -> exact_initial m rho -> polynomial_solution (the_opts C) m rho p th (exact_degree (the_opts C)) ->
  admissible (the_opts C) m (the_ocp oc) rho p -> equilibrated (the_opts C) m rho p th ->
  exists tau, radau_times cp (the_opts C) tau /\ exists r, feasible r (the_nlp C) /\ same_data rho r /\
    (forall c e i, end_state (the_opts C) (cn_tab C) r c e i = state p c e 1 i) /\
    (forall c e j i, is_element (the_opts C) c e -> (j < o_ns (the_opts C))%nat -> (i < m_nx m)%nat ->
       stage_state (the_opts C) (cn_tab C) r c e j i = state p c e (tau j) i) /\
    (forall c e j s k, r (S2 FTheta c e j s k) = th c e (tau j) s k).
Proof. intros FP A B D E F G H I J K. exact (stewart_solutions lr cp d o m oc C rho FP A B D E F G H I J K p th). Qed.
Print Assumptions C76_solutions_feasible_partial.
(* Step: solutions whose velocity is the multi-affine combination of the modes *)
Theorem C76_step_solutions_feasible_partial lr cp d o m oc C rho p al : fesd_problem lr cp d o m oc C ->
  points_ok cp (the_opts C) -> points_inside cp (the_opts C) -> o_scheme (the_opts C) = RadauIIA ->
  o_use_fesd (the_opts C) = true -> o_time_freezing (the_opts C) = false -> zero_relaxation (the_opts C) rho ->
  plain_model m -> plain_ocp m (the_ocp oc) -> same_globals m rho -> grid_ok (the_opts C) m (the_ocp oc) rho ->
  o_pss (the_opts C) = Step -> step_exact_initial m rho -> step_polynomial_solution (the_opts C) m rho p al (exact_degree (the_opts C)) ->
  admissible (the_opts C) m (the_ocp oc) rho p -> step_equilibrated (the_opts C) m rho p al ->
  exists tau, radau_times cp (the_opts C) tau /\ exists r, feasible r (the_nlp C) /\ same_data rho r /\
    (forall c e i, end_state (the_opts C) (cn_tab C) r c e i = state p c e 1 i) /\
    (forall c e j i, is_element (the_opts C) c e -> (j < o_ns (the_opts C))%nat -> (i < m_nx m)%nat ->
       stage_state (the_opts C) (cn_tab C) r c e j i = state p c e (tau j) i) /\
    (forall c e j s k, r (S2 FAlpha c e j s k) = al c e (tau j) s k).
Proof. intros FP A B D E F G H I J K. exact (step_solutions lr cp d o m oc C rho FP A B D E F G H I J K p al). Qed.
Print Assumptions C76_step_solutions_feasible_partial.
(* x1' = x2, x2' = 1 for x1 < 0 and 2 for x1 > 0, from (-1/8, 0), with a switch at t = 1/2 *)
Example C76_case : is_problem optsQd model_quad None CQd /\ points_ok case_cpoints (the_opts CQd) /\ points_inside case_cpoints (the_opts CQd) /\
  o_repr (the_opts CQd) = Integral /\ o_scheme (the_opts CQd) = RadauIIA /\ o_pss (the_opts CQd) = Stewart /\ o_use_fesd (the_opts CQd) = true /\
  o_time_freezing (the_opts CQd) = false /\ o_step_eq (the_opts CQd) = Direct /\ zero_relaxation (the_opts CQd) dataQ /\ plain_model model_quad /\ plain_ocp model_quad (the_ocp None) /\
  same_globals model_quad dataQ /\ exact_initial model_quad dataQ /\ grid_ok (the_opts CQd) model_quad (the_ocp None) dataQ /\
  polynomial_solution (the_opts CQd) model_quad dataQ polyQ weightQ (exact_degree (the_opts CQd)) /\
  admissible (the_opts CQd) model_quad (the_ocp None) dataQ polyQ /\ equilibrated (the_opts CQd) model_quad dataQ polyQ weightQ.
Proof. exact solution_case. Qed.
Example C76_case_step : is_problem optsQs model_quad None CQs /\ points_ok case_cpoints (the_opts CQs) /\ points_inside case_cpoints (the_opts CQs) /\
  o_repr (the_opts CQs) = Integral /\ o_scheme (the_opts CQs) = RadauIIA /\ o_pss (the_opts CQs) = Step /\ o_use_fesd (the_opts CQs) = true /\
  o_time_freezing (the_opts CQs) = false /\ o_step_eq (the_opts CQs) = Direct /\ zero_relaxation (the_opts CQs) dataQs /\ plain_model model_quad /\ plain_ocp model_quad (the_ocp None) /\
  same_globals model_quad dataQs /\ step_exact_initial model_quad dataQs /\ grid_ok (the_opts CQs) model_quad (the_ocp None) dataQs /\
  step_polynomial_solution (the_opts CQs) model_quad dataQs polyQ alphaQ (exact_degree (the_opts CQs)) /\
  admissible (the_opts CQs) model_quad (the_ocp None) dataQs polyQ /\ step_equilibrated (the_opts CQs) model_quad dataQs polyQ alphaQ.
Proof. exact step_solution_case. Qed.
(* Gauss points: the solution of x' = 3 (x < 0), 1 (x > 0) from -1 meets the same conditions, but no point is feasible *)
Theorem C76_gauss_refuted : exists o m C rho p th, is_problem o m None C /\ o_pss (the_opts C) = Stewart /\ o_use_fesd (the_opts C) = true /\
  o_scheme (the_opts C) = GaussLegendre /\ o_time_freezing (the_opts C) = false /\ zero_relaxation (the_opts C) rho /\
  plain_model m /\ plain_ocp m (the_ocp None) /\ same_globals m rho /\ exact_initial m rho /\ grid_ok (the_opts C) m (the_ocp None) rho /\
  polynomial_solution (the_opts C) m rho p th (o_ns (the_opts C)) /\ admissible (the_opts C) m (the_ocp None) rho p /\
  equilibrated (the_opts C) m rho p th /\ forall r, ~ feasible r (the_nlp C).
Proof. exact gauss_excludes. Qed.
Print Assumptions C76_gauss_refuted.
(* DIFFERENTIAL, two stages, degree 2: the rounded table misses the solution of x1' = 1, x2' = x1 *)
Theorem C76_differential_refuted : exists o m C rho p th, is_problem o m None C /\ o_pss (the_opts C) = Stewart /\ o_use_fesd (the_opts C) = true /\
  o_scheme (the_opts C) = RadauIIA /\ o_repr (the_opts C) = Differential /\ o_time_freezing (the_opts C) = false /\ zero_relaxation (the_opts C) rho /\
  plain_model m /\ plain_ocp m (the_ocp None) /\ same_globals m rho /\ exact_initial m rho /\ grid_ok (the_opts C) m (the_ocp None) rho /\
  polynomial_solution (the_opts C) m rho p th (o_ns (the_opts C)) /\ admissible (the_opts C) m (the_ocp None) rho p /\
  equilibrated (the_opts C) m rho p th /\
  exists c e i, is_element (the_opts C) c e /\ (i < m_nx m)%nat /\
    forall r, feasible r (the_nlp C) -> same_data rho r -> end_state (the_opts C) (cn_tab C) r c e i <> state p c e 1 i.
Proof. exact differential_excludes. Qed.
Print Assumptions C76_differential_refuted.
(* DIFFERENTIAL and DIFFERENTIAL_LIFT_X, three and more stages: not even constant velocities are integrated exactly *)
Theorem C76_differential_inexact lr cp d o m oc C rho c e nfe i f : fesd_problem lr cp d o m oc C -> constraints_ok rho (the_nlp C) ->
  o_repr (the_opts C) <> Integral -> o_scheme (the_opts C) = RadauIIA -> (3 <= o_ns (the_opts C))%nat -> is_fe (the_opts C) c e nfe -> (i < m_nx m)%nat ->
  (forall j, (j < o_ns (the_opts C))%nat -> rhs (the_opts C) m (stage_point (the_opts C) (cn_tab C) m rho c e j) i = f) ->
  step_len (the_opts C) rho c e * (speed (the_opts C) rho c * f) <> 0 ->
  end_state (the_opts C) (cn_tab C) rho c e i <> start_state (the_opts C) (cn_tab C) rho c e i + step_len (the_opts C) rho c e * (speed (the_opts C) rho c * f).
Proof. exact (differential_inexact lr cp d o m oc C rho c e nfe i f). Qed.
Print Assumptions C76_differential_inexact.
Example C76_case_inexact : is_problem optsD3 model_one None CD3 /\ feasible rhoD3 (the_nlp CD3) /\ o_repr (the_opts CD3) <> Integral /\ o_scheme (the_opts CD3) = RadauIIA /\
  (3 <= o_ns (the_opts CD3))%nat /\ is_fe (the_opts CD3) 0 0 1 /\
  (forall j, (j < o_ns (the_opts CD3))%nat -> rhs (the_opts CD3) model_one (stage_point (the_opts CD3) (cn_tab CD3) model_one rhoD3 0 0 j) 0 = 1) /\
  step_len (the_opts CD3) rhoD3 0 0 * (speed (the_opts CD3) rhoD3 0 * 1) <> 0.
Proof. exact inexact_case. Qed.
(* Step: x1' = -sgn x1, x2' = -sgn x2, y' = 1 where the signs agree, 0 elsewhere. y' = 1 on x1 = x2 = 0 is a Filippov solution and
   a feasible point of the Stewart problem; in the Step problem y' = 1/2 is forced *)
Theorem C76_step_refuted : exists m C C' rho p th, is_problem (optsX Stewart) m None C /\ is_problem (optsX Step) m None C' /\
  o_pss (the_opts C') = Step /\ o_use_fesd (the_opts C') = true /\ o_scheme (the_opts C') = RadauIIA /\ o_time_freezing (the_opts C') = false /\ zero_relaxation (the_opts C') rho /\
  plain_model m /\ plain_ocp m (the_ocp None) /\ same_globals m rho /\ exact_initial m rho /\ step_exact_initial m rho /\ grid_ok (the_opts C') m (the_ocp None) rho /\
  polynomial_solution (the_opts C') m rho p th (exact_degree (the_opts C')) /\ admissible (the_opts C') m (the_ocp None) rho p /\ equilibrated (the_opts C') m rho p th /\
  (exists r, feasible r (the_nlp C) /\ same_data rho r /\ forall c e i, end_state (the_opts C) (cn_tab C) r c e i = state p c e 1 i) /\
  exists c e i, is_element (the_opts C') c e /\ (i < m_nx m)%nat /\
    forall r, feasible r (the_nlp C') -> same_data rho r -> end_state (the_opts C') (cn_tab C') r c e i <> state p c e 1 i.
Proof. exact step_excludes. Qed.
Print Assumptions C76_step_refuted.

(* ---- C77: x' = a for x < 0, x' = b for x > 0, from x0 <= 0 with a > 0 ---- *)
Theorem C77_solvable lr cp d o a b x0 C : fesd_problem lr cp d o (switch_model a b x0) None C -> points_ok cp (the_opts C) -> points_inside cp (the_opts C) ->
  (1 <= exact_degree (the_opts C))%nat -> o_scheme (the_opts C) = RadauIIA ->
  o_use_fesd (the_opts C) = true -> o_time_freezing (the_opts C) = false -> product_mode (the_opts C) ->
  (elastic (the_opts C) = true -> (o_s_elastic_min (the_opts C) <= 0 <= o_s_elastic_max (the_opts C))%Q) -> o_sot (the_opts C) <> SotLocal ->
  match o_gamma_h (the_opts C) with Fin q => (1 <= q)%Q | PInf => True | NInf => False end -> (0 < o_terminal_time (the_opts C))%Q ->
  (forall c, (c < o_N_stages (the_opts C))%nat -> (2 <= nfe_of (the_opts C) c)%nat) -> (0 < a)%Q -> (x0 <= 0)%Q ->
  exists rho, feasible rho (the_nlp C) /\ zero_relaxation (the_opts C) rho /\ rho (SX0 0) = Q2R x0 /\
    exact_initial (switch_model a b x0) rho /\ step_exact_initial (switch_model a b x0) rho /\ same_globals (switch_model a b x0) rho /\ initial_nonneg rho /\
    (forall c e, is_element (the_opts C) c e -> 0 <= step_len (the_opts C) rho c e) /\
    (forall c e, is_element (the_opts C) c e ->
       end_state (the_opts C) (cn_tab C) rho c e 0 = switch_solution a b x0 (grid_time (the_opts C) rho c e + step_len (the_opts C) rho c e)) /\
    end_time (the_opts C) rho = T (the_opts C) /\
    end_state (the_opts C) (cn_tab C) rho (last_stage (the_opts C)) (last_elem (the_opts C) (last_stage (the_opts C))) 0 = switch_solution a b x0 (T (the_opts C)).
Proof. exact (scalar_feasible lr cp d o a b x0 C). Qed.
Print Assumptions C77_solvable.
(* with gamma_h = 1 and b <= a: there are solutions, and all of them end at the exact one *)
Theorem C77_solvable_and_exact lr cp d o a b x0 C : fesd_problem lr cp d o (switch_model a b x0) None C -> points_ok cp (the_opts C) -> points_inside cp (the_opts C) ->
  weights_nonneg cp (the_opts C) -> o_repr (the_opts C) = Integral -> o_scheme (the_opts C) = RadauIIA ->
  o_use_fesd (the_opts C) = true -> o_time_freezing (the_opts C) = false -> product_mode (the_opts C) ->
  (elastic (the_opts C) = true -> (o_s_elastic_min (the_opts C) <= 0 <= o_s_elastic_max (the_opts C))%Q) -> o_sot (the_opts C) <> SotLocal ->
  o_gamma_h (the_opts C) = Fin 1 -> o_equidistant (the_opts C) = true \/ (1 < o_N_stages (the_opts C))%nat -> (0 < o_terminal_time (the_opts C))%Q ->
  (forall c, (c < o_N_stages (the_opts C))%nat -> (2 <= nfe_of (the_opts C) c)%nat) ->
  (0 < a)%Q -> (b <= a)%Q -> (x0 <= 0)%Q ->
  let final rho := end_state (the_opts C) (cn_tab C) rho (last_stage (the_opts C)) (last_elem (the_opts C) (last_stage (the_opts C))) 0 in
  let admitted rho := feasible rho (the_nlp C) /\ filippov_setting cp (the_opts C) (switch_model a b x0) rho /\ rho (SX0 0) = Q2R x0 in
  (exists rho, admitted rho) /\ forall rho, admitted rho -> final rho = switch_solution a b x0 (T (the_opts C)).
Proof. exact (solvable_exact lr cp d o a b x0 C). Qed.
Print Assumptions C77_solvable_and_exact.
(* x' = 3 and x' = -1 from -1, sliding from 1/3 on; two stages with two and three elements, DIRECT equilibration *)
Example C77_case : is_problem optsSl (switch_model 3 (-1) (-1)) None CSl /\ points_ok case_cpoints (the_opts CSl) /\ points_inside case_cpoints (the_opts CSl) /\
  weights_nonneg case_cpoints (the_opts CSl) /\
  o_repr (the_opts CSl) = Integral /\ o_scheme (the_opts CSl) = RadauIIA /\ o_pss (the_opts CSl) = Stewart /\ o_use_fesd (the_opts CSl) = true /\
  o_time_freezing (the_opts CSl) = false /\ product_mode (the_opts CSl) /\ elastic (the_opts CSl) = false /\ o_sot (the_opts CSl) <> SotLocal /\
  o_gamma_h (the_opts CSl) = Fin 1 /\ o_cross (the_opts CSl) = SumLambdas /\ o_step_eq (the_opts CSl) = Direct /\ o_equidistant (the_opts CSl) = true /\ (0 < o_terminal_time (the_opts CSl))%Q /\
  (forall c, (c < o_N_stages (the_opts CSl))%nat -> (2 <= nfe_of (the_opts CSl) c)%nat).
Proof. exact solvable_case. Qed.
Example C77_case_step : is_problem optsSd (switch_model 3 (-1) (-1)) None CSd /\ points_ok case_cpoints (the_opts CSd) /\ points_inside case_cpoints (the_opts CSd) /\
  (1 <= exact_degree (the_opts CSd))%nat /\ o_scheme (the_opts CSd) = RadauIIA /\ o_pss (the_opts CSd) = Step /\ o_use_fesd (the_opts CSd) = true /\
  o_time_freezing (the_opts CSd) = false /\ product_mode (the_opts CSd) /\ elastic (the_opts CSd) = false /\ o_sot (the_opts CSd) <> SotLocal /\
  o_gamma_h (the_opts CSd) = Fin 1 /\ o_step_eq (the_opts CSd) = DirectComplementarity /\ (0 < o_terminal_time (the_opts CSd))%Q /\
  (forall c, (c < o_N_stages (the_opts CSd))%nat -> (2 <= nfe_of (the_opts CSd) c)%nat).
Proof. exact solvable_case_step. Qed.
(* two elements are needed: a control stage with a single element and the switch inside it makes the problem infeasible *)
Theorem C77_one_element_infeasible lr cp d o a b x0 oc C rho c : fesd_problem lr cp d o (switch_model a b x0) oc C ->
  filippov_setting cp (the_opts C) (switch_model a b x0) rho -> o_use_fesd (the_opts C) = true ->
  o_cross (the_opts C) = SumLambdas \/ t_rbe (cn_tab C) = true -> ext_upto (o_gamma_h (the_opts C)) 1 -> o_sot (the_opts C) <> SotLocal ->
  rho (SX0 0) = Q2R x0 -> (0 < a)%Q -> (b < a)%Q -> (x0 <= 0)%Q -> o_repr (the_opts C) = Integral -> o_equidistant (the_opts C) = true ->
  (0 <= o_terminal_time (the_opts C))%Q -> (c < o_N_stages (the_opts C))%nat -> nfe_of (the_opts C) c = 1%nat ->
  INR c * (T (the_opts C) / INR (o_N_stages (the_opts C))) < - Q2R x0 / Q2R a < INR (S c) * (T (the_opts C) / INR (o_N_stages (the_opts C))) ->
  ~ feasible rho (the_nlp C).
Proof. exact (one_element lr cp d o a b x0 oc C rho c). Qed.
Print Assumptions C77_one_element_infeasible.
Example C77_case_one : is_problem optsO (switch_model 3 1 (-1)) None CO1 /\ filippov_setting case_cpoints (the_opts CO1) (switch_model 3 1 (-1)) rhoS /\
  o_use_fesd (the_opts CO1) = true /\ o_cross (the_opts CO1) = SumLambdas /\ ext_upto (o_gamma_h (the_opts CO1)) 1 /\ o_sot (the_opts CO1) <> SotLocal /\
  o_pss (the_opts CO1) = Stewart /\ rhoS (SX0 0) = Q2R (-1) /\ o_repr (the_opts CO1) = Integral /\ o_equidistant (the_opts CO1) = true /\
  (0 <= o_terminal_time (the_opts CO1))%Q /\ (0 < o_N_stages (the_opts CO1))%nat /\ nfe_of (the_opts CO1) 0 = 1%nat /\
  INR 0 * (T (the_opts CO1) / INR (o_N_stages (the_opts CO1))) < - Q2R (-1) / Q2R 3 < INR 1 * (T (the_opts CO1) / INR (o_N_stages (the_opts CO1))).
Proof. exact one_case. Qed.
