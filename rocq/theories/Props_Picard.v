(* Props_Picard.v -- C108: short steps give a feasible point of an initial value problem that stays in one mode, and only one *)
From Coq Require Import Reals Qreals.
From Verif Require Import Base Sx Utils Tableau Opts Model Ocp Problem Spec Cases Fesd Spec2 Spec3 Spec4 Witness Spec9 Spec10 Spec11 Spec14 Spec21 Spec36 Spec37
  Picard2_proofs Picard3_proofs Picard4_proofs Picard5_proofs Picard6_proofs.
Local Open Scope R_scope.

(* ---- C108 ---- *)
(* polynomials that satisfy the differential equation, the constraints and the switching conditions at the collocation points give a feasible point *)
Theorem C108_collocation lr cp d o m oc C rho p th : fesd_problem lr cp d o m oc C ->
  points_ok cp (the_opts C) -> points_inside cp (the_opts C) -> o_scheme (the_opts C) = RadauIIA -> o_repr (the_opts C) = Integral -> o_pss (the_opts C) = Stewart ->
  o_use_fesd (the_opts C) = true -> o_time_freezing (the_opts C) = false -> zero_relaxation (the_opts C) rho ->
  plain_model m -> plain_ocp m (the_ocp oc) -> same_globals m rho -> exact_initial m rho -> grid_ok (the_opts C) m (the_ocp oc) rho ->
  collocation_solution (the_opts C) m rho p th (point_of cp (the_opts C)) (o_ns (the_opts C)) ->
  admissible_at (the_opts C) m (the_ocp oc) rho p (point_of cp (the_opts C)) ->
  equilibrated_at (the_opts C) m rho p th (point_of cp (the_opts C)) ->
  exists r, feasible r (the_nlp C) /\ same_data rho r /\
    (forall c e i, end_state (the_opts C) (cn_tab C) r c e i = state p c e 1 i) /\
    (forall c e j i, is_element (the_opts C) c e -> (j < o_ns (the_opts C))%nat -> (i < m_nx m)%nat ->
       stage_state (the_opts C) (cn_tab C) r c e j i = state p c e (point_of cp (the_opts C) j) i) /\
    (forall c e j s k, r (S2 FTheta c e j s k) = th c e (point_of cp (the_opts C) j) s k).
Proof. exact (collocation_points lr cp d o m oc C rho p th). Qed.
Print Assumptions C108_collocation.
(* the Butcher matrix of distinct points exists *)
Theorem C108_matrix pts : distinct pts -> exists Lam, row_bound pts Lam.
Proof. exact (butcher_exists pts). Qed.
Print Assumptions C108_matrix.
(* an initial value problem that stays in one mode in a ball, on which its field is bounded and Lipschitz: with short steps the NLP has a feasible point.
   Missing: the DIFFERENTIAL representations, Gauss points, the Step reformulation, and problems that change their mode. *)
Theorem C108_exists_partial lr cp d o m oc C rho mode r L M Lam : fesd_problem lr cp d o m oc C ->
  points_ok cp (the_opts C) -> points_inside cp (the_opts C) -> o_scheme (the_opts C) = RadauIIA -> o_repr (the_opts C) = Integral -> o_pss (the_opts C) = Stewart ->
  zero_relaxation (the_opts C) rho -> plain_model m -> row_bound (cp (o_ns (the_opts C)) (o_scheme (the_opts C))) Lam ->
  mode_problem (the_opts C) m rho mode r L M -> short_steps (the_opts C) rho Lam r L M ->
  o_use_fesd (the_opts C) = true -> o_time_freezing (the_opts C) = false -> plain_ocp m (the_ocp oc) -> same_globals m rho -> exact_initial m rho ->
  grid_ok (the_opts C) m (the_ocp oc) rho -> ball_admissible (the_opts C) m (the_ocp oc) rho r -> even_steps (the_opts C) rho ->
  exists rs, feasible rs (the_nlp C) /\ same_data rho rs /\
    (forall c e j, is_element (the_opts C) c e -> (j < o_ns (the_opts C))%nat -> close_to_start m rho r (stage_state (the_opts C) (cn_tab C) rs c e j)) /\
    (forall c e j s k, rs (S2 FTheta c e j s k) = pure mode s k).
Proof. exact (mode_feasible lr cp d o m oc C rho mode r L M Lam). Qed.
Print Assumptions C108_exists_partial.
(* and all feasible points in the ball have the same states; the same cases are missing *)
Theorem C108_unique_partial lr cp d o m oc C rho mode r L M Lam : fesd_problem lr cp d o m oc C ->
  points_ok cp (the_opts C) -> points_inside cp (the_opts C) -> o_scheme (the_opts C) = RadauIIA -> o_repr (the_opts C) = Integral -> o_pss (the_opts C) = Stewart ->
  zero_relaxation (the_opts C) rho -> plain_model m -> row_bound (cp (o_ns (the_opts C)) (o_scheme (the_opts C))) Lam ->
  mode_problem (the_opts C) m rho mode r L M -> short_steps (the_opts C) rho Lam r L M -> initial_nonneg rho -> mode_strict (the_opts C) m rho mode r ->
  forall r1 r2, feasible r1 (the_nlp C) -> same_data rho r1 -> feasible r2 (the_nlp C) -> same_data rho r2 ->
  (forall c e j, is_element (the_opts C) c e -> (j < o_ns (the_opts C))%nat -> close_to_start m rho r (stage_state (the_opts C) (cn_tab C) r1 c e j)) ->
  (forall c e j, is_element (the_opts C) c e -> (j < o_ns (the_opts C))%nat -> close_to_start m rho r (stage_state (the_opts C) (cn_tab C) r2 c e j)) ->
  forall c e j i, is_element (the_opts C) c e -> (j < o_ns (the_opts C))%nat -> (i < m_nx m)%nat ->
  stage_state (the_opts C) (cn_tab C) r1 c e j i = stage_state (the_opts C) (cn_tab C) r2 c e j i.
Proof. exact (stage_unique lr cp d o m oc C rho mode r L M Lam). Qed.
Print Assumptions C108_unique_partial.
(* and in fact the same values of all variables of the NLP *)
Theorem C108_point_partial lr cp d o m oc C rho mode r L M Lam : fesd_problem lr cp d o m oc C ->
  points_ok cp (the_opts C) -> points_inside cp (the_opts C) -> o_scheme (the_opts C) = RadauIIA -> o_repr (the_opts C) = Integral -> o_pss (the_opts C) = Stewart ->
  zero_relaxation (the_opts C) rho -> plain_model m -> row_bound (cp (o_ns (the_opts C)) (o_scheme (the_opts C))) Lam ->
  mode_problem (the_opts C) m rho mode r L M -> short_steps (the_opts C) rho Lam r L M -> initial_nonneg rho -> mode_strict (the_opts C) m rho mode r ->
  forall r1 r2, feasible r1 (the_nlp C) -> same_data rho r1 -> feasible r2 (the_nlp C) -> same_data rho r2 ->
  (forall c e j, is_element (the_opts C) c e -> (j < o_ns (the_opts C))%nat -> close_to_start m rho r (stage_state (the_opts C) (cn_tab C) r1 c e j)) ->
  (forall c e j, is_element (the_opts C) c e -> (j < o_ns (the_opts C))%nat -> close_to_start m rho r (stage_state (the_opts C) (cn_tab C) r2 c e j)) ->
  forall y, In y (w (the_nlp C)) -> r1 y = r2 y.
Proof. exact (point_unique lr cp d o m oc C rho mode r L M Lam). Qed.
Print Assumptions C108_point_partial.
(* x' = x^2 / 8 from 1, with the ball of radius 1/2 *)
Example C108_case : is_problem optsP model_sq None CP /\ points_ok case_cpoints (the_opts CP) /\ points_inside case_cpoints (the_opts CP) /\
  o_scheme (the_opts CP) = RadauIIA /\ o_repr (the_opts CP) = Integral /\ o_pss (the_opts CP) = Stewart /\ o_use_fesd (the_opts CP) = true /\ o_time_freezing (the_opts CP) = false /\
  zero_relaxation (the_opts CP) dataP /\ plain_model model_sq /\ plain_ocp model_sq (the_ocp None) /\ same_globals model_sq dataP /\ exact_initial model_sq dataP /\ initial_nonneg dataP /\
  grid_ok (the_opts CP) model_sq (the_ocp None) dataP /\ ball_admissible (the_opts CP) model_sq (the_ocp None) dataP (1 / 2) /\ even_steps (the_opts CP) dataP /\
  row_bound (case_cpoints (o_ns (the_opts CP)) (o_scheme (the_opts CP))) 1 /\ mode_problem (the_opts CP) model_sq dataP modeP (1 / 2) (3 / 8) (9 / 32) /\
  mode_strict (the_opts CP) model_sq dataP modeP (1 / 2) /\ short_steps (the_opts CP) dataP 1 (1 / 2) (3 / 8) (9 / 32).
Proof. exact case_picard. Qed.
(* without short steps this fails: x' = x^2 / 2 from 1 stays in one mode, and its solution 2 / (2 - t) in the ball, but one step of implicit Euler over [0, 1] has no solution *)
Theorem C108_steps_refuted : exists o m C rho mode r L M Lam Y, is_problem o m None C /\ o_pss (the_opts C) = Stewart /\ o_repr (the_opts C) = Integral /\ o_scheme (the_opts C) = RadauIIA /\
  zero_relaxation (the_opts C) rho /\ plain_model m /\ exact_initial m rho /\ grid_ok (the_opts C) m (the_ocp None) rho /\
  mode_problem (the_opts C) m rho mode r L M /\ row_bound (case_cpoints (o_ns (the_opts C)) (o_scheme (the_opts C))) Lam /\ steps_nonneg (the_opts C) rho /\
  exact_solution (the_opts C) m rho (smallest m) Y /\ (forall z, 0 <= z <= end_time (the_opts C) rho -> close_to_start m rho r (Y z)) /\
  forall rs, same_data rho rs -> ~ feasible rs (the_nlp C).
Proof. exact long_step. Qed.
Print Assumptions C108_steps_refuted.
