(* Props_Hord.v -- C100: the order of the method is kept across switches *)
From Coq Require Import Reals Qreals.
From Verif Require Import Base Sx Utils Tableau Opts Model Ocp Problem Spec Cases Fesd Spec2 Spec3 Witness Feas_proofs Spec9 Spec10 Spec11 Spec21 Spec28 Hord4_proofs Hord5_proofs.
Local Open Scope R_scope.

(* end states of all elements and times of all switches: errors of order h^n with the n points of the method *)
Theorem C100_order cp sc n Lf M B Lpsi kappa T Delta last :
  0 <= Lf -> 0 <= M -> 0 <= B -> 0 <= Lpsi -> 0 < kappa -> 0 <= T -> 0 <= Delta -> exists Kc, 0 <= Kc /\
  forall lr d o m oc C rho (D : (nat -> R) -> Prop) h P ph Y,
  fesd_problem lr cp d o m oc C -> feasible rho (the_nlp C) -> points_ok cp (the_opts C) -> points_inside cp (the_opts C) -> plain_fields m ->
  method Integral sc n (the_opts C) -> steps_upto (the_opts C) rho h -> end_time (the_opts C) rho <= T ->
  (forall x y, D x -> D y -> near_by m x y Delta) ->
  (forall r, (r <= last)%nat -> regular_piece (the_opts C) m rho D n Lf M B (P r)) ->
  consists_of (the_opts C) m rho Y P last -> follows (the_opts C) (cn_tab C) m rho D Lpsi kappa P last ph ->
  (forall c e, is_element (the_opts C) c e ->
     near_by m (end_state (the_opts C) (cn_tab C) rho c e) (Y (grid_time (the_opts C) rho c e + step_len (the_opts C) rho c e)) (Kc * h ^ n)) /\
  (forall c e, is_element (the_opts C) c e -> (0 < ph c e)%nat -> (forall c' e', before (the_opts C) c e = Some (c', e') -> ph c' e' <> ph c e) ->
     Rabs (grid_time (the_opts C) rho c e - pc_start (P (ph c e))) <= Kc * h ^ n).
Proof. exact (high_order cp sc n Lf M B Lpsi kappa T Delta last). Qed.
Print Assumptions C100_order.

(* what consists of lawful pieces solves the switched system *)
Theorem C100_solution m C rho (D : (nat -> R) -> Prop) n Lf M B P last Y act : plain_fields m ->
  mode_rule (the_opts C) m act -> steps_nonneg (the_opts C) rho -> (forall r, (r <= last)%nat -> regular_piece (the_opts C) m rho D n Lf M B (P r)) ->
  consists_of (the_opts C) m rho Y P last -> lawful (the_opts C) m rho act P last -> exact_solution (the_opts C) m rho act Y.
Proof. intros H1 H2 H3 H4 H5 H6. exact (pieces_solution m C rho H1 D n Lf M B P last Y act H2 H3 H4 H5 H6). Qed.
Print Assumptions C100_solution.

(* the weights that a feasible point has at a stage with one active mode *)
Theorem C100_one_mode lr cp d o m oc C rho c e act j s ka : fesd_problem lr cp d o m oc C -> feasible rho (the_nlp C) ->
  is_element (the_opts C) c e -> convergence_setting cp (the_opts C) m rho -> mode_rule (the_opts C) m act -> (j < o_ns (the_opts C))%nat ->
  (s < n_subsystems m)%nat -> (ka < n_modes m s)%nat ->
  (forall k, (k < n_modes m s)%nat -> act (plain_point m rho c (stage_state (the_opts C) (cn_tab C) rho c e j)) s k -> k = ka) ->
  forall k, (k < n_modes m s)%nat -> weight (the_opts C) m (stage_point (the_opts C) (cn_tab C) m rho c e j) s k = (if (k =? ka)%nat then 1 else 0).
Proof. intros H1 H2. exact (pure_weights lr cp d o m oc C rho H1 H2 c e act j s ka). Qed.
Print Assumptions C100_one_mode.

(* an element with all its states on a plane: the velocities at its stages are tangent to the plane *)
Theorem C100_tangent lr cp d o m oc C rho c e a a0 : fesd_problem lr cp d o m oc C -> feasible rho (the_nlp C) ->
  is_element (the_opts C) c e -> 0 < step_len (the_opts C) rho c e -> o_repr (the_opts C) = Integral ->
  plane m a a0 (start_state (the_opts C) (cn_tab C) rho c e) ->
  (forall j, (j < o_ns (the_opts C))%nat -> plane m a a0 (stage_state (the_opts C) (cn_tab C) rho c e j)) -> points_ok cp (the_opts C) ->
  forall j, (j < o_ns (the_opts C))%nat ->
  rupto (m_nx m) (fun i => a i * (speed (the_opts C) rho c * rhs (the_opts C) m (stage_point (the_opts C) (cn_tab C) m rho c e j) i)) = 0.
Proof. intros H1 H2 H3 H4 H5 H6 H7. exact (tangent lr cp d o m oc C rho H1 H2 c e a a0 H3 H4 H5 H6 H7). Qed.
Print Assumptions C100_tangent.

(* and the weights at a stage with two active modes are those of the sliding mode *)
Theorem C100_sliding lr cp d o m oc C rho c e a a0 act j ka kb : fesd_problem lr cp d o m oc C -> feasible rho (the_nlp C) ->
  is_element (the_opts C) c e -> 0 < step_len (the_opts C) rho c e -> o_repr (the_opts C) = Integral ->
  plane m a a0 (start_state (the_opts C) (cn_tab C) rho c e) ->
  (forall j, (j < o_ns (the_opts C))%nat -> plane m a a0 (stage_state (the_opts C) (cn_tab C) rho c e j)) ->
  convergence_setting cp (the_opts C) m rho -> mode_rule (the_opts C) m act -> (j < o_ns (the_opts C))%nat ->
  n_subsystems m = 1%nat -> (ka < n_modes m 0)%nat -> (kb < n_modes m 0)%nat -> ka <> kb ->
  (forall k, (k < n_modes m 0)%nat -> act (plain_point m rho c (stage_state (the_opts C) (cn_tab C) rho c e j)) 0%nat k -> k = ka \/ k = kb) ->
  speed (the_opts C) rho c <> 0 ->
  let x := stage_state (the_opts C) (cn_tab C) rho c e j in let th := weight (the_opts C) m (stage_point (the_opts C) (cn_tab C) m rho c e j) in
  th 0%nat ka + th 0%nat kb = 1 /\ th 0%nat ka * normal_speed m rho a c x ka + th 0%nat kb * normal_speed m rho a c x kb = 0.
Proof. intros H1 H2 H3 H4 H5 H6 H7 H8 H9. exact (sliding_weights lr cp d o m oc C rho H1 H2 c e a a0 H3 H4 H5 H6 H7 act H8 H9 j ka kb). Qed.
Print Assumptions C100_sliding.

(* case: Radau IIA with two stages, from 25/88 to the surface in 1/4 instead of ln (113/88), then sliding *)
Example C100_case : is_problem optsH decay_model None CH /\ feasible (pt fesdH) (the_nlp CH) /\ points_ok case_cpoints (the_opts CH) /\
  points_inside case_cpoints (the_opts CH) /\ plain_fields decay_model /\
  method Integral RadauIIA 2 (the_opts CH) /\ steps_upto (the_opts CH) (pt fesdH) (/ 4) /\ end_time (the_opts CH) (pt fesdH) <= / 2 /\
  (forall x y, DH x -> DH y -> near_by decay_model x y 2) /\
  (forall r, (r <= 1)%nat -> regular_piece (the_opts CH) decay_model (pt fesdH) DH 2 1 2 2 (PH r)) /\
  consists_of (the_opts CH) decay_model (pt fesdH) YH PH 1 /\ follows (the_opts CH) (cn_tab CH) decay_model (pt fesdH) DH 1 (/ 2) PH 1 phH /\
  grid_time (the_opts CH) (pt fesdH) 0 1 = / 4 /\ pc_start (PH 1) = ln (113 / 88).
Proof. exact order_case. Qed.
Example C100_solution_case : mode_rule (the_opts CH) decay_model (smallest decay_model) /\ steps_nonneg (the_opts CH) (pt fesdH) /\
  lawful (the_opts CH) decay_model (pt fesdH) (smallest decay_model) PH 1.
Proof. exact solution_case. Qed.
Example C100_sliding_case : convergence_setting case_cpoints (the_opts CH) decay_model (pt fesdH) /\ is_element (the_opts CH) 0 1 /\
  0 < step_len (the_opts CH) (pt fesdH) 0 1 /\ o_repr (the_opts CH) = Integral /\
  plane decay_model (fun _ => 1) 0 (start_state (the_opts CH) (cn_tab CH) (pt fesdH) 0 1) /\
  (forall j, (j < o_ns (the_opts CH))%nat -> plane decay_model (fun _ => 1) 0 (stage_state (the_opts CH) (cn_tab CH) (pt fesdH) 0 1 j)) /\
  speed (the_opts CH) (pt fesdH) 0 <> 0 /\
  (forall x, normal_speed decay_model (pt fesdH) (fun _ => 1) 0 x 0 = 1) /\ (forall x, normal_speed decay_model (pt fesdH) (fun _ => 1) 0 x 1 = - x 0%nat - 1).
Proof. exact sliding_case. Qed.
