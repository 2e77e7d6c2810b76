(* Props_Detect.v -- C95: FESD detects the switches *)
From Coq Require Import Reals Qreals.
From Verif Require Import Base Sx Utils Tableau Opts Model Ocp Problem Numeric Rk4 Results Solver Looper Spec Cases Fesd Spec2 Spec3 Spec4 Spec5 Spec6
  Witness Spec9 Spec10 Spec11 Spec19 Spec21 Spec22 Spec23 Conv5_proofs Conv8_proofs Exact3_proofs Detect_proofs Detect2_proofs Detect3_proofs.
Local Open Scope R_scope.

(* no element straddles a switch: each subsystem has a mode that is active from the start to the end of the element, whatever the
   representation and the vector fields. Missing in all of C95, as in C74: COMPLEMENT_ALL with schemes that do not end on the right
   boundary, and use_fesd=False, where it is false *)
Theorem C95_one_mode_partial lr cp d o m oc C rho act : fesd_problem lr cp d o m oc C -> feasible rho (the_nlp C) ->
  fesd_setting cp (the_opts C) (cn_tab C) m rho -> mode_rule (the_opts C) m act ->
  forall c e s, is_element (the_opts C) c e -> (s < n_subsystems m)%nat ->
  exists k, (k < n_modes m s)%nat /\ forall tau, 0 <= tau <= 1 ->
    act (plain_point m rho c (segment (the_opts C) (cn_tab C) rho c e tau)) s k.
Proof. exact (one_mode lr cp d o m oc C rho act). Qed.
Print Assumptions C95_one_mode_partial.

(* the solution of the switched system has kinks at grid points only *)
Theorem C95_stewart_partial lr cp d o m oc C rho Y L : fesd_problem lr cp d o m oc C -> feasible rho (the_nlp C) ->
  filippov_setting cp (the_opts C) m rho -> o_use_fesd (the_opts C) = true ->
  o_cross (the_opts C) = SumLambdas \/ t_rbe (cn_tab C) = true ->
  ext_upto (o_gamma_h (the_opts C)) 1 -> (0 <= o_terminal_time (the_opts C))%Q ->
  o_pss (the_opts C) = Stewart -> o_repr (the_opts C) = Integral ->
  exact_solution (the_opts C) m rho (smallest m) Y -> 0 <= L -> one_sided (the_opts C) m rho (smallest m) L ->
  forall tm i, 0 < tm < end_time (the_opts C) rho -> (i < m_nx m)%nat -> kink (fun z => Y z i) tm -> on_grid (the_opts C) rho tm.
Proof. exact (stewart_detect lr cp d o m oc C rho Y L). Qed.
Print Assumptions C95_stewart_partial.
Theorem C95_step_partial lr cp d o m oc C rho Y L : fesd_problem lr cp d o m oc C -> feasible rho (the_nlp C) ->
  filippov_setting cp (the_opts C) m rho -> o_use_fesd (the_opts C) = true ->
  o_cross (the_opts C) = SumLambdas \/ t_rbe (cn_tab C) = true ->
  ext_upto (o_gamma_h (the_opts C)) 1 -> (0 <= o_terminal_time (the_opts C))%Q ->
  sign_matrix m -> rows_fit m -> (forall s, (s < n_subsystems m)%nat -> complete m s) ->
  o_pss (the_opts C) = Step -> o_repr (the_opts C) = Integral ->
  exact_solution (the_opts C) m rho (in_closed_region m) Y -> 0 <= L -> one_sided (the_opts C) m rho (in_closed_region m) L ->
  forall tm i, 0 < tm < end_time (the_opts C) rho -> (i < m_nx m)%nat -> kink (fun z => Y z i) tm -> on_grid (the_opts C) rho tm.
Proof. exact (step_detect lr cp d o m oc C rho Y L). Qed.
Print Assumptions C95_step_partial.
(* the same for t_grid of a whole simulation *)
Theorem C95_stewart_simulation_partial lr cp d o m oc C nlp x0 Nsim pv pc wi L s tr L' rho Y Lc : fesd_problem lr cp d o m oc C -> extractable (the_opts C) m ->
  simple_switching cp (the_opts C) m -> o_use_fesd (the_opts C) = true -> o_cross (the_opts C) = SumLambdas \/ t_rbe (cn_tab C) = true ->
  ext_upto (o_gamma_h (the_opts C)) 1 -> (0 <= o_terminal_time (the_opts C))%Q ->
  looper_init (cn_prob C) x0 Nsim pv pc wi = Ok L -> simulation nlp C m 0 L s tr L' ->
  (forall k q, nth_error tr k = Some q -> solved_exactly C (snd q) (rho k)) -> o_pss (the_opts C) = Stewart -> o_repr (the_opts C) = Integral ->
  0 <= Lc -> (forall k, (k < length tr)%nat -> one_sided (the_opts C) m (rho k) (smallest m) Lc) ->
  run_solution (the_opts C) m (smallest m) rho tr x0 Y ->
  forall tm i, 0 < tm < elapsed tr (length tr) -> (i < m_nx m)%nat -> kink (fun z => Y z i) tm -> In tm (looper_t_grid L').
Proof. intros A B D E F G H I J K. exact (stewart_run_detect lr cp d o m oc C A nlp x0 Nsim pv pc wi L s tr L' rho I J B D E F G H K Y Lc). Qed.
Print Assumptions C95_stewart_simulation_partial.
Theorem C95_step_simulation_partial lr cp d o m oc C nlp x0 Nsim pv pc wi L s tr L' rho Y Lc : fesd_problem lr cp d o m oc C -> extractable (the_opts C) m ->
  simple_switching cp (the_opts C) m -> o_use_fesd (the_opts C) = true -> o_cross (the_opts C) = SumLambdas \/ t_rbe (cn_tab C) = true ->
  ext_upto (o_gamma_h (the_opts C)) 1 -> (0 <= o_terminal_time (the_opts C))%Q ->
  looper_init (cn_prob C) x0 Nsim pv pc wi = Ok L -> simulation nlp C m 0 L s tr L' ->
  (forall k q, nth_error tr k = Some q -> solved_exactly C (snd q) (rho k)) ->
  gS_given m = false -> n_subsystems m = 1%nat -> sign_matrix m -> rows_fit m -> complete m 0 -> o_pss (the_opts C) = Step -> o_repr (the_opts C) = Integral ->
  0 <= Lc -> (forall k, (k < length tr)%nat -> one_sided (the_opts C) m (rho k) (in_closed_region m) Lc) ->
  run_solution (the_opts C) m (in_closed_region m) rho tr x0 Y ->
  forall tm i, 0 < tm < elapsed tr (length tr) -> (i < m_nx m)%nat -> kink (fun z => Y z i) tm -> In tm (looper_t_grid L').
Proof. intros A B D E F G H I J K. exact (step_run_detect lr cp d o m oc C A nlp x0 Nsim pv pc wi L s tr L' rho I J B D E F G H K Y Lc). Qed.
Print Assumptions C95_step_simulation_partial.

(* what test/simple_sim_test.py checks for examples/simplest, for every such system, method, grid and number of steps: the simulation
   ends on time in the right state, and has a grid point at the switch with the state on the surface *)
Theorem C95_scalar_partial lr cp d o a b x0 oc C nlp Nsim pv pc wi L s tr L' rho : fesd_problem lr cp d o (switch_model a b x0) oc C ->
  extractable (the_opts C) (switch_model a b x0) -> points_ok cp (the_opts C) -> weights_nonneg cp (the_opts C) ->
  o_use_fesd (the_opts C) = true -> o_cross (the_opts C) = SumLambdas \/ t_rbe (cn_tab C) = true ->
  ext_upto (o_gamma_h (the_opts C)) 1 -> (0 <= o_terminal_time (the_opts C))%Q -> o_sot (the_opts C) <> SotLocal -> o_repr (the_opts C) = Integral ->
  o_equidistant (the_opts C) = true -> (0 < a)%Q -> (b < a)%Q -> (x0 < 0)%Q ->
  looper_init (cn_prob C) [Q2R x0] Nsim pv pc wi = Ok L -> simulation nlp C (switch_model a b x0) 0 L s tr L' ->
  (forall k q, nth_error tr k = Some q -> solved_exactly C (snd q) (rho k)) ->
  let tend := INR (length tr) * Q2R (o_terminal_time (the_opts C)) in
  (nth_error (looper_t_grid L') (length (lp_X_sim L') - 1) = Some tend /\
   exists x, nth_error (lp_X_sim L') (length (lp_X_sim L') - 1) = Some x /\ nth 0 x 0 = switch_solution a b x0 tend) /\
  (- Q2R x0 / Q2R a < tend -> exists j x, nth_error (looper_t_grid L') j = Some (- Q2R x0 / Q2R a) /\ nth_error (lp_X_sim L') j = Some x /\ nth 0 x 0 = 0).
Proof. exact (scalar_detect lr cp d o a b x0 oc C nlp Nsim pv pc wi L s tr L' rho). Qed.
Print Assumptions C95_scalar_partial.

(* with FESD switched off the switch at 1/3 is not a grid point *)
Theorem C95_without_fesd_refuted : exists o C rho Y tm, is_problem o (switch_model 3 1 (-1)) None C /\ feasible rho (the_nlp C) /\
  filippov_setting case_cpoints (the_opts C) (switch_model 3 1 (-1)) rho /\ o_use_fesd (the_opts C) = false /\ o_pss (the_opts C) = Stewart /\
  o_cross (the_opts C) = SumLambdas /\ t_rbe (cn_tab C) = true /\ o_repr (the_opts C) = Integral /\
  exact_solution (the_opts C) (switch_model 3 1 (-1)) rho (smallest (switch_model 3 1 (-1))) Y /\
  one_sided (the_opts C) (switch_model 3 1 (-1)) rho (smallest (switch_model 3 1 (-1))) 0 /\
  0 < tm < end_time (the_opts C) rho /\ kink (fun z => Y z 0%nat) tm /\ ~ on_grid (the_opts C) rho tm.
Proof. exact no_fesd_misses. Qed.
Print Assumptions C95_without_fesd_refuted.
(* nor with COMPLEMENT_ALL and Gauss points *)
Theorem C95_complement_all_refuted : exists o C rho Y tm, is_problem o (switch_model 3 0 (-1)) None C /\ feasible rho (the_nlp C) /\
  filippov_setting case_cpoints (the_opts C) (switch_model 3 0 (-1)) rho /\ o_use_fesd (the_opts C) = true /\ o_pss (the_opts C) = Stewart /\
  o_cross (the_opts C) = ComplementAll /\ t_rbe (cn_tab C) = false /\ o_repr (the_opts C) = Integral /\
  exact_solution (the_opts C) (switch_model 3 0 (-1)) rho (smallest (switch_model 3 0 (-1))) Y /\
  one_sided (the_opts C) (switch_model 3 0 (-1)) rho (smallest (switch_model 3 0 (-1))) 0 /\
  0 < tm < end_time (the_opts C) rho /\ kink (fun z => Y z 0%nat) tm /\ ~ on_grid (the_opts C) rho tm.
Proof. exact complement_all_misses. Qed.
Print Assumptions C95_complement_all_refuted.

(* hypotheses: one_mode as in C94_case; one solve as in C75_case (with the kink below); simulations as in C90_case *)
Example C95_case_mode : is_problem optsM decay_model None CM /\ feasible (pt fesdM) (the_nlp CM) /\ fesd_setting case_cpoints (the_opts CM) (cn_tab CM) decay_model (pt fesdM) /\
  mode_rule (the_opts CM) decay_model (smallest decay_model).
Proof. destruct track_caseM as (A & B & D & _ & E & _). auto. Qed.
Example C95_case_kink : kink (switch_solution 3 1 (-1)) (/ 3).
Proof. exact (scalar_kink 1 ltac:(rewrite RMicromega.Q2R_1; apply (IZR_lt 1 3); reflexivity)). Qed.
