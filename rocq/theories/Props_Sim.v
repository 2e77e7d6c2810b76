(* Props_Sim.v -- C90: a simulation follows the switched system *)
From Coq Require Import Reals Qreals.
From Verif Require Import Base Sx Utils Tableau Opts Model Ocp Problem Numeric Rk4 Results Solver Looper Spec Cases Fesd Spec2 Spec3 Spec4 Spec5 Spec6
  Witness Spec9 Spec10 Spec19 Sim4_proofs Sim5_proofs Sim6_proofs.
Local Open Scope R_scope.

(* X_sim and t_grid of a simulation lie on one curve that moves with velocities of the Filippov set, whatever the lengths
   of the steps and wherever the switches fall. Missing, as in C74: COMPLEMENT_ALL with schemes that do not end on the
   right boundary, and use_fesd=False, where it is false. *)
Theorem C90_stewart_partial lr cp d o m oc C nlp x0 Nsim pv pc wi L s tr L' rho : fesd_problem lr cp d o m oc C -> extractable (the_opts C) m ->
  simple_switching cp (the_opts C) m -> o_use_fesd (the_opts C) = true -> o_cross (the_opts C) = SumLambdas \/ t_rbe (cn_tab C) = true ->
  ext_upto (o_gamma_h (the_opts C)) 1 -> (0 <= o_terminal_time (the_opts C))%Q ->
  looper_init (cn_prob C) x0 Nsim pv pc wi = Ok L -> simulation nlp C m 0 L s tr L' ->
  (forall k q, nth_error tr k = Some q -> solved_exactly C (snd q) (rho k)) -> o_pss (the_opts C) = Stewart ->
  exists X, simulated (the_opts C) m (smallest m) rho tr (looper_t_grid L') (lp_X_sim L') X.
Proof. intros A B D E F G H. exact (stewart_run lr cp d o m oc C A B D E F G H nlp x0 Nsim pv pc wi L s tr L' rho). Qed.
Print Assumptions C90_stewart_partial.
Theorem C90_step_partial lr cp d o m oc C nlp x0 Nsim pv pc wi L s tr L' rho : fesd_problem lr cp d o m oc C -> extractable (the_opts C) m ->
  simple_switching cp (the_opts C) m -> o_use_fesd (the_opts C) = true -> o_cross (the_opts C) = SumLambdas \/ t_rbe (cn_tab C) = true ->
  ext_upto (o_gamma_h (the_opts C)) 1 -> (0 <= o_terminal_time (the_opts C))%Q ->
  looper_init (cn_prob C) x0 Nsim pv pc wi = Ok L -> simulation nlp C m 0 L s tr L' ->
  (forall k q, nth_error tr k = Some q -> solved_exactly C (snd q) (rho k)) ->
  gS_given m = false -> n_subsystems m = 1%nat -> sign_matrix m -> rows_fit m -> complete m 0 -> o_pss (the_opts C) = Step ->
  exists X, simulated (the_opts C) m (in_closed_region m) rho tr (looper_t_grid L') (lp_X_sim L') X.
Proof. intros A B D E F G H. exact (step_run lr cp d o m oc C A B D E F G H nlp x0 Nsim pv pc wi L s tr L' rho). Qed.
Print Assumptions C90_step_partial.
(* the steps last terminal_time each *)
Theorem C90_times lr cp d o m oc C nlp x0 Nsim pv pc wi L s tr L' rho : fesd_problem lr cp d o m oc C -> extractable (the_opts C) m ->
  o_use_fesd (the_opts C) = true -> looper_init (cn_prob C) x0 Nsim pv pc wi = Ok L -> simulation nlp C m 0 L s tr L' ->
  (forall k q, nth_error tr k = Some q -> solved_exactly C (snd q) (rho k)) -> o_equidistant (the_opts C) = true ->
  forall k, (k <= length tr)%nat -> elapsed tr k = INR k * Q2R (o_terminal_time (the_opts C)).
Proof. intros A B D. exact (run_times lr cp d o m oc C A B D nlp x0 Nsim pv pc wi L s tr L' rho). Qed.
Print Assumptions C90_times.

(* INTEGRAL and the one-sided Lipschitz condition: X_sim are values of the solution of the switched system over the whole simulation *)
Theorem C90_stewart_exact_partial lr cp d o m oc C nlp x0 Nsim pv pc wi L s tr L' rho Y Lc : fesd_problem lr cp d o m oc C -> extractable (the_opts C) m ->
  simple_switching cp (the_opts C) m -> o_use_fesd (the_opts C) = true -> o_cross (the_opts C) = SumLambdas \/ t_rbe (cn_tab C) = true ->
  ext_upto (o_gamma_h (the_opts C)) 1 -> (0 <= o_terminal_time (the_opts C))%Q ->
  looper_init (cn_prob C) x0 Nsim pv pc wi = Ok L -> simulation nlp C m 0 L s tr L' ->
  (forall k q, nth_error tr k = Some q -> solved_exactly C (snd q) (rho k)) -> o_pss (the_opts C) = Stewart -> o_repr (the_opts C) = Integral ->
  0 <= Lc -> (forall k, (k < length tr)%nat -> one_sided (the_opts C) m (rho k) (smallest m) Lc) ->
  run_solution (the_opts C) m (smallest m) rho tr x0 Y ->
  forall j tm x i, nth_error (looper_t_grid L') j = Some tm -> nth_error (lp_X_sim L') j = Some x -> (i < m_nx m)%nat -> nth i x 0 = Y tm i.
Proof. intros A B D E F G H I J K. exact (stewart_run_exact lr cp d o m oc C A B D E F G H nlp x0 Nsim pv pc wi L s tr L' rho I J K Y Lc). Qed.
Print Assumptions C90_stewart_exact_partial.
Theorem C90_step_exact_partial lr cp d o m oc C nlp x0 Nsim pv pc wi L s tr L' rho Y Lc : fesd_problem lr cp d o m oc C -> extractable (the_opts C) m ->
  simple_switching cp (the_opts C) m -> o_use_fesd (the_opts C) = true -> o_cross (the_opts C) = SumLambdas \/ t_rbe (cn_tab C) = true ->
  ext_upto (o_gamma_h (the_opts C)) 1 -> (0 <= o_terminal_time (the_opts C))%Q ->
  looper_init (cn_prob C) x0 Nsim pv pc wi = Ok L -> simulation nlp C m 0 L s tr L' ->
  (forall k q, nth_error tr k = Some q -> solved_exactly C (snd q) (rho k)) ->
  gS_given m = false -> n_subsystems m = 1%nat -> sign_matrix m -> rows_fit m -> complete m 0 -> o_pss (the_opts C) = Step -> o_repr (the_opts C) = Integral ->
  0 <= Lc -> (forall k, (k < length tr)%nat -> one_sided (the_opts C) m (rho k) (in_closed_region m) Lc) ->
  run_solution (the_opts C) m (in_closed_region m) rho tr x0 Y ->
  forall j tm x i, nth_error (looper_t_grid L') j = Some tm -> nth_error (lp_X_sim L') j = Some x -> (i < m_nx m)%nat -> nth i x 0 = Y tm i.
Proof. intros A B D E F G H I J K M N P R T. exact (step_run_exact lr cp d o m oc C A B D E F G H nlp x0 Nsim pv pc wi L s tr L' rho I J K M N P R T Y Lc). Qed.
Print Assumptions C90_step_exact_partial.

(* x' = a for x < 0, x' = b for x > 0: every number of steps, crossing and sliding, Stewart and Step *)
Theorem C90_scalar_partial lr cp d o a b x0 oc C nlp Nsim pv pc wi L s tr L' rho : fesd_problem lr cp d o (switch_model a b x0) oc C ->
  extractable (the_opts C) (switch_model a b x0) -> points_ok cp (the_opts C) -> weights_nonneg cp (the_opts C) ->
  o_use_fesd (the_opts C) = true -> o_cross (the_opts C) = SumLambdas \/ t_rbe (cn_tab C) = true ->
  ext_upto (o_gamma_h (the_opts C)) 1 -> (0 <= o_terminal_time (the_opts C))%Q -> o_sot (the_opts C) <> SotLocal -> o_repr (the_opts C) = Integral ->
  (0 < a)%Q -> (b <= a)%Q -> (x0 <= 0)%Q ->
  looper_init (cn_prob C) [Q2R x0] Nsim pv pc wi = Ok L -> simulation nlp C (switch_model a b x0) 0 L s tr L' ->
  (forall k q, nth_error tr k = Some q -> solved_exactly C (snd q) (rho k)) ->
  forall j tm x, nth_error (looper_t_grid L') j = Some tm -> nth_error (lp_X_sim L') j = Some x -> nth 0 x 0 = switch_solution a b x0 tm.
Proof. exact (scalar_run lr cp d o a b x0 oc C nlp Nsim pv pc wi L s tr L' rho). Qed.
Print Assumptions C90_scalar_partial.

(* two steps of x' = 3 for x < 0, x' = 1 for x > 0 from -1, with the switch in the first *)
Example C90_case : exists nlp L s' L' tr, looper_init (cn_prob CS1) [Q2R (-1)] 2 None 0 None = Ok L /\
  run nlp CS1 false L (initial_state CS1) = (s', L', Ok true) /\ simulation nlp CS1 (switch_model 3 1 (-1)) 0 L (initial_state CS1) tr L' /\ length tr = 2%nat /\
  (forall k q, nth_error tr k = Some q -> solved_exactly CS1 (snd q) (rhos2 k)).
Proof. exact two_steps_case. Qed.
Example C90_case_setting : is_problem (with_cross optsS SumLambdas) (switch_model 3 1 (-1)) None CS1 /\ extractable (the_opts CS1) (switch_model 3 1 (-1)) /\
  simple_switching case_cpoints (the_opts CS1) (switch_model 3 1 (-1)) /\ o_use_fesd (the_opts CS1) = true /\ o_cross (the_opts CS1) = SumLambdas /\
  ext_upto (o_gamma_h (the_opts CS1)) 1 /\ (0 <= o_terminal_time (the_opts CS1))%Q /\ o_pss (the_opts CS1) = Stewart /\ o_repr (the_opts CS1) = Integral /\
  o_equidistant (the_opts CS1) = true /\ o_sot (the_opts CS1) <> SotLocal.
Proof. exact two_steps_setting. Qed.
Example C90_case_exact tr : (forall k, (k < length tr)%nat -> one_sided (the_opts CS1) (switch_model 3 1 (-1)) (rhos2 k) (smallest (switch_model 3 1 (-1))) 0) /\
  run_solution (the_opts CS1) (switch_model 3 1 (-1)) (smallest (switch_model 3 1 (-1))) rhos2 tr [Q2R (-1)] (fun z _ => switch_solution 3 1 (-1) z).
Proof. exact (two_steps_exact tr). Qed.
