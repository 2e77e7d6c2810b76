(* Props_Exact.v -- C75: FESD solutions are the exact solution of the switched system *)
From Coq Require Import Reals Qreals.
From Verif Require Import Base Sx Utils Tableau Opts Model Ocp Problem Spec Cases Fesd Spec2 Spec3 Spec4 Witness Spec9 Spec10
  Filippov4_proofs Exact2_proofs Exact3_proofs.
Local Open Scope R_scope.

(* INTEGRAL: if the switched system satisfies a one-sided Lipschitz condition, every feasible point passes through
   its solution at every grid point. Missing for all options: COMPLEMENT_ALL with schemes that do not end on the
   right boundary, and use_fesd=False, where it is false. *)
Theorem C75_stewart_partial lr cp d o m oc C rho Y L : fesd_problem lr cp d o m oc C -> feasible rho (the_nlp C) ->
  filippov_setting cp (the_opts C) m rho -> o_use_fesd (the_opts C) = true ->
  o_cross (the_opts C) = SumLambdas \/ t_rbe (cn_tab C) = true ->
  ext_upto (o_gamma_h (the_opts C)) 1 -> (0 <= o_terminal_time (the_opts C))%Q ->
  o_pss (the_opts C) = Stewart -> o_repr (the_opts C) = Integral ->
  exact_solution (the_opts C) m rho (smallest m) Y -> 0 <= L -> one_sided (the_opts C) m rho (smallest m) L ->
  forall c e i, is_element (the_opts C) c e -> (i < m_nx m)%nat ->
  end_state (the_opts C) (cn_tab C) rho c e i = Y (grid_time (the_opts C) rho c e + step_len (the_opts C) rho c e) i.
Proof. intros A B D E F G H. exact (stewart_exact lr cp d o m oc C rho A B D E F G H Y L). Qed.
Print Assumptions C75_stewart_partial.
Theorem C75_step_partial lr cp d o m oc C rho Y L : fesd_problem lr cp d o m oc C -> feasible rho (the_nlp C) ->
  filippov_setting cp (the_opts C) m rho -> o_use_fesd (the_opts C) = true ->
  o_cross (the_opts C) = SumLambdas \/ t_rbe (cn_tab C) = true ->
  ext_upto (o_gamma_h (the_opts C)) 1 -> (0 <= o_terminal_time (the_opts C))%Q ->
  sign_matrix m -> rows_fit m -> (forall s, (s < n_subsystems m)%nat -> complete m s) ->
  o_pss (the_opts C) = Step -> o_repr (the_opts C) = Integral ->
  exact_solution (the_opts C) m rho (in_closed_region m) Y -> 0 <= L -> one_sided (the_opts C) m rho (in_closed_region m) L ->
  forall c e i, is_element (the_opts C) c e -> (i < m_nx m)%nat ->
  end_state (the_opts C) (cn_tab C) rho c e i = Y (grid_time (the_opts C) rho c e + step_len (the_opts C) rho c e) i.
Proof. intros A B D E F G H I J K. exact (step_exact lr cp d o m oc C rho A B D E F G H I J K Y L). Qed.
Print Assumptions C75_step_partial.

(* every representation: the error comes from the rounding of the Butcher tables alone *)
Theorem C75_stewart_error_partial lr cp d o m oc C rho Y L M : fesd_problem lr cp d o m oc C -> feasible rho (the_nlp C) ->
  filippov_setting cp (the_opts C) m rho -> o_use_fesd (the_opts C) = true ->
  o_cross (the_opts C) = SumLambdas \/ t_rbe (cn_tab C) = true ->
  ext_upto (o_gamma_h (the_opts C)) 1 -> (0 <= o_terminal_time (the_opts C))%Q ->
  o_pss (the_opts C) = Stewart ->
  exact_solution (the_opts C) m rho (smallest m) Y -> 0 <= L -> one_sided (the_opts C) m rho (smallest m) L ->
  field_bound (the_opts C) m rho M -> 0 <= M ->
  forall c e, is_element (the_opts C) c e -> let tm := grid_time (the_opts C) rho c e + step_len (the_opts C) rho c e in
  distance2 m (end_state (the_opts C) (cn_tab C) rho c e) (Y tm) <=
  weight_error (the_opts C) * M * tm * exp ((2 * L + weight_error (the_opts C)) * tm).
Proof. intros A B D E F G H. exact (stewart_error lr cp d o m oc C rho A B D E F G H Y L M). Qed.
Print Assumptions C75_stewart_error_partial.
Theorem C75_step_error_partial lr cp d o m oc C rho Y L M : fesd_problem lr cp d o m oc C -> feasible rho (the_nlp C) ->
  filippov_setting cp (the_opts C) m rho -> o_use_fesd (the_opts C) = true ->
  o_cross (the_opts C) = SumLambdas \/ t_rbe (cn_tab C) = true ->
  ext_upto (o_gamma_h (the_opts C)) 1 -> (0 <= o_terminal_time (the_opts C))%Q ->
  sign_matrix m -> rows_fit m -> (forall s, (s < n_subsystems m)%nat -> complete m s) ->
  o_pss (the_opts C) = Step ->
  exact_solution (the_opts C) m rho (in_closed_region m) Y -> 0 <= L -> one_sided (the_opts C) m rho (in_closed_region m) L ->
  field_bound (the_opts C) m rho M -> 0 <= M ->
  forall c e, is_element (the_opts C) c e -> let tm := grid_time (the_opts C) rho c e + step_len (the_opts C) rho c e in
  distance2 m (end_state (the_opts C) (cn_tab C) rho c e) (Y tm) <=
  weight_error (the_opts C) * M * tm * exp ((2 * L + weight_error (the_opts C)) * tm).
Proof. intros A B D E F G H I J K. exact (step_error lr cp d o m oc C rho A B D E F G H I J K Y L M). Qed.
Print Assumptions C75_step_error_partial.

(* x' = a for x < 0, x' = b for x > 0, from x0 <= 0 with a > 0 and b <= a: crossing and sliding, for all a, b, x0,
   schemes, representations with their error, stages, elements, Stewart and Step *)
Theorem C75_scalar_partial lr cp d o a b x0 oc C rho : fesd_problem lr cp d o (switch_model a b x0) oc C -> feasible rho (the_nlp C) ->
  filippov_setting cp (the_opts C) (switch_model a b x0) rho -> o_use_fesd (the_opts C) = true ->
  o_cross (the_opts C) = SumLambdas \/ t_rbe (cn_tab C) = true ->
  ext_upto (o_gamma_h (the_opts C)) 1 -> (0 <= o_terminal_time (the_opts C))%Q -> o_sot (the_opts C) <> SotLocal ->
  rho (SX0 0) = Q2R x0 -> (0 < a)%Q -> (b <= a)%Q -> (x0 <= 0)%Q -> o_repr (the_opts C) = Integral ->
  forall c e, is_element (the_opts C) c e ->
  end_state (the_opts C) (cn_tab C) rho c e 0 = switch_solution a b x0 (grid_time (the_opts C) rho c e + step_len (the_opts C) rho c e).
Proof. exact (scalar_exact lr cp d o a b x0 oc C rho). Qed.
Print Assumptions C75_scalar_partial.
Theorem C75_scalar_final_partial lr cp d o a b x0 oc C rho : fesd_problem lr cp d o (switch_model a b x0) oc C -> feasible rho (the_nlp C) ->
  filippov_setting cp (the_opts C) (switch_model a b x0) rho -> o_use_fesd (the_opts C) = true ->
  o_cross (the_opts C) = SumLambdas \/ t_rbe (cn_tab C) = true ->
  ext_upto (o_gamma_h (the_opts C)) 1 -> (0 <= o_terminal_time (the_opts C))%Q -> o_sot (the_opts C) <> SotLocal ->
  rho (SX0 0) = Q2R x0 -> (0 < a)%Q -> (b <= a)%Q -> (x0 <= 0)%Q -> o_repr (the_opts C) = Integral ->
  o_equidistant (the_opts C) = true \/ (1 < o_N_stages (the_opts C))%nat ->
  end_state (the_opts C) (cn_tab C) rho (last_stage (the_opts C)) (last_elem (the_opts C) (last_stage (the_opts C))) 0 =
  switch_solution a b x0 (Q2R (o_terminal_time (the_opts C))).
Proof. exact (scalar_final lr cp d o a b x0 oc C rho). Qed.
Print Assumptions C75_scalar_final_partial.
Theorem C75_scalar_error_partial lr cp d o a b x0 oc C rho : fesd_problem lr cp d o (switch_model a b x0) oc C -> feasible rho (the_nlp C) ->
  filippov_setting cp (the_opts C) (switch_model a b x0) rho -> o_use_fesd (the_opts C) = true ->
  o_cross (the_opts C) = SumLambdas \/ t_rbe (cn_tab C) = true ->
  ext_upto (o_gamma_h (the_opts C)) 1 -> (0 <= o_terminal_time (the_opts C))%Q -> o_sot (the_opts C) <> SotLocal ->
  rho (SX0 0) = Q2R x0 -> (0 < a)%Q -> (b <= a)%Q -> (x0 <= 0)%Q ->
  forall c e, is_element (the_opts C) c e -> let tm := grid_time (the_opts C) rho c e + step_len (the_opts C) rho c e in
  (end_state (the_opts C) (cn_tab C) rho c e 0 - switch_solution a b x0 tm) * (end_state (the_opts C) (cn_tab C) rho c e 0 - switch_solution a b x0 tm) <=
  weight_error (the_opts C) * (Q2R a * Q2R a + Q2R b * Q2R b) * tm * exp (weight_error (the_opts C) * tm).
Proof. exact (scalar_error lr cp d o a b x0 oc C rho). Qed.
Print Assumptions C75_scalar_error_partial.

Example C75_case : is_problem (with_cross optsS SumLambdas) (switch_model 3 1 (-1)) None CS1 /\ feasible rhoS (the_nlp CS1) /\
  filippov_setting case_cpoints (the_opts CS1) (switch_model 3 1 (-1)) rhoS /\ o_use_fesd (the_opts CS1) = true /\
  o_cross (the_opts CS1) = SumLambdas /\ ext_upto (o_gamma_h (the_opts CS1)) 1 /\ (0 <= o_terminal_time (the_opts CS1))%Q /\
  o_sot (the_opts CS1) <> SotLocal /\ rhoS (SX0 0) = Q2R (-1) /\ o_repr (the_opts CS1) = Integral /\ o_equidistant (the_opts CS1) = true.
Proof. exact scalar_case. Qed.
Example C75_case_step : is_problem optsT (switch_model 3 1 (-1)) None CT /\ feasible rhoT (the_nlp CT) /\
  filippov_setting case_cpoints (the_opts CT) (switch_model 3 1 (-1)) rhoT /\ o_use_fesd (the_opts CT) = true /\ o_pss (the_opts CT) = Step /\
  (o_cross (the_opts CT) = SumLambdas \/ t_rbe (cn_tab CT) = true) /\ ext_upto (o_gamma_h (the_opts CT)) 1 /\ (0 <= o_terminal_time (the_opts CT))%Q /\
  o_sot (the_opts CT) <> SotLocal /\ rhoT (SX0 0) = Q2R (-1).
Proof. exact scalar_caseT. Qed.
Example C75_case_general : exact_solution (the_opts CS1) (switch_model 3 1 (-1)) rhoS (smallest (switch_model 3 1 (-1))) (fun z _ => switch_solution 3 1 (-1) z) /\
  one_sided (the_opts CS1) (switch_model 3 1 (-1)) rhoS (smallest (switch_model 3 1 (-1))) 0 /\ field_bound (the_opts CS1) (switch_model 3 1 (-1)) rhoS 10.
Proof. exact general_case. Qed.

(* COMPLEMENT_ALL with Gauss points: the final state is 1/2, the solution slides at 0 *)
Theorem C75_complement_all_refuted : exists o C rho, is_problem o (switch_model 3 0 (-1)) None C /\ feasible rho (the_nlp C) /\
  filippov_setting case_cpoints (the_opts C) (switch_model 3 0 (-1)) rho /\ o_use_fesd (the_opts C) = true /\ o_pss (the_opts C) = Stewart /\
  o_cross (the_opts C) = ComplementAll /\ t_rbe (cn_tab C) = false /\ o_sot (the_opts C) <> SotLocal /\ rho (SX0 0) = Q2R (-1) /\
  o_repr (the_opts C) = Integral /\ o_equidistant (the_opts C) = true /\ is_element (the_opts C) 0 1 /\
  grid_time (the_opts C) rho 0 1 + step_len (the_opts C) rho 0 1 = 1 /\ end_state (the_opts C) (cn_tab C) rho 0 1 0 = / 2 /\ switch_solution 3 0 (-1) 1 = 0.
Proof. exact complement_all_inexact. Qed.
Print Assumptions C75_complement_all_refuted.
(* use_fesd=False: the implicit Euler step ends at 0 instead of 2/3 *)
Theorem C75_without_fesd_refuted : exists o C rho, is_problem o (switch_model 3 1 (-1)) None C /\ feasible rho (the_nlp C) /\
  filippov_setting case_cpoints (the_opts C) (switch_model 3 1 (-1)) rho /\ o_use_fesd (the_opts C) = false /\
  o_cross (the_opts C) = SumLambdas /\ t_rbe (cn_tab C) = true /\ o_sot (the_opts C) <> SotLocal /\ rho (SX0 0) = Q2R (-1) /\
  o_repr (the_opts C) = Integral /\ o_terminal_time (the_opts C) = 1%Q /\
  end_state (the_opts C) (cn_tab C) rho (last_stage (the_opts C)) (last_elem (the_opts C) (last_stage (the_opts C))) 0 = 0 /\ switch_solution 3 1 (-1) 1 = 2 / 3.
Proof. exact no_fesd_inexact. Qed.
Print Assumptions C75_without_fesd_refuted.
(* without the one-sided condition feasible points need not agree: x' = sign x from 0 *)
Theorem C75_without_one_sided_refuted : exists o m C rho1 rho2, is_problem o m None C /\ feasible rho1 (the_nlp C) /\ feasible rho2 (the_nlp C) /\
  filippov_setting case_cpoints (the_opts C) m rho1 /\ filippov_setting case_cpoints (the_opts C) m rho2 /\ o_use_fesd (the_opts C) = true /\
  o_cross (the_opts C) = SumLambdas /\ rho1 (SX0 0) = rho2 (SX0 0) /\
  end_state (the_opts C) (cn_tab C) rho1 0 1 0 = -1 /\ end_state (the_opts C) (cn_tab C) rho2 0 1 0 = 1.
Proof. exact two_solutions. Qed.
Print Assumptions C75_without_one_sided_refuted.
