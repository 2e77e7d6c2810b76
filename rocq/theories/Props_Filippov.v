(* Props_Filippov.v -- C74: feasible points of FESD problems are Filippov solutions of the piecewise smooth system *)
From Coq Require Import Reals Qreals.
From Verif Require Import Base Sx Utils Tableau Opts Model Ocp Problem Spec Cases Fesd Spec2 Spec3 Witness Spec9
  Filippov_proofs Filippov2_proofs Filippov3_proofs Filippov4_proofs.

(* One trajectory over the whole horizon: Lipschitz, from x0 through the end states of all elements, and between
   grid points its derivative is (up to the rounding of the Butcher tables, zero for INTEGRAL) a convex combination
   of the modes whose region value is smallest there.
   Missing for all options: COMPLEMENT_ALL with schemes that do not end on the right boundary, where it is false. *)
Theorem C74_stewart_partial lr cp d o m oc C rho : fesd_problem lr cp d o m oc C -> feasible rho (the_nlp C) ->
  filippov_setting cp (the_opts C) m rho -> o_use_fesd (the_opts C) = true ->
  o_cross (the_opts C) = SumLambdas \/ t_rbe (cn_tab C) = true ->
  o_pss (the_opts C) = Stewart -> steps_nonneg (the_opts C) rho ->
  exists X, filippov_trajectory (the_opts C) (cn_tab C) m rho (smallest m) X.
Proof. exact (stewart_filippov lr cp d o m oc C rho). Qed.
Print Assumptions C74_stewart_partial.

(* Step: the weights are those of modes whose closed region contains the state *)
Theorem C74_step_partial lr cp d o m oc C rho : fesd_problem lr cp d o m oc C -> feasible rho (the_nlp C) ->
  filippov_setting cp (the_opts C) m rho -> o_use_fesd (the_opts C) = true ->
  o_cross (the_opts C) = SumLambdas \/ t_rbe (cn_tab C) = true ->
  o_pss (the_opts C) = Step -> sign_matrix m -> rows_fit m -> (forall s, s < n_subsystems m -> complete m s) ->
  steps_nonneg (the_opts C) rho ->
  exists X, filippov_trajectory (the_opts C) (cn_tab C) m rho (in_closed_region m) X.
Proof. exact (step_filippov lr cp d o m oc C rho). Qed.
Print Assumptions C74_step_partial.

(* the two notions of active mode agree when S lists all sign combinations *)
Theorem C74_active_modes lr cp d o m oc C v s k : fesd_problem lr cp d o m oc C -> o_pss (the_opts C) = Stewart ->
  gS_given m = false -> sign_matrix m -> s < n_subsystems m -> complete m s ->
  (forall i, i < n_modes m s -> full_row m s i) -> k < n_modes m s ->
  (smallest m v s k <-> in_closed_region m v s k).
Proof. exact (smallest_region lr cp d o m oc C v s k). Qed.
Print Assumptions C74_active_modes.

(* a single element, whatever the other steps are: derivative at every time, both ends included *)
Theorem C74_stewart_element_partial lr cp d o m oc C rho c e : fesd_problem lr cp d o m oc C -> feasible rho (the_nlp C) ->
  filippov_setting cp (the_opts C) m rho -> o_use_fesd (the_opts C) = true ->
  o_cross (the_opts C) = SumLambdas \/ t_rbe (cn_tab C) = true ->
  o_pss (the_opts C) = Stewart -> is_element (the_opts C) c e -> (0 < step_len (the_opts C) rho c e)%R ->
  exists kappa, (Rabs (kappa - 1) <= weight_error (the_opts C))%R /\
    filippov_solution (the_opts C) (cn_tab C) m rho (smallest m) c e kappa.
Proof. intros A B D E F. exact (stewart_solution lr cp d o m oc C rho A B D E F c e). Qed.
Print Assumptions C74_stewart_element_partial.
Theorem C74_step_element_partial lr cp d o m oc C rho c e : fesd_problem lr cp d o m oc C -> feasible rho (the_nlp C) ->
  filippov_setting cp (the_opts C) m rho -> o_use_fesd (the_opts C) = true ->
  o_cross (the_opts C) = SumLambdas \/ t_rbe (cn_tab C) = true ->
  o_pss (the_opts C) = Step -> sign_matrix m -> rows_fit m -> (forall s, s < n_subsystems m -> complete m s) ->
  is_element (the_opts C) c e -> (0 < step_len (the_opts C) rho c e)%R ->
  exists kappa, (Rabs (kappa - 1) <= weight_error (the_opts C))%R /\
    filippov_solution (the_opts C) (cn_tab C) m rho (in_closed_region m) c e kappa.
Proof. intros A B D E F. exact (step_solution lr cp d o m oc C rho A B D E F c e). Qed.
Print Assumptions C74_step_element_partial.

(* x' = 3 for x < 0, x' = 1 for x > 0, from -1, with a switch at t = 1/3 *)
Example C74_case_stewart : is_problem (with_cross optsS SumLambdas) model3 None CS1 /\ feasible rhoS (the_nlp CS1) /\
  filippov_setting case_cpoints (the_opts CS1) model3 rhoS /\ o_use_fesd (the_opts CS1) = true /\ o_pss (the_opts CS1) = Stewart /\
  o_cross (the_opts CS1) = SumLambdas /\ steps_nonneg (the_opts CS1) rhoS.
Proof. exact filippov_caseS. Qed.
Example C74_case_step : is_problem optsT model3 None CT /\ feasible rhoT (the_nlp CT) /\
  filippov_setting case_cpoints (the_opts CT) model3 rhoT /\ o_use_fesd (the_opts CT) = true /\ o_pss (the_opts CT) = Step /\
  o_cross (the_opts CT) = SumLambdas /\ sign_matrix model3 /\ rows_fit model3 /\ (forall s, s < n_subsystems model3 -> complete model3 s) /\
  steps_nonneg (the_opts CT) rhoT.
Proof. exact filippov_caseT. Qed.
Example C74_case_modes : is_problem (with_cross optsS SumLambdas) model3 None CS1 /\ o_pss (the_opts CS1) = Stewart /\ gS_given model3 = false /\
  sign_matrix model3 /\ 0 < n_subsystems model3 /\ complete model3 0 /\ (forall i, i < n_modes model3 0 -> full_row model3 0 i).
Proof. exact region_case. Qed.

(* COMPLEMENT_ALL with Gauss points: an element runs past the switching surface *)
Theorem C74_complement_all_refuted : exists o m C rho, is_problem o m None C /\ feasible rho (the_nlp C) /\
  filippov_setting case_cpoints (the_opts C) m rho /\ o_use_fesd (the_opts C) = true /\ o_pss (the_opts C) = Stewart /\
  o_cross (the_opts C) = ComplementAll /\ t_rbe (cn_tab C) = false /\ is_element (the_opts C) 0 0 /\ (0 < step_len (the_opts C) rho 0 0)%R /\
  forall kappa, (Rabs (kappa - 1) <= weight_error (the_opts C))%R -> ~ filippov_element (the_opts C) (cn_tab C) m rho (smallest m) 0 0 kappa.
Proof. exact complement_all_not_filippov. Qed.
Print Assumptions C74_complement_all_refuted.
(* use_fesd = False: a step uses a mode that is not active where the step starts *)
Theorem C74_without_fesd_refuted : exists o m C rho, is_problem o m None C /\ feasible rho (the_nlp C) /\
  filippov_setting case_cpoints (the_opts C) m rho /\ o_use_fesd (the_opts C) = false /\ o_pss (the_opts C) = Stewart /\
  o_cross (the_opts C) = SumLambdas /\ t_rbe (cn_tab C) = true /\ is_element (the_opts C) 0 0 /\ (0 < step_len (the_opts C) rho 0 0)%R /\
  forall kappa, (Rabs (kappa - 1) <= weight_error (the_opts C))%R -> ~ filippov_element (the_opts C) (cn_tab C) m rho (smallest m) 0 0 kappa.
Proof. exact no_fesd_not_filippov. Qed.
Print Assumptions C74_without_fesd_refuted.
