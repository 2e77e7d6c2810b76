(* Props_Forward.v -- C110: time runs forward *)
From Coq Require Import Reals Qreals.
From Verif Require Import Base Sx Utils Tableau Opts Model Ocp Problem Spec Cases Fesd Spec2 Spec3 Spec4 Spec9 Witness Feas_proofs Forward_proofs Even2_proofs.

(* ---- C110 ---- *)
(* with gamma_h at most 1 and a nonnegative horizon, the finite elements of every feasible point follow each other in time, in the order of the code *)
Theorem C110_forward lr cp d o m oc C rho : fesd_problem lr cp d o m oc C -> ext_upto (o_gamma_h (the_opts C)) 1 -> (0 <= o_terminal_time (the_opts C))%Q -> feasible rho (the_nlp C) ->
  forall c e c' e', is_element (the_opts C) c e -> is_element (the_opts C) c' e' -> c < c' \/ c = c' /\ e < e' ->
  (0 <= grid_time (the_opts C) rho c e /\ grid_time (the_opts C) rho c e <= grid_time (the_opts C) rho c e + step_len (the_opts C) rho c e /\
   grid_time (the_opts C) rho c e + step_len (the_opts C) rho c e <= grid_time (the_opts C) rho c' e' /\ grid_time (the_opts C) rho c' e' <= end_time (the_opts C) rho)%R.
Proof. exact (forward lr cp d o m oc C rho). Qed.
Print Assumptions C110_forward.
Example C110_forward_case : is_problem (optsE Direct) model3 None (CE Direct) /\ ext_upto (o_gamma_h (the_opts (CE Direct))) 1 /\ (0 <= o_terminal_time (the_opts (CE Direct)))%Q /\
  feasible (pt (awayE 1)) (the_nlp (CE Direct)) /\ is_element (the_opts (CE Direct)) 0 0 /\ is_element (the_opts (CE Direct)) 0 3.
Proof. exact forward_case. Qed.
(* a negative horizon is accepted; with FESD and gamma_h > 0 the NLP is then infeasible for every model *)
Theorem C110_negative lr cp d o m oc C q rho : fesd_problem lr cp d o m oc C -> o_use_fesd (the_opts C) = true -> o_gamma_h (the_opts C) = Fin q -> (0 < q)%Q -> (o_terminal_time (the_opts C) < 0)%Q ->
  (0 < o_N_stages (the_opts C)) -> ~ feasible rho (the_nlp C).
Proof. exact (no_backward lr cp d o m oc C q rho). Qed.
Print Assumptions C110_negative.
Example C110_negative_case : is_problem optsI model3 None CI /\ o_use_fesd (the_opts CI) = true /\ o_gamma_h (the_opts CI) = Fin 1 /\ (o_terminal_time (the_opts CI) < 0)%Q /\ 0 < o_N_stages (the_opts CI).
Proof. exact (conj problemI setI). Qed.
(* without the bound on gamma_h there are feasible points with a step backwards *)
Theorem C110_gamma_refuted : exists o m C rho, is_problem o m None C /\ (0 < o_terminal_time (the_opts C))%Q /\ o_use_fesd (the_opts C) = true /\ feasible rho (the_nlp C) /\ zero_relaxation (the_opts C) rho /\
  (step_len (the_opts C) rho 0 0 < 0)%R /\ is_element (the_opts C) 0 0.
Proof. exact back_gamma. Qed.
Print Assumptions C110_gamma_refuted.
(* without FESD a negative horizon gives feasible points that run backwards *)
Theorem C110_horizon_refuted : exists o m C rho, is_problem o m None C /\ (o_terminal_time (the_opts C) < 0)%Q /\ feasible rho (the_nlp C) /\ zero_relaxation (the_opts C) rho /\
  (step_len (the_opts C) rho 0 0 < 0)%R /\ is_element (the_opts C) 0 0.
Proof. exact back_time. Qed.
Print Assumptions C110_horizon_refuted.
