(* Props_Results.v -- C08-C10, C47, C48: the results read off a primal vector. primal C rho is the
   vector of the values of problem.w at the point rho; every vector of that length is one
   (C47_results_consistent_partial is stated for vectors). extractable is defined in Spec4.v. *)
From Coq Require Import Reals Qreals Lra.
From Verif Require Import Base Sx Utils Tableau Opts Model Ocp Problem Spec Cases Fesd Spec2 Witness Results Spec4
  Results4_proofs Results5_proofs Witness8.

(* ---- C08 ---- *)
(* missing: one control stage with a non-equidistant grid and LEAST_SQUARES (false, below) *)
Theorem C08_grid_ends_at_terminal_time_partial lr cp d o m oc C rho x0 : fesd_problem lr cp d o m oc C -> extractable (the_opts C) m ->
  constraints_ok rho (the_nlp C) ->
  (o_use_fesd (the_opts C) = true -> o_equidistant (the_opts C) = false -> 1 < o_N_stages (the_opts C)) ->
  exists r, get_results (cn_prob C) x0 (primal C rho) = Ok r /\ first_is (rs_t_grid r) 0%R /\
    last_is (rs_t_grid r) (Q2R (o_terminal_time (the_opts C))).
Proof. exact (grid_terminal_time lr cp d o m oc C rho x0). Qed.
Print Assumptions C08_grid_ends_at_terminal_time_partial.
Example C08_case : is_problem optsS model3 None CS /\ extractable (the_opts CS) model3 /\ feasible rhoS (the_nlp CS) /\ o_equidistant (the_opts CS) = true.
Proof. split; [exact problemS|]. split; [exact extractS|]. split; [exact feasibleS|]. vm_compute. reflexivity. Qed.
Theorem C08_refuted : exists o m C rho, is_problem o m None C /\ extractable (the_opts C) m /\ feasible rho (the_nlp C) /\
  forall x0, exists r, get_results (cn_prob C) x0 (primal C rho) = Ok r /\ last_is (rs_t_grid r) (2 / 3)%R /\ Q2R (o_terminal_time (the_opts C)) = 1%R.
Proof. exists optsN, model3, CN, (pt shortN). exact (conj problemN (conj extractN (conj feasibleN short_grid))). Qed.
Print Assumptions C08_refuted.
(* LEAST_SQUARES turns the constraints on the step sizes into a penalty *)
Theorem C08_least_squares_refuted : exists o m C rho, construct_problem case_log_round case_cpoints ipopt_init o m None = Ok C /\
  extractable (the_opts C) m /\ feasible rho (the_nlp C) /\ o_equidistant (the_opts C) = true /\
  forall x0, exists r, get_results (cn_prob C) x0 (primal C rho) = Ok r /\ last_is (rs_t_grid r) (2 / 3)%R /\ Q2R (o_terminal_time (the_opts C)) = 1%R.
Proof.
  exists optsQ, model3, CQ, (pt shortQ). split; [exact (made _ _ _ _ builtQ)|]. split; [exact extractQ|]. split; [exact feasibleQ_|].
  split; [vm_compute; reflexivity|]. intros x0. destruct (least_squares_grid x0) as (r & A & B & _ & _ & _ & D). eauto.
Qed.
Print Assumptions C08_least_squares_refuted.
Example C08_case_boolean : is_problem optsBo model3 None CBo /\ extractable (the_opts CBo) model3 /\ feasible rhoBo (the_nlp CBo).
Proof. exact (conj problemBo (conj extractBo feasibleBo)). Qed.

(* ---- C09 ---- *)
(* missing: LEAST_SQUARES with FESD (false, below) *)
Theorem C09_control_grid_equidistant_partial lr cp d o m oc C rho x0 : fesd_problem lr cp d o m oc C -> extractable (the_opts C) m ->
  constraints_ok rho (the_nlp C) -> o_equidistant (the_opts C) = true ->
  exists r, get_results (cn_prob C) x0 (primal C rho) = Ok r /\ length (rs_t_grid_u r) = o_N_stages (the_opts C) + 1 /\
   forall k, k <= o_N_stages (the_opts C) ->
     nth_error (rs_t_grid_u r) k = Some (INR k * Q2R (o_terminal_time (the_opts C)) / INR (o_N_stages (the_opts C)))%R.
Proof. exact (grid_equidistant lr cp d o m oc C rho x0). Qed.
Print Assumptions C09_control_grid_equidistant_partial.
(* without FESD it needs no feasibility and no restriction of the modes *)
Theorem C09_control_grid_standard lr cp d o m oc C rho x0 : construct_problem lr cp d o m oc = Ok C -> extractable (the_opts C) m ->
  o_use_fesd (the_opts C) = false ->
  exists r, get_results (cn_prob C) x0 (primal C rho) = Ok r /\
   forall k, k <= o_N_stages (the_opts C) ->
     nth_error (rs_t_grid_u r) k = Some (INR k * Q2R (o_terminal_time (the_opts C)) / INR (o_N_stages (the_opts C)))%R.
Proof. exact (grid_plain lr cp d o m oc C rho x0). Qed.
Print Assumptions C09_control_grid_standard.
Theorem C09_least_squares_refuted : exists o m C rho, construct_problem case_log_round case_cpoints ipopt_init o m None = Ok C /\
  extractable (the_opts C) m /\ feasible rho (the_nlp C) /\
  forall x0, exists r, get_results (cn_prob C) x0 (primal C rho) = Ok r /\ nth_error (rs_t_grid_u r) 1 = Some (2 / 3)%R /\
    o_N_stages (the_opts C) = 1 /\ o_equidistant (the_opts C) = true /\ Q2R (o_terminal_time (the_opts C)) = 1%R.
Proof.
  exists optsQ, model3, CQ, (pt shortQ). split; [exact (made _ _ _ _ builtQ)|]. split; [exact extractQ|]. split; [exact feasibleQ_|].
  intros x0. destruct (least_squares_grid x0) as (r & A & _ & B). eauto.
Qed.
Print Assumptions C09_least_squares_refuted.

(* ---- C10 ---- *)
Theorem C10_time_runs_forward lr cp d o m oc C rho x0 : construct_problem lr cp d o m oc = Ok C -> extractable (the_opts C) m ->
  bounds_ok rho (the_nlp C) -> ext_upto (o_gamma_h (the_opts C)) 1 -> (0 <= o_terminal_time (the_opts C))%Q ->
  exists r, get_results (cn_prob C) x0 (primal C rho) = Ok r /\ (forall h, In h (rs_time_steps r) -> (0 <= h)%R) /\
  (ext_below (o_gamma_h (the_opts C)) 1 -> (0 < o_terminal_time (the_opts C))%Q -> forall h, In h (rs_time_steps r) -> (0 < h)%R) /\
  forall i j a b, i <= j -> nth_error (rs_t_grid r) i = Some a -> nth_error (rs_t_grid r) j = Some b -> (a <= b)%R.
Proof. exact (grid_forward lr cp d o m oc C rho x0). Qed.
Print Assumptions C10_time_runs_forward.
Example C10_case : extractable (the_opts CS) model3 /\ bounds_ok rhoS (the_nlp CS) /\ ext_upto (o_gamma_h (the_opts CS)) 1 /\ (0 <= o_terminal_time (the_opts CS))%Q.
Proof. split; [exact extractS|]. split; [exact (proj1 feasibleS)|]. split; vm_compute; discriminate. Qed.

(* ---- C47 ---- *)
(* missing: Nfe_list longer than N_stages, subsystems of different sizes, no state (false, below) *)
Theorem C47_results_consistent_partial lr cp d o m oc C v x0 : construct_problem lr cp d o m oc = Ok C -> extractable (the_opts C) m ->
  length v = length (w (the_nlp C)) ->
  exists r, get_results (cn_prob C) x0 v = Ok r /\
  length (rs_x_traj r) = total (o_Nfe_list (the_opts C)) + 1 /\ length (rs_t_grid r) = total (o_Nfe_list (the_opts C)) + 1 /\
  first_is (rs_x_traj r) x0 /\ last_is (rs_x_traj r) (rs_x_out r) /\
  (exists idx, at3 (p_ind1 (the_problem C) FX) (o_N_stages (the_opts C) - 1) (nth (o_N_stages (the_opts C) - 1) (o_Nfe_list (the_opts C)) 0 - 1)
       (points1 (the_opts C) (explicit_end C) FX - 1) = Some idx /\ pick v idx (rs_x_out r)) /\
  length (rs_u_list r) = o_N_stages (the_opts C) /\ length (rs_t_grid_u r) = o_N_stages (the_opts C) + 1 /\
  length (rs_time_steps r) = total (o_Nfe_list (the_opts C)) /\
  (forall i a b h, nth_error (rs_t_grid r) i = Some a -> nth_error (rs_t_grid r) (S i) = Some b -> nth_error (rs_time_steps r) i = Some h -> (b - a = h)%R).
Proof. exact (results_consistent lr cp d o m oc C v x0). Qed.
Print Assumptions C47_results_consistent_partial.
(* every list of the results, by symbol *)
Theorem C47_results_values lr cp d o m oc C rho x0 : construct_problem lr cp d o m oc = Ok C -> extractable (the_opts C) m ->
  exists r sw, get_results (cn_prob C) x0 (primal C rho) = Ok r /\
  let E := explicit_end C in let O := the_opts C in let es := elements O in let steps := step_lengths O rho in
  rs_x_list r = map (end_states O E m rho) es /\
  rs_x_traj r = x0 :: map (end_states O E m rho) es /\
  rs_x_out r = end_states O E m rho (final_element O) /\
  rs_x_all_list r = x0 :: concat (map (all_states O E m rho) es) /\
  rs_u_list r = map (fun c => vals rho (SU c) (m_nu m)) (seq 0 (o_N_stages O)) /\
  rs_sot r = match o_sot O with SotNone => None | _ => Some (map (fun c => [rho (SSot c)]) (seq 0 (o_N_stages O))) end /\
  rs_theta_list r = map (end_family O E m rho FTheta) es /\
  rs_lambda_list r = map (end_family O E m rho FLam) es /\
  rs_alpha_list r = map (fun p => concat (end_family O E m rho FAlpha p)) es /\
  rs_lambda_n_list r = map (fun p => concat (end_family O E m rho FLn p)) es /\
  rs_lambda_p_list r = map (fun p => concat (end_family O E m rho FLp p)) es /\
  rs_z_list r = map (end_z O m rho) es /\
  rs_v_global r = [vals rho SVg (m_nvg m)] /\
  rs_time_steps r = steps /\
  rs_t_grid r = map (partial_sum steps) (seq 0 (length es + 1)) /\
  rs_t_grid_u r = map (fun c => partial_sum steps (total (firstn c (o_Nfe_list O)))) (seq 0 (o_N_stages O + 1)) /\
  rs_switch_times r = map (fun j => nth j steps 0%R) sw /\
  increasing sw /\ (forall j, In j sw <-> jump_after (mode_values O E m rho) j).
Proof. exact (results_read lr cp d o m oc C rho x0). Qed.
Print Assumptions C47_results_values.
(* without FESD a superfluous entry of Nfe_list lengthens the time grid but not the trajectory *)
Theorem C47_refuted : exists o m C, build o m None = Ok C /\ forall rho x0, exists r,
  get_results (cn_prob C) x0 (primal C rho) = Ok r /\ length (rs_t_grid r) = 4 /\ length (rs_x_traj r) = 3.
Proof. exists optsO, model3, CO. exact (conj builtO resultsO). Qed.
Print Assumptions C47_refuted.
(* with FESD it makes the extraction of every solution fail *)
Theorem C47_overlong_raises lr cp d o m oc C rho x0 : construct_problem lr cp d o m oc = Ok C -> 0 < m_nx m ->
  (o_pss (the_opts C) = Stewart -> uniform_modes m) -> o_use_fesd (the_opts C) = true ->
  total (firstn (o_N_stages (the_opts C)) (o_Nfe_list (the_opts C))) < total (o_Nfe_list (the_opts C)) ->
  get_results (cn_prob C) x0 (primal C rho) = Err EIndexError.
Proof. exact (fun H => results_overlong_fesd lr cp d o m oc C H rho x0). Qed.
Print Assumptions C47_overlong_raises.
Example C47_overlong_case rho x0 : build optsO2 model3 None = Ok CO2 /\ get_results (cn_prob CO2) x0 (primal CO2 rho) = Err EIndexError.
Proof. exact (conj builtO2 (resultsO2 rho x0)). Qed.
(* subsystems of different sizes in Stewart mode *)
Theorem C47_ragged_raises lr cp d o m oc C rho x0 : construct_problem lr cp d o m oc = Ok C -> 0 < m_nx m ->
  o_pss (the_opts C) = Stewart -> ~ uniform_modes m -> get_results (cn_prob C) x0 (primal C rho) = Err EValueError.
Proof. exact (fun H => results_ragged lr cp d o m oc C H rho x0). Qed.
Print Assumptions C47_ragged_raises.
Example C47_ragged_case rho x0 : build optsS model_ragged None = Ok CR /\ get_results (cn_prob CR) x0 (primal CR rho) = Err EValueError.
Proof. exact (conj builtR (resultsR rho x0)). Qed.

(* ---- C48 ---- *)
(* the reported numbers are the lengths of the elements before the jumps, not times *)
Theorem C48_switch_elements_partial lr cp d o m oc C rho x0 : construct_problem lr cp d o m oc = Ok C -> extractable (the_opts C) m ->
  exists r sw, get_results (cn_prob C) x0 (primal C rho) = Ok r /\ increasing sw /\
   (forall j, In j sw <-> jump_after (mode_values (the_opts C) (explicit_end C) m rho) j) /\
   rs_switch_times r = map (fun j => nth j (rs_time_steps r) 0%R) sw.
Proof.
  intros H X. destruct (results_read lr cp d o m oc C rho x0 H X) as (r & sw & Hr & G). exists r, sw. cbv zeta in G.
  destruct G as (_ & _ & _ & _ & _ & _ & _ & _ & _ & _ & _ & _ & _ & Et & _ & _ & Es & I & J).
  split; [exact Hr|]. split; [exact I|]. split; [exact J|]. rewrite Et. exact Es.
Qed.
Print Assumptions C48_switch_elements_partial.
(* a feasible point whose only mode change is at t_grid[2] = 1/3; reported is 1/6 *)
Theorem C48_refuted : exists o m C rho, is_problem o m None C /\ extractable (the_opts C) m /\ feasible rho (the_nlp C) /\
  (forall j, jump_after (mode_values (the_opts C) (explicit_end C) m rho) j <-> j = 1) /\
  forall x0, exists r, get_results (cn_prob C) x0 (primal C rho) = Ok r /\
    rs_switch_times r = [(1 / 6)%R] /\ nth_error (rs_t_grid r) 2 = Some (1 / 3)%R.
Proof. exists optsK, model3, CK3, (pt switchK). exact (conj problemK (conj extractK (conj feasibleK (conj jumpsK switchK_reported)))). Qed.
Print Assumptions C48_refuted.
