(* Props_Looper.v -- NosnocSimLooper: C49, C50, C51, C52 *)
From Coq Require Import Reals Qreals.
From Verif Require Import Base Lib Sx Utils Tableau Opts Model Ocp Problem Numeric Rk4 Results Solver Looper Spec Cases Fesd Spec2 Spec3 Spec4 Spec5 Spec6
  Witness Results5_proofs Solve3_proofs Witness3 Looper_proofs Witness4.
Local Open Scope nat_scope.

(* ---- C49: the steps of a simulation ---- *)
(* for every behaviour of the NLP solver, including exceptions in the middle: [simulation] lists the
   performed steps; X_sim, t_grid, the lists of statuses, costs and solutions *)
Theorem C49_glued lr cp d o m oc C nlp x0 Nsim pv pc wi L stop s s' L' r : construct_problem lr cp d o m oc = Ok C ->
  returns C nlp -> extractable (the_opts C) m -> looper_init (cn_prob C) x0 Nsim pv pc wi = Ok L ->
  length x0 = m_nx m -> tables C m L -> sized C m s -> run nlp C stop L s = (s', L', r) ->
  exists tr, simulation nlp C m 0 L s tr L' /\ length tr <= Nsim /\ (r = Ok true -> length tr = Nsim) /\
  first_is (lp_X_sim L') x0 /\ last_is (lp_X_sim L') (lp_xcurrent L') /\ length (lp_X_sim L') = length (lp_time_steps L') + 1 /\
  looper_t_grid L' = map (partial_sum (lp_time_steps L')) (seq 0 (length (lp_X_sim L'))) /\
  length (lp_status L') = length tr /\ length (lp_cost_vals L') = length tr /\ length (lp_w_sim L') = length tr.
Proof. intros H. exact (glued lr cp d o m oc C H nlp x0 Nsim pv pc wi L stop s s' L' r). Qed.
Print Assumptions C49_glued.
(* and nothing raises when the NLP solver answers *)
Theorem C49_runs lr cp d o m oc C nlp x0 Nsim pv pc wi L stop s : construct_problem lr cp d o m oc = Ok C ->
  o_init (the_opts C) <> Rk4Smoothened -> well_sized m -> (o_pss (the_opts C) = Step -> gS_given m = false) -> extractable (the_opts C) m ->
  (0 < Q2R (o_sigma_0 (the_opts C)))%R -> (0 < Q2R (o_slope (the_opts C)))%R ->
  (o_do_polishing (the_opts C) = true -> o_sot (the_opts C) = SotNone /\ o_mpcc (the_opts C) <> MBoolean) -> answers C nlp ->
  looper_init (cn_prob C) x0 Nsim pv pc wi = Ok L -> length x0 = m_nx m -> tables C m L -> sized C m s ->
  (forall M, wi = Some M -> Nsim <= length M /\ o_init (the_opts C) = External) ->
  exists s' L', run nlp C stop L s = (s', L', Ok true).
Proof. intros H. exact (looper_runs lr cp d o m oc C H nlp x0 Nsim pv pc wi L stop s). Qed.
Print Assumptions C49_runs.
Example C49_case i nlp stop : answers (CP i) nlp -> exists L s' L',
  looper_init (cn_prob (CP i)) [(-1)%R] 2 (Some [[3%R]; [5%R]]) 1 None = Ok L /\ length [(-1)%R] = m_nx modelP /\ tables (CP i) modelP L /\
  run nlp (CP i) stop L (initial_state (CP i)) = (s', L', Ok true).
Proof. exact (two_steps i nlp stop). Qed.
Example C49_case_hyps i : is_problem (optsP i) modelP None (CP i) /\ extractable (the_opts (CP i)) modelP /\ sized (CP i) modelP (initial_state (CP i)).
Proof. exact (conj (problemP i) (conj (extractP i) (initialP i))). Qed.
(* w_init raises in the first step unless the initialization is EXTERNAL *)
Theorem C49_w_init_raises lr cp d o m oc C nlp x0 Nsim pv pc M L stop s : construct_problem lr cp d o m oc = Ok C ->
  looper_init (cn_prob C) x0 Nsim pv pc (Some M) = Ok L -> 0 < Nsim -> 0 < length M -> o_init (the_opts C) <> External ->
  exists s', run nlp C stop L s = (s', L, Err EWarning) /\ ss_calls s' = ss_calls s.
Proof. intros _. exact (w_init_raises C nlp x0 Nsim pv pc M L stop s). Qed.
Print Assumptions C49_w_init_raises.
Example C49_w_init_case : exists L, looper_init (cn_prob (CP AllXcurrentW0Start)) [(-1)%R] 1 None 1 (Some [[]]) = Ok L /\ o_init (the_opts (CP AllXcurrentW0Start)) <> External.
Proof. destruct (looperP AllXcurrentW0Start 1 None (Some [[]]) Logic.I) as [L E]. exists L. split; [exact E|rewrite initP; discriminate]. Qed.

(* ---- C50: parameters of the steps ---- *)
Theorem C50_rows lr cp d o m oc C nlp L s tr L' k si out h M : construct_problem lr cp d o m oc = Ok C ->
  simulation nlp C m 0 L s tr L' -> nth_error tr k = Some (si, out) -> In h (so_steps out) -> lp_p_values L = Some M ->
  exists row rest, nth_error M k = Some row /\ nc_p (hs_call h) = concat (with_p_global m row (ss_pval s)) ++ rest.
Proof. intros H. exact (global_steps lr cp d o m oc C H nlp L s tr L' k si out h M). Qed.
Print Assumptions C50_rows.
Theorem C50_no_table lr cp d o m oc C nlp L s tr L' k si out h : construct_problem lr cp d o m oc = Ok C ->
  simulation nlp C m 0 L s tr L' -> nth_error tr k = Some (si, out) -> In h (so_steps out) -> lp_p_values L = None ->
  exists rest, nc_p (hs_call h) = concat (ss_pval s) ++ rest.
Proof. intros H. exact (no_table lr cp d o m oc C H nlp L s tr L' k si out h). Qed.
Print Assumptions C50_no_table.

(* ---- C51: stop_on_failure ---- *)
(* the status is compared with a string, so run() never returns False *)
Theorem C51_never_stops nlp C stop L s : snd (run nlp C stop L s) <> Ok false.
Proof. exact (never_stops C nlp stop (lp_Nsim L) 0 L s). Qed.
Print Assumptions C51_never_stops.
Theorem C51_refuted : exists o m oc C nlp L s' L', is_problem o m oc C /\ looper_init (cn_prob C) [(-1)%R] 2 None 0 None = Ok L /\
  run nlp C true L (initial_state C) = (s', L', Ok true) /\ lp_status L' = [INFEASIBLE; INFEASIBLE].
Proof. destruct not_stopped as (nlp & L & s' & L' & A). exists optsS, model3, None, CS, nlp, L, s', L'. exact (conj problemS A). Qed.
Print Assumptions C51_refuted.

(* ---- C52: what the looper accepts ---- *)
Theorem C52_accepted lr cp d o m oc C x0 Nsim pv pc wi : construct_problem lr cp d o m oc = Ok C ->
  (exists L, looper_init (cn_prob C) x0 Nsim pv pc wi = Ok L) <->
  (m_nu m = 0 /\ o_N_stages (the_opts C) = 1 /\ oc = None) /\ match pv with Some M => length M = Nsim /\ pc = m_npg m | None => True end.
Proof. intros H. exact (init_ok lr cp d o m oc C H x0 Nsim pv pc wi). Qed.
Print Assumptions C52_accepted.
Theorem C52_errors lr cp d o m oc C x0 Nsim pv pc wi e : construct_problem lr cp d o m oc = Ok C -> looper_init (cn_prob C) x0 Nsim pv pc wi = Err e ->
  (e = EException /\ ~ (m_nu m = 0 /\ o_N_stages (the_opts C) = 1 /\ oc = None)) \/
  (e = EValueError /\ exists M, pv = Some M /\ ~ (length M = Nsim /\ pc = m_npg m)).
Proof. intros H. exact (init_err lr cp d o m oc C H x0 Nsim pv pc wi e). Qed.
Print Assumptions C52_errors.
Example C52_case : (exists L, looper_init (cn_prob (CP External)) [(-1)%R] 2 (Some [[3%R]; [5%R]]) 1 None = Ok L) /\
  looper_init (cn_prob (CP External)) [(-1)%R] 3 (Some [[3%R]; [5%R]]) 1 None = Err EValueError /\
  looper_init (cn_prob CA) [(-1)%R] 3 None 1 None = Err EException.
Proof.
  split; [exact (looperP External 2 (Some [[3%R]; [5%R]]) None eq_refl)|]. unfold looper_init.
  replace (is_sim_problem (cn_prob (CP External))) with true by (vm_compute; reflexivity).
  replace (is_sim_problem (cn_prob CA)) with false by (vm_compute; reflexivity). split; reflexivity.
Qed.
