(* Props_Nlp.v -- C11-C22, C26-C28, C58, C71: what every feasible point of the constructed NLP satisfies.
   fesd_problem lr cp d o m oc C: C is the result of construct_problem for the oracles lr (log_round)
   and cp (collocation points), the IPOPT dictionary d, options o, model m and OCP oc. The
   specification is Fesd.v; the points used in the examples are in Witness.v. *)
From Coq Require Import Reals Qreals Lra.
From Verif Require Import Base Sx Utils Tableau Opts Model Ocp Problem Spec Cases Fesd Spec2 Witness
  Index3_proofs Nlp_proofs Feas_proofs Feas2_proofs Feas3_proofs Feas4_proofs Feas5_proofs Feas6_proofs Witness8.

(* ---- C71: the constructed NLP is the documented FESD discretisation ---- *)
Theorem C71_constraints lr cp d o m oc C rho : fesd_problem lr cp d o m oc C -> o_mpcc o <> MBoolean ->
  (constraints_ok rho (the_nlp C) <-> nlp_constraints (the_opts C) (cn_tab C) m (the_ocp oc) rho).
Proof. intros (H & E & W). exact (nlp_exact lr cp d o m oc C H E W rho). Qed.
Print Assumptions C71_constraints.
(* one direction holds for every mode: in BOOLEAN mode too, feasible points satisfy the FESD
   equations (with relaxed as in Fesd.v: only a bound on |s| + |y|) *)
Theorem C71_constraints_all_modes lr cp d o m oc C rho : fesd_problem lr cp d o m oc C ->
  constraints_ok rho (the_nlp C) -> nlp_constraints (the_opts C) (cn_tab C) m (the_ocp oc) rho.
Proof. intros (H & E & W). exact (nlp_sound lr cp d o m oc C H E W rho). Qed.
Print Assumptions C71_constraints_all_modes.
Example C71_case_boolean : is_problem optsBo model3 None CBo /\ o_mpcc (the_opts CBo) = MBoolean /\ feasible rhoBo (the_nlp CBo).
Proof. split; [exact problemBo|]. split; [vm_compute; reflexivity|exact feasibleBo]. Qed.
Theorem C71_cost lr cp d o m oc C rho : fesd_problem lr cp d o m oc C ->
  eval rho (cost (the_nlp C)) = nlp_cost (the_opts C) (cn_tab C) m (the_ocp oc) rho.
Proof. intros (H & E & W). exact (cost_exact lr cp d o m oc C H E W rho). Qed.
Print Assumptions C71_cost.
Example C71_case : is_problem optsA model1 (Some ocp1) CA /\ is_problem optsB model2 None CB /\
  length (g (the_nlp CA)) = 60 /\ length (g (the_nlp CB)) = 77.
Proof. split; [exact problemA|]. split; [exact problemB|]. vm_compute. split; reflexivity. Qed.
(* the points used below satisfy all of it *)
Example C71_case_feasible : is_problem optsS model3 None CS /\ feasible rhoS (the_nlp CS) /\
  is_problem optsT model3 None CT /\ feasible rhoT (the_nlp CT).
Proof. exact (conj problemS (conj feasibleS (conj problemT feasibleT))). Qed.

(* ---- C11 ---- *)
Theorem C11_complementarity o z f x y f' n rho :
  create_complementarity o z f x y = Ok f' -> o_mpcc o <> MBoolean ->
  length (lbg f) = length (g f) -> length (ubg f) = length (g f) ->
  length (w f) = length (lbw f) -> length (w f) = length (ubw f) -> length (w f) = length (w0 f) ->
  length y = n -> Forall (fun v => length v = n) x ->
  (constraints_ok rho f' <-> constraints_ok rho f /\
     forall k, k < n -> relaxed o rho (map (fun v => eval rho (nth k v (ECst 0))) x) (eval rho (nth k y (ECst 0)))).
Proof. exact (complementarity_meaning o z f x y f' n rho). Qed.
Print Assumptions C11_complementarity.
Theorem C11_fischer_burmeister o rho x y : o_mpcc o = FischerBurmeister ->
  (relaxed o rho [x] y <-> (x * y = rho SSigma * rho SSigma / 2 /\ 0 <= x + y)%R).
Proof. exact (fischer_single o rho x y). Qed.
Print Assumptions C11_fischer_burmeister.
(* the constraint with two x vectors, used by SUM_LAMBDAS..., admits negative x and x y <> 0 *)
Theorem C11_fischer_sum_refuted : exists rho x1 x2 y, rho SSigma = 0%R /\
  relaxed (with_modes optsS Stewart FischerBurmeister SumLambdas HeuristicDelta SotNone true true) rho [x1; x2] y /\
  (x1 < 0)%R /\ (0 < (x1 + x2) * y)%R.
Proof. exact fischer_sum_bad. Qed.
Print Assumptions C11_fischer_sum_refuted.
Example C11_case : exists f', create_complementarity optsS (fun _ _ => STau) fobj_empty [[cx 0; cx 1]; [cx 2; cx 3]] [cx 4; cx 5] = Ok f' /\
  length (g f') = 2.
Proof. eexists. split; [vm_compute; reflexivity|reflexivity]. Qed.
(* BOOLEAN, not in the list of C11: the rows for the declared variable b; b is continuous in [0, 1],
   so they say no more than |s| + |y| <= 10^5; an integral b would make one of the two vanish *)
Theorem C11_boolean o z f x y f' n rho :
  create_complementarity o z f x y = Ok f' -> o_mpcc o = MBoolean ->
  length (lbg f) = length (g f) -> length (ubg f) = length (g f) ->
  length (w f) = length (lbw f) -> length (w f) = length (ubw f) -> length (w f) = length (w0 f) ->
  length y = n -> Forall (fun v => length v = n) x ->
  (constraints_ok rho f' <-> constraints_ok rho f /\
     forall k, k < n -> big_m_rows (rho (z (length (ind_bool f)) k)) (rsum (map (fun v => eval rho (nth k v (ECst 0))) x)) (eval rho (nth k y (ECst 0)))).
Proof. exact (boolean_meaning o z f x y f' n rho). Qed.
Print Assumptions C11_boolean.
Theorem C11_boolean_pair s y :
  ((exists b, (0 <= b <= 1)%R /\ big_m_rows b s y) <-> (Rabs s + Rabs y <= 100000)%R) /\
  ((exists b, (b = 0 \/ b = 1)%R /\ big_m_rows b s y) <-> (s = 0 /\ Rabs y <= 100000)%R \/ (y = 0 /\ Rabs s <= 100000)%R).
Proof. exact (conj (boolean_relaxed s y) (boolean_integer s y)). Qed.
Print Assumptions C11_boolean_pair.
Example C11_case_boolean : exists f', create_complementarity optsBo (SBool 0 0) fobj_empty [[cx 0; cx 1]; [cx 2; cx 3]] [cx 4; cx 5] = Ok f' /\
  length (g f') = 8 /\ w f' = [SBool 0 0 0 0; SBool 0 0 0 1].
Proof. eexists. split; [vm_compute; reflexivity|split; reflexivity]. Qed.

(* ---- C12 ---- *)
(* missing: the modes and the constraint handling for which it is false, below *)
Theorem C12_convex_weights_partial lr cp d o m oc C rho c e nfe j s : fesd_problem lr cp d o m oc C -> feasible rho (the_nlp C) ->
  o_pss (the_opts C) = Stewart -> product_mode (the_opts C) \/ fischer_mode (the_opts C) ->
  is_fe (the_opts C) c e nfe -> j < o_ns (the_opts C) -> s < n_subsystems m ->
  (forall k, k < n_modes m s -> (0 <= rho (S2 FTheta c e j s k))%R) /\
  rupto (n_modes m s) (fun k => rho (S2 FTheta c e j s k)) = 1%R.
Proof.
  intros (H & E & W) [F1 F2] Hp [PM|FM] I Hj Hs.
  - exact (convex lr cp d o m oc C H E W rho F1 F2 c e nfe j s I Hj Hs Hp PM).
  - exact (convex_fb lr cp d o m oc C H E W rho F2 c e nfe j s I Hj Hs Hp FM).
Qed.
Print Assumptions C12_convex_weights_partial.
Example C12_case : o_pss (the_opts CS) = Stewart /\ product_mode (the_opts CS) /\ is_fe (the_opts CS) 0 1 2 /\ o_ns (the_opts CS) = 1 /\
  n_subsystems model3 = 1.
Proof. vm_compute. repeat split; lia. Qed.
(* ELASTIC_TWO_SIDED leaves theta unbounded below: a feasible point with theta_0 = -1/2 *)
Theorem C12_elastic_two_sided_refuted : exists o m C rho, is_problem o m None C /\ feasible rho (the_nlp C) /\
  o_pss (the_opts C) = Stewart /\ o_mpcc (the_opts C) = ElasticTwoSided /\ is_fe (the_opts C) 0 0 2 /\ (rho (S2 FTheta 0 0 0 0 0) < 0)%R.
Proof. exact not_convex. Qed.
Print Assumptions C12_elastic_two_sided_refuted.
(* BOOLEAN neither: a feasible point with theta_0 = -1 and theta_1 * lambda_1 = 6 *)
Theorem C12_boolean_refuted : exists o m C rho, is_problem o m None C /\ feasible rho (the_nlp C) /\
  o_pss (the_opts C) = Stewart /\ o_mpcc (the_opts C) = MBoolean /\ is_fe (the_opts C) 0 0 2 /\
  (rho (S2 FTheta 0 0 0 0 0) < 0)%R /\ (rho (S2 FTheta 0 0 0 0 1) * rho (S2 FLam 0 0 0 0 1) = 6)%R.
Proof. exact boolean_bad. Qed.
Print Assumptions C12_boolean_refuted.
(* with LEAST_SQUARES no constraint is left: weights that sum to 5 *)
Theorem C12_least_squares_refuted : exists o m C rho, construct_problem case_log_round case_cpoints ipopt_init o m None = Ok C /\ feasible rho (the_nlp C) /\
  o_pss (the_opts C) = Stewart /\ product_mode (the_opts C) /\ o_constr o = LeastSquares /\ is_fe (the_opts C) 0 0 2 /\
  rupto (n_modes m 0) (fun k => rho (S2 FTheta 0 0 0 0 k)) = 5%R.
Proof. exact least_squares_weights. Qed.
Print Assumptions C12_least_squares_refuted.

(* ---- C13 ---- *)
Theorem C13_stewart_active_mode lr cp d o m oc C rho c e nfe j s k : fesd_problem lr cp d o m oc C -> feasible rho (the_nlp C) ->
  zero_relaxation (the_opts C) rho -> initial_nonneg rho -> o_use_fesd (the_opts C) = true -> o_pss (the_opts C) = Stewart ->
  is_fe (the_opts C) c e nfe -> j < o_ns (the_opts C) -> s < n_subsystems m -> k < n_modes m s -> (0 < rho (S2 FTheta c e j s k))%R ->
  (forall jj, jj < (match o_cross (the_opts C) with SumLambdas => n_mult (the_opts C) (cn_tab C) c e | _ => o_ns (the_opts C) end) ->
     rho (S2 FLam c e jj s k) = 0%R) /\
  match before (the_opts C) c e with
  | Some (c', e') => rho (S2 FLam c' e' (n_mult (the_opts C) (cn_tab C) c' e' - 1) s k) = 0%R
  | None => rho (SL00 FLam s k) = 0%R
  end.
Proof. intros (H & E & W) [F1 F2]. exact (stewart_exclusive lr cp d o m oc C H E W rho F1 F2 c e nfe j s k). Qed.
Print Assumptions C13_stewart_active_mode.
Theorem C13_step_active_mode lr cp d o m oc C rho c e nfe j s k : fesd_problem lr cp d o m oc C -> feasible rho (the_nlp C) ->
  zero_relaxation (the_opts C) rho -> initial_nonneg rho -> o_use_fesd (the_opts C) = true -> o_pss (the_opts C) = Step ->
  is_fe (the_opts C) c e nfe -> j < o_ns (the_opts C) -> s < n_subsystems m -> k < n_switch m s ->
  let jmax := match o_cross (the_opts C) with SumLambdas => n_mult (the_opts C) (cn_tab C) c e | _ => o_ns (the_opts C) end in
  ((0 < rho (S2 FAlpha c e j s k))%R ->
     (forall jj, jj < jmax -> rho (S2 FLn c e jj s k) = 0%R) /\
     forall c' e', before (the_opts C) c e = Some (c', e') -> rho (S2 FLn c' e' (n_mult (the_opts C) (cn_tab C) c' e' - 1) s k) = 0%R) /\
  ((rho (S2 FAlpha c e j s k) < 1)%R ->
     (forall jj, jj < jmax -> rho (S2 FLp c e jj s k) = 0%R) /\
     forall c' e', before (the_opts C) c e = Some (c', e') -> rho (S2 FLp c' e' (n_mult (the_opts C) (cn_tab C) c' e' - 1) s k) = 0%R).
Proof. intros (H & E & W) [F1 F2]. exact (step_exclusive lr cp d o m oc C H E W rho F1 F2 c e nfe j s k). Qed.
Print Assumptions C13_step_active_mode.
(* mode k active in an element, mode k' in the next: the state between them lies on g_k = g_k' *)
Theorem C13_stewart_switch_on_boundary_partial lr cp d o m oc C rho c e nfe c' e' s k k' j j' : fesd_problem lr cp d o m oc C -> feasible rho (the_nlp C) ->
  zero_relaxation (the_opts C) rho -> initial_nonneg rho -> o_use_fesd (the_opts C) = true -> o_pss (the_opts C) = Stewart ->
  o_cross (the_opts C) = SumLambdas \/ t_rbe (cn_tab C) = true ->
  is_fe (the_opts C) c e nfe -> before (the_opts C) c e = Some (c', e') -> j < o_ns (the_opts C) -> j' < o_ns (the_opts C) ->
  s < n_subsystems m -> k < n_modes m s -> k' < n_modes m s ->
  (0 < rho (S2 FTheta c' e' j' s k))%R -> (0 < rho (S2 FTheta c e j s k'))%R ->
  region_value m (boundary_point (the_opts C) (cn_tab C) m rho c' e') s k =
  region_value m (boundary_point (the_opts C) (cn_tab C) m rho c' e') s k'.
Proof. intros (H & E & W) [F1 F2]. exact (stewart_boundary lr cp d o m oc C H E W rho F1 F2 c e nfe c' e' s k k' j j'). Qed.
Print Assumptions C13_stewart_switch_on_boundary_partial.
Theorem C13_step_switch_on_boundary_partial lr cp d o m oc C rho c e nfe c' e' s k j j' : fesd_problem lr cp d o m oc C -> feasible rho (the_nlp C) ->
  zero_relaxation (the_opts C) rho -> initial_nonneg rho -> o_use_fesd (the_opts C) = true -> o_pss (the_opts C) = Step ->
  o_cross (the_opts C) = SumLambdas \/ t_rbe (cn_tab C) = true ->
  is_fe (the_opts C) c e nfe -> before (the_opts C) c e = Some (c', e') -> j < o_ns (the_opts C) -> j' < o_ns (the_opts C) ->
  s < n_subsystems m -> k < n_switch m s ->
  (0 < rho (S2 FAlpha c' e' j' s k))%R /\ (rho (S2 FAlpha c e j s k) < 1)%R \/
  (rho (S2 FAlpha c' e' j' s k) < 1)%R /\ (0 < rho (S2 FAlpha c e j s k))%R ->
  switch_value m (boundary_point (the_opts C) (cn_tab C) m rho c' e') s k = 0%R.
Proof. intros (H & E & W) [F1 F2]. exact (step_boundary lr cp d o m oc C H E W rho F1 F2 c e nfe c' e' s k j j'). Qed.
Print Assumptions C13_step_switch_on_boundary_partial.
(* a switch from mode 0 to mode 1 between the two elements *)
Example C13_case : zero_relaxation (the_opts CS) rhoS /\ initial_nonneg rhoS /\ o_use_fesd (the_opts CS) = true /\
  o_cross (the_opts CS) = SumLambdas /\ before (the_opts CS) 0 1 = Some (0, 0) /\
  (0 < rhoS (S2 FTheta 0 0 0 0 0))%R /\ (0 < rhoS (S2 FTheta 0 1 0 0 1))%R.
Proof. exact switch_caseS. Qed.
Example C13_case_step : zero_relaxation (the_opts CT) rhoT /\ initial_nonneg rhoT /\ o_use_fesd (the_opts CT) = true /\
  o_pss (the_opts CT) = Step /\ before (the_opts CT) 0 1 = Some (0, 0) /\
  (rhoT (S2 FAlpha 0 0 0 0 0) < 1)%R /\ (0 < rhoT (S2 FAlpha 0 1 0 0 0))%R.
Proof. exact switch_caseT. Qed.
(* COMPLEMENT_ALL with a Gauss scheme: mode 0, then mode 1, switching at x = 1/2 where g_0 = 1/2 and g_1 = -1/2 *)
Theorem C13_complement_all_refuted : exists o m C rho, is_problem o m None C /\ feasible rho (the_nlp C) /\
  zero_relaxation (the_opts C) rho /\ initial_nonneg rho /\ o_use_fesd (the_opts C) = true /\ o_pss (the_opts C) = Stewart /\
  is_fe (the_opts C) 0 1 2 /\ before (the_opts C) 0 1 = Some (0, 0) /\
  (0 < rho (S2 FTheta 0 0 0 0 0))%R /\ (0 < rho (S2 FTheta 0 1 0 0 1))%R /\
  region_value m (boundary_point (the_opts C) (cn_tab C) m rho 0 0) 0 0 <>
  region_value m (boundary_point (the_opts C) (cn_tab C) m rho 0 0) 0 1.
Proof. exact switch_off_boundary. Qed.
Print Assumptions C13_complement_all_refuted.

(* ---- C14 ---- *)
Theorem C14_cross_modes_equivalent_partial lr cp d o m oc C1 C2 rho :
  construct_problem lr cp d (with_cross o SumLambdas) m oc = Ok C1 ->
  construct_problem lr cp d (with_cross o ComplementAll) m oc = Ok C2 ->
  o_constr o = Exact -> well_sized m -> points_ok cp o ->
  o_scheme o = RadauIIA \/ o_use_fesd o = false ->
  zero_relaxation o rho -> initial_nonneg rho -> bounds_ok rho (the_nlp C1) ->
  (constraints_ok rho (the_nlp C1) <-> constraints_ok rho (the_nlp C2)).
Proof. exact (cross_modes lr cp d o m oc C1 C2 rho). Qed.
Print Assumptions C14_cross_modes_equivalent_partial.
Example C14_case : is_problem (with_cross optsS SumLambdas) model3 None CS1 /\ is_problem (with_cross optsS ComplementAll) model3 None CS2 /\
  o_scheme optsS = RadauIIA /\ zero_relaxation optsS rhoS /\ initial_nonneg rhoS /\ feasible rhoS (the_nlp CS1).
Proof. exact (conj problemS1 (conj problemS2 (conj eq_refl (conj zeroS (conj nonnegS feasibleS1))))). Qed.
(* with Gauss and FESD COMPLEMENT_ALL omits the boundary multipliers *)
Theorem C14_gauss_refuted : exists o m C1 C2 rho, is_problem (with_cross o SumLambdas) m None C1 /\ is_problem (with_cross o ComplementAll) m None C2 /\
  zero_relaxation o rho /\ initial_nonneg rho /\ feasible rho (the_nlp C2) /\ ~ constraints_ok rho (the_nlp C1).
Proof. exact cross_modes_differ. Qed.
Print Assumptions C14_gauss_refuted.

(* ---- C15 ---- *)
Theorem C15_switching_equations_partial lr cp d o m oc C rho c e nfe : fesd_problem lr cp d o m oc C -> constraints_ok rho (the_nlp C) ->
  is_fe (the_opts C) c e nfe ->
  (forall j, j < o_ns (the_opts C) -> switching_ok (the_opts C) m (stage_point (the_opts C) (cn_tab C) m rho c e j)) /\
  (t_rbe (cn_tab C) = false -> o_use_fesd (the_opts C) = true ->
     switching_ok (the_opts C) m (end_point (the_opts C) (cn_tab C) m rho c e) /\
     (e + 1 < nfe -> n_mult (the_opts C) (cn_tab C) c e = o_ns (the_opts C) + 1)).
Proof. exact (switching_equations lr cp d o m oc C rho c e nfe). Qed.
Print Assumptions C15_switching_equations_partial.
Example C15_case : is_problem (with_cross optsG ComplementAll) model4 None CG2 /\ constraints_ok rhoG (the_nlp CG2) /\
  is_fe (the_opts CG2) 0 0 2 /\ t_rbe (cn_tab CG2) = false /\ o_use_fesd (the_opts CG2) = true.
Proof. exact gauss_case. Qed.
(* the last element of a control stage has no boundary multipliers; its end point shares those of the last stage *)
Theorem C15_last_element_coupled lr cp d o m oc C rho c e nfe : fesd_problem lr cp d o m oc C -> constraints_ok rho (the_nlp C) ->
  o_use_fesd (the_opts C) = true -> t_rbe (cn_tab C) = false -> is_fe (the_opts C) c e nfe -> e + 1 = nfe ->
  forall s k, s < n_subsystems m -> k < n_switching (the_opts C) m s ->
  match o_pss (the_opts C) with
  | Stewart => region_value m (end_point (the_opts C) (cn_tab C) m rho c e) s k =
               region_value m (stage_point (the_opts C) (cn_tab C) m rho c e (o_ns (the_opts C) - 1)) s k
  | Step => switch_value m (end_point (the_opts C) (cn_tab C) m rho c e) s k =
            switch_value m (stage_point (the_opts C) (cn_tab C) m rho c e (o_ns (the_opts C) - 1)) s k
  end.
Proof. intros (H & E & W) F2. exact (last_element_coupled lr cp d o m oc C H E W rho F2 c e nfe). Qed.
Print Assumptions C15_last_element_coupled.
(* so x' in {3, 1} from x0 = -1 has no discrete solution at all with one Gauss point *)
Theorem C15_own_multipliers_refuted : exists o m C, is_problem o m None C /\ o_use_fesd (the_opts C) = true /\ t_rbe (cn_tab C) = false /\
  forall rho, ~ feasible rho (the_nlp C).
Proof. exact gauss_no_solution. Qed.
Print Assumptions C15_own_multipliers_refuted.

(* ---- C16 ---- *)
Theorem C16_path_complementarities_partial lr cp d o m oc C rho : fesd_problem lr cp d o m oc C -> constraints_ok rho (the_nlp C) ->
  (forall c e nfe j r, is_fe (the_opts C) c e nfe -> j < o_ns (the_opts C) -> In r (oc_comp (the_ocp oc)) -> stage_row m r ->
     row_ok (the_opts C) rho (stage_point (the_opts C) (cn_tab C) m rho c e j) r) /\
  (forall c r, c < o_N_stages (the_opts C) -> 0 < o_N_finite_elements (the_opts C) <= nfe_of (the_opts C) c ->
     In r (oc_comp (the_ocp oc)) -> control_row m r -> row_ok (the_opts C) rho (plain_point m rho c (fun _ => 0%R)) r) /\
  (forall r, In r (oc_comp (the_ocp oc)) -> global_row m r -> row_ok (the_opts C) rho (plain_point m rho 0 (fun _ => 0%R)) r).
Proof. exact (path_rows lr cp d o m oc C rho). Qed.
Print Assumptions C16_path_complementarities_partial.
Example C16_case : is_problem optsU2 model5 (Some ocpU) CU2 /\ constraints_ok (pt (restU2 0)) (the_nlp CU2) /\
  0 < o_N_finite_elements (the_opts CU2) <= nfe_of (the_opts CU2) 0 /\ control_row model5 (EVar (MU 0), EVar (MU 0)) /\
  In (EVar (MU 0), EVar (MU 0)) (oc_comp ocpU).
Proof. exact control_case. Qed.
(* one element in the stage, N_finite_elements left at 2: the row u * u <= sigma is dropped, u = 5 *)
Theorem C16_control_rows_refuted : exists o m oc C rho r c, is_problem o m (Some oc) C /\ feasible rho (the_nlp C) /\
  c < o_N_stages (the_opts C) /\ In r (oc_comp oc) /\ control_row m r /\
  ~ row_ok (the_opts C) rho (plain_point m rho c (fun _ => 0%R)) r.
Proof. exact control_dropped. Qed.
Print Assumptions C16_control_rows_refuted.

(* ---- C17 ---- *)
Theorem C17_residual_is_the_largest_product lr cp d o m oc C rho : construct_problem lr cp d o m oc = Ok C ->
  pr_comp_res (cn_prob C) = mkCafun [w (the_nlp C); p_p (the_problem C)] [p_J_comp (the_problem C)] /\
  (forall r, product (the_opts C) (cn_tab C) m rho r -> (r <= comp_residual C rho)%R) /\
  product (the_opts C) (cn_tab C) m rho (comp_residual C rho).
Proof. exact (residual_max lr cp d o m oc C rho). Qed.
Print Assumptions C17_residual_is_the_largest_product.
Theorem C17_products_below_tolerance_partial lr cp d o m oc C rho tol : construct_problem lr cp d o m oc = Ok C ->
  (comp_residual C rho < tol)%R -> forall r, product (the_opts C) (cn_tab C) m rho r -> (r < tol)%R.
Proof. exact (products_below lr cp d o m oc C rho tol). Qed.
Print Assumptions C17_products_below_tolerance_partial.
Example C17_case : build optsA model1 (Some ocp1) = Ok CA /\ comp_residual CA (pt pathA) = 0%R.
Proof. exact (conj builtA residualA). Qed.
(* comp_res is zero although the path complementarity x0 * x1 is 100 *)
Theorem C17_path_complementarities_refuted : exists o m oc C rho r, construct_problem case_log_round case_cpoints ipopt_init o m (Some oc) = Ok C /\
  comp_residual C rho = 0%R /\ In r (oc_comp oc) /\ stage_row m r /\ is_fe (the_opts C) 0 0 1 /\
  (eval (stage_point (the_opts C) (cn_tab C) m rho 0 0 0) (fst r) * eval (stage_point (the_opts C) (cn_tab C) m rho 0 0 0) (snd r) = 100)%R.
Proof. exact path_not_measured. Qed.
Print Assumptions C17_path_complementarities_refuted.

(* ---- C18 ---- *)
Theorem C18_cost_terms lr cp d o m oc s C1 C2 rho :
  construct_problem lr cp d (with_step_eq o s) m oc = Ok C1 ->
  construct_problem lr cp d (with_step_eq o Direct) m oc = Ok C2 ->
  o_constr o = Exact -> well_sized m ->
  (eval rho (cost (the_nlp C1)) = eval rho (cost (the_nlp C2)) + cost_scale o rho *
     rupto (o_N_stages o) (fun c => rupto (nfe_of (the_opts C1) c) (fun e => step_cost (the_opts C1) (cn_tab C1) m rho c e)))%R.
Proof. exact (step_modes_cost lr cp d o m oc s C1 C2 rho). Qed.
Print Assumptions C18_cost_terms.
Theorem C18_constraint_terms lr cp d o m oc s C1 C2 rho :
  construct_problem lr cp d (with_step_eq o s) m oc = Ok C1 ->
  construct_problem lr cp d (with_step_eq o HeuristicMean) m oc = Ok C2 ->
  o_constr o = Exact -> o_mpcc o <> MBoolean -> well_sized m ->
  (constraints_ok rho (the_nlp C1) <-> constraints_ok rho (the_nlp C2) /\
     forall c e nfe, is_fe (the_opts C1) c e nfe -> step_constraint (the_opts C1) (cn_tab C1) m rho c e).
Proof. exact (step_modes_constraints lr cp d o m oc s C1 C2 rho). Qed.
Print Assumptions C18_constraint_terms.
Theorem C18_scaled_term_nonneg lr cp d o m oc C rho c e nfe : construct_problem lr cp d o m oc = Ok C -> bounds_ok rho (the_nlp C) ->
  product_mode (the_opts C) -> initial_nonneg rho -> is_fe (the_opts C) c e nfe ->
  o_step_eq (the_opts C) = L2RelaxedScaled -> (0 <= o_rho_h (the_opts C))%Q -> (0 < o_step_eq_sigma (the_opts C))%Q ->
  (0 <= step_cost (the_opts C) (cn_tab C) m rho c e)%R.
Proof. intros H BO PM L0. exact (scaled_term_nonneg lr cp d o m oc C rho H BO PM L0 c e nfe). Qed.
Print Assumptions C18_scaled_term_nonneg.
(* DIRECT: where every component keeps its multiplier or its weight positive, the steps are equal *)
Theorem C18_direct_equal_steps lr cp d o m oc C rho c e nfe : fesd_problem lr cp d o m oc C -> feasible rho (the_nlp C) ->
  product_mode (the_opts C) -> initial_nonneg rho -> o_use_fesd (the_opts C) = true -> o_step_eq (the_opts C) = Direct ->
  is_fe (the_opts C) c e nfe -> 0 < e ->
  (forall k, k < n_pairs (the_opts C) m ->
     (0 < sum_lam (the_opts C) (cn_tab C) m rho c (e - 1) k /\ 0 < sum_lam (the_opts C) (cn_tab C) m rho c e k)%R \/
     (0 < sum_theta (the_opts C) m rho c (e - 1) k /\ 0 < sum_theta (the_opts C) m rho c e k)%R) ->
  rho (SH c e) = rho (SH c (e - 1)).
Proof. intros (H & E & W) [F1 F2] PM L0. exact (direct_equal_steps lr cp d o m oc C rho H F1 PM L0 c e nfe E W F2). Qed.
Print Assumptions C18_direct_equal_steps.
Theorem C18_without_fesd o t m rho c e : o_use_fesd o = false -> step_cost o t m rho c e = 0%R /\ step_constraint o t m rho c e.
Proof. exact (no_fesd_no_steps o t m rho c e). Qed.
Print Assumptions C18_without_fesd.
Example C18_case : exists C, is_problem (with_step_eq optsS Direct) model3 None C /\ feasible restD (the_nlp C) /\
  product_mode (the_opts C) /\ initial_nonneg restD /\ is_fe (the_opts C) 0 1 2 /\ o_step_eq (the_opts C) = Direct /\
  (0 < sum_lam (the_opts C) (cn_tab C) model3 restD 0 0 1 /\ 0 < sum_theta (the_opts C) model3 restD 0 0 0)%R.
Proof. exact direct_case. Qed.

(* ---- C19 ---- *)
Theorem C19_least_squares_partial lr cp d o m oc :
  (exists e, construct_problem lr cp d (with_constr o Exact) m oc = Err e /\ construct_problem lr cp d (with_constr o LeastSquares) m oc = Err e) \/
  exists C1, construct_problem lr cp d (with_constr o Exact) m oc = Ok C1 /\
    ((zero_lower (the_nlp C1) /\ exists C2, construct_problem lr cp d (with_constr o LeastSquares) m oc = Ok C2 /\
        g (the_nlp C2) = [] /\ lbg (the_nlp C2) = [] /\ ubg (the_nlp C2) = [] /\
        w (the_nlp C2) = w (the_nlp C1) /\ lbw (the_nlp C2) = lbw (the_nlp C1) /\ ubw (the_nlp C2) = ubw (the_nlp C1) /\ w0 (the_nlp C2) = w0 (the_nlp C1) /\
        forall rho, eval rho (cost (the_nlp C2)) = (eval rho (cost (the_nlp C1)) + rsum (map (fun e => eval rho e ^ 2) (g (the_nlp C1))))%R)
     \/ (~ zero_lower (the_nlp C1) /\ construct_problem lr cp d (with_constr o LeastSquares) m oc = Err EException)).
Proof. exact (lsq_both lr cp d o m oc). Qed.
Print Assumptions C19_least_squares_partial.
Example C19_case_rejected : build (with_constr optsS LeastSquares) model3 None = Err EException.
Proof. vm_compute. reflexivity. Qed.
(* upper bounds are not inspected: 0 <= u <= 7 is accepted and turned into the penalty u^2 *)
Theorem C19_upper_bounds_refuted : exists o m oc C1 C2 rho, is_problem (with_constr o Exact) m (Some oc) C1 /\
  build (with_constr o LeastSquares) m (Some oc) = Ok C2 /\ feasible rho (the_nlp C1) /\
  eval rho (cost (the_nlp C1)) = 0%R /\ eval rho (cost (the_nlp C2)) = 25%R /\ In (Fin 7) (ubg (the_nlp C1)).
Proof. exact upper_ignored. Qed.
Print Assumptions C19_upper_bounds_refuted.

(* ---- C20 ---- *)
Theorem C20_elastic_cost lr cp d o m oc C rho : fesd_problem lr cp d o m oc C -> elastic (the_opts C) = true ->
  (eval rho (cost (the_nlp C)) =
   if o_obj_direct (the_opts C) then plain_cost (the_opts C) (cn_tab C) m (the_ocp oc) rho + rho SElastic / rho SSigma
   else rho SSigma * plain_cost (the_opts C) (cn_tab C) m (the_ocp oc) rho + rho SElastic)%R.
Proof. exact (elastic_cost lr cp d o m oc C rho). Qed.
Print Assumptions C20_elastic_cost.
Theorem C20_same_minimizers lr cp d o m oc C1 C2 rho :
  construct_problem lr cp d (with_scaling o true) m oc = Ok C1 ->
  construct_problem lr cp d (with_scaling o false) m oc = Ok C2 ->
  o_constr o = Exact -> well_sized m -> elastic o = true -> (0 < rho SSigma)%R ->
  eval rho (cost (the_nlp C2)) = (rho SSigma * eval rho (cost (the_nlp C1)))%R /\
  (constraints_ok rho (the_nlp C1) <-> constraints_ok rho (the_nlp C2)).
Proof. exact (scaled_cost lr cp d o m oc C1 C2 rho). Qed.
Print Assumptions C20_same_minimizers.
Example C20_case : elastic (the_opts CB) = true /\ is_problem optsB model2 None CB /\
  is_ok (build (with_scaling optsB true) model2 None) = true /\ is_ok (build (with_scaling optsB false) model2 None) = true.
Proof. split; [vm_compute; reflexivity|]. split; [exact problemB|]. vm_compute. split; reflexivity. Qed.

(* ---- C21 ---- *)
(* every polynomial of degree <= n_s whose derivative matches the right-hand side at the collocation
   points solves the collocation and continuity equations of an element *)
Theorem C21_polynomial_solves lr cp d o m oc C rho c e p : construct_problem lr cp d o m oc = Ok C ->
  points_ok cp (the_opts C) -> o_repr (the_opts C) = Integral ->
  (forall i, i < m_nx m -> length (p i) <= S (o_ns (the_opts C))) ->
  (forall i, i < m_nx m -> start_state (the_opts C) (cn_tab C) rho c e i = peval (p i) 0) ->
  (forall i j tj, i < m_nx m -> nth_error (cp (o_ns (the_opts C)) (o_scheme (the_opts C))) j = Some tj -> rho (S1 FX c e j i) = peval (p i) (Q2R tj)) ->
  (t_rbe (cn_tab C) = false -> forall i, i < m_nx m -> end_state (the_opts C) (cn_tab C) rho c e i = peval (p i) 1) ->
  (forall i j tj, i < m_nx m -> nth_error (cp (o_ns (the_opts C)) (o_scheme (the_opts C))) j = Some tj ->
     derivable_pt_lim (peval (p i)) (Q2R tj)
       (step_len (the_opts C) rho c e * (speed (the_opts C) rho c * rhs (the_opts C) m (stage_point (the_opts C) (cn_tab C) m rho c e j) i))%R) ->
  collocation (the_opts C) (cn_tab C) m rho c e /\ continuity (the_opts C) (cn_tab C) m rho c e.
Proof.
  intros H. exact (polynomial_solves cp (the_opts C) (cn_tab C) m rho (t_made _ _ _ _ _ _ _ H) (Feas_proofs.ns_pos _ _ _ _ _ _ _ H) c e p).
Qed.
Print Assumptions C21_polynomial_solves.
Example C21_case_problem : is_problem optsS model3 None CS /\ points_ok case_cpoints (the_opts CS) /\ o_repr (the_opts CS) = Integral.
Proof. exact (conj problemS (conj points_caseS eq_refl)). Qed.

(* ---- C22 ---- *)
Theorem C22_integral lr cp d o m oc C rho c e q0 : construct_problem lr cp d o m oc = Ok C -> points_ok cp (the_opts C) ->
  o_repr (the_opts C) = Integral -> o_sot (the_opts C) = SotNone ->
  (forall j, j < o_ns (the_opts C) -> eval (stage_point (the_opts C) (cn_tab C) m rho c e j) (oc_fq (the_ocp oc)) = q0) ->
  stage_cost (the_opts C) (cn_tab C) m (the_ocp oc) rho c e =
  ((1 - entry1 (t_B (cn_tab C)) 0) * (step_len (the_opts C) rho c e * q0))%R.
Proof.
  intros H. exact (cost_constant_integral cp (the_opts C) (cn_tab C) m (the_ocp oc) rho (t_made _ _ _ _ _ _ _ H) (Feas_proofs.ns_pos _ _ _ _ _ _ _ H) c e q0).
Qed.
Print Assumptions C22_integral.
(* the weight of the left boundary vanishes when the polynomial through the zeros at the collocation
   points has mean zero: the defining property of Gauss points, and of Radau points for n_s >= 2 *)
Theorem C22_integral_exact_partial lr cp d o m oc C rho c e q0 (a : list R) (pr : Riemann_integrable (peval a) 0 1) :
  construct_problem lr cp d o m oc = Ok C -> points_ok cp (the_opts C) ->
  o_repr (the_opts C) = Integral -> o_sot (the_opts C) = SotNone ->
  length a <= S (o_ns (the_opts C)) -> (forall q, In q (cp (o_ns (the_opts C)) (o_scheme (the_opts C))) -> peval a (Q2R q) = 0%R) ->
  peval a 0 <> 0%R -> RiemannInt pr = 0%R ->
  (forall j, j < o_ns (the_opts C) -> eval (stage_point (the_opts C) (cn_tab C) m rho c e j) (oc_fq (the_ocp oc)) = q0) ->
  stage_cost (the_opts C) (cn_tab C) m (the_ocp oc) rho c e = (step_len (the_opts C) rho c e * q0)%R.
Proof. exact (integral_exact lr cp d o m oc C rho c e q0 a pr). Qed.
Print Assumptions C22_integral_exact_partial.
(* Radau points 1/3, 1 *)
Example C22_case : exists C, is_problem default_opts model5 (Some ocpU) C /\ o_repr (the_opts C) = Integral /\ o_sot (the_opts C) = SotNone /\
  points_ok case_cpoints (the_opts C) /\ (entry1 (t_B (cn_tab C)) 0 = 0)%R.
Proof. exact radau2_case. Qed.
Theorem C22_differential lr cp d o m oc C rho c e q0 : construct_problem lr cp d o m oc = Ok C ->
  o_repr (the_opts C) <> Integral -> o_sot (the_opts C) = SotNone ->
  (forall j, j < o_ns (the_opts C) -> eval (stage_point (the_opts C) (cn_tab C) m rho c e j) (oc_fq (the_ocp oc)) = q0) ->
  (Rabs (stage_cost (the_opts C) (cn_tab C) m (the_ocp oc) rho c e - step_len (the_opts C) rho c e * q0) <=
   Q2R tolerance * Rabs (step_len (the_opts C) rho c e * q0))%R.
Proof. intros H. exact (cost_constant_differential cp (the_opts C) (cn_tab C) m (the_ocp oc) rho (t_made _ _ _ _ _ _ _ H) c e q0). Qed.
Print Assumptions C22_differential.
Example C22_case_differential : is_problem optsB model2 None CB /\ o_repr (the_opts CB) <> Integral /\ o_sot (the_opts CB) = SotNone.
Proof. split; [exact problemB|]. vm_compute. split; [discriminate|reflexivity]. Qed.
(* one Radau point: running cost 1 on a horizon of length 1 costs 1/2 *)
Theorem C22_radau1_refuted : exists o m oc C rho, is_problem o m (Some oc) C /\ feasible rho (the_nlp C) /\
  oc_fq oc = cq 1 /\ oc_fT oc = cq 0 /\ o_terminal_time (the_opts C) = 1%Q /\ (rho (SH 0 0) = rho (SH 0 1))%R /\
  eval rho (cost (the_nlp C)) = (/ 2)%R.
Proof. exact half_cost. Qed.
Print Assumptions C22_radau1_refuted.

(* ---- C26, C27 ---- *)
Theorem C26_end_state_is_last_stage lr cp d o m oc C rho c e nfe i : fesd_problem lr cp d o m oc C -> constraints_ok rho (the_nlp C) ->
  t_rbe (cn_tab C) = true -> is_fe (the_opts C) c e nfe -> i < m_nx m ->
  stage_state (the_opts C) (cn_tab C) rho c e (o_ns (the_opts C) - 1) i = end_state (the_opts C) (cn_tab C) rho c e i.
Proof. exact (last_stage_is_end lr cp d o m oc C rho c e nfe i). Qed.
Print Assumptions C26_end_state_is_last_stage.
Theorem C26_end_state_continuity lr cp d o m oc C rho c e nfe : fesd_problem lr cp d o m oc C -> constraints_ok rho (the_nlp C) ->
  is_fe (the_opts C) c e nfe -> continuity (the_opts C) (cn_tab C) m rho c e.
Proof. exact (end_continuity lr cp d o m oc C rho c e nfe). Qed.
Print Assumptions C26_end_state_continuity.
Example C26_case_problem : is_problem optsS model3 None CS /\ t_rbe (cn_tab CS) = true /\ is_fe (the_opts CS) 0 1 2 /\
  is_problem (with_cross optsG ComplementAll) model4 None CG2 /\ t_rbe (cn_tab CG2) = false.
Proof. split; [exact problemS|]. split; [vm_compute; reflexivity|]. split; [vm_compute; repeat split; lia|]. split; [exact problemG2|vm_compute; reflexivity]. Qed.
Theorem C27_differential lr cp d o m oc C rho c e nfe i : fesd_problem lr cp d o m oc C -> constraints_ok rho (the_nlp C) ->
  o_repr (the_opts C) <> Integral -> is_fe (the_opts C) c e nfe -> i < m_nx m ->
  (end_state (the_opts C) (cn_tab C) rho c e i = start_state (the_opts C) (cn_tab C) rho c e i + step_len (the_opts C) rho c e *
     rupto (o_ns (the_opts C)) (fun j => entry1 (t_b (cn_tab C)) j * slope rho c e j i))%R.
Proof. exact (chained lr cp d o m oc C rho c e nfe i). Qed.
Print Assumptions C27_differential.
Theorem C27_constant_field lr cp d o m oc C rho c e nfe i f : fesd_problem lr cp d o m oc C -> constraints_ok rho (the_nlp C) ->
  points_ok cp (the_opts C) -> o_repr (the_opts C) = Integral -> is_fe (the_opts C) c e nfe -> i < m_nx m ->
  (forall j, j < o_ns (the_opts C) -> rhs (the_opts C) m (stage_point (the_opts C) (cn_tab C) m rho c e j) i = f) ->
  (end_state (the_opts C) (cn_tab C) rho c e i = start_state (the_opts C) (cn_tab C) rho c e i +
     step_len (the_opts C) rho c e * (speed (the_opts C) rho c * f))%R.
Proof. exact (constant_field lr cp d o m oc C rho c e nfe i f). Qed.
Print Assumptions C27_constant_field.
Example C27_case : is_problem optsS model3 None CS /\ constraints_ok rhoS (the_nlp CS) /\ is_fe (the_opts CS) 0 1 2 /\
  rhs (the_opts CS) model3 (stage_point (the_opts CS) (cn_tab CS) model3 rhoS 0 1 0) 0 = 1%R.
Proof. exact constant_caseS. Qed.

(* ---- C28 ---- *)
Theorem C28_path_terminal_time lr cp d o m oc C rho : fesd_problem lr cp d o m oc C -> constraints_ok rho (the_nlp C) ->
  (forall c e nfe, is_fe (the_opts C) c e nfe -> e + 1 = nfe \/ o_g_path_at_fe (the_opts C) = true ->
     path_holds m (the_ocp oc) rho c (final_state (the_opts C) (cn_tab C) rho c e) /\
     forall i, i < m_nx m -> final_state (the_opts C) (cn_tab C) rho c e i = end_state (the_opts C) (cn_tab C) rho c e i) /\
  (forall c e nfe j, is_fe (the_opts C) c e nfe -> o_g_path_at_stg (the_opts C) = true ->
     j < o_ns (the_opts C) - (if t_rbe (cn_tab C) then 1 else 0) ->
     path_holds m (the_ocp oc) rho c (stage_state (the_opts C) (cn_tab C) rho c e j)) /\
  (forall e, In e (oc_gT (the_ocp oc)) -> eval (terminal_point (the_opts C) (cn_tab C) m rho) e = 0%R) /\
  (forall c tv, c < o_N_stages (the_opts C) -> o_time_freezing (the_opts C) = true -> o_equidistant (the_opts C) = true -> m_tvar m = Some tv ->
     (Rabs (eval (plain_point m rho c (end_state (the_opts C) (cn_tab C) rho c (nfe_of (the_opts C) c - 1))) tv -
            eval (plain_point m rho c (fun i => rho (SX0 i))) tv -
            INR (c + 1) * (Q2R (o_terminal_time (the_opts C)) / INR (o_N_stages (the_opts C)))) <= Q2R (o_tf_tol (the_opts C)))%R).
Proof. exact (user_constraints lr cp d o m oc C rho). Qed.
Print Assumptions C28_path_terminal_time.
Example C28_case : is_problem optsA model1 (Some ocp1) CA /\ o_g_path_at_fe (the_opts CA) = true /\ o_g_path_at_stg (the_opts CA) = true /\
  o_time_freezing (the_opts CA) = true /\ length (oc_g_path ocp1) = 1 /\ length (oc_gT ocp1) = 1 /\ m_tvar model1 <> None.
Proof. split; [exact problemA|]. vm_compute. repeat split; discriminate. Qed.
Example C28_case_feasible : is_problem (with_constr optsL Exact) model5 (Some (ocpL (Fin 7))) CL1 /\ feasible (pt (restU2 5)) (the_nlp CL1).
Proof. exact (conj problemL1 feasibleL1). Qed.

(* ---- C58 ---- *)
Theorem C58_speed_partial lr cp d o m oc C rho c e nfe : fesd_problem lr cp d o m oc C -> constraints_ok rho (the_nlp C) ->
  is_fe (the_opts C) c e nfe ->
  match o_sot (the_opts C) with
  | SotNone => p_ind_sot (the_problem C) = [] /\ speed (the_opts C) rho c = 1%R
  | SotLocal => length (p_ind_sot (the_problem C)) = o_N_stages (the_opts C) /\ speed (the_opts C) rho c = rho (SSot c) /\
      exists i, nth_error (p_ind_sot (the_problem C)) c = Some [i] /\ nth_error (w (the_nlp C)) i = Some (SSot c) /\
        nth_error (lbw (the_nlp C)) i = Some (Fin (o_sot_min (the_opts C))) /\ nth_error (ubw (the_nlp C)) i = Some (Fin (o_sot_max (the_opts C)))
  | SotGlobal => False
  end /\ collocation (the_opts C) (cn_tab C) m rho c e.
Proof. exact (speed_modes lr cp d o m oc C rho c e nfe). Qed.
Print Assumptions C58_speed_partial.
Example C58_case : o_sot (the_opts CA) = SotLocal /\ p_ind_sot (the_problem CA) <> [] /\ o_sot (the_opts CS) = SotNone.
Proof. vm_compute. repeat split; discriminate. Qed.
(* GLOBAL never yields a problem: the method it calls does not exist *)
Theorem C58_global_never_built lr cp d o m oc C : o_sot o = SotGlobal -> construct_problem lr cp d o m oc <> Ok C.
Proof. exact (global_never lr cp d o m oc C). Qed.
Print Assumptions C58_global_never_built.
Theorem C58_global_refuted : exists o m, o_sot o = SotGlobal /\ build o m None = Err EAttributeError.
Proof. exact global_error. Qed.
Print Assumptions C58_global_refuted.
