(* Conv8_proofs.v -- cases of the statements on first order convergence: x' = 1 for x < 0, x' = -x - 1 for x > 0,
   two elements with FESD: from 1 to 0, then sliding *)
From Coq Require Import Reals Qreals Lra Psatz.
From Verif Require Import Base Sx Utils Tableau Opts Model Ocp Problem Spec Cases Lib Sx_proofs Fesd Spec2 Spec3 Witness Feas6_proofs Witness5
  Dcs_proofs Elem_proofs Feas_proofs Mode_proofs Spec9 Spec10 Spec11 Filippov_proofs Filippov2_proofs Filippov3_proofs Filippov4_proofs Exact_proofs Exact2_proofs Spec4 Spec21 Conv5_proofs Spec22.

Definition with_horizon (o : opts) (T : Q) : opts := {|
  o_terminal_time := T; o_use_fesd := o_use_fesd o; o_max_iter_homotopy := o_max_iter_homotopy o;
  o_init := o_init o; o_repr := o_repr o; o_ns := o_ns o; o_scheme := o_scheme o;
  o_cross := o_cross o; o_mpcc := o_mpcc o; o_constr := o_constr o; o_pss := o_pss o;
  o_gamma_h := o_gamma_h o; o_smoothing := o_smoothing o; o_fix_active_set_fe0 := o_fix_active_set_fe0 o;
  o_N_finite_elements := o_N_finite_elements o; o_Nfe_list := o_Nfe_list o; o_comp_tol := o_comp_tol o;
  o_sigma_0 := o_sigma_0 o; o_sigma_N := o_sigma_N o; o_slope := o_slope o;
  o_exponent := o_exponent o; o_rule := o_rule o; o_step_eq := o_step_eq o;
  o_step_eq_sigma := o_step_eq_sigma o; o_rho_h := o_rho_h o; o_fb1 := o_fb1 o; o_fb2 := o_fb2 o;
  o_do_polishing := o_do_polishing o; o_N_stages := o_N_stages o; o_equidistant := o_equidistant o;
  o_g_path_at_fe := o_g_path_at_fe o; o_g_path_at_stg := o_g_path_at_stg o;
  o_s_elastic_0 := o_s_elastic_0 o; o_s_elastic_max := o_s_elastic_max o;
  o_s_elastic_min := o_s_elastic_min o; o_obj_direct := o_obj_direct o;
  o_time_freezing := o_time_freezing o; o_tf_tol := o_tf_tol o; o_sot := o_sot o;
  o_sot_min := o_sot_min o; o_sot_max := o_sot_max o |}.
Definition optsM : opts := with_horizon (with_grid (with_modes optsS Stewart ScholtesIneq SumLambdas HeuristicDelta SotNone true true) 1 [2]) 2.
Lemma caseM_ok : is_ok (build optsM decay_model None) = true. Proof. vm_compute. reflexivity. Qed.
Definition CM : constructed := get _ caseM_ok.
Lemma builtM : build optsM decay_model None = Ok CM. Proof. apply get_ok. Qed.
Lemma problemM : is_problem optsM decay_model None CM. Proof. exact (is_problem_ok _ _ _ _ builtM eq_refl sizedK). Qed.
Definition fesdM : list (sym * Q) := [(SX0 0, 1%Q); (SL00 FLam 0 0, 2%Q); (SH 0 0, 1%Q); (SH 0 1, 1%Q);
  (S2 FTheta 0 0 0 0 1, 1%Q); (S2 FTheta 0 1 0 0 0, (1#2)%Q); (S2 FTheta 0 1 0 0 1, (1#2)%Q)].
Lemma feasibleM : feasible (pt fesdM) (the_nlp CM).
Proof. apply (feasibleQ (ptQ fesdM)). vm_compute. reflexivity. Qed.
Definition optsMs : opts := with_horizon (with_grid (with_modes optsS Step ScholtesIneq SumLambdas HeuristicDelta SotNone true true) 1 [2]) 2.
Lemma caseMs_ok : is_ok (build optsMs decay_model None) = true. Proof. vm_compute. reflexivity. Qed.
Definition CMs : constructed := get _ caseMs_ok.
Lemma builtMs : build optsMs decay_model None = Ok CMs. Proof. apply get_ok. Qed.
Lemma problemMs : is_problem optsMs decay_model None CMs. Proof. exact (is_problem_ok _ _ _ _ builtMs eq_refl sizedK). Qed.
Definition fesdMs : list (sym * Q) := [(SX0 0, 1%Q); (SL00 FLp 0 0, 1%Q); (SH 0 0, 1%Q); (SH 0 1, 1%Q);
  (S2 FAlpha 0 0 0 0 0, 1%Q); (S2 FAlpha 0 1 0 0 0, (1#2)%Q)].
Lemma feasibleMs : feasible (pt fesdMs) (the_nlp CMs).
Proof. apply (feasibleQ (ptQ fesdMs)). vm_compute. reflexivity. Qed.
Local Open Scope R_scope.
Lemma affineK : affine_switching m.
Proof. intros [|s] e [H|H]; cbn in H; try contradiction; try (destruct s; contradiction). destruct H as [<-|[]]. apply affine_x. cbn. lia. Qed.
Lemma settingM : fesd_setting case_cpoints (the_opts CM) (cn_tab CM) m (pt fesdM).
Proof.
  assert (N : o_ns (the_opts CM) = 1%nat) by (vm_compute; reflexivity). assert (E : o_scheme (the_opts CM) = RadauIIA) by (vm_compute; reflexivity).
  destruct (radau1 _ N E) as [P W]. split; [|split; [exact affineK|split; [apply same_pt; reflexivity|split; [|split; [vm_compute; reflexivity|left; vm_compute; reflexivity]]]]].
  - split; [exact P|]. split; [exact W|]. split; [exact plainK|]. split; [|apply nonneg_pt; reflexivity].
    unfold zero_relaxation. replace (o_mpcc (the_opts CM)) with ScholtesIneq by (vm_compute; reflexivity). val fesdM. unfold Q2R. cbn. lra.
  - unfold initial_multipliers. replace (o_pss (the_opts CM)) with Stewart by (vm_compute; reflexivity). exists (fun _ => 1).
    intros [|s] [|[|k]] Hs Hk; cbn in Hs, Hk; try lia; unfold region_value; cbn -[Q2R pt]; unfold rsum; cbn -[Q2R pt]; val fesdM; unfold Q2R; cbn; lra.
Qed.
Lemma settingMs : fesd_setting case_cpoints (the_opts CMs) (cn_tab CMs) m (pt fesdMs).
Proof.
  assert (N : o_ns (the_opts CMs) = 1%nat) by (vm_compute; reflexivity). assert (E : o_scheme (the_opts CMs) = RadauIIA) by (vm_compute; reflexivity).
  destruct (radau1 _ N E) as [P W]. split; [|split; [exact affineK|split; [apply same_pt; reflexivity|split; [|split; [vm_compute; reflexivity|left; vm_compute; reflexivity]]]]].
  - split; [exact P|]. split; [exact W|]. split; [exact plainK|]. split; [|apply nonneg_pt; reflexivity].
    unfold zero_relaxation. replace (o_mpcc (the_opts CMs)) with ScholtesIneq by (vm_compute; reflexivity). val fesdMs. unfold Q2R. cbn. lra.
  - unfold initial_multipliers. replace (o_pss (the_opts CMs)) with Step by (vm_compute; reflexivity).
    intros [|s] [|k] Hs Hk; cbn in Hs, Hk; try lia. unfold switch_value. cbn -[Q2R pt]. val fesdMs. unfold Q2R. cbn. lra.
Qed.
Lemma elemM c e : is_element (the_opts CM) c e -> c = 0%nat /\ (e = 0%nat \/ e = 1%nat).
Proof.
  intros [Hc He]. replace (o_N_stages (the_opts CM)) with 1%nat in Hc by (vm_compute; reflexivity). assert (c = 0)%nat by lia. subst c.
  replace (nfe_of (the_opts CM) 0) with 2%nat in He by (vm_compute; reflexivity). lia.
Qed.
Lemma elemMs c e : is_element (the_opts CMs) c e -> c = 0%nat /\ (e = 0%nat \/ e = 1%nat).
Proof.
  intros [Hc He]. replace (o_N_stages (the_opts CMs)) with 1%nat in Hc by (vm_compute; reflexivity). assert (c = 0)%nat by lia. subst c.
  replace (nfe_of (the_opts CMs) 0) with 2%nat in He by (vm_compute; reflexivity). lia.
Qed.
Lemma stepsM : steps_upto (the_opts CM) (pt fesdM) 1.
Proof.
  intros c e He. unfold step_len. replace (o_use_fesd (the_opts CM)) with true by (vm_compute; reflexivity).
  destruct (elemM c e He) as [-> [->| ->]]; val fesdM; unfold Q2R; cbn; lra.
Qed.
Lemma stepsMs : steps_upto (the_opts CMs) (pt fesdMs) 1.
Proof.
  intros c e He. unfold step_len. replace (o_use_fesd (the_opts CMs)) with true by (vm_compute; reflexivity).
  destruct (elemMs c e He) as [-> [->| ->]]; val fesdMs; unfold Q2R; cbn; lra.
Qed.
Lemma stagesM : stages_in (the_opts CM) (cn_tab CM) (pt fesdM) unit_interval.
Proof.
  intros c e j He Hj. replace (o_ns (the_opts CM)) with 1%nat in Hj by (vm_compute; reflexivity). assert (j = 0)%nat by lia. subst j.
  unfold unit_interval, stage_state. replace (o_repr (the_opts CM)) with Integral by (vm_compute; reflexivity).
  destruct (elemM c e He) as [-> [->| ->]]; val fesdM; unfold Q2R; cbn; lra.
Qed.
Lemma stagesMs : stages_in (the_opts CMs) (cn_tab CMs) (pt fesdMs) unit_interval.
Proof.
  intros c e j He Hj. replace (o_ns (the_opts CMs)) with 1%nat in Hj by (vm_compute; reflexivity). assert (j = 0)%nat by lia. subst j.
  unfold unit_interval, stage_state. replace (o_repr (the_opts CMs)) with Integral by (vm_compute; reflexivity).
  destruct (elemMs c e He) as [-> [->| ->]]; val fesdMs; unfold Q2R; cbn; lra.
Qed.
Lemma sotM : o_sot (the_opts CM) <> SotLocal. Proof. intros E. vm_compute in E. discriminate E. Qed.
Lemma sotMs : o_sot (the_opts CMs) <> SotLocal. Proof. intros E. vm_compute in E. discriminate E. Qed.
Lemma lipK o rho : o_sot o <> SotLocal -> lipschitz_on o m rho unit_interval 1.
Proof.
  intros NS c x y th dd i _ _ _ Cx Hd Hi. cbn in Hi. assert (i = 0)%nat by lia. subst i. rewrite !(velocityK _ _ NS). specialize (Hd 0%nat Nat.lt_0_1).
  apply weightsK in Cx. destruct Cx as (P & Q & S).
  replace (th 0%nat 0%nat + (- x 0%nat - 1) * th 0%nat 1%nat - (th 0%nat 0%nat + (- y 0%nat - 1) * th 0%nat 1%nat)) with (- (th 0%nat 1%nat * (x 0%nat - y 0%nat))) by ring.
  rewrite Rabs_Ropp, Rabs_mult, (Rabs_pos_eq (th 0%nat 1%nat)) by exact Q. pose proof (Rabs_pos (x 0%nat - y 0%nat)). nra.
Qed.
Lemma segmentsM : segments_in (the_opts CM) (cn_tab CM) (pt fesdM) unit_interval.
Proof.
  intros c e tau He Ht. unfold unit_interval, segment. destruct (elemM c e He) as [-> [->| ->]].
  - replace (start_state (the_opts CM) (cn_tab CM) (pt fesdM) 0 0 0) with 1 by (unfold start_state; cbn [before state_at]; val fesdM; unfold Q2R; cbn; lra).
    replace (end_state (the_opts CM) (cn_tab CM) (pt fesdM) 0 0 0) with 0 by (unfold end_state; replace (points1 (the_opts CM) (t_rbe (cn_tab CM)) FX - 1)%nat with 0%nat by (vm_compute; reflexivity); val fesdM; unfold Q2R; cbn; lra).
    lra.
  - replace (start_state (the_opts CM) (cn_tab CM) (pt fesdM) 0 1 0) with 0 by (unfold start_state; cbn [before state_at]; unfold end_state; replace (points1 (the_opts CM) (t_rbe (cn_tab CM)) FX - 1)%nat with 0%nat by (vm_compute; reflexivity); val fesdM; unfold Q2R; cbn; lra).
    replace (end_state (the_opts CM) (cn_tab CM) (pt fesdM) 0 1 0) with 0 by (unfold end_state; replace (points1 (the_opts CM) (t_rbe (cn_tab CM)) FX - 1)%nat with 0%nat by (vm_compute; reflexivity); val fesdM; unfold Q2R; cbn; lra).
    lra.
Qed.
Lemma segmentsMs : segments_in (the_opts CMs) (cn_tab CMs) (pt fesdMs) unit_interval.
Proof.
  intros c e tau He Ht. unfold unit_interval, segment. destruct (elemMs c e He) as [-> [->| ->]].
  - replace (start_state (the_opts CMs) (cn_tab CMs) (pt fesdMs) 0 0 0) with 1 by (unfold start_state; cbn [before state_at]; val fesdMs; unfold Q2R; cbn; lra).
    replace (end_state (the_opts CMs) (cn_tab CMs) (pt fesdMs) 0 0 0) with 0 by (unfold end_state; replace (points1 (the_opts CMs) (t_rbe (cn_tab CMs)) FX - 1)%nat with 0%nat by (vm_compute; reflexivity); val fesdMs; unfold Q2R; cbn; lra).
    lra.
  - replace (start_state (the_opts CMs) (cn_tab CMs) (pt fesdMs) 0 1 0) with 0 by (unfold start_state; cbn [before state_at]; unfold end_state; replace (points1 (the_opts CMs) (t_rbe (cn_tab CMs)) FX - 1)%nat with 0%nat by (vm_compute; reflexivity); val fesdMs; unfold Q2R; cbn; lra).
    replace (end_state (the_opts CMs) (cn_tab CMs) (pt fesdMs) 0 1 0) with 0 by (unfold end_state; replace (points1 (the_opts CMs) (t_rbe (cn_tab CMs)) FX - 1)%nat with 0%nat by (vm_compute; reflexivity); val fesdMs; unfold Q2R; cbn; lra).
    lra.
Qed.
Lemma track_caseM : is_problem optsM m None CM /\ feasible (pt fesdM) (the_nlp CM) /\ fesd_setting case_cpoints (the_opts CM) (cn_tab CM) m (pt fesdM) /\
  method Integral RadauIIA 1 (the_opts CM) /\ mode_rule (the_opts CM) m (smallest m) /\
  stages_in (the_opts CM) (cn_tab CM) (pt fesdM) unit_interval /\ segments_in (the_opts CM) (cn_tab CM) (pt fesdM) unit_interval /\
  bounded_on (the_opts CM) m (pt fesdM) unit_interval 2 /\ steps_upto (the_opts CM) (pt fesdM) 1.
Proof.
  split; [exact problemM|]. split; [exact feasibleM|]. split; [exact settingM|]. split; [split; [|split]; vm_compute; reflexivity|].
  split; [left; split; [vm_compute; reflexivity|reflexivity]|]. split; [exact stagesM|]. split; [exact segmentsM|]. split; [exact (boundK _ _ sotM)|exact stepsM].
Qed.
Lemma track_caseMs : is_problem optsMs m None CMs /\ feasible (pt fesdMs) (the_nlp CMs) /\ fesd_setting case_cpoints (the_opts CMs) (cn_tab CMs) m (pt fesdMs) /\
  method Integral RadauIIA 1 (the_opts CMs) /\ mode_rule (the_opts CMs) m (in_closed_region m) /\
  stages_in (the_opts CMs) (cn_tab CMs) (pt fesdMs) unit_interval /\ segments_in (the_opts CMs) (cn_tab CMs) (pt fesdMs) unit_interval /\
  bounded_on (the_opts CMs) m (pt fesdMs) unit_interval 2 /\ steps_upto (the_opts CMs) (pt fesdMs) 1.
Proof.
  split; [exact problemMs|]. split; [exact feasibleMs|]. split; [exact settingMs|]. split; [split; [|split]; vm_compute; reflexivity|].
  split; [right; split; [vm_compute; reflexivity|]; split; [exact signsK|]; split; [exact fitK|]; split; [exact completeK|reflexivity]|].
  split; [exact stagesMs|]. split; [exact segmentsMs|]. split; [exact (boundK _ _ sotMs)|exact stepsMs].
Qed.
Lemma fieldsM : one_sided_on (the_opts CM) m (pt fesdM) (smallest m) unit_interval 0 /\ lipschitz_on (the_opts CM) m (pt fesdM) unit_interval 1 /\
  exact_solution (the_opts CM) m (pt fesdM) (smallest m) (fun z _ => decay_solution z) /\
  (forall tm, 0 <= tm <= end_time (the_opts CM) (pt fesdM) -> unit_interval (fun _ => decay_solution tm)).
Proof.
  split; [exact (oneK _ _ _ sidesK sotM)|]. split; [exact (lipK _ _ sotM)|]. split; [|intros tm [H _]; exact (solution_range tm H)].
  apply (solutionK _ _ _ sidesK sotM). val fesdM. unfold Q2R. cbn. lra.
Qed.
Lemma fieldsMs : one_sided_on (the_opts CMs) m (pt fesdMs) (in_closed_region m) unit_interval 0 /\ lipschitz_on (the_opts CMs) m (pt fesdMs) unit_interval 1 /\
  exact_solution (the_opts CMs) m (pt fesdMs) (in_closed_region m) (fun z _ => decay_solution z) /\
  (forall tm, 0 <= tm <= end_time (the_opts CMs) (pt fesdMs) -> unit_interval (fun _ => decay_solution tm)).
Proof.
  split; [exact (oneK _ _ _ sidesL sotMs)|]. split; [exact (lipK _ _ sotMs)|]. split; [|intros tm [H _]; exact (solution_range tm H)].
  apply (solutionK _ _ _ sidesL sotMs). val fesdMs. unfold Q2R. cbn. lra.
Qed.
Lemma refine_caseM : o_terminal_time (the_opts CM) = 2%Q /\ ext_upto (o_gamma_h (the_opts CM)) 1 /\
  (forall c, (c < o_N_stages (the_opts CM))%nat -> (2 <= o_N_stages (the_opts CM) * nfe_of (the_opts CM) c)%nat) /\ o_equidistant (the_opts CM) = true.
Proof.
  split; [vm_compute; reflexivity|]. split; [vm_compute; discriminate|]. split; [|vm_compute; reflexivity].
  intros c Hc. replace (o_N_stages (the_opts CM)) with 1%nat in * by (vm_compute; reflexivity). assert (c = 0)%nat by lia. subst c.
  replace (nfe_of (the_opts CM) 0) with 2%nat by (vm_compute; reflexivity). lia.
Qed.
