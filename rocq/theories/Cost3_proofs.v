(* Cost3_proofs.v -- cases of the theorems on the objective: x' = 1 for x < 0, x' = -x - 1 for x > 0, from 1, running and terminal cost x,
   one Gauss point, two elements with FESD; one Radau point: half of the cost is missing *)
From Coq Require Import Reals Qreals Lra Psatz.
From Verif Require Import Base Sx Utils Tableau Opts Model Ocp Problem Spec Cases Lib Sx_proofs Fesd Spec2 Spec3 Witness Feas6_proofs Witness5
  Dcs_proofs Elem_proofs Feas_proofs Mode_proofs Spec9 Spec10 Spec11 Filippov_proofs Filippov2_proofs Filippov3_proofs Filippov4_proofs Exact_proofs Exact2_proofs Spec4 Spec21 Conv5_proofs
  Spec22 Conv8_proofs Spec24 Relax_proofs Relax5_proofs Relax4_proofs Spec25 Cost_proofs Cost2_proofs.

Definition optsO : opts := with_grid (with_modes (with_irk default_opts Integral 1 GaussLegendre) Stewart ScholtesIneq SumLambdas HeuristicDelta SotNone true true) 1 [2].
Definition ocpO : ocp := mkOcp None None None None None (cx 0) [] None None [] (cx 0) [] None None None.
Lemma caseO_ok : is_ok (build optsO decay_model (Some ocpO)) = true. Proof. vm_compute. reflexivity. Qed.
Definition CO : constructed := get _ caseO_ok.
Lemma builtO : build optsO decay_model (Some ocpO) = Ok CO. Proof. apply get_ok. Qed.
Lemma problemO : is_problem optsO decay_model (Some ocpO) CO. Proof. exact (is_problem_ok _ _ _ _ builtO eq_refl sizedK). Qed.
(* midpoint rule: 1 to 0 in 2/3, then sliding *)
Definition gaussO : list (sym * Q) := [(SX0 0, 1%Q); (SL00 FLam 0 0, 2%Q); (SH 0 0, (2#3)%Q); (SH 0 1, (1#3)%Q);
  (S1 FX 0 0 0 0, (1#2)%Q); (S2 FTheta 0 0 0 0 1, 1%Q); (S2 FLam 0 0 0 0 0, 1%Q); (S2 FMu 0 0 0 0 0, (1#2)%Q);
  (S2 FTheta 0 1 0 0 0, (1#2)%Q); (S2 FTheta 0 1 0 0 1, (1#2)%Q)].
Lemma feasibleO : feasible (pt gaussO) (the_nlp CO).
Proof. apply (feasibleQ (ptQ gaussO)). vm_compute. reflexivity. Qed.
(* the same point of the problem with sigma = 1/100 *)
Definition relaxedO : list (sym * Q) := (SSigma, (1#100)%Q) :: gaussO.
Lemma relaxed_feasibleO : feasible (pt relaxedO) (the_nlp CO).
Proof. apply (feasibleQ (ptQ relaxedO)). vm_compute. reflexivity. Qed.
Local Open Scope R_scope.
Notation OO := (the_opts CO).
Lemma costO : eval (pt gaussO) (cost (the_nlp CO)) = 4 / 9.
Proof.
  change (pt gaussO) with (fun s => Q2R (ptQ gaussO s)). rewrite (evalQ_sound _ _ (4#9)%Q); [unfold Q2R; cbn; lra|vm_compute; reflexivity].
Qed.
Lemma settingO : fesd_setting case_cpoints OO (cn_tab CO) m (pt gaussO).
Proof.
  assert (N : o_ns OO = 1%nat) by (vm_compute; reflexivity). assert (E : o_scheme OO = GaussLegendre) by (vm_compute; reflexivity).
  destruct (gauss1 _ N E) as [P W]. split; [|split; [exact affineK|split; [apply same_pt; reflexivity|split; [|split; [vm_compute; reflexivity|left; vm_compute; reflexivity]]]]].
  - split; [exact P|]. split; [exact W|]. split; [exact plainK|]. split; [|apply nonneg_pt; reflexivity].
    unfold zero_relaxation. replace (o_mpcc OO) with ScholtesIneq by (vm_compute; reflexivity). val gaussO. unfold Q2R. cbn. lra.
  - unfold initial_multipliers. replace (o_pss OO) with Stewart by (vm_compute; reflexivity). exists (fun _ => 1).
    intros [|s] [|[|k]] Hs Hk; cbn in Hs, Hk; try lia; unfold region_value; cbn -[Q2R pt]; unfold rsum; cbn -[Q2R pt]; val gaussO; unfold Q2R; cbn; lra.
Qed.
Lemma pmO : product_mode OO. Proof. unfold product_mode. replace (o_mpcc OO) with ScholtesIneq by (vm_compute; reflexivity). exact Logic.I. Qed.
Lemma rsettingO : relaxed_setting case_cpoints OO decay_model.
Proof. destruct settingO as ((A & B & E & _) & _). split; [exact A|]. split; [exact B|]. split; [exact E|exact pmO]. Qed.
Lemma nrO : near_rule OO decay_model (smallest decay_model) (near_smallest decay_model).
Proof. left. split; [vm_compute; reflexivity|split; reflexivity]. Qed.
Lemma elemO c e : is_element OO c e -> c = 0%nat /\ (e = 0%nat \/ e = 1%nat).
Proof.
  intros [Hc He]. replace (o_N_stages OO) with 1%nat in Hc by (vm_compute; reflexivity). assert (c = 0)%nat by lia. subst c.
  replace (nfe_of OO 0) with 2%nat in He by (vm_compute; reflexivity). lia.
Qed.
Lemma sotO : o_sot OO <> SotLocal. Proof. intros E. vm_compute in E. discriminate E. Qed.
Lemma leftO : no_left_weight OO (cn_tab CO).
Proof. intros _. unfold entry1. replace (nth 0 (t_B (cn_tab CO)) 0%Q) with 0%Q by (vm_compute; reflexivity). apply Q2R_0. Qed.
Section Point.
Variable l : list (sym * Q).
Hypothesis Lh : ptQ l (SH 0 0) = (2#3)%Q /\ ptQ l (SH 0 1) = (1#3)%Q.
Hypothesis Lx : ptQ l (SX0 0) = 1%Q /\ ptQ l (S1 FX 0 0 0 0) = (1#2)%Q /\ ptQ l (S1 FX 0 0 1 0) = 0%Q /\ ptQ l (S1 FX 0 1 0 0) = 0%Q /\ ptQ l (S1 FX 0 1 1 0) = 0%Q.
Lemma ptl s q : ptQ l s = q -> pt l s = Q2R q. Proof. intros <-. reflexivity. Qed.
Lemma lenO : step_len OO (pt l) 0 0 = 2 / 3 /\ step_len OO (pt l) 0 1 = / 3.
Proof.
  unfold step_len. replace (o_use_fesd OO) with true by (vm_compute; reflexivity). rewrite (ptl _ _ (proj1 Lh)), (ptl _ _ (proj2 Lh)). unfold Q2R. cbn. lra.
Qed.
Lemma timeO : grid_time OO (pt l) 0 0 = 0 /\ grid_time OO (pt l) 0 1 = 2 / 3 /\ end_time OO (pt l) = 1.
Proof.
  destruct lenO as [H0 H1]. unfold end_time, grid_time, stage_length. replace (o_N_stages OO) with 1%nat by (vm_compute; reflexivity).
  unfold rupto. cbn [seq map]. replace (nfe_of OO 0) with 2%nat by (vm_compute; reflexivity). cbn [seq map]. unfold rsum. cbn [fold_right]. rewrite H0, H1. lra.
Qed.
Lemma stepsO : steps_upto OO (pt l) (2 / 3).
Proof. destruct lenO as [H0 H1]. intros c e He. destruct (elemO c e He) as [-> [->| ->]]; rewrite ?H0, ?H1; lra. Qed.
Lemma stagesO : stages_in OO (cn_tab CO) (pt l) unit_interval.
Proof.
  destruct Lx as (_ & A & _ & B & _). intros c e j He Hj. replace (o_ns OO) with 1%nat in Hj by (vm_compute; reflexivity). assert (j = 0)%nat by lia. subst j.
  unfold unit_interval, stage_state. replace (o_repr OO) with Integral by (vm_compute; reflexivity).
  destruct (elemO c e He) as [-> [->| ->]]; [rewrite (ptl _ _ A)|rewrite (ptl _ _ B)]; unfold Q2R; cbn; lra.
Qed.
Lemma endO e : (e = 0 \/ e = 1)%nat -> end_state OO (cn_tab CO) (pt l) 0 e 0 = 0.
Proof.
  destruct Lx as (_ & _ & A & _ & B). intros [->| ->]; unfold end_state; replace (points1 OO (t_rbe (cn_tab CO)) FX - 1)%nat with 1%nat by (vm_compute; reflexivity);
    [rewrite (ptl _ _ A)|rewrite (ptl _ _ B)]; apply Q2R_0.
Qed.
Lemma segmentsO : segments_in OO (cn_tab CO) (pt l) unit_interval.
Proof.
  destruct Lx as (A & _). intros c e tau He Ht. unfold unit_interval, segment. destruct (elemO c e He) as [-> [->| ->]]; rewrite endO by auto.
  - replace (start_state OO (cn_tab CO) (pt l) 0 0 0) with 1 by (unfold start_state; cbn [before state_at]; rewrite (ptl _ _ A); unfold Q2R; cbn; lra). lra.
  - replace (start_state OO (cn_tab CO) (pt l) 0 1 0) with 0; [lra|]. unfold start_state. cbn [before state_at]. symmetry. apply endO. auto.
Qed.
Lemma last_inO : unit_interval (end_state OO (cn_tab CO) (pt l) (last_stage OO) (last_elem OO (last_stage OO))).
Proof.
  replace (last_elem OO (last_stage OO)) with 1%nat by (vm_compute; reflexivity). replace (last_stage OO) with 0%nat by (vm_compute; reflexivity).
  unfold unit_interval. rewrite endO by auto. lra.
Qed.
Lemma solO : exact_solution OO m (pt l) (smallest m) (fun z _ => decay_solution z).
Proof. apply (solutionK _ _ _ sidesK sotO). rewrite (ptl _ _ (proj1 Lx)). unfold Q2R. cbn. lra. Qed.
Lemma closeO : grid_close OO (cn_tab CO) m (pt l) (/ 8) (fun z _ => decay_solution z).
Proof.
  destruct timeO as (G0 & G1 & _). destruct lenO as [H0 H1]. intros c e i He Hi. cbn in Hi. assert (i = 0)%nat by lia. subst i.
  assert (B : decay_solution (2 / 3) <= / 8).
  { pose proof (exp_ineq1_le (/ 3)) as X. assert (Y : exp (2 / 3) = exp (/ 3) * exp (/ 3)) by (rewrite <- exp_plus; f_equal; lra).
    assert (Z : 16 / 9 <= exp (2 / 3)) by (rewrite Y; nra). unfold decay_solution. rewrite exp_Ropp. apply Rmax_lub; [lra|].
    assert (/ exp (2 / 3) <= / (16 / 9)) by (apply Rinv_le_contravar; [lra|exact Z]). lra. }
  pose proof (solution_range (2 / 3) ltac:(lra)). pose proof (solution_range 1 ltac:(lra)). pose proof (solution_slope (2 / 3) 1 ltac:(lra) ltac:(lra)).
  destruct (elemO c e He) as [-> [->| ->]]; rewrite endO by auto.
  - rewrite G0, H0. replace (0 + 2 / 3) with (2 / 3) by lra. apply Rabs_le. lra.
  - rewrite G1, H1. replace (2 / 3 + / 3) with 1 by lra. apply Rabs_le. lra.
Qed.
Lemma rateO c x : cost_rate OO m (the_ocp (Some ocpO)) (pt l) c x = x 0%nat.
Proof. unfold cost_rate. rewrite (sc_speed OO (pt l) sotO). rewrite Rmult_1_l. reflexivity. Qed.
Lemma rlipO : rate_lipschitz OO m (the_ocp (Some ocpO)) (pt l) unit_interval 1.
Proof. intros c x y dd _ _ _ H. rewrite !rateO. rewrite Rmult_1_l. apply (H 0%nat), Nat.lt_0_1. Qed.
Lemma elipO : end_lipschitz OO m (the_ocp (Some ocpO)) (pt l) unit_interval 1.
Proof. intros x y dd _ _ H. rewrite Rmult_1_l. apply (H 0%nat), Nat.lt_0_1. Qed.
Lemma rbndO : rate_bounded OO m (the_ocp (Some ocpO)) (pt l) unit_interval 1.
Proof. intros c x _ [A B]. rewrite rateO. apply Rabs_le. lra. Qed.
Lemma plainO : uses_only (plain_sym m) (oc_fq (the_ocp (Some ocpO))).
Proof. intros x [<-|[]]. cbn. lia. Qed.
Lemma insideO tm : 0 <= tm <= end_time OO (pt l) -> unit_interval (fun _ => decay_solution tm).
Proof. intros [H _]. exact (solution_range tm H). Qed.
Lemma costsO : exists J, accumulated_cost OO m (the_ocp (Some ocpO)) (pt l) (fun z _ => decay_solution z) J.
Proof.
  apply (cost_exists OO m (the_ocp (Some ocpO)) (pt l) (smallest m) (fun z _ => decay_solution z) unit_interval 1).
  - destruct lenO as [H0 H1]. intros c e He. destruct (elemO c e He) as [-> [->| ->]]; rewrite ?H0, ?H1; lra.
  - exact solO.
  - exact insideO.
  - lra.
  - exact rlipO.
Qed.
End Point.

Lemma paramO : relaxation OO (pt relaxedO) = / 10 * / 10.
Proof. unfold relaxation. replace (o_mpcc OO) with ScholtesIneq by (vm_compute; reflexivity). val relaxedO. unfold Q2R. cbn. lra. Qed.
Lemma rbyO : relaxed_by OO decay_model (pt relaxedO) (/ 10 * / 10).
Proof. rewrite <- paramO. apply (relaxed_by_parameter _ _ _ _ _ _ CO _ problemO relaxed_feasibleO pmO). apply nonneg_pt. reflexivity. Qed.
Lemma gridO : o_terminal_time OO = 1%Q /\ ext_upto (o_gamma_h OO) 1 /\ 2 * Q2R 1 <= INR 2 /\
  (forall c, (c < o_N_stages OO)%nat -> (2 <= o_N_stages OO * nfe_of OO c)%nat) /\ o_equidistant OO = true.
Proof.
  split; [vm_compute; reflexivity|]. split; [vm_compute; discriminate|]. split; [unfold Q2R; cbn; lra|]. split; [|vm_compute; reflexivity].
  intros c Hc. replace (o_N_stages OO) with 1%nat in * by (vm_compute; reflexivity). assert (c = 0)%nat by lia. subst c.
  replace (nfe_of OO 0) with 2%nat by (vm_compute; reflexivity). lia.
Qed.
Lemma hO : ptQ gaussO (SH 0 0) = (2#3)%Q /\ ptQ gaussO (SH 0 1) = (1#3)%Q. Proof. split; reflexivity. Qed.
Lemma xO : ptQ gaussO (SX0 0) = 1%Q /\ ptQ gaussO (S1 FX 0 0 0 0) = (1#2)%Q /\ ptQ gaussO (S1 FX 0 0 1 0) = 0%Q /\ ptQ gaussO (S1 FX 0 1 0 0) = 0%Q /\ ptQ gaussO (S1 FX 0 1 1 0) = 0%Q.
Proof. repeat split. Qed.
Lemma hR : ptQ relaxedO (SH 0 0) = (2#3)%Q /\ ptQ relaxedO (SH 0 1) = (1#3)%Q. Proof. split; reflexivity. Qed.
Lemma xR : ptQ relaxedO (SX0 0) = 1%Q /\ ptQ relaxedO (S1 FX 0 0 0 0) = (1#2)%Q /\ ptQ relaxedO (S1 FX 0 0 1 0) = 0%Q /\ ptQ relaxedO (S1 FX 0 1 0 0) = 0%Q /\ ptQ relaxedO (S1 FX 0 1 1 0) = 0%Q.
Proof. repeat split. Qed.
Notation QO := (the_ocp (Some ocpO)).
Lemma cost_case : is_problem optsO m (Some ocpO) CO /\ feasible (pt gaussO) (the_nlp CO) /\ eval (pt gaussO) (cost (the_nlp CO)) = 4 / 9 /\
  fesd_setting case_cpoints OO (cn_tab CO) m (pt gaussO) /\ method Integral GaussLegendre 1 OO /\ mode_rule OO m (smallest m) /\ no_left_weight OO (cn_tab CO) /\
  stages_in OO (cn_tab CO) (pt gaussO) unit_interval /\ segments_in OO (cn_tab CO) (pt gaussO) unit_interval /\ bounded_on OO m (pt gaussO) unit_interval 2 /\
  one_sided_on OO m (pt gaussO) (smallest m) unit_interval 0 /\ lipschitz_on OO m (pt gaussO) unit_interval 1 /\
  exact_solution OO m (pt gaussO) (smallest m) (fun z _ => decay_solution z) /\
  (forall tm, 0 <= tm <= end_time OO (pt gaussO) -> unit_interval (fun _ => decay_solution tm)).
Proof.
  split; [exact problemO|]. split; [exact feasibleO|]. split; [exact costO|]. split; [exact settingO|]. split; [split; [|split]; vm_compute; reflexivity|].
  split; [left; split; [vm_compute; reflexivity|reflexivity]|]. split; [exact leftO|]. split; [exact (stagesO _ xO)|]. split; [exact (segmentsO _ xO)|].
  split; [exact (boundK _ _ sotO)|]. split; [exact (oneK _ _ _ sidesK sotO)|]. split; [exact (lipK _ _ sotO)|]. split; [exact (solO _ xO)|exact (insideO gaussO)].
Qed.
Lemma cost_case_cost : grid_close OO (cn_tab CO) m (pt gaussO) (/ 8) (fun z _ => decay_solution z) /\ steps_upto OO (pt gaussO) (2 / 3) /\
  uses_only (plain_sym m) (oc_fq QO) /\ rate_lipschitz OO m QO (pt gaussO) unit_interval 1 /\ rate_bounded OO m QO (pt gaussO) unit_interval 1 /\
  end_lipschitz OO m QO (pt gaussO) unit_interval 1 /\ unit_interval (end_state OO (cn_tab CO) (pt gaussO) (last_stage OO) (last_elem OO (last_stage OO))) /\
  (exists J, accumulated_cost OO m QO (pt gaussO) (fun z _ => decay_solution z) J) /\
  o_terminal_time OO = 1%Q /\ ext_upto (o_gamma_h OO) 1 /\ 2 * Q2R 1 <= INR 2 /\
  (forall c, (c < o_N_stages OO)%nat -> (2 <= o_N_stages OO * nfe_of OO c)%nat) /\ o_equidistant OO = true.
Proof.
  split; [exact (closeO _ hO xO)|]. split; [exact (stepsO _ hO)|]. split; [exact plainO|]. split; [exact (rlipO _)|]. split; [exact (rbndO _)|].
  split; [exact (elipO _)|]. split; [exact (last_inO _ xO)|]. split; [exact (costsO _ hO xO)|exact gridO].
Qed.
Lemma cost_case_relaxed : feasible (pt relaxedO) (the_nlp CO) /\ relaxed_setting case_cpoints OO m /\ near_rule OO m (smallest m) (near_smallest m) /\
  relaxed_by OO m (pt relaxedO) (/ 10 * / 10) /\ stages_in OO (cn_tab CO) (pt relaxedO) unit_interval /\ bounded_on OO m (pt relaxedO) unit_interval 2 /\
  correctable_on OO m (pt relaxedO) (smallest m) (near_smallest m) unit_interval (/ 10) (6 * / 10) /\
  one_sided_on OO m (pt relaxedO) (smallest m) unit_interval 0 /\ exact_solution OO m (pt relaxedO) (smallest m) (fun z _ => decay_solution z) /\
  rate_lipschitz OO m QO (pt relaxedO) unit_interval 1 /\ rate_bounded OO m QO (pt relaxedO) unit_interval 1 /\
  end_lipschitz OO m QO (pt relaxedO) unit_interval 1 /\ unit_interval (end_state OO (cn_tab CO) (pt relaxedO) (last_stage OO) (last_elem OO (last_stage OO))) /\
  (exists J, accumulated_cost OO m QO (pt relaxedO) (fun z _ => decay_solution z) J).
Proof.
  split; [exact relaxed_feasibleO|]. split; [exact rsettingO|]. split; [exact nrO|]. split; [exact rbyO|]. split; [exact (stagesO _ xR)|]. split; [exact (boundK _ _ sotO)|].
  split.
  { replace (6 * / 10) with ((1 + 1 * 1 + 2 * 2) * / 10) by lra.
    exact (one_switch_correctable _ _ _ _ _ _ oneswK nrO 2 1 1 (/ 10) (boundK _ _ sotO) (lipK _ _ sotO) (surfaceK _ _ _) ltac:(lra) ltac:(lra) ltac:(lra) ltac:(lra)). }
  split; [exact (oneK _ _ _ sidesK sotO)|]. split; [exact (solO _ xR)|]. split; [exact (rlipO _)|]. split; [exact (rbndO _)|].
  split; [exact (elipO _)|]. split; [exact (last_inO _ xR)|exact (costsO _ hR xR)].
Qed.

(* ---- one Radau point, running cost 1 ---- *)
Definition ocp1K : ocp := mkOcp None None None None None (cq 1) [] None None [] (cq 0) [] None None None.
Lemma case1K_ok : is_ok (build optsK decay_model (Some ocp1K)) = true. Proof. vm_compute. reflexivity. Qed.
Definition C1K : constructed := get _ case1K_ok.
Lemma built1K : build optsK decay_model (Some ocp1K) = Ok C1K. Proof. apply get_ok. Qed.
Lemma problem1K : is_problem optsK decay_model (Some ocp1K) C1K. Proof. exact (is_problem_ok _ _ _ _ built1K eq_refl sizedK). Qed.
Lemma feasible1K : feasible (pt eulerK) (the_nlp C1K).
Proof. apply (feasibleQ (ptQ eulerK)). vm_compute. reflexivity. Qed.
Lemma cost1K : eval (pt eulerK) (cost (the_nlp C1K)) = / 2.
Proof. change (pt eulerK) with (fun s => Q2R (ptQ eulerK s)). rewrite (evalQ_sound _ _ (1#2)%Q); [unfold Q2R; cbn; lra|vm_compute; reflexivity]. Qed.
Lemma opts1K : the_opts C1K = the_opts CK /\ cn_tab C1K = cn_tab CK. Proof. split; vm_compute; reflexivity. Qed.
Lemma time1K : end_time (the_opts CK) (pt eulerK) = 1.
Proof.
  unfold end_time, stage_length. replace (o_N_stages (the_opts CK)) with 1%nat by (vm_compute; reflexivity).
  unfold rupto. cbn [seq map]. replace (nfe_of (the_opts CK) 0) with 2%nat by (vm_compute; reflexivity). cbn [seq map]. unfold rsum. cbn [fold_right].
  unfold step_len. replace (o_use_fesd (the_opts CK)) with false by (vm_compute; reflexivity).
  replace (nominal_step (the_opts CK) 2) with (1#2)%Q by (vm_compute; reflexivity). replace (nominal_step (the_opts CK) (nfe_of (the_opts CK) 0)) with (1#2)%Q by (vm_compute; reflexivity).
  unfold Q2R. cbn. lra.
Qed.
Notation Q1 := (the_ocp (Some ocp1K)).
Lemma rate1K c x : cost_rate (the_opts CK) m Q1 (pt eulerK) c x = 1.
Proof. unfold cost_rate. rewrite (sc_speed (the_opts CK) (pt eulerK) sotK). cbn -[Q2R]. rewrite Q2R_1. lra. Qed.
Lemma acc1K : accumulated_cost (the_opts CK) m Q1 (pt eulerK) (fun z _ => decay_solution z) (fun z => z).
Proof.
  split; [|split; [reflexivity|exists []]].
  - apply (lip_cont _ _ _ 1). intros y z _ _. rewrite Rmult_1_l. apply Rle_refl.
  - intros c tm _ _ _. rewrite rate1K. apply derivable_pt_lim_id.
Qed.
(* every hypothesis of objective_error but one, with Lipschitz constants 0: the error is 1/2 *)
Lemma half_cost : exists o m oc C rho act near D M h eta Mq Y J, is_problem o m (Some oc) C /\ feasible rho (the_nlp C) /\
  relaxed_setting case_cpoints (the_opts C) m /\ method Integral RadauIIA 1 (the_opts C) /\ near_rule (the_opts C) m act near /\
  stages_in (the_opts C) (cn_tab C) rho D /\ bounded_on (the_opts C) m rho D M /\ 0 <= M /\ steps_upto (the_opts C) rho h /\
  exact_solution (the_opts C) m rho act Y /\ (forall tm, 0 <= tm <= end_time (the_opts C) rho -> D (Y tm)) /\
  grid_close (the_opts C) (cn_tab C) m rho eta Y /\ 0 <= eta /\
  uses_only (plain_sym m) (oc_fq oc) /\ rate_lipschitz (the_opts C) m oc rho D 0 /\ rate_bounded (the_opts C) m oc rho D Mq /\
  end_lipschitz (the_opts C) m oc rho D 0 /\
  D (end_state (the_opts C) (cn_tab C) rho (last_stage (the_opts C)) (last_elem (the_opts C) (last_stage (the_opts C)))) /\
  accumulated_cost (the_opts C) m oc rho Y J /\ elastic_penalty (the_opts C) rho = 0 /\ cost_scale (the_opts C) rho = 1 /\ step_penalty (the_opts C) (cn_tab C) m rho = 0 /\
  eval rho (cost (the_nlp C)) = / 2 /\ total_cost (the_opts C) m oc rho Y J = 1 /\
  forall K, ~ Rabs (eval rho (cost (the_nlp C)) - (elastic_penalty (the_opts C) rho +
    cost_scale (the_opts C) rho * (step_penalty (the_opts C) (cn_tab C) m rho + total_cost (the_opts C) m oc rho Y J))) <=
  Rabs (cost_scale (the_opts C) rho) * ((K * (0 * (eta + K * M * h)) + weight_error (the_opts C) * Mq) * end_time (the_opts C) rho + 0 * eta).
Proof.
  destruct opts1K as [EO ET]. exists optsK, m, ocp1K, C1K, (pt eulerK), (smallest m), (near_smallest m), unit_interval, 2, (/ 2), 1, 1, (fun z _ => decay_solution z), (fun z => z).
  rewrite EO, ET. destruct settingK as (A & B & E & _).
  assert (TC : total_cost (the_opts CK) m ocp1K (pt eulerK) (fun z _ => decay_solution z) (fun z => z) = 1).
  { unfold total_cost, end_cost. rewrite time1K. cbn -[Q2R]. rewrite Q2R_0. lra. }
  assert (EP : elastic_penalty (the_opts CK) (pt eulerK) = 0) by (unfold elastic_penalty; replace (elastic (the_opts CK)) with false by (vm_compute; reflexivity); reflexivity).
  assert (CS : cost_scale (the_opts CK) (pt eulerK) = 1) by (unfold cost_scale; replace (elastic (the_opts CK)) with false by (vm_compute; reflexivity); reflexivity).
  assert (SP : step_penalty (the_opts CK) (cn_tab CK) m (pt eulerK) = 0).
  { unfold step_penalty. replace (o_N_stages (the_opts CK)) with 1%nat by (vm_compute; reflexivity).
    unfold rupto. cbn [seq map]. replace (nfe_of (the_opts CK) 0) with 2%nat by (vm_compute; reflexivity). cbn [seq map]. unfold rsum. cbn [fold_right].
    unfold step_cost. replace (o_use_fesd (the_opts CK)) with false by (vm_compute; reflexivity). lra. }
  assert (RNG : forall z, 0 <= z -> unit_interval (fun _ => decay_solution z)) by (intros z Hz; exact (solution_range z Hz)).
  assert (ED : forall c e, is_element (the_opts CK) c e -> unit_interval (end_state (the_opts CK) (cn_tab CK) (pt eulerK) c e)).
  { intros c e He. unfold unit_interval, end_state. replace (points1 (the_opts CK) (t_rbe (cn_tab CK)) FX - 1)%nat with 0%nat by (vm_compute; reflexivity).
    destruct (elemK c e He) as [-> [->| ->]]; val eulerK; unfold Q2R; cbn; lra. }
  assert (GT : forall c e, is_element (the_opts CK) c e -> 0 <= grid_time (the_opts CK) (pt eulerK) c e + step_len (the_opts CK) (pt eulerK) c e).
  { intros c e He. destruct (elemK c e He) as [-> [->| ->]]; unfold grid_time, rupto; cbn [seq map]; unfold rsum; cbn [fold_right];
    unfold step_len; replace (o_use_fesd (the_opts CK)) with false by (vm_compute; reflexivity);
    replace (nominal_step (the_opts CK) (nfe_of (the_opts CK) 0)) with (1#2)%Q by (vm_compute; reflexivity); unfold Q2R; cbn; lra. }
  split; [exact problem1K|]. split; [exact feasible1K|]. split; [exact rsettingK|]. split; [split; [|split]; vm_compute; reflexivity|]. split; [exact nrK|].
  split; [exact stagesK|]. split; [exact (boundK _ _ sotK)|]. split; [lra|]. split; [exact stepsK|]. split; [exact (proj1 (proj2 fieldsK))|]. split; [exact (proj2 (proj2 fieldsK))|].
  split; [|split; [lra|]].
  { intros c e i He Hi. cbn in Hi. assert (i = 0)%nat by lia. subst i. destruct (ED c e He) as [U0 U1]. destruct (RNG _ (GT c e He)) as [V0 V1]. apply Rabs_le. lra. }
  split; [intros x []|]. split; [intros c x y dd _ _ _ _; rewrite !rate1K; rewrite Rminus_diag_eq, Rabs_R0 by reflexivity; lra|].
  split; [intros c x _ _; rewrite rate1K; rewrite Rabs_R1; lra|].
  split; [intros x y dd _ _ _; unfold end_cost; cbn -[Q2R]; rewrite Rminus_diag_eq, Rabs_R0 by reflexivity; lra|].
  split; [apply ED; vm_compute; repeat split; lia|]. split; [exact acc1K|]. split; [exact EP|]. split; [exact CS|]. split; [exact SP|]. split; [exact cost1K|]. split; [exact TC|].
  intros K G. rewrite cost1K, EP, CS, SP in G. setoid_rewrite TC in G. unfold weight_error in G. replace (o_repr (the_opts CK)) with Integral in G by (vm_compute; reflexivity).
  rewrite Rabs_R1 in G. replace (/ 2 - (0 + 1 * (0 + 1))) with (- / 2) in G by lra. rewrite Rabs_Ropp, Rabs_pos_eq in G by lra. lra.
Qed.
