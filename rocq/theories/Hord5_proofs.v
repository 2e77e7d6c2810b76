(* Hord5_proofs.v -- a case of the theorem on the order: x' = 1 for x < 0, x' = -x - 1 for x > 0 from 25/88, two elements of length 1/4 with
   the two stages of Radau IIA: to the surface, then sliding *)
From Coq Require Import Reals Qreals Lra Psatz.
From Verif Require Import Base Sx Utils Tableau Opts Model Ocp Problem Spec Cases Lib Sx_proofs Fesd Spec2 Spec3 Witness Feas6_proofs Witness5
  Dcs_proofs Elem_proofs Feas_proofs Mode_proofs Spec9 Spec10 Spec11 Filippov_proofs Filippov2_proofs Filippov3_proofs Filippov4_proofs Exact_proofs Exact2_proofs Spec4 Spec21 Conv5_proofs Spec22
  Conv8_proofs Exist3_proofs Spec28.

Definition optsH : opts := with_horizon (with_grid (with_modes (with_irk default_opts Integral 2 RadauIIA) Stewart ScholtesIneq SumLambdas HeuristicDelta SotNone true true) 1 [2]) (1#2).
Lemma caseH_ok : is_ok (build optsH decay_model None) = true. Proof. vm_compute. reflexivity. Qed.
Definition CH : constructed := get _ caseH_ok.
Lemma builtH : build optsH decay_model None = Ok CH. Proof. apply get_ok. Qed.
Lemma problemH : is_problem optsH decay_model None CH. Proof. exact (is_problem_ok _ _ _ _ builtH eq_refl sizedK). Qed.
Definition fesdH : list (sym * Q) := [(SX0 0, (25#88)%Q); (SL00 FLam 0 0, (25#44)%Q); (SH 0 0, (1#4)%Q); (SH 0 1, (1#4)%Q);
  (S1 FX 0 0 0 0, (2#11)%Q); (S2 FLam 0 0 0 0 0, (4#11)%Q); (S2 FMu 0 0 0 0 0, (2#11)%Q);
  (S2 FTheta 0 0 0 0 1, 1%Q); (S2 FTheta 0 0 1 0 1, 1%Q);
  (S2 FTheta 0 1 0 0 0, (1#2)%Q); (S2 FTheta 0 1 0 0 1, (1#2)%Q); (S2 FTheta 0 1 1 0 0, (1#2)%Q); (S2 FTheta 0 1 1 0 1, (1#2)%Q)].
Lemma feasibleH : feasible (pt fesdH) (the_nlp CH).
Proof. apply (feasibleQ (ptQ fesdH)). vm_compute. reflexivity. Qed.
Local Open Scope R_scope.
Notation m := decay_model.
Notation O := (the_opts CH).
Notation t := (cn_tab CH).
Notation rho := (pt fesdH).
Lemma pointsH : points_ok case_cpoints O /\ points_inside case_cpoints O.
Proof. apply radau2; vm_compute; reflexivity. Qed.
Lemma sotH : o_sot O <> SotLocal. Proof. intros E. vm_compute in E. discriminate E. Qed.
Lemma settingH : convergence_setting case_cpoints O m rho.
Proof.
  split; [apply pointsH|]. split; [apply radau2_weights; vm_compute; reflexivity|]. split; [exact plainK|]. split; [|apply nonneg_pt; reflexivity].
  unfold zero_relaxation. replace (o_mpcc O) with ScholtesIneq by (vm_compute; reflexivity). val fesdH. unfold Q2R. cbn. lra.
Qed.
Lemma methodH : method Integral RadauIIA 2 O. Proof. split; [|split]; vm_compute; reflexivity. Qed.
Lemma ruleH : mode_rule O m (smallest m). Proof. left. split; [vm_compute; reflexivity|reflexivity]. Qed.
Lemma elemH c e : is_element O c e -> c = 0%nat /\ (e = 0%nat \/ e = 1%nat).
Proof.
  intros [Hc He]. replace (o_N_stages O) with 1%nat in Hc by (vm_compute; reflexivity). assert (c = 0)%nat by lia. subst c.
  replace (nfe_of O 0) with 2%nat in He by (vm_compute; reflexivity). lia.
Qed.
Lemma elementsH e : (e < 2)%nat -> is_element O 0 e.
Proof. intros He. split; [replace (o_N_stages O) with 1%nat by (vm_compute; reflexivity); lia|]. replace (nfe_of O 0) with 2%nat by (vm_compute; reflexivity). exact He. Qed.
Lemma stepH e : (e < 2)%nat -> step_len O rho 0 e = / 4.
Proof. intros He. unfold step_len. replace (o_use_fesd O) with true by (vm_compute; reflexivity). destruct e as [|[|e]]; [| |lia]; val fesdH; unfold Q2R; cbn; lra. Qed.
Lemma stepsH : steps_upto O rho (/ 4).
Proof. intros c e He. destruct (elemH c e He) as [-> He']. rewrite stepH by lia. lra. Qed.
Lemma lengthH : stage_length O rho 0 = / 2.
Proof. unfold stage_length. replace (nfe_of O 0) with 2%nat by (vm_compute; reflexivity). rewrite !rupto_succ, rupto_0, !stepH by lia. lra. Qed.
Lemma endH : end_time O rho = / 2.
Proof. unfold end_time. replace (o_N_stages O) with 1%nat by (vm_compute; reflexivity). rewrite rupto_succ, rupto_0, lengthH. lra. Qed.
Lemma gridH e : (e < 2)%nat -> grid_time O rho 0 e = INR e / 4.
Proof. intros He. unfold grid_time. destruct e as [|[|e]]; [| |lia]; rewrite ?rupto_succ, ?rupto_0, ?(stepH 0) by lia; cbn; lra. Qed.
Lemma stageH e j : (e < 2)%nat -> (j < 2)%nat -> stage_state O t rho 0 e j 0 = match e, j with 0%nat, 0%nat => 2 / 11 | _, _ => 0 end.
Proof.
  intros He Hj. unfold stage_state. replace (o_repr O) with Integral by (vm_compute; reflexivity).
  destruct e as [|[|e]], j as [|[|j]]; try lia; val fesdH; unfold Q2R; cbn; lra.
Qed.
Lemma endsH e : (e < 2)%nat -> end_state O t rho 0 e 0 = 0.
Proof. intros He. unfold end_state. replace (points1 O (t_rbe t) FX - 1)%nat with 1%nat by (vm_compute; reflexivity). destruct e as [|[|e]]; [| |lia]; val fesdH; unfold Q2R; cbn; lra. Qed.
Lemma startH : start_state O t rho 0 1 0 = 0.
Proof. exact (endsH 0 Nat.lt_0_2). Qed.
Lemma weightH e j k : (e < 2)%nat -> (j < 2)%nat -> (k < 2)%nat -> weight O m (stage_point O t m rho 0 e j) 0 k =
  match e with 0%nat => match k with 0%nat => 0 | _ => 1 end | _ => / 2 end.
Proof.
  intros He Hj Hk. unfold weight. replace (o_pss O) with Stewart by (vm_compute; reflexivity).
  destruct e as [|[|e]], j as [|[|j]], k as [|[|k]]; try lia; cbn -[Q2R pt]; val fesdH; unfold Q2R; cbn; lra.
Qed.

Definition y0 : R := 113 / 88.
Definition ts : R := ln y0.
Lemma ts_range : 0 < ts <= / 2.
Proof.
  unfold ts. split; [rewrite <- ln_1; apply ln_increasing; unfold y0; lra|]. rewrite <- (ln_exp (/ 2)). destruct (Rle_lt_or_eq_dec y0 (exp (/ 2))) as [Q|Q].
  - pose proof (exp_ineq1_le (/ 2)). unfold y0. lra.
  - left. apply ln_increasing; [unfold y0; lra|exact Q].
  - rewrite Q. lra.
Qed.
Lemma exp_ts z : y0 * exp (- z) = exp (ts - z).
Proof. unfold ts. unfold Rminus. rewrite exp_plus, exp_ln by (unfold y0; lra). reflexivity. Qed.
Definition piece1 : piece := mkPiece 0 (fun _ _ k => match k with 0%nat => 0 | _ => 1 end) (fun z _ => y0 * exp (- z) - 1) 0 (/ 2) 0 (fun x => x 0%nat).
Definition piece2 : piece := mkPiece 0 (fun x _ k => match k with 0%nat => (x 0%nat + 1) / (x 0%nat + 2) | _ => 1 / (x 0%nat + 2) end) (fun _ _ => 0) 0 (/ 2) ts (fun x => x 0%nat).
Definition PH (r : nat) : piece := match r with 0%nat => piece1 | _ => piece2 end.
Definition DH (x : nat -> R) : Prop := -1 <= x 0%nat <= 1.
Definition YH (z : R) (i : nat) : R := Rmax 0 (y0 * exp (- z) - 1).
Lemma exp_half z : 0 <= z <= / 2 -> 0 < exp (- z) <= 1.
Proof.
  intros Hz. split; [apply exp_pos|]. rewrite <- exp_0. destruct (Rle_lt_or_eq_dec 0 z) as [Q|Q]; [lra|left; apply exp_increasing; lra|subst; rewrite Ropp_0; lra].
Qed.
Lemma deriv_decay (a b : R) z : derivable_pt_lim (fun z => a * exp (- z) + b) z (- a * exp (- z)).
Proof.
  replace (- a * exp (- z)) with (a * (exp (- z) * - 1) + 0) by ring.
  apply (derivable_pt_lim_plus (fun z => a * exp (- z)) (fct_cte b)); [|apply derivable_pt_lim_const].
  apply (derivable_pt_lim_scal (fun z => exp (- z)) a). apply (derivable_pt_lim_comp Ropp exp); [|apply derivable_pt_lim_exp].
  apply (derivable_pt_lim_opp id), derivable_pt_lim_id.
Qed.
Lemma flow1 x : flow O m rho piece1 x 0 = - x 0%nat - 1.
Proof. unfold flow. rewrite (velocityK O rho sotH). cbn. ring. Qed.
Lemma flow2 x : DH x -> flow O m rho piece2 x 0 = 0.
Proof. intros Hx. unfold DH in Hx. unfold flow. rewrite (velocityK O rho sotH). cbn. field. lra. Qed.
Lemma regular1 : regular_piece O m rho DH 2 1 2 2 piece1.
Proof.
  split; [split|split].
  - intros z Hz. cbn [pc_lo pc_hi pc_curve piece1] in *. pose proof (exp_half z Hz) as E. split; [unfold DH, y0; lra|].
    intros i Hi. assert (i = 0)%nat by (cbn in Hi; lia). subst i. rewrite flow1. replace (- (y0 * exp (- z) - 1) - 1) with (- y0 * exp (- z)) by ring. exact (deriv_decay y0 (-1) z).
  - intros i Hi. exists (fun k z => match k with 0%nat => y0 * exp (- z) - 1 | S k' => (-1) ^ k * y0 * exp (- z) + 0 end). split; [reflexivity|]. split.
    + intros k z Hk Hz. destruct k as [|k].
      * replace ((-1) ^ 1 * y0 * exp (- z) + 0) with (- y0 * exp (- z)) by ring. exact (deriv_decay y0 (-1) z).
      * replace ((-1) ^ S (S k) * y0 * exp (- z) + 0) with (- ((-1) ^ S k * y0) * exp (- z)) by (cbn [pow]; ring). exact (deriv_decay ((-1) ^ S k * y0) 0 z).
    + intros z Hz. cbn [pc_lo pc_hi piece1] in Hz. pose proof (exp_half z Hz) as E. unfold y0. apply Rabs_le. cbn [pow]. lra.
  - intros x y dd Hx Hy Hd i Hi. assert (i = 0)%nat by (cbn in Hi; lia). subst i. rewrite !flow1. specialize (Hd 0%nat Hi).
    replace (- x 0%nat - 1 - (- y 0%nat - 1)) with (- (x 0%nat - y 0%nat)) by ring. rewrite Rabs_Ropp. lra.
  - intros x i Hx Hi. assert (i = 0)%nat by (cbn in Hi; lia). subst i. rewrite flow1. unfold DH in Hx. apply Rabs_le. lra.
Qed.
Lemma regular2 : regular_piece O m rho DH 2 1 2 2 piece2.
Proof.
  assert (Z : DH (fun _ => 0)) by (unfold DH; lra). split; [split|split].
  - intros z Hz. cbn [pc_curve piece2] in *. split; [exact Z|]. intros i Hi. assert (i = 0)%nat by (cbn in Hi; lia). subst i. rewrite (flow2 _ Z). apply (derivable_pt_lim_const 0).
  - intros i Hi. exists (fun _ _ => 0). split; [reflexivity|]. split; [intros; apply (derivable_pt_lim_const 0)|]. intros. rewrite Rabs_R0. lra.
  - intros x y dd Hx Hy Hd i Hi. assert (i = 0)%nat by (cbn in Hi; lia). subst i. rewrite !flow2 by assumption. specialize (Hd 0%nat Hi). rewrite Rminus_0_r, Rabs_R0. pose proof (Rabs_pos (x 0%nat - y 0%nat)). lra.
  - intros x i Hx Hi. assert (i = 0)%nat by (cbn in Hi; lia). subst i. rewrite flow2 by assumption. rewrite Rabs_R0. lra.
Qed.
Lemma regularH r : (r <= 1)%nat -> regular_piece O m rho DH 2 1 2 2 (PH r).
Proof. destruct r as [|[|r]]; intros H; [exact regular1|exact regular2|lia]. Qed.
Lemma exp_away u : - / 2 <= u <= / 2 -> / 2 * Rabs u <= Rabs (exp u - 1).
Proof.
  intros Hu. destruct (Rle_dec 0 u) as [P|N].
  - pose proof (exp_ineq1_le u). rewrite (Rabs_pos_eq u P), Rabs_pos_eq by lra. lra.
  - pose proof (exp_ineq1_le (- u)) as E. rewrite exp_Ropp in E. pose proof (exp_pos u) as P.
    assert (Q : exp u * (1 - u) <= 1).
    { apply Rmult_le_compat_l with (r := exp u) in E; [|lra]. rewrite Rinv_r in E by lra. lra. }
    assert (exp u - 1 <= u / 2) by nra. rewrite (Rabs_left1 u) by lra. rewrite Rabs_left1 by lra. lra.
Qed.
Lemma crossesH : crosses m DH 1 (/ 2) piece1 piece2.
Proof.
  pose proof ts_range as T. split.
  - intros z Hz. cbn [pc_lo pc_hi piece1 piece2 pc_start pc_switch pc_curve] in *. rewrite exp_ts. rewrite Rabs_minus_sym. apply exp_away. lra.
  - intros x y dd _ _ Hd. specialize (Hd 0%nat Nat.lt_0_1). cbn. lra.
Qed.
Definition phH (c e : nat) : nat := e.
Lemma followsH : follows O t m rho DH 1 (/ 2) PH 1 phH.
Proof.
  split; [|exists 0%nat, 1%nat; split; [apply elementsH; lia|reflexivity]].
  intros c e He. destruct (elemH c e He) as [-> He']. assert (Hlt : (e < 2)%nat) by lia. unfold phH. split; [lia|]. split; [|split].
  - assert (Lo : pc_lo (PH e) = 0) by (destruct e as [|[|e]]; reflexivity). assert (Up : pc_hi (PH e) = / 2) by (destruct e as [|[|e]]; reflexivity).
    split; [destruct e as [|[|e]]; reflexivity|]. rewrite Lo, Up, (gridH e Hlt), (stepH e Hlt).
    split; [destruct He' as [->| ->]; cbn; lra|]. split; [destruct He' as [->| ->]; cbn; lra|].
    intros j Hj. replace (o_ns O) with 2%nat in Hj by (vm_compute; reflexivity). pose proof (stageH e j Hlt Hj) as Sj. split.
    + unfold DH. rewrite Sj. destruct e as [|[|e]], j as [|[|j]]; lra.
    + intros s k Hs Hk. assert (s = 0)%nat by (cbn in Hs; lia). subst s. cbn in Hk. rewrite (weightH e j k Hlt Hj Hk).
      destruct He' as [->| ->]; cbn [PH pc_weights piece1 piece2]; [destruct k as [|k]; reflexivity|]. rewrite Sj. destruct k as [|k]; field.
  - unfold DH. rewrite (endsH e Hlt). lra.
  - destruct He' as [->| ->]; [reflexivity|]. cbn [before]. right. split; [reflexivity|]. right. split; [exact crossesH|]. exact startH.
Qed.
Lemma positive1 z : z <= ts -> 0 <= y0 * exp (- z) - 1.
Proof. intros Hz. rewrite exp_ts. pose proof (exp_ineq1_le (ts - z)). lra. Qed.
Lemma negative2 z : ts <= z -> y0 * exp (- z) - 1 <= 0.
Proof.
  intros Hz. rewrite exp_ts. destruct (Rle_lt_or_eq_dec _ _ Hz) as [Q|Q]; [|rewrite Q; replace (z - z) with 0 by ring; rewrite exp_0; lra].
  pose proof (exp_increasing (ts - z) 0 ltac:(lra)) as E. rewrite exp_0 in E. lra.
Qed.
Lemma consistsH : consists_of O m rho YH PH 1.
Proof.
  pose proof ts_range as T. split; [reflexivity|]. split; [|split].
  - intros i Hi. assert (i = 0)%nat by (cbn in Hi; lia). subst i. val fesdH. unfold YH. rewrite Ropp_0, exp_0, Rmax_right by (unfold y0; lra). unfold y0, Q2R. cbn. lra.
  - intros r Hr. assert (r = 0)%nat by lia. subst r. cbn [PH]. split; [|split]; cbn [pc_lo pc_hi pc_start piece1 piece2 pc_curve]; [lra|lra|].
    intros i _. rewrite exp_ts. replace (ts - ts) with 0 by ring. rewrite exp_0. lra.
  - intros r Hr. destruct r as [|[|r]]; [| |lia].
    + unfold piece_end. cbn -[exp Rmax y0]. split; [lra|]. split; [lra|]. split; [lra|]. intros z i Hz _. unfold YH. rewrite Rmax_right; [reflexivity|]. apply positive1. lra.
    + unfold piece_end. cbn [Nat.eqb]. rewrite endH. cbn -[exp Rmax y0]. split; [lra|]. split; [lra|]. split; [lra|]. intros z i Hz _. unfold YH. rewrite Rmax_left; [reflexivity|]. apply negative2. lra.
Qed.
Lemma lawfulH : lawful O m rho (smallest m) PH 1.
Proof.
  pose proof ts_range as T. intros r Hr. assert (Es : pc_stage (PH r) = 0%nat) by (destruct r as [|[|r]]; reflexivity). rewrite Es.
  split; [apply (elementsH 0); lia|]. rewrite (gridH 0 Nat.lt_0_2), lengthH. cbn [INR]. replace (0 / 4) with 0 by lra.
  assert (Pe : piece_end O rho PH 1 r <= / 2) by (destruct r as [|[|r]]; [unfold piece_end; cbn; lra|unfold piece_end; cbn [Nat.eqb]; rewrite endH; lra|lia]).
  split; [destruct r as [|[|r]]; cbn; lra|]. split; [lra|]. intros z Hz. split.
  - apply weightsK. destruct r as [|r]; cbn; lra.
  - intros s k Hs Hk Hp. assert (s = 0)%nat by (cbn in Hs; lia). subst s. cbn in Hk. destruct (sidesK (plain_point m rho 0 (pc_curve (PH r) z))) as [S0 S1].
    destruct r as [|[|r]]; [| |lia].
    + destruct k as [|[|k]]; [cbn in Hp; lra| |lia]. apply S1. change (0 <= y0 * exp (- z) - 1). apply positive1. unfold piece_end in Hz. cbn in Hz. lra.
    + destruct k as [|[|k]]; [apply S0; change (0 <= 0); lra|apply S1; change (0 <= 0); lra|lia].
Qed.
Lemma near_byH x y : DH x -> DH y -> near_by m x y 2.
Proof. intros Hx Hy i Hi. assert (i = 0)%nat by (cbn in Hi; lia). subst i. unfold DH in *. apply Rabs_le. lra. Qed.

Lemma order_case : is_problem optsH m None CH /\ feasible rho (the_nlp CH) /\ points_ok case_cpoints O /\ points_inside case_cpoints O /\ plain_fields m /\
  method Integral RadauIIA 2 O /\ steps_upto O rho (/ 4) /\ end_time O rho <= / 2 /\ (forall x y, DH x -> DH y -> near_by m x y 2) /\
  (forall r, (r <= 1)%nat -> regular_piece O m rho DH 2 1 2 2 (PH r)) /\ consists_of O m rho YH PH 1 /\ follows O t m rho DH 1 (/ 2) PH 1 phH /\
  grid_time O rho 0 1 = / 4 /\ pc_start (PH 1) = ln (113 / 88).
Proof.
  split; [exact problemH|]. split; [exact feasibleH|]. split; [apply pointsH|]. split; [apply pointsH|]. split; [exact plainK|]. split; [exact methodH|].
  split; [exact stepsH|]. split; [rewrite endH; lra|]. split; [exact near_byH|]. split; [exact regularH|]. split; [exact consistsH|]. split; [exact followsH|].
  split; [rewrite (gridH 1) by lia; cbn; lra|reflexivity].
Qed.
Lemma solution_case : mode_rule O m (smallest m) /\ steps_nonneg O rho /\ lawful O m rho (smallest m) PH 1.
Proof. split; [exact ruleH|]. split; [intros c e He; apply (stepsH c e He)|exact lawfulH]. Qed.
Lemma sliding_case : convergence_setting case_cpoints O m rho /\ is_element O 0 1 /\ 0 < step_len O rho 0 1 /\ o_repr O = Integral /\
  plane m (fun _ => 1) 0 (start_state O t rho 0 1) /\ (forall j, (j < o_ns O)%nat -> plane m (fun _ => 1) 0 (stage_state O t rho 0 1 j)) /\ speed O rho 0 <> 0 /\
  (forall x, normal_speed m rho (fun _ => 1) 0 x 0 = 1) /\ (forall x, normal_speed m rho (fun _ => 1) 0 x 1 = - x 0%nat - 1).
Proof.
  split; [exact settingH|]. split; [apply elementsH; lia|]. split; [rewrite stepH by lia; lra|]. split; [vm_compute; reflexivity|].
  split; [unfold plane; cbn [m_nx decay_model]; rewrite rupto_succ, rupto_0, startH; lra|]. split.
  - intros j Hj. replace (o_ns O) with 2%nat in Hj by (vm_compute; reflexivity). unfold plane. cbn [m_nx decay_model]. rewrite rupto_succ, rupto_0, (stageH 1 j) by lia. lra.
  - split; [rewrite (sc_speed O rho sotH); lra|]. split; intros x; unfold normal_speed; cbn [m_nx decay_model]; rewrite rupto_succ, rupto_0; unfold mode_field; cbn -[Q2R]; unfold Q2R; cbn; lra.
Qed.
