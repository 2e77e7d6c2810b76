(* Detect3_proofs.v -- cases of the statements on the detection of switches, and feasible points that miss one *)
From Coq Require Import Reals Qreals Lra Psatz.
From Verif Require Import Base Lib Sx Sx_proofs Utils Tableau Opts Model Ocp Problem Spec Cases Fesd Spec2 Spec3 Spec4 Witness Feas6_proofs Witness5
  Dcs_proofs Elem_proofs Feas_proofs Mode_proofs Spec9 Filippov_proofs Filippov2_proofs Filippov3_proofs Filippov4_proofs Spec10 Spec11 Exact_proofs Exact2_proofs Exact3_proofs
  Spec23 Detect_proofs Detect2_proofs.
Local Open Scope R_scope.

Lemma q3 : Q2R 3 = 3. Proof. unfold Q2R. cbn. lra. Qed.
Lemma qm1 : Q2R (-1) = -1. Proof. unfold Q2R. cbn. lra. Qed.
Lemma third : - Q2R (-1) / Q2R 3 = / 3. Proof. rewrite q3, qm1. lra. Qed.
Lemma scalar_kink b : Q2R b < 3 -> kink (switch_solution 3 b (-1)) (/ 3).
Proof. intros B. rewrite <- third. apply switch_kink; rewrite q3; lra. Qed.
Lemma end_time_gridN : end_time (the_opts CN) (pt eulerN) = 1 /\ forall c e, is_element (the_opts CN) c e -> grid_time (the_opts CN) (pt eulerN) c e + step_len (the_opts CN) (pt eulerN) c e = 1.
Proof.
  assert (SL : step_len (the_opts CN) (pt eulerN) 0 0 = 1).
  { unfold step_len. replace (o_use_fesd (the_opts CN)) with false by (vm_compute; reflexivity).
    replace (nominal_step (the_opts CN) (nfe_of (the_opts CN) 0)) with 1%Q by (vm_compute; reflexivity). apply Q2R_1. }
  split.
  - unfold end_time, stage_length. replace (o_N_stages (the_opts CN)) with 1%nat by (vm_compute; reflexivity). rewrite rupto_succ, rupto_0.
    replace (nfe_of (the_opts CN) 0) with 1%nat by (vm_compute; reflexivity). rewrite rupto_succ, rupto_0, SL. lra.
  - intros c e [Hc He]. replace (o_N_stages (the_opts CN)) with 1%nat in Hc by (vm_compute; reflexivity). assert (c = 0)%nat by lia. subst c.
    replace (nfe_of (the_opts CN) 0) with 1%nat in He by (vm_compute; reflexivity). assert (e = 0)%nat by lia. subst e.
    unfold grid_time. rewrite !rupto_0, SL. lra.
Qed.
Lemma no_fesd_misses : exists o C rho Y tm, is_problem o (switch_model 3 1 (-1)) None C /\ feasible rho (the_nlp C) /\
  filippov_setting case_cpoints (the_opts C) (switch_model 3 1 (-1)) rho /\ o_use_fesd (the_opts C) = false /\ o_pss (the_opts C) = Stewart /\
  o_cross (the_opts C) = SumLambdas /\ t_rbe (cn_tab C) = true /\ o_repr (the_opts C) = Integral /\
  exact_solution (the_opts C) (switch_model 3 1 (-1)) rho (smallest (switch_model 3 1 (-1))) Y /\
  one_sided (the_opts C) (switch_model 3 1 (-1)) rho (smallest (switch_model 3 1 (-1))) 0 /\
  0 < tm < end_time (the_opts C) rho /\ kink (fun z => Y z 0%nat) tm /\ ~ on_grid (the_opts C) rho tm.
Proof.
  exists optsN, CN, (pt eulerN), (fun z _ => switch_solution 3 1 (-1) z), (/ 3). split; [exact problemN|]. split; [exact feasibleN|]. split; [exact settingN|].
  split; [vm_compute; reflexivity|]. split; [vm_compute; reflexivity|]. split; [vm_compute; reflexivity|]. split; [vm_compute; reflexivity|]. split; [vm_compute; reflexivity|].
  assert (NS : o_sot (the_opts CN) <> SotLocal) by (intros E; vm_compute in E; discriminate E).
  assert (B : Q2R 1 <= Q2R 3) by (rewrite q3, RMicromega.Q2R_1; lra).
  split; [apply sc_solution; [rewrite q3; lra|exact B|rewrite qm1; lra|apply sides_smallest|exact NS|val eulerN; reflexivity]|].
  split; [exact (sc_one_sided 3 1 (-1) B _ _ _ (sides_smallest 3 1 (-1)) NS)|]. destruct end_time_gridN as [EN GN].
  split; [rewrite EN; lra|]. split; [apply scalar_kink; rewrite RMicromega.Q2R_1; lra|]. intros (c & e & He & Ht). rewrite (GN c e He) in Ht. lra.
Qed.
Lemma end_time_gridG : end_time (the_opts CG2) rhoG = 1 /\ forall c e, is_element (the_opts CG2) c e ->
  grid_time (the_opts CG2) rhoG c e + step_len (the_opts CG2) rhoG c e = / 2 \/ grid_time (the_opts CG2) rhoG c e + step_len (the_opts CG2) rhoG c e = 1.
Proof.
  assert (SL0 : step_len (the_opts CG2) rhoG 0 0 = / 2) by (unfold step_len; replace (o_use_fesd (the_opts CG2)) with true by (vm_compute; reflexivity); unfold rhoG; val crossG; unfold Q2R; cbn; lra).
  assert (SL1 : step_len (the_opts CG2) rhoG 0 1 = / 2) by (unfold step_len; replace (o_use_fesd (the_opts CG2)) with true by (vm_compute; reflexivity); unfold rhoG; val crossG; unfold Q2R; cbn; lra).
  split.
  - unfold end_time, stage_length. replace (o_N_stages (the_opts CG2)) with 1%nat by (vm_compute; reflexivity). rewrite rupto_succ, rupto_0.
    replace (nfe_of (the_opts CG2) 0) with 2%nat by (vm_compute; reflexivity). rewrite !rupto_succ, rupto_0, SL0, SL1. lra.
  - intros c e [Hc He]. replace (o_N_stages (the_opts CG2)) with 1%nat in Hc by (vm_compute; reflexivity). assert (c = 0)%nat by lia. subst c.
    replace (nfe_of (the_opts CG2) 0) with 2%nat in He by (vm_compute; reflexivity). unfold grid_time. rewrite rupto_0.
    assert (EE : e = 0%nat \/ e = 1%nat) by lia. destruct EE as [-> | ->]; [left; rewrite rupto_0, SL0; lra|right; rewrite rupto_succ, rupto_0, SL0, SL1; lra].
Qed.
Lemma complement_all_misses : exists o C rho Y tm, is_problem o (switch_model 3 0 (-1)) None C /\ feasible rho (the_nlp C) /\
  filippov_setting case_cpoints (the_opts C) (switch_model 3 0 (-1)) rho /\ o_use_fesd (the_opts C) = true /\ o_pss (the_opts C) = Stewart /\
  o_cross (the_opts C) = ComplementAll /\ t_rbe (cn_tab C) = false /\ o_repr (the_opts C) = Integral /\
  exact_solution (the_opts C) (switch_model 3 0 (-1)) rho (smallest (switch_model 3 0 (-1))) Y /\
  one_sided (the_opts C) (switch_model 3 0 (-1)) rho (smallest (switch_model 3 0 (-1))) 0 /\
  0 < tm < end_time (the_opts C) rho /\ kink (fun z => Y z 0%nat) tm /\ ~ on_grid (the_opts C) rho tm.
Proof.
  exists (with_cross optsG ComplementAll), CG2, rhoG, (fun z _ => switch_solution 3 0 (-1) z), (/ 3). split; [exact problemG2|]. split; [exact feasibleG2|]. split; [exact settingG|].
  split; [vm_compute; reflexivity|]. split; [vm_compute; reflexivity|]. split; [vm_compute; reflexivity|]. split; [vm_compute; reflexivity|]. split; [vm_compute; reflexivity|].
  assert (NS : o_sot (the_opts CG2) <> SotLocal) by (intros E; vm_compute in E; discriminate E).
  assert (B : Q2R 0 <= Q2R 3) by (rewrite q3, RMicromega.Q2R_0; lra).
  split; [apply sc_solution; [rewrite q3; lra|exact B|rewrite qm1; lra|apply sides_smallest|exact NS|unfold rhoG; val crossG; reflexivity]|].
  split; [exact (sc_one_sided 3 0 (-1) B _ _ _ (sides_smallest 3 0 (-1)) NS)|]. destruct end_time_gridG as [EN GN].
  split; [rewrite EN; lra|]. split; [apply scalar_kink; rewrite RMicromega.Q2R_0; lra|]. intros (c & e & He & Ht). destruct (GN c e He) as [G|G]; rewrite G in Ht; lra.
Qed.
