(* Filippov4_proofs.v -- cases of the theorems about Filippov solutions, and what fails without their hypotheses *)
From Coq Require Import Reals Qreals Lra Psatz.
From Verif Require Import Base Sx Utils Tableau Opts Model Ocp Problem Spec Cases Lib Sx_proofs Fesd Spec2 Spec3
  Witness Feas6_proofs Witness5 Spec9.

Lemma constant3 : piecewise_constant model3.
Proof. intros s k i. destruct s as [|[|s]], k as [|[|[|k]]], i as [|[|i]]; intros x []. Qed.
Lemma constant4 : piecewise_constant model4.
Proof. intros s k i. destruct s as [|[|s]], k as [|[|[|k]]], i as [|[|i]]; intros x []. Qed.
Lemma affine_x m i : i < m_nx m -> affine m (cx i).
Proof.
  intros Hi. split; [intros s [<-|[]]; exact Hi|]. intros v w z tau H _ _. exact (H i).
Qed.
Lemma affine3 : affine_switching model3.
Proof. intros [|s] e [H|H]; cbn in H; try contradiction; try (destruct s; contradiction). destruct H as [<-|[]]. apply affine_x. cbn. lia. Qed.
Lemma affine4 : affine_switching model4.
Proof. intros [|s] e [H|H]; cbn in H; try contradiction; try (destruct s; contradiction). destruct H as [<-|[]]. apply affine_x. cbn. lia. Qed.
Fixpoint no_params (l : list (sym * Q)) : bool :=
  match l with [] => true | (SPst _ _, _) :: _ => false | _ :: l' => no_params l' end.
Lemma no_params_zero l c i : no_params l = true -> pt l (SPst c i) = 0%R.
Proof.
  intros H. unfold pt. replace (ptQ l (SPst c i)) with 0%Q; [apply Q2R_0|]. induction l as [|[x q] l IH]; [reflexivity|].
  cbn [ptQ]. destruct x; cbn in H; try discriminate; cbn; exact (IH H).
Qed.
Lemma same_pt l m : no_params l = true -> same_globals m (pt l).
Proof. intros H c c' i. rewrite !(no_params_zero _ _ _ H). reflexivity. Qed.

(* one Radau or Gauss point: the weight is one *)
Lemma one_point o q : o_ns o = 1 -> case_cpoints 1 (o_scheme o) = [q] -> weights_nonneg case_cpoints o.
Proof.
  intros N E _. exists [1%Q]. rewrite N, E. split; [reflexivity|]. split; [intros x [<-|[]]; discriminate|].
  intros [|p] Hp; [reflexivity|lia].
Qed.
Lemma radau1 o : o_ns o = 1 -> o_scheme o = RadauIIA -> points_ok case_cpoints o /\ weights_nonneg case_cpoints o.
Proof.
  intros N E0. split; [|apply (one_point o 1%Q N); rewrite E0; reflexivity]. intros _. rewrite N, E0.
  split; [reflexivity|]. split; [distinct_points|]. exists [], 1%Q. split; reflexivity.
Qed.
Lemma gauss1 o : o_ns o = 1 -> o_scheme o = GaussLegendre -> points_ok case_cpoints o /\ weights_nonneg case_cpoints o.
Proof.
  intros N E0. split; [|apply (one_point o (1#2)%Q N); rewrite E0; reflexivity]. intros _. rewrite N, E0.
  split; [reflexivity|]. split; [distinct_points|]. exists [], (1#2)%Q. split; [reflexivity|]. unfold Qle. cbn. lia.
Qed.

Ltac val l := repeat match goal with |- context [pt l ?s] => let q := eval vm_compute in (ptQ l s) in rewrite (pt_val l s q) by (vm_compute; reflexivity) end.

(* g = (x, -x) in models 3 and 4 *)
Lemma region3 v : region_value model3 v 0 0 = v (MX 0) /\ region_value model3 v 0 1 = (- v (MX 0))%R.
Proof. unfold region_value. cbn -[Q2R]. unfold rsum. cbn -[Q2R]. unfold Q2R. cbn. lra. Qed.
Lemma region4 v : region_value model4 v 0 0 = v (MX 0) /\ region_value model4 v 0 1 = (- v (MX 0))%R.
Proof. exact (region3 v). Qed.

Lemma multS o l : o_pss o = Stewart -> pt l (SX0 0) = (-1)%R -> pt l (SL00 FLam 0 0) = 0%R -> pt l (SL00 FLam 0 1) = 2%R ->
  initial_multipliers o model3 (pt l).
Proof.
  intros E A B D. unfold initial_multipliers. rewrite E. exists (fun _ => 1%R). intros [|s] [|[|k]] Hs Hk; cbn in Hs, Hk; try lia;
    destruct (region3 (plain_point model3 (pt l) 0 (fun i => pt l (SX0 i)))) as [R0 R1]; [rewrite R0, B|rewrite R1, D];
    cbn; rewrite A; lra.
Qed.
Lemma multG o l : o_pss o = Stewart -> pt l (SX0 0) = (-1)%R -> pt l (SL00 FLam 0 0) = 0%R -> pt l (SL00 FLam 0 1) = 2%R ->
  initial_multipliers o model4 (pt l).
Proof.
  intros E A B D. unfold initial_multipliers. rewrite E. exists (fun _ => 1%R). intros [|s] [|[|k]] Hs Hk; cbn in Hs, Hk; try lia;
    destruct (region4 (plain_point model4 (pt l) 0 (fun i => pt l (SX0 i)))) as [R0 R1]; [rewrite R0, B|rewrite R1, D];
    cbn; rewrite A; lra.
Qed.

Lemma settingS : filippov_setting case_cpoints (the_opts CS1) model3 rhoS.
Proof.
  assert (N : o_ns (the_opts CS1) = 1) by (vm_compute; reflexivity). assert (E : o_scheme (the_opts CS1) = RadauIIA) by (vm_compute; reflexivity).
  destruct (radau1 _ N E) as [P W]. split; [exact P|]. split; [exact W|]. split; [discriminate|]. split; [exact constant3|]. split; [exact affine3|].
  split; [apply same_pt; reflexivity|]. split; [|split; [|exact nonnegS]].
  - apply multS; [vm_compute; reflexivity| | |]; val switchS; unfold Q2R; cbn; lra.
  - unfold zero_relaxation. replace (o_mpcc (the_opts CS1)) with ScholtesIneq by (vm_compute; reflexivity). exact zeroS.
Qed.
Lemma nfe_S1 : o_N_stages (the_opts CS1) = 1 /\ nfe_of (the_opts CS1) 0 = 2. Proof. split; vm_compute; reflexivity. Qed.
Lemma stepsS : steps_nonneg (the_opts CS1) rhoS.
Proof.
  intros c e [Hc He]. destruct nfe_S1 as [N F]. rewrite N in Hc. assert (c = 0) by lia. subst c. rewrite F in He.
  unfold step_len. replace (o_use_fesd (the_opts CS1)) with true by (vm_compute; reflexivity). unfold rhoS.
  destruct e as [|[|e]]; [| |lia]; val switchS; unfold Q2R; cbn; lra.
Qed.
Lemma filippov_caseS : is_problem (with_cross optsS SumLambdas) model3 None CS1 /\ feasible rhoS (the_nlp CS1) /\
  filippov_setting case_cpoints (the_opts CS1) model3 rhoS /\ o_use_fesd (the_opts CS1) = true /\ o_pss (the_opts CS1) = Stewart /\
  o_cross (the_opts CS1) = SumLambdas /\ steps_nonneg (the_opts CS1) rhoS.
Proof.
  split; [exact problemS1|]. split; [exact feasibleS1|]. split; [exact settingS|]. split; [vm_compute; reflexivity|].
  split; [vm_compute; reflexivity|]. split; [vm_compute; reflexivity|exact stepsS].
Qed.

Lemma fit3 : rows_fit model3.
Proof. intros [|s] [|[|i]] Hs Hi; cbn in *; try reflexivity; lia. Qed.
Lemma complete3 s : s < n_subsystems model3 -> complete model3 s.
Proof.
  intros Hs. assert (s = 0) by (cbn in Hs; lia). subst s. intros sg. exists (if sg 0 then 1 else 0). split; [destruct (sg 0); cbn; lia|]. split.
  - intros [|k] Hk; [|cbn in Hk; lia]. right. destruct (sg 0); reflexivity.
  - intros [|[|j]] Hj A; cbn in Hj; try lia; specialize (A 0 Nat.lt_0_1); destruct (sg 0); try reflexivity; destruct A as [A|A]; discriminate A.
Qed.
Lemma full3 i : i < n_modes model3 0 -> full_row model3 0 i.
Proof. intros Hi [|k] Hk; [|cbn in Hk; lia]. destruct i as [|[|i]]; [intros A; discriminate A|intros A; discriminate A|cbn in Hi; lia]. Qed.
Lemma settingT : filippov_setting case_cpoints (the_opts CT) model3 rhoT.
Proof.
  assert (N : o_ns (the_opts CT) = 1) by (vm_compute; reflexivity). assert (E : o_scheme (the_opts CT) = RadauIIA) by (vm_compute; reflexivity).
  destruct (radau1 _ N E) as [P W]. split; [exact P|]. split; [exact W|]. split; [discriminate|]. split; [exact constant3|]. split; [exact affine3|].
  split; [apply same_pt; reflexivity|]. destruct switch_caseT as (Z & L & _). split; [|split; [exact Z|exact L]].
  unfold initial_multipliers. replace (o_pss (the_opts CT)) with Step by (vm_compute; reflexivity).
  intros [|s] [|k] Hs Hk; cbn in Hs, Hk; try lia. unfold switch_value, rhoT. cbn -[pt]. val switchT. unfold Q2R. cbn. lra.
Qed.
Lemma stepsT : steps_nonneg (the_opts CT) rhoT.
Proof.
  intros c e [Hc He]. replace (o_N_stages (the_opts CT)) with 1 in Hc by (vm_compute; reflexivity). assert (c = 0) by lia. subst c.
  replace (nfe_of (the_opts CT) 0) with 2 in He by (vm_compute; reflexivity).
  unfold step_len. replace (o_use_fesd (the_opts CT)) with true by (vm_compute; reflexivity). unfold rhoT.
  destruct e as [|[|e]]; [| |lia]; val switchT; unfold Q2R; cbn; lra.
Qed.
Lemma filippov_caseT : is_problem optsT model3 None CT /\ feasible rhoT (the_nlp CT) /\
  filippov_setting case_cpoints (the_opts CT) model3 rhoT /\ o_use_fesd (the_opts CT) = true /\ o_pss (the_opts CT) = Step /\
  o_cross (the_opts CT) = SumLambdas /\ sign_matrix model3 /\ rows_fit model3 /\ (forall s, s < n_subsystems model3 -> complete model3 s) /\
  steps_nonneg (the_opts CT) rhoT.
Proof.
  split; [exact problemT|]. split; [exact feasibleT|]. split; [exact settingT|]. split; [vm_compute; reflexivity|].
  split; [vm_compute; reflexivity|]. split; [vm_compute; reflexivity|]. split; [exact signs3|]. split; [exact fit3|]. split; [exact complete3|exact stepsT].
Qed.
Lemma region_case : is_problem (with_cross optsS SumLambdas) model3 None CS1 /\ o_pss (the_opts CS1) = Stewart /\ gS_given model3 = false /\
  sign_matrix model3 /\ 0 < n_subsystems model3 /\ complete model3 0 /\ (forall i, i < n_modes model3 0 -> full_row model3 0 i).
Proof.
  split; [exact problemS1|]. split; [vm_compute; reflexivity|]. split; [reflexivity|]. split; [exact signs3|]. split; [cbn; lia|].
  split; [apply complete3; cbn; lia|exact full3].
Qed.

(* ---- without FESD: one implicit Euler step from -1 to 0 uses mode 1 where only mode 0 is active ---- *)
Definition optsN : opts := with_grid (with_modes optsS Stewart ScholtesIneq SumLambdas HeuristicDelta SotNone false true) 1 [1].
Lemma caseN_ok : is_ok (build optsN model3 None) = true. Proof. vm_compute. reflexivity. Qed.
Definition CN : constructed := get _ caseN_ok.
Lemma builtN : build optsN model3 None = Ok CN. Proof. apply get_ok. Qed.
Lemma problemN : is_problem optsN model3 None CN. Proof. exact (is_problem_ok _ _ _ _ builtN eq_refl sized3). Qed.
Definition eulerN : list (sym * Q) := [(SX0 0, (-1)%Q); (SL00 FLam 0 1, 2%Q); (S2 FTheta 0 0 0 0 1, 1%Q)].
Lemma feasibleN : feasible (pt eulerN) (the_nlp CN).
Proof. apply (feasibleQ (ptQ eulerN)). vm_compute. reflexivity. Qed.
Lemma settingN : filippov_setting case_cpoints (the_opts CN) model3 (pt eulerN).
Proof.
  assert (N : o_ns (the_opts CN) = 1) by (vm_compute; reflexivity). assert (E : o_scheme (the_opts CN) = RadauIIA) by (vm_compute; reflexivity).
  destruct (radau1 _ N E) as [P W]. split; [exact P|]. split; [exact W|]. split; [discriminate|]. split; [exact constant3|]. split; [exact affine3|].
  split; [apply same_pt; reflexivity|]. split; [|split; [|apply nonneg_pt; reflexivity]].
  - apply multS; [vm_compute; reflexivity| | |]; val eulerN; unfold Q2R; cbn; lra.
  - unfold zero_relaxation. replace (o_mpcc (the_opts CN)) with ScholtesIneq by (vm_compute; reflexivity). val eulerN. unfold Q2R. cbn. lra.
Qed.
Lemma no_fesd_not_filippov : exists o m C rho, is_problem o m None C /\ feasible rho (the_nlp C) /\
  filippov_setting case_cpoints (the_opts C) m rho /\ o_use_fesd (the_opts C) = false /\ o_pss (the_opts C) = Stewart /\
  o_cross (the_opts C) = SumLambdas /\ t_rbe (cn_tab C) = true /\ is_element (the_opts C) 0 0 /\ (0 < step_len (the_opts C) rho 0 0)%R /\
  forall kappa, (Rabs (kappa - 1) <= weight_error (the_opts C))%R -> ~ filippov_element (the_opts C) (cn_tab C) m rho (smallest m) 0 0 kappa.
Proof.
  exists optsN, model3, CN, (pt eulerN). split; [exact problemN|]. split; [exact feasibleN|]. split; [exact settingN|].
  split; [vm_compute; reflexivity|]. split; [vm_compute; reflexivity|]. split; [vm_compute; reflexivity|]. split; [vm_compute; reflexivity|].
  split; [vm_compute; repeat split; lia|].
  assert (SL : step_len (the_opts CN) (pt eulerN) 0 0 = 1%R).
  { unfold step_len. replace (o_use_fesd (the_opts CN)) with false by (vm_compute; reflexivity).
    replace (nominal_step (the_opts CN) (nfe_of (the_opts CN) 0)) with 1%Q by (vm_compute; reflexivity). apply Q2R_1. }
  split; [rewrite SL; lra|]. intros kappa K (th & Cv & Mv & Ac). rewrite SL in Mv.
  assert (EN : end_state (the_opts CN) (cn_tab CN) (pt eulerN) 0 0 0 = 0%R).
  { unfold end_state. replace (points1 (the_opts CN) (t_rbe (cn_tab CN)) FX - 1) with 0 by (vm_compute; reflexivity). val eulerN. apply Q2R_0. }
  assert (ST : start_state (the_opts CN) (cn_tab CN) (pt eulerN) 0 0 0 = (-1)%R).
  { unfold start_state. cbn [before state_at]. val eulerN. unfold Q2R. cbn. lra. }
  assert (SP : speed (the_opts CN) (pt eulerN) 0 = 1%R).
  { unfold speed. replace (o_sot (the_opts CN)) with SotNone by (vm_compute; reflexivity). reflexivity. }
  assert (K1 : kappa = 1%R).
  { unfold weight_error in K. replace (o_repr (the_opts CN)) with Integral in K by (vm_compute; reflexivity). pose proof (Rabs_pos (kappa - 1)).
    assert (Z : Rabs (kappa - 1) = 0%R) by lra. destruct (Req_dec (kappa - 1) 0) as [G|G]; [lra|]. apply Rabs_no_R0 in G. contradiction. }
  specialize (Mv 0 0%R Nat.lt_0_1). rewrite EN, ST, SP, K1 in Mv. destruct (Cv 0 Nat.lt_0_1) as [Cp Cs].
  unfold mixed_field, mode_field in Mv. cbn -[Q2R] in Mv, Cs. replace (Q2R 3) with 3%R in Mv by (unfold Q2R; cbn; lra). rewrite Q2R_1 in Mv.
  assert (T1 : (0 < th 0%nat 1%nat)%R) by (pose proof (Cp 0 Nat.lt_0_2); lra).
  specialize (Ac 0%R 0 1 ltac:(lra) Nat.lt_0_1 Nat.lt_1_2 T1). specialize (Ac 0 Nat.lt_0_2).
  destruct (region3 (on_segment (the_opts CN) (cn_tab CN) model3 (pt eulerN) 0 0 0)) as [R0 R1]. rewrite R0, R1 in Ac.
  replace (on_segment (the_opts CN) (cn_tab CN) model3 (pt eulerN) 0 0 0 (MX 0)) with (-1)%R in Ac; [lra|].
  change (-1 = segment (the_opts CN) (cn_tab CN) (pt eulerN) 0 0 0 0)%R. unfold segment. rewrite EN, ST. lra.
Qed.

(* ---- COMPLEMENT_ALL with Gauss points: the element runs past the surface ---- *)
Lemma settingG : filippov_setting case_cpoints (the_opts CG2) model4 rhoG.
Proof.
  assert (N : o_ns (the_opts CG2) = 1) by (vm_compute; reflexivity). assert (E : o_scheme (the_opts CG2) = GaussLegendre) by (vm_compute; reflexivity).
  destruct (gauss1 _ N E) as [P W]. split; [exact P|]. split; [exact W|]. split; [discriminate|]. split; [exact constant4|]. split; [exact affine4|].
  split; [apply same_pt; reflexivity|]. split; [|split; [|apply nonneg_pt; reflexivity]].
  - apply multG; [vm_compute; reflexivity| | |]; val crossG; unfold Q2R; cbn; lra.
  - unfold zero_relaxation. replace (o_mpcc (the_opts CG2)) with ScholtesIneq by (vm_compute; reflexivity). exact zeroG.
Qed.
Lemma complement_all_not_filippov : exists o m C rho, is_problem o m None C /\ feasible rho (the_nlp C) /\
  filippov_setting case_cpoints (the_opts C) m rho /\ o_use_fesd (the_opts C) = true /\ o_pss (the_opts C) = Stewart /\
  o_cross (the_opts C) = ComplementAll /\ t_rbe (cn_tab C) = false /\ is_element (the_opts C) 0 0 /\ (0 < step_len (the_opts C) rho 0 0)%R /\
  forall kappa, (Rabs (kappa - 1) <= weight_error (the_opts C))%R -> ~ filippov_element (the_opts C) (cn_tab C) m rho (smallest m) 0 0 kappa.
Proof.
  exists (with_cross optsG ComplementAll), model4, CG2, rhoG. split; [exact problemG2|]. split; [exact feasibleG2|]. split; [exact settingG|].
  split; [vm_compute; reflexivity|]. split; [vm_compute; reflexivity|]. split; [vm_compute; reflexivity|]. split; [vm_compute; reflexivity|].
  split; [vm_compute; repeat split; lia|].
  assert (SL : step_len (the_opts CG2) rhoG 0 0 = (/ 2)%R).
  { unfold step_len. replace (o_use_fesd (the_opts CG2)) with true by (vm_compute; reflexivity). unfold rhoG. val crossG. unfold Q2R. cbn. lra. }
  split; [rewrite SL; lra|]. intros kappa K (th & Cv & Mv & Ac). rewrite SL in Mv.
  assert (EN : end_state (the_opts CG2) (cn_tab CG2) rhoG 0 0 0 = (/ 2)%R).
  { unfold end_state. replace (points1 (the_opts CG2) (t_rbe (cn_tab CG2)) FX - 1) with 1 by (vm_compute; reflexivity). unfold rhoG. val crossG. unfold Q2R. cbn. lra. }
  assert (ST : start_state (the_opts CG2) (cn_tab CG2) rhoG 0 0 0 = (-1)%R).
  { unfold start_state. cbn [before state_at]. unfold rhoG. val crossG. unfold Q2R. cbn. lra. }
  assert (SP : speed (the_opts CG2) rhoG 0 = 1%R).
  { unfold speed. replace (o_sot (the_opts CG2)) with SotNone by (vm_compute; reflexivity). reflexivity. }
  assert (K1 : kappa = 1%R).
  { unfold weight_error in K. replace (o_repr (the_opts CG2)) with Integral in K by (vm_compute; reflexivity). pose proof (Rabs_pos (kappa - 1)).
    assert (Z : Rabs (kappa - 1) = 0%R) by lra. destruct (Req_dec (kappa - 1) 0) as [G|G]; [lra|]. apply Rabs_no_R0 in G. contradiction. }
  specialize (Mv 0 0%R Nat.lt_0_1). rewrite EN, ST, SP, K1 in Mv.
  unfold mixed_field, mode_field in Mv. cbn -[Q2R] in Mv. replace (Q2R 3) with 3%R in Mv by (unfold Q2R; cbn; lra). rewrite Q2R_0 in Mv.
  assert (T0 : (0 < th 0%nat 0%nat)%R) by lra.
  specialize (Ac 1%R 0 0 ltac:(lra) Nat.lt_0_1 Nat.lt_0_2 T0). specialize (Ac 1 Nat.lt_1_2).
  destruct (region4 (on_segment (the_opts CG2) (cn_tab CG2) model4 rhoG 0 0 1)) as [R0 R1]. rewrite R0, R1 in Ac.
  replace (on_segment (the_opts CG2) (cn_tab CG2) model4 rhoG 0 0 1 (MX 0)) with (/ 2)%R in Ac; [lra|].
  change (/ 2 = segment (the_opts CG2) (cn_tab CG2) rhoG 0 0 1 0)%R. unfold segment. rewrite EN, ST. lra.
Qed.
