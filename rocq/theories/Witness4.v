(* Witness4.v -- concrete simulations *)
From Coq Require Import Reals Qreals Lra.
From Verif Require Import Base Lib Sx Sx_proofs Utils Tableau Opts Model Ocp Problem Numeric Rk4 Results Solver Looper Spec Cases Fesd Spec2 Spec3 Spec4 Spec5 Spec6
  Witness Results5_proofs Solve3_proofs Set_proofs Witness3 Looper_proofs.
Local Open Scope nat_scope.

(* a simulation problem with one global parameter p: x' = p for x < 0 and x' = 1 for x > 0 *)
Definition modelP : model := {|
  m_nx := 1; m_x0 := [(-1)%Q];
  m_F := Some [mkFmat 1 [[EVar (MPg 0)]; [cq 1]]];
  m_c := Some [[cx 0]]; m_S := Some [[[(-1)%Q]; [1%Q]]]; m_gS := None;
  m_nu := 0; m_nz := 0; m_z0 := None; m_lbz := None; m_ubz := None; m_alpha := None; m_fx := None;
  m_gz := []; m_npt := 0; m_npg := 1; m_ptv_val := None; m_pg_val := [3%Q]; m_nvg := 0; m_tvar := None |}.
Lemma sizedP : well_sized modelP. Proof. apply sizedQ_ok. reflexivity. Qed.
(* RK4_SMOOTHENED is not available: f_x_smooth_fun takes no parameters *)
Definition optsP (i : init_strategy) : opts :=
  with_solver optsS tol0 1 tol0 (1 # 10) Linear (match i with Rk4Smoothened => External | _ => i end) false false.
Lemma caseP_ok i : is_ok (build (optsP i) modelP None) = true. Proof. destruct i; vm_compute; reflexivity. Qed.
Definition CP (i : init_strategy) : constructed := get _ (caseP_ok i).
Lemma builtP i : build (optsP i) modelP None = Ok (CP i). Proof. apply get_ok. Qed.
Lemma problemP i : is_problem (optsP i) modelP None (CP i). Proof. exact (is_problem_ok _ _ _ _ (builtP i) eq_refl sizedP). Qed.
Lemma one_modeP : uniform_modes modelP.
Proof. intros s s' Hs Hs'. cbn in Hs, Hs'. assert (s = 0) by lia. assert (s' = 0) by lia. subst. reflexivity. Qed.
Lemma extractP i : extractable (the_opts (CP i)) modelP.
Proof. split; [cbn; lia|]. split; [intros; exact one_modeP|]. destruct i; vm_compute; reflexivity. Qed.
Lemma initP i : i <> Rk4Smoothened -> o_init (the_opts (CP i)) = i. Proof. destruct i; intros N; try contradiction; vm_compute; reflexivity. Qed.
Lemma initP' i : o_init (the_opts (CP i)) <> Rk4Smoothened. Proof. destruct i; vm_compute; discriminate. Qed.
Lemma stewartP i : o_pss (the_opts (CP i)) = Stewart. Proof. destruct i; vm_compute; reflexivity. Qed.
Lemma noGS i : o_pss (the_opts (CP i)) = Step -> gS_given modelP = false. Proof. rewrite stewartP. discriminate. Qed.
Lemma sigmaP i : (0 < Q2R (o_sigma_0 (the_opts (CP i))))%R /\ (0 < Q2R (o_slope (the_opts (CP i))))%R.
Proof. split; rewrite <- RMicromega.Q2R_0; apply Qlt_Rlt; destruct i; vm_compute; reflexivity. Qed.
Lemma polishP i : o_do_polishing (the_opts (CP i)) = false. Proof. destruct i; vm_compute; reflexivity. Qed.
Lemma initialP i : sized (CP i) modelP (initial_state (CP i)). Proof. exact (initial_sized _ _ _ _ _ _ _ (proj1 (problemP i))). Qed.
Lemma stagesP i : o_N_stages (the_opts (CP i)) = 1. Proof. destruct i; vm_compute; reflexivity. Qed.

Notation startP := [(-1)%R].
Lemma looperP i n pv wi : match pv with Some M => length M = n | None => True end -> exists L, looper_init (cn_prob (CP i)) startP n pv 1 wi = Ok L.
Proof.
  intros A. apply (proj2 (init_ok _ _ _ _ _ _ _ (proj1 (problemP i)) startP n pv 1 wi)). split.
  - split; [reflexivity|]. split; [apply stagesP|reflexivity].
  - destruct pv as [M|]; [|exact Logic.I]. auto.
Qed.

(* two steps with parameters 3 and 5 *)
Lemma two_steps i nlp stop : answers (CP i) nlp -> exists L s' L',
  looper_init (cn_prob (CP i)) startP 2 (Some [[3%R]; [5%R]]) 1 None = Ok L /\ length startP = m_nx modelP /\ tables (CP i) modelP L /\
  run nlp (CP i) stop L (initial_state (CP i)) = (s', L', Ok true).
Proof.
  intros A. destruct (looperP i 2 (Some [[3%R]; [5%R]]) None eq_refl) as [L EL]. destruct (init_start _ _ _ _ _ _ _ EL) as [E0 _].
  assert (T : tables (CP i) modelP L).
  { split; rewrite E0; cbn; intros M r E I; [injection E as <-|discriminate]. repeat (destruct I as [<-|I]; [reflexivity|]). contradiction. }
  destruct (looper_runs _ _ _ _ _ _ _ (proj1 (problemP i)) nlp startP 2 (Some [[3%R]; [5%R]]) 1 None L stop (initial_state (CP i))) as (s' & L' & E); auto.
  - apply initP'.
  - exact sizedP.
  - apply extractP.
  - apply sigmaP.
  - apply sigmaP.
  - rewrite polishP. discriminate.
  - apply initialP.
  - discriminate.
  - exists L, s', L'. auto.
Qed.

Lemma answers_returns C nlp : answers C nlp -> returns C nlp.
Proof. intros A n c r E. destruct (A n c) as (r' & E' & L'). congruence. Qed.

(* stop_on_failure: both steps fail, both are performed *)
Lemma not_stopped : exists nlp L s' L', looper_init (cn_prob CS) startP 2 None 0 None = Ok L /\
  run nlp CS true L (initial_state CS) = (s', L', Ok true) /\ lp_status L' = [INFEASIBLE; INFEASIBLE].
Proof.
  set (nlp := constant_nlp (repeat 0%R (length (w (the_nlp CS)))) RSInfeasibleProblemDetected).
  assert (A : answers CS nlp) by (apply constant_answers, repeat_length).
  destruct (proj2 (init_ok _ _ _ _ _ _ _ (proj1 problemS) startP 2 None 0 None)) as [L EL].
  { split; [|exact Logic.I]. split; [reflexivity|]. split; [vm_compute; reflexivity|reflexivity]. }
  destruct (init_start _ _ _ _ _ _ _ EL) as [E0 _].
  assert (T : tables CS model3 L) by (split; rewrite E0; discriminate).
  assert (R : exists s' L', run nlp CS true L (initial_state CS) = (s', L', Ok true)).
  { apply (run_total _ _ _ _ _ _ _ (proj1 problemS) nlp (answers_returns _ _ A) extractS).
    - intros s Z. destruct (runsS nlp s Z A) as (s' & out & E & _). eauto.
    - exact initialS.
    - rewrite E0. reflexivity.
    - exact T.
    - rewrite (proj2 (init_start _ _ _ _ _ _ _ EL)), E0. cbn. lia.
    - rewrite E0. discriminate.
    - rewrite E0. discriminate. }
  destruct R as (s' & L' & R). exists nlp, L, s', L'. split; [exact EL|]. split; [exact R|].
  destruct (glued _ _ _ _ _ _ _ (proj1 problemS) nlp startP 2 None 0 None L true _ _ _ _ (answers_returns _ _ A) extractS EL eq_refl T initialS R)
    as (tr & SM & _ & Lt & _). specialize (Lt eq_refl).
  rewrite (sm_status _ _ _ _ _ _ _ _ SM), E0. cbn [lp_status app].
  assert (F : forall q, In q tr -> so_status (snd q) = INFEASIBLE).
  { intros [si out] I. apply In_nth_error in I. destruct I as [k Hk]. destruct (sm_solve _ _ _ _ _ _ _ _ SM _ _ _ Hk) as (_ & t & Es).
    exact (failing_status _ _ _ _ _ _ _ (proj1 problemS) _ _ _ _ Es). }
  destruct tr as [|a [|b [|c tr]]]; try discriminate Lt. cbn [map]. rewrite (F a), (F b); [reflexivity|right; left; reflexivity|left; reflexivity].
Qed.
