(* Mono2_proofs.v -- problems whose objective changes along the homotopy *)
From Coq Require Import Reals Qreals Lra Lia Psatz.
From Verif Require Import Base Sx Utils Tableau Opts Model Ocp Problem Solver Spec Cases Fesd Spec2 Spec3 Spec30 Witness Nlp_proofs Dcs_proofs Feas6_proofs Filippov4_proofs Homot3_proofs Homot5_proofs Mono_proofs.
Local Open Scope R_scope.

(* maximize v subject to v * v <= sigma *)
Definition modelV : model := {|
  m_nx := 1; m_x0 := [(-1)%Q];
  m_F := Some [mkFmat 1 [[cq 0]; [cq 0]]];
  m_c := Some [[cx 0]]; m_S := Some [[[(-1)%Q]; [1%Q]]]; m_gS := None;
  m_nu := 0; m_nz := 0; m_z0 := None; m_lbz := None; m_ubz := None; m_alpha := None; m_fx := None;
  m_gz := []; m_npt := 0; m_npg := 0; m_ptv_val := None; m_pg_val := []; m_nvg := 1; m_tvar := None |}.
Lemma sizedV : well_sized modelV. Proof. apply sizedQ_ok. reflexivity. Qed.
Definition ocpV : ocp := {|
  oc_lbu := None; oc_ubu := None; oc_u_guess := None; oc_lbx := None; oc_ubx := None;
  oc_fq := ECst 0; oc_g_path := []; oc_lbg := None; oc_ubg := None;
  oc_comp := [(EVar (SVg 0), EVar (SVg 0))];
  oc_fT := EUn UNeg (EVar (SVg 0)); oc_gT := []; oc_lbv := None; oc_ubv := None; oc_v_guess := None |}.
Definition optsV (p : mpcc_mode) : opts := with_modes (with_grid optsS 1 [2%nat]) Stewart p SumLambdas Direct SotNone true true.
Lemma caseV_ok : is_ok (build (optsV ScholtesIneq) modelV (Some ocpV)) = true. Proof. vm_compute. reflexivity. Qed.
Definition CV : constructed := get _ caseV_ok.
Lemma problemV : is_problem (optsV ScholtesIneq) modelV (Some ocpV) CV. Proof. exact (is_problem_ok _ _ _ _ (get_ok _ caseV_ok) eq_refl sizedV). Qed.
Lemma caseW_ok : is_ok (build (optsV ElasticIneq) modelV (Some ocpV)) = true. Proof. vm_compute. reflexivity. Qed.
Definition CW : constructed := get _ caseW_ok.
Lemma problemW : is_problem (optsV ElasticIneq) modelV (Some ocpV) CW. Proof. exact (is_problem_ok _ _ _ _ (get_ok _ caseW_ok) eq_refl sizedV). Qed.
Definition valuesV (sigma v s : Q) : list (sym * Q) := [(SSigma, sigma); (SVg 0, v); (SElastic, s);
  (SX0 0, (-1)%Q); (SL00 FLam 0 1, 2%Q); (SH 0 0, (1#2)%Q); (SH 0 1, (1#2)%Q);
  (S1 FX 0 0 0 0, (-1)%Q); (S2 FTheta 0 0 0 0 0, 1%Q); (S2 FLam 0 0 0 0 1, 2%Q); (S2 FMu 0 0 0 0 0, 1%Q);
  (S1 FX 0 1 0 0, (-1)%Q); (S2 FTheta 0 1 0 0 0, 1%Q); (S2 FLam 0 1 0 0 1, 2%Q); (S2 FMu 0 1 0 0 0, 1%Q)].
Lemma plainV o t rho : o_step_eq o = Direct -> plain_cost o t modelV ocpV rho = - rho (SVg 0).
Proof.
  intros E3. unfold plain_cost. assert (G : forall n f, (forall i, (i < n)%nat -> f i = 0) -> rupto n f = 0).
  { intros n f Hf. rewrite (rupto_ext n f (fun _ => 0)) by exact Hf. unfold rupto. induction (seq 0 n) as [|a l IH]; cbn; [reflexivity|]. unfold rsum in IH. lra. }
  assert (Z : running_cost o t modelV ocpV rho = 0).
  { unfold running_cost. apply G. intros c _. apply G. intros e _. assert (S1 : stage_cost o t modelV ocpV rho c e = 0).
    { apply G. intros j _. cbn [eval oc_fq ocpV]. replace (Q2R 0) with 0 by (unfold Q2R; cbn; lra). ring. }
    rewrite S1. unfold step_cost. rewrite E3. destruct (o_use_fesd o); lra. }
  rewrite Z. cbn. ring.
Qed.
Lemma globalV : global_row modelV (EVar (SVg 0), EVar (SVg 0)).
Proof. split; intros (s & Hs & G); cbn in Hs, G; intuition (subst; discriminate). Qed.
Lemma feasibleV1 : feasible (pt (valuesV (1#4) (1#2) 0)) (the_nlp CV). Proof. apply (feasibleQ (ptQ (valuesV (1#4) (1#2) 0))). vm_compute. reflexivity. Qed.
Lemma feasibleV2 : feasible (pt (valuesV (1#16) (1#4) 0)) (the_nlp CV). Proof. apply (feasibleQ (ptQ (valuesV (1#16) (1#4) 0))). vm_compute. reflexivity. Qed.
Lemma feasibleW1 : feasible (pt (valuesV 1 (1#2) (1#4))) (the_nlp CW). Proof. apply (feasibleQ (ptQ (valuesV 1 (1#2) (1#4)))). vm_compute. reflexivity. Qed.
Lemma feasibleW2 : feasible (pt (valuesV (1#2) (1#4) (1#16))) (the_nlp CW). Proof. apply (feasibleQ (ptQ (valuesV (1#2) (1#4) (1#16)))). vm_compute. reflexivity. Qed.
Lemma squareV C rho o oc : is_problem o modelV oc C -> the_ocp oc = ocpV -> constraints_ok rho (the_nlp C) -> relaxed (the_opts C) rho [rho (SVg 0)] (rho (SVg 0)).
Proof. intros H E F. pose proof (proj2 (proj2 (path_rows _ _ _ _ _ _ _ rho H F)) (EVar (SVg 0), EVar (SVg 0))) as P. rewrite E in P. specialize (P (or_introl eq_refl) globalV). exact P. Qed.
Lemma solutionV sg v : (0 <= v)%Q -> (v * v == sg)%Q -> feasible (pt (valuesV sg v 0)) (the_nlp CV) -> solution_of CV (pt (valuesV sg v 0)).
Proof.
  intros P E F. split; [exact F|]. intros rho F' D. destruct problemV as (H & Ex & W). rewrite !(cost_exact _ _ _ _ _ _ _ H Ex W). unfold nlp_cost.
  replace (elastic (the_opts CV)) with false by (vm_compute; reflexivity). cbn [the_ocp]. rewrite !plainV by (vm_compute; reflexivity).
  pose proof (squareV CV rho _ _ problemV eq_refl (proj2 F')) as R. unfold relaxed in R. replace (o_mpcc (the_opts CV)) with ScholtesIneq in R by (vm_compute; reflexivity).
  rewrite (D SSigma (sigma_in _ _ _ _ _ _ _ H)) in R. change (pt (valuesV sg v 0) SSigma) with (Q2R sg) in R. change (pt (valuesV sg v 0) (SVg 0)) with (Q2R v).
  apply Qle_Rle in P. rewrite RMicromega.Q2R_0 in P. apply Qeq_eqR in E. rewrite Q2R_mult in E. cbn in R. unfold rsum in R. cbn in R. nra.
Qed.
Lemma solutionW sg v s : (0 < sg)%Q -> (v == sg / 2)%Q -> (s == v * v)%Q -> feasible (pt (valuesV sg v s)) (the_nlp CW) -> solution_of CW (pt (valuesV sg v s)).
Proof.
  intros P E1 E2 F. split; [exact F|]. intros rho F' D. destruct problemW as (H & Ex & W). rewrite !(cost_exact _ _ _ _ _ _ _ H Ex W). unfold nlp_cost.
  replace (elastic (the_opts CW)) with true by (vm_compute; reflexivity). cbn [the_ocp]. rewrite !plainV by (vm_compute; reflexivity).
  pose proof (squareV CW rho _ _ problemW eq_refl (proj2 F')) as R. unfold relaxed in R. replace (o_mpcc (the_opts CW)) with ElasticIneq in R by (vm_compute; reflexivity).
  rewrite (D SSigma (sigma_in _ _ _ _ _ _ _ H)). change (pt (valuesV sg v s) SSigma) with (Q2R sg). change (pt (valuesV sg v s) (SVg 0)) with (Q2R v). change (pt (valuesV sg v s) SElastic) with (Q2R s).
  apply Qlt_Rlt in P. rewrite RMicromega.Q2R_0 in P. apply Qeq_eqR in E1. apply Qeq_eqR in E2. rewrite Q2R_mult in E2. unfold Qdiv in E1. rewrite Q2R_mult in E1.
  replace (Q2R (/ 2)) with (/ 2) in E1 by (unfold Q2R; cbn; lra). cbn in R. unfold rsum in R. cbn in R.
  assert (K : Q2R sg * - Q2R v + Q2R s <= Q2R sg * - rho (SVg 0) + rho SElastic). { rewrite E2, E1. pose proof (Rle_0_sqr (rho (SVg 0) - Q2R sg / 2)) as Sq. unfold Rsqr in Sq. nra. }
  destruct (o_obj_direct (the_opts CW)); [|exact K]. apply (Rmult_le_reg_l (Q2R sg)); [exact P|].
  replace (Q2R sg * (- Q2R v + Q2R s / Q2R sg)) with (Q2R sg * - Q2R v + Q2R s) by (field; lra).
  replace (Q2R sg * (- rho (SVg 0) + rho SElastic / Q2R sg)) with (Q2R sg * - rho (SVg 0) + rho SElastic) by (field; lra). exact K.
Qed.
Lemma freeV : free_of_relaxation modelV ocpV. Proof. apply free_check. vm_compute. reflexivity. Qed.
Lemma dataV sg v s sg' v' s' : same_data CV (pt (valuesV sg v s)) (pt (valuesV sg' v' s')).
Proof. intros y Hy N1 N2. vm_compute in Hy. repeat (destruct Hy as [<-|Hy]; [try congruence; reflexivity|]). contradiction. Qed.
Lemma dataW sg v s sg' v' s' : same_data CW (pt (valuesV sg v s)) (pt (valuesV sg' v' s')).
Proof. intros y Hy N1 N2. vm_compute in Hy. repeat (destruct Hy as [<-|Hy]; [try congruence; reflexivity|]). contradiction. Qed.
Lemma caseV : is_problem (optsV ScholtesIneq) modelV (Some ocpV) CV /\ o_mpcc (the_opts CV) = ScholtesIneq /\ free_of_relaxation modelV ocpV /\
  exists v v', solution_of CV v /\ solution_of CV v' /\ same_data CV v v' /\ v' SSigma < v SSigma /\ eval v (cost (the_nlp CV)) < eval v' (cost (the_nlp CV)).
Proof.
  split; [exact problemV|]. split; [vm_compute; reflexivity|]. split; [exact freeV|]. exists (pt (valuesV (1#4) (1#2) 0)), (pt (valuesV (1#16) (1#4) 0)).
  split; [apply solutionV; [discriminate|reflexivity|exact feasibleV1]|]. split; [apply solutionV; [discriminate|reflexivity|exact feasibleV2]|]. split; [apply dataV|].
  destruct problemV as (H & Ex & W). rewrite !(cost_exact _ _ _ _ _ _ _ H Ex W). unfold nlp_cost.
  replace (elastic (the_opts CV)) with false by (vm_compute; reflexivity). cbn [the_ocp]. rewrite !plainV by (vm_compute; reflexivity).
  rewrite (pt_val (valuesV (1#4) (1#2) 0) SSigma (1#4)), (pt_val (valuesV (1#16) (1#4) 0) SSigma (1#16)), (pt_val (valuesV (1#4) (1#2) 0) (SVg 0) (1#2)), (pt_val (valuesV (1#16) (1#4) 0) (SVg 0) (1#4)) by reflexivity.
  unfold Q2R. cbn. lra.
Qed.
Lemma caseW : is_problem (optsV ElasticIneq) modelV (Some ocpV) CW /\ elastic (the_opts CW) = true /\ (0 <= o_s_elastic_min (the_opts CW))%Q /\ free_of_relaxation modelV ocpV /\
  exists v v', solution_of CW v /\ solution_of CW v' /\ same_data CW v v' /\ 0 < v' SSigma < v SSigma /\
    plain_cost (the_opts CW) (cn_tab CW) modelV ocpV v < plain_cost (the_opts CW) (cn_tab CW) modelV ocpV v' /\ v' SElastic < v SElastic.
Proof.
  split; [exact problemW|]. split; [vm_compute; reflexivity|]. split; [vm_compute; discriminate|]. split; [exact freeV|]. exists (pt (valuesV 1 (1#2) (1#4))), (pt (valuesV (1#2) (1#4) (1#16))).
  split; [apply solutionW; [reflexivity|reflexivity|reflexivity|exact feasibleW1]|]. split; [apply solutionW; [reflexivity|reflexivity|reflexivity|exact feasibleW2]|]. split; [apply dataW|].
  rewrite !plainV by (vm_compute; reflexivity).
  rewrite (pt_val (valuesV 1 (1#2) (1#4)) SSigma 1), (pt_val (valuesV (1#2) (1#4) (1#16)) SSigma (1#2)), (pt_val (valuesV 1 (1#2) (1#4)) (SVg 0) (1#2)), (pt_val (valuesV (1#2) (1#4) (1#16)) (SVg 0) (1#4)),
    (pt_val (valuesV 1 (1#2) (1#4)) SElastic (1#4)), (pt_val (valuesV (1#2) (1#4) (1#16)) SElastic (1#16)) by reflexivity.
  unfold Q2R. cbn. lra.
Qed.

(* SCHOLTES_EQ: minimize v subject to v * 1 = sigma *)
Definition ocpQ : ocp := {|
  oc_lbu := None; oc_ubu := None; oc_u_guess := None; oc_lbx := None; oc_ubx := None;
  oc_fq := ECst 0; oc_g_path := []; oc_lbg := None; oc_ubg := None;
  oc_comp := [(EVar (SVg 0), ECst 1)];
  oc_fT := EVar (SVg 0); oc_gT := []; oc_lbv := None; oc_ubv := None; oc_v_guess := None |}.
Lemma caseQ_ok : is_ok (build (optsV ScholtesEq) modelV (Some ocpQ)) = true. Proof. vm_compute. reflexivity. Qed.
Definition CQ : constructed := get _ caseQ_ok.
Lemma problemQ : is_problem (optsV ScholtesEq) modelV (Some ocpQ) CQ. Proof. exact (is_problem_ok _ _ _ _ (get_ok _ caseQ_ok) eq_refl sizedV). Qed.
Lemma plainQ o t rho : o_step_eq o = Direct -> plain_cost o t modelV ocpQ rho = rho (SVg 0).
Proof.
  intros E3. unfold plain_cost. assert (G : forall n f, (forall i, (i < n)%nat -> f i = 0) -> rupto n f = 0).
  { intros n f Hf. rewrite (rupto_ext n f (fun _ => 0)) by exact Hf. unfold rupto. induction (seq 0 n) as [|a l IH]; cbn; [reflexivity|]. unfold rsum in IH. lra. }
  assert (Z : running_cost o t modelV ocpQ rho = 0).
  { unfold running_cost. apply G. intros c _. apply G. intros e _. assert (S1 : stage_cost o t modelV ocpQ rho c e = 0).
    { apply G. intros j _. cbn [eval oc_fq ocpQ]. replace (Q2R 0) with 0 by (unfold Q2R; cbn; lra). ring. }
    rewrite S1. unfold step_cost. rewrite E3. destruct (o_use_fesd o); lra. }
  rewrite Z. cbn. ring.
Qed.
Lemma globalQ : global_row modelV (EVar (SVg 0), ECst 1).
Proof. split; intros (s & Hs & G); cbn in Hs, G; intuition (subst; discriminate). Qed.
(* a: multiplier of the first mode in the first element *)
Definition valuesQ (sigma a t1 t2 : Q) : list (sym * Q) := [(SSigma, sigma); (SVg 0, sigma);
  (SX0 0, (-1)%Q); (SL00 FLam 0 1, 2%Q); (SH 0 0, (1#2)%Q); (SH 0 1, (1#2)%Q);
  (S1 FX 0 0 0 0, (-1)%Q); (S2 FTheta 0 0 0 0 0, t1); (S2 FTheta 0 0 0 0 1, t2); (S2 FLam 0 0 0 0 0, a); (S2 FLam 0 0 0 0 1, (a + 2)%Q); (S2 FMu 0 0 0 0 0, (1 + a)%Q);
  (S1 FX 0 1 0 0, (-1)%Q); (S2 FTheta 0 1 0 0 0, t1); (S2 FTheta 0 1 0 0 1, t2); (S2 FLam 0 1 0 0 1, 2%Q); (S2 FMu 0 1 0 0 0, 1%Q)].
Lemma feasibleQ1 : feasible (pt (valuesQ (3#2) 2 (3#4) (1#4))) (the_nlp CQ). Proof. apply (feasibleQ (ptQ (valuesQ (3#2) 2 (3#4) (1#4)))). vm_compute. reflexivity. Qed.
Lemma feasibleQ2 : feasible (pt (valuesQ (5#6) 1 (5#6) (1#6))) (the_nlp CQ). Proof. apply (feasibleQ (ptQ (valuesQ (5#6) 1 (5#6) (1#6)))). vm_compute. reflexivity. Qed.
Lemma fixedQ rho : feasible rho (the_nlp CQ) -> eval rho (cost (the_nlp CQ)) = rho SSigma.
Proof.
  intros F. pose proof (proj2 (proj2 (path_rows _ _ _ _ _ _ _ rho problemQ (proj2 F))) (EVar (SVg 0), ECst 1) (or_introl eq_refl) globalQ) as R.
  unfold row_ok, relaxed in R. replace (o_mpcc (the_opts CQ)) with ScholtesEq in R by (vm_compute; reflexivity).
  destruct problemQ as (H & Ex & W). rewrite (cost_exact _ _ _ _ _ _ _ H Ex W). unfold nlp_cost. replace (elastic (the_opts CQ)) with false by (vm_compute; reflexivity). cbn [the_ocp].
  rewrite plainQ by (vm_compute; reflexivity). cbn in R. unfold rsum in R. cbn in R. replace (Q2R 1) with 1 in R by (unfold Q2R; cbn; lra). lra.
Qed.
Lemma solutionQ rho : feasible rho (the_nlp CQ) -> solution_of CQ rho.
Proof.
  intros F. split; [exact F|]. intros rho' F' D. rewrite (fixedQ _ F), (fixedQ _ F'). rewrite (D SSigma (sigma_in _ _ _ _ _ _ _ (proj1 problemQ))). lra.
Qed.
Lemma dataQ sg a t1 t2 sg' a' t1' t2' : same_data CQ (pt (valuesQ sg a t1 t2)) (pt (valuesQ sg' a' t1' t2')).
Proof. intros y Hy N1 N2. vm_compute in Hy. repeat (destruct Hy as [<-|Hy]; [try congruence; reflexivity|]). contradiction. Qed.
Lemma equality_falls : exists o m oc C v v', is_problem o m (Some oc) C /\ o_mpcc (the_opts C) = ScholtesEq /\ free_of_relaxation m oc /\
  solution_of C v /\ solution_of C v' /\ same_data C v v' /\ 0 < v' SSigma < v SSigma /\ eval v' (cost (the_nlp C)) < eval v (cost (the_nlp C)).
Proof.
  exists (optsV ScholtesEq), modelV, ocpQ, CQ, (pt (valuesQ (3#2) 2 (3#4) (1#4))), (pt (valuesQ (5#6) 1 (5#6) (1#6))).
  split; [exact problemQ|]. split; [vm_compute; reflexivity|]. split; [apply free_check; vm_compute; reflexivity|].
  split; [apply solutionQ, feasibleQ1|]. split; [apply solutionQ, feasibleQ2|]. split; [apply dataQ|]. rewrite (fixedQ _ feasibleQ1), (fixedQ _ feasibleQ2).
  rewrite (pt_val (valuesQ (3#2) 2 (3#4) (1#4)) SSigma (3#2)), (pt_val (valuesQ (5#6) 1 (5#6) (1#6)) SSigma (5#6)) by reflexivity. unfold Q2R. cbn. lra.
Qed.
Lemma caseR : exists v v', solution_of CW v /\ 0 < v SSigma /\ feasible v' (the_nlp CW) /\ same_data CW v' v /\ v' SElastic = 0 /\ 0 < v SElastic.
Proof.
  exists (pt (valuesV (1#2) (1#4) (1#16))), (pt (valuesV (1#2) 0 0)). split; [apply solutionW; [reflexivity|reflexivity|reflexivity|exact feasibleW2]|].
  rewrite (pt_val (valuesV (1#2) (1#4) (1#16)) SSigma (1#2)), (pt_val (valuesV (1#2) (1#4) (1#16)) SElastic (1#16)), (pt_val (valuesV (1#2) 0 0) SElastic 0) by reflexivity.
  split; [unfold Q2R; cbn; lra|]. split; [apply (feasibleQ (ptQ (valuesV (1#2) 0 0))); vm_compute; reflexivity|]. split; [apply dataW|]. unfold Q2R. cbn. lra.
Qed.
