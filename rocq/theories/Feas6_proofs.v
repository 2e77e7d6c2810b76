(* Feas6_proofs.v -- the statements of Props_Nlp.v: corollaries at feasible points and the concrete cases *)
From Coq Require Import Reals Qreals Lra Psatz.
From Verif Require Import Base Sx Utils Tableau Opts Model Ocp Problem Spec Cases Lib Sx_proofs Opts_proofs Con_proofs Index3_proofs Fesd Nlp_proofs Spec2 Witness Dcs_proofs
  Feas_proofs Feas2_proofs Feas3_proofs Feas4_proofs Feas5_proofs.

Lemma pt_val l s q : Qeq_bool (ptQ l s) q = true -> pt l s = Q2R q.
Proof. intros H. unfold pt. apply Qeq_eqR, Qeq_bool_eq, H. Qed.
Lemma pt_pos l s : Qle_bool (ptQ l s) 0 = false -> (0 < pt l s)%R.
Proof.
  intros H. unfold pt. replace 0%R with (Q2R 0) by apply Q2R_0. apply Qlt_Rlt. destruct (Qlt_le_dec 0 (ptQ l s)) as [G|G]; [exact G|].
  apply Qle_bool_iff in G. congruence.
Qed.
Fixpoint nonnegQ (l : list (sym * Q)) : bool :=
  match l with [] => true | (SL00 _ _ _, q) :: l' => Qle_bool 0 q && nonnegQ l' | _ :: l' => nonnegQ l' end.
Lemma nonneg_pt l : nonnegQ l = true -> initial_nonneg (pt l).
Proof.
  intros H f s i. unfold pt. replace 0%R with (Q2R 0) by apply Q2R_0. apply Qle_Rle. induction l as [|[x q] l IH]; [apply Qle_refl|].
  cbn [ptQ]. destruct (sym_eqb (SL00 f s i) x) eqn:E.
  - destruct x; try discriminate. cbn in H. apply andb_prop in H. apply Qle_bool_iff, H.
  - apply IH. destruct x; cbn in H; try exact H. apply andb_prop in H. apply H.
Qed.

(* ---- C11 ---- *)
Lemma fischer_single o rho x y : o_mpcc o = FischerBurmeister ->
  (relaxed o rho [x] y <-> (x * y = rho SSigma * rho SSigma / 2 /\ 0 <= x + y)%R).
Proof.
  intros E. unfold relaxed. rewrite E. cbn. unfold rsum. cbn. rewrite <- fischer_zero. split; lra.
Qed.
Lemma fischer_sum_bad : exists rho x1 x2 y, rho SSigma = 0%R /\
  relaxed (with_modes optsS Stewart FischerBurmeister SumLambdas HeuristicDelta SotNone true true) rho [x1; x2] y /\
  (x1 < 0)%R /\ (0 < (x1 + x2) * y)%R.
Proof.
  exists (fun _ => 0%R), (-5)%R, 9%R, 12%R. split; [reflexivity|]. split; [|split; lra]. unfold relaxed. cbn. unfold rsum, fischer. cbn.
  replace (-5 * -5 + 12 * 12 + 0 * 0)%R with (13 * 13)%R by lra. replace (9 * 9 + 12 * 12 + 0 * 0)%R with (15 * 15)%R by lra.
  rewrite !sqrt_square by lra. lra.
Qed.

(* ---- C12 ---- *)
Lemma not_convex : exists o m C rho, is_problem o m None C /\ feasible rho (the_nlp C) /\
  o_pss (the_opts C) = Stewart /\ o_mpcc (the_opts C) = ElasticTwoSided /\ is_fe (the_opts C) 0 0 2 /\ (rho (S2 FTheta 0 0 0 0 0) < 0)%R.
Proof.
  exists optsE, model3, CE, (pt restE). split; [exact problemE|]. split; [exact feasibleE|]. split; [vm_compute; reflexivity|].
  split; [vm_compute; reflexivity|]. split; [vm_compute; repeat split; lia|].
  rewrite (pt_val restE _ (-1 # 2)) by (vm_compute; reflexivity). unfold Q2R. cbn. lra.
Qed.

(* ---- C13, C14 ---- *)
Lemma zeroS : zero_relaxation optsS rhoS.
Proof. change (rhoS SSigma = 0%R). unfold rhoS. rewrite (pt_val _ _ 0) by reflexivity. apply Q2R_0. Qed.
Lemma nonnegS : initial_nonneg rhoS. Proof. apply nonneg_pt. reflexivity. Qed.
Lemma switch_caseS : zero_relaxation (the_opts CS) rhoS /\ initial_nonneg rhoS /\ o_use_fesd (the_opts CS) = true /\
  o_cross (the_opts CS) = SumLambdas /\ before (the_opts CS) 0 1 = Some (0, 0) /\
  (0 < rhoS (S2 FTheta 0 0 0 0 0))%R /\ (0 < rhoS (S2 FTheta 0 1 0 0 1))%R.
Proof.
  split. { unfold zero_relaxation. replace (o_mpcc (the_opts CS)) with ScholtesIneq by (vm_compute; reflexivity). exact zeroS. }
  split; [exact nonnegS|]. split; [vm_compute; reflexivity|]. split; [vm_compute; reflexivity|]. split; [reflexivity|].
  split; apply pt_pos; reflexivity.
Qed.
Lemma switch_caseT : zero_relaxation (the_opts CT) rhoT /\ initial_nonneg rhoT /\ o_use_fesd (the_opts CT) = true /\
  o_pss (the_opts CT) = Step /\ before (the_opts CT) 0 1 = Some (0, 0) /\
  (rhoT (S2 FAlpha 0 0 0 0 0) < 1)%R /\ (0 < rhoT (S2 FAlpha 0 1 0 0 0))%R.
Proof.
  split. { unfold zero_relaxation. replace (o_mpcc (the_opts CT)) with ScholtesIneq by (vm_compute; reflexivity). unfold rhoT. rewrite (pt_val _ _ 0) by reflexivity. apply Q2R_0. }
  split; [apply nonneg_pt; reflexivity|]. split; [vm_compute; reflexivity|]. split; [vm_compute; reflexivity|]. split; [reflexivity|].
  split; [|apply pt_pos; reflexivity]. unfold rhoT. rewrite (pt_val _ _ 0) by reflexivity. unfold Q2R. cbn. lra.
Qed.
Lemma zeroG : zero_relaxation optsG rhoG.
Proof. change (rhoG SSigma = 0%R). unfold rhoG. rewrite (pt_val _ _ 0) by reflexivity. apply Q2R_0. Qed.
Lemma region_G o t : t_rbe t = false -> points1 o false FX = 2 ->
  region_value model4 (boundary_point o t model4 rhoG 0 0) 0 0 = (/ 2)%R /\ region_value model4 (boundary_point o t model4 rhoG 0 0) 0 1 = (- / 2)%R.
Proof.
  intros R P. assert (X : boundary_point o t model4 rhoG 0 0 (MX 0) = (/ 2)%R).
  { unfold boundary_point, at_point, final_state. rewrite R. unfold end_state. rewrite R, P. change (2 - 1) with 1. unfold rhoG. rewrite (pt_val _ _ (1 # 2)) by reflexivity. unfold Q2R. cbn. lra. }
  unfold region_value. cbn -[boundary_point Q2R]. unfold rsum. cbn -[boundary_point Q2R]. rewrite X. unfold Q2R. cbn. lra.
Qed.
Lemma switch_off_boundary : exists o m C rho, is_problem o m None C /\ feasible rho (the_nlp C) /\
  zero_relaxation (the_opts C) rho /\ initial_nonneg rho /\ o_use_fesd (the_opts C) = true /\ o_pss (the_opts C) = Stewart /\
  is_fe (the_opts C) 0 1 2 /\ before (the_opts C) 0 1 = Some (0, 0) /\
  (0 < rho (S2 FTheta 0 0 0 0 0))%R /\ (0 < rho (S2 FTheta 0 1 0 0 1))%R /\
  region_value m (boundary_point (the_opts C) (cn_tab C) m rho 0 0) 0 0 <>
  region_value m (boundary_point (the_opts C) (cn_tab C) m rho 0 0) 0 1.
Proof.
  exists (with_cross optsG ComplementAll), model4, CG2, rhoG. split; [exact problemG2|]. split; [exact feasibleG2|].
  split. { unfold zero_relaxation. replace (o_mpcc (the_opts CG2)) with ScholtesIneq by (vm_compute; reflexivity). exact zeroG. }
  split; [apply nonneg_pt; reflexivity|]. split; [vm_compute; reflexivity|]. split; [vm_compute; reflexivity|].
  split; [vm_compute; repeat split; lia|]. split; [reflexivity|]. split; [apply pt_pos; reflexivity|]. split; [apply pt_pos; reflexivity|].
  assert (R : t_rbe (cn_tab CG2) = false) by (vm_compute; reflexivity). assert (P : points1 (the_opts CG2) false FX = 2) by (vm_compute; reflexivity).
  destruct (region_G _ _ R P) as [-> ->]. lra.
Qed.
Lemma cross_modes_differ : exists o m C1 C2 rho, is_problem (with_cross o SumLambdas) m None C1 /\ is_problem (with_cross o ComplementAll) m None C2 /\
  zero_relaxation o rho /\ initial_nonneg rho /\ feasible rho (the_nlp C2) /\ ~ constraints_ok rho (the_nlp C1).
Proof.
  exists optsG, model4, CG1, CG2, rhoG. split; [exact problemG1|]. split; [exact problemG2|]. split; [exact zeroG|].
  split; [apply nonneg_pt; reflexivity|]. split; [exact feasibleG2|exact infeasibleG1].
Qed.

(* ---- C15 ---- *)
Lemma switching_equations lr cp d o m oc C rho c e nfe : fesd_problem lr cp d o m oc C -> constraints_ok rho (the_nlp C) ->
  is_fe (the_opts C) c e nfe ->
  (forall j, j < o_ns (the_opts C) -> switching_ok (the_opts C) m (stage_point (the_opts C) (cn_tab C) m rho c e j)) /\
  (t_rbe (cn_tab C) = false -> o_use_fesd (the_opts C) = true ->
     switching_ok (the_opts C) m (end_point (the_opts C) (cn_tab C) m rho c e) /\
     (e + 1 < nfe -> n_mult (the_opts C) (cn_tab C) c e = o_ns (the_opts C) + 1)).
Proof.
  intros (H & E & W) F2 I. destruct (elem_all lr cp d o m oc C H E W rho F2 c e nfe I) as (A & _ & _ & _ & Bd & _). split.
  - intros j Hj. apply (A j Hj).
  - intros R Hf. split; [exact (Bd R Hf)|]. intros He. exact (own_boundary_multipliers C c e nfe Hf R I He).
Qed.
Lemma gauss_case : is_problem (with_cross optsG ComplementAll) model4 None CG2 /\ constraints_ok rhoG (the_nlp CG2) /\
  is_fe (the_opts CG2) 0 0 2 /\ t_rbe (cn_tab CG2) = false /\ o_use_fesd (the_opts CG2) = true.
Proof.
  split; [exact problemG2|]. split; [exact (proj2 feasibleG2)|]. split; [vm_compute; repeat split; lia|]. split; vm_compute; reflexivity.
Qed.
Lemma gauss_no_solution : exists o m C, is_problem o m None C /\ o_use_fesd (the_opts C) = true /\ t_rbe (cn_tab C) = false /\
  forall rho, ~ feasible rho (the_nlp C).
Proof. exists optsH, model3, CH. split; [exact problemH|]. split; [vm_compute; reflexivity|]. split; [vm_compute; reflexivity|exact gauss_infeasible]. Qed.

(* ---- C16 ---- *)
Lemma fe_exists lr cp d o m oc C (H : construct_problem lr cp d o m oc = Ok C) c : c < o_N_stages (the_opts C) ->
  nth_error (o_Nfe_list (the_opts C)) c = Some (nfe_of (the_opts C) c).
Proof.
  intros Hc. destruct (shapes_con lr cp d o m oc C H) as (S & _). destruct (S c Hc) as (n & Hn & _). unfold nfe_of. rewrite (nth_error_nth _ _ _ Hn). exact Hn.
Qed.
Lemma path_rows lr cp d o m oc C rho : fesd_problem lr cp d o m oc C -> constraints_ok rho (the_nlp C) ->
  (forall c e nfe j r, is_fe (the_opts C) c e nfe -> j < o_ns (the_opts C) -> In r (oc_comp (the_ocp oc)) -> stage_row m r ->
     row_ok (the_opts C) rho (stage_point (the_opts C) (cn_tab C) m rho c e j) r) /\
  (forall c r, c < o_N_stages (the_opts C) -> 0 < o_N_finite_elements (the_opts C) <= nfe_of (the_opts C) c ->
     In r (oc_comp (the_ocp oc)) -> control_row m r -> row_ok (the_opts C) rho (plain_point m rho c (fun _ => 0%R)) r) /\
  (forall r, In r (oc_comp (the_ocp oc)) -> global_row m r -> row_ok (the_opts C) rho (plain_point m rho 0 (fun _ => 0%R)) r).
Proof.
  intros (H & E & W) F2. split; [|split].
  - intros c e nfe j r I Hj Hr Sr. destruct (elem_all lr cp d o m oc C H E W rho F2 c e nfe I) as (_ & _ & _ & _ & _ & P & _).
    exact (proj1 P r Hr Sr j Hj).
  - intros c r Hc Hn Hr Cr. pose proof (fe_exists _ _ _ _ _ _ _ H c Hc) as Hn'.
    assert (I : is_fe (the_opts C) c (o_N_finite_elements (the_opts C) - 1) (nfe_of (the_opts C) c)) by (repeat split; [exact Hc|exact Hn'|lia]).
    destruct (elem_all lr cp d o m oc C H E W rho F2 _ _ _ I) as (_ & _ & _ & _ & _ & P & _). refine (proj2 P _ r Hr Cr). lia.
  - destruct (nlp_sound lr cp d o m oc C H E W rho F2) as (_ & _ & _ & _ & G). exact G.
Qed.
Lemma control_U : control_row model5 (EVar (MU 0), EVar (MU 0)).
Proof.
  split.
  - intros (s & Hs & G). cbn in Hs, G. destruct Hs as [<-|[]]. destruct G as [[G|[]]|[G|[]]]; discriminate.
  - exists (MU 0). cbn. auto.
Qed.
Lemma control_case : is_problem optsU2 model5 (Some ocpU) CU2 /\ constraints_ok (pt (restU2 0)) (the_nlp CU2) /\
  0 < o_N_finite_elements (the_opts CU2) <= nfe_of (the_opts CU2) 0 /\ control_row model5 (EVar (MU 0), EVar (MU 0)) /\
  In (EVar (MU 0), EVar (MU 0)) (oc_comp ocpU).
Proof.
  split; [exact problemU2|]. split; [exact (proj2 feasibleU2)|]. split; [vm_compute; lia|]. split; [exact control_U|left; reflexivity].
Qed.
Lemma control_dropped : exists o m oc C rho r c, is_problem o m (Some oc) C /\ feasible rho (the_nlp C) /\
  c < o_N_stages (the_opts C) /\ In r (oc_comp oc) /\ control_row m r /\
  ~ row_ok (the_opts C) rho (plain_point m rho c (fun _ => 0%R)) r.
Proof.
  exists optsU, model5, ocpU, CU, (pt restU), (EVar (MU 0), EVar (MU 0)), 0. split; [exact problemU|]. split; [exact feasibleU|].
  split; [vm_compute; lia|]. split; [left; reflexivity|]. split; [exact control_U|].
  unfold row_ok, relaxed. replace (o_mpcc (the_opts CU)) with ScholtesIneq by (vm_compute; reflexivity). cbn -[pt]. unfold rsum. cbn -[pt].
  rewrite (pt_val restU (SU 0 0) 5), (pt_val restU SSigma 0) by reflexivity. unfold Q2R. cbn. lra.
Qed.

(* ---- C17 ---- *)
Lemma products_below lr cp d o m oc C rho tol : construct_problem lr cp d o m oc = Ok C ->
  (comp_residual C rho < tol)%R -> forall r, product (the_opts C) (cn_tab C) m rho r -> (r < tol)%R.
Proof. intros H T r P. destruct (residual_max lr cp d o m oc C rho H) as (_ & G & _). specialize (G r P). lra. Qed.

Lemma stage_A : forall o t, o_repr o = Integral ->
  let v := stage_point o t model1 (pt pathA) 0 0 0 in (eval v (cx 0) * eval v (cx 1) = 100)%R.
Proof.
  intros o t R v. change (stage_state o t (pt pathA) 0 0 0 0 * stage_state o t (pt pathA) 0 0 0 1 = 100)%R. unfold stage_state. rewrite R.
  rewrite (pt_val pathA (S1 FX 0 0 0 0) 10), (pt_val pathA (S1 FX 0 0 0 1) 10) by reflexivity. unfold Q2R. cbn. lra.
Qed.
Lemma path_not_measured : exists o m oc C rho r, construct_problem case_log_round case_cpoints ipopt_init o m (Some oc) = Ok C /\
  comp_residual C rho = 0%R /\ In r (oc_comp oc) /\ stage_row m r /\ is_fe (the_opts C) 0 0 1 /\
  (eval (stage_point (the_opts C) (cn_tab C) m rho 0 0 0) (fst r) * eval (stage_point (the_opts C) (cn_tab C) m rho 0 0 0) (snd r) = 100)%R.
Proof.
  exists optsA, model1, ocp1, CA, (pt pathA), (cx 0, cx 1). split; [exact (made _ _ _ _ builtA)|]. split; [exact residualA|].
  split; [left; reflexivity|]. split; [exists (MX 0); cbn; auto|]. split; [vm_compute; repeat split; lia|].
  apply (stage_A (the_opts CA) (cn_tab CA)). vm_compute. reflexivity.
Qed.

(* ---- C18 ---- *)
Definition straightD : list (sym * Q) := [
  (SX0 0, (-10)%Q); (SL00 FLam 0 1, 20%Q); (SH 0 0, (1#2)%Q); (SH 0 1, (1#2)%Q);
  (S1 FX 0 0 0 0, (-17#2)%Q); (S2 FTheta 0 0 0 0 0, 1%Q); (S2 FLam 0 0 0 0 1, 17%Q); (S2 FMu 0 0 0 0 0, (17#2)%Q);
  (S1 FX 0 1 0 0, (-7)%Q); (S2 FTheta 0 1 0 0 0, 1%Q); (S2 FLam 0 1 0 0 1, 14%Q); (S2 FMu 0 1 0 0 0, 7%Q)].
Definition restD : env := pt straightD.
Lemma caseD_ok : is_ok (build (with_step_eq optsS Direct) model3 None) = true. Proof. vm_compute. reflexivity. Qed.
Definition CD : constructed := get _ caseD_ok.
Lemma builtD : build (with_step_eq optsS Direct) model3 None = Ok CD. Proof. apply get_ok. Qed.
Lemma problemD : is_problem (with_step_eq optsS Direct) model3 None CD. Proof. exact (is_problem_ok _ _ _ _ builtD eq_refl sized3). Qed.
Lemma feasibleD : feasible restD (the_nlp CD).
Proof. apply (feasibleQ (ptQ straightD)). vm_compute. reflexivity. Qed.
Lemma direct_case : exists C, is_problem (with_step_eq optsS Direct) model3 None C /\ feasible restD (the_nlp C) /\
  product_mode (the_opts C) /\ initial_nonneg restD /\ is_fe (the_opts C) 0 1 2 /\ o_step_eq (the_opts C) = Direct /\
  (0 < sum_lam (the_opts C) (cn_tab C) model3 restD 0 0 1 /\ 0 < sum_theta (the_opts C) model3 restD 0 0 0)%R.
Proof.
  exists CD. split; [exact problemD|]. split; [exact feasibleD|]. assert (PM : product_mode (the_opts CD)) by (vm_compute; exact Logic.I).
  split; [exact PM|]. assert (N0 : initial_nonneg restD) by (apply nonneg_pt; reflexivity). split; [exact N0|].
  split; [vm_compute; repeat split; lia|]. split; [vm_compute; reflexivity|].
  assert (I : is_fe (the_opts CD) 0 0 2) by (vm_compute; repeat split; lia).
  assert (ES : o_pss (the_opts CD) = Stewart) by (vm_compute; reflexivity).
  assert (En : n_mult (the_opts CD) (cn_tab CD) 0 0 = 1) by (vm_compute; reflexivity).
  assert (Es : o_ns (the_opts CD) = 1) by (vm_compute; reflexivity). destruct problemD as (H & _).
  assert (K0 : 0 < n_subsystems model3) by (cbn; lia). assert (K1 : 1 < n_modes model3 0) by (cbn; lia). assert (K2 : 0 < n_modes model3 0) by (cbn; lia).
  split.
  - unfold sum_lam. rewrite En. pose proof (prev_nonneg _ _ _ _ _ _ _ H restD (proj1 feasibleD) 0 0 2 1 PM N0 I).
    pose proof (st_lam model3 CD restD 0 0 0 0 1 ES K0 K1) as E. change (upto 0 (n_modes model3) + 1) with 1 in E. cbn [rupto seq map]. unfold rupto. cbn [seq map rsum fold_right]. 
    rewrite E. unfold restD at 1. rewrite (pt_val straightD _ 17) by reflexivity. assert (Q2R 17 = 17%R) by (unfold Q2R; cbn; lra). lra.
  - unfold sum_theta. rewrite Es. pose proof (st_theta model3 CD restD 0 0 0 0 0 ES K0 K2) as E. change (upto 0 (n_modes model3) + 0) with 0 in E.
    unfold rupto. cbn [seq map rsum fold_right]. rewrite E. unfold restD. rewrite (pt_val straightD _ 1) by reflexivity. assert (Q2R 1 = 1%R) by (unfold Q2R; cbn; lra). lra.
Qed.

(* ---- C19, C20 ---- *)
Lemma upper_ignored : exists o m oc C1 C2 rho, is_problem (with_constr o Exact) m (Some oc) C1 /\
  build (with_constr o LeastSquares) m (Some oc) = Ok C2 /\ feasible rho (the_nlp C1) /\
  eval rho (cost (the_nlp C1)) = 0%R /\ eval rho (cost (the_nlp C2)) = 25%R /\ In (Fin 7) (ubg (the_nlp C1)).
Proof.
  exists optsL, model5, (ocpL (Fin 7)), CL1, CL2, (pt (restU2 5)). split; [exact problemL1|]. split; [exact builtL2|]. split; [exact feasibleL1|].
  split; [exact costL1|]. split; [exact costL2|]. vm_compute. tauto.
Qed.
Lemma elastic_cost lr cp d o m oc C rho : fesd_problem lr cp d o m oc C -> elastic (the_opts C) = true ->
  (eval rho (cost (the_nlp C)) =
   if o_obj_direct (the_opts C) then plain_cost (the_opts C) (cn_tab C) m (the_ocp oc) rho + rho SElastic / rho SSigma
   else rho SSigma * plain_cost (the_opts C) (cn_tab C) m (the_ocp oc) rho + rho SElastic)%R.
Proof. intros (H & E & W) El. rewrite (cost_exact lr cp d o m oc C H E W rho). unfold nlp_cost. rewrite El. reflexivity. Qed.

(* ---- C21, C22 ---- *)
Ltac distinct_points := intros [|[|[|i]]] [|[|[|j]]] x y Hx Hy E; cbn in *; try reflexivity; try discriminate; try (destruct i; discriminate); try (destruct j; discriminate);
    injection Hx as <-; injection Hy as <-; discriminate.
Lemma points_caseS : points_ok case_cpoints (the_opts CS).
Proof.
  intros _. replace (o_ns (the_opts CS)) with 1 by (vm_compute; reflexivity). replace (o_scheme (the_opts CS)) with RadauIIA by (vm_compute; reflexivity).
  split; [reflexivity|]. split; [distinct_points|]. exists [], 1%Q. split; reflexivity.
Qed.
Lemma integral_exact lr cp d o m oc C rho c e q0 (a : list R) (pr : Riemann_integrable (peval a) 0 1) :
  construct_problem lr cp d o m oc = Ok C -> points_ok cp (the_opts C) ->
  o_repr (the_opts C) = Integral -> o_sot (the_opts C) = SotNone ->
  length a <= S (o_ns (the_opts C)) -> (forall q, In q (cp (o_ns (the_opts C)) (o_scheme (the_opts C))) -> peval a (Q2R q) = 0%R) ->
  peval a 0 <> 0%R -> RiemannInt pr = 0%R ->
  (forall j, j < o_ns (the_opts C) -> eval (stage_point (the_opts C) (cn_tab C) m rho c e j) (oc_fq (the_ocp oc)) = q0) ->
  stage_cost (the_opts C) (cn_tab C) m (the_ocp oc) rho c e = (step_len (the_opts C) rho c e * q0)%R.
Proof.
  intros H P Er Es La Z A0 Int G. pose proof (t_made _ _ _ _ _ _ _ H) as M. pose proof (Feas_proofs.ns_pos _ _ _ _ _ _ _ H) as N.
  rewrite (cost_constant_integral cp _ _ _ _ _ M N c e q0 P Er Es G). rewrite (B0_zero cp _ _ M N a pr P Er La Z A0 Int). lra.
Qed.
Lemma caseR_ok : is_ok (build default_opts model5 (Some ocpU)) = true. Proof. vm_compute. reflexivity. Qed.
Definition CR : constructed := get _ caseR_ok.
Lemma builtR : build default_opts model5 (Some ocpU) = Ok CR. Proof. apply get_ok. Qed.
Lemma radau2_case : exists C, is_problem default_opts model5 (Some ocpU) C /\ o_repr (the_opts C) = Integral /\ o_sot (the_opts C) = SotNone /\
  points_ok case_cpoints (the_opts C) /\ (entry1 (t_B (cn_tab C)) 0 = 0)%R.
Proof.
  exists CR. split; [exact (is_problem_ok _ _ _ _ builtR eq_refl sized5)|]. split; [vm_compute; reflexivity|]. split; [vm_compute; reflexivity|]. split.
  - intros _. replace (o_ns (the_opts CR)) with 2 by (vm_compute; reflexivity). replace (o_scheme (the_opts CR)) with RadauIIA by (vm_compute; reflexivity).
    split; [reflexivity|]. split; [distinct_points|]. exists [(1#3)%Q], 1%Q. split; reflexivity.
  - unfold entry1. replace (nth 0 (t_B (cn_tab CR)) 0%Q) with 0%Q by (vm_compute; reflexivity). apply Q2R_0.
Qed.
Lemma half_cost : exists o m oc C rho, is_problem o m (Some oc) C /\ feasible rho (the_nlp C) /\
  oc_fq oc = cq 1 /\ oc_fT oc = cq 0 /\ o_terminal_time (the_opts C) = 1%Q /\ (rho (SH 0 0) = rho (SH 0 1))%R /\
  eval rho (cost (the_nlp C)) = (/ 2)%R.
Proof.
  exists optsU2, model5, ocpU, CU2, (pt (restU2 0)). split; [exact problemU2|]. split; [exact feasibleU2|]. split; [reflexivity|]. split; [reflexivity|].
  split; [vm_compute; reflexivity|]. split; [|exact costU2]. rewrite (pt_val (restU2 0) (SH 0 0) (1#2)), (pt_val (restU2 0) (SH 0 1) (1#2)) by reflexivity. reflexivity.
Qed.

(* ---- C26, C27 ---- *)
Lemma last_stage_is_end lr cp d o m oc C rho c e nfe i : fesd_problem lr cp d o m oc C -> constraints_ok rho (the_nlp C) ->
  t_rbe (cn_tab C) = true -> is_fe (the_opts C) c e nfe -> i < m_nx m ->
  stage_state (the_opts C) (cn_tab C) rho c e (o_ns (the_opts C) - 1) i = end_state (the_opts C) (cn_tab C) rho c e i.
Proof.
  intros (H & E & W) F R I Hi. destruct (elem_all lr cp d o m oc C H E W rho F c e nfe I) as (_ & Co & Cn & _).
  exact (end_is_last_stage cp _ _ m rho (t_made _ _ _ _ _ _ _ H) c e i Co Cn R Hi).
Qed.
Lemma end_continuity lr cp d o m oc C rho c e nfe : fesd_problem lr cp d o m oc C -> constraints_ok rho (the_nlp C) ->
  is_fe (the_opts C) c e nfe -> continuity (the_opts C) (cn_tab C) m rho c e.
Proof. intros (H & E & W) F I. apply (elem_all lr cp d o m oc C H E W rho F c e nfe I). Qed.
Lemma chained lr cp d o m oc C rho c e nfe i : fesd_problem lr cp d o m oc C -> constraints_ok rho (the_nlp C) ->
  o_repr (the_opts C) <> Integral -> is_fe (the_opts C) c e nfe -> i < m_nx m ->
  (end_state (the_opts C) (cn_tab C) rho c e i = start_state (the_opts C) (cn_tab C) rho c e i + step_len (the_opts C) rho c e *
     rupto (o_ns (the_opts C)) (fun j => entry1 (t_b (cn_tab C)) j * slope rho c e j i))%R.
Proof.
  intros (H & E & W) F R I Hi. destruct (elem_all lr cp d o m oc C H E W rho F c e nfe I) as (_ & Co & Cn & _).
  exact (end_differential cp _ _ m rho (t_made _ _ _ _ _ _ _ H) (Feas_proofs.ns_pos _ _ _ _ _ _ _ H) c e i Co Cn R Hi).
Qed.
Lemma constant_field lr cp d o m oc C rho c e nfe i f : fesd_problem lr cp d o m oc C -> constraints_ok rho (the_nlp C) ->
  points_ok cp (the_opts C) -> o_repr (the_opts C) = Integral -> is_fe (the_opts C) c e nfe -> i < m_nx m ->
  (forall j, j < o_ns (the_opts C) -> rhs (the_opts C) m (stage_point (the_opts C) (cn_tab C) m rho c e j) i = f) ->
  (end_state (the_opts C) (cn_tab C) rho c e i = start_state (the_opts C) (cn_tab C) rho c e i +
     step_len (the_opts C) rho c e * (speed (the_opts C) rho c * f))%R.
Proof.
  intros (H & E & W) F P R I Hi G. destruct (elem_all lr cp d o m oc C H E W rho F c e nfe I) as (_ & Co & Cn & _).
  exact (end_constant cp _ _ m rho (t_made _ _ _ _ _ _ _ H) (Feas_proofs.ns_pos _ _ _ _ _ _ _ H) c e i f P Co Cn R Hi G).
Qed.
Lemma rhs_S o t : o_pss o = Stewart -> rhs o model3 (stage_point o t model3 rhoS 0 1 0) 0 = 1%R.
Proof.
  intros ES. unfold rhs, weight. rewrite ES. cbn -[rhoS Q2R]. unfold rupto. cbn -[rhoS Q2R]. unfold rsum. cbn -[rhoS Q2R]. unfold rhoS.
  rewrite (pt_val switchS (S2 FTheta 0 1 0 0 0) 0), (pt_val switchS (S2 FTheta 0 1 0 0 1) 1) by reflexivity. unfold Q2R. cbn. lra.
Qed.
Lemma constant_caseS : is_problem optsS model3 None CS /\ constraints_ok rhoS (the_nlp CS) /\ is_fe (the_opts CS) 0 1 2 /\
  rhs (the_opts CS) model3 (stage_point (the_opts CS) (cn_tab CS) model3 rhoS 0 1 0) 0 = 1%R.
Proof.
  split; [exact problemS|]. split; [exact (proj2 feasibleS)|]. split; [vm_compute; repeat split; lia|]. apply rhs_S. vm_compute. reflexivity.
Qed.

(* ---- C28 ---- *)
Lemma user_constraints lr cp d o m oc C rho : fesd_problem lr cp d o m oc C -> constraints_ok rho (the_nlp C) ->
  (forall c e nfe, is_fe (the_opts C) c e nfe -> e + 1 = nfe \/ o_g_path_at_fe (the_opts C) = true ->
     path_holds m (the_ocp oc) rho c (final_state (the_opts C) (cn_tab C) rho c e) /\
     forall i, i < m_nx m -> final_state (the_opts C) (cn_tab C) rho c e i = end_state (the_opts C) (cn_tab C) rho c e i) /\
  (forall c e nfe j, is_fe (the_opts C) c e nfe -> o_g_path_at_stg (the_opts C) = true ->
     j < o_ns (the_opts C) - (if t_rbe (cn_tab C) then 1 else 0) ->
     path_holds m (the_ocp oc) rho c (stage_state (the_opts C) (cn_tab C) rho c e j)) /\
  (forall e, In e (oc_gT (the_ocp oc)) -> eval (terminal_point (the_opts C) (cn_tab C) m rho) e = 0%R) /\
  (forall c tv, c < o_N_stages (the_opts C) -> o_time_freezing (the_opts C) = true -> o_equidistant (the_opts C) = true -> m_tvar m = Some tv ->
     (Rabs (eval (plain_point m rho c (end_state (the_opts C) (cn_tab C) rho c (nfe_of (the_opts C) c - 1))) tv -
            eval (plain_point m rho c (fun i => rho (SX0 i))) tv -
            INR (c + 1) * (Q2R (o_terminal_time (the_opts C)) / INR (o_N_stages (the_opts C)))) <= Q2R (o_tf_tol (the_opts C)))%R).
Proof.
  intros FP F2. pose proof FP as (H & E & W). split; [|split; [|split]].
  - intros c e nfe I Hc. destruct (elem_all lr cp d o m oc C H E W rho F2 c e nfe I) as (_ & _ & _ & P & _). split.
    + apply (proj1 P). destruct Hc as [Hc|Hc]; [left|right; exact Hc]. unfold nfe_of. destruct I as (_ & I & _). rewrite (nth_error_nth _ _ _ I). exact Hc.
    + intros i Hi. unfold final_state. destruct (t_rbe (cn_tab C)) eqn:R; [|reflexivity]. exact (last_stage_is_end _ _ _ _ _ _ _ _ _ _ _ _ FP F2 R I Hi).
  - intros c e nfe j I Hs Hj. destruct (elem_all lr cp d o m oc C H E W rho F2 c e nfe I) as (_ & _ & _ & P & _). exact (proj2 P Hs j Hj).
  - destruct (nlp_sound lr cp d o m oc C H E W rho F2) as (_ & _ & _ & G & _). exact G.
  - intros c tv Hc Ht He Hv. destruct (nlp_sound lr cp d o m oc C H E W rho F2) as (_ & S & _). destruct (S c Hc) as [_ G]. specialize (G Ht He tv Hv).
    unfold T, last_elem in G. match goal with |- (Rabs ?x <= _)%R => match type of G with (Rabs ?y <= _)%R => replace x with y by ring end end. exact G.
Qed.

(* ---- C58 ---- *)
Lemma speed_modes lr cp d o m oc C rho c e nfe : fesd_problem lr cp d o m oc C -> constraints_ok rho (the_nlp C) ->
  is_fe (the_opts C) c e nfe ->
  match o_sot (the_opts C) with
  | SotNone => p_ind_sot (the_problem C) = [] /\ speed (the_opts C) rho c = 1%R
  | SotLocal => length (p_ind_sot (the_problem C)) = o_N_stages (the_opts C) /\ speed (the_opts C) rho c = rho (SSot c) /\
      exists i, nth_error (p_ind_sot (the_problem C)) c = Some [i] /\ nth_error (w (the_nlp C)) i = Some (SSot c) /\
        nth_error (lbw (the_nlp C)) i = Some (Fin (o_sot_min (the_opts C))) /\ nth_error (ubw (the_nlp C)) i = Some (Fin (o_sot_max (the_opts C)))
  | SotGlobal => False
  end /\ collocation (the_opts C) (cn_tab C) m rho c e.
Proof.
  intros (H & E & W) F I. split; [|apply (elem_all lr cp d o m oc C H E W rho F c e nfe I)].
  pose proof (idx_sot_con lr cp d o m oc C H) as G. unfold speed. destruct (o_sot (the_opts C)); try contradiction; try (split; [exact G|reflexivity]).
  - destruct G as [G1 G2]. split; [exact G1|]. split; [reflexivity|]. exact (G2 c (proj1 I)).
Qed.
Lemma global_never lr cp d o m oc C : o_sot o = SotGlobal -> construct_problem lr cp d o m oc <> Ok C.
Proof.
  intros E H. pose proof (idx_sot_con lr cp d o m oc C H) as G. rewrite (options_kept lr cp d o m oc C H) in G. cbn in G. rewrite E in G. exact G.
Qed.
Lemma global_error : exists o m, o_sot o = SotGlobal /\ build o m None = Err EAttributeError.
Proof. exists (with_modes optsS Stewart ScholtesIneq SumLambdas HeuristicDelta SotGlobal true true), model3. split; [reflexivity|]. vm_compute. reflexivity. Qed.
