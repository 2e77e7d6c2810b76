(* Picard5_proofs.v -- a problem without feasible points because of its long step: x' = x^2 / 2 from 1 on [0, 1] with one implicit Euler step *)
From Coq Require Import Reals Qreals Lra Psatz.
From Verif Require Import Base Sx Utils Tableau Opts Model Ocp Problem Spec Cases Lib Sx_proofs Index3_proofs Fesd Spec2 Spec3 Spec4 Dcs_proofs Elem_proofs Nlp_proofs Poly_proofs Witness Witness2 Feas_proofs Feas2_proofs
  Spec9 Spec10 Spec11 Spec14 Spec21 Spec36 Spec37 ExistBase_proofs Exist_proofs Exact_proofs Filippov4_proofs Hord1_proofs Picard3_proofs.
Local Open Scope R_scope.

Definition half_sq : expr := EBin BMul (cq (1#2)) (EBin BMul (cx 0) (cx 0)).
Definition model_half : model := with_switching 1 [1%Q] [mkFmat 1 [[half_sq]; [half_sq]]] [[cx 0]] [[[(-1)%Q]; [1%Q]]].
Definition optsE : opts := with_irk (with_grid default_opts 1 [1%nat]) Integral 1 RadauIIA.
Lemma sizedE : well_sized model_half. Proof. apply sizedQ_ok. reflexivity. Qed.
Lemma caseE_ok : is_ok (build optsE model_half None) = true. Proof. vm_compute. reflexivity. Qed.
Definition CE : constructed := get _ caseE_ok.
Lemma builtE : build optsE model_half None = Ok CE. Proof. apply get_ok. Qed.
Lemma problemE : is_problem optsE model_half None CE. Proof. exact (is_problem_ok _ _ _ _ builtE eq_refl sizedE). Qed.
Definition dataE : env := fun y => match y with SH _ _ => 1 | SX0 0%nat => 1 | SL00 FLam 0%nat 0%nat => 2 | _ => 0 end.
Definition modeE (s : nat) : nat := 1.

(* one implicit Euler step of length 1 has no solution *)
Section Step.
Variables (lr : Q -> Q -> Q -> nat) (cp : nat -> scheme -> list Q) (d : ipopt_dict) (o : opts) (C : constructed) (r : env).
Notation O := (the_opts C).
Notation t := (cn_tab C).
Lemma no_step : construct_problem lr cp d o model_half None = Ok C -> o_constr o = Exact -> feasible r (the_nlp C) -> product_mode O -> is_fe O 0 0 1 -> points_ok cp O ->
  o_repr O = Integral -> o_ns O = 1%nat -> o_scheme O = RadauIIA -> o_pss O = Stewart -> o_sot O = SotNone -> cp 1%nat RadauIIA = [1%Q] ->
  step_len O r 0 0 = 1 -> r (SX0 0%nat) = 1 -> False.
Proof.
  intros H Ex [BO CO] PM I PO Er En Sc Ep So Pt Hh X0. pose proof sizedE as W.
  destruct (elem_all lr cp d o model_half None C H Ex W r CO 0 0 1 I) as (_ & Co & Cn & _).
  destruct (method_rows cp RadauIIA 1) as (A & b & MR).
  destruct (MR O t model_half r 0%nat 0%nat (conj Er (conj Sc En)) (t_made _ _ _ _ _ _ _ H) PO ltac:(lia)) as [Pq St].
  destruct (Pq [0; 1] ltac:(cbn; lia)) as [PA _]. specialize (PA 0%nat ltac:(lia)). rewrite Pt in PA. rewrite rupto_succ, rupto_0 in PA. cbn [nth pder peval padd] in PA. rewrite Q2R_1 in PA.
  assert (A1 : A 0%nat 0%nat = 1) by lra.
  destruct (St Co Cn 0%nat ltac:(cbn; lia)) as [Sj _]. specialize (Sj 0%nat ltac:(lia)). rewrite rupto_succ, rupto_0, A1, Hh in Sj.
  change (start_state O t r 0 0 0) with (r (SX0 0%nat)) in Sj. rewrite X0 in Sj. unfold speed in Sj. rewrite So in Sj.
  destruct (convex lr cp d o model_half None C H Ex W r BO CO 0 0 1 0 0 I ltac:(rewrite En; lia) ltac:(cbn; lia) Ep PM) as [_ S]. cbn in S.
  assert (T : r (S2 FTheta 0 0 0 0 0) + r (S2 FTheta 0 0 0 0 1) = 1) by lra.
  assert (R : rhs O model_half (stage_point O t model_half r 0 0 0) 0 = / 2 * (stage_state O t r 0 0 0 0 * stage_state O t r 0 0 0 0)).
  { unfold rhs, weight. rewrite Ep. set (x := stage_state O t r 0 0 0 0). unfold mode_field. cbn -[stage_state Q2R]. fold x. replace (r (S2 FTheta 0 0 0 0 1)) with (1 - r (S2 FTheta 0 0 0 0 0)) by lra.
    unfold Q2R. cbn. field. }
  rewrite R in Sj. nra.
Qed.
End Step.

Notation O := (the_opts CE).
Lemma gridE : o_N_stages O = 1%nat /\ nfe_of O 0 = 1%nat. Proof. split; vm_compute; reflexivity. Qed.
Lemma stepE c e : step_len O dataE c e = 1.
Proof. unfold step_len. replace (o_use_fesd O) with true by (vm_compute; reflexivity). reflexivity. Qed.
Lemma speedE c : speed O dataE c = 1.
Proof. unfold speed. replace (o_sot O) with SotNone by (vm_compute; reflexivity). reflexivity. Qed.
Lemma stageE : stage_length O dataE 0 = 1.
Proof. destruct gridE as [N F]. unfold stage_length. rewrite F, rupto_succ, rupto_0, stepE. lra. Qed.
Lemma timeE : end_time O dataE = 1.
Proof. destruct gridE as [N F]. unfold end_time. rewrite N, rupto_succ, rupto_0, stageE. lra. Qed.
Lemma regionE v : region_value model_half v 0 0 = v (MX 0) /\ region_value model_half v 0 1 = - v (MX 0).
Proof. unfold region_value. cbn -[Q2R]. unfold rsum. cbn -[Q2R]. unfold Q2R. cbn. lra. Qed.
Lemma subsE s k : (s < n_subsystems model_half)%nat -> (k < n_modes model_half s)%nat -> s = 0%nat /\ (k = 0%nat \/ k = 1%nat).
Proof. intros A B. cbn in A. assert (s = 0%nat) by lia. subst s. cbn in B. lia. Qed.
Lemma velocityE c x i : (i < m_nx model_half)%nat -> velocity O model_half dataE c x (pure modeE) i = x 0%nat * x 0%nat / 2.
Proof.
  intros Hi. assert (i = 0%nat) by (cbn in Hi; lia). subst i. unfold velocity. rewrite speedE. unfold mixed_field, mode_field, pure, modeE. cbn -[Q2R]. unfold Q2R. cbn. lra.
Qed.
Lemma holdsE v s : (s < n_subsystems model_half)%nat -> 0 <= v (MX 0%nat) -> smallest model_half v s (modeE s).
Proof. intros Hs P k Hk. destruct (subsE s k Hs Hk) as [-> K]. unfold modeE. destruct (regionE v) as [R0 R1]. destruct K as [-> | ->]; rewrite ?R0, ?R1; lra. Qed.
Lemma ballE x : close_to_start model_half dataE 1 x -> 0 <= x 0%nat <= 2.
Proof. intros A. specialize (A 0%nat ltac:(cbn; lia)). change (dataE (SX0 0)) with 1 in A. unfold Rabs in A. destruct (Rcase_abs _) in A; lra. Qed.
Lemma modesE : mode_problem O model_half dataE modeE 1 2 2.
Proof.
  split; [intros s Hs; assert (s = 0%nat) by (cbn in Hs; lia); subst s; unfold modeE; cbn; lia|]. split; [lra|]. split; [lra|]. split; [|split].
  - intros c x s Hc B Hs. apply ballE in B. apply holdsE; [exact Hs|exact (proj1 B)].
  - intros c x i Hc B Hi. rewrite velocityE by exact Hi. apply ballE in B. rewrite Rabs_right; nra.
  - intros c x y dl Hc Bx By D i Hi. rewrite !velocityE by exact Hi. apply ballE in Bx, By. specialize (D 0%nat ltac:(cbn; lia)).
    replace (x 0%nat * x 0%nat / 2 - y 0%nat * y 0%nat / 2) with ((x 0%nat + y 0%nat) / 2 * (x 0%nat - y 0%nat)) by field.
    rewrite Rabs_mult, (Rabs_right ((x 0%nat + y 0%nat) / 2)) by lra. apply Rmult_le_compat; [lra|apply Rabs_pos|lra|exact D].
Qed.
Definition curveE (z : R) (i : nat) : R := 2 / (2 - z).
Lemma curve_der z i : z < 2 -> derivable_pt_lim (fun z => curveE z i) z (curveE z i * curveE z i / 2).
Proof.
  intros Hz. unfold curveE. replace (2 / (2 - z) * (2 / (2 - z)) / 2) with ((0 * (2 - z) - (0 - 1) * 2) / Rsqr (2 - z)) by (unfold Rsqr; field; lra).
  apply (derivable_pt_lim_div (fun _ => 2) (fun z => 2 - z)); [apply (derivable_pt_lim_const 2)|apply (derivable_pt_lim_minus (fun _ => 2) (fun z => z)); [apply (derivable_pt_lim_const 2)|apply derivable_pt_lim_id]|lra].
Qed.
Lemma solutionE : exact_solution O model_half dataE (smallest model_half) curveE.
Proof.
  destruct gridE as [GN GF]. split; [|split].
  - intros i _. rewrite timeE. intros z Hz eps E. pose proof (derivable_continuous_pt (fun z => curveE z i) z (exist _ _ (curve_der z i ltac:(lra)))) as K.
    destruct (K eps E) as (dl & D0 & D). exists dl. split; [exact D0|]. intros s Hs Hd. destruct (Req_dec z s) as [->|Ne].
    + unfold Rminus. rewrite Rplus_opp_r, Rabs_R0. exact E.
    + apply (D s). split; [split; [exact Logic.I|exact Ne]|exact Hd].
  - intros i Hi. assert (i = 0%nat) by (cbn in Hi; lia). subst i. unfold curveE. cbn. lra.
  - exists []. intros c tm Hc Ht _. rewrite GN in Hc. assert (c = 0%nat) by lia. subst c. unfold grid_time in Ht. rewrite !rupto_0, stageE in Ht.
    exists (pure modeE). split; [split|].
    + intros s Hs. assert (s = 0%nat) by (cbn in Hs; lia). subst s. split; [intros [|[|k]] Hk; cbn in Hk; try lia|]; unfold pure, modeE; cbn; lra.
    + intros s k Hs Hk P. destruct (subsE s k Hs Hk) as [-> K]. assert (k = modeE 0) by (destruct K as [-> | ->]; [exfalso; unfold pure, modeE in P; cbn in P; lra|reflexivity]). subst k.
      apply holdsE; [exact Hs|]. change (0 <= curveE tm 0). unfold curveE. apply Rlt_le, Rdiv_lt_0_compat; lra.
    + intros i Hi. rewrite velocityE by exact Hi. exact (curve_der tm 0%nat ltac:(lra)).
Qed.
Lemma rangeE z : 0 <= z <= 1 -> close_to_start model_half dataE 1 (curveE z).
Proof.
  intros Hz i Hi. assert (i = 0%nat) by (cbn in Hi; lia). subst i. change (dataE (SX0 0)) with 1. unfold curveE.
  replace (2 / (2 - z) - 1) with (z / (2 - z)) by (field; lra). rewrite Rabs_right; [|apply Rle_ge; unfold Rdiv; apply Rmult_le_pos; [lra|left; apply Rinv_0_lt_compat; lra]].
  apply (Rmult_le_reg_r (2 - z)); [lra|]. unfold Rdiv. rewrite Rmult_assoc, Rinv_l by lra. lra.
Qed.
Lemma infeasibleE r : same_data dataE r -> ~ feasible r (the_nlp CE).
Proof.
  intros SD F. pose proof problemE as (H & Ex & _).
  assert (h1 : product_mode O) by (unfold product_mode; replace (o_mpcc O) with ScholtesIneq by (vm_compute; reflexivity); exact Logic.I).
  assert (h2 : is_fe O 0 0 1) by (vm_compute; repeat split; lia).
  assert (h3 : o_repr O = Integral) by (vm_compute; reflexivity). assert (h4 : o_ns O = 1%nat) by (vm_compute; reflexivity).
  assert (h5 : o_scheme O = RadauIIA) by (vm_compute; reflexivity). assert (h6 : o_pss O = Stewart) by (vm_compute; reflexivity). assert (h7 : o_sot O = SotNone) by (vm_compute; reflexivity).
  assert (h8 : points_ok case_cpoints O) by exact (proj1 (radau1 O h4 h5)).
  assert (h9 : step_len O r 0 0 = 1) by (unfold step_len; replace (o_use_fesd O) with true by (vm_compute; reflexivity); rewrite (SD (SH 0 0)); reflexivity).
  assert (h10 : r (SX0 0%nat) = 1) by (rewrite (SD (SX0 0)); reflexivity).
  exact (no_step _ _ _ _ CE r H Ex F h1 h2 h8 h3 h4 h5 h6 h7 eq_refl h9 h10).
Qed.
Lemma long_step : exists o m C rho mode r L M Lam Y, is_problem o m None C /\ o_pss (the_opts C) = Stewart /\ o_repr (the_opts C) = Integral /\ o_scheme (the_opts C) = RadauIIA /\
  zero_relaxation (the_opts C) rho /\ plain_model m /\ exact_initial m rho /\ grid_ok (the_opts C) m (the_ocp None) rho /\
  mode_problem (the_opts C) m rho mode r L M /\ row_bound (case_cpoints (o_ns (the_opts C)) (o_scheme (the_opts C))) Lam /\ steps_nonneg (the_opts C) rho /\
  exact_solution (the_opts C) m rho (smallest m) Y /\ (forall z, 0 <= z <= end_time (the_opts C) rho -> close_to_start m rho r (Y z)) /\
  forall rs, same_data rho rs -> ~ feasible rs (the_nlp C).
Proof.
  exists optsE, model_half, CE, dataE, modeE, 1, 2, 2, 1, curveE. split; [exact problemE|]. do 3 (split; [vm_compute; reflexivity|]). destruct gridE as [GN GF].
  split; [unfold zero_relaxation; replace (o_mpcc O) with ScholtesIneq by (vm_compute; reflexivity); reflexivity|]. split; [|split; [|split; [|split; [exact modesE|split; [|split; [|split; [exact solutionE|split]]]]]]].
  - split; [discriminate|]. split; [reflexivity|]. split; [reflexivity|]. split.
    + intros s k i. destruct s as [|[|s]], k as [|[|[|k]]], i as [|[|[|i]]]; intros x Hx; cbn in Hx; try contradiction; destruct Hx as [<-|[<-|[]]]; cbn; lia.
    + intros [|s] e [E|E]; cbn in E; try contradiction; try (destruct s; contradiction). destruct E as [<-|[]]. intros x [<-|[]]. cbn. lia.
  - intros s k k' Hs Hk Sm Hk'. destruct (subsE s k Hs Hk) as [-> K]. destruct (subsE 0%nat k' Hs Hk') as [_ K'].
    set (v0 := plain_point model_half dataE 0 (fun i => dataE (SX0 i))) in *. assert (Ev : v0 (MX 0%nat) = 1) by reflexivity.
    destruct (regionE v0) as [R0 R1]. destruct K as [-> | ->]; [pose proof (Sm 1%nat ltac:(cbn; lia)); lra|]. destruct K' as [-> | ->]; rewrite ?R0, ?R1, Ev; cbn; lra.
  - split; [intros E; vm_compute in E; discriminate E|]. split; [intros i Hi; cbn in Hi; lia|]. split; [|split].
    + intros c Hc. split; [intros i Hi; cbn in Hi; lia|]. intros E. vm_compute in E. discriminate E.
    + intros c e [Hc He]. rewrite GN in Hc. assert (c = 0%nat) by lia. subst c. rewrite GF. replace (step_lower O 1) with (Fin (0 # 1)) by (vm_compute; reflexivity).
      replace (step_upper O 1) with (Fin (2 # 1)) by (vm_compute; reflexivity). split; cbn; unfold Q2R; cbn; lra.
    + replace (o_equidistant O) with true by (vm_compute; reflexivity). intros c Hc. rewrite GN in Hc. assert (c = 0%nat) by lia. subst c.
      rewrite stageE, GN. unfold T. replace (o_terminal_time O) with 1%Q by (vm_compute; reflexivity). unfold Q2R. cbn. lra.
  - replace (case_cpoints (o_ns O) (o_scheme O)) with [1%Q] by (vm_compute; reflexivity). split; [lra|]. exists (fun _ _ => 1). split.
    + intros [|j] [|k] Hj Hk; cbn in Hj, Hk; try lia. unfold rupto, rsum. cbn. unfold Q2R. cbn. lra.
    + intros [|j] Hj; cbn in Hj; try lia. unfold rupto, rsum. cbn. rewrite Rabs_R1. lra.
  - intros c e _. rewrite stepE. lra.
  - rewrite timeE. exact rangeE.
  - exact infeasibleE.
Qed.

(* ---- solutions of the collocation equations are feasible ---- *)
Lemma collocation_points lr cp d o m oc C rho p th : fesd_problem lr cp d o m oc C ->
  points_ok cp (the_opts C) -> points_inside cp (the_opts C) -> o_scheme (the_opts C) = RadauIIA -> o_repr (the_opts C) = Integral -> o_pss (the_opts C) = Stewart ->
  o_use_fesd (the_opts C) = true -> o_time_freezing (the_opts C) = false -> zero_relaxation (the_opts C) rho ->
  plain_model m -> plain_ocp m (the_ocp oc) -> same_globals m rho -> exact_initial m rho -> grid_ok (the_opts C) m (the_ocp oc) rho ->
  collocation_solution (the_opts C) m rho p th (point_of cp (the_opts C)) (o_ns (the_opts C)) ->
  admissible_at (the_opts C) m (the_ocp oc) rho p (point_of cp (the_opts C)) ->
  equilibrated_at (the_opts C) m rho p th (point_of cp (the_opts C)) ->
  exists r, feasible r (the_nlp C) /\ same_data rho r /\
    (forall c e i, end_state (the_opts C) (cn_tab C) r c e i = state p c e 1 i) /\
    (forall c e j i, is_element (the_opts C) c e -> (j < o_ns (the_opts C))%nat -> (i < m_nx m)%nat ->
       stage_state (the_opts C) (cn_tab C) r c e j i = state p c e (point_of cp (the_opts C) j) i) /\
    (forall c e j s k, r (S2 FTheta c e j s k) = th c e (point_of cp (the_opts C) j) s k).
Proof.
  intros FP PO PI Sc Er Ep Hf Tf ZR PM PC SG EI GO CS AD EQ.
  assert (NS : (0 < o_ns (the_opts C))%nat) by (destruct FP as (H & _); exact (Feas_proofs.ns_pos _ _ _ _ _ _ _ H)).
  destruct (times lr cp d o m oc C FP PO PI Sc Er) as (tau & _ & (S1 & S2' & S3) & Et). destruct FP as (H & Ex & WS).
  apply (collocation_feasible lr cp d o m oc C H Ex WS rho p th (o_ns (the_opts C)) (point_of cp (the_opts C))); try assumption.
  - unfold nodes_exact. rewrite Er. split; [exact PO|]. split; [lia|]. intros j q E. unfold point_of. rewrite (nth_error_nth _ _ _ E). reflexivity.
  - split; [exact S1|]. unfold point_of. split; [intros j Hj; rewrite <- Et by exact Hj; apply S2', Hj|rewrite <- Et by lia; exact S3].
Qed.
