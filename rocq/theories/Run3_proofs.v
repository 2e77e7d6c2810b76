(* Run3_proofs.v -- case of Props_Run.v: two simulation steps of x' = 1 (x < 0), x' = -x - 1 (x > 0) from 1 with sigma = 1/100 *)
From Coq Require Import Reals Qreals Lra.
From Verif Require Import Base Lib Sx Sx_proofs Utils Tableau Opts Model Ocp Problem Numeric Rk4 Results Solver Looper Spec Cases Fesd Spec2 Spec3 Spec4 Spec5 Spec6
  Witness Results5_proofs Solve_proofs Solve2_proofs Solve3_proofs Solve4_proofs Feas6_proofs Fix_proofs Set_proofs Hist_proofs Witness3 Looper_proofs Witness4 Spec9 Filippov_proofs Filippov4_proofs Spec10 Spec11
  Exact_proofs Exact2_proofs Spec19 Sim_proofs Sim2_proofs Sim3_proofs Sim5_proofs Spec21 Conv5_proofs Conv8_proofs Spec22 Spec24 Relax_proofs Relax3_proofs Relax4_proofs Relax5_proofs Spec27 Run_proofs Run2_proofs.
Local Open Scope R_scope.

(* the second step, from 1/50: sliding at 0 after the first element *)
Definition relaxedK2 : list (sym * Q) := [(SX0 0, (1#50)%Q); (SL00 FLam 0 0, (1#25)%Q); (SSigma, (1#100)%Q);
  (S2 FTheta 0 0 0 0 0, (12#25)%Q); (S2 FTheta 0 0 0 0 1, (13#25)%Q); (S2 FTheta 0 1 0 0 0, (1#2)%Q); (S2 FTheta 0 1 0 0 1, (1#2)%Q)].
Lemma relaxed_feasibleK2 : feasible (pt relaxedK2) (the_nlp CK).
Proof. apply (feasibleQ (ptQ relaxedK2)). vm_compute. reflexivity. Qed.
Lemma p_K : p_p (the_problem CK) = [SSigma; STau; SL00 FLam 0 0; SL00 FLam 0 1; SX0 0].
Proof. vm_compute. reflexivity. Qed.

(* the NLP solver looks at the initial state, the last parameter *)
Definition pick_nlp (C : constructed) (rho1 rho2 : env) : nat -> nlp_call -> res nlp_ret := fun _ c =>
  Ok (mkRet (if Rlt_dec (/ 2) (last (nc_p c) 0) then primal C rho1 else primal C rho2) 0 [] RSSolveSucceeded 0 0).
Lemma pick_answers C rho1 rho2 : answers C (pick_nlp C rho1 rho2).
Proof. intros n c. eexists. split; [reflexivity|]. cbn [nr_x]. destruct (Rlt_dec _ _); unfold primal; apply map_length. Qed.

Section Abstract.
Variables (lr : Q -> Q -> Q -> nat) (cp : nat -> scheme -> list Q) (d : ipopt_dict) (o : opts) (oc : option ocp) (C : constructed).
Hypothesis FP : fesd_problem lr cp d o decay_model oc C.
Hypothesis Ep : o_pss (the_opts C) = Stewart.
Hypothesis Np : o_do_polishing (the_opts C) = false.
Hypothesis PP : p_p (the_problem C) = [SSigma; STau; SL00 FLam 0 0; SL00 FLam 0 1; SX0 0].
Variables (rho1 rho2 : env) (s s' : sstate) (out : solve_out) (x : R).
Hypothesis Z : sized C decay_model s.
Hypothesis E : solve (pick_nlp C rho1 rho2) C s = (s', Ok out).
Hypothesis X : ss_x0 s = [x].
Hypothesis x0 : 0 <= x.
Definition picked : env := if Rlt_dec (/ 2) x then rho1 else rho2.

Lemma region_K v : region_value decay_model v 0 0 = v (MX 0) /\ region_value decay_model v 0 1 = - v (MX 0).
Proof. split; unfold region_value; cbn -[Q2R]; unfold rsum; cbn -[Q2R]; unfold Q2R; cbn; lra. Qed.
Lemma picked_pass h : In h (so_steps out) -> exists sg tau, nc_p (hs_call h) = [sg; tau; 2 * x; 0; x].
Proof.
  intros Hh. pose proof (pass_parameters lr cp d o decay_model oc C (proj1 FP) _ s s' out E (proj2 (proj2 FP)) Z (or_introl Ep) h Hh) as B. rewrite PP in B.
  inversion B as [|y1 v1 ? ? B1 B1' e1 e2]. subst. inversion B1' as [|y2 v2 ? ? B2 B2' e1 e3]. subst. inversion B2' as [|y3 v3 ? ? B3 B3' e1 e4]. subst.
  inversion B3' as [|y4 v4 ? ? B4 B4' e1 e5]. subst. inversion B4' as [|y5 v5 ? ? B5 B5' e1 e6]. subst. inversion B5'. subst.
  exists v1, v2. cbn [belongs] in B3, B4, B5. set (v0 := initial_point _ _ _ _) in *. destruct (region_K v0) as [R0 R1].
  assert (V : v0 (MX 0) = x) by (unfold v0; cbn [initial_point]; rewrite X; reflexivity).
  rewrite X in B5. cbn [nth_error] in B5. injection B5 as B5. destruct B3 as (m1 & L1 & ->). destruct B4 as (m2 & L2 & ->).
  rewrite (least_unique _ _ _ _ L2 L1). rewrite R0, R1, V, <- B5. destruct L1 as [L1 (k & Hk & L3)].
  assert (M : m1 = - x).
  { pose proof (L1 0%nat ltac:(cbn; lia)) as G0. pose proof (L1 1%nat ltac:(cbn; lia)) as G1. rewrite R0, V in G0. rewrite R1, V in G1.
    assert (K : m1 = x \/ m1 = - x) by (destruct k as [|[|k]]; [left; lra|right; lra|cbn in Hk; lia]). destruct K; lra. }
  rewrite M. replace (x - - x) with (2 * x) by lra. replace (- x - - x) with 0 by lra. reflexivity.
Qed.
Lemma picked_w : exists h, last_is (so_steps out) h /\ so_w_sol out = primal C picked.
Proof.
  destruct (solve_last _ _ _ _ _ _ _ (proj1 FP) _ _ _ _ E) as (_ & _ & _ & c & r & Er & EW & _ & LP & _). destruct (LP Np) as (h & Lh & Ec & _).
  exists h. split; [exact Lh|].
  assert (Ih : In h (so_steps out)) by exact (nth_error_In _ _ (proj2 Lh)). destruct (picked_pass h Ih) as (sg & tau & Q). rewrite Ec in Q.
  unfold pick_nlp in Er. injection Er as <-. rewrite EW, Q. cbn [nr_x last]. unfold picked. destruct (Rlt_dec (/ 2) x); reflexivity.
Qed.
Lemma picked_params rho h : rho (SX0 0) = x -> rho (SL00 FLam 0 0) = 2 * x -> rho (SL00 FLam 0 1) = 0 -> In h (so_steps out) ->
  forall i y v, nth_error (p_p (the_problem C)) i = Some y -> nth_error (nc_p (hs_call h)) i = Some v -> y = SSigma \/ y = STau \/ rho y = v.
Proof.
  intros A0 A1 A2 Hh i y v Hy Hv. destruct (picked_pass h Hh) as (sg & tau & Q). rewrite Q in Hv. rewrite PP in Hy.
  destruct i as [|[|[|[|[|i]]]]]; cbn [nth_error] in Hy, Hv; [| | | | |destruct i; discriminate]; injection Hy as <-; injection Hv as <-; auto.
Qed.
Lemma picked_solved rho : picked = rho -> feasible rho (the_nlp C) -> rho (SX0 0) = x -> rho (SL00 FLam 0 0) = 2 * x -> rho (SL00 FLam 0 1) = 0 -> solved_relaxed C out rho.
Proof.
  intros EC FE A0 A1 A2. destruct picked_w as (h & Lh & Ew). assert (Ih : In h (so_steps out)) by exact (nth_error_In _ _ (proj2 Lh)).
  split; [rewrite Ew, EC; reflexivity|exact FE|]. exists h. split; [exact Ih|apply picked_params; assumption].
Qed.
(* the reported residual *)
Lemma picked_residual rho h : last_is (so_steps out) h -> picked = rho -> rho (SX0 0) = x -> rho (SL00 FLam 0 0) = 2 * x -> rho (SL00 FLam 0 1) = 0 ->
  hs_comp h = comp_residual C rho.
Proof.
  intros LA EC A0 A1 A2. destruct (solve_count _ _ _ _ _ _ _ (proj1 FP) _ s s' out E) as (_ & _ & _ & _ & _ & CR & _).
  destruct (solve_last _ _ _ _ _ _ _ (proj1 FP) _ s s' out E) as (_ & _ & _ & c & r & _ & EW & _ & LP & _). destruct (LP Np) as (h' & LA' & _ & Er).
  assert (Eh : h' = h) by (destruct LA as [_ LA], LA' as [_ LA']; congruence). subst h'.
  assert (Ih : In h (so_steps out)) by exact (nth_error_In _ _ (proj2 LA)). destruct (picked_pass h Ih) as (sg & tau & Q).
  rewrite <- (residual_relaxation _ _ _ _ _ _ _ rho sg tau (proj1 FP)). apply (CR _ h (with_relaxation rho sg tau) (proj2 LA)).
  - rewrite Er, <- EW. destruct picked_w as (h2 & _ & ->). rewrite EC. unfold primal. apply map_ext_in. intros y Hy.
    assert (Ny : ~ In y (p_p (the_problem C))) by exact (apart _ _ (Index3_proofs.syms_distinct_con _ _ _ _ _ _ _ (proj1 FP)) y Hy).
    rewrite PP in Ny. destruct y; try reflexivity; exfalso; apply Ny; cbn; auto.
  - unfold parameters. rewrite PP, Q. cbn [map with_relaxation]. rewrite A0, A1, A2. reflexivity.
Qed.
End Abstract.

Notation nlpK := (pick_nlp CK (pt relaxedK) (pt relaxedK2)).
Definition rhosK (k : nat) : env := match k with 0%nat => pt relaxedK | _ => pt relaxedK2 end.
Lemma extractK1 : extractable (the_opts CK) decay_model.
Proof. split; [cbn; lia|]. split; [|vm_compute; reflexivity]. intros _ s s' Hs Hs'. cbn in Hs, Hs'. assert (s = 0)%nat by lia. assert (s' = 0)%nat by lia. subst. reflexivity. Qed.
Lemma runsK nlp s : sized CK decay_model s -> answers CK nlp -> exists s' out, solve nlp CK s = (s', Ok out) /\ sized CK decay_model s'.
Proof.
  apply (runs _ _ _ _ _ _ _ (proj1 problemK) nlp s).
  - vm_compute. discriminate.
  - exact sizedK.
  - intros E. exfalso. vm_compute in E. discriminate E.
  - exact extractK1.
  - vm_compute. reflexivity.
  - vm_compute. reflexivity.
  - vm_compute. reflexivity.
  - vm_compute. discriminate.
Qed.
Lemma stewartK : o_pss (the_opts CK) = Stewart. Proof. vm_compute. reflexivity. Qed.
Lemma polishK : o_do_polishing (the_opts CK) = false. Proof. vm_compute. reflexivity. Qed.
Section Steps.
Variables (s s' : sstate) (out : solve_out).
Hypothesis Z : sized CK decay_model s.
Hypothesis E : solve nlpK CK s = (s', Ok out).
Lemma firstK : ss_x0 s = [1] -> solved_relaxed CK out (pt relaxedK) /\ forall h, last_is (so_steps out) h -> hs_comp h = comp_residual CK (pt relaxedK).
Proof.
  intros X. assert (x0 : 0 <= 1) by lra. assert (P : picked (pt relaxedK) (pt relaxedK2) 1 = pt relaxedK) by (unfold picked; destruct (Rlt_dec (/ 2) 1); [reflexivity|lra]).
  assert (A0 : pt relaxedK (SX0 0) = 1) by (val relaxedK; unfold Q2R; cbn; lra). assert (A1 : pt relaxedK (SL00 FLam 0 0) = 2 * 1) by (val relaxedK; unfold Q2R; cbn; lra).
  assert (A2 : pt relaxedK (SL00 FLam 0 1) = 0) by (val relaxedK; unfold Q2R; cbn; lra). split.
  - exact (picked_solved _ _ _ _ _ _ problemK stewartK polishK p_K _ _ s s' out 1 Z E X x0 _ P relaxed_feasibleK A0 A1 A2).
  - intros h LA. exact (picked_residual _ _ _ _ _ _ problemK stewartK polishK p_K _ _ s s' out 1 Z E X x0 _ h LA P A0 A1 A2).
Qed.
Lemma secondK : ss_x0 s = [/ 50] -> solved_relaxed CK out (pt relaxedK2) /\ forall h, last_is (so_steps out) h -> hs_comp h = comp_residual CK (pt relaxedK2).
Proof.
  intros X. assert (x0 : 0 <= / 50) by lra. assert (P : picked (pt relaxedK) (pt relaxedK2) (/ 50) = pt relaxedK2) by (unfold picked; destruct (Rlt_dec (/ 2) (/ 50)); [lra|reflexivity]).
  assert (A0 : pt relaxedK2 (SX0 0) = / 50) by (val relaxedK2; unfold Q2R; cbn; lra). assert (A1 : pt relaxedK2 (SL00 FLam 0 0) = 2 * / 50) by (val relaxedK2; unfold Q2R; cbn; lra).
  assert (A2 : pt relaxedK2 (SL00 FLam 0 1) = 0) by (val relaxedK2; unfold Q2R; cbn; lra). split.
  - exact (picked_solved _ _ _ _ _ _ problemK stewartK polishK p_K _ _ s s' out (/ 50) Z E X x0 _ P relaxed_feasibleK2 A0 A1 A2).
  - intros h LA. exact (picked_residual _ _ _ _ _ _ problemK stewartK polishK p_K _ _ s s' out (/ 50) Z E X x0 _ h LA P A0 A1 A2).
Qed.
Lemma statesK : solved_relaxed CK out (pt relaxedK) -> last_is (rs_x_list (so_results out)) [/ 50].
Proof.
  intros SE. assert (N : o_N_stages (the_opts CK) = 1%nat) by (vm_compute; reflexivity). assert (F : nfe_of (the_opts CK) 0 = 2%nat) by (vm_compute; reflexivity).
  destruct (r_results _ _ _ _ _ _ _ problemK N extractK1 nlpK s s' out _ E SE) as [_ R]. rewrite F in R. rewrite R. cbn [seq map].
  split; [cbn; lia|]. cbn [length Nat.sub nth_error]. unfold end_state. replace (points1 (the_opts CK) (t_rbe (cn_tab CK)) FX - 1)%nat with 0%nat by (vm_compute; reflexivity).
  cbn [m_nx decay_model seq map]. assert (G : pt relaxedK (S1 FX 0 1 0 0) = / 50) by (val relaxedK; unfold Q2R; cbn; lra). rewrite G. reflexivity.
Qed.
End Steps.
Lemma residualK : comp_residual CK (pt relaxedK) <= / 10 * / 10 /\ comp_residual CK (pt relaxedK2) <= / 10 * / 10.
Proof.
  split; unfold comp_residual.
  - change (pt relaxedK) with (fun s => Q2R (ptQ relaxedK s)). erewrite evalQ_sound; [|vm_compute; reflexivity]. unfold Q2R. cbn. lra.
  - change (pt relaxedK2) with (fun s => Q2R (ptQ relaxedK2 s)). erewrite evalQ_sound; [|vm_compute; reflexivity]. unfold Q2R. cbn. lra.
Qed.
Lemma simK : exists L s' L' tr, looper_init (cn_prob CK) [1] 2 None 0 None = Ok L /\
  run nlpK CK false L (initial_state CK) = (s', L', Ok true) /\ simulation nlpK CK decay_model 0 L (initial_state CK) tr L' /\ length tr = 2%nat /\
  (forall k q, nth_error tr k = Some q -> solved_relaxed CK (snd q) (rhosK k) /\ exists h, last_is (so_steps (snd q)) h /\ hs_comp h <= / 10 * / 10).
Proof.
  pose proof (pick_answers CK (pt relaxedK) (pt relaxedK2)) as A. pose proof (answers_returns _ _ A) as RT.
  assert (Z0 : sized CK decay_model (initial_state CK)) by exact (initial_sized _ _ _ _ _ _ _ (proj1 problemK)).
  destruct (proj2 (init_ok _ _ _ _ _ _ _ (proj1 problemK) [1] 2 None 0 None)) as [L EL].
  { split; [|exact Logic.I]. split; [reflexivity|]. split; [vm_compute; reflexivity|reflexivity]. }
  destruct (init_start _ _ _ _ _ _ _ EL) as [E0 E1].
  assert (T : tables CK decay_model L) by (split; rewrite E0; discriminate).
  assert (R : exists s' L', run nlpK CK false L (initial_state CK) = (s', L', Ok true)).
  { apply (run_total _ _ _ _ _ _ _ (proj1 problemK) nlpK RT extractK1).
    - intros s Z. destruct (runsK nlpK s Z A) as (s' & out & E & _). eauto.
    - exact Z0.
    - rewrite E0. reflexivity.
    - exact T.
    - rewrite E1, E0. cbn. lia.
    - rewrite E0. discriminate.
    - rewrite E0. discriminate. }
  destruct R as (s' & L' & R).
  destruct (glued _ _ _ _ _ _ _ (proj1 problemK) nlpK [1] 2 None 0 None L false _ _ _ _ RT extractK1 EL eq_refl T Z0 R) as (tr & SM & _ & Lt & _). specialize (Lt eq_refl).
  exists L, s', L', tr. split; [exact EL|]. split; [exact R|]. split; [exact SM|]. split; [exact Lt|].
  destruct tr as [|[s1 o1] [|[s2 o2] [|]]]; try discriminate Lt.
  destruct (sm_solve _ _ _ _ _ _ _ _ SM 0%nat s1 o1 eq_refl) as (Z1 & t1 & Es1). destruct (sm_solve _ _ _ _ _ _ _ _ SM 1%nat s2 o2 eq_refl) as (Z2 & t2 & Es2).
  destruct (sm_first _ _ _ _ _ _ _ _ SM s1 o1 eq_refl) as [F1 _]. rewrite E0 in F1. cbn [lp_xcurrent] in F1.
  destruct (firstK s1 t1 o1 Z1 Es1 F1) as [X1 C1]. destruct (sm_next _ _ _ _ _ _ _ _ SM 0%nat s1 o1 s2 o2 t1 eq_refl eq_refl Es1) as [LA _].
  pose proof (statesK s1 t1 o1 Es1 X1) as LB. assert (F2 : ss_x0 s2 = [/ 50]) by (destruct LA as [_ LA], LB as [_ LB]; rewrite LA in LB; injection LB as LB; exact LB).
  destruct (secondK s2 t2 o2 Z2 Es2 F2) as [X2 C2].
  assert (LH : forall si ti oi, solve nlpK CK si = (ti, Ok oi) -> exists h, last_is (so_steps oi) h).
  { intros si ti oi Ei. destruct (solve_last _ _ _ _ _ _ _ (proj1 problemK) _ _ _ _ Ei) as (_ & _ & _ & c & r & _ & _ & _ & LP & _). destruct (LP polishK) as (h & Lh & _). eauto. }
  intros [|[|k]] q Hq; [| |destruct k; discriminate]; cbn in Hq; injection Hq as <-; cbn [snd rhosK].
  - split; [exact X1|]. destruct (LH _ _ _ Es1) as [h Lh]. exists h. split; [exact Lh|]. rewrite (C1 h Lh). apply residualK.
  - split; [exact X2|]. destruct (LH _ _ _ Es2) as [h Lh]. exists h. split; [exact Lh|]. rewrite (C2 h Lh). apply residualK.
Qed.
Lemma stepsK2 : steps_upto (the_opts CK) (pt relaxedK2) (/ 2).
Proof.
  intros c e He. destruct (elemK c e He) as [-> _]. unfold step_len. replace (o_use_fesd (the_opts CK)) with false by (vm_compute; reflexivity).
  replace (nominal_step (the_opts CK) (nfe_of (the_opts CK) 0)) with (1#2)%Q by (vm_compute; reflexivity). unfold Q2R. cbn. lra.
Qed.
Lemma stagesK2 : stages_in (the_opts CK) (cn_tab CK) (pt relaxedK2) unit_interval.
Proof.
  intros c e j He Hj. replace (o_ns (the_opts CK)) with 1%nat in Hj by (vm_compute; reflexivity). assert (j = 0)%nat by lia. subst j.
  unfold unit_interval, stage_state. replace (o_repr (the_opts CK)) with Integral by (vm_compute; reflexivity).
  destruct (elemK c e He) as [-> [->| ->]]; val relaxedK2; unfold Q2R; cbn; lra.
Qed.
Lemma withinK k : step_within CK decay_model (smallest decay_model) (near_smallest decay_model) unit_interval 2 (/ 2) (/ 10) (6 * / 10) 0 (rhosK k).
Proof.
  assert (G : forall rho, relaxed_by (the_opts CK) decay_model rho (/ 10 * / 10) -> stages_in (the_opts CK) (cn_tab CK) rho unit_interval -> steps_upto (the_opts CK) rho (/ 2) ->
    step_within CK decay_model (smallest decay_model) (near_smallest decay_model) unit_interval 2 (/ 2) (/ 10) (6 * / 10) 0 rho).
  { intros rho A B D. split; [exact A|exact B|exact (boundK _ _ sotK)|exact D| |exact (oneK _ _ _ sidesK sotK)].
    replace (6 * / 10) with ((1 + 1 * 1 + 2 * 2) * / 10) by lra.
    exact (one_switch_correctable _ _ _ _ _ _ oneswK nrK 2 1 1 (/ 10) (boundK _ _ sotK) (lipK _ _ sotK) (surfaceK _ _ _) ltac:(lra) ltac:(lra) ltac:(lra) ltac:(lra)). }
  destruct k as [|k]; cbn [rhosK]; apply G.
  - exact rbyK.
  - exact rstagesK.
  - exact rstepsK.
  - apply (relaxed_by_residual _ _ _ _ _ _ CK _ problemK). apply residualK.
  - exact stagesK2.
  - exact stepsK2.
Qed.
Lemma run_solutionK tr : run_solution (the_opts CK) decay_model (smallest decay_model) rhosK tr [1] (fun z _ => decay_solution z) /\
  forall tm, 0 <= tm <= elapsed tr (length tr) -> unit_interval (fun _ => decay_solution tm).
Proof.
  split; [|intros tm [H _]; exact (solution_range tm H)]. split; [|split].
  - intros i _. apply (lip_cont _ _ _ 2). intros y z Hy Hz. destruct (Rle_dec y z) as [H|H].
    + pose proof (solution_slope y z ltac:(lra) H). rewrite (Rabs_pos_eq (_ - _)) by lra. rewrite Rabs_minus_sym, Rabs_pos_eq by lra. lra.
    + pose proof (solution_slope z y ltac:(lra) ltac:(lra)). rewrite Rabs_minus_sym, (Rabs_pos_eq (_ - _)) by lra. rewrite (Rabs_pos_eq (y - z)) by lra. lra.
  - intros i Hi. cbn in Hi. assert (i = 0)%nat by lia. subst i. cbn [nth]. unfold decay_solution. rewrite Ropp_0, exp_0. rewrite Rmax_right; lra.
  - exists [ln 2]. intros k tm _ _ Ne. assert (tm <> ln 2) by (intros E; apply Ne; left; congruence).
    destruct (Rlt_dec tm (ln 2)) as [Hl|Hl].
    + assert (V : forall y, y < ln 2 -> decay_solution y = 2 * exp (- y) - 1) by (intros y Hy; pose proof (exp_ln2 y Hy); apply Rmax_right; lra).
      exists (fun _ k => match k with 0%nat => 0 | _ => 1 end). split; [split; [apply weightsK; lra|]|].
      * intros [|s] [|[|k']] Hs Hk P; cbn in Hs, Hk; try lia; try lra. apply sidesK. cbn. unfold decay_solution. apply Rmax_l.
      * intros i Hi. cbn in Hi. assert (i = 0)%nat by lia. subst i. rewrite (velocityK _ _ sotK). rewrite (V tm Hl).
        apply (derivable_pt_lim_locally_ext (fun z => 2 * exp (- z) - 1) _ tm (tm - 1) (ln 2)); [lra|intros y Hy; symmetry; apply V; lra|].
        replace (0 + (- (2 * exp (- tm) - 1) - 1) * 1) with (- (2 * exp (- tm))) by ring. apply neg_exp_deriv.
    + assert (V : forall y, ln 2 < y -> decay_solution y = 0) by (intros y Hy; pose proof (exp_ln2' y Hy); apply Rmax_left; lra).
      assert (Gt : ln 2 < tm) by lra. exists (fun _ k => / 2). split; [split; [apply weightsK; lra|]|].
      * intros [|s] [|[|k']] Hs Hk P; cbn in Hs, Hk; try lia; apply sidesK; cbn; rewrite (V tm Gt); lra.
      * intros i Hi. cbn in Hi. assert (i = 0)%nat by lia. subst i. rewrite (velocityK _ _ sotK). rewrite (V tm Gt).
        apply (derivable_pt_lim_locally_ext (fct_cte 0) _ tm (ln 2) (tm + 1)); [lra|intros y Hy; symmetry; apply V; lra|].
        replace (/ 2 + (- 0 - 1) * / 2) with 0 by lra. apply derivable_pt_lim_const.
Qed.
