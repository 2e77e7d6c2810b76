(* Hord9_proofs.v -- case of Props_Hsim.v: two simulation steps of x' = 1 (x < 0), x' = -x - 1 (x > 0) from 25/88 with the two stages of Radau IIA *)
From Coq Require Import Reals Qreals Lra Psatz.
From Verif Require Import Base Lib Sx Sx_proofs Utils Tableau Opts Model Ocp Problem Numeric Rk4 Results Solver Looper Spec Cases Fesd Spec2 Spec3 Spec4 Spec5 Spec6
  Witness Dcs_proofs Elem_proofs Feas_proofs Mode_proofs Results5_proofs Solve_proofs Solve2_proofs Solve3_proofs Solve4_proofs Feas6_proofs Fix_proofs Set_proofs Hist_proofs Witness3 Looper_proofs Witness4 Witness5
  Spec9 Filippov_proofs Filippov2_proofs Filippov3_proofs Filippov4_proofs Spec10 Spec11
  Exact_proofs Exact2_proofs Spec19 Sim_proofs Sim2_proofs Sim3_proofs Sim5_proofs Spec21 Conv5_proofs Conv8_proofs Spec22 Spec24 Spec27 Run_proofs Run2_proofs Run3_proofs Exist3_proofs
  Spec28 Hord3_proofs Hord5_proofs Spec34 Hord7_proofs.
Local Open Scope R_scope.

(* counting the time from t0 keeps a piece regular *)
Lemma shifted f t0 z l : derivable_pt_lim f (t0 + z) l -> derivable_pt_lim (fun y => f (t0 + y)) z l.
Proof.
  intros H. apply (derivable_pt_lim_locally_ext (fun y => f (y - - t0)) _ z (z - 1) (z + 1)); [lra|intros y _; f_equal; lra|].
  apply shift_deriv. replace (z - - t0) with (t0 + z) by lra. exact H.
Qed.
Lemma regular_counted o m rho D n Lf M B p t0 : regular_piece o m rho D n Lf M B p -> regular_piece o m rho D n Lf M B (counted_from t0 p).
Proof.
  intros ((So & Sm) & Li & Bd). split; [split|split; [exact Li|exact Bd]].
  - intros z Hz. cbn [counted_from pc_lo pc_hi pc_curve] in *. destruct (So (t0 + z) ltac:(lra)) as [A1 A2]. split; [exact A1|]. intros i Hi. apply (shifted (fun z => pc_curve p z i)). exact (A2 i Hi).
  - intros i Hi. destruct (Sm i Hi) as (dd & D0 & D1 & D2). exists (fun k z => dd k (t0 + z)). cbn [counted_from pc_lo pc_hi pc_curve] in *. split; [intros x; apply D0|]. split.
    + intros k z Hk Hz. apply (shifted (dd k)). apply D1; [exact Hk|lra].
    + intros z Hz. apply D2. lra.
Qed.

(* the NLP solver looks at the initial state, the last parameter *)
Definition sign_nlp (C : constructed) (rho1 rho2 : env) : nat -> nlp_call -> res nlp_ret := fun _ c =>
  Ok (mkRet (if Rlt_dec 0 (last (nc_p c) 0) then primal C rho1 else primal C rho2) 0 [] RSSolveSucceeded 0 0).
Lemma sign_answers C rho1 rho2 : answers C (sign_nlp C rho1 rho2).
Proof. intros n c. eexists. split; [reflexivity|]. cbn [nr_x]. destruct (Rlt_dec _ _); unfold primal; apply map_length. Qed.

Section Abstract.
Variables (lr : Q -> Q -> Q -> nat) (cp : nat -> scheme -> list Q) (d : ipopt_dict) (o : opts) (oc : option ocp) (C : constructed).
Hypothesis FP : fesd_problem lr cp d o decay_model oc C.
Hypothesis Ep : o_pss (the_opts C) = Stewart.
Hypothesis Np : o_do_polishing (the_opts C) = false.
Hypothesis PP : p_p (the_problem C) = [SSigma; STau; SL00 FLam 0 0; SL00 FLam 0 1; SX0 0].
Variables (rho1 rho2 : env) (s s' : sstate) (out : solve_out) (x : R).
Hypothesis Z : sized C decay_model s.
Hypothesis E : solve (sign_nlp C rho1 rho2) C s = (s', Ok out).
Hypothesis X : ss_x0 s = [x].
Hypothesis x0 : 0 <= x.
Definition chosen : env := if Rlt_dec 0 x then rho1 else rho2.
Lemma sign_pass h : In h (so_steps out) -> exists sg tau, nc_p (hs_call h) = [sg; tau; 2 * x; 0; x].
Proof.
  intros Hh. pose proof (pass_parameters lr cp d o decay_model oc C (proj1 FP) _ s s' out E (proj2 (proj2 FP)) Z (or_introl Ep) h Hh) as B. rewrite PP in B.
  inversion B as [|y1 v1 ? ? B1 B1' e1 e2]. subst. inversion B1' as [|y2 v2 ? ? B2 B2' e1 e3]. subst. inversion B2' as [|y3 v3 ? ? B3 B3' e1 e4]. subst.
  inversion B3' as [|y4 v4 ? ? B4 B4' e1 e5]. subst. inversion B4' as [|y5 v5 ? ? B5 B5' e1 e6]. subst. inversion B5'. subst.
  exists v1, v2. cbn [belongs] in B3, B4, B5. set (v0 := initial_point _ _ _ _) in *. destruct (region_K v0) as [R0 R1].
  assert (V : v0 (MX 0) = x) by (unfold v0; cbn [initial_point]; rewrite X; reflexivity).
  rewrite X in B5. cbn [nth_error] in B5. injection B5 as B5. destruct B3 as (m1 & L1 & ->). destruct B4 as (m2 & L2 & ->).
  rewrite (least_unique _ _ _ _ L2 L1). rewrite R0, R1, V, <- B5. destruct L1 as [L1 (k & Hk & L3)].
  assert (M : m1 = - x).
  { pose proof (L1 0%nat ltac:(cbn; lia)) as G0. pose proof (L1 1%nat ltac:(cbn; lia)) as G1. rewrite R0, V in G0. rewrite R1, V in G1.
    assert (K : m1 = x \/ m1 = - x) by (destruct k as [|[|k]]; [left; lra|right; lra|cbn in Hk; lia]). destruct K; lra. }
  rewrite M. replace (x - - x) with (2 * x) by lra. replace (- x - - x) with 0 by lra. reflexivity.
Qed.
Lemma sign_solved rho : chosen = rho -> feasible rho (the_nlp C) -> rho (SX0 0) = x -> rho (SL00 FLam 0 0) = 2 * x -> rho (SL00 FLam 0 1) = 0 -> solved_relaxed C out rho.
Proof.
  intros EC FE A0 A1 A2. destruct (solve_last _ _ _ _ _ _ _ (proj1 FP) _ _ _ _ E) as (_ & _ & _ & c & r & Er & EW & _ & LP & _). destruct (LP Np) as (h & Lh & Ec & _).
  assert (Ih : In h (so_steps out)) by exact (nth_error_In _ _ (proj2 Lh)). destruct (sign_pass h Ih) as (sg & tau & Q). rewrite Ec in Q.
  split; [|exact FE|].
  - unfold sign_nlp in Er. injection Er as <-. rewrite EW, Q. cbn [nr_x last]. rewrite <- EC. unfold chosen. destruct (Rlt_dec 0 x); reflexivity.
  - exists h. split; [exact Ih|]. intros i y v Hy Hv. rewrite Ec, Q in Hv. rewrite PP in Hy.
    destruct i as [|[|[|[|[|i]]]]]; cbn [nth_error] in Hy, Hv; [| | | | |destruct i; discriminate]; injection Hy as <-; injection Hv as <-; auto.
Qed.
End Abstract.

(* the second step, from 0: sliding *)
Definition fesdH2 : list (sym * Q) := [(SH 0 0, (1#4)%Q); (SH 0 1, (1#4)%Q);
  (S2 FTheta 0 0 0 0 0, (1#2)%Q); (S2 FTheta 0 0 0 0 1, (1#2)%Q); (S2 FTheta 0 0 1 0 0, (1#2)%Q); (S2 FTheta 0 0 1 0 1, (1#2)%Q);
  (S2 FTheta 0 1 0 0 0, (1#2)%Q); (S2 FTheta 0 1 0 0 1, (1#2)%Q); (S2 FTheta 0 1 1 0 0, (1#2)%Q); (S2 FTheta 0 1 1 0 1, (1#2)%Q)].
Lemma feasibleH2 : feasible (pt fesdH2) (the_nlp CH).
Proof. apply (feasibleQ (ptQ fesdH2)). vm_compute. reflexivity. Qed.
Lemma p_H : p_p (the_problem CH) = [SSigma; STau; SL00 FLam 0 0; SL00 FLam 0 1; SX0 0].
Proof. vm_compute. reflexivity. Qed.
Notation m := decay_model.
Notation O := (the_opts CH).
Notation t := (cn_tab CH).
Notation nlpH := (sign_nlp CH (pt fesdH) (pt fesdH2)).
Definition rhosH (k : nat) : env := match k with 0%nat => pt fesdH | _ => pt fesdH2 end.
Lemma extractH : extractable O m.
Proof. split; [cbn; lia|]. split; [|vm_compute; reflexivity]. intros _ s s' Hs Hs'. cbn in Hs, Hs'. assert (s = 0)%nat by lia. assert (s' = 0)%nat by lia. subst. reflexivity. Qed.
Lemma runsH nlp s : sized CH m s -> answers CH nlp -> exists s' out, solve nlp CH s = (s', Ok out) /\ sized CH m s'.
Proof.
  apply (runs _ _ _ _ _ _ _ (proj1 problemH) nlp s).
  - vm_compute. discriminate.
  - exact sizedK.
  - intros E. exfalso. vm_compute in E. discriminate E.
  - exact extractH.
  - vm_compute. reflexivity.
  - vm_compute. reflexivity.
  - vm_compute. reflexivity.
  - vm_compute. discriminate.
Qed.
Lemma stewartH : o_pss O = Stewart. Proof. vm_compute. reflexivity. Qed.
Lemma polishH : o_do_polishing O = false. Proof. vm_compute. reflexivity. Qed.
Section Steps.
Variables (s s' : sstate) (out : solve_out).
Hypothesis Z : sized CH m s.
Hypothesis E : solve nlpH CH s = (s', Ok out).
Lemma firstH : ss_x0 s = [25 / 88] -> solved_relaxed CH out (pt fesdH).
Proof.
  intros X. assert (x0 : 0 <= 25 / 88) by lra. assert (P : chosen (pt fesdH) (pt fesdH2) (25 / 88) = pt fesdH) by (unfold chosen; destruct (Rlt_dec 0 (25 / 88)); [reflexivity|lra]).
  assert (A0 : pt fesdH (SX0 0) = 25 / 88) by (val fesdH; unfold Q2R; cbn; lra). assert (A1 : pt fesdH (SL00 FLam 0 0) = 2 * (25 / 88)) by (val fesdH; unfold Q2R; cbn; lra).
  assert (A2 : pt fesdH (SL00 FLam 0 1) = 0) by (val fesdH; unfold Q2R; cbn; lra).
  exact (sign_solved _ _ _ _ _ _ problemH stewartH polishH p_H _ _ s s' out (25 / 88) Z E X x0 _ P feasibleH A0 A1 A2).
Qed.
Lemma secondH : ss_x0 s = [0] -> solved_relaxed CH out (pt fesdH2).
Proof.
  intros X. assert (x0 : 0 <= 0) by lra. assert (P : chosen (pt fesdH) (pt fesdH2) 0 = pt fesdH2) by (unfold chosen; destruct (Rlt_dec 0 0); [lra|reflexivity]).
  assert (A0 : pt fesdH2 (SX0 0) = 0) by (val fesdH2; unfold Q2R; cbn; lra). assert (A1 : pt fesdH2 (SL00 FLam 0 0) = 2 * 0) by (val fesdH2; unfold Q2R; cbn; lra).
  assert (A2 : pt fesdH2 (SL00 FLam 0 1) = 0) by (val fesdH2; unfold Q2R; cbn; lra).
  exact (sign_solved _ _ _ _ _ _ problemH stewartH polishH p_H _ _ s s' out 0 Z E X x0 _ P feasibleH2 A0 A1 A2).
Qed.
Lemma statesH : solved_relaxed CH out (pt fesdH) -> last_is (rs_x_list (so_results out)) [0].
Proof.
  intros SE. assert (N : o_N_stages O = 1%nat) by (vm_compute; reflexivity). assert (F : nfe_of O 0 = 2%nat) by (vm_compute; reflexivity).
  destruct (r_results _ _ _ _ _ _ _ problemH N extractH nlpH s s' out _ E SE) as [_ R]. rewrite F in R. rewrite R. cbn [seq map].
  split; [cbn; lia|]. cbn [length Nat.sub nth_error m_nx decay_model seq map]. rewrite (endsH 1) by lia. reflexivity.
Qed.
End Steps.
Lemma simH : exists L s' L' tr, looper_init (cn_prob CH) [25 / 88] 2 None 0 None = Ok L /\
  run nlpH CH false L (initial_state CH) = (s', L', Ok true) /\ simulation nlpH CH m 0 L (initial_state CH) tr L' /\ length tr = 2%nat /\
  (forall k q, nth_error tr k = Some q -> solved_relaxed CH (snd q) (rhosH k)).
Proof.
  pose proof (sign_answers CH (pt fesdH) (pt fesdH2)) as A. pose proof (answers_returns _ _ A) as RT.
  assert (Z0 : sized CH m (initial_state CH)) by exact (initial_sized _ _ _ _ _ _ _ (proj1 problemH)).
  destruct (proj2 (init_ok _ _ _ _ _ _ _ (proj1 problemH) [25 / 88] 2 None 0 None)) as [L EL].
  { split; [|exact Logic.I]. split; [reflexivity|]. split; [vm_compute; reflexivity|reflexivity]. }
  destruct (init_start _ _ _ _ _ _ _ EL) as [E0 E1].
  assert (T : tables CH m L) by (split; rewrite E0; discriminate).
  assert (R : exists s' L', run nlpH CH false L (initial_state CH) = (s', L', Ok true)).
  { apply (run_total _ _ _ _ _ _ _ (proj1 problemH) nlpH RT extractH).
    - intros s Z. destruct (runsH nlpH s Z A) as (s' & out & E & _). eauto.
    - exact Z0.
    - rewrite E0. reflexivity.
    - exact T.
    - rewrite E1, E0. cbn. lia.
    - rewrite E0. discriminate.
    - rewrite E0. discriminate. }
  destruct R as (s' & L' & R).
  destruct (glued _ _ _ _ _ _ _ (proj1 problemH) nlpH [25 / 88] 2 None 0 None L false _ _ _ _ RT extractH EL eq_refl T Z0 R) as (tr & SM & _ & Lt & _). specialize (Lt eq_refl).
  exists L, s', L', tr. split; [exact EL|]. split; [exact R|]. split; [exact SM|]. split; [exact Lt|].
  destruct tr as [|[s1 o1] [|[s2 o2] [|]]]; try discriminate Lt.
  destruct (sm_solve _ _ _ _ _ _ _ _ SM 0%nat s1 o1 eq_refl) as (Z1 & t1 & Es1). destruct (sm_solve _ _ _ _ _ _ _ _ SM 1%nat s2 o2 eq_refl) as (Z2 & t2 & Es2).
  destruct (sm_first _ _ _ _ _ _ _ _ SM s1 o1 eq_refl) as [F1 _]. rewrite E0 in F1. cbn [lp_xcurrent] in F1.
  pose proof (firstH s1 t1 o1 Z1 Es1 F1) as X1. destruct (sm_next _ _ _ _ _ _ _ _ SM 0%nat s1 o1 s2 o2 t1 eq_refl eq_refl Es1) as [LA _].
  pose proof (statesH s1 t1 o1 Es1 X1) as LB. assert (F2 : ss_x0 s2 = [0]) by (destruct LA as [_ LA], LB as [_ LB]; rewrite LA in LB; injection LB as LB; exact LB).
  pose proof (secondH s2 t2 o2 Z2 Es2 F2) as X2.
  intros [|[|k]] q Hq; [| |destruct k; discriminate]; cbn in Hq; injection Hq as <-; cbn [snd rhosH]; [exact X1|exact X2].
Qed.

(* the second step *)
Lemma stepH2 e : (e < 2)%nat -> step_len O (pt fesdH2) 0 e = / 4.
Proof. intros He. unfold step_len. replace (o_use_fesd O) with true by (vm_compute; reflexivity). destruct e as [|[|e]]; [| |lia]; val fesdH2; unfold Q2R; cbn; lra. Qed.
Lemma gridH2 e : (e < 2)%nat -> grid_time O (pt fesdH2) 0 e = INR e / 4.
Proof. intros He. unfold grid_time. destruct e as [|[|e]]; [| |lia]; rewrite ?rupto_succ, ?rupto_0, ?(stepH2 0) by lia; cbn; lra. Qed.
Lemma stageH2 e j : (e < 2)%nat -> (j < 2)%nat -> stage_state O t (pt fesdH2) 0 e j 0 = 0.
Proof.
  intros He Hj. unfold stage_state. replace (o_repr O) with Integral by (vm_compute; reflexivity).
  destruct e as [|[|e]], j as [|[|j]]; try lia; val fesdH2; unfold Q2R; cbn; lra.
Qed.
Lemma endsH2 e : (e < 2)%nat -> end_state O t (pt fesdH2) 0 e 0 = 0.
Proof. intros He. unfold end_state. replace (points1 O (t_rbe t) FX - 1)%nat with 1%nat by (vm_compute; reflexivity). destruct e as [|[|e]]; [| |lia]; val fesdH2; unfold Q2R; cbn; lra. Qed.
Lemma startH2 e : (e < 2)%nat -> start_state O t (pt fesdH2) 0 e 0 = 0.
Proof. intros He. destruct e as [|[|e]]; [unfold start_state; cbn [before state_at]; val fesdH2; unfold Q2R; cbn; lra|exact (endsH2 0 Nat.lt_0_2)|lia]. Qed.
Lemma startsH e : (e < 2)%nat -> start_state O t (pt fesdH) 0 e 0 = match e with 0%nat => 25 / 88 | _ => 0 end.
Proof. intros He. destruct e as [|[|e]]; [unfold start_state; cbn [before state_at]; val fesdH; unfold Q2R; cbn; lra|exact startH|lia]. Qed.
Lemma weightH2 e j k : (e < 2)%nat -> (j < 2)%nat -> (k < 2)%nat -> weight O m (stage_point O t m (pt fesdH2) 0 e j) 0 k = / 2.
Proof.
  intros He Hj Hk. unfold weight. replace (o_pss O) with Stewart by (vm_compute; reflexivity).
  destruct e as [|[|e]], j as [|[|j]], k as [|[|k]]; try lia; cbn -[Q2R pt]; val fesdH2; unfold Q2R; cbn; lra.
Qed.
Lemma stepsH2 k : steps_upto O (rhosH k) (/ 4).
Proof. destruct k as [|k]; cbn [rhosH]; [exact stepsH|]. intros c e He. destruct (elemH c e He) as [-> He']. rewrite stepH2 by lia. lra. Qed.
Lemma nfeH : nfe_of O 0 = 2%nat. Proof. vm_compute. reflexivity. Qed.

(* sliding now lasts until 1 *)
Definition piece3 : piece := mkPiece 0 (fun x _ k => match k with 0%nat => (x 0%nat + 1) / (x 0%nat + 2) | _ => 1 / (x 0%nat + 2) end) (fun _ _ => 0) 0 1 ts (fun x => x 0%nat).
Definition PS (r : nat) : piece := match r with 0%nat => piece1 | _ => piece3 end.
Definition phS (s e : nat) : nat := match s, e with 0%nat, 0%nat => 0%nat | _, _ => 1%nat end.
Lemma flow3 rho x : DH x -> flow O m rho piece3 x 0 = 0.
Proof. intros Hx. unfold DH in Hx. unfold flow. rewrite (velocityK O rho sotH). cbn. field. lra. Qed.
Lemma regular3 rho : regular_piece O m rho DH 2 1 2 2 piece3.
Proof.
  assert (Z : DH (fun _ => 0)) by (unfold DH; lra). split; [split|split].
  - intros z Hz. cbn [pc_curve piece3] in *. split; [exact Z|]. intros i Hi. assert (i = 0)%nat by (cbn in Hi; lia). subst i. rewrite (flow3 rho _ Z). apply (derivable_pt_lim_const 0).
  - intros i Hi. exists (fun _ _ => 0). split; [reflexivity|]. split; [intros; apply (derivable_pt_lim_const 0)|]. intros. rewrite Rabs_R0. lra.
  - intros x y dd Hx Hy Hd i Hi. assert (i = 0)%nat by (cbn in Hi; lia). subst i. rewrite !flow3 by assumption. specialize (Hd 0%nat Hi). rewrite Rminus_0_r, Rabs_R0. pose proof (Rabs_pos (x 0%nat - y 0%nat)). lra.
  - intros x i Hx Hi. assert (i = 0)%nat by (cbn in Hi; lia). subst i. rewrite flow3 by assumption. rewrite Rabs_R0. lra.
Qed.

Section Simulated.
Variables (x0 : list R) (Nsim : nat) (pv : option (list (list R))) (pc : nat) (wi : option (list (list R))) (L : looper) (s : sstate) (L' : looper) (tr : list (sstate * solve_out)) (nlp : nat -> nlp_call -> res nlp_ret).
Hypothesis LI : looper_init (cn_prob CH) x0 Nsim pv pc wi = Ok L.
Hypothesis SI : simulation nlp CH m 0 L s tr L'.
Hypothesis Lt : length tr = 2%nat.
Hypothesis SE : forall k q, nth_error tr k = Some q -> solved_relaxed CH (snd q) (rhosH k).
Lemma SSH k q : nth_error tr k = Some q -> solved_relaxed CH (snd q) (rhosH k) /\ steps_upto O (rhosH k) (/ 4).
Proof. intros Hq. split; [exact (SE k q Hq)|apply stepsH2]. Qed.
Lemma nextH k : (k < 2)%nat -> elapsed tr (S k) = elapsed tr k + / 2.
Proof.
  intros Hk. rewrite <- Lt in Hk. rewrite (step_next _ _ _ _ _ _ _ problemH extractH (or_introl stewartH) nlp x0 Nsim pv pc wi L s tr L' rhosH LI SI (/ 4) SSH k Hk), nfeH, !rupto_succ, rupto_0.
  destruct k as [|k]; cbn [rhosH]; [rewrite !stepH by lia|rewrite !stepH2 by lia]; lra.
Qed.
Lemma elapsedH : elapsed tr 0 = 0 /\ elapsed tr 1 = / 2 /\ elapsed tr 2 = 1.
Proof. pose proof (elapsed_0 tr) as E0. pose proof (nextH 0 Nat.lt_0_2). pose proof (nextH 1 Nat.lt_1_2). lra. Qed.
Lemma totalH : elapsed tr (length tr) = 1. Proof. rewrite Lt. apply elapsedH. Qed.
Lemma regularS : run_regular O m rhosH tr DH 2 1 2 2 PS phS.
Proof.
  intros a e [Ha He]. rewrite Lt in Ha. rewrite nfeH in He. unfold piece_in. apply regular_counted. destruct a as [|[|a]]; [| |lia]; destruct e as [|[|e]]; try lia; cbn [phS PS rhosH]; try apply regular3. exact regular1.
Qed.
Lemma crossesS : crosses m DH 1 (/ 2) (counted_from (elapsed tr 0) piece1) (counted_from (elapsed tr 0) piece3).
Proof.
  destruct elapsedH as (E0 & _). pose proof ts_range as T. split.
  - intros z Hz. cbn [counted_from pc_lo pc_hi piece1 piece3 pc_start pc_switch pc_curve] in *. rewrite E0 in *. rewrite exp_ts. rewrite Rplus_0_l.
    replace (z - (ts - 0)) with (- (ts - z)) by ring. rewrite Rabs_Ropp. apply exp_away. lra.
  - intros x y dd _ _ Hd. specialize (Hd 0%nat Nat.lt_0_1). cbn. lra.
Qed.
Lemma followsS : run_follows O t m rhosH tr DH 1 (/ 2) PS 1 phS.
Proof.
  destruct elapsedH as (E0 & E1 & _). split.
  - intros a e [Ha He]. rewrite Lt in Ha. rewrite nfeH in He. split; [destruct a as [|a], e as [|e]; cbn; lia|]. split; [|split; [|split]].
    + split; [destruct a as [|a], e as [|e]; reflexivity|]. cbn [piece_in counted_from pc_lo pc_hi]. split; [|split].
      * destruct a as [|[|a]]; [| |lia]; cbn [rhosH]; [rewrite (gridH e He), E0|rewrite (gridH2 e He), E1]; destruct e as [|[|e]]; try lia; cbn; lra.
      * destruct a as [|[|a]]; [| |lia]; cbn [rhosH]; [rewrite (gridH e He), (stepH e He), E0|rewrite (gridH2 e He), (stepH2 e He), E1]; destruct e as [|[|e]]; try lia; cbn; lra.
      * intros j Hj. replace (o_ns O) with 2%nat in Hj by (vm_compute; reflexivity). destruct a as [|[|a]]; [| |lia]; cbn [rhosH].
        { pose proof (stageH e j He Hj) as Sj. split; [unfold DH; rewrite Sj; destruct e as [|[|e]], j as [|[|j]]; lra|].
          intros q k Hq Hk. assert (q = 0)%nat by (cbn in Hq; lia). subst q. cbn in Hk. rewrite (weightH e j k He Hj Hk).
          destruct e as [|[|e]]; [| |lia]; cbn [phS PS piece_in counted_from pc_weights piece1 piece3]; [destruct k as [|k]; reflexivity|]. rewrite Sj. destruct k as [|k]; field. }
        { pose proof (stageH2 e j He Hj) as Sj. split; [unfold DH; rewrite Sj; lra|].
          intros q k Hq Hk. assert (q = 0)%nat by (cbn in Hq; lia). subst q. cbn in Hk. rewrite (weightH2 e j k He Hj Hk).
          cbn [phS PS piece_in counted_from pc_weights piece3]. rewrite Sj. destruct k as [|k]; field. }
    + unfold DH. destruct a as [|[|a]]; [| |lia]; cbn [rhosH]; [rewrite (startsH e He); destruct e; lra|rewrite (startH2 e He); lra].
    + unfold DH. destruct a as [|[|a]]; [| |lia]; cbn [rhosH]; [rewrite (endsH e He); lra|rewrite (endsH2 e He); lra].
    + destruct a as [|[|a]]; [| |lia]; destruct e as [|[|e]]; try lia; cbn [run_before].
      * reflexivity.
      * right. split; [reflexivity|]. right. split; [exact crossesS|exact startH].
      * rewrite nfeH. left. reflexivity.
      * left. reflexivity.
  - exists 1%nat, 0%nat. split; [|reflexivity]. split; [rewrite Lt; lia|rewrite nfeH; lia].
Qed.
Lemma consistsS : run_consists m tr [25 / 88] YH PS 1.
Proof.
  pose proof ts_range as T. split; [reflexivity|]. split; [|split].
  - intros i Hi. assert (i = 0)%nat by (cbn in Hi; lia). subst i. unfold YH. rewrite Ropp_0, exp_0, Rmax_right by (unfold y0; lra). cbn [nth]. unfold y0. lra.
  - intros r Hr. assert (r = 0)%nat by lia. subst r. cbn [PS]. split; [|split]; cbn [pc_lo pc_hi pc_start piece1 piece3 pc_curve]; [lra|lra|].
    intros i _. rewrite exp_ts. replace (ts - ts) with 0 by ring. rewrite exp_0. lra.
  - intros r Hr. destruct r as [|[|r]]; [| |lia].
    + unfold run_piece_end. cbn -[exp Rmax y0 elapsed]. split; [lra|]. split; [lra|]. split; [lra|]. intros z i Hz _. unfold YH. rewrite Rmax_right; [reflexivity|]. apply positive1. lra.
    + unfold run_piece_end. cbn [Nat.eqb]. rewrite totalH. cbn -[exp Rmax y0]. split; [lra|]. split; [lra|]. split; [lra|]. intros z i Hz _. unfold YH. rewrite Rmax_left; [reflexivity|]. apply negative2. lra.
Qed.
Lemma lawfulS : run_lawful O m rhosH tr (smallest m) PS 1.
Proof.
  pose proof ts_range as T. intros a r tm Ha Hr Ht Hp. rewrite Lt in Ha.

  split; [split|].
  - apply weightsK. destruct r as [|r]; cbn; lra.
  - intros q k Hq Hk Hw. assert (q = 0)%nat by (cbn in Hq; lia). subst q. cbn in Hk. destruct (sidesK (plain_point m (rhosH a) 0 (pc_curve (PS r) tm))) as [S0 S1].
    destruct r as [|[|r]]; [| |lia].
    + destruct k as [|[|k]]; [cbn in Hw; lra| |lia]. apply S1. change (0 <= y0 * exp (- tm) - 1). apply positive1. unfold run_piece_end in Hp. cbn in Hp. lra.
    + destruct k as [|[|k]]; [apply S0; change (0 <= 0); lra|apply S1; change (0 <= 0); lra|lia].
  - intros i Hi. assert (i = 0)%nat by (cbn in Hi; lia). subst i. rewrite (velocityK O (rhosH a) sotH). destruct r as [|[|r]]; [| |lia]; cbn [PS piece1 piece3 pc_curve pc_weights].
    + replace (1 * 0 + (- (y0 * exp (- tm) - 1) - 1) * 1) with (- y0 * exp (- tm)) by ring.
      match goal with |- derivable_pt_lim _ _ ?v => replace v with (- y0 * exp (- tm)) by ring end. exact (deriv_decay y0 (-1) tm).
    + match goal with |- derivable_pt_lim _ _ ?v => replace v with 0 by (field; lra) end. apply (derivable_pt_lim_const 0).
Qed.
Lemma caseS : (forall k q, nth_error tr k = Some q -> solved_relaxed CH (snd q) (rhosH k) /\ steps_upto O (rhosH k) (/ 4)) /\ elapsed tr (length tr) <= 1 /\
  run_regular O m rhosH tr DH 2 1 2 2 PS phS /\ run_consists m tr [25 / 88] YH PS 1 /\ run_follows O t m rhosH tr DH 1 (/ 2) PS 1 phS /\ run_lawful O m rhosH tr (smallest m) PS 1.
Proof.
  split; [exact SSH|]. split; [rewrite totalH; lra|]. split; [exact regularS|]. split; [exact consistsS|]. split; [exact followsS|exact lawfulS].
Qed.
End Simulated.

Lemma simulation_case : exists L s' L' tr, looper_init (cn_prob CH) [25 / 88] 2 None 0 None = Ok L /\
  run nlpH CH false L (initial_state CH) = (s', L', Ok true) /\ simulation nlpH CH m 0 L (initial_state CH) tr L' /\ length tr = 2%nat /\
  (forall k q, nth_error tr k = Some q -> solved_relaxed CH (snd q) (rhosH k) /\ steps_upto O (rhosH k) (/ 4)) /\ elapsed tr (length tr) <= 1 /\
  run_regular O m rhosH tr DH 2 1 2 2 PS phS /\ run_consists m tr [25 / 88] YH PS 1 /\ run_follows O t m rhosH tr DH 1 (/ 2) PS 1 phS /\ run_lawful O m rhosH tr (smallest m) PS 1.
Proof.
  destruct simH as (L & s' & L' & tr & A & B & D & Lt & SE). exists L, s', L', tr. split; [exact A|]. split; [exact B|]. split; [exact D|]. split; [exact Lt|].
  exact (caseS _ _ _ _ _ L _ L' tr _ A D Lt SE).
Qed.
