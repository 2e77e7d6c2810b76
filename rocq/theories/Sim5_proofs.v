(* Sim5_proofs.v -- case of Props_Sim.v: two steps of x' = 3 for x < 0, x' = 1 for x > 0 from -1 *)
From Coq Require Import Reals Qreals Lra.
From Verif Require Import Base Lib Sx Sx_proofs Utils Tableau Opts Model Ocp Problem Numeric Rk4 Results Solver Looper Spec Cases Fesd Spec2 Spec3 Spec4 Spec5 Spec6
  Witness Results5_proofs Solve_proofs Solve2_proofs Solve3_proofs Solve4_proofs Feas6_proofs Fix_proofs Set_proofs Hist_proofs Witness3 Looper_proofs Witness4 Spec9 Filippov_proofs Filippov4_proofs Spec10 Spec19
  Sim_proofs Sim2_proofs Sim3_proofs.
Local Open Scope R_scope.

(* the second step: x' = 1 from 2/3 to 5/3 in elements of equal length *)
Definition forthS : list (sym * Q) := [
  (SX0 0, (2#3)%Q); (SL00 FLam 0 0, (4#3)%Q); (SH 0 0, (1#2)%Q); (SH 0 1, (1#2)%Q);
  (S1 FX 0 0 0 0, (7#6)%Q); (S2 FTheta 0 0 0 0 1, 1%Q); (S2 FLam 0 0 0 0 0, (7#3)%Q); (S2 FMu 0 0 0 0 0, (7#6)%Q);
  (S1 FX 0 1 0 0, (5#3)%Q); (S2 FTheta 0 1 0 0 1, 1%Q); (S2 FLam 0 1 0 0 0, (10#3)%Q); (S2 FMu 0 1 0 0 0, (5#3)%Q)].
Lemma feasible_forth : feasible (pt forthS) (the_nlp CS1).
Proof. apply (feasibleQ (ptQ forthS)). vm_compute. reflexivity. Qed.
Lemma p_S1 : p_p (the_problem CS1) = [SSigma; STau; SL00 FLam 0 0; SL00 FLam 0 1; SX0 0].
Proof. vm_compute. reflexivity. Qed.
Lemma w_S1 : w (the_nlp CS1) = [SH 0 0; S1 FX 0 0 0 0; S2 FTheta 0 0 0 0 0; S2 FTheta 0 0 0 0 1; S2 FLam 0 0 0 0 0; S2 FLam 0 0 0 0 1;
  S2 FMu 0 0 0 0 0; SH 0 1; S1 FX 0 1 0 0; S2 FTheta 0 1 0 0 0; S2 FTheta 0 1 0 0 1; S2 FLam 0 1 0 0 0; S2 FLam 0 1 0 0 1; S2 FMu 0 1 0 0 0].
Proof. vm_compute. reflexivity. Qed.
Lemma pt_rest l y vs : forallb (fun q => existsb (sym_eqb (fst q)) vs) l = true -> ~ In y vs -> pt l y = 0.
Proof.
  intros F N. unfold pt. replace (ptQ l y) with 0%Q; [apply RMicromega.Q2R_0|]. symmetry.
  induction l as [|[z q] l IH]; [reflexivity|]. cbn [forallb fst] in F. apply andb_prop in F. destruct F as [F1 F2]. cbn [ptQ].
  destruct (sym_eqb y z) eqn:E.
  - apply sym_eqb_eq in E. subst z. apply existsb_exists in F1. destruct F1 as (z & Hz & E). apply sym_eqb_eq in E. subst z. contradiction.
  - exact (IH F2).
Qed.

(* the NLP solver looks at the initial state, the last parameter *)
Definition two_nlp (C : constructed) (rho1 rho2 : env) : nat -> nlp_call -> res nlp_ret := fun _ c =>
  Ok (mkRet (if Rlt_dec (last (nc_p c) 0) 0 then primal C rho1 else primal C rho2) 0 [] RSSolveSucceeded 0 0).
Lemma two_answers C rho1 rho2 : answers C (two_nlp C rho1 rho2).
Proof. intros n c. eexists. split; [reflexivity|]. cbn [nr_x]. destruct (Rlt_dec _ _); unfold primal; apply map_length. Qed.

Section Abstract.
Variables (lr : Q -> Q -> Q -> nat) (cp : nat -> scheme -> list Q) (d : ipopt_dict) (o : opts) (oc : option ocp) (C : constructed).
Hypothesis FP : fesd_problem lr cp d o model3 oc C.
Hypothesis Ep : o_pss (the_opts C) = Stewart.
Hypothesis Np : o_do_polishing (the_opts C) = false.
Hypothesis PP : p_p (the_problem C) = [SSigma; STau; SL00 FLam 0 0; SL00 FLam 0 1; SX0 0].
Variables (rho1 rho2 : env) (s s' : sstate) (out : solve_out) (x : R).
Hypothesis Z : sized C model3 s.
Hypothesis E : solve (two_nlp C rho1 rho2) C s = (s', Ok out).
Hypothesis X : ss_x0 s = [x].
Definition chosen : env := if Rlt_dec x 0 then rho1 else rho2.

Lemma chosen_pass h : In h (so_steps out) -> exists sg tau, nc_p (hs_call h) = [sg; tau; Rabs x + x; Rabs x - x; x].
Proof.
  intros Hh. pose proof (pass_parameters lr cp d o model3 oc C (proj1 FP) _ s s' out E (proj2 (proj2 FP)) Z (or_introl Ep) h Hh) as B. rewrite PP in B.
  inversion B as [|y1 v1 ? ? B1 B1' e1 e2]. subst. inversion B1' as [|y2 v2 ? ? B2 B2' e1 e3]. subst. inversion B2' as [|y3 v3 ? ? B3 B3' e1 e4]. subst.
  inversion B3' as [|y4 v4 ? ? B4 B4' e1 e5]. subst. inversion B4' as [|y5 v5 ? ? B5 B5' e1 e6]. subst. inversion B5'. subst.
  exists v1, v2. cbn [belongs] in B3, B4, B5. set (v0 := initial_point _ _ _ _) in *. destruct (region3 v0) as [R0 R1].
  assert (V : v0 (MX 0) = x) by (unfold v0; cbn [initial_point]; rewrite X; reflexivity).
  rewrite X in B5. cbn [nth_error] in B5. injection B5 as B5. destruct B3 as (m1 & L1 & ->). destruct B4 as (m2 & L2 & ->).
  rewrite (least_unique _ _ _ _ L2 L1). rewrite R0, R1, V, <- B5. destruct L1 as [L1 (k & Hk & L3)].
  assert (M : m1 = - Rabs x).
  { pose proof (L1 0%nat ltac:(cbn; lia)) as G0. pose proof (L1 1%nat ltac:(cbn; lia)) as G1. rewrite R0, V in G0. rewrite R1, V in G1.
    assert (K : m1 = x \/ m1 = - x) by (destruct k as [|[|k]]; [left; lra|right; lra|cbn in Hk; lia]).
    unfold Rabs. destruct (Rcase_abs x); destruct K; lra. }
  rewrite M. replace (x - - Rabs x) with (Rabs x + x) by lra. replace (- x - - Rabs x) with (Rabs x - x) by lra. reflexivity.
Qed.
Lemma chosen_w : so_w_sol out = primal C chosen.
Proof.
  destruct (solve_last _ _ _ _ _ _ _ (proj1 FP) _ _ _ _ E) as (_ & _ & _ & c & r & Er & EW & _ & LP & _). destruct (LP Np) as (h & Lh & Ec & _).
  assert (Ih : In h (so_steps out)) by exact (nth_error_In _ _ (proj2 Lh)). destruct (chosen_pass h Ih) as (sg & tau & Q). rewrite Ec in Q.
  unfold two_nlp in Er. injection Er as <-. rewrite EW, Q. cbn [nr_x last]. unfold chosen. destruct (Rlt_dec x 0); reflexivity.
Qed.
Lemma chosen_exact rho : chosen = rho -> feasible rho (the_nlp C) -> zero_relaxation (the_opts C) rho -> rho (SX0 0) = x ->
  rho (SL00 FLam 0 0) = Rabs x + x -> rho (SL00 FLam 0 1) = Rabs x - x ->
  (forall y, ~ In y (w (the_nlp C) ++ p_p (the_problem C)) -> rho y = 0) -> solved_exactly C out rho.
Proof.
  intros EC FE ZR A0 A1 A2 RE. split; [rewrite chosen_w, EC; reflexivity|exact FE|exact ZR| |exact RE].
  intros h i y v Hh Hy Hv. destruct (chosen_pass h Hh) as (sg & tau & Q). rewrite Q in Hv. rewrite PP in Hy.
  destruct i as [|[|[|[|[|i]]]]]; cbn [nth_error] in Hy, Hv; [| | | | |destruct i; discriminate]; injection Hy as <-; injection Hv as <-; auto.
Qed.
End Abstract.

Notation nlp2 := (two_nlp CS1 rhoS (pt forthS)).
Definition rhos2 (k : nat) : env := match k with 0%nat => rhoS | _ => pt forthS end.
Lemma extractS1 : extractable (the_opts CS1) model3. Proof. apply (extract3 _ _ _ builtS1). vm_compute. reflexivity. Qed.
Lemma runsS1 nlp s : sized CS1 model3 s -> answers CS1 nlp -> exists s' out, solve nlp CS1 s = (s', Ok out) /\ sized CS1 model3 s'.
Proof.
  apply (runs _ _ _ _ _ _ _ (proj1 problemS1) nlp s).
  - vm_compute. discriminate.
  - exact sized3.
  - intros E. exfalso. vm_compute in E. discriminate E.
  - exact extractS1.
  - vm_compute. reflexivity.
  - vm_compute. reflexivity.
  - vm_compute. reflexivity.
  - vm_compute. discriminate.
Qed.
Lemma stewartS1 : o_pss (the_opts CS1) = Stewart. Proof. vm_compute. reflexivity. Qed.
Lemma polishS1 : o_do_polishing (the_opts CS1) = false. Proof. vm_compute. reflexivity. Qed.
Lemma zeroS1 rho : rho SSigma = 0 -> zero_relaxation (the_opts CS1) rho.
Proof. unfold zero_relaxation. replace (o_mpcc (the_opts CS1)) with ScholtesIneq by (vm_compute; reflexivity). exact (fun e => e). Qed.
Lemma abs_m1 : Rabs (-1) = 1. Proof. rewrite Rabs_left; lra. Qed.
Lemma abs_23 : Rabs (2 / 3) = 2 / 3. Proof. rewrite Rabs_right; lra. Qed.
Lemma first_exact s s' out : sized CS1 model3 s -> solve nlp2 CS1 s = (s', Ok out) -> ss_x0 s = [-1] -> solved_exactly CS1 out rhoS.
Proof.
  intros Z E X. eapply (chosen_exact _ _ _ _ _ _ problemS1 stewartS1 polishS1 p_S1 rhoS (pt forthS) s s' out (-1) Z E X).
  - unfold chosen. destruct (Rlt_dec (-1) 0); [reflexivity|lra].
  - exact feasibleS1.
  - apply zeroS1. unfold rhoS. val switchS. apply RMicromega.Q2R_0.
  - unfold rhoS. val switchS. unfold Q2R. cbn. lra.
  - rewrite abs_m1. unfold rhoS. val switchS. unfold Q2R. cbn. lra.
  - rewrite abs_m1. unfold rhoS. val switchS. unfold Q2R. cbn. lra.
  - intros y. apply pt_rest. rewrite w_S1, p_S1. vm_compute. reflexivity.
Qed.
Lemma second_exact s s' out : sized CS1 model3 s -> solve nlp2 CS1 s = (s', Ok out) -> ss_x0 s = [2 / 3] -> solved_exactly CS1 out (pt forthS).
Proof.
  intros Z E X. eapply (chosen_exact _ _ _ _ _ _ problemS1 stewartS1 polishS1 p_S1 rhoS (pt forthS) s s' out (2 / 3) Z E X).
  - unfold chosen. destruct (Rlt_dec (2 / 3) 0); [lra|reflexivity].
  - exact feasible_forth.
  - apply zeroS1. val forthS. apply RMicromega.Q2R_0.
  - val forthS. unfold Q2R. cbn. lra.
  - rewrite abs_23. val forthS. unfold Q2R. cbn. lra.
  - rewrite abs_23. val forthS. unfold Q2R. cbn. lra.
  - intros y. apply pt_rest. rewrite w_S1, p_S1. vm_compute. reflexivity.
Qed.
Lemma first_states s s' out : solve nlp2 CS1 s = (s', Ok out) -> solved_exactly CS1 out rhoS -> last_is (rs_x_list (so_results out)) [2 / 3].
Proof.
  intros E SE. destruct nfe_S1 as [N F].
  destruct (step_results _ _ _ _ _ _ _ problemS1 N extractS1 nlp2 s s' out rhoS E SE) as [_ R]. rewrite F in R. rewrite R. cbn [seq map].
  split; [cbn; lia|]. cbn [length Nat.sub nth_error]. unfold end_state. replace (points1 (the_opts CS1) (t_rbe (cn_tab CS1)) FX - 1)%nat with 0%nat by (vm_compute; reflexivity).
  cbn [m_nx model3 seq map]. assert (G : rhoS (S1 FX 0 1 0 0) = 2 / 3) by (unfold rhoS; val switchS; unfold Q2R; cbn; lra). rewrite G. reflexivity.
Qed.
Lemma two_steps_run : exists L s' L' tr, looper_init (cn_prob CS1) [-1] 2 None 0 None = Ok L /\ length [-1] = m_nx model3 /\
  run nlp2 CS1 false L (initial_state CS1) = (s', L', Ok true) /\ simulation nlp2 CS1 model3 0 L (initial_state CS1) tr L' /\ length tr = 2%nat /\
  (forall k q, nth_error tr k = Some q -> solved_exactly CS1 (snd q) (rhos2 k)).
Proof.
  pose proof (two_answers CS1 rhoS (pt forthS)) as A. pose proof (answers_returns _ _ A) as RT.
  assert (Z0 : sized CS1 model3 (initial_state CS1)) by exact (initial_sized _ _ _ _ _ _ _ (proj1 problemS1)).
  destruct (proj2 (init_ok _ _ _ _ _ _ _ (proj1 problemS1) [-1] 2 None 0 None)) as [L EL].
  { split; [|exact Logic.I]. split; [reflexivity|]. split; [vm_compute; reflexivity|reflexivity]. }
  destruct (init_start _ _ _ _ _ _ _ EL) as [E0 E1].
  assert (T : tables CS1 model3 L) by (split; rewrite E0; discriminate).
  assert (R : exists s' L', run nlp2 CS1 false L (initial_state CS1) = (s', L', Ok true)).
  { apply (run_total _ _ _ _ _ _ _ (proj1 problemS1) nlp2 RT extractS1).
    - intros s Z. destruct (runsS1 nlp2 s Z A) as (s' & out & E & _). eauto.
    - exact Z0.
    - rewrite E0. reflexivity.
    - exact T.
    - rewrite E1, E0. cbn. lia.
    - rewrite E0. discriminate.
    - rewrite E0. discriminate. }
  destruct R as (s' & L' & R).
  destruct (glued _ _ _ _ _ _ _ (proj1 problemS1) nlp2 [-1] 2 None 0 None L false _ _ _ _ RT extractS1 EL eq_refl T Z0 R) as (tr & SM & _ & Lt & _). specialize (Lt eq_refl).
  exists L, s', L', tr. split; [exact EL|]. split; [reflexivity|]. split; [exact R|]. split; [exact SM|]. split; [exact Lt|].
  destruct tr as [|[s1 o1] [|[s2 o2] [|]]]; try discriminate Lt.
  destruct (sm_solve _ _ _ _ _ _ _ _ SM 0%nat s1 o1 eq_refl) as (Z1 & t1 & Es1). destruct (sm_solve _ _ _ _ _ _ _ _ SM 1%nat s2 o2 eq_refl) as (Z2 & t2 & Es2).
  destruct (sm_first _ _ _ _ _ _ _ _ SM s1 o1 eq_refl) as [F1 _]. rewrite E0 in F1. cbn [lp_xcurrent] in F1.
  pose proof (first_exact s1 t1 o1 Z1 Es1 F1) as X1. destruct (sm_next _ _ _ _ _ _ _ _ SM 0%nat s1 o1 s2 o2 t1 eq_refl eq_refl Es1) as [LA _].
  pose proof (first_states s1 t1 o1 Es1 X1) as LB. assert (F2 : ss_x0 s2 = [2 / 3]) by (destruct LA as [_ LA], LB as [_ LB]; rewrite LA in LB; injection LB as LB; exact LB).
  pose proof (second_exact s2 t2 o2 Z2 Es2 F2) as X2.
  intros [|[|k]] q Hq; [| |destruct k; discriminate]; cbn in Hq; injection Hq as <-; [exact X1|exact X2].
Qed.
