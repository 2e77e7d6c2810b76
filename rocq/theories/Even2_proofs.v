(* Even2_proofs.v -- cases: x' = 3 (x < 0), x' = 1 (x > 0), four elements *)
From Coq Require Import Reals Qreals Lra Lia Psatz.
From Verif Require Import Base Sx Utils Tableau Opts Model Ocp Problem Spec Cases Sx_proofs Fesd Spec2 Spec3 Witness Nlp_proofs Feas_proofs Feas5_proofs Feas6_proofs Witness5 Spec9 Filippov4_proofs Spec29 Steps_proofs Spec30 Spec32 Even_proofs Homot5_proofs Dcs_proofs Elem_proofs Mode_proofs Exact_proofs Feas2_proofs Spec25.

Definition optsE (s : step_eq_mode) : opts := with_grid (with_modes optsS Stewart ScholtesIneq SumLambdas s SotNone true true) 1 [4].
Lemma caseE_ok s : is_ok (build (optsE s) model3 None) = true. Proof. destruct s; vm_compute; reflexivity. Qed.
Definition CE (s : step_eq_mode) : constructed := get _ (caseE_ok s).
Lemma builtE s : build (optsE s) model3 None = Ok (CE s). Proof. apply get_ok. Qed.
Lemma problemE s : is_problem (optsE s) model3 None (CE s). Proof. exact (is_problem_ok _ _ _ _ (builtE s) eq_refl sized3). Qed.
(* from -1: at the surface at time 1/3, then three steps *)
Definition right_of (e : nat) (x : Q) : list (sym * Q) := [(S1 FX 0 e 0 0, x); (S2 FTheta 0 e 0 0 1, 1%Q); (S2 FLam 0 e 0 0 0, (2 * x)%Q); (S2 FMu 0 e 0 0 0, x)].
Definition crossE (h1 h2 h3 : Q) : list (sym * Q) := [(SX0 0, (-1)%Q); (SL00 FLam 0 1, 2%Q); (SH 0 0, (1#3)%Q); (SH 0 1, h1); (SH 0 2, h2); (SH 0 3, h3); (S2 FTheta 0 0 0 0 0, 1%Q)] ++
  right_of 1 h1 ++ right_of 2 (h1 + h2) ++ right_of 3 (h1 + h2 + h3).
Definition evenE := crossE (2#9) (2#9) (2#9).
Definition tiltE := crossE (1#4) (2#9) (7#36).
(* from x > 0 *)
Definition awayE (x : Q) : list (sym * Q) := [(SX0 0, x); (SL00 FLam 0 0, (2 * x)%Q); (SH 0 0, (1#4)%Q); (SH 0 1, (1#4)%Q); (SH 0 2, (1#4)%Q); (SH 0 3, (1#4)%Q)] ++
  right_of 0 (x + (1#4)) ++ right_of 1 (x + (1#2)) ++ right_of 2 (x + (3#4)) ++ right_of 3 (x + 1).
Lemma feasible_even s : s <> HeuristicDeltaHComp -> feasible (pt evenE) (the_nlp (CE s)).
Proof. intros _. apply (feasibleQ (ptQ evenE)). destruct s; vm_compute; reflexivity. Qed.
Lemma feasible_tilt : feasible (pt tiltE) (the_nlp (CE HeuristicDelta)).
Proof. apply (feasibleQ (ptQ tiltE)). vm_compute. reflexivity. Qed.
Lemma feasible_away1 : feasible (pt (awayE 1)) (the_nlp (CE Direct)).
Proof. apply (feasibleQ (ptQ (awayE 1))). vm_compute. reflexivity. Qed.
Lemma feasible_away2 : feasible (pt (awayE 2)) (the_nlp (CE Direct)).
Proof. apply (feasibleQ (ptQ (awayE 2))). vm_compute. reflexivity. Qed.

Local Open Scope R_scope.
Section Keep.
Variables (s : step_eq_mode) (l : list (sym * Q)) (e : nat).
Notation O := (the_opts (CE s)).
Notation t := (cn_tab (CE s)).
Hypothesis BO : bounds_ok (pt l) (the_nlp (CE s)).
Hypothesis L0 : initial_nonneg (pt l).
Hypothesis He : (0 < e < 4)%nat.
Hypothesis La : 0 < pt l (S2 FLam 0 (e - 1) 0 0 0) /\ 0 < pt l (S2 FLam 0 e 0 0 0).
Hypothesis Th : 0 < pt l (S2 FTheta 0 (e - 1) 0 0 1) /\ 0 < pt l (S2 FTheta 0 e 0 0 1).
Lemma keepsE : no_switch O t model3 (pt l) 0 e.
Proof.
  assert (K0 : (0 < n_subsystems model3)%nat) by (cbn; lia). assert (K1 : (1 < n_modes model3 0)%nat) by (cbn; lia). assert (K2 : (0 < n_modes model3 0)%nat) by (cbn; lia).
  destruct (problemE s) as (H & _). assert (ES : o_pss O = Stewart) by (destruct s; vm_compute; reflexivity). assert (PM : product_mode O) by (destruct s; vm_compute; exact Logic.I).
  assert (En : forall j, (j < 4)%nat -> n_mult O t 0 j = 1%nat) by (intros [|[|[|[|j]]]] Hj; [destruct s; vm_compute; reflexivity..|lia]).
  assert (Es : o_ns O = 1%nat) by (destruct s; vm_compute; reflexivity).
  assert (Fe : forall j, (j < 4)%nat -> is_fe O 0 j 4) by (intros [|[|[|[|j]]]] Hj; [destruct s; vm_compute; repeat split; lia..|lia]).
  assert (SL : forall j, (j < 4)%nat -> 0 < pt l (S2 FLam 0 j 0 0 0) -> 0 < sum_lam O t model3 (pt l) 0 j 0).
  { intros j Hj P. unfold sum_lam. rewrite (En j Hj). pose proof (prev_nonneg _ _ _ _ _ _ _ H (pt l) BO 0 j 4 0 PM L0 (Fe j Hj)).
    pose proof (st_lam model3 (CE s) (pt l) 0 j 0 0 0 ES K0 K2) as E. change (upto 0 (n_modes model3) + 0)%nat with 0%nat in E. unfold rupto. cbn [seq map rsum fold_right]. rewrite E. lra. }
  assert (ST : forall j, (j < 4)%nat -> 0 < pt l (S2 FTheta 0 j 0 0 1) -> 0 < sum_theta O model3 (pt l) 0 j 1).
  { intros j Hj P. unfold sum_theta. rewrite Es. pose proof (st_theta model3 (CE s) (pt l) 0 j 0 0 1 ES K0 K1) as E. change (upto 0 (n_modes model3) + 1)%nat with 1%nat in E.
    unfold rupto. cbn [seq map rsum fold_right]. rewrite E. lra. }
  intros k Hk. replace (n_pairs O model3) with 2%nat in Hk by (destruct s; vm_compute; reflexivity). destruct k as [|[|k]]; [left|right|lia].
  - split; apply SL; try lia; apply La.
  - split; apply ST; try lia; apply Th.
Qed.
End Keep.
Lemma fesdE s : o_use_fesd (the_opts (CE s)) = true /\ o_equidistant (the_opts (CE s)) = true /\ o_step_eq (the_opts (CE s)) = s /\ nfe_of (the_opts (CE s)) 0 = 4%nat /\
  o_N_stages (the_opts (CE s)) = 1%nat /\ elastic (the_opts (CE s)) = false.
Proof. destruct s; repeat split; vm_compute; reflexivity. Qed.
Lemma productE s : product_mode (the_opts (CE s)). Proof. destruct s; vm_compute; exact Logic.I. Qed.
Lemma quiet_right s l a : bounds_ok (pt l) (the_nlp (CE s)) -> initial_nonneg (pt l) ->
  (forall e, (a <= e < 4)%nat -> 0 < pt l (S2 FLam 0 e 0 0 0) /\ 0 < pt l (S2 FTheta 0 e 0 0 1)) -> quiet (the_opts (CE s)) (cn_tab (CE s)) model3 (pt l) 0 a 4.
Proof. intros BO L0 P e He. apply keepsE; try assumption; [lia|split; apply P; lia|split; apply P; lia]. Qed.
Ltac vals l := val l; unfold Q2R; cbn; lra.
Lemma even_quiet s : s <> HeuristicDeltaHComp -> quiet (the_opts (CE s)) (cn_tab (CE s)) model3 (pt evenE) 0 1 4.
Proof.
  intros Hs. apply quiet_right; [exact (proj1 (feasible_even s Hs))|apply nonneg_pt; reflexivity|].
  intros [|[|[|[|e]]]] He; try lia; split; vals evenE.
Qed.
Lemma tilt_quiet : quiet (the_opts (CE HeuristicDelta)) (cn_tab (CE HeuristicDelta)) model3 (pt tiltE) 0 1 4.
Proof.
  apply quiet_right; [exact (proj1 feasible_tilt)|apply nonneg_pt; reflexivity|].
  intros [|[|[|[|e]]]] He; try lia; split; vals tiltE.
Qed.
Lemma away_quiet1 : quiet (the_opts (CE Direct)) (cn_tab (CE Direct)) model3 (pt (awayE 1)) 0 0 4.
Proof.
  apply quiet_right; [exact (proj1 feasible_away1)|apply nonneg_pt; reflexivity|].
  intros [|[|[|[|e]]]] He; try lia; split; vals (awayE 1).
Qed.
Lemma away_quiet2 : quiet (the_opts (CE Direct)) (cn_tab (CE Direct)) model3 (pt (awayE 2)) 0 0 4.
Proof.
  apply quiet_right; [exact (proj1 feasible_away2)|apply nonneg_pt; reflexivity|].
  intros [|[|[|[|e]]]] He; try lia; split; vals (awayE 2).
Qed.
Lemma even_case : is_problem (optsE Direct) model3 None (CE Direct) /\ feasible (pt evenE) (the_nlp (CE Direct)) /\ o_use_fesd (the_opts (CE Direct)) = true /\ product_mode (the_opts (CE Direct)) /\
  initial_nonneg (pt evenE) /\ equalizing (the_opts (CE Direct)) (pt evenE) /\ nfe_of (the_opts (CE Direct)) 0 = 4%nat /\ quiet (the_opts (CE Direct)) (cn_tab (CE Direct)) model3 (pt evenE) 0 1 4.
Proof.
  destruct (fesdE Direct) as (A & _ & B & D & _). split; [apply problemE|]. split; [apply feasible_even; discriminate|]. split; [exact A|]. split; [apply productE|].
  split; [apply nonneg_pt; reflexivity|]. split; [left; exact B|]. split; [exact D|]. apply even_quiet. discriminate.
Qed.
Lemma same_case : feasible (pt (awayE 1)) (the_nlp (CE Direct)) /\ feasible (pt (awayE 2)) (the_nlp (CE Direct)) /\ initial_nonneg (pt (awayE 1)) /\ initial_nonneg (pt (awayE 2)) /\
  o_equidistant (the_opts (CE Direct)) = true /\ same_switches (the_opts (CE Direct)) (cn_tab (CE Direct)) model3 (pt (awayE 1)) (pt (awayE 2)) /\
  pt (awayE 1) (SX0 0) <> pt (awayE 2) (SX0 0).
Proof.
  destruct (fesdE Direct) as (A & B & _ & D & N & _). split; [exact feasible_away1|]. split; [exact feasible_away2|]. split; [apply nonneg_pt; reflexivity|]. split; [apply nonneg_pt; reflexivity|].
  split; [exact B|]. split; [|val (awayE 1); val (awayE 2); unfold Q2R; cbn; intros X; lra].
  intros c e Hc He. rewrite N in Hc. assert (c = 0)%nat by lia. subst c. rewrite D in He. left. split; [apply away_quiet1|apply away_quiet2]; lia.
Qed.
(* without costs of the user the objective is the penalty *)
Lemma penalty_only o t m oc rho : oc_fq oc = ECst 0 -> oc_fT oc = ECst 0 -> plain_cost o t m oc rho = step_penalty o t m rho.
Proof.
  intros E1 E2. unfold plain_cost, running_cost, step_penalty. rewrite E2. assert (Z : eval (terminal_point o t m rho) (ECst 0) = 0) by (cbn; unfold Q2R; cbn; lra). rewrite Z, Rplus_0_r.
  apply rupto_ext. intros c _. apply rupto_ext. intros e _. assert (S1 : stage_cost o t m oc rho c e = 0).
  { unfold stage_cost. rewrite (rupto_ext _ _ (fun _ => 0)); [apply rupto_all0; reflexivity|]. intros j _. rewrite E1. cbn [eval]. replace (Q2R 0) with 0 by (unfold Q2R; cbn; lra). ring. }
  rewrite S1. ring.
Qed.
Lemma delta_cost v : eval v (cost (the_nlp (CE HeuristicDelta))) = (v (SH 0 1) - v (SH 0 0)) ^ 2 + (v (SH 0 2) - v (SH 0 1)) ^ 2 + (v (SH 0 3) - v (SH 0 2)) ^ 2.
Proof.
  destruct (problemE HeuristicDelta) as (H & E & W). rewrite (cost_exact _ _ _ _ _ _ _ H E W). unfold nlp_cost. destruct (fesdE HeuristicDelta) as (A & _ & B & D & N & L). rewrite L.
  rewrite penalty_only by reflexivity. unfold step_penalty. rewrite N. unfold rupto at 1. cbn [seq map rsum fold_right]. rewrite D. unfold rupto. cbn [seq map rsum fold_right].
  unfold step_cost. rewrite A, B. cbn [Nat.eqb]. unfold delta_h, step_len. rewrite A. replace (o_rho_h (the_opts (CE HeuristicDelta))) with 1%Q by (vm_compute; reflexivity).
  cbn [Nat.sub]. replace (Q2R 1) with 1 by (unfold Q2R; cbn; lra). ring.
Qed.
(* HEURISTIC_DELTA: the grid that is even between the switches is feasible, but another one is cheaper *)
Lemma delta_uneven : exists o m C rho0 rho1, o = optsE HeuristicDelta /\ is_problem o m None C /\ feasible rho0 (the_nlp C) /\ feasible rho1 (the_nlp C) /\
  (forall y, In y (p_p (the_problem C)) -> rho1 y = rho0 y) /\ o_use_fesd (the_opts C) = true /\ o_equidistant (the_opts C) = true /\ nfe_of (the_opts C) 0 = 4%nat /\ product_mode (the_opts C) /\ initial_nonneg rho0 /\
  quiet (the_opts C) (cn_tab C) m rho0 0 1 4 /\ quiet (the_opts C) (cn_tab C) m rho1 0 1 4 /\
  grid_time (the_opts C) rho0 0 1 = / 3 /\ grid_time (the_opts C) rho1 0 1 = / 3 /\ even_grid (the_opts C) rho0 0 1 4 /\ ~ even_grid (the_opts C) rho1 0 1 4 /\
  eval rho1 (cost (the_nlp C)) < eval rho0 (cost (the_nlp C)) /\
  forall v, solution_of C v -> (forall y, In y (p_p (the_problem C)) -> v y = rho0 y) -> v (SH 0 0) = / 3 -> ~ even_grid (the_opts C) v 0 1 4.
Proof.
  exists (optsE HeuristicDelta), model3, (CE HeuristicDelta), (pt evenE), (pt tiltE). destruct (fesdE HeuristicDelta) as (A & B & S & D & N & L).
  assert (LE : forall v e, step_len (the_opts (CE HeuristicDelta)) v 0 e = v (SH 0 e)) by (intros; unfold step_len; rewrite A; reflexivity).
  assert (GT : forall v, grid_time (the_opts (CE HeuristicDelta)) v 0 4 - grid_time (the_opts (CE HeuristicDelta)) v 0 1 = v (SH 0 1) + v (SH 0 2) + v (SH 0 3)).
  { intros v. rewrite grid_between by lia. unfold rbetween, rupto. cbn [Nat.sub seq map rsum fold_right Nat.add]. rewrite !LE. ring. }
  assert (G1 : forall v, grid_time (the_opts (CE HeuristicDelta)) v 0 1 = v (SH 0 0)).
  { intros v. unfold grid_time, rupto. cbn [seq map rsum fold_right]. rewrite LE. ring. }
  assert (I3 : INR (4 - 1) = 3) by (cbn; lra).
  split; [reflexivity|]. split; [apply problemE|]. split; [apply feasible_even; discriminate|]. split; [exact feasible_tilt|].
  split; [intros y Hy; unfold pt; f_equal; revert y Hy; apply Forall_forall; vm_compute; repeat constructor|].
  split; [exact A|]. split; [exact B|]. split; [exact D|]. split; [apply productE|]. split; [apply nonneg_pt; reflexivity|].
  split; [apply even_quiet; discriminate|]. split; [exact tilt_quiet|]. split; [rewrite G1; vals evenE|]. split; [rewrite G1; vals tiltE|].
  split. { intros e He. rewrite GT, I3, LE. destruct e as [|[|[|[|e]]]]; try lia; vals evenE. }
  split. { intros Ev. specialize (Ev 1%nat ltac:(lia)). rewrite GT, I3, LE in Ev. revert Ev. val tiltE. unfold Q2R. cbn. lra. }
  split. { rewrite !delta_cost. val evenE. val tiltE. unfold Q2R. cbn. lra. }
  intros v [Fv Mv] Pv Hv Ev. pose proof (Ev 1%nat ltac:(lia)) as E1. pose proof (Ev 2%nat ltac:(lia)) as E2. pose proof (Ev 3%nat ltac:(lia)) as E3.
  rewrite GT, I3, LE in E1, E2, E3.
  assert (Tot : v (SH 0 0) + v (SH 0 1) + v (SH 0 2) + v (SH 0 3) = 1).
  { pose proof (stage_known _ _ _ _ _ _ _ (problemE HeuristicDelta) v 0 Fv B) as K. rewrite N in K. specialize (K ltac:(lia)). unfold stage_length, rupto in K. rewrite D in K. cbn [seq map rsum fold_right] in K.
    rewrite !LE in K. unfold T in K. replace (o_terminal_time (the_opts (CE HeuristicDelta))) with 1%Q in K by (vm_compute; reflexivity). replace (Q2R 1) with 1 in K by (unfold Q2R; cbn; lra). cbn in K. lra. }
  assert (Tl : eval v (cost (the_nlp (CE HeuristicDelta))) <= eval (pt tiltE) (cost (the_nlp (CE HeuristicDelta)))).
  { apply Mv; [exact feasible_tilt|]. intros y Hy. rewrite (Pv y Hy). unfold pt. f_equal. revert y Hy. apply Forall_forall. vm_compute. repeat constructor. }
  rewrite !delta_cost in Tl. revert Tl. val tiltE. assert (v (SH 0 1) = 2 / 9) by lra. assert (v (SH 0 2) = 2 / 9) by lra. assert (v (SH 0 3) = 2 / 9) by lra. rewrite Hv, H, H0, H1. unfold Q2R. cbn. lra.
Qed.

(* HEURISTIC_MEAN without costs of the user: minimizers are even wherever the even grid is possible *)
Lemma rupto_inside n a b f : (a <= b <= n)%nat -> (forall k, (k < n)%nat -> ~ (a <= k < b)%nat -> f k = 0) -> rupto n f = rbetween a b f.
Proof.
  intros [Hab Hbn] Z. induction Hbn as [|n Hbn IH].
  - clear - Hab Z. induction Hab as [|b Hab IH].
    + rewrite rbetween_empty. rewrite (rupto_ext a f (fun _ => 0)) by (intros k Hk; apply Z; lia). apply rupto_all0. reflexivity.
    + assert (X : rupto a f = 0) by (rewrite (rupto_ext a f (fun _ => 0)) by (intros k Hk; apply Z; lia); apply rupto_all0; reflexivity).
      assert (Y : forall b, (a <= b)%nat -> rupto b f = rupto a f + rbetween a b f).
      { intros b' Hb'. induction Hb' as [|b' Hb' IH']; [rewrite rbetween_empty; ring|]. rewrite rupto_succ, IH', rbetween_S by exact Hb'. ring. }
      rewrite Y by lia. rewrite X. ring.
  - rewrite rupto_succ, IH, (Z n) by (try lia; intros; apply Z; lia). ring.
Qed.
Lemma mean_solution lr cp d o m oc C rho rho' c a b : fesd_problem lr cp d o m oc C -> o_use_fesd (the_opts C) = true -> o_step_eq (the_opts C) = HeuristicMean ->
  (0 < o_rho_h (the_opts C))%Q -> elastic (the_opts C) = false -> oc_fq (the_ocp oc) = ECst 0 -> oc_fT (the_ocp oc) = ECst 0 ->
  solution_of C rho -> feasible rho' (the_nlp C) -> (forall y, In y (p_p (the_problem C)) -> rho' y = rho y) ->
  (c < o_N_stages (the_opts C))%nat -> (a < b <= nfe_of (the_opts C) c)%nat ->
  (forall c' e, is_element (the_opts C) c' e -> ~ (c' = c /\ (a <= e < b)%nat) -> step_len (the_opts C) rho' c' e = step_len (the_opts C) rho c' e) ->
  grid_time (the_opts C) rho' c b = grid_time (the_opts C) rho c b -> even_grid (the_opts C) rho' c a b -> even_grid (the_opts C) rho c a b.
Proof.
  intros (H & E & W) Hf Es Hr El E1 E2 [F M] F' Pa Hc [Hab Hb] Out Gb Ev. set (O := the_opts C) in *. set (t := cn_tab C).
  assert (Ga : grid_time O rho' c a = grid_time O rho c a).
  { unfold grid_time. f_equal; [apply rupto_ext; intros k Hk; unfold stage_length; apply rupto_ext; intros e He; apply Out; [split; [lia|exact He]|lia]|].
    apply rupto_ext. intros e He. apply Out; [split; [exact Hc|lia]|lia]. }
  apply (mean_least O t m rho' rho c a b Hf Es Hr Hab Ga Gb Ev).
  pose proof (M rho' F' Pa) as L. rewrite !(cost_exact _ _ _ _ _ _ _ H E W) in L. unfold nlp_cost in L. fold O t in L. rewrite El, !penalty_only in L by assumption.
  assert (Same : forall c' e, is_element O c' e -> ~ (c' = c /\ (a <= e < b)%nat) -> step_cost O t m rho c' e - step_cost O t m rho' c' e = 0).
  { intros c' e I N. unfold step_cost. rewrite Hf, Es, (Out c' e I N). ring. }
  assert (Df : step_penalty O t m rho - step_penalty O t m rho' = rbetween a b (fun e => step_cost O t m rho c e - step_cost O t m rho' c e)).
  { unfold step_penalty. rewrite <- rupto_minus. rewrite (rupto_single _ _ c Hc).
    - rewrite <- rupto_minus. apply rupto_inside; [lia|]. intros k Hk N. apply Same; [split; assumption|]. intros [_ X]. contradiction.
    - intros k Hk N. rewrite <- rupto_minus, (rupto_ext _ _ (fun _ => 0)); [apply rupto_all0; reflexivity|]. intros e He. apply Same; [split; assumption|]. intros [X _]. contradiction. }
  assert (Db : rbetween a b (fun e => step_cost O t m rho c e - step_cost O t m rho' c e) = rbetween a b (step_cost O t m rho c) - rbetween a b (step_cost O t m rho' c)) by apply rupto_minus.
  lra.
Qed.
(* four equal steps from 1 minimize the penalty *)
Lemma mean_case : is_problem (optsE HeuristicMean) model3 None (CE HeuristicMean) /\ (0 < o_rho_h (the_opts (CE HeuristicMean)))%Q /\ elastic (the_opts (CE HeuristicMean)) = false /\
  oc_fq (the_ocp None) = ECst 0 /\ oc_fT (the_ocp None) = ECst 0 /\ solution_of (CE HeuristicMean) (pt (awayE 1)) /\ feasible (pt (awayE 1)) (the_nlp (CE HeuristicMean)) /\
  even_grid (the_opts (CE HeuristicMean)) (pt (awayE 1)) 0 0 4.
Proof.
  destruct (fesdE HeuristicMean) as (A & B & S & D & N & L). split; [apply problemE|]. split; [vm_compute; reflexivity|]. split; [exact L|]. split; [reflexivity|]. split; [reflexivity|].
  assert (F : feasible (pt (awayE 1)) (the_nlp (CE HeuristicMean))) by (apply (feasibleQ (ptQ (awayE 1))); vm_compute; reflexivity).
  split; [|split; [exact F|]].
  - split; [exact F|]. intros v _ _. assert (Z : eval (pt (awayE 1)) (cost (the_nlp (CE HeuristicMean))) = 0).
    { change (pt (awayE 1)) with (fun s => Q2R (ptQ (awayE 1) s)). rewrite (evalQ_sound _ _ 0%Q); [unfold Q2R; cbn; lra|vm_compute; reflexivity]. }
    rewrite Z. destruct (problemE HeuristicMean) as (H & E & W). rewrite (cost_exact _ _ _ _ _ _ _ H E W). unfold nlp_cost. rewrite L, penalty_only by reflexivity.
    apply rupto_nonneg. intros c Hc. apply rupto_nonneg. intros e He. unfold step_cost. rewrite A, S. replace (o_rho_h (the_opts (CE HeuristicMean))) with 1%Q by (vm_compute; reflexivity).
    replace (Q2R 1) with 1 by (unfold Q2R; cbn; lra). rewrite Rmult_1_l. apply pow2_ge_0.
  - apply equal_even. intros e He. unfold step_len. rewrite A. destruct e as [|[|[|[|e]]]]; try lia; vals (awayE 1).
Qed.
