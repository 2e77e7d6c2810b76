(* Option3_proofs.v -- solve() depends on the applicable options and on the options of the homotopy only *)
From Coq Require Import Reals FunctionalExtensionality.
From Verif Require Import Base Sx Utils Tableau Opts Model Ocp Problem Spec Numeric Rk4 Results Solver Spec26 Option_proofs.

Section Solver.
Variables (o o' : opts) (d d' : ipopt_dict) (t : tab) (sm : option smooth_funs) (pm : pmodel) (p : prob) (cf rf gf : cafun) (wo : list Q) (tr : bool).
Hypothesis S : same_applicable o o'.
Hypothesis N : o_Nfe_list o = o_Nfe_list o'.
Hypothesis V : same_solver o o'.
Variable nlp : nat -> nlp_call -> res nlp_ret.
Notation Pr := (mkProblem o pm p cf rf gf wo tr).
Notation Pr' := (mkProblem o' pm p cf rf gf wo tr).
Notation C := (mkCon d t sm Pr).
Notation C' := (mkCon d' t sm Pr').
Ltac proj := cbn [cn_dict cn_tab cn_smooth cn_prob pr_o pr_pm pr pr_cost_fun pr_comp_res pr_g_fun pr_w0_original pr_ocp_trivial].
Lemma s_set : set C = set C'.
Proof. unfold set. proj. unfold not_external. rewrite (sa_stages _ _ S), N, (sv_init _ _ V). reflexivity. Qed.
Lemma s_guess : rk4_stage_guess C = rk4_stage_guess C'. Proof. unfold rk4_stage_guess. proj. reflexivity. Qed.
Lemma s_elements s grid n : rk4_elements C s grid n = rk4_elements C' s grid n.
Proof.
  induction n as [|n IH]; [reflexivity|]. extensionality i. extensionality x. cbn [rk4_elements]. proj. rewrite s_guess, (sa_ns _ _ S), IH. reflexivity.
Qed.
Lemma s_elements' : rk4_elements C = rk4_elements C'.
Proof. extensionality s. extensionality g. extensionality n. apply s_elements. Qed.
Lemma s_initialize : initialize C = initialize C'.
Proof. unfold initialize. proj. rewrite s_elements', (sa_stages _ _ S), (sa_nfe _ _ S), (sa_time _ _ S), (sa_ns _ _ S), (sv_init _ _ V). reflexivity. Qed.
Lemma s_sigma : homotopy_sigma_update o = homotopy_sigma_update o'.
Proof.
  unfold homotopy_sigma_update. pose proof (sv_exponent _ _ V) as X. rewrite <- (sv_rule _ _ V). destruct (o_rule o).
  - rewrite (sv_slope _ _ V). reflexivity.
  - rewrite (X eq_refl), (sv_slope _ _ V), (sv_sigma_N _ _ V). reflexivity.
Qed.
Lemma s_comp_res : comp_res_val Pr = comp_res_val Pr'. Proof. reflexivity. Qed.
Lemma s_homotopy lam00 lb ub n : homotopy nlp C lam00 lb ub n = homotopy nlp C' lam00 lb ub n.
Proof.
  induction n as [|n IH]; [reflexivity|]. extensionality sg. extensionality w0. cbn [homotopy]. proj.
  rewrite s_comp_res, (sv_tol _ _ V), (sv_sigma_N _ _ V), s_sigma, IH. reflexivity.
Qed.
Lemma s_homotopy' : homotopy nlp C = homotopy nlp C'.
Proof. extensionality a. extensionality b. extensionality c. extensionality n. apply s_homotopy. Qed.
Lemma s_polish_stage : polish_stage nlp C = polish_stage nlp C'.
Proof. unfold polish_stage. proj. rewrite s_comp_res, N. reflexivity. Qed.
Lemma s_polish : polish_solution nlp C = polish_solution nlp C'.
Proof. unfold polish_solution. proj. rewrite s_polish_stage. unfold polish_bounds. rewrite (sv_tol _ _ V), (sa_stages _ _ S). reflexivity. Qed.
Lemma s_start : start_values o = start_values o'.
Proof.
  unfold start_values, zero_indices, active_lambda. pose proof (sv_fix _ _ V) as X. rewrite <- (sa_pss _ _ S), (sv_tol _ _ V), (sa_ns _ _ S). destruct (o_pss o).
  - rewrite (X eq_refl). reflexivity.
  - rewrite !Bool.andb_false_r. reflexivity.
Qed.
Lemma s_get_results : get_results Pr = get_results Pr'.
Proof.
  unfold get_results. proj. unfold time_steps_of. rewrite (sa_fesd _ _ S), (sa_stages _ _ S), (sa_time _ _ S), N, (sa_sot _ _ S), (sa_pss _ _ S). reflexivity.
Qed.
Lemma s_solve : solve nlp C = solve nlp C'.
Proof.
  unfold solve. proj. rewrite s_initialize, s_start, s_homotopy', s_polish, s_get_results, (sv_iter _ _ V), (sv_sigma _ _ V), (sv_polish _ _ V), (sv_init _ _ V). reflexivity.
Qed.
Lemma s_history l : history nlp C l = history nlp C' l.
Proof.
  unfold history. assert (A : act nlp C = act nlp C') by (unfold act; rewrite s_set, s_solve; reflexivity). rewrite A. reflexivity.
Qed.
End Solver.

Section Final.
Variables (lr : Q -> Q -> Q -> nat) (cp : nat -> scheme -> list Q) (o o' : opts) (m : model) (oc : option ocp) (d : ipopt_dict).
Hypothesis S : same_applicable o o'.
Hypothesis V : same_solver o o'.
Definition dict_of (o : opts) : ipopt_dict := match ip_tol d with None => set_tol_ipopt d (o_comp_tol o * (1 # 100))%Q | Some _ => d end.
Definition passes_of (o : opts) : nat :=
  if Nat.eqb (o_max_iter_homotopy o) 0 then (lr (o_comp_tol o) (o_sigma_0 o) (o_slope o) + 1)%nat else o_max_iter_homotopy o.
Lemma preprocess_with q : preprocess lr cp d q = (do* t <- make_tab cp (pre q (passes_of q)); Ok (dict_of q, pre q (passes_of q), t)).
Proof. reflexivity. Qed.
Lemma passes_same : passes_of o = passes_of o'.
Proof. unfold passes_of. rewrite (sv_iter _ _ V), (sv_tol _ _ V), (sv_sigma _ _ V), (sv_slope _ _ V). reflexivity. Qed.
Lemma pre_solver it : same_solver (pre o it) (pre o' it).
Proof. pose proof V as V'. destruct V'. constructor; try assumption; reflexivity. Qed.
Lemma same_solve C : construct_problem lr cp d o m oc = Ok C ->
  exists C', construct_problem lr cp d o' m oc = Ok C' /\ cn_dict C' = cn_dict C /\
    forall nlp l, history nlp C' l = history nlp C l /\ solve nlp C' (history nlp C' l) = solve nlp C (history nlp C l).
Proof.
  unfold construct_problem. rewrite !preprocess_with, <- passes_same. set (it := passes_of o).
  pose proof (pre_same o o' it it S) as S'. assert (N : o_Nfe_list (pre o it) = o_Nfe_list (pre o' it)) by exact (sa_elements _ _ S).
  pose proof (pre_solver it) as V'.
  rewrite <- (s_tab _ _ S' cp). destruct (make_tab cp (pre o it)) as [t|]; [|discriminate]. cbn [bind]. rewrite <- (s_model _ _ S').
  destruct (preprocess_model (pre o it) m) as [pm|]; [|discriminate]. cbn [bind].
  assert (D : dict_of o' = dict_of o) by (unfold dict_of; rewrite (sv_tol _ _ V); reflexivity). rewrite D.
  assert (M : (match o_init (pre o' it) with Rk4Smoothened => do* s <- add_smooth_step_representation pm (o_smoothing (pre o' it)); Ok (Some s) | _ => Ok None end) =
              (match o_init (pre o it) with Rk4Smoothened => do* s <- add_smooth_step_representation pm (o_smoothing (pre o it)); Ok (Some s) | _ => Ok None end)).
  { rewrite <- (sv_init _ _ V'). pose proof (sv_smoothing _ _ V') as X. destruct (o_init (pre o it)); try reflexivity. rewrite (X eq_refl). reflexivity. }
  rewrite M. clear M. destruct (match o_init (pre o it) with Rk4Smoothened => _ | _ => _ end) as [sm|]; [|discriminate]. cbn [bind].
  rewrite (s_problem _ _ S' N t pm oc). destruct (nosnoc_problem (pre o it) t pm oc) as [q|] eqn:Eq; [|discriminate]. cbn [bind].
  intros H. injection H as <-.
  assert (Eo : pr_o q = pre o it).
  { unfold nosnoc_problem in Eq. destruct (preprocess_ocp pm _) as [poc|]; [|discriminate]. cbn [bind] in Eq. destruct (problem_body (pre o it) t pm poc) as [P|]; [|discriminate].
    cbn [bind] in Eq. destruct (mkfun _ [cost (pb P)]) as [cf|]; [|discriminate]. cbn [bind] in Eq. destruct (mkfun _ [p_J_comp P]) as [rf|]; [|discriminate].
    cbn [bind] in Eq. destruct (mkfun _ (g (pb P))) as [gf|]; [|discriminate]. cbn [bind] in Eq. destruct (lsq (pre o it) P) as [P'|]; [|discriminate].
    injection Eq as <-. reflexivity. }
  eexists. split; [reflexivity|]. split; [reflexivity|]. intros nlp l.
  destruct q as [oq pmq P cf rf gf wo tr]. cbn [pr_o] in Eo. subst oq. unfold renamed. cbn [pr_pm pr pr_cost_fun pr_comp_res pr_g_fun pr_w0_original pr_ocp_trivial].
  rewrite <- (s_history _ _ (dict_of o) (dict_of o) t sm pmq P cf rf gf wo tr S' N V' nlp l).
  rewrite <- (s_solve _ _ (dict_of o) (dict_of o) t sm pmq P cf rf gf wo tr S' N V' nlp). split; reflexivity.
Qed.
End Final.
