(* Unused_proofs.v -- switching functions without subsystem *)
From Coq Require Import Reals Qreals.
From Verif Require Import Base Lib Sx Utils Tableau Opts Model Ocp Problem Rk4 Numeric Results Solver Spec Cases Fesd Spec2 Spec3 Witness2 Dcs_proofs Option_proofs Check2_proofs Witness Spec39.

Lemma bind_ext {A B} (r : res A) (k k' : A -> res B) : (forall a, r = Ok a -> k a = k' a) -> bind r k = bind r k'.
Proof. intros H. destruct r; cbn; [apply H; reflexivity|reflexivity]. Qed.
Lemma foldM_same_in {A B} (f h : A -> B -> res A) l : (forall a x, In x l -> f a x = h a x) -> forall a, foldM f l a = foldM h l a.
Proof. induction l as [|x l IH]; intros H a; [reflexivity|]. cbn. rewrite (H a x (or_introl eq_refl)). apply bind_ext. intros b _. apply IH. intros; apply H; right; assumption. Qed.
Lemma combine_same {A B} (l : list A) : forall (a b : list B), same_start (length l) a b -> combine l a = combine l b.
Proof.
  induction l as [|x l IH]; intros a b H; [reflexivity|]. pose proof (H 0 ltac:(cbn; lia)) as H0.
  destruct a as [|y a], b as [|z b]; cbn in *; try discriminate; [reflexivity|]. injection H0 as ->. f_equal. apply IH. intros i Hi. exact (H (S i) ltac:(cbn; lia)).
Qed.

Section Unused.
Variables (o : opts) (m : model) (F : list fmat) (c c' : list (list expr)) (Sl Sl' : list (list (list Q))).
Hypotheses (EF : m_F m = Some F) (Ec : m_c m = Some c) (ES : m_S m = Some Sl) (L : length c = length Sl) (L' : length c' = length Sl').
Hypotheses (Hc : same_start (length F) c' c) (HS : same_start (length F) Sl' Sl).
Notation m' := (with_switch m c' Sl').
Lemma nthc e i : In i (seq 0 (length F)) -> nthE e c' i = nthE e c i. Proof. intros H. apply in_seq in H. unfold nthE. rewrite Hc by lia. reflexivity. Qed.
Lemma nthS e i : In i (seq 0 (length F)) -> nthE e Sl' i = nthE e Sl i. Proof. intros H. apply in_seq in H. unfold nthE. rewrite HS by lia. reflexivity. Qed.
Lemma same_nc : get_nc m' (length F) = get_nc m (length F).
Proof.
  unfold get_nc. change (gS_truthy m') with (gS_truthy m). destruct (gS_truthy m); [reflexivity|]. rewrite Ec. cbn [opt_res bind m_c with_switch].
  apply mapM_same. intros i Hi. rewrite nthc by exact Hi. reflexivity.
Qed.
Lemma same_sanity : sanity_checks o m' (length F) = sanity_checks o m (length F).
Proof.
  unfold sanity_checks. change (m_F m') with (m_F m). rewrite EF. change (gS_truthy m') with (gS_truthy m). change (m_gS m') with (m_gS m).
  destruct (gS_truthy m); [reflexivity|]. rewrite Ec, ES. cbn [opt_res m_c m_S with_switch]. 
  apply bind_ext. intros _ _. apply bind_ext. intros _ _. cbn [bind]. rewrite L, L', !Nat.eqb_refl. cbn [guard bind].
  rewrite (combine_same _ Sl' Sl) by (rewrite map_length; exact HS). reflexivity.
Qed.
Lemma same_gS : gS_list m' (length F) = gS_list m (length F).
Proof.
  unfold gS_list. change (gS_truthy m') with (gS_truthy m). destruct (gS_truthy m); [reflexivity|]. rewrite Ec, ES. cbn [opt_res bind m_c m_S with_switch].
  apply mapM_same. intros i Hi. rewrite nthc, nthS by exact Hi. reflexivity.
Qed.
Lemma same_upsilon al : get_upsilon m' al (length F) = get_upsilon m al (length F).
Proof.
  unfold get_upsilon. rewrite ES. cbn [opt_res bind m_S with_switch]. rewrite (mapM_same _ (fun i => do* Si <- nthE EIndexError Sl i; do* ai <- nthE EIndexError al i; upsilon_col Si (vars ai))); [reflexivity|].
  intros i Hi. rewrite nthS by exact Hi. reflexivity.
Qed.
Lemma same_step ups al nc d : foldM (step_step (Some F) ups c' al nc) (seq 0 (length F)) d = foldM (step_step (Some F) ups c al nc) (seq 0 (length F)) d.
Proof.
  apply foldM_same_in. intros a i Hi. unfold step_step. apply bind_ext. intros fx _. apply bind_ext. intros x _. rewrite nthc by exact Hi. reflexivity.
Qed.
Lemma unused pm : preprocess_model o m = Ok pm -> preprocess_model o m' = Ok (stored_in pm (with_switch (pm_m pm) c' Sl')).
Proof.
  unfold preprocess_model. change (m_F m') with (m_F m). rewrite EF. cbn [bind]. rewrite same_nc, same_sanity, same_gS, Ec. cbn [m_c with_switch opt_res].
  change (m_z0 m') with (m_z0 m). change (m_lbz m') with (m_lbz m). change (m_ubz m') with (m_ubz m). change (m_nz m') with (m_nz m). 
  change (m_pg_val m') with (m_pg_val m). change (m_npg m') with (m_npg m). change (m_ptv_val m') with (m_ptv_val m). change (m_npt m') with (m_npt m).
  change (m_alpha m') with (m_alpha m). change (m_nx m') with (m_nx m). change (m_gz m') with (m_gz m). change (m_tvar m') with (m_tvar m).
  change (mx m') with (mx m). change (mz m') with (mz m). change (mp m') with (mp m). change (mu_ m') with (mu_ m). change (mvg m') with (mvg m).
  destruct (o_pss o); cbn [bind]; intros H;
    repeat (apply Base.bind_ok in H; let E := fresh "E" in destruct H as (? & E & H); rewrite ?same_upsilon, ?same_step; rewrite E; clear E; cbn [bind]);
    injection H as <-; reflexivity.
Qed.
Lemma pm_facts pm : preprocess_model o m = Ok pm -> pm_nsys pm = length F /\ m_F (pm_m pm) = Some F /\ m_c (pm_m pm) = Some c /\ m_S (pm_m pm) = Some Sl.
Proof.
  unfold preprocess_model. rewrite EF. cbn [bind]. intros H.
  repeat (apply Base.bind_ok in H; destruct H as (? & _ & H)). injection H as <-. cbn. auto.
Qed.
Lemma same_smooth pm s : preprocess_model o m = Ok pm -> add_smooth_step_representation (stored_in pm (with_switch (pm_m pm) c' Sl')) s = add_smooth_step_representation pm s.
Proof.
  intros H. destruct (pm_facts pm H) as (N & F1 & F2 & F3). unfold add_smooth_step_representation, gS_list. cbn [stored_in pm_m pm_nsys pm_nc].
  change (gS_truthy (with_switch (pm_m pm) c' Sl')) with (gS_truthy (pm_m pm)). cbn [with_switch m_c m_S m_gS m_F m_nx]. rewrite N, F1, F2, F3. cbn [opt_res bind].
  change (mx (with_switch (pm_m pm) c' Sl')) with (mx (pm_m pm)). change (mp (with_switch (pm_m pm) c' Sl')) with (mp (pm_m pm)).
  apply bind_ext. intros ? G. apply bind_ext. intros _ _. apply guard_true in G. destruct (gS_truthy (pm_m pm)); [discriminate|].
  rewrite (mapM_same _ (fun i => do* Si <- nthE EIndexError Sl i; do* ci <- nthE EIndexError c i; neg_S_c Si ci)) by (intros i Hi; rewrite nthc, nthS by exact Hi; reflexivity).
  apply bind_ext. intros gSl _.
  rewrite (mapM_same _ (fun ii => do* ci <- nthE EIndexError c ii; do* Si <- nthE EIndexError Sl ii; do* nci <- nthE EIndexError (pm_nc pm) ii;
    mapM (fun row => theta_smooth_entry nci row (map (smooth_step s) ci)) Si)) by (intros i Hi; rewrite nthc, nthS by exact Hi; reflexivity).
  reflexivity.
Qed.
End Unused.
Lemma sbind_ext {S A B} (r : se S A) (k k' : A -> se S B) s : (forall a s', k a s' = k' a s') -> sbind r k s = sbind r k' s.
Proof. intros H. unfold sbind. destruct (r s) as [s' [a|e]]; [apply H|reflexivity]. Qed.
Lemma sbind_ext2 {S A B} (r r' : se S A) (k k' : A -> se S B) s : (forall s, r s = r' s) -> (forall a s', k a s' = k' a s') -> sbind r k s = sbind r' k' s.
Proof. intros R H. unfold sbind. rewrite R. destruct (r' s) as [s' [a|e]]; [apply H|reflexivity]. Qed.
Section Same.
Variables (o : opts) (t : tab) (pm : pmodel) (c : list (list expr)) (Sl : list (list (list Q))).
Notation pm' := (stored_in pm (with_switch (pm_m pm) c Sl)).
Lemma ocp_same oc : preprocess_ocp pm' oc = preprocess_ocp pm oc. Proof. reflexivity. Qed.
Lemma body_same oc : problem_body o t pm' oc = problem_body o t pm oc. Proof. reflexivity. Qed.
Definition restored (P : problem) : problem := mkProblem (pr_o P) (stored_in (pr_pm P) (with_switch (pm_m (pr_pm P)) c Sl)) (pr P) (pr_cost_fun P) (pr_comp_res P) (pr_g_fun P) (pr_w0_original P) (pr_ocp_trivial P).
Lemma problem_same oc P : nosnoc_problem o t pm oc = Ok P -> nosnoc_problem o t pm' oc = Ok (restored P).
Proof.
  unfold nosnoc_problem. rewrite ocp_same. intros H. apply Base.bind_ok in H. destruct H as (x & E & H). rewrite E. cbn [bind]. rewrite body_same.
  repeat (apply Base.bind_ok in H; let E := fresh "E" in destruct H as (? & E & H); rewrite E; clear E; cbn [bind]). injection H as <-. reflexivity.
Qed.
Definition rebuilt (C : constructed) : constructed := mkCon (cn_dict C) (cn_tab C) (cn_smooth C) (restored (cn_prob C)).
Lemma set_same C fv s : set (rebuilt C) fv s = set C fv s. Proof. reflexivity. Qed.
Lemma initial_same C : initial_state (rebuilt C) = initial_state C. Proof. reflexivity. Qed.
Lemma homotopy_same nlp C lam lb ub n : forall sigma w s, homotopy nlp (rebuilt C) lam lb ub n sigma w s = homotopy nlp C lam lb ub n sigma w s.
Proof.
  induction n as [|n IH]; intros sigma w s; [reflexivity|]. cbn [homotopy].
  repeat (apply sbind_ext; intros).
  change (pr_o (cn_prob (rebuilt C))) with (pr_o (cn_prob C)). destruct (Rltb _ _); [reflexivity|]. destruct (Rleb _ _); [reflexivity|].
  apply sbind_ext; intros. apply sbind_ext2; [intros; apply IH|]. reflexivity.
Qed.
Lemma rk4_same C sm grid n : forall i x s, rk4_elements (rebuilt C) sm grid n i x s = rk4_elements C sm grid n i x s.
Proof. induction n as [|n IH]; intros i x s; [reflexivity|]. cbn [rk4_elements]. repeat (apply sbind_ext; intros). apply IH. Qed.
Lemma initialize_same C s : initialize (rebuilt C) s = initialize C s.
Proof.
  unfold initialize. apply sbind_ext; intros. apply sbind_ext; intros. apply sbind_ext2; [|reflexivity]. intros s2. change (pr_o (cn_prob (rebuilt C))) with (pr_o (cn_prob C)). destruct (o_init (pr_o (cn_prob C))); try reflexivity.
  repeat (apply sbind_ext; intros). apply rk4_same.
Qed.
Lemma solve_same nlp C s : solve nlp (rebuilt C) s = solve nlp C s.
Proof.
  unfold solve. apply sbind_ext2; [exact (initialize_same C)|]. intros lam s1. apply sbind_ext; intros. apply sbind_ext; intros st s2. destruct st as [[w1 lb] ub].
  apply sbind_ext2; [intros; apply homotopy_same|]. reflexivity.
Qed.
Lemma history_same nlp C l : history nlp (rebuilt C) l = history nlp C l.
Proof.
  unfold history. rewrite initial_same. generalize (initial_state C). induction l as [|a l IH]; intros s; [reflexivity|]. cbn [fold_left].
  replace (act nlp (rebuilt C) s a) with (act nlp C s a); [apply IH|]. destruct a as [fv|]; cbn [act]; [rewrite set_same|rewrite solve_same]; reflexivity.
Qed.
End Same.
Lemma unused_nlp lr cp d o m F c c' Sl Sl' oc C : m_F m = Some F -> m_c m = Some c -> m_S m = Some Sl -> length c = length Sl -> length c' = length Sl' ->
  same_start (length F) c' c -> same_start (length F) Sl' Sl -> construct_problem lr cp d o m oc = Ok C ->
  exists C', construct_problem lr cp d o (with_switch m c' Sl') oc = Ok C' /\ the_problem C' = the_problem C /\ initial_state C' = initial_state C /\
    (forall fv s, set C' fv s = set C fv s) /\ (forall nlp s, solve nlp C' s = solve nlp C s) /\ forall nlp l, history nlp C' l = history nlp C l.
Proof.
  intros EF Ec ES L L' Hc HS H. exists (rebuilt c' Sl' C).
  split; [|split; [reflexivity|]; split; [apply initial_same|]; split; [intros; apply set_same|]; split; [intros; apply solve_same|intros; apply history_same]].
  unfold construct_problem in *. apply Base.bind_ok in H. destruct H as (((d', o'), t) & E & H). rewrite E. cbn [bind]. clear E.
  apply Base.bind_ok in H. destruct H as (pm & E & H). rewrite (unused o' m F c c' Sl Sl' EF Ec ES L L' Hc HS pm E). cbn [bind].
  apply Base.bind_ok in H. destruct H as (sm & E2 & H).
  rewrite (same_smooth o' m F c c' Sl Sl' EF Ec ES L L' Hc HS pm (o_smoothing o') E). rewrite E2. cbn [bind].
  apply Base.bind_ok in H. destruct H as (P & E3 & H). rewrite (problem_same o' t pm c' Sl' oc P E3). cbn [bind]. injection H as <-. reflexivity.
Qed.
Lemma unused_case : build optsS model3 None = Ok CS /\ m_F model3 = Some [mkFmat 1 [[cq 3]; [cq 1]]] /\ same_start 1 [[cx 0]; [EUn UNeg (cx 0); cx 0]] [[cx 0]] /\
  same_start 1 [[[(-1)%Q]; [1%Q]]; [[0%Q; 1%Q]]] [[[(-1)%Q]; [1%Q]]].
Proof. split; [exact builtS|]. split; [reflexivity|]. split; intros [|i] H; try reflexivity; lia. Qed.
