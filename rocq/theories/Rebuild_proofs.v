(* Rebuild_proofs.v -- setting parameters and building the solver with other parameter values *)
From Coq Require Import Reals Qreals Lra.
From Verif Require Import Base Lib Sx Utils Tableau Opts Model Ocp Problem Rk4 Numeric Results Solver Spec Cases Fesd Spec2 Spec5 Set_proofs Field2_proofs Unused_proofs Witness Atomic2_proofs Spec40.

Section Same.
Variables (ptv : list (list Q)) (pg : list Q).
Definition valued (pm : pmodel) : pmodel :=
  mkPmodel (with_values (pm_m pm) ptv pg) (pm_nsys pm) (pm_nc pm) (pm_nf pm) (pm_z0 pm) (pm_lbz pm) (pm_ubz pm) (map (fun row => row ++ pg) ptv) (pm_zall pm) (pm_fx_fun pm) (pm_gsw_fun pm) (pm_gz_fun pm) (pm_t_fun pm)
    (pm_lam00_fun pm) (pm_compl_fun pm) (pm_mu00_fun pm) (pm_gS_fun pm).
Lemma valued_ocp pm oc : preprocess_ocp (valued pm) oc = preprocess_ocp pm oc. Proof. reflexivity. Qed.
Lemma valued_body o t pm oc : problem_body o t (valued pm) oc = problem_body o t pm oc. Proof. reflexivity. Qed.
Lemma valued_smooth pm s : add_smooth_step_representation (valued pm) s = add_smooth_step_representation pm s. Proof. reflexivity. Qed.
Definition valued_problem (P : problem) : problem := mkProblem (pr_o P) (valued (pr_pm P)) (pr P) (pr_cost_fun P) (pr_comp_res P) (pr_g_fun P) (pr_w0_original P) (pr_ocp_trivial P).
Lemma valued_nlp o t pm oc P : nosnoc_problem o t pm oc = Ok P -> nosnoc_problem o t (valued pm) oc = Ok (valued_problem P).
Proof.
  unfold nosnoc_problem. rewrite valued_ocp. intros H. apply Base.bind_ok in H. destruct H as (x & E & H). rewrite E. cbn [bind]. rewrite valued_body.
  repeat (apply Base.bind_ok in H; let E := fresh "E" in destruct H as (? & E & H); rewrite E; clear E; cbn [bind]). injection H as <-. reflexivity.
Qed.
Definition again (C : constructed) : constructed := mkCon (cn_dict C) (cn_tab C) (cn_smooth C) (valued_problem (cn_prob C)).
Lemma set_again C fv s : set (again C) fv s = set C fv s. Proof. reflexivity. Qed.
Lemma homotopy_again nlp C lam lb ub n : forall sigma w s, homotopy nlp (again C) lam lb ub n sigma w s = homotopy nlp C lam lb ub n sigma w s.
Proof.
  induction n as [|n IH]; intros sigma w s; [reflexivity|]. cbn [homotopy].
  repeat (apply sbind_ext; intros).
  change (pr_o (cn_prob (again C))) with (pr_o (cn_prob C)). destruct (Rltb _ _); [reflexivity|]. destruct (Rleb _ _); [reflexivity|].
  apply sbind_ext; intros. apply sbind_ext2; [intros; apply IH|]. reflexivity.
Qed.
Lemma rk4_again C sm grid n : forall i x s, rk4_elements (again C) sm grid n i x s = rk4_elements C sm grid n i x s.
Proof. induction n as [|n IH]; intros i x s; [reflexivity|]. cbn [rk4_elements]. repeat (apply sbind_ext; intros). apply IH. Qed.
Lemma initialize_again C s : initialize (again C) s = initialize C s.
Proof.
  unfold initialize. apply sbind_ext; intros. apply sbind_ext; intros. apply sbind_ext2; [|reflexivity]. intros s2. change (pr_o (cn_prob (again C))) with (pr_o (cn_prob C)). destruct (o_init (pr_o (cn_prob C))); try reflexivity.
  repeat (apply sbind_ext; intros). apply rk4_again.
Qed.
Lemma solve_again nlp C s : solve nlp (again C) s = solve nlp C s.
Proof.
  unfold solve. apply sbind_ext2; [exact (initialize_again C)|]. intros lam s1. apply sbind_ext; intros. apply sbind_ext; intros st s2. destruct st as [[w1 lb] ub].
  apply sbind_ext2; [intros; apply homotopy_again|]. reflexivity.
Qed.
Lemma acts_again nlp C l : forall s, fold_left (act nlp (again C)) l s = fold_left (act nlp C) l s.
Proof.
  induction l as [|a l IH]; intros s; [reflexivity|]. cbn [fold_left].
  replace (act nlp (again C) s a) with (act nlp C s a); [apply IH|]. destruct a as [fv|]; cbn [act]; [rewrite set_again|rewrite solve_again]; reflexivity.
Qed.
Lemma valued_model o m pm : length ptv = o_N_stages o -> (forall r, In r ptv -> length r = m_npt m) -> length pg = m_npg m ->
  preprocess_model o m = Ok pm -> preprocess_model o (with_values m ptv pg) = Ok (valued pm).
Proof.
  intros L R G H. pose (m' := with_values m ptv pg). fold m'. unfold preprocess_model in *.
  change (m_F m') with (m_F m). change (m_fx m') with (m_fx m). change (get_nc m') with (get_nc m). change (sanity_checks o m') with (sanity_checks o m).
  change (m_c m') with (m_c m). change (gS_list m') with (gS_list m). change (get_upsilon m') with (get_upsilon m).
  change (m_z0 m') with (m_z0 m). change (m_lbz m') with (m_lbz m). change (m_ubz m') with (m_ubz m). change (m_nz m') with (m_nz m).
  change (m_pg_val m') with pg. change (m_npg m') with (m_npg m). change (m_ptv_val m') with (Some ptv). change (m_npt m') with (m_npt m).
  change (m_alpha m') with (m_alpha m). change (m_nx m') with (m_nx m). change (m_gz m') with (m_gz m). change (m_tvar m') with (m_tvar m).
  change (mx m') with (mx m). change (mz m') with (mz m). change (mp m') with (mp m). change (mu_ m') with (mu_ m). change (mvg m') with (mvg m).
  do 7 (apply Base.bind_ok in H; let E := fresh "E" in destruct H as (? & E & H); rewrite E; clear E; cbn [bind]).
  rewrite G, Nat.eqb_refl. cbn [guard bind].
  assert (Z : shape_is ptv (o_N_stages o) (m_npt m) = true).
  { unfold shape_is. apply andb_true_intro. split; [apply Nat.eqb_eq; exact L|]. apply forallb_forall. intros r Hr. apply Nat.eqb_eq, R, Hr. }
  rewrite Z. cbn [guard bind].
  do 2 (apply Base.bind_ok in H; destruct H as (? & _ & H)).
  repeat (apply Base.bind_ok in H; let E := fresh "E" in destruct H as (? & E & H); rewrite E; clear E; cbn [bind]).
  injection H as <-. reflexivity.
Qed.
End Same.
Lemma constructed_again lr cp d o m oc C ptv pg : construct_problem lr cp d o m oc = Ok C ->
  length ptv = o_N_stages (the_opts C) -> (forall r, In r ptv -> length r = m_npt m) -> length pg = m_npg m ->
  construct_problem lr cp d o (with_values m ptv pg) oc = Ok (again ptv pg C).
Proof.
  intros H L R G. unfold construct_problem in *. apply Base.bind_ok in H. destruct H as (((d', o'), t) & E & H). rewrite E. cbn [bind]. clear E.
  apply Base.bind_ok in H. destruct H as (pm & E & H). apply Base.bind_ok in H. destruct H as (sm & E2 & H). apply Base.bind_ok in H. destruct H as (P & E3 & H). injection H as <-.
  assert (EO : o_N_stages o' = length ptv).
  { rewrite L. unfold the_opts. cbn [cn_prob]. unfold nosnoc_problem in E3. repeat (apply Base.bind_ok in E3; destruct E3 as (? & _ & E3)). injection E3 as <-. reflexivity. }
  rewrite (valued_model ptv pg o' m pm (eq_sym EO) R G E). cbn [bind]. rewrite valued_smooth, E2. cbn [bind]. rewrite (valued_nlp ptv pg o' t pm oc P E3). reflexivity.
Qed.
Lemma rows_again m ptv pg : (forall r, In r ptv -> length r = m_npt m) -> forall M, length M = length ptv ->
  with_p_global m (reals pg) (with_p_time_var m (map reals ptv) M) = map reals (map (fun row => row ++ pg) ptv).
Proof.
  unfold with_p_global, with_p_time_var. induction ptv as [|r l IH]; intros R M LM; [reflexivity|]. destruct M as [|r0 M]; [discriminate|].
  cbn [map combine fst snd]. replace (reals (r ++ pg)) with (reals r ++ reals pg) by (symmetry; apply map_app). f_equal.
  - rewrite firstn_app. assert (E : length (reals r) = m_npt m) by (unfold reals; rewrite map_length; apply R; left; reflexivity).
    rewrite <- E, Nat.sub_diag, firstn_all, firstn_O, app_nil_r. reflexivity.
  - apply IH; [intros; apply R; right; assumption|injection LM; auto].
Qed.
Lemma start_again lr cp d o m oc C ptv pg nlp : construct_problem lr cp d o m oc = Ok C ->
  length ptv = o_N_stages (the_opts C) -> (forall r, In r ptv -> length r = m_npt m) -> length pg = m_npg m ->
  act nlp C (act nlp C (initial_state C) (ASet (SetPTimeVar (map reals ptv)))) (ASet (SetPGlobal (reals pg))) = initial_state (again ptv pg C).
Proof.
  intros H L R G. pose proof (initial_sized _ _ _ _ _ _ _ H) as Z.
  assert (R' : forall r, In r (map reals ptv) -> length r = m_npt m).
  { intros r Hr. apply in_map_iff in Hr. destruct Hr as (q & <- & Hq). unfold reals. rewrite map_length. apply R, Hq. }
  assert (L' : length (map reals ptv) = o_N_stages (the_opts C)) by (rewrite map_length; exact L).
  assert (Z1 : sized C m (act nlp C (initial_state C) (ASet (SetPTimeVar (map reals ptv))))) by exact (act_sized _ _ _ _ _ _ _ H nlp _ (ASet (SetPTimeVar (map reals ptv))) Logic.I Z).
  cbn [act] in *. rewrite (set_p_time_var_rows _ _ _ _ _ _ _ H _ _ Z L' R') in *. cbn [fst] in *.
  rewrite (set_p_global_rows _ _ _ _ _ _ _ H _ _ Z1) by (unfold reals; rewrite map_length; exact G). cbn [fst ss_pval ss_x0 ss_w0 ss_calls].
  rewrite (rows_again m ptv pg) by (rewrite ?(sz_pval _ _ _ Z), ?L; auto). reflexivity.
Qed.
Lemma rebuild lr cp d o m oc C ptv pg : construct_problem lr cp d o m oc = Ok C ->
  length ptv = o_N_stages (the_opts C) -> (forall r, In r ptv -> length r = m_npt m) -> length pg = m_npg m ->
  exists C', construct_problem lr cp d o (with_values m ptv pg) oc = Ok C' /\ the_problem C' = the_problem C /\
    (forall fv s, set C' fv s = set C fv s) /\ (forall nlp s, solve nlp C' s = solve nlp C s) /\
    forall nlp l, history nlp C' l = history nlp C (ASet (SetPTimeVar (map reals ptv)) :: ASet (SetPGlobal (reals pg)) :: l).
Proof.
  intros H L R G. exists (again ptv pg C). split; [exact (constructed_again _ _ _ _ _ _ _ _ _ H L R G)|]. split; [reflexivity|]. split; [intros; apply set_again|]. split; [intros; apply solve_again|].
  intros nlp l. unfold history. cbn [fold_left]. rewrite (start_again _ _ _ _ _ _ _ _ _ nlp H L R G). apply acts_again.
Qed.
Lemma rebuild_case : build optsB2 model2 None = Ok CB2 /\ length [[3%Q]; [5%Q]] = o_N_stages (the_opts CB2) /\ (forall r, In r [[3%Q]; [5%Q]] -> length r = m_npt model2) /\
  length (@nil Q) = m_npg model2 /\ ss_pval (initial_state CB2) <> map reals [[3%Q]; [5%Q]].
Proof.
  split; [exact builtB2|]. split; [rewrite (proj1 stages2); reflexivity|]. split; [intros r [<-|[<-|[]]]; reflexivity|]. split; [reflexivity|].
  change (ss_pval (initial_state CB2)) with (map reals (pm_pval (pr_pm (cn_prob CB2)))).
  replace (pm_pval (pr_pm (cn_prob CB2))) with [[0%Q]; [0%Q]] by (vm_compute; reflexivity).
  cbn. intros E. injection E as E _. unfold Q2R in E. cbn in E. lra.
Qed.
