(* Option_proofs.v -- the NLP depends on the applicable options only *)
From Coq Require Import Reals.
From Verif Require Import Base Sx Utils Tableau Opts Model Ocp Problem Spec Spec26.

(* after preprocess() *)
Section Same.
Variables o o' : opts.
Hypothesis S : same_applicable o o'.
Hypothesis N : o_Nfe_list o = o_Nfe_list o'.
Lemma s_create_complementarity : create_complementarity o = create_complementarity o'.
Proof.
  unfold create_complementarity. pose proof (sa_fb _ _ S) as F. rewrite <- (sa_mpcc _ _ S). destruct (o_mpcc o); try reflexivity.
  destruct (F eq_refl) as [-> ->]. reflexivity.
Qed.
Lemma s_fe0_decls : fe0_decls o = fe0_decls o'. Proof. unfold fe0_decls. rewrite (sa_pss _ _ S). reflexivity. Qed.
Lemma s_fe_zero : fe_zero o = fe_zero o'. Proof. unfold fe_zero. rewrite s_fe0_decls. reflexivity. Qed.
Lemma s_create_rbp : create_rbp o = create_rbp o'. Proof. unfold create_rbp. rewrite (sa_fesd _ _ S). reflexivity. Qed.
Lemma s_nx_slots : nx_slots o = nx_slots o'. Proof. unfold nx_slots. rewrite (sa_repr _ _ S), (sa_ns _ _ S). reflexivity. Qed.
Lemma s_dual_floor : dual_floor o = dual_floor o'. Proof. unfold dual_floor. rewrite (sa_mpcc _ _ S). reflexivity. Qed.
Lemma s_has_v : has_v o = has_v o'. Proof. unfold has_v. rewrite (sa_repr _ _ S). reflexivity. Qed.
Lemma s_has_xstage : has_xstage o = has_xstage o'. Proof. unfold has_xstage. rewrite (sa_repr _ _ S). reflexivity. Qed.
Lemma s_has_xend : has_xend o = has_xend o'. Proof. unfold has_xend. rewrite (sa_repr _ _ S). reflexivity. Qed.
Lemma s_h_nominal : h_nominal o = h_nominal o'. Proof. unfold h_nominal. rewrite (sa_time _ _ S), (sa_stages _ _ S). reflexivity. Qed.
(* sigma_0 is read for theta and lambda only *)
Lemma s_fam_decl : o_pss o = Stewart -> fam_decl o = fam_decl o'.
Proof. intros E. unfold fam_decl. rewrite s_dual_floor, (sa_sigma _ _ S E). reflexivity. Qed.
Lemma s_stage_fams : stage_fams o = stage_fams o'. Proof. unfold stage_fams. rewrite (sa_pss _ _ S). reflexivity. Qed.
Lemma s_boundary_fams : boundary_fams o = boundary_fams o'. Proof. unfold boundary_fams. rewrite (sa_pss _ _ S). reflexivity. Qed.
Lemma s_step_decl pm c e st f s : f <> FTheta -> f <> FLam -> fam_decl o pm c e st f s = fam_decl o' pm c e st f s.
Proof. intros H1 H2. unfold fam_decl. rewrite s_dual_floor. destruct f; try reflexivity; contradiction. Qed.
Lemma mapM_same {A B} (f h : A -> res B) l : (forall x, In x l -> f x = h x) -> mapM f l = mapM h l.
Proof. induction l as [|x l IH]; intros H; [reflexivity|]. cbn. rewrite (H x (or_introl eq_refl)), IH; [reflexivity|]. intros y Hy. apply H. right. exact Hy. Qed.
Lemma s_fam_decls pm c e st f : In f (stage_fams o) \/ In f (boundary_fams o) -> fam_decls o pm c e st f = fam_decls o' pm c e st f.
Proof.
  intros H. unfold fam_decls. destruct (o_pss o) eqn:E; [rewrite (s_fam_decl E); reflexivity|]. apply mapM_same. intros s _. apply s_step_decl.
  - intros ->. unfold stage_fams, boundary_fams in H. rewrite E in H. cbn in H. intuition discriminate.
  - intros ->. unfold stage_fams, boundary_fams in H. rewrite E in H. cbn in H. intuition discriminate.
Qed.
Lemma s_stage_decls pm oc c e i : stage_decls o pm oc c e i = stage_decls o' pm oc c e i.
Proof.
  unfold stage_decls. rewrite s_has_v, s_has_xstage, <- s_stage_fams. rewrite (mapM_same (fam_decls o pm c e i) (fam_decls o' pm c e i)); [reflexivity|].
  intros f Hf. apply s_fam_decls. left. exact Hf.
Qed.
Lemma s_fe_decls t pm oc c e n : fe_decls o t pm oc c e n = fe_decls o' t pm oc c e n.
Proof.
  unfold fe_decls. rewrite s_h_nominal, s_create_rbp, s_nx_slots, s_has_xend, <- s_boundary_fams. rewrite <- (sa_ns _ _ S).
  rewrite (mapM_same (stage_decls o pm oc c e) (stage_decls o' pm oc c e)) by (intros; apply s_stage_decls).
  rewrite (mapM_same (fam_decls o pm c e (o_ns o)) (fam_decls o' pm c e (o_ns o)) (boundary_fams o)) by (intros f Hf; apply s_fam_decls; right; exact Hf).
  pose proof (sa_gamma _ _ S) as G. rewrite <- (sa_fesd _ _ S). destruct (o_use_fesd o); [rewrite (G eq_refl)|]; reflexivity.
Qed.
Lemma s_fe_init : fe_init o = fe_init o'.
Proof. unfold fe_init. rewrite s_h_nominal, s_create_rbp, s_nx_slots, (sa_ns _ _ S), (sa_fesd _ _ S). reflexivity. Qed.
Lemma s_fe_make t pm oc c e n : fe_make o t pm oc c e n = fe_make o' t pm oc c e n.
Proof. unfold fe_make. rewrite s_fe_decls, s_fe_init. reflexivity. Qed.
Lemma s_x_temp : x_temp o = x_temp o'. Proof. unfold x_temp. rewrite (sa_ns _ _ S). reflexivity. Qed.
Lemma s_X_fe : X_fe o = X_fe o'. Proof. unfold X_fe. rewrite s_x_temp, (sa_repr _ _ S), (sa_ns _ _ S). reflexivity. Qed.
Lemma s_fs_stage : fs_stage o = fs_stage o'. Proof. unfold fs_stage. rewrite (sa_repr _ _ S), (sa_ns _ _ S). reflexivity. Qed.
Lemma s_lift : lift_constraints o = lift_constraints o'. Proof. unfold lift_constraints. rewrite s_x_temp, (sa_ns _ _ S). reflexivity. Qed.
Lemma s_forward : forward_simulation o = forward_simulation o'.
Proof.
  unfold forward_simulation. rewrite s_X_fe, s_fs_stage, s_lift, s_has_xend. rewrite (sa_repr _ _ S), (sa_ns _ _ S), (sa_path_fe _ _ S), (sa_path_stg _ _ S), (sa_fesd _ _ S). reflexivity.
Qed.
Lemma s_comp_vector : get_complementarity_vector o = get_complementarity_vector o'.
Proof. unfold get_complementarity_vector. rewrite (sa_ns _ _ S), (sa_fesd _ _ S). reflexivity. Qed.
Lemma s_fe_comp : fe_comp o = fe_comp o'. Proof. unfold fe_comp. rewrite s_create_complementarity. reflexivity. Qed.
Lemma s_comp_constraints : create_complementarity_constraints o = create_complementarity_constraints o'.
Proof.
  unfold create_complementarity_constraints. rewrite s_X_fe, s_fe_comp, (sa_ns _ _ S), (sa_nfe _ _ S). pose proof (sa_cross _ _ S) as G. rewrite <- (sa_fesd _ _ S).
  destruct (o_use_fesd o); [rewrite (G eq_refl)|]; reflexivity.
Qed.
Lemma s_step_eq : step_equilibration o = step_equilibration o'.
Proof.
  unfold step_equilibration. pose proof (sa_step_eq _ _ S) as G. pose proof (sa_rho _ _ S) as R0. pose proof (sa_scale _ _ S) as R1.
  rewrite s_fe_comp, <- (sa_fesd _ _ S), <- (sa_time _ _ S), <- (sa_stages _ _ S). destruct (o_use_fesd o); [|reflexivity]. rewrite <- (G eq_refl). specialize (R0 eq_refl). specialize (R1 eq_refl).
  destruct (o_step_eq o); try reflexivity; rewrite (R0 eq_refl); try rewrite (R1 eq_refl); reflexivity.
Qed.
Lemma foldM_same {A B} (f h : A -> B -> res A) l a : (forall a x, f a x = h a x) -> foldM f l a = foldM h l a.
Proof. intros H. revert a. induction l as [|x l IH]; intros a; [reflexivity|]. cbn. rewrite H. destruct (h a x); [apply IH|reflexivity]. Qed.
Lemma s_control_stage t pm oc acc c : create_control_stage o t pm oc acc c = create_control_stage o' t pm oc acc c.
Proof.
  unfold create_control_stage, make_stage_fes. rewrite <- N. pose proof (sa_speed _ _ S) as G. rewrite <- (sa_sot _ _ S).
  assert (E : forall n, mapM (fun e => fe_make o t pm oc c e n) (seq 0 n) = mapM (fun e => fe_make o' t pm oc c e n) (seq 0 n)) by (intros n; apply mapM_same; intros e _; apply s_fe_make).
  destruct acc as [[[f iu] isot] stages]. destruct (add_variable f _ _ _ _) as [[f1 idx]|]; [|reflexivity]. cbn [bind].
  destruct (o_sot o); cbn [bind].
  - destruct (nthE EIndexError (o_Nfe_list o) c) as [n|]; [|reflexivity]. cbn [bind]. rewrite E. reflexivity.
  - destruct (G eq_refl) as [-> ->]. destruct (add_variable f1 _ _ _ _) as [r|]; [|reflexivity]. cbn [bind].
    destruct (nthE EIndexError (o_Nfe_list o) c) as [n|]; [|reflexivity]. cbn [bind]. rewrite E. reflexivity.
  - destruct (nthE EIndexError (o_Nfe_list o) c) as [n|]; [|reflexivity]. cbn [bind]. rewrite E. reflexivity.
Qed.
Lemma elastic_is m : elastic_mode m = is_elastic m. Proof. destruct m; reflexivity. Qed.
Lemma s_primal t pm oc : create_primal o t pm oc = create_primal o' t pm oc.
Proof.
  unfold create_primal. pose proof (sa_elastic _ _ S) as G. rewrite elastic_is in G. rewrite s_fe_zero, <- (sa_mpcc _ _ S), <- (sa_stages _ _ S), <- (sa_sot _ _ S).
  assert (E : forall l a, foldM (create_control_stage o t pm oc) l a = foldM (create_control_stage o' t pm oc) l a) by (intros l a; apply foldM_same; intros; apply s_control_stage).
  assert (F : forall p, (if is_elastic (o_mpcc o) then add_variable fobj_empty [SElastic] [Fin (o_s_elastic_min o)] [Fin (o_s_elastic_max o)] [o_s_elastic_0 o] else p) =
     (if is_elastic (o_mpcc o) then add_variable fobj_empty [SElastic] [Fin (o_s_elastic_min o')] [Fin (o_s_elastic_max o')] [o_s_elastic_0 o'] else p)).
  { intros p. destruct (is_elastic (o_mpcc o)); [|reflexivity]. destruct (G eq_refl) as (-> & -> & -> & _). reflexivity. }
  rewrite F. clear F G. destruct (if is_elastic (o_mpcc o) then _ else _) as [[f0 iel]|]; [|reflexivity]. cbn [bind].
  destruct (fe_zero o' pm) as [fe0|]; [|reflexivity]. cbn [bind]. destruct (nthE EIndexError (ind1 fe0 FX) 0) as [ix|]; [|reflexivity]. cbn [bind].
  destruct (sel (w (fo fe0)) ix); [|reflexivity]. cbn [bind]. destruct (Lambda_all fe0); [|reflexivity]. cbn [bind].
  destruct (add_variable f0 _ _ _ _) as [[f1 ivg]|]; [|reflexivity]. cbn [bind]. rewrite E. reflexivity.
Qed.
Lemma s_process_fe : process_fe o = process_fe o'. Proof. unfold process_fe. rewrite s_forward, s_comp_constraints, s_step_eq. reflexivity. Qed.
Lemma s_process_stage : process_stage o = process_stage o'.
Proof.
  unfold process_stage. rewrite s_process_fe, N, (sa_sot _ _ S), (sa_time _ _ S), (sa_stages _ _ S). pose proof (sa_equidistant _ _ S) as G. pose proof (sa_tolerance _ _ S) as T.
  rewrite <- (sa_fesd _ _ S), <- (sa_freezing _ _ S). destruct (o_use_fesd o), (o_time_freezing o); try reflexivity.
  - rewrite <- (G (or_introl eq_refl)). destruct (o_equidistant o); [rewrite (T eq_refl eq_refl)|]; reflexivity.
  - rewrite <- (G (or_introl eq_refl)). reflexivity.
  - rewrite <- (G (or_intror eq_refl)). destruct (o_equidistant o); [rewrite (T eq_refl eq_refl)|]; reflexivity.
Qed.
Lemma s_global : global_compl o = global_compl o'. Proof. unfold global_compl. rewrite s_create_complementarity. reflexivity. Qed.
Lemma s_body t pm oc : problem_body o t pm oc = problem_body o' t pm oc.
Proof.
  unfold problem_body. rewrite s_primal, s_process_stage, s_global, s_comp_vector. pose proof (sa_elastic _ _ S) as G. pose proof (sa_equidistant _ _ S) as H. rewrite elastic_is in G.
  rewrite <- (sa_stages _ _ S), <- (sa_mpcc _ _ S), <- (sa_fesd _ _ S), <- (sa_time _ _ S).
  assert (E : (1 <? o_N_stages o) && o_use_fesd o && negb (o_equidistant o) = (1 <? o_N_stages o) && o_use_fesd o && negb (o_equidistant o')).
  { destruct (o_use_fesd o); [rewrite (H (or_introl eq_refl)); reflexivity|]. rewrite Bool.andb_false_r. reflexivity. }
  rewrite E. destruct (is_elastic (o_mpcc o)); [|reflexivity]. destruct (G eq_refl) as (_ & _ & _ & ->). reflexivity.
Qed.
Lemma s_lsq : lsq o = lsq o'. Proof. unfold lsq. rewrite (sa_constr _ _ S). reflexivity. Qed.
Definition renamed (q : problem) : problem := mkProblem o' (pr_pm q) (pr q) (pr_cost_fun q) (pr_comp_res q) (pr_g_fun q) (pr_w0_original q) (pr_ocp_trivial q).
Lemma s_problem t pm oc : nosnoc_problem o' t pm oc = match nosnoc_problem o t pm oc with Ok q => Ok (renamed q) | Err e => Err e end.
Proof.
  unfold nosnoc_problem. destruct (preprocess_ocp pm _) as [poc|]; [|reflexivity]. cbn [bind]. rewrite s_body. destruct (problem_body o' t pm poc) as [P|]; [|reflexivity]. cbn [bind].
  destruct (mkfun _ [cost (pb P)]) as [cf|]; [|reflexivity]. cbn [bind]. destruct (mkfun _ [p_J_comp P]) as [rf|]; [|reflexivity]. cbn [bind].
  destruct (mkfun _ (g (pb P))) as [gf|]; [|reflexivity]. cbn [bind]. rewrite s_lsq. destruct (lsq o' P); reflexivity.
Qed.
Lemma s_sanity : sanity_checks o = sanity_checks o'. Proof. unfold sanity_checks. rewrite (sa_pss _ _ S). reflexivity. Qed.
Lemma s_model : preprocess_model o = preprocess_model o'.
Proof.
  unfold preprocess_model. rewrite s_sanity, (sa_pss _ _ S), (sa_stages _ _ S), (sa_freezing _ _ S). reflexivity.
Qed.
Lemma s_tab cp : make_tab cp o = make_tab cp o'.
Proof. unfold make_tab. rewrite (sa_repr _ _ S), (sa_ns _ _ S), (sa_scheme _ _ S). reflexivity. Qed.
End Same.

Definition pre (o : opts) (it : nat) : opts := set_iter_nfe o it (elements_of o).
Lemma pre_elements o it : elements_of (pre o it) = elements_of o.
Proof.
  unfold elements_of at 1. cbn [pre set_iter_nfe o_Nfe_list o_N_finite_elements o_N_stages]. destruct (elements_of o) as [|n l] eqn:E; [|reflexivity].
  unfold elements_of in E. destruct (o_Nfe_list o); [exact E|discriminate].
Qed.
Lemma pre_same o o' it it' : same_applicable o o' -> same_applicable (pre o it) (pre o' it').
Proof.
  intros S. pose proof (sa_elements _ _ S) as E. destruct S. constructor; try assumption.
  rewrite !pre_elements. exact E.
Qed.
Section Construct.
Variables (lr : Q -> Q -> Q -> nat) (cp : nat -> scheme -> list Q) (o o' : opts) (m : model) (oc : option ocp).
Hypothesis S : same_applicable o o'.
Lemma preprocess_is d q : exists d' it, preprocess lr cp d q = (do* t <- make_tab cp (pre q it); Ok (d', pre q it, t)).
Proof. eexists. eexists. unfold preprocess. unfold pre, elements_of. reflexivity. Qed.
Definition nlp_part (C : constructed) := (cn_tab C, pr_pm (cn_prob C), the_problem C, pr_cost_fun (cn_prob C), pr_comp_res (cn_prob C), pr_g_fun (cn_prob C), pr_w0_original (cn_prob C), pr_ocp_trivial (cn_prob C)).
Lemma same_nlp d d' C : construct_problem lr cp d o m oc = Ok C ->
  (o_init o' = Rk4Smoothened -> o_init o = Rk4Smoothened /\ o_smoothing o = o_smoothing o') ->
  exists C', construct_problem lr cp d' o' m oc = Ok C' /\ nlp_part C' = nlp_part C.
Proof.
  unfold construct_problem. destruct (preprocess_is d o) as (d1 & it1 & ->). destruct (preprocess_is d' o') as (d2 & it2 & ->).
  pose proof (pre_same o o' it1 it2 S) as S'. assert (N : o_Nfe_list (pre o it1) = o_Nfe_list (pre o' it2)) by exact (sa_elements _ _ S).
  rewrite <- (s_tab _ _ S' cp). destruct (make_tab cp (pre o it1)) as [t|]; [|discriminate]. cbn [bind]. rewrite <- (s_model _ _ S').
  destruct (preprocess_model (pre o it1) m) as [pm|]; [|discriminate]. cbn [bind]. intros H Hs. change (o_init (pre o it1)) with (o_init o) in H. change (o_init (pre o' it2)) with (o_init o').
  change (o_smoothing (pre o it1)) with (o_smoothing o) in H. change (o_smoothing (pre o' it2)) with (o_smoothing o').
  assert (Q : exists q, nosnoc_problem (pre o it1) t pm oc = Ok q /\ nlp_part C = (t, pr_pm q, pr q, pr_cost_fun q, pr_comp_res q, pr_g_fun q, pr_w0_original q, pr_ocp_trivial q)).
  { destruct (match o_init o with Rk4Smoothened => _ | _ => _ end) as [sm|]; [|discriminate]. cbn [bind] in H.
    destruct (nosnoc_problem (pre o it1) t pm oc) as [q|]; [|discriminate]. injection H as <-. exists q. split; reflexivity. }
  destruct Q as (q & Eq & Ec). assert (Sm : exists sm, (match o_init o' with Rk4Smoothened => do* s <- add_smooth_step_representation pm (o_smoothing o'); Ok (Some s) | _ => Ok None end) = Ok sm).
  { destruct (o_init o'); try (eexists; reflexivity). destruct (Hs eq_refl) as [E1 E2]. rewrite E1, E2 in H.
    destruct (add_smooth_step_representation pm (o_smoothing o')) as [s|]; [eexists; reflexivity|discriminate]. }
  destruct Sm as [sm ->]. cbn [bind]. rewrite (s_problem _ _ S' N t pm oc), Eq. cbn [bind]. eexists. split; [reflexivity|]. rewrite Ec. reflexivity.
Qed.
Lemma same_nlp2 d d' C C' : construct_problem lr cp d o m oc = Ok C -> construct_problem lr cp d' o' m oc = Ok C' -> nlp_part C' = nlp_part C.
Proof.
  unfold construct_problem. destruct (preprocess_is d o) as (d1 & it1 & ->). destruct (preprocess_is d' o') as (d2 & it2 & ->).
  pose proof (pre_same o o' it1 it2 S) as S'. assert (N : o_Nfe_list (pre o it1) = o_Nfe_list (pre o' it2)) by exact (sa_elements _ _ S).
  rewrite <- (s_tab _ _ S' cp). destruct (make_tab cp (pre o it1)) as [t|]; [|discriminate]. cbn [bind]. rewrite <- (s_model _ _ S').
  destruct (preprocess_model (pre o it1) m) as [pm|]; [|discriminate]. cbn [bind]. rewrite (s_problem _ _ S' N t pm oc).
  destruct (match o_init (pre o it1) with Rk4Smoothened => _ | _ => _ end) as [sm|]; [|discriminate]. cbn [bind].
  destruct (match o_init (pre o' it2) with Rk4Smoothened => _ | _ => _ end) as [sm'|]; [|discriminate]. cbn [bind].
  destruct (nosnoc_problem (pre o it1) t pm oc) as [q|]; [|discriminate]. cbn [bind]. intros H H'. injection H as <-. injection H' as <-. reflexivity.
Qed.
End Construct.
