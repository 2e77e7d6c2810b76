(* Con_proofs.v -- inversion of construct_problem *)
From Coq Require Import Reals Qreals Lra Permutation.
From Verif Require Import Base Lib Sx Sx_proofs Utils Tableau Opts Model Ocp Problem Spec
  Fo_proofs Fe_proofs FeMake_proofs FeSel_proofs FeZero_proofs Prob_proofs Coll_proofs Body_proofs Model_proofs.

Definition ocp_of := the_ocp.

Record con_ok (log_round : Q -> Q -> Q -> nat) (cpoints : nat -> scheme -> list Q) (d : ipopt_dict)
  (o : opts) (m : model) (oc : option ocp) (C : constructed)
  (o' : opts) (t : tab) (pm : pmodel) (po : pocp) (P : prob) : Prop := {
  co_o : the_opts C = o';
  co_o' : o' = set_iter_nfe o (if o_max_iter_homotopy o =? 0
            then log_round (o_comp_tol o) (o_sigma_0 o) (o_slope o) + 1 else o_max_iter_homotopy o)
            (match o_Nfe_list o with [] => repeat (o_N_finite_elements o) (o_N_stages o) | l => l end);
  co_t : cn_tab C = t;
  co_mt : make_tab cpoints o' = Ok t;
  co_pm : preprocess_model o' m = Ok pm;
  co_pm' : pr_pm (cn_prob C) = pm;
  co_mo : pmodel_ok o' m pm;
  co_po : pocp_ok pm (ocp_of oc) po;
  co_body : problem_body o' t pm po = Ok P;
  co_cost : mkfun [w (pb P); p_p P] [cost (pb P)] = Ok (pr_cost_fun (cn_prob C));
  co_res : mkfun [w (pb P); p_p P] [p_J_comp P] = Ok (pr_comp_res (cn_prob C));
  co_g : mkfun [w (pb P); p_p P] (g (pb P)) = Ok (pr_g_fun (cn_prob C));
  co_lsq : lsq o' P = Ok (the_problem C);
  co_w0 : pr_w0_original (cn_prob C) = w0 (pb P);
  co_triv : pr_ocp_trivial (cn_prob C) = match oc with None => true | Some _ => false end
}.

Lemma construct_ok lr cp d o m oc C : construct_problem lr cp d o m oc = Ok C ->
  exists o' t pm po P, con_ok lr cp d o m oc C o' t pm po P.
Proof.
  unfold construct_problem, preprocess. intros H.
  apply bind_ok in H; destruct H as ([[d' o'] t] & Hp & H).
  cbv zeta in Hp. apply bind_ok in Hp. destruct Hp as (t' & Ht & Hp). injection Hp as <- <- <-.
  apply bind_ok in H; destruct H as (pm & Hpm & H).
  apply bind_ok in H; destruct H as (sm & Hsm & H).
  apply bind_ok in H; destruct H as (P & HP & H). injection H as <-.
  unfold nosnoc_problem in HP. cbv zeta in HP.
  apply bind_ok in HP; destruct HP as (po & Hpo & HP).
  apply bind_ok in HP; destruct HP as (P0 & HP0 & HP).
  apply bind_ok in HP; destruct HP as (cf & Hcf & HP).
  apply bind_ok in HP; destruct HP as (rf & Hrf & HP).
  apply bind_ok in HP; destruct HP as (gf & Hgf & HP).
  apply bind_ok in HP; destruct HP as (P1 & HP1 & HP). injection HP as <-.
  eexists _, t', pm, po, P0. split; cbn; try reflexivity; try assumption.
  - eapply preprocess_model_ok; eassumption.
  - eapply preprocess_ocp_ok; eassumption.
Qed.

Lemma lsq_same o P P' : lsq o P = Ok P' ->
  w (pb P') = w (pb P) /\ lbw (pb P') = lbw (pb P) /\ ubw (pb P') = ubw (pb P) /\ w0 (pb P') = w0 (pb P) /\
  ind_bool (pb P') = ind_bool (pb P) /\
  p_p P' = p_p P /\ p_ind1 P' = p_ind1 P /\ p_ind_x_cont P' = p_ind_x_cont P /\ p_ind2 P' = p_ind2 P /\
  p_ind_bool P' = p_ind_bool P /\ p_ind_comp P' = p_ind_comp P /\ p_ind_h P' = p_ind_h P /\
  p_ind_u P' = p_ind_u P /\ p_ind_sot P' = p_ind_sot P /\ p_ind_vg P' = p_ind_vg P /\ p_ind_el P' = p_ind_el P /\
  p_stages P' = p_stages P /\ p_fe0 P' = p_fe0 P /\ p_J_comp P' = p_J_comp P /\
  (o_constr o = Exact -> P' = P).
Proof.
  unfold lsq. destruct (o_constr o) eqn:E; intros H.
  - injection H as <-. repeat split; reflexivity.
  - apply bind_ok in H. destruct H as (c & Hc & H). injection H as <-. cbn. repeat split; try reflexivity. discriminate.
Qed.

(* sizes *)
Lemma fsz_dim2 o m pm f s : pmodel_ok o m pm -> s < pm_nsys pm -> fsz o pm f s = dim2 o m f s.
Proof.
  intros K Hs. unfold fsz, dim2, fam_on, fam_len, fam_size.
  assert (Hnf := pm_nf_nth _ _ _ _ K Hs).
  assert (Hnc : o_pss o = Step -> match nthE EIndexError (pm_nc pm) s with Ok n => n | Err _ => 0 end = n_switch m s).
  { intros Ep. change (gS_truthy m) with (gS_given m) in *; destruct (gS_given m) eqn:Eg.
    - unfold n_switch. rewrite Eg. pose proof (mo_nc _ _ _ K) as E. unfold get_nc in E. gsg. rewrite Eg in E.
      injection E as <-. unfold nthE. destruct s as [|[|s]]; reflexivity.
    - erewrite nthE_Some by (eapply pm_nc_nth; eassumption). reflexivity. }
  destruct (o_pss o) eqn:Ep; destruct f; try reflexivity;
    try (erewrite nthE_Some by eassumption; reflexivity); apply Hnc; reflexivity.
Qed.
Lemma n1_points1 o t f : n1 o t f = points1 o (t_rbe t) f.
Proof. destruct f; try reflexivity. Qed.
Lemma n2_points2 o t nfe e f : n2 o t nfe e f = points2 o (t_rbe t) nfe e f.
Proof.
  unfold n2, points2, nbd, create_rbp.
  replace (e <? nfe - 1) with (e + 1 <? nfe); [reflexivity|].
  destruct (Nat.ltb_spec (e + 1) nfe), (Nat.ltb_spec e (nfe - 1)); try reflexivity; lia.
Qed.
Lemma sz1_dim1 o m pm f : pmodel_ok o m pm -> sz1 o pm f = dim1 o m f.
Proof.
  intros K. destruct (mo_m _ _ _ K) as (ptv & E & _). unfold sz1, dim1, has_v. rewrite E.
  destruct f; cbn; try reflexivity. destruct (o_repr o); reflexivity.
Qed.
Lemma elastic_is o : is_elastic (o_mpcc o) = elastic o.
Proof. reflexivity. Qed.

Lemma within_in_bnds l u v : within l u v <-> in_bnds l u v.
Proof. reflexivity. Qed.

Lemma feasible_cons rho f : wf_f f -> constraints_ok rho f <-> sat_cons rho f.
Proof.
  intros [_ [Hl Hu]]. unfold constraints_ok, sat_cons, cons. split; intros H.
  - intros e l u Hin. apply In_nth_error in Hin. destruct Hin as [j Hj].
    apply nth_error_combine_inv in Hj. destruct Hj as [H1 H2]. apply nth_error_combine_inv in H2.
    destruct H2 as [H2 H3]. eapply H; eassumption.
  - intros j e l u H1 H2 H3. apply (H e l u). eapply nth_error_In with (n := j).
    apply nth_error_combine; [assumption|]. apply nth_error_combine; assumption.
Qed.
Lemma feasible_vars rho f : wf_f f -> bounds_ok rho f <-> sat_vars rho f.
Proof.
  intros [[Hl [Hu _]] _]. unfold bounds_ok, sat_vars, vbnds. split; intros H.
  - intros e l u Hin. apply In_nth_error in Hin. destruct Hin as [j Hj].
    apply nth_error_combine_inv in Hj. destruct Hj as [H1 H2]. apply nth_error_combine_inv in H2.
    destruct H2 as [H2 H3]. eapply H; eassumption.
  - intros j e l u H1 H2 H3. apply (H e l u). eapply nth_error_In with (n := j).
    apply nth_error_combine; [assumption|]. apply nth_error_combine; assumption.
Qed.

(* everything from one hypothesis *)
Lemma con_body lr cp d o m oc C o' t pm po P :
  con_ok lr cp d o m oc C o' t pm po P -> exists stages lastfe f1, body_ok o' t pm po P stages lastfe f1.
Proof. intros K. eapply problem_body_ok, co_body, K. Qed.
