(* Reuse_proofs.v -- print() and models used more than once *)
From Verif Require Import Base Lib Sx Sx_proofs Utils Tableau Opts Model Ocp Problem Spec Model_proofs Con_proofs Spec7 Fo_proofs Index3_proofs.
Local Open Scope nat_scope.

(* ---- problem.print() ---- *)
Lemma ext_ltb_iff a b : ext_ltb a b = true <-> ext_lt a b.
Proof.
  destruct a, b; cbn; try (split; [discriminate|tauto]); try tauto.
  rewrite Bool.negb_true_iff. split.
  - intros H. apply Qnot_le_lt. intros L. apply Qle_bool_iff in L. congruence.
  - intros H. destruct (Qle_bool q0 q) eqn:E; [|reflexivity]. apply Qle_bool_iff in E. exfalso. exact (Qlt_not_le _ _ H E).
Qed.
Lemma ext_ltb_irr a : ext_ltb a a = false.
Proof. destruct a as [|q|]; cbn; auto. assert (Qle_bool q q = true) as -> by (apply Qle_bool_iff, Qle_refl). reflexivity. Qed.

Lemma print_count l : forall u g, length u = length l -> length g = length l ->
  exists ps, NoDup ps /\ length ps = print_errors l u g /\ forall i, In i ps <-> crossed l u i \/ too_low l g i.
Proof.
  induction l as [|lo l IH]; intros u g Lu Lg.
  - exists []. destruct u; [|discriminate]. split; [constructor|]. split; [reflexivity|]. intros i. split; [intros []|].
    intros [(a & b & H & _)|(a & b & H & _)]; destruct i; discriminate.
  - destruct u as [|up u]; [discriminate|]. destruct g as [|x g]; [discriminate|]. cbn in Lu, Lg. injection Lu as Lu. injection Lg as Lg.
    destruct (IH u g Lu Lg) as (ps & ND & L & HI). cbn [print_errors]. rewrite ext_ltb_irr, Bool.orb_false_r.
    assert (SH : forall i, In (S i) (map S ps) <-> crossed l u i \/ too_low l g i).
    { intros i. rewrite <- HI. split; [intros H; apply in_map_iff in H; destruct H as (j & E & H); now injection E as <-|apply in_map]. }
    assert (NZ : ~ In 0 (map S ps)) by (intros H; apply in_map_iff in H; destruct H as (j & E & _); discriminate).
    assert (NDS : NoDup (map S ps)) by (apply FinFun.Injective_map_NoDup; [intros a b E; now injection E|exact ND]).
    assert (Z : crossed (lo :: l) (up :: u) 0 \/ too_low (lo :: l) (x :: g) 0 <-> ext_ltb up lo || ext_ltb (Fin x) lo = true).
    { rewrite Bool.orb_true_iff, !ext_ltb_iff. unfold crossed, too_low. cbn [nth_error]. split.
      - intros [(a & b & E1 & E2 & E3)|(a & b & E1 & E2 & E3)]; injection E1 as <-; injection E2 as <-; auto.
      - intros [E|E]; [left|right]; eauto. }
    destruct (ext_ltb up lo || ext_ltb (Fin x) lo) eqn:E.
    + exists (0 :: map S ps). split; [now constructor|]. split.
      * cbn [length]. rewrite map_length, L. destruct (ext_ltb up lo); [reflexivity|]. rewrite Bool.orb_false_l in E. now rewrite E.
      * intros [|i]; [split; [intros _; now apply Z|intros _; now left]|]. cbn [In]. rewrite SH. unfold crossed, too_low. cbn [nth_error].
        split; [intros [H|H]; [discriminate|exact H]|auto].
    + exists (map S ps). split; [exact NDS|]. split.
      * rewrite map_length, L. apply Bool.orb_false_iff in E. now destruct E as [-> ->].
      * intros [|i]; [split; [intros H; contradiction|intros H; apply Z in H; discriminate]|]. rewrite SH. unfold crossed, too_low. cbn [nth_error]. tauto.
Qed.

(* ---- the model after preprocess_model ---- *)
Lemma default_len_again {A} (o : option (list A)) n d v : length v = n -> v = match o with Some w => w | None => repeat d n end ->
  default_len (Some v) n d = default_len o n d.
Proof. intros L E. unfold default_len. destruct o as [w|]; subst v; [reflexivity|]. rewrite L, Nat.eqb_refl. reflexivity. Qed.

Lemma preprocess_again o1 o2 m pm : preprocess_model o1 m = Ok pm -> o_N_stages o2 = o_N_stages o1 ->
  preprocess_model o2 (pm_m pm) = preprocess_model o2 m.
Proof.
  intros H N. pose proof (preprocess_model_ok _ _ _ H) as K. destruct (mo_m _ _ _ K) as (ptv & E & Ep & _ & _). rewrite E.
  destruct (mo_z0 _ _ _ K) as [L0 E0]. destruct (mo_lbz _ _ _ K) as [L1 E1]. destruct (mo_ubz _ _ _ K) as [L2 E2].
  unfold preprocess_model at 1. cbn [m_nx m_x0 m_F m_c m_S m_gS m_nu m_nz m_z0 m_lbz m_ubz m_alpha m_fx m_gz m_npt m_npg m_ptv_val m_pg_val m_nvg m_tvar set_filled].
  rewrite (default_len_again _ _ _ _ L0 E0), (default_len_again _ _ _ _ L1 E1), (default_len_again _ _ _ _ L2 E2).
  unfold preprocess_model. rewrite N, Ep. clear. reflexivity.
Qed.

(* with another number of control stages the stored p_time_var_val has the wrong shape *)
Lemma shape_len (v : list (list Q)) n k : shape_is v n k = true -> length v = n.
Proof. unfold shape_is. intros H. apply andb_prop in H. destruct H as [H _]. now apply Nat.eqb_eq. Qed.
Lemma preprocess_other o1 o2 m pm : preprocess_model o1 m = Ok pm -> o_N_stages o2 <> o_N_stages o1 ->
  forall pm', preprocess_model o2 (pm_m pm) <> Ok pm'.
Proof.
  intros H N pm' H'. pose proof (preprocess_model_ok _ _ _ H) as K. pose proof (preprocess_model_ok _ _ _ H') as K'.
  destruct (mo_m _ _ _ K) as (ptv & E & _ & S1 & _). destruct (mo_m _ _ _ K') as (ptv' & _ & E2 & S2 & _).
  rewrite E in E2. cbn in E2. subst ptv'. apply shape_len in S1, S2. congruence.
Qed.

Lemma construct_again lr cp d d' o m oc C o2 oc2 : construct_problem lr cp d o m oc = Ok C -> o_N_stages o2 = o_N_stages o ->
  construct_problem lr cp d' o2 (pm_m (pr_pm (cn_prob C))) oc2 = construct_problem lr cp d' o2 m oc2.
Proof.
  intros H N. destruct (construct_ok _ _ _ _ _ _ _ H) as (o' & t & pm & po & P & K). rewrite (co_pm' _ _ _ _ _ _ _ _ _ _ _ _ K).
  unfold construct_problem. destruct (preprocess lr cp d' o2) as [[[d2 o2'] t2]|] eqn:E; [|reflexivity]. cbn [bind].
  rewrite (preprocess_again o' o2' m pm (co_pm _ _ _ _ _ _ _ _ _ _ _ _ K)); [reflexivity|].
  rewrite (co_o' _ _ _ _ _ _ _ _ _ _ _ _ K). unfold preprocess in E. cbv zeta in E. apply bind_ok in E. destruct E as (t' & _ & E). injection E as _ <- _. exact N.
Qed.
Lemma construct_other lr cp d d' o m oc C o2 oc2 C2 : construct_problem lr cp d o m oc = Ok C -> o_N_stages o2 <> o_N_stages o ->
  construct_problem lr cp d' o2 (pm_m (pr_pm (cn_prob C))) oc2 <> Ok C2.
Proof.
  intros H N H2. destruct (construct_ok _ _ _ _ _ _ _ H) as (o' & t & pm & po & P & K). rewrite (co_pm' _ _ _ _ _ _ _ _ _ _ _ _ K) in H2.
  destruct (construct_ok _ _ _ _ _ _ _ H2) as (o2' & t2 & pm2 & po2 & P2 & K2).
  apply (preprocess_other o' o2' m pm (co_pm _ _ _ _ _ _ _ _ _ _ _ _ K)) with (pm' := pm2); [|exact (co_pm _ _ _ _ _ _ _ _ _ _ _ _ K2)].
  rewrite (co_o' _ _ _ _ _ _ _ _ _ _ _ _ K), (co_o' _ _ _ _ _ _ _ _ _ _ _ _ K2). exact N.
Qed.
Lemma print_con lr cp d o m oc C : construct_problem lr cp d o m oc = Ok C ->
  let f := the_nlp C in exists ps, NoDup ps /\ length ps = print_errors (lbw f) (ubw f) (w0 f) /\
  forall i, In i ps <-> crossed (lbw f) (ubw f) i \/ too_low (lbw f) (w0 f) i.
Proof. intros H f. destruct (lengths_con _ _ _ _ _ _ _ H) as [[(L1 & L2 & L3) _] _]. apply print_count; unfold f; congruence. Qed.
