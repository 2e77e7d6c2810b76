(* Relax_proofs.v -- feasible points of the relaxed problem: modes with a weight above eps are nearly active *)
From Coq Require Import Reals Qreals Lra Psatz.
From Verif Require Import Base Sx Utils Tableau Opts Model Ocp Problem Spec Cases Lib Sx_proofs Fe_proofs Prob_proofs Coll_proofs
  Body_proofs Model_proofs Con_proofs Index3_proofs Fesd Sem_proofs Dcs_proofs Point_proofs Elem_proofs Nlp_proofs
  Opts_proofs Tableau_proofs Poly_proofs Spec2 Feas_proofs Feas2_proofs Feas3_proofs Feas4_proofs Feas5_proofs Feas6_proofs Spec3 Numeric Mode_proofs Smooth_proofs Spec9 Spec10 Filippov_proofs
  Filippov2_proofs Filippov3_proofs Exact_proofs Spec11 ExistBase_proofs Spec20 Soft_proofs Spec21 Conv_proofs Conv2_proofs Conv3_proofs Spec24.
Local Open Scope R_scope.

Lemma large_small a b eps : 0 <= eps -> eps < a -> a * b <= eps * eps -> b <= eps.
Proof. intros E A P. destruct (Rle_dec b eps) as [G|G]; [exact G|]. assert (eps * eps < a * b) by (apply Rmult_le_0_lt_compat; lra). lra. Qed.
Lemma rprod_unit (f : nat -> R) l : (forall k, In k l -> 0 <= f k <= 1) -> 0 <= rprod (map f l) <= 1.
Proof.
  induction l as [|x l IH]; intros Hl; cbn [map rprod fold_right]; [lra|]. pose proof (Hl x (or_introl eq_refl)) as A.
  specialize (IH (fun k Hk => Hl k (or_intror Hk))). change (fold_right Rmult 1 (map f l)) with (rprod (map f l)). split; [apply Rmult_le_pos; lra|].
  rewrite <- (Rmult_1_r 1). apply Rmult_le_compat; lra.
Qed.
Lemma rprod_factor (f : nat -> R) l r : (forall k, In k l -> 0 <= f k <= 1) -> In r l -> rprod (map f l) <= f r.
Proof.
  induction l as [|x l IH]; intros Hl Hr; [destruct Hr|]. cbn [map rprod fold_right]. change (fold_right Rmult 1 (map f l)) with (rprod (map f l)).
  pose proof (Hl x (or_introl eq_refl)) as A. pose proof (rprod_unit f l (fun k Hk => Hl k (or_intror Hk))) as B. destruct Hr as [->|Hr].
  - rewrite <- (Rmult_1_r (f r)) at 2. apply Rmult_le_compat_l; lra.
  - specialize (IH (fun k Hk => Hl k (or_intror Hk)) Hr). assert (f x * rprod (map f l) <= 1 * rprod (map f l)) by (apply Rmult_le_compat_r; lra). lra.
Qed.
Lemma rsum_ge xs x : (forall y, In y xs -> 0 <= y) -> In x xs -> x <= rsum xs.
Proof.
  unfold rsum. induction xs as [|y l IH]; intros Hl Hx; [destruct Hx|]. cbn [fold_right].
  pose proof (Hl y (or_introl eq_refl)) as A. pose proof (rsum_nonneg l (fun k Hk => Hl k (or_intror Hk))) as B. unfold rsum in B.
  destruct Hx as [->|Hx]; [lra|]. specialize (IH (fun k Hk => Hl k (or_intror Hk)) Hx). lra.
Qed.

Section Stage.
Variables (lr : Q -> Q -> Q -> nat) (cp : nat -> scheme -> list Q) (d : ipopt_dict) (o : opts) (m : model)
  (oc : option ocp) (C : constructed) (rho : env).
Hypothesis FP : fesd_problem lr cp d o m oc C.
Hypothesis FE : feasible rho (the_nlp C).
Notation O := (the_opts C).
Notation t := (cn_tab C).
Hypothesis PM : product_mode O.

Lemma relaxed_sum xs y : relaxed O rho xs y -> rsum xs * y <= relaxation O rho.
Proof using PM. unfold relaxed, relaxation, product_mode in *. destruct (o_mpcc O); try contradiction; lra. Qed.
(* the relaxation parameter bounds the products of each stage *)
Lemma relaxed_by_parameter : initial_nonneg rho -> relaxed_by O m rho (relaxation O rho).
Proof using FP FE PM.
  intros L0 c e j k He Hj Hk. destruct FP as (H & E & W). destruct FE as [F1 F2]. pose proof (element_fe _ _ _ _ _ _ _ FP c e He) as I.
  destruct (elem_all _ _ _ _ _ _ _ H E W rho F2 c e _ I) as (_ & _ & _ & _ & _ & _ & X & _). specialize (X j k Hj Hk). cbv zeta in X.
  pose proof (theta_nonneg _ _ _ _ _ _ _ H rho F1 c e _ j k PM I Hj) as T0. pose proof (n_mult_ge C c e) as N.
  assert (LN : forall jj, (jj < n_mult O t c e)%nat -> 0 <= ent (lam_vec O m rho c e jj) k) by (intros jj Hjj; exact (lam_nonneg _ _ _ _ _ _ _ H rho F1 c e _ jj k PM I Hjj)).
  destruct (o_use_fesd O).
  - destruct (o_cross O).
    + destruct X as [_ X]. pose proof (relaxed_sum _ _ (X j Hj)) as G. unfold rsum in G. cbn [fold_right] in G. rewrite Rplus_0_r in G. exact G.
    + pose proof (relaxed_sum _ _ X) as G. rewrite Rmult_comm. eapply Rle_trans; [|exact G]. apply Rmult_le_compat_r; [exact T0|]. apply rsum_ge.
      * intros x Hx. rewrite in_app_iff in Hx. destruct Hx as [Hx|[<-|[]]].
        -- apply in_map_iff in Hx. destruct Hx as (jj & <- & Hjj). apply in_seq in Hjj. apply LN. lia.
        -- exact (prev_nonneg _ _ _ _ _ _ _ H rho F1 c e _ k PM L0 I).
      * apply in_or_app. left. apply in_map_iff. exists j. split; [reflexivity|apply in_seq; lia].
  - pose proof (relaxed_sum _ _ X) as G. unfold rsum in G. cbn [fold_right] in G. rewrite Rplus_0_r, Rmult_comm in G. exact G.
Qed.
Lemma relaxed_by_residual tol : comp_residual C rho <= tol -> relaxed_by O m rho tol.
Proof using FP.
  intros T c e j k [Hc He] Hj Hk. destruct FP as (H & _). destruct (residual_max _ _ _ _ _ _ _ rho H) as (_ & G & _). eapply Rle_trans; [apply G|exact T].
  destruct (o_use_fesd O) eqn:F; [apply pr_cross|apply pr_same]; assumption.
Qed.

Variable eps : R.
Hypothesis e0 : 0 <= eps.
Hypothesis RB : relaxed_by O m rho (eps * eps).
Hypothesis PF : plain_fields m.

Lemma stewart_near : o_pss O = Stewart -> forall c e j, is_element O c e -> (j < o_ns O)%nat ->
  nearly_active_weights m (near_smallest m) eps (plain_point m rho c (stage_state O t rho c e j)) (th_at m C rho c e j).
Proof using FP FE PM e0 RB PF.
  intros Ep c e j He Hj. destruct FP as (H & E & W). destruct FE as [F1 F2]. pose proof (element_fe _ _ _ _ _ _ _ FP c e He) as I. split.
  - intros s Hs. destruct (convex _ _ _ _ _ _ _ H E W rho F1 F2 c e _ j s I Hj Hs Ep PM) as [G1 G2]. unfold th_at, weight. rewrite Ep. split; [exact G1|exact G2].
  - intros s k Hs Hk Hw l Hl. rewrite <- !(region_plain m PF _ _ s _ (stage_plain m O t rho c e j)).
    unfold th_at, weight in Hw. rewrite Ep in Hw. change (eps < rho (S2 FTheta c e j s k)) in Hw.
    pose proof (RB c e j _ He Hj (st_pairs m C rho s k Ep Hs Hk)) as P. rewrite (st_lam m C rho c e j s k Ep Hs Hk), (st_theta m C rho c e j s k Ep Hs Hk) in P.
    pose proof (large_small _ _ _ e0 Hw P) as Z. pose proof (stage_switching _ _ _ _ _ _ _ H E W rho F2 c e _ I j Hj) as Sw.
    assert (G : forall q, (q < n_modes m s)%nat -> region_value m (stage_point O t m rho c e j) s q - rho (S2 FLam c e j s q) + rho (S2 FMu c e j s 0) = 0).
    { intros q Hq. specialize (Sw s q Hs). unfold n_switching, switching_residual in Sw. rewrite Ep in Sw. exact (Sw Hq). }
    pose proof (G k Hk) as G1. pose proof (G l Hl) as G2.
    assert (Pl : 0 <= rho (S2 FLam c e j s l)).
    { apply (alg_nonneg _ _ _ _ _ _ _ H rho F1 c e (nfe_of O c)); [exact PM|discriminate|exact I|apply stage_slot; [discriminate|discriminate|exact Hj]|exact Hs|].
      rewrite (proj1 (proj2 (dim2_stewart O m Ep))). exact Hl. }
    lra.
Qed.
Lemma step_near : o_pss O = Step -> sign_matrix m -> rows_fit m -> (forall s, (s < n_subsystems m)%nat -> complete m s) ->
  forall c e j, is_element O c e -> (j < o_ns O)%nat ->
  nearly_active_weights m (near_region m) eps (plain_point m rho c (stage_state O t rho c e j)) (th_at m C rho c e j).
Proof using FP FE PM e0 RB PF.
  intros Ep SM RF CM c e j He Hj. destruct FP as (H & E & W). destruct FE as [F1 F2]. pose proof (element_fe _ _ _ _ _ _ _ FP c e He) as I.
  destruct (dim2_step O m Ep) as (D1 & D2 & D3 & _).
  assert (AR : forall s k, (s < n_subsystems m)%nat -> (k < n_switch m s)%nat -> 0 <= rho (S2 FAlpha c e j s k) <= 1).
  { intros s k Hs Hk. split.
    - apply (alg_nonneg _ _ _ _ _ _ _ H rho F1 c e (nfe_of O c)); [exact PM|discriminate|exact I|exact Hj|exact Hs|rewrite D1; exact Hk].
    - apply (alpha_le1 _ _ _ _ _ _ _ H rho F1 c e (nfe_of O c)); [exact I|exact Hj|exact Hs|rewrite D1; exact Hk]. }
  assert (WF : forall s k, (s < n_subsystems m)%nat -> (k < n_modes m s)%nat ->
    th_at m C rho c e j s k = rprod (map (fun r => fac (sign m s k r) (rho (S2 FAlpha c e j s r))) (seq 0 (n_switch m s)))).
  { intros s k Hs Hk. exact (step_weight_factors O m (stage_point O t m rho c e j) Ep s k (RF s k Hs Hk)). }
  assert (FU : forall q a, is_sign q -> 0 <= a <= 1 -> 0 <= fac q a <= 1).
  { intros q a Hq Ha. unfold fac. destruct (Qeq_bool q 0) eqn:Eq; [lra|]. destruct Hq as [Hq|[Hq|Hq]].
    - rewrite (Qeq_eqR _ _ Hq). replace (Q2R (-1)) with (-1) by (unfold Q2R; cbn; lra). lra.
    - apply Qeq_bool_iff in Hq. congruence.
    - rewrite (Qeq_eqR _ _ Hq), Q2R_1. lra. }
  split.
  - intros s Hs. split.
    + intros k Hk. rewrite (WF s k Hs Hk). apply rprod_unit. intros r Hr. apply in_seq in Hr. apply FU; [apply SM|apply AR; [exact Hs|lia]].
    + rewrite (rupto_ext _ _ (fun k => rprod (map (fun r => fac (sign m s k r) (rho (S2 FAlpha c e j s r))) (seq 0 (n_switch m s))))) by (intros; apply WF; assumption).
      apply (unity (fun r => rho (S2 FAlpha c e j s r))); [intros i k; apply SM|exact (CM s Hs)].
  - intros s k Hs Hk Hw r Hr. rewrite <- (switch_plain m PF _ _ s _ (stage_plain m O t rho c e j)).
    assert (FW : eps < fac (sign m s k r) (rho (S2 FAlpha c e j s r))).
    { rewrite (WF s k Hs Hk) in Hw. eapply Rlt_le_trans; [exact Hw|].
      apply (rprod_factor (fun r => fac (sign m s k r) (rho (S2 FAlpha c e j s r)))); [|apply in_seq; lia].
      intros r' Hr'. apply in_seq in Hr'. apply FU; [apply SM|apply AR; [exact Hs|lia]]. }
    destruct (step_ents m C rho c e Ep j s r Hs Hr) as (q & q' & Q1 & Q2 & E1 & E2 & E3 & E4).
    pose proof (stage_switching _ _ _ _ _ _ _ H E W rho F2 c e _ I j Hj s r Hs) as Sw. unfold n_switching, switching_residual in Sw. rewrite Ep in Sw. specialize (Sw Hr).
    change (switch_value m (stage_point O t m rho c e j) s r - rho (S2 FLp c e j s r) + rho (S2 FLn c e j s r) = 0) in Sw.
    assert (P1 : 0 <= rho (S2 FLp c e j s r)).
    { apply (alg_nonneg _ _ _ _ _ _ _ H rho F1 c e (nfe_of O c)); [exact PM|discriminate|exact I|apply stage_slot; [discriminate|discriminate|exact Hj]|exact Hs|rewrite D3; exact Hr]. }
    assert (P2 : 0 <= rho (S2 FLn c e j s r)).
    { apply (alg_nonneg _ _ _ _ _ _ _ H rho F1 c e (nfe_of O c)); [exact PM|discriminate|exact I|apply stage_slot; [discriminate|discriminate|exact Hj]|exact Hs|rewrite D2; exact Hr]. }
    pose proof (RB c e j q He Hj Q1) as B1. pose proof (RB c e j q' He Hj Q2) as B2. rewrite E1, E3 in B1. rewrite E2, E4 in B2. unfold fac in FW.
    destruct (Qeq_bool (sign m s k r) 0) eqn:Z; [apply Qeq_bool_iff in Z; rewrite (Qeq_eqR _ _ Z), Q2R_0; lra|].
    destruct (SM s k r) as [Es|[Es|Es]]; rewrite (Qeq_eqR _ _ Es) in *.
    + replace (Q2R (-1)) with (-1) in * by (unfold Q2R; cbn; lra). pose proof (large_small (1 - rho (S2 FAlpha c e j s r)) _ _ e0 ltac:(lra) B2). lra.
    + apply Qeq_bool_iff in Es. congruence.
    + rewrite Q2R_1 in *. pose proof (large_small (rho (S2 FAlpha c e j s r)) _ _ e0 ltac:(lra) B1). lra.
Qed.
Lemma rule_near act near : near_rule O m act near -> forall c e j, is_element O c e -> (j < o_ns O)%nat ->
  nearly_active_weights m near eps (plain_point m rho c (stage_state O t rho c e j)) (th_at m C rho c e j).
Proof using FP FE PM e0 RB PF. intros [(Ep & _ & ->)|(Ep & SM & RF & CM & _ & ->)]; [apply stewart_near; exact Ep|apply step_near; assumption]. Qed.
End Stage.
