(* Guess_proofs.v -- the initial guess of the constructed NLP, symbol by symbol *)
From Coq Require Import Reals Qreals Lra.
From Verif Require Import Base Lib Sx Sx_proofs Utils Tableau Opts Model Ocp Problem Spec Fesd Spec2 Spec12
  Fo_proofs Fe_proofs FeMake_proofs FeSel_proofs FeZero_proofs Prob_proofs Coll_proofs Body_proofs Model_proofs
  Con_proofs Index_proofs Index2_proofs Index3_proofs.

Lemma F2_nth {A B} (R : A -> B -> Prop) (db : B) (f : nat -> A) (l : list B) n : length l = n ->
  (forall i, i < n -> R (f i) (nth i l db)) -> Forall2 R (map f (seq 0 n)) l.
Proof.
  revert f l. induction n as [|n IH]; intros f l E K; destruct l as [|b l]; try discriminate E; cbn [seq map].
  - constructor.
  - constructor; [apply (K 0); lia|]. rewrite <- seq_shift, map_map. apply IH; [cbn in E; lia|].
    intros i Hi. apply (K (S i)). lia.
Qed.
Lemma F2_repeat {A B} (R : A -> B -> Prop) b (s : list A) : (forall x, In x s -> R x b) -> Forall2 R s (repeat b (length s)).
Proof. induction s as [|x s IH]; intros K; cbn; constructor; [apply K; left; reflexivity|apply IH; intros; apply K; right; assumption]. Qed.
Lemma F2_concat {A B D} (R : A -> B -> Prop) (f : D -> list A) (g : D -> list B) l :
  (forall d, In d l -> Forall2 R (f d) (g d)) -> Forall2 R (concat (map f l)) (concat (map g l)).
Proof.
  induction l as [|d l IH]; intros K; cbn; [constructor|]. apply Forall2_app; [apply K; left; reflexivity|].
  apply IH. intros x Hx. apply K. right. exact Hx.
Qed.
Lemma F2_nth_error {A B} (R : A -> B -> Prop) l l' i a : Forall2 R l l' -> nth_error l i = Some a ->
  exists b, nth_error l' i = Some b /\ R a b.
Proof.
  intros K. revert i. induction K as [|x y l l' Hxy K IH]; intros i Hi; [destruct i; discriminate|].
  destruct i as [|i]; cbn in *; [injection Hi as <-; eauto|eauto].
Qed.

Section Guess.
Variables (o : opts) (t : tab) (pm : pmodel) (po : pocp) (m : model) (oc : ocp).
Hypothesis MO : pmodel_ok o m pm.
Hypothesis PO : pocp_ok pm oc po.
Notation G := (fun y q => q = initial_guess o m oc y).

Lemma guess_dims : m_nx (pm_m pm) = m_nx m /\ m_nu (pm_m pm) = m_nu m /\ m_nz (pm_m pm) = m_nz m /\
  m_nvg (pm_m pm) = m_nvg m /\ m_x0 (pm_m pm) = m_x0 m.
Proof. destruct (mo_m _ _ _ MO) as (ptv & E & _). rewrite E. cbn. auto. Qed.

Definition dgood (d : decl) : Prop := length (dc_init d) = length (dc_syms d) -> Forall2 G (dc_syms d) (dc_init d).

Lemma fam_good c e st f s d : s < pm_nsys pm -> fam_decl o pm c e st f s = Ok d -> dgood d.
Proof.
  intros Hs K. unfold fam_decl in K. apply bind_ok in K. destruct K as (n & Hn & K).
  assert (En : (f = FTheta \/ f = FLam) -> n = n_modes m s).
  { intros Hf. pose proof (pm_nf_nth _ _ _ _ MO Hs) as E.
    unfold fam_size in Hn. destruct Hf as [-> | ->]; erewrite nthE_Some in Hn by exact E; injection Hn as <-; reflexivity. }
  destruct f; repeat (apply bind_ok in K; destruct K as (? & _ & K)); injection K as <-; intros _; cbn [dc_syms dc_init];
    try rewrite En by auto.
  all: match goal with |- Forall2 _ (map ?f (seq 0 ?k)) (repeat ?b ?k) =>
         apply (F2_nth _ b); [apply repeat_length|intros i Hi; cbn; rewrite nth_repeat; reflexivity] end.
Qed.

Lemma fams_good c e st fams da : mapM (fam_decls o pm c e st) fams = Ok da -> forall d, In d (concat da) -> dgood d.
Proof.
  intros K d Hd. apply in_concat in Hd. destruct Hd as (l & Hl & Hd).
  destruct (mapM_In_inv _ _ _ _ K Hl) as (f & _ & Kf). unfold fam_decls in Kf.
  destruct (mapM_In_inv _ _ _ _ Kf Hd) as (s & Hs & Ks). apply in_seq in Hs. eapply fam_good; [|exact Ks]. lia.
Qed.

Lemma x_good c e j lb ub sl : dgood (mkDecl sl (map (S1 FX c e j) (seq 0 (m_nx (pm_m pm)))) lb ub (m_x0 (pm_m pm))).
Proof.
  intros L. cbn [dc_syms dc_init] in *. rewrite map_length, seq_length in L. apply (F2_nth _ 0%Q); [exact L|].
  intros i Hi. cbn. destruct guess_dims as (_ & _ & _ & _ & ->). reflexivity.
Qed.

Lemma stage_good c e ii ds : stage_decls o pm po c e ii = Ok ds -> forall d, In d ds -> dgood d.
Proof.
  unfold stage_decls. intros K. apply bind_ok in K. destruct K as (da & Kd & K). injection K as <-.
  intros d Hd. rewrite !in_app_iff in Hd. destruct Hd as [Hd|[Hd|[Hd|Hd]]].
  - destruct (has_v o); [|destruct Hd]. destruct Hd as [<-|[]]. intros _. cbn [dc_syms dc_init].
    apply (F2_nth _ 0%Q); [apply repeat_length|]. intros i Hi. cbn. apply nth_repeat.
  - destruct (has_xstage o); [|destruct Hd]. destruct Hd as [<-|[]]. apply x_good.
  - eapply fams_good; eassumption.
  - destruct Hd as [<-|[]]. intros L. cbn [dc_syms dc_init] in *. rewrite map_length, seq_length in L.
    apply (F2_nth _ 0%Q); [exact L|]. intros i Hi. cbn. destruct (mo_z0 _ _ _ MO) as [_ ->]. reflexivity.
Qed.

Lemma decls_good c e nfe ds : nfe = nfe_of o c -> fe_decls o t pm po c e nfe = Ok ds -> forall d, In d ds -> dgood d.
Proof.
  intros En. unfold fe_decls. intros K. apply bind_ok in K. destruct K as (d1 & K1 & K).
  apply bind_ok in K. destruct K as (db & Kb & K). injection K as <-.
  intros d Hd. rewrite !in_app_iff in Hd. destruct Hd as [Hd|[Hd|[Hd|Hd]]].
  - destruct (o_use_fesd o); [|destruct Hd]. destruct Hd as [<-|[]]. intros _. cbn. constructor; [|constructor].
    cbn. rewrite <- En. reflexivity.
  - apply in_concat in Hd. destruct Hd as (l & Hl & Hd). destruct (mapM_In_inv _ _ _ _ K1 Hl) as (ii & _ & Ks).
    eapply stage_good; eassumption.
  - destruct (create_rbp o t nfe e); [|injection Kb as <-; destruct Hd]. eapply fams_good; eassumption.
  - destruct (has_xend o t); [|destruct Hd]. destruct Hd as [<-|[]]. apply x_good.
Qed.

Lemma made_good c e nfe fe : nfe = nfe_of o c -> fe_make o t pm po c e nfe = Ok fe ->
  Forall2 G (w (fo fe)) (w0 (fo fe)) /\ fe_ctrl fe = c /\ fe_idx fe = e.
Proof.
  unfold fe_make. intros En K. apply bind_ok in K. destruct K as (ds & Kd & K).
  pose proof (foldM_add_decl _ _ _ K) as D. split.
  - rewrite (dp_w _ _ _ D), (dp_w0 _ _ _ D). cbn. apply F2_concat. intros d Hd.
    eapply decls_good; [exact En|exact Kd|exact Hd|]. apply (dp_lens _ _ _ D d Hd).
  - destruct (dp_rest _ _ _ D) as (_ & _ & _ & _ & _ & _ & E1 & E2 & _). rewrite E1, E2. auto.
Qed.

Lemma le_good z f f' : (forall k i, initial_guess o m oc (z k i) = (1 # 2)%Q) -> fo_le o z f f' ->
  Forall2 G (w f) (w0 f) -> Forall2 G (w f') (w0 f').
Proof.
  intros Hz L K. destruct (le_w _ _ _ _ L) as (s & E1 & _ & _ & E2 & ib & _ & _ & _ & Hs). rewrite E1, E2.
  apply Forall2_app; [exact K|]. apply F2_repeat. intros x Hx. destruct (Hs x Hx) as (k & i & ->). symmetry. apply Hz.
Qed.

Lemma primal_good P : primal_ok o t pm po P -> Forall2 G (w (pb P)) (w0 (pb P)).
Proof.
  intros K. destruct guess_dims as (_ & D2 & _ & D4 & _).
  destruct (po_bnds _ _ _ PO) as (_ & _ & _ & _ & _ & _ & Bu & _ & _ & Bv).
  destruct (po_ulen _ _ _ PO) as (_ & _ & Lu). destruct (po_vlen _ _ _ PO) as (_ & _ & Lv).
  rewrite (pk_w _ _ _ _ _ K), (pk_w0 _ _ _ _ _ K). apply Forall2_app; [|apply Forall2_app].
  - unfold ellab, elguess. destruct (is_elastic (o_mpcc o)); repeat constructor.
  - unfold mvg. apply (F2_nth _ 0%Q); [exact Lv|]. intros i Hi. cbn. rewrite Bv, D4. reflexivity.
  - apply F2_concat. intros c _. apply Forall2_app.
    + unfold ulab. apply (F2_nth _ 0%Q); [exact Lu|]. intros i Hi. cbn. rewrite Bu, D2. reflexivity.
    + unfold sotlab, sotguess. destruct (o_sot o); repeat constructor.
Qed.

Lemma body_good P stages lastfe f1 : body_ok o t pm po P stages lastfe f1 -> Forall2 G (w (pb P)) (w0 (pb P)).
Proof.
  intros B. destruct (wf_f6 _ _ _ _ _ _ _ _ B) as (f6 & _ & L & (A1 & _ & _ & A4 & _) & _).
  rewrite A1, A4. apply Forall2_app.
  - eapply le_good; [|exact L|]; [reflexivity|].
    destruct (bo_prim _ _ _ _ _ _ _ _ B) as (P0 & pp & pq & K & (_ & E1 & _ & _ & E2 & _) & _).
    rewrite E1, E2. apply primal_good, K.
  - apply F2_concat. intros fe Hfe. apply in_concat in Hfe. destruct Hfe as (st & Hst & Hfe).
    apply In_nth_error in Hst. destruct Hst as [c Hc]. apply In_nth_error in Hfe. destruct Hfe as [e He].
    assert (Hlt : c < o_N_stages o).
    { rewrite <- (stages_length _ _ _ _ _ _ _ _ B). eapply nth_error_Some_lt; eassumption. }
    destruct (get_stage _ _ _ _ _ _ _ _ B c Hlt) as (P0 & nfe & starts & ends & qq & q & pp' & p' & _ & _ & Hn & _ & Hen & Hle & _).
    assert (ends = st) by congruence. subst ends.
    assert (Hlt2 : e < nfe) by (rewrite <- Hle; eapply nth_error_Some_lt; eassumption).
    destruct (get_elem _ _ _ _ _ _ _ _ B c nfe e Hlt Hn Hlt2) as (qq' & q' & s & fe' & Hel & _ & _).
    destruct Hel as (Hmk & Hst & (st' & S1 & S2) & _). assert (st' = st) by congruence. subst st'.
    assert (fe' = fe) by congruence. subst fe'.
    assert (En : nfe = nfe_of o c).
    { unfold nfe_of. symmetry. apply nth_error_nth, Hn. }
    destruct (made_good _ _ _ _ En Hmk) as (Hg & _).
    apply fsteps_le in Hst. destruct Hst as [Hle' _]. eapply le_good; [|exact Hle'|exact Hg]. reflexivity.
Qed.
End Guess.

Theorem con_guess lr cp d o m oc C : construct_problem lr cp d o m oc = Ok C ->
  length (w0 (the_nlp C)) = length (w (the_nlp C)) /\
  forall i y, nth_error (w (the_nlp C)) i = Some y ->
    nth_error (w0 (the_nlp C)) i = Some (initial_guess (the_opts C) m (the_ocp oc) y).
Proof.
  intros H. destruct (con_use _ _ _ _ _ _ _ H) as (o' & t & pm & po & P & stages & lf & f1 & K & B & Eo & Ee & Ew & _ & _ & E0).
  rewrite Ew, E0, Eo.
  pose proof (body_good _ _ _ _ _ _ (co_mo _ _ _ _ _ _ _ _ _ _ _ _ K) (co_po _ _ _ _ _ _ _ _ _ _ _ _ K) _ _ _ _ B) as F.
  split; [symmetry; eapply Forall2_length; exact F|].
  intros i y Hy. destruct (F2_nth_error _ _ _ _ _ F Hy) as (q & Hq & ->). exact Hq.
Qed.

(* ---- the guess respects the bounds ---- *)
From Verif Require Import Spec3 Spec4 Spec9 Spec10 Spec11 Results_proofs Results2_proofs Results4_proofs Nlp_proofs Feas_proofs Syms_proofs Bounds_proofs.

Lemma Qdiv_nonneg a n : (0 <= a)%Q -> (0 <= a / inject_Z (Z.of_nat n))%Q.
Proof.
  intros Ha. unfold Qdiv. apply Qmult_le_0_compat; [exact Ha|]. apply Qinv_le_0_compat.
  change 0%Q with (inject_Z 0). rewrite <- Zle_Qle. lia.
Qed.

Theorem con_guess_inside lr cp d o m oc C : construct_problem lr cp d o m oc = Ok C -> o_mpcc (the_opts C) <> MBoolean ->
  guesses_inside (the_opts C) m (the_ocp oc) ->
  forall i l u q, nth_error (lbw (the_nlp C)) i = Some l -> nth_error (ubw (the_nlp C)) i = Some u ->
    nth_error (w0 (the_nlp C)) i = Some q -> qwithin l u q.
Proof.
  intros H Hm (GT & Gs & Gg & Gsot & Gel & Gx & Gz & Gu & Gv) i l u q Kl Ku Kq.
  destruct (con_guess _ _ _ _ _ _ _ H) as [L G].
  destruct (nth_error (w (the_nlp C)) i) as [y|] eqn:Ky.
  2: { apply nth_error_None in Ky. apply nth_error_Some_lt in Kq. lia. }
  rewrite (G i y Ky) in Kq. injection Kq as <-.
  assert (Hin : In y (w (the_nlp C))) by (eapply nth_error_In; exact Ky).
  assert (R := sym_in_w _ _ _ _ _ _ _ _ H Hin). assert (NB := no_bool_syms _ _ _ _ _ _ _ H _ Hm Hin).
  destruct (placed_unique _ _ _ _ _ _ _ H _ _ _ _ _ _ (all_placed _ _ _ _ _ _ _ H y R NB) Ky Kl Ku) as [-> ->].
  destruct y; cbn [in_range low upp initial_guess] in *; try contradiction.
  - apply Gv, R.
  - destruct (Gel R). split; assumption.
  - apply Gu, R.
  - destruct (Gsot (proj1 R)). split; assumption.
  - unfold step_lower, step_upper. assert (N : (0 <= nominal_step (the_opts C) (nfe_of (the_opts C) ctrl))%Q) by (apply Qdiv_nonneg, Qdiv_nonneg, GT).
    destruct (o_gamma_h (the_opts C)); try contradiction; split; cbn; try exact I.
    all: set (h := nominal_step _ _) in *; assert (P : (0 <= h * q)%Q) by (apply Qmult_le_0_compat; assumption);
      rewrite Qle_minus_iff; ring_simplify; first [exact P|rewrite Qmult_comm; exact P].
  - destruct f; cbn [lower1 upper1] in *.
    + apply Gx, R.
    + split; exact I.
    + apply Gz, R.
  - assert (D : match lb_dual (the_opts C) with Fin a => a = 0%Q | NInf => True | PInf => False end)
      by (unfold lb_dual; destruct (o_mpcc (the_opts C)); cbn; auto).
    assert (N := Qdiv_nonneg _ (n_modes m sys) Gs).
    destruct f; cbn [lower2 upper2]; split; cbn; try exact I; destruct (lb_dual (the_opts C)); try contradiction; try exact I; subst;
      try exact N; unfold Qle; cbn; lia.
Qed.
