(* Nlp_proofs.v -- constraints and cost of the constructed problem *)
From Coq Require Import Reals Qreals Lra.
From Verif Require Import Base Lib Sx Sx_proofs Utils Tableau Opts Model Ocp Problem Spec Fesd Fo_proofs Fe_proofs
  FeMake_proofs FeSel_proofs FeZero_proofs Prob_proofs Coll_proofs Body_proofs Model_proofs Con_proofs Index3_proofs
  Sem_proofs Dcs_proofs Point_proofs Elem_proofs.

Lemma Q2R_nat n : Q2R (Qnat n) = INR n.
Proof. unfold Qnat. rewrite INR_IZR_INZ. unfold Q2R, inject_Z. cbn [Qnum Qden]. rewrite Rinv_1. ring. Qed.
Lemma Qnat_nz n : 0 < n -> ~ (Qnat n == 0)%Q.
Proof. intros H E. unfold Qnat in E. unfold Qeq in E. cbn in E. lia. Qed.

Lemma nth_error_same {A} (a b : list A) : (forall i, nth_error a i = nth_error b i) -> a = b.
Proof.
  revert b. induction a as [|x a IH]; intros [|y b] H; [reflexivity|specialize (H 0); discriminate|specialize (H 0); discriminate|].
  pose proof (H 0) as H0. cbn in H0. injection H0 as ->. f_equal. apply IH. intros i. apply (H (S i)).
Qed.
Lemma map_is_seq {A B} (f : A -> B) (h : nat -> B) l n : length l = n ->
  (forall i a, nth_error l i = Some a -> f a = h i) -> map f l = map h (seq 0 n).
Proof.
  intros L H. apply nth_error_same. intros i. rewrite !nth_error_map. destruct (nth_error l i) as [a|] eqn:E.
  - rewrite nth_error_seq by (rewrite <- L; eapply nth_error_Some_lt; eauto). cbn. f_equal. auto.
  - replace (nth_error (seq 0 n) i) with (@None nat); [reflexivity|]. symmetry. apply nth_error_None. rewrite seq_length.
    apply nth_error_None in E. lia.
Qed.
Lemma rsum_concat (l : list (list R)) : rsum (concat l) = rsum (map rsum l).
Proof. induction l as [|a l IH]; cbn [concat map]; [reflexivity|]. rewrite rsum_app, rsum_cons, IH. reflexivity. Qed.

Section Nlp.
Variables (o : opts) (t : tab) (m : model) (pm : pmodel) (oc : ocp) (po : pocp) (rho : env).
Hypothesis K : pmodel_ok o m pm.
Hypothesis KO : pocp_ok pm oc po.
Hypothesis WS : well_sized m.
Notation nfes := (o_Nfe_list o).
Notation N := (o_N_stages o).
Notation Sat f := (sat_cons rho f).
Notation "A <~> B" := (iffm o A B) (at level 95, no associativity).

(* ---- what the processing loops add ---- *)
Lemma add_fe_sat f fe f' : wf_f f -> wf_f (fo fe) ->
  add_constraint f (g (fo fe)) (Some (lbg (fo fe))) (Some (ubg (fo fe))) = Ok f' -> (Sat f' <-> Sat f /\ Sat (fo fe)).
Proof.
  intros W Wf H. rewrite (add_constraint_sat rho _ _ _ _ _ W H). apply and_iff_compat_l. cbn [bnd_or_zero].
  rewrite <- (feasible_cons rho (fo fe) Wf). unfold constraints_ok. reflexivity.
Qed.

Lemma process_fold_sat nfe Uk sot l : forall f pp p done ic f' pp' p' done' ic',
  wf_f f -> (forall s, In s l -> wf_f (fo s)) ->
  foldM (process_fe o t pm po nfe Uk sot) l (f, pp, p, done, ic) = Ok (f', pp', p', done', ic') ->
  exists ds, done' = done ++ ds /\ wf_f f' /\ (Sat f' <-> Sat f /\ forall fe, In fe ds -> Sat (fo fe)).
Proof.
  induction l as [|s l IH]; intros f pp p done ic f' pp' p' done' ic' W Ws H; cbn [foldM] in H.
  - injection H as <- <- <- <- <-. exists []. rewrite app_nil_r. split; [reflexivity|]. split; [exact W|].
    split; [intros G; split; [exact G|intros fe []]|tauto].
  - apply bind_ok in H. destruct H as (r1 & H1 & H). unfold process_fe in H1.
    apply bind_ok in H1; destruct H1 as (fe1 & F1 & H1).
    apply bind_ok in H1; destruct H1 as (fe2 & F2 & H1).
    apply bind_ok in H1; destruct H1 as (fe3 & F3 & H1).
    apply bind_ok in H1; destruct H1 as (f2 & F4 & H1). injection H1 as <-.
    assert (W1 : wf_f (add_cost f (cost (fo fe3)))) by (eapply fo_le_wf; [apply (add_cost_le o SBoolG), fo_le_refl|exact W]).
    assert (W3 : wf_f (fo fe3)).
    { assert (St : fsteps o t pm po nfe Uk sot pp p s fe3) by (exists fe1, fe2; auto).
      pose proof (fsteps_le _ _ _ _ _ _ _ _ _ _ _ St) as [L3 _]. eapply fo_le_wf; [exact L3|]. apply Ws. left. reflexivity. }
    pose proof (add_fe_sat _ _ _ W1 W3 F4) as S2. rewrite sat_add_cost in S2.
    assert (W2 : wf_f f2) by (eapply fo_le_wf; [apply (add_constraint_le o SBoolG _ _ _ _ _ F4)|exact W1]).
    apply IH in H; [|exact W2|intros; apply Ws; right; assumption].
    destruct H as (ds & -> & W' & Hc). exists (fe3 :: ds). rewrite <- app_assoc. split; [reflexivity|]. split; [exact W'|].
    rewrite Hc, S2. cbn [In]. split.
    + intros [[A B] D]. split; [exact A|]. intros fe [<-|E]; auto.
    + intros [A B]. split; [split; [exact A|apply B; auto]|auto].
Qed.

Definition stage_sat (P0 : prob) (c : nat) (ends : list felem) : Prop :=
  (forall fe, In fe ends -> Sat (fo fe)) /\
  (o_use_fesd o && o_equidistant o = true ->
     eval rho (esum (map fe_h ends)) = Q2R (o_terminal_time o / Qnat N)) /\
  (o_time_freezing o && o_equidistant o = true -> forall tf x0 t0 lf xe te,
     pm_t_fun pm = Some tf -> x_last (p_fe0 P0) = Ok x0 -> call tf [x0] = Ok [t0] ->
     lastE EIndexError ends = Ok lf -> x_last lf = Ok xe -> call tf [xe] = Ok [te] ->
     in_bnds (Fin (- o_tf_tol o)) (Fin (o_tf_tol o))
       (eval rho te - (Q2R (o_terminal_time o / Qnat N * Qnat (c + 1)) + eval rho t0))).

Lemma process_stages_sat P0 l : forall f pp p done ics f' pp' p' done' ics',
  wf_f f -> (forall c st s, In (c, st) l -> In s st -> wf_f (fo s)) ->
  foldM (process_stage o t pm po P0) l (f, pp, p, done, ics) = Ok (f', pp', p', done', ics') ->
  exists es, done' = done ++ es /\ length es = length l /\
    (Sat f' <-> Sat f /\ forall k c st ends, nth_error l k = Some (c, st) -> nth_error es k = Some ends -> stage_sat P0 c ends).
Proof.
  induction l as [|[c st] l IH]; intros f pp p done ics f' pp' p' done' ics' W Ws H; cbn [foldM] in H.
  - injection H as <- <- <- <- <-. exists []. rewrite app_nil_r. split; [reflexivity|]. split; [reflexivity|].
    split; [intros G; split; [exact G|intros [|k]; discriminate]|tauto].
  - apply bind_ok in H. destruct H as (r1 & H1 & H). unfold process_stage in H1.
    apply bind_ok in H1; destruct H1 as (iu & E1 & H1).
    apply bind_ok in H1; destruct H1 as (Us & E2 & H1).
    apply bind_ok in H1; destruct H1 as (sot & E3 & H1).
    apply bind_ok in H1; destruct H1 as (nfe & E4 & H1).
    apply bind_ok in H1; destruct H1 as ([[[[f1 pp1] p1] fes] ic] & E5 & H1).
    apply bind_ok in H1; destruct H1 as (f2 & E6 & H1).
    apply bind_ok in H1; destruct H1 as (f3 & E7 & H1). injection H1 as <-.
    destruct (process_fold_sat _ _ _ _ _ _ _ _ _ _ _ _ _ _ W (fun s Hs => Ws c st s (or_introl eq_refl) Hs) E5) as (ds & -> & W1 & S1).
    cbn [app] in *.
    assert (S2 : wf_f f2 /\ (Sat f2 <-> Sat f1 /\ (o_use_fesd o && o_equidistant o = true -> eval rho (esum (map fe_h ds)) = Q2R (o_terminal_time o / Qnat N)))).
    { destruct (o_use_fesd o && o_equidistant o).
      - split; [eapply fo_le_wf; [apply (add_constraint_le o SBoolG _ _ _ _ _ E6)|exact W1]|].
        rewrite (add_constraint_eq_sat rho _ _ _ W1 E6). apply and_iff_compat_l. unfold pysum. split.
        + intros G _. specialize (G _ (or_introl eq_refl)). cbn [eval eval_bin] in G. lra.
        + intros G x [<-|[]]. cbn [eval eval_bin]. specialize (G eq_refl). lra.
      - injection E6 as <-. split; [exact W1|]. split; [intros G; split; [exact G|discriminate]|tauto]. }
    destruct S2 as [W2 S2].
    assert (S3 : wf_f f3 /\ (Sat f3 <-> Sat f2 /\ (o_time_freezing o && o_equidistant o = true -> forall tf x0 t0 lf xe te,
       pm_t_fun pm = Some tf -> x_last (p_fe0 P0) = Ok x0 -> call tf [x0] = Ok [t0] ->
       lastE EIndexError ds = Ok lf -> x_last lf = Ok xe -> call tf [xe] = Ok [te] ->
       in_bnds (Fin (- o_tf_tol o)) (Fin (o_tf_tol o))
         (eval rho te - (Q2R (o_terminal_time o / Qnat N * Qnat (c + 1)) + eval rho t0))))).
    { destruct (o_time_freezing o && o_equidistant o).
      - apply bind_ok in E7; destruct E7 as (tf & T1 & E7).
        apply bind_ok in E7; destruct E7 as (x0 & T2 & E7).
        apply bind_ok in E7; destruct E7 as (t0 & T3 & E7).
        apply bind_ok in E7; destruct E7 as (lf & T4 & E7).
        apply bind_ok in E7; destruct E7 as (xe & T5 & E7).
        apply bind_ok in E7; destruct E7 as (te & T6 & E7).
        apply bind_ok in E7; destruct E7 as (t0' & T7 & E7).
        apply bind_ok in E7; destruct E7 as (te' & T8 & E7).
        apply head1_ok in T7, T8. subst t0 te.
        split; [eapply fo_le_wf; [apply (add_constraint_le o SBoolG _ _ _ _ _ E7)|exact W2]|].
        rewrite (add_constraint_sat rho _ _ _ _ _ W2 E7). apply and_iff_compat_l. cbn [bnd_or_zero]. split.
        + intros G _ tf1 x1 t1 lf1 xe1 te1 U1 U2 U3 U4 U5 U6.
          assert (tf1 = tf) by (rewrite U1 in T1; cbn in T1; congruence). subst tf1.
          assert (x1 = x0) by congruence. subst x1. assert (lf1 = lf) by congruence. subst lf1.
          assert (xe1 = xe) by congruence. subst xe1. assert (t1 = t0') by congruence. assert (te1 = te') by congruence. subst t1 te1.
          exact (G 0 _ _ _ eq_refl eq_refl eq_refl).
        + intros G i x lo u Hi Hl Hu. destruct i as [|i]; [|destruct i; discriminate]. injection Hi as <-. injection Hl as <-. injection Hu as <-.
          refine (G eq_refl tf x0 t0' lf xe te' _ T2 T3 T4 T5 T6). destruct (pm_t_fun pm); cbn in T1; congruence.
      - injection E7 as <-. split; [exact W2|]. split; [intros G; split; [exact G|discriminate]|tauto]. }
    destruct S3 as [W3 S3].
    apply IH in H; [|exact W3|intros; eapply Ws; [right; eassumption|eassumption]].
    destruct H as (es & -> & L & S4). exists (ds :: es). rewrite <- app_assoc. split; [reflexivity|]. split; [cbn; congruence|].
    rewrite S4, S3, S2, S1. clear - IH. split.
    + intros [[[[A1 A2] A3] A4] A5]. split; [exact A1|]. intros [|k] c' st' ends Hk He; cbn in Hk, He.
      * injection Hk as <- <-. injection He as <-. split; [exact A2|]. split; [exact A3|exact A4].
      * eauto.
    + intros [A1 A2]. destruct (A2 0 c st ds eq_refl eq_refl) as (B1 & B2 & B3).
      split; [|intros k c' st' ends Hk He; exact (A2 (S k) c' st' ends Hk He)]. tauto.
Qed.

(* ---- the constructed problem ---- *)
Variables (P : prob) (stages : list (list felem)) (lastfe : felem) (f1 : fobj).
Hypothesis B : body_ok o t pm po P stages lastfe f1.

Lemma notglobal : o_sot o <> SotGlobal.
Proof. destruct (bo_prim _ _ _ _ _ _ _ _ B) as (P0 & pp & pq & KP & _). exact (pk_notglobal _ _ _ _ _ KP). Qed.

Lemma ns_pos : 0 < o_ns o.
Proof.
  destruct (bo_rest _ _ _ _ _ _ _ _ B) as (P0 & f2 & cvs & xT & gT & fT1 & f3 & f6 & Pc & _ & _ & _ & _ & Hcv & HJ & _).
  destruct (o_ns o) as [|n] eqn:En; [exfalso|lia].
  assert (E : concat cvs = []).
  { assert (A : forall v, In v cvs -> v = []).
    { intros v Hv. destruct (mapM_In_inv _ _ _ _ Hcv Hv) as (q & _ & Hq). unfold get_complementarity_vector in Hq. rewrite En in Hq.
      destruct (o_use_fesd o); cbn in Hq; congruence. }
    clear - A. induction cvs as [|v l IH]; [reflexivity|]. cbn. rewrite (A v (or_introl eq_refl)). apply IH. intros; apply A; right; assumption. }
  rewrite E in HJ. discriminate.
Qed.

Lemma stage_nfe c : c < N -> exists nfe, nth_error nfes c = Some nfe /\ 0 < nfe.
Proof.
  intros Hc. destruct (get_stage _ _ _ _ _ _ _ _ B c Hc) as (P0 & nfe & s & e & qq & q & pp' & p' & _ & _ & H1 & H2 & _). eauto.
Qed.
Lemma stage_get c : c < N -> exists ends nfe, nth_error nfes c = Some nfe /\ 0 < nfe /\ nth_error stages c = Some ends /\ length ends = nfe.
Proof.
  intros Hc. destruct (get_stage _ _ _ _ _ _ _ _ B c Hc) as (P0 & nfe & s & e & qq & q & pp' & p' & _ & _ & H1 & H2 & H3 & H4 & _). eauto 10.
Qed.

Lemma elem_sat c e nfe fe ends : c < N -> nth_error nfes c = Some nfe -> nth_error stages c = Some ends -> nth_error ends e = Some fe ->
  e < nfe /\ (Sat (fo fe) <~> element_ok o t m oc rho c e) /\
  fcost rho fe = (stage_cost o t m oc rho c e + step_cost o t m rho c e)%R /\ fe_ok o t pm po c e nfe fe.
Proof.
  intros Hc Hn Hs He. destruct (get_fe_ok _ _ _ _ _ _ _ _ B c e nfe ends fe Hs He Hn) as [_ Hlt]. split; [exact Hlt|].
  destruct (get_elem _ _ _ _ _ _ _ _ B c nfe e Hc Hn Hlt) as (qq & q & s & fe' & (E1 & E2 & (st & E3 & E4) & E5 & _ & E6) & _ & _).
  assert (fe' = fe) by congruence. subst fe'.
  pose proof (fe_make_ok _ _ _ _ _ _ _ _ E1) as Os. destruct (fe_make_rest _ _ _ _ _ _ _ _ E1) as (G1 & _ & _ & G4 & _).
  destruct (element_sem o t m pm oc po rho K KO WS ns_pos c e nfe q Hn Hlt E5 notglobal qq E6 s fe Os) as (A1 & A2 & A3).
  - intros x l u Hx. unfold cons in Hx. rewrite G1 in Hx. destruct Hx.
  - rewrite G4. cbn. apply Q2R_0.
  - exact E2.
  - split; [exact A1|]. split; [exact A2|exact A3].
Qed.

Lemma h_list c ends nfe : c < N -> nth_error nfes c = Some nfe -> nth_error stages c = Some ends -> length ends = nfe ->
  map (fun fe => eval rho (fe_h fe)) ends = map (step_len o rho c) (seq 0 nfe).
Proof.
  intros Hc Hn Hs HL. apply map_is_seq; [exact HL|]. intros e fe He.
  destruct (elem_sat c e nfe fe ends Hc Hn Hs He) as (_ & _ & _ & Ok). exact (h_eval o t pm po rho c e nfe fe Hn Ok).
Qed.
Lemma h_sum c ends nfe : c < N -> nth_error nfes c = Some nfe -> nth_error stages c = Some ends -> length ends = nfe ->
  eval rho (esum (map fe_h ends)) = stage_length o rho c.
Proof.
  intros Hc Hn Hs HL. rewrite eval_esum, Rsum_rsum, map_map, (h_list c ends nfe Hc Hn Hs HL).
  unfold stage_length. rewrite (nfe_is o c nfe Hn). reflexivity.
Qed.
Lemma h_total : eval rho (esum (map fe_h (concat stages))) = rupto N (stage_length o rho).
Proof.
  rewrite eval_esum, Rsum_rsum, map_map, concat_map, rsum_concat, map_map. unfold rupto at 1.
  f_equal. apply map_is_seq; [apply (stages_length _ _ _ _ _ _ _ _ B)|]. intros c ends Hs.
  pose proof (nth_error_Some_lt _ _ _ Hs) as Hc. rewrite (stages_length _ _ _ _ _ _ _ _ B) in Hc.
  destruct (stage_get c Hc) as (ends' & nfe & Hn & _ & Hs' & HL). assert (ends' = ends) by congruence. subst ends'.
  rewrite (h_list c ends nfe Hc Hn Hs HL). unfold stage_length. rewrite (nfe_is o c nfe Hn). reflexivity.
Qed.

Lemma last_x c ends lf : c < N -> nth_error stages c = Some ends -> lastE EIndexError ends = Ok lf ->
  exists xe, x_last lf = Ok xe /\ isvec rho (m_nx m) (end_state o t rho c (last_elem o c)) xe.
Proof.
  intros Hc Hs Hl. destruct (stage_get c Hc) as (ends' & nfe & Hn & Hpos & Hs' & HL). assert (ends' = ends) by congruence. subst ends'.
  rewrite (lastE_last _ _ (nfe - 1)) in Hl by lia. apply nthE_ok in Hl.
  destruct (elem_sat c (nfe - 1) nfe lf ends Hc Hn Hs Hl) as (_ & _ & _ & Ok).
  rewrite (ok_x_last _ _ _ _ _ _ _ _ Ok (nx_slots_pos o t ns_pos)). eexists. split; [reflexivity|].
  unfold last_elem. rewrite (nfe_is o c nfe Hn). apply (end_isvec o t m pm rho K).
Qed.

Lemma time_of f tv x xs r c : mkfun [mx m] [tv] = Ok f -> isvec rho (m_nx m) x xs -> call f [xs] = Ok [r] ->
  eval rho r = eval (plain_point m rho c x) tv.
Proof.
  intros M Hx H. unfold plain_point.
  pose proof (call_vals rho _ _ _ _ _ _ M H (Forall2_cons _ _ (x_ale m rho c 0 0 (fun _ => 0) x xs Hx) (Forall2_nil _))) as V.
  inversion V; subst. assumption.
Qed.

Lemma stages_sem P0 c ends : primal_ok o t pm po P0 -> c < N -> nth_error stages c = Some ends ->
  (stage_sat P0 c ends <~>
   (forall e, e < nfe_of o c -> element_ok o t m oc rho c e) /\
   (o_use_fesd o = true -> o_equidistant o = true -> stage_length o rho c = (T o / INR N)%R) /\
   (o_time_freezing o = true -> o_equidistant o = true -> forall tv, m_tvar m = Some tv ->
     (Rabs (eval (plain_point m rho c (end_state o t rho c (last_elem o c))) tv
           - (INR (c + 1) * (T o / INR N) + eval (plain_point m rho c (fun i => rho (SX0 i))) tv))
     <= Q2R (o_tf_tol o))%R)).
Proof.
  intros KP Hc Hs. destruct (stage_get c Hc) as (ends' & nfe & Hn & Hpos & Hs' & HL). assert (ends' = ends) by congruence. subst ends'.
  assert (HN : 0 < N) by lia.
  assert (ET : Q2R (o_terminal_time o / Qnat N) = (T o / INR N)%R).
  { rewrite Q2R_div by (apply Qnat_nz; exact HN). rewrite Q2R_nat. reflexivity. }
  unfold stage_sat. rewrite (h_sum c ends nfe Hc Hn Hs HL), ET, (nfe_is o c nfe Hn).
  assert (A1 : (forall fe, In fe ends -> Sat (fo fe)) <~> forall e, e < nfe -> element_ok o t m oc rho c e).
  { split.
    - intros G e He. destruct (nth_error_lt ends e ltac:(lia)) as [fe Hfe].
      destruct (elem_sat c e nfe fe ends Hc Hn Hs Hfe) as (_ & A & _). apply A, G. eapply nth_error_In; eauto.
    - intros HB G fe Hfe. apply In_nth_error in Hfe. destruct Hfe as [e He].
      destruct (elem_sat c e nfe fe ends Hc Hn Hs He) as (Hlt & A & _). apply A; [exact HB|]. apply G, Hlt. }
  rewrite A1. apply and_iffm_compat_l.
  assert (A2 : (o_use_fesd o && o_equidistant o = true -> stage_length o rho c = (T o / INR N)%R) <->
               (o_use_fesd o = true -> o_equidistant o = true -> stage_length o rho c = (T o / INR N)%R)).
  { rewrite andb_true_iff. tauto. }
  rewrite A2. apply and_iff_compat_l.
  pose proof (z_xl _ _ _ (pk_fe0 _ _ _ _ _ KP)) as Ex0.
  assert (Ix0 : isvec rho (m_nx m) (fun i => rho (SX0 i)) (vars (labx0 pm))).
  { unfold labx0. replace (m_nx (pm_m pm)) with (m_nx m) by (symmetry; apply (pm_sizes o m pm K)). apply isvec_vars. }
  assert (EL : exists lf, lastE EIndexError ends = Ok lf).
  { rewrite (lastE_last _ _ (nfe - 1)) by lia. destruct (nth_error_lt ends (nfe - 1) ltac:(lia)) as [lf Hlf]. exists lf.
    apply nthE_Some. exact Hlf. }
  destruct EL as [lf Hlf]. destruct (last_x c ends lf Hc Hs Hlf) as (xe & Hxe & Ixe).
  assert (EQ : (Q2R (o_terminal_time o / Qnat N * Qnat (c + 1)) = INR (c + 1) * (T o / INR N))%R).
  { rewrite Q2R_mult, ET, Q2R_nat. lra. }
  pose proof (mo_t _ _ _ K) as KT.
  assert (CALL : forall f tv x xs, mkfun [mx m] [tv] = Ok f -> isvec rho (m_nx m) x xs -> exists r, call f [xs] = Ok [r]).
  { intros f tv x xs M Ix. apply mkfun_ok in M. destruct M as [-> _]. rewrite call_intro; [eexists; reflexivity|]. cbn. f_equal.
    rewrite (isvec_length _ _ _ _ Ix). unfold mx. rewrite map_length, seq_length. reflexivity. }
  split.
  - intros G E1 E2 tv Htv. rewrite Htv in KT. destruct KT as (f & M & Ef).
    destruct (CALL f tv _ _ M Ix0) as [t0 Ht0]. destruct (CALL f tv _ _ M Ixe) as [te Hte].
    specialize (G ltac:(rewrite E1, E2; reflexivity) f _ t0 lf xe te Ef Ex0 Ht0 Hlf Hxe Hte).
    rewrite (time_of f tv _ _ _ c M Ix0 Ht0), (time_of f tv _ _ _ c M Ixe Hte), EQ in G. unfold in_bnds in G. rewrite Q2R_opp in G.
    apply Rabs_le. lra.
  - intros G E12 tf x0 t0 lf' xe' te Etf Hx0 Ht0 Hlf' Hxe' Hte. apply andb_true_iff in E12. destruct E12 as [E1 E2].
    assert (lf' = lf) by congruence. subst lf'. assert (xe' = xe) by congruence. subst xe'.
    assert (x0 = vars (labx0 pm)) by congruence. subst x0.
    destruct (m_tvar m) as [tv|] eqn:Htv; [|destruct KT; congruence]. destruct KT as (f & M & Ef). assert (f = tf) by congruence. subst f.
    specialize (G E1 E2 tv eq_refl).
    rewrite (time_of tf tv _ _ _ c M Ix0 Ht0), (time_of tf tv _ _ _ c M Ixe Hte), EQ. unfold in_bnds. rewrite Q2R_opp.
    revert G. unfold Rabs. destruct (Rcase_abs _); lra.
Qed.

Lemma f1_sat : Sat f1 <~> (forall c e, c < N -> e < nfe_of o c -> element_ok o t m oc rho c e) /\ stages_ok o t m rho.
Proof.
  destruct (bo_prim _ _ _ _ _ _ _ _ B) as (P0 & pp & pq & KP & _ & _ & _ & HF & _).
  destruct (process_stages_sat P0 _ _ _ _ _ _ _ _ _ _ _ (pk_wf _ _ _ _ _ KP)
    ltac:(intros c st s Hcs Hs; apply In_nth_error in Hcs; destruct Hcs as [k Hk]; apply nth_error_combine_inv in Hk; destruct Hk as [_ Hk];
          pose proof (nth_error_Some_lt _ _ _ Hk) as Hlt; rewrite (pk_stages _ _ _ _ _ KP) in Hlt;
          destruct (pk_stage _ _ _ _ _ KP k Hlt) as (fes & E & Hcr); assert (fes = st) by congruence; subst fes;
          eapply stage_created_wf; eauto) HF) as (es & E & HL & S1).
  cbn [app] in E. subst es.
  assert (S0 : Sat (pb P0)).
  { intros x l u Hx. destruct (pk_nog _ _ _ _ _ KP) as (G & _). unfold cons in Hx. rewrite G in Hx. destruct Hx. }
  rewrite S1. unfold stages_ok.
  assert (LS : length (p_stages P0) = N) by apply (pk_stages _ _ _ _ _ KP).
  split.
  - intros [_ G].
    assert (G' : forall c, c < N -> exists ends, nth_error stages c = Some ends /\ stage_sat P0 c ends).
    { intros c Hc. destruct (stage_get c Hc) as (ends & nfe & _ & _ & Hs & _). exists ends. split; [exact Hs|].
      destruct (nth_error_lt (p_stages P0) c ltac:(lia)) as [st Hst].
      refine (G c c st ends _ Hs). apply nth_error_combine; [|exact Hst]. rewrite nth_error_seq by lia. reflexivity. }
    split.
    + intros c e Hc He. destruct (G' c Hc) as (ends & Hs & HG). apply (stages_sem P0 c ends KP Hc Hs) in HG. apply HG. exact He.
    + intros c Hc. destruct (G' c Hc) as (ends & Hs & HG). apply (stages_sem P0 c ends KP Hc Hs) in HG. apply HG.
  - intros HB [G1 G2]. split; [exact S0|]. intros k c st ends Hk He. apply nth_error_combine_inv in Hk. destruct Hk as [Hk Hst].
    pose proof (nth_error_Some_lt _ _ _ Hst) as Hlt. rewrite nth_error_seq in Hk by lia. injection Hk as <-. cbn in *.
    assert (Hc : k < N) by lia. apply (stages_sem P0 k ends KP Hc He); [exact HB|]. split; [intros e; apply G1; exact Hc|exact (G2 k Hc)].
Qed.

Lemma lastfe_x : exists xT, x_last lastfe = Ok xT /\ isvec rho (m_nx m) (end_state o t rho (last_stage o) (last_elem o (last_stage o))) xT.
Proof.
  pose proof (bo_N _ _ _ _ _ _ _ _ B) as HN. assert (Hc : last_stage o < N) by (unfold last_stage; lia).
  destruct (stage_get _ Hc) as (ends & nfe & Hn & Hpos & Hs & HL).
  destruct (bo_prim _ _ _ _ _ _ _ _ B) as (P0 & pp & pq & KP & _ & _ & Sc & _).
  apply schain_final in Sc. destruct Sc as [_ Sc].
  assert (Hl : nth_error ends (nfe - 1) = Some lastfe).
  { eapply (Sc (last_stage o)); [rewrite (stages_length _ _ _ _ _ _ _ _ B); unfold last_stage; lia|exact Hs|lia]. }
  apply (last_x _ ends lastfe Hc Hs). rewrite (lastE_last _ _ (nfe - 1)) by lia. apply nthE_Some. exact Hl.
Qed.

Lemma pst0 P0 : primal_ok o t pm po P0 ->
  sel (p_p P0) (seq (m_npt m) (m_npg m)) = Ok (map (fun i => SPst 0 (m_npt m + i)) (seq 0 (m_npg m))).
Proof.
  intros KP. rewrite (pk_p _ _ _ _ _ KP). pose proof (bo_N _ _ _ _ _ _ _ _ B) as HN. destruct N as [|n]; [lia|].
  cbn [seq map concat]. unfold pst at 1, pm_np. rewrite (proj1 (proj2 (proj2 (proj2 (proj2 (pm_dims m o pm K)))))), (proj1 (proj2 (proj2 (proj2 (proj2 (proj2 (pm_dims m o pm K))))))).
  rewrite seq_app, map_app, <- !app_assoc. cbn [Nat.add].
  replace (map (fun i => SPst 0 (m_npt m + i)) (seq 0 (m_npg m))) with (map (SPst 0) (seq (m_npt m) (m_npg m))).
  - replace (seq (m_npt m) (m_npg m)) with (seq (length (map (SPst 0) (seq 0 (m_npt m)))) (length (map (SPst 0) (seq (m_npt m) (m_npg m))))) at 2
      by (rewrite !map_length, !seq_length; reflexivity).
    apply sel_seq.
  - clear. generalize (m_npg m) as n. intros n. induction n as [|n IH]; [reflexivity|]. rewrite !seq_S, !map_app, IH. reflexivity.
Qed.

Lemma global_sat P0 f2 : primal_ok o t pm po P0 -> wf_f f1 -> global_compl o pm po P0 f1 = Ok f2 ->
  wf_f f2 /\ (Sat f2 <~> Sat f1 /\ global_comp_ok o m oc rho).
Proof.
  intros KP W H. unfold global_compl in H. cbv zeta in H.
  rewrite (proj1 (proj2 (proj2 (proj2 (proj2 (pm_dims m o pm K)))))), (proj1 (proj2 (proj2 (proj2 (proj2 (proj2 (pm_dims m o pm K))))))) in H.
  rewrite (pst0 P0 KP) in H. cbn [bind] in H. apply bind_ok in H. destruct H as (ab & Hab & H).
  destruct (po_cl _ _ _ KO) as (gc & cc & sc & CL & M & _ & _).
  destruct (pm_syms o m pm K) as (E1 & E2 & _ & E4 & _ & E6 & E7). 
  assert (RA : rows_at rho (plain_point m rho 0 (fun _ => 0%R)) gc ab).
  { rewrite E6, E4 in M. unfold plain_point.
    refine (comp_at rho _ _ _ _ _ _ M Hab (Forall2_cons _ _ _ (Forall2_cons _ _ (vg_ale o m pm rho K 0 0 0 (fun _ => 0) (fun _ => 0%R)) (Forall2_nil _)))).
    apply al_vars. unfold mpg. apply al_map. reflexivity. }
  pose proof RA as (_ & L1 & L2).
  destruct (cc_sat rho o _ _ _ _ _ (length gc) H W L2 (Forall_cons _ L1 (Forall_nil _))) as [W2 S2].
  split; [exact W2|]. rewrite S2. apply and_iffm_compat_l. cbn [map]. rewrite (rows_relaxed o rho _ _ _ RA). unfold global_comp_ok.
  assert (EC : forall r, In r gc <-> In r (oc_comp oc) /\ global_row m r) by (intros r; apply (in_class o m pm K oc r _ _ _ CL)).
  split; [intros G r H1 H2; apply G, EC; auto|intros G r Hr; apply EC in Hr; apply G; apply Hr].
Qed.

Theorem body_sat : Sat (pb P) <~> nlp_constraints o t m oc rho.
Proof.
  destruct (bo_end _ _ _ _ _ _ _ _ B) as (P0 & f2 & xT & gT & f3 & f5 & f6 & KP & H2 & HxT & HgT & H3 & G1 & G2 & G3 & W5 & H6 & G4 & G5 & G6).
  destruct (bo_prim _ _ _ _ _ _ _ _ B) as (_ & _ & _ & _ & _ & W1 & _).
  destruct (global_sat P0 f2 KP W1 H2) as [W2 S2].
  destruct lastfe_x as (xT' & E & IxT). assert (xT' = xT) by congruence. subst xT'. clear E.
  assert (S3 : Sat f3 <-> Sat f2 /\ terminal_ok o t m oc rho).
  { rewrite (add_constraint_eq_sat rho _ _ _ W2 H3). apply and_iff_compat_l. unfold terminal_ok, terminal_point, plain_point.
    exact (gT_call o m pm rho K (last_stage o) 0 oc po KO 0 (fun _ => 0) _ xT IxT gT HgT). }
  assert (S5 : Sat f5 <-> Sat f3) by (unfold sat_cons, cons; rewrite G1, G2, G3; reflexivity).
  assert (S6 : Sat f6 <-> Sat f5 /\ horizon_ok o rho).
  { unfold horizon_ok. destruct (_ && negb (o_equidistant o)) eqn:EC.
    - rewrite (add_constraint_eq_sat rho _ _ _ W5 H6). apply and_iff_compat_l. unfold T. split.
      + intros G _ _ _. specialize (G _ (or_introl eq_refl)). cbn [eval eval_bin] in G. rewrite h_total in G. lra.
      + intros G x [<-|[]]. cbn [eval eval_bin]. rewrite h_total. rewrite !andb_true_iff, Nat.ltb_lt, negb_true_iff in EC.
        rewrite (G (proj1 (proj1 EC)) (proj2 (proj1 EC)) (proj2 EC)). lra.
    - injection H6 as <-. split; [intros G; split; [exact G|]|tauto]. intros A1 A2 A3. exfalso. apply Nat.ltb_lt in A1.
      rewrite A1, A2, A3 in EC. discriminate. }
  assert (SP : Sat (pb P) <-> Sat f6) by (unfold sat_cons, cons; rewrite G4, G5, G6; reflexivity).
  rewrite SP, S6, S5, S3, S2, f1_sat. unfold nlp_constraints. apply iff_iffm. tauto.
Qed.

Theorem body_cost : eval rho (cost (pb P)) = nlp_cost o t m oc rho.
Proof.
  destruct (bo_rest _ _ _ _ _ _ _ _ B) as (P1 & f2 & cvs & xT & gT & fT1 & f3 & f6 & Pc & KP1 & _ & _ & H2 & _ & _ & HxT & _ & H3 & HfT & HC & _ & _ & EP & Cl & _).
  destruct (bo_prim _ _ _ _ _ _ _ _ B) as (P0 & pp & pq & KP & _ & _ & _ & HF & _).
  destruct (process_stages_cost _ _ _ _ _ _ _ _ _ _ _ _ _ _ _ _ HF) as (es & E & HC1). cbn [app] in E. subst es.
  assert (C0 : eval rho (cost (pb P0)) = 0%R).
  { destruct (pk_nog _ _ _ _ _ KP) as (_ & _ & _ & -> & _). cbn. apply Q2R_0. }
  assert (CR : eval rho (cost f1) = running_cost o t m oc rho).
  { rewrite HC1, C0, Rplus_0_l, Rsum_rsum, concat_map, rsum_concat, map_map. unfold running_cost, rupto at 1. f_equal.
    apply map_is_seq; [apply (stages_length _ _ _ _ _ _ _ _ B)|]. intros c ends Hs.
    pose proof (nth_error_Some_lt _ _ _ Hs) as Hc. rewrite (stages_length _ _ _ _ _ _ _ _ B) in Hc.
    destruct (stage_get c Hc) as (ends' & nfe & Hn & _ & Hs' & HL). assert (ends' = ends) by congruence. subst ends'.
    rewrite (nfe_is o c nfe Hn). unfold rupto at 1. f_equal. apply map_is_seq; [exact HL|]. intros e fe He.
    apply (elem_sat c e nfe fe ends Hc Hn Hs He). }
  assert (C3 : cost f3 = cost f1).
  { rewrite (add_constraint_cost _ _ _ _ _ H3). unfold global_compl in H2. inv_ok. eapply create_complementarity_cost; eauto. }
  destruct lastfe_x as (xT' & E & IxT). assert (xT' = xT) by congruence. subst xT'. clear E.
  assert (CT : eval rho fT1 = eval (terminal_point o t m rho) (oc_fT oc)).
  { exact (fT_call o m pm rho K (last_stage o) 0 oc po KO 0 (fun _ => 0) _ xT IxT fT1 HfT). }
  pose proof (cl_f _ _ _ Cl) as (_ & _ & _ & _ & _ & _ & _ & A8 & _). rewrite A8, EP, HC. cbv zeta. unfold nlp_cost, plain_cost.
  rewrite elastic_is. destruct (elastic o); [destruct (o_obj_direct o)|]; cbn [eval eval_bin]; rewrite C3, CR, CT.
  - rewrite Q2R_1. unfold Rdiv. lra.
  - reflexivity.
  - reflexivity.
Qed.
End Nlp.

(* ---- from construct_problem ---- *)
Section Con.
Variables (lr : Q -> Q -> Q -> nat) (cp : nat -> scheme -> list Q) (d : ipopt_dict) (o : opts) (m : model)
  (oc : option ocp) (C : constructed).
Hypothesis H : construct_problem lr cp d o m oc = Ok C.
Hypothesis Ex : o_constr o = Exact.
Hypothesis WS : well_sized m.

Lemma kept_mpcc : o_mpcc (the_opts C) = o_mpcc o /\ o_constr (the_opts C) = o_constr o.
Proof. rewrite (options_kept lr cp d o m oc C H). split; reflexivity. Qed.

Theorem nlp_both rho : iffm o (constraints_ok rho (the_nlp C)) (nlp_constraints (the_opts C) (cn_tab C) m (the_ocp oc) rho).
Proof.
  destruct (con_use lr cp d o m oc C H) as (o' & t & pm & po & P & st & lf & f1 & KC & B & Eo & _ & _).
  destruct (lsq_same _ _ _ (co_lsq _ _ _ _ _ _ _ _ _ _ _ _ KC)) as (_ & _ & _ & _ & _ & _ & _ & _ & _ & _ & _ & _ & _ & _ & _ & _ & _ & _ & _ & L).
  destruct kept_mpcc as [E1 E2]. unfold the_nlp. rewrite Eo in *. rewrite (L ltac:(congruence)).
  rewrite (co_t _ _ _ _ _ _ _ _ _ _ _ _ KC). rewrite (feasible_cons rho _ (wf_P _ _ _ _ _ _ _ _ B)).
  assert (G : iffm o' (sat_cons rho (pb P)) (nlp_constraints o' t m (the_ocp oc) rho)); [|split; [apply G|intros HB; apply G; congruence]].
  refine (body_sat o' t m pm (the_ocp oc) po rho (co_mo _ _ _ _ _ _ _ _ _ _ _ _ KC) (co_po _ _ _ _ _ _ _ _ _ _ _ _ KC) WS P st lf f1 B).
Qed.
Theorem nlp_exact rho : o_mpcc o <> MBoolean -> (constraints_ok rho (the_nlp C) <-> nlp_constraints (the_opts C) (cn_tab C) m (the_ocp oc) rho).
Proof. intros HB. destruct (nlp_both rho) as [A B]. split; [exact A|exact (B HB)]. Qed.
Theorem nlp_sound rho : constraints_ok rho (the_nlp C) -> nlp_constraints (the_opts C) (cn_tab C) m (the_ocp oc) rho.
Proof. apply nlp_both. Qed.
Theorem cost_exact rho : eval rho (cost (the_nlp C)) = nlp_cost (the_opts C) (cn_tab C) m (the_ocp oc) rho.
Proof.
  destruct (con_use lr cp d o m oc C H) as (o' & t & pm & po & P & st & lf & f1 & KC & B & Eo & _ & _).
  destruct (lsq_same _ _ _ (co_lsq _ _ _ _ _ _ _ _ _ _ _ _ KC)) as (_ & _ & _ & _ & _ & _ & _ & _ & _ & _ & _ & _ & _ & _ & _ & _ & _ & _ & _ & L).
  destruct kept_mpcc as [E1 E2]. unfold the_nlp. rewrite Eo in *. rewrite (L ltac:(congruence)).
  rewrite (co_t _ _ _ _ _ _ _ _ _ _ _ _ KC).
  refine (body_cost o' t m pm (the_ocp oc) po rho (co_mo _ _ _ _ _ _ _ _ _ _ _ _ KC) (co_po _ _ _ _ _ _ _ _ _ _ _ _ KC) WS P st lf f1 B).
Qed.
End Con.
