(* Index3_proofs.v -- index, length and bound facts for the result of construct_problem *)
From Coq Require Import Reals Qreals Lra Permutation.
From Verif Require Import Base Lib Sx Sx_proofs Utils Tableau Opts Model Ocp Problem Spec
  Fo_proofs Fe_proofs FeMake_proofs FeSel_proofs FeZero_proofs Prob_proofs Coll_proofs Body_proofs Model_proofs
  Con_proofs Index_proofs Index2_proofs.


Section Con.
Variables (lr : Q -> Q -> Q -> nat) (cp : nat -> scheme -> list Q) (d : ipopt_dict)
  (o : opts) (m : model) (oc : option ocp) (C : constructed).
Hypothesis H : construct_problem lr cp d o m oc = Ok C.

Lemma options_kept :
  the_opts C = set_iter_nfe o (o_max_iter_homotopy (the_opts C))
     (match o_Nfe_list o with [] => repeat (o_N_finite_elements o) (o_N_stages o) | l => l end).
Proof.
  destruct (construct_ok _ _ _ _ _ _ _ H) as (o' & t & pm & po & P & K).
  rewrite (co_o _ _ _ _ _ _ _ _ _ _ _ _ K). rewrite (co_o' _ _ _ _ _ _ _ _ _ _ _ _ K) at 1.
  rewrite (co_o' _ _ _ _ _ _ _ _ _ _ _ _ K). reflexivity.
Qed.

Lemma con_use : exists o' t pm po P stages lastfe f1,
  con_ok lr cp d o m oc C o' t pm po P /\ body_ok o' t pm po P stages lastfe f1 /\
  the_opts C = o' /\ explicit_end C = t_rbe t /\
  w (the_nlp C) = w (pb P) /\ lbw (the_nlp C) = lbw (pb P) /\ ubw (the_nlp C) = ubw (pb P) /\
  w0 (the_nlp C) = w0 (pb P).
Proof.
  destruct (construct_ok _ _ _ _ _ _ _ H) as (o' & t & pm & po & P & K).
  destruct (con_body _ _ _ _ _ _ _ _ _ _ _ _ K) as (st & lf & f1 & B).
  exists o', t, pm, po, P, st, lf, f1. split; [assumption|]. split; [assumption|].
  split; [exact (co_o _ _ _ _ _ _ _ _ _ _ _ _ K)|].
  split; [unfold explicit_end; rewrite (co_t _ _ _ _ _ _ _ _ _ _ _ _ K); reflexivity|].
  destruct (lsq_same _ _ _ (co_lsq _ _ _ _ _ _ _ _ _ _ _ _ K)) as (L1 & L2 & L3 & L4 & _).
  unfold the_nlp. auto.
Qed.

Lemma partition : Permutation (published (the_problem C)) (seq 0 (length (w (the_nlp C)))).
Proof.
  destruct con_use as (o' & t & pm & po & P & st & lf & f1 & K & B & _ & _ & W & _).
  destruct (lsq_same _ _ _ (co_lsq _ _ _ _ _ _ _ _ _ _ _ _ K)) as (_ & _ & _ & _ & L5 & L6 & L7 & L8 & L9 & L10 & L11 & L12 & L13 & L14 & L15 & L16 & _).
  unfold published. rewrite L5, L7, L9, L10, L12, L13, L14, L15, L16, W. exact (partition_perm _ _ _ _ _ _ _ _ B).
Qed.

Lemma partition_exact : NoDup (published (the_problem C)) /\
  (forall i, In i (published (the_problem C)) <-> i < length (w (the_nlp C))).
Proof.
  split.
  - eapply Permutation_NoDup; [symmetry; apply partition|]. apply seq_NoDup.
  - intros i. split; intros Hi.
    + apply (Permutation_in _ partition) in Hi. apply in_seq in Hi. lia.
    + apply (Permutation_in _ (Permutation_sym partition)). apply in_seq. lia.
Qed.

Lemma pm_dims o' pm : pmodel_ok o' m pm -> m_nx (pm_m pm) = m_nx m /\ m_nu (pm_m pm) = m_nu m /\ m_nz (pm_m pm) = m_nz m /\
  m_nvg (pm_m pm) = m_nvg m /\ m_npt (pm_m pm) = m_npt m /\ m_npg (pm_m pm) = m_npg m /\ m_x0 (pm_m pm) = m_x0 m.
Proof. intros K. destruct (mo_m _ _ _ K) as (ptv & E & _). rewrite E. cbn. repeat split; reflexivity. Qed.

Lemma idx1_con c e nfe f j : is_fe (the_opts C) c e nfe -> j < points1 (the_opts C) (explicit_end C) f ->
  exists idx, at3 (p_ind1 (the_problem C) f) c e j = Some idx /\
    sel (w (the_nlp C)) idx = Ok (map (S1 f c e j) (seq 0 (dim1 (the_opts C) m f))) /\
    sel (lbw (the_nlp C)) idx = Ok (match f with FX => given (oc_lbx (the_ocp oc)) (m_nx m) NInf
        | FV => repeat NInf (dim1 (the_opts C) m FV) | FZ => given (m_lbz m) (m_nz m) NInf end) /\
    sel (ubw (the_nlp C)) idx = Ok (match f with FX => given (oc_ubx (the_ocp oc)) (m_nx m) PInf
        | FV => repeat PInf (dim1 (the_opts C) m FV) | FZ => given (m_ubz m) (m_nz m) PInf end).
Proof.
  destruct con_use as (o' & t & pm & po & P & st & lf & f1 & K & B & Eo & Ee & Ew & El & Eu & _); rewrite ?Eo, ?Ee, ?Ew, ?El, ?Eu; clear Eo Ee Ew El Eu.
  intros Hfe Hj. rewrite <- n1_points1 in Hj.
  destruct (idx1 _ _ _ _ _ _ _ _ B c e nfe f j Hfe Hj) as (idx & Hat & H1 & H2 & H3).
  pose proof (co_mo _ _ _ _ _ _ _ _ _ _ _ _ K) as MO. pose proof (co_po _ _ _ _ _ _ _ _ _ _ _ _ K) as PO.
  rewrite (sz1_dim1 _ _ _ _ MO) in H1.
  destruct (lsq_same _ _ _ (co_lsq _ _ _ _ _ _ _ _ _ _ _ _ K)) as (_ & _ & _ & _ & _ & _ & L7 & _).
  rewrite L7. exists idx. split; [assumption|]. split; [assumption|].
  destruct (pm_dims _ _ MO) as (D1 & D2 & D3 & D4 & _).
  destruct (po_bnds _ _ _ PO) as (_ & _ & B3 & B4 & _).
  destruct (mo_lbz _ _ _ MO) as [_ Z1]. destruct (mo_ubz _ _ _ MO) as [_ Z2].
  rewrite D1 in B3, B4. unfold given. destruct f; cbn [lb1 ub1] in H2, H3.
  - rewrite B3 in H2. rewrite B4 in H3. auto.
  - rewrite (sz1_dim1 _ _ _ _ MO) in H2, H3. auto.
  - rewrite Z1 in H2. rewrite Z2 in H3. auto.
Qed.

Lemma idx2_con c e nfe f j s : is_fe (the_opts C) c e nfe -> j < points2 (the_opts C) (explicit_end C) nfe e f ->
  s < n_subsystems m ->
  exists idx, at4 (p_ind2 (the_problem C) f) c e j s = Some idx /\
    sel (w (the_nlp C)) idx = Ok (map (S2 f c e j s) (seq 0 (dim2 (the_opts C) m f s))) /\
    sel (lbw (the_nlp C)) idx = Ok (repeat (match f with FMu => NInf | _ => lb_dual (the_opts C) end) (dim2 (the_opts C) m f s)) /\
    sel (ubw (the_nlp C)) idx = Ok (repeat (match f with FAlpha => Fin 1 | _ => PInf end) (dim2 (the_opts C) m f s)).
Proof.
  destruct con_use as (o' & t & pm & po & P & st & lf & f1 & K & B & Eo & Ee & Ew & El & Eu & _); rewrite ?Eo, ?Ee, ?Ew, ?El, ?Eu; clear Eo Ee Ew El Eu.
  intros Hfe Hj Hs. rewrite <- n2_points2 in Hj.
  pose proof (co_mo _ _ _ _ _ _ _ _ _ _ _ _ K) as MO. rewrite <- (mo_nsys _ _ _ MO) in Hs.
  destruct (idx2 _ _ _ _ _ _ _ _ B c e nfe f j s Hfe Hj Hs) as (idx & Hat & H1 & H2 & H3).
  rewrite (fsz_dim2 _ _ _ _ _ MO Hs) in H1, H2, H3.
  destruct (lsq_same _ _ _ (co_lsq _ _ _ _ _ _ _ _ _ _ _ _ K)) as (_ & _ & _ & _ & _ & _ & _ & _ & L9 & _).
  rewrite L9. exists idx. split; [assumption|]. split; [assumption|]. destruct f; auto.
Qed.

Lemma shapes_con :
  (forall c, c < o_N_stages (the_opts C) -> exists nfe, nth_error (o_Nfe_list (the_opts C)) c = Some nfe /\ 0 < nfe) /\
  (forall f, length (p_ind1 (the_problem C) f) = o_N_stages (the_opts C) /\
    forall c, c < o_N_stages (the_opts C) -> exists r, nth_error (p_ind1 (the_problem C) f) c = Some r /\
      nth_error (o_Nfe_list (the_opts C)) c = Some (length r) /\
      forall e, e < length r -> exists rr, nth_error r e = Some rr /\ length rr = points1 (the_opts C) (explicit_end C) f) /\
  (forall f, length (p_ind2 (the_problem C) f) = o_N_stages (the_opts C) /\
    forall c, c < o_N_stages (the_opts C) -> exists r, nth_error (p_ind2 (the_problem C) f) c = Some r /\
      nth_error (o_Nfe_list (the_opts C)) c = Some (length r) /\
      forall e, e < length r -> exists rr, nth_error r e = Some rr /\
        map (@length _) rr = repeat (n_subsystems m) (points2 (the_opts C) (explicit_end C) (length r) e f)).
Proof.
  destruct con_use as (o' & t & pm & po & P & st & lf & f1 & K & B & Eo & Ee & Ew & El & Eu & _); rewrite ?Eo, ?Ee, ?Ew, ?El, ?Eu; clear Eo Ee Ew El Eu.
  destruct (lsq_same _ _ _ (co_lsq _ _ _ _ _ _ _ _ _ _ _ _ K)) as (_ & _ & _ & _ & _ & _ & L7 & _ & L9 & _).
  rewrite L7, L9. split; [|split].
  - apply (shape_nfes _ _ _ _ _ _ _ _ B).
  - intros f. destruct (shape1 _ _ _ _ _ _ _ _ B f) as [S1 S2]. split; [assumption|]. intros c Hc.
    destruct (S2 c Hc) as (r & E1 & E2 & E3). exists r. split; [assumption|]. split; [assumption|].
    intros e He. destruct (E3 e He) as (rr & E4 & E5). exists rr. rewrite <- n1_points1. auto.
  - intros f. destruct (shape2 _ _ _ _ _ _ _ _ B f) as [S1 S2]. split; [assumption|]. intros c Hc.
    destruct (S2 c Hc) as (r & E1 & E2 & E3). exists r. split; [assumption|]. split; [assumption|].
    intros e He. destruct (E3 e He) as (rr & E4 & E5). exists rr. rewrite <- n2_points2.
    rewrite (mo_nsys _ _ _ (co_mo _ _ _ _ _ _ _ _ _ _ _ _ K)) in E5. auto.
Qed.

Lemma idx_x_cont c e nfe : is_fe (the_opts C) c e nfe ->
  at2 (p_ind_x_cont (the_problem C)) c e =
  at3 (p_ind1 (the_problem C) FX) c e (points1 (the_opts C) (explicit_end C) FX - 1) /\
  at2 (p_ind_x_cont (the_problem C)) c e <> None.
Proof.
  destruct con_use as (o' & t & pm & po & P & st & lf & f1 & K & B & Eo & Ee & Ew & El & Eu & _); rewrite ?Eo, ?Ee, ?Ew, ?El, ?Eu; clear Eo Ee Ew El Eu. intros Hfe.
  destruct (lsq_same _ _ _ (co_lsq _ _ _ _ _ _ _ _ _ _ _ _ K)) as (_ & _ & _ & _ & _ & _ & L7 & L8 & _).
  rewrite L7, L8. destruct (elem_place _ _ _ _ _ _ _ _ B c e nfe Hfe) as (fe & off & _ & Hok & _ & H1 & _ & _ & xl & Hxl & Hx).
  rewrite Hx. split; [|discriminate]. unfold at3. rewrite H1. apply lastE_nth in Hxl.
  rewrite (ok_len1 _ _ _ _ _ _ _ _ Hok FX), n1_points1 in Hxl. symmetry. apply incr1_nth. assumption.
Qed.

Lemma idx_h_con : if o_use_fesd (the_opts C)
  then length (p_ind_h (the_problem C)) = total (firstn (o_N_stages (the_opts C)) (o_Nfe_list (the_opts C))) /\
    forall c e nfe, is_fe (the_opts C) c e nfe -> exists i,
    nth_error (p_ind_h (the_problem C)) (flat_pos (o_Nfe_list (the_opts C)) c e) = Some i /\
    nth_error (w (the_nlp C)) i = Some (SH c e) /\
    nth_error (lbw (the_nlp C)) i = Some (step_lower (the_opts C) nfe) /\
    nth_error (ubw (the_nlp C)) i = Some (step_upper (the_opts C) nfe)
  else p_ind_h (the_problem C) = [].
Proof.
  destruct con_use as (o' & t & pm & po & P & st & lf & f1 & K & B & Eo & Ee & Ew & El & Eu & _); rewrite ?Eo, ?Ee, ?Ew, ?El, ?Eu; clear Eo Ee Ew El Eu.
  destruct (lsq_same _ _ _ (co_lsq _ _ _ _ _ _ _ _ _ _ _ _ K)) as (_ & _ & _ & _ & _ & _ & _ & _ & _ & _ & _ & L12 & _).
  rewrite L12. destruct (o_use_fesd o') eqn:E.
  - split; [rewrite (idx_h_length _ _ _ _ _ _ _ _ B), E; reflexivity|].
    intros c e nfe Hfe. destruct (idx_h _ _ _ _ _ _ _ _ B E c e nfe Hfe) as (i & Hi & S1 & S2 & S3). exists i.
    split; [assumption|].
    apply sel_ok in S1. apply sel_ok in S2. apply sel_ok in S3.
    inversion S1; subst. inversion S2; subst. inversion S3; subst. auto.
  - pose proof (idx_h_length _ _ _ _ _ _ _ _ B) as L. rewrite E in L. destruct (p_ind_h P); [reflexivity|discriminate].
Qed.

Lemma f1_selb o' t pm po P stages lastfe f1 idx a b c :
  body_ok o' t pm po P stages lastfe f1 -> selb f1 idx a b c -> selb (pb P) idx a b c.
Proof.
  intros B (S1 & S2 & S3).
  destruct (wf_f6 _ _ _ _ _ _ _ _ B) as (f6 & _ & Hle & (W1 & W2 & W3 & _) & _).
  destruct (le_w _ _ _ _ Hle) as (s & E1 & E2 & E3 & _).
  unfold selb. rewrite W1, W2, W3, E1, E2, E3.
  split; [|split]; apply sel_app_w, sel_app_w; assumption.
Qed.

Lemma p0_selb o' t pm po P stages lastfe f1 P0 idx a b c :
  body_ok o' t pm po P stages lastfe f1 -> le_g_only o' (pb P0) f1 -> selb (pb P0) idx a b c -> selb (pb P) idx a b c.
Proof.
  intros B (_ & W1 & W2 & W3 & _) S. eapply f1_selb; [exact B|]. unfold selb in *. rewrite W1, W2, W3. exact S.
Qed.

Lemma idx_u_con : length (p_ind_u (the_problem C)) = o_N_stages (the_opts C) /\
  forall c, c < o_N_stages (the_opts C) -> exists idx, nth_error (p_ind_u (the_problem C)) c = Some idx /\
    sel (w (the_nlp C)) idx = Ok (map (SU c) (seq 0 (m_nu m))) /\
    sel (lbw (the_nlp C)) idx = Ok (given (oc_lbu (the_ocp oc)) (m_nu m) NInf) /\
    sel (ubw (the_nlp C)) idx = Ok (given (oc_ubu (the_ocp oc)) (m_nu m) PInf).
Proof.
  destruct con_use as (o' & t & pm & po & P & st & lf & f1 & K & B & Eo & Ee & Ew & El & Eu & _); rewrite ?Eo, ?Ee, ?Ew, ?El, ?Eu; clear Eo Ee Ew El Eu.
  destruct (lsq_same _ _ _ (co_lsq _ _ _ _ _ _ _ _ _ _ _ _ K)) as (_ & _ & _ & _ & _ & _ & _ & _ & _ & _ & _ & _ & L13 & _).
  destruct (bo_prim _ _ _ _ _ _ _ _ B) as (P0 & pp & pq & Hpk & Hle & _ & _ & _ & _ & _ & Eu & _).
  rewrite L13, Eu. split; [exact (pk_iu _ _ _ _ _ Hpk)|]. intros c Hc.
  destruct (pk_u _ _ _ _ _ Hpk c Hc) as (idx & Hi & Hs). exists idx. split; [assumption|].
  apply (p0_selb _ _ _ _ _ _ _ _ _ _ _ _ _ B Hle) in Hs. destruct Hs as (S1 & S2 & S3).
  destruct (pm_dims _ _ (co_mo _ _ _ _ _ _ _ _ _ _ _ _ K)) as (D1 & D2 & D3 & D4 & _).
  destruct (po_bnds _ _ _ (co_po _ _ _ _ _ _ _ _ _ _ _ _ K)) as (_ & _ & _ & _ & B5 & B6 & _).
  unfold ulab in S1. rewrite D2 in S1, B5, B6. rewrite B5 in S2. rewrite B6 in S3. auto.
Qed.

Lemma idx_sot_con :
  match o_sot (the_opts C) with
  | SotLocal => length (p_ind_sot (the_problem C)) = o_N_stages (the_opts C) /\
      forall c, c < o_N_stages (the_opts C) -> exists i, nth_error (p_ind_sot (the_problem C)) c = Some [i] /\
       nth_error (w (the_nlp C)) i = Some (SSot c) /\
       nth_error (lbw (the_nlp C)) i = Some (Fin (o_sot_min (the_opts C))) /\
       nth_error (ubw (the_nlp C)) i = Some (Fin (o_sot_max (the_opts C)))
  | SotNone => p_ind_sot (the_problem C) = []
  | SotGlobal => False
  end.
Proof.
  destruct con_use as (o' & t & pm & po & P & st & lf & f1 & K & B & Eo & Ee & Ew & El & Eu & _); rewrite ?Eo, ?Ee, ?Ew, ?El, ?Eu; clear Eo Ee Ew El Eu.
  destruct (lsq_same _ _ _ (co_lsq _ _ _ _ _ _ _ _ _ _ _ _ K)) as (_ & _ & _ & _ & _ & _ & _ & _ & _ & _ & _ & _ & _ & L14 & _).
  destruct (bo_prim _ _ _ _ _ _ _ _ B) as (P0 & pp & pq & Hpk & Hle & _ & _ & _ & _ & _ & _ & Es & _).
  rewrite L14, Es. pose proof (pk_sot _ _ _ _ _ Hpk) as HS. pose proof (pk_notglobal _ _ _ _ _ Hpk) as HG.
  destruct (o_sot o'); [assumption| |congruence].
  destruct HS as [HL HS]. split; [assumption|]. intros c Hc. destruct (HS c Hc) as (idx & Hi & Hs).
  apply (p0_selb _ _ _ _ _ _ _ _ _ _ _ _ _ B Hle) in Hs. destruct Hs as (S1 & S2 & S3).
  apply sel_ok in S1. apply sel_ok in S2. apply sel_ok in S3.
  inversion S1 as [|i ? l ? X1 X2]; subst. inversion X2; subst.
  inversion S2; subst. inversion S3; subst. exists i. auto.
Qed.

Lemma idx_vg_con : exists idx, p_ind_vg (the_problem C) = [idx] /\
    sel (w (the_nlp C)) idx = Ok (map SVg (seq 0 (m_nvg m))) /\
    sel (lbw (the_nlp C)) idx = Ok (given (oc_lbv (the_ocp oc)) (m_nvg m) NInf) /\
    sel (ubw (the_nlp C)) idx = Ok (given (oc_ubv (the_ocp oc)) (m_nvg m) PInf).
Proof.
  destruct con_use as (o' & t & pm & po & P & st & lf & f1 & K & B & Eo & Ee & Ew & El & Eu & _); rewrite ?Eo, ?Ee, ?Ew, ?El, ?Eu; clear Eo Ee Ew El Eu.
  destruct (lsq_same _ _ _ (co_lsq _ _ _ _ _ _ _ _ _ _ _ _ K)) as (_ & _ & _ & _ & _ & _ & _ & _ & _ & _ & _ & _ & _ & _ & L15 & _).
  destruct (bo_prim _ _ _ _ _ _ _ _ B) as (P0 & pp & pq & Hpk & Hle & _ & _ & _ & _ & _ & _ & _ & Ev & _).
  rewrite L15, Ev. destruct (pk_vg _ _ _ _ _ Hpk) as (idx & Hi & Hs). exists idx. split; [assumption|].
  apply (p0_selb _ _ _ _ _ _ _ _ _ _ _ _ _ B Hle) in Hs. destruct Hs as (S1 & S2 & S3).
  destruct (pm_dims _ _ (co_mo _ _ _ _ _ _ _ _ _ _ _ _ K)) as (D1 & D2 & D3 & D4 & _).
  destruct (po_bnds _ _ _ (co_po _ _ _ _ _ _ _ _ _ _ _ _ K)) as (_ & _ & _ & _ & _ & _ & _ & B8 & B9 & _).
  unfold mvg in S1. rewrite D4 in S1, B8, B9. rewrite B8 in S2. rewrite B9 in S3. auto.
Qed.

Lemma idx_el_con : if elastic (the_opts C)
  then exists i, p_ind_el (the_problem C) = [[i]] /\ nth_error (w (the_nlp C)) i = Some SElastic /\
    nth_error (lbw (the_nlp C)) i = Some (Fin (o_s_elastic_min (the_opts C))) /\
    nth_error (ubw (the_nlp C)) i = Some (Fin (o_s_elastic_max (the_opts C)))
  else p_ind_el (the_problem C) = [].
Proof.
  destruct con_use as (o' & t & pm & po & P & st & lf & f1 & K & B & Eo & Ee & Ew & El & Eu & _); rewrite ?Eo, ?Ee, ?Ew, ?El, ?Eu; clear Eo Ee Ew El Eu.
  destruct (lsq_same _ _ _ (co_lsq _ _ _ _ _ _ _ _ _ _ _ _ K)) as (_ & _ & _ & _ & _ & _ & _ & _ & _ & _ & _ & _ & _ & _ & _ & L16 & _).
  destruct (bo_prim _ _ _ _ _ _ _ _ B) as (P0 & pp & pq & Hpk & Hle & _ & _ & _ & _ & _ & _ & _ & _ & Ee & _).
  rewrite L16, Ee. pose proof (pk_el _ _ _ _ _ Hpk) as HE. rewrite elastic_is in HE.
  destruct (elastic o'); [|assumption]. destruct HE as (idx & Hi & Hs).
  apply (p0_selb _ _ _ _ _ _ _ _ _ _ _ _ _ B Hle) in Hs. destruct Hs as (S1 & S2 & S3).
  apply sel_ok in S1. apply sel_ok in S2. apply sel_ok in S3.
  inversion S1 as [|i ? l ? X1 X2]; subst. inversion X2; subst.
  inversion S2; subst. inversion S3; subst. exists i. auto.
Qed.

(* k-th complementarity of element (c, e) in BOOLEAN mode; in the other modes there are none *)
Lemma idx_bool_con c e nfe : is_fe (the_opts C) c e nfe ->
  exists l, at2 (p_ind_bool (the_problem C)) c e = Some l /\
   (o_mpcc (the_opts C) <> MBoolean -> l = []) /\
   forall k idx, nth_error l k = Some idx -> sel (w (the_nlp C)) idx = Ok (map (SBool c e k) (seq 0 (length idx))).
Proof.
  destruct con_use as (o' & t & pm & po & P & st & lf & f1 & K & B & Eo & Ee & Ew & El & Eu & _); rewrite ?Eo, ?Ee, ?Ew, ?El, ?Eu; clear Eo Ee Ew El Eu. intros Hfe.
  destruct (lsq_same _ _ _ (co_lsq _ _ _ _ _ _ _ _ _ _ _ _ K)) as (_ & _ & _ & _ & _ & _ & _ & _ & _ & L10 & _).
  rewrite L10. destruct (elem_place _ _ _ _ _ _ _ _ B c e nfe Hfe) as (fe & off & Hat & Hok & (EA & _) & _ & _ & Hb & _).
  rewrite Hb. exists (incr1 off (ind_bool (fo fe))). split; [reflexivity|]. split.
  - intros Hm. destruct Hfe as (Hc & Hn & He).
    destruct (get_elem _ _ _ _ _ _ _ _ B c nfe e Hc Hn He) as (qq & q & s & fe' & Hel & _ & _).
    destruct Hel as (Hmk & Hst & (st' & S1 & S2) & _).
    unfold at2 in Hat. rewrite S1 in Hat. rewrite S2 in Hat. injection Hat as <-.
    apply fsteps_le in Hst. destruct Hst as [Hle _]. destruct (le_w _ _ _ _ Hle) as (ss & _ & _ & _ & _ & ib & Eb & _ & Hn' & _).
    destruct (fe_make_rest _ _ _ _ _ _ _ _ Hmk) as (_ & _ & _ & _ & _ & Eb0). rewrite Eb0 in Eb.
    destruct (Hn' Hm) as [_ ->]. rewrite Eb. reflexivity.
  - intros k idx Hk. unfold incr1 in Hk. apply map_nth_error_some in Hk. destruct Hk as (idx0 & Hk & <-).
    rewrite map_length. apply EA. exact (ok_bool _ _ _ _ _ _ _ _ Hok k idx0 Hk).
Qed.

Lemma syms_distinct_con : NoDup (w (the_nlp C) ++ p_p (the_problem C)).
Proof.
  destruct con_use as (o' & t & pm & po & P & st & lf & f1 & K & B & _ & _ & -> & _).
  destruct (lsq_same _ _ _ (co_lsq _ _ _ _ _ _ _ _ _ _ _ _ K)) as (_ & _ & _ & _ & _ & -> & _).
  exact (syms_distinct _ _ _ _ _ _ _ _ B).
Qed.

Lemma lengths_con :
  wf_f (the_nlp C) /\ forall st fe, In st (p_stages (the_problem C)) -> In fe st -> wf_f (fo fe).
Proof.
  destruct con_use as (o' & t & pm & po & P & stages & lf & f1 & K & B & Eo & _ & W1 & W2 & W3 & W4).
  pose proof (wf_P _ _ _ _ _ _ _ _ B) as [Hw Hg]. split.
  - split.
    + unfold wf_w in *. rewrite W1, W2, W3, W4. exact Hw.
    + pose proof (co_lsq _ _ _ _ _ _ _ _ _ _ _ _ K) as L. unfold lsq in L. unfold the_nlp.
      destruct (o_constr o').
      * injection L as <-. exact Hg.
      * apply bind_ok in L. destruct L as (cc & _ & L). injection L as <-. split; reflexivity.
  - destruct (lsq_same _ _ _ (co_lsq _ _ _ _ _ _ _ _ _ _ _ _ K)) as (_ & _ & _ & _ & _ & _ & _ & _ & _ & _ & _ & _ & _ & _ & _ & _ & L17 & _).
    rewrite L17. destruct (bo_prim _ _ _ _ _ _ _ _ B) as (P0 & pp & pq & _ & _ & _ & _ & _ & _ & _ & _ & _ & _ & _ & Est).
    rewrite Est. intros st fe Hst Hfe.
    assert (Hin : In fe (concat stages)) by (apply in_concat; eauto).
    destruct (elems_ok _ _ _ _ _ _ _ _ B fe Hin) as (c & e & nfe & _ & _ & Hok). exact (ok_wf _ _ _ _ _ _ _ _ Hok).
Qed.

Lemma element_size_eq o' t pm nfe e : pmodel_ok o' m pm ->
  elem_size o' t pm nfe e = element_size o' m (t_rbe t) nfe e.
Proof.
  intros MO. unfold elem_size, element_size. change total with sumn. f_equal; [f_equal|].
  - f_equal. apply map_ext. intros f. rewrite n1_points1, (sz1_dim1 _ _ _ _ MO). reflexivity.
  - f_equal. apply map_ext. intros f. rewrite n2_points2. f_equal. unfold upto. change total with sumn.
    rewrite (mo_nsys _ _ _ MO). f_equal. apply map_ext_in. intros s Hs. apply in_seq in Hs.
    apply fsz_dim2; [assumption|]. rewrite (mo_nsys _ _ _ MO). lia.
Qed.

Lemma count_con :
  length (w (the_nlp C)) = problem_size (the_opts C) m (explicit_end C)
     + length (concat (ind_bool (the_nlp C))) + length (flat3 (p_ind_bool (the_problem C))).
Proof.
  destruct con_use as (o' & t & pm & po & P & stages & lf & f1 & K & B & -> & -> & -> & _).
  destruct (lsq_same _ _ _ (co_lsq _ _ _ _ _ _ _ _ _ _ _ _ K)) as (_ & _ & _ & _ & L5 & _ & _ & _ & _ & L10 & _).
  unfold the_nlp. rewrite L5, L10. pose proof (co_mo _ _ _ _ _ _ _ _ _ _ _ _ K) as MO.
  destruct (main_syms _ _ _ _ _ _ _ _ B) as (s & Hw & n & Hs).
  (* booleans of the problem object *)
  assert (Hb : length (concat (ind_bool (pb P))) = length s).
  { pose proof (partition_perm _ _ _ _ _ _ _ _ B) as HP. apply Permutation_length in HP. rewrite seq_length in HP.
    (* count through the bookkeeping of le_w *)
    clear HP.
    destruct (bo_prim _ _ _ _ _ _ _ _ B) as (P0 & pp & pq & Hpk & Hle & Hwf & _).
    destruct (wf_f6 _ _ _ _ _ _ _ _ B) as (f6 & _ & Hle6 & (W1 & _ & _ & _ & _ & _ & _ & _ & _ & Wb) & _).
    destruct (le_w _ _ _ _ Hle6) as (s' & E1 & _ & _ & _ & ib & Eib & Eseq & _).
    rewrite Wb, Eib.
    destruct Hle as (_ & Ew & _ & _ & _ & Eb). rewrite Eb.
    rewrite (proj2 (proj2 (proj2 (proj2 (proj2 (pk_nog _ _ _ _ _ Hpk)))))). cbn [app].
    rewrite Eseq, seq_length. rewrite W1, E1, Ew, (pk_w _ _ _ _ _ Hpk) in Hw.
    rewrite <- !app_assoc in Hw. apply app_inv_head in Hw. apply app_inv_head in Hw. apply app_inv_head in Hw.
    apply app_inv_tail in Hw. congruence. }
  rewrite Hw, !app_length, (count_elems _ _ _ _ _ _ _ _ B), Hb.
  unfold problem_size. rewrite <- elastic_is.
  assert (E0 : length (ellab o') = if is_elastic (o_mpcc o') then 1 else 0) by (unfold ellab; destruct (is_elastic _); reflexivity).
  assert (E1 : length (mvg (pm_m pm)) = m_nvg m).
  { unfold mvg. rewrite map_length, seq_length. apply (pm_dims _ _ MO). }
  assert (E2 : length (concat (map (fun c => ulab pm c ++ sotlab o' c) (seq 0 (o_N_stages o')))) =
     o_N_stages o' * (m_nu m + match o_sot o' with SotLocal => 1 | _ => 0 end)).
  { rewrite length_concat_map.
    erewrite map_ext; [|intros c; rewrite app_length; unfold ulab; rewrite map_length, seq_length; reflexivity].
    destruct (pm_dims _ _ MO) as (_ & D2 & _). rewrite D2.
    erewrite map_ext; [|intros c; replace (length (sotlab o' c)) with (match o_sot o' with SotLocal => 1 | _ => 0 end) by (unfold sotlab; destruct (o_sot o'); reflexivity); reflexivity].
    rewrite sumn_map_const, seq_length. reflexivity. }
  assert (E3 : sum_elems o' (fun c nfe e => elem_size o' t pm nfe e) =
     upto (o_N_stages o') (fun c => let nfe := nth c (o_Nfe_list o') 0 in upto nfe (element_size o' m (t_rbe t) nfe))).
  { unfold sum_elems, upto. change total with sumn. f_equal. apply map_ext. intros c. cbv zeta. f_equal. apply map_ext.
    intros e. apply element_size_eq. assumption. }
  rewrite E0, E1, E2, E3. cbv zeta. lia.
Qed.

Lemma no_bool : o_mpcc (the_opts C) <> MBoolean ->
  length (concat (ind_bool (the_nlp C))) = 0 /\ length (flat3 (p_ind_bool (the_problem C))) = 0.
Proof.
  destruct con_use as (o' & t & pm & po & P & stages & lf & f1 & K & B & -> & _ & Ew & _). intros Hm.
  destruct (lsq_same _ _ _ (co_lsq _ _ _ _ _ _ _ _ _ _ _ _ K)) as (_ & _ & _ & _ & L5 & _ & _ & _ & _ & L10 & _).
  unfold the_nlp. rewrite L5, L10. split.
  - destruct (bo_prim _ _ _ _ _ _ _ _ B) as (P0 & pp & pq & Hpk & Hle & Hwf & _).
    destruct (wf_f6 _ _ _ _ _ _ _ _ B) as (f6 & _ & Hle6 & (W1 & _ & _ & _ & _ & _ & _ & _ & _ & Wb) & _).
    destruct (le_w _ _ _ _ Hle6) as (s' & E1 & _ & _ & _ & ib & Eib & Eseq & Hn & _).
    rewrite Wb, Eib. destruct (Hn Hm) as [_ ->]. destruct Hle as (_ & _ & _ & _ & _ & Eb). rewrite Eb.
    rewrite (proj2 (proj2 (proj2 (proj2 (proj2 (pk_nog _ _ _ _ _ Hpk)))))). reflexivity.
  - assert (Hz : forall fe, In fe (concat stages) -> ind_bool (fo fe) = []).
    { intros fe Hin. apply in_concat in Hin. destruct Hin as (st & Hst & Hfe).
      apply In_nth_error in Hst. destruct Hst as [c Hc]. apply In_nth_error in Hfe. destruct Hfe as [e He].
      assert (Hlt : c < o_N_stages o').
      { rewrite <- (stages_length _ _ _ _ _ _ _ _ B). eapply nth_error_Some_lt; eassumption. }
      destruct (get_stage _ _ _ _ _ _ _ _ B c Hlt) as (P0 & nfe & starts & ends & qq & q & pp' & p' & _ & _ & Hn & _ & Hen & Hle & _).
      assert (ends = st) by congruence. subst ends.
      assert (Hlt2 : e < nfe) by (rewrite <- Hle; eapply nth_error_Some_lt; eassumption).
      destruct (get_elem _ _ _ _ _ _ _ _ B c nfe e Hlt Hn Hlt2) as (qq' & q' & s & fe' & Hel & _ & _).
      destruct Hel as (Hmk & Hst & (st' & S1 & S2) & _). assert (st' = st) by congruence. subst st'.
      assert (fe' = fe) by congruence. subst fe'.
      apply fsteps_le in Hst. destruct Hst as [Hle' _]. destruct (le_w _ _ _ _ Hle') as (ss & _ & _ & _ & _ & ib & Eb & _ & Hn' & _).
      destruct (fe_make_rest _ _ _ _ _ _ _ _ Hmk) as (_ & _ & _ & _ & _ & Eb0). rewrite Eb0 in Eb.
      destruct (Hn' Hm) as [_ ->]. rewrite Eb. reflexivity. }
    destruct (bo_rest _ _ _ _ _ _ _ _ B) as (P0' & f2 & cvs & xT & gT & fT1 & f3 & f6 & Pc & _ & _ & _ & _ & _ & _ & _ & _ & _ & _ & _ & H6 & _ & EPc & Hcl & E1 & E2 & Ex & Eb & Eh).
    rewrite (cl_b _ _ _ Hcl), Eb. cbn [app]. rewrite flat3_zip.
    generalize (length (w (pb Pc))). revert Hz. generalize (concat stages) as l.
    induction l as [|fe l IH]; intros Hz n; cbn; [reflexivity|].
    rewrite (Hz fe) by (left; reflexivity). cbn. apply IH. intros; apply Hz; right; assumption.
Qed.
End Con.
