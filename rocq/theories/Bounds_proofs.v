(* Bounds_proofs.v -- the bounds of the constructed NLP, symbol by symbol, in both directions *)
From Coq Require Import Reals Qreals Lra Permutation.
From Verif Require Import Base Lib Sx Sx_proofs Utils Tableau Opts Model Ocp Problem Spec Fesd Spec2 Spec3 Spec4 Spec9 Spec10 Spec11
  Fo_proofs Fe_proofs FeMake_proofs FeSel_proofs FeZero_proofs Prob_proofs Coll_proofs Body_proofs Model_proofs
  Con_proofs Index_proofs Index2_proofs Index3_proofs Results_proofs Results2_proofs Results4_proofs Nlp_proofs Feas_proofs Syms_proofs.

Section Con.
Variables (lr : Q -> Q -> Q -> nat) (cp : nat -> scheme -> list Q) (d : ipopt_dict)
  (o : opts) (m : model) (oc : option ocp) (C : constructed).
Hypothesis H : construct_problem lr cp d o m oc = Ok C.
Notation O := (the_opts C).

Lemma no_bool_syms y : o_mpcc O <> MBoolean -> In y (w (the_nlp C)) -> match y with SBool _ _ _ _ | SBoolG _ _ => False | _ => True end.
Proof.
  intros Hm Hy. destruct (con_use _ _ _ _ _ _ _ H) as (o' & t & pm & po & P & stages & lf & f1 & K & B & Eo & Ee & Ew & _).
  rewrite Ew in Hy. rewrite Eo in Hm.
  assert (Hz : forall fe, In fe (concat stages) -> ind_bool (fo fe) = []).
  { intros fe Hin. apply in_concat in Hin. destruct Hin as (st & Hst & Hfe).
    apply In_nth_error in Hst. destruct Hst as [c Hc]. apply In_nth_error in Hfe. destruct Hfe as [e He].
    assert (Hlt : c < o_N_stages o').
    { rewrite <- (stages_length _ _ _ _ _ _ _ _ B). eapply nth_error_Some_lt; eassumption. }
    destruct (get_stage _ _ _ _ _ _ _ _ B c Hlt) as (P0 & nfe & starts & ends & qq & q & pp' & p' & _ & _ & Hn & _ & Hen & Hle & _).
    assert (ends = st) by congruence. subst ends.
    assert (Hlt2 : e < nfe) by (rewrite <- Hle; eapply nth_error_Some_lt; eassumption).
    destruct (get_elem _ _ _ _ _ _ _ _ B c nfe e Hlt Hn Hlt2) as (qq' & q' & s & fe' & Hel & _ & _).
    destruct Hel as (Hmk & Hst & (st' & S1 & S2) & _). assert (st' = st) by congruence. subst st'.
    assert (fe' = fe) by congruence. subst fe'.
    apply fsteps_le in Hst. destruct Hst as [Hle' _]. destruct (le_w _ _ _ _ Hle') as (ss & _ & _ & _ & _ & ib & Eb & _ & Hn' & _).
    destruct (fe_make_rest _ _ _ _ _ _ _ _ Hmk) as (_ & _ & _ & _ & _ & Eb0). rewrite Eb0 in Eb.
    destruct (Hn' Hm) as [_ ->]. rewrite Eb. reflexivity. }
  assert (Hmain : w (pb P) = (ellab o' ++ mvg (pm_m pm) ++ concat (map (fun c => ulab pm c ++ sotlab o' c) (seq 0 (o_N_stages o'))))
     ++ concat (map (fun fe => w (fo fe)) (concat stages))).
  { destruct (bo_prim _ _ _ _ _ _ _ _ B) as (P0 & pp & pq & Hpk & Hle & _).
    destruct (bo_rest _ _ _ _ _ _ _ _ B) as (P0' & f2 & cvs & xT & gT & fT1 & f3 & f6 & Pc & _ & _ & _ & Hg & _ & _ & _ & _ & H3 & _ & _ & H6 & _ & EPc & Hcl & _).
    unfold global_compl in Hg. apply bind_ok in Hg. destruct Hg as (pg & _ & Hg).
    apply bind_ok in Hg. destruct Hg as (ab & _ & Hg).
    assert (Hs : w f2 = w f1).
    { apply create_complementarity_le in Hg. destruct (le_w _ _ _ _ Hg) as (s & Hs & _ & _ & _ & ib & _ & _ & Hn & _).
      destruct (Hn Hm) as [-> _]. rewrite app_nil_r in Hs. exact Hs. }
    destruct (cl_f _ _ _ Hcl) as (Hw & _). rewrite Hw, EPc.
    destruct H6 as (_ & Ew6 & _). apply (add_constraint_gonly o') in H3. destruct H3 as (_ & Ew3 & _).
    destruct Hle as (_ & Ew1 & _). rewrite Ew6, Ew3, Hs, Ew1, (pk_w _ _ _ _ _ Hpk). reflexivity. }
  rewrite Hmain in Hy. rewrite !in_app_iff in Hy.
  destruct Hy as [[Hy|[Hy|Hy]]|Hy].
  - unfold ellab in Hy. destruct (is_elastic (o_mpcc o')); [|destruct Hy]. destruct Hy as [<-|[]]. exact I.
  - unfold mvg in Hy. apply in_map_seq in Hy. destruct Hy as (i & Hi & ->). exact I.
  - apply in_concat in Hy. destruct Hy as (l & Hl & Hy). apply in_map_seq in Hl. destruct Hl as (c & Hc & ->).
    apply in_app_iff in Hy. destruct Hy as [Hy|Hy].
    + unfold ulab in Hy. apply in_map_seq in Hy. destruct Hy as (i & Hi & ->). exact I.
    + unfold sotlab in Hy. destruct (o_sot o'); try (destruct Hy; fail). destruct Hy as [<-|[]]. exact I.
  - apply in_concat in Hy. destruct Hy as (l & Hl & Hy). apply in_map_iff in Hl. destruct Hl as (fe & <- & Hfe).
    destruct (elems_ok _ _ _ _ _ _ _ _ B fe Hfe) as (c & e & nfe & Hf & _ & Hok).
    apply (Permutation_in (l' := elem_syms o' t pm c e nfe (bool_labs c e fe))) in Hy; [|symmetry; eapply elem_syms_perm; exact Hok].
    unfold elem_syms, bool_labs in Hy. rewrite (Hz fe Hfe) in Hy. cbn [length seq map concat] in Hy. rewrite !in_app_iff in Hy. destruct Hy as [Hy|[Hy|[Hy|Hy]]].
    + destruct (o_use_fesd o'); [|destruct Hy]. destruct Hy as [<-|[]]. exact I.
    + apply in_concat in Hy. destruct Hy as (l & Hl & Hy). apply in_map_iff in Hl. destruct Hl as (f & <- & _).
      apply in_concat in Hy. destruct Hy as (l & Hl & Hy). apply in_map_seq in Hl. destruct Hl as (j & Hj & ->).
      unfold lab1 in Hy. apply in_map_seq in Hy. destruct Hy as (i & Hi & ->). exact I.
    + apply in_concat in Hy. destruct Hy as (l & Hl & Hy). apply in_map_iff in Hl. destruct Hl as (f & <- & _).
      apply in_concat in Hy. destruct Hy as (l & Hl & Hy). apply in_map_seq in Hl. destruct Hl as (j & Hj & ->).
      unfold lab2 in Hy. apply in_concat in Hy. destruct Hy as (l & Hl & Hy). apply in_map_seq in Hl. destruct Hl as (s' & Hs' & ->).
      unfold lab2s in Hy. apply in_map_seq in Hy. destruct Hy as (i & Hi & ->). exact I.
    + destruct Hy.
Qed.

(* the position and the bounds of every variable *)
Definition placed (y : sym) (l u : ext) : Prop := exists i, nth_error (w (the_nlp C)) i = Some y /\
  nth_error (lbw (the_nlp C)) i = Some l /\ nth_error (ubw (the_nlp C)) i = Some u.
Lemma placed_within rho y l u : placed y l u -> bounds_ok rho (the_nlp C) -> within l u (rho y).
Proof. intros (i & A & B & D) Bo. eapply Bo; eassumption. Qed.
Lemma placed_unique y l u i l' u' : placed y l u -> nth_error (w (the_nlp C)) i = Some y ->
  nth_error (lbw (the_nlp C)) i = Some l' -> nth_error (ubw (the_nlp C)) i = Some u' -> l' = l /\ u' = u.
Proof.
  intros (j & A & B & D) A' B' D'. assert (i = j); [|subst; split; congruence].
  assert (N := syms_distinct_con _ _ _ _ _ _ _ H). apply NoDup_left in N.
  eapply NoDup_nth_error; [exact N|eapply nth_error_Some_lt; exact A'|congruence].
Qed.
Lemma sel_placed idx ss ls us k y l u dl du : sel (w (the_nlp C)) idx = Ok ss -> sel (lbw (the_nlp C)) idx = Ok ls -> sel (ubw (the_nlp C)) idx = Ok us ->
  nth_error ss k = Some y -> nth k ls dl = l -> nth k us du = u -> placed y l u.
Proof.
  intros H1 H2 H3 K1 K2 K3.
  apply Lib.sel_ok in H1. apply Lib.sel_ok in H2. apply Lib.sel_ok in H3.
  destruct (Forall2_nth_r _ _ _ _ _ H1 K1) as (i & Hi & E1). destruct (Forall2_nth _ _ _ _ _ H2 Hi) as (l' & Hl & E2).
  destruct (Forall2_nth _ _ _ _ _ H3 Hi) as (u' & Hu & E3).
  rewrite (nth_error_nth _ _ _ Hl) in K2. rewrite (nth_error_nth _ _ _ Hu) in K3. subst. exists i. auto.
Qed.
Lemma nth_repeat' {A} (a : A) n i : nth i (repeat a n) a = a.
Proof. revert i. induction n as [|n IH]; intros [|i]; cbn; auto. Qed.

Definition low (y : sym) : ext := match y with
  | SElastic => Fin (o_s_elastic_min O) | SVg i => nth i (given (oc_lbv (the_ocp oc)) (m_nvg m) NInf) NInf
  | SU c i => nth i (given (oc_lbu (the_ocp oc)) (m_nu m) NInf) NInf | SSot _ => Fin (o_sot_min O)
  | SH c _ => step_lower O (nfe_of O c) | S1 f _ _ _ i => lower1 m (the_ocp oc) f i | S2 f _ _ _ _ _ => lower2 O f | _ => NInf end.
Definition upp (y : sym) : ext := match y with
  | SElastic => Fin (o_s_elastic_max O) | SVg i => nth i (given (oc_ubv (the_ocp oc)) (m_nvg m) PInf) PInf
  | SU c i => nth i (given (oc_ubu (the_ocp oc)) (m_nu m) PInf) PInf | SSot _ => Fin (o_sot_max O)
  | SH c _ => step_upper O (nfe_of O c) | S1 f _ _ _ i => upper1 m (the_ocp oc) f i | S2 f _ _ _ _ _ => upper2 f | _ => PInf end.

Lemma elem_fe c e : In (c, e) (elements O) -> is_fe O c e (nfe_of O c).
Proof.
  intros E. apply elements_in in E. destruct E as [Hc He]. cbn [fst snd] in *. destruct (shapes_con _ _ _ _ _ _ _ H) as (Sh & _).
  destruct (Sh c Hc) as (n & Hn & _). unfold nfe_of in *. rewrite (nth_error_nth _ _ _ Hn) in *. split; [exact Hc|]. split; assumption.
Qed.
Lemma all_placed y : in_range O (explicit_end C) m y -> match y with SBool _ _ _ _ | SBoolG _ _ => False | _ => True end -> placed y (low y) (upp y).
Proof.
  intros R NB. destruct y; cbn [in_range low upp] in *; try contradiction.
  - destruct (idx_vg_con _ _ _ _ _ _ _ H) as (idx & _ & K1 & K2 & K3). eapply sel_placed; [exact K1|exact K2|exact K3| |reflexivity|reflexivity]. apply nth_error_map_seq, R.
  - assert (K := idx_el_con _ _ _ _ _ _ _ H). rewrite R in K. destruct K as (i & _ & K). exists i. exact K.
  - destruct R as [Rc Ri]. destruct (idx_u_con _ _ _ _ _ _ _ H) as [_ K]. destruct (K _ Rc) as (idx & _ & K1 & K2 & K3).
    eapply sel_placed; [exact K1|exact K2|exact K3| |reflexivity|reflexivity]. apply nth_error_map_seq, Ri.
  - destruct R as [Rs Rc]. assert (K := idx_sot_con _ _ _ _ _ _ _ H). rewrite Rs in K. destruct K as [_ K]. destruct (K _ Rc) as (i & _ & K'). exists i. exact K'.
  - destruct R as [Rf Re]. assert (K := idx_h_con _ _ _ _ _ _ _ H). rewrite Rf in K. destruct K as [_ K]. destruct (K _ _ _ (elem_fe _ _ Re)) as (i & _ & K'). exists i. exact K'.
  - destruct R as (Re & Rj & Ri). destruct (idx1_con _ _ _ _ _ _ _ H _ _ _ _ _ (elem_fe _ _ Re) Rj) as (idx & _ & K1 & K2 & K3).
    destruct f; (eapply sel_placed; [exact K1|exact K2|exact K3|apply nth_error_map_seq, Ri| |]);
      first [reflexivity|apply nth_repeat'].
  - destruct R as (Re & Rj & Rs & Ri). destruct (idx2_con _ _ _ _ _ _ _ H _ _ _ _ _ _ (elem_fe _ _ Re) Rj Rs) as (idx & _ & K1 & K2 & K3).
    eapply sel_placed; [exact K1|exact K2|exact K3|apply nth_error_map_seq, Ri| |]; apply nth_repeat'.
Qed.

Lemma bounds_iff rho : o_mpcc O <> MBoolean -> bounds_ok rho (the_nlp C) <-> var_bounds O (explicit_end C) m (the_ocp oc) rho.
Proof.
  intros Hm.
  assert (G : bounds_ok rho (the_nlp C) <-> forall y, in_range O (explicit_end C) m y -> match y with SBool _ _ _ _ | SBoolG _ _ => False | _ => True end -> within (low y) (upp y) (rho y)).
  { split.
    - intros B y R NB. eapply placed_within; [apply all_placed; assumption|exact B].
    - intros A i y l u K1 K2 K3. assert (Hin : In y (w (the_nlp C))) by (eapply nth_error_In; exact K1).
      assert (R := sym_in_w _ _ _ _ _ _ _ _ H Hin). assert (NB := no_bool_syms _ Hm Hin).
      destruct (placed_unique _ _ _ _ _ _ (all_placed y R NB) K1 K2 K3) as [-> ->]. apply A; assumption. }
  assert (E : forall c e, is_element O c e <-> In (c, e) (elements O)) by (intros c e; rewrite elements_in; reflexivity).
  rewrite G. unfold var_bounds. split.
  - intros A. split; [|split; [|split]].
    + intros R. exact (A SElastic R I).
    + intros i R. exact (A (SVg i) R I).
    + intros c Hc. split; [intros i R; exact (A (SU c i) (conj Hc R) I)|intros R; exact (A (SSot c) (conj R Hc) I)].
    + intros c e Ie. apply E in Ie. split; [intros R; exact (A (SH c e) (conj R Ie) I)|]. split.
      * intros f j i Rj Ri. exact (A (S1 f c e j i) (conj Ie (conj Rj Ri)) I).
      * intros f j s i Rj Rs Ri. exact (A (S2 f c e j s i) (conj Ie (conj Rj (conj Rs Ri))) I).
  - intros (A1 & A2 & A3 & A4) y R NB. destruct y; cbn [in_range low upp] in *; try contradiction.
    + apply A2, R.
    + apply A1, R.
    + apply (A3 _ (proj1 R)), (proj2 R).
    + apply (A3 _ (proj2 R)), (proj1 R).
    + apply (A4 _ _ (proj2 (E _ _) (proj2 R))), (proj1 R).
    + destruct R as (Re & Rj & Ri). apply (A4 _ _ (proj2 (E _ _) Re)); assumption.
    + destruct R as (Re & Rj & Rs & Ri). apply (A4 _ _ (proj2 (E _ _) Re)); assumption.
Qed.
End Con.
