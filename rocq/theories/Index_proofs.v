(* Index_proofs.v -- the published index lists of a constructed problem *)
From Coq Require Import Reals Qreals Lra Permutation.
From Verif Require Import Base Lib Sx Sx_proofs Utils Tableau Opts Model Ocp Problem Spec
  Fo_proofs Fe_proofs FeMake_proofs FeSel_proofs FeZero_proofs Prob_proofs Coll_proofs Body_proofs Model_proofs
  Con_proofs.

Lemma concat_map_concat {A} (l : list (list (list A))) : concat (map (@concat A) l) = concat (concat l).
Proof. induction l as [|x l IH]; cbn; [reflexivity|]. rewrite IH, concat_app. reflexivity. Qed.

Lemma concat_incr1 n l : concat (incr1 n l) = map (fun i => i + n) (concat l).
Proof. unfold incr1. rewrite concat_map. reflexivity. Qed.
Lemma concat_incr2 n l : concat (concat (incr2 n l)) = map (fun i => i + n) (concat (concat l)).
Proof.
  unfold incr2. induction l as [|x l IH]; cbn; [reflexivity|].
  rewrite !concat_app, map_app, IH, concat_incr1. reflexivity.
Qed.

Lemma concat_zipw_concat {A B X} (h : A -> B -> list (list X)) a b :
  concat (concat (zipw h a b)) = concat (zipw (fun x y => concat (h x y)) a b).
Proof.
  unfold zipw. rewrite <- concat_map_concat, map_map. reflexivity.
Qed.

Lemma perm_zip_fams {A} (fs : list (A -> felem -> list nat)) ofs l :
  Permutation (concat (zipw (fun n fe => concat (map (fun f => f n fe) fs)) ofs l))
              (concat (map (fun f => concat (zipw f ofs l)) fs)).
Proof.
  induction fs as [|f fs IH]; cbn.
  - unfold zipw. induction (combine ofs l); cbn; auto.
  - etransitivity; [apply perm_concat_zip|]. apply Permutation_app_head, IH.
Qed.

Definition fam_funs : list (nat -> felem -> list nat) :=
  [ (fun n fe => map (fun i => i + n) (ind_h fe)) ] ++
  map (fun f n fe => concat (incr1 n (ind1 fe f))) fams1 ++
  map (fun f n fe => concat (concat (incr2 n (ind2 fe f)))) fams2 ++
  [ (fun n fe => concat (incr1 n (ind_bool (fo fe)))) ].

Lemma all_idx_sh_fams n fe : all_idx_sh n fe = concat (map (fun f => f n fe) fam_funs).
Proof.
  unfold all_idx_sh, all_idx, fam_funs, fams1, fams2. cbn.
  rewrite !concat_incr1, !concat_incr2, !app_nil_r, !map_app.
  rewrite <- !app_assoc. reflexivity.
Qed.

Section Idx.
Variables (o : opts) (t : tab) (pm : pmodel) (oc : pocp) (P : prob) (stages : list (list felem)) (lastfe : felem) (f1 : fobj).
Hypothesis B : body_ok o t pm oc P stages lastfe f1.

Lemma elems_ok fe : In fe (concat stages) -> exists c e nfe, is_fe o c e nfe /\
  at2 stages c e = Some fe /\ fe_ok o t pm oc c e nfe fe.
Proof.
  intros Hin. apply in_concat in Hin. destruct Hin as (st & Hst & Hfe).
  apply In_nth_error in Hst. destruct Hst as [c Hc]. apply In_nth_error in Hfe. destruct Hfe as [e He].
  assert (Hlt : c < o_N_stages o).
  { rewrite <- (stages_length _ _ _ _ _ _ _ _ B). eapply nth_error_Some_lt; eassumption. }
  destruct (get_stage _ _ _ _ _ _ _ _ B c Hlt) as (P0 & nfe & starts & ends & qq & q & pp' & p' & _ & _ & Hn & _ & Hen & Hle & _).
  assert (ends = st) by congruence. subst ends.
  destruct (get_fe_ok _ _ _ _ _ _ _ _ B c e nfe st fe Hc He Hn) as [Hok Hlt2].
  exists c, e, nfe. split; [|split; [|assumption]].
  - split; [assumption|]. split; assumption.
  - unfold at2. rewrite Hc. assumption.
Qed.

Lemma flat3_zip (h : nat -> felem -> list (list nat)) n :
  flat3 (zipw (zipw h) (offss n stages) stages) =
  concat (zipw (fun n fe => concat (h n fe)) (offs n (concat stages)) (concat stages)).
Proof.
  unfold flat3. rewrite <- (concat_map_concat (zipw (zipw h) _ _)).
  rewrite concat_zipw_nested. apply concat_zipw_concat.
Qed.
Lemma flat4_zip (h : nat -> felem -> list (list (list nat))) n :
  flat3 (concat (zipw (zipw h) (offss n stages) stages)) =
  concat (zipw (fun n fe => concat (concat (h n fe))) (offs n (concat stages)) (concat stages)).
Proof.
  unfold flat3.
  rewrite <- (concat_map_concat (zipw (zipw h) _ _)), concat_zipw_nested.
  rewrite concat_zipw_concat, concat_zipw_concat. reflexivity.
Qed.

Lemma partition_perm : Permutation (published P) (seq 0 (length (w (pb P)))).
Proof.
  destruct (bo_prim _ _ _ _ _ _ _ _ B) as (P0 & pp & pq & Hpk & Hle & Hwf & _ & _ & Ep & Ef0 & Eu & Es & Ev & Ee & _).
  destruct (bo_rest _ _ _ _ _ _ _ _ B) as (P0' & f2 & cvs & xT & gT & fT1 & f3 & f6 & Pc & _ & _ & _ & Hg & _ & _ & _ & _ & H3 & _ & _ & H6 & _ & EPc & Hcl & E1 & E2 & _ & Eb & Eh).
  unfold global_compl in Hg. apply bind_ok in Hg. destruct Hg as (pg & _ & Hg).
  apply bind_ok in Hg. destruct Hg as (ab & _ & Hg). apply create_complementarity_le in Hg.
  assert (Lw : exists s ib, w f6 = w (pb P0) ++ s /\ ind_bool f6 = ib /\ concat ib = seq (length (w (pb P0))) (length s)).
  { destruct Hle as (_ & Ew1 & _ & _ & _ & Eb1). destruct H6 as (_ & Ew6 & _ & _ & _ & Eb6).
    apply (add_constraint_gonly o) in H3. destruct H3 as (_ & Ew3 & _ & _ & _ & Eb3).
    destruct (le_w _ _ _ _ Hg) as (s & Hs & _ & _ & _ & ib & Hib & Hc & _).
    exists s, ib. rewrite Ew6, Ew3, Hs, Ew1, Eb6, Eb3, Hib, Eb1. destruct (pk_nog _ _ _ _ _ Hpk) as (_&_&_&_&_&Enb).
    rewrite Enb. rewrite <- Ew1. auto. }
  destruct Lw as (s & ib & Ew & Eib & Hib).
  destruct (cl_f _ _ _ Hcl) as (Hw & _ & _ & _ & _ & _ & _ & _ & _ & Hb).
  assert (Hlen : length (w (pb P)) = length (w f6) + sumn (map flen (concat stages))).
  { eapply sumn_flen. rewrite <- EPc. exact (cl_f _ _ _ Hcl). }
  unfold published.
  rewrite (cl_h _ _ _ Hcl), !(cl_1 _ _ _ Hcl), !(cl_2 _ _ _ Hcl), (cl_b _ _ _ Hcl), Eh, Eb, !E1, !E2, EPc.
  cbn [app]. rewrite !flat3_zip, !flat4_zip, offs_offss.
  rewrite Hb, EPc, Eib, Hib, Eu, Es, Ev, Ee.
  set (OF := offs (length (w f6)) (concat stages)).
  assert (HP : Permutation (concat (map (fun f => concat (zipw f OF (concat stages))) fam_funs))
      (seq (length (w f6)) (sumn (map flen (concat stages))))).
  { etransitivity; [symmetry; apply perm_zip_fams|].
    rewrite (zipw_ext _ all_idx_sh); [|intros; symmetry; apply all_idx_sh_fams].
    apply perm_offs. apply Forall_forall. intros fe Hfe.
    destruct (elems_ok fe Hfe) as (c & e & nfe & _ & _ & Hok). exact (ok_perm _ _ _ _ _ _ _ _ Hok). }
  unfold fam_funs, fams1, fams2 in HP. cbn [map app concat] in HP. rewrite app_nil_r in HP.
  rewrite Hlen, seq_app. cbn [plus].
  assert (H0 : seq 0 (length (w f6)) = seq 0 (length (w (pb P0))) ++ seq (length (w (pb P0))) (length s)).
  { rewrite Ew, app_length, seq_app. reflexivity. }
  rewrite H0, <- HP, <- (pk_perm _ _ _ _ _ Hpk), <- !app_assoc.
  do 4 apply Permutation_app_head.
  rewrite !app_assoc. apply Permutation_app_tail.
  etransitivity; [apply Permutation_app_comm|]. rewrite <- !app_assoc. reflexivity.
Qed.

(* ---- locating one element ---- *)
Lemma elem_place c e nfe : is_fe o c e nfe -> exists fe off,
  at2 stages c e = Some fe /\ fe_ok o t pm oc c e nfe fe /\
  elem_at (pb P) off fe /\
  (forall f, at2 (p_ind1 P f) c e = Some (incr1 off (ind1 fe f))) /\
  (forall f, at2 (p_ind2 P f) c e = Some (incr2 off (ind2 fe f))) /\
  at2 (p_ind_bool P) c e = Some (incr1 off (ind_bool (fo fe))) /\
  (exists xl, lastE EIndexError (ind1 fe FX) = Ok xl /\ at2 (p_ind_x_cont P) c e = Some (map (fun i => i + off) xl)).
Proof.
  intros (Hc & Hn & He).
  destruct (get_elem _ _ _ _ _ _ _ _ B c nfe e Hc Hn He) as (qq & q & s & fe & Hel & Hok & _).
  destruct Hel as (_ & _ & (st & Hst & Hfe) & _).
  destruct (bo_rest _ _ _ _ _ _ _ _ B) as (P0' & f2 & cvs & xT & gT & fT1 & f3 & f6 & Pc & _ & _ & _ & _ & _ & _ & _ & _ & _ & _ & _ & H6 & _ & EPc & Hcl & E1 & E2 & Ex & Eb & Eh).
  destruct (wf_f6 _ _ _ _ _ _ _ _ B) as (f6' & Hwf6 & _ & Hw6 & Hl6).
  destruct (offss_nth stages (length (w f6)) c st e fe Hst Hfe) as (a & b & ofs & Ha & Hofs & Hof).
  set (off := length (w f6) + sumn (map flen a)) in *.
  assert (Wf6 : wf_w f6).
  { destruct (bo_prim _ _ _ _ _ _ _ _ B) as (P1 & pp & pq & Hpk & Hle & Hwf & _).
    assert (E : wapp f6 (concat stages) (pb P)) by (rewrite <- EPc; exact (cl_f _ _ _ Hcl)).
    destruct E as (Ew & El & Eu & E0 & _). destruct Hw6 as (Ew' & El' & Eu' & E0' & _).
    rewrite Ew in Ew'. rewrite El in El'. rewrite Eu in Eu'. rewrite E0 in E0'.
    apply app_inv_tail in Ew'. apply app_inv_tail in El'. apply app_inv_tail in Eu'. apply app_inv_tail in E0'.
    destruct Hwf6 as [W6 _]. unfold wf_w in *. rewrite Ew', El', Eu', E0'. exact W6. }
  exists fe, off. split; [unfold at2; rewrite Hst; assumption|]. split; [assumption|].
  split.
  { eapply wapp_elem_at; [exact Wf6|exact Hl6| |exact Ha]. rewrite <- EPc. exact (cl_f _ _ _ Hcl). }
  assert (Z : forall {X} (h : nat -> felem -> X), at2 (zipw (zipw h) (offss (length (w f6)) stages) stages) c e = Some (h off fe)).
  { intros X h. unfold at2. rewrite (zipw_nth _ _ _ _ _ _ Hofs Hst). apply zipw_nth; assumption. }
  split; [intros f; rewrite (cl_1 _ _ _ Hcl), E1, EPc; apply Z|].
  split; [intros f; rewrite (cl_2 _ _ _ Hcl), E2, EPc; apply Z|].
  split; [rewrite (cl_b _ _ _ Hcl), Eb, EPc; apply Z|].
  destruct (cl_xc _ _ _ Hcl) as (xlss & Hx & Exc). rewrite Exc, Ex, EPc. cbn [app].
  destruct (Forall2_nth _ _ _ _ _ Hx Hst) as (xls & Hxls & Hxl).
  destruct (Forall2_nth _ _ _ _ _ Hxl Hfe) as (xl & Hxl1 & Hxl2).
  exists xl. split; [assumption|]. unfold at2. rewrite (zipw_nth _ _ _ _ _ _ Hofs Hxls).
  exact (zipw_nth (fun n xl => map (fun i => i + n) xl) ofs xls e off xl Hof Hxl1).
Qed.

Lemma incr1_nth n l j idx : nth_error l j = Some idx -> nth_error (incr1 n l) j = Some (map (fun i => i + n) idx).
Proof. intros H. unfold incr1. erewrite map_nth_error by eassumption. reflexivity. Qed.

Lemma idx1 c e nfe f j : is_fe o c e nfe -> j < n1 o t f -> exists idx,
  at3 (p_ind1 P f) c e j = Some idx /\
  selb (pb P) idx (map (S1 f c e j) (seq 0 (sz1 o pm f))) (lb1 o pm oc f) (ub1 o pm oc f).
Proof.
  intros Hfe Hj. destruct (elem_place c e nfe Hfe) as (fe & off & _ & Hok & (A1 & A2 & A3 & _) & H1 & _).
  destruct (ok_1 _ _ _ _ _ _ _ _ Hok f j Hj) as (idx & L & S1 & S2 & S3). cbn in L.
  exists (map (fun i => i + off) idx). unfold at3. rewrite H1. split; [apply incr1_nth; assumption|].
  split; [auto|]. split; auto.
Qed.
Lemma idx2 c e nfe f j s : is_fe o c e nfe -> j < n2 o t nfe e f -> s < pm_nsys pm -> exists idx,
  at4 (p_ind2 P f) c e j s = Some idx /\
  selb (pb P) idx (map (S2 f c e j s) (seq 0 (fsz o pm f s))) (lb2 o f (fsz o pm f s)) (ub2 f (fsz o pm f s)).
Proof.
  intros Hfe Hj Hs. destruct (elem_place c e nfe Hfe) as (fe & off & _ & Hok & (A1 & A2 & A3 & _) & _ & H2 & _).
  destruct (ok_2 _ _ _ _ _ _ _ _ Hok f j s Hj Hs) as (idx & L & S1 & S2 & S3). cbn in L.
  destruct (nth_error (ind2 fe f) j) as [row|] eqn:E; [|discriminate].
  exists (map (fun i => i + off) idx). unfold at4, at3. rewrite H2. unfold incr2.
  erewrite map_nth_error by eassumption. split; [apply incr1_nth; assumption|].
  split; [auto|]. split; auto.
Qed.

Lemma shape_nfes : length (o_Nfe_list o) >= o_N_stages o /\
  forall c, c < o_N_stages o -> exists nfe, nth_error (o_Nfe_list o) c = Some nfe /\ 0 < nfe.
Proof.
  assert (H : forall c, c < o_N_stages o -> exists nfe, nth_error (o_Nfe_list o) c = Some nfe /\ 0 < nfe).
  { intros c Hc. destruct (get_stage _ _ _ _ _ _ _ _ B c Hc) as (P0 & nfe & starts & ends & qq & q & pp' & p' & _ & _ & Hn & Hp & _).
    eauto. }
  split; [|assumption]. destruct (o_N_stages o) as [|n] eqn:E; [lia|].
  destruct (H n) as (nfe & Hn & _); [lia|]. apply nth_error_Some_lt in Hn. lia.
Qed.

(* shape of the nested lists *)
Lemma shape1 f : length (p_ind1 P f) = o_N_stages o /\
  forall c, c < o_N_stages o -> exists r, nth_error (p_ind1 P f) c = Some r /\
     nth_error (o_Nfe_list o) c = Some (length r) /\
     forall e, e < length r -> exists rr, nth_error r e = Some rr /\ length rr = n1 o t f.
Proof.
  destruct (bo_rest _ _ _ _ _ _ _ _ B) as (P0' & f2 & cvs & xT & gT & fT1 & f3 & f6 & Pc & _ & _ & _ & _ & _ & _ & _ & _ & _ & _ & _ & H6 & _ & EPc & Hcl & E1 & E2 & Ex & Eb & Eh).
  assert (L : length (p_ind1 P f) = o_N_stages o).
  { rewrite (cl_1 _ _ _ Hcl), E1. cbn [app]. unfold zipw. rewrite map_length, combine_length, offss_length.
    rewrite (stages_length _ _ _ _ _ _ _ _ B). lia. }
  split; [assumption|]. intros c Hc.
  destruct (get_stage _ _ _ _ _ _ _ _ B c Hc) as (P0 & nfe & starts & ends & qq & q & pp' & p' & _ & _ & Hn & _ & Hen & Hle & _).
  destruct (nth_error_lt (p_ind1 P f) c) as [r Hr]; [lia|].
  assert (Hlr : length r = nfe).
  { revert Hr. rewrite (cl_1 _ _ _ Hcl), E1. cbn [app].
    destruct (nth_error_lt (offss (length (w (pb Pc))) stages) c) as [ofs Hofs].
    { rewrite offss_length. eapply nth_error_Some_lt; eassumption. }
    rewrite (zipw_nth _ _ _ _ _ _ Hofs Hen). intros Hr. injection Hr as <-.
    unfold zipw. rewrite map_length, combine_length. rewrite Hle.
    assert (length ofs = nfe); [|lia].
    clear - Hofs Hen Hle. revert Hofs. generalize (length (w (pb Pc))). revert c Hen.
    induction stages as [|st sts IH]; intros c Hen n Hofs; [destruct c; discriminate|].
    destruct c as [|c]; cbn in *.
    - injection Hofs as <-. injection Hen as ->. rewrite offs_length. assumption.
    - eapply IH; eassumption. }
  exists r. split; [assumption|]. split; [congruence|]. intros e He.
  destruct (nth_error_lt r e He) as [rr Hrr]. exists rr. split; [assumption|].
  destruct (elem_place c e nfe) as (fe & off & _ & Hok & _ & H1 & _).
  { split; [assumption|]. split; [assumption|lia]. }
  specialize (H1 f). unfold at2 in H1. rewrite Hr, Hrr in H1. injection H1 as ->.
  unfold incr1. rewrite map_length. apply (ok_len1 _ _ _ _ _ _ _ _ Hok).
Qed.
End Idx.
