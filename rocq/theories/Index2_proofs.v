(* Index2_proofs.v -- shapes, step-size indices, distinct symbols, number of variables *)
From Coq Require Import Reals Qreals Lra Permutation.
From Verif Require Import Base Lib Sx Sx_proofs Utils Tableau Opts Model Ocp Problem Spec
  Fo_proofs Fe_proofs FeMake_proofs FeSel_proofs FeZero_proofs Prob_proofs Coll_proofs Body_proofs Model_proofs
  Con_proofs Index_proofs.



Lemma nth_error_concat {A} (l : list (list A)) c e r x :
  nth_error l c = Some r -> nth_error r e = Some x ->
  nth_error (concat l) (sumn (map (@length _) (firstn c l)) + e) = Some x.
Proof.
  revert c; induction l as [|a l IH]; intros c Hc He; [destruct c; discriminate|].
  destruct c as [|c]; cbn in *.
  - injection Hc as ->. rewrite nth_error_app1; [assumption|]. eapply nth_error_Some_lt; eassumption.
  - rewrite nth_error_app2 by lia. replace (length a + _ + e - length a) with (sumn (map (@length _) (firstn c l)) + e) by lia.
    eapply IH; eassumption.
Qed.

Section Idx.
Variables (o : opts) (t : tab) (pm : pmodel) (oc : pocp) (P : prob) (stages : list (list felem)) (lastfe : felem) (f1 : fobj).
Hypothesis B : body_ok o t pm oc P stages lastfe f1.

Lemma stage_lens : map (@length _) stages = firstn (o_N_stages o) (o_Nfe_list o).
Proof.
  assert (H : forall n, n <= o_N_stages o -> map (@length _) (firstn n stages) = firstn n (o_Nfe_list o)).
  { induction n as [|n IH]; intros Hn; [reflexivity|].
    destruct (get_stage _ _ _ _ _ _ _ _ B n) as (P0 & nfe & starts & ends & qq & q & pp' & p' & _ & _ & Hf & _ & Hen & Hle & _); [lia|].
    assert (S1 : forall {A} (l : list A) k x, nth_error l k = Some x -> firstn (S k) l = firstn k l ++ [x]).
    { clear. intros A l. induction l as [|a l IH]; intros k x H; [destruct k; discriminate|].
      destruct k; cbn in *; [congruence|]. f_equal. apply IH; assumption. }
    rewrite (S1 _ _ _ _ Hen), (S1 _ _ _ _ Hf), map_app, IH by lia. cbn. congruence. }
  rewrite <- (H (o_N_stages o)) by lia. rewrite <- (stages_length _ _ _ _ _ _ _ _ B), firstn_all. reflexivity.
Qed.

Lemma firstn_firstn_le {A} (l : list A) a b : a <= b -> firstn a (firstn b l) = firstn a l.
Proof. intros H. rewrite firstn_firstn. f_equal. lia. Qed.

Lemma idx_h : o_use_fesd o = true -> forall c e nfe, is_fe o c e nfe ->
  exists i, nth_error (p_ind_h P) (flat_pos (o_Nfe_list o) c e) = Some i /\
    selb (pb P) [i] [SH c e] [h_lb (o_gamma_h o) (h_nominal o nfe)] [h_ub (o_gamma_h o) (h_nominal o nfe)].
Proof.
  intros Hfesd c e nfe Hfe.
  destruct (bo_rest _ _ _ _ _ _ _ _ B) as (P0' & f2 & cvs & xT & gT & fT1 & f3 & f6 & Pc & _ & _ & _ & _ & _ & _ & _ & _ & _ & _ & _ & H6 & _ & EPc & Hcl & E1 & E2 & Ex & Eb & Eh).
  destruct (wf_f6 _ _ _ _ _ _ _ _ B) as (f6' & Hwf6 & _ & Hw6 & Hl6).
  (* length-one lists *)
  assert (One : Forall (fun fe => exists i, ind_h fe = [i]) (concat stages)).
  { apply Forall_forall. intros fe Hin. destruct (elems_ok _ _ _ _ _ _ _ _ B fe Hin) as (c' & e' & nfe' & _ & _ & Hok).
    pose proof (ok_hidx _ _ _ _ _ _ _ _ Hok) as K. rewrite Hfesd in K. destruct K as (idx & L & K & _). cbn in L.
    injection L as L. apply sel_length in K. cbn in K. destruct idx as [|i [|? ?]]; try discriminate. exists i. assumption. }
  destruct (elem_place _ _ _ _ _ _ _ _ B c e nfe Hfe) as (fe & off & Hat & Hok & (A1 & A2 & A3 & _) & H1 & _).
  destruct Hfe as (Hc & Hn & He).
  unfold at2 in Hat. destruct (nth_error stages c) as [st|] eqn:Est; [|discriminate].
  pose proof (nth_error_concat stages c e st fe Est Hat) as Hpos.
  assert (Epos : sumn (map (@length _) (firstn c stages)) + e = flat_pos (o_Nfe_list o) c e).
  { unfold flat_pos. change total with sumn. f_equal. f_equal. rewrite <- firstn_map. rewrite stage_lens. apply firstn_firstn_le. lia. }
  rewrite Epos in Hpos.
  rewrite (cl_h _ _ _ Hcl), Eh, EPc, offs_offss. cbn [app].
  set (k := flat_pos (o_Nfe_list o) c e) in *.
  assert (G : forall l n k fe, nth_error l k = Some fe -> Forall (fun fe => exists i, ind_h fe = [i]) l ->
     exists off i, nth_error (offs n l) k = Some off /\ ind_h fe = [i] /\
       nth_error (concat (zipw (fun n fe => map (fun i => i + n) (ind_h fe)) (offs n l) l)) k = Some (i + off)).
  { clear. induction l as [|x l IH]; intros n k fe Hk HF; [destruct k; discriminate|].
    apply Forall_cons_iff in HF. destruct HF as [[i Hi] HF]. destruct k as [|k]; cbn in *.
    - injection Hk as ->. exists n, i. split; [reflexivity|]. split; [assumption|]. cbn. rewrite Hi. reflexivity.
    - destruct (IH (n + flen x) k fe Hk HF) as (off & i' & Ho & Hi' & Hz). exists off, i'.
      split; [assumption|]. split; [assumption|]. unfold zipw in *. cbn. rewrite Hi. cbn. assumption. }
  destruct (G _ (length (w f6)) _ _ Hpos One) as (off2 & i & Hoff2 & Hi & Hz).
  exists (i + off2). split; [assumption|].
  assert (EA : elem_at (pb P) off2 fe).
  { destruct (offs_nth (concat stages) (length (w f6)) k fe Hpos) as (a & b & Hab & Hla & Hof).
    assert (off2 = length (w f6) + sumn (map flen a)) by congruence. subst off2.
    assert (Wf6 : wf_w f6).
    { assert (E : wapp f6 (concat stages) (pb P)) by (rewrite <- EPc; exact (cl_f _ _ _ Hcl)).
      destruct E as (Ew & El & Eu & E0 & _). destruct Hw6 as (Ew' & El' & Eu' & E0' & _).
      rewrite Ew in Ew'. rewrite El in El'. rewrite Eu in Eu'. rewrite E0 in E0'.
      apply app_inv_tail in Ew'. apply app_inv_tail in El'. apply app_inv_tail in Eu'. apply app_inv_tail in E0'.
      destruct Hwf6 as [W6 _]. unfold wf_w in *. rewrite Ew', El', Eu', E0'. exact W6. }
    eapply wapp_elem_at; [exact Wf6|exact Hl6| |exact Hab]. rewrite <- EPc. exact (cl_f _ _ _ Hcl). }
  pose proof (ok_hidx _ _ _ _ _ _ _ _ Hok) as K. rewrite Hfesd in K. destruct K as (idx & L & K1 & K2 & K3). cbn in L.
  injection L as L. rewrite Hi in L. subst idx. destruct EA as (X1 & X2 & X3 & _).
  split; [exact (X1 _ _ K1)|]. split; [exact (X2 _ _ K2)|exact (X3 _ _ K3)].
Qed.

Lemma idx_h_length : length (p_ind_h P) = if o_use_fesd o then sumn (firstn (o_N_stages o) (o_Nfe_list o)) else 0.
Proof.
  destruct (bo_rest _ _ _ _ _ _ _ _ B) as (P0' & f2 & cvs & xT & gT & fT1 & f3 & f6 & Pc & _ & _ & _ & _ & _ & _ & _ & _ & _ & _ & _ & H6 & _ & EPc & Hcl & E1 & E2 & Ex & Eb & Eh).
  rewrite (cl_h _ _ _ Hcl), Eh, EPc, offs_offss. cbn [app].
  rewrite <- stage_lens, <- length_concat.
  assert (One : Forall (fun fe => length (ind_h fe) = if o_use_fesd o then 1 else 0) (concat stages)).
  { apply Forall_forall. intros fe Hin. destruct (elems_ok _ _ _ _ _ _ _ _ B fe Hin) as (c' & e' & nfe' & _ & _ & Hok).
    pose proof (ok_hidx _ _ _ _ _ _ _ _ Hok) as K. destruct (o_use_fesd o).
    - destruct K as (idx & L & K & _). cbn in L. injection L as L. apply sel_length in K. cbn in K. congruence.
    - rewrite K. reflexivity. }
  generalize (length (w f6)). induction (concat stages) as [|fe l IH]; intros n; cbn.
  - destruct (o_use_fesd o); reflexivity.
  - apply Forall_cons_iff in One. destruct One as [H1 One]. specialize (IH One (n + flen fe)).
    rewrite app_length, map_length, H1. fold (@zipw nat felem (list nat)) . unfold zipw in IH. rewrite IH.
    destruct (o_use_fesd o); reflexivity.
Qed.

Lemma shape2 f : length (p_ind2 P f) = o_N_stages o /\
  forall c, c < o_N_stages o -> exists r, nth_error (p_ind2 P f) c = Some r /\
     nth_error (o_Nfe_list o) c = Some (length r) /\
     forall e, e < length r -> exists rr, nth_error r e = Some rr /\ map (@length _) rr = repeat (pm_nsys pm) (n2 o t (length r) e f).
Proof.
  destruct (bo_rest _ _ _ _ _ _ _ _ B) as (P0' & f2 & cvs & xT & gT & fT1 & f3 & f6 & Pc & _ & _ & _ & _ & _ & _ & _ & _ & _ & _ & _ & H6 & _ & EPc & Hcl & E1 & E2 & Ex & Eb & Eh).
  assert (L : length (p_ind2 P f) = o_N_stages o).
  { rewrite (cl_2 _ _ _ Hcl), E2. cbn [app]. unfold zipw. rewrite map_length, combine_length, offss_length.
    rewrite (stages_length _ _ _ _ _ _ _ _ B). lia. }
  split; [assumption|]. intros c Hc.
  destruct (get_stage _ _ _ _ _ _ _ _ B c Hc) as (P0 & nfe & starts & ends & qq & q & pp' & p' & _ & _ & Hn & _ & Hen & Hle & _).
  destruct (nth_error_lt (p_ind2 P f) c) as [r Hr]; [lia|].
  assert (Hlr : length r = nfe).
  { revert Hr. rewrite (cl_2 _ _ _ Hcl), E2. cbn [app].
    destruct (nth_error_lt (offss (length (w (pb Pc))) stages) c) as [ofs Hofs].
    { rewrite offss_length. eapply nth_error_Some_lt; eassumption. }
    rewrite (zipw_nth _ _ _ _ _ _ Hofs Hen). intros Hr. injection Hr as <-.
    unfold zipw. rewrite map_length, combine_length. rewrite Hle.
    assert (length ofs = nfe); [|lia].
    clear - Hofs Hen Hle. revert Hofs. generalize (length (w (pb Pc))). revert c Hen.
    induction stages as [|st sts IH]; intros c Hen n Hofs; [destruct c; discriminate|].
    destruct c as [|c]; cbn in *.
    - injection Hofs as <-. injection Hen as ->. rewrite offs_length. assumption.
    - eapply IH; eassumption. }
  exists r. split; [assumption|]. split; [congruence|]. intros e He.
  destruct (nth_error_lt r e He) as [rr Hrr]. exists rr. split; [assumption|].
  destruct (elem_place _ _ _ _ _ _ _ _ B c e nfe) as (fe & off & _ & Hok & _ & _ & H2 & _).
  { split; [assumption|]. split; [assumption|lia]. }
  specialize (H2 f). unfold at2 in H2. rewrite Hr, Hrr in H2. injection H2 as ->.
  unfold incr2, incr1. rewrite map_map. erewrite map_ext; [|intros; apply map_length].
  rewrite Hlr. exact (ok_len2 _ _ _ _ _ _ _ _ Hok f).
Qed.

(* ---- all symbols of one element ---- *)
Lemma sel_perm {A} (l : list A) idx v : Permutation idx (seq 0 (length l)) -> sel l idx = Ok v -> Permutation v l.
Proof.
  intros Hp Hs.
  assert (Hseq : sel l (seq 0 (length l)) = Ok l).
  { pose proof (sel_seq [] l []) as H. cbn in H. rewrite app_nil_r in H. exact H. }
  assert (G : forall i1 i2, Permutation i1 i2 -> forall v1 v2, sel l i1 = Ok v1 -> sel l i2 = Ok v2 -> Permutation v1 v2).
  { clear. induction 1 as [|x a b H IH|x y a|a b c H1 IH1 H2 IH2]; intros v1 v2 E1 E2.
    - cbn in *. injection E1 as <-. injection E2 as <-. constructor.
    - unfold sel in *. cbn in E1, E2. inv_ok. subst. assert (a0 = a2) by congruence. subst. constructor. eapply IH; eassumption.
    - unfold sel in *. cbn in E1, E2.
      destruct (nthE ECasadi l x) as [vx|] eqn:Ex, (nthE ECasadi l y) as [vy|] eqn:Ey; cbn in E1, E2; try discriminate.
      destruct (mapM (nthE ECasadi l) a) as [va|]; cbn in *; try discriminate. injection E1 as <-. injection E2 as <-. constructor.
    - destruct (sel l b) as [vb|e] eqn:Eb.
      + etransitivity; [eapply IH1|eapply IH2]; eauto.
      + exfalso. unfold sel in *. apply mapM_Forall2 in E1.
        assert (T : exists vb, mapM (nthE ECasadi l) b = Ok vb).
        { clear - H1 E1. assert (HT : forall i, In i b -> exists y, nthE ECasadi l i = Ok y).
          { intros i Hi. apply Permutation_sym in H1. apply (Permutation_in _ H1) in Hi.
            apply In_nth_error in Hi. destruct Hi as [k Hk]. destruct (Forall2_nth _ _ _ _ _ E1 Hk) as (y & _ & Hy). eauto. }
          clear - HT. induction b as [|i b IH]; cbn; [eauto|]. destruct (HT i) as [y Hy]; [left; reflexivity|].
          destruct IH as [vb Hvb]; [intros; apply HT; right; assumption|]. rewrite Hy, Hvb. cbn. eauto. }
        destruct T as [vb T]. congruence. }
  eapply G; eassumption.
Qed.

Definition elem_syms (c e nfe : nat) (bl : list (list sym)) : list sym :=
  (if o_use_fesd o then [SH c e] else []) ++
  concat (map (fun f => concat (map (lab1 o pm c e f) (seq 0 (n1 o t f)))) fams1) ++
  concat (map (fun f => concat (map (lab2 o pm c e f) (seq 0 (n2 o t nfe e f)))) fams2) ++
  concat bl.

Lemma rows_sel {A} (wv : list A) rows (labs : nat -> list A) n :
  length rows = n -> (forall j, j < n -> exists idx, nth_error rows j = Some idx /\ sel wv idx = Ok (labs j)) ->
  Forall2 (fun i v => sel wv i = Ok v) rows (map labs (seq 0 n)).
Proof.
  intros Hl H. subst n. 
  assert (G : forall a, (forall j, j < length rows -> exists idx, nth_error rows j = Some idx /\ sel wv idx = Ok (labs (a + j))) ->
    Forall2 (fun i v => sel wv i = Ok v) rows (map labs (seq a (length rows)))).
  { clear H. induction rows as [|r rows IH]; intros a H; cbn; constructor.
    - destruct (H 0) as (idx & E & HS); [cbn; lia|]. cbn in E. injection E as ->. rewrite Nat.add_0_r in HS. assumption.
    - apply IH. intros j Hj. destruct (H (S j)) as (idx & E & HS); [cbn; lia|]. cbn in E. exists idx.
      replace (S a + j) with (a + S j) by lia. auto. }
  apply (G 0). exact H.
Qed.

Definition bool_labs (c e : nat) (fe : felem) : list (list sym) :=
  map (fun k => map (SBool c e k) (seq 0 (length (nth k (ind_bool (fo fe)) [])))) (seq 0 (length (ind_bool (fo fe)))).

Lemma elem_syms_perm c e nfe fe : fe_ok o t pm oc c e nfe fe ->
  Permutation (elem_syms c e nfe (bool_labs c e fe)) (w (fo fe)).
Proof.
  intros Hok. eapply sel_perm; [exact (ok_perm _ _ _ _ _ _ _ _ Hok)|].
  unfold all_idx, elem_syms.
  apply sel_app_idx; [|apply sel_app_idx; [|apply sel_app_idx]].
  - pose proof (ok_hidx _ _ _ _ _ _ _ _ Hok) as K. destruct (o_use_fesd o).
    + destruct K as (idx & L & K & _). cbn in L. injection L as ->. assumption.
    + rewrite K. reflexivity.
  - assert (H : forall f, sel (w (fo fe)) (concat (ind1 fe f)) = Ok (concat (map (lab1 o pm c e f) (seq 0 (n1 o t f))))).
    { intros f. apply sel_concat. apply rows_sel; [apply (ok_len1 _ _ _ _ _ _ _ _ Hok)|].
      intros j Hj. destruct (ok_1 _ _ _ _ _ _ _ _ Hok f j Hj) as (idx & L & K & _). exists idx. split; [exact L|exact K]. }
    apply sel_concat. apply Forall2_map_l, Forall2_map_r. apply Forall2_refl_in. intros; apply H.
  - assert (H : forall f, sel (w (fo fe)) (concat (concat (ind2 fe f))) = Ok (concat (map (lab2 o pm c e f) (seq 0 (n2 o t nfe e f))))).
    { intros f. rewrite <- concat_map_concat. apply sel_concat.
      assert (K : Forall2 (fun row v => sel (w (fo fe)) (concat row) = Ok v) (ind2 fe f) (map (lab2 o pm c e f) (seq 0 (n2 o t nfe e f)))).
      { assert (Hl := ok_len2' _ _ _ _ _ _ _ fe f Hok). 
        assert (G : forall j, j < n2 o t nfe e f -> exists row, nth_error (ind2 fe f) j = Some row /\ sel (w (fo fe)) (concat row) = Ok (lab2 o pm c e f j)).
        { intros j Hj. destruct (ok_row _ _ _ _ _ _ _ fe f j Hok Hj) as (row & E & _ & HS). exists row. split; [assumption|].
          apply sel_concat. assumption. }
        clear - Hl G. rewrite <- Hl in *. revert G. generalize (lab2 o pm c e f) as labs. generalize (ind2 fe f) as rows. clear.
        intros rows labs G.
        assert (GG : forall a, (forall j, j < length rows -> exists row, nth_error rows j = Some row /\ sel (w (fo fe)) (concat row) = Ok (labs (a + j))) ->
          Forall2 (fun row v => sel (w (fo fe)) (concat row) = Ok v) rows (map labs (seq a (length rows)))).
        { clear G. induction rows as [|r rows IH]; intros a H; cbn; constructor.
          - destruct (H 0) as (idx & E & HS); [cbn; lia|]. cbn in E. injection E as ->. rewrite Nat.add_0_r in HS. assumption.
          - apply IH. intros j Hj. destruct (H (S j)) as (idx & E & HS); [cbn; lia|]. cbn in E. exists idx.
            replace (S a + j) with (a + S j) by lia. auto. }
        apply (GG 0). exact G. }
      apply Forall2_map_l. exact K. }
    apply sel_concat. apply Forall2_map_l, Forall2_map_r. apply Forall2_refl_in. intros; apply H.
  - apply sel_concat. apply rows_sel; [reflexivity|]. intros k Hk.
    destruct (nth_error_lt _ _ Hk) as [idx Hidx]. exists idx. split; [assumption|].
    rewrite (ok_bool _ _ _ _ _ _ _ _ Hok k idx Hidx).
    rewrite (nth_error_nth _ _ [] Hidx). reflexivity.
Qed.

(* labels of one element determine where they come from *)
Definition key_fe (s : sym) : option (nat * nat) :=
  match s with
  | SH c e => Some (c, e) | S1 _ c e _ _ => Some (c, e) | S2 _ c e _ _ _ => Some (c, e) | SBool c e _ _ => Some (c, e)
  | _ => None end.

Lemma elem_syms_key c e nfe fe s : In s (elem_syms c e nfe (bool_labs c e fe)) -> key_fe s = Some (c, e).
Proof.
  unfold elem_syms, bool_labs. rewrite !in_app_iff. intros [H|[H|[H|H]]].
  - destruct (o_use_fesd o); cbn in H; intuition. subst; reflexivity.
  - apply in_concat in H. destruct H as (l & Hl & H). apply in_map_iff in Hl. destruct Hl as (f & <- & _).
    apply in_concat in H. destruct H as (l & Hl & H). apply in_map_iff in Hl. destruct Hl as (j & <- & _).
    unfold lab1 in H. apply in_map_iff in H. destruct H as (i & <- & _). reflexivity.
  - apply in_concat in H. destruct H as (l & Hl & H). apply in_map_iff in Hl. destruct Hl as (f & <- & _).
    apply in_concat in H. destruct H as (l & Hl & H). apply in_map_iff in Hl. destruct Hl as (j & <- & _).
    unfold lab2 in H. apply in_concat in H. destruct H as (l & Hl & H). apply in_map_iff in Hl. destruct Hl as (y & <- & _).
    unfold lab2s in H. apply in_map_iff in H. destruct H as (i & <- & _). reflexivity.
  - apply in_concat in H. destruct H as (l & Hl & H). apply in_map_iff in Hl. destruct Hl as (k & <- & _).
    apply in_map_iff in H. destruct H as (i & <- & _). reflexivity.
Qed.

Lemma NoDup_map_seq {A} (f : nat -> A) a n : (forall i j, f i = f j -> i = j) -> NoDup (map f (seq a n)).
Proof. intros H. apply FinFun.Injective_map_NoDup; [exact H|apply seq_NoDup]. Qed.

Lemma Forall2_seq_map {A} (R : nat -> list A -> Prop) (f : nat -> list A) l :
  (forall k, In k l -> R k (f k)) -> Forall2 R l (map f l).
Proof. intros H. apply Forall2_map_r. apply Forall2_refl_in. assumption. Qed.

Lemma NoDup_concat_map {K A} (key : A -> option K) (f : K -> list A) ks :
  NoDup ks -> (forall k, In k ks -> NoDup (f k)) -> (forall k a, In k ks -> In a (f k) -> key a = Some k) ->
  NoDup (concat (map f ks)).
Proof.
  intros Hks H1 H2. apply (NoDup_concat_key key ks); [|assumption].
  apply Forall2_map_r, Forall2_refl_in. intros k Hk. split; [auto|]. intros a Ha. eauto.
Qed.

Lemma elem_syms_NoDup c e nfe fe : NoDup (elem_syms c e nfe (bool_labs c e fe)).
Proof.
  unfold elem_syms, bool_labs.
  assert (HX : forall s, In s (concat (map (fun f => concat (map (lab1 o pm c e f) (seq 0 (n1 o t f)))) fams1)) ->
     exists f j i, s = S1 f c e j i).
  { intros s H. apply in_concat in H. destruct H as (l & Hl & H). apply in_map_iff in Hl. destruct Hl as (f & <- & _).
    apply in_concat in H. destruct H as (l & Hl & H). apply in_map_iff in Hl. destruct Hl as (j & <- & _).
    unfold lab1 in H. apply in_map_iff in H. destruct H as (i & <- & _). eauto. }
  assert (HL2 : forall f j s, In s (lab2 o pm c e f j) -> exists y i, s = S2 f c e j y i).
  { intros f j s H. unfold lab2 in H. apply in_concat in H. destruct H as (l & Hl & H). apply in_map_iff in Hl. destruct Hl as (y & <- & _).
    unfold lab2s in H. apply in_map_iff in H. destruct H as (i & <- & _). eauto. }
  assert (HY : forall s, In s (concat (map (fun f => concat (map (lab2 o pm c e f) (seq 0 (n2 o t nfe e f)))) fams2)) ->
     exists f j y i, s = S2 f c e j y i).
  { intros s H. apply in_concat in H. destruct H as (l & Hl & H). apply in_map_iff in Hl. destruct Hl as (f & <- & _).
    apply in_concat in H. destruct H as (l & Hl & H). apply in_map_iff in Hl. destruct Hl as (j & <- & _).
    apply HL2 in H. destruct H as (y & i & ->). eauto. }
  assert (HZ : forall s, In s (concat (map (fun k => map (SBool c e k) (seq 0 (length (nth k (ind_bool (fo fe)) [])))) (seq 0 (length (ind_bool (fo fe)))))) ->
     exists k i, s = SBool c e k i).
  { intros s H. apply in_concat in H. destruct H as (l & Hl & H). apply in_map_iff in Hl. destruct Hl as (k & <- & _).
    apply in_map_iff in H. destruct H as (i & <- & _). eauto. }
  apply NoDup_app; [|apply NoDup_app; [|apply NoDup_app|]|].
  - destruct (o_use_fesd o); repeat constructor; intros [].
  - apply (NoDup_concat_map (fun s => match s with S1 f _ _ _ _ => Some f | _ => None end)).
    + unfold fams1. repeat constructor; cbn; intuition discriminate.
    + intros f _. apply (NoDup_concat_map (fun s => match s with S1 _ _ _ j _ => Some j | _ => None end)).
      * apply seq_NoDup.
      * intros j _. apply NoDup_map_seq. intros ? ? H; injection H; auto.
      * intros j a _ Ha. apply in_map_iff in Ha. destruct Ha as (i & <- & _). reflexivity.
    + intros f a _ Ha. apply in_concat in Ha. destruct Ha as (l & Hl & Ha). apply in_map_iff in Hl. destruct Hl as (j & <- & _).
      apply in_map_iff in Ha. destruct Ha as (i & <- & _). reflexivity.
  - apply (NoDup_concat_map (fun s => match s with S2 f _ _ _ _ _ => Some f | _ => None end)).
    + unfold fams2. repeat constructor; cbn; intuition discriminate.
    + intros f _. apply (NoDup_concat_map (fun s => match s with S2 _ _ _ j _ _ => Some j | _ => None end)).
      * apply seq_NoDup.
      * intros j _. unfold lab2. apply (NoDup_concat_map (fun s => match s with S2 _ _ _ _ y _ => Some y | _ => None end)).
        -- apply seq_NoDup.
        -- intros y _. apply NoDup_map_seq. intros ? ? H; injection H; auto.
        -- intros y a _ Ha. apply in_map_iff in Ha. destruct Ha as (i & <- & _). reflexivity.
      * intros j a _ Ha. apply HL2 in Ha. destruct Ha as (y & i & ->). reflexivity.
    + intros f a _ Ha. apply in_concat in Ha. destruct Ha as (l & Hl & Ha). apply in_map_iff in Hl. destruct Hl as (j & <- & _).
      apply HL2 in Ha. destruct Ha as (y & i & ->). reflexivity.
  - apply (NoDup_concat_map (fun s => match s with SBool _ _ k _ => Some k | _ => None end)).
    + apply seq_NoDup.
    + intros k _. apply NoDup_map_seq. intros ? ? H; injection H; auto.
    + intros k a _ Ha. apply in_map_iff in Ha. destruct Ha as (i & <- & _). reflexivity.
  - intros s Hs Hs'. apply HY in Hs. apply HZ in Hs'. destruct Hs as (?&?&?&?&->). destruct Hs' as (?&?&E). discriminate.
  - intros s Hs Hs'. rewrite in_app_iff in Hs'. apply HX in Hs. destruct Hs as (?&?&?&->).
    destruct Hs' as [H|H]; [apply HY in H; destruct H as (?&?&?&?&E)|apply HZ in H; destruct H as (?&?&E)]; discriminate.
  - intros s Hs Hs'. rewrite !in_app_iff in Hs'. destruct (o_use_fesd o); cbn in Hs; [|tauto].
    destruct Hs as [<-|[]]. destruct Hs' as [H|[H|H]];
    [apply HX in H; destruct H as (?&?&?&E)|apply HY in H; destruct H as (?&?&?&?&E)|apply HZ in H; destruct H as (?&?&E)]; discriminate.
Qed.

Lemma elem_w_key fe s : In fe (concat stages) -> In s (w (fo fe)) -> exists c e, key_fe s = Some (c, e).
Proof.
  intros Hin Hs. destruct (elems_ok _ _ _ _ _ _ _ _ B fe Hin) as (c & e & nfe & _ & _ & Hok).
  apply (Permutation_in (l' := elem_syms c e nfe (bool_labs c e fe))) in Hs; [|symmetry; apply elem_syms_perm; exact Hok].
  apply elem_syms_key in Hs. eauto.
Qed.

Lemma elems_w_NoDup : NoDup (concat (map (fun fe => w (fo fe)) (concat stages))).
Proof.
  assert (Hk : forall fe s, In fe (concat stages) -> In s (w (fo fe)) -> key_fe s = Some (fe_ctrl fe, fe_idx fe)).
  { intros fe s Hin Hs. destruct (elems_ok _ _ _ _ _ _ _ _ B fe Hin) as (c & e & nfe & _ & _ & Hok).
    apply (Permutation_in (l' := elem_syms c e nfe (bool_labs c e fe))) in Hs; [|symmetry; apply elem_syms_perm; exact Hok].
    apply elem_syms_key in Hs. rewrite (ok_ctrl _ _ _ _ _ _ _ _ Hok), (ok_idx _ _ _ _ _ _ _ _ Hok). assumption. }
  apply (NoDup_concat_key key_fe (map (fun fe => (fe_ctrl fe, fe_idx fe)) (concat stages))).
  - apply Forall2_map_l, Forall2_map_r, Forall2_refl_in. intros fe Hin. split; [|intros; apply Hk; assumption].
    destruct (elems_ok _ _ _ _ _ _ _ _ B fe Hin) as (c & e & nfe & _ & _ & Hok).
    eapply Permutation_NoDup; [apply elem_syms_perm; exact Hok|]. apply elem_syms_NoDup.
  - (* positions are distinct *)
    assert (G : forall sts c0, (forall c st e fe, nth_error sts c = Some st -> nth_error st e = Some fe -> fe_ctrl fe = c0 + c /\ fe_idx fe = e) ->
      NoDup (map (fun fe => (fe_ctrl fe, fe_idx fe)) (concat sts)) /\
      (forall fe, In fe (concat sts) -> c0 <= fe_ctrl fe)).
    { induction sts as [|st sts IH]; intros c0 H; cbn; [split; [constructor|intros ? []]|].
      destruct (IH (S c0)) as [N1 L1].
      { intros c st' e fe Hc He. destruct (H (S c) st' e fe Hc He). split; [lia|assumption]. }
      assert (L0 : forall fe, In fe st -> fe_ctrl fe = c0).
      { intros fe Hfe. apply In_nth_error in Hfe. destruct Hfe as [e He]. destruct (H 0 st e fe eq_refl He). lia. }
      split.
      - rewrite map_app. apply NoDup_app; [|assumption|].
        + assert (HS : map (fun fe => (fe_ctrl fe, fe_idx fe)) st = map (fun e => (c0, e)) (seq 0 (length st))).
          { assert (Hi : forall e fe, nth_error st e = Some fe -> fe_ctrl fe = c0 /\ fe_idx fe = 0 + e).
            { intros e fe He. destruct (H 0 st e fe eq_refl He). split; [lia|assumption]. }
            clear - Hi. revert Hi. generalize 0 as a. induction st as [|fe st IH]; intros a Hi; cbn; [reflexivity|].
            destruct (Hi 0 fe eq_refl) as [-> ->]. rewrite Nat.add_0_r. f_equal. apply IH.
            intros e fe' He. destruct (Hi (S e) fe' He). split; [assumption|lia]. }
          rewrite HS. apply NoDup_map_seq. intros ? ? E; injection E; auto.
        + intros x Hx Hx'. apply in_map_iff in Hx. destruct Hx as (fe & <- & Hfe).
          apply in_map_iff in Hx'. destruct Hx' as (fe' & E & Hfe'). injection E as E1 E2.
          apply L0 in Hfe. apply L1 in Hfe'. lia.
      - intros fe Hfe. apply in_app_iff in Hfe. destruct Hfe as [Hfe|Hfe]; [rewrite (L0 _ Hfe); lia|].
        apply L1 in Hfe. lia. }
    apply (G stages 0). intros c st e fe Hc He.
    assert (Hlt : c < o_N_stages o).
    { rewrite <- (stages_length _ _ _ _ _ _ _ _ B). eapply nth_error_Some_lt; eassumption. }
    destruct (shape_nfes _ _ _ _ _ _ _ _ B) as [_ Hs]. destruct (Hs c Hlt) as (nfe & Hn & _).
    destruct (get_fe_ok _ _ _ _ _ _ _ _ B c e nfe st fe Hc He Hn) as [Hok _].
    split; [exact (ok_ctrl _ _ _ _ _ _ _ _ Hok)|exact (ok_idx _ _ _ _ _ _ _ _ Hok)].
Qed.

Lemma main_syms : exists s, w (pb P) = (ellab o ++ mvg (pm_m pm) ++ concat (map (fun c => ulab pm c ++ sotlab o c) (seq 0 (o_N_stages o))))
   ++ s ++ concat (map (fun fe => w (fo fe)) (concat stages)) /\
   (exists n, s = map (SBoolG 0) (seq 0 n)).
Proof.
  destruct (bo_prim _ _ _ _ _ _ _ _ B) as (P0 & pp & pq & Hpk & Hle & Hwf & _ & _ & Ep & Ef0 & Eu & Es & Ev & Ee & _).
  destruct (bo_rest _ _ _ _ _ _ _ _ B) as (P0' & f2 & cvs & xT & gT & fT1 & f3 & f6 & Pc & _ & _ & _ & Hg & _ & _ & _ & _ & H3 & _ & _ & H6 & _ & EPc & Hcl & E1 & E2 & _ & Eb & Eh).
  unfold global_compl in Hg. apply bind_ok in Hg. destruct Hg as (pg & _ & Hg).
  apply bind_ok in Hg. destruct Hg as (ab & _ & Hg).
  assert (Hib : ind_bool f1 = []).
  { destruct Hle as (_ & _ & _ & _ & _ & Eb1). rewrite Eb1. exact (proj2 (proj2 (proj2 (proj2 (proj2 (pk_nog _ _ _ _ _ Hpk)))))). }
  assert (Hs : exists n, w f2 = w f1 ++ map (SBoolG 0) (seq 0 n)).
  { destruct (o_mpcc o) eqn:Em.
    8: { unfold create_complementarity in Hg. rewrite Em in Hg. cbv zeta in Hg. rewrite Hib in Hg. cbn [length] in Hg.
         apply bind_ok in Hg. destruct Hg as ([f' idx] & Ha & Hg). apply add_variable_ok in Ha. destruct Ha as (_&_&_&_&Ef').
         repeat match type of Hg with bind _ _ = Ok _ => let a := fresh in let E := fresh in apply bind_ok in Hg; destruct Hg as (a & E & Hg) end.
         apply add_constraint_comp_ok in Hg. destruct Hg as (g1 & ic & Hg & ->).
         apply (add_constraint_gonly o) in Hg. destruct Hg as (_ & Ew & _). cbn. rewrite Ew. cbn. rewrite Ef'. cbn. eexists; reflexivity. }
    all: apply create_complementarity_le in Hg; destruct (le_w _ _ _ _ Hg) as (s & Hs & _ & _ & _ & ib & _ & _ & Hn & _);
         destruct Hn as [-> _]; [congruence|]; exists 0; exact Hs. }
  destruct Hs as [n Hs].
  exists (map (SBoolG 0) (seq 0 n)). split; [|eauto].
  destruct (cl_f _ _ _ Hcl) as (Hw & _). rewrite Hw, EPc.
  destruct H6 as (_ & Ew6 & _). apply (add_constraint_gonly o) in H3. destruct H3 as (_ & Ew3 & _).
  destruct Hle as (_ & Ew1 & _). rewrite Ew6, Ew3, Hs, Ew1, (pk_w _ _ _ _ _ Hpk). rewrite <- app_assoc. reflexivity.
Qed.

Lemma p_syms : p_p P = concat (map (pst pm) (seq 0 (o_N_stages o))) ++ [SSigma; STau] ++ lam0 o pm ++ labx0 pm.
Proof.
  destruct (bo_prim _ _ _ _ _ _ _ _ B) as (P0 & pp & pq & Hpk & Hle & Hwf & _ & _ & Ep & _). rewrite Ep.
  exact (pk_p _ _ _ _ _ Hpk).
Qed.

(* which kind of place a symbol comes from *)
Definition kind (s : sym) : nat :=
  match s with
  | SElastic => 1 | SVg _ => 2 | SU _ _ => 3 | SSot _ => 3 | SBoolG _ _ => 4
  | SH _ _ | S1 _ _ _ _ _ | S2 _ _ _ _ _ _ | SBool _ _ _ _ => 5
  | SPst _ _ => 6 | SSigma => 7 | STau => 7 | SL00 _ _ _ => 8 | SX0 _ => 9 | _ => 10 end.

Lemma NoDup_kinds (ls : list (list sym)) (ks : list nat) :
  Forall2 (fun k l => NoDup l /\ forall a, In a l -> kind a = k) ks ls -> NoDup ks -> NoDup (concat ls).
Proof.
  intros H Hk. apply (NoDup_concat_key (fun s => Some (kind s)) ks); [|assumption].
  eapply Forall2_impl; [|exact H]. cbn. intros k l [H1 H2]. split; [assumption|]. intros a Ha. f_equal. auto.
Qed.

Lemma lam0_NoDup : NoDup (lam0 o pm).
Proof.
  assert (E : lam0 o pm = concat (map (lab0 o pm) [FLam; FLn; FLp])).
  { cbn. rewrite app_nil_r. reflexivity. }
  rewrite E. apply (NoDup_concat_map (fun s => match s with SL00 f _ _ => Some f | _ => None end)).
  - repeat constructor; cbn; intuition discriminate.
  - intros f _. unfold lab0. apply (NoDup_concat_map (fun s => match s with SL00 _ y _ => Some y | _ => None end)).
    + apply seq_NoDup.
    + intros y _. apply NoDup_map_seq. intros ? ? H; injection H; auto.
    + intros y a _ Ha. apply in_map_iff in Ha. destruct Ha as (i & <- & _). reflexivity.
  - intros f a _ Ha. unfold lab0 in Ha. apply in_concat in Ha. destruct Ha as (l & Hl & Ha).
    apply in_map_iff in Hl. destruct Hl as (y & <- & _). apply in_map_iff in Ha. destruct Ha as (i & <- & _). reflexivity.
Qed.

Lemma syms_distinct : NoDup (w (pb P) ++ p_p P).
Proof.
  destruct main_syms as (s & Hw & n & Hs). rewrite Hw, p_syms, Hs.
  set (EL := ellab o). set (US := concat (map (fun c => ulab pm c ++ sotlab o c) (seq 0 (o_N_stages o)))).
  set (W := concat (map (fun fe => w (fo fe)) (concat stages))). set (PS := concat (map (pst pm) (seq 0 (o_N_stages o)))).
  replace (((EL ++ mvg (pm_m pm) ++ US) ++ map (SBoolG 0) (seq 0 n) ++ W) ++ PS ++ [SSigma; STau] ++ lam0 o pm ++ labx0 pm)
    with (concat [EL; mvg (pm_m pm); US; map (SBoolG 0) (seq 0 n); W; PS; [SSigma; STau]; lam0 o pm; labx0 pm]).
  2: { cbn. rewrite app_nil_r, <- !app_assoc. reflexivity. }
  apply (NoDup_kinds _ [1;2;3;4;5;6;7;8;9]).
  2: { repeat constructor; cbn; intuition discriminate. }
  repeat constructor.
  - unfold EL, ellab. destruct (is_elastic _); repeat constructor; intros [].
  - unfold EL, ellab. destruct (is_elastic _); cbn; intuition; subst; reflexivity.
  - apply NoDup_map_seq. intros ? ? H; injection H; auto.
  - intros a Ha. apply in_map_iff in Ha. destruct Ha as (i & <- & _). reflexivity.
  - apply (NoDup_concat_map (fun s => match s with SU c _ => Some c | SSot c => Some c | _ => None end)).
    + apply seq_NoDup.
    + intros c _. apply NoDup_app.
      * apply NoDup_map_seq. intros ? ? H; injection H; auto.
      * unfold sotlab. destruct (o_sot o); repeat constructor; intros [].
      * intros x Hx Hx'. apply in_map_iff in Hx. destruct Hx as (i & <- & _). unfold sotlab in Hx'.
        destruct (o_sot o); cbn in Hx'; intuition discriminate.
    + intros c a _ Ha. apply in_app_iff in Ha. destruct Ha as [Ha|Ha].
      * apply in_map_iff in Ha. destruct Ha as (i & <- & _). reflexivity.
      * unfold sotlab in Ha. destruct (o_sot o); cbn in Ha; intuition; subst; reflexivity.
  - intros a Ha. apply in_concat in Ha. destruct Ha as (l & Hl & Ha). apply in_map_iff in Hl. destruct Hl as (c & <- & _).
    apply in_app_iff in Ha. destruct Ha as [Ha|Ha].
    * apply in_map_iff in Ha. destruct Ha as (i & <- & _). reflexivity.
    * unfold sotlab in Ha. destruct (o_sot o); cbn in Ha; intuition; subst; reflexivity.
  - apply NoDup_map_seq. intros ? ? H; injection H; auto.
  - intros a Ha. apply in_map_iff in Ha. destruct Ha as (i & <- & _). reflexivity.
  - apply elems_w_NoDup.
  - intros a Ha. apply in_concat in Ha. destruct Ha as (l & Hl & Ha). apply in_map_iff in Hl. destruct Hl as (fe & <- & Hfe).
    destruct (elem_w_key fe a Hfe Ha) as (c & e & Hk). destruct a; cbn in *; try discriminate; reflexivity.
  - apply (NoDup_concat_map (fun s => match s with SPst c _ => Some c | _ => None end)).
    + apply seq_NoDup.
    + intros c _. apply NoDup_map_seq. intros ? ? H; injection H; auto.
    + intros c a _ Ha. apply in_map_iff in Ha. destruct Ha as (i & <- & _). reflexivity.
  - intros a Ha. apply in_concat in Ha. destruct Ha as (l & Hl & Ha). apply in_map_iff in Hl. destruct Hl as (c & <- & _).
    apply in_map_iff in Ha. destruct Ha as (i & <- & _). reflexivity.
  - cbn. intuition discriminate.
  - intros [].
  - cbn. intuition; subst; reflexivity.
  - apply lam0_NoDup.
  - intros a Ha. unfold lam0 in Ha. rewrite !in_app_iff in Ha.
    assert (G : forall f, In a (lab0 o pm f) -> kind a = 8).
    { intros f H. unfold lab0 in H. apply in_concat in H. destruct H as (l & Hl & H).
      apply in_map_iff in Hl. destruct Hl as (y & <- & _). apply in_map_iff in H. destruct H as (i & <- & _). reflexivity. }
    destruct Ha as [H|[H|H]]; eapply G; eassumption.
  - apply NoDup_map_seq. intros ? ? H; injection H; auto.
  - intros a Ha. apply in_map_iff in Ha. destruct Ha as (i & <- & _). reflexivity.
Qed.

(* ---- number of variables ---- *)
Lemma sumn_const n k : sumn (repeat k n) = n * k.
Proof. induction n as [|n IH]; cbn; [reflexivity|]. rewrite IH. reflexivity. Qed.
Lemma sumn_map_const {A} (l : list A) k : sumn (map (fun _ => k) l) = length l * k.
Proof. induction l as [|a l IH]; cbn; [reflexivity|]. rewrite IH. reflexivity. Qed.

Definition elem_size (nfe e : nat) : nat :=
  (if o_use_fesd o then 1 else 0) + sumn (map (fun f => n1 o t f * sz1 o pm f) fams1) +
  sumn (map (fun f => n2 o t nfe e f * sumn (map (fsz o pm f) (seq 0 (pm_nsys pm)))) fams2).

Lemma elem_count c e nfe fe : fe_ok o t pm oc c e nfe fe ->
  length (w (fo fe)) = elem_size nfe e + length (concat (ind_bool (fo fe))).
Proof.
  intros Hok. rewrite <- (Permutation_length (elem_syms_perm _ _ _ _ Hok)).
  unfold elem_syms, elem_size. rewrite !app_length.
  assert (E0 : length (if o_use_fesd o then [SH c e] else []) = if o_use_fesd o then 1 else 0) by (destruct (o_use_fesd o); reflexivity).
  assert (E1 : length (concat (map (fun f => concat (map (lab1 o pm c e f) (seq 0 (n1 o t f)))) fams1)) =
     sumn (map (fun f => n1 o t f * sz1 o pm f) fams1)).
  { rewrite length_concat_map. f_equal. apply map_ext. intros f. rewrite length_concat_map.
    erewrite map_ext; [|intros j; unfold lab1; rewrite map_length, seq_length; reflexivity].
    rewrite sumn_map_const, seq_length. reflexivity. }
  assert (E2 : length (concat (map (fun f => concat (map (lab2 o pm c e f) (seq 0 (n2 o t nfe e f)))) fams2)) =
     sumn (map (fun f => n2 o t nfe e f * sumn (map (fsz o pm f) (seq 0 (pm_nsys pm)))) fams2)).
  { rewrite length_concat_map. f_equal. apply map_ext. intros f. rewrite length_concat_map.
    erewrite map_ext; [|intros j; unfold lab2; rewrite length_concat_map;
       erewrite map_ext; [|intros y; unfold lab2s; rewrite map_length, seq_length; reflexivity]; reflexivity].
    rewrite sumn_map_const, seq_length. reflexivity. }
  assert (E3 : length (concat (bool_labs c e fe)) = length (concat (ind_bool (fo fe)))).
  { unfold bool_labs. rewrite length_concat_map, length_concat. f_equal.
    apply nth_ext with (d := 0) (d' := 0); rewrite !map_length, !seq_length; [reflexivity|].
    intros k Hk.
    rewrite (nth_indep _ 0 ((fun a => length (map (SBool c e a) (seq 0 (length (nth a (ind_bool (fo fe)) []))))) 0)) by (rewrite map_length, seq_length; assumption).
    rewrite (map_nth (fun a => length (map (SBool c e a) (seq 0 (length (nth a (ind_bool (fo fe)) []))))) (seq 0 (length (ind_bool (fo fe)))) 0 k).
    rewrite seq_nth by assumption. cbn. rewrite map_length, seq_length.
    change 0 with (length (@nil nat)). rewrite map_nth. reflexivity. }
  rewrite E0, E1, E2, E3. lia.
Qed.

Definition sum_elems (h : nat -> nat -> nat -> nat) : nat :=
  sumn (map (fun c => sumn (map (h c (nth c (o_Nfe_list o) 0)) (seq 0 (nth c (o_Nfe_list o) 0)))) (seq 0 (o_N_stages o))).

Lemma count_elems :
  length (concat (map (fun fe => w (fo fe)) (concat stages))) =
  sum_elems (fun c nfe e => elem_size nfe e) + length (flat3 (p_ind_bool P)).
Proof.
  assert (Eb : length (flat3 (p_ind_bool P)) = sumn (map (fun fe => length (concat (ind_bool (fo fe)))) (concat stages))).
  { destruct (bo_rest _ _ _ _ _ _ _ _ B) as (P0' & f2 & cvs & xT & gT & fT1 & f3 & f6 & Pc & _ & _ & _ & _ & _ & _ & _ & _ & _ & _ & _ & H6 & _ & EPc & Hcl & E1 & E2 & Ex & Eb & Eh).
    rewrite (cl_b _ _ _ Hcl), Eb. cbn [app]. rewrite flat3_zip.
    generalize (length (w (pb Pc))). induction (concat stages) as [|fe l IH]; intros n; cbn; [reflexivity|].
    rewrite app_length. rewrite concat_incr1, map_length. f_equal. apply IH. }
  rewrite Eb, length_concat_map.
  assert (Hc : map (fun fe => length (w (fo fe))) (concat stages) =
     map (fun fe => elem_size (nth (fe_ctrl fe) (o_Nfe_list o) 0) (fe_idx fe) + length (concat (ind_bool (fo fe)))) (concat stages)).
  { apply map_ext_in. intros fe Hin. destruct (elems_ok _ _ _ _ _ _ _ _ B fe Hin) as (c & e & nfe & Hfe & _ & Hok).
    rewrite (elem_count _ _ _ _ Hok), (ok_ctrl _ _ _ _ _ _ _ _ Hok), (ok_idx _ _ _ _ _ _ _ _ Hok).
    destruct Hfe as (_ & Hn & _). rewrite (nth_error_nth _ _ 0 Hn). reflexivity. }
  rewrite Hc.
  assert (Hs : forall (a b : felem -> nat) l, sumn (map (fun fe => a fe + b fe) l) = sumn (map a l) + sumn (map b l)).
  { intros a b. induction l as [|x l IH]; cbn; [reflexivity|]. rewrite IH. lia. }
  rewrite Hs. f_equal.
  unfold sum_elems. clear Hc Eb Hs.
  assert (G : forall sts c0, (forall c st, nth_error sts c = Some st ->
       nth (c0 + c) (o_Nfe_list o) 0 = length st /\
       forall e fe, nth_error st e = Some fe -> fe_ctrl fe = c0 + c /\ fe_idx fe = e) ->
     sumn (map (fun fe => elem_size (nth (fe_ctrl fe) (o_Nfe_list o) 0) (fe_idx fe)) (concat sts)) =
     sumn (map (fun c => sumn (map (elem_size (nth c (o_Nfe_list o) 0)) (seq 0 (nth c (o_Nfe_list o) 0)))) (seq c0 (length sts)))).
  { induction sts as [|st sts IH]; intros c0 H; cbn; [reflexivity|].
    rewrite map_app, sumn_app. f_equal.
    - destruct (H 0 st eq_refl) as [Hl He]. rewrite Nat.add_0_r in Hl, He. rewrite Hl. f_equal.
      apply nth_ext with (d := 0) (d' := 0); rewrite !map_length; [rewrite seq_length; reflexivity|].
      intros k Hk. destruct (nth_error_lt st k Hk) as [fe Hfe]. destruct (He k fe Hfe) as [E1 E2].
      rewrite (nth_error_nth _ _ 0 (map_nth_error (fun fe => elem_size (nth (fe_ctrl fe) (o_Nfe_list o) 0) (fe_idx fe)) k st Hfe)).
      assert (Hq : nth_error (seq 0 (length st)) k = Some k) by (rewrite nth_error_seq by assumption; reflexivity).
      rewrite (nth_error_nth _ _ 0 (map_nth_error (elem_size (length st)) k _ Hq)).
      rewrite E1, E2, Hl. reflexivity.
    - apply IH. intros c st' Hc. destruct (H (S c) st' Hc) as [Hl He]. replace (S c0 + c) with (c0 + S c) by lia.
      split; [assumption|]. exact He. }
  rewrite (G stages 0); [rewrite (stages_length _ _ _ _ _ _ _ _ B); reflexivity|].
  intros c st Hst. cbn.
  assert (Hlt : c < o_N_stages o).
  { rewrite <- (stages_length _ _ _ _ _ _ _ _ B). eapply nth_error_Some_lt; eassumption. }
  destruct (get_stage _ _ _ _ _ _ _ _ B c Hlt) as (P0 & nfe & starts & ends & qq & q & pp' & p' & _ & _ & Hn & _ & Hen & Hle & _).
  assert (ends = st) by congruence. subst ends. split; [rewrite (nth_error_nth _ _ 0 Hn); congruence|].
  intros e fe He. destruct (get_fe_ok _ _ _ _ _ _ _ _ B c e nfe st fe Hst He Hn) as [Hok _].
  split; [exact (ok_ctrl _ _ _ _ _ _ _ _ Hok)|exact (ok_idx _ _ _ _ _ _ _ _ Hok)].
Qed.
End Idx.
