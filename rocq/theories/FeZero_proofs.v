(* FeZero_proofs.v -- FiniteElementZero *)
From Coq Require Import Reals Qreals Lra.
From Verif Require Import Base Lib Sx Sx_proofs Utils Tableau Opts Model Ocp Problem Fo_proofs Fe_proofs
  FeMake_proofs FeSel_proofs.

Definition lab0 (o : opts) (pm : pmodel) (f : fam2) : list sym :=
  concat (map (fun s => map (SL00 f s) (seq 0 (fsz o pm f s))) (seq 0 (pm_nsys pm))).
Definition lam0 (o : opts) (pm : pmodel) : list sym :=
  lab0 o pm FLam ++ lab0 o pm FLn ++ lab0 o pm FLp.
Definition labx0 (pm : pmodel) : list sym := map SX0 (seq 0 (m_nx (pm_m pm))).

Definition lam_fams (o : opts) : list fam2 :=
  match o_pss o with Stewart => [FLam] | Step => [FLn; FLp] end.

Lemma fe0_decls_spec o pm ds :
  fe0_decls o pm = Ok ds ->
  map dc_slot ds = Slot1 FX 0 ::
     concat (map (fun s => map (fun f => Slot2 f 0 s) (lam_fams o)) (seq 0 (pm_nsys pm))) /\
  (forall d, In d ds -> decl_is d (Slot1 FX 0) (labx0 pm) (map Fin (m_x0 (pm_m pm))) (map Fin (m_x0 (pm_m pm))) \/
     exists f s, In f (lam_fams o) /\ s < pm_nsys pm /\
       fam_size pm f s = Ok (fam_len pm f s) /\
       decl_is d (Slot2 f 0 s) (map (SL00 f s) (seq 0 (fam_len pm f s)))
          (ninfs (fam_len pm f s)) (pinfs (fam_len pm f s))).
Proof.
  unfold fe0_decls, lam_fams. intros H. apply bind_ok in H; destruct H as (ls & Hls & H). injection H as <-.
  destruct (o_pss o); split.
  - cbn [map dc_slot]. f_equal. apply mapM_Forall2 in Hls.
    induction Hls as [|s l ss ls Hs H IH]; cbn; [reflexivity|].
    inv_ok; subst l. cbn. f_equal. exact IH.
  - intros d [<-|Hd]; [left; unfold decl_is; cbn; auto|]. right.
    apply in_concat in Hd. destruct Hd as (l & Hl & Hd).
    destruct (mapM_In_inv _ _ _ _ Hls Hl) as (s & Hs & Hf). apply in_seq in Hs.
    apply bind_ok in Hf; destruct Hf as (n & Hn & Hf). injection Hf as <-.
    assert (En : n = fam_len pm FLam s) by (unfold fam_len; rewrite Hn; reflexivity). subst n.
    destruct Hd as [<-|[]]. exists FLam, s. repeat split; auto; [left; reflexivity|lia].
  - cbn [map dc_slot]. f_equal. apply mapM_Forall2 in Hls.
    induction Hls as [|s l ss ls Hs H IH]; cbn; [reflexivity|].
    inv_ok; subst l. cbn. do 2 f_equal. exact IH.
  - intros d [<-|Hd]; [left; unfold decl_is; cbn; auto|]. right.
    apply in_concat in Hd. destruct Hd as (l & Hl & Hd).
    destruct (mapM_In_inv _ _ _ _ Hls Hl) as (s & Hs & Hf). apply in_seq in Hs.
    apply bind_ok in Hf; destruct Hf as (n & Hn & Hf). injection Hf as <-.
    assert (En : n = fam_len pm FLn s) by (unfold fam_len; rewrite Hn; reflexivity). subst n.
    destruct Hd as [<-|[<-|[]]]; [exists FLn, s|exists FLp, s]; repeat split; auto; cbn; auto; lia.
Qed.

Lemma fe0_slots_NoDup o nsys :
  NoDup (Slot1 FX 0 :: concat (map (fun s => map (fun f => Slot2 f 0 s) (lam_fams o)) (seq 0 nsys))).
Proof.
  constructor.
  - rewrite in_concat. intros (l & Hl & Hs). apply in_map_iff in Hl. destruct Hl as (s & <- & _).
    apply in_map_iff in Hs. destruct Hs as (f & Hf & _). discriminate.
  - apply NoDup_concat_key with (key := fun sl => match sl with Slot2 _ _ s => Some s | _ => None end)
      (ks := seq 0 nsys); [|apply seq_NoDup].
    apply Forall2_map_r, Forall2_refl_in. intros s _. split.
    + unfold lam_fams; destruct (o_pss o); cbn; repeat constructor; cbn; intuition congruence.
    + intros a Ha. apply in_map_iff in Ha. destruct Ha as (f & <- & _). reflexivity.
Qed.

Record fe0_ok (o : opts) (pm : pmodel) (fe : felem) : Prop := {
  z_x : ind1 fe FX = [seq 0 (m_nx (pm_m pm))] /\ length (m_x0 (pm_m pm)) = m_nx (pm_m pm) /\
        exists idx, nth_error (ind1 fe FX) 0 = Some idx /\ sel (w (fo fe)) idx = Ok (labx0 pm);
  z_xl : x_last fe = Ok (vars (labx0 pm));
  z_fam : forall f, In f [FLam; FLn; FLp] -> exists row, ind2 fe f = [row] /\
            sel (w (fo fe)) (concat row) = Ok (lab0 o pm f);
  z_lam : Lambda fe Last = Ok (vars (lam0 o pm));
  z_all : Lambda_all fe = Ok (lam0 o pm)
}.

Lemma fe_zero_ok o pm fe : fe_zero o pm = Ok fe -> fe0_ok o pm fe.
Proof.
  unfold fe_zero. intros H. apply bind_ok in H; destruct H as (ds & Hds & H).
  pose proof (fe0_decls_spec _ _ _ Hds) as [Hsl Hc].
  assert (HN : NoDup (map dc_slot ds)) by (rewrite Hsl; apply fe0_slots_NoDup).
  assert (Hhd : exists d ds', ds = d :: ds' /\ dc_slot d = Slot1 FX 0 /\ dc_syms d = labx0 pm /\
      dc_init d = m_x0 (pm_m pm)).
  { unfold fe0_decls in Hds. inv_ok; subst ds. do 2 eexists; split; [reflexivity|]. cbn; auto. }
  destruct Hhd as (dx & ds' & -> & Dx1 & Dx2 & Dx3).
  pose proof H as Hf. apply foldM_add_decl in H. destruct H as [B1 B2 B3 B4 B5 B6 [Sh1 Sh2] B8 B9 _].
  assert (Hw : wf_w (fo (fe0_init pm))) by (repeat split).
  specialize (B9 Hw HN).
  assert (X1 : exists ix, ind1 fe FX = [ix]).
  { specialize (Sh1 FX). cbn in Sh1. destruct (ind1 fe FX) as [|ix [|]]; cbn in Sh1; try discriminate. eauto. }
  destruct X1 as [ix Hix].
  assert (X2 : ix = seq 0 (m_nx (pm_m pm)) /\ sel (w (fo fe)) ix = Ok (labx0 pm)).
  { destruct (B9 dx (or_introl eq_refl)) as (idx & I1 & I2 & _). rewrite Dx1 in I1. cbn in I1.
    rewrite Hix in I1. cbn in I1. injection I1 as <-. rewrite Dx2 in I2. split; [|exact I2].
    cbn in Hf. apply bind_ok in Hf. destruct Hf as (fe1 & Hfe1 & Hf).
    apply add_decl_spec in Hfe1. pose proof (ad_slot _ _ _ Hfe1) as As.
    apply foldM_add_decl in Hf. cbn in HN. inversion HN; subst.
    pose proof (dp_other _ _ _ Hf _ H1) as Ao. rewrite As in Ao. rewrite Dx1 in Ao. cbn in Ao.
    rewrite Hix in Ao. cbn in Ao. injection Ao as Ao. rewrite Ao, Dx2. unfold labx0.
    rewrite map_length, seq_length. reflexivity. }
  destruct X2 as [Eix Hselx].
  assert (Hxl : x_last fe = Ok (vars (labx0 pm))).
  { unfold x_last. rewrite Hix. cbn. unfold fe_sel. rewrite Hselx. reflexivity. }
  assert (Hrow : forall f, In f [FLam; FLn; FLp] -> exists row, ind2 fe f = [row] /\
            sel (w (fo fe)) (concat row) = Ok (lab0 o pm f)).
  { intros f Hf0. specialize (Sh2 f).
    assert (E2 : map (@length (list nat)) (ind2 (fe0_init pm) f) = [pm_nsys pm]).
    { destruct Hf0 as [<-|[<-|[<-|[]]]]; cbn; rewrite repeat_length; reflexivity. }
    rewrite E2 in Sh2. destruct (ind2 fe f) as [|row [|]] eqn:Er; cbn in Sh2; try discriminate.
    injection Sh2 as Hlen. exists row; split; [reflexivity|].
    unfold lab0. apply sel_concat. rewrite <- Hlen. apply Forall2_map_r.
    assert (Hs : forall s idx, nth_error row s = Some idx ->
        sel (w (fo fe)) idx = Ok (map (SL00 f s) (seq 0 (fsz o pm f s)))).
    { intros s idx Hs. pose proof (nth_error_Some_lt _ _ _ Hs) as Hlt.
      assert (Hlk : lookup fe (Slot2 f 0 s) = Some idx) by (cbn; rewrite Er; cbn; exact Hs).
      destruct (in_dec slot_eq_dec (Slot2 f 0 s) (map dc_slot (dx :: ds'))) as [Hin|Hin].
      - apply in_map_iff in Hin. destruct Hin as (d & Hd1 & Hd2).
        destruct (B9 d Hd2) as (idx' & I1 & I2 & _). rewrite Hd1, Hlk in I1. injection I1 as <-.
        destruct (Hc d Hd2) as [(E & _)|(f' & s' & Hf' & Hs' & _ & (E & Es & _))]; [congruence|].
        rewrite Hd1 in E. injection E as <- <-. rewrite I2, Es. unfold fsz.
        replace (fam_on o f) with true; [reflexivity|].
        unfold fam_on, lam_fams in *. destruct (o_pss o); cbn in Hf'; intuition (subst; auto).
      - pose proof Hin as Hin'. rewrite Hsl in Hin'. rewrite (B8 _ Hin) in Hlk.
        assert (Hoff : fam_on o f = false).
        { destruct (fam_on o f) eqn:Eo; [|reflexivity]. exfalso. apply Hin'. right.
          apply in_concat. exists (map (fun f => Slot2 f 0 s) (lam_fams o)). split.
          - apply in_map_iff. exists s; split; [reflexivity|apply in_seq; lia].
          - apply in_map_iff. exists f; split; [reflexivity|].
            unfold fam_on, lam_fams in *; destruct (o_pss o), f; cbn in *; try discriminate; auto;
            intuition congruence. }
        unfold fsz; rewrite Hoff. cbn.
        assert (idx = []).
        { destruct Hf0 as [<-|[<-|[<-|[]]]]; cbn in Hlk;
          rewrite nth_error_repeat' in Hlk by lia; congruence. }
        subst; reflexivity. }
    clear - Hs.
    assert (H : forall l a, (forall s idx, nth_error l s = Some idx ->
        sel (w (fo fe)) idx = Ok (map (SL00 f (a + s)) (seq 0 (fsz o pm f (a + s))))) ->
       Forall2 (fun idx s => sel (w (fo fe)) idx = Ok (map (SL00 f s) (seq 0 (fsz o pm f s)))) l (seq a (length l))).
    { induction l as [|x l IH]; intros a Ha; cbn; constructor.
      - specialize (Ha 0 x eq_refl). rewrite Nat.add_0_r in Ha. exact Ha.
      - apply IH. intros s idx Hx. specialize (Ha (S s) idx Hx). rewrite Nat.add_succ_r in Ha. exact Ha. }
    apply H. exact Hs. }
  assert (HL : forall f, In f [FLam; FLn; FLp] -> fam_sel fe f Last = Ok (vars (lab0 o pm f)) /\
             sel (w (fo fe)) (concat (concat (ind2 fe f))) = Ok (lab0 o pm f)).
  { intros f Hf0. destruct (Hrow f Hf0) as (row & Er & Hs). unfold fam_sel. rewrite Er. cbn.
    unfold fe_sel. rewrite Hs. rewrite app_nil_r. auto. }
  split.
  - split; [congruence|]. split.
    + destruct (B5 dx (or_introl eq_refl)) as (_ & _ & Hi). rewrite Dx3, Dx2 in Hi. unfold labx0 in Hi.
      rewrite map_length, seq_length in Hi. exact Hi.
    + exists ix. rewrite Hix. auto.
  - exact Hxl.
  - exact Hrow.
  - unfold Lambda. rewrite (proj1 (HL FLam (or_introl eq_refl))).
    rewrite (proj1 (HL FLn (or_intror (or_introl eq_refl)))).
    rewrite (proj1 (HL FLp (or_intror (or_intror (or_introl eq_refl))))). cbn [bind].
    unfold lam0. rewrite !vars_app. reflexivity.
  - unfold Lambda_all. rewrite (proj2 (HL FLam (or_introl eq_refl))).
    rewrite (proj2 (HL FLn (or_intror (or_introl eq_refl)))).
    rewrite (proj2 (HL FLp (or_intror (or_intror (or_introl eq_refl))))). reflexivity.
Qed.
