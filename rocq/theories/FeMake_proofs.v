(* FeMake_proofs.v -- what FiniteElement.__init__ creates *)
From Coq Require Import Reals Qreals Lra.
From Verif Require Import Base Lib Sx Sx_proofs Utils Tableau Opts Model Ocp Problem Fo_proofs Fe_proofs.

Definition fam_on (o : opts) (f : fam2) : bool :=
  match o_pss o, f with
  | Stewart, (FTheta | FLam | FMu) => true
  | Step, (FAlpha | FLn | FLp) => true
  | _, _ => false
  end.
Definition fam_len (pm : pmodel) (f : fam2) (sys : nat) : nat :=
  match fam_size pm f sys with Ok n => n | Err _ => 0 end.
Definition fsz (o : opts) (pm : pmodel) (f : fam2) (sys : nat) : nat :=
  if fam_on o f then fam_len pm f sys else 0.

Definition n1 (o : opts) (t : tab) (f : fam1) : nat :=
  match f with FX => nx_slots o t | _ => o_ns o end.
Definition sz1 (o : opts) (pm : pmodel) (f : fam1) : nat :=
  match f with FX => m_nx (pm_m pm) | FV => if has_v o then m_nx (pm_m pm) else 0
             | FZ => m_nz (pm_m pm) end.
Definition lb1 (o : opts) (pm : pmodel) (oc : pocp) (f : fam1) : list ext :=
  match f with FX => po_lbx oc | FV => ninfs (sz1 o pm FV) | FZ => pm_lbz pm end.
Definition ub1 (o : opts) (pm : pmodel) (oc : pocp) (f : fam1) : list ext :=
  match f with FX => po_ubx oc | FV => pinfs (sz1 o pm FV) | FZ => pm_ubz pm end.
Definition nbd (o : opts) (t : tab) (nfe e : nat) : nat :=
  o_ns o + (if create_rbp o t nfe e then 1 else 0).
Definition n2 (o : opts) (t : tab) (nfe e : nat) (f : fam2) : nat :=
  match f with FTheta | FAlpha => o_ns o | _ => nbd o t nfe e end.
Definition lb2 (o : opts) (f : fam2) (n : nat) : list ext :=
  match f with FMu => ninfs n | _ => repeat (dual_floor o) n end.
Definition ub2 (f : fam2) (n : nat) : list ext :=
  match f with FAlpha => repeat (Fin 1) n | _ => pinfs n end.

Definition filled (fe : felem) (sl : slot) (s : list sym) (l u : list ext) : Prop :=
  exists idx, lookup fe sl = Some idx /\ sel (w (fo fe)) idx = Ok s /\
    sel (lbw (fo fe)) idx = Ok l /\ sel (ubw (fo fe)) idx = Ok u.
Definition filled0 (fe : felem) (sl : slot) (i : list Q) : Prop :=
  exists idx, lookup fe sl = Some idx /\ sel (w0 (fo fe)) idx = Ok i.

Record fe_ok (o : opts) (t : tab) (pm : pmodel) (oc : pocp) (c e nfe : nat) (fe : felem) : Prop := {
  ok_wf : wf_f (fo fe);
  ok_ctrl : fe_ctrl fe = c;
  ok_idx : fe_idx fe = e;
  ok_h : fe_h fe = if o_use_fesd o then EVar (SH c e) else ECst (h_nominal o nfe);
  ok_len1 : forall f, length (ind1 fe f) = n1 o t f;
  ok_len2 : forall f, map (@length _) (ind2 fe f) = repeat (pm_nsys pm) (n2 o t nfe e f);
  ok_1 : forall f j, j < n1 o t f ->
    filled fe (Slot1 f j) (map (S1 f c e j) (seq 0 (sz1 o pm f))) (lb1 o pm oc f) (ub1 o pm oc f);
  ok_2 : forall f j s, j < n2 o t nfe e f -> s < pm_nsys pm ->
    filled fe (Slot2 f j s) (map (S2 f c e j s) (seq 0 (fsz o pm f s)))
      (lb2 o f (fsz o pm f s)) (ub2 f (fsz o pm f s));
  ok_hidx : if o_use_fesd o
    then filled fe SlotH [SH c e] [h_lb (o_gamma_h o) (h_nominal o nfe)] [h_ub (o_gamma_h o) (h_nominal o nfe)]
    else ind_h fe = [];
  ok_perm : Permutation (all_idx fe) (seq 0 (length (w (fo fe))));
  ok_bool : bool_ok (SBool c e) (fo fe)
}.

(* ---- slots of the declarations ---- *)
Definition fam_slots (nsys st : nat) (fam : fam2) : list slot := map (Slot2 fam st) (seq 0 nsys).
Definition stage_slots (o : opts) (nsys ii : nat) : list slot :=
  (if has_v o then [Slot1 FV ii] else []) ++ (if has_xstage o then [Slot1 FX ii] else [])
  ++ concat (map (fam_slots nsys ii) (stage_fams o)) ++ [Slot1 FZ ii].
Definition fe_slots (o : opts) (t : tab) (nsys nfe e : nat) : list slot :=
  (if o_use_fesd o then [SlotH] else [])
  ++ concat (map (stage_slots o nsys) (seq 0 (o_ns o)))
  ++ (if create_rbp o t nfe e then concat (map (fam_slots nsys (o_ns o)) (boundary_fams o)) else [])
  ++ (if has_xend o t then [Slot1 FX (nx_slots o t - 1)] else []).

Lemma fam_decl_spec o pm c e st fam sys d :
  fam_decl o pm c e st fam sys = Ok d ->
  fam_size pm fam sys = Ok (fam_len pm fam sys) /\
  dc_slot d = Slot2 fam st sys /\
  dc_syms d = map (S2 fam c e st sys) (seq 0 (fam_len pm fam sys)) /\
  dc_lb d = lb2 o fam (fam_len pm fam sys) /\ dc_ub d = ub2 fam (fam_len pm fam sys) /\
  length (dc_init d) = fam_len pm fam sys.
Proof.
  unfold fam_decl, fam_len. intros H. apply bind_ok in H; destruct H as (n & Hn & H).
  rewrite Hn. destruct fam; inv_ok; subst d; cbn; rewrite ?repeat_length; auto 10.
Qed.

Lemma fam_decls_slots o pm c e st fam ds :
  fam_decls o pm c e st fam = Ok ds -> map dc_slot ds = fam_slots (pm_nsys pm) st fam.
Proof.
  unfold fam_decls, fam_slots. intros H. apply mapM_Forall2 in H.
  induction H as [|s d l ds Hd H IH]; cbn; [reflexivity|].
  apply fam_decl_spec in Hd. destruct Hd as (_ & -> & _). congruence.
Qed.

Lemma map_concat_slots {A} (f : A -> res (list decl)) (g : A -> list slot) l ls :
  (forall a ds, f a = Ok ds -> map dc_slot ds = g a) ->
  mapM f l = Ok ls -> map dc_slot (concat ls) = concat (map g l).
Proof.
  intros Hf H. apply mapM_Forall2 in H. induction H as [|a ds l ls Ha H IH]; cbn; [reflexivity|].
  rewrite map_app, IH. f_equal. auto.
Qed.

Lemma stage_decls_slots o pm oc c e ii ds :
  stage_decls o pm oc c e ii = Ok ds -> map dc_slot ds = stage_slots o (pm_nsys pm) ii.
Proof.
  unfold stage_decls, stage_slots. intros H. apply bind_ok in H; destruct H as (da & Hda & H).
  injection H as <-. rewrite !map_app.
  rewrite (map_concat_slots _ _ _ _ (fam_decls_slots o pm c e ii) Hda).
  destruct (has_v o), (has_xstage o); reflexivity.
Qed.

Lemma fe_decls_slots o t pm oc c e nfe ds :
  fe_decls o t pm oc c e nfe = Ok ds -> map dc_slot ds = fe_slots o t (pm_nsys pm) nfe e.
Proof.
  unfold fe_decls, fe_slots. intros H. apply bind_ok in H; destruct H as (d1 & Hd1 & H).
  apply bind_ok in H; destruct H as (db & Hdb & H). injection H as <-.
  rewrite !map_app. rewrite (map_concat_slots _ _ _ _ (stage_decls_slots o pm oc c e) Hd1).
  f_equal; [destruct (o_use_fesd o); reflexivity|]. f_equal. f_equal.
  - destruct (create_rbp o t nfe e).
    + apply (map_concat_slots _ _ _ _ (fam_decls_slots o pm c e (o_ns o)) Hdb).
    + injection Hdb as <-. reflexivity.
  - destruct (has_xend o t); reflexivity.
Qed.

Definition slot_key (sl : slot) : option nat :=
  match sl with SlotH => None | Slot1 _ s => Some s | Slot2 _ s _ => Some s end.
Definition slot_fam2 (sl : slot) : option fam2 :=
  match sl with Slot2 f _ _ => Some f | _ => None end.

Lemma fam_slots_in nsys st fam sl :
  In sl (fam_slots nsys st fam) <-> exists s, s < nsys /\ sl = Slot2 fam st s.
Proof.
  unfold fam_slots. rewrite in_map_iff. split.
  - intros (s & <- & Hs). apply in_seq in Hs. exists s; split; [lia|reflexivity].
  - intros (s & Hs & ->). exists s; split; [reflexivity|apply in_seq; lia].
Qed.

Lemma fam_slots_NoDup nsys st fam : NoDup (fam_slots nsys st fam).
Proof.
  unfold fam_slots. apply FinFun.Injective_map_NoDup; [|apply seq_NoDup].
  intros a b H; congruence.
Qed.

Lemma fams_slots_in nsys st fams sl :
  In sl (concat (map (fam_slots nsys st) fams)) <->
  exists f s, In f fams /\ s < nsys /\ sl = Slot2 f st s.
Proof.
  rewrite in_concat. split.
  - intros (l & Hl & Hsl). apply in_map_iff in Hl. destruct Hl as (f & <- & Hf).
    apply fam_slots_in in Hsl. destruct Hsl as (s & Hs & ->). eauto 6.
  - intros (f & s & Hf & Hs & ->). exists (fam_slots nsys st f). split; [apply in_map; assumption|].
    apply fam_slots_in; eauto.
Qed.

Lemma fams_slots_NoDup nsys st fams : NoDup fams -> NoDup (concat (map (fam_slots nsys st) fams)).
Proof.
  intros HN. apply NoDup_concat_key with (key := slot_fam2) (ks := fams); [|assumption].
  apply Forall2_map_r. apply Forall2_refl_in. intros f _. split; [apply fam_slots_NoDup|].
  intros a Ha; apply fam_slots_in in Ha; destruct Ha as (s & _ & ->); reflexivity.
Qed.

Lemma stage_fams_NoDup o : NoDup (stage_fams o).
Proof. unfold stage_fams; destruct (o_pss o); repeat constructor; cbn; intuition congruence. Qed.
Lemma boundary_fams_NoDup o : NoDup (boundary_fams o).
Proof. unfold boundary_fams; destruct (o_pss o); repeat constructor; cbn; intuition congruence. Qed.

Lemma stage_slots_in o nsys ii sl :
  In sl (stage_slots o nsys ii) <->
  (has_v o = true /\ sl = Slot1 FV ii) \/ (has_xstage o = true /\ sl = Slot1 FX ii) \/
  (exists f s, In f (stage_fams o) /\ s < nsys /\ sl = Slot2 f ii s) \/ sl = Slot1 FZ ii.
Proof.
  unfold stage_slots. rewrite !in_app_iff, fams_slots_in. cbn [In].
  destruct (has_v o), (has_xstage o); cbn [In]; intuition congruence.
Qed.

Lemma stage_slots_NoDup o nsys ii : NoDup (stage_slots o nsys ii).
Proof.
  unfold stage_slots.
  apply NoDup_app; [destruct (has_v o); repeat constructor; auto| |].
  - apply NoDup_app; [destruct (has_xstage o); repeat constructor; auto| |].
    + apply NoDup_app; [apply fams_slots_NoDup, stage_fams_NoDup|repeat constructor; auto|].
      intros x Hx [<-|[]]. apply fams_slots_in in Hx. destruct Hx as (f & s & _ & _ & Hx); discriminate.
    + intros x Hx. destruct (has_xstage o); [|destruct Hx]. destruct Hx as [<-|[]].
      rewrite in_app_iff, fams_slots_in. intros [(f & s & _ & _ & H)|[H|[]]]; discriminate.
  - intros x Hx. destruct (has_v o); [|destruct Hx]. destruct Hx as [<-|[]].
    rewrite !in_app_iff, fams_slots_in. intros [H|[(f & s & _ & _ & H)|[H|[]]]]; try discriminate.
    destruct (has_xstage o); [|destruct H]. destruct H as [H|[]]; discriminate.
Qed.

Lemma fe_slots_in o t nsys nfe e sl :
  In sl (fe_slots o t nsys nfe e) <->
  (o_use_fesd o = true /\ sl = SlotH) \/
  (exists ii, ii < o_ns o /\ In sl (stage_slots o nsys ii)) \/
  (create_rbp o t nfe e = true /\ exists f s, In f (boundary_fams o) /\ s < nsys /\ sl = Slot2 f (o_ns o) s) \/
  (has_xend o t = true /\ sl = Slot1 FX (nx_slots o t - 1)).
Proof.
  unfold fe_slots. rewrite !in_app_iff.
  assert (A : In sl (if o_use_fesd o then [SlotH] else []) <-> o_use_fesd o = true /\ sl = SlotH).
  { destruct (o_use_fesd o); cbn; intuition congruence. }
  assert (B : In sl (concat (map (stage_slots o nsys) (seq 0 (o_ns o)))) <->
              exists ii, ii < o_ns o /\ In sl (stage_slots o nsys ii)).
  { rewrite in_concat. split.
    - intros (l & Hl & Hs). apply in_map_iff in Hl. destruct Hl as (ii & <- & Hi). apply in_seq in Hi.
      exists ii; split; [lia|assumption].
    - intros (ii & Hi & Hs). exists (stage_slots o nsys ii). split; [apply in_map, in_seq; lia|assumption]. }
  assert (C : In sl (if create_rbp o t nfe e then concat (map (fam_slots nsys (o_ns o)) (boundary_fams o)) else []) <->
     create_rbp o t nfe e = true /\ exists f s, In f (boundary_fams o) /\ s < nsys /\ sl = Slot2 f (o_ns o) s).
  { destruct (create_rbp o t nfe e); [rewrite fams_slots_in; tauto|cbn; intuition congruence]. }
  assert (D : In sl (if has_xend o t then [Slot1 FX (nx_slots o t - 1)] else []) <->
              has_xend o t = true /\ sl = Slot1 FX (nx_slots o t - 1)).
  { destruct (has_xend o t); cbn; intuition congruence. }
  rewrite A, B, C, D. tauto.
Qed.

Lemma fe_slots_NoDup o t nsys nfe e : NoDup (fe_slots o t nsys nfe e).
Proof.
  unfold fe_slots.
  assert (B : forall sl, In sl (concat (map (stage_slots o nsys) (seq 0 (o_ns o)))) ->
              exists ii, ii < o_ns o /\ In sl (stage_slots o nsys ii)).
  { intros sl; rewrite in_concat. intros (l & Hl & Hs). apply in_map_iff in Hl.
    destruct Hl as (ii & <- & Hi). apply in_seq in Hi. exists ii; split; [lia|assumption]. }
  apply NoDup_app; [destruct (o_use_fesd o); repeat constructor; auto| |].
  - apply NoDup_app.
    + apply NoDup_concat_key with (key := slot_key) (ks := seq 0 (o_ns o)); [|apply seq_NoDup].
      apply Forall2_map_r, Forall2_refl_in. intros ii _. split; [apply stage_slots_NoDup|].
      intros a Ha. apply stage_slots_in in Ha.
      destruct Ha as [[_ ->]|[[_ ->]|[(f & s & _ & _ & ->)| ->]]]; reflexivity.
    + apply NoDup_app.
      * destruct (create_rbp o t nfe e); [apply fams_slots_NoDup, boundary_fams_NoDup|constructor].
      * destruct (has_xend o t); repeat constructor; auto.
      * intros x Hx Hy. destruct (has_xend o t); [|destruct Hy]. destruct Hy as [<-|[]].
        destruct (create_rbp o t nfe e); [|destruct Hx]. apply fams_slots_in in Hx.
        destruct Hx as (f & s & _ & _ & Hx); discriminate.
    + intros x Hx Hy. apply B in Hx. destruct Hx as (ii & Hii & Hx). apply stage_slots_in in Hx.
      apply in_app_or in Hy. destruct Hy as [Hy|Hy].
      * destruct (create_rbp o t nfe e); [|destruct Hy]. apply fams_slots_in in Hy.
        destruct Hy as (f & s & _ & _ & ->).
        destruct Hx as [[_ H]|[[_ H]|[(f' & s' & _ & _ & H)|H]]]; try discriminate.
        injection H; intros; lia.
      * destruct (has_xend o t) eqn:Ex; [|destruct Hy]. destruct Hy as [<-|[]].
        destruct Hx as [[_ H]|[[Hs H]|[(f' & s' & _ & _ & H)|H]]]; try discriminate.
        injection H as H. unfold has_xend, has_xstage, nx_slots in *.
        destruct (o_repr o); try discriminate; destruct (t_rbe t); cbn in Ex; try discriminate; lia.
  - intros x Hx. destruct (o_use_fesd o); [|destruct Hx]. destruct Hx as [<-|[]].
    intros Hy. apply in_app_or in Hy. destruct Hy as [Hy|Hy].
    + apply B in Hy. destruct Hy as (ii & _ & Hy). apply stage_slots_in in Hy.
      destruct Hy as [[_ H]|[[_ H]|[(f & s & _ & _ & H)|H]]]; discriminate.
    + apply in_app_or in Hy. destruct Hy as [Hy|Hy].
      * destruct (create_rbp o t nfe e); [|destruct Hy]. apply fams_slots_in in Hy.
        destruct Hy as (f & s & _ & _ & H); discriminate.
      * destruct (has_xend o t); [|destruct Hy]. destruct Hy as [H|[]]; discriminate.
Qed.

(* ---- contents of the declarations ---- *)
Definition decl_is (d : decl) (sl : slot) (s : list sym) (l u : list ext) : Prop :=
  dc_slot d = sl /\ dc_syms d = s /\ dc_lb d = l /\ dc_ub d = u.

Lemma stage_decls_in o pm oc c e ii ds :
  stage_decls o pm oc c e ii = Ok ds ->
  (has_v o = true -> exists d, In d ds /\
     decl_is d (Slot1 FV ii) (map (S1 FV c e ii) (seq 0 (sz1 o pm FV))) (lb1 o pm oc FV) (ub1 o pm oc FV)) /\
  (has_xstage o = true -> exists d, In d ds /\
     decl_is d (Slot1 FX ii) (map (S1 FX c e ii) (seq 0 (sz1 o pm FX))) (lb1 o pm oc FX) (ub1 o pm oc FX)
     /\ dc_init d = m_x0 (pm_m pm)) /\
  (exists d, In d ds /\
     decl_is d (Slot1 FZ ii) (map (S1 FZ c e ii) (seq 0 (sz1 o pm FZ))) (lb1 o pm oc FZ) (ub1 o pm oc FZ)) /\
  (forall f s, In f (stage_fams o) -> s < pm_nsys pm -> exists d, In d ds /\
     decl_is d (Slot2 f ii s) (map (S2 f c e ii s) (seq 0 (fam_len pm f s)))
       (lb2 o f (fam_len pm f s)) (ub2 f (fam_len pm f s))).
Proof.
  unfold stage_decls. intros H. apply bind_ok in H; destruct H as (da & Hda & H). injection H as <-.
  repeat split.
  - intros Hv. rewrite Hv. eexists; split; [apply in_or_app; left; left; reflexivity|].
    unfold decl_is; cbn. unfold sz1; rewrite Hv. auto.
  - intros Hv. rewrite Hv. eexists; split; [apply in_or_app; right; apply in_or_app; left; left; reflexivity|].
    unfold decl_is; cbn. auto.
  - eexists; split; [apply in_or_app; right; apply in_or_app; right; apply in_or_app; right; left; reflexivity|].
    unfold decl_is; cbn. auto.
  - intros f s Hf Hs. destruct (mapM_In _ _ _ _ Hda Hf) as (df & Hdf & Hfd).
    unfold fam_decls in Hfd. assert (Hs' : In s (seq 0 (pm_nsys pm))) by (apply in_seq; lia).
    destruct (mapM_In _ _ _ _ Hfd Hs') as (d & Hd & Hdd).
    exists d; split.
    + apply in_or_app; right; apply in_or_app; right; apply in_or_app; left. apply in_concat; eauto.
    + apply fam_decl_spec in Hdd. unfold decl_is. tauto.
Qed.

Lemma fe_init_lookup1 o t pm c e nfe f j :
  j < n1 o t f -> lookup (fe_init o t pm c e nfe) (Slot1 f j) = Some [].
Proof. intros H; destruct f; cbn in *; apply nth_error_repeat'; assumption. Qed.
Lemma fe_init_lookup2 o t pm c e nfe f j s :
  j < n2 o t nfe e f -> s < pm_nsys pm -> lookup (fe_init o t pm c e nfe) (Slot2 f j s) = Some [].
Proof.
  intros H Hs; destruct f; cbn in *; unfold nbd, empty_rows2 in *; 
  rewrite nth_error_repeat' by assumption; apply nth_error_repeat'; assumption.
Qed.
Lemma fe_init_len1 o t pm c e nfe f : length (ind1 (fe_init o t pm c e nfe) f) = n1 o t f.
Proof. destruct f; cbn; apply repeat_length. Qed.
Lemma map_repeat {A B} (f : A -> B) x n : map f (repeat x n) = repeat (f x) n.
Proof. induction n; cbn; congruence. Qed.
Lemma fe_init_len2 o t pm c e nfe f :
  map (@length _) (ind2 (fe_init o t pm c e nfe) f) = repeat (pm_nsys pm) (n2 o t nfe e f).
Proof. destruct f; cbn; unfold empty_rows2; rewrite map_repeat, repeat_length; reflexivity. Qed.

Lemma concat_repeat_nil {A} n : concat (repeat (@nil A) n) = [].
Proof. induction n; cbn; auto. Qed.
Lemma concat_empty_rows2 {A} n k : concat (concat (@empty_rows2 A n k)) = [].
Proof.
  unfold empty_rows2. induction n; cbn; [reflexivity|]. rewrite concat_app, IHn, concat_repeat_nil. reflexivity.
Qed.
Lemma fe_init_idx o t pm c e nfe : all_idx (fe_init o t pm c e nfe) = [].
Proof.
  unfold all_idx, fams1, fams2, fe_init; cbn [map fo ind1 ind2 ind_h ind_bool fobj_empty concat].
  rewrite !concat_empty_rows2. unfold empty_rows. rewrite !concat_repeat_nil. reflexivity.
Qed.

Lemma fam_on_stage o f : In f (stage_fams o) <-> fam_on o f = true.
Proof. unfold stage_fams, fam_on; destruct (o_pss o), f; cbn; intuition congruence. Qed.
Lemma boundary_fam o f : In f (boundary_fams o) <-> fam_on o f = true /\ f <> FTheta /\ f <> FAlpha.
Proof. unfold boundary_fams, fam_on; destruct (o_pss o), f; cbn; intuition congruence. Qed.

Lemma fe_slots_range o t nsys nfe e sl :
  In sl (fe_slots o t nsys nfe e) ->
  match sl with
  | SlotH => o_use_fesd o = true
  | Slot1 f j => j < n1 o t f /\ (f = FV -> has_v o = true)
  | Slot2 f j s => j < n2 o t nfe e f /\ s < nsys /\ fam_on o f = true
  end.
Proof.
  rewrite fe_slots_in. intros [[H ->]|[(ii & Hi & H)|[(Hc & f & s & Hf & Hs & ->)|[Hx ->]]]]; auto.
  - apply stage_slots_in in H. destruct H as [[Hv ->]|[[Hv ->]|[(f & s & Hf & Hs & ->)| ->]]].
    + cbn; auto.
    + split; [|discriminate]. cbn. unfold nx_slots, has_xstage in *. destruct (o_repr o); try discriminate;
      destruct (t_rbe t); lia.
    + apply fam_on_stage in Hf. split; [|auto]. destruct f; cbn; unfold nbd; lia.
    + cbn. split; [lia|discriminate].
  - apply boundary_fam in Hf. destruct Hf as (Hf & Hn1 & Hn2). split; [|auto].
    destruct f; cbn; unfold nbd; rewrite ?Hc; try lia; congruence.
  - split; [|discriminate]. cbn. unfold has_xend, nx_slots in *. destruct (o_repr o); try lia; destruct (t_rbe t); try lia;
    cbn in Hx; discriminate.
Qed.

Lemma fe_decls_in o t pm oc c e nfe ds :
  fe_decls o t pm oc c e nfe = Ok ds ->
  (o_use_fesd o = true -> exists d, In d ds /\
      decl_is d SlotH [SH c e] [h_lb (o_gamma_h o) (h_nominal o nfe)] [h_ub (o_gamma_h o) (h_nominal o nfe)]) /\
  (forall f j, In (Slot1 f j) (fe_slots o t (pm_nsys pm) nfe e) -> exists d, In d ds /\
      decl_is d (Slot1 f j) (map (S1 f c e j) (seq 0 (sz1 o pm f))) (lb1 o pm oc f) (ub1 o pm oc f) /\
      (f = FX -> dc_init d = m_x0 (pm_m pm))) /\
  (forall f j s, In (Slot2 f j s) (fe_slots o t (pm_nsys pm) nfe e) -> exists d, In d ds /\
      decl_is d (Slot2 f j s) (map (S2 f c e j s) (seq 0 (fam_len pm f s)))
        (lb2 o f (fam_len pm f s)) (ub2 f (fam_len pm f s))).
Proof.
  unfold fe_decls. intros H. apply bind_ok in H; destruct H as (d1 & Hd1 & H).
  apply bind_ok in H; destruct H as (db & Hdb & H). injection H as <-.
  assert (St : forall ii d ds', ii < o_ns o -> stage_decls o pm oc c e ii = Ok ds' -> In d ds' -> In d (concat d1)).
  { intros ii d ds' Hi Hs Hd. assert (Hin : In ii (seq 0 (o_ns o))) by (apply in_seq; lia).
    destruct (mapM_In _ _ _ _ Hd1 Hin) as (ds'' & Hds & Hs'). rewrite Hs in Hs'. injection Hs' as <-.
    apply in_concat; eauto. }
  assert (Sx : forall ii, ii < o_ns o -> exists ds', stage_decls o pm oc c e ii = Ok ds').
  { intros ii Hi. assert (Hin : In ii (seq 0 (o_ns o))) by (apply in_seq; lia).
    destruct (mapM_In _ _ _ _ Hd1 Hin) as (ds'' & Hds & Hs'). eauto. }
  repeat split.
  - intros Hf. rewrite Hf. eexists; split; [apply in_or_app; left; left; reflexivity|].
    unfold decl_is; cbn; auto.
  - intros f j Hin. apply fe_slots_in in Hin.
    destruct Hin as [[_ H]|[(ii & Hi & H)|[(_ & f' & s & _ & _ & H)|[Hx H]]]]; try discriminate.
    + destruct (Sx ii Hi) as [ds' Hds']. pose proof (stage_decls_in _ _ _ _ _ _ _ Hds') as (P1 & P2 & P3 & P4).
      apply stage_slots_in in H. destruct H as [[Hv H]|[[Hv H]|[(f' & s & _ & _ & H)|H]]]; try discriminate.
      * injection H as -> ->. destruct (P1 Hv) as (d & Hd & Hdd). exists d; split; [|split; [assumption|discriminate]].
        apply in_or_app; right; apply in_or_app; left; eauto.
      * injection H as -> ->. destruct (P2 Hv) as (d & Hd & Hdd & Hi0). exists d; split; [|split; auto].
        apply in_or_app; right; apply in_or_app; left; eauto.
      * injection H as -> ->. destruct P3 as (d & Hd & Hdd). exists d; split; [|split; [assumption|discriminate]].
        apply in_or_app; right; apply in_or_app; left; eauto.
    + injection H as -> ->. rewrite Hx. eexists; split.
      * do 3 (apply in_or_app; right). left; reflexivity.
      * unfold decl_is; cbn; auto.
  - intros f j s Hin. apply fe_slots_in in Hin.
    destruct Hin as [[_ H]|[(ii & Hi & H)|[(Hc & f' & s' & Hf & Hs & H)|[Hx H]]]]; try discriminate.
    + destruct (Sx ii Hi) as [ds' Hds']. pose proof (stage_decls_in _ _ _ _ _ _ _ Hds') as (P1 & P2 & P3 & P4).
      apply stage_slots_in in H. destruct H as [[Hv H]|[[Hv H]|[(f' & s' & Hf & Hs & H)|H]]]; try discriminate.
      injection H as -> -> ->. destruct (P4 f' s' Hf Hs) as (d & Hd & Hdd). exists d; split; [|assumption].
      apply in_or_app; right; apply in_or_app; left; eauto.
    + injection H as -> -> ->. rewrite Hc in Hdb.
      destruct (mapM_In _ _ _ _ Hdb Hf) as (df & Hdf & Hfd). unfold fam_decls in Hfd.
      assert (Hs' : In s' (seq 0 (pm_nsys pm))) by (apply in_seq; lia).
      destruct (mapM_In _ _ _ _ Hfd Hs') as (d & Hd & Hdd). exists d; split.
      * apply in_or_app; right; apply in_or_app; right; apply in_or_app; left. apply in_concat; eauto.
      * apply fam_decl_spec in Hdd. unfold decl_is; tauto.
Qed.

Lemma slot1_declared o t nsys nfe e f j :
  j < n1 o t f -> In (Slot1 f j) (fe_slots o t nsys nfe e) \/ (f = FV /\ has_v o = false).
Proof.
  intros H. destruct f; cbn in H.
  - left. apply fe_slots_in. unfold nx_slots, has_xend, has_xstage in *.
    destruct (o_repr o) eqn:Er; [|right; right; right|].
    + destruct (Nat.ltb_spec j (o_ns o)) as [Hj|Hj].
      * right; left. exists j; split; [assumption|]. apply stage_slots_in. right; left.
        unfold has_xstage; rewrite Er; auto.
      * right; right; right. destruct (t_rbe t); [lia|]. cbn; split; [reflexivity|]. f_equal; lia.
    + split; [apply orb_true_r|]. cbn. f_equal; lia.
    + destruct (Nat.ltb_spec j (o_ns o)) as [Hj|Hj].
      * right; left. exists j; split; [assumption|]. apply stage_slots_in. right; left.
        unfold has_xstage; rewrite Er; auto.
      * right; right; right. destruct (t_rbe t); [lia|]. cbn; split; [reflexivity|]. f_equal; lia.
  - destruct (has_v o) eqn:E; [left|auto]. apply fe_slots_in. right; left. exists j; split; [assumption|].
    apply stage_slots_in; auto.
  - left. apply fe_slots_in. right; left. exists j; split; [assumption|]. apply stage_slots_in; auto.
Qed.

Lemma slot2_declared o t nsys nfe e f j s :
  j < n2 o t nfe e f -> s < nsys -> fam_on o f = true -> In (Slot2 f j s) (fe_slots o t nsys nfe e).
Proof.
  intros Hj Hs Hf. apply fe_slots_in. destruct (Nat.ltb_spec j (o_ns o)) as [Hl|Hl].
  - right; left. exists j; split; [assumption|]. apply stage_slots_in. right; right; left.
    exists f, s. repeat split; auto. apply fam_on_stage; assumption.
  - right; right; left. unfold n2, nbd in Hj.
    destruct (create_rbp o t nfe e) eqn:Ec; [|destruct f; lia]. split; [reflexivity|].
    assert (f <> FTheta /\ f <> FAlpha) by (destruct f; split; try discriminate; lia).
    exists f, s. split; [apply boundary_fam; tauto|]. split; [assumption|]. f_equal. destruct f; lia.
Qed.

Lemma fe_make_ok o t pm oc c e nfe fe :
  fe_make o t pm oc c e nfe = Ok fe -> fe_ok o t pm oc c e nfe fe.
Proof.
  unfold fe_make. intros H. apply bind_ok in H; destruct H as (ds & Hds & H).
  apply foldM_add_decl in H. pose proof (fe_decls_slots _ _ _ _ _ _ _ _ Hds) as Hsl.
  pose proof (fe_slots_NoDup o t (pm_nsys pm) nfe e) as HN. rewrite <- Hsl in HN.
  pose proof (fe_decls_in _ _ _ _ _ _ _ _ Hds) as (D0 & D1 & D2).
  destruct H as [B1 B2 B3 B4 B5 B6 B7 B8 B9 B10].
  destruct B6 as (G1 & G2 & G3 & G4 & G5 & G6 & G7 & G8 & G9).
  assert (Hw : wf_w (fo (fe_init o t pm c e nfe))) by (repeat split).
  specialize (B9 Hw HN).
  assert (F : forall d sl s l u, In d ds -> decl_is d sl s l u -> filled fe sl s l u).
  { intros d sl s l u Hd (<- & <- & <- & <-). destruct (B9 d Hd) as (idx & I1 & I2 & I3 & I4 & I5).
    exists idx; auto. }
  split.
  - split.
    + unfold wf_w. rewrite B1, B2, B3, B4. cbn.
      assert (L : forall l, (forall d, In d l -> length (dc_lb d) = length (dc_syms d) /\
              length (dc_ub d) = length (dc_syms d) /\ length (dc_init d) = length (dc_syms d)) ->
              length (concat (map dc_lb l)) = length (concat (map dc_syms l)) /\
              length (concat (map dc_ub l)) = length (concat (map dc_syms l)) /\
              length (concat (map dc_init l)) = length (concat (map dc_syms l))).
      { induction l as [|d l IH]; intros Hl; cbn; [auto|]. rewrite !app_length.
        destruct (Hl d (or_introl eq_refl)) as (-> & -> & ->).
        destruct IH as (-> & -> & ->); [intros; apply Hl; right; assumption|]. auto. }
      apply L; assumption.
    + unfold wf_g. rewrite G1, G2, G3. cbn; auto.
  - rewrite G7; reflexivity.
  - rewrite G8; reflexivity.
  - rewrite G9; reflexivity.
  - intros f. destruct B7 as [B7 _]. rewrite B7. apply fe_init_len1.
  - intros f. destruct B7 as [_ B7]. rewrite B7. apply fe_init_len2.
  - intros f j Hj. destruct (slot1_declared o t (pm_nsys pm) nfe e f j Hj) as [Hin|[-> Hv]].
    + destruct (D1 f j Hin) as (d & Hd & Hdd & _). eapply F; eauto.
    + exists []. rewrite B8.
      * rewrite fe_init_lookup1 by assumption. unfold lb1, ub1, sz1; rewrite Hv. cbn; auto.
      * rewrite Hsl. intros Hc. apply fe_slots_range in Hc. destruct Hc as [_ Hc].
        rewrite Hc in Hv; [discriminate|reflexivity].
  - intros f j s Hj Hs. unfold fsz. destruct (fam_on o f) eqn:Hf.
    + destruct (D2 f j s) as (d & Hd & Hdd); [apply slot2_declared; assumption|]. eapply F; eauto.
    + exists []. rewrite B8.
      * rewrite fe_init_lookup2 by assumption. destruct f; cbn; auto.
      * rewrite Hsl. intros Hc. apply fe_slots_range in Hc. destruct Hc as (_ & _ & Hc). congruence.
  - destruct (o_use_fesd o) eqn:Hf.
    + destruct (D0 eq_refl) as (d & Hd & Hdd). eapply F; eauto.
    + assert (HH : lookup fe SlotH = lookup (fe_init o t pm c e nfe) SlotH).
      { apply B8. rewrite Hsl. intros Hc. apply fe_slots_range in Hc. congruence. }
      cbn in HH. congruence.
  - rewrite B10; [|assumption|].
    + rewrite fe_init_idx, B1. cbn. reflexivity.
    + intros d Hd. assert (Hin : In (dc_slot d) (fe_slots o t (pm_nsys pm) nfe e)) by (rewrite <- Hsl; apply in_map; assumption).
      apply fe_slots_range in Hin. destruct (dc_slot d) as [|f j|f j s].
      * reflexivity.
      * apply fe_init_lookup1; tauto.
      * apply fe_init_lookup2; tauto.
  - intros k idx Hk. rewrite G6 in Hk. destruct k; discriminate.
Qed.

Lemma fe_make_rest o t pm oc c e nfe fe :
  fe_make o t pm oc c e nfe = Ok fe ->
  g (fo fe) = [] /\ lbg (fo fe) = [] /\ ubg (fo fe) = [] /\ cost (fo fe) = ECst 0 /\
  ind_comp (fo fe) = [] /\ ind_bool (fo fe) = [].
Proof.
  unfold fe_make. intros H. apply bind_ok in H; destruct H as (ds & Hds & H).
  apply foldM_add_decl in H. destruct (dp_rest _ _ _ H) as (G1 & G2 & G3 & G4 & G5 & G6 & _).
  repeat split; assumption.
Qed.

(* ---- growth of an element ---- *)
Definition fe_le (o : opts) (fe fe' : felem) : Prop :=
  fo_le o (SBool (fe_ctrl fe) (fe_idx fe)) (fo fe) (fo fe') /\
  fe_ctrl fe' = fe_ctrl fe /\ fe_idx fe' = fe_idx fe /\ ind1 fe' = ind1 fe /\ ind2 fe' = ind2 fe /\
  ind_h fe' = ind_h fe /\ fe_h fe' = fe_h fe.

Lemma fe_le_refl o fe : fe_le o fe fe.
Proof. split; [apply fo_le_refl|auto 10]. Qed.
Lemma fe_le_trans o a b c : fe_le o a b -> fe_le o b c -> fe_le o a c.
Proof.
  intros (A & A1 & A2 & A3 & A4 & A5 & A6) (B & B1 & B2 & B3 & B4 & B5 & B6).
  split; [|repeat split; congruence]. eapply fo_le_trans; [exact A|]. rewrite A1, A2 in B. exact B.
Qed.
Lemma with_fo_le o fe f : fo_le o (SBool (fe_ctrl fe) (fe_idx fe)) (fo fe) f -> fe_le o fe (with_fo fe f).
Proof. intros H; split; [exact H|cbn; auto 10]. Qed.

Lemma fe_le_lookup o fe fe' sl : fe_le o fe fe' -> lookup fe' sl = lookup fe sl.
Proof. intros (_ & _ & _ & A3 & A4 & A5 & _). destruct sl; cbn; rewrite ?A3, ?A4, ?A5; reflexivity. Qed.

Lemma fe_le_filled o fe fe' sl s l u : fe_le o fe fe' -> filled fe sl s l u -> filled fe' sl s l u.
Proof.
  intros H (idx & H1 & H2 & H3 & H4). exists idx. rewrite (fe_le_lookup _ _ _ _ H).
  destruct H as [[(x & -> & -> & -> & _) _ _] _]. repeat split; auto using sel_app_w.
Qed.

Lemma concat_app_idx (a b : list (list nat)) : concat (a ++ b) = concat a ++ concat b.
Proof. apply concat_app. Qed.

Lemma fe_ok_le o t pm oc c e nfe fe fe' :
  fe_ok o t pm oc c e nfe fe -> fe_le o fe fe' -> fe_ok o t pm oc c e nfe fe'.
Proof.
  intros [K1 K2 K3 K4 K5 K6 K7 K8 K9 K10 K11] H. pose proof H as (F & A1 & A2 & A3 & A4 & A5 & A6).
  split.
  - eapply fo_le_wf; eauto.
  - congruence.
  - congruence.
  - rewrite A6; exact K4.
  - intros f; rewrite A3; auto.
  - intros f; rewrite A4; auto.
  - intros; eapply fe_le_filled; eauto.
  - intros; eapply fe_le_filled; eauto.
  - revert K9. destruct (o_use_fesd o); intros K9; [eapply fe_le_filled; eauto|congruence].
  - unfold all_idx in *. rewrite A5, A3, A4.
    destruct F as [(x & -> & _ & _ & _ & ib & -> & Hc & _) _ _].
    rewrite concat_app, Hc, app_length, seq_app, !app_assoc. cbn.
    apply Permutation_app_tail. rewrite <- !app_assoc. assumption.
  - rewrite K2, K3 in F. apply (le_bool _ _ _ _ F); assumption.
Qed.
