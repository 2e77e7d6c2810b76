(* Coll_proofs.v -- collecting the elements' variables into the problem *)
From Coq Require Import Reals Qreals Lra.
From Verif Require Import Base Lib Sx Sx_proofs Utils Tableau Opts Model Ocp Problem Fo_proofs Fe_proofs
  FeMake_proofs FeSel_proofs FeZero_proofs Prob_proofs.

Definition flen (fe : felem) : nat := length (w (fo fe)).
Fixpoint offs (n : nat) (fes : list felem) : list nat :=
  match fes with [] => [] | fe :: r => n :: offs (n + flen fe) r end.
Fixpoint offss (n : nat) (sts : list (list felem)) : list (list nat) :=
  match sts with [] => [] | st :: r => offs n st :: offss (n + sumn (map flen st)) r end.

Definition zipw {A B C} (f : A -> B -> C) (a : list A) (b : list B) : list C :=
  map (fun p => f (fst p) (snd p)) (combine a b).

Lemma zipw_nth {A B C} (f : A -> B -> C) a b k x y :
  nth_error a k = Some x -> nth_error b k = Some y -> nth_error (zipw f a b) k = Some (f x y).
Proof. intros H1 H2. unfold zipw. erewrite map_nth_error; [|apply nth_error_combine; eauto]. reflexivity. Qed.

Lemma offs_length n fes : length (offs n fes) = length fes.
Proof. revert n; induction fes; intros n; cbn; auto. Qed.
Lemma offss_length n sts : length (offss n sts) = length sts.
Proof. revert n; induction sts; intros n; cbn; auto. Qed.

(* what collect_fe's guard demands of an element *)
Definition lens_ok (fe : felem) : Prop := wf_w (fo fe).

Definition wapp (f : fobj) (fes : list felem) (f' : fobj) : Prop :=
  w f' = w f ++ concat (map (fun fe => w (fo fe)) fes) /\
  lbw f' = lbw f ++ concat (map (fun fe => lbw (fo fe)) fes) /\
  ubw f' = ubw f ++ concat (map (fun fe => ubw (fo fe)) fes) /\
  w0 f' = w0 f ++ concat (map (fun fe => w0 (fo fe)) fes) /\
  g f' = g f /\ lbg f' = lbg f /\ ubg f' = ubg f /\ cost f' = cost f /\
  ind_comp f' = ind_comp f /\ ind_bool f' = ind_bool f.

Lemma wapp_nil f : wapp f [] f.
Proof. unfold wapp; cbn; rewrite !app_nil_r; auto 12. Qed.
Lemma wapp_app f a f1 b f2 : wapp f a f1 -> wapp f1 b f2 -> wapp f (a ++ b) f2.
Proof.
  intros (A1 & A2 & A3 & A4 & A5 & A6 & A7 & A8 & A9 & A10) (B1 & B2 & B3 & B4 & B5 & B6 & B7 & B8 & B9 & B10).
  unfold wapp. rewrite !map_app, !concat_app, !app_assoc.
  repeat split; congruence.
Qed.

Lemma collect_fes l : forall a r, foldM collect_fe l a = Ok r ->
  wapp (co_f a) l (co_f r) /\ Forall lens_ok l /\
  co_h r = co_h a ++ concat (zipw (fun n fe => map (fun i => i + n) (ind_h fe)) (offs (length (w (co_f a))) l) l) /\
  (forall f, co_1 r f = co_1 a f ++ zipw (fun n fe => incr1 n (ind1 fe f)) (offs (length (w (co_f a))) l) l) /\
  (exists xls, Forall2 (fun fe xl => lastE EIndexError (ind1 fe FX) = Ok xl) l xls /\
     co_xc r = co_xc a ++ zipw (fun n xl => map (fun i => i + n) xl) (offs (length (w (co_f a))) l) xls) /\
  (forall f, co_2 r f = co_2 a f ++ zipw (fun n fe => incr2 n (ind2 fe f)) (offs (length (w (co_f a))) l) l) /\
  co_b r = co_b a ++ zipw (fun n fe => incr1 n (ind_bool (fo fe))) (offs (length (w (co_f a))) l) l.
Proof.
  induction l as [|fe l IH]; intros a r H; cbn [foldM] in H.
  - injection H as <-. cbn. unfold zipw; cbn. rewrite !app_nil_r.
    split; [apply wapp_nil|]. split; [constructor|]. split; [reflexivity|].
    split; [intros; rewrite app_nil_r; reflexivity|].
    split; [exists []; cbn; rewrite ?app_nil_r; auto|]. split; [intros; rewrite app_nil_r; reflexivity|reflexivity].
  - apply bind_ok in H. destruct H as (b & Hb & H).
    unfold collect_fe in Hb. destruct (_ && _) eqn:E; cbn [negb] in Hb; [|discriminate].
    apply bind_ok in Hb. destruct Hb as (xl & Hxl & Hb). injection Hb as <-.
    apply andb_true_iff in E; destruct E as [E E3]. apply andb_true_iff in E; destruct E as [E1 E2].
    apply Nat.eqb_eq in E1, E2, E3.
    apply IH in H. cbn [co_f co_h co_1 co_xc co_2 co_b w] in H. rewrite app_length in H.
    destruct H as (W & F & Hh & H1 & (xls & Hx1 & Hx2) & H2 & Hbb).
    split; [|split; [|split; [|split; [|split; [|split]]]]].
    + change (fe :: l) with ([fe] ++ l). eapply wapp_app; [|exact W].
      unfold wapp; cbn; rewrite !app_nil_r; auto 12.
    + constructor; [repeat split; assumption|assumption].
    + rewrite Hh, <- app_assoc. reflexivity.
    + intros f. rewrite H1, <- app_assoc. reflexivity.
    + exists (xl :: xls). split; [constructor; assumption|]. rewrite Hx2, <- app_assoc. reflexivity.
    + intros f. rewrite H2, <- app_assoc. reflexivity.
    + rewrite Hbb, <- app_assoc. reflexivity.
Qed.

Lemma sumn_flen l f f' : wapp f l f' -> length (w f') = length (w f) + sumn (map flen l).
Proof.
  intros (H & _). rewrite H, app_length, length_concat, map_map. reflexivity.
Qed.

Definition xlasts (st : list felem) (xls : list (list nat)) : Prop :=
  Forall2 (fun fe xl => lastE EIndexError (ind1 fe FX) = Ok xl) st xls.

Record collected (P : prob) (sts : list (list felem)) (P' : prob) : Prop := {
  cl_f : wapp (pb P) (concat sts) (pb P');
  cl_lens : Forall lens_ok (concat sts);
  cl_h : p_ind_h P' = p_ind_h P ++
     concat (zipw (fun n fe => map (fun i => i + n) (ind_h fe)) (concat (offss (length (w (pb P))) sts)) (concat sts));
  cl_1 : forall f, p_ind1 P' f = p_ind1 P f ++
     zipw (zipw (fun n fe => incr1 n (ind1 fe f))) (offss (length (w (pb P))) sts) sts;
  cl_xc : exists xlss, Forall2 xlasts sts xlss /\ p_ind_x_cont P' = p_ind_x_cont P ++
     zipw (zipw (fun n xl => map (fun i => i + n) xl)) (offss (length (w (pb P))) sts) xlss;
  cl_2 : forall f, p_ind2 P' f = p_ind2 P f ++
     zipw (zipw (fun n fe => incr2 n (ind2 fe f))) (offss (length (w (pb P))) sts) sts;
  cl_b : p_ind_bool P' = p_ind_bool P ++
     zipw (zipw (fun n fe => incr1 n (ind_bool (fo fe)))) (offss (length (w (pb P))) sts) sts;
  cl_rest : p_p P' = p_p P /\ p_ind_comp P' = p_ind_comp P /\ p_ind_u P' = p_ind_u P /\ p_ind_sot P' = p_ind_sot P /\
     p_ind_vg P' = p_ind_vg P /\ p_ind_el P' = p_ind_el P /\ p_stages P' = p_stages P /\ p_fe0 P' = p_fe0 P /\
     p_J_comp P' = p_J_comp P
}.

Lemma zipw_app {A B C} (f : A -> B -> C) a1 a2 b1 b2 :
  length a1 = length b1 -> zipw f (a1 ++ a2) (b1 ++ b2) = zipw f a1 b1 ++ zipw f a2 b2.
Proof. intros H. unfold zipw. rewrite combine_app by assumption. apply map_app. Qed.

Lemma collect_stages sts : forall P P', foldM collect_stage sts P = Ok P' -> collected P sts P'.
Proof.
  induction sts as [|st sts IH]; intros P P' H; cbn [foldM] in H.
  - injection H as <-. split; cbn; unfold zipw; cbn; rewrite ?app_nil_r; auto.
    + apply wapp_nil.
    + intros; rewrite app_nil_r; reflexivity.
    + exists []; split; [constructor|reflexivity].
    + intros; rewrite app_nil_r; reflexivity.
    + auto 12.
  - apply bind_ok in H. destruct H as (P1 & H1 & H). unfold collect_stage in H1.
    apply bind_ok in H1. destruct H1 as (a & Ha & H1). injection H1 as <-.
    apply collect_fes in Ha. cbn [co_f co_h co_1 co_xc co_2 co_b] in Ha.
    destruct Ha as (W & F & Hh & A1 & (xls & X1 & X2) & A2 & Ab).
    apply IH in H. destruct H as [C1 C2 C3 C4 C5 C6 C7 C8].
    cbn [pb p_ind_h p_ind1 p_ind_x_cont p_ind2 p_ind_bool p_p p_ind_comp p_ind_u p_ind_sot p_ind_vg p_ind_el p_stages p_fe0 p_J_comp] in *.
    pose proof (sumn_flen _ _ _ W) as En. rewrite En in *.
    split; cbn [offss concat].
    + eapply wapp_app; eauto.
    + apply Forall_app; auto.
    + rewrite C3, Hh, zipw_app, concat_app, app_assoc; [reflexivity|apply offs_length].
    + intros f. rewrite C4, A1. cbn. rewrite <- app_assoc. reflexivity.
    + destruct C5 as (xlss & Y1 & Y2). exists (xls :: xlss). split; [constructor; assumption|].
      rewrite Y2, X2. cbn. rewrite <- app_assoc. reflexivity.
    + intros f. rewrite C6, A2. cbn. rewrite <- app_assoc. reflexivity.
    + rewrite C7, Ab. cbn. rewrite <- app_assoc. reflexivity.
    + exact C8.
Qed.

(* ---- where the variables of element (c, e) are ---- *)
Lemma offs_nth fes : forall n e fe, nth_error fes e = Some fe ->
  exists a b, fes = a ++ fe :: b /\ length a = e /\ nth_error (offs n fes) e = Some (n + sumn (map flen a)).
Proof.
  induction fes as [|x fes IH]; intros n e fe H; [destruct e; discriminate|]. destruct e as [|e]; cbn in H.
  - injection H as ->. exists [], fes. cbn. rewrite Nat.add_0_r. auto.
  - destruct (IH (n + flen x) e fe H) as (a & b & -> & <- & H3).
    exists (x :: a), b. cbn. rewrite H3. repeat split; auto. f_equal. lia.
Qed.

Lemma sumn_app a b : sumn (a ++ b) = sumn a + sumn b.
Proof. induction a; cbn; lia. Qed.

Lemma offss_nth sts : forall n c st e fe, nth_error sts c = Some st -> nth_error st e = Some fe ->
  exists a b ofs, concat sts = a ++ fe :: b /\ nth_error (offss n sts) c = Some ofs /\
    nth_error ofs e = Some (n + sumn (map flen a)).
Proof.
  induction sts as [|s sts IH]; intros n c st e fe Hc He; [destruct c; discriminate|].
  destruct c as [|c]; cbn in Hc.
  - injection Hc as ->. destruct (offs_nth st n e fe He) as (a & b & -> & Hl & H3).
    exists a, (b ++ concat sts), (offs n (a ++ fe :: b)). cbn. rewrite <- app_assoc. auto.
  - destruct (IH (n + sumn (map flen s)) c st e fe Hc He) as (a & b & ofs & E & H1 & H2).
    exists (s ++ a), b, ofs. cbn. rewrite E, <- app_assoc. repeat split; auto.
    rewrite H2, map_app, sumn_app. f_equal. lia.
Qed.

Lemma sel_mid {A} (pre s post : list A) idx v :
  sel s idx = Ok v -> sel (pre ++ s ++ post) (map (fun i => i + length pre) idx) = Ok v.
Proof. intros H. apply sel_shift. apply sel_app_w. exact H. Qed.

(* element (c, e) starts at position [off] of the decision vector *)
Definition elem_at (f : fobj) (off : nat) (fe : felem) : Prop :=
  (forall idx v, sel (w (fo fe)) idx = Ok v -> sel (w f) (map (fun i => i + off) idx) = Ok v) /\
  (forall idx v, sel (lbw (fo fe)) idx = Ok v -> sel (lbw f) (map (fun i => i + off) idx) = Ok v) /\
  (forall idx v, sel (ubw (fo fe)) idx = Ok v -> sel (ubw f) (map (fun i => i + off) idx) = Ok v) /\
  (forall idx v, sel (w0 (fo fe)) idx = Ok v -> sel (w0 f) (map (fun i => i + off) idx) = Ok v).

Lemma wapp_elem_at f l f' a fe b : wf_w f -> Forall lens_ok l -> wapp f l f' -> l = a ++ fe :: b ->
  elem_at f' (length (w f) + sumn (map flen a)) fe.
Proof.
  intros (W1 & W2 & W3) F (A1 & A2 & A3 & A4 & _) ->. apply Forall_app in F. destruct F as [Fa _].
  assert (La : length (concat (map (fun fe => lbw (fo fe)) a)) = sumn (map flen a) /\
               length (concat (map (fun fe => ubw (fo fe)) a)) = sumn (map flen a) /\
               length (concat (map (fun fe => w0 (fo fe)) a)) = sumn (map flen a) /\
               length (concat (map (fun fe => w (fo fe)) a)) = sumn (map flen a)).
  { clear - Fa. induction Fa as [|x a (H1 & H2 & H3) Fa IH]; cbn; [auto|]. rewrite !app_length.
    destruct IH as (I1 & I2 & I3 & I4). rewrite I1, I2, I3, I4. unfold flen in *. lia. }
  destruct La as (L1 & L2 & L3 & L4).
  repeat split; intros idx v H.
  - rewrite A1, map_app, concat_app, app_assoc. cbn.
    replace (length (w f) + sumn (map flen a)) with (length (w f ++ concat (map (fun fe => w (fo fe)) a)))
      by (rewrite app_length; lia). apply sel_mid; assumption.
  - rewrite A2, map_app, concat_app, app_assoc. cbn.
    replace (length (w f) + sumn (map flen a)) with (length (lbw f ++ concat (map (fun fe => lbw (fo fe)) a)))
      by (rewrite app_length; lia). apply sel_mid; assumption.
  - rewrite A3, map_app, concat_app, app_assoc. cbn.
    replace (length (w f) + sumn (map flen a)) with (length (ubw f ++ concat (map (fun fe => ubw (fo fe)) a)))
      by (rewrite app_length; lia). apply sel_mid; assumption.
  - rewrite A4, map_app, concat_app, app_assoc. cbn.
    replace (length (w f) + sumn (map flen a)) with (length (w0 f ++ concat (map (fun fe => w0 (fo fe)) a)))
      by (rewrite app_length; lia). apply sel_mid; assumption.
Qed.

Lemma map_nth_error_some {A B} (f : A -> B) l n b : nth_error (map f l) n = Some b -> exists a, nth_error l n = Some a /\ f a = b.
Proof.
  revert n; induction l as [|x l IH]; intros [|n] H; cbn in *; try discriminate; [|apply IH; assumption].
  injection H as <-. eauto.
Qed.

(* ---- permutation ---- *)
Definition all_idx_sh (n : nat) (fe : felem) : list nat := map (fun i => i + n) (all_idx fe).

Lemma perm_offs l : forall n, Forall (fun fe => Permutation (all_idx fe) (seq 0 (flen fe))) l ->
  Permutation (concat (zipw all_idx_sh (offs n l) l)) (seq n (sumn (map flen l))).
Proof.
  induction l as [|fe l IH]; intros n H; cbn; [constructor|]. inversion H; subst.
  rewrite seq_app. apply Permutation_app; [|apply IH; assumption].
  unfold all_idx_sh; cbn. etransitivity; [apply Permutation_map; eassumption|].
  rewrite map_shift_seq. reflexivity.
Qed.

Lemma offs_app a : forall n b, offs n (a ++ b) = offs n a ++ offs (n + sumn (map flen a)) b.
Proof.
  induction a as [|x a IH]; intros n b; cbn; [rewrite Nat.add_0_r; reflexivity|].
  rewrite IH. do 3 f_equal. lia.
Qed.

Lemma offs_offss sts : forall n, concat (offss n sts) = offs n (concat sts).
Proof.
  induction sts as [|st sts IH]; intros n; cbn; [reflexivity|]. rewrite IH, offs_app. reflexivity.
Qed.

Lemma perm_concat_zip {A} (f1 f2 : A -> felem -> list nat) ofs l :
  Permutation (concat (zipw (fun n fe => f1 n fe ++ f2 n fe) ofs l))
              (concat (zipw f1 ofs l) ++ concat (zipw f2 ofs l)).
Proof.
  unfold zipw. induction (combine ofs l) as [|[n fe] r IH]; cbn; [constructor|].
  rewrite <- !app_assoc. apply Permutation_app_head. rewrite IH.
  rewrite !app_assoc. apply Permutation_app_tail. apply Permutation_app_comm.
Qed.

Lemma concat_zipw_nested {B} (h : nat -> felem -> list B) sts : forall n,
  concat (map (@concat B) (zipw (zipw h) (offss n sts) sts)) =
  concat (zipw h (offs n (concat sts)) (concat sts)).
Proof.
  induction sts as [|st sts IH]; intros n; [reflexivity|].
  change (concat (zipw h (offs n st) st) ++
    concat (map (@concat B) (zipw (zipw h) (offss (n + sumn (map flen st)) sts) sts)) =
    concat (zipw h (offs n (st ++ concat sts)) (st ++ concat sts))).
  rewrite IH, offs_app, zipw_app, concat_app; [reflexivity|apply offs_length].
Qed.

Lemma zipw_ext {A B C} (f h : A -> B -> C) a b : (forall x y, f x y = h x y) -> zipw f a b = zipw h a b.
Proof. intros H. unfold zipw. apply map_ext. intros; apply H. Qed.
