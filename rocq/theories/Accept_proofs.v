(* Accept_proofs.v -- which models preprocess_model accepts *)
From Coq Require Import Reals Qreals.
From Verif Require Import Base Sx Utils Tableau Opts Model Ocp Problem Spec Lib Sx_proofs Model_proofs Fesd Sem_proofs Dcs_proofs
  Fo_proofs Feas_proofs Opts_proofs Numeric Spec3 Mode_proofs Lam_proofs.

(* ---- the constructor ---- *)
Definition given {A} (x : option A) : Prop := x <> None.
Lemma isSome_given {A} (x : option A) : isSome x = true <-> given x.
Proof. unfold given. destruct x; cbn; split; congruence. Qed.
Lemma isSome_not {A} (x : option A) : isSome x = false <-> x = None.
Proof. destruct x; cbn; split; congruence. Qed.
Lemma model_init_iff m : model_init m = Ok m <->
  ((given (m_F m) /\ ~ (given (m_fx m) /\ given (m_alpha m)) /\
     ((given (m_c m) /\ given (m_S m) /\ m_gS m = None) \/ ((m_c m = None \/ m_S m = None) /\ given (m_gS m)))) \/
   (m_F m = None /\ given (m_fx m) /\ given (m_alpha m))).
Proof.
  unfold model_init, given. destruct (m_F m), (m_fx m), (m_alpha m), (m_c m), (m_S m), (m_gS m); cbn; (split; [intros H; try discriminate H|intros H]);
    try reflexivity; try (exfalso; intuition congruence); intuition congruence.
Qed.
Lemma model_init_cases m : model_init m = Ok m \/ model_init m = Err EValueError.
Proof. unfold model_init. destruct (m_F m), (m_fx m), (m_alpha m), (m_c m), (m_S m), (m_gS m); cbn; auto. Qed.

(* ---- symbols of composed expressions ---- *)
Definition UL (P : sym -> Prop) (l : list expr) : Prop := forall e, In e l -> uses_only P e.
Lemma uses_bin P o a b : uses_only P a -> uses_only P b -> uses_only P (EBin o a b).
Proof. intros A B s Hs. cbn in Hs. apply in_app_iff in Hs. destruct Hs; auto. Qed.
Lemma uses_un P o a : uses_only P a -> uses_only P (EUn o a).
Proof. intros A s Hs. apply A, Hs. Qed.
Lemma uses_cst P q : uses_only P (ECst q). Proof. intros s []. Qed.
Lemma uses_var (P : sym -> Prop) s : P s -> uses_only P (EVar s). Proof. intros H s' [<-|[]]. exact H. Qed.
Lemma uses_mono (P P' : sym -> Prop) e : (forall s, P s -> P' s) -> uses_only P e -> uses_only P' e.
Proof. intros H A s Hs. apply H, A, Hs. Qed.
Lemma UL_mono (P P' : sym -> Prop) l : (forall s, P s -> P' s) -> UL P l -> UL P' l.
Proof. intros H A e He. eapply uses_mono; eauto. Qed.
Lemma UL_app P a b : UL P a -> UL P b -> UL P (a ++ b).
Proof. intros A B e He. apply in_app_iff in He. destruct He; auto. Qed.
Lemma UL_nil P : UL P []. Proof. intros e []. Qed.
Lemma UL_cons P a l : uses_only P a -> UL P l -> UL P (a :: l).
Proof. intros A B e [<-|He]; auto. Qed.
Lemma UL_map P (f : expr -> expr) l : (forall e, uses_only P e -> uses_only P (f e)) -> UL P l -> UL P (map f l).
Proof. intros F A e He. apply in_map_iff in He. destruct He as (x & <- & Hx). auto. Qed.
Lemma UL_vbin P o a b r : UL P a -> UL P b -> vbin o a b = Ok r -> UL P r.
Proof.
  intros A B H. unfold vbin in H. destruct (length a =? length b).
  - injection H as <-. intros e He. apply in_map_iff in He. destruct He as ([x y] & <- & Hp). cbn [fst snd].
    pose proof (in_combine_l _ _ _ _ Hp). pose proof (in_combine_r _ _ _ _ Hp). apply uses_bin; auto.
  - assert (M : (exists x, In x a /\ r = map (EBin o x) b) \/ (exists y, In y b /\ r = map (fun x => EBin o x y) a)).
    { destruct a as [|x [|x2 a]].
      - destruct b as [|y [|y2 b]]; try discriminate. right. exists y. injection H as <-. split; [left|]; reflexivity.
      - left. exists x. destruct b as [|y [|y2 b]]; injection H as <-; split; try (left; reflexivity); reflexivity.
      - destruct b as [|y [|y2 b]]; try discriminate. right. exists y. injection H as <-. split; [left|]; reflexivity. }
    destruct M as [(x & Hx & ->)|(y & Hy & ->)]; intros e He; apply in_map_iff in He; destruct He as (z & <- & Hz); apply uses_bin; auto.
Qed.
Lemma uses_esum P l : UL P l -> uses_only P (esum l).
Proof. intros A s Hs. unfold esum in Hs. apply fv_esum_from in Hs. destruct Hs as [[]|(e & He & Hs)]. exact (A e He s Hs). Qed.
Lemma uses_edot P a b r : UL P a -> UL P b -> edot a b = Ok r -> uses_only P r.
Proof.
  intros A B H. unfold edot in H. destruct (length a =? length b); [|discriminate]. injection H as <-. apply uses_esum.
  intros e He. apply in_map_iff in He. destruct He as ([x y] & <- & Hp). cbn [fst snd].
  pose proof (in_combine_l _ _ _ _ Hp). pose proof (in_combine_r _ _ _ _ Hp). apply uses_bin; auto.
Qed.
Lemma uses_emin_from P l : forall acc, uses_only P acc -> UL P l -> uses_only P (emin_from acc l).
Proof.
  induction l as [|a l IH]; intros acc A B; cbn; [exact A|]. apply IH; [|intros e He; apply B; right; exact He].
  apply uses_bin; [exact A|]. apply B. left. reflexivity.
Qed.
Lemma uses_emin P l r : UL P l -> emin l = Ok r -> uses_only P r.
Proof.
  destruct l as [|a l]; [discriminate|]. cbn. intros A H. injection H as <-. apply uses_emin_from; [apply A; left; reflexivity|].
  intros e He. apply A. right. exact He.
Qed.
Lemma UL_mv_acc P cols : (forall c, In c cols -> UL P c) -> forall acc v, UL P acc -> UL P v -> UL P (mv_acc acc cols v).
Proof.
  induction cols as [|c cols IH]; intros HC acc v A B; [exact A|]. destruct v as [|e v]; [exact A|]. cbn [mv_acc].
  apply IH; [intros; apply HC; right; assumption| |intros x Hx; apply B; right; exact Hx].
  intros x Hx. apply in_map_iff in Hx. destruct Hx as ([y z] & <- & Hp). cbn [fst snd]. apply uses_bin.
  - apply A. exact (in_combine_l _ _ _ _ Hp).
  - apply in_combine_r in Hp. apply in_map_iff in Hp. destruct Hp as (w & <- & Hw). apply uses_bin; [exact (HC c (or_introl eq_refl) w Hw)|].
    apply B. left. reflexivity.
Qed.
Lemma UL_matvec P F v r : (forall c, In c (fm_cols F) -> UL P c) -> UL P v -> matvec F v = Ok r -> UL P r.
Proof.
  intros HC B H. unfold matvec in H. destruct (_ =? _); [|discriminate]. injection H as <-. apply UL_mv_acc; auto.
  intros e He. apply repeat_spec in He. subst. apply uses_cst.
Qed.
Lemma UL_repeat P q n : UL P (repeat (ECst q) n).
Proof. intros e He. apply repeat_spec in He. subst. apply uses_cst. Qed.
Lemma UL_vars (P : sym -> Prop) l : (forall s, In s l -> P s) -> UL P (vars l).
Proof. intros H e He. apply in_map_iff in He. destruct He as (s & <- & Hs). apply uses_var, H, Hs. Qed.

Lemma uses_upsilon P row alpha : UL P alpha -> forall ks acc r, uses_only P acc ->
  foldM (fun acc k => do* s <- nthE EIndexError row k;
           if Qeq_bool s 0 then Ok acc
           else (do* a <- nthE ECasadi alpha k; Ok (EBin BMul acc (upsilon_term s a)))) ks acc = Ok r -> uses_only P r.
Proof.
  intros A. induction ks as [|k ks IH]; intros acc r U H; cbn [foldM] in H; [injection H as <-; exact U|].
  apply bind_ok in H. destruct H as (acc' & H1 & H). eapply IH; [|exact H]. apply bind_ok in H1. destruct H1 as (s & _ & H1).
  destruct (Qeq_bool s 0); [injection H1 as <-; exact U|]. apply bind_ok in H1. destruct H1 as (a & Ha & H1). injection H1 as <-.
  apply nthE_ok, nth_error_In in Ha. apply uses_bin; [exact U|]. unfold upsilon_term. apply uses_bin; [apply uses_cst|].
  apply uses_bin; [apply uses_cst|auto].
Qed.

Lemma mkfun_uses ins l : UL (fun s => In s (concat ins)) l -> mkfun ins l = Ok (mkCafun ins l).
Proof. intros H. apply mkfun_intro. intros e s He Hs. exact (H e He s Hs). Qed.

(* ---- progress ---- *)
Lemma foldM_seq_ex {T} (f : T -> nat -> res T) (I : nat -> T -> Prop) n s : I 0 s ->
  (forall k a, k < n -> I k a -> exists a', f a k = Ok a' /\ I (k + 1) a') -> exists s', foldM f (seq 0 n) s = Ok s' /\ I n s'.
Proof.
  intros H0 H. assert (G : forall len a x, I a x -> a + len <= n -> exists s', foldM f (seq a len) x = Ok s' /\ I (a + len) s').
  { induction len as [|len IH]; intros a x Hx Hl.
    - exists x. rewrite Nat.add_0_r. split; [reflexivity|exact Hx].
    - destruct (H a x ltac:(lia) Hx) as (x' & E & Hx'). destruct (IH (S a) x') as (s' & E' & Hs').
      + replace (S a) with (a + 1) by lia. exact Hx'.
      + lia.
      + exists s'. cbn [seq foldM]. rewrite E. cbn [bind]. split; [exact E'|]. replace (a + S len) with (S a + len) by lia. exact Hs'. }
  destruct (G n 0 s H0 ltac:(lia)) as (s' & E & Hs'). exists s'. auto.
Qed.
Lemma mapM_ex {A B} (f : A -> res B) l : (forall a, In a l -> exists b, f a = Ok b) -> exists r, mapM f l = Ok r.
Proof.
  induction l as [|a l IH]; intros H; cbn [mapM]; [eexists; reflexivity|].
  destruct (H a (or_introl eq_refl)) as [b Eb]. rewrite Eb. cbn [bind].
  destruct IH as [r Er]; [intros; apply H; right; assumption|]. rewrite Er. cbn. eexists; reflexivity.
Qed.
Lemma vbin_eq_len o a b : length a = length b -> exists r, vbin o a b = Ok r /\ length r = length a.
Proof.
  intros L. rewrite vbin_same by exact L. eexists. split; [reflexivity|]. rewrite map_length, combine_length. lia.
Qed.
Lemma edot_ex a b : length a = length b -> exists r, edot a b = Ok r.
Proof. intros L. unfold edot. rewrite (proj2 (Nat.eqb_eq _ _) L). eauto. Qed.
Lemma matvec_ex F v : fmat_ok F = true -> length (fm_cols F) = length v -> exists r, matvec F v = Ok r /\ length r = fm_rows F.
Proof.
  intros HF L. unfold matvec. rewrite (proj2 (Nat.eqb_eq _ _) L). eexists. split; [reflexivity|].
  unfold fmat_ok in HF. rewrite forallb_forall in HF.
  assert (G : forall cols acc v, (forall c, In c cols -> length c = fm_rows F) -> length acc = fm_rows F -> length (mv_acc acc cols v) = fm_rows F).
  { induction cols as [|c cols IH]; intros acc w HC LA; [exact LA|]. destruct w as [|e w]; [exact LA|]. cbn [mv_acc]. apply IH.
    - intros; apply HC; right; assumption.
    - rewrite map_length, combine_length, map_length, (HC c (or_introl eq_refl)). lia. }
  apply G; [|apply repeat_length]. intros c Hc. apply Nat.eqb_eq, HF, Hc.
Qed.

Lemma in_mfams f sizes s k n : nth_error sizes s = Some n -> k < n -> In (MF f s k) (concat (mfams f sizes)).
Proof.
  intros H L. apply in_concat. exists (mfam f s n). split.
  - eapply nth_error_In. apply mfams_nth, H.
  - unfold mfam. apply in_map, in_seq. lia.
Qed.
Lemma default_len_intro {A} (x : option (list A)) n d : optional_length x n -> exists l, default_len x n d = Ok l.
Proof.
  intros H. unfold default_len. destruct x as [l|]; [|eauto]. rewrite (proj2 (Nat.eqb_eq _ _) (H l eq_refl)). eauto.
Qed.
Lemma total_sumn l : total l = sumn l.
Proof. unfold total. induction l as [|a l IH]; cbn; congruence. Qed.
Lemma sumn_upto n f : sumn (map f (seq 0 n)) = upto n f.
Proof. unfold upto. symmetry. apply total_sumn. Qed.
Lemma guard_intro b e : b = true -> guard b e = Ok tt. Proof. intros ->. reflexivity. Qed.
Lemma nth_error_ext {A} (l l' : list A) : (forall i, nth_error l i = nth_error l' i) -> l = l'.
Proof.
  revert l'. induction l as [|a l IH]; intros [|b l'] H; [reflexivity|specialize (H 0); discriminate|specialize (H 0); discriminate|].
  f_equal; [specialize (H 0); cbn in H; congruence|]. apply IH. intros i. exact (H (S i)).
Qed.

Section Accept.
Variables (o : opts) (m : model).
Hypothesis WS : well_sized m.
Let nsys := n_subsystems m.
Let modes := map (n_modes m) (seq 0 nsys).
Let switches := map (n_switch m) (seq 0 nsys).

Lemma nth_switches s : s < nsys -> nth_error switches s = Some (n_switch m s).
Proof. intros H. unfold switches. rewrite (map_nth_error _ _ _ (nth_error_seq _ _ _ H)). reflexivity. Qed.

Lemma map_seq_eq {A B} (f : A -> B) (h : nat -> B) (l : list A) :
  (forall s a, nth_error l s = Some a -> f a = h s) -> map f l = map h (seq 0 (length l)).
Proof.
  intros H. apply nth_error_ext. intros i. rewrite !nth_error_map. destruct (nth_error l i) as [a|] eqn:E.
  - rewrite nth_error_seq by (eapply nth_error_Some_lt; eauto). cbn. f_equal. eauto.
  - apply nth_error_None in E. symmetry. destruct (nth_error (seq 0 (length l)) i) eqn:E2; [|reflexivity].
    apply nth_error_Some_lt in E2. rewrite seq_length in E2. lia.
Qed.

Section Intro.
Hypothesis CL : closed_model m.
Hypothesis AC : acceptable o m.

Lemma nsys_match : (match m_F m with Some F => Ok (length F) | None => do* fx <- opt_res ETypeError (m_fx m); Ok (length fx) end) = Ok nsys.
Proof.
  pose proof (ac_nsys _ _ AC) as H. fold nsys in H. unfold nsys, n_subsystems in *. destruct (m_F m); [reflexivity|].
  destruct (m_fx m); [reflexivity|lia].
Qed.
Definition the_nc : list nat := if gS_given m then [0] else switches.
Definition the_nf : list nat := match m_F m with Some _ => modes | None => repeat 1 nsys end.
Lemma c_given : gS_given m = false -> exists c, m_c m = Some c /\ nsys <= length c.
Proof.
  intros Eg. pose proof (ac_modes _ _ AC) as H. unfold nsys, n_subsystems. destruct (m_F m) as [F|].
  - destruct H as [_ H]. rewrite Eg in H. destruct H as (c & Sl & Hc & _ & _ & L & _). eauto.
  - destruct H as (_ & fx & c & sizes & Hf & Hc & _ & L & _). rewrite Hf. eauto.
Qed.
Lemma nc_ok : get_nc m nsys = Ok the_nc.
Proof.
  unfold get_nc, the_nc. gsg. change (gS_truthy m) with (gS_given m) in *; destruct (gS_given m) eqn:Eg; [reflexivity|]. destruct (c_given Eg) as (c & Hc & L). rewrite Hc. cbn [opt_res bind].
  unfold switches. apply mapM_Ok_map. intros s Hs. apply in_seq in Hs. destruct (nth_error_lt c s ltac:(lia)) as [ci Hci].
  rewrite (nthE_Some _ _ _ _ Hci). cbn. unfold n_switch. rewrite Eg, Hc, Hci. reflexivity.
Qed.

Lemma foldM_unit_intro {A} (h : unit -> A -> res unit) l : (forall u a, In a l -> h u a = Ok tt) -> foldM h l tt = Ok tt.
Proof.
  induction l as [|a l IH]; intros H; [reflexivity|]. cbn [foldM]. rewrite (H tt a (or_introl eq_refl)). cbn [bind]. apply IH.
  intros; apply H; right; assumption.
Qed.

Lemma nf_ok : sanity_checks o m nsys = Ok the_nf.
Proof.
  pose proof (ac_modes _ _ AC) as H. unfold sanity_checks, the_nf. gsg. destruct (m_F m) as [F|] eqn:EF.
  - assert (EN : map (fun f => length (fm_cols f)) F = modes).
    { unfold modes, nsys, n_subsystems. rewrite EF. apply map_seq_eq. intros s f Hf. unfold n_modes. rewrite EF, Hf. reflexivity. }
    rewrite EN. destruct H as [HF H].
    rewrite guard_intro; [cbn [bind]|]. 2: { apply forallb_forall. intros f Hf. apply forallb_forall. intros c Hc. apply Nat.eqb_eq, HF; assumption. }
    rewrite guard_intro; [cbn [bind]|].
    2: { apply Bool.negb_true_iff, Bool.not_true_is_false. intros E. apply existsb_exists in E. destruct E as (n & Hn & E). apply Nat.eqb_eq in E.
         rewrite <- EN in Hn. apply in_map_iff in Hn. destruct Hn as (f & Ef & Hf). destruct (HF f Hf). lia. }
    assert (NS : length F = nsys) by (unfold nsys, n_subsystems; rewrite EF; reflexivity).
    change (gS_truthy m) with (gS_given m) in *; destruct (gS_given m) eqn:Eg.
    + destruct H as (-> & g & Hg & Lg & Rg). rewrite Hg. cbn [guard bind].
      replace (foldM _ (combine (seq 0 (length g)) g) tt) with (Ok tt : res unit); [reflexivity|]. symmetry.
      apply foldM_unit_intro. intros u [i gi] Hi. apply In_nth_error in Hi. destruct Hi as [k Hk]. apply nth_error_combine_inv in Hk.
      destruct Hk as [K1 K2]. pose proof (nth_error_Some_lt _ _ _ K2) as Lk. rewrite nth_error_seq in K1 by exact Lk. injection K1 as <-.
      assert (nth_error modes k = Some (n_modes m k)) as Em.
      { unfold modes. rewrite (map_nth_error _ _ _ (nth_error_seq _ nsys k ltac:(lia))). reflexivity. }
      rewrite (nthE_Some _ _ _ _ Em). cbn [bind]. apply guard_intro, Nat.eqb_eq. rewrite <- (Rg k) by lia. f_equal. symmetry. apply nth_error_nth, K2.
    + destruct H as (c & Sl & Hc & HS & L & LF & R & _). rewrite Hc, HS. cbn [opt_res bind]. rewrite L, Nat.eqb_refl. cbn [guard bind].
      replace (foldM _ (combine modes Sl) tt) with (Ok tt : res unit); [reflexivity|]. symmetry.
      apply foldM_unit_intro. intros u [n Si] Hi. apply In_nth_error in Hi. destruct Hi as [k Hk]. apply nth_error_combine_inv in Hk.
      destruct Hk as [K1 K2]. cbn [fst snd]. apply guard_intro, Nat.eqb_eq. unfold modes in K1. rewrite nth_error_map in K1.
      destruct (nth_error (seq 0 nsys) k) as [k'|] eqn:E; [|discriminate]. injection K1 as <-.
      pose proof (nth_error_Some_lt _ _ _ E) as Lk. rewrite seq_length in Lk. rewrite nth_error_seq in E by exact Lk. injection E as <-.
      rewrite <- R by lia. f_equal. apply nth_error_nth, K2.
  - destruct H as (-> & fx & c & sizes & Hf & Hc & Ha & L & E1 & E2 & _). rewrite Hf, Hc, Ha. cbn [guard bind opt_res].
    rewrite E1, total_sumn, Nat.eqb_refl. reflexivity.
Qed.

Lemma shape_intro {A} (M : list (list A)) r c : length M = r -> (forall x, In x M -> length x = c) -> shape_is M r c = true.
Proof.
  intros H1 H2. unfold shape_is. rewrite H1, Nat.eqb_refl. apply forallb_forall. intros x Hx. apply Nat.eqb_eq, H2, Hx.
Qed.

Definition st_syms (s : sym) : Prop := In s (concat [mx m; mz m; mp m]).
Lemma state_st s : state_sym m s -> st_syms s.
Proof.
  unfold st_syms. cbn [concat]. rewrite app_nil_r, !in_app_iff. unfold mp. rewrite in_app_iff.
  destruct s; cbn; intros H; try contradiction; unfold mx, mz, mpt, mpg.
  - left. apply in_map, in_seq. lia.
  - right; left. apply in_map, in_seq. lia.
  - right; right; left. apply in_map, in_seq. lia.
  - right; right; right. apply in_map, in_seq. lia.
Qed.

Let z := concat (z_parts o m nsys the_nf the_nc).
Let sw_syms (s : sym) : Prop := In s (concat [mx m; z; mu_ m; mp m]).
Let fx_syms (s : sym) : Prop := In s (concat [mx m; z; mu_ m; mp m; mvg m]).
Let res_syms (s : sym) : Prop := In s (concat [z; mp m]).

Lemma mz_z s : In s (mz m) -> In s z.
Proof. intros H. unfold z. apply in_concat. exists (mz m). split; [|exact H]. unfold z_parts. cbn. auto 10. Qed.
Lemma st_sw s : st_syms s -> sw_syms s.
Proof.
  unfold st_syms, sw_syms. cbn [concat]. rewrite !app_nil_r, !in_app_iff. intros [H|[H|H]]; auto. right; left. apply mz_z, H.
Qed.
Lemma sw_fx s : sw_syms s -> fx_syms s.
Proof. unfold sw_syms, fx_syms. cbn [concat]. rewrite !app_nil_r, !in_app_iff. tauto. Qed.
Lemma z_sw s : In s z -> sw_syms s.
Proof. unfold sw_syms. cbn [concat]. rewrite !in_app_iff. auto. Qed.
Lemma z_res s : In s z -> res_syms s.
Proof. unfold res_syms. cbn [concat]. rewrite !in_app_iff. auto. Qed.
Lemma state_sw s : state_sym m s -> sw_syms s. Proof. intros H. apply st_sw, state_st, H. Qed.
Lemma control_sw s : control_sym m s -> sw_syms s.
Proof.
  unfold sw_syms. cbn [concat]. rewrite !in_app_iff. destruct s; cbn; intros H; try contradiction. right; right; left.
  unfold mu_. apply in_map, in_seq. lia.
Qed.
Lemma global_fx s : global_sym m s -> fx_syms s.
Proof.
  unfold fx_syms. cbn [concat]. rewrite !in_app_iff. destruct s; cbn; intros H; try contradiction. right; right; right; right; left.
  unfold mvg. apply in_map, in_seq. lia.
Qed.
Lemma fam_z f n s k sizes : In (concat (mfams f sizes)) (z_parts o m nsys the_nf the_nc) -> nth_error sizes s = Some n -> k < n -> In (MF f s k) z.
Proof. intros H Hn Hk. unfold z. apply in_concat. eexists. split; [exact H|]. eapply in_mfams; eauto. Qed.

Definition d_good (d : dcs) : Prop :=
  (m_F m <> None -> length (d_fx d) = m_nx m) /\ UL fx_syms (d_fx d) /\ UL sw_syms (d_gsw d) /\ UL sw_syms (d_gcv d) /\
  uses_only res_syms (d_res d) /\ UL st_syms (d_l00 d).

Lemma F_col_uses F f c : m_F m = Some F -> In f F -> In c (fm_cols f) -> UL fx_syms c.
Proof.
  intros EF Hf Hc e He. eapply uses_mono; [|exact (cl_F _ CL F f c e EF Hf Hc He)]. intros s [H|[H|H]].
  - apply sw_fx, state_sw, H.
  - apply sw_fx, control_sw, H.
  - apply global_fx, H.
Qed.
Lemma F_fmat F f : m_F m = Some F -> In f F -> fmat_ok f = true.
Proof.
  intros EF Hf. pose proof (ac_modes _ _ AC) as H. rewrite EF in H. destruct H as [H _].
  apply forallb_forall. intros c Hc. apply Nat.eqb_eq, H; assumption.
Qed.
Lemma F_nth F s : m_F m = Some F -> s < nsys -> exists f, nth_error F s = Some f /\ length (fm_cols f) = n_modes m s /\ fm_rows f = m_nx m.
Proof.
  intros EF Hs. unfold nsys, n_subsystems in Hs. rewrite EF in Hs. destruct (nth_error_lt F s Hs) as [f Hf]. exists f.
  split; [exact Hf|]. split; [unfold n_modes; rewrite EF, Hf; reflexivity|]. eapply (ws_F m WS); eauto. eapply nth_error_In; eauto.
Qed.
Lemma modes_ge2 F s : m_F m = Some F -> s < nsys -> 2 <= n_modes m s.
Proof.
  intros EF Hs. destruct (F_nth F s EF Hs) as (f & Hf & <- & _). pose proof (ac_modes _ _ AC) as H. rewrite EF in H. destruct H as [H _].
  apply H. eapply nth_error_In; eauto.
Qed.
Lemma c_uses c s ci : m_c m = Some c -> nth_error c s = Some ci -> UL (state_sym m) ci.
Proof. intros Hc Hci e He. eapply (cl_c _ CL); eauto. eapply nth_error_In; eauto. Qed.

(* Stewart *)
Section StewartIntro.
Hypothesis Ep : o_pss o = Stewart.
Variable F : list fmat.
Hypothesis EF : m_F m = Some F.

Lemma gSl_ok : exists gSl, gS_list m nsys = Ok gSl /\ forall s, s < nsys -> exists gi, nth_error gSl s = Some gi /\ length gi = n_modes m s.
Proof.
  pose proof (ac_modes _ _ AC) as H. rewrite EF in H. destruct H as [_ H]. unfold gS_list. gsg.
  assert (NS : length F = nsys) by (unfold nsys, n_subsystems; rewrite EF; reflexivity).
  change (gS_truthy m) with (gS_given m) in *; destruct (gS_given m) eqn:Eg.
  - destruct H as (_ & g & Hg & L & R). rewrite Hg. exists g. split; [reflexivity|]. intros s Hs.
    destruct (nth_error_lt g s ltac:(lia)) as [gi Hgi]. exists gi. split; [exact Hgi|]. rewrite <- R by lia. rewrite (nth_error_nth _ _ _ Hgi). reflexivity.
  - destruct H as (c & Sl & Hc & HS & L & LF & R & RF). rewrite Ep in RF. rewrite HS, Hc. cbn [opt_res bind].
    assert (X : forall s, s < nsys -> exists Si ci, nth_error Sl s = Some Si /\ nth_error c s = Some ci /\ exists gi, neg_S_c Si ci = Ok gi /\ length gi = n_modes m s).
    { intros s Hs. destruct (nth_error_lt c s ltac:(lia)) as [ci Hci]. destruct (nth_error_lt Sl s ltac:(lia)) as [Si HSi].
      exists Si, ci. split; [exact HSi|]. split; [exact Hci|].
      assert (LS : length Si = n_modes m s). { rewrite <- R by lia. rewrite (nth_error_nth _ _ _ HSi). reflexivity. }
      assert (Y : exists gi, neg_S_c Si ci = Ok gi).
      { unfold neg_S_c. apply mapM_ex. intros row Hr. apply edot_ex. rewrite map_length. apply In_nth_error in Hr. destruct Hr as [i Hr].
        pose proof (nth_error_Some_lt _ _ _ Hr) as Li. rewrite LS in Li. pose proof (RF s i Hs Li) as Y. unfold user_S in Y.
        rewrite HS, (nth_error_nth _ _ _ HSi), (nth_error_nth _ _ _ Hr) in Y. rewrite Y. unfold n_switch. rewrite Eg, Hc, Hci. reflexivity. }
      destruct Y as [gi Y]. exists gi. split; [exact Y|]. apply mapM_length in Y. congruence. }
    destruct (mapM_ex (fun i => do* Si <- nthE EIndexError Sl i; do* ci <- nthE EIndexError c i; neg_S_c Si ci) (seq 0 nsys)) as [gSl HG].
    { intros s Hs. apply in_seq in Hs. destruct (X s ltac:(lia)) as (Si & ci & A & B & gi & C & _).
      rewrite (nthE_Some _ _ _ _ A), (nthE_Some _ _ _ _ B). cbn [bind]. eauto. }
    exists gSl. split; [exact HG|]. intros s Hs. destruct (X s Hs) as (Si & ci & A & B & gi & C & D). exists gi. split; [|exact D].
    destruct (mapM_nth _ _ _ s s HG) as (b & Hb & E); [rewrite nth_error_seq by exact Hs; reflexivity|].
    rewrite (nthE_Some _ _ _ _ A), (nthE_Some _ _ _ _ B) in E. cbn [bind] in E. congruence.
Qed.
Lemma gSl_uses gSl gi : gS_list m nsys = Ok gSl -> In gi gSl -> UL (state_sym m) gi.
Proof.
  unfold gS_list. gsg. change (gS_truthy m) with (gS_given m) in *; destruct (gS_given m).
  - intros H Hg e He. apply opt_res_ok in H. eapply (cl_gS _ CL); eauto.
  - intros H Hg. apply bind_ok in H. destruct H as (Sl & HS & H). apply bind_ok in H. destruct H as (c & Hc & H). apply opt_res_ok in Hc.
    destruct (mapM_In_inv _ _ _ _ H Hg) as (s & _ & X). apply bind_ok in X. destruct X as (Si & HSi & X).
    apply bind_ok in X. destruct X as (ci & Hci & X). apply nthE_ok in Hci. unfold neg_S_c in X. intros e He.
    destruct (mapM_In_inv _ _ _ _ X He) as (row & _ & Y). eapply uses_edot; [| |exact Y].
    + intros x Hx. apply in_map_iff in Hx. destruct Hx as (q & <- & _). apply uses_cst.
    + eapply c_uses; eauto.
Qed.

Lemma nf_nth s : s < nsys -> nth_error the_nf s = Some (n_modes m s).
Proof.
  intros Hs. unfold the_nf. rewrite EF. unfold modes. rewrite (map_nth_error _ _ _ (nth_error_seq _ _ _ Hs)). reflexivity.
Qed.

Lemma stewart_step_ok gSl d k : gS_list m nsys = Ok gSl -> 
  (forall s, s < nsys -> exists gi, nth_error gSl s = Some gi /\ length gi = n_modes m s) ->
  k < nsys -> d_good d -> exists d', stewart_step F gSl the_nf d k = Ok d' /\ d_good d'.
Proof.
  intros Hg Hgl Hk (D1 & D2 & D3 & D4 & D5 & D6). unfold stewart_step.
  destruct (F_nth F k EF Hk) as (f & Hf & Lf & Rf). destruct (Hgl k Hk) as (gi & Hgi & Lg).
  rewrite (nthE_Some _ _ _ _ Hf), (nthE_Some _ _ _ _ (nf_nth k Hk)), (nthE_Some _ _ _ _ Hgi). cbn [bind].
  pose proof (gSl_uses gSl gi Hg (nth_error_In _ _ Hgi)) as Ug.
  pose proof (UL_mono _ _ _ state_sw Ug) as Ugs.
  assert (Uth : forall s, In s (mfam FTheta k (n_modes m k)) -> In s z).
  { intros s Hs. apply in_map_iff in Hs. destruct Hs as (i & <- & Hi). apply in_seq in Hi.
    eapply fam_z; [|apply nf_nth, Hk|lia]. unfold z_parts. rewrite Ep. cbn. auto. }
  assert (Ula : forall s, In s (mfam FLam k (n_modes m k)) -> In s z).
  { intros s Hs. apply in_map_iff in Hs. destruct Hs as (i & <- & Hi). apply in_seq in Hi.
    eapply fam_z; [|apply nf_nth, Hk|lia]. unfold z_parts. rewrite Ep. cbn. auto. }
  assert (Umu : forall s, In s (mfam FMu k 1) -> In s z).
  { intros s Hs. apply in_map_iff in Hs. destruct Hs as (i & <- & Hi). apply in_seq in Hi.
    eapply fam_z with (n := 1) (sizes := repeat 1 nsys); [|apply nth_error_repeat', Hk|lia]. unfold z_parts. rewrite Ep. cbn. auto 10. }
  destruct (matvec_ex f (vars (mfam FTheta k (n_modes m k))) (F_fmat F f EF (nth_error_In _ _ Hf))) as (ft & Hft & Lft).
  { rewrite vars_mfam_length. exact Lf. }
  rewrite Hft. cbn [bind].
  destruct (vbin_eq_len BAdd (d_fx d) ft) as (fx & Hfx & Lfx). { rewrite D1, Lft, Rf by congruence. reflexivity. }
  rewrite Hfx. cbn [bind].
  destruct (vbin_eq_len BSub gi (vars (mfam FLam k (n_modes m k)))) as (g1 & Hg1 & Lg1). { rewrite vars_mfam_length. exact Lg. }
  rewrite Hg1. cbn [bind]. change (vars (mfam FMu k 1)) with [EVar (MF FMu k 0)]. rewrite vbin_scalar_r. cbn [bind].
  destruct (edot_ex (vars (mfam FLam k (n_modes m k))) (vars (mfam FTheta k (n_modes m k)))) as (dt & Hdt). { rewrite !vars_mfam_length. reflexivity. }
  rewrite Hdt. cbn [bind].
  destruct gi as [|g0 gi]; [pose proof (modes_ge2 F k EF Hk); cbn in Lg; lia|].
  destruct (emin (g0 :: gi)) as [mn|] eqn:Emn; [|discriminate]. cbn [bind]. rewrite vbin_scalar_r. cbn [bind].
  eexists. split; [reflexivity|]. unfold d_good. cbn [d_fx d_gsw d_gcv d_res d_l00].
  split; [intros N; rewrite Lfx; auto|]. split; [|split; [|split; [|split]]].
  - eapply UL_vbin; [exact D2| |exact Hfx]. eapply UL_matvec; [| |exact Hft].
    + intros c Hc. eapply F_col_uses; eauto. eapply nth_error_In; eauto.
    + apply UL_vars. intros s Hs. apply sw_fx, z_sw, Uth, Hs.
  - apply UL_app; [exact D3|]. apply UL_map.
    + intros e He. apply uses_bin; [exact He|]. apply uses_var, z_sw, Umu. left. reflexivity.
    + eapply UL_vbin; [exact Ugs| |exact Hg1]. apply UL_vars. intros s Hs. apply z_sw, Ula, Hs.
  - apply UL_app; [exact D4|]. apply UL_cons; [|apply UL_nil]. apply uses_bin; [|apply uses_cst]. apply uses_esum, UL_vars.
    intros s Hs. apply z_sw, Uth, Hs.
  - apply uses_bin; [exact D5|]. apply uses_un. eapply uses_edot; [| |exact Hdt]; apply UL_vars; intros s Hs; apply z_res; auto.
  - apply UL_app; [exact D6|]. pose proof (UL_mono _ _ _ state_st Ug) as Ugt. apply UL_map; [|exact Ugt].
    intros e He. apply uses_bin; [exact He|]. eapply uses_emin; eauto.
Qed.
Lemma stewart_fold_ok gSl : gS_list m nsys = Ok gSl -> 
  (forall s, s < nsys -> exists gi, nth_error gSl s = Some gi /\ length gi = n_modes m s) ->
  exists d, foldM (stewart_step F gSl the_nf) (seq 0 nsys) (mkDcs (repeat (ECst 0) (m_nx m)) [] [] (ECst 0) []) = Ok d /\ d_good d.
Proof.
  intros Hg Hgl. apply (foldM_seq_ex _ (fun _ d => d_good d)).
  - unfold d_good. cbn [d_fx d_gsw d_gcv d_res d_l00]. split; [intros _; apply repeat_length|]. split; [apply UL_repeat|].
    split; [apply UL_nil|]. split; [apply UL_nil|]. split; [apply uses_cst|apply UL_nil].
  - intros k a Hk Ha. apply stewart_step_ok; assumption.
Qed.
End StewartIntro.

(* Step *)
Section StepIntro.
Hypothesis Ep : o_pss o = Step.
Hypothesis NG : m_F m = None -> gS_given m = false.

Lemma no_gS : gS_given m = false.
Proof.
  destruct (m_F m) as [F|] eqn:EF; [|auto]. pose proof (ac_modes _ _ AC) as H. rewrite EF in H. destruct H as [_ H].
  change (gS_truthy m) with (gS_given m) in *; destruct (gS_given m); [|reflexivity]. destruct H as [H _]. congruence.
Qed.
Lemma al_nth s : s < nsys -> nth_error (alpha_vars o m the_nc) s = Some (mfam FAlpha s (n_switch m s)).
Proof.
  pose proof no_gS as NGS. intros Hs. unfold alpha_vars. rewrite Ep. pose proof (ac_modes _ _ AC) as H. destruct (m_alpha m) as [sizes|] eqn:EA.
  - apply mfams_nth. destruct (m_F m) as [F|] eqn:EF.
    + destruct H as [_ H]. rewrite NGS, Ep in H. destruct H as (c & Sl & _ & _ & _ & _ & _ & _ & H & _). apply (H sizes EA).
      unfold nsys, n_subsystems in Hs. rewrite EF in Hs. exact Hs.
    + destruct H as (_ & fx & c & sizes' & Hf & _ & Ha & _ & _ & _ & H). assert (sizes = sizes') by congruence. subst sizes'. apply H.
      unfold nsys, n_subsystems in Hs. rewrite EF, Hf in Hs. exact Hs.
  - apply mfams_nth. unfold the_nc. rewrite NGS. apply nth_switches, Hs.
Qed.
Lemma nc_nth s : s < nsys -> nth_error the_nc s = Some (n_switch m s).
Proof. intros Hs. unfold the_nc. rewrite no_gS. apply nth_switches, Hs. Qed.
Lemma al_z s i : s < nsys -> i < n_switch m s -> In (MF FAlpha s i) z.
Proof.
  intros Hs Hi. unfold z. apply in_concat. exists (concat (alpha_vars o m the_nc)). split; [unfold z_parts; cbn; auto 10|].
  apply in_concat. exists (mfam FAlpha s (n_switch m s)). split; [eapply nth_error_In, al_nth, Hs|]. apply in_map, in_seq. lia.
Qed.

Lemma ups_ok F : m_F m = Some F -> exists ups, get_upsilon m (alpha_vars o m the_nc) nsys = Ok ups /\
  (forall s, s < nsys -> exists u, nth_error ups s = Some u /\ length u = n_modes m s /\ UL sw_syms u).
Proof.
  intros EF. pose proof (ac_modes _ _ AC) as H. rewrite EF in H. destruct H as [_ H]. rewrite no_gS, Ep in H.
  destruct H as (c & Sl & Hc & HS & L & LF & R & HN & _ & HZ).
  assert (NS : length F = nsys) by (unfold nsys, n_subsystems; rewrite EF; reflexivity).
  unfold get_upsilon. rewrite HS. cbn [opt_res bind].
  assert (X : forall s, s < nsys -> exists Si u, nth_error Sl s = Some Si /\ upsilon_col Si (vars (mfam FAlpha s (n_switch m s))) = Ok u /\
     length u = n_modes m s /\ UL sw_syms u).
  { intros s Hs. destruct (nth_error_lt Sl s ltac:(lia)) as [Si HSi]. exists Si.
    assert (LS : length Si = n_modes m s). { rewrite <- R by lia. rewrite (nth_error_nth _ _ _ HSi). reflexivity. }
    pose proof (modes_ge2 F s EF Hs) as G2. unfold upsilon_col. destruct Si as [|r0 Si0] eqn:ESi; [cbn in LS; lia|]. rewrite <- ESi in *. 
    replace (ncols Si) with (Ok (length r0)) by (rewrite ESi; reflexivity). cbn [bind].
    assert (RL : forall r, In r Si -> length r = length r0).
    { intros r Hr. apply (ws_S m WS Sl HS Si (nth_error_In _ _ HSi)); [exact Hr|rewrite ESi; left; reflexivity]. }
    destruct (mapM_ex (fun row => upsilon_row row (vars (mfam FAlpha s (n_switch m s))) (length r0)) Si) as [u Hu].
    { intros row Hr. apply In_nth_error in Hr. destruct Hr as [i Hr]. unfold upsilon_row.
      destruct (foldM_seq_ex (fun acc k => do* q <- nthE EIndexError row k;
           if Qeq_bool q 0 then Ok acc
           else (do* a <- nthE ECasadi (vars (mfam FAlpha s (n_switch m s))) k; Ok (EBin BMul acc (upsilon_term q a))))
          (fun _ _ => True) (length r0) (ECst 1) I) as (e & He & _); [|eauto].
      intros k a Hk _. destruct (nth_error_lt row k) as [q Hq]. { rewrite (RL row (nth_error_In _ _ Hr)). exact Hk. }
      rewrite (nthE_Some _ _ _ _ Hq). cbn [bind]. destruct (Qeq_bool q 0) eqn:E; [eauto|].
      assert (Hks : k < n_switch m s).
      { apply (HZ s i k); [lia|]. unfold sign, user_S. rewrite HS, (nth_error_nth _ _ _ HSi), (nth_error_nth _ _ _ Hr), (nth_error_nth _ _ _ Hq).
        apply Qeq_bool_neq, E. }
      destruct (nth_error_lt (vars (mfam FAlpha s (n_switch m s))) k) as [al Hal]. { rewrite vars_mfam_length. exact Hks. }
      rewrite (nthE_Some _ _ _ _ Hal). cbn [bind]. eauto. }
    exists u. split; [exact HSi|]. split; [exact Hu|]. split; [apply mapM_length in Hu; congruence|].
    intros e He. destruct (mapM_In_inv _ _ _ _ Hu He) as (row & _ & Y). unfold upsilon_row in Y.
    eapply uses_upsilon; [|apply uses_cst|exact Y]. apply UL_vars. intros y Hy. apply in_map_iff in Hy. destruct Hy as (i & <- & Hi).
    apply in_seq in Hi. apply z_sw, al_z; [exact Hs|lia]. }
  destruct (mapM_ex (fun i => do* Si <- nthE EIndexError Sl i; do* ai <- nthE EIndexError (alpha_vars o m the_nc) i; upsilon_col Si (vars ai)) (seq 0 nsys)) as [ups Hu].
  { intros s Hs. apply in_seq in Hs. destruct (X s ltac:(lia)) as (Si & u & A & B & _).
    rewrite (nthE_Some _ _ _ _ A), (nthE_Some _ _ _ _ (al_nth s ltac:(lia))). cbn [bind]. eauto. }
  rewrite Hu. cbn [bind].
  assert (Y : forall s, s < nsys -> exists u, nth_error ups s = Some u /\ length u = n_modes m s /\ UL sw_syms u).
  { intros s Hs. destruct (X s Hs) as (Si & u & A & B & C). exists u. split; [|exact C].
    destruct (mapM_nth _ _ _ s s Hu) as (b & Hb & E); [rewrite nth_error_seq by exact Hs; reflexivity|].
    rewrite (nthE_Some _ _ _ _ A), (nthE_Some _ _ _ _ (al_nth s Hs)) in E. cbn [bind] in E. congruence. }
  exists ups. split; [|exact Y]. rewrite guard_intro; [reflexivity|].
  pose proof (mapM_length _ _ _ Hu) as Lu. rewrite seq_length in Lu.
  assert (Z : forall u, In u ups -> length u = n_modes m 0).
  { intros u Hi. apply In_nth_error in Hi. destruct Hi as [s Hi]. pose proof (nth_error_Some_lt _ _ _ Hi) as Ls.
    destruct (Y s ltac:(lia)) as (u' & A & B & _). assert (u' = u) by congruence. subst. rewrite B. apply HN. lia. }
  unfold all_len_eq. destruct ups as [|u0 us]; [reflexivity|]. apply forallb_forall. intros w Hw. apply Nat.eqb_eq.
  rewrite (Z w), (Z u0); [reflexivity|left; reflexivity|right; exact Hw].
Qed.

Lemma step_step_ok ups c d k : m_c m = Some c -> nsys <= length c ->
  (forall F, m_F m = Some F -> forall s, s < nsys -> exists u, nth_error ups s = Some u /\ length u = n_modes m s /\ UL sw_syms u) ->
  k < nsys -> d_good d -> exists d', step_step (m_F m) ups c (alpha_vars o m the_nc) the_nc d k = Ok d' /\ d_good d'.
Proof.
  intros Hc Lc Hups Hk (D1 & D2 & D3 & D4 & D5 & D6). unfold step_step.
  assert (X : exists fx, (match m_F m with
            | Some F => do* Fi <- nthE EIndexError F k; do* u <- nthE ECasadi ups k; do* ft <- matvec Fi u; vbin BAdd (d_fx d) ft
            | None => Ok (d_fx d) end) = Ok fx /\ (m_F m <> None -> length fx = m_nx m) /\ UL fx_syms fx).
  { destruct (m_F m) as [F|] eqn:EF; [|exists (d_fx d); split; [reflexivity|split; [exact D1|exact D2]]].
    destruct (F_nth F k EF Hk) as (f & Hf & Lf & Rf). destruct (Hups F eq_refl k Hk) as (u & Hu & Lu & Uu).
    rewrite (nthE_Some _ _ _ _ Hf), (nthE_Some _ _ _ _ Hu). cbn [bind].
    destruct (matvec_ex f u (F_fmat F f EF (nth_error_In _ _ Hf)) ltac:(congruence)) as (ft & Hft & Lft). rewrite Hft. cbn [bind].
    destruct (vbin_eq_len BAdd (d_fx d) ft) as (fx & Hfx & Lfx). { rewrite D1, Lft, Rf by congruence. reflexivity. }
    exists fx. split; [exact Hfx|]. split; [intros _; rewrite Lfx; apply D1; congruence|].
    eapply UL_vbin; [exact D2| |exact Hfx]. eapply UL_matvec; [| |exact Hft].
    - intros cc Hcc. eapply F_col_uses; eauto. eapply nth_error_In; eauto.
    - eapply UL_mono; [apply sw_fx|exact Uu]. }
  destruct X as (fx & -> & Lfx & Ufx). cbn [bind].
  destruct (nth_error_lt c k ltac:(lia)) as [ci Hci].
  rewrite (nthE_Some _ _ _ _ (al_nth k Hk)), (nthE_Some _ _ _ _ Hci), (nthE_Some _ _ _ _ (nc_nth k Hk)). cbn [bind].
  assert (Lci : length ci = n_switch m k). { unfold n_switch. rewrite no_gS, Hc, Hci. reflexivity. }
  pose proof (c_uses c k ci Hc Hci) as Uc.
  assert (Uln : forall s, In s (mfam FLn k (n_switch m k)) -> In s z).
  { intros s Hs. apply in_map_iff in Hs. destruct Hs as (i & <- & Hi). apply in_seq in Hi.
    eapply fam_z; [|apply nc_nth, Hk|lia]. unfold z_parts. rewrite Ep. cbn. auto 10. }
  assert (Ulp : forall s, In s (mfam FLp k (n_switch m k)) -> In s z).
  { intros s Hs. apply in_map_iff in Hs. destruct Hs as (i & <- & Hi). apply in_seq in Hi.
    eapply fam_z; [|apply nc_nth, Hk|lia]. unfold z_parts. rewrite Ep. cbn. auto 10. }
  assert (Ual : forall s, In s (mfam FAlpha k (n_switch m k)) -> In s z).
  { intros s Hs. apply in_map_iff in Hs. destruct Hs as (i & <- & Hi). apply in_seq in Hi. apply al_z; [exact Hk|lia]. }
  destruct (vbin_eq_len BSub ci (vars (mfam FLp k (n_switch m k)))) as (g1 & Hg1 & Lg1). { rewrite vars_mfam_length. exact Lci. }
  rewrite Hg1. cbn [bind].
  destruct (vbin_eq_len BAdd g1 (vars (mfam FLn k (n_switch m k)))) as (g2 & Hg2 & Lg2). { rewrite vars_mfam_length. congruence. }
  rewrite Hg2. cbn [bind].
  destruct (edot_ex (vars (mfam FLn k (n_switch m k))) (vars (mfam FAlpha k (n_switch m k)))) as (r1 & Hr1). { rewrite !vars_mfam_length. reflexivity. }
  rewrite Hr1. cbn [bind].
  destruct (vbin_eq_len BSub (repeat (ECst 1) (n_switch m k)) (vars (mfam FAlpha k (n_switch m k)))) as (oma & Ho & Lo). { rewrite vars_mfam_length, repeat_length. reflexivity. }
  rewrite Ho. cbn [bind].
  destruct (edot_ex (vars (mfam FLp k (n_switch m k))) oma) as (r2 & Hr2). { rewrite vars_mfam_length, Lo, repeat_length. reflexivity. }
  rewrite Hr2. cbn [bind]. eexists. split; [reflexivity|]. unfold d_good. cbn [d_fx d_gsw d_gcv d_res d_l00].
  split; [exact Lfx|]. split; [exact Ufx|]. split; [|split; [exact D4|split]].
  - apply UL_app; [exact D3|]. eapply UL_vbin; [| |exact Hg2].
    + eapply UL_vbin; [|  |exact Hg1]; [eapply UL_mono; [apply state_sw|exact Uc]|]. apply UL_vars. intros s Hs. apply z_sw, Ulp, Hs.
    + apply UL_vars. intros s Hs. apply z_sw, Uln, Hs.
  - assert (Z : forall l, (forall s, In s l -> In s z) -> UL res_syms (vars l)) by (intros l Hl; apply UL_vars; intros s Hs; apply z_res; auto).
    apply uses_bin; [apply uses_bin; [exact D5|]|].
    + eapply uses_edot; [| |exact Hr1]; apply Z; assumption.
    + eapply uses_edot; [| |exact Hr2]; [apply Z; assumption|]. eapply UL_vbin; [apply UL_repeat| |exact Ho]. apply Z; assumption.
  - pose proof (UL_mono _ _ _ state_st Uc) as Uct. apply UL_app; [exact D6|]. apply UL_app; (apply UL_map; [|exact Uct]); intros e He.
    + apply uses_un, uses_bin; [exact He|apply uses_cst].
    + apply uses_bin; [exact He|apply uses_cst].
Qed.
Lemma step_fold_ok ups c fx0 : m_c m = Some c -> nsys <= length c ->
  (forall F, m_F m = Some F -> forall s, s < nsys -> exists u, nth_error ups s = Some u /\ length u = n_modes m s /\ UL sw_syms u) ->
  (m_F m <> None -> length fx0 = m_nx m) -> UL fx_syms fx0 ->
  exists d, foldM (step_step (m_F m) ups c (alpha_vars o m the_nc) the_nc) (seq 0 nsys) (mkDcs fx0 [] [] (ECst 0) []) = Ok d /\ d_good d.
Proof.
  intros Hc Lc Hu Lf Uf. apply (foldM_seq_ex _ (fun _ d => d_good d)).
  - unfold d_good. cbn [d_fx d_gsw d_gcv d_res d_l00]. split; [exact Lf|]. split; [exact Uf|].
    split; [apply UL_nil|]. split; [apply UL_nil|]. split; [apply uses_cst|apply UL_nil].
  - intros k a Hk Ha. apply step_step_ok; assumption.
Qed.
End StepIntro.

Lemma UL1 (P : sym -> Prop) e : uses_only P e -> UL P [e].
Proof. intros H. apply UL_cons; [exact H|apply UL_nil]. Qed.

Lemma preprocess_accepts : (m_F m = None -> gS_given m = false) -> exists pm, preprocess_model o m = Ok pm.
Proof.
  intros NG. unfold preprocess_model. rewrite nsys_match. cbn [bind].
  pose proof (ac_nsys _ _ AC) as Hpos. fold nsys in Hpos.
  rewrite guard_intro by (apply Bool.negb_true_iff, Nat.eqb_neq; lia). cbn [bind].
  destruct (default_len_intro _ _ 0%Q (ac_z0 _ _ AC)) as [z0 ->]. cbn [bind].
  destruct (default_len_intro _ _ NInf (ac_lbz _ _ AC)) as [lbz ->]. cbn [bind].
  destruct (default_len_intro _ _ PInf (ac_ubz _ _ AC)) as [ubz ->]. cbn [bind].
  rewrite nc_ok. cbn [bind]. rewrite nf_ok. cbn [bind].
  rewrite guard_intro by (apply Nat.eqb_eq, (ac_pg _ _ AC)). cbn [bind]. cbv zeta.
  rewrite guard_intro.
  2: { destruct (m_ptv_val m) as [M|] eqn:EM.
       - destruct (ac_ptv _ _ AC M EM). apply shape_intro; assumption.
       - apply shape_intro; [apply repeat_length|]. intros x Hx. apply repeat_spec in Hx. subst. apply repeat_length. }
  cbn [bind].
  assert (Zz : concat (match o_pss o with Stewart => mfams FTheta the_nf | Step => [] end) ++
     concat (match o_pss o with Stewart => mfams FLam the_nf | Step => [] end) ++
     concat (match o_pss o with Stewart => mfams FMu (repeat 1 nsys) | Step => [] end) ++
     concat (alpha_vars o m the_nc) ++
     concat (match o_pss o with Stewart => [] | Step => mfams FLn the_nc end) ++
     concat (match o_pss o with Stewart => [] | Step => mfams FLp the_nc end) ++ mz m = z).
  { unfold z, z_parts. cbn [concat]. rewrite app_nil_r. reflexivity. }
  fold (alpha_vars o m the_nc). rewrite Zz. clear Zz.
  (* the remaining functions exist for every good accumulator *)
  assert (Fin : forall d gSl (R : list cafun -> cafun -> cafun -> cafun -> option cafun -> cafun -> cafun -> option cafun -> option cafun -> pmodel),
     d_good d -> (o_pss o = Stewart -> gS_list m nsys = Ok gSl /\ forall gi, In gi gSl -> gi <> []) ->
     exists pm, (do* fxf <- mkfun [mx m; z; mu_ m; mp m; mvg m] (d_fx d);
       do* gswf <- mkfun [mx m; z; mu_ m; mp m] (d_gsw d);
       do* gzf <- mkfun [mx m; z; mu_ m; mp m] (d_gsw d ++ d_gcv d ++ m_gz m);
       do* tf <- match m_tvar m with
            | Some t => do* f <- mkfun [mx m] [t]; Ok (Some f)
            | None => if o_time_freezing o then Err EValueError else Ok None
            end;
       do* l00f <- mkfun [mx m; mz m; mp m] (d_l00 d);
       do* cf <- mkfun [z; mp m] [d_res d];
       do* mu00f <- match o_pss o with
               | Stewart => do* mins <- mapM emin gSl;
                            do* f <- mkfun [mx m; mz m; mp m] mins; Ok (Some f)
               | Step => Ok None
               end;
       do* gSf <- match o_pss o with
             | Stewart => do* f <- mkfun [mx m; mz m; mp m] (concat gSl); Ok (Some f)
             | Step => Ok None
             end;
       Ok (R [] fxf gswf gzf tf l00f cf mu00f gSf)) = Ok pm).
  { intros d gSl R (D1 & D2 & D3 & D4 & D5 & D6) HG.
    rewrite (mkfun_uses _ _ D2). cbn [bind]. rewrite (mkfun_uses _ _ D3). cbn [bind].
    rewrite mkfun_uses. 2: { apply UL_app; [exact D3|]. apply UL_app; [exact D4|]. intros e He. eapply uses_mono; [|exact (cl_gz _ CL e He)].
      intros s [H|H]; [apply state_sw, H|apply control_sw, H]. }
    cbn [bind].
    assert (T : exists tf, match m_tvar m with
            | Some t => do* f <- mkfun [mx m] [t]; Ok (Some f)
            | None => if o_time_freezing o then Err EValueError else Ok None
            end = Ok tf).
    { destruct (m_tvar m) as [t|] eqn:Et.
      - rewrite mkfun_uses; [cbn; eauto|]. apply UL1. eapply uses_mono; [|exact (cl_t _ CL t Et)]. intros s (i & -> & Hi). cbn [concat].
        rewrite app_nil_r. unfold mx. apply in_map, in_seq. lia.
      - destruct (o_time_freezing o) eqn:Etf; [|eauto]. exfalso. apply (ac_t _ _ AC Etf). exact Et. }
    destruct T as [tf ->]. cbn [bind]. rewrite (mkfun_uses _ _ D6). cbn [bind]. rewrite (mkfun_uses _ _ (UL1 _ _ D5)). cbn [bind].
    destruct (o_pss o) eqn:Ep; [|cbn [bind]; eauto]. destruct (HG eq_refl) as [Hg Hne].
    destruct (mapM_ex emin gSl) as [mins Hm].
    { intros gi Hgi. specialize (Hne gi Hgi). destruct gi; [congruence|]. cbn. eauto. }
    assert (UG : forall gi, In gi gSl -> UL st_syms gi) by (intros gi Hgi; eapply UL_mono; [apply state_st|eapply gSl_uses; eauto]).
    rewrite Hm. cbn [bind]. rewrite mkfun_uses.
    2: { intros e He. destruct (mapM_In_inv _ _ _ _ Hm He) as (gi & Hgi & E). eapply uses_emin; [|exact E]. apply UG, Hgi. }
    cbn [bind]. rewrite mkfun_uses; [cbn; eauto|]. intros e He. apply in_concat in He. destruct He as (gi & Hgi & He). exact (UG gi Hgi e He). }
  pose proof (ac_modes _ _ AC) as HM. destruct (o_pss o) eqn:Ep.
  - destruct (m_F m) as [F|] eqn:EF; [|destruct HM as [HM _]; congruence].
    destruct (gSl_ok Ep F EF) as (gSl & Hg & Hgl). rewrite Hg. cbn [bind].
    destruct (stewart_fold_ok Ep F EF gSl Hg Hgl) as (d & Hd & Gd). cbn [opt_res bind]. rewrite Hd. cbn [bind].
    eapply (Fin d gSl (fun _ a b c e f g h i => _)); [exact Gd|]. intros _. split; [exact Hg|].
    intros gi Hgi E. subst gi. apply In_nth_error in Hgi. destruct Hgi as [s Hs].
    assert (Ls : s < nsys).
    { apply nth_error_Some_lt in Hs. unfold gS_list in Hg. gsg. destruct HM as [_ HM]. change (gS_truthy m) with (gS_given m) in *; destruct (gS_given m).
      - destruct HM as (_ & g & Hg' & L & _). rewrite Hg' in Hg. injection Hg as <-. unfold nsys, n_subsystems. rewrite EF. lia.
      - apply bind_ok in Hg. destruct Hg as (? & _ & Hg). apply bind_ok in Hg. destruct Hg as (? & _ & Hg). apply mapM_length in Hg.
        rewrite seq_length in Hg. lia. }
    destruct (Hgl s Ls) as (gi & E1 & E2). assert (gi = []) by congruence. subst. pose proof (modes_ge2 F s EF Ls). cbn in E2. lia.
  - cbn [bind]. destruct (c_given (no_gS Ep NG)) as (c & Hc & Lc). pose proof (ups_ok Ep NG) as UO.
    assert (X : exists ups, (match m_F m with Some _ => get_upsilon m (alpha_vars o m the_nc) nsys | None => Ok [] end) = Ok ups /\
      forall F, m_F m = Some F -> forall s, s < nsys -> exists u, nth_error ups s = Some u /\ length u = n_modes m s /\ UL sw_syms u).
    { destruct (m_F m) as [F|] eqn:EF; [|exists []; split; [reflexivity|intros; discriminate]].
      destruct (UO F eq_refl) as (ups & A & B). exists ups. split; [exact A|]. intros _ _. exact B. }
    destruct X as (ups & -> & Hups). cbn [bind].
    assert (Y : exists fx0, (match m_F m with
             | Some _ => Ok (repeat (ECst 0) (m_nx m))
             | None =>
                 do* fx <- opt_res ETypeError (m_fx m);
                 do* _ <- guard (length (concat (alpha_vars o m the_nc)) =? sumn the_nc) ECasadi;
                 Ok (concat fx)
             end) = Ok fx0 /\ (m_F m <> None -> length fx0 = m_nx m) /\ UL fx_syms fx0).
    { destruct (m_F m) as [F|] eqn:EF.
      - eexists. split; [reflexivity|]. split; [intros _; apply repeat_length|apply UL_repeat].
      - destruct HM as (_ & fx & c' & sizes & Hf & Hc' & Ha & L1 & L2 & L3 & L4). rewrite Hf. cbn [opt_res bind].
        assert (NS : nsys = length fx) by (unfold nsys, n_subsystems; rewrite EF, Hf; reflexivity).
        assert (La : length (concat (alpha_vars o m the_nc)) = total sizes).
        { unfold alpha_vars. rewrite Ha. rewrite length_concat. transitivity (sumn sizes); [|symmetry; apply total_sumn]. f_equal.
          unfold mfams. rewrite map_map. clear. assert (G : forall a, map (fun x => length (mfam FAlpha (fst x) (snd x))) (combine (seq a (length sizes)) sizes) = sizes).
          { induction sizes as [|n l IH]; intros a; [reflexivity|]. cbn [length seq combine map fst snd]. rewrite IH. f_equal.
            unfold mfam. rewrite map_length, seq_length. reflexivity. }
          apply G. }
        rewrite guard_intro. 2: { apply Nat.eqb_eq. rewrite La, L3. unfold the_nc. rewrite (NG eq_refl). unfold switches. rewrite sumn_upto, NS. reflexivity. }
        cbn [bind]. eexists. split; [reflexivity|]. split; [congruence|]. intros e He. apply in_concat in He. destruct He as (v & Hv & He).
        eapply uses_mono; [|exact (cl_fx _ CL fx v e Hf Hv He)]. intros s [H|[H|[H|H]]].
        + apply sw_fx, state_sw, H.
        + apply sw_fx, control_sw, H.
        + apply global_fx, H.
        + apply sw_fx, z_sw. destruct s; try contradiction. destruct f; try contradiction. destruct H as (sz & n & E1 & E2 & E3).
          unfold z. apply in_concat. exists (concat (alpha_vars o m the_nc)). split; [unfold z_parts; cbn; auto 10|].
          unfold alpha_vars. rewrite E1. eapply in_mfams; eauto. }
    destruct Y as (fx0 & -> & Lf & Uf). cbn [bind]. rewrite Hc. cbn [opt_res bind].
    destruct (step_fold_ok Ep NG ups c fx0 Hc Lc Hups Lf Uf) as (d & Hd & Gd). rewrite Hd. cbn [bind].
    eapply (Fin d [] (fun _ a b c e f g h i => _)); [exact Gd|]. intros; discriminate.
Qed.
End Intro.
End Accept.
