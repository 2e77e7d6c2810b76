(* Accepted models satisfy the stated conditions (C33, elimination direction). *)
From Coq Require Import List Arith Lia Bool QArith Reals.
From Verif Require Import Base Sx Utils Opts Model Spec Lib Fo_proofs Sx_proofs Model_proofs Fesd Sem_proofs Dcs_proofs Spec3 Accept_proofs.
Import ListNotations.
Local Open Scope nat_scope.

Lemma foldM_each {T A} (f : T -> A -> res T) l : forall a b, foldM f l a = Ok b -> forall x, In x l -> exists s s', f s x = Ok s'.
Proof.
  induction l as [|y l IH]; intros a b H x Hx; [destruct Hx|]. cbn [foldM] in H. apply bind_ok in H. destruct H as (a' & H1 & H2).
  destruct Hx as [<-|Hx]; [eauto|eapply IH; eauto].
Qed.
Lemma edot_len a b e : edot a b = Ok e -> length a = length b.
Proof. unfold edot. destruct (length a =? length b) eqn:E; [|discriminate]. intros _. apply Nat.eqb_eq, E. Qed.
Lemma matvec_len F v r : matvec F v = Ok r -> length (fm_cols F) = length v.
Proof. unfold matvec. destruct (length (fm_cols F) =? length v) eqn:E; [|discriminate]. intros _. apply Nat.eqb_eq, E. Qed.

Definition no_gS_in_step (o : opts) (m : model) : Prop := o_pss o = Step -> gS_given m = false.
Section Elim.
Variables (o : opts) (m : model) (pm : pmodel).
Hypothesis WS : well_sized m.
Hypothesis HP : preprocess_model o m = Ok pm.
Hypothesis SG : no_gS_in_step o m.
Let nsys := n_subsystems m.

Lemma KK : pmodel_ok o m pm. Proof. apply preprocess_model_ok, HP. Qed.
Lemma nsys_eq : pm_nsys pm = nsys. Proof. apply (mo_nsys _ _ _ KK). Qed.

Lemma c_len c : gS_given m = false -> m_c m = Some c -> nsys <= length c.
Proof.
  intros Hg Hc. pose proof (mo_nc _ _ _ KK) as H. unfold get_nc in H. gsg. rewrite Hg, Hc in H. cbn [opt_res bind] in H.
  rewrite nsys_eq in H. destruct (Nat.eq_dec nsys 0) as [E|E]; [lia|].
  destruct (mapM_nth _ _ _ (nsys - 1) (nsys - 1) H) as (b & _ & Hb); [rewrite nth_error_seq by lia; reflexivity|].
  destruct (nth_error c (nsys - 1)) eqn:E1; [|unfold nthE in Hb; rewrite E1 in Hb; discriminate]. apply nth_error_Some_lt in E1. lia.
Qed.

Lemma shape_row M r c : shape_is (A:=Q) M r c = true -> length M = r /\ forall x, In x M -> length x = c.
Proof.
  unfold shape_is. intros H. apply andb_true_iff in H. destruct H as [H1 H2]. apply Nat.eqb_eq in H1. split; [exact H1|].
  intros x Hx. rewrite forallb_forall in H2. apply Nat.eqb_eq, H2, Hx.
Qed.

Lemma opt_len {A} (x : option (list A)) n d l : length l = n /\ l = match x with Some v => v | None => repeat d n end -> optional_length x n.
Proof. intros [H1 H2] v E. rewrite E in H2. congruence. Qed.

(* the columns of each F *)
Lemma F_checks F : m_F m = Some F -> forall f, In f F -> (forall col, In col (fm_cols f) -> length col = fm_rows f) /\ length (fm_cols f) <> 1.
Proof.
  intros EF f Hf. pose proof (mo_nf _ _ _ KK) as H. unfold sanity_checks in H. gsg. rewrite EF in H.
  apply bind_ok in H. destruct H as (u & H1 & H). apply bind_ok in H. destruct H as (u2 & H2 & H). apply guard_ok in H1, H2.
  rewrite forallb_forall in H1. specialize (H1 f Hf). unfold fmat_ok in H1. rewrite forallb_forall in H1. split.
  - intros col Hc. apply Nat.eqb_eq, H1, Hc.
  - intros E. apply negb_true_iff in H2. assert (X : existsb (fun n => n =? 1) (map (fun f => length (fm_cols f)) F) = true); [|congruence].
    apply existsb_exists. exists (length (fm_cols f)). split; [apply in_map_iff; eauto|]. apply Nat.eqb_eq, E.
Qed.
Lemma n_modes_F F s f : m_F m = Some F -> nth_error F s = Some f -> n_modes m s = length (fm_cols f).
Proof. intros EF E. unfold n_modes. rewrite EF, E. reflexivity. Qed.
Lemma nsys_F F : m_F m = Some F -> nsys = length F.
Proof. intros EF. unfold nsys, n_subsystems. rewrite EF. reflexivity. Qed.
Lemma nc_at s : gS_given m = false -> s < nsys -> nth_error (pm_nc pm) s = Some (n_switch m s).
Proof. intros Hg Hs. apply pm_nc_nth with (o:=o); [apply KK|exact Hg|rewrite nsys_eq; exact Hs]. Qed.

Lemma stewart_steps F : o_pss o = Stewart -> m_F m = Some F -> exists gSl, gS_list m nsys = Ok gSl /\
  forall s, s < nsys -> exists gi, nth_error gSl s = Some gi /\ gi <> [].
Proof.
  intros Ep EF. destruct (mo_dcs _ _ _ KK) as (gSl & ups & fx0 & d & A & _ & _ & B & _). rewrite Ep in A, B. rewrite nsys_eq in A, B.
  exists gSl. split; [exact A|]. intros s Hs. destruct B as (F' & EF' & B).
  destruct (foldM_each _ _ _ _ B s) as (a & b & H); [apply in_seq; lia|].
  unfold stewart_step in H. apply bind_ok in H. destruct H as (Fi & _ & H). apply bind_ok in H. destruct H as (n & _ & H).
  apply bind_ok in H. destruct H as (gi & Hg & H). apply nthE_ok in Hg. exists gi. split; [exact Hg|].
  do 5 (apply bind_ok in H; destruct H as (? & _ & H)). apply bind_ok in H. destruct H as (mn & E & _). intros ->. discriminate.
Qed.

Lemma alpha_at s : o_pss o = Step -> s < nsys -> exists al, nth_error (alpha_vars o m (pm_nc pm)) s = Some al /\ length al = n_switch m s.
Proof.
  intros Ep Hs. destruct (mo_dcs _ _ _ KK) as (gSl & ups & fx0 & d & _ & _ & _ & B & _). rewrite Ep in B. rewrite nsys_eq in B.
  destruct B as (c & Hc & B). destruct (foldM_each _ _ _ _ B s) as (a & b & H); [apply in_seq; lia|].
  unfold step_step in H. apply bind_ok in H. destruct H as (fx & _ & H). apply bind_ok in H. destruct H as (al & Hal & H).
  apply bind_ok in H. destruct H as (ci & _ & H). apply bind_ok in H. destruct H as (n & Hn & H). apply nthE_ok in Hal, Hn.
  apply bind_ok in H. destruct H as (? & _ & H). apply bind_ok in H. destruct H as (? & _ & H). apply bind_ok in H. destruct H as (r1 & Hr & _).
  apply edot_len in Hr. rewrite vars_mfam_length in Hr. unfold vars in Hr. rewrite map_length in Hr.
  rewrite (nc_at s (SG Ep) Hs) in Hn. injection Hn as <-. eauto.
Qed.
Lemma mfams_len f sizes s l : nth_error (mfams f sizes) s = Some l -> nth_error sizes s = Some (length l).
Proof.
  intros H. assert (Ls : s < length sizes). { apply nth_error_Some_lt in H. unfold mfams in H. rewrite map_length, combine_length, seq_length in H. lia. }
  destruct (nth_error_lt sizes s Ls) as [n Hn]. rewrite (mfams_nth f _ _ _ Hn) in H. injection H as <-. rewrite Hn. unfold mfam.
  rewrite map_length, seq_length. reflexivity.
Qed.
Lemma alpha_sizes sizes s : o_pss o = Step -> m_alpha m = Some sizes -> s < nsys -> nth_error sizes s = Some (n_switch m s).
Proof.
  intros Ep Ea Hs. destruct (alpha_at s Ep Hs) as (al & H & L). unfold alpha_vars in H. rewrite Ea in H. apply mfams_len in H. congruence.
Qed.

Lemma filippov_elim F : m_F m = Some F -> filippov_ok o m F.
Proof.
  intros EF. pose proof (nsys_F F EF) as NS. split.
  - intros f Hf. destruct (F_checks F EF f Hf) as [H1 H2]. split; [exact H1|].
    apply In_nth_error in Hf. destruct Hf as [s Hs]. pose proof (nth_error_Some_lt _ _ _ Hs) as Ls.
    assert (length (fm_cols f) <> 0); [|lia]. intros E.
    destruct (o_pss o) eqn:Ep.
    + destruct (stewart_steps F Ep EF) as (gSl & Hg & Hne). destruct (Hne s ltac:(lia)) as (gi & Hgi & N). apply N.
      destruct (mo_nf _ _ _ KK). unfold gS_list in Hg. gsg. pose proof (mo_nf _ _ _ KK) as H. unfold sanity_checks in H. gsg. rewrite EF in H.
      apply bind_ok in H. destruct H as (u & _ & H). apply bind_ok in H. destruct H as (u2 & _ & H).
      apply bind_ok in H. destruct H as (u3 & H & _). change (gS_truthy m) with (gS_given m) in *; destruct (gS_given m) eqn:Eg.
      * apply bind_ok in H. destruct H as (_ & _ & H). apply opt_res_ok in Hg. rewrite Hg in H.
        assert (X := foldM_each _ _ _ _ H (s, gi)). destruct X as (w & w' & X).
        { apply nth_error_In with (n := s). apply nth_error_combine; [|exact Hgi].
          rewrite nth_error_seq; [reflexivity|]. apply nth_error_Some_lt in Hgi. exact Hgi. }
        apply bind_ok in X. destruct X as (n & Hn & X). apply guard_ok, Nat.eqb_eq in X. apply nthE_ok in Hn.
        rewrite nth_error_map, Hs in Hn. cbn in Hn. injection Hn as <-. rewrite E in X. destruct gi; [reflexivity|discriminate].
      * apply bind_ok in Hg. destruct Hg as (Sl & HS & Hg). apply bind_ok in Hg. destruct Hg as (c & Hc & Hg).
        apply opt_res_ok in HS, Hc. destruct (mapM_nth _ _ _ s s Hg) as (b & Hb & X); [rewrite nth_error_seq by lia; reflexivity|].
        apply bind_ok in X. destruct X as (Si & HSi & X). apply bind_ok in X. destruct X as (ci & _ & X). apply nthE_ok in HSi.
        assert (gi = b) by congruence. subst b. unfold neg_S_c in X. apply mapM_length in X.
        pose proof (S_rows o m pm KK WS F Sl s Si EF Eg HS HSi) as R. rewrite (n_modes_F F s f EF Hs), E in R. rewrite nsys_eq in R.
        rewrite R in X by lia. destruct gi; [reflexivity|discriminate].
    + destruct (mo_dcs _ _ _ KK) as (gSl & ups & fx0 & d & _ & A & _ & B & _). rewrite Ep in A, B. rewrite EF in A. rewrite nsys_eq in A, B.
      unfold get_upsilon in A. apply bind_ok in A. destruct A as (Sl & HS & A). apply opt_res_ok in HS. apply bind_ok in A. destruct A as (ups' & A & _).
      destruct (mapM_nth _ _ _ s s A) as (b & Hb & X); [rewrite nth_error_seq by lia; reflexivity|].
      apply bind_ok in X. destruct X as (Si & HSi & X). apply bind_ok in X. destruct X as (ci & _ & X). apply nthE_ok in HSi.
      pose proof (S_rows o m pm KK WS F Sl s Si EF (SG Ep) HS HSi) as R. rewrite (n_modes_F F s f EF Hs), E in R. rewrite nsys_eq in R.
      specialize (R ltac:(lia)). destruct Si; [|discriminate]. discriminate.
  - pose proof (mo_nf _ _ _ KK) as H. unfold sanity_checks in H. gsg. rewrite EF in H.
    apply bind_ok in H. destruct H as (u & _ & H). apply bind_ok in H. destruct H as (u2 & _ & H).
    apply bind_ok in H. destruct H as (u3 & H & _). change (gS_truthy m) with (gS_given m) in *; destruct (gS_given m) eqn:Eg.
    + destruct (o_pss o) eqn:Ep; [|discriminate]. split; [reflexivity|]. cbn [guard bind] in H.
      destruct (stewart_steps F Ep EF) as (gSl & Hg & Hne). unfold gS_list in Hg. gsg. rewrite Eg in Hg. apply opt_res_ok in Hg. rewrite Hg in H.
      exists gSl. split; [exact Hg|].
      assert (X : forall s gi, nth_error gSl s = Some gi -> exists f, nth_error F s = Some f /\ length gi = length (fm_cols f)).
      { intros s gi Hgi. destruct (foldM_each _ _ _ _ H (s, gi)) as (w & w' & X).
        { apply nth_error_In with (n := s). apply nth_error_combine; [|exact Hgi].
          rewrite nth_error_seq; [reflexivity|]. apply nth_error_Some_lt in Hgi. exact Hgi. }
        apply bind_ok in X. destruct X as (n & Hn & X). apply guard_ok, Nat.eqb_eq in X. apply nthE_ok in Hn.
        rewrite nth_error_map in Hn. destruct (nth_error F s) as [f|]; [|discriminate]. injection Hn as <-. eauto. }
      assert (L1 : length gSl <= length F).
      { destruct (Nat.eq_dec (length gSl) 0); [lia|]. destruct (nth_error_lt gSl (length gSl - 1) ltac:(lia)) as [gi Hgi].
        destruct (X _ _ Hgi) as (f & Hf & _). apply nth_error_Some_lt in Hf. lia. }
      assert (L2 : length F <= length gSl).
      { destruct (Nat.eq_dec (length F) 0); [lia|]. destruct (Hne (length F - 1) ltac:(lia)) as (gi & Hgi & _). apply nth_error_Some_lt in Hgi. lia. }
      split; [lia|]. intros s Hs. destruct (nth_error_lt gSl s ltac:(lia)) as [gi Hgi]. destruct (X _ _ Hgi) as (f & Hf & L).
      rewrite (nth_error_nth _ _ _ Hgi), (n_modes_F F s f EF Hf). exact L.
    + apply bind_ok in H. destruct H as (c & Hc & H). apply bind_ok in H. destruct H as (Sl & HS & H). apply opt_res_ok in Hc, HS.
      apply bind_ok in H. destruct H as (u4 & G & H). apply guard_ok, Nat.eqb_eq in G. exists c, Sl.
      pose proof (c_len c Eg Hc) as Lc. split; [exact Hc|]. split; [exact HS|]. split; [exact G|]. split; [lia|].
      assert (R : forall s, s < length F -> exists Si, nth_error Sl s = Some Si /\ length Si = n_modes m s).
      { intros s Hs. destruct (nth_error_lt Sl s ltac:(lia)) as [Si HSi]. exists Si. split; [exact HSi|].
        apply (S_rows o m pm KK WS F Sl s Si EF Eg HS HSi). rewrite nsys_eq. lia. }
      split. { intros s Hs. destruct (R s Hs) as (Si & HSi & L). rewrite (nth_error_nth _ _ _ HSi). exact L. }
      destruct (o_pss o) eqn:Ep.
      * intros s i Hs Hi. fold nsys in Hs. destruct (stewart_steps F Ep EF) as (gSl & Hg & _). unfold gS_list in Hg. gsg. rewrite Eg, HS, Hc in Hg.
        cbn [opt_res bind] in Hg. destruct (mapM_nth _ _ _ s s Hg) as (b & Hb & X); [rewrite nth_error_seq by lia; reflexivity|].
        destruct (R s ltac:(lia)) as (Si & HSi & LS). destruct (nth_error_lt c s ltac:(lia)) as [ci Hci].
        rewrite (nthE_Some _ _ _ _ HSi), (nthE_Some _ _ _ _ Hci) in X. cbn [bind] in X. unfold neg_S_c in X.
        destruct (nth_error_lt Si i ltac:(lia)) as [row Hrow]. destruct (mapM_nth _ _ _ i row X Hrow) as (e & _ & He).
        apply edot_len in He. rewrite map_length in He. unfold user_S. rewrite HS, (nth_error_nth _ _ _ HSi), (nth_error_nth _ _ _ Hrow), He.
        unfold n_switch. rewrite Eg, Hc, Hci. reflexivity.
      * destruct (mo_dcs _ _ _ KK) as (gSl & ups & fx0 & d & _ & A & _ & _ & _). rewrite Ep, EF in A. rewrite nsys_eq in A.
        unfold get_upsilon in A. rewrite HS in A. cbn [opt_res bind] in A. apply bind_ok in A. destruct A as (ups' & A & A').
        apply bind_ok in A'. destruct A' as (u5 & AL & A'). apply guard_ok in AL. injection A' as ->.
        assert (U : forall s, s < nsys -> exists Si al u, nth_error Sl s = Some Si /\ length Si = n_modes m s /\ length al = n_switch m s /\
           upsilon_col Si (vars al) = Ok u /\ nth_error ups s = Some u /\ length u = n_modes m s).
        { intros s Hs. destruct (R s ltac:(lia)) as (Si & HSi & LS). destruct (alpha_at s Ep Hs) as (al & Hal & La).
          destruct (mapM_nth _ _ _ s s A) as (b & Hb & X); [rewrite nth_error_seq by lia; reflexivity|].
          rewrite (nthE_Some _ _ _ _ HSi), (nthE_Some _ _ _ _ Hal) in X. cbn [bind] in X. exists Si, al, b. do 5 (split; [assumption|]).
          unfold upsilon_col in X. apply bind_ok in X. destruct X as (? & _ & X). apply mapM_length in X. congruence. }
        split; [|split].
        -- intros s Hs. destruct (U s ltac:(lia)) as (_ & _ & u1 & _ & _ & _ & _ & H1 & L1). destruct (U 0 ltac:(lia)) as (_ & _ & u0 & _ & _ & _ & _ & H0 & L0).
           rewrite <- L1, <- L0. unfold all_len_eq in AL. destruct ups as [|v0 us]; [destruct s; discriminate|]. injection H0 as <-.
           destruct s; [injection H1 as <-; reflexivity|]. cbn in H1. rewrite forallb_forall in AL. apply Nat.eqb_eq, AL. eapply nth_error_In; eauto.
        -- intros sizes Ea s Hs. apply (alpha_sizes sizes s Ep Ea). lia.
        -- intros s i k Hs NZ. destruct (U s ltac:(lia)) as (Si & al & u1 & HSi & LS & La & Hu & _). rewrite <- La.
           unfold sign, user_S in NZ. rewrite HS, (nth_error_nth _ _ _ HSi) in NZ.
           destruct (nth_error Si i) as [row|] eqn:Hrow.
           2: { apply nth_error_None in Hrow. rewrite (nth_overflow _ _ Hrow) in NZ. exfalso. apply NZ. destruct k; reflexivity. }
           rewrite (nth_error_nth _ _ _ Hrow) in NZ.
           destruct (nth_error row k) as [q|] eqn:Hq.
           2: { apply nth_error_None in Hq. rewrite (nth_overflow _ _ Hq) in NZ. exfalso. apply NZ. reflexivity. }
           rewrite (nth_error_nth _ _ _ Hq) in NZ. unfold upsilon_col in Hu. apply bind_ok in Hu. destruct Hu as (n & Hn & Hu).
           unfold ncols in Hn. destruct Si as [|r0 Si0] eqn:ESi; [discriminate|]. injection Hn as <-. rewrite <- ESi in *.
           destruct (mapM_nth _ _ _ i row Hu Hrow) as (e & _ & He). unfold upsilon_row in He.
           assert (RL : length row = length r0).
           { apply (ws_S m WS Sl HS Si (nth_error_In _ _ HSi)); [eapply nth_error_In; eauto|rewrite ESi; left; reflexivity]. }
           destruct (foldM_each _ _ _ _ He k) as (a & b & X). { apply in_seq. apply nth_error_Some_lt in Hq. lia. }
           rewrite (nthE_Some _ _ _ _ Hq) in X. cbn [bind] in X. destruct (Qeq_bool q 0) eqn:Eq0; [apply Qeq_bool_eq in Eq0; contradiction|].
           apply bind_ok in X. destruct X as (av & Hav & _). apply nthE_ok, nth_error_Some_lt in Hav. unfold vars in Hav. rewrite map_length in Hav. exact Hav.
Qed.

Lemma inclusion_elim : m_F m = None -> inclusion_ok o m.
Proof.
  intros EF. pose proof (mo_nf _ _ _ KK) as H. unfold sanity_checks in H. gsg. rewrite EF in H.
  apply bind_ok in H. destruct H as (u & G & H). apply guard_ok in G. destruct (o_pss o) eqn:Ep; [discriminate|]. clear G.
  apply bind_ok in H. destruct H as (fx & Hf & H). apply bind_ok in H. destruct H as (c & Hc & H). apply bind_ok in H. destruct H as (a & Ha & H).
  apply bind_ok in H. destruct H as (u2 & G & _). apply guard_ok, Nat.eqb_eq in G. apply opt_res_ok in Hf, Hc, Ha.
  assert (NS : nsys = length fx) by (unfold nsys, n_subsystems; rewrite EF, Hf; reflexivity).
  pose proof (c_len c (SG Ep) Hc) as Lc. split; [exact Ep|]. exists fx, c, a. split; [exact Hf|]. split; [exact Hc|]. split; [exact Ha|].
  split; [lia|]. split; [rewrite total_sumn; exact G|]. split.
  - destruct (mo_dcs _ _ _ KK) as (gSl & ups & fx0 & d & _ & _ & B & _). rewrite EF in B. destruct B as (fx' & _ & _ & B).
    unfold alpha_vars in B. rewrite Ha in B. rewrite length_concat in B.
    assert (E1 : sumn (map (length (A:=sym)) (mfams FAlpha a)) = sumn a).
    { f_equal. unfold mfams. rewrite map_map. clear.
      assert (G : forall k, map (fun x => length (mfam FAlpha (fst x) (snd x))) (combine (seq k (length a)) a) = a).
      { induction a as [|n l IH]; intros k; [reflexivity|]. cbn [length seq combine map fst snd]. rewrite IH. f_equal.
        unfold mfam. rewrite map_length, seq_length. reflexivity. }
      apply G. }
    rewrite total_sumn, <- E1, B, <- sumn_upto. f_equal. apply nth_error_ext. intros s.
    destruct (Nat.lt_ge_cases s nsys) as [Hs|Hs].
    + rewrite (nc_at s (SG Ep) Hs), nth_error_map, nth_error_seq by lia. reflexivity.
    + assert (E2 : length (pm_nc pm) = nsys).
      { pose proof (mo_nc _ _ _ KK) as X. unfold get_nc in X. gsg. rewrite (SG Ep) in X. apply bind_ok in X. destruct X as (? & _ & X).
        apply mapM_length in X. rewrite seq_length, nsys_eq in X. congruence. }
      rewrite (proj2 (nth_error_None _ _)) by lia. symmetry. apply nth_error_None. rewrite map_length, seq_length. lia.
  - intros s Hs. apply alpha_sizes; [exact Ep|exact Ha|lia].
Qed.

Lemma accepted_acceptable : acceptable o m.
Proof.
  pose proof KK as K. split.
  - rewrite <- (mo_nsys _ _ _ K). apply (mo_nsys_pos _ _ _ K).
  - eapply opt_len, (mo_z0 _ _ _ K).
  - eapply opt_len, (mo_lbz _ _ _ K).
  - eapply opt_len, (mo_ubz _ _ _ K).
  - apply (mo_pg _ _ _ K).
  - intros M EM. destruct (mo_m _ _ _ K) as (ptv & _ & E & S & _). rewrite EM in E. subst ptv. apply shape_row, S.
  - intros Et E. pose proof (mo_t _ _ _ K) as H. rewrite E in H. destruct H. congruence.
  - destruct (m_F m) as [F|] eqn:EF; [apply filippov_elim|apply inclusion_elim]; exact EF.
Qed.
End Elim.

Lemma accepted_iff o m : well_sized m -> closed_model m -> (o_pss o = Step -> gS_given m = false) ->
  (exists pm, preprocess_model o m = Ok pm) <-> acceptable o m.
Proof.
  intros WS CL SG. split.
  - intros [pm HP]. eapply accepted_acceptable; eauto.
  - intros AC. apply preprocess_accepts; auto. intros EF. apply SG. pose proof (ac_modes _ _ AC) as H. rewrite EF in H. apply H.
Qed.
