(* Dcs_proofs.v -- the functions of the preprocessed model at a point *)
From Coq Require Import Reals Qreals Lra.
From Verif Require Import Base Lib Sx Sx_proofs Utils Tableau Opts Model Ocp Problem Spec Fesd Fo_proofs Fe_proofs
  FeMake_proofs FeSel_proofs Prob_proofs Body_proofs Model_proofs Con_proofs Sem_proofs.

Lemma foldM_seq {T} (f : T -> nat -> res T) (I : nat -> T -> Prop) n : forall a s s',
  (forall k s s', a <= k < a + n -> I k s -> f s k = Ok s' -> I (k + 1) s') ->
  I a s -> foldM f (seq a n) s = Ok s' -> I (a + n) s'.
Proof.
  induction n as [|n IH]; intros a s s' Hf H0 H; cbn [seq foldM] in H.
  - injection H as <-. rewrite Nat.add_0_r. assumption.
  - apply bind_ok in H. destruct H as (s1 & H1 & H).
    replace (a + S n) with ((a + 1) + n) by lia.
    apply (IH (a + 1) s1 s').
    + intros k u u' Hk. apply Hf. lia.
    + eapply Hf; [|exact H0|exact H1]. lia.
    + replace (a + 1) with (S a) by lia. exact H.
Qed.
Lemma foldM_seq0 {T} (f : T -> nat -> res T) (I : nat -> T -> Prop) n s s' :
  (forall k s s', k < n -> I k s -> f s k = Ok s' -> I (k + 1) s') ->
  I 0 s -> foldM f (seq 0 n) s = Ok s' -> I n s'.
Proof. intros Hf H0 H. apply (foldM_seq f I n 0 s s'); auto. intros; eapply Hf; eauto; lia. Qed.

Lemma map_nth_seq {A B} (f : A -> B) (l : list A) d : map f l = map (fun k => f (nth k l d)) (seq 0 (length l)).
Proof.
  induction l as [|a l IH]; cbn; [reflexivity|]. f_equal. rewrite IH, <- seq_shift, map_map. reflexivity.
Qed.
Lemma rupto_S n f : rupto (n + 1) f = (rupto n f + f n)%R.
Proof.
  unfold rupto. rewrite seq_app, map_app, rsum_app. cbn. lra.
Qed.
Lemma rupto_0 f : rupto 0 f = 0%R. Proof. reflexivity. Qed.
Lemma rupto_ext n f h : (forall k, k < n -> f k = h k) -> rupto n f = rupto n h.
Proof. intros E. unfold rupto. f_equal. apply map_ext_in. intros k Hk. apply in_seq in Hk. apply E; lia. Qed.
Lemma rsum_nth {A} (f : A -> R) (l : list A) d : rsum (map f l) = rupto (length l) (fun k => f (nth k l d)).
Proof. unfold rupto. f_equal. apply map_nth_seq. Qed.

Lemma foldM_unit {A} (h : A -> res unit) l u : foldM (fun _ a => h a) l tt = Ok u -> forall a, In a l -> h a = Ok tt.
Proof.
  induction l as [|b l IH]; intros H a Ha; [destruct Ha|]. cbn [foldM] in H. apply bind_ok in H. destruct H as ([] & Hb & H).
  destruct Ha as [<-|Ha]; [exact Hb|eauto].
Qed.
Lemma guard_true b e u : guard b e = Ok u -> b = true.
Proof. destruct b; [reflexivity|discriminate]. Qed.

Lemma nth_combine_pair {A B} (a : list A) (b : list B) k da db :
  length a = length b -> nth k (combine a b) (da, db) = (nth k a da, nth k b db).
Proof. intros L. apply combine_nth. assumption. Qed.

(* ---- products with matrices ---- *)
Lemma mv_acc_isvec v n cols : forall x acc y, (forall c, In c cols -> length c = n) ->
  isvec v n y acc ->
  isvec v n (fun i => (y i + rsum (map (fun p => val v (fst p) i * eval v (snd p)) (combine cols x)))%R) (mv_acc acc cols x).
Proof.
  induction cols as [|c cols IH]; intros x acc y Hl Hy.
  - cbn [mv_acc combine map]. eapply isvec_ext; [|exact Hy]. intros; rewrite rsum_nil; lra.
  - destruct x as [|e x]; cbn [mv_acc combine map].
    + eapply isvec_ext; [|exact Hy]. intros; rewrite rsum_nil; lra.
    + eapply isvec_ext; [|apply IH with (y := fun i => (y i + val v c i * eval v e)%R)].
      * intros i Hi. cbn [fst snd]. rewrite rsum_cons. cbn [fst snd]. lra.
      * intros; apply Hl; right; assumption.
      * assert (Lc : length c = n) by (apply Hl; left; reflexivity).
        apply isvec_iff in Hy. destruct Hy as [Ly Ky]. apply isvec_iff. rewrite map_length, combine_length, map_length.
        split; [lia|]. intros i x0 Hx. rewrite nth_error_map in Hx.
        destruct (nth_error (combine acc (map (fun x1 => EBin BMul x1 e) c)) i) as [[p q]|] eqn:E; [|discriminate].
        injection Hx as <-. apply nth_error_combine_inv in E. destruct E as [E1 E2].
        rewrite nth_error_map in E2. destruct (nth_error c i) as [ci|] eqn:Ec; [|discriminate]. injection E2 as <-.
        cbn. rewrite (Ky _ _ E1), (nth_error_val v _ _ _ Ec). reflexivity.
Qed.

Lemma matvec_isvec v F x r : fmat_ok F = true -> matvec F x = Ok r ->
  length (fm_cols F) = length x /\
  isvec v (fm_rows F) (fun i => rupto (length (fm_cols F)) (fun k =>
     (eval v (nth i (nth k (fm_cols F) []) (ECst 0)) * eval v (nth k x (ECst 0)))%R)) r.
Proof.
  intros HF H. unfold matvec in H. destruct (length (fm_cols F) =? length x) eqn:E; [|discriminate].
  apply Nat.eqb_eq in E. injection H as <-. split; [exact E|].
  eapply isvec_ext; [|apply mv_acc_isvec with (y := fun _ => 0%R)].
  - intros i Hi. cbv beta. rewrite Rplus_0_l.
    rewrite (rsum_nth _ _ ([], ECst 0)). rewrite combine_length, <- E, Nat.min_id.
    apply rupto_ext. intros k Hk. rewrite combine_nth by assumption. reflexivity.
  - intros c Hc. unfold fmat_ok in HF. rewrite forallb_forall in HF. apply Nat.eqb_eq, HF, Hc.
  - eapply isvec_ext; [|apply isvec_repeat]. intros; cbn. apply Q2R_0.
Qed.

Lemma edot_eval v a b r : edot a b = Ok r ->
  length a = length b /\ eval v r = rsum (map (fun p => (eval v (fst p) * eval v (snd p))%R) (combine a b)).
Proof.
  unfold edot. destruct (length a =? length b) eqn:E; [|discriminate]. intros H. injection H as <-.
  apply Nat.eqb_eq in E. split; [exact E|]. rewrite eval_esum, Rsum_rsum, map_map. reflexivity.
Qed.

Lemma neg_S_c_val v Sm c r : neg_S_c Sm c = Ok r ->
  isvec v (length Sm) (fun k => (- rsum (map (fun p => Q2R (fst p) * eval v (snd p)) (combine (nth k Sm []) c)))%R) r.
Proof.
  intros H. unfold neg_S_c in H. apply mapM_Forall2 in H. apply Forall2_nth_iff in H. destruct H as [L K].
  apply isvec_iff. split; [auto|]. intros i e He.
  destruct (nth_error_lt Sm i) as [row Hr]; [rewrite L; eapply nth_error_Some_lt; eauto|].
  specialize (K i row e Hr He). apply (edot_eval v) in K. destruct K as [_ ->].
  rewrite (nth_error_nth _ _ _ Hr). clear. revert c. induction row as [|q row IH]; intros c; cbn [map combine].
  - rewrite rsum_nil; lra.
  - destruct c as [|x c]; cbn [map combine]; [rewrite rsum_nil; lra|]. rewrite !rsum_cons, IH. cbn. rewrite Q2R_opp. lra.
Qed.

Lemma rprod_cons x l : rprod (x :: l) = (x * rprod l)%R. Proof. reflexivity. Qed.
Lemma rprod_app a b : rprod (a ++ b) = (rprod a * rprod b)%R.
Proof. unfold rprod. induction a as [|x a IH]; cbn [app fold_right]; [|rewrite IH]; lra. Qed.

Lemma upsilon_row_val v row alpha e (al : nat -> R) :
  (forall k a, nth_error alpha k = Some a -> eval v a = al k) ->
  upsilon_row row alpha (length row) = Ok e -> eval v e = step_weight row al.
Proof.
  intros Ha H. unfold upsilon_row in H. unfold step_weight.
  apply (foldM_seq0 _ (fun k acc => eval v acc =
    rprod (map (fun p => if Qeq_bool (snd p) 0 then 1%R else ((1 - Q2R (snd p)) / 2 + Q2R (snd p) * al (fst p))%R)
     (combine (seq 0 k) (firstn k row))))) in H.
  - rewrite firstn_all in H. exact H.
  - intros k acc acc' Hk HI Hs. apply bind_ok in Hs. destruct Hs as (s & Es & Hs). apply nthE_ok in Es.
    assert (EQ : combine (seq 0 (k + 1)) (firstn (k + 1) row) = combine (seq 0 k) (firstn k row) ++ [(k, s)]).
    { rewrite seq_app. cbn [seq]. replace (firstn (k + 1) row) with (firstn k row ++ [s]).
      - rewrite combine_app by (rewrite seq_length, firstn_length; lia). reflexivity.
      - clear - Es. revert row Es. induction k as [|k IH]; intros [|q row] Es; try discriminate; cbn in *.
        + injection Es as <-. reflexivity.
        + f_equal. apply IH. assumption. }
    rewrite EQ, map_app, rprod_app, <- HI. cbn [map rprod fold_right fst snd].
    destruct (Qeq_bool s 0); [injection Hs as <-; lra|].
    apply bind_ok in Hs. destruct Hs as (a & Ea & Hs). injection Hs as <-. apply nthE_ok in Ea.
    cbn [eval eval_bin upsilon_term]. rewrite (Ha _ _ Ea), Q2R_mult, Q2R_minus.
    replace (Q2R (1 # 2)) with (/ 2)%R by (unfold Q2R; cbn; lra). rewrite Q2R_1. lra.
  - cbn. apply Q2R_1.
Qed.

Lemma upsilon_col_val v Sm alpha r (al : nat -> R) :
  (forall r r', In r Sm -> In r' Sm -> length r = length r') ->
  (forall k a, nth_error alpha k = Some a -> eval v a = al k) ->
  upsilon_col Sm alpha = Ok r -> isvec v (length Sm) (fun k => step_weight (nth k Sm []) al) r.
Proof.
  intros HS Ha H. unfold upsilon_col in H. apply bind_ok in H. destruct H as (nc & Hn & H).
  apply mapM_Forall2, Forall2_nth_iff in H. destruct H as [L K]. apply isvec_iff. split; [auto|].
  intros i e He. destruct (nth_error_lt Sm i) as [row Hr]; [rewrite L; eapply nth_error_Some_lt; eauto|].
  specialize (K i row e Hr He). rewrite (nth_error_nth _ _ _ Hr).
  eapply upsilon_row_val; [exact Ha|]. replace (length row) with nc; [exact K|].
  destruct Sm as [|r0 Sm]; [discriminate|]. injection Hn as <-. apply HS; [left; reflexivity|eapply nth_error_In; eauto].
Qed.

(* ---- alpha ---- *)
Lemma mfams_nth f sizes s n : nth_error sizes s = Some n -> nth_error (mfams f sizes) s = Some (mfam f s n).
Proof.
  intros H. unfold mfams. erewrite map_nth_error; [|apply nth_error_combine; [|exact H]].
  - reflexivity.
  - apply nth_error_seq. eapply nth_error_Some_lt; eauto.
Qed.
Lemma mfams_nth_inv f sizes s l : nth_error (mfams f sizes) s = Some l ->
  exists n, nth_error sizes s = Some n /\ l = mfam f s n.
Proof.
  unfold mfams. rewrite nth_error_map. destruct (nth_error (combine _ _) s) as [[a b]|] eqn:E; [|discriminate].
  intros H. injection H as <-. apply nth_error_combine_inv in E. destruct E as [E1 E2].
  pose proof (nth_error_Some_lt _ _ _ E2) as HL. rewrite nth_error_seq in E1 by assumption. injection E1 as <-.
  exists b. auto.
Qed.
Lemma mfams_length f sizes : length (mfams f sizes) = length sizes.
Proof. unfold mfams. rewrite map_length, combine_length, seq_length. lia. Qed.

Lemma alpha_vars_nth o m nc s al : nth_error (alpha_vars o m nc) s = Some al -> al = mfam FAlpha s (length al).
Proof.
  unfold alpha_vars. destruct (m_alpha m) as [sz|]; [|destruct (o_pss o); [destruct s; discriminate|]];
    intros H; apply mfams_nth_inv in H; destruct H as (n & _ & ->); unfold mfam; rewrite map_length, seq_length; reflexivity.
Qed.

Lemma mfam_nth f s n k e : nth_error (vars (mfam f s n)) k = Some e -> k < n /\ e = EVar (MF f s k).
Proof.
  unfold vars, mfam. rewrite map_map, nth_error_map. intros H. destruct (nth_error (seq 0 n) k) eqn:E; [|discriminate].
  pose proof (nth_error_Some_lt _ _ _ E) as L. rewrite seq_length in L. rewrite nth_error_seq in E by assumption.
  injection E as <-. injection H as <-. auto.
Qed.
Lemma isvec_mfam v f s n : isvec v n (fun k => v (MF f s k)) (vars (mfam f s n)).
Proof. apply isvec_vars. Qed.
Lemma vars_mfam_length f s n : length (vars (mfam f s n)) = n.
Proof. unfold vars, mfam. rewrite !map_length, seq_length. reflexivity. Qed.

(* ---- one subsystem ---- *)
Section Model.
Variables (o : opts) (m : model) (pm : pmodel).
Hypothesis K : pmodel_ok o m pm.
Hypothesis WS : well_sized m.
Variable v : env.
Notation nsys := (pm_nsys pm).

Lemma mode_eval s f : user_F m s = fm_cols f -> forall k i,
  eval v (nth i (nth k (fm_cols f) []) (ECst 0)) = mode_field m v s k i.
Proof. intros E k i. unfold mode_field. rewrite E. reflexivity. Qed.

Lemma F_facts F : m_F m = Some F -> nsys = length F /\ forall s f, nth_error F s = Some f ->
  fmat_ok f = true /\ fm_rows f = m_nx m /\ user_F m s = fm_cols f /\ n_modes m s = length (fm_cols f).
Proof.
  intros EF. split.
  - rewrite (mo_nsys _ _ _ K). unfold n_subsystems. rewrite EF. reflexivity.
  - intros s f Hf. repeat split.
    + pose proof (mo_nf _ _ _ K) as H. unfold sanity_checks in H. gsg. rewrite EF in H.
      apply bind_ok in H. destruct H as (u & H & _). apply guard_true in H. rewrite forallb_forall in H.
      apply H. eapply nth_error_In; eauto.
    + eapply (ws_F m WS); eauto. eapply nth_error_In; eauto.
    + unfold user_F. rewrite EF, Hf. reflexivity.
    + unfold n_modes. rewrite EF, Hf. reflexivity.
Qed.

Lemma S_rows F Sl s Sm : m_F m = Some F -> gS_given m = false -> m_S m = Some Sl -> nth_error Sl s = Some Sm ->
  s < nsys -> length Sm = n_modes m s.
Proof.
  intros EF Eg ES Hs Hn. pose proof (mo_nf _ _ _ K) as H. unfold sanity_checks in H. gsg. rewrite EF, Eg in H.
  apply bind_ok in H. destruct H as (u & _ & H). apply bind_ok in H. destruct H as (u2 & _ & H).
  apply bind_ok in H. destruct H as (u3 & H & _). apply bind_ok in H. destruct H as (c & _ & H).
  apply bind_ok in H. destruct H as (Sx & HSx & H). rewrite ES in HSx. injection HSx as <-.
  apply bind_ok in H. destruct H as (u4 & _ & H).
  destruct (F_facts F EF) as [HL HF]. destruct (nth_error_lt F s ltac:(lia)) as [f Hf].
  pose proof (foldM_unit _ _ _ H (length (fm_cols f), Sm)) as G. destruct (HF s f Hf) as (_ & _ & _ & ->).
  symmetry. apply Nat.eqb_eq. cbn [fst snd] in G.
  eapply guard_true, G. apply nth_error_In with (n := s). apply nth_error_combine; [|exact Hs].
  apply map_nth_error with (f := fun f => length (fm_cols f)). exact Hf.
Qed.

Lemma gS_facts F gSl s gi : m_F m = Some F -> gS_list m nsys = Ok gSl -> nth_error gSl s = Some gi -> s < nsys ->
  isvec v (n_modes m s) (region_value m v s) gi.
Proof.
  intros EF H Hg Hn. unfold gS_list in H. gsg. unfold region_value. change (gS_truthy m) with (gS_given m) in *; destruct (gS_given m) eqn:Eg.
  - apply opt_res_ok in H.
    assert (L : length gi = n_modes m s).
    { pose proof (mo_nf _ _ _ K) as G. unfold sanity_checks in G. gsg. rewrite EF, Eg in G.
      apply bind_ok in G. destruct G as (u & _ & G). apply bind_ok in G. destruct G as (u2 & _ & G).
      apply bind_ok in G. destruct G as (u3 & G & _). apply bind_ok in G. destruct G as (u4 & _ & G).
      rewrite H in G.
      assert (G' : foldM (fun _ p => do* n <- nthE EIndexError (map (fun f => length (fm_cols f)) F) (fst p);
                                  guard (length (snd p) =? n) EValueError)
                     (combine (seq 0 (length gSl)) gSl) tt = Ok u3).
      { rewrite <- G. clear. generalize (combine (seq 0 (length gSl)) gSl) as l. intros l. generalize tt.
        induction l as [|[i g] l IH]; intros u; cbn [foldM]; [reflexivity|].
        cbn [fst snd]. destruct (nthE EIndexError (map (fun f => length (fm_cols f)) F) i) as [n|]; cbn [bind]; [|reflexivity].
        destruct (guard (length g =? n) EValueError); cbn [bind]; [apply IH|reflexivity]. }
      pose proof (foldM_unit _ _ _ G' (s, gi)) as G2. cbn [fst snd] in G2.
      assert (Hi : In (s, gi) (combine (seq 0 (length gSl)) gSl)).
      { apply nth_error_In with (n := s). apply nth_error_combine; [|exact Hg]. apply nth_error_seq.
        eapply nth_error_Some_lt; eauto. }
      specialize (G2 Hi). apply bind_ok in G2. destruct G2 as (n & En & G2). apply guard_true, Nat.eqb_eq in G2.
      rewrite G2. apply nthE_ok in En. rewrite nth_error_map in En. destruct (nth_error F s) as [f|] eqn:Ef; [|discriminate].
      injection En as <-. unfold n_modes. rewrite EF, Ef. reflexivity. }
    eapply isvec_ext; [|apply isvec_val; exact L]. intros k Hk. unfold val, user_gS. rewrite H.
    rewrite (nth_error_nth _ _ _ Hg). reflexivity.
  - apply bind_ok in H. destruct H as (Sl & HS & H). apply bind_ok in H. destruct H as (cl & Hc & H).
    apply opt_res_ok in HS. apply opt_res_ok in Hc.
    apply mapM_nth with (k := s) (a := s) in H; [|apply nth_error_seq; assumption].
    destruct H as (b & Hb & H). assert (b = gi) by congruence. subst b.
    apply bind_ok in H. destruct H as (Si & HSi & H). apply bind_ok in H. destruct H as (ci & Hci & H).
    apply nthE_ok in HSi. apply nthE_ok in Hci.
    apply (neg_S_c_val v) in H. rewrite (S_rows F Sl s Si EF Eg HS HSi Hn) in H.
    eapply isvec_ext; [|exact H]. intros k Hk. cbv beta. unfold user_S, user_c. rewrite HS, Hc.
    rewrite (nth_error_nth _ _ _ HSi), (nth_error_nth _ _ _ Hci). reflexivity.
Qed.

Definition sys_rhs (s i : nat) : R := rupto (n_modes m s) (fun k => (mode_field m v s k i * weight o m v s k)%R).
Definition sys_sw (s : nat) : Prop := forall k, k < n_switching o m s -> switching_residual o m v s k = 0%R.

Record dcs_at (k : nat) (d : dcs) : Prop := {
  da_fx : match m_F m with
          | Some _ => isvec v (m_nx m) (fun i => rupto k (fun s => sys_rhs s i)) (d_fx d)
          | None => d_fx d = user_fx m end;
  da_sw : (forall x, In x (d_gsw d) -> eval v x = 0%R) <-> forall s, s < k -> sys_sw s;
  da_cv : (forall x, In x (d_gcv d) -> eval v x = 0%R) <->
          (o_pss o = Stewart -> forall s, s < k -> rupto (n_modes m s) (fun k => v (MF FTheta s k)) = 1%R)
}.

Lemma below_S (P : nat -> Prop) k : (forall s, s < k + 1 -> P s) <-> (forall s, s < k -> P s) /\ P k.
Proof.
  split.
  - intros H. split; [intros; apply H; lia|apply H; lia].
  - intros [H1 H2] s Hs. destruct (Nat.eq_dec s k) as [->|]; [assumption|apply H1; lia].
Qed.
Lemma all0_app a b : (forall x, In x (a ++ b) -> eval v x = 0%R) <->
  (forall x, In x a -> eval v x = 0%R) /\ (forall x, In x b -> eval v x = 0%R).
Proof.
  split; [intros H; split; intros; apply H, in_app_iff; auto|].
  intros [H1 H2] x Hx. apply in_app_iff in Hx. destruct Hx; auto.
Qed.

Lemma stewart_at F gSl d k d' : o_pss o = Stewart -> m_F m = Some F -> gS_list m nsys = Ok gSl -> k < nsys ->
  dcs_at k d -> stewart_step F gSl (pm_nf pm) d k = Ok d' -> dcs_at (k + 1) d'.
Proof.
  intros Ep EF Eg Hk [D1 D2 D3] H. rewrite EF in D1. unfold stewart_step in H.
  apply bind_ok in H. destruct H as (Fi & HFi & H). apply nthE_ok in HFi.
  apply bind_ok in H. destruct H as (n & Hn & H). apply nthE_ok in Hn.
  apply bind_ok in H. destruct H as (gi & Hgi & H). apply nthE_ok in Hgi.
  rewrite (pm_nf_nth _ _ _ _ K Hk) in Hn. injection Hn as <-.
  cbv zeta in H. apply bind_ok in H. destruct H as (ft & Hft & H). apply bind_ok in H. destruct H as (fx & Hfx & H).
  apply bind_ok in H. destruct H as (g1 & Hg1 & H). apply bind_ok in H. destruct H as (g2 & Hg2 & H).
  apply bind_ok in H. destruct H as (dt & Hdt & H). apply bind_ok in H. destruct H as (mn & Hmn & H).
  apply bind_ok in H. destruct H as (l00 & Hl & H). injection H as <-.
  destruct (F_facts F EF) as [_ HF]. destruct (HF k Fi HFi) as (F1 & F2 & F3 & F4).
  pose proof (gS_facts F gSl k gi EF Eg Hgi Hk) as Ig.
  constructor; cbn [d_fx d_gsw d_gcv].
  - rewrite EF. destruct (matvec_isvec v _ _ _ F1 Hft) as [_ Ift]. rewrite F2 in Ift.
    eapply isvec_ext; [|exact (isvec_vbin _ _ BAdd _ _ _ _ _ D1 Ift Hfx)].
    intros i Hi. cbn [eval_bin]. rewrite rupto_S. f_equal. unfold sys_rhs. rewrite F4. apply rupto_ext.
    intros j Hj. rewrite (mode_eval k Fi F3). f_equal. unfold weight. rewrite Ep.
    destruct (nth_error_lt (vars (mfam FTheta k (length (fm_cols Fi)))) j) as [e He].
    { rewrite vars_mfam_length; assumption. }
    rewrite (nth_error_nth _ _ _ He). apply mfam_nth in He. destruct He as [_ ->]. reflexivity.
  - rewrite all0_app, D2, below_S.
    assert (E : (forall x, In x g2 -> eval v x = 0%R) <-> sys_sw k); [|rewrite E; reflexivity].
    pose proof (isvec_vbin _ _ BSub _ _ _ _ _ Ig (isvec_mfam v FLam k (n_modes m k)) Hg1) as I1.
    pose proof (vbin_scalar_isvec v BAdd _ _ _ (EVar (MF FMu k 0)) I1 g2 Hg2) as I2.
    rewrite (isvec_all0 _ _ _ _ I2). unfold sys_sw, n_switching, switching_residual. rewrite Ep. reflexivity.
  - rewrite all0_app, D3, below_S. 
    assert (E : (forall x, In x [EBin BSub (esum (vars (mfam FTheta k (n_modes m k)))) (ECst 1)] -> eval v x = 0%R) <->
       rupto (n_modes m k) (fun j => v (MF FTheta k j)) = 1%R).
    { assert (E2 : eval v (EBin BSub (esum (vars (mfam FTheta k (n_modes m k)))) (ECst 1)) =
         (rupto (n_modes m k) (fun j => v (MF FTheta k j)) - 1)%R).
      { cbn [eval eval_bin]. rewrite eval_esum, Rsum_rsum, Q2R_1. unfold vars, mfam, rupto. rewrite !map_map. reflexivity. }
      split.
      - intros Hx. specialize (Hx _ (or_introl eq_refl)). lra.
      - intros Hx x [<-|[]]. lra. }
    rewrite E. split; [intros [A B] _; split; auto|]. intros A. split; [intros _; apply A, Ep|apply A, Ep].
Qed.

Lemma step_at c ups d k d' : o_pss o = Step -> m_c m = Some c -> 
  (forall F, m_F m = Some F -> get_upsilon m (alpha_vars o m (pm_nc pm)) nsys = Ok ups) -> k < nsys ->
  dcs_at k d -> step_step (m_F m) ups c (alpha_vars o m (pm_nc pm)) (pm_nc pm) d k = Ok d' ->
  dcs_at (k + 1) d' /\ exists al, nth_error (alpha_vars o m (pm_nc pm)) k = Some al /\
    nth_error (pm_nc pm) k = Some (length al).
Proof.
  intros Ep Ec Eu Hk [D1 D2 D3] H. unfold step_step in H.
  apply bind_ok in H. destruct H as (fx & Hfx & H). apply bind_ok in H. destruct H as (al & Hal & H). apply nthE_ok in Hal.
  apply bind_ok in H. destruct H as (ci & Hci & H). apply nthE_ok in Hci.
  apply bind_ok in H. destruct H as (n & Hn & H). apply nthE_ok in Hn. cbv zeta in H.
  apply bind_ok in H. destruct H as (g1 & Hg1 & H). apply bind_ok in H. destruct H as (g2 & Hg2 & H).
  apply bind_ok in H. destruct H as (r1 & Hr1 & H). apply bind_ok in H. destruct H as (oma & Ho & H).
  apply bind_ok in H. destruct H as (r2 & Hr2 & H). injection H as <-.
  apply (edot_eval v) in Hr1. destruct Hr1 as [Hr1 _]. rewrite vars_mfam_length, vars_length in Hr1.
  split; [|exists al; split; [exact Hal|congruence]].
  assert (Hsw : n = n_switch m k).
  { pose proof (fsz_dim2 o m pm FLn k K Hk) as E. unfold fsz, fam_on, dim2, fam_len, fam_size in E. rewrite Ep in E.
    rewrite (nthE_Some _ _ _ _ Hn) in E. exact E. }
  constructor; cbn [d_fx d_gsw d_gcv].
  - destruct (m_F m) as [F|] eqn:EF.
    + apply bind_ok in Hfx. destruct Hfx as (Fi & HFi & Hfx). apply nthE_ok in HFi.
      apply bind_ok in Hfx. destruct Hfx as (u & Hu & Hfx). apply nthE_ok in Hu.
      apply bind_ok in Hfx. destruct Hfx as (ft & Hft & Hfx).
      destruct (F_facts F EF) as [_ HF]. destruct (HF k Fi HFi) as (F1 & F2 & F3 & F4).
      destruct (matvec_isvec v _ _ _ F1 Hft) as [HL Ift]. rewrite F2 in Ift.
      specialize (Eu F eq_refl). unfold get_upsilon in Eu. apply bind_ok in Eu. destruct Eu as (Sl & HS & Eu).
      apply opt_res_ok in HS. apply bind_ok in Eu. destruct Eu as (ups' & Eu & E'). apply bind_ok in E'.
      destruct E' as (uu & _ & E'). injection E' as ->.
      apply mapM_nth with (k := k) (a := k) in Eu; [|apply nth_error_seq; assumption].
      destruct Eu as (u' & Hu' & Eu). assert (u' = u) by congruence. subst u'.
      apply bind_ok in Eu. destruct Eu as (Si & HSi & Eu). apply nthE_ok in HSi.
      apply bind_ok in Eu. destruct Eu as (ai & Hai & Eu). apply nthE_ok in Hai.
      assert (ai = al) by congruence. subst ai.
      apply (upsilon_col_val v _ _ _ (fun r => v (MF FAlpha k r))) in Eu.
      * eapply isvec_ext; [|exact (isvec_vbin _ _ BAdd _ _ _ _ _ D1 Ift Hfx)].
        intros i Hi. cbn [eval_bin]. rewrite rupto_S. f_equal. unfold sys_rhs. rewrite F4. apply rupto_ext.
        intros j Hj. rewrite (mode_eval k Fi F3). f_equal. unfold weight. rewrite Ep.
        apply isvec_iff in Eu. destruct Eu as [Lu Ku]. destruct (nth_error_lt u j ltac:(lia)) as [e He].
        rewrite (nth_error_nth _ _ _ He), (Ku _ _ He). unfold user_S. rewrite HS, (nth_error_nth _ _ _ HSi). reflexivity.
      * intros r r'. apply (ws_S m WS Sl HS Si). eapply nth_error_In; eauto.
      * intros j a Ha. rewrite (alpha_vars_nth _ _ _ _ _ Hal) in Ha. apply mfam_nth in Ha. destruct Ha as [_ ->]. reflexivity.
    + injection Hfx as <-. exact D1.
  - rewrite all0_app, D2, below_S.
    assert (E : (forall x, In x g2 -> eval v x = 0%R) <-> sys_sw k); [|rewrite E; reflexivity].
    unfold sys_sw, n_switching, switching_residual. rewrite Ep, <- Hsw.
    change (gS_truthy m) with (gS_given m) in *; destruct (gS_given m) eqn:Eg.
    + assert (n = 0) by (rewrite Hsw; unfold n_switch; rewrite Eg; reflexivity). subst n. rewrite H in *.
      assert (g2 = []).
      { cbn in Hg2, Hg1. unfold vbin in Hg1, Hg2. destruct ci as [|a [|b ci]]; cbn in Hg1; try discriminate;
          injection Hg1 as <-; cbn in Hg2; injection Hg2 as <-; reflexivity. }
      subst g2. split; [intros _ j Hj; lia|intros _ x []].
    + assert (Lc : length ci = n).
      { rewrite Hsw. unfold n_switch. rewrite Eg, Ec, Hci. reflexivity. }
      pose proof (isvec_vbin _ _ BSub _ _ _ _ _ (isvec_val v n ci Lc) (isvec_mfam v FLp k n) Hg1) as I1.
      pose proof (isvec_vbin _ _ BAdd _ _ _ _ _ I1 (isvec_mfam v FLn k n) Hg2) as I2.
      rewrite (isvec_all0 _ _ _ _ I2). unfold switch_value, user_c. rewrite Ec, (nth_error_nth _ _ _ Hci). reflexivity.
  - rewrite D3. split; intros A B; congruence.
Qed.

Lemma rhs_sys i : m_F m <> None -> rhs o m v i = rupto nsys (fun s => sys_rhs s i).
Proof.
  intros HF. unfold rhs, sys_rhs. rewrite (mo_nsys _ _ _ K). destruct (m_F m); [reflexivity|congruence].
Qed.

(* the model functions *)
Record model_at : Prop := {
  ma_ex : exists d, dcs_at nsys d /\
      mkfun [mx m; pm_zall pm; mu_ m; mp m; mvg m] (d_fx d) = Ok (pm_fx_fun pm) /\
      mkfun [mx m; pm_zall pm; mu_ m; mp m] (d_gsw d) = Ok (pm_gsw_fun pm) /\
      mkfun [mx m; pm_zall pm; mu_ m; mp m] (d_gsw d ++ d_gcv d ++ m_gz m) = Ok (pm_gz_fun pm) /\
      isvec v (m_nx m) (rhs o m v) (d_fx d) /\
      ((forall x, In x (d_gsw d) -> eval v x = 0%R) <-> switching_ok o m v) /\
      ((forall x, In x (d_gcv d) -> eval v x = 0%R) <-> convex_ok o m v) /\
      (o_pss o = Step -> forall s, s < nsys -> exists al, nth_error (alpha_vars o m (pm_nc pm)) s = Some al /\
          nth_error (pm_nc pm) s = Some (length al))
}.

Lemma dcs_start fx0 : match m_F m with
             | Some _ => fx0 = repeat (ECst 0) (m_nx m)
             | None => exists fx, m_fx m = Some fx /\ fx0 = concat fx /\
                   length (concat (alpha_vars o m (pm_nc pm))) = sumn (pm_nc pm)
             end -> dcs_at 0 (mkDcs fx0 [] [] (ECst 0) []).
Proof.
  intros H. constructor; cbn [d_fx d_gsw d_gcv].
  - destruct (m_F m).
    + subst fx0. eapply isvec_ext; [|apply isvec_repeat]. intros i Hi. rewrite rupto_0. apply Q2R_0.
    + destruct H as (fx & E & -> & _). unfold user_fx. rewrite E. reflexivity.
  - split; [intros _ s Hs; lia|intros _ x []].
  - split; [intros _ _ s Hs; lia|intros _ x []].
Qed.

Lemma model_at_ok : model_at.
Proof.
  destruct (mo_dcs _ _ _ K) as (gSl & ups & fx0 & d & Hg & Hu & Hfx & Hd & M1 & M2 & M3 & _).
  assert (HD : dcs_at nsys d /\ (o_pss o = Step -> forall s, s < nsys -> exists al, nth_error (alpha_vars o m (pm_nc pm)) s = Some al /\
          nth_error (pm_nc pm) s = Some (length al))).
  { destruct (o_pss o) eqn:Ep.
    - destruct Hd as (F & EF & Hd). split; [|discriminate].
      refine (foldM_seq0 _ dcs_at nsys _ _ _ (dcs_start fx0 Hfx) Hd).
      intros k a a' Hk HI Hs. eapply stewart_at; eauto.
    - destruct Hd as (c & Ec & Hd).
      assert (Eu : forall F, m_F m = Some F -> get_upsilon m (alpha_vars o m (pm_nc pm)) nsys = Ok ups).
      { intros F EF. rewrite EF in Hu. exact Hu. }
      set (I := fun k a => dcs_at k a /\ forall s, s < k -> exists al, nth_error (alpha_vars o m (pm_nc pm)) s = Some al /\
          nth_error (pm_nc pm) s = Some (length al)).
      assert (HI : I nsys d).
      { refine (foldM_seq0 _ I nsys _ _ _ _ Hd).
        - intros k a a' Hk [HA HB] Hs. destruct (step_at c ups a k a' Ep Ec Eu Hk HA Hs) as [A B].
          split; [exact A|]. apply below_S. split; assumption.
        - split; [apply dcs_start, Hfx|]. intros; lia. }
      destruct HI as [A B]. split; [exact A|]. intros _. exact B. }
  destruct HD as [D HA]. constructor. exists d. split; [exact D|]. split; [exact M1|]. split; [exact M2|]. split; [exact M3|].
  split; [|split; [|split]].
  - pose proof (da_fx _ _ D) as DF. destruct (m_F m) eqn:EF.
    + eapply isvec_ext; [|exact DF]. intros i Hi. symmetry. apply rhs_sys. congruence.
    + rewrite DF. destruct Hfx as (fx & E & _ & _). unfold rhs. rewrite EF.
      assert (L : length (user_fx m) = m_nx m). { unfold user_fx. rewrite E. eapply (ws_fx m WS); eauto. }
      apply isvec_val. exact L.
  - rewrite (da_sw _ _ D). unfold switching_ok, sys_sw. rewrite (mo_nsys _ _ _ K). split; intros A; intros; apply A; assumption.
  - rewrite (da_cv _ _ D). unfold convex_ok. rewrite (mo_nsys _ _ _ K). reflexivity.
  - exact HA.
Qed.
End Model.
