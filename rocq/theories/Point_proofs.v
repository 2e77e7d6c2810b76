(* Point_proofs.v -- the arguments of the model functions match the model's symbols at a point *)
From Coq Require Import Reals Qreals Lra.
From Verif Require Import Base Lib Sx Sx_proofs Utils Tableau Opts Model Ocp Problem Spec Fesd Fo_proofs Fe_proofs
  FeMake_proofs FeSel_proofs FeZero_proofs Prob_proofs Body_proofs Model_proofs Con_proofs Utils_proofs Sem_proofs Dcs_proofs.

Section Point.
Variables (o : opts) (t : tab) (m : model) (pm : pmodel) (rho : env).
Hypothesis K : pmodel_ok o m pm.
Hypothesis WS : well_sized m.
Variables (c e : nat).
Notation nsys := (pm_nsys pm).

Lemma pm_syms : mx (pm_m pm) = mx m /\ mu_ (pm_m pm) = mu_ m /\ mz (pm_m pm) = mz m /\ mvg (pm_m pm) = mvg m /\
  mpt (pm_m pm) = mpt m /\ mpg (pm_m pm) = mpg m /\ mp (pm_m pm) = mp m.
Proof. destruct (mo_m _ _ _ K) as (ptv & -> & _). repeat split; reflexivity. Qed.
Lemma pm_sizes : m_nx (pm_m pm) = m_nx m /\ m_nu (pm_m pm) = m_nu m /\ m_nz (pm_m pm) = m_nz m /\ m_nvg (pm_m pm) = m_nvg m /\
  m_npt (pm_m pm) = m_npt m /\ m_npg (pm_m pm) = m_npg m.
Proof. destruct (mo_m _ _ _ K) as (ptv & -> & _). repeat split; reflexivity. Qed.

(* labels with the slot chosen per family *)
Definition lab_zz (jz : nat) (jf : fam2 -> nat) : list sym :=
  lab2 o pm c e FTheta (jf FTheta) ++ lab2 o pm c e FLam (jf FLam) ++ lab2 o pm c e FMu (jf FMu)
  ++ lab2 o pm c e FAlpha (jf FAlpha) ++ lab2 o pm c e FLn (jf FLn) ++ lab2 o pm c e FLp (jf FLp)
  ++ lab1 o pm c e FZ jz.

Definition al (v : env) (s s' : sym) : Prop := rho s' = v s.
Definition ale (v : env) (s : sym) (a : expr) : Prop := eval rho a = v s.
Lemma al_vars v l l' : Forall2 (al v) l l' -> Forall2 (ale v) l (vars l').
Proof. intros H. unfold vars. apply Forall2_map_r. exact H. Qed.
Lemma al_map v (f f' : nat -> sym) n : (forall i, i < n -> rho (f' i) = v (f i)) ->
  Forall2 (al v) (map f (seq 0 n)) (map f' (seq 0 n)).
Proof.
  intros H. apply Forall2_map_l, Forall2_map_r. apply Forall2_refl_in. intros i Hi. apply in_seq in Hi. apply H; lia.
Qed.

Lemma list_is_seq {A} (l : list A) n (z : nat -> A) : length l = n -> (forall s, s < n -> nth_error l s = Some (z s)) ->
  l = map z (seq 0 n).
Proof.
  intros L H. destruct n as [|n]; [destruct l; [reflexivity|discriminate]|].
  apply nth_ext with (d := z 0) (d' := z 0); [rewrite map_length, seq_length; assumption|].
  intros k Hk. rewrite L in Hk. rewrite (map_nth z), seq_nth by assumption. apply nth_error_nth, H. assumption.
Qed.
Lemma combine_seq_map {A} (z : nat -> A) n a : combine (seq a n) (map z (seq a n)) = map (fun s => (s, z s)) (seq a n).
Proof. revert a. induction n as [|n IH]; intros a; cbn; [reflexivity|]. f_equal. apply IH. Qed.
Lemma mfams_seq f sizes n z : length sizes = n -> (forall s, s < n -> nth_error sizes s = Some (z s)) ->
  mfams f sizes = map (fun s => mfam f s (z s)) (seq 0 n).
Proof.
  intros L H. unfold mfams. rewrite (list_is_seq sizes n z L H). rewrite map_length, seq_length.
  rewrite combine_seq_map, map_map. reflexivity.
Qed.

Lemma fam_al v f sizes j : length sizes = nsys -> (forall s, s < nsys -> nth_error sizes s = Some (fsz o pm f s)) ->
  (forall s i, v (MF f s i) = rho (S2 f c e j s i)) ->
  Forall2 (al v) (concat (mfams f sizes)) (lab2 o pm c e f j).
Proof.
  intros L H Hv. rewrite (mfams_seq f sizes nsys (fsz o pm f) L H). unfold lab2. apply Forall2_concat.
  apply Forall2_map_l, Forall2_map_r. apply Forall2_refl_in. intros s _. unfold mfam, lab2s. apply al_map.
  intros i _. symmetry. apply Hv.
Qed.
Lemma lab2_off f j : fam_on o f = false -> lab2 o pm c e f j = [].
Proof.
  intros H. unfold lab2, lab2s, fsz. rewrite H. cbn [seq map]. induction (seq 0 nsys); cbn; auto.
Qed.

Lemma nf_sizes f : o_pss o = Stewart -> f = FTheta \/ f = FLam ->
  length (pm_nf pm) = nsys /\ forall s, s < nsys -> nth_error (pm_nf pm) s = Some (fsz o pm f s).
Proof.
  intros Ep Hf.
  assert (L : length (pm_nf pm) = nsys).
  { rewrite (sanity_nf _ _ _ _ (mo_nf _ _ _ K)), (mo_nsys _ _ _ K). unfold n_subsystems. destruct (m_F m); [apply map_length|].
    apply repeat_length. }
  split; [exact L|]. intros s Hs. rewrite (pm_nf_nth _ _ _ _ K Hs). f_equal. rewrite (fsz_dim2 o m pm f s K Hs).
  unfold dim2. rewrite Ep. destruct Hf as [-> | ->]; reflexivity.
Qed.
Lemma nc_sizes f : o_pss o = Step -> f = FLn \/ f = FLp \/ f = FAlpha ->
  length (pm_nc pm) = nsys /\ forall s, s < nsys -> nth_error (pm_nc pm) s = Some (fsz o pm f s).
Proof.
  intros Ep Hf.
  assert (N : forall s, s < nsys -> nth_error (pm_nc pm) s = Some (fsz o pm f s)).
  { intros s Hs. destruct (ma_ex _ _ _ _ (model_at_ok o m pm K WS rho)) as (d & _ & _ & _ & _ & _ & _ & _ & HA).
    destruct (HA Ep s Hs) as (a & _ & E). unfold fsz, fam_on, fam_len, fam_size. rewrite Ep.
    destruct Hf as [-> | [-> | ->]]; rewrite (nthE_Some _ _ _ _ E); assumption. }
  split; [|exact N]. pose proof (mo_nc _ _ _ K) as G. unfold get_nc in G. gsg. destruct (gS_given m).
  - injection G as G. rewrite <- G in N |- *. pose proof (mo_nsys_pos _ _ _ K). cbn [length].
    destruct nsys as [|[|n]] eqn:En; [lia|reflexivity|]. specialize (N 1 ltac:(lia)). discriminate.
  - apply bind_ok in G. destruct G as (cl & _ & G). apply mapM_length in G. rewrite seq_length in G. exact G.
Qed.

Section Z.
Variables (jz : nat) (jf : fam2 -> nat) (v : env).
Hypothesis Hv : forall f s i, v (MF f s i) = rho (S2 f c e (jf f) s i).
Hypothesis Hz : forall i, v (MZ i) = rho (S1 FZ c e jz i).

Lemma alpha_al : exists rest, exists a1, concat (alpha_vars o m (pm_nc pm)) = a1 ++ rest /\
  Forall2 (al v) a1 (lab2 o pm c e FAlpha (jf FAlpha)).
Proof.
  destruct (o_pss o) eqn:Ep.
  - exists (concat (alpha_vars o m (pm_nc pm))), []. split; [reflexivity|]. rewrite lab2_off; [constructor|].
    unfold fam_on. rewrite Ep. reflexivity.
  - destruct (ma_ex _ _ _ _ (model_at_ok o m pm K WS rho)) as (d & _ & _ & _ & _ & _ & _ & _ & HA). specialize (HA Ep).
    destruct (nc_sizes FAlpha Ep ltac:(auto)) as [Ln Hn].
    set (av := alpha_vars o m (pm_nc pm)) in *.
    exists (concat (skipn nsys av)), (concat (firstn nsys av)). split; [rewrite <- concat_app, firstn_skipn; reflexivity|].
    assert (E : firstn nsys av = map (fun s => mfam FAlpha s (fsz o pm FAlpha s)) (seq 0 nsys)).
    { apply list_is_seq.
      - rewrite firstn_length. pose proof (mo_nsys_pos _ _ _ K). destruct (HA (nsys - 1) ltac:(lia)) as (a & Ha & _).
        apply nth_error_Some_lt in Ha. lia.
      - intros s Hs. destruct (HA s Hs) as (a & Ha & Ea). pose proof (alpha_vars_nth _ _ _ _ _ Ha) as Eq.
        rewrite (Hn s Hs) in Ea. injection Ea as Ea. rewrite <- Ea in Eq.
        rewrite <- Eq. clear - Ha Hs. revert s Ha Hs. generalize nsys as n. generalize av as l.
        induction l as [|x l IH]; intros [|n] [|s] Ha Hs; cbn in *; try lia; try discriminate; [assumption|].
        apply IH; [assumption|lia]. }
    rewrite E. unfold lab2. apply Forall2_concat. apply Forall2_map_l, Forall2_map_r. apply Forall2_refl_in.
    intros s _. unfold mfam, lab2s. apply al_map. intros i _. symmetry. apply Hv.
Qed.

Lemma zall_al : length (pm_zall pm) = length (lab_zz jz jf) -> Forall2 (al v) (pm_zall pm) (lab_zz jz jf).
Proof.
  intros L. destruct alpha_al as (rest & a1 & Ea & HA).
  assert (HZ : Forall2 (al v) (mz m) (lab1 o pm c e FZ jz)).
  { unfold mz, lab1. replace (sz1 o pm FZ) with (m_nz m) by (symmetry; apply (sz1_dim1 o m pm FZ K)).
    apply al_map. intros i _. symmetry. apply Hz. }
  rewrite (mo_zall _ _ _ K) in L |- *. unfold z_parts in *. cbn [concat] in *. rewrite app_nil_r in *. rewrite Ea in *.
  unfold lab_zz in *.
  assert (R : forall A B C D E G A' B' C' H' D' E' G' : list sym, Forall2 (al v) A A' -> Forall2 (al v) B B' -> Forall2 (al v) C C' ->
    Forall2 (al v) a1 H' -> Forall2 (al v) D D' -> Forall2 (al v) E E' -> Forall2 (al v) G G' ->
    length (A ++ B ++ C ++ (a1 ++ rest) ++ D ++ E ++ G) = length (A' ++ B' ++ C' ++ H' ++ D' ++ E' ++ G') ->
    Forall2 (al v) (A ++ B ++ C ++ (a1 ++ rest) ++ D ++ E ++ G) (A' ++ B' ++ C' ++ H' ++ D' ++ E' ++ G')).
  { intros A B C D E G A' B' C' H' D' E' G' H1 H2 H3 H4 H5 H6 H7 HL. rewrite !app_length in HL.
    apply Forall2_length in H1 as L1. apply Forall2_length in H2 as L2. apply Forall2_length in H3 as L3.
    apply Forall2_length in H4 as L4. apply Forall2_length in H5 as L5. apply Forall2_length in H6 as L6.
    apply Forall2_length in H7 as L7. assert (length rest = 0) by lia. destruct rest; [|discriminate].
    rewrite app_nil_r. repeat apply Forall2_app; assumption. }
  apply R; [| | |exact HA| | |exact HZ|exact L]; destruct (o_pss o) eqn:Ep;
    try (cbn [concat]; rewrite lab2_off; [constructor|unfold fam_on; rewrite Ep; reflexivity]).
  - apply fam_al; [apply (nf_sizes FTheta Ep); auto|apply (nf_sizes FTheta Ep); auto|intros; apply Hv].
  - apply fam_al; [apply (nf_sizes FLam Ep); auto|apply (nf_sizes FLam Ep); auto|intros; apply Hv].
  - apply fam_al; [apply repeat_length| |intros; apply Hv]. intros s Hs. unfold fsz, fam_on. rewrite Ep. cbn.
    apply nth_error_repeat'. assumption.
  - apply fam_al; [apply (nc_sizes FLn Ep); auto|apply (nc_sizes FLn Ep); auto|intros; apply Hv].
  - apply fam_al; [apply (nc_sizes FLp Ep); auto|apply (nc_sizes FLp Ep); auto|intros; apply Hv].
Qed.
End Z.

Section Args.
Variables (jz : nat) (jf : fam2 -> nat) (x : nat -> R).
Notation v := (at_point m rho c e jz jf x).
Lemma x_ale xs : isvec rho (m_nx m) x xs -> Forall2 (ale v) (mx m) xs.
Proof. intros H. unfold mx. apply Forall2_map_l. exact H. Qed.
Lemma u_ale : Forall2 (ale v) (mu_ m) (vars (ulab pm c)).
Proof.
  apply al_vars. unfold mu_, ulab. replace (m_nu (pm_m pm)) with (m_nu m) by (symmetry; apply pm_sizes).
  apply al_map. reflexivity.
Qed.
Lemma p_ale : Forall2 (ale v) (mp m) (vars (pst pm c)).
Proof.
  apply al_vars. unfold mp, mpt, mpg, pst, pm_np.
  destruct pm_sizes as (_ & _ & _ & _ & -> & ->). rewrite seq_app, map_app. apply Forall2_app; [apply al_map; reflexivity|].
  rewrite Nat.add_0_l. replace (seq (m_npt m) (m_npg m)) with (map (fun i => m_npt m + i) (seq 0 (m_npg m))).
  - rewrite map_map. apply al_map. reflexivity.
  - clear. generalize (m_npg m) as n. intros n. induction n as [|n IH]; [reflexivity|]. 
    replace (S n) with (n + 1) by lia. rewrite !seq_app, map_app, IH. reflexivity.
Qed.
Lemma vg_ale : Forall2 (ale v) (mvg m) (vgv pm).
Proof.
  unfold vgv. apply al_vars. destruct pm_syms as (_ & _ & _ & -> & _). unfold mvg. apply al_map. reflexivity.
Qed.
Lemma z_ale : length (pm_zall pm) = length (lab_zz jz jf) -> Forall2 (ale v) (pm_zall pm) (vars (lab_zz jz jf)).
Proof. intros L. apply al_vars, zall_al; [reflexivity|reflexivity|exact L]. Qed.
End Args.
Lemma lab_z_zz j : lab_z o pm c e j = lab_zz j (fun _ => j). Proof. reflexivity. Qed.

Lemma call_lens ins outs f args r : mkfun ins outs = Ok f -> call f args = Ok r -> lens ins = lens args.
Proof. intros Hf H. apply mkfun_ok in Hf. destruct Hf as [-> _]. apply call_ok in H. apply H. Qed.
Lemma call_vals v ins outs f args r :
  mkfun ins outs = Ok f -> call f args = Ok r -> Forall2 (Forall2 (ale v)) ins args ->
  Forall2 (fun e x => eval rho x = eval v e) outs r.
Proof. intros. eapply call_eval; eauto. Qed.
Lemma vals_isvec v outs r : Forall2 (fun e x => eval rho x = eval v e) outs r ->
  isvec rho (length outs) (fun i => eval v (nth i outs (ECst 0))) r.
Proof.
  intros H. apply isvec_iff. split; [symmetry; eapply Forall2_length; eauto|].
  intros i x Hx. destruct (Forall2_nth_r _ _ _ _ _ H Hx) as (y & Hy & ->). rewrite (nth_error_nth _ _ _ Hy). reflexivity.
Qed.
Lemma vals_all0 v outs r : Forall2 (fun e x => eval rho x = eval v e) outs r ->
  ((forall x, In x r -> eval rho x = 0%R) <-> forall x, In x outs -> eval v x = 0%R).
Proof.
  induction 1 as [|a b l l' E HF IH].
  - split; intros _ x [].
  - cbn [In]. split; intros G x [<-|Hx].
    + rewrite <- E. apply G. left; reflexivity.
    + apply IH; [|assumption]. intros; apply G; right; assumption.
    + rewrite E. apply G. left; reflexivity.
    + apply IH; [|assumption]. intros; apply G; right; assumption.
Qed.

(* the three model functions called at a point *)
Section Funs.
Variables (jz : nat) (jf : fam2 -> nat) (x : nat -> R) (xs : list expr).
Hypothesis Hx : isvec rho (m_nx m) x xs.
Notation v := (at_point m rho c e jz jf x).
Notation zz := (vars (lab_zz jz jf)).
Notation U := (vars (ulab pm c)).
Notation PP := (vars (pst pm c)).

Lemma fx_call r : call (pm_fx_fun pm) [xs; zz; U; PP; vgv pm] = Ok r -> isvec rho (m_nx m) (rhs o m v) r.
Proof.
  intros H. destruct (ma_ex _ _ _ _ (model_at_ok o m pm K WS v)) as (d & _ & M1 & _ & _ & R & _).
  pose proof (call_lens _ _ _ _ _ M1 H) as L. injection L as _ L _ _ _. rewrite vars_length in L.
  assert (V := call_vals v _ _ _ _ _ M1 H).
  specialize (V (Forall2_cons _ _ (x_ale jz jf x xs Hx) (Forall2_cons _ _ (z_ale jz jf x L) (Forall2_cons _ _ (u_ale jz jf x)
    (Forall2_cons _ _ (p_ale jz jf x) (Forall2_cons _ _ (vg_ale jz jf x) (Forall2_nil _))))))).
  apply isvec_iff in R. destruct R as [LR KR]. apply isvec_iff. split; [rewrite <- (Forall2_length _ _ _ V); exact LR|].
  intros i y Hy. destruct (Forall2_nth_r _ _ _ _ _ V Hy) as (a & Ha & ->). apply KR. exact Ha.
Qed.
Lemma z4 f outs r : mkfun [mx m; pm_zall pm; mu_ m; mp m] outs = Ok f -> call f [xs; zz; U; PP] = Ok r ->
  Forall2 (fun e x => eval rho x = eval v e) outs r.
Proof.
  intros M H. pose proof (call_lens _ _ _ _ _ M H) as L. injection L as _ L _ _. rewrite vars_length in L.
  exact (call_vals v _ _ _ _ _ M H (Forall2_cons _ _ (x_ale jz jf x xs Hx) (Forall2_cons _ _ (z_ale jz jf x L) (Forall2_cons _ _ (u_ale jz jf x)
    (Forall2_cons _ _ (p_ale jz jf x) (Forall2_nil _)))))).
Qed.
Lemma gsw_call r : call (pm_gsw_fun pm) [xs; zz; U; PP] = Ok r ->
  ((forall y, In y r -> eval rho y = 0%R) <-> switching_ok o m v).
Proof.
  intros H. destruct (ma_ex _ _ _ _ (model_at_ok o m pm K WS v)) as (d & _ & _ & M & _ & _ & S1 & _).
  rewrite (vals_all0 v _ _ (z4 _ _ _ M H)). exact S1.
Qed.
Lemma gz_call r : call (pm_gz_fun pm) [xs; zz; U; PP] = Ok r ->
  ((forall y, In y r -> eval rho y = 0%R) <-> switching_ok o m v /\ convex_ok o m v /\ user_ok m v).
Proof.
  intros H. destruct (ma_ex _ _ _ _ (model_at_ok o m pm K WS v)) as (d & _ & _ & _ & M & _ & S1 & S2 & _).
  rewrite (vals_all0 v _ _ (z4 _ _ _ M H)). rewrite !all0_app, S1, S2. reflexivity.
Qed.
End Funs.

(* OCP functions *)
Variables (oc : ocp) (po : pocp).
Hypothesis KO : pocp_ok pm oc po.
Section Ocp.
Variables (jz : nat) (jf : fam2 -> nat) (x : nat -> R) (xs : list expr).
Hypothesis Hx : isvec rho (m_nx m) x xs.
Notation v := (at_point m rho c e jz jf x).
Notation U := (vars (ulab pm c)).
Notation PP := (vars (pst pm c)).

Lemma xupv f outs r : mkfun [mx (pm_m pm); mu_ (pm_m pm); mp (pm_m pm); mvg (pm_m pm)] outs = Ok f ->
  call f [xs; U; PP; vgv pm] = Ok r -> Forall2 (fun e x => eval rho x = eval v e) outs r.
Proof.
  destruct pm_syms as (-> & -> & _ & -> & _ & _ & ->). intros M H.
  exact (call_vals v _ _ _ _ _ M H (Forall2_cons _ _ (x_ale jz jf x xs Hx) (Forall2_cons _ _ (u_ale jz jf x)
    (Forall2_cons _ _ (p_ale jz jf x) (Forall2_cons _ _ (vg_ale jz jf x) (Forall2_nil _)))))).
Qed.
Lemma xpv f outs r : mkfun [mx (pm_m pm); mp (pm_m pm); mvg (pm_m pm)] outs = Ok f ->
  call f [xs; PP; vgv pm] = Ok r -> Forall2 (fun e x => eval rho x = eval v e) outs r.
Proof.
  destruct pm_syms as (-> & _ & _ & -> & _ & _ & ->). intros M H.
  exact (call_vals v _ _ _ _ _ M H (Forall2_cons _ _ (x_ale jz jf x xs Hx)
    (Forall2_cons _ _ (p_ale jz jf x) (Forall2_cons _ _ (vg_ale jz jf x) (Forall2_nil _))))).
Qed.
Lemma fq_call q : call (po_fq_fun po) [xs; U; PP; vgv pm] = Ok [q] -> eval rho q = eval v (oc_fq oc).
Proof. intros H. apply (xupv _ _ _ (po_fq _ _ _ KO)) in H. inversion H; subst. assumption. Qed.
Lemma gpath_call r : call (po_g_path_fun po) [xs; U; PP; vgv pm] = Ok r ->
  Forall2 (fun e x => eval rho x = eval v e) (oc_g_path oc) r.
Proof. apply xupv, (po_gp _ _ _ KO). Qed.
Lemma gT_call r : call (po_gT_fun po) [xs; PP; vgv pm] = Ok r ->
  ((forall y, In y r -> eval rho y = 0%R) <-> forall y, In y (oc_gT oc) -> eval v y = 0%R).
Proof. intros H. apply (xpv _ _ _ (po_gT _ _ _ KO)) in H. apply vals_all0. exact H. Qed.
Lemma fT_call r : call (po_fT_fun po) [xs; PP; vgv pm] = Ok [r] -> eval rho r = eval v (oc_fT oc).
Proof. intros H. apply (xpv _ _ _ (po_fT _ _ _ KO)) in H. inversion H; subst. assumption. Qed.

Definition rows_at (w : env) (rows : list (expr * expr)) (ab : list expr * list expr) : Prop :=
  Forall2 (fun r p => eval rho (fst p) = eval w (fst r) /\ eval rho (snd p) = eval w (snd r)) rows (combine (fst ab) (snd ab)) /\
  length (fst ab) = length rows /\ length (snd ab) = length rows.

Lemma rows_join w rows a b :
  Forall2 (fun e x => eval rho x = eval w e) (map fst rows) a -> Forall2 (fun e x => eval rho x = eval w e) (map snd rows) b ->
  rows_at w rows (a, b).
Proof.
  intros H1 H2. unfold rows_at. cbn [fst snd]. pose proof (Forall2_length _ _ _ H1) as L1. pose proof (Forall2_length _ _ _ H2) as L2.
  rewrite map_length in *. split; [|auto]. clear L1 L2.
  apply Forall2_map_l in H1. apply Forall2_map_l in H2. revert b H2.
  induction H1 as [|r y rows a E HF IH]; intros b H2; inversion H2; subst; constructor; cbn; auto.
Qed.
Lemma comp_at w ins f rows args ab : mkcomp ins rows = Ok f -> callcomp f args = Ok ab ->
  Forall2 (Forall2 (ale w)) ins args -> rows_at w rows ab.
Proof.
  intros M H HA. unfold mkcomp in M. apply bind_ok in M. destruct M as (fa & Ma & M). apply bind_ok in M.
  destruct M as (fb' & Mb & M). injection M as <-. unfold callcomp in H. cbn [fst snd] in H.
  apply bind_ok in H. destruct H as (a & Ha & H). apply bind_ok in H. destruct H as (b & Hb & H). injection H as <-.
  apply rows_join; [exact (call_vals w _ _ _ _ _ Ma Ha HA)|exact (call_vals w _ _ _ _ _ Mb Hb HA)].
Qed.
Lemma comp_lens ins f rows args ab : mkcomp ins rows = Ok f -> callcomp f args = Ok ab -> lens ins = lens args.
Proof.
  intros M H. unfold mkcomp in M. apply bind_ok in M. destruct M as (fa & Ma & M). apply bind_ok in M.
  destruct M as (fb' & Mb & M). injection M as <-. unfold callcomp in H. cbn [fst snd] in H.
  apply bind_ok in H. destruct H as (a & Ha & H). exact (call_lens _ _ _ _ _ Ma Ha).
Qed.

Lemma in_class r gc cc sc : classify (mx (pm_m pm) ++ mz (pm_m pm)) (mu_ (pm_m pm) ++ mpt (pm_m pm)) (oc_comp oc) = (gc, cc, sc) ->
  (In r sc <-> In r (oc_comp oc) /\ stage_row m r) /\
  (In r cc <-> In r (oc_comp oc) /\ control_row m r) /\
  (In r gc <-> In r (oc_comp oc) /\ global_row m r).
Proof.
  destruct pm_syms as (-> & -> & -> & _ & -> & _). intros H.
  rewrite classify_spec in H. injection H as <- <- <-. rewrite !filter_In.
  unfold control_row, global_row, stage_row.
  assert (E : forall vs, depends_on vs r = true <-> uses vs r). { intros vs. apply depends_on_spec. }
  assert (E' : forall vs, negb (depends_on vs r) = true <-> ~ uses vs r).
  { intros vs. rewrite <- E. destruct (depends_on vs r); cbn; split; congruence. }
  rewrite !andb_true_iff, !E', !E. tauto.
Qed.

Lemma rk_comp_call ab : callcomp (po_rk_comp po) [xs; U; vars (lab_zz jz jf); PP; vgv pm] = Ok ab ->
  exists rows, (forall r, In r rows <-> In r (oc_comp oc) /\ stage_row m r) /\ rows_at v rows ab.
Proof.
  intros H. destruct (po_cl _ _ _ KO) as (gc & cc & sc & CL & _ & _ & M).
  exists sc. split; [intros r; apply (in_class r _ _ _ CL)|].
  destruct pm_syms as (E1 & E2 & _ & E4 & _ & _ & E7). rewrite E1, E2, E4, E7 in M.
  pose proof (comp_lens _ _ _ _ _ M H) as L. injection L as _ _ L _ _. rewrite vars_length in L.
  exact (comp_at v _ _ _ _ _ M H (Forall2_cons _ _ (x_ale jz jf x xs Hx) (Forall2_cons _ _ (u_ale jz jf x)
    (Forall2_cons _ _ (z_ale jz jf x L) (Forall2_cons _ _ (p_ale jz jf x) (Forall2_cons _ _ (vg_ale jz jf x) (Forall2_nil _))))))).
Qed.
End Ocp.

Lemma ctrl_comp_call jz jf x ab : callcomp (po_ctrl_comp po) [vars (ulab pm c); vars (pst pm c); vgv pm] = Ok ab ->
  exists rows, (forall r, In r rows <-> In r (oc_comp oc) /\ control_row m r) /\ rows_at (at_point m rho c e jz jf x) rows ab.
Proof.
  intros H. destruct (po_cl _ _ _ KO) as (gc & cc & sc & CL & _ & M & _).
  exists cc. split; [intros r; apply (in_class r _ _ _ CL)|].
  destruct pm_syms as (E1 & E2 & _ & E4 & _ & _ & E7). rewrite E2, E4, E7 in M.
  exact (comp_at _ _ _ _ _ _ M H (Forall2_cons _ _ (u_ale jz jf x)
    (Forall2_cons _ _ (p_ale jz jf x) (Forall2_cons _ _ (vg_ale jz jf x) (Forall2_nil _))))).
Qed.
End Point.
