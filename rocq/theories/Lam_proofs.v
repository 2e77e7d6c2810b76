(* Lam_proofs.v -- compute_lambda00 *)
From Coq Require Import Reals Qreals Lra Qround.
From Verif Require Import Base Sx Utils Tableau Opts Model Ocp Problem Spec Lib Sx_proofs Model_proofs Fesd Sem_proofs Dcs_proofs
  Elem_proofs Feas_proofs Feas2_proofs Numeric Spec3 Mode_proofs.

Lemma emin_from_min rho v acc : (eval rho (emin_from acc v) <= eval rho acc)%R /\
  (forall e, In e v -> (eval rho (emin_from acc v) <= eval rho e)%R) /\
  (exists e, In e (acc :: v) /\ eval rho (emin_from acc v) = eval rho e).
Proof.
  revert acc. induction v as [|a v IH]; intros acc; cbn [emin_from].
  - split; [lra|]. split; [intros e []|]. exists acc. split; [left|]; reflexivity.
  - destruct (IH (EBin BFmin acc a)) as (I1 & I2 & (e & I3 & I4)). cbn in I1.
    pose proof (Rmin_l (eval rho acc) (eval rho a)). pose proof (Rmin_r (eval rho acc) (eval rho a)).
    split; [lra|]. split; [intros x [<-|Hx]; [lra|auto]|].
    destruct I3 as [<-|I3].
    + cbn [eval eval_bin] in I4. rewrite I4. unfold Rmin. destruct (Rle_dec _ _); [exists acc|exists a]; cbn; auto.
    + exists e. cbn. auto.
Qed.
Lemma emin_least rho n f v mn : isvec rho n f v -> emin v = Ok mn -> least n f (eval rho mn).
Proof.
  intros I E. apply isvec_iff in I. destruct I as [L I].
  destruct v as [|a v]; [discriminate|]. cbn in E. injection E as <-. destruct (emin_from_min rho v a) as (I1 & I2 & (e & I3 & I4)).
  split.
  - intros k Hk. destruct (nth_error_lt (a :: v) k ltac:(lia)) as [x Hx]. rewrite <- (I _ _ Hx).
    apply nth_error_In in Hx. destruct Hx as [<-|Hx]; auto.
  - apply In_nth_error in I3. destruct I3 as [k Hk]. exists k. split.
    + rewrite <- L. eapply nth_error_Some_lt; eauto.
    + rewrite I4. symmetry. apply I, Hk.
Qed.

(* ---- values of the inputs ---- *)
Lemma bindR_app ins1 ins2 v1 v2 s : length ins1 = length v1 ->
  bindR (ins1 ++ ins2) (v1 ++ v2) s = if mem s ins1 then bindR ins1 v1 s else bindR ins2 v2 s.
Proof.
  revert v1. induction ins1 as [|i ins1 IH]; intros [|x v1] L; try discriminate; [reflexivity|].
  cbn in L. cbn [app bindR mem existsb]. destruct (sym_eqb s i) eqn:E; [reflexivity|]. cbn. apply IH. lia.
Qed.
Lemma bindR_map (C : nat -> sym) n : (forall i j, C i = C j -> i = j) -> forall v a i, length v = n -> a <= i < a + n ->
  bindR (map C (seq a n)) v (C i) = nth (i - a) v 0%R.
Proof.
  intros Inj. induction n as [|n IH]; intros v a i L Hi; [lia|]. destruct v as [|x v]; [discriminate|]. cbn in L.
  cbn [seq map bindR]. destruct (sym_eqb (C i) (C a)) eqn:E.
  - apply sym_eqb_eq in E. apply Inj in E. subst. rewrite Nat.sub_diag. reflexivity.
  - assert (i <> a). { intros ->. rewrite sym_eqb_refl in E. discriminate. }
    rewrite IH by lia. replace (i - a) with (S (i - S a)) by lia. reflexivity.
Qed.
Lemma bindR_none ins v s : mem s ins = false -> bindR ins v s = 0%R.
Proof.
  revert v. induction ins as [|i ins IH]; intros [|x v]; cbn; intros H; try reflexivity.
  destruct (sym_eqb s i) eqn:E; [discriminate|]. apply IH, H.
Qed.
Lemma mem_map_seq (C : nat -> sym) a n i : (forall i j, C i = C j -> i = j) ->
  mem (C i) (map C (seq a n)) = ((a <=? i) && (i <? a + n)).
Proof.
  intros Inj. destruct (mem (C i) (map C (seq a n))) eqn:E; symmetry.
  - apply mem_In in E. apply in_map_iff in E. destruct E as (j & E & Hj). apply Inj in E. subst. apply in_seq in Hj.
    apply andb_true_intro. split; [apply Nat.leb_le|apply Nat.ltb_lt]; lia.
  - apply Bool.not_true_is_false. intros H. apply andb_prop in H. destruct H as [H1 H2]. apply Nat.leb_le in H1. apply Nat.ltb_lt in H2.
    assert (mem (C i) (map C (seq a n)) = true); [|congruence]. apply mem_In. apply in_map. apply in_seq. lia.
Qed.
Lemma mem_map_other (C : nat -> sym) s n : (forall i, C i <> s) -> mem s (map C (seq 0 n)) = false.
Proof.
  intros H. apply Bool.not_true_is_false. intros E. apply mem_In in E. apply in_map_iff in E. destruct E as (i & E & _). eapply H; eauto.
Qed.
Lemma nth_skipn' {A} n (l : list A) i d : nth i (skipn n l) d = nth (n + i) l d.
Proof. revert l. induction n as [|n IH]; intros [|a l]; cbn; try reflexivity; [destruct i; reflexivity|apply IH]. Qed.
Lemma bindR_initial m x0 z0 p0 s : length x0 = m_nx m -> length z0 = m_nz m -> length p0 = m_npt m + m_npg m ->
  bindR (mx m ++ mz m ++ mp m) (x0 ++ z0 ++ p0) s = initial_point m x0 z0 p0 s.
Proof.
  intros Lx Lz Lp.
  assert (SP : p0 = firstn (m_npt m) p0 ++ skipn (m_npt m) p0) by (symmetry; apply firstn_skipn).
  assert (Lf : length (firstn (m_npt m) p0) = m_npt m) by (rewrite firstn_length; lia).
  assert (Ls : length (skipn (m_npt m) p0) = m_npg m) by (rewrite skipn_length; lia).
  rewrite bindR_app by (unfold mx; rewrite map_length, seq_length; lia).
  rewrite bindR_app by (unfold mz; rewrite map_length, seq_length; lia).
  unfold mp. rewrite SP at 1. rewrite bindR_app by (unfold mpt; rewrite map_length, seq_length; lia).
  unfold mx, mz, mpt, mpg.
  assert (IX : forall i j, MX i = MX j -> i = j) by (intros; congruence).
  assert (IZ : forall i j, MZ i = MZ j -> i = j) by (intros; congruence).
  assert (IT : forall i j, MPt i = MPt j -> i = j) by (intros; congruence).
  assert (IG : forall i j, MPg i = MPg j -> i = j) by (intros; congruence).
  destruct s; cbn [initial_point];
  repeat first [rewrite (mem_map_other MX) by (intros; discriminate) | rewrite (mem_map_other MZ) by (intros; discriminate)
    | rewrite (mem_map_other MPt) by (intros; discriminate)];
  try (apply bindR_none, mem_map_other; intros; discriminate).
  - rewrite (mem_map_seq MX 0 _ _ IX). cbn [Nat.leb andb Nat.add]. destruct (i <? m_nx m) eqn:E.
    + apply Nat.ltb_lt in E. rewrite bindR_map by (auto; lia). f_equal; lia.
    + apply Nat.ltb_ge in E. rewrite bindR_none by (apply mem_map_other; intros; discriminate). rewrite nth_overflow by lia. reflexivity.
  - rewrite (mem_map_seq MZ 0 _ _ IZ). cbn [Nat.leb andb Nat.add]. destruct (i <? m_nz m) eqn:E.
    + apply Nat.ltb_lt in E. rewrite bindR_map by (auto; lia). f_equal; lia.
    + apply Nat.ltb_ge in E. rewrite bindR_none by (apply mem_map_other; intros; discriminate). rewrite nth_overflow by lia. reflexivity.
  - rewrite (mem_map_seq MPt 0 _ _ IT). cbn [Nat.leb andb Nat.add]. destruct (i <? m_npt m) eqn:E.
    + apply Nat.ltb_lt in E. rewrite bindR_map by (auto; lia). f_equal; lia.
    + apply Nat.ltb_ge in E. rewrite bindR_none by (apply mem_map_other; intros; discriminate). rewrite nth_overflow by lia. reflexivity.
  - destruct (i <? m_npg m) eqn:E.
    + apply Nat.ltb_lt in E. rewrite bindR_map by (auto; lia). rewrite Nat.sub_0_r.
      apply nth_skipn'.
    + apply Nat.ltb_ge in E. rewrite bindR_none. { rewrite nth_overflow by lia. reflexivity. }
      rewrite (mem_map_seq MPg 0 _ _ IG). cbn. apply Nat.ltb_ge. lia.
Qed.

(* ---- lambda00 ---- *)
Section Lam.
Variables (o : opts) (m : model) (pm : pmodel).
Hypothesis HP : preprocess_model o m = Ok pm.
Hypothesis WS : well_sized m.
Let K := preprocess_model_ok o m pm HP.

Lemma lam00_value z0 x0 pval p0 : length z0 = m_nz m -> length x0 = m_nx m -> nth_error pval 0 = Some p0 -> length p0 = m_npt m + m_npg m ->
  exists l00, mkfun [mx m; mz m; mp m] l00 = Ok (pm_lam00_fun pm) /\
    lambda00_at pm z0 x0 pval = Ok (map (eval (initial_point m x0 z0 p0)) l00).
Proof.
  intros Lz Lx Hp Lp. destruct (mo_dcs _ _ _ K) as (gSl & ups & fx0 & d & _ & _ & _ & _ & _ & _ & _ & M & _).
  exists (d_l00 d). split; [exact M|]. apply mkfun_ok in M. destruct M as [M _]. unfold lambda00_at, nthE. rewrite Hp. cbn [bind].
  rewrite M. unfold numcall. cbn [cf_in cf_out length Nat.eqb guard bind combine mapM fst snd].
  assert (E1 : length (mx m) = m_nx m) by (unfold mx; rewrite map_length, seq_length; reflexivity).
  assert (E2 : length (mz m) = m_nz m) by (unfold mz; rewrite map_length, seq_length; reflexivity).
  assert (E3 : length (mp m) = m_npt m + m_npg m) by (unfold mp, mpt, mpg; rewrite app_length, !map_length, !seq_length; reflexivity).
  unfold fit at 1. rewrite Lx, E1, Nat.eqb_refl. cbn [bind].
  unfold fit at 1. rewrite Lz, E2, Nat.eqb_refl. cbn [bind].
  unfold fit at 1. rewrite Lp, E3, Nat.eqb_refl. cbn [bind concat]. rewrite !app_nil_r.
  f_equal. apply map_ext. intros e. apply eval_ext. intros s _. apply bindR_initial; assumption.
Qed.

(* Stewart *)
Lemma stewart_l00 v : o_pss o = Stewart -> exists d, mkfun [mx m; mz m; mp m] (d_l00 d) = Ok (pm_lam00_fun pm) /\
  length (d_l00 d) = upto (n_subsystems m) (n_modes m) /\
  forall s, s < n_subsystems m -> exists mn, least (n_modes m s) (region_value m v s) mn /\
    forall k, k < n_modes m s -> exists e, nth_error (d_l00 d) (offset (n_modes m) s k) = Some e /\
       eval v e = (region_value m v s k - mn)%R.
Proof.
  intros Ep. destruct (mo_dcs _ _ _ K) as (gSl & ups & fx0 & d & Hg & _ & _ & Hd & _ & _ & _ & M & _).
  rewrite Ep in Hg, Hd. destruct Hd as (F & EF & Hd). exists d. split; [exact M|]. rewrite <- (mo_nsys _ _ _ K).
  set (I := fun n d => length (d_l00 d) = upto n (n_modes m) /\ forall s, s < n -> exists mn, least (n_modes m s) (region_value m v s) mn /\
    forall k, k < n_modes m s -> exists e, nth_error (d_l00 d) (offset (n_modes m) s k) = Some e /\
       eval v e = (region_value m v s k - mn)%R).
  refine (foldM_seq0 _ I (pm_nsys pm) _ _ _ _ Hd).
  - intros k a a' Hk [L IH] H. unfold stewart_step in H.
    apply bind_ok in H. destruct H as (Fi & HFi & H). apply nthE_ok in HFi.
    apply bind_ok in H. destruct H as (n & Hn & H). apply nthE_ok in Hn.
    apply bind_ok in H. destruct H as (gi & Hgi & H). apply nthE_ok in Hgi.
    rewrite (pm_nf_nth _ _ _ _ K Hk) in Hn. injection Hn as <-.
    cbv zeta in H. apply bind_ok in H. destruct H as (ft & Hft & H). apply bind_ok in H. destruct H as (fx & Hfx & H).
    apply bind_ok in H. destruct H as (g1 & Hg1 & H). apply bind_ok in H. destruct H as (g2 & Hg2 & H).
    apply bind_ok in H. destruct H as (dt & Hdt & H). apply bind_ok in H. destruct H as (mn & Hmn & H).
    apply bind_ok in H. destruct H as (l00 & Hl & H). injection H as <-.
    pose proof (gS_facts o m pm K WS v F gSl k gi EF Hg Hgi Hk) as Ig.
    pose proof (vbin_scalar_isvec v BSub _ _ _ mn Ig l00 Hl) as Il.
    split.
    + cbn [d_l00]. rewrite app_length, L, (isvec_length _ _ _ _ Il). replace (k + 1) with (S k) by lia. rewrite upto_S. reflexivity.
    + cbn [d_l00]. intros s Hs. destruct (Nat.eq_dec s k) as [->|Ne].
      * exists (eval v mn). split; [eapply emin_least; eauto|]. intros j Hj.
        destruct (isvec_nth _ _ _ _ j Il Hj) as (e & He & Ve). exists e. split; [|exact Ve].
        unfold offset. rewrite nth_error_app2 by lia. rewrite L.
        replace (upto k (n_modes m) + j - upto k (n_modes m)) with j by lia. exact He.
      * destruct (IH s ltac:(lia)) as (mn' & A & B). exists mn'. split; [exact A|]. intros j Hj. destruct (B j Hj) as (e & He & Ve).
        exists e. split; [|exact Ve]. rewrite nth_error_app1; [exact He|]. eapply nth_error_Some_lt; eauto.
  - split; [reflexivity|]. intros; lia.
Qed.

Lemma gsw_switching v : (forall e, In e (cf_out (pm_gsw_fun pm)) -> eval v e = 0%R) <-> switching_ok o m v.
Proof.
  destruct (model_at_ok o m pm K WS v) as [(d & D & M1 & M2 & M3 & I & A & B & _)].
  apply mkfun_ok in M2. destruct M2 as [-> _]. exact A.
Qed.

Lemma gSl_length F gSl n d0 d1 : foldM (stewart_step F gSl (pm_nf pm)) (seq 0 n) d0 = Ok d1 -> n <= length gSl.
Proof.
  assert (G : forall l d0 d1, foldM (stewart_step F gSl (pm_nf pm)) l d0 = Ok d1 -> forall x, In x l -> x < length gSl).
  { induction l as [|y l IH]; intros e0 e1 H x Hx; [destruct Hx|]. cbn [foldM] in H. apply bind_ok in H. destruct H as (a & H1 & H2).
    destruct Hx as [->|Hx]; [|eapply IH; eauto]. unfold stewart_step in H1.
    apply bind_ok in H1. destruct H1 as (Fi & HFi & H). apply bind_ok in H. destruct H as (k & Hk & H). 
    apply bind_ok in H. destruct H as (gi & Hgi & H). apply nthE_ok in Hgi. eapply nth_error_Some_lt; eauto. }
  intros Hd. destruct n as [|n]; [lia|]. specialize (G _ _ _ Hd n). apply G. apply in_seq. lia.
Qed.

(* the switching functions depend on x, z and p only *)
Lemma region_free s k (v w : env) : o_pss o = Stewart -> s < n_subsystems m -> k < n_modes m s ->
  (forall y, In y (mx m ++ mz m ++ mp m) -> v y = w y) -> region_value m v s k = region_value m w s k.
Proof.
  intros Ep Hs Hk E. destruct (mo_dcs _ _ _ K) as (gSl & ups & fx0 & d & Hg & _ & _ & Hd & _ & _ & _ & _ & _ & X).
  rewrite Ep in Hg, Hd, X. destruct Hd as (F & EF & Hd). destruct X as (mins & fm & fg & _ & _ & _ & M & _).
  apply mkfun_ok in M. destruct M as [_ M]. rewrite <- (mo_nsys _ _ _ K) in Hs.
  assert (Hgi : exists gi, nth_error gSl s = Some gi).
  { apply nth_error_lt. pose proof (gSl_length _ _ _ _ _ Hd). lia. }
  destruct Hgi as [gi Hgi].
  pose proof (gS_facts o m pm K WS v F gSl s gi EF Hg Hgi Hs) as I1.
  pose proof (gS_facts o m pm K WS w F gSl s gi EF Hg Hgi Hs) as I2.
  destruct (isvec_nth _ _ _ _ k I1 Hk) as (e & He & <-). apply isvec_iff in I2. destruct I2 as [_ I2]. rewrite <- (I2 _ _ He).
  apply eval_ext. intros y Hy. apply E. specialize (M e y). cbn [concat] in M. rewrite app_nil_r in M. apply M; [|exact Hy].
  apply in_concat. exists gi. split; eapply nth_error_In; eauto.
Qed.

Lemma z0_length : length (reals (pm_z0 pm)) = m_nz m.
Proof. unfold reals. rewrite map_length. apply (mo_z0 _ _ _ K). Qed.
Lemma stewart_lambda00_at z0 x0 pval p0 : o_pss o = Stewart -> length z0 = m_nz m -> length x0 = m_nx m -> nth_error pval 0 = Some p0 -> length p0 = m_npt m + m_npg m ->
  let v0 := initial_point m x0 z0 p0 in
  exists (l : list R) (mn : nat -> R), lambda00_at pm z0 x0 pval = Ok l /\ length l = upto (n_subsystems m) (n_modes m) /\
   (forall s, s < n_subsystems m -> least (n_modes m s) (region_value m v0 s) (mn s) /\
     forall k, k < n_modes m s -> nth_error l (offset (n_modes m) s k) = Some (region_value m v0 s k - mn s)%R) /\
   forall v, (forall y, In y (mx m ++ mz m ++ mp m) -> v y = v0 y) ->
     forall e, In e (cf_out (pm_gsw_fun pm)) ->
       eval (with_lambda v (fun s k => nth (offset (n_modes m) s k) l 0%R) (fun s _ => (- mn s)%R)) e = 0%R.
Proof.
  intros Ep Lz Lx Hp Lp v0. destruct (lam00_value z0 x0 pval p0 Lz Lx Hp Lp) as (l00 & M & HC). fold v0 in HC.
  destruct (stewart_l00 v0 Ep) as (d & M' & Ld & H).
  apply mkfun_ok in M. destruct M as [M _]. apply mkfun_ok in M'. destruct M' as [M' _]. assert (l00 = d_l00 d) by congruence. subst l00.
  assert (Hmn : exists mn : nat -> R, forall s, s < n_subsystems m -> least (n_modes m s) (region_value m v0 s) (mn s) /\
    forall k, k < n_modes m s -> exists e, nth_error (d_l00 d) (offset (n_modes m) s k) = Some e /\
       eval v0 e = (region_value m v0 s k - mn s)%R).
  { clear - H. induction (n_subsystems m) as [|n IH]; [exists (fun _ => 0%R); intros; lia|].
    destruct IH as [mn IH]; [intros; apply H; lia|]. destruct (H n ltac:(lia)) as (a & Ha).
    exists (fun s => if s =? n then a else mn s). intros s Hs. destruct (s =? n) eqn:E.
    - apply Nat.eqb_eq in E. subst. exact Ha.
    - apply Nat.eqb_neq in E. apply IH. lia. }
  destruct Hmn as [mn Hmn]. exists (map (eval v0) (d_l00 d)), mn. split; [exact HC|]. split; [rewrite map_length; exact Ld|].
  assert (HN : forall s, s < n_subsystems m -> least (n_modes m s) (region_value m v0 s) (mn s) /\
     forall k, k < n_modes m s -> nth_error (map (eval v0) (d_l00 d)) (offset (n_modes m) s k) = Some (region_value m v0 s k - mn s)%R).
  { intros s Hs. destruct (Hmn s Hs) as [A B]. split; [exact A|]. intros k Hk. destruct (B k Hk) as (e & He & Ve).
    rewrite (map_nth_error _ _ _ He), Ve. reflexivity. }
  split; [exact HN|]. intros v Ev. apply gsw_switching. intros s k Hs Hk. unfold n_switching in Hk. unfold switching_residual.
  rewrite Ep in Hk |- *. cbn [with_lambda]. destruct (HN s Hs) as [_ B]. rewrite (nth_error_nth _ _ _ (B k Hk)).
  rewrite (region_free s k _ v0 Ep Hs Hk); [lra|]. intros y Hy. rewrite <- (Ev y Hy).
  unfold mx, mz, mp, mpt, mpg in Hy. rewrite !in_app_iff, !in_map_iff in Hy.
  destruct Hy as [(j & <- & _)|[(j & <- & _)|[(j & <- & _)|(j & <- & _)]]]; reflexivity.
Qed.
Lemma stewart_lambda00 x0 pval p0 : o_pss o = Stewart -> length x0 = m_nx m -> nth_error pval 0 = Some p0 -> length p0 = m_npt m + m_npg m ->
  let v0 := initial_point m x0 (reals (pm_z0 pm)) p0 in
  exists (l : list R) (mn : nat -> R), compute_lambda00 pm x0 pval = Ok l /\ length l = upto (n_subsystems m) (n_modes m) /\
   (forall s, s < n_subsystems m -> least (n_modes m s) (region_value m v0 s) (mn s) /\
     forall k, k < n_modes m s -> nth_error l (offset (n_modes m) s k) = Some (region_value m v0 s k - mn s)%R) /\
   forall v, (forall y, In y (mx m ++ mz m ++ mp m) -> v y = v0 y) ->
     forall e, In e (cf_out (pm_gsw_fun pm)) ->
       eval (with_lambda v (fun s k => nth (offset (n_modes m) s k) l 0%R) (fun s _ => (- mn s)%R)) e = 0%R.
Proof. intros Ep Lx Hp Lp. exact (stewart_lambda00_at _ x0 pval p0 Ep z0_length Lx Hp Lp). Qed.

(* Step *)
Lemma step_l00 v : o_pss o = Step -> gS_given m = false -> exists d, mkfun [mx m; mz m; mp m] (d_l00 d) = Ok (pm_lam00_fun pm) /\
  length (d_l00 d) = upto (n_subsystems m) (fun s => 2 * n_switch m s) /\
  forall s k, s < n_subsystems m -> k < n_switch m s ->
    (exists e, nth_error (d_l00 d) (offset (fun s => 2 * n_switch m s) s k) = Some e /\ eval v e = (- Rmin (switch_value m v s k) 0)%R) /\
    (exists e, nth_error (d_l00 d) (offset (fun s => 2 * n_switch m s) s (n_switch m s + k)) = Some e /\
       eval v e = Rmax (switch_value m v s k) 0).
Proof.
  intros Ep Eg. destruct (mo_dcs _ _ _ K) as (gSl & ups & fx0 & d & _ & _ & _ & Hd & _ & _ & _ & M & _).
  rewrite Ep in Hd. destruct Hd as (c & Ec & Hd). exists d. split; [exact M|]. rewrite <- (mo_nsys _ _ _ K).
  set (D := fun s => 2 * n_switch m s).
  set (I := fun n d => length (d_l00 d) = upto n D /\ forall s k, s < n -> k < n_switch m s ->
    (exists e, nth_error (d_l00 d) (offset D s k) = Some e /\ eval v e = (- Rmin (switch_value m v s k) 0)%R) /\
    (exists e, nth_error (d_l00 d) (offset D s (n_switch m s + k)) = Some e /\ eval v e = Rmax (switch_value m v s k) 0)).
  refine (foldM_seq0 _ I (pm_nsys pm) _ _ _ _ Hd).
  - intros k a a' Hk [L IH] H. unfold step_step in H.
    apply bind_ok in H. destruct H as (fx & Hfx & H). apply bind_ok in H. destruct H as (al & Hal & H).
    apply bind_ok in H. destruct H as (ci & Hci & H). apply nthE_ok in Hci.
    apply bind_ok in H. destruct H as (n & Hn & H). apply nthE_ok in Hn. cbv zeta in H.
    apply bind_ok in H. destruct H as (g1 & Hg1 & H). apply bind_ok in H. destruct H as (g2 & Hg2 & H).
    apply bind_ok in H. destruct H as (r1 & Hr1 & H). apply bind_ok in H. destruct H as (oma & Ho & H).
    apply bind_ok in H. destruct H as (r2 & Hr2 & H). injection H as <-.
    assert (Lc : length ci = n_switch m k). { unfold n_switch. rewrite Eg, Ec, Hci. reflexivity. }
    assert (Vc : forall j e, nth_error ci j = Some e -> eval v e = switch_value m v k j).
    { intros j e He. unfold switch_value, user_c. rewrite Ec, (nth_error_nth _ _ _ Hci), (nth_error_nth _ _ _ He). reflexivity. }
    split.
    + cbn [d_l00]. rewrite !app_length, !map_length, L, Lc. replace (k + 1) with (S k) by lia. rewrite upto_S. unfold D at 3. lia.
    + cbn [d_l00]. intros s j Hs Hj. destruct (Nat.eq_dec s k) as [->|Ne].
      * destruct (nth_error_lt ci j ltac:(lia)) as [e He]. pose proof (Vc _ _ He) as Ve. unfold offset. split.
        -- exists (EUn UNeg (EBin BFmin e (ECst 0))). rewrite nth_error_app2 by lia. rewrite L.
           replace (upto k D + j - upto k D) with j by lia. rewrite nth_error_app1 by (rewrite map_length; lia).
           rewrite (map_nth_error _ _ _ He). split; [reflexivity|]. cbn [eval eval_un eval_bin]. rewrite Ve, Q2R_0. reflexivity.
        -- exists (EBin BFmax e (ECst 0)). rewrite nth_error_app2 by lia. rewrite L.
           replace (upto k D + (n_switch m k + j) - upto k D) with (n_switch m k + j) by lia.
           rewrite nth_error_app2 by (rewrite map_length; lia). rewrite map_length, Lc.
           replace (n_switch m k + j - n_switch m k) with j by lia.
           rewrite (map_nth_error _ _ _ He). split; [reflexivity|]. cbn [eval eval_bin]. rewrite Ve, Q2R_0. reflexivity.
      * destruct (IH s j ltac:(lia) Hj) as ((e1 & H1 & V1) & (e2 & H2 & V2)). split.
        -- exists e1. split; [|exact V1]. rewrite nth_error_app1; [exact H1|]. eapply nth_error_Some_lt; eauto.
        -- exists e2. split; [|exact V2]. rewrite nth_error_app1; [exact H2|]. eapply nth_error_Some_lt; eauto.
  - split; [reflexivity|]. intros; lia.
Qed.

Lemma switch_free s k (v w : env) : o_pss o = Step -> gS_given m = false -> s < n_subsystems m -> k < n_switch m s ->
  (forall y, In y (mx m ++ mz m ++ mp m) -> v y = w y) -> switch_value m v s k = switch_value m w s k.
Proof.
  intros Ep Eg Hs Hk E. destruct (step_l00 v Ep Eg) as (d & M & L & H). apply mkfun_ok in M. destruct M as [_ M].
  (* lambda00 is closed, so c is *)
  destruct (mo_dcs _ _ _ K) as (gSl & ups & fx0 & d' & _ & _ & _ & Hd & _ & _ & _ & M' & _).
  rewrite Ep in Hd. destruct Hd as (c & Ec & Hd). apply mkfun_ok in M'. destruct M' as [_ M'].
  assert (I : forall ci, nth_error c s = Some ci -> forall e, In e ci -> In (EBin BFmax e (ECst 0)) (d_l00 d')).
  { rewrite <- (mo_nsys _ _ _ K) in Hs.
    set (I := fun (n : nat) (d : dcs) => forall s, s < n -> forall ci, nth_error c s = Some ci -> forall e, In e ci -> In (EBin BFmax e (ECst 0)) (d_l00 d)).
    assert (HI : I (pm_nsys pm) d').
    { refine (foldM_seq0 _ I (pm_nsys pm) _ _ _ _ Hd); [|intros ? ?; lia].
      intros j a a' Hj IH G. unfold step_step in G.
      apply bind_ok in G. destruct G as (fx & Hfx & G). apply bind_ok in G. destruct G as (al & Hal & G).
      apply bind_ok in G. destruct G as (ci & Hci & G). apply nthE_ok in Hci.
      apply bind_ok in G. destruct G as (n & Hn & G). cbv zeta in G.
      apply bind_ok in G. destruct G as (g1 & Hg1 & G). apply bind_ok in G. destruct G as (g2 & Hg2 & G).
      apply bind_ok in G. destruct G as (r1 & Hr1 & G). apply bind_ok in G. destruct G as (oma & Ho & G).
      apply bind_ok in G. destruct G as (r2 & Hr2 & G). injection G as <-. cbn [d_l00].
      intros s' Hs' ci' Hci' e He. apply in_app_iff. destruct (Nat.eq_dec s' j) as [->|Ne].
      - right. apply in_app_iff. right. assert (ci' = ci) by congruence. subst. apply in_map_iff. eauto.
      - left. eapply IH; eauto. lia. }
    intros ci Hci e He. eapply HI; eauto. }
  assert (X : exists ci, nth_error c s = Some ci /\ k < length ci).
  { unfold n_switch in Hk. rewrite Eg, Ec in Hk. destruct (nth_error c s); [eauto|lia]. }
  destruct X as (ci & Hci & Hk'). destruct (nth_error_lt ci k Hk') as [e He].
  unfold switch_value, user_c. rewrite Ec, (nth_error_nth _ _ _ Hci), (nth_error_nth _ _ _ He).
  apply eval_ext. intros y Hy. apply E. specialize (M' _ y (I ci Hci e (nth_error_In _ _ He))). cbn [concat fv] in M'. rewrite !app_nil_r in M'.
  apply M', Hy.
Qed.

Lemma step_lambda00_at z0 x0 pval p0 : o_pss o = Step -> gS_given m = false -> length z0 = m_nz m ->
  length x0 = m_nx m -> nth_error pval 0 = Some p0 -> length p0 = m_npt m + m_npg m ->
  let v0 := initial_point m x0 z0 p0 in
  let D := fun s => 2 * n_switch m s in
  exists l : list R, lambda00_at pm z0 x0 pval = Ok l /\ length l = upto (n_subsystems m) D /\
   (forall s k, s < n_subsystems m -> k < n_switch m s ->
     exists ln lp, nth_error l (offset D s k) = Some ln /\ nth_error l (offset D s (n_switch m s + k)) = Some lp /\
       (0 <= ln)%R /\ (0 <= lp)%R /\ (lp - ln = switch_value m v0 s k)%R /\ (lp * ln = 0)%R) /\
   forall v, (forall y, In y (mx m ++ mz m ++ mp m) -> v y = v0 y) ->
     forall e, In e (cf_out (pm_gsw_fun pm)) ->
       eval (with_step_lambda v (fun s k => nth (offset D s k) l 0%R) (fun s k => nth (offset D s (n_switch m s + k)) l 0%R)) e = 0%R.
Proof.
  intros Ep Eg Lz Lx Hp Lp v0 D. destruct (lam00_value z0 x0 pval p0 Lz Lx Hp Lp) as (l00 & M & HC). fold v0 in HC.
  destruct (step_l00 v0 Ep Eg) as (d & M' & Ld & H).
  apply mkfun_ok in M. destruct M as [M _]. apply mkfun_ok in M'. destruct M' as [M' _]. assert (l00 = d_l00 d) by congruence. subst l00.
  exists (map (eval v0) (d_l00 d)). split; [exact HC|]. split; [rewrite map_length; exact Ld|].
  assert (HN : forall s k, s < n_subsystems m -> k < n_switch m s ->
     exists ln lp, nth_error (map (eval v0) (d_l00 d)) (offset D s k) = Some ln /\
       nth_error (map (eval v0) (d_l00 d)) (offset D s (n_switch m s + k)) = Some lp /\
       (0 <= ln)%R /\ (0 <= lp)%R /\ (lp - ln = switch_value m v0 s k)%R /\ (lp * ln = 0)%R).
  { intros s k Hs Hk. destruct (H s k Hs Hk) as ((e1 & H1 & V1) & (e2 & H2 & V2)).
    exists (eval v0 e1), (eval v0 e2). split; [apply map_nth_error, H1|]. split; [apply map_nth_error, H2|].
    rewrite V1, V2. unfold Rmin, Rmax. destruct (Rle_dec _ _); repeat split; try lra; ring. }
  split; [exact HN|]. intros v Ev. apply gsw_switching. intros s k Hs Hk. unfold n_switching in Hk. unfold switching_residual.
  rewrite Ep in Hk |- *. cbn [with_step_lambda]. destruct (HN s k Hs Hk) as (ln & lp & A1 & A2 & _ & _ & A3 & _).
  rewrite (nth_error_nth _ _ _ A1), (nth_error_nth _ _ _ A2).
  rewrite (switch_free s k _ v0 Ep Eg Hs Hk); [lra|]. intros y Hy. rewrite <- (Ev y Hy).
  unfold mx, mz, mp, mpt, mpg in Hy. rewrite !in_app_iff, !in_map_iff in Hy.
  destruct Hy as [(j & <- & _)|[(j & <- & _)|[(j & <- & _)|(j & <- & _)]]]; reflexivity.
Qed.
Lemma step_lambda00 x0 pval p0 : o_pss o = Step -> gS_given m = false ->
  length x0 = m_nx m -> nth_error pval 0 = Some p0 -> length p0 = m_npt m + m_npg m ->
  let v0 := initial_point m x0 (reals (pm_z0 pm)) p0 in
  let D := fun s => 2 * n_switch m s in
  exists l : list R, compute_lambda00 pm x0 pval = Ok l /\ length l = upto (n_subsystems m) D /\
   (forall s k, s < n_subsystems m -> k < n_switch m s ->
     exists ln lp, nth_error l (offset D s k) = Some ln /\ nth_error l (offset D s (n_switch m s + k)) = Some lp /\
       (0 <= ln)%R /\ (0 <= lp)%R /\ (lp - ln = switch_value m v0 s k)%R /\ (lp * ln = 0)%R) /\
   forall v, (forall y, In y (mx m ++ mz m ++ mp m) -> v y = v0 y) ->
     forall e, In e (cf_out (pm_gsw_fun pm)) ->
       eval (with_step_lambda v (fun s k => nth (offset D s k) l 0%R) (fun s k => nth (offset D s (n_switch m s + k)) l 0%R)) e = 0%R.
Proof. intros Ep Eg Lx Hp Lp. exact (step_lambda00_at _ x0 pval p0 Ep Eg z0_length Lx Hp Lp). Qed.

(* mu00_stewart_fun returns min g *)
Lemma mu00_value v : o_pss o = Stewart -> exists f, pm_mu00_fun pm = Some f /\ 
  forall s, s < n_subsystems m -> exists e, nth_error (cf_out f) s = Some e /\ least (n_modes m s) (region_value m v s) (eval v e).
Proof.
  intros Ep. destruct (mo_dcs _ _ _ K) as (gSl & ups & fx0 & d & Hg & _ & _ & Hd & _ & _ & _ & _ & _ & X).
  rewrite Ep in Hg, Hd, X. destruct Hd as (F & EF & Hd). destruct X as (mins & fm & fg & Hm & Mf & E & _).
  apply mkfun_ok in Mf. destruct Mf as [-> _]. exists (mkCafun [mx m; mz m; mp m] mins). split; [exact E|]. cbn [cf_out].
  intros s Hs. rewrite <- (mo_nsys _ _ _ K) in Hs.
  assert (Hgi : exists gi, nth_error gSl s = Some gi).
  { apply nth_error_lt. pose proof (gSl_length _ _ _ _ _ Hd). lia. }
  destruct Hgi as [gi Hgi]. destruct (mapM_nth _ _ _ _ _ Hm Hgi) as (e & He & Em). exists e. split; [exact He|].
  eapply emin_least; [|exact Em]. exact (gS_facts o m pm K WS v F gSl s gi EF Hg Hgi Hs).
Qed.
End Lam.
