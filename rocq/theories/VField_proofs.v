(* VField_proofs.v -- create_function_calculate_vector_field *)
From Coq Require Import Reals Qreals Lra Psatz.
From Verif Require Import Base Lib Sx Sx_proofs Utils Tableau Opts Model Ocp Problem Spec Fesd Fo_proofs Fe_proofs
  FeMake_proofs FeSel_proofs Prob_proofs Body_proofs Model_proofs Con_proofs Sem_proofs Dcs_proofs Elem_proofs Feas_proofs Feas2_proofs Numeric Spec3
  Mode_proofs Lam_proofs Exact_proofs Extras Spec15.
Local Open Scope R_scope.

Lemma eval_vf_row g th mu s i : eval (vf_point g th mu) (vf_row s (EVar (MF FLam 0 i)) (EVar (MF FTheta 0 i))) =
  sqrt ((g i - mu) * (g i - mu) - th i * th i + Q2R s * Q2R s) - (g i - mu + th i).
Proof.
  unfold vf_row, vf_mu. cbn [eval eval_bin eval_un vf_point]. rewrite Q2R_1, Q2R_mult, Rmult_1_r. reflexivity.
Qed.
Lemma in_vf_rows n s e : In e (vf_system n s) <->
  (exists i, (i < n)%nat /\ e = vf_row s (EVar (MF FLam 0 i)) (EVar (MF FTheta 0 i))) \/ e = EBin BSub (esum (vf_theta n)) (ECst 1).
Proof.
  unfold vf_system. rewrite in_app_iff. cbn [In]. unfold vf_g, vf_theta, vars, mfam.
  assert (G : forall k a, map (fun p => vf_row s (fst p) (snd p)) (combine (map EVar (map (MF FLam 0) (seq a k))) (map EVar (map (MF FTheta 0) (seq a k)))) =
    map (fun i => vf_row s (EVar (MF FLam 0 i)) (EVar (MF FTheta 0 i))) (seq a k)).
  { induction k as [|k IH]; intros a; [reflexivity|]. cbn [seq map combine fst snd]. f_equal. apply IH. }
  rewrite G, in_map_iff. split.
  - intros [(i & <- & Hi)|[<-|[]]]; [left|right; reflexivity]. exists i. split; [|reflexivity]. apply in_seq in Hi. lia.
  - intros [(i & Hi & ->)| ->]; [left|right; left; reflexivity]. exists i. split; [reflexivity|]. apply in_seq. lia.
Qed.
Lemma eval_vf_sum n g th mu : eval (vf_point g th mu) (EBin BSub (esum (vf_theta n)) (ECst 1)) = rupto n th - 1.
Proof.
  cbn [eval eval_bin]. rewrite eval_esum, Rsum_rsum, Q2R_1. unfold vf_theta, vars, mfam, rupto. rewrite !map_map. reflexivity.
Qed.

(* one row *)
Lemma row_root (l t s : R) : sqrt (l * l - t * t + s * s) - (l + t) = 0 <-> 0 <= l + t /\ t * (t + l) = s * s / 2.
Proof.
  split.
  - intros E. assert (E' : sqrt (l * l - t * t + s * s) = l + t) by lra. pose proof (sqrt_pos (l * l - t * t + s * s)) as P.
    split; [lra|]. destruct (Rle_dec 0 (l * l - t * t + s * s)) as [G|G].
    + pose proof (sqrt_sqrt _ G) as Q. rewrite E' in Q. nra.
    + rewrite sqrt_neg_0 in E' by lra. assert (l = - t) by lra. subst l. nra.
  - intros [P E]. replace (l * l - t * t + s * s) with ((l + t) * (l + t)) by lra. rewrite sqrt_square by exact P. lra.
Qed.
Lemma roots_iff o pm s vf g th mu : create_vector_field o pm s = Ok vf ->
  vf_root vf g th mu <-> rupto (vf_n vf) th = 1 /\ forall i, (i < vf_n vf)%nat -> 0 <= g i - mu + th i /\ th i * (th i + (g i - mu)) = Q2R s * Q2R s / 2.
Proof.
  unfold create_vector_field. destruct (o_pss o); [|discriminate]. intros H. apply bind_ok in H. destruct H as (f & _ & H). injection H as <-.
  unfold vf_root. cbn [vf_eqs vf_n]. set (n := length (cf_out f)). split.
  - intros H. split.
    + specialize (H (EBin BSub (esum (vf_theta n)) (ECst 1))). rewrite eval_vf_sum in H. cut (rupto n th - 1 = 0); [lra|]. apply H. apply in_vf_rows. right. reflexivity.
    + intros i Hi. apply row_root. rewrite <- eval_vf_row. apply H. apply in_vf_rows. left. eauto.
  - intros [H1 H2] e He. apply in_vf_rows in He. destruct He as [(i & Hi & ->)| ->].
    + rewrite eval_vf_row. apply row_root. apply H2, Hi.
    + rewrite eval_vf_sum, H1. lra.
Qed.

(* ---- the equations t (t + g - mu) = s^2/2, t + g - mu >= 0, sum t = 1 ---- *)
Definition vf_eqns (n : nat) (s : R) (g th : nat -> R) (mu : R) : Prop :=
  rupto n th = 1 /\ forall i, (i < n)%nat -> 0 <= g i - mu + th i /\ th i * (th i + (g i - mu)) = s * s / 2.

Lemma vf_pos n s g th mu i : vf_eqns n s g th mu -> s <> 0 -> (i < n)%nat -> 0 < th i /\ 0 < g i - mu + th i.
Proof.
  intros [_ H] Hs Hi. destruct (H i Hi) as [A B]. assert (P : 0 < s * s) by nra. replace (g i - mu + th i) with (th i + (g i - mu)) in * by ring.
  set (a := th i + (g i - mu)) in *. assert (Na : 0 < a). { destruct (Req_dec a 0) as [Z|Z]; [rewrite Z in B; lra|lra]. }
  split; [|exact Na]. apply Rmult_lt_reg_r with a; [exact Na|lra].
Qed.
Lemma vf_unique n s g th th' mu mu' : (0 < n)%nat -> s <> 0 -> vf_eqns n s g th mu -> vf_eqns n s g th' mu' ->
  mu = mu' /\ forall i, (i < n)%nat -> th i = th' i.
Proof.
  intros Hn Hs. 
  assert (L : forall a b ma mb, vf_eqns n s g a ma -> vf_eqns n s g b mb -> ma < mb -> forall i, (i < n)%nat -> a i < b i).
  { intros a b ma mb Ea Eb Lm i Hi. destruct (vf_pos _ _ _ _ _ i Ea Hs Hi) as [P1 P2]. destruct (vf_pos _ _ _ _ _ i Eb Hs Hi) as [P3 P4].
    destruct (proj2 Ea i Hi) as [_ A]. destruct (proj2 Eb i Hi) as [_ B]. destruct (Rlt_le_dec (a i) (b i)) as [G|G]; [exact G|exfalso].
    assert (b i * (b i + (g i - mb)) < a i * (a i + (g i - ma))); [|lra].
    apply Rle_lt_trans with (a i * (b i + (g i - mb))); [apply Rmult_le_compat_r; lra|apply Rmult_lt_compat_l; lra]. }
  assert (N : forall a b ma mb, vf_eqns n s g a ma -> vf_eqns n s g b mb -> ma < mb -> False).
  { intros a b ma mb Ea Eb Lm. pose proof (L a b ma mb Ea Eb Lm) as H. destruct Ea as [Sa _]. destruct Eb as [Sb _].
    assert (P : 0 < rupto n (fun i => b i - a i)).
    { pose proof (H _ Hn) as H0. apply rupto_pos with (i := 0%nat); [exact Hn|intros k Hk; specialize (H k Hk); lra|lra]. }
    rewrite rupto_minus in P. lra. }
  intros E E'. assert (Em : mu = mu').
  { destruct (Rtotal_order mu mu') as [G|[G|G]]; [destruct (N _ _ _ _ E E' G)|exact G|destruct (N _ _ _ _ E' E G)]. }
  split; [exact Em|]. subst mu'. intros i Hi. destruct (vf_pos _ _ _ _ _ i E Hs Hi) as [P1 P2]. destruct (vf_pos _ _ _ _ _ i E' Hs Hi) as [P3 P4].
  destruct (proj2 E i Hi) as [_ A]. destruct (proj2 E' i Hi) as [_ B].
  assert ((th i - th' i) * (th i + (g i - mu) + th' i) = 0) by lra. apply Rmult_integral in H. destruct H; lra.
Qed.

(* existence: sum over i of phi (mu - g i) is continuous in mu *)
Definition phi (s t : R) : R := (t + sqrt (t * t + 2 * (s * s))) / 2.
Lemma phi_facts s t : 0 <= phi s t /\ 0 <= phi s t - t /\ phi s t * (phi s t - t) = s * s / 2 /\ t <= phi s t.
Proof.
  unfold phi. assert (G : 0 <= t * t + 2 * (s * s)) by nra. pose proof (sqrt_sqrt _ G) as Q. pose proof (sqrt_pos (t * t + 2 * (s * s))) as P.
  set (r := sqrt (t * t + 2 * (s * s))) in *. assert (B : - r <= t <= r). { split; nra. }
  repeat split; nra.
Qed.
Lemma phi_cont s t : continuity_pt (phi s) t.
Proof.
  unfold phi. reg. nra.
Qed.
Lemma phi_small s t : 0 < t -> phi s (- t) <= s * s / (2 * t).
Proof.
  intros Ht. destruct (phi_facts s (- t)) as (A & B & C & _).
  apply Rmult_le_reg_r with (2 * t); [lra|]. replace (s * s / (2 * t) * (2 * t)) with (s * s) by (field; lra). nra.
Qed.
Lemma lower_bound n (g : nat -> R) : exists b, forall i, (i < n)%nat -> b <= g i.
Proof.
  induction n as [|n [b IH]]; [exists 0; intros; lia|]. exists (Rmin b (g n)). intros i Hi. destruct (Nat.eq_dec i n) as [->|Ne]; [apply Rmin_r|].
  eapply Rle_trans; [apply Rmin_l|apply IH; lia].
Qed.
Lemma vf_exists n s g : (0 < n)%nat -> exists th mu, vf_eqns n s g th mu /\ forall i, (i < n)%nat -> 0 <= th i.
Proof.
  intros Hn. set (F := fun mu => rupto n (fun i => phi s (mu - g i)) - 1).
  assert (CF : Ranalysis1.continuity F).
  { intros z. unfold F. apply (continuity_pt_minus (fun mu => rupto n (fun i => phi s (mu - g i))) (fun _ => 1)); [|apply continuity_pt_const; intros ? ?; reflexivity].
    apply (rupto_cont n (fun i mu => phi s (mu - g i))). intros i _. apply (continuity_pt_comp (fun mu => mu - g i) (phi s)); [reg|apply phi_cont]. }
  destruct (lower_bound n g) as [b Hb]. set (t := INR n * (s * s) / 2 + 1). set (lo := b - t). set (hi := g 0%nat + 1).
  assert (Ht : 0 < t). { unfold t. pose proof (pos_INR n). nra. }
  assert (Hlh : lo <= hi). { unfold lo, hi. specialize (Hb 0%nat Hn). lra. }
  assert (Mono : forall x y, x <= y -> phi s x <= phi s y).
  { intros x y L. destruct (phi_facts s x) as (A1 & A2 & A3 & _). destruct (phi_facts s y) as (B1 & B2 & B3 & _).
    destruct (Rle_lt_dec (phi s x) (phi s y)) as [G|G]; [exact G|exfalso]. destruct (Rle_lt_dec (phi s y) 0) as [Z|Z].
    - assert (phi s y = 0) by lra. rewrite H in B2, B3, G. assert (phi s x = x) by nra. lra.
    - nra. }
  assert (Flo : F lo <= 0).
  { unfold F. assert (rupto n (fun i => phi s (lo - g i)) <= rupto n (fun _ => / INR n)).
    { apply rupto_le. intros i Hi. apply Rle_trans with (phi s (- t)); [apply Mono; unfold lo; specialize (Hb i Hi); lra|].
      apply Rle_trans with (s * s / (2 * t)); [apply phi_small, Ht|]. apply Rmult_le_reg_r with (2 * t * INR n); [assert (0 < INR n) by (apply lt_0_INR; exact Hn); nra|].
      assert (0 < INR n) by (apply lt_0_INR; exact Hn).
      replace (s * s / (2 * t) * (2 * t * INR n)) with (s * s * INR n) by (field; lra). replace (/ INR n * (2 * t * INR n)) with (2 * t) by (field; lra).
      unfold t. nra. }
    assert (rupto n (fun _ => / INR n) = 1).
    { assert (G : forall k c, rupto k (fun _ => c) = INR k * c). { intros k c. induction k as [|k IH]; [rewrite rupto_0; cbn [INR]; ring|]. rewrite rupto_succ, IH, S_INR. ring. }
      rewrite G. assert (0 < INR n) by (apply lt_0_INR; exact Hn). field. lra. }
    lra. }
  assert (Fhi : 0 <= F hi).
  { unfold F. assert (1 <= rupto n (fun i => phi s (hi - g i))); [|lra]. destruct n as [|n']; [lia|].
    rewrite rupto_cons. destruct (phi_facts s (hi - g 0%nat)) as (_ & _ & _ & A). unfold hi in A at 1.
    assert (0 <= rupto n' (fun k => phi s (hi - g (S k)))); [|lra]. apply rupto_nonneg. intros k _. apply (phi_facts s). }
  destruct (IVT_cor F lo hi CF Hlh) as (mu & _ & E); [nra|].
  exists (fun i => phi s (mu - g i)), mu. split; [split|].
  - unfold F in E. lra.
  - intros i Hi. destruct (phi_facts s (mu - g i)) as (A & B & C & _). split; [lra|]. replace (phi s (mu - g i) + (g i - mu)) with (phi s (mu - g i) - (mu - g i)) by ring. exact C.
  - intros i Hi. apply (phi_facts s).
Qed.

Lemma vf_projection n s g th mu tau : vf_eqns n s g th mu -> (forall i, (i < n)%nat -> 0 <= th i) -> simplex n tau ->
  half_distance2 n g th + distance2n n tau th / 2 <= half_distance2 n g tau + INR n * (s * s) / 2.
Proof.
  intros [E1 E2] P [T1 T2]. unfold half_distance2, distance2n.
  assert (V : 0 <= rupto n (fun i => (th i + (g i - mu)) * tau i)).
  { apply rupto_nonneg. intros i Hi. destruct (E2 i Hi) as [A _]. specialize (T1 i Hi). apply Rmult_le_pos; lra. }
  assert (W : rupto n (fun i => th i * (th i + (g i - mu))) = INR n * (s * s / 2)).
  { rewrite (rupto_ext n _ (fun _ => s * s / 2)); [|intros i Hi; apply (E2 i Hi)].
    clear. induction n as [|n IH]; [rewrite rupto_0; cbn [INR]; ring|]. rewrite rupto_succ, IH, S_INR. ring. }
  assert (D : rupto n (fun i => (tau i + g i) * (tau i + g i)) = rupto n (fun i => (th i + g i) * (th i + g i)) +
     rupto n (fun i => (tau i - th i) * (tau i - th i)) + 2 * (rupto n (fun i => (th i + (g i - mu)) * tau i) - rupto n (fun i => th i * (th i + (g i - mu)))) + 2 * mu * (rupto n tau - rupto n th)).
  { clear. induction n as [|n IH]; [rewrite !rupto_0; ring|]. rewrite !rupto_succ, IH. ring. }
  rewrite W, T2, E1 in D. lra.
Qed.
Lemma dist2n_nonneg n a b : 0 <= distance2n n a b.
Proof. apply rupto_nonneg. intros k _. exact (Rle_0_sqr (a k - b k)). Qed.
Lemma dist2n_entry n a b i : (i < n)%nat -> (a i - b i) * (a i - b i) <= distance2n n a b.
Proof.
  intros Hi. unfold distance2n. induction n as [|n IH]; [lia|]. rewrite rupto_succ.
  destruct (Nat.eq_dec i n) as [->|Ne].
  - pose proof (dist2n_nonneg n a b). unfold distance2n in H. lra.
  - specialize (IH ltac:(lia)). pose proof (Rle_0_sqr (a n - b n)) as Q. unfold Rsqr in Q. lra.
Qed.

Lemma one_root o pm s vf g : create_vector_field o pm s = Ok vf -> 0 < Q2R s -> (0 < vf_n vf)%nat ->
  exists th mu, vf_root vf g th mu /\ rupto (vf_n vf) th = 1 /\ (forall i, (i < vf_n vf)%nat -> 0 < th i) /\
  forall th' mu', vf_root vf g th' mu' -> mu' = mu /\ forall i, (i < vf_n vf)%nat -> th' i = th i.
Proof.
  intros HC Hs Hn. destruct (vf_exists (vf_n vf) (Q2R s) g Hn) as (th & mu & E & _). exists th, mu.
  split; [apply (roots_iff _ _ _ _ _ _ _ HC), E|]. split; [exact (proj1 E)|]. split; [intros i Hi; apply (vf_pos _ _ _ _ _ i E); [lra|exact Hi]|].
  intros th' mu' H. apply (roots_iff _ _ _ _ _ _ _ HC) in H. apply (vf_unique (vf_n vf) (Q2R s) g); [exact Hn|lra|exact H|exact E].
Qed.
Lemma root_projection o pm s vf g th mu tau : create_vector_field o pm s = Ok vf -> 0 < Q2R s -> vf_root vf g th mu -> simplex (vf_n vf) tau ->
  half_distance2 (vf_n vf) g th + distance2n (vf_n vf) tau th / 2 <= half_distance2 (vf_n vf) g tau + INR (vf_n vf) * (Q2R s * Q2R s) / 2.
Proof.
  intros HC Hs H T. apply (roots_iff _ _ _ _ _ _ _ HC) in H. apply vf_projection with (mu := mu); [exact H| |exact T].
  intros i Hi. destruct (vf_pos _ _ _ _ _ i H ltac:(lra) Hi). lra.
Qed.

(* ---- creation and call ---- *)
Section VF.
Variables (o : opts) (m : model) (pm : pmodel).
Hypothesis HP : preprocess_model o m = Ok pm.
Let K := preprocess_model_ok o m pm HP.

Lemma vf_step s : o_pss o = Step -> create_vector_field o pm s = Err ENotImplemented.
Proof. unfold create_vector_field. intros ->. reflexivity. Qed.

Lemma vf_call_fails root vf p v x u z l : call_vector_field root pm vf p v x u z <> Ok l.
Proof.
  unfold call_vector_field. intros H. apply bind_ok in H. destruct H as (gS & _ & H). apply bind_ok in H. destruct H as (g & _ & H).
  apply bind_ok in H. destruct H as (r & _ & H). cbv zeta in H. apply bind_ok in H. destruct H as (f & E & _).
  unfold model_functions in E. destruct (pm_t_fun pm), (pm_mu00_fun pm), (pm_gS_fun pm); cbn in E; discriminate.
Qed.

Hypothesis WS : well_sized m.
Hypothesis Ep : o_pss o = Stewart.

Lemma concat_offset {A} (l : list (list A)) (f : nat -> nat) n : (forall s, (s < n)%nat -> exists a, nth_error l s = Some a /\ length a = f s) ->
  n = length l -> length (concat l) = upto n f /\
  forall s a k x, (s < n)%nat -> nth_error l s = Some a -> nth_error a k = Some x -> nth_error (concat l) (offset f s k) = Some x.
Proof.
  revert l f. induction n as [|n IH]; intros l f H L; [split; [destruct l; [reflexivity|discriminate]|intros; lia]|].
  destruct (H 0%nat ltac:(lia)) as (a0 & E0 & L0). destruct l as [|a l]; [discriminate|]. cbn in E0. injection E0 as ->. cbn [concat].
  destruct (IH l (fun s => f (S s))) as [I1 I2]; [intros s Hs; apply (H (S s)); lia|cbn in L; lia|].
  assert (U : forall s, upto (S s) f = (f 0 + upto s (fun s => f (S s)))%nat). { intros s. unfold upto. cbn [seq map total]. rewrite <- seq_shift, map_map. reflexivity. }
  split; [rewrite app_length, U; lia|]. intros s a k x Hs Ha Hx. destruct s as [|s].
  - cbn in Ha. injection Ha as ->. unfold offset, upto. cbn [seq map total Nat.add]. rewrite nth_error_app1; [exact Hx|]. eapply nth_error_Some_lt; eauto.
  - cbn in Ha. unfold offset. rewrite U. rewrite nth_error_app2 by lia. rewrite L0.
    replace (f 0 + upto s (fun s0 => f (S s0)) + k - f 0)%nat with (offset (fun s => f (S s)) s k) by (unfold offset; lia). eapply I2; eauto; lia.
Qed.

Lemma gS_total F gSl : m_F m = Some F -> gS_list m (pm_nsys pm) = Ok gSl -> (length gSl <= pm_nsys pm)%nat.
Proof.
  intros EF H. unfold gS_list in H. gsg. change (gS_truthy m) with (gS_given m) in *; destruct (gS_given m) eqn:Eg.
  - apply opt_res_ok in H. pose proof (mo_nf _ _ _ K) as G. unfold sanity_checks in G. gsg. rewrite EF, Eg in G.
    apply bind_ok in G. destruct G as (u & _ & G). apply bind_ok in G. destruct G as (u2 & _ & G).
    apply bind_ok in G. destruct G as (u3 & G & _). apply bind_ok in G. destruct G as (u4 & _ & G). rewrite H in G.
    destruct (Nat.le_gt_cases (length gSl) (pm_nsys pm)) as [L|L]; [exact L|exfalso].
    assert (G' : foldM (fun _ p => do* n <- nthE EIndexError (map (fun f => length (fm_cols f)) F) (fst p);
                                  guard (length (snd p) =? n)%nat EValueError)
                     (combine (seq 0 (length gSl)) gSl) tt = Ok u3).
    { rewrite <- G. clear. generalize (combine (seq 0 (length gSl)) gSl) as l. intros l. generalize tt.
      induction l as [|[i g] l IH]; intros u; cbn [foldM]; [reflexivity|].
      cbn [fst snd]. destruct (nthE EIndexError (map (fun f => length (fm_cols f)) F) i) as [n|]; cbn [bind]; [|reflexivity].
      destruct (guard (length g =? n)%nat EValueError); cbn [bind]; [apply IH|reflexivity]. }
    destruct (nth_error_lt gSl (pm_nsys pm) L) as [gi Hgi].
    pose proof (foldM_unit _ _ _ G' (pm_nsys pm, gi)) as X. cbn [fst snd] in X.
    assert (I : In (pm_nsys pm, gi) (combine (seq 0 (length gSl)) gSl)).
    { apply nth_error_In with (n := pm_nsys pm). apply nth_error_combine; [|exact Hgi]. apply nth_error_seq. exact L. }
    specialize (X I). apply bind_ok in X. destruct X as (k & X & _). apply nthE_ok in X. apply nth_error_Some_lt in X.
    rewrite map_length in X. rewrite (mo_nsys _ _ _ K) in X. unfold n_subsystems in X. rewrite EF in X. lia.
  - apply bind_ok in H. destruct H as (Sm & _ & H). apply bind_ok in H. destruct H as (c & _ & H). apply mapM_length in H. rewrite seq_length in H. lia.
Qed.

Lemma vf_created s : exists vf, create_vector_field o pm s = Ok vf /\ vf_n vf = upto (n_subsystems m) (n_modes m) /\
  forall x z p, length x = m_nx m -> length z = m_nz m -> length p = (m_npt m + m_npg m)%nat ->
    exists l, numcall (vf_gfun vf) [x; z; p] = Ok l /\ length l = vf_n vf /\
      forall s k, (s < n_subsystems m)%nat -> (k < n_modes m s)%nat ->
        nth_error l (offset (n_modes m) s k) = Some (region_value m (initial_point m x z p) s k).
Proof.
  destruct (mo_dcs _ _ _ K) as (gSl & ups & fx0 & d & Hg & _ & _ & Hd & _ & _ & _ & _ & _ & X).
  rewrite Ep in Hg, Hd, X. destruct Hd as (F & EF & Hd). destruct X as (mins & fm & fg & _ & _ & _ & M & E).
  apply mkfun_ok in M. destruct M as [M _]. subst fg.
  pose proof (gSl_length _ _ _ _ _ _ Hd) as Lg. pose proof (gS_total _ _ EF Hg) as Lg'. rewrite (mo_nsys _ _ _ K) in Lg, Lg'.
  assert (G : forall v, forall s, (s < n_subsystems m)%nat -> exists gi, nth_error gSl s = Some gi /\ isvec v (n_modes m s) (region_value m v s) gi).
  { intros v s' Hs. destruct (nth_error_lt gSl s' ltac:(lia)) as [gi Hgi]. exists gi. split; [exact Hgi|].
    apply (gS_facts o m pm K WS v F gSl s' gi EF Hg Hgi). rewrite (mo_nsys _ _ _ K). exact Hs. }
  destruct (concat_offset gSl (n_modes m) (n_subsystems m)) as [C1 C2]; [|lia|].
  { intros s' Hs. destruct (G (fun _ => 0) s' Hs) as (gi & Hgi & I). exists gi. split; [exact Hgi|]. eapply isvec_length; eauto. }
  eexists. split; [unfold create_vector_field; rewrite Ep, E; cbn [opt_res bind]; reflexivity|]. cbn [vf_n vf_gfun cf_out]. split; [exact C1|].
  intros x z p Lx Lz Lp.
  exists (map (eval (initial_point m x z p)) (concat gSl)). split; [|split; [apply map_length|]].
  - unfold numcall. cbn [cf_in cf_out length Nat.eqb guard bind combine mapM fst snd].
    assert (E1 : length (mx m) = m_nx m) by (unfold mx; rewrite map_length, seq_length; reflexivity).
    assert (E2 : length (mz m) = m_nz m) by (unfold mz; rewrite map_length, seq_length; reflexivity).
    assert (E3 : length (mp m) = (m_npt m + m_npg m)%nat) by (unfold mp, mpt, mpg; rewrite app_length, !map_length, !seq_length; reflexivity).
    unfold fit at 1. rewrite Lx, E1, Nat.eqb_refl. cbn [bind].
    unfold fit at 1. rewrite Lz, E2, Nat.eqb_refl. cbn [bind].
    unfold fit at 1. rewrite Lp, E3, Nat.eqb_refl. cbn [bind concat]. rewrite !app_nil_r.
    f_equal. apply map_ext. intros e. apply eval_ext. intros y _. apply bindR_initial; assumption.
  - intros s' k Hs Hk. destruct (G (initial_point m x z p) s' Hs) as (gi & Hgi & I).
    destruct (isvec_nth _ _ _ _ k I Hk) as (e & He & <-). apply map_nth_error. eapply C2; eauto.
Qed.

(* with two or more subsystems no root has weights that sum up to one in each of them *)
Lemma vf_two_subsystems s vf g th mu : create_vector_field o pm s = Ok vf ->
  (2 <= n_subsystems m)%nat -> vf_root vf g th mu ->
  ~ (forall s, (s < n_subsystems m)%nat -> rupto (n_modes m s) (fun k => th (offset (n_modes m) s k)) = 1).
Proof.
  intros HC H2 HR HS. assert (En : vf_n vf = upto (n_subsystems m) (n_modes m)). { destruct (vf_created s) as (vf' & E & En & _). rewrite HC in E. injection E as <-. exact En. } apply (roots_iff o pm s) in HR; [|exact HC]. destruct HR as [HR _]. rewrite En in HR.
  assert (G : forall n, (n <= n_subsystems m)%nat -> rupto (upto n (n_modes m)) th = INR n).
  { induction n as [|n IH]; intros Hn; [reflexivity|]. rewrite upto_S, S_INR, <- IH by lia. rewrite <- (HS n ltac:(lia)).
    unfold offset. clear. generalize (upto n (n_modes m)) as a. generalize (n_modes m n) as k. intros k a.
    induction k as [|k IH]; [rewrite Nat.add_0_r, rupto_0; lra|]. replace (a + S k)%nat with (S (a + k)) by lia. rewrite !rupto_succ, IH. lra. }
  rewrite (G _ (le_n _)) in HR. apply le_INR in H2. cbn in H2. lra.
Qed.
End VF.

(* ---- the refutation: x' = 3 or 1 switching at x = 0, at x = -1/4 ---- *)
Section Two.
Variable s : R.
Lemma two_modes th mu : vf_eqns 2 s (fun i => nth i [-1/4; 1/4] 0) th mu -> (forall i, (i < 2)%nat -> 0 <= th i) -> Rabs s <= 1 / 12 -> 1 / 8 <= th 1%nat.
Proof.
  intros E P Hs.
  assert (S0 : simplex 2 (fun i => nth i [3/4; 1/4] 0)).
  { split; [|rewrite !rupto_succ, rupto_0; cbn [nth]; lra]. intros i Hi. destruct i as [|[|i]]; [cbn [nth]; lra|cbn [nth]; lra|lia]. }
  pose proof (vf_projection 2 s _ th mu _ E P S0) as A.
  pose proof (vf_projection 2 0 (fun i => nth i [-1/4; 1/4] 0) (fun i => nth i [3/4; 1/4] 0) (1/2) th) as B.
  assert (E0 : vf_eqns 2 0 (fun i => nth i [-1/4; 1/4] 0) (fun i => nth i [3/4; 1/4] 0) (1/2)).
  { split; [rewrite !rupto_succ, rupto_0; cbn [nth]; lra|]. intros i Hi. destruct i as [|[|i]]; [cbn [nth]; lra|cbn [nth]; lra|lia]. }
  specialize (B E0). assert (P0 : forall i, (i < 2)%nat -> 0 <= (fun i => nth i [3/4; 1/4] 0) i) by apply S0.
  specialize (B P0 (conj P (proj1 E))).
  assert (S2 : s * s <= 1 / 12 * (1 / 12)). { rewrite <- (Rabs_pos_eq (s * s)) by nra. rewrite Rabs_mult. pose proof (Rabs_pos s). nra. }
  pose proof (dist2n_entry 2 (fun i => nth i [3/4; 1/4] 0) th 1 ltac:(lia)) as D. cbv beta in D. change (nth 1 [3/4; 1/4] 0) with (1/4) in D.
  pose proof (dist2n_nonneg 2 th (fun i => nth i [3/4; 1/4] 0)) as N. cbn [INR] in A, B.
  set (d := distance2n 2 (fun i => nth i [3/4; 1/4] 0) th) in *. 
  assert (D2 : (1/4 - th 1%nat) * (1/4 - th 1%nat) <= 2 * (s * s)) by lra.
  destruct (Rle_lt_dec (1/8) (th 1%nat)) as [G|G]; [exact G|exfalso]. nra.
Qed.
End Two.
