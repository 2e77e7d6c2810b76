(* Total2_proofs.v -- construct_problem succeeds for consistent models and OCPs *)
From Coq Require Import Reals Qreals.
From Verif Require Import Base Sx Utils Tableau Opts Model Ocp Problem Spec Fesd Numeric Spec3 Spec8 Lib Sx_proofs Fo_proofs Fe_proofs FeMake_proofs FeSel_proofs
  FeZero_proofs Prob_proofs Coll_proofs Body_proofs Model_proofs Dcs_proofs Mode_proofs Tableau_proofs Poly_proofs Opts_proofs Accept_proofs Accept2_proofs Closed_proofs Total_proofs Feas_proofs Sem_proofs.

(* ---- the tableau ---- *)
Lemma lastE_total {A} e (l : list A) : 0 < length l -> exists a, lastE e l = Ok a.
Proof. unfold lastE. destruct l as [|a l]; cbn [length]; [lia|]. intros _. destruct (rev (a :: l)) eqn:E; [|eauto]. apply (f_equal (@length A)) in E. rewrite rev_length in E. discriminate. Qed.


Lemma tab_total cp o : scheme_available cp o -> exists t, make_tab cp o = Ok t /\
  (o_repr o = Integral -> length (t_C t) = S (o_ns o) /\ (forall r, In r (t_C t) -> length r = S (o_ns o)) /\ length (t_D t) = S (o_ns o) /\ length (t_B t) = S (o_ns o)) /\
  (o_repr o <> Integral -> length (t_A t) = o_ns o /\ (forall r, In r (t_A t) -> length r = o_ns o) /\ length (t_b t) = o_ns o).
Proof.
  unfold scheme_available, make_tab. intros H. destruct (o_repr o) eqn:E.
  2,3: destruct (tableau_supported _ (o_scheme o) H) as [bt Hb]; rewrite Hb; cbn [bind t_times];
       destruct (tables_ok _ _ _ Hb) as (_ & _ & LA & Lb & Lc & LR & _);
       (destruct (lastE_total EIndexError (bt_c bt)) as [tl ->]; [lia|]); cbn [bind]; eexists; (split; [reflexivity|]);
       (split; [discriminate|]); intros _; cbn [t_A t_b]; (split; [exact LA|]); (split; [|exact Lb]); intros r Hr; apply In_nth_error in Hr; destruct Hr as [i Hi]; exact (LR _ _ Hi).
  destruct H as (Hn & L & Hd). destruct (integral_total _ Hd) as [it Hi]. rewrite Hi. cbn [bind t_times].
  destruct (it_parts _ _ Hi) as (cs & _ & Lcs & EB & EC & ED & ET). cbn [length] in Lcs. rewrite L in Lcs.
  rewrite ET. destruct (lastE_total EIndexError (0%Q :: cp (o_ns o) (o_scheme o))) as [tl ->]; [cbn; lia|]. cbn [bind].
  eexists. split; [reflexivity|]. split; [|congruence]. intros _. cbn [t_C t_D t_B]. rewrite EB, EC, ED, !map_length. split; [exact Lcs|]. split; [|split; exact Lcs].
  intros r Hr. apply in_map_iff in Hr. destruct Hr as (c & <- & _). rewrite map_length. cbn [length]. rewrite L. reflexivity.
Qed.

(* ---- symbols ---- *)
Lemma in_mx m i : i < m_nx m -> In (MX i) (mx m).
Proof. intros H. apply in_map, in_seq. lia. Qed.
Lemma x_in m s : x_sym m s -> In s (mx m).
Proof. destruct s; cbn; try contradiction. apply in_mx. Qed.
Lemma z_in m s : z_sym m s -> In s (mz m).
Proof. destruct s; cbn; try contradiction. intros H. apply in_map, in_seq. lia. Qed.
Lemma p_in m s : p_sym m s -> In s (mp m).
Proof. destruct s; cbn; try contradiction; intros H; apply in_app_iff; [left|right]; apply in_map, in_seq; lia. Qed.
Lemma u_in m s : control_sym m s -> In s (mu_ m).
Proof. destruct s; cbn; try contradiction. intros H. apply in_map, in_seq. lia. Qed.
Lemma g_in m s : global_sym m s -> In s (mvg m).
Proof. destruct s; cbn; try contradiction. intros H. apply in_map, in_seq. lia. Qed.
Lemma opt_ok {A} (x : option (list A)) n : optional_length x n -> length_ok x n.
Proof. unfold optional_length, length_ok. destruct x; auto. Qed.

Section Con.
Variables (o : opts) (m : model) (pm : pmodel).
Hypothesis K : pmodel_ok o m pm.

Lemma pm_same : m_nx (pm_m pm) = m_nx m /\ m_nu (pm_m pm) = m_nu m /\ m_nz (pm_m pm) = m_nz m /\ m_npt (pm_m pm) = m_npt m /\
  m_npg (pm_m pm) = m_npg m /\ m_nvg (pm_m pm) = m_nvg m /\ m_x0 (pm_m pm) = m_x0 m /\ mx (pm_m pm) = mx m /\ mu_ (pm_m pm) = mu_ m /\
  mz (pm_m pm) = mz m /\ mp (pm_m pm) = mp m /\ mpg (pm_m pm) = mpg m /\ mpt (pm_m pm) = mpt m /\ mvg (pm_m pm) = mvg m.
Proof. destruct (mo_m _ _ _ K) as (ptv & E & _). rewrite E. repeat split. Qed.

Lemma mz_zall s : In s (mz m) -> In s (pm_zall pm).
Proof. intros H. rewrite (mo_zall _ _ _ K). unfold z_parts. cbn [concat]. rewrite !in_app_iff. tauto. Qed.

Lemma consistent_fits oc : consistent_ocp m oc -> ocp_fits pm oc.
Proof.
  intros H. destruct pm_same as (E1 & E2 & E3 & E4 & E5 & E6 & E7 & X & U & Z & P & PG & PT & V).
  split; rewrite ?E1, ?E2, ?E6, ?X, ?U, ?Z, ?P, ?V.
  - intros e He s Hs. rewrite !in_app_iff. destruct (cs_terminal _ _ H e He s Hs) as [A|[A|A]]; [left; apply x_in|right; left; apply p_in|right; right; apply g_in]; exact A.
  - intros e He s Hs. rewrite !in_app_iff. destruct (cs_path _ _ H e He s Hs) as [A|[A|[A|A]]]; [left; apply x_in|right; left; apply u_in|do 2 right; left; apply p_in|do 3 right; apply g_in]; exact A.
  - intros [a b] e Hr He. pose proof (cs_comp _ _ H a b e Hr He) as C. split.
    + intros s Hs. rewrite !in_app_iff. destruct (C s Hs) as [A|[A|[A|[A|A]]]]; [left; apply x_in|right; left; apply u_in|do 2 right; left; apply mz_zall, z_in|do 3 right; left; apply p_in|do 4 right; apply g_in]; exact A.
    + intros NU s Hs. rewrite !in_app_iff. assert (Q : In s (fv a) \/ In s (fv b)) by (cbn in He; destruct He; subst e; auto).
      destruct (C s Hs) as [A|[A|[A|[A|A]]]].
      * exfalso. apply NU. exists s. split; [apply in_app_iff; left; apply x_in; exact A|exact Q].
      * left. apply u_in; exact A.
      * exfalso. apply NU. exists s. split; [apply in_app_iff; right; apply z_in; exact A|exact Q].
      * right. left. apply p_in; exact A.
      * do 2 right. apply g_in; exact A.
  - destruct H. repeat split; apply opt_ok; assumption.
Qed.

(* ---- sizes ---- *)
Lemma mx_len : length (mx m) = m_nx m. Proof. unfold mx. rewrite map_length, seq_length. reflexivity. Qed.
Lemma mu_len : length (mu_ m) = m_nu m. Proof. unfold mu_. rewrite map_length, seq_length. reflexivity. Qed.
Lemma mz_len : length (mz m) = m_nz m. Proof. unfold mz. rewrite map_length, seq_length. reflexivity. Qed.
Lemma mvg_len : length (mvg m) = m_nvg m. Proof. unfold mvg. rewrite map_length, seq_length. reflexivity. Qed.
Lemma mpg_len : length (mpg m) = m_npg m. Proof. unfold mpg. rewrite map_length, seq_length. reflexivity. Qed.
Lemma mp_len : length (mp m) = m_npt m + m_npg m. Proof. unfold mp. rewrite app_length, mpg_len. unfold mpt. rewrite map_length, seq_length. reflexivity. Qed.

Lemma mfams_total f sizes : length (concat (mfams f sizes)) = total sizes.
Proof.
  unfold mfams. generalize 0 at 1. rewrite total_sumn. induction sizes as [|n l IH]; intros a; [reflexivity|].
  cbn [length seq combine map concat fst snd]. rewrite app_length, IH. unfold mfam. rewrite map_length, seq_length. reflexivity.
Qed.

Lemma by_nth {A} (l : list A) (h : nat -> A) n : length l = n -> (forall s, s < n -> nth_error l s = Some (h s)) -> l = map h (seq 0 n).
Proof.
  intros L H. apply nth_error_ext. intros i. destruct (Nat.lt_ge_cases i n) as [Hi|Hi].
  - rewrite (H i Hi). symmetry. apply map_nth_error. rewrite nth_error_seq by exact Hi. reflexivity.
  - rewrite !(proj2 (nth_error_None _ _)); [reflexivity|rewrite map_length, seq_length; exact Hi|lia].
Qed.
Lemma nf_list : pm_nf pm = map (n_modes m) (seq 0 (pm_nsys pm)).
Proof.
  apply by_nth; [|intros s; apply (pm_nf_nth _ _ _ _ K)].
  rewrite (sanity_nf _ _ _ _ (mo_nf _ _ _ K)). pose proof (mo_nsys _ _ _ K) as E. unfold n_subsystems in E.
  destruct (m_F m); [rewrite map_length; auto|apply repeat_length].
Qed.
Lemma nc_list : gS_given m = false -> pm_nc pm = map (n_switch m) (seq 0 (pm_nsys pm)).
Proof.
  intros G. apply by_nth; [|intros s; apply (pm_nc_nth _ _ _ _ K G)].
  pose proof (mo_nc _ _ _ K) as E. unfold get_nc in E. gsg. rewrite G in E. apply bind_ok in E. destruct E as (c & _ & E).
  apply mapM_length in E. rewrite seq_length in E. exact E.
Qed.

Hypothesis CM : consistent_model o m.

Lemma step_gS : o_pss o = Step -> gS_given m = false.
Proof.
  intros E. pose proof (cm_switch _ _ CM E) as H. destruct (gS_given m) eqn:G; [|reflexivity]. exfalso. revert H.
  rewrite upto_zero; [lia|]. intros s. unfold n_switch. rewrite G. reflexivity.
Qed.
Lemma noF_gS : m_F m = None -> gS_given m = false.
Proof. intros E. apply step_gS. pose proof (ac_modes _ _ (cm_ok _ _ CM)) as H. rewrite E in H. exact (proj1 H). Qed.
Lemma modes_pos s : o_pss o = Stewart -> s < pm_nsys pm -> 2 <= n_modes m s.
Proof.
  intros E Hs. rewrite (mo_nsys _ _ _ K) in Hs. destruct (m_F m) as [F|] eqn:EF.
  - exact (modes_ge2 o m (cm_sized _ _ CM) (cm_ok _ _ CM) F s EF Hs).
  - pose proof (ac_modes _ _ (cm_ok _ _ CM)) as H. rewrite EF in H. destruct H as [H _]. congruence.
Qed.
Lemma fsz_sizes f s : s < pm_nsys pm -> fsz o pm f s =
  match o_pss o, f with
  | Stewart, (FTheta | FLam) => n_modes m s
  | Stewart, FMu => 1
  | Step, (FAlpha | FLn | FLp) => n_switch m s
  | _, _ => 0 end.
Proof.
  intros Hs. unfold fsz, fam_on, fam_len, fam_size. destruct (o_pss o) eqn:E, f; try reflexivity.
  all: first [rewrite (nthE_Some _ _ _ _ (pm_nf_nth _ _ _ _ K Hs)) | rewrite (nthE_Some _ _ _ _ (pm_nc_nth _ _ _ _ K (step_gS E) Hs))]; reflexivity.
Qed.
Lemma nfam_sizes f : nfam o pm f =
  match o_pss o, f with
  | Stewart, (FTheta | FLam) => upto (pm_nsys pm) (n_modes m)
  | Stewart, FMu => pm_nsys pm
  | Step, (FAlpha | FLn | FLp) => upto (pm_nsys pm) (n_switch m)
  | _, _ => 0 end.
Proof.
  unfold nfam. rewrite (map_ext_in _ (fun s => match o_pss o, f with
  | Stewart, (FTheta | FLam) => n_modes m s
  | Stewart, FMu => 1
  | Step, (FAlpha | FLn | FLp) => n_switch m s
  | _, _ => 0 end)) by (intros s Hs; apply in_seq in Hs; apply fsz_sizes; lia).
  assert (Z : forall n a, sumn (map (fun _ => 0) (seq a n)) = 0) by (intros n; induction n; intros a; cbn; auto).
  assert (O : forall n a, sumn (map (fun _ => 1) (seq a n)) = n) by (intros n; induction n; intros a; cbn; auto).
  destruct (o_pss o), f; first [apply sumn_upto|apply Z|apply O].
Qed.
Lemma zall_size : nzst o pm = length (pm_zall pm).
Proof.
  unfold nzst. rewrite !nfam_sizes, (mo_zall _ _ _ K). unfold z_parts. cbn [concat]. rewrite !app_length. cbn [length].
  rewrite mz_len, (proj1 (proj2 (proj2 pm_same))).
  assert (A : length (concat (alpha_vars o m (pm_nc pm))) = match o_pss o with Stewart => 0 | Step => upto (pm_nsys pm) (n_switch m) end).
  { unfold alpha_vars. destruct (m_alpha m) as [sizes|] eqn:E.
    - rewrite mfams_total, (cm_alpha _ _ CM _ E), (mo_nsys _ _ _ K). reflexivity.
    - destruct (o_pss o) eqn:Ep; [reflexivity|]. rewrite mfams_total, (nc_list (step_gS Ep)). reflexivity. }
  rewrite A.
  assert (O : forall n, total (repeat 1 n) = n) by (intros n; unfold total; induction n as [|n IH]; [reflexivity|]; cbn [repeat fold_right]; rewrite IH; reflexivity).
  destruct (o_pss o) eqn:Ep; rewrite ?mfams_total, ?nf_list, ?O.
  - unfold upto. cbn [concat length]. lia.
  - rewrite (nc_list (step_gS Ep)). unfold upto. cbn [concat length]. lia.
Qed.
Lemma lam_pos : 0 < nlam o pm.
Proof.
  unfold nlam. rewrite !nfam_sizes. destruct (o_pss o) eqn:E.
  - pose proof (mo_nsys_pos _ _ _ K) as H. pose proof (modes_pos 0 E H). pose proof (upto_mono (n_modes m) 1 (pm_nsys pm) H) as U.
    unfold upto at 1 in U. cbn [seq map total fold_right] in U. lia.
  - rewrite (mo_nsys _ _ _ K). pose proof (cm_switch _ _ CM E). lia.
Qed.

Lemma mkfun_cfits ins outs f : mkfun ins outs = Ok f -> cfits f (map (@length _) ins) /\ cf_out f = outs.
Proof. intros H. apply mkfun_ok in H. destruct H as [-> _]. split; reflexivity. Qed.
Lemma mkcomp_cfits ins rows f : mkcomp ins rows = Ok f -> cfits (fst f) (map (@length _) ins) /\ cfits (snd f) (map (@length _) ins) /\
  length (cf_out (fst f)) = length (cf_out (snd f)).
Proof.
  unfold mkcomp. intros H. apply bind_ok in H. destruct H as (a & Ha & H). apply bind_ok in H. destruct H as (b & Hb & H). injection H as <-.
  apply mkfun_cfits in Ha, Hb. destruct Ha as [A1 A2], Hb as [B1 B2]. cbn [fst snd]. rewrite A2, B2, !map_length. auto.
Qed.

Lemma fit_ok t oc po : preprocess_ocp pm oc = Ok po -> supported o -> 0 < o_N_stages o -> 0 < o_ns o ->
  (forall c, c < o_N_stages o -> exists n, nth_error (o_Nfe_list o) c = Some n /\ 0 < n) ->
  (o_repr o = Integral -> length (t_C t) = S (o_ns o) /\ (forall r, In r (t_C t) -> length r = S (o_ns o)) /\ length (t_D t) = S (o_ns o) /\ length (t_B t) = S (o_ns o)) ->
  (o_repr o <> Integral -> length (t_A t) = o_ns o /\ (forall r, In r (t_A t) -> length r = o_ns o) /\ length (t_b t) = o_ns o) ->
  fit o t pm po.
Proof.
  intros HO SU HN Hns HG HI HD. apply preprocess_ocp_ok in HO.
  destruct pm_same as (E1 & E2 & E3 & E4 & E5 & E6 & E7 & X & U & Z & P & PG & PT & V).
  destruct (mo_dcs _ _ _ K) as (gSl & ups & fx0 & d & _ & _ & _ & _ & M1 & M2 & M3 & _).
  apply mkfun_cfits in M1, M2, M3. cbn [map] in M1, M2, M3. rewrite mx_len, mu_len, mp_len in M1, M2, M3. rewrite mvg_len in M1.
  assert (LF : length (cf_out (pm_fx_fun pm)) = m_nx m).
  { destruct (model_at_ok o m pm K (cm_sized _ _ CM) (fun _ => 0%R)) as [(d' & _ & N1 & _ & _ & I & _)].
    apply mkfun_ok in N1. destruct N1 as [-> _]. apply isvec_iff in I. exact (proj1 I). }
  destruct HO as [O1 O2 O3 O4 (gc & cc & sc & _ & O5 & O6 & O7) (L1 & L2) (L3 & L4) (L5 & L6 & L7) (L8 & L9 & L10) _].
  rewrite X, P, V in O1, O2. rewrite X, U, P, V in O3, O4. rewrite PG, V in O5. rewrite U, P, V in O6. rewrite X, U, P, V in O7.
  apply mkfun_cfits in O1, O2, O3, O4; apply mkcomp_cfits in O5, O6, O7. cbn [map] in O1, O2, O3, O4, O5, O6, O7.
  rewrite mx_len, mp_len, mvg_len in O1, O2. rewrite mx_len, mu_len, mp_len, mvg_len in O3, O4, O7. rewrite mpg_len, mvg_len in O5. rewrite mu_len, mp_len, mvg_len in O6.
  destruct O1 as [O1 O1'], O2 as [O2 O2'], O3 as [O3 O3'], O4 as [O4 O4'].
  split; unfold pm_np; rewrite ?E1, ?E2, ?E3, ?E4, ?E5, ?E6, ?E7, ?V, ?mvg_len; auto.
  - apply (su_sot _ SU).
  - apply (cm_x0 _ _ CM).
  - rewrite E1 in L3, L4. auto.
  - rewrite E2 in L5, L6, L7. auto.
  - rewrite E6 in L8, L9, L10. auto.
  - split; [apply (mo_z0 _ _ _ K)|split; [apply (mo_lbz _ _ _ K)|apply (mo_ubz _ _ _ K)]].
  - intros f s Hf Hs. unfold fam_on in Hf. destruct (o_pss o) eqn:Ep, f; try discriminate Hf; unfold fam_size.
    1,2: rewrite (nthE_Some _ _ _ _ (pm_nf_nth _ _ _ _ K Hs)); pose proof (modes_pos s Ep Hs); eexists; split; [reflexivity|lia].
    1: eexists; split; [reflexivity|lia].
    all: rewrite (nthE_Some _ _ _ _ (pm_nc_nth _ _ _ _ K (step_gS Ep) Hs)); eexists; split; [reflexivity|intros [A|A]; discriminate A].
  - apply lam_pos.
  - apply zall_size.
  - destruct M1 as [M1 M1']. split; [exact M1|exact LF].
  - apply M3.
  - apply M2.
  - rewrite O3'. auto.
  - rewrite O4'. auto.
  - rewrite O2'. auto.
  - intros T. apply andb_prop in T. destruct T as [T _]. pose proof (mo_t _ _ _ K) as H. destruct (m_tvar m) as [tv|].
    + destruct H as (f & Hf & H). exists f. apply mkfun_cfits in Hf. destruct Hf as [Hf Hf']. cbn [map] in Hf. rewrite mx_len in Hf. rewrite Hf'. auto.
    + destruct H as [H _]. congruence.
  - apply (su_aug _ SU).
Qed.
End Con.
