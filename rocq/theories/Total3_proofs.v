(* Total3_proofs.v -- the smoothed representation and construct_problem as a whole *)
From Coq Require Import Reals Qreals.
From Verif Require Import Base Sx Utils Tableau Opts Model Ocp Problem Spec Fesd Numeric Spec3 Spec8 Lib Sx_proofs Fo_proofs Fe_proofs FeMake_proofs FeSel_proofs Prob_proofs Coll_proofs Body_proofs
  Model_proofs Dcs_proofs Opts_proofs Accept_proofs Accept2_proofs Closed_proofs Total_proofs Total2_proofs Feas6_proofs.

Lemma mapM_indexed {B} (f : nat -> res B) (R : nat -> B -> Prop) n : (forall s, s < n -> exists b, f s = Ok b /\ R s b) ->
  exists r, mapM f (seq 0 n) = Ok r /\ length r = n /\ forall s, s < n -> exists b, nth_error r s = Some b /\ R s b.
Proof.
  intros H. destruct (mapM_ex f (seq 0 n)) as [r Hr]; [intros a Ha; apply in_seq in Ha; destruct (H a ltac:(lia)) as (b & Hb & _); eauto|].
  exists r. split; [exact Hr|]. split; [apply mapM_length in Hr; rewrite seq_length in Hr; exact Hr|].
  intros s Hs. destruct (mapM_nth _ _ _ s s Hr) as (b & Hb & E); [rewrite nth_error_seq by exact Hs; reflexivity|].
  destruct (H s Hs) as (b' & Hb' & HR). exists b. split; [exact Hb|]. congruence.
Qed.
Lemma mapM_rows {A B} (f : A -> res B) (Q : B -> Prop) l : (forall a, In a l -> exists b, f a = Ok b /\ Q b) ->
  exists r, mapM f l = Ok r /\ length r = length l /\ forall b, In b r -> Q b.
Proof.
  induction l as [|a l IH]; intros H; [exists []; repeat split; intros b []|].
  destruct (H a (or_introl eq_refl)) as (b & Hb & HQ). destruct IH as (r & Hr & Lr & Qr); [intros x Hx; apply H; right; exact Hx|].
  exists (b :: r). cbn [mapM]. rewrite Hb. cbn [bind]. rewrite Hr. cbn [bind]. split; [reflexivity|]. split; [cbn; congruence|].
  intros x [<-|Hx]; auto.
Qed.

Lemma theta_entry P nci row al : nci <= length row -> nci <= length al -> UL P al ->
  exists e, theta_smooth_entry nci row al = Ok e /\ uses_only P e.
Proof.
  intros L1 L2 U. unfold theta_smooth_entry. destruct (foldM_seq_ex (fun acc j =>
           do* s <- nthE EIndexError row j;
           do* a <- nthE ECasadi al j;
           Ok (EBin BMul acc (EBin BAdd (ECst ((1 - s) / 2)%Q) (EBin BMul (ECst s) a)))) (fun _ e => uses_only P e) nci
     (ECst (Qpower 2 (Z.of_nat nci - Qround.Qfloor (Qsum (map Qabs_ row)))))) as (e & He & HU); [apply uses_cst| |exists e; auto].
  intros k a Hk Ha. destruct (nthE_total EIndexError row k) as (q & -> & _); [lia|]. destruct (nthE_total ECasadi al k) as (x & -> & Hx); [lia|].
  cbn [bind]. eexists. split; [reflexivity|]. apply uses_bin; [exact Ha|]. apply uses_bin; [apply uses_cst|]. apply uses_bin; [apply uses_cst|apply U, Hx].
Qed.
Lemma smooth_step_uses P s e : uses_only P e -> uses_only P (smooth_step s e).
Proof. intros H. unfold smooth_step. apply uses_bin; [apply uses_bin; [apply uses_un, uses_bin; [apply uses_cst|exact H]|apply uses_cst]|apply uses_cst]. Qed.
Lemma smooth_min_uses P s l : UL P l -> uses_only P (smooth_min s l).
Proof.
  intros H. unfold smooth_min.
  assert (W : forall e, uses_only P e -> uses_only P (EUn UExp (EBin BMul (ECst (- / s)%Q) e))) by (intros e He; apply uses_un, uses_bin; [apply uses_cst|exact He]).
  apply uses_bin; apply uses_esum; apply UL_map; auto. intros e He. apply uses_bin; auto.
Qed.

Section Smooth.
Variables (o : opts) (m : model) (pm : pmodel).
Hypothesis K : pmodel_ok o m pm.
Hypothesis CM : consistent_model o m.
Hypothesis SB : smoothable o m.

Lemma smooth_total : exists sm, add_smooth_step_representation pm (o_smoothing o) = Ok sm.
Proof.
  destruct (m_F m) as [F|] eqn:EF; [|destruct (sb_F _ _ SB EF)].
  pose proof (ac_modes _ _ (cm_ok _ _ CM)) as H. rewrite EF in H. destruct H as [HF H].
  rewrite (sb_gS _ _ SB) in H. destruct H as (c & Sl & Hc & HS & L & LF & R & _).
  pose proof (sb_rows _ _ SB) as RF. pose proof (mo_nsys _ _ _ K) as NS.
  assert (NF : n_subsystems m = length F) by (unfold n_subsystems; rewrite EF; reflexivity). 
  assert (Epm : gS_given (pm_m pm) = gS_given m /\ m_c (pm_m pm) = m_c m /\ m_S (pm_m pm) = m_S m /\ m_F (pm_m pm) = m_F m /\ gS_list (pm_m pm) (pm_nsys pm) = gS_list m (pm_nsys pm)).
  { destruct (mo_m _ _ _ K) as (ptv & E & _). rewrite E. repeat split. }
  destruct Epm as (G1 & G2 & G3 & G4 & G5).
  destruct (pm_same _ _ _ K) as (E1 & _ & _ & _ & _ & _ & _ & X & _ & _ & P & _).
  unfold add_smooth_step_representation. gsg. cbv zeta. rewrite G1, G2, G3, G4, G5, E1, X, P, (sb_gS _ _ SB), Hc, HS, EF. cbn [negb guard bind opt_res].
  assert (Pos : Qle_bool (o_smoothing o) 0 = false).
  { destruct (Qle_bool (o_smoothing o) 0) eqn:E; [|reflexivity]. apply Qle_bool_iff in E. pose proof (sb_pos _ _ SB). exfalso. apply (Qlt_not_le _ _ H E). }
  rewrite Pos. cbn [negb guard bind].
  assert (At : forall s, s < pm_nsys pm -> exists Si ci, nth_error Sl s = Some Si /\ nth_error c s = Some ci /\ length Si = n_modes m s /\
     length ci = n_switch m s /\ UL (x_sym m) ci /\ forall row, In row Si -> length row = n_switch m s).
  { intros s Hs. rewrite NS, NF in Hs. destruct (nth_error_lt c s ltac:(lia)) as [ci Hci]. destruct (nth_error_lt Sl s ltac:(lia)) as [Si HSi].
    exists Si, ci. assert (LS : length Si = n_modes m s) by (rewrite <- R by lia; rewrite (nth_error_nth _ _ _ HSi); reflexivity).
    split; [exact HSi|]. split; [exact Hci|]. split; [exact LS|]. split; [unfold n_switch; rewrite (sb_gS _ _ SB), Hc, Hci; reflexivity|]. split.
    - intros e He. eapply (sb_c _ _ SB); [exact Hc|eapply nth_error_In; exact Hci|exact He].
    - intros row Hr. apply In_nth_error in Hr. destruct Hr as [i Hr]. pose proof (nth_error_Some_lt _ _ _ Hr) as Li. rewrite LS in Li.
      pose proof (RF s i ltac:(lia) Li) as Y. unfold user_S in Y. rewrite HS, (nth_error_nth _ _ _ HSi), (nth_error_nth _ _ _ Hr) in Y. exact Y. }
  (* g_Stewart *)
  destruct (mapM_indexed (fun i => do* Si <- nthE EIndexError Sl i; do* ci <- nthE EIndexError c i; neg_S_c Si ci)
     (fun s g => UL (x_sym m) g) (pm_nsys pm)) as (gSl & HG & LG & UG).
  { intros s Hs. destruct (At s Hs) as (Si & ci & A & B & _ & Lc & U & Rw). rewrite (nthE_Some _ _ _ _ A), (nthE_Some _ _ _ _ B). cbn [bind].
    destruct (mapM_rows (fun row => edot (map (fun s => ECst (- s)%Q) row) ci) (uses_only (x_sym m)) Si) as (g & Hg & _ & Ug).
    - intros row Hr. destruct (edot_ex (map (fun s => ECst (- s)%Q) row) ci) as [e He]; [rewrite map_length, (Rw _ Hr); auto|]. exists e. split; [exact He|].
      eapply uses_edot; [| |exact He]; [|exact U]. intros x Hx. apply in_map_iff in Hx. destruct Hx as (q & <- & _). apply uses_cst.
    - exists g. split; [exact Hg|exact Ug]. }
  assert (UG' : forall g, In g gSl -> UL (x_sym m) g).
  { intros g Hg. apply In_nth_error in Hg. destruct Hg as [s Hg]. pose proof (nth_error_Some_lt _ _ _ Hg) as Ls. destruct (UG s ltac:(lia)) as (b & Hb & U). assert (b = g) by congruence. subst b. exact U. }
  assert (GG : gS_list m (pm_nsys pm) = Ok gSl) by (unfold gS_list; gsg; rewrite (sb_gS _ _ SB), HS, Hc; exact HG).
  rewrite GG. cbn [bind].
  (* theta *)
  destruct (mapM_indexed (fun ii => do* ci <- nthE EIndexError c ii; do* Si <- nthE EIndexError Sl ii; do* nci <- nthE EIndexError (pm_nc pm) ii;
               mapM (fun row => theta_smooth_entry nci row (map (smooth_step (o_smoothing o)) ci)) Si)
     (fun s th => length th = n_modes m s /\ UL (x_sym m) th) (pm_nsys pm)) as (thl & HT & LT & UT).
  { intros s Hs. destruct (At s Hs) as (Si & ci & A & B & LS & Lc & U & Rw).
    rewrite (nthE_Some _ _ _ _ B), (nthE_Some _ _ _ _ A), (nthE_Some _ _ _ _ (pm_nc_nth _ _ _ _ K (sb_gS _ _ SB) Hs)). cbn [bind].
    destruct (mapM_rows (fun row => theta_smooth_entry (n_switch m s) row (map (smooth_step (o_smoothing o)) ci)) (uses_only (x_sym m)) Si) as (g & Hg & Lg & Ug).
    - intros row Hr. apply theta_entry; [rewrite (Rw _ Hr); auto|rewrite map_length, Lc; auto|]. apply UL_map; [apply smooth_step_uses|exact U].
    - exists g. split; [exact Hg|]. split; [congruence|exact Ug]. }
  rewrite HT. cbn [bind].
  assert (UT' : UL (x_sym m) (concat thl)).
  { intros e He. apply in_concat in He. destruct He as (th & Hth & He). apply In_nth_error in Hth. destruct Hth as [s Hs].
    pose proof (nth_error_Some_lt _ _ _ Hs) as Ls. destruct (UT s ltac:(lia)) as (b & Hb & _ & U). assert (b = th) by congruence. subst. apply U, He. }
  (* right-hand side *)
  destruct (foldM_seq_ex (fun acc ii => do* Fi <- nthE EIndexError F ii; do* th <- nthE EIndexError thl ii; do* ft <- matvec Fi th; vbin BAdd acc ft)
     (fun _ a => length a = m_nx m /\ UL (x_sym m) a) (pm_nsys pm) (repeat (ECst 0) (m_nx m))) as (fx & HX & LX & UX).
  { split; [apply repeat_length|apply UL_repeat]. }
  { intros s a Hs (La & Ua). destruct (UT s Hs) as (th & Hth & Lth & Uth).
    destruct (nth_error_lt F s ltac:(lia)) as [f Hf]. rewrite (nthE_Some _ _ _ _ Hf), (nthE_Some _ _ _ _ Hth). cbn [bind].
    assert (If := nth_error_In _ _ Hf). destruct (HF f If) as [Hcol _].
    destruct (matvec_ex f th) as (r & Hr & Lr).
    - unfold fmat_ok. apply forallb_forall. intros col Hcl. apply Nat.eqb_eq. auto.
    - rewrite Lth. unfold n_modes. rewrite EF, Hf. reflexivity.
    - rewrite Hr. cbn [bind]. rewrite (ws_F _ (cm_sized _ _ CM) F EF f If) in Lr. destruct (vbin_total BAdd a r (m_nx m) La Lr) as (v & Hv & Lv).
      exists v. split; [exact Hv|]. split; [exact Lv|]. eapply UL_vbin; [exact Ua| |exact Hv].
      eapply UL_matvec; [|exact Uth|exact Hr]. intros col Hcl e He. exact (sb_cols _ _ SB F f col e EF If Hcl He). }
  rewrite HX. cbn [bind].
  (* lambda *)
  destruct (mapM_rows (fun g => vbin BSub g [smooth_min (o_smoothing o) g]) (UL (x_sym m)) gSl) as (lam & HL & LL & UL_).
  { intros g Hg. destruct (vbin_one_r BSub g (smooth_min (o_smoothing o) g) _ eq_refl) as (r & Hr & _). exists r. split; [exact Hr|].
    eapply UL_vbin; [apply UG', Hg| |exact Hr]. intros e [<-|[]]. apply smooth_min_uses, UG', Hg. }
  rewrite HL. cbn [bind].
  assert (Ix : forall s, x_sym m s -> In s (concat [mx m])) by (intros s Hs; cbn; rewrite app_nil_r; apply x_in, Hs).
  assert (Ixp : forall s, x_sym m s -> In s (concat [mx m; mp m])) by (intros s Hs; cbn; apply in_app_iff; left; apply x_in, Hs).
  rewrite (mkfun_uses [mx m] fx), (mkfun_uses [mx m; mp m] (concat thl)), (mkfun_uses [mx m; mp m] (map _ gSl)), (mkfun_uses [mx m; mp m] (concat lam)).
  - cbn [bind]. eauto.
  - eapply UL_mono; [exact Ixp|]. intros e He. apply in_concat in He. destruct He as (l & Hl & He). exact (UL_ l Hl e He).
  - eapply UL_mono; [exact Ixp|]. intros e He. apply in_map_iff in He. destruct He as (g & <- & Hg). apply uses_un, smooth_min_uses, UG', Hg.
  - eapply UL_mono; [exact Ixp|exact UT'].
  - eapply UL_mono; [exact Ix|exact UX].
Qed.
End Smooth.

(* ---- construct_problem ---- *)
Lemma default_consistent m : consistent_ocp m default_ocp.
Proof. split; cbn; try (intros l; discriminate); intros; repeat match goal with H : _ \/ _ |- _ => destruct H | H : False |- _ => destruct H end; subst; apply uses_cst. Qed.

Section Construct.
Variables (lr : Q -> Q -> Q -> nat) (cp : nat -> scheme -> list Q) (d : ipopt_dict).
Lemma construct_total o m oc : supported o -> scheme_available cp o -> grid_given o -> consistent_model o m ->
  (o_init o = Rk4Smoothened -> smoothable o m) -> (forall x, oc = Some x -> consistent_ocp m x) ->
  exists C, construct_problem lr cp d o m oc = Ok C.
Proof.
  intros SU SA (HN & HG) CM SM HO. unfold construct_problem, preprocess. cbv zeta.
  set (it := if o_max_iter_homotopy o =? 0 then _ else _). set (nfe := match o_Nfe_list o with [] => _ | _ => _ end). set (d' := match ip_tol d with None => _ | _ => _ end).
  set (o' := set_iter_nfe o it nfe).
  destruct (tab_total cp o' SA) as (t & Ht & TI & TD). rewrite Ht. cbn [bind].
  assert (CM' : consistent_model o' m).
  { destruct CM as [A B [C1 C2 C3 C4 C5 C6 C7 C8] D E F]. split; auto. split; auto. }
  assert (NG : m_F m = None -> gS_given m = false).
  { intros E. pose proof (ac_modes _ _ (cm_ok _ _ CM')) as H. rewrite E in H. apply (step_gS o' m CM'). exact (proj1 H). }
  destruct (Accept_proofs.preprocess_accepts o' m (cm_sized _ _ CM') (cm_closed _ _ CM') (cm_ok _ _ CM') NG) as [pm Hpm].
  rewrite Hpm. cbn [bind]. pose proof (preprocess_model_ok _ _ _ Hpm) as K.
  assert (S' : exists sm, (match o_init o' with Rk4Smoothened => do* s <- add_smooth_step_representation pm (o_smoothing o'); Ok (Some s) | _ => Ok None end) = Ok sm).
  { destruct (o_init o') eqn:Ei; eauto. destruct (smooth_total o' m pm K CM') as [sm Hs].
    - destruct (SM Ei) as [A1 A2 A3 A4 A5 A6]. split; auto.
    - rewrite Hs. cbn [bind]. eauto. }
  destruct S' as [sm ->]. cbn [bind]. unfold nosnoc_problem. cbv zeta.
  set (oc1 := match oc with None => default_ocp | Some x => x end).
  assert (HC : consistent_ocp m oc1) by (destruct oc; [apply HO; reflexivity|apply default_consistent]).
  pose proof (proj2 (preprocess_ocp_iff pm oc1) (consistent_fits o' m pm K oc1 HC)) as HP.
  destruct (preprocess_ocp pm oc1) as [po|] eqn:Eo; [|discriminate HP]. cbn [bind].
  assert (FT : fit o' t pm po).
  { apply (fit_ok o' m pm K CM' t oc1 po Eo).
    - destruct SU as [A B C]. split; auto.
    - exact HN.
    - unfold scheme_available in SA. change (o_ns o') with (o_ns o). destruct (o_repr o); lia.
    - intros c Hc. change (o_Nfe_list o') with nfe. change (o_N_stages o') with (o_N_stages o) in Hc. unfold nfe.
      destruct (o_Nfe_list o) as [|a l]; [|exact (HG c Hc)]. exists (o_N_finite_elements o). split; [apply nth_error_repeat'; exact Hc|exact HG].
    - exact TI.
    - exact TD. }
  destruct (body_total o' t pm po FT) as [P HB]. rewrite HB. cbn [bind].
  destruct (body_functions o' t m pm oc1 po P K (preprocess_ocp_ok _ _ _ Eo) HB) as (cf & rf & gf & -> & -> & ->). cbn [bind].
  unfold lsq. change (o_constr o') with (o_constr o). rewrite (su_constr _ SU). cbn [bind]. eauto.
Qed.

(* FISCHER_BURMEISTER_IP_AUG takes a single vector, SUM_LAMBDAS always passes at least two *)
Lemma aug_sum_never o m oc C : o_mpcc o = FischerBurmeisterIpAug -> o_use_fesd o = true -> o_cross o = SumLambdas -> 0 < o_ns o ->
  construct_problem lr cp d o m oc <> Ok C.
Proof.
  intros Em Ef Ec Hns H. unfold construct_problem, preprocess in H. cbv zeta in H.
  set (it := if o_max_iter_homotopy o =? 0 then _ else _) in H. set (nfe_ := match o_Nfe_list o with [] => _ | _ => _ end) in H.
  clearbody it nfe_. set (o' := set_iter_nfe o it nfe_) in H.
  apply bind_ok in H. destruct H as (r & Hr & H). apply bind_ok in Hr. destruct Hr as (t & _ & Hr). injection Hr as <-.
  apply bind_ok in H. destruct H as (pm & _ & H). apply bind_ok in H. destruct H as (sm & _ & H). apply bind_ok in H. destruct H as (P & H & _).
  unfold nosnoc_problem in H. cbv zeta in H. apply bind_ok in H. destruct H as (po & _ & H). apply bind_ok in H. destruct H as (P0 & HB & _).
  apply problem_body_ok in HB. destruct HB as (st & lf & f1 & B).
  destruct (get_stage _ _ _ _ _ _ _ _ B 0 (bo_N _ _ _ _ _ _ _ _ B)) as (_ & nfe & _ & _ & _ & _ & _ & _ & _ & _ & En & Hnfe & _).
  destruct (get_elem _ _ _ _ _ _ _ _ B 0 nfe 0 (bo_N _ _ _ _ _ _ _ _ B) En Hnfe) as (qq & q & s & fe & (M & (fe1 & fe2 & F1 & F2 & _) & _) & _).
  apply fe_make_ok in M. pose proof (forward_simulation_le _ _ _ _ _ _ _ _ _ _ F1) as L1.
  unfold create_complementarity_constraints in F2.
  apply bind_ok in F2; destruct F2 as (Xf & _ & F2). apply bind_ok in F2; destruct F2 as (fa & H1 & F2). apply bind_ok in F2; destruct F2 as (fb & H2 & F2).
  assert (L2 : fe_le o' fe1 fa).
  { revert H1. apply (foldM_le _ (fe_le o') (fe_le_refl o') (fe_le_trans o')). intros x a x' _ Hs; inv_ok. eapply fe_comp_le; eauto. }
  assert (L3 : fe_le o' fa fb).
  { destruct (_ =? _); inv_ok; subst; [eapply fe_comp_le; eauto|apply fe_le_refl]. }
  change (o_use_fesd o') with (o_use_fesd o) in F2. change (o_cross o') with (o_cross o) in F2. change (o_ns o') with (o_ns o) in F2. rewrite Ef, Ec in F2. cbn [negb] in F2.
  destruct (o_ns o) as [|k] eqn:Ek; [lia|]. cbn [seq foldM] in F2. apply bind_ok in F2. destruct F2 as (fc & F3 & _).
  apply bind_ok in F3. destruct F3 as (ls & F4 & F3). apply bind_ok in F3. destruct F3 as (th & _ & F3).
  unfold fe_comp in F3. apply bind_ok in F3. destruct F3 as (f' & F3 & _). unfold create_complementarity in F3. cbv zeta in F3.
  change (o_mpcc o') with (o_mpcc o) in F3. rewrite Em in F3.
  assert (LL : 2 <= length ls).
  { unfold get_Lambdas_incl_last_prev_fe in F4. apply bind_ok in F4. destruct F4 as (l & Hl & F4). apply bind_ok in F4. destruct F4 as (p & _ & F4). injection F4 as <-.
    apply mapM_length in Hl. rewrite seq_length in Hl. rewrite app_length, Hl. cbn [length].
    assert (Li : length (ind2 fb FLam) = length (ind2 s FLam)).
    { pose proof (fe_le_trans _ _ _ _ L1 (fe_le_trans _ _ _ _ L2 L3)) as (_ & _ & _ & _ & E & _). rewrite E. reflexivity. }
    rewrite Li, (ok_len2' _ _ _ _ _ _ _ s FLam M). cbn [n2]. unfold nbd. change (o_ns o') with (o_ns o). lia. }
  destruct ls as [|a [|b ls]]; cbn in LL; [lia|lia|]. discriminate F3.
Qed.
Lemma construct_iff o m oc : o_constr o = Exact -> o_init o <> Rk4Smoothened -> scheme_available cp o -> grid_given o -> consistent_model o m ->
  (forall x, oc = Some x -> consistent_ocp m x) ->
  ((exists C, construct_problem lr cp d o m oc = Ok C) <->
   o_sot o <> SotGlobal /\ ~ (o_mpcc o = FischerBurmeisterIpAug /\ o_use_fesd o = true /\ o_cross o = SumLambdas)).
Proof.
  intros HE HI SA HG CM HO. split.
  - intros [C H]. split.
    + intros E. exact (global_never lr cp d o m oc C E H).
    + intros (A & B & D). apply (aug_sum_never o m oc C A B D); [|exact H]. unfold scheme_available in SA. destruct (o_repr o); lia.
  - intros [A B]. apply construct_total; auto; [|contradiction]. split; auto. intros Em Ef. destruct (o_cross o) eqn:Ec; [reflexivity|]. destruct B. auto.
Qed.
End Construct.
