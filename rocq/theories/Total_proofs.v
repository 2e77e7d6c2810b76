(* Total_proofs.v -- none of the statements of NosnocProblem.__init__ up to line 842 raises when the sizes fit (C70). *)
From Coq Require Import Permutation.
From Verif Require Import Base Sx Utils Tableau Opts Model Ocp Problem Lib Sx_proofs Fo_proofs Fe_proofs FeMake_proofs
  FeSel_proofs FeZero_proofs Prob_proofs Coll_proofs Body_proofs Model_proofs.

Lemma foldM_total {T A} (f : T -> A -> res T) (I : T -> Prop) l :
  (forall s a, In a l -> I s -> exists s', f s a = Ok s' /\ I s') ->
  forall s, I s -> exists s', foldM f l s = Ok s' /\ I s'.
Proof.
  induction l as [|a l IH]; intros K s Hs; cbn [foldM]; [eauto|].
  destruct (K s a (or_introl eq_refl) Hs) as [s1 [-> H1]]. cbn [bind]. apply IH; [|exact H1].
  intros; apply K; [right|]; assumption.
Qed.
Lemma mapM_total {A B} (f : A -> res B) (Q : B -> Prop) l :
  (forall a, In a l -> exists b, f a = Ok b /\ Q b) -> exists r, mapM f l = Ok r /\ length r = length l /\ forall b, In b r -> Q b.
Proof.
  induction l as [|a l IH]; intros K; cbn [mapM]; [exists []; repeat split; intros b []|].
  destruct (K a (or_introl eq_refl)) as [b [-> Hb]]. cbn [bind].
  destruct IH as [r [-> [Hl Hr]]]; [intros; apply K; right; assumption|]. cbn [bind].
  exists (b :: r). repeat split; [cbn; congruence|]. intros x [<-|Hx]; auto.
Qed.
Lemma nthE_total {A} e (l : list A) i : i < length l -> exists a, nthE e l i = Ok a /\ In a l.
Proof. intros H. destruct (nth_error_lt l i H) as [a Ha]. exists a. split; [apply nthE_Some, Ha|eapply nth_error_In; exact Ha]. Qed.

Lemma vbin_len b x y r : vbin b x y = Ok r -> length x = length y -> length r = length x.
Proof. intros H E. apply vbin_ok in H; [|exact E]. subst. rewrite map_length, combine_length. lia. Qed.
Lemma vbin_total b x y n : length x = n -> length y = n -> exists r, vbin b x y = Ok r /\ length r = n.
Proof.
  intros Hx Hy. assert (E : length x = length y) by congruence. rewrite (vbin_same b x y E). eexists; split; [reflexivity|].
  rewrite map_length, combine_length. lia.
Qed.
Lemma vbin_one_r b x y n : length x = n -> exists r, vbin b x [y] = Ok r /\ length r = n.
Proof.
  intros Hx. unfold vbin. destruct (length x =? length [y]) eqn:E.
  - apply Nat.eqb_eq in E. eexists; split; [reflexivity|]. rewrite map_length, combine_length, <- E, Nat.min_id. exact Hx.
  - destruct x as [|a [|a' x]]; eexists; (split; [reflexivity|]); cbn in *; rewrite ?map_length; auto; discriminate.
Qed.
Lemma vbin_one_l b x y n : length y = n -> exists r, vbin b [x] y = Ok r /\ length r = n.
Proof.
  intros Hy. unfold vbin. destruct (length [x] =? length y) eqn:E.
  - apply Nat.eqb_eq in E. eexists; split; [reflexivity|]. rewrite map_length, combine_length, E, Nat.min_id. exact Hy.
  - eexists; split; [reflexivity|]. rewrite map_length. exact Hy.
Qed.
Lemma vscale_len e v : length (vscale e v) = length v. Proof. apply map_length. Qed.
Lemma sum_list_total l n : l <> [] -> (forall v, In v l -> length v = n) -> exists r, casadi_sum_list l = Ok r /\ length r = n.
Proof.
  destruct l as [|v l]; intros H K; [congruence|]. cbn [casadi_sum_list].
  apply (foldM_total (vbin BAdd) (fun a => length a = n)); [|apply K; left; reflexivity].
  intros a x Hx Ha. apply vbin_total; [exact Ha|apply K; right; exact Hx].
Qed.
Lemma call_total f args : lens (cf_in f) = lens args -> exists r, call f args = Ok r /\ length r = length (cf_out f).
Proof. intros H. rewrite (call_intro f args H). eexists; split; [reflexivity|apply map_length]. Qed.

Lemma add0_total f e : exists f', add_constraint f e None None = Ok f'.
Proof. apply add_constraint_total; cbn; apply repeat_length. Qed.
Lemma add2_total f e lb ub : length lb = length e -> length ub = length e -> exists f', add_constraint f e (Some lb) (Some ub) = Ok f'.
Proof. intros; apply add_constraint_total; cbn; assumption. Qed.
Lemma addc_total f e lb ub : length lb = length e -> length ub = length e -> exists f', add_constraint_comp f e lb ub = Ok f'.
Proof.
  intros H1 H2. unfold add_constraint_comp. destruct (add2_total f e lb ub H1 H2) as [f' ->]. cbn [bind]. destruct (_ =? _); eauto.
Qed.

Definition comp_fits (o : opts) (x : list (list expr)) (y : list expr) : Prop :=
  x <> [] /\ (forall v, In v x -> length v = length y) /\ (o_mpcc o = FischerBurmeisterIpAug -> length x = 1).
Lemma fb_row_total x y s j : (forall v, In v x -> length v = length y) -> j < length y -> exists r, fb_row x y s j = Ok r.
Proof.
  intros H Hj. unfold fb_row. destruct (nthE_total ECasadi y j Hj) as [yj [-> _]]. cbn [bind].
  destruct (foldM_total (fun acc xi => do* xij <- nthE ECasadi xi j; Ok (EBin BAdd acc (fb xij yj s))) (fun _ => True) x) with (s := ECst 0) as [r [E _]]; [|exact I|eauto].
  intros a v Hv _. destruct (nthE_total ECasadi v j) as [q [-> _]]; [rewrite (H v Hv); exact Hj|]. cbn [bind]. eauto.
Qed.
Lemma comp_total o z f x y : comp_fits o x y -> exists f', create_complementarity o z f x y = Ok f'.
Proof.
  intros [Hn [Hx Haug]]. unfold create_complementarity.
  destruct (sum_list_total x (length y) Hn Hx) as [sx [Es Ls]].
  destruct (vbin_total BMul sx y (length y) Ls eq_refl) as [p [Ep Lp]].
  assert (Rz : forall n, length (zerosx n) = n) by (intros; apply repeat_length).
  assert (Rn : forall n, length (ninfs n) = n) by (intros; apply repeat_length).
  assert (Rp : forall n, length (pinfs n) = n) by (intros; apply repeat_length).
  destruct (o_mpcc o) eqn:Em; rewrite ?Es; cbn [bind]; rewrite ?Ep; cbn [bind].
  1,2: destruct (vbin_one_r BSub p (EVar SSigma) _ Lp) as [q [-> Lq]]; cbn [bind]; apply addc_total; auto.
  1: { destruct (mapM_total (fb_row x y (EVar SSigma)) (fun _ => True) (seq 0 (length y))) as [r [-> _]].
       - intros j Hj. apply in_seq in Hj. destruct (fb_row_total x y (EVar SSigma) j Hx) as [r Hr]; [lia|eauto].
       - cbn [bind]. apply addc_total; auto. }
  1: { destruct x as [|x1 [|x2 x]]; [congruence| |specialize (Haug eq_refl); discriminate Haug].
       assert (L1 : length x1 = length y) by (apply Hx; left; reflexivity).
       destruct (mapM_total (fb_row [x1] y (EVar SSigma)) (fun _ => True) (seq 0 (length y))) as [a0 [-> [La0 _]]].
       { intros j Hj. apply in_seq in Hj. destruct (fb_row_total [x1] y (EVar SSigma) j Hx) as [r Hr]; [lia|eauto]. }
       rewrite seq_length in La0. cbn [bind].
       match goal with |- context [mapM ?f (seq 0 (length y))] => destruct (mapM_total f (fun _ => True) (seq 0 (length y))) as [a1 [-> _]] end.
       { intros j Hj. apply in_seq in Hj. destruct (nthE_total ECasadi x1 j) as [q [-> _]]; [lia|]. cbn [bind]. eauto. }
       cbn [bind].
       match goal with |- context [mapM ?f (seq 0 (length y))] => destruct (mapM_total f (fun _ => True) (seq 0 (length y))) as [a2 [-> _]] end.
       { intros j Hj. apply in_seq in Hj. destruct (nthE_total ECasadi y j) as [q [-> _]]; [lia|]. cbn [bind]. eauto. }
       cbn [bind].
       match goal with |- context [mapM ?f (seq 0 (length y))] => destruct (mapM_total f (fun _ => True) (seq 0 (length y))) as [a3 [-> _]] end.
       { intros j Hj. apply in_seq in Hj. destruct (nthE_total ECasadi a0 j) as [q [-> _]]; [lia|]. cbn [bind].
         destruct (nthE_total ECasadi x1 j) as [q1 [-> _]]; [lia|]. cbn [bind].
         destruct (nthE_total ECasadi y j) as [q2 [-> _]]; [lia|]. cbn [bind]. eauto. }
       cbn [bind]. apply addc_total; auto. }
  1,2: destruct (vbin_total BSub p (repeat (EVar SElastic) (length y)) (length y) Lp (repeat_length _ _)) as [q [-> Lq]]; cbn [bind]; apply addc_total; auto.
  1: { destruct (vbin_total BSub p (repeat (EVar SElastic) (length y)) (length y) Lp (repeat_length _ _)) as [q [-> Lq]]; cbn [bind].
       destruct (vbin_total BAdd p (repeat (EVar SElastic) (length y)) (length y) Lp (repeat_length _ _)) as [r [-> Lr]]; cbn [bind].
       apply addc_total; rewrite !app_length, ?Rz, ?Rn, ?Rp; lia. }
  rewrite add_variable_total; rewrite ?map_length, ?seq_length, ?repeat_length; auto. cbn [bind].
  rewrite ?Rz. assert (Lz : length (vars (map (z (length (ind_bool f))) (seq 0 (length y)))) = length y) by (unfold vars; rewrite !map_length; apply seq_length).
  destruct (vbin_one_l BSub (ECst 1) _ _ Lz) as [q [-> Lq]]. cbn [bind].
  assert (LM : length (vscale (ECst bigM) (vars (map (z (length (ind_bool f))) (seq 0 (length y))))) = length y) by (rewrite vscale_len; exact Lz).
  assert (LM1 : length (vscale (ECst bigM) q) = length y) by (rewrite vscale_len; exact Lq).
  destruct (vbin_total BSub _ _ _ LM eq_refl) as [r1 [-> _]]. cbn [bind].
  destruct (vbin_total BAdd _ _ _ eq_refl LM) as [r2 [-> _]]. cbn [bind].
  destruct (vbin_total BSub _ _ _ LM1 Ls) as [r3 [-> _]]. cbn [bind].
  destruct (vbin_total BAdd _ _ _ Ls LM1) as [r4 [-> _]]. cbn [bind].
  apply addc_total; auto.
Qed.

Lemma vars_len l : length (vars l) = length l. Proof. apply map_length. Qed.
Definition cfits (f : cafun) (ns : list nat) : Prop := lens (cf_in f) = ns.
Lemma call_fits f ns args : cfits f ns -> map (@length _) args = ns -> exists r, call f args = Ok r /\ length r = length (cf_out f).
Proof. intros H E. apply call_total. unfold lens at 2. rewrite E. exact H. Qed.

Section Fit.
Variables (o : opts) (t : tab) (pm : pmodel) (oc : pocp).
Notation nx := (m_nx (pm_m pm)).
Notation nu := (m_nu (pm_m pm)).
Notation ns := (o_ns o).
Notation nvg := (length (mvg (pm_m pm))).
Notation np := (pm_np pm).
Notation nzall := (length (pm_zall pm)).

(* number of components of one family at one stage *)
Definition nfam (f : fam2) : nat := sumn (map (fsz o pm f) (seq 0 (pm_nsys pm))).
Definition nlam : nat := nfam FLam + nfam FLn + nfam FLp.
Definition nzst : nat := nfam FTheta + nfam FLam + nfam FMu + nfam FAlpha + nfam FLn + nfam FLp + m_nz (pm_m pm).

Record fit : Prop := {
  ft_ns : 0 < ns;
  ft_N : 0 < o_N_stages o;
  ft_sot : o_sot o <> SotGlobal;
  ft_nfe : forall c, c < o_N_stages o -> exists nfe, nth_error (o_Nfe_list o) c = Some nfe /\ 0 < nfe;
  ft_x0 : length (m_x0 (pm_m pm)) = nx;
  ft_xb : length (po_lbx oc) = nx /\ length (po_ubx oc) = nx;
  ft_ub : length (po_lbu oc) = nu /\ length (po_ubu oc) = nu /\ length (po_u_guess oc) = nu;
  ft_vb : length (po_lbv oc) = nvg /\ length (po_ubv oc) = nvg /\ length (po_v_guess oc) = nvg;
  ft_zb : length (pm_z0 pm) = m_nz (pm_m pm) /\ length (pm_lbz pm) = m_nz (pm_m pm) /\ length (pm_ubz pm) = m_nz (pm_m pm);
  ft_sz : forall f s, fam_on o f = true -> s < pm_nsys pm -> exists n, fam_size pm f s = Ok n /\ (f = FTheta \/ f = FLam -> 0 < n);
  ft_lam : 0 < nlam;
  ft_z : nzst = nzall;
  ft_int : o_repr o = Integral -> length (t_C t) = S ns /\ (forall r, In r (t_C t) -> length r = S ns) /\ length (t_D t) = S ns /\ length (t_B t) = S ns;
  ft_diff : o_repr o <> Integral -> length (t_A t) = ns /\ (forall r, In r (t_A t) -> length r = ns) /\ length (t_b t) = ns;
  ft_fx : cfits (pm_fx_fun pm) [nx; nzall; nu; np; nvg] /\ length (cf_out (pm_fx_fun pm)) = nx;
  ft_gz : cfits (pm_gz_fun pm) [nx; nzall; nu; np];
  ft_gsw : cfits (pm_gsw_fun pm) [nx; nzall; nu; np];
  ft_fq : cfits (po_fq_fun oc) [nx; nu; np; nvg] /\ length (cf_out (po_fq_fun oc)) = 1;
  ft_gp : cfits (po_g_path_fun oc) [nx; nu; np; nvg] /\ length (po_lbg oc) = length (cf_out (po_g_path_fun oc)) /\
          length (po_ubg oc) = length (cf_out (po_g_path_fun oc));
  ft_gT : cfits (po_gT_fun oc) [nx; np; nvg];
  ft_fT : cfits (po_fT_fun oc) [nx; np; nvg] /\ length (cf_out (po_fT_fun oc)) = 1;
  ft_rk : cfits (fst (po_rk_comp oc)) [nx; nu; nzall; np; nvg] /\ cfits (snd (po_rk_comp oc)) [nx; nu; nzall; np; nvg] /\
          length (cf_out (fst (po_rk_comp oc))) = length (cf_out (snd (po_rk_comp oc)));
  ft_ct : cfits (fst (po_ctrl_comp oc)) [nu; np; nvg] /\ cfits (snd (po_ctrl_comp oc)) [nu; np; nvg] /\
          length (cf_out (fst (po_ctrl_comp oc))) = length (cf_out (snd (po_ctrl_comp oc)));
  ft_gl : cfits (fst (po_global_comp oc)) [m_npg (pm_m pm); nvg] /\ cfits (snd (po_global_comp oc)) [m_npg (pm_m pm); nvg] /\
          length (cf_out (fst (po_global_comp oc))) = length (cf_out (snd (po_global_comp oc)));
  ft_np : np = m_npt (pm_m pm) + m_npg (pm_m pm);
  ft_t : o_time_freezing o && o_equidistant o = true -> exists f, pm_t_fun pm = Some f /\ cfits f [nx] /\ length (cf_out f) = 1;
  ft_aug : o_mpcc o = FischerBurmeisterIpAug -> o_use_fesd o = true -> o_cross o = ComplementAll
}.
Hypothesis F : fit.

Lemma lab2_len c e f j : length (lab2 o pm c e f j) = nfam f.
Proof.
  unfold lab2, nfam. rewrite length_concat_map. f_equal. apply map_ext. intros s. unfold lab2s. rewrite map_length, seq_length. reflexivity.
Qed.
Lemma lab0_len f : length (lab0 o pm f) = nfam f.
Proof. unfold lab0, nfam. rewrite length_concat_map. f_equal. apply map_ext. intros s. rewrite map_length, seq_length. reflexivity. Qed.
Lemma lab1_len c e f j : length (lab1 o pm c e f j) = sz1 o pm f.
Proof. unfold lab1. rewrite map_length, seq_length. reflexivity. Qed.
Lemma lam_len c e j : length (vars (lab_lam o pm c e j)) = nlam.
Proof. rewrite vars_len. unfold lab_lam, nlam. rewrite !app_length, !lab2_len. lia. Qed.
Lemma lam0_len : length (vars (lam0 o pm)) = nlam.
Proof. rewrite vars_len. unfold lam0, nlam. rewrite !app_length, !lab0_len. lia. Qed.
Lemma nfam_ext f f' : (forall s, fsz o pm f s = fsz o pm f' s) -> nfam f = nfam f'.
Proof. intros H. unfold nfam. f_equal. apply map_ext. exact H. Qed.
Lemma theta_len c e j : length (ex_theta o pm c e j) = nlam.
Proof.
  unfold ex_theta, nlam. rewrite !app_length, !vars_len, map_length, !lab2_len.
  rewrite (nfam_ext FTheta FLam), (nfam_ext FLn FAlpha), (nfam_ext FLp FAlpha); [lia|..];
    intros s; unfold fsz, fam_on, fam_len, fam_size; destruct (o_pss o); reflexivity.
Qed.
Lemma z_len c e j : length (vars (lab_z o pm c e j)) = nzall.
Proof.
  rewrite vars_len, <- (ft_z F). unfold lab_z, nzst. rewrite !app_length, !lab2_len, lab1_len. cbn [sz1]. lia.
Qed.
Lemma pst_len c : length (vars (pst pm c)) = np.
Proof. rewrite vars_len. unfold pst. rewrite map_length, seq_length. reflexivity. Qed.
Lemma vg_len : length (vgv pm) = nvg. Proof. apply vars_len. Qed.

(* what is needed of the element before *)
Definition prev_ok (q : felem) : Prop :=
  (exists x, x_last q = Ok x /\ length x = nx) /\ (exists l, Lambda q Last = Ok l /\ length l = nlam).
Lemma nxs_pos : 0 < nx_slots o t.
Proof. pose proof (ft_ns F). unfold nx_slots. destruct (o_repr o), (t_rbe t); lia. Qed.
Lemma nbd_pos nfe e : 0 < nbd o t nfe e.
Proof. pose proof (ft_ns F). unfold nbd. lia. Qed.
Lemma fe0_prev q : fe0_ok o pm q -> prev_ok q.
Proof.
  intros K. split; eexists; (split; [apply K|]); [|apply lam0_len].
  rewrite vars_len. unfold labx0. rewrite map_length, seq_length. reflexivity.
Qed.
Lemma fe_xl c e nfe q : fe_ok o t pm oc c e nfe q -> exists x, x_last q = Ok x /\ length x = nx.
Proof.
  intros K. rewrite (ok_x_last _ _ _ _ _ _ _ _ K nxs_pos). eexists; split; [reflexivity|]. rewrite vars_len, lab1_len. reflexivity.
Qed.
Lemma fe_prev c e nfe q : fe_ok o t pm oc c e nfe q -> prev_ok q.
Proof.
  intros K. split; [exact (fe_xl _ _ _ _ K)|].
  rewrite (ok_Lambda_last _ _ _ _ _ _ _ _ K (nbd_pos _ _)). eexists; split; [reflexivity|apply lam_len].
Qed.

(* ---- one element ---- *)
Section Elem.
Variables (c e nfe : nat) (Uk : list expr) (sot : expr) (prev : felem).
Hypothesis HU : length Uk = nu.
Hypothesis HP : prev_ok prev.
Notation ok := (fe_ok o t pm oc c e nfe).

Lemma fe_v fe j : ok fe -> has_v o = true -> j < ns ->
  exists vi v, nthE EIndexError (ind1 fe FV) j = Ok vi /\ fe_sel fe vi = Ok v /\ length v = nx.
Proof.
  intros K Hv Hj. destruct (ok_sel1 _ _ _ _ _ _ _ fe FV j K Hj) as [idx [Hi Hs]].
  exists idx. eexists. split; [apply nthE_Some, Hi|]. split; [exact Hs|]. rewrite vars_len, lab1_len. cbn [sz1]. rewrite Hv. reflexivity.
Qed.
Lemma x_temp_total fe j : ok fe -> o_repr o <> Integral -> j < ns -> exists x, x_temp o t fe prev j = Ok x /\ length x = nx.
Proof.
  intros K HR Hj. unfold x_temp. destruct HP as [[x [-> Hx]] _]. cbn [bind]. destruct (ft_diff F HR) as [HA [Hr _]].
  destruct (nthE_total EIndexError (t_A t) j) as [Aj [-> HAj]]; [lia|]. cbn [bind].
  apply (foldM_total _ (fun a => length a = nx)); [|exact Hx].
  intros a r Hin Ha. apply in_seq in Hin. destruct (nthE_total EIndexError Aj r) as [q [-> _]]; [rewrite (Hr _ HAj); lia|]. cbn [bind].
  destruct (fe_v fe r K) as [vi [v [-> [E Hv]]]]; [unfold has_v; destruct (o_repr o); congruence|lia|]. cbn [bind]. rewrite E. cbn [bind].
  apply vbin_total; [exact Ha|rewrite vscale_len; exact Hv].
Qed.
Definition xlen : nat := match o_repr o with Differential => S ns | _ => nx_slots o t end.
Lemma X_total fe : ok fe -> exists Xf, X_fe o t fe prev = Ok Xf /\ length Xf = xlen /\ (forall x, In x Xf -> length x = nx).
Proof.
  intros K.
  assert (HL : o_repr o <> Differential -> exists Xf, X_fe o t fe prev = Ok Xf /\ length Xf = nx_slots o t /\ (forall x, In x Xf -> length x = nx)).
  { intros HR. rewrite (ok_Xf_lifted _ _ _ _ _ _ _ _ K HR prev). eexists; split; [reflexivity|]. split; [rewrite map_length, seq_length; reflexivity|].
    intros x Hx. apply in_map_iff in Hx as [j [<- _]]. rewrite vars_len, lab1_len. reflexivity. }
  unfold xlen. destruct (o_repr o) eqn:ER; try (apply HL; discriminate).
  unfold X_fe. rewrite ER.
  destruct (mapM_total (x_temp o t fe prev) (fun x => length x = nx) (seq 0 ns)) as [l [-> [Hl Hx]]].
  { intros j Hj. apply in_seq in Hj. apply x_temp_total; [exact K|rewrite ER; discriminate|lia]. }
  cbn [bind]. destruct (fe_xl _ _ _ _ K) as [xe [-> Hxe]]. cbn [bind]. eexists; split; [reflexivity|].
  rewrite seq_length in Hl. split; [rewrite app_length; cbn; lia|]. intros x Hin. apply in_app_or in Hin as [Hin|[<-|[]]]; auto.
Qed.
Lemma xlen_ge : ns <= xlen.
Proof. unfold xlen, nx_slots. destruct (o_repr o), (t_rbe t); lia. Qed.
Lemma xlen_end : ns + (if t_rbe t then 0 else 1) - 1 < xlen.
Proof. pose proof (ft_ns F). unfold xlen, nx_slots. destruct (o_repr o), (t_rbe t); lia. Qed.

Lemma ok_with fe f : ok fe -> fe_le o fe (with_fo fe f) -> ok (with_fo fe f).
Proof. intros; eapply fe_ok_le; eassumption. Qed.

Section Stage.
Variable Xf : list (list expr).
Hypothesis HXl : ns <= length Xf.
Hypothesis HX : forall x, In x Xf -> length x = nx.

Lemma fs_stage_total fe X j : ok fe -> length X = nx -> j < ns ->
  exists r, fs_stage o t pm oc prev Uk sot Xf (fe, X) j = Ok r /\ ok (fst r) /\ length (snd r) = nx.
Proof.
  intros K HX0 Hj.
  assert (G : exists r, fs_stage o t pm oc prev Uk sot Xf (fe, X) j = Ok r /\ length (snd r) = nx).
  { unfold fs_stage. destruct (nthE_total EIndexError Xf j) as [xj [-> Hxj]]; [lia|]. cbn [bind]. apply HX in Hxj.
    rewrite (ok_rk_stage_z _ _ _ _ _ _ _ _ _ K Hj). cbn [bind].
    pose proof (ft_fx F) as [Lf Of]. pose proof (ft_fq F) as [Lq Oq].
    destruct (call_fits _ _ [xj; vars (lab_z o pm c e j); Uk; vars (pst pm (fe_ctrl fe)); vgv pm] Lf) as [f0 [-> Hf0]].
    { cbn [map]. rewrite Hxj, z_len, HU, pst_len, vg_len. reflexivity. }
    cbn [bind].
    destruct (call_fits _ _ [xj; Uk; vars (pst pm (fe_ctrl fe)); vgv pm] Lq) as [q0 [-> Hq0]].
    { cbn [map]. rewrite Hxj, HU, pst_len, vg_len. reflexivity. }
    cbn [bind]. rewrite Oq in Hq0. destruct q0 as [|q1 [|? ?]]; try discriminate Hq0. cbn [head1 bind].
    destruct (call_fits _ _ [xj; vars (lab_z o pm c e j); Uk; vars (pst pm (fe_ctrl fe))] (ft_gz F)) as [gj [-> _]].
    { cbn [map]. rewrite Hxj, z_len, HU, pst_len. reflexivity. }
    cbn [bind]. destruct (add0_total (fo fe) gj) as [f1 ->]. cbn [bind].
    assert (HD : o_repr o <> Integral -> exists r,
      (do* bj <- nthE EIndexError (t_b t) j; do* vi <- nthE EIndexError (ind1 fe FV) j; do* v <- fe_sel fe vi;
       do* Xk' <- vbin BAdd X (vscale (EBin BMul (fe_h fe) (ECst bj)) v);
       do* cc <- vbin BSub (vscale sot f0) v; do* f2 <- add_constraint f1 cc None None;
       Ok (with_fo fe (add_cost f2 (EBin BMul (EBin BMul (ECst bj) (fe_h fe)) (EBin BMul sot q1))), Xk')) = Ok r /\ length (snd r) = nx).
    { intros HR. destruct (ft_diff F HR) as [_ [_ Hb]]. destruct (nthE_total EIndexError (t_b t) j) as [bj [-> _]]; [lia|]. cbn [bind].
      destruct (fe_v fe j K) as [vi [v [-> [E Hv]]]]; [unfold has_v; destruct (o_repr o); congruence|lia|]. cbn [bind]. rewrite E. cbn [bind].
      destruct (vbin_total BAdd X (vscale (EBin BMul (fe_h fe) (ECst bj)) v) nx HX0) as [Xk [-> HXk]]; [rewrite vscale_len; exact Hv|]. cbn [bind].
      destruct (vbin_total BSub (vscale sot f0) v nx) as [cc [-> _]]; [rewrite vscale_len; congruence|exact Hv|]. cbn [bind].
      destruct (add0_total f1 cc) as [f2 ->]. cbn [bind]. eexists; split; [reflexivity|exact HXk]. }
    destruct (o_repr o) eqn:ER; try (apply HD; discriminate).
    destruct (ft_int F ER) as (HC & HCr & HDl & HB).
    destruct (nthE_total EIndexError (t_C t) 0) as [C0 [-> HC0]]; [lia|]. cbn [bind].
    destruct (nthE_total EIndexError C0 (j + 1)) as [c0j [-> _]]; [rewrite (HCr _ HC0); lia|]. cbn [bind].
    destruct HP as [[xp [-> Hxp]] _]. cbn [bind].
    match goal with |- context [foldM ?f ?l ?a] => destruct (foldM_total f (fun v => length v = nx) l) with (s := a) as [xc [-> Hxc]] end.
    { intros a r Hin Ha. apply in_seq in Hin. destruct (nthE_total EIndexError (t_C t) (r + 1)) as [Cr [-> HCr']]; [lia|]. cbn [bind].
      destruct (nthE_total EIndexError Cr (j + 1)) as [q [-> _]]; [rewrite (HCr _ HCr'); lia|]. cbn [bind].
      destruct (nthE_total EIndexError Xf r) as [xr [-> Hxr]]; [lia|]. cbn [bind]. apply vbin_total; [exact Ha|rewrite vscale_len; apply HX, Hxr]. }
    { rewrite vscale_len. exact Hxp. }
    cbn [bind]. destruct (nthE_total EIndexError (t_D t) (j + 1)) as [dj [-> _]]; [lia|]. cbn [bind].
    destruct (vbin_total BAdd X (vscale (ECst dj) xj) nx HX0) as [Xk [-> HXk]]; [rewrite vscale_len; exact Hxj|]. cbn [bind].
    destruct (vbin_total BSub (vscale (fe_h fe) (vscale sot f0)) xc nx) as [cc [-> _]]; [rewrite !vscale_len; congruence|exact Hxc|]. cbn [bind].
    destruct (add0_total f1 cc) as [f2 ->]. cbn [bind]. destruct (nthE_total EIndexError (t_B t) (j + 1)) as [bj [-> _]]; [lia|]. cbn [bind].
    eexists; split; [reflexivity|exact HXk]. }
  destruct G as [[fe' X'] [E HX']]. exists (fe', X'). split; [exact E|]. split; [|exact HX'].
  eapply fe_ok_le; [exact K|]. eapply fs_stage_le. exact E.
Qed.

Lemma gpath_total fe j P : ok fe -> j < length Xf -> length P = np -> exists fe', gpath pm oc Xf Uk P fe j = Ok fe' /\ ok fe'.
Proof.
  intros K Hj HPl. assert (G : exists fe', gpath pm oc Xf Uk P fe j = Ok fe').
  { unfold gpath. destruct (nthE_total EIndexError Xf j Hj) as [x [-> Hx]]. cbn [bind]. apply HX in Hx.
    destruct (ft_gp F) as (L & L1 & L2). destruct (call_fits _ _ [x; Uk; P; vgv pm] L) as [gq [-> Hg]].
    { cbn [map]. rewrite Hx, HU, HPl, vg_len. reflexivity. }
    cbn [bind]. destruct (add2_total (fo fe) gq (po_lbg oc) (po_ubg oc)) as [f' ->]; [congruence|congruence|]. cbn [bind]. eauto. }
  destruct G as [fe' E]. exists fe'. split; [exact E|]. eapply fe_ok_le; [exact K|]. eapply gpath_le. exact E.
Qed.
End Stage.

Lemma lift_total fe : ok fe -> o_repr o = DifferentialLiftX -> exists fe', lift_constraints o t fe prev = Ok fe' /\ ok fe'.
Proof.
  intros K HR. unfold lift_constraints. apply foldM_total; [|exact K]. intros fe1 j Hin K1. apply in_seq in Hin.
  destruct (x_temp_total fe1 j K1) as [xt [-> Hxt]]; [congruence|lia|]. cbn [bind].
  destruct (ok_sel1 _ _ _ _ _ _ _ fe1 FX j K1) as [idx [Hi Hs]].
  { cbn [n1]. unfold nx_slots. rewrite HR. destruct (t_rbe t); lia. }
  rewrite (nthE_Some _ _ _ _ Hi). cbn [bind]. rewrite Hs. cbn [bind].
  destruct (vbin_total BSub (vars (lab1 o pm c e FX j)) xt nx) as [d [-> _]]; [rewrite vars_len, lab1_len; reflexivity|exact Hxt|]. cbn [bind].
  destruct (add0_total (fo fe1) d) as [f' E]. rewrite E. cbn [bind]. eexists; split; [reflexivity|].
  apply ok_with; [exact K1|]. eapply fe_add_constraint_le. exact E.
Qed.

Lemma forward_total fe : ok fe -> exists fe', forward_simulation o t pm oc nfe prev Uk sot fe = Ok fe' /\ ok fe'.
Proof.
  intros K. unfold forward_simulation. cbv zeta. destruct (X_total fe K) as (Xf & -> & HXl & HX). cbn [bind].
  pose proof HP as [[xp [Exp Hxp]] _]. rewrite Exp. cbn [bind].
  assert (G0 : exists r, match o_repr o with
              | Integral => do* d0 <- nthE EIndexError (t_D t) 0; Ok (fe, vscale (ECst d0) xp)
              | Differential => Ok (fe, xp)
              | DifferentialLiftX => do* fe' <- lift_constraints o t fe prev; Ok (fe', xp)
              end = Ok r /\ ok (fst r) /\ length (snd r) = nx).
  { destruct (o_repr o) eqn:ER.
    - destruct (ft_int F ER) as (_ & _ & HD & _). destruct (nthE_total EIndexError (t_D t) 0) as [d0 [-> _]]; [lia|]. cbn [bind].
      eexists; split; [reflexivity|]. split; [exact K|cbn [snd]; rewrite vscale_len; exact Hxp].
    - eexists; split; [reflexivity|]. split; [exact K|exact Hxp].
    - destruct (lift_total fe K ER) as [fe' [-> K']]. cbn [bind]. eexists; split; [reflexivity|]. split; [exact K'|exact Hxp]. }
  destruct G0 as [init [-> [K0 H0]]]. cbn [bind].
  destruct (foldM_total (fs_stage o t pm oc prev Uk sot Xf) (fun r => ok (fst r) /\ length (snd r) = nx) (seq 0 ns)) with (s := init) as [[fe1 X1] [-> [K1 H1]]].
  { intros [fe1 X1] j Hin [K1 H1]. apply in_seq in Hin. apply fs_stage_total; [rewrite HXl; apply xlen_ge|exact HX|exact K1|exact H1|lia]. }
  { split; assumption. }
  cbn [bind]. cbn [fst snd] in K1, H1.
  match goal with |- context [if has_xend o t then ?a else ?b] => assert (G2 : exists fe2, (if has_xend o t then a else b) = Ok fe2 /\ ok fe2) end.
  { destruct (has_xend o t); [|eauto]. destruct (fe_xl _ _ _ _ K1) as [xe [-> Hxe]]. cbn [bind].
    destruct (vbin_total BSub X1 xe nx H1 Hxe) as [d [-> _]]. cbn [bind]. destruct (add0_total (fo fe1) d) as [f' E]. rewrite E. cbn [bind].
    eexists; split; [reflexivity|]. apply ok_with; [exact K1|]. eapply fe_add_constraint_le. exact E. }
  destruct G2 as [fe2 [-> K2]]. cbn [bind].
  match goal with |- context [if ?b then ?a else Ok fe2] => assert (G3 : exists fe3, (if b then a else Ok fe2) = Ok fe3 /\ ok fe3) end.
  { destruct (_ || _); [|eauto]. apply (gpath_total Xf HX fe2 _ (vars (pst pm (fe_ctrl fe))) K2); [rewrite HXl; apply xlen_end|apply pst_len]. }
  destruct G3 as [fe3 [-> K3]]. cbn [bind].
  match goal with |- context [if o_g_path_at_stg o then ?a else ?b] => assert (G4 : exists fe4, (if o_g_path_at_stg o then a else b) = Ok fe4 /\ ok fe4) end.
  { destruct (o_g_path_at_stg o); [|eauto]. apply foldM_total; [|exact K3]. intros fe' j Hin K'. apply in_seq in Hin.
    apply (gpath_total Xf HX fe' j (vars (pst pm (fe_ctrl fe))) K'); [rewrite HXl; pose proof xlen_ge; lia|apply pst_len]. }
  destruct G4 as [fe4 [-> K4]]. cbn [bind].
  destruct (_ && _); [|eauto]. destruct (fe_xl _ _ _ _ K4) as [xe [-> Hxe]]. cbn [bind].
  rewrite (ok_rk_stage_z_last _ _ _ _ _ _ _ _ K4 (ft_ns F)). cbn [bind].
  match goal with |- context [call _ [xe; vars ?z; Uk; vars ?q]] => destruct (call_fits _ _ [xe; vars z; Uk; vars q] (ft_gsw F)) as [gs [-> _]] end.
  { cbn [map]. rewrite Hxe, HU, pst_len, vars_len, !app_length, !lab2_len, lab1_len. rewrite <- (ft_z F). unfold nzst. cbn [sz1].
    f_equal. f_equal. lia. }
  cbn [bind]. destruct (add0_total (fo fe4) gs) as [f' E]. rewrite E. cbn [bind]. eexists; split; [reflexivity|].
  apply ok_with; [exact K4|]. eapply fe_add_constraint_le. exact E.
Qed.

Lemma fe_comp_total fe x y : ok fe -> comp_fits o x y -> exists fe', fe_comp o fe x y = Ok fe' /\ ok fe'.
Proof.
  intros K H. unfold fe_comp. destruct (comp_total o (SBool (fe_ctrl fe) (fe_idx fe)) (fo fe) x y H) as [f' E]. 
  assert (E' : fe_comp o fe x y = Ok (with_fo fe f')) by (unfold fe_comp; rewrite E; reflexivity).
  rewrite E. cbn [bind]. eexists; split; [reflexivity|]. eapply fe_ok_le; [exact K|]. eapply fe_comp_le. exact E'.
Qed.
Lemma one_fits x y : length x = length y -> comp_fits o [x] y.
Proof. intros H. split; [discriminate|]. split; [intros v [<-|[]]; exact H|reflexivity]. Qed.
Lemma callcomp_total f l args : cfits (fst f) l -> cfits (snd f) l -> length (cf_out (fst f)) = length (cf_out (snd f)) ->
  map (@length _) args = l -> exists ab, callcomp f args = Ok ab /\ length (fst ab) = length (snd ab).
Proof.
  intros H1 H2 HL E. unfold callcomp. destruct (call_fits _ _ _ H1 E) as [a [-> Ha]]. cbn [bind].
  destruct (call_fits _ _ _ H2 E) as [b [-> Hb]]. cbn [bind]. eexists; split; [reflexivity|]. cbn. congruence.
Qed.
Lemma Lambdas_total fe pv : ok fe -> prev_ok pv -> exists l, get_Lambdas_incl_last_prev_fe fe pv = Ok l /\ l <> [] /\ forall v, In v l -> length v = nlam.
Proof.
  intros K [_ [lp [Hlp Hll]]]. unfold get_Lambdas_incl_last_prev_fe.
  destruct (mapM_total (fun ii => Lambda fe (At ii)) (fun v => length v = nlam) (seq 0 (length (ind2 fe FLam)))) as [l [-> [_ Hl]]].
  { intros j Hj. apply in_seq in Hj. rewrite (ok_len2' _ _ _ _ _ _ _ fe FLam K) in Hj. cbn [n2] in Hj.
    rewrite (ok_Lambda _ _ _ _ _ _ _ fe j K); [|lia]. eexists; split; [reflexivity|apply lam_len]. }
  cbn [bind]. rewrite Hlp. cbn [bind]. eexists; split; [reflexivity|]. split; [destruct l; discriminate|].
  intros v Hv. apply in_app_or in Hv as [Hv|[<-|[]]]; auto.
Qed.

Lemma ccc_total fe : ok fe -> exists fe', create_complementarity_constraints o t pm oc prev Uk fe = Ok fe' /\ ok fe'.
Proof.
  intros K. unfold create_complementarity_constraints. destruct (X_total fe K) as (Xf & -> & HXl & HX). cbn [bind].
  pose proof xlen_ge as HXg.
  match goal with |- context [do* a <- foldM ?f (seq 0 ns) fe; _] => destruct (foldM_total f ok (seq 0 ns)) with (s := fe) as [fe1 [-> K1]] end.
  { intros fe1 j Hin K1. apply in_seq in Hin. rewrite (ok_rk_stage_z _ _ _ _ _ _ _ _ _ K1); [|lia]. cbn [bind].
    destruct (nthE_total EIndexError Xf j) as [x [-> Hx]]; [lia|]. cbn [bind]. destruct (ft_rk F) as (L1 & L2 & L3).
    destruct (callcomp_total (po_rk_comp oc) _ [x; Uk; vars (lab_z o pm c e j); vars (pst pm (fe_ctrl fe)); vgv pm] L1 L2 L3) as [ab [-> Hab]].
    { cbn [map]. rewrite (HX _ Hx), HU, z_len, pst_len, vg_len. reflexivity. }
    cbn [bind]. apply fe_comp_total; [exact K1|apply one_fits, Hab]. }
  { exact K. }
  cbn [bind].
  match goal with |- context [do* a <- (if ?b then ?x else ?y); _] => assert (G2 : exists fe2, (if b then x else y) = Ok fe2 /\ ok fe2) end.
  { destruct (_ =? _); [|eauto]. destruct (ft_ct F) as (L1 & L2 & L3).
    destruct (callcomp_total (po_ctrl_comp oc) _ [Uk; vars (pst pm (fe_ctrl fe)); vgv pm] L1 L2 L3) as [ab [-> Hab]].
    { cbn [map]. rewrite HU, pst_len, vg_len. reflexivity. }
    cbn [bind]. apply fe_comp_total; [exact K1|apply one_fits, Hab]. }
  destruct G2 as [fe2 [-> K2]]. cbn [bind].
  pose proof HP as [_ [lp [Hlp Hll]]].
  assert (NB : forall j, j < ns -> j < nbd o t nfe e) by (intros; unfold nbd; lia).
  destruct (o_use_fesd o) eqn:EF; cbn [negb].
  - destruct (o_cross o) eqn:EC.
    + apply foldM_total; [|exact K2]. intros f1 j Hin Kf. apply in_seq in Hin.
      rewrite (ok_Theta _ _ _ _ _ _ _ _ _ Kf); [|lia]. cbn [bind]. rewrite Hlp. cbn [bind].
      destruct (fe_comp_total f1 [ex_theta o pm c e j] lp Kf) as [f2 [-> Kf2]]; [apply one_fits; rewrite theta_len; congruence|]. cbn [bind].
      apply foldM_total; [|exact Kf2]. intros f3 jj Hin' Kf3. apply in_seq in Hin'.
      rewrite (ok_Theta _ _ _ _ _ _ _ _ _ Kf3); [|lia]. cbn [bind]. rewrite (ok_Lambda _ _ _ _ _ _ _ _ _ Kf3); [|apply NB; lia]. cbn [bind].
      apply fe_comp_total; [exact Kf3|]. apply one_fits. rewrite theta_len, lam_len. reflexivity.
    + apply foldM_total; [|exact K2]. intros f1 j Hin Kf. apply in_seq in Hin.
      destruct (Lambdas_total f1 prev Kf HP) as (l & -> & Hn & Hl). cbn [bind].
      rewrite (ok_Theta _ _ _ _ _ _ _ _ _ Kf); [|lia]. cbn [bind]. apply fe_comp_total; [exact Kf|]. split; [exact Hn|]. split.
      * intros v Hv. rewrite theta_len. apply Hl, Hv.
      * intros Em. pose proof (ft_aug F Em EF). congruence.
  - apply foldM_total; [|exact K2]. intros f1 j Hin Kf. apply in_seq in Hin.
    rewrite (ok_Lambda _ _ _ _ _ _ _ _ _ Kf); [|apply NB; lia]. cbn [bind]. rewrite (ok_Theta _ _ _ _ _ _ _ _ _ Kf); [|lia]. cbn [bind].
    apply fe_comp_total; [exact Kf|]. apply one_fits. rewrite theta_len, lam_len. reflexivity.
Qed.

Lemma sumL_total c' e' nfe' fe pv : fe_ok o t pm oc c' e' nfe' fe -> prev_ok pv -> exists l, get_Lambdas_incl_last_prev_fe fe pv = Ok l /\ l <> [] /\ forall v, In v l -> length v = nlam.
Proof.
  intros K [_ [lp [Hlp Hll]]]. unfold get_Lambdas_incl_last_prev_fe.
  destruct (mapM_total (fun ii => Lambda fe (At ii)) (fun v => length v = nlam) (seq 0 (length (ind2 fe FLam)))) as [l [-> [_ Hl]]].
  { intros j Hj. apply in_seq in Hj. rewrite (ok_len2' _ _ _ _ _ _ _ fe FLam K) in Hj. cbn [n2] in Hj.
    rewrite (ok_Lambda _ _ _ _ _ _ _ fe j K); [|lia]. eexists; split; [reflexivity|apply lam_len]. }
  cbn [bind]. rewrite Hlp. cbn [bind]. eexists; split; [reflexivity|]. split; [destruct l; discriminate|].
  intros v Hv. apply in_app_or in Hv as [Hv|[<-|[]]]; auto.
Qed.
Lemma sumT_total c' e' nfe' fe : fe_ok o t pm oc c' e' nfe' fe -> exists r, sum_Theta fe = Ok r /\ length r = nlam.
Proof.
  intros K. unfold sum_Theta.
  destruct (mapM_total (fun ii => Theta fe (At ii)) (fun v => length v = nlam) (seq 0 (length (ind2 fe FTheta)))) as [l [-> [Hl0 Hl]]].
  { intros j Hj. apply in_seq in Hj. rewrite (ok_len2' _ _ _ _ _ _ _ fe FTheta K) in Hj. cbn [n2] in Hj.
    rewrite (ok_Theta _ _ _ _ _ _ _ fe j K); [|lia]. eexists; split; [reflexivity|apply theta_len]. }
  cbn [bind]. apply sum_list_total; [|exact Hl]. rewrite seq_length, (ok_len2' _ _ _ _ _ _ _ fe FTheta K) in Hl0. cbn [n2] in Hl0.
  pose proof (ft_ns F). destruct l; [cbn in Hl0; lia|discriminate].
Qed.
Lemma nu_total fe c' e' nfe' pp : ok fe -> fe_ok o t pm oc c' e' nfe' prev -> prev_ok pp -> exists r, nu_k fe prev pp = Ok r.
Proof.
  intros K K' Hpp. unfold nu_k, sum_Lambda, hadamard.
  destruct (sumL_total _ _ _ prev pp K' Hpp) as (l1 & -> & N1 & L1). cbn [bind]. destruct (sum_list_total l1 nlam N1 L1) as [s1 [-> S1']]. cbn [bind].
  destruct (sumL_total _ _ _ fe prev K HP) as (l2 & -> & N2 & L2). cbn [bind]. destruct (sum_list_total l2 nlam N2 L2) as [s2 [-> S2']]. cbn [bind].
  destruct (vbin_total BMul s1 s2 nlam S1' S2') as [a [-> Ha]]. cbn [bind].
  destruct (sumT_total _ _ _ prev K') as [t1 [-> T1]]. cbn [bind]. destruct (sumT_total _ _ _ fe K) as [t2 [-> T2]]. cbn [bind].
  destruct (vbin_total BMul t1 t2 nlam T1 T2) as [b [-> Hb]]. cbn [bind]. destruct (vbin_total BAdd a b nlam Ha Hb) as [eta [-> _]]. cbn [bind]. eauto.
Qed.
Lemma step_total fe pp : ok fe -> (e <> 0 -> (exists c' e' nfe', fe_ok o t pm oc c' e' nfe' prev) /\ prev_ok pp) ->
  exists fe', step_equilibration o nfe pp prev fe = Ok fe' /\ ok fe'.
Proof.
  intros K HE. assert (G : exists fe', step_equilibration o nfe pp prev fe = Ok fe').
  { unfold step_equilibration. destruct (negb (o_use_fesd o)); [eauto|]. rewrite (ok_idx _ _ _ _ _ _ _ _ K).
    destruct e as [|e0] eqn:Ee; [destruct (o_step_eq o); cbn [Nat.eqb]; eauto|]. rewrite <- Ee in *. assert (Hz : (e =? 0) = false) by (apply Nat.eqb_neq; lia).
    rewrite Hz. destruct HE as [(c' & e' & nfe' & K') Hpp]; [lia|]. destruct (nu_total fe c' e' nfe' pp K K' Hpp) as [nu Hnu].
    destruct (o_step_eq o); rewrite ?Hnu; cbn [bind];
      try match goal with
      | |- context [add_constraint ?a ?b None None] => destruct (add0_total a b) as [f' ->]; cbn [bind]
      | |- context [fe_comp o fe ?a ?b] => destruct (fe_comp_total fe a b K) as [f' [-> _]]; [apply one_fits; reflexivity|]
      end; eexists; reflexivity. }
  destruct G as [fe' E]. exists fe'. split; [exact E|]. eapply fe_ok_le; [exact K|]. eapply step_equilibration_le. exact E.
Qed.
End Elem.

(* ---- the variables ---- *)
Definition dlen (d : decl) : Prop :=
  length (dc_lb d) = length (dc_syms d) /\ length (dc_ub d) = length (dc_syms d) /\ length (dc_init d) = length (dc_syms d).
Lemma fam_decl_total c e st f s : fam_on o f = true -> s < pm_nsys pm -> exists d, fam_decl o pm c e st f s = Ok d /\ dlen d.
Proof.
  intros Hf Hs. destruct (ft_sz F f s Hf Hs) as [n [Hn Hp]].
  assert (G : exists d, fam_decl o pm c e st f s = Ok d).
  { unfold fam_decl. rewrite Hn. cbn [bind]. destruct f; eauto.
    all: assert (Hz : (n =? 0) = false) by (apply Nat.eqb_neq; specialize (Hp ltac:(auto)); lia); rewrite Hz; cbn; eauto. }
  destruct G as [d Hd]. exists d. split; [exact Hd|]. destruct (fam_decl_spec _ _ _ _ _ _ _ _ Hd) as (_ & _ & E1 & E2 & E3 & E4).
  unfold dlen. rewrite E1, E2, E3, E4, map_length, seq_length. split; [|split; [|reflexivity]].
  - destruct f; apply repeat_length.
  - destruct f; apply repeat_length.
Qed.
Lemma fam_decls_total c e st f : fam_on o f = true -> exists ds, fam_decls o pm c e st f = Ok ds /\ forall d, In d ds -> dlen d.
Proof.
  intros Hf. unfold fam_decls. destruct (mapM_total (fam_decl o pm c e st f) dlen (seq 0 (pm_nsys pm))) as [ds [-> [_ H]]]; [|eauto].
  intros s Hs. apply in_seq in Hs. apply fam_decl_total; [exact Hf|lia].
Qed.
Lemma stage_decls_total c e ii : exists ds, stage_decls o pm oc c e ii = Ok ds /\ forall d, In d ds -> dlen d.
Proof.
  unfold stage_decls. cbv zeta.
  destruct (mapM_total (fam_decls o pm c e ii) (fun ds => forall d, In d ds -> dlen d) (stage_fams o)) as [da [-> [_ H]]].
  { intros f Hf. apply fam_decls_total. apply fam_on_stage. exact Hf. }
  cbn [bind]. eexists; split; [reflexivity|]. intros d Hd. destruct (ft_xb F) as [X1 X2]. destruct (ft_zb F) as (Z1 & Z2 & Z3).
  pose proof (ft_x0 F) as X3. apply in_app_or in Hd as [Hd|Hd].
  { destruct (has_v o); [|contradiction]. destruct Hd as [<-|[]]. unfold dlen, ninfs, pinfs; cbn. rewrite map_length, seq_length, !repeat_length. auto. }
  apply in_app_or in Hd as [Hd|Hd].
  { destruct (has_xstage o); [|contradiction]. destruct Hd as [<-|[]]. unfold dlen; cbn. rewrite map_length, seq_length. auto. }
  apply in_app_or in Hd as [Hd|Hd].
  { apply in_concat in Hd as [ds [Hds Hd]]. exact (H _ Hds _ Hd). }
  destruct Hd as [<-|[]]. unfold dlen; cbn. rewrite map_length, seq_length. auto.
Qed.
Lemma fe_decls_total c e nfe : exists ds, fe_decls o t pm oc c e nfe = Ok ds /\ forall d, In d ds -> dlen d.
Proof.
  unfold fe_decls. cbv zeta.
  destruct (mapM_total (stage_decls o pm oc c e) (fun ds => forall d, In d ds -> dlen d) (seq 0 ns)) as [ds [-> [_ H]]].
  { intros j _. apply stage_decls_total. }
  cbn [bind].
  assert (G : exists db, (if create_rbp o t nfe e then mapM (fam_decls o pm c e ns) (boundary_fams o) else Ok []) = Ok db /\
     forall l, In l db -> forall d, In d l -> dlen d).
  { destruct (create_rbp o t nfe e); [|exists []; split; [reflexivity|intros l []]].
    destruct (mapM_total (fam_decls o pm c e ns) (fun ds => forall d, In d ds -> dlen d) (boundary_fams o)) as [db [-> [_ H']]]; [|eauto].
    intros f Hf. apply fam_decls_total. apply boundary_fam in Hf. apply Hf. }
  destruct G as [db [-> H2]]. cbn [bind]. eexists; split; [reflexivity|]. intros d Hd.
  apply in_app_or in Hd as [Hd|Hd].
  { destruct (o_use_fesd o); [|contradiction]. destruct Hd as [<-|[]]. unfold dlen; cbn. auto. }
  apply in_app_or in Hd as [Hd|Hd].
  { apply in_concat in Hd as [l [Hl Hd]]. exact (H _ Hl _ Hd). }
  apply in_app_or in Hd as [Hd|Hd].
  { apply in_concat in Hd as [l [Hl Hd]]. exact (H2 _ Hl _ Hd). }
  destruct (has_xend o t); [|contradiction]. destruct Hd as [<-|[]]. destruct (ft_xb F) as [X1 X2]. pose proof (ft_x0 F) as X3.
  unfold dlen; cbn. rewrite map_length, seq_length. auto.
Qed.
Lemma fe_make_total c e nfe : exists fe, fe_make o t pm oc c e nfe = Ok fe.
Proof.
  unfold fe_make. destruct (fe_decls_total c e nfe) as [ds [E H]]. rewrite E. cbn [bind]. apply foldM_add_decl_total.
  intros d Hd. destruct (H d Hd) as (H1 & H2 & H3). repeat (split; [assumption|]).
  pose proof (fe_decls_slots _ _ _ _ _ _ _ _ E) as ES. assert (HS : In (dc_slot d) (fe_slots o t (pm_nsys pm) nfe e)).
  { rewrite <- ES. apply in_map. exact Hd. }
  apply fe_slots_range in HS. destruct (dc_slot d) as [|f j|f j s].
  - cbn. discriminate.
  - rewrite fe_init_lookup1; [discriminate|apply HS].
  - rewrite fe_init_lookup2; [discriminate|apply HS|apply HS].
Qed.

Lemma fe_zero_total : exists fe, fe_zero o pm = Ok fe.
Proof.
  unfold fe_zero.
  assert (G : exists ds, fe0_decls o pm = Ok ds /\ forall d, In d ds -> dlen d).
  { unfold fe0_decls. cbv zeta.
    match goal with |- context [match o_pss o with Stewart => ?a | Step => ?b end] =>
      assert (G : exists ls, match o_pss o with Stewart => a | Step => b end = Ok ls /\ forall l, In l ls -> forall d, In d l -> dlen d) end.
    { destruct (o_pss o) eqn:EP.
      - destruct (mapM_total (fun sys => do* n <- fam_size pm FLam sys; Ok [mkDecl (Slot2 FLam 0 sys) (map (SL00 FLam sys) (seq 0 n)) (ninfs n) (pinfs n) (repeat 1%Q n)])
          (fun ds => forall d, In d ds -> dlen d) (seq 0 (pm_nsys pm))) as [ls [-> [_ H]]]; [|eauto].
        intros s Hs. apply in_seq in Hs. destruct (ft_sz F FLam s) as [n [-> _]]; [unfold fam_on; rewrite EP; reflexivity|lia|]. cbn [bind].
        eexists; split; [reflexivity|]. intros d [<-|[]]. unfold dlen, ninfs, pinfs; cbn. rewrite map_length, seq_length, !repeat_length. auto.
      - destruct (mapM_total (fun sys => do* n <- fam_size pm FLn sys; Ok [mkDecl (Slot2 FLn 0 sys) (map (SL00 FLn sys) (seq 0 n)) (ninfs n) (pinfs n) (repeat 1%Q n);
            mkDecl (Slot2 FLp 0 sys) (map (SL00 FLp sys) (seq 0 n)) (ninfs n) (pinfs n) (repeat 1%Q n)])
          (fun ds => forall d, In d ds -> dlen d) (seq 0 (pm_nsys pm))) as [ls [-> [_ H]]]; [|eauto].
        intros s Hs. apply in_seq in Hs. destruct (ft_sz F FLn s) as [n [-> _]]; [unfold fam_on; rewrite EP; reflexivity|lia|]. cbn [bind].
        eexists; split; [reflexivity|]. intros d [<-|[<-|[]]]; unfold dlen, ninfs, pinfs; cbn; rewrite map_length, seq_length, !repeat_length; auto. }
    destruct G as [ls [-> H]]. cbn [bind]. eexists; split; [reflexivity|]. intros d [<-|Hd].
    - unfold dlen; cbn. rewrite !map_length, seq_length. pose proof (ft_x0 F). auto.
    - apply in_concat in Hd as [l [Hl Hd]]. exact (H _ Hl _ Hd). }
  destruct G as [ds [E H]]. rewrite E. cbn [bind]. apply foldM_add_decl_total. intros d Hd.
  destruct (H d Hd) as (H1 & H2 & H3). repeat (split; [assumption|]).
  destruct (fe0_decls_spec _ _ _ E) as [_ HS]. destruct (HS d Hd) as [(-> & _)|(f & s & Hf & Hs & _ & (-> & _))].
  - cbn. discriminate.
  - assert (G : lookup (fe0_init pm) (Slot2 f 0 s) = Some []); [|rewrite G; discriminate].
    unfold lam_fams in Hf. destruct (o_pss o); cbn [In] in Hf; repeat (destruct Hf as [<-|Hf]); try contradiction;
      cbn; apply nth_error_repeat'; exact Hs.
Qed.

Lemma control_stage_total f iu isot stages c : c < o_N_stages o -> exists r, create_control_stage o t pm oc (f, iu, isot, stages) c = Ok r.
Proof.
  intros Hc. unfold create_control_stage. destruct (ft_ub F) as (U1 & U2 & U3).
  rewrite add_variable_total; rewrite ?map_length, ?seq_length; auto. cbn [bind].
  match goal with |- context [do* r <- ?x; let '(f2, isot') := r in _] => assert (G : exists r, x = Ok r) end.
  { destruct (o_sot o); eauto. rewrite add_variable_total by reflexivity. cbn [bind]. eauto. }
  destruct G as [[f2 isot'] ->]. cbn [bind]. destruct (ft_nfe F c Hc) as [nfe [Hn Hp]]. rewrite (nthE_Some _ _ _ _ Hn). cbn [bind].
  unfold make_stage_fes. destruct (mapM_total (fun e => fe_make o t pm oc c e nfe) (fun _ => True) (seq 0 nfe)) as [fes [-> [Hl _]]].
  { intros e _. destruct (fe_make_total c e nfe) as [fe Hfe]. eauto. }
  cbn [bind]. rewrite seq_length in Hl. destruct nfe as [|k]; [lia|]. rewrite (lastE_last _ _ _ Hl).
  destruct (nthE_total EIndexError fes k) as [lf [-> _]]; [lia|]. cbn [bind]. eauto.
Qed.

Lemma primal_total : exists P, create_primal o t pm oc = Ok P.
Proof.
  unfold create_primal.
  assert (G0 : exists r, (if is_elastic (o_mpcc o) then add_variable fobj_empty [SElastic] [Fin (o_s_elastic_min o)]
                    [Fin (o_s_elastic_max o)] [o_s_elastic_0 o] else Ok (fobj_empty, [])) = Ok r).
  { destruct (is_elastic _); [rewrite add_variable_total by reflexivity|]; eauto. }
  destruct G0 as [[f0 iel] ->]. cbn [bind]. destruct fe_zero_total as [fe0 E0]. rewrite E0. cbn [bind].
  pose proof (fe_zero_ok _ _ _ E0) as K0. destruct (z_x _ _ _ K0) as (_ & _ & idx & Hi & Hs).
  rewrite (nthE_Some _ _ _ _ Hi). cbn [bind]. rewrite Hs. cbn [bind]. rewrite (z_all _ _ _ K0). cbn [bind].
  destruct (ft_vb F) as (V1 & V2 & V3). rewrite add_variable_total by assumption. cbn [bind].
  assert (ES : match o_sot o with SotGlobal => Err EAttributeError | _ => Ok tt end = Ok tt).
  { pose proof (ft_sot F). destruct (o_sot o); congruence. }
  rewrite ES. cbn [bind].
  match goal with |- context [foldM ?f ?l ?a] => destruct (foldM_total f (fun _ => True) l) with (s := a) as [[[[f2 iu] isot] stages] [-> _]] end.
  { intros [[[f iu] isot] stages] c Hin _. apply in_seq in Hin. destruct (control_stage_total f iu isot stages c) as [r Hr]; [lia|eauto]. }
  { exact I. }
  cbn [bind]. eauto.
Qed.

(* ---- the loop over the elements ---- *)
Definition chain_inv (e : nat) (pp p : felem) : Prop :=
  prev_ok p /\ (e <> 0 -> (exists c' e' nfe', fe_ok o t pm oc c' e' nfe' p) /\ prev_ok pp).
Lemma process_fe_total c e nfe Uk sot f pp p done ic fe :
  length Uk = nu -> chain_inv e pp p -> fe_ok o t pm oc c e nfe fe ->
  exists f' fe' ic', process_fe o t pm oc nfe Uk sot (f, pp, p, done, ic) fe = Ok (f', p, fe', done ++ [fe'], ic') /\ fe_ok o t pm oc c e nfe fe'.
Proof.
  intros HU [Hp He] K. unfold process_fe.
  destruct (forward_total c e nfe Uk sot p HU Hp fe K) as [fe1 [-> K1]]. cbn [bind].
  destruct (ccc_total c e nfe Uk p HU Hp fe1 K1) as [fe2 [-> K2]]. cbn [bind].
  destruct (step_total c e nfe Uk p HU Hp fe2 pp K2 He) as [fe3 [-> K3]]. cbn [bind]. cbv zeta.
  destruct (ok_wf _ _ _ _ _ _ _ _ K3) as [_ [G1 G2]].
  destruct (add2_total (add_cost f (cost (fo fe3))) (g (fo fe3)) (lbg (fo fe3)) (ubg (fo fe3)) G1 G2) as [f2 ->]. cbn [bind].
  do 3 eexists. split; [reflexivity|exact K3].
Qed.
Lemma process_fes_total c nfe Uk sot (HU : length Uk = nu) l : forall e f pp p done ic,
  chain_inv e pp p -> (forall k s, nth_error l k = Some s -> fe_ok o t pm oc c (e + k) nfe s) ->
  exists f' pp' p' ds ic', foldM (process_fe o t pm oc nfe Uk sot) l (f, pp, p, done, ic) = Ok (f', pp', p', done ++ ds, ic') /\
    chain_inv (e + length l) pp' p' /\ length ds = length l /\ (forall fe, In fe ds -> exists e', fe_ok o t pm oc c e' nfe fe).
Proof.
  induction l as [|s l IH]; intros e f pp p done ic HC HK; cbn [foldM].
  - exists f, pp, p, [], ic. rewrite app_nil_r, Nat.add_0_r. split; [reflexivity|]. split; [exact HC|]. split; [reflexivity|]. intros fe [].
  - pose proof (HK 0 s eq_refl) as K. rewrite Nat.add_0_r in K.
    destruct (process_fe_total c e nfe Uk sot f pp p done ic s HU HC K) as (f' & fe' & ic' & -> & K'). cbn [bind].
    destruct (IH (S e) f' p fe' (done ++ [fe']) ic') as (f2 & pp2 & p2 & ds & ic2 & E & HC2 & HL & HD).
    + split; [exact (fe_prev _ _ _ _ K')|]. intros _. split; [eauto|apply HC].
    + intros k s' Hs. replace (S e + k) with (e + S k) by lia. exact (HK (S k) s' Hs).
    + exists f2, pp2, p2, (fe' :: ds), ic2. rewrite E, <- app_assoc. split; [reflexivity|]. cbn [length].
      replace (e + S (length l)) with (S e + length l) by lia. split; [exact HC2|]. split; [congruence|].
      intros fe [<-|Hin]; [eauto|apply HD, Hin].
Qed.

Definition good_stages (es : list (list felem)) : Prop :=
  forall st fe, In st es -> In fe st -> exists c e nfe, fe_ok o t pm oc c e nfe fe.
Lemma process_stage_total P c starts f pp p done ics : primal_ok o t pm oc P -> c < o_N_stages o -> prev_ok p ->
  stage_created o t pm oc c starts ->
  exists f' pp' p' fes ics', process_stage o t pm oc P (f, pp, p, done, ics) (c, starts) = Ok (f', pp', p', done ++ [fes], ics') /\
    fes <> [] /\ prev_ok p' /\ (forall fe, In fe fes -> exists c e nfe, fe_ok o t pm oc c e nfe fe).
Proof.
  intros KP Hc Hp (nfe & Hn & Hpos & HM). unfold process_stage.
  destruct (pk_u _ _ _ _ _ KP c Hc) as [iu [Hiu [Hsel _]]]. rewrite (nthE_Some _ _ _ _ Hiu). cbn [bind]. rewrite Hsel. cbn [bind].
  match goal with |- context [do* s <- match o_sot o with SotGlobal => ?a | SotLocal => ?b | SotNone => ?d end; _] =>
    assert (G : exists sot, match o_sot o with SotGlobal => a | SotLocal => b | SotNone => d end = Ok sot) end.
  { pose proof (pk_sot _ _ _ _ _ KP) as HS. pose proof (ft_sot F) as HG. destruct (o_sot o); [eauto| |congruence].
    destruct HS as [_ HS]. destruct (HS c Hc) as [i [Hi [Hs _]]]. rewrite (nthE_Some _ _ _ _ Hi). cbn [bind]. rewrite Hs. cbn. eauto. }
  destruct G as [sot ->]. cbn [bind]. rewrite (nthE_Some _ _ _ _ Hn). cbn [bind].
  assert (HU : length (vars (ulab pm c)) = nu) by (rewrite vars_len; unfold ulab; rewrite map_length, seq_length; reflexivity).
  destruct (process_fes_total c nfe (vars (ulab pm c)) sot HU starts 0 f pp p [] []) as (f1 & pp1 & p1 & ds & ic & -> & HC1 & HL & HD).
  { split; [exact Hp|congruence]. }
  { intros k s Hs. cbn [Nat.add]. assert (Hk : k < nfe) by (apply nth_error_Some_lt in Hs; rewrite (mapM_length _ _ _ HM), seq_length in Hs; exact Hs).
    destruct (mapM_nth _ _ _ k k HM) as [s' [Hs' Hmk]]; [rewrite nth_error_seq by exact Hk; reflexivity|].
    assert (s' = s) by congruence. subst s'. eapply fe_make_ok. exact Hmk. }
  cbn [bind app].
  assert (HLs : length starts = nfe) by (rewrite (mapM_length _ _ _ HM), seq_length; reflexivity).
  assert (ND : ds <> []) by (destruct ds; [cbn in HL; lia|discriminate]).
  match goal with |- context [if ?b then add_constraint f1 ?x None None else Ok f1] =>
    assert (G2 : exists f2, (if b then add_constraint f1 x None None else Ok f1) = Ok f2) by (destruct b; [apply add0_total|eauto]) end.
  destruct G2 as [f2 ->]. cbn [bind].
  match goal with |- context [do* f3 <- (if ?b then ?x else Ok f2); _] =>
    assert (G3 : exists f3, (if b then x else Ok f2) = Ok f3) end.
  { destruct (o_time_freezing o && o_equidistant o) eqn:ET; [|eauto]. destruct (ft_t F ET) as (tf & -> & L & LO). cbn [opt_res bind].
    pose proof (fe0_prev _ (pk_fe0 _ _ _ _ _ KP)) as [[x0 [-> Hx0]] _]. cbn [bind].
    destruct (call_fits _ _ [x0] L) as [t0 [-> Ht0]]; [cbn; congruence|]. cbn [bind].
    assert (HLd : length ds = S (nfe - 1)) by lia. rewrite (lastE_last _ _ _ HLd).
    destruct (nthE_total EIndexError ds (nfe - 1)) as [lf [-> Hlf]]; [lia|]. cbn [bind].
    destruct (HD lf Hlf) as [e' K']. destruct (fe_xl _ _ _ _ K') as [xe [-> Hxe]]. cbn [bind].
    destruct (call_fits _ _ [xe] L) as [te [-> Hte]]; [cbn; congruence|]. cbn [bind]. rewrite LO in Ht0, Hte.
    destruct t0 as [|t0 [|? ?]]; try discriminate Ht0. destruct te as [|te [|? ?]]; try discriminate Hte. cbn [head1 bind].
    apply add2_total; reflexivity. }
  destruct G3 as [f3 ->]. cbn [bind]. do 5 eexists. split; [reflexivity|]. split; [exact ND|]. split; [apply HC1|].
  intros fe Hfe. destruct (HD fe Hfe) as [e' K']. eauto.
Qed.
Lemma process_stages_total P : primal_ok o t pm oc P -> forall ss c f pp p done ics, c + length ss <= o_N_stages o -> prev_ok p ->
  (forall k st, nth_error ss k = Some st -> stage_created o t pm oc (c + k) st) ->
  exists f' pp' p' es ics', foldM (process_stage o t pm oc P) (combine (seq c (length ss)) ss) (f, pp, p, done, ics) = Ok (f', pp', p', done ++ es, ics') /\
    length es = length ss /\ (forall st, In st es -> st <> []) /\ prev_ok p' /\ good_stages es.
Proof.
  intros KP. induction ss as [|st ss IH]; intros c f pp p done ics Hle Hp HS; cbn [length seq combine foldM].
  - exists f, pp, p, [], ics. rewrite app_nil_r. split; [reflexivity|]. split; [reflexivity|]. split; [intros st []|]. split; [exact Hp|intros st fe []].
  - pose proof (HS 0 st eq_refl) as H0. rewrite Nat.add_0_r in H0. cbn [length] in Hle.
    destruct (process_stage_total P c st f pp p done ics KP ltac:(lia) Hp H0) as (f1 & pp1 & p1 & fes & ics1 & -> & Hne & Hp1 & Hg). cbn [bind].
    destruct (IH (S c) f1 pp1 p1 (done ++ [fes]) ics1) as (f2 & pp2 & p2 & es & ics2 & -> & HL & Hn & Hp2 & HG); [lia|exact Hp1| |].
    { intros k s Hs. replace (S c + k) with (c + S k) by lia. exact (HS (S k) s Hs). }
    exists f2, pp2, p2, (fes :: es), ics2. rewrite <- app_assoc. split; [reflexivity|]. split; [cbn; congruence|].
    split; [intros s [<-|Hin]; auto|]. split; [exact Hp2|]. intros s fe [<-|Hin] Hfe; [apply Hg, Hfe|eapply HG; eassumption].
Qed.

(* ---- the complementarity residual ---- *)
Lemma cvec_total c e nfe fe pv : fe_ok o t pm oc c e nfe fe -> prev_ok pv -> exists r, get_complementarity_vector o fe pv = Ok r /\ r <> [].
Proof.
  intros K [_ [lp [Hlp Hll]]]. unfold get_complementarity_vector, hadamard. pose proof (ft_ns F) as Hns. pose proof (ft_lam F) as Hlam.
  assert (NE : forall (l : list (list expr)), length l = ns -> (forall b, In b l -> b <> []) -> concat l <> []).
  { intros [|a l] HL H; [cbn in HL; lia|]. specialize (H a (or_introl eq_refl)). destruct a; [congruence|discriminate]. }
  assert (ND : forall (l : list expr), length l = nlam -> l <> []) by (intros [|a l] HL; [cbn in HL; lia|discriminate]).
  assert (NB : forall j, j < ns -> j < nbd o t nfe e) by (intros; unfold nbd; lia).
  destruct (o_use_fesd o).
  - match goal with |- context [mapM ?f ?l] => destruct (mapM_total f (fun b => b <> []) l) as [l1 [-> [HL1 HN]]] end.
    { intros j Hj. apply in_seq in Hj. rewrite (ok_Theta _ _ _ _ _ _ _ _ _ K) by lia. cbn [bind]. rewrite Hlp. cbn [bind].
      destruct (vbin_total BMul (ex_theta o pm c e j) lp nlam (theta_len _ _ _) Hll) as [v0 [-> Hv0]]. cbn [bind].
      match goal with |- context [mapM ?f ?l] => destruct (mapM_total f (fun _ => True) l) as [vs [-> _]] end.
      { intros jj Hjj. apply in_seq in Hjj. rewrite (ok_Lambda _ _ _ _ _ _ _ _ _ K) by (apply NB; lia). cbn [bind].
        destruct (vbin_total BMul (ex_theta o pm c e j) (vars (lab_lam o pm c e jj)) nlam (theta_len _ _ _) (lam_len _ _ _)) as [r [-> _]]. eauto. }
      cbn [bind]. eexists; split; [reflexivity|]. apply ND in Hv0. destruct v0; [congruence|discriminate]. }
    cbn [bind]. eexists; split; [reflexivity|]. apply NE; [rewrite HL1; apply seq_length|exact HN].
  - match goal with |- context [mapM ?f ?l] => destruct (mapM_total f (fun b => b <> []) l) as [l1 [-> [HL1 HN]]] end.
    { intros j Hj. apply in_seq in Hj. rewrite (ok_Theta _ _ _ _ _ _ _ _ _ K) by lia. cbn [bind].
      rewrite (ok_Lambda _ _ _ _ _ _ _ _ _ K) by (apply NB; lia). cbn [bind].
      destruct (vbin_total BMul (ex_theta o pm c e j) (vars (lab_lam o pm c e j)) nlam (theta_len _ _ _) (lam_len _ _ _)) as [r [-> Hr]].
      eexists; split; [reflexivity|]. apply ND, Hr. }
    cbn [bind]. eexists; split; [reflexivity|]. apply NE; [rewrite HL1; apply seq_length|exact HN].
Qed.
Lemma emax_total l : l <> [] -> exists e, emax l = Ok e.
Proof. destruct l; [congruence|]. cbn. eauto. Qed.

Lemma pglobal_sel P : primal_ok o t pm oc P -> exists s, sel (p_p P) (seq (m_npt (pm_m pm)) (m_npg (pm_m pm))) = Ok s /\ length s = m_npg (pm_m pm).
Proof.
  intros K. assert (HL : m_npt (pm_m pm) + m_npg (pm_m pm) <= length (p_p P)).
  { rewrite (pk_p _ _ _ _ _ K). pose proof (ft_N F) as HN. destruct (o_N_stages o) as [|n]; [lia|]. cbn [seq map concat].
    rewrite <- app_assoc, app_length. unfold pst at 1. rewrite map_length, seq_length, (ft_np F). lia. }
  unfold sel. destruct (mapM_total (nthE ECasadi (p_p P)) (fun _ => True) (seq (m_npt (pm_m pm)) (m_npg (pm_m pm)))) as [s [E [HLs _]]].
  { intros i Hi. apply in_seq in Hi. destruct (nthE_total ECasadi (p_p P) i) as [a [-> _]]; [lia|eauto]. }
  exists s. split; [exact E|]. rewrite HLs. apply seq_length.
Qed.
Lemma global_total P f : primal_ok o t pm oc P -> exists f', global_compl o pm oc P f = Ok f'.
Proof.
  intros K. unfold global_compl. cbv zeta. destruct (pglobal_sel P K) as [s [-> Hs]]. cbn [bind]. destruct (ft_gl F) as (L1 & L2 & L3).
  destruct (callcomp_total (po_global_comp oc) _ [vars s; vgv pm] L1 L2 L3) as [ab [-> Hab]].
  { cbn [map]. rewrite vars_len, Hs, vg_len. reflexivity. }
  cbn [bind]. apply comp_total. apply one_fits. exact Hab.
Qed.

Lemma collect_fes_total l : (forall fe, In fe l -> exists c e nfe, fe_ok o t pm oc c e nfe fe) -> forall a, exists r, foldM collect_fe l a = Ok r.
Proof.
  intros H a. destruct (foldM_total collect_fe (fun _ => True) l) with (s := a) as [r [E _]]; [|exact I|eauto].
  intros a' fe Hfe _. destruct (H fe Hfe) as (c & e & nfe & K). unfold collect_fe. cbv zeta.
  destruct (ok_wf _ _ _ _ _ _ _ _ K) as [(W1 & W2 & W3) _]. rewrite W1, W2, W3, !Nat.eqb_refl. cbn [andb negb].
  assert (HL : length (ind1 fe FX) = S (nx_slots o t - 1)).
  { pose proof nxs_pos. rewrite (ok_len1 _ _ _ _ _ _ _ _ K). cbn [n1]. lia. }
  rewrite (lastE_last _ _ _ HL). destruct (nthE_total EIndexError (ind1 fe FX) (nx_slots o t - 1)) as [x [-> _]]; [lia|]. cbn [bind]. eauto.
Qed.
Lemma collect_total P : good_stages (p_stages P) -> exists P', collect_finite_elements P = Ok P'.
Proof.
  intros H. unfold collect_finite_elements. destruct (foldM_total collect_stage (fun _ => True) (p_stages P)) with (s := P) as [r [E _]]; [|exact I|eauto].
  intros P' st Hst _. unfold collect_stage. 
  destruct (collect_fes_total st (fun fe Hfe => H st fe Hst Hfe) (mkColl (pb P') (p_ind_h P') (fun _ => []) [] (fun _ => []) [])) as [a ->].
  cbn [bind]. eauto.
Qed.

Lemma in_combine_nth {A B} (a : list A) (b : list B) x y : In (x, y) (combine a b) -> In x a /\ In y b.
Proof. intros H. split; [eapply in_combine_l|eapply in_combine_r]; exact H. Qed.

Theorem body_total : exists P, problem_body o t pm oc = Ok P.
Proof.
  unfold problem_body. pose proof (ft_N F) as HN. assert (Hz : (o_N_stages o =? 0) = false) by (apply Nat.eqb_neq; lia). rewrite Hz. cbn [negb guard bind].
  destruct primal_total as [P EP]. rewrite EP. cbn [bind]. pose proof (create_primal_ok _ _ _ _ _ EP) as KP.
  pose proof (fe0_prev _ (pk_fe0 _ _ _ _ _ KP)) as H0.
  destruct (process_stages_total P KP (p_stages P) 0 (pb P) (p_fe0 P) (p_fe0 P) [] []) as (f1 & pp & lf & es & ics & -> & HL & Hne & Hlf & HG).
  { rewrite (pk_stages _ _ _ _ _ KP). lia. }
  { exact H0. }
  { intros k st Hst. cbn [Nat.add]. assert (Hk : k < o_N_stages o) by (rewrite <- (pk_stages _ _ _ _ _ KP); eapply nth_error_Some_lt; exact Hst).
    destruct (pk_stage _ _ _ _ _ KP k Hk) as [fes [Hf Hcr]]. congruence. }
  cbn [bind app]. destruct (global_total P f1 KP) as [f2 ->]. cbn [bind].
  assert (HA : forall fe, In fe (all_fes es) -> exists c e nfe, fe_ok o t pm oc c e nfe fe).
  { intros fe Hfe. apply in_concat in Hfe as [st [Hst Hfe]]. eapply HG; eassumption. }
  destruct (mapM_total (fun q => get_complementarity_vector o (fst q) (snd q)) (fun b => b <> []) (with_prev (p_fe0 P) (all_fes es))) as [cvs [-> [HLc HNc]]].
  { intros [fe pv] Hin. cbn [fst snd]. apply in_combine_nth in Hin as [H1 H2]. destruct (HA fe H1) as (c & e & nfe & K).
    eapply cvec_total; [exact K|]. destruct H2 as [<-|H2]; [exact H0|]. destruct (HA pv H2) as (c' & e' & nfe' & K'). eapply fe_prev. exact K'. }
  cbn [bind]. destruct (emax_total (concat cvs)) as [J ->].
  { assert (HC : cvs <> []).
    { intros ->. cbn in HLc. symmetry in HLc. apply length_zero_iff_nil in HLc. unfold with_prev in HLc.
      destruct es as [|st es]; [cbn in HL; rewrite (pk_stages _ _ _ _ _ KP) in HL; lia|]. specialize (Hne st (or_introl eq_refl)).
      destruct st as [|fe st]; [congruence|]. discriminate HLc. }
    destruct cvs as [|v cvs]; [congruence|]. specialize (HNc v (or_introl eq_refl)). destruct v; [congruence|discriminate]. }
  cbn [bind]. destruct Hlf as [[xT [-> HxT]] _]. cbn [bind]. destruct (ft_fT F) as [LT LO].
  destruct (call_fits _ _ [xT; vars (pst pm (o_N_stages o - 1)); vgv pm] (ft_gT F)) as [gT [-> _]].
  { cbn [map]. rewrite HxT, pst_len, vg_len. reflexivity. }
  cbn [bind]. destruct (add0_total f2 gT) as [f3 ->]. cbn [bind].
  destruct (call_fits _ _ [xT; vars (pst pm (o_N_stages o - 1)); vgv pm] LT) as [fT [-> HfT]].
  { cbn [map]. rewrite HxT, pst_len, vg_len. reflexivity. }
  cbn [bind]. rewrite LO in HfT. destruct fT as [|fT1 [|? ?]]; try discriminate HfT. cbn [head1 bind]. cbv zeta.
  match goal with |- context [do* f6 <- (if ?b then add_constraint ?f ?x None None else Ok ?f); _] =>
    assert (G6 : exists f6, (if b then add_constraint f x None None else Ok f) = Ok f6) by (destruct b; [apply add0_total|eauto]) end.
  destruct G6 as [f6 ->]. cbn [bind]. apply collect_total. exact HG.
Qed.
End Fit.
