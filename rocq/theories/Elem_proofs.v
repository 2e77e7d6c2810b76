(* Elem_proofs.v -- the constraints and the cost of one finite element *)
From Coq Require Import Reals Qreals Lra.
From Verif Require Import Base Lib Sx Sx_proofs Utils Tableau Opts Model Ocp Problem Spec Fesd Spec13 Fo_proofs Fe_proofs
  FeMake_proofs FeSel_proofs FeZero_proofs Prob_proofs Body_proofs Model_proofs Con_proofs Sem_proofs Dcs_proofs Point_proofs.

Lemma rsum_scale k l : rsum (map (fun x => (k * x)%R) l) = (k * rsum l)%R.
Proof. induction l as [|a l IH]; cbn [map]; rewrite ?rsum_nil, ?rsum_cons; [|rewrite IH]; lra. Qed.
Lemma rupto_scale k n f : rupto n (fun j => (k * f j)%R) = (k * rupto n f)%R.
Proof. unfold rupto. rewrite <- rsum_scale, map_map. reflexivity. Qed.
Lemma rupto_plus n f h : rupto n (fun j => (f j + h j)%R) = (rupto n f + rupto n h)%R.
Proof.
  unfold rupto. induction (seq 0 n) as [|a l IH]; cbn [map]; rewrite ?rsum_nil, ?rsum_cons; [lra|]. rewrite IH. lra.
Qed.
Lemma rsum_seq (f : nat -> R) n : rsum (map f (seq 0 n)) = rupto n f. Proof. reflexivity. Qed.

Lemma val_map rho a k : val rho a k = nth k (map (eval rho) a) 0%R.
Proof. unfold val. rewrite <- Q2R_0 at 1. change (Q2R 0) with (eval rho (ECst 0)). rewrite map_nth. reflexivity. Qed.
Lemma eval_vars rho l : map (eval rho) (vars l) = map rho l.
Proof. unfold vars. rewrite map_map. reflexivity. Qed.

Section Elem.
Variables (o : opts) (t : tab) (m : model) (pm : pmodel) (oc : ocp) (po : pocp) (rho : env).
Hypothesis K : pmodel_ok o m pm.
Hypothesis KO : pocp_ok pm oc po.
Hypothesis WS : well_sized m.
Hypothesis Hns : 0 < o_ns o.
Notation ns := (o_ns o).
Notation nx := (m_nx m).
Notation nfes := (o_Nfe_list o).
Notation ok := (fe_ok o t pm po).
Notation Iv := (isvec rho nx).

(* ---- vectors of any element ---- *)
Lemma nx_slots_pos : 0 < nx_slots o t.
Proof. unfold nx_slots. destruct (o_repr o); [destruct (t_rbe t); lia|lia|destruct (t_rbe t); lia]. Qed.
Lemma sz_x : sz1 o pm FX = nx. Proof. apply (sz1_dim1 o m pm FX K). Qed.
Lemma xend_points : xend_slot o t = points1 o (t_rbe t) FX - 1.
Proof. unfold xend_slot. rewrite <- (n1_points1 o t FX). reflexivity. Qed.
Lemma lab_x_isvec c e j : Iv (fun i => rho (S1 FX c e j i)) (vars (lab1 o pm c e FX j)).
Proof. unfold lab1. rewrite sz_x. apply isvec_vars. Qed.
Lemma lab_v_isvec c e j : o_repr o <> Integral -> Iv (fun i => rho (S1 FV c e j i)) (vars (lab1 o pm c e FV j)).
Proof.
  intros H. unfold lab1. rewrite (sz1_dim1 o m pm FV K). unfold dim1. destruct (o_repr o); [congruence| |]; apply isvec_vars.
Qed.

Lemma values_map f c e j : map rho (lab2 o pm c e f j) = values o m rho f c e j.
Proof.
  unfold values, over_systems, lab2. rewrite concat_map, map_map. rewrite <- (mo_nsys _ _ _ K). f_equal.
  apply map_ext_in. intros s Hs. apply in_seq in Hs. unfold lab2s. rewrite map_map.
  rewrite (fsz_dim2 o m pm f s K) by lia. reflexivity.
Qed.
Lemma lam_vals c e j : map (eval rho) (vars (lab_lam o pm c e j)) = lam_vec o m rho c e j.
Proof. unfold lab_lam, lam_vec. rewrite eval_vars, !map_app, !values_map. reflexivity. Qed.
Lemma theta_vals c e j : map (eval rho) (ex_theta o pm c e j) = theta_vec o m rho c e j.
Proof.
  unfold ex_theta, theta_vec. rewrite !map_app, !eval_vars, !values_map, map_map. do 2 f_equal.
  rewrite <- values_map, map_map. apply map_ext. intros s. cbn. rewrite Q2R_1. reflexivity.
Qed.
Lemma lam0_vals : map (eval rho) (vars (lam0 o pm)) = lam00 o m rho.
Proof.
  unfold lam0, lam00. rewrite eval_vars, !map_app. cbn [map concat]. rewrite app_nil_r.
  assert (E : forall f, map rho (lab0 o pm f) = over_systems m (fun s i => rho (SL00 f s i)) (dim2 o m f)).
  { intros f. unfold over_systems, lab0. rewrite concat_map, map_map, <- (mo_nsys _ _ _ K). f_equal.
    apply map_ext_in. intros s Hs. apply in_seq in Hs. rewrite map_map, (fsz_dim2 o m pm f s K) by lia. reflexivity. }
  rewrite !E. reflexivity.
Qed.

Lemma over_systems_length f d : length (over_systems m f d) = upto (n_subsystems m) d.
Proof.
  unfold over_systems, upto. rewrite length_concat_map.
  induction (seq 0 (n_subsystems m)) as [|a l IH]; cbn; [reflexivity|]. rewrite IH, map_length, seq_length. reflexivity.
Qed.
Lemma lam_len c e j : length (lam_vec o m rho c e j) = n_pairs o m.
Proof. unfold lam_vec, n_pairs, values. rewrite !app_length, !over_systems_length. lia. Qed.
Lemma theta_len c e j : length (theta_vec o m rho c e j) = n_pairs o m.
Proof.
  unfold theta_vec, n_pairs, values. rewrite !app_length, map_length, !over_systems_length.
  assert (Z : forall f, (forall s, dim2 o m f s = 0) -> upto (n_subsystems m) (dim2 o m f) = 0).
  { intros f Hf. unfold upto. induction (seq 0 (n_subsystems m)) as [|a l IH]; cbn; [reflexivity|]. rewrite Hf. exact IH. }
  assert (E : forall f f', (forall s, dim2 o m f s = dim2 o m f' s) ->
     upto (n_subsystems m) (dim2 o m f) = upto (n_subsystems m) (dim2 o m f')).
  { intros f f' Hf. unfold upto. f_equal. apply map_ext. exact Hf. }
  assert (D : forall f s, dim2 o m f s = match o_pss o, f with
     | Stewart, (FTheta | FLam) => n_modes m s | Stewart, FMu => 1 | Step, (FAlpha | FLn | FLp) => n_switch m s | _, _ => 0 end)
    by (intros f s; unfold dim2; destruct (o_pss o), f; reflexivity).
  destruct (o_pss o) eqn:Ep.
  - rewrite (E FTheta FLam), (Z FAlpha), (Z FLn), (Z FLp) by (intros s; rewrite !D; reflexivity). lia.
  - rewrite (E FAlpha FLn), (E FLp FLn), (Z FTheta), (Z FLam) by (intros s; rewrite !D; reflexivity). lia.
Qed.
Lemma lam00_len : length (lam00 o m rho) = n_pairs o m.
Proof. unfold lam00, n_pairs. cbn [map concat]. rewrite !app_length, !over_systems_length. cbn. lia. Qed.
Lemma lam_expr_len c e j : length (vars (lab_lam o pm c e j)) = n_pairs o m.
Proof. rewrite <- (map_length (eval rho)), lam_vals. apply lam_len. Qed.
Lemma theta_expr_len c e j : length (ex_theta o pm c e j) = n_pairs o m.
Proof. rewrite <- (map_length (eval rho)), theta_vals. apply theta_len. Qed.
Lemma lam_val c e j k : val rho (vars (lab_lam o pm c e j)) k = ent (lam_vec o m rho c e j) k.
Proof. rewrite val_map, lam_vals. reflexivity. Qed.
Lemma theta_val c e j k : val rho (ex_theta o pm c e j) k = ent (theta_vec o m rho c e j) k.
Proof. rewrite val_map, theta_vals. reflexivity. Qed.

Lemma nfe_is c nfe : nth_error nfes c = Some nfe -> nfe_of o c = nfe.
Proof. intros H. unfold nfe_of. apply nth_error_nth. exact H. Qed.
Lemma n_mult_is c e nfe : nth_error nfes c = Some nfe -> n_mult o t c e = nbd o t nfe e.
Proof. intros H. unfold n_mult. rewrite (nfe_is c nfe H), <- n2_points2. reflexivity. Qed.
Lemma nbd_pos nfe e : 0 < nbd o t nfe e. Proof. unfold nbd. lia. Qed.

Lemma h_eval c e nfe fe : nth_error nfes c = Some nfe -> ok c e nfe fe -> eval rho (fe_h fe) = step_len o rho c e.
Proof.
  intros Hn Hf. rewrite (ok_h _ _ _ _ _ _ _ _ Hf). unfold step_len. rewrite (nfe_is c nfe Hn).
  destruct (o_use_fesd o); reflexivity.
Qed.

Lemma end_isvec c e : Iv (end_state o t rho c e) (vars (lab1 o pm c e FX (xend_slot o t))).
Proof. eapply isvec_ext; [|apply lab_x_isvec]. intros i Hi. unfold end_state. rewrite <- xend_points. reflexivity. Qed.

(* the element before (or the initial point) *)
Lemma before_prev c e : before o c e = prev_pos nfes c e.
Proof. unfold before, prev_pos, nfe_of. reflexivity. Qed.

Lemma pos_x pos q : is_elem o t pm po pos q -> exists xp, x_last q = Ok xp /\ Iv (state_at o t rho pos) xp.
Proof.
  destruct pos as [[c' e']|]; cbn [is_elem state_at].
  - intros (n & Hn & He & Hf). rewrite (ok_x_last _ _ _ _ _ _ _ _ Hf nx_slots_pos). eexists. split; [reflexivity|].
    apply end_isvec.
  - intros Hf. rewrite (z_xl _ _ _ Hf). eexists. split; [reflexivity|]. unfold labx0.
    replace (m_nx (pm_m pm)) with nx by (symmetry; apply (pm_sizes o m pm K)). apply isvec_vars.
Qed.
Lemma pos_lam pos q : is_elem o t pm po pos q -> exists lp, Lambda q Last = Ok lp /\ length lp = n_pairs o m /\
  forall k, val rho lp k = ent (last_lam o t m rho pos) k.
Proof.
  destruct pos as [[c' e']|]; cbn [is_elem last_lam].
  - intros (n & Hn & He & Hf). rewrite (ok_Lambda_last _ _ _ _ _ _ _ _ Hf (nbd_pos _ _)). eexists. split; [reflexivity|].
    rewrite lam_expr_len. split; [reflexivity|]. intros k. rewrite lam_val, (n_mult_is _ _ _ Hn). reflexivity.
  - intros Hf. rewrite (z_lam _ _ _ Hf). eexists. split; [reflexivity|].
    rewrite <- (map_length (eval rho)), lam0_vals, lam00_len. split; [reflexivity|]. intros k.
    rewrite val_map, lam0_vals. reflexivity.
Qed.

(* sums over the points of an element *)
Lemma len_ind2 c e nfe fe f : ok c e nfe fe -> length (ind2 fe f) = n2 o t nfe e f.
Proof. intros Hf. rewrite <- (map_length (@length _)), (ok_len2 _ _ _ _ _ _ _ _ Hf). apply repeat_length. Qed.
Lemma lambdas_vals c e nfe fe q l : nth_error nfes c = Some nfe -> ok c e nfe fe -> is_elem o t pm po (prev_pos nfes c e) q ->
  get_Lambdas_incl_last_prev_fe fe q = Ok l ->
  Forall (fun v => length v = n_pairs o m) l /\
  forall k, map (fun v => val rho v k) l =
    map (fun jj => ent (lam_vec o m rho c e jj) k) (seq 0 (n_mult o t c e)) ++ [ent (prev_lam o t m rho c e) k].
Proof.
  intros Hn Hf Hq H. unfold get_Lambdas_incl_last_prev_fe in H. rewrite (len_ind2 _ _ _ _ FLam Hf) in H. cbn [n2] in H.
  apply bind_ok in H. destruct H as (l1 & Hl & H). apply bind_ok in H. destruct H as (lp & Hlp & H). injection H as <-.
  rewrite (mapM_Ok_map _ (fun j => vars (lab_lam o pm c e j))) in Hl.
  2:{ intros j Hj. apply in_seq in Hj. apply (ok_Lambda _ _ _ _ _ _ _ _ _ Hf). lia. }
  injection Hl as <-.
  destruct (pos_lam _ _ Hq) as (lp' & E & Ll & Vl). assert (lp' = lp) by congruence. subst lp'. clear E.
  split.
  - apply Forall_app. split; [|constructor; [exact Ll|constructor]]. apply Forall_forall. intros v Hv. apply in_map_iff in Hv.
    destruct Hv as (j & <- & _). apply lam_expr_len.
  - intros k. rewrite map_app, map_map. cbn [map]. rewrite Vl, (n_mult_is c e nfe Hn). unfold prev_lam. rewrite before_prev. f_equal.
    apply map_ext. intros j. apply lam_val.
Qed.
Lemma sum_Lambda_vals c e nfe fe q r : nth_error nfes c = Some nfe -> ok c e nfe fe -> is_elem o t pm po (prev_pos nfes c e) q ->
  sum_Lambda fe q = Ok r -> isvec rho (n_pairs o m) (sum_lam o t m rho c e) r.
Proof.
  intros Hn Hf Hq H. unfold sum_Lambda in H. apply bind_ok in H. destruct H as (l & Hl & H).
  destruct (lambdas_vals c e nfe fe q l Hn Hf Hq Hl) as [A B].
  eapply isvec_ext; [|exact (sum_list_val rho l _ r A H)]. intros k Hk. cbv beta. rewrite B, rsum_app, rsum_cons, rsum_nil. unfold sum_lam, rupto. lra.
Qed.
Lemma sum_Theta_vals c e nfe fe r : ok c e nfe fe -> sum_Theta fe = Ok r -> isvec rho (n_pairs o m) (sum_theta o m rho c e) r.
Proof.
  intros Hf H. unfold sum_Theta in H. rewrite (len_ind2 _ _ _ _ FTheta Hf) in H. cbn [n2] in H.
  apply bind_ok in H. destruct H as (l & Hl & H).
  rewrite (mapM_Ok_map _ (fun j => ex_theta o pm c e j)) in Hl.
  2:{ intros j Hj. apply in_seq in Hj. apply (ok_Theta _ _ _ _ _ _ _ _ _ Hf). lia. }
  injection Hl as <-.
  eapply isvec_ext; [|refine (sum_list_val rho _ (n_pairs o m) r _ H)].
  - intros k Hk. cbv beta. rewrite map_map. unfold sum_theta, rupto. f_equal. apply map_ext. intros j. apply theta_val.
  - apply Forall_forall. intros v Hv. apply in_map_iff in Hv. destruct Hv as (j & <- & _). apply theta_expr_len.
Qed.

(* ---- one element ---- *)
Variables (c e nfe : nat) (q : felem).
Hypothesis Hn : nth_error nfes c = Some nfe.
Hypothesis He : e < nfe.
Hypothesis Hq : is_elem o t pm po (prev_pos nfes c e) q.
Notation okk := (ok c e nfe).
Notation hh := (step_len o rho c e).
Notation start := (start_state o t rho c e).
Notation U := (vars (ulab pm c)).
Notation PP := (vars (pst pm c)).
Notation spt := (stage_point o t m rho c e).
Notation sst := (stage_state o t rho c e).
Ltac cmp := first [apply and_iff_compat_l | apply and_iffm_compat_l].
Ltac itauto := first [tauto | apply iff_iffm; tauto | unfold iffm; tauto].
Notation "A <~> B" := (iffm o A B) (at level 95, no associativity).
Notation Sat fe := (sat_cons rho (fo fe)).

Lemma prev_x : exists xp, x_last q = Ok xp /\ Iv start xp.
Proof. unfold start_state. rewrite before_prev. apply pos_x, Hq. Qed.
Lemma prev_l : exists lp, Lambda q Last = Ok lp /\ length lp = n_pairs o m /\
  forall k, val rho lp k = ent (prev_lam o t m rho c e) k.
Proof. unfold prev_lam. rewrite before_prev. apply pos_lam, Hq. Qed.

Lemma nthE_entry (M : list (list Q)) i j row a e1 e2 : nthE e1 M i = Ok row -> nthE e2 row j = Ok a -> entryQ M i j = Q2R a.
Proof.
  intros H1 H2. apply nthE_ok in H1. apply nthE_ok in H2. unfold entryQ.
  rewrite (nth_error_nth _ _ _ H1), (nth_error_nth _ _ _ H2). reflexivity.
Qed.
Lemma nthE_entry1 (M : list Q) j a e2 : nthE e2 M j = Ok a -> entry1 M j = Q2R a.
Proof. intros H2. apply nthE_ok in H2. unfold entry1. rewrite (nth_error_nth _ _ _ H2). reflexivity. Qed.

Lemma sel_x fe j xi x : okk fe -> j < nx_slots o t -> nthE EIndexError (ind1 fe FX) j = Ok xi -> fe_sel fe xi = Ok x ->
  x = vars (lab1 o pm c e FX j).
Proof.
  intros Hf Hj H1 H2. apply nthE_ok in H1.
  destruct (ok_sel1 o t pm po c e nfe fe FX j Hf Hj) as (idx & E1 & E2). assert (xi = idx) by congruence. subst. congruence.
Qed.
Lemma sel_v fe j xi x : okk fe -> j < ns -> nthE EIndexError (ind1 fe FV) j = Ok xi -> fe_sel fe xi = Ok x ->
  x = vars (lab1 o pm c e FV j).
Proof.
  intros Hf Hj H1 H2. apply nthE_ok in H1.
  destruct (ok_sel1 o t pm po c e nfe fe FV j Hf Hj) as (idx & E1 & E2). assert (xi = idx) by congruence. subst. congruence.
Qed.

Definition rk_state (j i : nat) : R :=
  (start i + hh * rupto ns (fun r => entryQ (t_A t) j r * slope rho c e r i))%R.

Lemma x_temp_isvec fe j xt : o_repr o <> Integral -> okk fe -> x_temp o t fe q j = Ok xt -> Iv (rk_state j) xt.
Proof.
  intros HR Hf H. unfold x_temp in H. apply bind_ok in H. destruct H as (x0 & Hx0 & H).
  destruct prev_x as (xp & Exp & Ixp). assert (x0 = xp) by congruence. subst x0.
  apply bind_ok in H. destruct H as (Aj & HA & H).
  eapply isvec_ext; [|eapply (foldM_isvec rho nx _ (fun r i => hh * (entryQ (t_A t) j r * slope rho c e r i))%R); [|exact Ixp|exact H]].
  - intros i Hi. cbv beta. unfold rk_state. f_equal. rewrite (rsum_seq (fun r => _)). apply rupto_scale.
  - intros r acc acc' y Hr Hy Hs. apply in_seq in Hr.
    apply bind_ok in Hs. destruct Hs as (a & Ha & Hs). apply bind_ok in Hs. destruct Hs as (vi & Hvi & Hs).
    apply bind_ok in Hs. destruct Hs as (vv & Hvv & Hs).
    rewrite (sel_v fe r vi vv Hf ltac:(lia) Hvi Hvv) in Hs.
    pose proof (isvec_vscale _ _ (EBin BMul (fe_h fe) (ECst a)) _ _ (lab_v_isvec c e r HR)) as Iv1.
    eapply isvec_ext; [|exact (isvec_vbin _ _ BAdd _ _ _ _ _ Hy Iv1 Hs)].
    intros i Hi. cbn [eval_bin eval]. rewrite (h_eval c e nfe fe Hn Hf), (nthE_entry _ _ _ _ _ _ _ HA Ha). unfold slope. lra.
Qed.

(* states at the stages, and at the last point *)
Lemma X_fe_vals fe Xf : okk fe -> X_fe o t fe q = Ok Xf ->
  (forall j, j < ns -> exists xj, nth_error Xf j = Some xj /\ Iv (sst j) xj) /\
  (exists xl, nth_error Xf (ns + (if t_rbe t then 0 else 1) - 1) = Some xl /\ Iv (final_state o t rho c e) xl).
Proof.
  intros Hf H. unfold stage_state, final_state.
  destruct (o_repr o) eqn:ER.
  2:{ (* differential *)
    unfold X_fe in H. rewrite ER in H. apply bind_ok in H. destruct H as (l & Hl & H). apply bind_ok in H. destruct H as (xe & Hxe & H).
    injection H as <-. rewrite (ok_x_last _ _ _ _ _ _ _ _ Hf nx_slots_pos) in Hxe. injection Hxe as <-.
    pose proof (mapM_length _ _ _ Hl) as Ll. rewrite seq_length in Ll.
    assert (HS : forall j, j < ns -> exists xj, nth_error (l ++ [vars (lab1 o pm c e FX (xend_slot o t))]) j = Some xj /\ Iv (rk_state j) xj).
    { intros j Hj. destruct (mapM_nth _ _ _ j j Hl (nth_error_seq 0 ns j Hj)) as (b & Hb & Hx).
      exists b. split; [rewrite nth_error_app1 by lia; exact Hb|]. eapply x_temp_isvec; eauto. congruence. }
    split; [exact HS|]. destruct (t_rbe t).
    - rewrite Nat.add_0_r. destruct (HS (ns - 1) ltac:(lia)) as (xl & E & I1). exists xl. split; [exact E|].
      unfold stage_state. rewrite ER. exact I1.
    - replace (ns + 1 - 1) with (length l) by lia. eexists. split; [apply nth_error_snoc|]. apply end_isvec. }
  all: rewrite (ok_Xf_lifted o t pm po c e nfe fe Hf) in H by congruence; injection H as <-.
  all: assert (HN : forall j, j < nx_slots o t -> nth_error (map (fun j => vars (lab1 o pm c e FX j)) (seq 0 (nx_slots o t))) j =
        Some (vars (lab1 o pm c e FX j)))
      by (intros j Hj; rewrite nth_error_map, nth_error_seq by assumption; reflexivity).
  all: assert (HN2 : nx_slots o t = ns + (if t_rbe t then 0 else 1)) by (unfold nx_slots; rewrite ER; destruct (t_rbe t); lia).
  all: split.
  - intros j Hj. eexists. split; [apply HN; lia|apply lab_x_isvec].
  - eexists. split; [apply HN; lia|]. destruct (t_rbe t) eqn:Er.
    + rewrite Nat.add_0_r. unfold stage_state. rewrite ER. apply lab_x_isvec.
    + replace (ns + 1 - 1) with (xend_slot o t) by (unfold xend_slot; rewrite HN2, ?Er; reflexivity). apply end_isvec.
  - intros j Hj. eexists. split; [apply HN; lia|apply lab_x_isvec].
  - eexists. split; [apply HN; lia|]. destruct (t_rbe t) eqn:Er.
    + rewrite Nat.add_0_r. unfold stage_state. rewrite ER. apply lab_x_isvec.
    + replace (ns + 1 - 1) with (xend_slot o t) by (unfold xend_slot; rewrite HN2, ?Er; reflexivity). apply end_isvec.
Qed.

Lemma sat_with_fo fe f : sat_cons rho (fo (with_fo fe f)) = sat_cons rho f. Proof. reflexivity. Qed.
Lemma sat_add_cost f x : sat_cons rho (add_cost f x) <-> sat_cons rho f. Proof. reflexivity. Qed.

(* lifting constraints *)
Definition lift_ok (j : nat) : Prop := forall i, i < nx -> rho (S1 FX c e j i) = rk_state j i.
Lemma lift_sat fe fe' : o_repr o = DifferentialLiftX -> okk fe -> lift_constraints o t fe q = Ok fe' ->
  (Sat fe' <~> Sat fe /\ forall j, j < ns -> lift_ok j) /\ cost (fo fe') = cost (fo fe).
Proof.
  intros ER Hf H. unfold lift_constraints in H.
  set (I := fun k x => okk x /\ (Sat x <~> Sat fe /\ forall j, j < k -> lift_ok j) /\ cost (fo x) = cost (fo fe)).
  assert (G : I ns fe'); [|destruct G as (_ & G); exact G].
  refine (foldM_seq0 _ I ns fe fe' _ _ H).
  - intros k s s' Hk (Hs & HS & HC) Hstep.
    apply bind_ok in Hstep. destruct Hstep as (xt & Hxt & Hstep). apply bind_ok in Hstep. destruct Hstep as (xi & Hxi & Hstep).
    apply bind_ok in Hstep. destruct Hstep as (x & Hx & Hstep). apply bind_ok in Hstep. destruct Hstep as (ee & Hee & Hstep).
    apply bind_ok in Hstep. destruct Hstep as (f' & Hf' & Hstep). injection Hstep as <-.
    assert (Hkx : k < nx_slots o t). { unfold nx_slots. rewrite ER. destruct (t_rbe t); lia. }
    rewrite (sel_x s k xi x Hs Hkx Hxi Hx) in Hee.
    pose proof (x_temp_isvec s k xt ltac:(congruence) Hs Hxt) as It.
    pose proof (isvec_vbin _ _ BSub _ _ _ _ _ (lab_x_isvec c e k) It Hee) as Ie.
    split; [|split].
    + eapply fe_ok_le; [exact Hs|]. apply (fe_add_constraint_le _ _ _ _ _ _ Hf').
    + rewrite sat_with_fo, (add_constraint_vec_sat rho _ _ _ _ _ (ok_wf _ _ _ _ _ _ _ _ Hs) Ie Hf'), HS.
      rewrite (below_S lift_ok). unfold lift_ok at 3. cbn [eval_bin].
      assert (E : (forall i, i < nx -> (rho (S1 FX c e k i) - rk_state k i)%R = 0%R) <-> forall i, i < nx -> rho (S1 FX c e k i) = rk_state k i).
      { split; intros G i Hi; specialize (G i Hi); lra. }
      rewrite E. itauto.
    + cbn. rewrite (add_constraint_cost _ _ _ _ _ Hf'). exact HC.
  - split; [exact Hf|]. split; [|reflexivity]. split; [intros G; split; [exact G|intros; lia]|itauto].
Qed.

(* ---- RK stages ---- *)
Definition alg (j : nat) : Prop := switching_ok o m (spt j) /\ convex_ok o m (spt j) /\ user_ok m (spt j).
Definition rk_rhs (j i : nat) : R := (speed o rho c * rhs o m (spt j) i)%R.
Definition coll (j : nat) : Prop := forall i, i < nx ->
  match o_repr o with
  | Integral => (hh * rk_rhs j i)%R =
      (entryQ (t_C t) 0 (j + 1) * start i + rupto ns (fun r => entryQ (t_C t) (r + 1) (j + 1) * rho (S1 FX c e r i)))%R
  | _ => slope rho c e j i = rk_rhs j i
  end.
Definition xend_term (j i : nat) : R :=
  match o_repr o with
  | Integral => (entry1 (t_D t) (j + 1) * rho (S1 FX c e j i))%R
  | _ => (hh * (entry1 (t_b t) j * slope rho c e j i))%R
  end.
Definition cost_term (j : nat) : R := (quad_weight o t j * hh * (speed o rho c * eval (spt j) (oc_fq oc)))%R.

Lemma sot_eval : o_sot o <> SotGlobal -> eval rho (sotex o c) = speed o rho c.
Proof. unfold sotex, speed. destruct (o_sot o); cbn; intros; try reflexivity; apply Q2R_1. Qed.

Hypothesis Hsot : o_sot o <> SotGlobal.

Lemma fs_stage_sem Xf fe X j fe' X' x0 :
  (forall j, j < ns -> exists xj, nth_error Xf j = Some xj /\ Iv (sst j) xj) ->
  okk fe -> j < ns -> Iv x0 X ->
  fs_stage o t pm po q U (sotex o c) Xf (fe, X) j = Ok (fe', X') ->
  (Sat fe' <~> Sat fe /\ alg j /\ coll j) /\ Iv (fun i => (x0 i + xend_term j i)%R) X' /\
  eval rho (cost (fo fe')) = (eval rho (cost (fo fe)) + cost_term j)%R.
Proof.
  intros HX Hf Hj HX0 H. pose proof H as HLE. apply fs_stage_le in HLE. unfold fs_stage in H. cbv zeta in H.
  rewrite (ok_ctrl _ _ _ _ _ _ _ _ Hf) in H.
  apply bind_ok in H. destruct H as (xj & Hxj & H). apply nthE_ok in Hxj.
  destruct (HX j Hj) as (xj' & E & Ij). assert (xj' = xj) by congruence. subst xj'. clear E.
  apply bind_ok in H. destruct H as (zj & Hzj & H).
  rewrite (ok_rk_stage_z o t pm po c e nfe fe j Hf Hj) in Hzj. injection Hzj as <-. rewrite lab_z_zz in H.
  apply bind_ok in H. destruct H as (f0 & Hf0 & H). apply bind_ok in H. destruct H as (q0 & Hq0 & H).
  apply bind_ok in H. destruct H as (q1 & Hq1 & H). apply head1_ok in Hq1. subst q0.
  apply bind_ok in H. destruct H as (gj & Hgj & H). apply bind_ok in H. destruct H as (f1 & Hf1 & H).
  pose proof (fx_call o m pm rho K WS c e j (fun _ => j) (sst j) xj Ij _ Hf0) as If0.
  pose proof (gz_call o m pm rho K WS c e j (fun _ => j) (sst j) xj Ij _ Hgj) as Ig.
  pose proof (fq_call o m pm rho K c e oc po KO j (fun _ => j) (sst j) xj Ij _ Hq0) as Eq.
  change (at_point m rho c e j (fun _ => j) (sst j)) with (spt j) in *.
  pose proof (isvec_vscale _ _ (sotex o c) _ _ If0) as Ifj. rewrite (sot_eval Hsot) in Ifj.
  assert (S1' : sat_cons rho f1 <~> Sat fe /\ alg j).
  { rewrite (add_constraint_eq_sat rho _ _ _ (ok_wf _ _ _ _ _ _ _ _ Hf) Hf1), Ig. reflexivity. }
  pose proof (add_constraint_wf _ _ _ _ _ (ok_wf _ _ _ _ _ _ _ _ Hf) Hf1) as W1.
  pose proof (add_constraint_cost _ _ _ _ _ Hf1) as C1.
  assert (HE := h_eval c e nfe fe Hn Hf).
  unfold coll, xend_term, cost_term, quad_weight. destruct (o_repr o) eqn:ER.
  - apply bind_ok in H. destruct H as (C0 & HC0 & H). apply bind_ok in H. destruct H as (c0j & Hc0j & H).
    apply bind_ok in H. destruct H as (xp & Hxp & H). apply bind_ok in H. destruct H as (xc & Hxc & H).
    apply bind_ok in H. destruct H as (dj & Hdj & H). apply bind_ok in H. destruct H as (Xk & HXk & H).
    apply bind_ok in H. destruct H as (cc & Hcc & H). apply bind_ok in H. destruct H as (f2 & Hf2 & H).
    apply bind_ok in H. destruct H as (bj & Hbj & H). injection H as <- <-.
    destruct prev_x as (xp' & E & Ixp). assert (xp' = xp) by congruence. subst xp'. clear E.
    assert (Ixc : Iv (fun i => (entryQ (t_C t) 0 (j + 1) * start i + rupto ns (fun r => entryQ (t_C t) (r + 1) (j + 1) * rho (S1 FX c e r i)))%R) xc).
    { refine (foldM_isvec rho nx _ (fun r i => entryQ (t_C t) (r + 1) (j + 1) * rho (S1 FX c e r i))%R _ _
               (fun i => (entryQ (t_C t) 0 (j + 1) * start i)%R) _ _ _ Hxc).
      - intros r acc acc' y Hr Hy Hs. apply in_seq in Hr.
        apply bind_ok in Hs. destruct Hs as (Cr & HCr & Hs). apply bind_ok in Hs. destruct Hs as (cr & Hcr & Hs).
        apply bind_ok in Hs. destruct Hs as (xr & Hxr & Hs). apply nthE_ok in Hxr.
        destruct (HX r ltac:(lia)) as (xr' & E & Ir). assert (xr' = xr) by congruence. subst xr'. clear E.
        eapply isvec_ext; [|exact (isvec_vbin _ _ BAdd _ _ _ _ _ Hy (isvec_vscale _ _ (ECst cr) _ _ Ir) Hs)].
        intros i Hi. cbn [eval_bin eval]. rewrite (nthE_entry _ _ _ _ _ _ _ HCr Hcr). unfold stage_state. rewrite ER. reflexivity.
      - eapply isvec_ext; [|exact (isvec_vscale _ _ (ECst c0j) _ _ Ixp)]. intros i Hi. cbn [eval].
        rewrite (nthE_entry _ _ _ _ _ _ _ HC0 Hc0j). reflexivity. }
    pose proof (isvec_vbin _ _ BSub _ _ _ _ _ (isvec_vscale _ _ (fe_h fe) _ _ Ifj) Ixc Hcc) as Icc.
    split; [|split].
    + rewrite sat_with_fo, sat_add_cost, (add_constraint_vec_sat rho _ _ _ _ _ W1 Icc Hf2), S1', and_assoc.
      cmp; cmp. cbn [eval_bin]. rewrite HE. unfold rk_rhs.
      split; intros G i Hi; specialize (G i Hi); lra.
    + eapply isvec_ext; [|exact (isvec_vbin _ _ BAdd _ _ _ _ _ HX0 (isvec_vscale _ _ (ECst dj) _ _ Ij) HXk)].
      intros i Hi. cbn [eval_bin eval]. rewrite (nthE_entry1 _ _ _ _ Hdj). unfold stage_state. rewrite ER. reflexivity.
    + cbn [fo with_fo add_cost cost eval eval_bin]. rewrite (add_constraint_cost _ _ _ _ _ Hf2), C1, HE, (sot_eval Hsot), Eq,
        (nthE_entry1 _ _ _ _ Hbj). reflexivity.
  - apply bind_ok in H. destruct H as (bj & Hbj & H). apply bind_ok in H. destruct H as (vi & Hvi & H).
    apply bind_ok in H. destruct H as (vv & Hvv & H). apply bind_ok in H. destruct H as (Xk & HXk & H).
    apply bind_ok in H. destruct H as (cc & Hcc & H). apply bind_ok in H. destruct H as (f2 & Hf2 & H). injection H as <- <-.
    rewrite (sel_v fe j vi vv Hf Hj Hvi Hvv) in *.
    assert (Ivj := lab_v_isvec c e j ltac:(congruence)).
    pose proof (isvec_vbin _ _ BSub _ _ _ _ _ Ifj Ivj Hcc) as Icc.
    split; [|split].
    + rewrite sat_with_fo, sat_add_cost, (add_constraint_vec_sat rho _ _ _ _ _ W1 Icc Hf2), S1', and_assoc.
      cmp; cmp. cbn [eval_bin]. unfold rk_rhs, slope.
      split; intros G i Hi; specialize (G i Hi); lra.
    + eapply isvec_ext; [|exact (isvec_vbin _ _ BAdd _ _ _ _ _ HX0 (isvec_vscale _ _ (EBin BMul (fe_h fe) (ECst bj)) _ _ Ivj) HXk)].
      intros i Hi. cbn [eval_bin eval]. rewrite (nthE_entry1 _ _ _ _ Hbj), HE. unfold slope. lra.
    + cbn [fo with_fo add_cost cost eval eval_bin]. rewrite (add_constraint_cost _ _ _ _ _ Hf2), C1, HE, (sot_eval Hsot), Eq,
        (nthE_entry1 _ _ _ _ Hbj). reflexivity.
  - apply bind_ok in H. destruct H as (bj & Hbj & H). apply bind_ok in H. destruct H as (vi & Hvi & H).
    apply bind_ok in H. destruct H as (vv & Hvv & H). apply bind_ok in H. destruct H as (Xk & HXk & H).
    apply bind_ok in H. destruct H as (cc & Hcc & H). apply bind_ok in H. destruct H as (f2 & Hf2 & H). injection H as <- <-.
    rewrite (sel_v fe j vi vv Hf Hj Hvi Hvv) in *.
    assert (Ivj := lab_v_isvec c e j ltac:(congruence)).
    pose proof (isvec_vbin _ _ BSub _ _ _ _ _ Ifj Ivj Hcc) as Icc.
    split; [|split].
    + rewrite sat_with_fo, sat_add_cost, (add_constraint_vec_sat rho _ _ _ _ _ W1 Icc Hf2), S1', and_assoc.
      cmp; cmp. cbn [eval_bin]. unfold rk_rhs, slope.
      split; intros G i Hi; specialize (G i Hi); lra.
    + eapply isvec_ext; [|exact (isvec_vbin _ _ BAdd _ _ _ _ _ HX0 (isvec_vscale _ _ (EBin BMul (fe_h fe) (ECst bj)) _ _ Ivj) HXk)].
      intros i Hi. cbn [eval_bin eval]. rewrite (nthE_entry1 _ _ _ _ Hbj), HE. unfold slope. lra.
    + cbn [fo with_fo add_cost cost eval eval_bin]. rewrite (add_constraint_cost _ _ _ _ _ Hf2), C1, HE, (sot_eval Hsot), Eq,
        (nthE_entry1 _ _ _ _ Hbj). reflexivity.
Qed.

Lemma fs_stages_sem Xf fe X fe' X' x0 :
  (forall j, j < ns -> exists xj, nth_error Xf j = Some xj /\ Iv (sst j) xj) -> okk fe -> Iv x0 X ->
  foldM (fs_stage o t pm po q U (sotex o c) Xf) (seq 0 ns) (fe, X) = Ok (fe', X') ->
  (Sat fe' <~> Sat fe /\ forall j, j < ns -> alg j /\ coll j) /\
  Iv (fun i => (x0 i + rupto ns (fun j => xend_term j i))%R) X' /\
  eval rho (cost (fo fe')) = (eval rho (cost (fo fe)) + rupto ns cost_term)%R.
Proof.
  intros HX Hf HX0 H.
  set (I := fun k (a : felem * list expr) => okk (fst a) /\ (Sat (fst a) <~> Sat fe /\ forall j, j < k -> alg j /\ coll j) /\
    Iv (fun i => (x0 i + rupto k (fun j => xend_term j i))%R) (snd a) /\
    eval rho (cost (fo (fst a))) = (eval rho (cost (fo fe)) + rupto k cost_term)%R).
  assert (G : I ns (fe', X')); [|destruct G as (_ & G); exact G].
  refine (foldM_seq0 _ I ns (fe, X) (fe', X') _ _ H).
  - intros k [s Xs] [s' Xs'] Hk (Hs & HS & HXs & HC) Hstep. cbn [fst snd] in *.
    destruct (fs_stage_sem Xf s Xs k s' Xs' _ HX Hs Hk HXs Hstep) as (A1 & A2 & A3).
    split; [|split; [|split]]; cbn [fst snd].
    + eapply fe_ok_le; [exact Hs|]. eapply fs_stage_le; exact Hstep.
    + rewrite A1, HS, (below_S (fun j => alg j /\ coll j)). itauto.
    + eapply isvec_ext; [|exact A2]. intros i Hi. cbv beta. rewrite rupto_S. lra.
    + rewrite A3, HC, rupto_S. lra.
  - split; [exact Hf|]. cbn [fst snd]. split; [|split].
    + split; [intros G; split; [exact G|intros; lia]|itauto].
    + eapply isvec_ext; [|exact HX0]. intros i Hi. cbv beta. rewrite rupto_0. lra.
    + rewrite rupto_0. lra.
Qed.

(* ---- path constraints ---- *)
Definition path_at (x : nat -> R) : Prop := path_holds m oc rho c x.
Lemma plain_same x jz jf y : (forall s, In s (fv y) -> In s (concat [mx m; mu_ m; mp m; mvg m])) ->
  eval (at_point m rho c e jz jf x) y = eval (plain_point m rho c x) y.
Proof.
  intros H. apply eval_ext. intros s Hs. specialize (H s Hs). cbn [concat] in H. rewrite app_nil_r, !in_app_iff in H.
  unfold mp in H. rewrite in_app_iff in H. unfold mx, mu_, mpt, mpg, mvg in H. rewrite !in_map_iff in H.
  destruct H as [(i & <- & _)|[(i & <- & _)|[[(i & <- & _)|(i & <- & _)]|(i & <- & _)]]]; reflexivity.
Qed.
Lemma gpath_sem Xf fe j fe' x xj : okk fe -> nth_error Xf j = Some xj -> Iv x xj ->
  gpath pm po Xf U PP fe j = Ok fe' ->
  (Sat fe' <~> Sat fe /\ path_at x) /\ cost (fo fe') = cost (fo fe) /\ okk fe'.
Proof.
  intros Hf Hj Hx H. pose proof (gpath_le o _ _ _ _ _ _ _ _ H) as LE. unfold gpath in H.
  apply bind_ok in H. destruct H as (xx & Hxx & H). apply nthE_ok in Hxx. assert (xx = xj) by congruence. subst xx.
  apply bind_ok in H. destruct H as (gq & Hgq & H). apply bind_ok in H. destruct H as (f' & Hf' & H). injection H as <-.
  pose proof (gpath_call o m pm rho K c e oc po KO 0 (fun _ => 0) x xj Hx _ Hgq) as V.
  split; [|split].
  - rewrite sat_with_fo, (add_constraint_sat rho _ _ _ _ _ (ok_wf _ _ _ _ _ _ _ _ Hf) Hf'). cmp.
    cbn [bnd_or_zero]. unfold path_at, path_holds.
    destruct (po_bnds _ _ _ KO) as (El & Eu & _). destruct (po_glen _ _ _ KO) as [Ll Lu].
    assert (EG : forall l : option (list ext), given l (length (oc_g_path oc)) (Fin 0) = match l with Some v => v | None => repeat (Fin 0) (length (oc_g_path oc)) end).
    { intros [l|]; reflexivity. }
    rewrite !EG, <- El, <- Eu.
    assert (EV : forall i y, nth_error gq i = Some y -> eval rho y = eval (plain_point m rho c x) (nth i (oc_g_path oc) (ECst 0))).
    { intros i y Hy. destruct (Forall2_nth_r _ _ _ _ _ V Hy) as (a & Ha & ->). rewrite (nth_error_nth _ _ _ Ha).
      apply plain_same. pose proof (po_gp _ _ _ KO) as M. destruct (pm_syms o m pm K) as (E1 & E2 & _ & E4 & _ & _ & E7).
      rewrite E1, E2, E4, E7 in M. apply mkfun_ok in M. destruct M as [_ M]. intros s Hs. eapply M; [|exact Hs].
      eapply nth_error_In; exact Ha. }
    pose proof (Forall2_length _ _ _ V) as LV. split.
    + intros G i Hi. destruct (nth_error_lt gq i ltac:(lia)) as [y Hy].
      destruct (nth_error_lt (po_lbg po) i ltac:(lia)) as [l Hl]. destruct (nth_error_lt (po_ubg po) i ltac:(lia)) as [u Hu].
      rewrite (nth_error_nth _ _ _ Hl), (nth_error_nth _ _ _ Hu), <- (EV _ _ Hy). apply within_in_bnds. eapply G; eauto.
    + intros G i y l u Hy Hl Hu. pose proof (nth_error_Some_lt _ _ _ Hy) as Li. specialize (G i ltac:(lia)).
      rewrite (nth_error_nth _ _ _ Hl), (nth_error_nth _ _ _ Hu), <- (EV _ _ Hy) in G. apply within_in_bnds in G. exact G.
  - cbn. apply (add_constraint_cost _ _ _ _ _ Hf').
  - eapply fe_ok_le; eauto.
Qed.

Lemma forward_simulation_sem fe fe' : okk fe ->
  forward_simulation o t pm po nfe q U (sotex o c) fe = Ok fe' ->
  (Sat fe' <~> Sat fe /\ stage_algebra o t m rho c e /\ collocation o t m rho c e /\ continuity o t m rho c e /\
     path_ok o t m oc rho c e /\ boundary_ok o t m rho c e) /\
  eval rho (cost (fo fe')) = (eval rho (cost (fo fe)) + stage_cost o t m oc rho c e)%R /\ okk fe'.
Proof.
  intros Hf H. apply forward_simulation_parts in H.
  destruct (fp_ex _ _ _ _ _ _ _ _ _ _ H) as (Xf & xp & fe0 & X0 & fe1 & X1 & fe2 & fe3 & fe4 & HP). cbv zeta in HP.
  rewrite (ok_ctrl _ _ _ _ _ _ _ _ Hf), (ok_idx _ _ _ _ _ _ _ _ Hf) in HP.
  destruct HP as (HXf & Hxp & Hinit & L0 & HF & L1 & H2 & L2 & H3 & L3 & H4 & L4 & H5 & L5).
  destruct (X_fe_vals fe Xf Hf HXf) as [HX HXl].
  destruct prev_x as (xp' & E & Ixp). assert (xp' = xp) by congruence. subst xp'. clear E.
  assert (O0 : okk fe0) by (eapply fe_ok_le; eauto). assert (O1 : okk fe1) by (eapply fe_ok_le; eauto).
  assert (O2 : okk fe2) by (eapply fe_ok_le; eauto). assert (O3 : okk fe3) by (eapply fe_ok_le; eauto).
  assert (O4 : okk fe4) by (eapply fe_ok_le; eauto). assert (O5 : okk fe') by (eapply fe_ok_le; eauto).
  (* start *)
  set (x0 := fun i => match o_repr o with Integral => (entry1 (t_D t) 0 * start i)%R | _ => start i end).
  assert (G0 : Iv x0 X0 /\ (Sat fe0 <~> Sat fe /\ (o_repr o = DifferentialLiftX -> forall j, j < ns -> lift_ok j)) /\
               cost (fo fe0) = cost (fo fe)).
  { unfold x0. destruct (o_repr o) eqn:ER.
    - destruct Hinit as (-> & d0 & Hd & ->). split; [|split; [|reflexivity]].
      + eapply isvec_ext; [|exact (isvec_vscale _ _ (ECst d0) _ _ Ixp)]. intros i Hi. cbn. unfold entry1.
        rewrite (nth_error_nth _ _ _ Hd). reflexivity.
      + split; [intros G; split; [exact G|discriminate]|itauto].
    - destruct Hinit as (-> & ->). split; [exact Ixp|]. split; [|reflexivity]. split; [intros G; split; [exact G|discriminate]|itauto].
    - destruct Hinit as (HL & ->). destruct (lift_sat fe fe0 ER Hf HL) as [A B]. split; [exact Ixp|]. split; [|exact B].
      rewrite A. apply iff_iffm. split; [intros [G1 G2]; split; [exact G1|intros _; exact G2]|intros [G1 G2]; split; [exact G1|apply G2; reflexivity]]. }
  destruct G0 as (I0 & S0 & C0).
  destruct (fs_stages_sem Xf fe0 X0 fe1 X1 x0 HX O0 I0 HF) as (S1' & I1 & C1).
  (* continuity *)
  assert (S2' : (Sat fe2 <~> Sat fe1 /\ continuity o t m rho c e) /\ cost (fo fe2) = cost (fo fe1)).
  { unfold continuity. unfold has_xend in H2. destruct (negb (t_rbe t) || _) eqn:EX.
    - destruct H2 as (xe & ee & f' & Hxe & Hee & Hf' & ->). rewrite (ok_x_last _ _ _ _ _ _ _ _ O1 nx_slots_pos) in Hxe. injection Hxe as <-.
      pose proof (isvec_vbin _ _ BSub _ _ _ _ _ I1 (lab_x_isvec c e (xend_slot o t)) Hee) as Ie.
      split; [|cbn; apply (add_constraint_cost _ _ _ _ _ Hf')].
      rewrite sat_with_fo, (add_constraint_vec_sat rho _ _ _ _ _ (ok_wf _ _ _ _ _ _ _ _ O1) Ie Hf'). cmp.
      assert (HC : t_rbe t = false \/ o_repr o = Differential).
      { destruct (t_rbe t); [right|left; reflexivity]. destruct (o_repr o); [discriminate|reflexivity|discriminate]. }
      cbn [eval_bin]. unfold end_state. rewrite <- xend_points. unfold x0, xend_term.
      split.
      + intros G _ i Hi. specialize (G i Hi). destruct (o_repr o); rewrite ?rupto_scale in G; lra.
      + intros G i Hi. specialize (G HC i Hi). destruct (o_repr o); rewrite ?rupto_scale; lra.
    - subst fe2. split; [|reflexivity]. split; [intros G; split; [exact G|]|itauto].
      intros [HC|HC]; exfalso; [rewrite HC in EX; discriminate|]. rewrite HC, orb_true_r in EX. discriminate. }
  destruct S2' as [S2' C2].
  (* path constraint at the end *)
  assert (S3 : (Sat fe3 <~> Sat fe2 /\ ((e + 1)%nat = nfe_of o c \/ o_g_path_at_fe o = true -> path_at (final_state o t rho c e))) /\
               cost (fo fe3) = cost (fo fe2)).
  { rewrite (nfe_is c nfe Hn). destruct HXl as (xl & Hxl & Ixl). destruct ((e =? nfe - 1) || o_g_path_at_fe o) eqn:EP.
    - destruct (gpath_sem Xf fe2 _ fe3 _ xl O2 Hxl Ixl H3) as (A & B & _). split; [|exact B]. rewrite A.
      cmp. split; [auto|]. intros G. apply G. apply orb_true_iff in EP. rewrite Nat.eqb_eq in EP.
      destruct EP; [left; lia|right; assumption].
    - subst fe3. split; [|reflexivity]. split; [intros G; split; [exact G|]|itauto].
      apply orb_false_iff in EP. rewrite Nat.eqb_neq in EP. intros [G1|G1]; exfalso; [lia|]. destruct EP; congruence. }
  destruct S3 as [S3 C3].
  (* path constraints at the stages *)
  assert (S4 : (Sat fe4 <~> Sat fe3 /\ (o_g_path_at_stg o = true -> forall j, j < ns - (if t_rbe t then 1 else 0) -> path_at (sst j))) /\
               cost (fo fe4) = cost (fo fe3)).
  { destruct (o_g_path_at_stg o).
    - set (n' := ns - (if t_rbe t then 1 else 0)) in *.
      set (I := fun k x => okk x /\ (Sat x <~> Sat fe3 /\ forall j, j < k -> path_at (sst j)) /\ cost (fo x) = cost (fo fe3)).
      assert (G : I n' fe4).
      { refine (foldM_seq0 _ I n' fe3 fe4 _ _ H4).
        - intros k s s' Hk (Os & Ss & Cs) Hs. destruct (HX k ltac:(lia)) as (xk & Hxk & Ixk).
          destruct (gpath_sem Xf s k s' _ xk Os Hxk Ixk Hs) as (A & B & D). split; [exact D|]. split; [|congruence].
          rewrite A, Ss, (below_S (fun j => path_at (sst j))). itauto.
        - split; [exact O3|]. split; [|reflexivity]. split; [intros G; split; [exact G|intros; lia]|itauto]. }
      destruct G as (_ & G1 & G2). split; [|exact G2]. rewrite G1. apply iff_iffm.
      split; [intros [A B]; split; [exact A|intros _; exact B]|intros [A B]; split; [exact A|apply B; reflexivity]].
    - subst fe4. split; [|reflexivity]. split; [intros G; split; [exact G|discriminate]|itauto]. }
  destruct S4 as [S4 C4].
  (* boundary *)
  assert (S5 : (Sat fe' <~> Sat fe4 /\ boundary_ok o t m rho c e) /\ cost (fo fe') = cost (fo fe4)).
  { unfold boundary_ok. destruct (negb (t_rbe t) && o_use_fesd o) eqn:EB.
    - destruct H5 as (xe & z & gs & f' & Hxe & Hz & Hgs & Hf' & ->).
      rewrite (ok_x_last _ _ _ _ _ _ _ _ O4 nx_slots_pos) in Hxe. injection Hxe as <-.
      rewrite (ok_rk_stage_z_last _ _ _ _ _ _ _ _ O4 Hns) in Hz. injection Hz as <-.
      split; [|cbn; apply (add_constraint_cost _ _ _ _ _ Hf')].
      rewrite sat_with_fo, (add_constraint_eq_sat rho _ _ _ (ok_wf _ _ _ _ _ _ _ _ O4) Hf'). cmp.
      assert (EZ : lab2 o pm c e FTheta (ns - 1) ++ lab2 o pm c e FLam (nbd o t nfe e - 1) ++ lab2 o pm c e FMu (nbd o t nfe e - 1)
        ++ lab2 o pm c e FAlpha (ns - 1) ++ lab2 o pm c e FLn (nbd o t nfe e - 1) ++ lab2 o pm c e FLp (nbd o t nfe e - 1)
        ++ lab1 o pm c e FZ (ns - 1) = lab_zz o pm c e (ns - 1) (end_slots o t c e)).
      { unfold lab_zz, end_slots. rewrite (n_mult_is c e nfe Hn). reflexivity. }
      rewrite EZ in Hgs.
      assert (Ix : Iv (end_state o t rho c e) (vars (lab1 o pm c e FX (xend_slot o t)))).
      { apply end_isvec. }
      rewrite (gsw_call o m pm rho K WS c e (ns - 1) (end_slots o t c e) (end_state o t rho c e) _ Ix _ Hgs).
      unfold end_point. apply andb_true_iff in EB. destruct EB as [EB1 EB2]. apply negb_true_iff in EB1. split; auto.
    - subst fe'. split; [|reflexivity]. split; [intros G; split; [exact G|]|itauto].
      intros A B. rewrite A, B in EB. discriminate. }
  destruct S5 as [S5 C5].
  split; [|split; [|exact O5]].
  - rewrite S5, S4, S3, S2', S1', S0. unfold path_ok. fold path_at. 
    assert (EC : (forall j, j < ns -> alg j /\ coll j) /\ (o_repr o = DifferentialLiftX -> forall j, j < ns -> lift_ok j) <->
                 stage_algebra o t m rho c e /\ collocation o t m rho c e).
    { unfold stage_algebra, collocation, alg, coll, lift_ok, rk_state, rk_rhs. split.
      - intros [A B]. split; [intros j Hj; apply A; exact Hj|]. intros j i Hj Hi. cbv zeta. destruct (A j Hj) as [_ A2]. specialize (A2 i Hi).
        destruct (o_repr o); [exact A2|exact A2|]. split; [exact A2|]. apply (B eq_refl j Hj i Hi).
      - intros [A B]. split; [|].
        + intros j Hj. split; [apply A; exact Hj|]. intros i Hi. specialize (B j i Hj Hi). cbv zeta in B.
          destruct (o_repr o); [exact B|exact B|apply B].
        + intros ER j Hj i Hi. specialize (B j i Hj Hi). rewrite ER in B. apply B. }
    unfold path_at in *. itauto.
  - rewrite C5, C4, C3, C2, C1, C0. reflexivity.
Qed.


(* ---- complementarity ---- *)
Lemma fe_comp_sem fe x y fe' n : okk fe -> fe_comp o fe x y = Ok fe' -> length y = n -> Forall (fun v => length v = n) x ->
  okk fe' /\ cost (fo fe') = cost (fo fe) /\
  (Sat fe' <~> Sat fe /\ forall k, k < n -> relaxed o rho (map (fun v => val rho v k) x) (val rho y k)).
Proof.
  intros Hf H Ly Lx. pose proof (fe_comp_le _ _ _ _ _ H) as LE. unfold fe_comp in H. apply bind_ok in H. destruct H as (f' & Hf' & H).
  injection H as <-. split; [eapply fe_ok_le; eauto|]. split; [cbn; eapply create_complementarity_cost; eauto|].
  destruct (cc_sat rho o _ _ _ _ _ n Hf' (ok_wf _ _ _ _ _ _ _ _ Hf) Ly Lx) as [_ A]. exact A.
Qed.
Lemma rows_relaxed w rows ab : rows_at rho w rows ab ->
  (forall k, k < length rows -> relaxed o rho [val rho (fst ab) k] (val rho (snd ab) k)) <-> (forall r, In r rows -> row_ok o rho w r).
Proof.
  intros (F & L1 & L2).
  assert (V : forall k r, nth_error rows k = Some r -> val rho (fst ab) k = eval w (fst r) /\ val rho (snd ab) k = eval w (snd r)).
  { intros k r Hr. destruct (Forall2_nth _ _ _ _ _ F Hr) as ([a b] & Hab & E1 & E2). cbn [fst snd] in *.
    apply nth_error_combine_inv in Hab. destruct Hab as [Ha Hb]. unfold val. rewrite (nth_error_nth _ _ _ Ha), (nth_error_nth _ _ _ Hb). auto. }
  unfold row_ok. split.
  - intros G r Hr. apply In_nth_error in Hr. destruct Hr as [k Hk]. destruct (V k r Hk) as [<- <-]. apply G. eapply nth_error_Some_lt; eauto.
  - intros G k Hk. destruct (nth_error_lt rows k Hk) as [r Hr]. destruct (V k r Hr) as [-> ->]. apply G. eapply nth_error_In; eauto.
Qed.
(* the same rows seen through any predicate that fe_comp extends in this way *)
Section Gen.
Variables J T : felem -> Prop.
Hypothesis HT : forall fe x y fe' n, okk fe -> J fe -> fe_comp o fe x y = Ok fe' -> length y = n -> Forall (fun v => length v = n) x ->
  J fe' /\ (T fe' <~> T fe /\ forall k, k < n -> relaxed o rho (map (fun v => val rho v k) x) (val rho y k)).
Definition okj fe := okk fe /\ J fe.
Lemma fe_comp_gen fe x y fe' n : okj fe -> fe_comp o fe x y = Ok fe' -> length y = n -> Forall (fun v => length v = n) x ->
  okj fe' /\ cost (fo fe') = cost (fo fe) /\
  (T fe' <~> T fe /\ forall k, k < n -> relaxed o rho (map (fun v => val rho v k) x) (val rho y k)).
Proof.
  intros Hf H Ly Lx. destruct Hf as [Hf Hj]. destruct (fe_comp_sem fe x y fe' n Hf H Ly Lx) as (A & B & _).
  destruct (HT fe x y fe' n Hf Hj H Ly Lx) as [D1 D2]. split; [split; [exact A|exact D1]|]. split; [exact B|exact D2].
Qed.
Lemma comp_rows_gen fe fe' w rows ab : okj fe -> rows_at rho w rows ab -> fe_comp o fe [fst ab] (snd ab) = Ok fe' ->
  okj fe' /\ cost (fo fe') = cost (fo fe) /\ (T fe' <~> T fe /\ forall r, In r rows -> row_ok o rho w r).
Proof.
  intros Hf HR H. pose proof HR as (_ & L1 & L2).
  destruct (fe_comp_gen fe _ _ fe' (length rows) Hf H L2 (Forall_cons _ L1 (Forall_nil _))) as (A & B & D).
  split; [exact A|]. split; [exact B|]. rewrite D. cmp. apply (rows_relaxed _ _ _ HR).
Qed.

Lemma complementarity_gen fe fe' : okj fe ->
  create_complementarity_constraints o t pm po q U fe = Ok fe' ->
  (T fe' <~> T fe /\ path_comp_ok o t m oc rho c e /\ cross_ok o t m rho c e) /\
  cost (fo fe') = cost (fo fe) /\ okj fe'.
Proof.
  intros Hf H. unfold create_complementarity_constraints in H. cbv zeta in H.
  rewrite (ok_ctrl _ _ _ _ _ _ _ _ (proj1 Hf)), (ok_idx _ _ _ _ _ _ _ _ (proj1 Hf)) in H.
  apply bind_ok in H. destruct H as (Xf & HXf & H). apply bind_ok in H. destruct H as (fe1 & H1 & H).
  apply bind_ok in H. destruct H as (fe2 & H2 & H).
  destruct (X_fe_vals fe Xf (proj1 Hf) HXf) as [HX _].
  set (SR := fun j => forall r, In r (oc_comp oc) /\ stage_row m r -> row_ok o rho (spt j) r).
  assert (G1 : okj fe1 /\ cost (fo fe1) = cost (fo fe) /\ (T fe1 <~> T fe /\ forall j, j < ns -> SR j)).
  { refine (foldM_seq0 _ (fun k x => okj x /\ cost (fo x) = cost (fo fe) /\ (T x <~> T fe /\ forall j, j < k -> SR j)) ns fe fe1 _ _ H1).
    - intros k s s' Hk (Os & Cs & Ss) Hs.
      apply bind_ok in Hs. destruct Hs as (z & Hz & Hs). apply bind_ok in Hs. destruct Hs as (x & Hx & Hs). apply nthE_ok in Hx.
      destruct (HX k Hk) as (x' & E & Ix). assert (x' = x) by congruence. subst x'. clear E.
      rewrite (ok_rk_stage_z o t pm po c e nfe s k (proj1 Os) Hk) in Hz. injection Hz as <-. rewrite lab_z_zz in Hs.
      apply bind_ok in Hs. destruct Hs as (ab & Hab & Hs).
      destruct (rk_comp_call o m pm rho K WS c e oc po KO k (fun _ => k) (sst k) x Ix ab Hab) as (rows & HR & HA).
      destruct (comp_rows_gen s s' _ rows ab Os HA Hs) as (A & B & D). split; [exact A|]. split; [congruence|].
      rewrite D, Ss, (below_S SR). unfold SR at 3. unfold stage_point.
      assert (EE : (forall r, In r rows -> row_ok o rho (at_point m rho c e k (fun _ => k) (sst k)) r) <->
                   (forall r, In r (oc_comp oc) /\ stage_row m r -> row_ok o rho (at_point m rho c e k (fun _ => k) (sst k)) r)).
      { split; intros G r Hr; apply G, HR, Hr. }
      rewrite EE. itauto.
    - split; [exact Hf|]. split; [reflexivity|]. split; [intros G; split; [exact G|intros; lia]|itauto]. }
  destruct G1 as (O1 & C1 & S1').
  set (CR := (e + 1)%nat = o_N_finite_elements o -> forall r, In r (oc_comp oc) -> control_row m r -> row_ok o rho (plain_point m rho c (fun _ => 0%R)) r).
  assert (G2 : okj fe2 /\ cost (fo fe2) = cost (fo fe1) /\ (T fe2 <~> T fe1 /\ CR)).
  { destruct (S e =? o_N_finite_elements o) eqn:EN.
    - apply Nat.eqb_eq in EN. apply bind_ok in H2. destruct H2 as (ab & Hab & H2).
      destruct (ctrl_comp_call o m pm rho K c 0 oc po KO 0 (fun _ => 0) (fun _ => 0%R) ab Hab) as (rows & HR & HA).
      destruct (comp_rows_gen fe1 fe2 _ rows ab O1 HA H2) as (A & B & D). split; [exact A|]. split; [exact B|]. rewrite D.
      cmp. unfold CR, plain_point. split.
      + intros G _ r Hr1 Hr2. apply G, HR. auto.
      + intros G r Hr. apply HR in Hr. apply G; [lia|apply Hr|apply Hr].
    - injection H2 as <-. split; [exact O1|]. split; [reflexivity|]. split; [intros G; split; [exact G|]|itauto].
      apply Nat.eqb_neq in EN. intros G'. lia. }
  destruct G2 as (O2 & C2 & S2').
  assert (Hnb : forall j, j < ns -> j < nbd o t nfe e) by (intros j Hj; unfold nbd; lia).
  assert (G3 : okj fe' /\ cost (fo fe') = cost (fo fe2) /\ (T fe' <~> T fe2 /\ cross_ok o t m rho c e)).
  { set (X := fun j => forall k, k < n_pairs o m ->
        let th := ent (theta_vec o m rho c e j) k in
        let lam jj := ent (lam_vec o m rho c e jj) k in
        let lp := ent (prev_lam o t m rho c e) k in
        if o_use_fesd o
        then match o_cross o with
             | ComplementAll => relaxed o rho [th] lp /\ forall jj, (jj < ns)%nat -> relaxed o rho [th] (lam jj)
             | SumLambdas => relaxed o rho (map lam (seq 0 (n_mult o t c e)) ++ [lp]) th
             end
        else relaxed o rho [lam j] th).
    assert (EX : (forall j, j < ns -> X j) <-> cross_ok o t m rho c e).
    { unfold X, cross_ok. split; intros G; [intros j k Hj Hk; exact (G j Hj k Hk)|intros j Hj k Hk; exact (G j k Hj Hk)]. }
    rewrite <- EX. clear EX. cbv zeta in X.
    set (I := fun k x => okj x /\ cost (fo x) = cost (fo fe2) /\ (T x <~> T fe2 /\ forall j, j < k -> X j)).
    assert (I0 : I 0 fe2) by (split; [exact O2|]; split; [reflexivity|]; split; [intros G; split; [exact G|intros; lia]|itauto]).
    change (I ns fe').
    assert (ST : forall k s s', I k s -> (okj s -> okj s' /\ cost (fo s') = cost (fo s) /\ (T s' <~> T s /\ X k)) -> I (k + 1) s').
    { intros k s s' (Os & Cs & Ss) G. destruct (G Os) as (A & B & D). split; [exact A|]. split; [congruence|].
      rewrite D, Ss, (below_S X). itauto. }
    unfold X in ST. destruct (o_use_fesd o) eqn:EF; cbn [negb] in H.
    - destruct (o_cross o) eqn:EC.
      + refine (foldM_seq0 _ I ns fe2 fe' _ I0 H). intros k s s' Hk HI Hs. apply (ST k s s' HI). clear HI. intros Os.
        apply bind_ok in Hs. destruct Hs as (th & Hth & Hs). rewrite (ok_Theta _ _ _ _ _ _ _ _ _ (proj1 Os) Hk) in Hth. injection Hth as <-.
        apply bind_ok in Hs. destruct Hs as (lp & Hlp & Hs). apply bind_ok in Hs. destruct Hs as (s1 & Hs1 & Hs).
        destruct prev_l as (lp' & E & Ll & Vl). assert (lp' = lp) by congruence. subst lp'. clear E.
        destruct (fe_comp_gen s _ _ s1 (n_pairs o m) Os Hs1 Ll (Forall_cons _ (theta_expr_len _ _ _) (Forall_nil _))) as (A1 & B1 & D1).
        set (Y := fun jj => forall i, i < n_pairs o m -> relaxed o rho [ent (theta_vec o m rho c e k) i] (ent (lam_vec o m rho c e jj) i)).
        assert (GI : okj s' /\ cost (fo s') = cost (fo s1) /\ (T s' <~> T s1 /\ forall jj, jj < ns -> Y jj)).
        { refine (foldM_seq0 _ (fun n x => okj x /\ cost (fo x) = cost (fo s1) /\ (T x <~> T s1 /\ forall jj, jj < n -> Y jj)) ns s1 s' _ _ Hs).
          - intros n x x' Hn' (Ox & Cx & Sx) Hx.
            apply bind_ok in Hx. destruct Hx as (th & Hth & Hx). rewrite (ok_Theta _ _ _ _ _ _ _ _ _ (proj1 Ox) Hk) in Hth. injection Hth as <-.
            apply bind_ok in Hx. destruct Hx as (la & Hla & Hx). rewrite (ok_Lambda _ _ _ _ _ _ _ _ _ (proj1 Ox) (Hnb n Hn')) in Hla. injection Hla as <-.
            destruct (fe_comp_gen x _ _ x' (n_pairs o m) Ox Hx (lam_expr_len _ _ _) (Forall_cons _ (theta_expr_len _ _ _) (Forall_nil _))) as (A2 & B2 & D2).
            split; [exact A2|]. split; [congruence|]. rewrite D2, Sx, (below_S Y). unfold Y at 3.
            assert (EE : (forall i, i < n_pairs o m -> relaxed o rho (map (fun v => val rho v i) [ex_theta o pm c e k]) (val rho (vars (lab_lam o pm c e n)) i)) <->
                (forall i, i < n_pairs o m -> relaxed o rho [ent (theta_vec o m rho c e k) i] (ent (lam_vec o m rho c e n) i))).
            { split; intros G i Hi; specialize (G i Hi); cbn [map] in *; rewrite theta_val, lam_val in *; exact G. }
            rewrite EE. itauto.
          - split; [exact A1|]. split; [reflexivity|]. split; [intros G; split; [exact G|intros; lia]|itauto]. }
        destruct GI as (A2 & B2 & D2). split; [exact A2|]. split; [congruence|]. rewrite D2, D1, and_assoc. cmp.
        split.
        * intros [Ga Gb] i Hi. split.
          -- specialize (Ga i Hi). cbn [map] in Ga. rewrite theta_val, Vl in Ga. exact Ga.
          -- intros jj Hjj. exact (Gb jj Hjj i Hi).
        * intros G. split.
          -- intros i Hi. cbn [map]. rewrite theta_val, Vl. apply (G i Hi).
          -- intros jj Hjj i Hi. apply (G i Hi). exact Hjj.
      + refine (foldM_seq0 _ I ns fe2 fe' _ I0 H). intros k s s' Hk HI Hs. apply (ST k s s' HI). clear HI. intros Os.
        apply bind_ok in Hs. destruct Hs as (ls & Hls & Hs). apply bind_ok in Hs. destruct Hs as (th & Hth & Hs).
        rewrite (ok_Theta _ _ _ _ _ _ _ _ _ (proj1 Os) Hk) in Hth. injection Hth as <-.
        destruct (lambdas_vals c e nfe s q ls Hn (proj1 Os) Hq Hls) as [LL VV].
        destruct (fe_comp_gen s _ _ s' (n_pairs o m) Os Hs (theta_expr_len _ _ _) LL) as (A1 & B1 & D1).
        split; [exact A1|]. split; [exact B1|]. rewrite D1. cmp.
        split; intros G i Hi; specialize (G i Hi); rewrite VV, theta_val in *; exact G.
    - refine (foldM_seq0 _ I ns fe2 fe' _ I0 H). intros k s s' Hk HI Hs. apply (ST k s s' HI). clear HI. intros Os.
      apply bind_ok in Hs. destruct Hs as (la & Hla & Hs). rewrite (ok_Lambda _ _ _ _ _ _ _ _ _ (proj1 Os) (Hnb k Hk)) in Hla. injection Hla as <-.
      apply bind_ok in Hs. destruct Hs as (th & Hth & Hs). rewrite (ok_Theta _ _ _ _ _ _ _ _ _ (proj1 Os) Hk) in Hth. injection Hth as <-.
      destruct (fe_comp_gen s _ _ s' (n_pairs o m) Os Hs (theta_expr_len _ _ _) (Forall_cons _ (lam_expr_len _ _ _) (Forall_nil _))) as (A1 & B1 & D1).
      split; [exact A1|]. split; [exact B1|]. rewrite D1. cmp.
      split; intros G i Hi; specialize (G i Hi); cbn [map] in *; rewrite lam_val, theta_val in *; exact G. }
  destruct G3 as (O3 & C3 & S3). split; [|split; [congruence|exact O3]].
  rewrite S3, S2', S1'. unfold path_comp_ok. fold CR.
  assert (ES : (forall j, j < ns -> SR j) <-> forall r, In r (oc_comp oc) -> stage_row m r -> forall j, j < ns -> row_ok o rho (spt j) r).
  { unfold SR. split; intros G; intros; apply G; auto. itauto. itauto. }
  rewrite ES. itauto.
Qed.

End Gen.

Lemma complementarity_sem fe fe' : okk fe ->
  create_complementarity_constraints o t pm po q U fe = Ok fe' ->
  (Sat fe' <~> Sat fe /\ path_comp_ok o t m oc rho c e /\ cross_ok o t m rho c e) /\
  cost (fo fe') = cost (fo fe) /\ okk fe'.
Proof.
  intros Hf H. destruct (complementarity_gen (fun _ => True) (fun fe => Sat fe)) with (2 := conj Hf I) (3 := H) as (A & B & D).
  - intros f x y f' n Hf' _ H' Ly Lx. split; [exact I|]. exact (proj2 (proj2 (fe_comp_sem f x y f' n Hf' H' Ly Lx))).
  - split; [exact A|]. split; [exact B|exact (proj1 D)].
Qed.

(* ---- step equilibration ---- *)
Variable qq : felem.
Hypothesis Hqq : e <> 0 -> is_elem o t pm po (prev_pos nfes c (e - 1)) qq.

Lemma fold_mul l : forall acc, eval rho (fold_left (fun acc e => EBin BMul acc e) l acc) = (eval rho acc * rprod (map (eval rho) l))%R.
Proof.
  induction l as [|a l IH]; intros acc; cbn [fold_left map].
  - unfold rprod. cbn. lra.
  - rewrite IH, rprod_cons. cbn. lra.
Qed.
Lemma isvec_map n x a : isvec rho n x a -> map (eval rho) a = map x (seq 0 n).
Proof.
  intros H. unfold isvec in H. remember (seq 0 n) as l. clear Heql. induction H; cbn; [reflexivity|]. f_equal; auto.
Qed.

Lemma prev_ok : e <> 0 -> ok c (e - 1) nfe q.
Proof.
  intros Hz. pose proof Hq as G. destruct e as [|e']; [congruence|]. cbn [prev_pos is_elem] in G.
  destruct G as (n & E & _ & G). assert (n = nfe) by congruence. subst n. cbn [Nat.sub]. rewrite Nat.sub_0_r. exact G.
Qed.

Lemma nu_eval fe r : e <> 0 -> okk fe -> nu_k fe q qq = Ok r -> eval rho r = nu o t m rho c e.
Proof.
  intros Hz Hf H. unfold nu_k in H.
  apply bind_ok in H. destruct H as (sl1 & Hsl1 & H). apply bind_ok in H. destruct H as (sl2 & Hsl2 & H).
  apply bind_ok in H. destruct H as (a & Ha & H). apply bind_ok in H. destruct H as (st1 & Hst1 & H).
  apply bind_ok in H. destruct H as (st2 & Hst2 & H). apply bind_ok in H. destruct H as (b & Hb & H).
  apply bind_ok in H. destruct H as (eta & Heta & H). injection H as <-.
  pose proof (sum_Lambda_vals c (e - 1) nfe q qq sl1 Hn (prev_ok Hz) (Hqq Hz) Hsl1) as I1.
  pose proof (sum_Lambda_vals c e nfe fe q sl2 Hn Hf Hq Hsl2) as I2.
  pose proof (sum_Theta_vals c (e - 1) nfe q st1 (prev_ok Hz) Hst1) as I3.
  pose proof (sum_Theta_vals c e nfe fe st2 Hf Hst2) as I4.
  pose proof (isvec_vbin _ _ BAdd _ _ _ _ _ (isvec_vbin _ _ BMul _ _ _ _ _ I1 I2 Ha) (isvec_vbin _ _ BMul _ _ _ _ _ I3 I4 Hb) Heta) as I5.
  rewrite fold_mul, (isvec_map _ _ _ I5). unfold nu. cbn [eval eval_bin]. rewrite Q2R_1, Rmult_1_l. reflexivity.
Qed.

Lemma mean_step : Q2R (o_terminal_time o / (Qnat (o_N_stages o) * Qnat nfe)) = Q2R (nominal_step o nfe).
Proof.
  apply Qeq_eqR. unfold nominal_step, Qnat, Qdiv. rewrite Qinv_mult_distr. ring.
Qed.

Lemma delta_eval fe : e <> 0 -> okk fe -> eval rho (EBin BSub (fe_h fe) (fe_h q)) = delta_h o rho c e.
Proof.
  intros Hz Hf. cbn [eval eval_bin]. rewrite (h_eval c e nfe fe Hn Hf), (h_eval c (e - 1) nfe q Hn (prev_ok Hz)). reflexivity.
Qed.

Lemma step_equilibration_sem fe fe' : okk fe -> step_equilibration o nfe qq q fe = Ok fe' ->
  (Sat fe' <~> Sat fe /\ step_constraint o t m rho c e) /\
  eval rho (cost (fo fe')) = (eval rho (cost (fo fe)) + step_cost o t m rho c e)%R /\ okk fe'.
Proof.
  intros Hf H. pose proof (step_equilibration_le _ _ _ _ _ _ H) as LE.
  assert (OK : okk fe') by (eapply fe_ok_le; eauto).
  assert (NOP : forall P : Prop, P -> (Sat fe <~> Sat fe /\ P)) by itauto.
  unfold step_equilibration in H. rewrite (ok_idx _ _ _ _ _ _ _ _ Hf) in H.
  unfold step_constraint, step_cost. destruct (o_use_fesd o) eqn:EF; cbn [negb] in H.
  2:{ injection H as <-. split; [apply NOP; discriminate|]. split; [lra|exact OK]. }
  assert (E2 : forall x : R, (x * x)%R = (x ^ 2)%R) by (intros; ring).
  destruct (o_step_eq o) eqn:ES.
  1:{ injection H as <-. split; [apply NOP; auto|]. split; [|exact OK].
      cbn [fo with_fo add_cost cost eval eval_bin eval_un]. rewrite (h_eval c e nfe fe Hn Hf), mean_step, (nfe_is c nfe Hn).
      rewrite <- E2. reflexivity. }
  all: destruct (e =? 0) eqn:EZ;
    [apply Nat.eqb_eq in EZ; injection H as <-; split; [apply NOP; intros; lia|]; split; [lra|exact OK]|apply Nat.eqb_neq in EZ].
  1:{ injection H as <-. split; [apply NOP; auto|]. split; [|exact OK].
      change (cost (fo (with_fo fe (add_cost (fo fe) ?x)))) with (EBin BAdd (cost (fo fe)) x).
      pose proof (delta_eval fe EZ Hf) as D. cbn [fo with_fo add_cost cost eval eval_bin eval_un] in *. rewrite D, <- E2. reflexivity. }
  all: apply bind_ok in H; destruct H as (r & Hr & H); pose proof (nu_eval fe r EZ Hf Hr) as N; pose proof (delta_eval fe EZ Hf) as D.
  - injection H as <-. split; [apply NOP; auto|]. split; [|exact OK].
    change (cost (fo (with_fo fe (add_cost (fo fe) ?x)))) with (EBin BAdd (cost (fo fe)) x).
    cbn [fo with_fo add_cost cost eval eval_bin eval_un] in *. rewrite D, N, <- E2. reflexivity.
  - injection H as <-. split; [apply NOP; auto|]. split; [|exact OK].
    change (cost (fo (with_fo fe (add_cost (fo fe) ?x)))) with (EBin BAdd (cost (fo fe)) x).
    cbn [fo with_fo add_cost cost eval eval_bin eval_un] in *. rewrite D, N, <- E2. reflexivity.
  - apply bind_ok in H. destruct H as (f' & Hf' & H). injection H as <-. split; [|split; [|exact OK]].
    + rewrite sat_with_fo, (add_constraint_eq_sat rho _ _ _ (ok_wf _ _ _ _ _ _ _ _ Hf) Hf'). cmp.
      assert (EV : eval rho (EBin BMul r (EBin BSub (fe_h fe) (fe_h q))) = (nu o t m rho c e * delta_h o rho c e)%R).
      { rewrite <- N, <- D. reflexivity. }
      split.
      * intros G _ _. rewrite <- EV. apply G. left. reflexivity.
      * intros G x [<-|[]]. rewrite EV. apply G; [reflexivity|lia].
    + cbn [fo with_fo]. rewrite (add_constraint_cost _ _ _ _ _ Hf'). lra.
  - destruct (fe_comp_sem fe _ _ fe' 1 Hf H eq_refl ltac:(repeat constructor)) as (_ & B & D').
    split; [|split; [rewrite B; lra|exact OK]]. rewrite D'. cmp. split.
    + intros G _ _. specialize (G 0 ltac:(lia)). cbn [map] in G. unfold val in G. cbn [nth] in G. rewrite N, D in G. exact G.
    + intros G k Hk. assert (k = 0) by lia. subst k. cbn [map]. unfold val. cbn [nth]. rewrite N, D. apply G; [reflexivity|lia].
  - destruct (fe_comp_sem fe _ _ fe' 1 Hf H eq_refl ltac:(repeat constructor)) as (_ & B & D').
    split; [|split; [rewrite B; lra|exact OK]]. rewrite D'. cmp.
    assert (Z0 : eval rho (ECst 0) = 0%R) by (cbn; apply Q2R_0). split.
    + intros G _ _. specialize (G 0 ltac:(lia)). cbn [map] in G. unfold val in G. cbn [nth] in G. rewrite Z0, D in G. exact G.
    + intros G k Hk. assert (k = 0) by lia. subst k. cbn [map]. unfold val. cbn [nth]. rewrite Z0, D. apply G; [reflexivity|lia].
Qed.

(* the rows of step_equilibration that are complementarity rows *)
Section Gen2.
Variables J T : felem -> Prop.
Hypothesis HT : forall fe x y fe' n, okk fe -> J fe -> fe_comp o fe x y = Ok fe' -> length y = n -> Forall (fun v => length v = n) x ->
  J fe' /\ (T fe' <~> T fe /\ forall k, k < n -> relaxed o rho (map (fun v => val rho v k) x) (val rho y k)).
Hypothesis HC : forall fe x, J fe -> J (with_fo fe (add_cost (fo fe) x)) /\ (T (with_fo fe (add_cost (fo fe) x)) <-> T fe).
Hypothesis HE : forall fe x f', okk fe -> J fe -> add_constraint (fo fe) x None None = Ok f' -> J (with_fo fe f') /\ (T (with_fo fe f') <-> T fe).
Lemma step_equilibration_gen fe fe' : okk fe -> J fe -> step_equilibration o nfe qq q fe = Ok fe' ->
  J fe' /\ (T fe' <~> T fe /\ (step_is_comp o -> step_constraint o t m rho c e)).
Proof.
  intros Hf Hj H.
  assert (NOP : forall P : Prop, P -> (T fe <~> T fe /\ P)) by itauto.
  assert (CST : forall x (P : Prop), P -> J (with_fo fe (add_cost (fo fe) x)) /\ (T (with_fo fe (add_cost (fo fe) x)) <~> T fe /\ P)).
  { intros x P G. destruct (HC fe x Hj) as [A B]. split; [exact A|]. rewrite B. apply NOP. exact G. }
  unfold step_equilibration in H. rewrite (ok_idx _ _ _ _ _ _ _ _ Hf) in H.
  unfold step_constraint, step_is_comp. destruct (o_use_fesd o) eqn:EF; cbn [negb] in H.
  2:{ injection H as <-. split; [exact Hj|]. apply NOP. discriminate. }
  destruct (o_step_eq o) eqn:ES.
  1:{ injection H as <-. apply CST. auto. }
  all: destruct (e =? 0) eqn:EZ;
    [apply Nat.eqb_eq in EZ; injection H as <-; split; [exact Hj|]; apply NOP; intros; lia|apply Nat.eqb_neq in EZ].
  1:{ injection H as <-. apply CST. auto. }
  all: apply bind_ok in H; destruct H as (r & Hr & H); pose proof (nu_eval fe r EZ Hf Hr) as N; pose proof (delta_eval fe EZ Hf) as D.
  - injection H as <-. apply CST. auto.
  - injection H as <-. apply CST. auto.
  - apply bind_ok in H. destruct H as (f' & Hf' & H). injection H as <-. destruct (HE fe _ f' Hf Hj Hf') as [A B].
    split; [exact A|]. rewrite B. apply NOP. intros [G|G]; discriminate.
  - destruct (HT fe _ _ fe' 1 Hf Hj H eq_refl ltac:(repeat constructor)) as (A & D').
    split; [exact A|]. rewrite D'. cmp. split.
    + intros G _ _ _. specialize (G 0 ltac:(lia)). cbn [map] in G. unfold val in G. cbn [nth] in G. rewrite N, D in G. exact G.
    + intros G k Hk. assert (k = 0) by lia. subst k. cbn [map]. unfold val. cbn [nth]. rewrite N, D. apply G; [auto|reflexivity|lia].
  - destruct (HT fe _ _ fe' 1 Hf Hj H eq_refl ltac:(repeat constructor)) as (A & D').
    split; [exact A|]. rewrite D'. cmp.
    assert (Z0 : eval rho (ECst 0) = 0%R) by (cbn; apply Q2R_0). split.
    + intros G _ _ _. specialize (G 0 ltac:(lia)). cbn [map] in G. unfold val in G. cbn [nth] in G. rewrite Z0, D in G. exact G.
    + intros G k Hk. assert (k = 0) by lia. subst k. cbn [map]. unfold val. cbn [nth]. rewrite Z0, D. apply G; [auto|reflexivity|lia].
Qed.
End Gen2.

(* ---- a whole element ---- *)
Theorem element_sem s fe : okk s -> (sat_cons rho (fo s)) -> eval rho (cost (fo s)) = 0%R ->
  fsteps o t pm po nfe U (sotex o c) qq q s fe ->
  (Sat fe <~> element_ok o t m oc rho c e) /\ eval rho (cost (fo fe)) = (stage_cost o t m oc rho c e + step_cost o t m rho c e)%R /\ okk fe.
Proof.
  intros Hs Ss Cs H. destruct H as (fe1 & fe2 & H1 & H2 & H3).
  destruct (forward_simulation_sem s fe1 Hs H1) as (A1 & B1 & D1).
  destruct (complementarity_sem fe1 fe2 D1 H2) as (A2 & B2 & D2).
  destruct (step_equilibration_sem fe2 fe D2 H3) as (A3 & B3 & D3).
  split; [|split; [|exact D3]].
  - rewrite A3, A2, A1. unfold element_ok. itauto.
  - rewrite B3, B2, B1, Cs. lra.
Qed.

End Elem.
