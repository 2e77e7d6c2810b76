(* Conv6_proofs.v -- with FESD: the trajectory through the grid points uses active modes only; first order convergence *)
From Coq Require Import Reals Qreals Lra Psatz.
From Verif Require Import Base Sx Utils Tableau Opts Model Ocp Problem Spec Cases Lib Sx_proofs Fe_proofs Prob_proofs Coll_proofs
  Body_proofs Model_proofs Con_proofs Index3_proofs Fesd Sem_proofs Dcs_proofs Point_proofs Elem_proofs Nlp_proofs
  Opts_proofs Tableau_proofs Poly_proofs Spec2 Feas_proofs Feas2_proofs Spec3 Numeric Mode_proofs Smooth_proofs Spec9 Spec10 Filippov_proofs
  Filippov2_proofs Filippov3_proofs Exact_proofs Spec11 ExistBase_proofs Spec20 Soft_proofs Spec21 Conv_proofs Conv2_proofs Conv3_proofs Conv4_proofs Spec22.
Local Open Scope R_scope.

Section Con.
Variables (lr : Q -> Q -> Q -> nat) (cp : nat -> scheme -> list Q) (d : ipopt_dict) (o : opts) (m : model)
  (oc : option ocp) (C : constructed) (rho : env).
Hypothesis FP : fesd_problem lr cp d o m oc C.
Hypothesis FE : feasible rho (the_nlp C).
Hypothesis CS : convergence_setting cp (the_opts C) m rho.
Notation O := (the_opts C).
Notation t := (cn_tab C).
Variables (act : env -> nat -> nat -> Prop) (D : (nat -> R) -> Prop) (M h : R).
Hypothesis Act : forall c e j, is_element O c e -> (j < o_ns O)%nat -> active_weights m act (plain_point m rho c (stage_state O t rho c e j)) (th_at m C rho c e j).
Hypothesis SI : stages_in O t rho D.
Hypothesis BD : bounded_on O m rho D M.
Hypothesis M0 : 0 <= M.
Hypothesis Hh : steps_upto O rho h.
Hypothesis SD : segments_in O t rho D.
Hypothesis Seg : forall c e j tau, is_element O c e -> (j < o_ns O)%nat -> 0 <= tau <= 1 ->
  active_weights m act (plain_point m rho c (segment O t rho c e tau)) (th_at m C rho c e j).
Variable A : nat -> nat -> R.
Hypothesis HA : forall c e j i, is_element O c e -> (j < o_ns O)%nat -> (i < m_nx m)%nat ->
  stage_state O t rho c e j i - start_state O t rho c e i =
  step_len O rho c e * rupto (o_ns O) (fun k => A j k * (speed O rho c * rhs O m (stage_point O t m rho c e k) i)).
Let K : R := coeff_bound (o_ns O) A + 2.

Lemma tracking : exists X, tracking_trajectory O t m rho act D (K * M * h) X.
Proof.
  assert (NP : forall c, (c < o_N_stages O)%nat -> (0 < nfe_of O c)%nat) by (intros; eapply nfe_pos_con; eassumption).
  assert (Sp : forall c e, is_element O c e -> exists v, forall i, (i < m_nx m)%nat ->
    end_state O t rho c e i - start_state O t rho c e i = step_len O rho c e * v i).
  { intros c e He. destruct (element_weights lr cp d o m oc C rho FP FE CS c e He) as (be & _ & _ & B). eexists (fun i => _). exact B. }
  destruct (line O t m rho NP (N_pos _ _ _ _ _ _ _ FP) (fun c e He => proj1 (Hh c e He)) Sp) as (P1 & P2 & P3 & P4).
  eexists. split; [exact P1|]. split; [exact P2|]. split; [exact P3|].
  intros tm Ht Hne. destruct (P4 tm Ht Hne) as (c & e & He & In1 & EX & DX).
  destruct (element_weights lr cp d o m oc C rho FP FE CS c e He) as (be & B1 & B2 & B3). set (hh := step_len O rho c e) in *.
  exists c, e, (o_ns O), be, (stage_state O t rho c e), (th_at m C rho c e).
  assert (Hp : 0 < hh) by lra.
  assert (Tr : 0 <= (tm - grid_time O rho c e) / hh <= 1).
  { split.
    + apply Rmult_le_pos; [lra|]. left. apply Rinv_0_lt_compat. exact Hp.
    + apply (Rmult_le_reg_r hh); [exact Hp|]. unfold Rdiv. rewrite Rmult_assoc, Rinv_l by lra. lra. }
  split; [exact He|]. split; [exact In1|]. split; [rewrite EX; apply SD; assumption|]. split; [|split; [exact B2|]].
  - intros j Hj. split; [apply B1, Hj|]. split; [apply SI; assumption|]. split.
    + rewrite EX. apply Seg; assumption.
    + intros i Hi. rewrite EX. exact (near_stage cp m C rho CS act D M h Act SI BD M0 Hh A HA c e _ be j i He Tr Hj Hi B1 B2 (B3 i Hi)).
  - intros i Hi. rewrite (rupto_ext _ _ (fun j => be j * (speed O rho c * rhs O m (stage_point O t m rho c e j) i))) by (intros j _; rewrite (rhs_velocity cp m C rho CS); reflexivity).
    specialize (DX i Hi). rewrite (B3 i Hi) in DX.
    match type of DX with derivable_pt_lim _ _ ?x => replace x with (rupto (o_ns O) (fun j => be j * (speed O rho c * rhs O m (stage_point O t m rho c e j) i))) in DX; [exact DX|] end.
    field. lra.
Qed.
End Con.

(* ---- comparison ---- *)
Section Compare.
Variables (o : opts) (t : tab) (m : model) (rho : env) (act : env -> nat -> nat -> Prop) (D : (nat -> R) -> Prop) (X Y : R -> nat -> R) (L Lf M delta : R).
Hypothesis Hh : steps_nonneg o rho.
Hypothesis AX : tracking_trajectory o t m rho act D delta X.
Hypothesis EY : exact_solution o m rho act Y.
Hypothesis YD : forall tm, 0 <= tm <= end_time o rho -> D (Y tm).
Hypothesis L0 : 0 <= L.
Hypothesis M0 : 0 <= M.
Hypothesis d0 : 0 <= delta.
Hypothesis OS : one_sided_on o m rho act D L.
Hypothesis Lf0 : 0 <= Lf.
Hypothesis LI : lipschitz_on o m rho D Lf.
Hypothesis BD : bounded_on o m rho D M.
Let W : R := weight_error o.
Let nx : R := INR (m_nx m).
Let E : R := nx * (2 * (Lf * delta * (Lf * delta)) + W * (M * M)).

(* one velocity of the average *)
Lemma one_term' c x y z th th' : (c < o_N_stages o)%nat -> D x -> D y -> D z -> active_weights m act (plain_point m rho c x) th ->
  active_weights m act (plain_point m rho c z) th' -> (forall i, (i < m_nx m)%nat -> Rabs (y i - x i) <= delta) ->
  2 * rupto (m_nx m) (fun i => (x i - z i) * (velocity o m rho c y th i - velocity o m rho c z th' i)) <=
  (2 * L + 1) * distance2 m x z + nx * (Lf * delta * (Lf * delta)).
Proof.
  intros Hc Dx Dy Dz Ax Az Hd. set (u := velocity o m rho c x th). set (v := velocity o m rho c y th). set (w := velocity o m rho c z th').
  pose proof (OS c x z th th' Hc Dx Dz Ax Az) as G. fold u w in G.
  assert (G3 : 2 * rupto (m_nx m) (fun i => (x i - z i) * (v i - w i)) <= 2 * rupto (m_nx m) (fun i => (x i - z i) * (u i - w i)) + (distance2 m x z + nx * (Lf * delta * (Lf * delta)))).
  { unfold nx, distance2. rewrite <- !rupto_scale, <- rupto_const, <- !rupto_plus. apply rupto_le. intros i Hi.
    pose proof (LI c y x th delta i Hc Dy Dx (proj1 Ax) Hd Hi) as V. fold u v in V.
    set (ld := Lf * delta) in *. set (dd := x i - z i). set (ww := v i - u i) in *.
    assert (S1 : ww * ww <= ld * ld).
    { rewrite <- (Rabs_right (ww * ww)) by (apply Rle_ge; apply (Rle_0_sqr ww)). rewrite Rabs_mult. apply Rmult_le_compat; try apply Rabs_pos; exact V. }
    pose proof (Rle_0_sqr (dd - ww)) as S2. unfold Rsqr in S2. replace (v i - w i) with (ww + (u i - w i)) by (unfold ww; ring). lra. }
  lra.
Qed.
Lemma tracking_compare T : 0 <= T <= end_time o rho -> distance2 m (X T) (Y T) <= first_order_bound o m L Lf M delta T.
Proof.
  intros HT. destruct AX as ((K & Lip) & X0 & _ & DX). destruct EY as (CY & Y0 & pts & DY). set (TT := end_time o rho) in *.
  assert (T0 : 0 <= TT) by lra. assert (W0 : 0 <= W) by apply error_nonneg.
  assert (W1 : W <= 1) by (unfold W, weight_error; destruct (o_repr o); unfold Q2R, tolerance; cbn [Qnum Qden]; lra).
  assert (N0 : 0 <= nx) by apply pos_INR.
  assert (E0 : 0 <= E).
  { unfold E. apply Rmult_le_pos; [exact N0|]. pose proof (Rle_0_sqr (Lf * delta)) as G. unfold Rsqr in G.
    assert (0 <= W * (M * M)) by (repeat apply Rmult_le_pos; assumption). lra. }
  set (xc := fun i z => X (Rmax 0 (Rmin TT z)) i). set (yc := fun i z => Y (Rmax 0 (Rmin TT z)) i).
  set (g := fun i z => (xc i z - yc i z) * (xc i z - yc i z)). set (phi := fun z => rupto (m_nx m) (fun i => g i z)).
  assert (Pe : forall z, 0 <= z <= TT -> phi z = distance2 m (X z) (Y z)).
  { intros z Hz. unfold phi, distance2, g, xc, yc. rewrite (clamp_id 0 TT z Hz). reflexivity. }
  assert (P0 : phi 0 = 0).
  { rewrite Pe by lra. unfold distance2. transitivity (rupto (m_nx m) (fun _ => 0)); [|rewrite rupto_const; ring].
    apply rupto_ext. intros i Hi. rewrite X0, Y0 by assumption. ring. }
  assert (Cc : forall z, continuity_pt phi z).
  { intros z. apply rupto_cont. intros i Hi. unfold g.
    assert (Ci : continuity_pt (fun z => xc i z - yc i z) z).
    { apply (continuity_pt_minus (xc i) (yc i)).
      - apply (clamp_cont 0 TT (fun z => X z i) T0). apply (lip_cont 0 TT _ K). intros a b Ha Hb. exact (Lip i a b Hi Ha Hb).
      - apply (clamp_cont 0 TT (fun z => Y z i) T0). exact (CY i Hi). }
    exact (continuity_pt_mult _ _ z Ci Ci). }
  assert (Dd : forall z, 0 < z < T -> ~ In z (grid_points o rho ++ pts) -> exists l, derivable_pt_lim phi z l /\ l <= (4 * L + 2 + W) * phi z + E).
  { intros z Hz N. assert (N1 : ~ In z (grid_points o rho)) by (intros G; apply N, in_app_iff; auto).
    assert (N2 : ~ In z pts) by (intros G; apply N, in_app_iff; auto).
    destruct (DX z ltac:(lra) (not_grid_point o rho z N1)) as (c & e & n & be & y & th & He & Ht & Xz & B1 & B2 & Dx).
    destruct (element_in_stage o rho Hh c e He) as [S1 S2]. destruct He as [Hc He].
    destruct (DY c z Hc ltac:(lra) N2) as (th' & Ay & Dy).
    set (v := fun j => velocity o m rho c (y j) (th j)) in *. set (w := velocity o m rho c (Y z) th') in *.
    set (vx := fun i => rupto n (fun j => be j * v j i)).
    assert (Zc : Rmax 0 (Rmin TT z) = z) by (apply clamp_id; lra).
    exists (rupto (m_nx m) (fun i => 2 * ((X z i - Y z i) * (vx i - w i)))). split.
    - apply rupto_deriv. intros i Hi. unfold g.
      assert (Di : derivable_pt_lim (fun z => xc i z - yc i z) z (vx i - w i)).
      { apply (derivable_pt_lim_minus (xc i) (yc i)).
        - apply (clamp_deriv 0 TT (fun z => X z i)); [lra|]. exact (Dx i Hi).
        - apply (clamp_deriv 0 TT (fun z => Y z i)); [lra|]. exact (Dy i Hi). }
      pose proof (derivable_pt_lim_mult _ _ z _ _ Di Di) as G.
      replace (2 * ((X z i - Y z i) * (vx i - w i))) with
        ((vx i - w i) * (xc i z - yc i z) + (xc i z - yc i z) * (vx i - w i)); [exact G|].
      unfold xc, yc. rewrite Zc. ring.
    - rewrite Pe by lra. rewrite rupto_scale. set (P := distance2 m (X z) (Y z)). set (kap := rupto n be) in *.
      assert (P1 : 0 <= P) by (apply rupto_nonneg; intros i _; apply (Rle_0_sqr (X z i - Y z i))).
      set (q := fun j => rupto (m_nx m) (fun i => (X z i - Y z i) * (v j i - w i))).
      set (r := rupto (m_nx m) (fun i => (X z i - Y z i) * w i)).
      assert (Ed : rupto (m_nx m) (fun i => (X z i - Y z i) * (vx i - w i)) = rupto n (fun j => be j * q j) + (kap - 1) * r).
      { unfold q, r. rewrite (rupto_ext n _ (fun j => rupto (m_nx m) (fun i => be j * ((X z i - Y z i) * (v j i - w i))))) by (intros j _; rewrite rupto_scale; reflexivity).
        rewrite rupto_swap, <- rupto_scale, <- rupto_plus. apply rupto_ext. intros i _. unfold vx, kap.
        rewrite (rupto_ext n (fun j => be j * ((X z i - Y z i) * (v j i - w i))) (fun j => (X z i - Y z i) * (be j * v j i) + - ((X z i - Y z i) * w i) * be j)) by (intros; ring).
        rewrite rupto_plus, !rupto_scale. ring. }
      set (Q := (2 * L + 1) * P + nx * (Lf * delta * (Lf * delta))).
      assert (Q0 : 0 <= Q).
      { unfold Q. assert (0 <= L * P) by (apply Rmult_le_pos; assumption).
        assert (0 <= nx * (Lf * delta * (Lf * delta))); [|lra]. apply Rmult_le_pos; [exact N0|]. apply (Rle_0_sqr (Lf * delta)). }
      assert (U1 : 2 * rupto n (fun j => be j * q j) <= kap * Q).
      { unfold kap. rewrite (Rmult_comm _ Q), <- !rupto_scale. apply rupto_le. intros j Hj. destruct (B1 j Hj) as (b0 & Dj & Aj & Nj).
        rewrite (Rmult_comm Q). replace (2 * (be j * q j)) with (be j * (2 * q j)) by ring. apply Rmult_le_compat_l; [exact b0|]. apply one_term'; try assumption. apply YD. lra. }
      assert (Kb : - W <= kap - 1 <= W) by (revert B2; fold W; unfold Rabs; destruct (Rcase_abs _); lra).
      assert (U2 : kap * Q <= 2 * Q) by (apply Rmult_le_compat_r; lra).
      assert (U3 : 2 * ((kap - 1) * r) <= W * (P + nx * (M * M))).
      { assert (R1 : 2 * Rabs r <= P + nx * (M * M)).
        { unfold r. eapply Rle_trans; [apply Rmult_le_compat_l; [lra|apply rupto_abs]|]. rewrite <- rupto_scale. unfold P, distance2, nx.
          rewrite <- rupto_const, <- rupto_plus. apply rupto_le. intros i Hi.
          pose proof (BD c (Y z) th' i Hc (YD z ltac:(lra)) (proj1 Ay) Hi) as Vw. fold w in Vw. rewrite Rabs_mult.
          set (dd := X z i - Y z i). pose proof (Rle_0_sqr (Rabs dd - M)) as Sq. unfold Rsqr in Sq.
          assert (Sa : Rabs dd * Rabs dd = dd * dd) by (rewrite <- Rabs_mult; apply Rabs_right, Rle_ge, (Rle_0_sqr dd)).
          assert (Rabs dd * Rabs (w i) <= Rabs dd * M) by (apply Rmult_le_compat_l; [apply Rabs_pos|exact Vw]). lra. }
        assert (R2 : (kap - 1) * r <= W * Rabs r).
        { eapply Rle_trans; [apply Rle_abs|]. rewrite Rabs_mult. apply Rmult_le_compat_r; [apply Rabs_pos|exact B2]. }
        assert (R3 : W * (2 * Rabs r) <= W * (P + nx * (M * M))) by (apply Rmult_le_compat_l; assumption). lra. }
      rewrite Ed. unfold Q in *. unfold E. lra. }
  pose proof (gronwall phi (4 * L + 2 + W) E T (grid_points o rho ++ pts) ltac:(lra) E0 ltac:(lra) Cc Dd) as G.
  rewrite P0, Pe in G by lra. rewrite Rplus_0_l in G. exact G.
Qed.
End Compare.
