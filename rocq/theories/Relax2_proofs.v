(* Relax2_proofs.v -- relaxed problems: the trajectory through the grid points and its distance from the solutions *)
From Coq Require Import Reals Qreals Lra Psatz.
From Verif Require Import Base Sx Utils Tableau Opts Model Ocp Problem Spec Cases Lib Sx_proofs Fe_proofs Prob_proofs Coll_proofs
  Body_proofs Model_proofs Con_proofs Index3_proofs Fesd Sem_proofs Dcs_proofs Point_proofs Elem_proofs Nlp_proofs
  Opts_proofs Tableau_proofs Poly_proofs Spec2 Feas_proofs Feas2_proofs Spec3 Numeric Mode_proofs Smooth_proofs Spec9 Spec10 Results_proofs Results2_proofs Results3_proofs Spec4 Init_proofs Filippov_proofs
  Filippov2_proofs Filippov3_proofs Exact_proofs Exact2_proofs Spec11 ExistBase_proofs Spec20 Soft_proofs Spec21 Conv_proofs Conv2_proofs Conv3_proofs Conv4_proofs Spec24 Relax_proofs.
Local Open Scope R_scope.

Section Con.
Variables (lr : Q -> Q -> Q -> nat) (cp : nat -> scheme -> list Q) (d : ipopt_dict) (o : opts) (m : model)
  (oc : option ocp) (C : constructed) (rho : env).
Hypothesis FP : fesd_problem lr cp d o m oc C.
Hypothesis FE : feasible rho (the_nlp C).
Hypothesis CS : relaxed_setting cp (the_opts C) m.
Notation O := (the_opts C).
Notation t := (cn_tab C).
Variables (near : R -> env -> nat -> nat -> Prop) (D : (nat -> R) -> Prop) (M h eps : R).
Hypothesis Act : forall c e j, is_element O c e -> (j < o_ns O)%nat ->
  nearly_active_weights m near eps (plain_point m rho c (stage_state O t rho c e j)) (th_at m C rho c e j).
Hypothesis SI : stages_in O t rho D.
Hypothesis BD : bounded_on O m rho D M.
Hypothesis M0 : 0 <= M.
Hypothesis Hh : steps_upto O rho h.
Variable A : nat -> nat -> R.
Hypothesis HA : forall c e j i, is_element O c e -> (j < o_ns O)%nat -> (i < m_nx m)%nat ->
  stage_state O t rho c e j i - start_state O t rho c e i =
  step_len O rho c e * rupto (o_ns O) (fun k => A j k * (speed O rho c * rhs O m (stage_point O t m rho c e k) i)).
Let K : R := coeff_bound (o_ns O) A + 2.

Lemma rhs_velocity' c e j i : speed O rho c * rhs O m (stage_point O t m rho c e j) i = velocity O m rho c (stage_state O t rho c e j) (th_at m C rho c e j) i.
Proof. unfold velocity, th_at. destruct CS as (_ & _ & PF & _). rewrite (rhs_plain m PF). reflexivity. Qed.
Lemma stage_bound' c e j i : is_element O c e -> (j < o_ns O)%nat -> (i < m_nx m)%nat ->
  Rabs (speed O rho c * rhs O m (stage_point O t m rho c e j) i) <= M.
Proof.
  intros He Hj Hi. rewrite rhs_velocity'. apply BD; [apply He|apply SI; assumption|apply (Act c e j He Hj)|exact Hi].
Qed.
Lemma element_weights' c e : is_element O c e -> exists be : nat -> R, (forall j, (j < o_ns O)%nat -> 0 <= be j) /\ Rabs (rupto (o_ns O) be - 1) <= weight_error O /\
  forall i, (i < m_nx m)%nat -> end_state O t rho c e i - start_state O t rho c e i =
    step_len O rho c e * rupto (o_ns O) (fun j => be j * (speed O rho c * rhs O m (stage_point O t m rho c e j) i)).
Proof.
  intros He. destruct FP as (H & E & W). destruct FE as [F1 F2]. destruct CS as (P1 & P2 & _).
  destruct (elem_all _ _ _ _ _ _ _ H E W rho F2 c e _ (element_fe _ _ _ _ _ _ _ FP c e He)) as (_ & Co & Cn & _).
  exact (weights cp O t m rho (t_made _ _ _ _ _ _ _ H) (ns_pos _ _ _ _ _ _ _ H) c e P1 P2 Co Cn).
Qed.
Lemma near_stage' c e tau be j i : is_element O c e -> 0 <= tau <= 1 -> (j < o_ns O)%nat -> (i < m_nx m)%nat ->
  (forall j, (j < o_ns O)%nat -> 0 <= be j) -> Rabs (rupto (o_ns O) be - 1) <= weight_error O ->
  end_state O t rho c e i - start_state O t rho c e i =
    step_len O rho c e * rupto (o_ns O) (fun j => be j * (speed O rho c * rhs O m (stage_point O t m rho c e j) i)) ->
  Rabs (stage_state O t rho c e j i - segment O t rho c e tau i) <= K * M * h.
Proof.
  intros He Ht Hj Hi B1 B2 B3. pose proof (Hh c e He) as [h0 h1]. pose proof (HA c e j i He Hj Hi) as G.
  set (hh := step_len O rho c e) in *.
  set (u := fun k => speed O rho c * rhs O m (stage_point O t m rho c e k) i) in *.
  assert (Ub : forall k, (k < o_ns O)%nat -> Rabs (u k) <= M) by (intros k Hk; apply stage_bound'; assumption).
  assert (C1 : Rabs (rupto (o_ns O) (fun k => A j k * u k)) <= coeff_bound (o_ns O) A * M) by (apply coeff_use; assumption).
  assert (C2 : Rabs (rupto (o_ns O) (fun k => be k * u k)) <= 2 * M).
  { eapply Rle_trans; [apply rupto_abs|]. eapply Rle_trans; [apply (rupto_le _ _ (fun k => M * be k))|].
    - intros k Hk. rewrite Rabs_mult, (Rabs_right (be k)) by (apply Rle_ge, B1, Hk). rewrite Rmult_comm. apply Rmult_le_compat_r; [apply B1, Hk|apply Ub, Hk].
    - rewrite rupto_scale, Rmult_comm. apply Rmult_le_compat_r; [exact M0|].
      pose proof (weight_error_small C). revert B2. unfold Rabs. destruct (Rcase_abs _); lra. }
  set (a := rupto (o_ns O) (fun k => A j k * u k)) in *. set (b := rupto (o_ns O) (fun k => be k * u k)) in *.
  unfold segment. replace (stage_state O t rho c e j i - _) with (hh * (a - tau * b)) by (unfold u in *; fold a b in G, B3; lra || nra).
  rewrite Rabs_mult, (Rabs_right hh) by lra.
  assert (C3 : Rabs (a - tau * b) <= K * M).
  { replace (a - tau * b) with (a + - (tau * b)) by ring. eapply Rle_trans; [apply Rabs_triang|]. rewrite Rabs_Ropp, Rabs_mult, (Rabs_right tau) by lra.
    assert (tau * Rabs b <= 1 * (2 * M)) by (apply Rmult_le_compat; [lra|apply Rabs_pos|lra|exact C2]). unfold K. lra. }
  rewrite Rmult_comm. apply Rmult_le_compat; [apply Rabs_pos|exact h0|exact C3|exact h1].
Qed.
Lemma relaxed_approximate : exists X, relaxed_trajectory O t m rho near D (K * M * h) eps X.
Proof.
  assert (NP : forall c, (c < o_N_stages O)%nat -> (0 < nfe_of O c)%nat) by (intros; eapply nfe_pos_con; eassumption).
  assert (Sp : forall c e, is_element O c e -> exists v, forall i, (i < m_nx m)%nat ->
    end_state O t rho c e i - start_state O t rho c e i = step_len O rho c e * v i).
  { intros c e He. destruct (element_weights' c e He) as (be & _ & _ & B). eexists (fun i => _). exact B. }
  destruct (line O t m rho NP (N_pos _ _ _ _ _ _ _ FP) (fun c e He => proj1 (Hh c e He)) Sp) as (P1 & P2 & P3 & P4).
  eexists. split; [exact P1|]. split; [exact P2|]. split; [exact P3|].
  intros tm Ht Hne. destruct (P4 tm Ht Hne) as (c & e & He & In1 & EX & DX).
  destruct (element_weights' c e He) as (be & B1 & B2 & B3). set (hh := step_len O rho c e) in *.
  exists c, e, (o_ns O), be, (stage_state O t rho c e), (th_at m C rho c e).
  split; [exact He|]. split; [exact In1|]. split; [|split; [exact B2|]].
  - intros j Hj. split; [apply B1, Hj|]. split; [apply SI; assumption|]. split; [apply Act; assumption|].
    intros i Hi. rewrite EX. apply (near_stage' c e _ be); try assumption; [|exact (B3 i Hi)].
    fold hh. assert (Hp : 0 < hh) by lra. split.
    + apply Rmult_le_pos; [lra|]. left. apply Rinv_0_lt_compat. exact Hp.
    + apply (Rmult_le_reg_r hh); [exact Hp|]. unfold Rdiv. rewrite Rmult_assoc, Rinv_l by lra. lra.
  - intros i Hi. rewrite (rupto_ext _ _ (fun j => be j * (speed O rho c * rhs O m (stage_point O t m rho c e j) i))) by (intros j _; rewrite rhs_velocity'; reflexivity).
    specialize (DX i Hi). rewrite (B3 i Hi) in DX.
    match type of DX with derivable_pt_lim _ _ ?x => replace x with (rupto (o_ns O) (fun j => be j * (speed O rho c * rhs O m (stage_point O t m rho c e j) i))) in DX; [exact DX|] end.
    field. lra.
Qed.
End Con.

(* ---- comparison ---- *)
Lemma choose_below {A} (P : nat -> A -> Prop) n (d : A) : (forall j, (j < n)%nat -> exists a, P j a) -> exists f, forall j, (j < n)%nat -> P j (f j).
Proof.
  induction n as [|n IH]; intros Hn; [exists (fun _ => d); intros; lia|].
  destruct IH as [f Hf]; [intros j Hj; apply Hn; lia|]. destruct (Hn n ltac:(lia)) as [a Ha].
  exists (fun j => if Nat.eqb j n then a else f j). intros j Hj. destruct (Nat.eqb j n) eqn:E.
  - apply Nat.eqb_eq in E. subst j. exact Ha.
  - apply Nat.eqb_neq in E. apply Hf. lia.
Qed.
Section Compare.
Variables (o : opts) (t : tab) (m : model) (rho : env) (act : env -> nat -> nat -> Prop) (near : R -> env -> nat -> nat -> Prop)
  (D : (nat -> R) -> Prop) (X Y : R -> nat -> R) (L M delta eps r : R).
Hypothesis Hh : steps_nonneg o rho.
Hypothesis AX : relaxed_trajectory o t m rho near D delta eps X.
Hypothesis CO : correctable_on o m rho act near D eps r.
(* Y solves the switched system, from any initial state *)
Hypothesis CY : forall i, (i < m_nx m)%nat -> continuous_between 0 (end_time o rho) (fun z => Y z i).
Variable pts : list R.
Hypothesis DY : forall c tm, (c < o_N_stages o)%nat -> grid_time o rho c 0 < tm < grid_time o rho c 0 + stage_length o rho c -> ~ In tm pts ->
  exists th, active_weights m act (plain_point m rho c (Y tm)) th /\
    forall i, (i < m_nx m)%nat -> derivable_pt_lim (fun z => Y z i) tm (velocity o m rho c (Y tm) th i).
Hypothesis YD : forall tm, 0 <= tm <= end_time o rho -> D (Y tm).
Hypothesis L0 : 0 <= L.
Hypothesis M0 : 0 <= M.
Hypothesis d0 : 0 <= delta.
Hypothesis r0 : 0 <= r.
Hypothesis OS : one_sided_on o m rho act D L.
Hypothesis BD : bounded_on o m rho D M.
Let W : R := weight_error o.
Let nx : R := INR (m_nx m).
Let dr : R := delta + r.
Let E : R := nx * (8 * L * (dr * dr) + 8 * M * dr + W * (M * M) + 2 * (r * r)).

Lemma relaxed_from T : 0 <= T <= end_time o rho ->
  distance2 m (X T) (Y T) <= (distance2 m (X 0) (Y 0) + E * T) * exp ((8 * L + W + 2) * T).
Proof.
  intros HT. destruct AX as ((K & Lip) & _ & _ & DX). set (TT := end_time o rho) in *.
  assert (T0 : 0 <= TT) by lra. assert (W0 : 0 <= W) by apply error_nonneg.
  assert (W1 : W <= 1) by (unfold W, weight_error; destruct (o_repr o); unfold Q2R, tolerance; cbn [Qnum Qden]; lra).
  assert (N0 : 0 <= nx) by apply pos_INR. assert (dr0 : 0 <= dr) by (unfold dr; lra).
  assert (E1 : 0 <= L * (dr * dr)) by (apply Rmult_le_pos; [exact L0|apply Rmult_le_pos; exact dr0]).
  assert (E2 : 0 <= M * dr) by (apply Rmult_le_pos; assumption).
  assert (E3 : 0 <= W * (M * M)) by (apply Rmult_le_pos; [exact W0|apply Rmult_le_pos; exact M0]).
  assert (E4 : 0 <= r * r) by (apply Rmult_le_pos; exact r0).
  assert (E0 : 0 <= E) by (unfold E; apply Rmult_le_pos; [exact N0|lra]).
  set (xc := fun i z => X (Rmax 0 (Rmin TT z)) i). set (yc := fun i z => Y (Rmax 0 (Rmin TT z)) i).
  set (g := fun i z => (xc i z - yc i z) * (xc i z - yc i z)). set (phi := fun z => rupto (m_nx m) (fun i => g i z)).
  assert (Pe : forall z, 0 <= z <= TT -> phi z = distance2 m (X z) (Y z)).
  { intros z Hz. unfold phi, distance2, g, xc, yc. rewrite (clamp_id 0 TT z Hz). reflexivity. }
  assert (Cc : forall z, continuity_pt phi z).
  { intros z. apply rupto_cont. intros i Hi. unfold g.
    assert (Ci : continuity_pt (fun z => xc i z - yc i z) z).
    { apply (continuity_pt_minus (xc i) (yc i)).
      - apply (clamp_cont 0 TT (fun z => X z i) T0). apply (lip_cont 0 TT _ K). intros a b Ha Hb. exact (Lip i a b Hi Ha Hb).
      - apply (clamp_cont 0 TT (fun z => Y z i) T0). exact (CY i Hi). }
    exact (continuity_pt_mult _ _ z Ci Ci). }
  assert (Dd : forall z, 0 < z < T -> ~ In z (grid_points o rho ++ pts) -> exists l, derivable_pt_lim phi z l /\ l <= (8 * L + W + 2) * phi z + E).
  { intros z Hz N. assert (N1 : ~ In z (grid_points o rho)) by (intros G; apply N, in_app_iff; auto).
    assert (N2 : ~ In z pts) by (intros G; apply N, in_app_iff; auto).
    destruct (DX z ltac:(lra) (not_grid_point o rho z N1)) as (c & e & n & be & y & th & He & Ht & B1 & B2 & Dx).
    destruct (element_in_stage o rho Hh c e He) as [S1 S2]. destruct He as [Hc He].
    destruct (DY c z Hc ltac:(lra) N2) as (th' & Ay & Dy).
    destruct (choose_below (fun j (q : (nat -> R) * (nat -> nat -> R)) => D (fst q) /\ active_weights m act (plain_point m rho c (fst q)) (snd q) /\
        forall i, (i < m_nx m)%nat -> Rabs (fst q i - X z i) <= dr /\ Rabs (velocity o m rho c (y j) (th j) i - velocity o m rho c (fst q) (snd q) i) <= r)
      n (fun _ => 0, fun _ _ => 0)) as [yq Hq].
    { intros j Hj. destruct (B1 j Hj) as (_ & Dj & Aj & Nj). destruct (CO c (y j) (th j) Hc Dj Aj) as (x' & q & Dx' & Ax' & G). exists (x', q). cbn [fst snd].
      split; [exact Dx'|]. split; [exact Ax'|]. intros i Hi. destruct (G i Hi) as [G1 G2]. split; [|exact G2]. specialize (Nj i Hi).
      replace (x' i - X z i) with ((x' i - y j i) + (y j i - X z i)) by ring. eapply Rle_trans; [apply Rabs_triang|]. unfold dr. lra. }
    set (u := fun j => velocity o m rho c (y j) (th j)) in *. set (v := fun j => velocity o m rho c (fst (yq j)) (snd (yq j))) in *.
    set (w := velocity o m rho c (Y z) th') in *.
    set (vx := fun i => rupto n (fun j => be j * u j i)).
    assert (Zc : Rmax 0 (Rmin TT z) = z) by (apply clamp_id; lra).
    exists (rupto (m_nx m) (fun i => 2 * ((X z i - Y z i) * (vx i - w i)))). split.
    - apply rupto_deriv. intros i Hi. unfold g.
      assert (Di : derivable_pt_lim (fun z => xc i z - yc i z) z (vx i - w i)).
      { apply (derivable_pt_lim_minus (xc i) (yc i)).
        - apply (clamp_deriv 0 TT (fun z => X z i)); [lra|]. exact (Dx i Hi).
        - apply (clamp_deriv 0 TT (fun z => Y z i)); [lra|]. exact (Dy i Hi). }
      pose proof (derivable_pt_lim_mult _ _ z _ _ Di Di) as G.
      replace (2 * ((X z i - Y z i) * (vx i - w i))) with
        ((vx i - w i) * (xc i z - yc i z) + (xc i z - yc i z) * (vx i - w i)); [exact G|].
      unfold xc, yc. rewrite Zc. ring.
    - rewrite Pe by lra. rewrite rupto_scale. set (P := distance2 m (X z) (Y z)). set (kap := rupto n be) in *.
      assert (P1 : 0 <= P) by (apply rupto_nonneg; intros i _; apply (Rle_0_sqr (X z i - Y z i))).
      set (q := fun j => rupto (m_nx m) (fun i => (X z i - Y z i) * (v j i - w i))).
      set (sl := fun j => rupto (m_nx m) (fun i => (X z i - Y z i) * (u j i - v j i))).
      set (rr := rupto (m_nx m) (fun i => (X z i - Y z i) * w i)).
      assert (Ed : rupto (m_nx m) (fun i => (X z i - Y z i) * (vx i - w i)) = rupto n (fun j => be j * (q j + sl j)) + (kap - 1) * rr).
      { unfold q, sl, rr. rewrite (rupto_ext n _ (fun j => rupto (m_nx m) (fun i => be j * ((X z i - Y z i) * (u j i - w i))))).
        2: { intros j _. rewrite rupto_scale. f_equal. rewrite <- rupto_plus. apply rupto_ext. intros i _. ring. }
        rewrite rupto_swap, <- rupto_scale, <- rupto_plus. apply rupto_ext. intros i _. unfold vx, kap.
        rewrite (rupto_ext n (fun j => be j * ((X z i - Y z i) * (u j i - w i))) (fun j => (X z i - Y z i) * (be j * u j i) + - ((X z i - Y z i) * w i) * be j)) by (intros; ring).
        rewrite rupto_plus, !rupto_scale. ring. }
      set (Q := 2 * L * P + nx * (2 * L * (dr * dr) + 2 * M * dr)).
      assert (Q0 : 0 <= Q).
      { unfold Q. assert (0 <= L * P) by (apply Rmult_le_pos; assumption).
        assert (0 <= nx * (2 * L * (dr * dr) + 2 * M * dr)); [|lra]. apply Rmult_le_pos; [exact N0|lra]. }
      set (G2 := / 2 * (P + nx * (r * r))).
      assert (G20 : 0 <= G2) by (unfold G2; assert (0 <= nx * (r * r)) by (apply Rmult_le_pos; assumption); lra).
      assert (SL : forall j, (j < n)%nat -> sl j <= G2).
      { intros j Hj. destruct (Hq j Hj) as (_ & _ & G). unfold sl, G2, P, distance2, nx. rewrite <- rupto_const, <- rupto_plus, <- rupto_scale. apply rupto_le.
        intros i Hi. destruct (G i Hi) as [_ G1]. change (Rabs (u j i - v j i) <= r) in G1. set (a := X z i - Y z i) in *. set (b := u j i - v j i) in *.
        pose proof (Rle_0_sqr (a - b)) as Sq. unfold Rsqr in Sq.
        assert (b * b <= r * r). { rewrite <- (Rabs_right (b * b)) by (apply Rle_ge; apply (Rle_0_sqr b)). rewrite Rabs_mult. apply Rmult_le_compat; try apply Rabs_pos; exact G1. }
        lra. }
      assert (U1 : rupto n (fun j => be j * (q j + sl j)) <= kap * (Q + G2)).
      { unfold kap. rewrite (Rmult_comm _ (Q + G2)), <- rupto_scale. apply rupto_le. intros j Hj. destruct (B1 j Hj) as (b0 & _).
        destruct (Hq j Hj) as (Dj & Aj & Nj).
        rewrite (Rmult_comm (Q + G2)). apply Rmult_le_compat_l; [exact b0|]. apply Rplus_le_compat; [|exact (SL j Hj)].
        apply (one_term o m rho act D L M dr L0 OS BD c (X z) (fst (yq j)) (Y z) (snd (yq j)) th' Hc Dj); [apply YD; lra|exact Aj|exact Ay|].
        intros i Hi. apply (Nj i Hi). }
      assert (Kb : - W <= kap - 1 <= W) by (revert B2; fold W; unfold Rabs; destruct (Rcase_abs _); lra).
      assert (U2 : kap * (Q + G2) <= 2 * (Q + G2)) by (apply Rmult_le_compat_r; lra).
      assert (U3 : 2 * ((kap - 1) * rr) <= W * (P + nx * (M * M))).
      { assert (R1 : 2 * Rabs rr <= P + nx * (M * M)).
        { unfold rr. eapply Rle_trans; [apply Rmult_le_compat_l; [lra|apply rupto_abs]|]. rewrite <- rupto_scale. unfold P, distance2, nx.
          rewrite <- rupto_const, <- rupto_plus. apply rupto_le. intros i Hi.
          pose proof (BD c (Y z) th' i Hc (YD z ltac:(lra)) (proj1 Ay) Hi) as Vw. fold w in Vw. rewrite Rabs_mult.
          set (dd := X z i - Y z i). pose proof (Rle_0_sqr (Rabs dd - M)) as Sq. unfold Rsqr in Sq.
          assert (Sa : Rabs dd * Rabs dd = dd * dd) by (rewrite <- Rabs_mult; apply Rabs_right, Rle_ge, (Rle_0_sqr dd)).
          assert (Rabs dd * Rabs (w i) <= Rabs dd * M) by (apply Rmult_le_compat_l; [apply Rabs_pos|exact Vw]). lra. }
        assert (R2 : (kap - 1) * rr <= W * Rabs rr).
        { eapply Rle_trans; [apply Rle_abs|]. rewrite Rabs_mult. apply Rmult_le_compat_r; [apply Rabs_pos|exact B2]. }
        assert (R3 : W * (2 * Rabs rr) <= W * (P + nx * (M * M))) by (apply Rmult_le_compat_l; assumption). lra. }
      rewrite Ed. unfold Q, G2 in *. unfold E. lra. }
  pose proof (gronwall phi (8 * L + W + 2) E T (grid_points o rho ++ pts) ltac:(lra) E0 ltac:(lra) Cc Dd) as G.
  rewrite !Pe in G by lra. exact G.
Qed.
End Compare.
Lemma relaxed_compare o t m rho act near D X Y L M delta eps r : steps_nonneg o rho -> relaxed_trajectory o t m rho near D delta eps X ->
  correctable_on o m rho act near D eps r -> exact_solution o m rho act Y -> (forall tm, 0 <= tm <= end_time o rho -> D (Y tm)) ->
  0 <= L -> 0 <= M -> 0 <= delta -> 0 <= r -> one_sided_on o m rho act D L -> bounded_on o m rho D M ->
  forall T, 0 <= T <= end_time o rho -> distance2 m (X T) (Y T) <= relaxed_bound o m L M (delta + r) r T.
Proof.
  intros Hh AX CO (CY & Y0 & pts & DY) YD L0 M0 d0 r0 OS BD T HT.
  pose proof (relaxed_from o t m rho act near D X Y L M delta eps r Hh AX CO CY pts DY YD L0 M0 d0 r0 OS BD T HT) as G. destruct AX as (_ & X0 & _).
  assert (P0 : distance2 m (X 0) (Y 0) = 0).
  { unfold distance2. transitivity (rupto (m_nx m) (fun _ => 0)); [|rewrite rupto_const; ring].
    apply rupto_ext. intros i Hi. rewrite X0, Y0 by assumption. ring. }
  rewrite P0, Rplus_0_l in G. exact G.
Qed.
