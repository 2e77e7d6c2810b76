(* Cost2_proofs.v -- the objective: constants that depend on the method only, refinement of the grid, existence of the cost *)
From Coq Require Import Reals Qreals Lra Psatz.
From Verif Require Import Base Sx Utils Tableau Opts Model Ocp Problem Spec Cases Lib Sx_proofs Fe_proofs Prob_proofs Coll_proofs
  Body_proofs Model_proofs Con_proofs Index3_proofs Fesd Sem_proofs Dcs_proofs Point_proofs Elem_proofs Nlp_proofs
  Opts_proofs Tableau_proofs Poly_proofs Spec2 Feas_proofs Feas2_proofs Spec3 Numeric Mode_proofs Smooth_proofs Spec9 Spec10 Results_proofs Results2_proofs Results3_proofs Spec4 Init_proofs Filippov_proofs
  Filippov2_proofs Filippov3_proofs Exact_proofs Exact2_proofs Spec11 ExistBase_proofs Spec20 Soft_proofs Spec21 Conv_proofs Conv2_proofs Conv3_proofs Conv4_proofs
  Spec22 Conv6_proofs Conv7_proofs Spec24 Relax_proofs Relax2_proofs Relax3_proofs Spec25 Cost_proofs.
Local Open Scope R_scope.

Lemma objective_error cp re sc n : exists K, 0 <= K /\
  forall lr d o m oc C rho act near D M h eta Lq LT Mq Y J, fesd_problem lr cp d o m oc C -> feasible rho (the_nlp C) ->
  relaxed_setting cp (the_opts C) m -> method re sc n (the_opts C) -> near_rule (the_opts C) m act near -> no_left_weight (the_opts C) (cn_tab C) ->
  stages_in (the_opts C) (cn_tab C) rho D -> bounded_on (the_opts C) m rho D M -> 0 <= M -> steps_upto (the_opts C) rho h ->
  exact_solution (the_opts C) m rho act Y -> (forall tm, 0 <= tm <= end_time (the_opts C) rho -> D (Y tm)) ->
  grid_close (the_opts C) (cn_tab C) m rho eta Y -> 0 <= eta ->
  uses_only (plain_sym m) (oc_fq (the_ocp oc)) -> rate_lipschitz (the_opts C) m (the_ocp oc) rho D Lq -> 0 <= Lq -> rate_bounded (the_opts C) m (the_ocp oc) rho D Mq ->
  end_lipschitz (the_opts C) m (the_ocp oc) rho D LT ->
  D (end_state (the_opts C) (cn_tab C) rho (last_stage (the_opts C)) (last_elem (the_opts C) (last_stage (the_opts C)))) ->
  accumulated_cost (the_opts C) m (the_ocp oc) rho Y J ->
  Rabs (eval rho (cost (the_nlp C)) - (elastic_penalty (the_opts C) rho +
    cost_scale (the_opts C) rho * (step_penalty (the_opts C) (cn_tab C) m rho + total_cost (the_opts C) m (the_ocp oc) rho Y J))) <=
  Rabs (cost_scale (the_opts C) rho) * ((K * (Lq * (eta + K * M * h)) + weight_error (the_opts C) * Mq) * end_time (the_opts C) rho + LT * eta).
Proof.
  destruct (stage_offset cp re sc n) as [A HA]. destruct (cost_weights cp re sc n) as (Kw & Kw0 & HW).
  pose proof (coeff_nonneg n A) as A0. exists (Kw + coeff_bound n A + 3). split; [lra|].
  intros lr d o m oc C rho act near D M h eta Lq LT Mq Y J FP FE CS Me NR NL SI BD M0 Hh EY YD GC e0 PQ RL L0 RB EL ED AJ. pose proof Me as (E1 & E2 & E3).
  assert (HA' : forall c e j i, is_element (the_opts C) c e -> (j < o_ns (the_opts C))%nat -> (i < m_nx m)%nat ->
    stage_state (the_opts C) (cn_tab C) rho c e j i - start_state (the_opts C) (cn_tab C) rho c e i =
    step_len (the_opts C) rho c e * rupto (o_ns (the_opts C)) (fun k => A j k * (speed (the_opts C) rho c * rhs (the_opts C) m (stage_point (the_opts C) (cn_tab C) m rho c e k) i))).
  { intros c e j i He Hj Hi. pose proof FP as (H & E & W). pose proof FE as [F1 F2]. destruct CS as (P1 & _).
    destruct (elem_all _ _ _ _ _ _ _ H E W rho F2 c e _ (element_fe _ _ _ _ _ _ _ FP c e He)) as (_ & Co & _).
    rewrite E3 in Hj |- *. exact (HA _ _ m rho c e j i Me (t_made _ _ _ _ _ _ _ H) P1 Co Hj Hi). }
  destruct (HW _ _ Me (t_made _ _ _ _ _ _ _ (proj1 FP)) (proj1 CS) NL) as [W1 W2].
  pose proof (objective_close lr cp d o m oc C rho FP FE CS act near D M h eta Kw Y NR SI BD M0 Hh A HA' EY YD GC e0 Lq LT Mq J PQ RL RB EL ED AJ L0 W1 W2) as G.
  eapply Rle_trans; [exact G|]. apply Rmult_le_compat_l; [apply Rabs_pos|].
  assert (SN : steps_nonneg (the_opts C) rho) by (intros c' e' He'; apply (Hh c' e' He')).
  pose proof (grid_in C rho SN _ _ (has_element _ _ _ _ _ _ _ FP)) as GI. pose proof (Hh _ _ (has_element _ _ _ _ _ _ _ FP)) as H0.
  apply Rplus_le_compat_r. apply Rmult_le_compat_r; [lra|]. apply Rplus_le_compat_r. rewrite E3.
  set (a := coeff_bound n A) in *.
  assert (P : 0 <= M * h) by (apply Rmult_le_pos; lra). assert (P2 : 0 <= a * (M * h)) by (apply Rmult_le_pos; assumption). assert (P3 : 0 <= Kw * (M * h)) by (apply Rmult_le_pos; assumption).
  apply Rmult_le_compat; [exact Kw0| |lra|].
  - apply Rmult_le_pos; [exact L0|]. lra.
  - apply Rmult_le_compat_l; [exact L0|]. lra.
Qed.

(* distances at the grid points *)
Lemma entry_distance m x y B i : 0 <= B -> distance2 m x y <= B -> (i < m_nx m)%nat -> Rabs (x i - y i) <= sqrt B.
Proof.
  intros B0 H Hi. rewrite <- (sqrt_Rsqr_abs (x i - y i)). apply sqrt_le_1_alt. eapply Rle_trans; [|exact H]. unfold distance2, Rsqr.
  clear H. induction (m_nx m) as [|k IH]; [lia|]. rewrite rupto_succ.
  assert (N : 0 <= rupto k (fun i => (x i - y i) * (x i - y i))) by (apply rupto_nonneg; intros j _; apply (Rle_0_sqr (x j - y j))).
  pose proof (Rle_0_sqr (x k - y k)) as S. unfold Rsqr in S.
  destruct (Nat.eq_dec i k) as [->|Ne]; [lra|]. specialize (IH ltac:(lia)). lra.
Qed.
Lemma inv_sqrt k : (0 < k)%nat -> / INR k <= sqrt (/ INR k).
Proof.
  intros Hk. assert (P : 1 <= INR k) by (apply (le_INR 1); lia). assert (I0 : 0 < / INR k) by (apply Rinv_0_lt_compat; lra).
  assert (I1 : / INR k <= 1) by (rewrite <- Rinv_1; apply Rinv_le_contravar; lra).
  rewrite <- (sqrt_square (/ INR k)) at 1 by lra. apply sqrt_le_1_alt. rewrite <- (Rmult_1_r (/ INR k)) at 3. apply Rmult_le_compat_l; lra.
Qed.
Lemma objective_relaxed cp sc n nx L M kappa T Lq LT : 0 <= L -> 0 <= M -> 0 <= kappa -> 0 <= Lq -> 0 <= LT -> exists B, 0 <= B /\
  forall lr d o m oc C rho act near D k eps Mq Y J, fesd_problem lr cp d o m oc C -> feasible rho (the_nlp C) ->
  relaxed_setting cp (the_opts C) m -> method Integral sc n (the_opts C) -> near_rule (the_opts C) m act near -> (m_nx m <= nx)%nat -> no_left_weight (the_opts C) (cn_tab C) ->
  0 <= eps <= 1 -> relaxed_by (the_opts C) m rho (eps * eps) ->
  o_terminal_time (the_opts C) = T -> (0 <= T)%Q -> ext_upto (o_gamma_h (the_opts C)) 1 ->
  stages_in (the_opts C) (cn_tab C) rho D -> bounded_on (the_opts C) m rho D M ->
  correctable_on (the_opts C) m rho act near D eps (kappa * eps) ->
  one_sided_on (the_opts C) m rho act D L -> exact_solution (the_opts C) m rho act Y ->
  (forall tm, 0 <= tm <= end_time (the_opts C) rho -> D (Y tm)) ->
  (0 < k)%nat -> 2 * Q2R T <= INR k -> (forall c, (c < o_N_stages (the_opts C))%nat -> (k <= o_N_stages (the_opts C) * nfe_of (the_opts C) c)%nat) ->
  (o_use_fesd (the_opts C) = false \/ o_equidistant (the_opts C) = true \/ (1 < o_N_stages (the_opts C))%nat) ->
  uses_only (plain_sym m) (oc_fq (the_ocp oc)) -> rate_lipschitz (the_opts C) m (the_ocp oc) rho D Lq -> rate_bounded (the_opts C) m (the_ocp oc) rho D Mq ->
  end_lipschitz (the_opts C) m (the_ocp oc) rho D LT ->
  D (end_state (the_opts C) (cn_tab C) rho (last_stage (the_opts C)) (last_elem (the_opts C) (last_stage (the_opts C)))) ->
  accumulated_cost (the_opts C) m (the_ocp oc) rho Y J ->
  Rabs (eval rho (cost (the_nlp C)) - (elastic_penalty (the_opts C) rho +
    cost_scale (the_opts C) rho * (step_penalty (the_opts C) (cn_tab C) m rho + total_cost (the_opts C) m (the_ocp oc) rho Y J))) <=
  Rabs (cost_scale (the_opts C) rho) * (B * sqrt (/ INR k + eps)).
Proof.
  intros L0 M0 k0 Lq0 LT0. destruct (Rle_dec 0 (Q2R T)) as [T0|NT].
  2: { exists 0. split; [lra|]. intros lr d o m oc C rho act near D k eps Mq Y J _ _ _ _ _ _ _ _ _ _ HT. apply Qle_Rle in HT. rewrite RMicromega.Q2R_0 in HT. contradiction. }
  destruct (relaxed_refinement cp sc n nx L M kappa T L0 M0 k0) as (B1 & B10 & HB). destruct (objective_error cp Integral sc n) as (K & K0 & HK).
  set (s := sqrt B1). assert (s0 : 0 <= s) by apply sqrt_pos. set (TT := Q2R T) in *.
  assert (Q1 : 0 <= K * M * (2 * TT)) by (apply Rmult_le_pos; [apply Rmult_le_pos; assumption|lra]).
  exists (K * (Lq * (s + K * M * (2 * TT))) * TT + LT * s).
  assert (BB : 0 <= K * (Lq * (s + K * M * (2 * TT))) * TT) by (apply Rmult_le_pos; [apply Rmult_le_pos; [exact K0|apply Rmult_le_pos; lra]|exact T0]).
  assert (BL : 0 <= LT * s) by (apply Rmult_le_pos; assumption).
  split; [lra|].
  intros lr d o m oc C rho act near D k eps Mq Y J FP FE CS Me MR Hn NL He RB ET HT Hg SI BD CO OS EY YD Hk Hk2 Hc EE PQ RL RBd EL ED AJ.
  assert (P : 0 < INR k) by (apply lt_0_INR; exact Hk). pose proof (Rinv_0_lt_compat _ P) as Ik. set (r := / INR k + eps). set (q := sqrt r).
  assert (r0 : 0 <= r) by (unfold r; lra). assert (q0 : 0 <= q) by apply sqrt_pos.
  assert (GC : grid_close (the_opts C) (cn_tab C) m rho (s * q) Y).
  { intros c e i Hce Hi. unfold s, q. rewrite <- sqrt_mult by assumption. apply (entry_distance m); [apply Rmult_le_pos; assumption| |exact Hi].
    exact (HB lr d o m oc C rho act near D k eps Y FP FE CS Me MR Hn He RB ET HT Hg SI BD CO OS EY YD Hk Hk2 Hc EE c e Hce). }
  assert (Tq : (0 <= o_terminal_time (the_opts C))%Q) by (rewrite ET; exact HT).
  pose proof (count_steps _ _ _ _ _ _ _ rho k FP FE Hg Tq Hk Hc) as SU. rewrite ET in SU. fold TT in SU.
  assert (E1 : end_time (the_opts C) rho = TT).
  { unfold TT. rewrite <- ET. destruct (o_use_fesd (the_opts C)) eqn:F; [|exact (plain_end _ _ _ _ _ _ _ rho (proj1 FP) F)].
    destruct EE as [EE|EE]; [discriminate EE|]. exact (end_time_T _ _ _ _ _ _ _ rho FP (proj2 FE) F EE). }
  assert (sq0 : 0 <= s * q) by (apply Rmult_le_pos; assumption).
  eapply Rle_trans; [exact (HK lr d o m oc C rho act near D M _ (s * q) Lq LT Mq Y J FP FE CS Me MR NL SI BD M0 SU EY YD GC sq0 PQ RL Lq0 RBd EL ED AJ)|].
  apply Rmult_le_compat_l; [apply Rabs_pos|]. rewrite E1. unfold weight_error. rewrite (proj1 Me), Rmult_0_l, Rplus_0_r.
  assert (Iq : / INR k <= q).
  { eapply Rle_trans; [apply inv_sqrt; exact Hk|]. apply sqrt_le_1_alt. unfold r. lra. }
  rewrite Rmult_plus_distr_r. apply Rplus_le_compat; [|lra].
  replace (K * (Lq * (s + K * M * (2 * TT))) * TT * q) with (K * (Lq * (s * q + K * M * (2 * TT) * q)) * TT) by ring.
  apply Rmult_le_compat_r; [exact T0|]. apply Rmult_le_compat_l; [exact K0|]. apply Rmult_le_compat_l; [exact Lq0|]. apply Rplus_le_compat_l.
  replace (K * M * (2 * (TT / INR k))) with (K * M * (2 * TT) * / INR k) by (unfold Rdiv; ring). apply Rmult_le_compat_l; assumption.
Qed.

(* FESD: first order *)
Lemma setting_relaxed cp o m rho : convergence_setting cp o m rho -> relaxed_setting cp o m.
Proof.
  intros (A & B & PF & ZR & _). split; [exact A|]. split; [exact B|]. split; [exact PF|]. unfold zero_relaxation in ZR. unfold product_mode. destruct (o_mpcc o); try exact Logic.I; contradiction.
Qed.
Lemma rule_relaxed o m act : mode_rule o m act -> exists near, near_rule o m act near.
Proof.
  intros [[A B]|(A & B & B2 & B3 & B4)]; [exists (near_smallest m); left|exists (near_region m); right]; repeat split; assumption || reflexivity.
Qed.
Lemma objective_fesd cp sc n nx L Lf M T Lq LT : 0 <= L -> 0 <= Lf -> 0 <= M -> 0 <= Lq -> 0 <= LT -> exists B, 0 <= B /\
  forall lr d o m oc C rho act D k Mq Y J, fesd_problem lr cp d o m oc C -> feasible rho (the_nlp C) ->
  fesd_setting cp (the_opts C) (cn_tab C) m rho -> method Integral sc n (the_opts C) -> mode_rule (the_opts C) m act -> (m_nx m <= nx)%nat -> no_left_weight (the_opts C) (cn_tab C) ->
  o_terminal_time (the_opts C) = T -> (0 <= T)%Q -> ext_upto (o_gamma_h (the_opts C)) 1 ->
  stages_in (the_opts C) (cn_tab C) rho D -> segments_in (the_opts C) (cn_tab C) rho D -> bounded_on (the_opts C) m rho D M ->
  one_sided_on (the_opts C) m rho act D L -> lipschitz_on (the_opts C) m rho D Lf -> exact_solution (the_opts C) m rho act Y ->
  (forall tm, 0 <= tm <= end_time (the_opts C) rho -> D (Y tm)) ->
  (0 < k)%nat -> (forall c, (c < o_N_stages (the_opts C))%nat -> (k <= o_N_stages (the_opts C) * nfe_of (the_opts C) c)%nat) ->
  (o_equidistant (the_opts C) = true \/ (1 < o_N_stages (the_opts C))%nat) ->
  uses_only (plain_sym m) (oc_fq (the_ocp oc)) -> rate_lipschitz (the_opts C) m (the_ocp oc) rho D Lq -> rate_bounded (the_opts C) m (the_ocp oc) rho D Mq ->
  end_lipschitz (the_opts C) m (the_ocp oc) rho D LT ->
  accumulated_cost (the_opts C) m (the_ocp oc) rho Y J ->
  Rabs (eval rho (cost (the_nlp C)) - cost_scale (the_opts C) rho * (step_penalty (the_opts C) (cn_tab C) m rho + total_cost (the_opts C) m (the_ocp oc) rho Y J)) <=
  Rabs (cost_scale (the_opts C) rho) * (B / INR k).
Proof.
  intros L0 Lf0 M0 Lq0 LT0. destruct (Rle_dec 0 (Q2R T)) as [T0|NT].
  2: { exists 0. split; [lra|]. intros lr d o m oc C rho act D k Mq Y J _ _ _ _ _ _ _ _ HT. apply Qle_Rle in HT. rewrite RMicromega.Q2R_0 in HT. contradiction. }
  destruct (refinement1 cp sc n nx L Lf M T L0 Lf0 M0) as (B1 & B10 & HB). destruct (objective_error cp Integral sc n) as (K & K0 & HK).
  set (s := sqrt B1). assert (s0 : 0 <= s) by apply sqrt_pos. set (TT := Q2R T) in *.
  assert (Q1 : 0 <= K * M * (2 * TT)) by (apply Rmult_le_pos; [apply Rmult_le_pos; assumption|lra]).
  exists (K * (Lq * (s + K * M * (2 * TT))) * TT + LT * s).
  assert (BB : 0 <= K * (Lq * (s + K * M * (2 * TT))) * TT) by (apply Rmult_le_pos; [apply Rmult_le_pos; [exact K0|apply Rmult_le_pos; lra]|exact T0]).
  assert (BL : 0 <= LT * s) by (apply Rmult_le_pos; assumption).
  split; [lra|].
  intros lr d o m oc C rho act D k Mq Y J FP FE FS Me MR Hn NL ET HT Hg SI SD BD OS LI EY YD Hk Hc EE PQ RL RBd EL AJ.
  assert (P : 0 < INR k) by (apply lt_0_INR; exact Hk). pose proof (Rinv_0_lt_compat _ P) as Ik. set (q := / INR k) in *.
  assert (GC : grid_close (the_opts C) (cn_tab C) m rho (s * q) Y).
  { intros c e i Hce Hi. unfold s, q. replace (sqrt B1 * / INR k) with (sqrt (B1 / (INR k * INR k))).
    2:{ unfold Rdiv. rewrite sqrt_mult_alt by exact B10. f_equal. rewrite Rinv_mult. apply sqrt_square. left. exact Ik. }
    assert (KK : 0 < INR k * INR k) by (apply Rmult_lt_0_compat; exact P).
    apply (entry_distance m); [apply Rmult_le_pos; [exact B10|left; apply Rinv_0_lt_compat; exact KK]| |exact Hi].
    exact (HB lr d o m oc C rho act D k Y FP FE FS Me MR Hn ET HT Hg SI SD BD OS LI EY YD Hk Hc EE c e Hce). }
  assert (Tq : (0 <= o_terminal_time (the_opts C))%Q) by (rewrite ET; exact HT).
  pose proof (count_steps _ _ _ _ _ _ _ rho k FP FE Hg Tq Hk Hc) as SU. rewrite ET in SU. fold TT in SU.
  assert (Hf : o_use_fesd (the_opts C) = true) by (destruct FS as (_ & _ & _ & _ & Hf & _); exact Hf).
  assert (E1 : end_time (the_opts C) rho = TT) by (unfold TT; rewrite <- ET; exact (end_time_T _ _ _ _ _ _ _ rho FP (proj2 FE) Hf EE)).
  assert (sq0 : 0 <= s * q) by (apply Rmult_le_pos; lra).
  destruct (rule_relaxed _ _ _ MR) as [near NR]. pose proof (setting_relaxed _ _ _ _ (proj1 FS)) as CS.
  assert (ED : D (end_state (the_opts C) (cn_tab C) rho (last_stage (the_opts C)) (last_elem (the_opts C) (last_stage (the_opts C))))).
  { pose proof (N_pos _ _ _ _ _ _ _ FP) as N0. assert (Nl : (last_stage (the_opts C) < o_N_stages (the_opts C))%nat) by (unfold last_stage; lia).
    pose proof (proj2 (nfe_pos_con _ _ _ _ _ _ _ FP _ Nl)) as F0.
    assert (Ne : (last_elem (the_opts C) (last_stage (the_opts C)) < nfe_of (the_opts C) (last_stage (the_opts C)))%nat) by (unfold last_elem; revert F0; clear; lia).
    pose proof (SD (last_stage (the_opts C)) (last_elem (the_opts C) (last_stage (the_opts C))) 1 (conj Nl Ne) ltac:(lra)) as G.
    match type of G with D ?x => match goal with |- D ?y => replace y with x; [exact G|] end end.
    apply FunctionalExtensionality.functional_extensionality. intros i. unfold segment. ring. }
  assert (EP : elastic_penalty (the_opts C) rho = 0).
  { destruct FS as ((_ & _ & _ & ZR & _) & _). unfold zero_relaxation in ZR. unfold elastic_penalty, elastic. destruct (o_mpcc (the_opts C)); try contradiction; try reflexivity; rewrite ZR; destruct (o_obj_direct (the_opts C)); unfold Rdiv; ring. }
  pose proof (HK lr d o m oc C rho act near D M _ (s * q) Lq LT Mq Y J FP FE CS Me NR NL SI BD M0 SU EY YD GC sq0 PQ RL Lq0 RBd EL ED AJ) as G.
  rewrite EP, Rplus_0_l in G. eapply Rle_trans; [exact G|].
  apply Rmult_le_compat_l; [apply Rabs_pos|]. rewrite E1. unfold weight_error. rewrite (proj1 Me), Rmult_0_l, Rplus_0_r.
  right. unfold Rdiv. fold q. ring.
Qed.

(* ---- the cost of a solution exists and is unique ---- *)
Lemma cost_unique o m oc rho Y J J' : (0 < o_N_stages o)%nat -> steps_nonneg o rho -> (forall c, (c < o_N_stages o)%nat -> (0 < nfe_of o c)%nat) ->
  accumulated_cost o m oc rho Y J -> accumulated_cost o m oc rho Y J' -> J (end_time o rho) = J' (end_time o rho).
Proof.
  intros N0 SN NF (C1 & Z1 & p1 & D1) (C2 & Z2 & p2 & D2).
  assert (G : forall c, (c <= o_N_stages o)%nat -> J (rupto c (stage_length o rho)) = J' (rupto c (stage_length o rho))).
  { induction c as [|c IH]; intros Hc; [rewrite rupto_0, Z1, Z2; reflexivity|]. specialize (IH ltac:(lia)). rewrite rupto_succ.
    pose proof (stage_in_horizon o rho SN c Hc) as [S1 S2]. pose proof (stage_nonneg o rho SN c Hc) as S3. set (a := rupto c (stage_length o rho)) in *. set (l := stage_length o rho c) in *.
    assert (Ea : grid_time o rho c 0 = a) by (unfold grid_time; rewrite rupto_0; unfold a; ring). rewrite Ea in S1, S2.
    assert (Cd : continuous_between a (a + l) (fun z => J z - J' z)).
    { apply (between_sub 0 (end_time o rho)); [lra|lra|]. intros z Hz eps He.
      destruct (C1 z Hz (eps / 2) ltac:(lra)) as (d1 & Hd1 & G1). destruct (C2 z Hz (eps / 2) ltac:(lra)) as (d2 & Hd2 & G2).
      exists (Rmin d1 d2). split; [apply Rmin_pos; assumption|]. intros y Hy Hyz.
      specialize (G1 y Hy ltac:(eapply Rlt_le_trans; [exact Hyz|apply Rmin_l])). specialize (G2 y Hy ltac:(eapply Rlt_le_trans; [exact Hyz|apply Rmin_r])).
      replace (J y - J' y - (J z - J' z)) with ((J y - J z) + - (J' y - J' z)) by ring. eapply Rle_lt_trans; [apply Rabs_triang|]. rewrite Rabs_Ropp. lra. }
    pose proof (increment a (a + l) (fun z => J z - J' z) (p1 ++ p2) 0 0 ltac:(lra) Cd) as I.
    assert (I' : Rabs (J (a + l) - J' (a + l) - (J a - J' a) - 0 * (a + l - a)) <= 0 * (a + l - a)).
    { apply I. intros z Hz N. exists (cost_rate o m oc rho c (Y z) - cost_rate o m oc rho c (Y z)). split.
      - apply (derivable_pt_lim_minus J J'); [apply D1|apply D2]; try exact Hc; try (rewrite Ea; exact Hz); intros F; apply N, in_app_iff; auto.
      - replace (cost_rate o m oc rho c (Y z) - cost_rate o m oc rho c (Y z) - 0) with 0 by ring. rewrite Rabs_R0. lra. }
    rewrite !Rmult_0_l, Rminus_0_r in I'. pose proof (Rabs_pos (J (a + l) - J' (a + l) - (J a - J' a))) as Q.
    assert (Z : J (a + l) - J' (a + l) - (J a - J' a) = 0).
    { destruct (Req_dec (J (a + l) - J' (a + l) - (J a - J' a)) 0) as [E|E]; [exact E|]. pose proof (Rabs_pos_lt _ E). lra. }
    lra. }
  exact (G _ (Nat.le_refl _)).
Qed.
Lemma uniform_close n a b (f : R -> nat -> R) z eps : (forall i, (i < n)%nat -> continuous_between a b (fun z => f z i)) -> a <= z <= b -> 0 < eps ->
  exists dl, 0 < dl /\ forall y, a <= y <= b -> Rabs (y - z) < dl -> forall i, (i < n)%nat -> Rabs (f y i - f z i) < eps.
Proof.
  intros Cf Hz He. induction n as [|n IH]; [exists 1; split; [lra|]; intros; lia|].
  destruct IH as (d1 & Hd1 & G1); [intros i Hi; apply Cf; lia|]. destruct (Cf n ltac:(lia) z Hz eps He) as (d2 & Hd2 & G2).
  exists (Rmin d1 d2). split; [apply Rmin_pos; assumption|]. intros y Hy Hyz i Hi. destruct (Nat.eq_dec i n) as [->|Ne].
  - apply G2; [exact Hy|eapply Rlt_le_trans; [exact Hyz|apply Rmin_r]].
  - apply G1; [exact Hy|eapply Rlt_le_trans; [exact Hyz|apply Rmin_l]|lia].
Qed.
Lemma primitive_between T f : 0 <= T -> continuous_between 0 T f -> exists P, forall z, 0 <= z <= T -> derivable_pt_lim P z (f z).
Proof.
  intros T0 Cf. set (g := fun z => f (Rmax 0 (Rmin T z))).
  assert (Cg : forall x, 0 <= x <= T -> continuity_pt g x) by (intros x _; apply (clamp_cont 0 T f T0 Cf)).
  exists (primitive T0 (FTC_P1 T0 Cg)). intros z Hz. replace (f z) with (g z) by (unfold g; rewrite clamp_id by exact Hz; reflexivity).
  apply RiemannInt_P28. exact Hz.
Qed.
Lemma rupto_delta n c v : (c < n)%nat -> rupto n (fun k => if (k =? c)%nat then v else 0) = v.
Proof.
  intros H. induction n as [|n IH]; [lia|]. rewrite rupto_succ. destruct (Nat.eq_dec c n) as [->|Ne].
  - rewrite Nat.eqb_refl. rewrite (rupto_ext _ _ (fun _ => 0)); [rewrite rupto_const; ring|]. intros k Hk. replace (k =? n)%nat with false by (symmetry; apply Nat.eqb_neq; lia). reflexivity.
  - rewrite IH by lia. replace (n =? c)%nat with false by (symmetry; apply Nat.eqb_neq; lia). ring.
Qed.
Lemma point_between a b f : (forall z, a <= z <= b -> continuity_pt f z) -> continuous_between a b f.
Proof.
  intros Cf z Hz eps He. destruct (Cf z Hz eps He) as (dl & Hd & G). exists dl. split; [exact Hd|]. intros y _ Hyz.
  destruct (Req_dec z y) as [->|Ne]; [rewrite Rminus_diag_eq by reflexivity; rewrite Rabs_R0; exact He|].
  apply (G y). split; [split; [exact Logic.I|exact Ne]|exact Hyz].
Qed.
Lemma choose_primitives n T (q : nat -> R -> R) : 0 <= T -> (forall c, (c < n)%nat -> continuous_between 0 T (q c)) ->
  exists P : nat -> R -> R, forall c z, (c < n)%nat -> 0 <= z <= T -> derivable_pt_lim (P c) z (q c z).
Proof.
  intros T0 Cq. induction n as [|n IH]; [exists (fun _ _ => 0); intros; lia|].
  destruct IH as [P HP]; [intros c Hc; apply Cq; lia|]. destruct (primitive_between T (q n) T0 (Cq n ltac:(lia))) as [p Hp].
  exists (fun c => if (c =? n)%nat then p else P c). intros c z Hc Hz. destruct (c =? n)%nat eqn:E.
  - apply Nat.eqb_eq in E. subst c. apply Hp, Hz.
  - apply Nat.eqb_neq in E. apply HP; [lia|exact Hz].
Qed.
Lemma cost_exists o m oc rho act Y (D : (nat -> R) -> Prop) Lq : steps_nonneg o rho -> exact_solution o m rho act Y -> (forall tm, 0 <= tm <= end_time o rho -> D (Y tm)) -> 0 <= Lq ->
  rate_lipschitz o m oc rho D Lq -> exists J, accumulated_cost o m oc rho Y J.
Proof.
  intros SN (CY & _) YD L0 RL. set (T := end_time o rho).
  assert (T0 : 0 <= T) by (apply rupto_nonneg; intros c Hc; apply (stage_nonneg o rho SN c Hc)).
  destruct (choose_primitives (o_N_stages o) T (fun c z => cost_rate o m oc rho c (Y z)) T0) as [P HP].
  { intros c Hc z Hz eps He. assert (E1 : 0 < eps / (Lq + 1)) by (apply Rdiv_lt_0_compat; lra).
    destruct (uniform_close (m_nx m) 0 T Y z (eps / (Lq + 1)) CY Hz E1) as (dl & Hd & G). exists dl. split; [exact Hd|]. intros y Hy Hyz.
    eapply Rle_lt_trans; [apply (RL c (Y y) (Y z) (eps / (Lq + 1)) Hc (YD y Hy) (YD z Hz)); intros k Hk; left; exact (G y Hy Hyz k Hk)|].
    apply (Rmult_lt_reg_r (Lq + 1)); [lra|]. replace (Lq * (eps / (Lq + 1)) * (Lq + 1)) with (Lq * eps) by (field; lra). lra. }
  set (a := fun c => rupto c (stage_length o rho)). set (b := fun c => a c + stage_length o rho c).
  assert (Ea : forall c, grid_time o rho c 0 = a c) by (intros c; unfold grid_time; rewrite rupto_0; unfold a; ring).
  assert (In1 : forall c, (c < o_N_stages o)%nat -> 0 <= a c /\ a c <= b c /\ b c <= T).
  { intros c Hc. pose proof (stage_in_horizon o rho SN c Hc) as [S1 S2]. rewrite Ea in S1, S2. pose proof (stage_nonneg o rho SN c Hc). unfold b. fold T in S2. lra. }
  assert (Or : forall c c', (c < c')%nat -> (c' < o_N_stages o)%nat -> b c <= a c').
  { intros c c' H1 H2. unfold b, a. rewrite <- rupto_succ. apply rupto_mono; [lia|]. intros j Hj. apply (stage_nonneg o rho SN). lia. }
  set (f := fun c z => P c (Rmax (a c) (Rmin (b c) z)) - P c (a c)).
  assert (Cf : forall c z, (c < o_N_stages o)%nat -> continuity_pt (f c) z).
  { intros c z Hc. destruct (In1 c Hc) as (I1 & I2 & I3). unfold f. apply (continuity_pt_minus (fun z => P c (Rmax (a c) (Rmin (b c) z))) (fct_cte (P c (a c)))).
    - apply (clamp_cont (a c) (b c) (P c) I2). apply point_between. intros y Hy. apply derivable_continuous_pt. exists (cost_rate o m oc rho c (Y y)). apply HP; [exact Hc|lra].
    - apply continuity_pt_const. intros ? ?. reflexivity. }
  exists (fun z => rupto (o_N_stages o) (fun c => f c z)). split; [|split].
  - apply point_between. intros z _. apply rupto_cont. intros c Hc. apply Cf, Hc.
  - rewrite (rupto_ext _ _ (fun _ => 0)); [rewrite rupto_const; ring|]. intros c Hc. destruct (In1 c Hc) as (I1 & I2 & I3). unfold f.
    replace (Rmax (a c) (Rmin (b c) 0)) with (a c); [ring|]. unfold Rmax, Rmin. destruct (Rle_dec (b c) 0), (Rle_dec (a c) _); lra.
  - exists []. intros c z Hc Hz _. rewrite Ea in Hz. fold (b c) in Hz. destruct (In1 c Hc) as (I1 & I2 & I3).
    rewrite <- (rupto_delta (o_N_stages o) c (cost_rate o m oc rho c (Y z)) Hc). apply rupto_deriv. intros k Hk. destruct (In1 k Hk) as (K1 & K2 & K3).
    destruct (k =? c)%nat eqn:E.
    + apply Nat.eqb_eq in E. subst k. rewrite <- (Rminus_0_r (cost_rate o m oc rho c (Y z))).
      apply (derivable_pt_lim_minus (fun z => P c (Rmax (a c) (Rmin (b c) z))) (fct_cte (P c (a c)))); [|apply derivable_pt_lim_const].
      apply (clamp_deriv (a c) (b c) (P c) z); [exact Hz|]. apply HP; [exact Hc|lra].
    + apply Nat.eqb_neq in E.
      assert (Co : exists v, forall y, a c < y < b c -> f k y = v).
      { destruct (Nat.lt_ge_cases k c) as [Lt|Ge].
        - exists (P k (b k) - P k (a k)). intros y Hy. unfold f. f_equal. f_equal. pose proof (Or k c Lt Hc). unfold Rmax, Rmin. destruct (Rle_dec (b k) y), (Rle_dec (a k) _); lra.
        - exists (P k (a k) - P k (a k)). intros y Hy. unfold f. f_equal. f_equal. pose proof (Or c k ltac:(lia) Hk). unfold Rmax, Rmin. destruct (Rle_dec (b k) y), (Rle_dec (a k) _); lra. }
      destruct Co as [v Hv]. apply (derivable_pt_lim_locally_ext (fct_cte v) _ z (a c) (b c)); [exact Hz| |apply derivable_pt_lim_const].
      intros y Hy. unfold fct_cte. symmetry. exact (Hv y Hy).
Qed.
