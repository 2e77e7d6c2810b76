(* Relax3_proofs.v -- relaxed problems: error bound and convergence *)
From Coq Require Import Reals Qreals Lra Psatz.
From Verif Require Import Base Sx Utils Tableau Opts Model Ocp Problem Spec Cases Lib Sx_proofs Fe_proofs Prob_proofs Coll_proofs
  Body_proofs Model_proofs Con_proofs Index3_proofs Fesd Sem_proofs Dcs_proofs Point_proofs Elem_proofs Nlp_proofs
  Opts_proofs Tableau_proofs Poly_proofs Spec2 Feas_proofs Feas2_proofs Spec3 Numeric Mode_proofs Smooth_proofs Spec9 Spec10 Results_proofs Results2_proofs Results3_proofs Spec4 Init_proofs Filippov_proofs
  Filippov2_proofs Filippov3_proofs Exact_proofs Exact2_proofs Spec11 ExistBase_proofs Spec20 Soft_proofs Spec21 Conv_proofs Conv2_proofs Conv3_proofs Conv4_proofs Spec24 Relax_proofs Relax2_proofs.
Local Open Scope R_scope.

Lemma relaxed_constant cp re sc n : exists K, 0 <= K /\
  forall lr d o m oc C rho act near D M h eps, fesd_problem lr cp d o m oc C -> feasible rho (the_nlp C) ->
  relaxed_setting cp (the_opts C) m -> method re sc n (the_opts C) -> near_rule (the_opts C) m act near -> 0 <= eps -> relaxed_by (the_opts C) m rho (eps * eps) ->
  stages_in (the_opts C) (cn_tab C) rho D -> bounded_on (the_opts C) m rho D M -> 0 <= M -> steps_upto (the_opts C) rho h ->
  exists X, relaxed_trajectory (the_opts C) (cn_tab C) m rho near D (K * M * h) eps X.
Proof.
  destruct (stage_offset cp re sc n) as [A HA]. exists (coeff_bound n A + 2). split; [pose proof (coeff_nonneg n A); lra|].
  intros lr d o m oc C rho act near D M h eps FP FE CS Me MR e0 RB SI BD M0 Hh. pose proof Me as (E1 & E2 & E3).
  assert (HA' : forall c e j i, is_element (the_opts C) c e -> (j < o_ns (the_opts C))%nat -> (i < m_nx m)%nat ->
    stage_state (the_opts C) (cn_tab C) rho c e j i - start_state (the_opts C) (cn_tab C) rho c e i =
    step_len (the_opts C) rho c e * rupto (o_ns (the_opts C)) (fun k => A j k * (speed (the_opts C) rho c * rhs (the_opts C) m (stage_point (the_opts C) (cn_tab C) m rho c e k) i))).
  { intros c e j i He Hj Hi. pose proof FP as (H & E & W). pose proof FE as [F1 F2]. destruct CS as (P1 & _).
    destruct (elem_all _ _ _ _ _ _ _ H E W rho F2 c e _ (element_fe _ _ _ _ _ _ _ FP c e He)) as (_ & Co & _).
    rewrite E3 in Hj |- *. exact (HA _ _ m rho c e j i Me (t_made _ _ _ _ _ _ _ H) P1 Co Hj Hi). }
  rewrite <- E3. pose proof CS as (_ & _ & PF & PM).
  exact (relaxed_approximate lr cp d o m oc C rho FP FE CS near D M h eps (rule_near lr cp d o m oc C rho FP FE PM eps e0 RB PF act near MR) SI BD M0 Hh A HA').
Qed.
Lemma relaxed_error cp re sc n : exists K, 0 <= K /\
  forall lr d o m oc C rho act near D M h eps r L Y, fesd_problem lr cp d o m oc C -> feasible rho (the_nlp C) ->
  relaxed_setting cp (the_opts C) m -> method re sc n (the_opts C) -> near_rule (the_opts C) m act near -> 0 <= eps -> relaxed_by (the_opts C) m rho (eps * eps) ->
  stages_in (the_opts C) (cn_tab C) rho D -> bounded_on (the_opts C) m rho D M -> 0 <= M -> steps_upto (the_opts C) rho h ->
  correctable_on (the_opts C) m rho act near D eps r -> 0 <= r ->
  one_sided_on (the_opts C) m rho act D L -> 0 <= L -> exact_solution (the_opts C) m rho act Y ->
  (forall tm, 0 <= tm <= end_time (the_opts C) rho -> D (Y tm)) ->
  forall c e, is_element (the_opts C) c e -> let tm := grid_time (the_opts C) rho c e + step_len (the_opts C) rho c e in
  distance2 m (end_state (the_opts C) (cn_tab C) rho c e) (Y tm) <= relaxed_bound (the_opts C) m L M (K * M * h + r) r tm.
Proof.
  destruct (relaxed_constant cp re sc n) as (K & K0 & HK). exists K. split; [exact K0|].
  intros lr d o m oc C rho act near D M h eps r L Y FP FE CS Me MR e0 RB SI BD M0 Hh CO r0 OS L0 EY YD c e He tm.
  destruct (HK lr d o m oc C rho act near D M h eps FP FE CS Me MR e0 RB SI BD M0 Hh) as [X AX].
  assert (SN : steps_nonneg (the_opts C) rho) by (intros c' e' He'; apply (Hh c' e' He')).
  assert (h0 : 0 <= h) by (pose proof (Hh c e He); lra).
  assert (d0 : 0 <= K * M * h) by (apply Rmult_le_pos; [apply Rmult_le_pos; assumption|exact h0]).
  pose proof (relaxed_compare _ _ _ _ act near D X Y L M (K * M * h) eps r SN AX CO EY YD L0 M0 d0 r0 OS BD tm (grid_in C rho SN c e He)) as G.
  destruct AX as (_ & _ & XE & _). eapply Rle_trans; [|exact G]. right. apply rupto_ext. intros i Hi. unfold tm. rewrite (XE c e i He Hi). reflexivity.
Qed.

Definition relaxed_rate (nx L M K kappa T : R) : R :=
  nx * (16 * L * ((K * M + kappa) * (K * M + kappa)) + 8 * M * (K * M + kappa) + 2 * (kappa * kappa)) * T * exp ((8 * L + 2) * T).
Lemma relaxed_rate_nonneg nx L M K kappa T : 0 <= nx -> 0 <= L -> 0 <= M -> 0 <= K -> 0 <= kappa -> 0 <= T -> 0 <= relaxed_rate nx L M K kappa T.
Proof.
  intros. unfold relaxed_rate. assert (0 <= K * M) by (apply Rmult_le_pos; assumption). set (a := K * M + kappa). assert (0 <= a) by (unfold a; lra).
  assert (0 <= L * (a * a)) by (apply Rmult_le_pos; [assumption|apply Rmult_le_pos; assumption]). assert (0 <= M * a) by (apply Rmult_le_pos; assumption).
  assert (0 <= kappa * kappa) by (apply Rmult_le_pos; assumption).
  apply Rmult_le_pos; [apply Rmult_le_pos; [apply Rmult_le_pos; [assumption|lra]|assumption]|left; apply exp_pos].
Qed.
Lemma relaxed_bound_rate o m L M K kappa h eps T tm nx : o_repr o = Integral -> (m_nx m <= nx)%nat -> 0 <= L -> 0 <= M -> 0 <= K -> 0 <= kappa -> 0 <= h <= 1 -> 0 <= eps <= 1 -> 0 <= tm <= T ->
  relaxed_bound o m L M (K * M * h + kappa * eps) (kappa * eps) tm <= relaxed_rate (INR nx) L M K kappa T * (h + eps).
Proof.
  intros Er Hn HL HM HK Hk Hh He Ht. unfold relaxed_bound, relaxed_rate, weight_error. rewrite Er. rewrite Rmult_0_l, !Rplus_0_r.
  assert (K0 : 0 <= K * M) by (apply Rmult_le_pos; assumption). set (a := K * M + kappa). assert (a0 : 0 <= a) by (unfold a; lra). set (s := h + eps).
  assert (D1 : 0 <= K * M * h + kappa * eps <= a * s).
  { assert (0 <= K * M * h) by (apply Rmult_le_pos; lra). assert (0 <= kappa * eps) by (apply Rmult_le_pos; lra).
    assert (0 <= K * M * eps) by (apply Rmult_le_pos; lra). assert (0 <= kappa * h) by (apply Rmult_le_pos; lra). unfold a, s. lra. }
  set (dl := K * M * h + kappa * eps) in *.
  assert (s0 : 0 <= s <= 2) by (unfold s; lra).
  assert (S1 : dl * dl <= 2 * (a * a) * s).
  { assert (dl * dl <= (a * s) * (a * s)) by (apply Rmult_le_compat; lra). assert (a * a * (s * s) <= a * a * (2 * s)).
    { apply Rmult_le_compat_l; [apply Rmult_le_pos; lra|apply Rmult_le_compat_r; lra]. } lra. }
  assert (S2 : kappa * eps * (kappa * eps) <= kappa * kappa * s).
  { replace (kappa * eps * (kappa * eps)) with (kappa * kappa * (eps * eps)) by ring. apply Rmult_le_compat_l; [apply Rmult_le_pos; lra|].
    assert (eps * eps <= 1 * eps) by (apply Rmult_le_compat_r; lra). unfold s. lra. }
  assert (S3 : L * (dl * dl) <= L * (2 * (a * a) * s)) by (apply Rmult_le_compat_l; assumption).
  assert (S4 : M * dl <= M * (a * s)) by (apply Rmult_le_compat_l; lra).
  assert (Z1 : 0 <= L * (dl * dl)) by (apply Rmult_le_pos; [exact HL|apply Rmult_le_pos; lra]). assert (Z2 : 0 <= M * dl) by (apply Rmult_le_pos; lra).
  assert (Z3 : 0 <= kappa * eps * (kappa * eps)) by (apply (Rle_0_sqr (kappa * eps))).
  assert (N1 : INR (m_nx m) <= INR nx) by (apply le_INR, Hn). pose proof (pos_INR (m_nx m)) as N0.
  assert (X1 : exp ((8 * L + 2) * tm) <= exp ((8 * L + 2) * T)).
  { destruct (Rle_lt_or_eq_dec ((8 * L + 2) * tm) ((8 * L + 2) * T)) as [G|G]; [apply Rmult_le_compat_l; lra|left; apply exp_increasing, G|rewrite G; lra]. }
  pose proof (exp_pos ((8 * L + 2) * tm)) as X0.
  set (b := 16 * L * (a * a) + 8 * M * a + 2 * (kappa * kappa)).
  replace (INR nx * b * T * exp ((8 * L + 2) * T) * s) with (INR nx * (b * s) * T * exp ((8 * L + 2) * T)) by ring.
  assert (I1 : 0 <= 8 * L * (dl * dl) + 8 * M * dl + 2 * (kappa * eps * (kappa * eps)) <= b * s) by (unfold b; lra).
  apply Rmult_le_compat; [|lra| |exact X1].
  - apply Rmult_le_pos; [apply Rmult_le_pos; [exact N0|lra]|lra].
  - apply Rmult_le_compat; [|lra| |lra]; [apply Rmult_le_pos; [exact N0|lra]|]. apply Rmult_le_compat; [exact N0|lra|exact N1|lra].
Qed.
Lemma relaxed_refinement cp sc n nx L M kappa T : 0 <= L -> 0 <= M -> 0 <= kappa -> exists B, 0 <= B /\
  forall lr d o m oc C rho act near D k eps Y, fesd_problem lr cp d o m oc C -> feasible rho (the_nlp C) ->
  relaxed_setting cp (the_opts C) m -> method Integral sc n (the_opts C) -> near_rule (the_opts C) m act near -> (m_nx m <= nx)%nat ->
  0 <= eps <= 1 -> relaxed_by (the_opts C) m rho (eps * eps) ->
  o_terminal_time (the_opts C) = T -> (0 <= T)%Q -> ext_upto (o_gamma_h (the_opts C)) 1 ->
  stages_in (the_opts C) (cn_tab C) rho D -> bounded_on (the_opts C) m rho D M ->
  correctable_on (the_opts C) m rho act near D eps (kappa * eps) ->
  one_sided_on (the_opts C) m rho act D L -> exact_solution (the_opts C) m rho act Y ->
  (forall tm, 0 <= tm <= end_time (the_opts C) rho -> D (Y tm)) ->
  (0 < k)%nat -> 2 * Q2R T <= INR k -> (forall c, (c < o_N_stages (the_opts C))%nat -> (k <= o_N_stages (the_opts C) * nfe_of (the_opts C) c)%nat) ->
  (o_use_fesd (the_opts C) = false \/ o_equidistant (the_opts C) = true \/ (1 < o_N_stages (the_opts C))%nat) ->
  forall c e, is_element (the_opts C) c e ->
  distance2 m (end_state (the_opts C) (cn_tab C) rho c e) (Y (grid_time (the_opts C) rho c e + step_len (the_opts C) rho c e)) <= B * (/ INR k + eps).
Proof.
  intros L0 M0 k0. destruct (Rle_dec 0 (Q2R T)) as [T0|NT].
  2: { exists 0. split; [lra|]. intros lr d o m oc C rho act near D k eps Y _ _ _ _ _ _ _ _ _ HT. apply Qle_Rle in HT. rewrite RMicromega.Q2R_0 in HT. contradiction. }
  destruct (relaxed_error cp Integral sc n) as (K & K0 & HK). set (B := relaxed_rate (INR nx) L M K kappa (Q2R T)).
  assert (B0 : 0 <= B) by (apply relaxed_rate_nonneg; try assumption; apply pos_INR).
  exists (B * (2 * Q2R T + 1)). split; [apply Rmult_le_pos; lra|].
  intros lr d o m oc C rho act near D k eps Y FP FE CS Me MR Hn He RB ET HT Hg SI BD CO OS EY YD Hk Hk2 Hc EE c e Hce.
  assert (Tq : (0 <= o_terminal_time (the_opts C))%Q) by (rewrite ET; exact HT).
  pose proof (count_steps _ _ _ _ _ _ _ rho k FP FE Hg Tq Hk Hc) as SU. rewrite ET in SU.
  assert (P : 0 < INR k) by (apply lt_0_INR; exact Hk). set (h := 2 * (Q2R T / INR k)) in *.
  assert (SN : steps_nonneg (the_opts C) rho) by (intros c' e' He'; apply (SU c' e' He')).
  assert (h0 : 0 <= h) by (pose proof (SU c e Hce); lra).
  assert (h1 : h <= 1) by (apply (Rmult_le_reg_r (INR k)); [exact P|]; unfold h; replace (2 * (Q2R T / INR k) * INR k) with (2 * Q2R T) by (field; lra); lra).
  assert (E1 : end_time (the_opts C) rho <= Q2R T).
  { rewrite <- ET. right. destruct (o_use_fesd (the_opts C)) eqn:F; [|exact (plain_end _ _ _ _ _ _ _ rho (proj1 FP) F)].
    destruct EE as [EE|EE]; [discriminate EE|]. exact (end_time_T _ _ _ _ _ _ _ rho FP (proj2 FE) F EE). }
  assert (r0 : 0 <= kappa * eps) by (apply Rmult_le_pos; lra).
  eapply Rle_trans; [exact (HK lr d o m oc C rho act near D M h eps (kappa * eps) L Y FP FE CS Me MR (proj1 He) RB SI BD M0 SU CO r0 OS L0 EY YD c e Hce)|].
  pose proof (grid_in C rho SN c e Hce) as Gt.
  eapply Rle_trans; [apply (relaxed_bound_rate _ _ _ _ _ _ _ _ (Q2R T) _ nx (proj1 Me) Hn L0 M0 K0 k0 (conj h0 h1) He); lra|]. fold B.
  rewrite Rmult_assoc. apply Rmult_le_compat_l; [exact B0|]. unfold h. replace (2 * (Q2R T / INR k)) with (2 * Q2R T * / INR k) by (unfold Rdiv; ring).
  pose proof (Rinv_0_lt_compat _ P) as Ik. assert (0 <= Q2R T * eps) by (apply Rmult_le_pos; lra). lra.
Qed.
