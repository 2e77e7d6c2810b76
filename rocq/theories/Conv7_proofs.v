(* Conv7_proofs.v -- statements about constructed problems with FESD: first order convergence *)
From Coq Require Import Reals Qreals Lra Psatz.
From Verif Require Import Base Sx Utils Tableau Opts Model Ocp Problem Spec Cases Lib Sx_proofs Fe_proofs Prob_proofs Coll_proofs
  Body_proofs Model_proofs Con_proofs Index3_proofs Fesd Sem_proofs Dcs_proofs Point_proofs Elem_proofs Nlp_proofs
  Opts_proofs Tableau_proofs Poly_proofs Spec2 Feas_proofs Feas2_proofs Spec3 Numeric Mode_proofs Smooth_proofs Spec9 Spec10 Results_proofs Results2_proofs Results3_proofs Spec4 Init_proofs Filippov_proofs
  Filippov2_proofs Filippov3_proofs Exact_proofs Exact2_proofs Spec11 ExistBase_proofs Spec20 Soft_proofs Spec21 Conv_proofs Conv2_proofs Conv3_proofs Conv4_proofs Spec22 Conv6_proofs.
Local Open Scope R_scope.

Section Con.
Variables (lr : Q -> Q -> Q -> nat) (cp : nat -> scheme -> list Q) (d : ipopt_dict) (o : opts) (m : model)
  (oc : option ocp) (C : constructed) (rho : env).
Hypothesis FP : fesd_problem lr cp d o m oc C.
Hypothesis FE : feasible rho (the_nlp C).
Hypothesis FS : fesd_setting cp (the_opts C) (cn_tab C) m rho.
Notation O := (the_opts C).
Notation t := (cn_tab C).
Lemma rule_stage act : mode_rule O m act -> forall c e j, is_element O c e -> (j < o_ns O)%nat ->
  active_weights m act (plain_point m rho c (stage_state O t rho c e j)) (th_at m C rho c e j).
Proof.
  intros [[Ep ->]|(Ep & SM & RF & CM & ->)].
  - exact (stewart_active _ _ _ _ _ _ _ _ FP FE (proj1 FS) Ep).
  - exact (step_active _ _ _ _ _ _ _ _ FP FE (proj1 FS) Ep SM RF CM).
Qed.
Lemma rule_segment act : mode_rule O m act -> forall c e j tau, is_element O c e -> (j < o_ns O)%nat -> 0 <= tau <= 1 ->
  active_weights m act (plain_point m rho c (segment O t rho c e tau)) (th_at m C rho c e j).
Proof.
  intros MR c e j tau He Hj Ht. pose proof (rule_stage act MR c e j He Hj) as [Cv _]. split; [exact Cv|].
  pose proof FP as (H & E & W). pose proof FE as [F1 F2]. destruct FS as ((_ & _ & PF & ZR & L0) & AS & SG & IM & Hf & XC).
  pose proof (element_fe _ _ _ _ _ _ _ FP c e He) as I.
  destruct MR as [[Ep ->]|(Ep & SM & RF & CM & ->)]; intros s k Hs Hk Hw.
  - exact (stewart_segment _ _ _ _ _ _ _ H E W rho F1 F2 ZR L0 Hf XC AS SG IM c e _ I Ep j s k tau Hj Hs Hk Hw Ht).
  - exact (step_segment _ _ _ _ _ _ _ H E W rho F1 F2 ZR L0 Hf XC AS SG IM c e _ I Ep SM RF j s k tau Hj Hs Hk Hw Ht).
Qed.
End Con.

Lemma tracking_constant cp re sc n : exists K, 0 <= K /\
  forall lr d o m oc C rho act D M h, fesd_problem lr cp d o m oc C -> feasible rho (the_nlp C) ->
  fesd_setting cp (the_opts C) (cn_tab C) m rho -> method re sc n (the_opts C) -> mode_rule (the_opts C) m act ->
  stages_in (the_opts C) (cn_tab C) rho D -> segments_in (the_opts C) (cn_tab C) rho D ->
  bounded_on (the_opts C) m rho D M -> 0 <= M -> steps_upto (the_opts C) rho h ->
  exists X, tracking_trajectory (the_opts C) (cn_tab C) m rho act D (K * M * h) X.
Proof.
  destruct (stage_offset cp re sc n) as [A HA]. exists (coeff_bound n A + 2). split; [pose proof (coeff_nonneg n A); lra|].
  intros lr d o m oc C rho act D M h FP FE FS Me MR SI SD BD M0 Hh. pose proof Me as (E1 & E2 & E3).
  assert (HA' : forall c e j i, is_element (the_opts C) c e -> (j < o_ns (the_opts C))%nat -> (i < m_nx m)%nat ->
    stage_state (the_opts C) (cn_tab C) rho c e j i - start_state (the_opts C) (cn_tab C) rho c e i =
    step_len (the_opts C) rho c e * rupto (o_ns (the_opts C)) (fun k => A j k * (speed (the_opts C) rho c * rhs (the_opts C) m (stage_point (the_opts C) (cn_tab C) m rho c e k) i))).
  { intros c e j i He Hj Hi. pose proof FP as (H & E & W). pose proof FE as [F1 F2]. destruct FS as ((P1 & _) & _).
    destruct (elem_all _ _ _ _ _ _ _ H E W rho F2 c e _ (element_fe _ _ _ _ _ _ _ FP c e He)) as (_ & Co & _).
    rewrite E3 in Hj |- *. exact (HA _ _ m rho c e j i Me (t_made _ _ _ _ _ _ _ H) P1 Co Hj Hi). }
  rewrite <- E3.
  exact (tracking lr cp d o m oc C rho FP FE (proj1 FS) act D M h (rule_stage _ _ _ _ _ _ _ _ FP FE FS act MR) SI BD M0 Hh SD
    (rule_segment _ _ _ _ _ _ _ _ FP FE FS act MR) A HA').
Qed.
Lemma tracking_error cp re sc n : exists K, 0 <= K /\
  forall lr d o m oc C rho act D M h L Lf Y, fesd_problem lr cp d o m oc C -> feasible rho (the_nlp C) ->
  fesd_setting cp (the_opts C) (cn_tab C) m rho -> method re sc n (the_opts C) -> mode_rule (the_opts C) m act ->
  stages_in (the_opts C) (cn_tab C) rho D -> segments_in (the_opts C) (cn_tab C) rho D ->
  bounded_on (the_opts C) m rho D M -> 0 <= M -> steps_upto (the_opts C) rho h ->
  one_sided_on (the_opts C) m rho act D L -> 0 <= L -> lipschitz_on (the_opts C) m rho D Lf -> 0 <= Lf ->
  exact_solution (the_opts C) m rho act Y -> (forall tm, 0 <= tm <= end_time (the_opts C) rho -> D (Y tm)) ->
  forall c e, is_element (the_opts C) c e -> let tm := grid_time (the_opts C) rho c e + step_len (the_opts C) rho c e in
  distance2 m (end_state (the_opts C) (cn_tab C) rho c e) (Y tm) <= first_order_bound (the_opts C) m L Lf M (K * M * h) tm.
Proof.
  destruct (tracking_constant cp re sc n) as (K & K0 & HK). exists K. split; [exact K0|].
  intros lr d o m oc C rho act D M h L Lf Y FP FE FS Me MR SI SD BD M0 Hh OS L0 LI Lf0 EY YD c e He tm.
  destruct (HK lr d o m oc C rho act D M h FP FE FS Me MR SI SD BD M0 Hh) as [X AX].
  assert (SN : steps_nonneg (the_opts C) rho) by (intros c' e' He'; apply (Hh c' e' He')).
  assert (h0 : 0 <= h) by (pose proof (Hh c e He); lra).
  assert (G : distance2 m (X tm) (Y tm) <= first_order_bound (the_opts C) m L Lf M (K * M * h) tm).
  { eapply tracking_compare; try eassumption. exact (grid_in C rho SN c e He). }
  destruct AX as (_ & _ & XE & _). eapply Rle_trans; [|exact G]. right. apply rupto_ext. intros i Hi. unfold tm. rewrite (XE c e i He Hi). reflexivity.
Qed.
Definition rate1 (nx L Lf M K T : R) : R := nx * (2 * (Lf * (K * M) * (Lf * (K * M)))) * T * exp ((4 * L + 2) * T).
Lemma rate1_nonneg nx L Lf M K T : 0 <= nx -> 0 <= T -> 0 <= rate1 nx L Lf M K T.
Proof.
  intros. unfold rate1. pose proof (Rle_0_sqr (Lf * (K * M))) as G. unfold Rsqr in G.
  apply Rmult_le_pos; [apply Rmult_le_pos; [apply Rmult_le_pos; [assumption|lra]|assumption]|left; apply exp_pos].
Qed.
Lemma bound_rate1 o m L Lf M K h T tm nx : o_repr o = Integral -> (m_nx m <= nx)%nat -> 0 <= L -> 0 <= h -> 0 <= tm <= T ->
  first_order_bound o m L Lf M (K * M * h) tm <= rate1 (INR nx) L Lf M K T * (h * h).
Proof.
  intros Er Hn HL Hh Ht. unfold first_order_bound, rate1, weight_error. rewrite Er. rewrite !Rmult_0_l, !Rplus_0_r.
  set (k := Lf * (K * M)). replace (Lf * (K * M * h) * (Lf * (K * M * h))) with (k * k * (h * h)) by (unfold k; ring).
  assert (k0 : 0 <= k * k) by (apply (Rle_0_sqr k)). assert (hh0 : 0 <= h * h) by (apply (Rle_0_sqr h)).
  assert (kh : 0 <= k * k * (h * h)) by (apply Rmult_le_pos; assumption).
  assert (N1 : INR (m_nx m) <= INR nx) by (apply le_INR, Hn). pose proof (pos_INR (m_nx m)) as N0.
  assert (X1 : exp ((4 * L + 2) * tm) <= exp ((4 * L + 2) * T)).
  { destruct (Rle_lt_or_eq_dec ((4 * L + 2) * tm) ((4 * L + 2) * T)) as [G|G]; [apply Rmult_le_compat_l; lra|left; apply exp_increasing, G|rewrite G; lra]. }
  pose proof (exp_pos ((4 * L + 2) * tm)) as X0.
  replace (INR nx * (2 * (k * k)) * T * exp ((4 * L + 2) * T) * (h * h)) with (INR nx * (2 * (k * k * (h * h))) * T * exp ((4 * L + 2) * T)) by ring.
  apply Rmult_le_compat; [|lra| |exact X1].
  - apply Rmult_le_pos; [apply Rmult_le_pos|]; lra.
  - apply Rmult_le_compat; [apply Rmult_le_pos; lra|lra|apply Rmult_le_compat; lra|lra].
Qed.
Lemma refinement1 cp sc n nx L Lf M T : 0 <= L -> 0 <= Lf -> 0 <= M -> exists B, 0 <= B /\
  forall lr d o m oc C rho act D k Y, fesd_problem lr cp d o m oc C -> feasible rho (the_nlp C) ->
  fesd_setting cp (the_opts C) (cn_tab C) m rho -> method Integral sc n (the_opts C) -> mode_rule (the_opts C) m act -> (m_nx m <= nx)%nat ->
  o_terminal_time (the_opts C) = T -> (0 <= T)%Q -> ext_upto (o_gamma_h (the_opts C)) 1 ->
  stages_in (the_opts C) (cn_tab C) rho D -> segments_in (the_opts C) (cn_tab C) rho D -> bounded_on (the_opts C) m rho D M ->
  one_sided_on (the_opts C) m rho act D L -> lipschitz_on (the_opts C) m rho D Lf -> exact_solution (the_opts C) m rho act Y ->
  (forall tm, 0 <= tm <= end_time (the_opts C) rho -> D (Y tm)) ->
  (0 < k)%nat -> (forall c, (c < o_N_stages (the_opts C))%nat -> (k <= o_N_stages (the_opts C) * nfe_of (the_opts C) c)%nat) ->
  (o_equidistant (the_opts C) = true \/ (1 < o_N_stages (the_opts C))%nat) ->
  forall c e, is_element (the_opts C) c e ->
  distance2 m (end_state (the_opts C) (cn_tab C) rho c e) (Y (grid_time (the_opts C) rho c e + step_len (the_opts C) rho c e)) <= B / (INR k * INR k).
Proof.
  intros L0 Lf0 M0. destruct (Rle_dec 0 (Q2R T)) as [T0|NT].
  2: { exists 0. split; [lra|]. intros lr d o m oc C rho act D k Y _ _ _ _ _ _ _ HT. apply Qle_Rle in HT. rewrite RMicromega.Q2R_0 in HT. contradiction. }
  destruct (tracking_error cp Integral sc n) as (K & K0 & HK). set (r := rate1 (INR nx) L Lf M K (Q2R T)).
  assert (r0 : 0 <= r) by (apply rate1_nonneg; [apply pos_INR|exact T0]).
  exists (r * (2 * Q2R T * (2 * Q2R T))). split; [apply Rmult_le_pos; [exact r0|]; apply Rmult_le_pos; lra|].
  intros lr d o m oc C rho act D k Y FP FE FS Me MR Hn ET HT Hg SI SD BD OS LI EY YD Hk Hc EE c e He.
  assert (Tq : (0 <= o_terminal_time (the_opts C))%Q) by (rewrite ET; exact HT).
  pose proof (count_steps _ _ _ _ _ _ _ rho k FP FE Hg Tq Hk Hc) as SU. rewrite ET in SU.
  assert (P : 0 < INR k) by (apply lt_0_INR; exact Hk).
  assert (Hf : o_use_fesd (the_opts C) = true) by (destruct FS as (_ & _ & _ & _ & Hf & _); exact Hf).
  assert (SN : steps_nonneg (the_opts C) rho) by (intros c' e' He'; apply (SU c' e' He')).
  assert (E1 : end_time (the_opts C) rho = Q2R T) by (rewrite <- ET; exact (end_time_T _ _ _ _ _ _ _ rho FP (proj2 FE) Hf EE)).
  pose proof (grid_in C rho SN c e He) as GI. rewrite E1 in GI.
  replace (r * (2 * Q2R T * (2 * Q2R T)) / (INR k * INR k)) with (r * (2 * (Q2R T / INR k) * (2 * (Q2R T / INR k)))) by (field; lra).
  eapply Rle_trans; [exact (HK lr d o m oc C rho act D M _ L Lf Y FP FE FS Me MR SI SD BD M0 SU OS L0 LI Lf0 EY YD c e He)|].
  apply bound_rate1; [apply Me|exact Hn|exact L0| |exact GI].
  pose proof (SU c e He). lra.
Qed.
