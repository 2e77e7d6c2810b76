(* Conv4_proofs.v -- statements about constructed problems: approximation and convergence *)
From Coq Require Import Reals Qreals Lra Psatz.
From Verif Require Import Base Sx Utils Tableau Opts Model Ocp Problem Spec Cases Lib Sx_proofs Fe_proofs Prob_proofs Coll_proofs
  Body_proofs Model_proofs Con_proofs Index3_proofs Fesd Sem_proofs Dcs_proofs Point_proofs Elem_proofs Nlp_proofs
  Opts_proofs Tableau_proofs Poly_proofs Spec2 Feas_proofs Feas2_proofs Spec3 Numeric Mode_proofs Smooth_proofs Spec9 Spec10 Results_proofs Results2_proofs Results3_proofs Spec4 Init_proofs Filippov_proofs
  Filippov2_proofs Filippov3_proofs Exact_proofs Exact2_proofs Spec11 ExistBase_proofs Spec20 Soft_proofs Spec21 Conv_proofs Conv2_proofs Conv3_proofs.
Local Open Scope R_scope.

Section Con.
Variables (lr : Q -> Q -> Q -> nat) (cp : nat -> scheme -> list Q) (d : ipopt_dict) (o : opts) (m : model)
  (oc : option ocp) (C : constructed) (rho : env).
Hypothesis FP : fesd_problem lr cp d o m oc C.
Hypothesis FE : feasible rho (the_nlp C).
Hypothesis CS : convergence_setting cp (the_opts C) m rho.
Notation O := (the_opts C).
Notation t := (cn_tab C).
Lemma stewart_active : o_pss O = Stewart -> forall c e j, is_element O c e -> (j < o_ns O)%nat ->
  active_weights m (smallest m) (plain_point m rho c (stage_state O t rho c e j)) (th_at m C rho c e j).
Proof.
  intros Ep c e j He Hj. destruct FP as (H & E & W). destruct FE as [F1 F2]. destruct CS as (_ & _ & PF & ZR & L0).
  pose proof (element_fe _ _ _ _ _ _ _ FP c e He) as I. split.
  - exact (stewart_weights _ _ _ _ _ _ _ H E W rho F1 F2 ZR c e _ I Ep j Hj).
  - intros s k Hs Hk Hw. apply (smallest_plain m PF _ _ s k (stage_plain m O t rho c e j)).
    exact (stewart_stage _ _ _ _ _ _ _ H E W rho F1 F2 ZR L0 c e _ I Ep j s k Hj Hs Hk Hw).
Qed.
Lemma step_active : o_pss O = Step -> sign_matrix m -> rows_fit m -> (forall s, (s < n_subsystems m)%nat -> complete m s) ->
  forall c e j, is_element O c e -> (j < o_ns O)%nat ->
  active_weights m (in_closed_region m) (plain_point m rho c (stage_state O t rho c e j)) (th_at m C rho c e j).
Proof.
  intros Ep SM RF CM c e j He Hj. destruct FP as (H & E & W). destruct FE as [F1 F2]. destruct CS as (_ & _ & PF & ZR & L0).
  pose proof (element_fe _ _ _ _ _ _ _ FP c e He) as I. split.
  - exact (step_weights _ _ _ _ _ _ _ H rho F1 ZR c e _ I Ep SM RF CM j Hj).
  - intros s k Hs Hk Hw. apply (closed_plain m PF _ _ s k (stage_plain m O t rho c e j)).
    exact (step_stage _ _ _ _ _ _ _ H E W rho F1 F2 ZR L0 c e _ I Ep SM RF j s k Hj Hs Hk Hw).
Qed.
End Con.

(* the constant K depends on the method only *)
Lemma method_constant cp re sc n : exists K, 0 <= K /\
  forall lr d o m oc C rho act D M h, fesd_problem lr cp d o m oc C -> feasible rho (the_nlp C) ->
  convergence_setting cp (the_opts C) m rho -> method re sc n (the_opts C) -> mode_rule (the_opts C) m act ->
  stages_in (the_opts C) (cn_tab C) rho D -> bounded_on (the_opts C) m rho D M -> 0 <= M -> steps_upto (the_opts C) rho h ->
  exists X, approximate_trajectory (the_opts C) (cn_tab C) m rho act D (K * M * h) X.
Proof.
  destruct (stage_offset cp re sc n) as [A HA]. exists (coeff_bound n A + 2). split; [pose proof (coeff_nonneg n A); lra|].
  intros lr d o m oc C rho act D M h FP FE CS Me MR SI BD M0 Hh. pose proof Me as (E1 & E2 & E3).
  assert (HA' : forall c e j i, is_element (the_opts C) c e -> (j < o_ns (the_opts C))%nat -> (i < m_nx m)%nat ->
    stage_state (the_opts C) (cn_tab C) rho c e j i - start_state (the_opts C) (cn_tab C) rho c e i =
    step_len (the_opts C) rho c e * rupto (o_ns (the_opts C)) (fun k => A j k * (speed (the_opts C) rho c * rhs (the_opts C) m (stage_point (the_opts C) (cn_tab C) m rho c e k) i))).
  { intros c e j i He Hj Hi. pose proof FP as (H & E & W). pose proof FE as [F1 F2]. destruct CS as (P1 & _).
    destruct (elem_all _ _ _ _ _ _ _ H E W rho F2 c e _ (element_fe _ _ _ _ _ _ _ FP c e He)) as (_ & Co & _).
    rewrite E3 in Hj |- *. exact (HA _ _ m rho c e j i Me (t_made _ _ _ _ _ _ _ H) P1 Co Hj Hi). }
  rewrite <- E3. destruct MR as [[Ep ->]|(Ep & SM & RF & CM & ->)].
  - exact (approximate lr cp d o m oc C rho FP FE CS (smallest m) D M h (stewart_active _ _ _ _ _ _ _ _ FP FE CS Ep) SI BD M0 Hh A HA').
  - exact (approximate lr cp d o m oc C rho FP FE CS (in_closed_region m) D M h (step_active _ _ _ _ _ _ _ _ FP FE CS Ep SM RF CM) SI BD M0 Hh A HA').
Qed.

Lemma has_element lr cp d o m oc C : fesd_problem lr cp d o m oc C -> is_element (the_opts C) 0 0.
Proof. intros FP. pose proof (N_pos _ _ _ _ _ _ _ FP) as N. split; [exact N|]. apply (nfe_pos_con _ _ _ _ _ _ _ FP 0%nat N). Qed.
Lemma error_ext o t m rho act D X Y L M delta : steps_nonneg o rho -> approximate_trajectory o t m rho act D delta X -> exact_solution o m rho act Y ->
  (forall tm, 0 <= tm <= end_time o rho -> D (Y tm)) -> 0 <= L -> 0 <= M -> 0 <= delta -> one_sided_on o m rho act D L -> bounded_on o m rho D M ->
  forall tm, 0 <= tm <= end_time o rho -> distance2 m (X tm) (Y tm) <= error_bound o m L M delta tm.
Proof. intros. eapply approximate_compare; eassumption. Qed.

(* convergence *)
Definition rate (nx L M K T : R) : R := nx * (8 * L * (K * M * (K * M)) + 8 * M * (K * M)) * T * exp (8 * L * T).
Lemma rate_nonneg nx L M K T : 0 <= nx -> 0 <= L -> 0 <= M -> 0 <= K -> 0 <= T -> 0 <= rate nx L M K T.
Proof.
  intros. unfold rate. assert (0 <= K * M) by (apply Rmult_le_pos; assumption).
  assert (0 <= L * (K * M * (K * M))) by (repeat apply Rmult_le_pos; assumption). assert (0 <= M * (K * M)) by (repeat apply Rmult_le_pos; assumption).
  apply Rmult_le_pos; [apply Rmult_le_pos; [apply Rmult_le_pos; [assumption|lra]|assumption]|left; apply exp_pos].
Qed.
Lemma bound_rate o m L M K h T tm nx : o_repr o = Integral -> (m_nx m <= nx)%nat -> 0 <= L -> 0 <= M -> 0 <= K -> 0 <= h <= 1 -> 0 <= tm <= T ->
  error_bound o m L M (K * M * h) tm <= rate (INR nx) L M K T * h.
Proof.
  intros Er Hn HL HM HK Hh Ht. unfold error_bound, rate, weight_error. rewrite Er. rewrite !Rmult_0_l, !Rplus_0_r.
  set (k := K * M). assert (k0 : 0 <= k) by (apply Rmult_le_pos; assumption).
  assert (A1 : 8 * L * (k * h * (k * h)) + 8 * M * (k * h) <= (8 * L * (k * k) + 8 * M * k) * h).
  { assert (0 <= L * (k * k)) by (repeat apply Rmult_le_pos; assumption).
    assert (L * (k * k) * (h * h) <= L * (k * k) * h) by (apply Rmult_le_compat_l; [assumption|]; rewrite <- (Rmult_1_r h) at 3; apply Rmult_le_compat_l; lra). lra. }
  assert (A0 : 0 <= 8 * L * (k * h * (k * h)) + 8 * M * (k * h)).
  { assert (0 <= k * h) by (apply Rmult_le_pos; lra). assert (0 <= L * (k * h * (k * h))) by (apply Rmult_le_pos; [assumption|apply Rmult_le_pos; assumption]).
    assert (0 <= M * (k * h)) by (apply Rmult_le_pos; assumption). lra. }
  assert (N1 : INR (m_nx m) <= INR nx) by (apply le_INR, Hn). pose proof (pos_INR (m_nx m)) as N0.
  assert (X1 : exp (8 * L * tm) <= exp (8 * L * T)).
  { destruct (Rle_lt_or_eq_dec (8 * L * tm) (8 * L * T)) as [G|G]; [apply Rmult_le_compat_l; lra|left; apply exp_increasing, G|rewrite G; lra]. }
  pose proof (exp_pos (8 * L * tm)) as X0.
  replace (INR nx * (8 * L * (k * k) + 8 * M * k) * T * exp (8 * L * T) * h) with (INR nx * ((8 * L * (k * k) + 8 * M * k) * h) * T * exp (8 * L * T)) by ring.
  apply Rmult_le_compat; [|lra| |exact X1].
  - repeat apply Rmult_le_pos; lra.
  - apply Rmult_le_compat; [|lra| |lra]; [apply Rmult_le_pos; assumption|]. apply Rmult_le_compat; assumption.
Qed.
Lemma grid_error cp re sc n : exists K, 0 <= K /\
  forall lr d o m oc C rho act D M h L Y, fesd_problem lr cp d o m oc C -> feasible rho (the_nlp C) ->
  convergence_setting cp (the_opts C) m rho -> method re sc n (the_opts C) -> mode_rule (the_opts C) m act ->
  stages_in (the_opts C) (cn_tab C) rho D -> bounded_on (the_opts C) m rho D M -> 0 <= M -> steps_upto (the_opts C) rho h ->
  one_sided_on (the_opts C) m rho act D L -> 0 <= L -> exact_solution (the_opts C) m rho act Y ->
  (forall tm, 0 <= tm <= end_time (the_opts C) rho -> D (Y tm)) ->
  forall c e, is_element (the_opts C) c e -> let tm := grid_time (the_opts C) rho c e + step_len (the_opts C) rho c e in
  distance2 m (end_state (the_opts C) (cn_tab C) rho c e) (Y tm) <= error_bound (the_opts C) m L M (K * M * h) tm.
Proof.
  destruct (method_constant cp re sc n) as (K & K0 & HK). exists K. split; [exact K0|].
  intros lr d o m oc C rho act D M h L Y FP FE CS Me MR SI BD M0 Hh OS L0 EY YD c e He tm.
  destruct (HK lr d o m oc C rho act D M h FP FE CS Me MR SI BD M0 Hh) as [X AX].
  assert (SN : steps_nonneg (the_opts C) rho) by (intros c' e' He'; apply (Hh c' e' He')).
  assert (h0 : 0 <= h) by (pose proof (Hh c e He); lra).
  pose proof (error_ext _ _ _ _ _ _ X Y L M (K * M * h) SN AX EY YD L0 M0 ltac:(repeat apply Rmult_le_pos; assumption) OS BD tm (grid_in C rho SN c e He)) as G.
  destruct AX as (_ & _ & XE & _). eapply Rle_trans; [|exact G]. right. apply rupto_ext. intros i Hi. unfold tm. rewrite (XE c e i He Hi). reflexivity.
Qed.
Lemma grid_convergence cp sc n nx L M T : 0 <= L -> 0 <= M -> 0 <= T -> exists B, 0 <= B /\
  forall lr d o m oc C rho act D h Y, fesd_problem lr cp d o m oc C -> feasible rho (the_nlp C) ->
  convergence_setting cp (the_opts C) m rho -> method Integral sc n (the_opts C) -> mode_rule (the_opts C) m act -> (m_nx m <= nx)%nat ->
  stages_in (the_opts C) (cn_tab C) rho D -> bounded_on (the_opts C) m rho D M -> steps_upto (the_opts C) rho h -> h <= 1 ->
  one_sided_on (the_opts C) m rho act D L -> exact_solution (the_opts C) m rho act Y ->
  end_time (the_opts C) rho <= T -> (forall tm, 0 <= tm <= end_time (the_opts C) rho -> D (Y tm)) ->
  forall c e, is_element (the_opts C) c e ->
  distance2 m (end_state (the_opts C) (cn_tab C) rho c e) (Y (grid_time (the_opts C) rho c e + step_len (the_opts C) rho c e)) <= B * h.
Proof.
  intros L0 M0 T0. destruct (grid_error cp Integral sc n) as (K & K0 & HK). exists (rate (INR nx) L M K T). split; [apply rate_nonneg; try assumption; apply pos_INR|].
  intros lr d o m oc C rho act D h Y FP FE CS Me MR Hn SI BD Hh h1 OS EY ET YD c e He.
  assert (SN : steps_nonneg (the_opts C) rho) by (intros c' e' He'; apply (Hh c' e' He')).
  assert (h0 : 0 <= h) by (pose proof (Hh c e He); lra).
  eapply Rle_trans; [exact (HK lr d o m oc C rho act D M h L Y FP FE CS Me MR SI BD M0 Hh OS L0 EY YD c e He)|].
  pose proof (grid_in C rho SN c e He). apply bound_rate; try assumption; [apply Me|lra|lra].
Qed.

(* many elements: short steps *)
Lemma nominal_count lr cp d o m oc C k c : construct_problem lr cp d o m oc = Ok C -> (0 <= o_terminal_time (the_opts C))%Q -> (0 < k)%nat ->
  (c < o_N_stages (the_opts C))%nat -> (k <= o_N_stages (the_opts C) * nfe_of (the_opts C) c)%nat ->
  0 <= Q2R (nominal_step (the_opts C) (nfe_of (the_opts C) c)) <= Q2R (o_terminal_time (the_opts C)) / INR k.
Proof.
  intros H T0 Hk Hc Hn. split; [exact (nominal_nonneg _ _ _ _ _ _ _ H c Hc T0)|]. rewrite <- (plain_nominal _ _ _ _ _ _ _ H c Hc). unfold plain_step.
  apply Qle_Rle in T0. rewrite RMicromega.Q2R_0 in T0. apply le_INR in Hn. rewrite mult_INR in Hn.
  assert (P : 0 < INR k) by (apply lt_0_INR; exact Hk).
  assert (N : 0 < INR (o_N_stages (the_opts C))) by (apply lt_0_INR; lia).
  assert (F : 0 < INR (nfe_of (the_opts C) c)) by (pose proof (pos_INR (nfe_of (the_opts C) c)); nra).
  unfold Rdiv. rewrite Rmult_assoc, <- Rinv_mult. apply Rmult_le_compat_l; [exact T0|]. apply Rinv_le_contravar; assumption.
Qed.
Lemma count_steps lr cp d o m oc C rho k : fesd_problem lr cp d o m oc C -> feasible rho (the_nlp C) ->
  ext_upto (o_gamma_h (the_opts C)) 1 -> (0 <= o_terminal_time (the_opts C))%Q -> (0 < k)%nat ->
  (forall c, (c < o_N_stages (the_opts C))%nat -> (k <= o_N_stages (the_opts C) * nfe_of (the_opts C) c)%nat) ->
  steps_upto (the_opts C) rho (2 * (Q2R (o_terminal_time (the_opts C)) / INR k)).
Proof.
  intros (H & _) [BK _] Hg T0 Hk Hn c e He. pose proof (bounds_steps lr cp d o m oc C rho H BK Hg T0 c e He) as S0. split; [exact S0|].
  destruct He as [Hc He]. destruct (nominal_count _ _ _ _ _ _ _ k c H T0 Hk Hc (Hn c Hc)) as [N0 N1].
  assert (Hp : In (c, e) (elements (the_opts C))) by (apply elements_in; split; assumption).
  destruct (o_use_fesd (the_opts C)) eqn:F; [|unfold step_len; rewrite F; lra].
  pose proof (step_bounds _ _ _ _ _ _ _ H rho BK (c, e) Hp F) as [_ B]. cbn [fst snd] in B. unfold step_upper in B.
  destruct (o_gamma_h (the_opts C)) as [|q|]; [contradiction| |contradiction]. cbn in Hg. apply Qle_Rle in Hg.
  rewrite Q2R_mult, Q2R_plus in B. replace (Q2R 1) with 1 in * by (unfold Q2R; cbn; lra).
  assert ((1 + Q2R q) * Q2R (nominal_step (the_opts C) (nfe_of (the_opts C) c)) <= 2 * Q2R (nominal_step (the_opts C) (nfe_of (the_opts C) c))) by (apply Rmult_le_compat_r; lra). lra.
Qed.
Lemma plain_end lr cp d o m oc C rho : construct_problem lr cp d o m oc = Ok C -> o_use_fesd (the_opts C) = false ->
  end_time (the_opts C) rho = Q2R (o_terminal_time (the_opts C)).
Proof.
  intros H F. pose proof (stages_pos' _ _ _ _ _ _ _ H) as N. assert (P : 0 < INR (o_N_stages (the_opts C))) by (apply lt_0_INR; exact N).
  unfold end_time. rewrite (rupto_ext _ _ (fun _ => Q2R (o_terminal_time (the_opts C)) / INR (o_N_stages (the_opts C)))).
  - rewrite rupto_const. field. lra.
  - intros c Hc. unfold stage_length. destruct (nfe_of_nth _ _ _ _ _ _ _ H c Hc) as [_ Hp].
    rewrite (rupto_ext _ _ (fun _ => Q2R (o_terminal_time (the_opts C)) / INR (o_N_stages (the_opts C)) / INR (nfe_of (the_opts C) c))).
    + rewrite rupto_const. assert (0 < INR (nfe_of (the_opts C) c)) by (apply lt_0_INR; exact Hp). field. lra.
    + intros e He. unfold step_len. rewrite F. rewrite <- (plain_nominal _ _ _ _ _ _ _ H c Hc). reflexivity.
Qed.
Lemma refinement cp sc n nx L M T : 0 <= L -> 0 <= M -> exists B, 0 <= B /\
  forall lr d o m oc C rho act D k Y, fesd_problem lr cp d o m oc C -> feasible rho (the_nlp C) ->
  convergence_setting cp (the_opts C) m rho -> method Integral sc n (the_opts C) -> mode_rule (the_opts C) m act -> (m_nx m <= nx)%nat ->
  o_terminal_time (the_opts C) = T -> (0 <= T)%Q -> ext_upto (o_gamma_h (the_opts C)) 1 ->
  stages_in (the_opts C) (cn_tab C) rho D -> bounded_on (the_opts C) m rho D M ->
  one_sided_on (the_opts C) m rho act D L -> exact_solution (the_opts C) m rho act Y ->
  (forall tm, 0 <= tm <= end_time (the_opts C) rho -> D (Y tm)) ->
  (0 < k)%nat -> 2 * Q2R T <= INR k -> (forall c, (c < o_N_stages (the_opts C))%nat -> (k <= o_N_stages (the_opts C) * nfe_of (the_opts C) c)%nat) ->
  (o_use_fesd (the_opts C) = false \/ o_equidistant (the_opts C) = true \/ (1 < o_N_stages (the_opts C))%nat) ->
  forall c e, is_element (the_opts C) c e ->
  distance2 m (end_state (the_opts C) (cn_tab C) rho c e) (Y (grid_time (the_opts C) rho c e + step_len (the_opts C) rho c e)) <= B / INR k.
Proof.
  intros L0 M0. destruct (Rle_dec 0 (Q2R T)) as [T0|NT].
  2: { exists 0. split; [lra|]. intros lr d o m oc C rho act D k Y _ _ _ _ _ _ _ HT. apply Qle_Rle in HT. rewrite RMicromega.Q2R_0 in HT. contradiction. }
  destruct (grid_convergence cp sc n nx L M (Q2R T) L0 M0 T0) as (B & B0 & HB). exists (B * (2 * Q2R T)). split; [apply Rmult_le_pos; lra|].
  intros lr d o m oc C rho act D k Y FP FE CS Me MR Hn ET HT Hg SI BD OS EY YD Hk Hk2 Hc EE c e He.
  assert (Tq : (0 <= o_terminal_time (the_opts C))%Q) by (rewrite ET; exact HT).
  pose proof (count_steps _ _ _ _ _ _ _ rho k FP FE Hg Tq Hk Hc) as SU. rewrite ET in SU.
  assert (P : 0 < INR k) by (apply lt_0_INR; exact Hk).
  replace (B * (2 * Q2R T) / INR k) with (B * (2 * (Q2R T / INR k))) by (field; lra).
  assert (E1 : end_time (the_opts C) rho <= Q2R T).
  { rewrite <- ET. right. destruct (o_use_fesd (the_opts C)) eqn:F; [|exact (plain_end _ _ _ _ _ _ _ rho (proj1 FP) F)].
    destruct EE as [EE|EE]; [discriminate EE|]. exact (end_time_T _ _ _ _ _ _ _ rho FP (proj2 FE) F EE). }
  apply (HB lr d o m oc C rho act D _ Y FP FE CS Me MR Hn SI BD SU); try assumption.
  apply (Rmult_le_reg_r (INR k)); [exact P|]. replace (2 * (Q2R T / INR k) * INR k) with (2 * Q2R T) by (field; lra). lra.
Qed.
