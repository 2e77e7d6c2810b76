(* Optim_proofs.v -- global solutions of the NLP are nearly optimal for the switched system *)
From Coq Require Import Reals Qreals Lra Lia.
From Verif Require Import Base Sx Utils Tableau Opts Model Ocp Problem Spec Fesd Spec2 Spec3 Spec4 Spec9 Spec10 Spec11 Spec20 Spec21 Spec22 Spec24 Spec25 Spec30 Spec31 Conv5_proofs Feas_proofs
  Exact_proofs Exact2_proofs Cost_proofs Cost2_proofs.
Local Open Scope R_scope.

Lemma abs_between x a : Rabs x <= a -> - a <= x <= a.
Proof. intros H. pose proof (Rle_abs x). pose proof (Rle_abs (- x)). rewrite Rabs_Ropp in *. lra. Qed.
Lemma plain_value o t m oc rho Y J : elastic o = false ->
  elastic_penalty o rho + cost_scale o rho * (step_penalty o t m rho + total_cost o m oc rho Y J) = penalized_cost o t m oc rho Y J /\ cost_scale o rho = 1.
Proof. intros E. unfold elastic_penalty, cost_scale, penalized_cost. rewrite E. split; [ring|reflexivity]. Qed.

Lemma nearly_optimal cp sc n nx L M kappa T Lq LT : 0 <= L -> 0 <= M -> 0 <= kappa -> 0 <= Lq -> 0 <= LT -> exists B, 0 <= B /\
  forall lr d o m oc C rho rho' act near D k eps Mq Y J Y' J', fesd_problem lr cp d o m oc C -> elastic (the_opts C) = false ->
  solution_of C rho -> feasible rho' (the_nlp C) -> (forall y, In y (p_p (the_problem C)) -> rho' y = rho y) ->
  relaxed_setting cp (the_opts C) m -> method Integral sc n (the_opts C) -> near_rule (the_opts C) m act near -> (m_nx m <= nx)%nat -> no_left_weight (the_opts C) (cn_tab C) ->
  0 <= eps <= 1 -> relaxed_by (the_opts C) m rho (eps * eps) -> relaxed_by (the_opts C) m rho' (eps * eps) -> (0 <= T)%Q -> fine_grid (the_opts C) T k -> 2 * Q2R T <= INR k ->
  correctable_on (the_opts C) m rho act near D eps (kappa * eps) -> correctable_on (the_opts C) m rho' act near D eps (kappa * eps) ->
  uses_only (plain_sym m) (oc_fq (the_ocp oc)) ->
  cost_data (the_opts C) (cn_tab C) m (the_ocp oc) rho act D M L Lq LT Mq Y J -> cost_data (the_opts C) (cn_tab C) m (the_ocp oc) rho' act D M L Lq LT Mq Y' J' ->
  penalized_cost (the_opts C) (cn_tab C) m (the_ocp oc) rho Y J <= penalized_cost (the_opts C) (cn_tab C) m (the_ocp oc) rho' Y' J' + B * sqrt (/ INR k + eps).
Proof.
  intros HL HM Hk HLq HLT. destruct (objective_relaxed cp sc n nx L M kappa T Lq LT HL HM Hk HLq HLT) as (B & HB & G).
  exists (2 * B). split; [lra|]. intros lr d o m oc C rho rho' act near D k eps Mq Y J Y' J' FP El [F S] F' P RS Me NR Nx NL He Rb Rb' HT [g1 g2 g3 g4 g5] H2 Co Co' U
    [a1 a2 a3 a4 a5 a6 a7 a8 a9 a10] [b1 b2 b3 b4 b5 b6 b7 b8 b9 b10].
  pose proof (G lr d o m oc C rho act near D k eps Mq Y J FP F RS Me NR Nx NL He Rb g1 HT g2 a1 a2 Co a3 a4 a5 g3 H2 g4 g5 U a6 a7 a8 a9 a10) as G1.
  pose proof (G lr d o m oc C rho' act near D k eps Mq Y' J' FP F' RS Me NR Nx NL He Rb' g1 HT g2 b1 b2 Co' b3 b4 b5 g3 H2 g4 g5 U b6 b7 b8 b9 b10) as G2.
  destruct (plain_value (the_opts C) (cn_tab C) m (the_ocp oc) rho Y J El) as [E1 E2]. destruct (plain_value (the_opts C) (cn_tab C) m (the_ocp oc) rho' Y' J' El) as [E3 E4].
  rewrite E1, E2 in G1. rewrite E3, E4 in G2. rewrite Rabs_R1, Rmult_1_l in G1, G2. specialize (S rho' F' P).
  apply abs_between in G1. apply abs_between in G2. lra.
Qed.

Lemma nearly_optimal_fesd cp sc n nx L Lf M T Lq LT : 0 <= L -> 0 <= Lf -> 0 <= M -> 0 <= Lq -> 0 <= LT -> exists B, 0 <= B /\
  forall lr d o m oc C rho rho' act D k Mq Y J Y' J', fesd_problem lr cp d o m oc C -> elastic (the_opts C) = false ->
  solution_of C rho -> feasible rho' (the_nlp C) -> (forall y, In y (p_p (the_problem C)) -> rho' y = rho y) ->
  fesd_setting cp (the_opts C) (cn_tab C) m rho -> fesd_setting cp (the_opts C) (cn_tab C) m rho' -> method Integral sc n (the_opts C) -> mode_rule (the_opts C) m act -> (m_nx m <= nx)%nat ->
  no_left_weight (the_opts C) (cn_tab C) -> (0 <= T)%Q -> fine_grid (the_opts C) T k -> (o_equidistant (the_opts C) = true \/ (1 < o_N_stages (the_opts C))%nat) ->
  segments_in (the_opts C) (cn_tab C) rho D -> segments_in (the_opts C) (cn_tab C) rho' D -> lipschitz_on (the_opts C) m rho D Lf -> lipschitz_on (the_opts C) m rho' D Lf ->
  uses_only (plain_sym m) (oc_fq (the_ocp oc)) ->
  cost_data (the_opts C) (cn_tab C) m (the_ocp oc) rho act D M L Lq LT Mq Y J -> cost_data (the_opts C) (cn_tab C) m (the_ocp oc) rho' act D M L Lq LT Mq Y' J' ->
  penalized_cost (the_opts C) (cn_tab C) m (the_ocp oc) rho Y J <= penalized_cost (the_opts C) (cn_tab C) m (the_ocp oc) rho' Y' J' + B / INR k.
Proof.
  intros HL HLf HM HLq HLT. destruct (objective_fesd cp sc n nx L Lf M T Lq LT HL HLf HM HLq HLT) as (B & HB & G).
  exists (2 * B). split; [lra|]. intros lr d o m oc C rho rho' act D k Mq Y J Y' J' FP El [F S] F' P FS FS' Me MR Nx NL HT [g1 g2 g3 g4 _] Gr Se Se' Li Li' U
    [a1 a2 a3 a4 a5 a6 a7 a8 a9 a10] [b1 b2 b3 b4 b5 b6 b7 b8 b9 b10].
  pose proof (G lr d o m oc C rho act D k Mq Y J FP F FS Me MR Nx NL g1 HT g2 a1 Se a2 a3 Li a4 a5 g3 g4 Gr U a6 a7 a8 a10) as G1.
  pose proof (G lr d o m oc C rho' act D k Mq Y' J' FP F' FS' Me MR Nx NL g1 HT g2 b1 Se' b2 b3 Li' b4 b5 g3 g4 Gr U b6 b7 b8 b10) as G2.
  destruct (plain_value (the_opts C) (cn_tab C) m (the_ocp oc) rho Y J El) as [E1 E2]. destruct (plain_value (the_opts C) (cn_tab C) m (the_ocp oc) rho' Y' J' El) as [E3 E4].
  assert (Z1 : elastic_penalty (the_opts C) rho = 0) by (unfold elastic_penalty; rewrite El; reflexivity).
  assert (Z2 : elastic_penalty (the_opts C) rho' = 0) by (unfold elastic_penalty; rewrite El; reflexivity).
  rewrite Z1, Rplus_0_l in E1. rewrite Z2, Rplus_0_l in E3. rewrite E1, E2 in G1. rewrite E3, E4 in G2. rewrite Rabs_R1, Rmult_1_l in G1, G2. specialize (S rho' F' P).
  apply abs_between in G1. apply abs_between in G2. unfold Rdiv in *. lra.
Qed.
