(* Optim2_proofs.v -- the case of Props_Optim.v: x' = 1 for x < 0, x' = -x - 1 for x > 0, from 1, terminal cost x^2; the point that slides from 2/3 on is optimal *)
From Coq Require Import Reals Qreals Lra Psatz.
From Verif Require Import Base Sx Utils Tableau Opts Model Ocp Problem Spec Cases Lib Sx_proofs Fesd Spec2 Spec3 Witness Feas6_proofs Witness5
  Dcs_proofs Elem_proofs Feas_proofs Mode_proofs Nlp_proofs Spec9 Spec10 Spec11 Filippov_proofs Filippov2_proofs Filippov3_proofs Filippov4_proofs Exact_proofs Exact2_proofs Spec4 Spec21 Conv5_proofs
  Spec22 Conv8_proofs Spec24 Relax_proofs Relax5_proofs Relax4_proofs Spec25 Cost_proofs Cost2_proofs Cost3_proofs Spec30 Spec31 Homot5_proofs.

Definition ocpP : ocp := mkOcp None None None None None (cq 0) [] None None [] (EUn USq (cx 0)) [] None None None.
Lemma caseP_ok : is_ok (build (with_step_eq optsO Direct) decay_model (Some ocpP)) = true. Proof. vm_compute. reflexivity. Qed.
Definition CP : constructed := get _ caseP_ok.
Lemma builtP : build (with_step_eq optsO Direct) decay_model (Some ocpP) = Ok CP. Proof. apply get_ok. Qed.
Lemma problemP : is_problem (with_step_eq optsO Direct) decay_model (Some ocpP) CP. Proof. exact (is_problem_ok _ _ _ _ builtP eq_refl sizedK). Qed.
Lemma feasibleP : feasible (pt gaussO) (the_nlp CP).
Proof. apply (feasibleQ (ptQ gaussO)). vm_compute. reflexivity. Qed.
Lemma relaxed_feasibleP : feasible (pt relaxedO) (the_nlp CP).
Proof. apply (feasibleQ (ptQ relaxedO)). vm_compute. reflexivity. Qed.
Local Open Scope R_scope.
Notation QP := (the_ocp (Some ocpP)).
Lemma optsP : the_opts CP = with_step_eq OO Direct /\ cn_tab CP = cn_tab CO. Proof. split; vm_compute; reflexivity. Qed.
Lemma costP v : 0 <= eval v (cost (the_nlp CP)).
Proof.
  destruct problemP as (H & E & W). rewrite (cost_exact _ _ _ _ _ _ _ H E W). unfold nlp_cost. replace (elastic (the_opts CP)) with false by (vm_compute; reflexivity).
  unfold plain_cost. assert (Z : running_cost (the_opts CP) (cn_tab CP) decay_model QP v = 0).
  { pose proof (zero_plain (the_opts CP) (cn_tab CP) decay_model (mkOcp None None None None None (cq 0) [] None None [] (cq 0) [] None None None) v) as Z.
    unfold plain_cost in Z. assert (E0 : forall u, eval u (cq 0) = 0) by (intros u; cbn; unfold Q2R; cbn; lra). cbn [oc_fT] in Z. rewrite E0, Rplus_0_r in Z.
    apply Z; try reflexivity; vm_compute; reflexivity. }
  rewrite Z, Rplus_0_l. cbn [the_ocp oc_fT ocpP eval eval_un]. apply Rle_0_sqr.
Qed.
Lemma cost0 l : ptQ l (S1 FX 0 1 1 0) = 0%Q -> evalQ (ptQ l) (cost (the_nlp CP)) = Some 0%Q -> eval (pt l) (cost (the_nlp CP)) = 0.
Proof. intros _ H. change (pt l) with (fun s => Q2R (ptQ l s)). rewrite (evalQ_sound _ _ 0%Q H). unfold Q2R. cbn. lra. Qed.
Lemma solutionP : solution_of CP (pt gaussO).
Proof.
  split; [exact feasibleP|]. intros v _ _. rewrite (cost0 gaussO); [apply costP|reflexivity|vm_compute; reflexivity].
Qed.
Lemma solutionR : solution_of CP (pt relaxedO).
Proof.
  split; [exact relaxed_feasibleP|]. intros v _ _. rewrite (cost0 relaxedO); [apply costP|reflexivity|vm_compute; reflexivity].
Qed.
Lemma sotP : o_sot (the_opts CP) <> SotLocal. Proof. intros E. vm_compute in E. discriminate E. Qed.
Section Point.
Variable l : list (sym * Q).
Hypothesis Lh : ptQ l (SH 0 0) = (2#3)%Q /\ ptQ l (SH 0 1) = (1#3)%Q.
Hypothesis Lx : ptQ l (SX0 0) = 1%Q /\ ptQ l (S1 FX 0 0 0 0) = (1#2)%Q /\ ptQ l (S1 FX 0 0 1 0) = 0%Q /\ ptQ l (S1 FX 0 1 0 0) = 0%Q /\ ptQ l (S1 FX 0 1 1 0) = 0%Q.
Lemma dataP : exists J, cost_data (the_opts CP) (cn_tab CP) decay_model QP (pt l) (smallest decay_model) unit_interval 2 0 0 2 0 (fun z _ => decay_solution z) J.
Proof.
  destruct optsP as [-> ->].
  assert (Rt : forall c x, cost_rate (with_step_eq OO Direct) m QP (pt l) c x = 0).
  { intros c x. unfold cost_rate. cbn [the_ocp oc_fq ocpP cq eval]. replace (Q2R 0) with 0 by (unfold Q2R; cbn; lra). ring. }
  assert (RL : rate_lipschitz (with_step_eq OO Direct) m QP (pt l) unit_interval 0).
  { intros c x y dd _ _ _ _. rewrite !Rt. replace (0 - 0) with 0 by ring. rewrite Rabs_R0. lra. }
  destruct (cost_exists (with_step_eq OO Direct) m QP (pt l) (smallest m) (fun z _ => decay_solution z) unit_interval 0) as [J HJ].
  - intros c e He. pose proof (lenO l Lh) as [H0 H1]. destruct (elemO c e He) as [-> [->| ->]]; [change (0 <= step_len OO (pt l) 0 0)|change (0 <= step_len OO (pt l) 0 1)]; lra.
  - exact (solO l Lx).
  - exact (insideO l).
  - lra.
  - exact RL.
  - exists J. split.
    + exact (stagesO l Lx).
    + exact (boundK _ _ sotO).
    + exact (oneK _ _ _ sidesK sotO).
    + exact (solO l Lx).
    + exact (insideO l).
    + exact RL.
    + intros c x _ _. rewrite Rt, Rabs_R0. lra.
    + intros x y dd [X1 X2] [Y1 Y2] Hd. pose proof (Hd 0%nat Nat.lt_0_1) as A. unfold end_cost. cbn [the_ocp oc_fT ocpP eval eval_un cx plain_point at_point].
      assert (P0 : 0 <= Rabs (x 0%nat - y 0%nat)) by apply Rabs_pos.
      replace (x 0%nat * x 0%nat - y 0%nat * y 0%nat) with ((x 0%nat + y 0%nat) * (x 0%nat - y 0%nat)) by ring. rewrite Rabs_mult, (Rabs_right (x 0%nat + y 0%nat)) by lra.
      apply Rmult_le_compat; lra.
    + exact (last_inO l Lx).
    + exact HJ.
Qed.
End Point.

Lemma gridP : fine_grid (the_opts CP) 1 2 /\ 2 * Q2R 1 <= INR 2 /\ o_equidistant (the_opts CP) = true.
Proof.
  destruct optsP as [-> _]. destruct gridO as (A & B & C & D & E). split; [|split; [exact C|exact E]].
  split; [exact A|exact B|exact Nat.lt_0_2|exact D|right; left; exact E].
Qed.
Lemma plainP : uses_only (plain_sym decay_model) (oc_fq QP). Proof. intros x []. Qed.
Lemma optimal_case : is_problem (with_step_eq optsO Direct) decay_model (Some ocpP) CP /\ elastic (the_opts CP) = false /\ solution_of CP (pt gaussO) /\
  fesd_setting case_cpoints (the_opts CP) (cn_tab CP) decay_model (pt gaussO) /\ method Integral GaussLegendre 1 (the_opts CP) /\
  mode_rule (the_opts CP) decay_model (smallest decay_model) /\ no_left_weight (the_opts CP) (cn_tab CP) /\
  fine_grid (the_opts CP) 1 2 /\ o_equidistant (the_opts CP) = true /\ segments_in (the_opts CP) (cn_tab CP) (pt gaussO) unit_interval /\
  lipschitz_on (the_opts CP) decay_model (pt gaussO) unit_interval 1 /\ uses_only (plain_sym decay_model) (oc_fq QP) /\
  exists J, cost_data (the_opts CP) (cn_tab CP) decay_model QP (pt gaussO) (smallest decay_model) unit_interval 2 0 0 2 0 (fun z _ => decay_solution z) J.
Proof.
  split; [exact problemP|]. split; [vm_compute; reflexivity|]. split; [exact solutionP|].
  pose proof (dataP gaussO hO xO) as X. pose proof gridP as (G & _ & E). destruct optsP as [P1 P2]. rewrite P1, P2 in *.
  split; [exact settingO|]. split; [split; [|split]; vm_compute; reflexivity|]. split; [left; split; [vm_compute; reflexivity|reflexivity]|].
  split; [exact leftO|]. split; [exact G|]. split; [exact E|]. split; [exact (segmentsO _ xO)|]. split; [exact (lipK _ _ sotO)|]. split; [exact plainP|exact X].
Qed.
Lemma optimal_case_relaxed : solution_of CP (pt relaxedO) /\ relaxed_setting case_cpoints (the_opts CP) decay_model /\
  near_rule (the_opts CP) decay_model (smallest decay_model) (near_smallest decay_model) /\ relaxed_by (the_opts CP) decay_model (pt relaxedO) (/ 10 * / 10) /\ 2 * Q2R 1 <= INR 2 /\
  correctable_on (the_opts CP) decay_model (pt relaxedO) (smallest decay_model) (near_smallest decay_model) unit_interval (/ 10) (6 * / 10) /\
  exists J, cost_data (the_opts CP) (cn_tab CP) decay_model QP (pt relaxedO) (smallest decay_model) unit_interval 2 0 0 2 0 (fun z _ => decay_solution z) J.
Proof.
  split; [exact solutionR|]. pose proof (dataP relaxedO hR xR) as X. pose proof gridP as (_ & G & _). destruct optsP as [P1 P2]. rewrite P1, P2 in *.
  destruct cost_case_relaxed as (_ & R & N & B & _ & _ & K & _).
  split; [exact R|]. split; [exact N|]. split; [exact B|]. split; [exact G|]. split; [exact K|exact X].
Qed.
