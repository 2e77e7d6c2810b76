(* Relax4_proofs.v -- a case of the theorems on relaxed problems: x' = 1 for x < 0, x' = -x - 1 for x > 0, two implicit Euler steps, sigma = 1/100 *)
From Coq Require Import Reals Qreals Lra Psatz.
From Verif Require Import Base Sx Utils Tableau Opts Model Ocp Problem Spec Cases Lib Sx_proofs Fesd Spec2 Spec3 Witness Feas6_proofs Witness5
  Dcs_proofs Elem_proofs Feas_proofs Mode_proofs Spec9 Spec10 Spec11 Filippov_proofs Filippov2_proofs Filippov3_proofs Filippov4_proofs Exact_proofs Exact2_proofs Spec4 Spec21 Conv5_proofs
  Spec22 Spec24 Relax_proofs Relax5_proofs Conv8_proofs.

Definition relaxedK : list (sym * Q) := [(SX0 0, 1%Q); (SL00 FLam 0 0, 2%Q); (SSigma, (1#100)%Q);
  (S1 FX 0 0 0 0, (102#299)%Q); (S2 FTheta 0 0 0 0 0, (1#100)%Q); (S2 FTheta 0 0 0 0 1, (99#100)%Q); (S2 FLam 0 0 0 0 0, (204#299)%Q); (S2 FMu 0 0 0 0 0, (102#299)%Q);
  (S1 FX 0 1 0 0, (1#50)%Q); (S2 FTheta 0 1 0 0 0, (5647#30199)%Q); (S2 FTheta 0 1 0 0 1, (24552#30199)%Q); (S2 FLam 0 1 0 0 0, (1#25)%Q); (S2 FMu 0 1 0 0 0, (1#50)%Q)].
Lemma relaxed_feasibleK : feasible (pt relaxedK) (the_nlp CK).
Proof. apply (feasibleQ (ptQ relaxedK)). vm_compute. reflexivity. Qed.
Definition relaxedL : list (sym * Q) := [(SX0 0, 1%Q); (SL00 FLp 0 0, 1%Q); (SSigma, (1#100)%Q);
  (S1 FX 0 0 0 0, (102#299)%Q); (S2 FAlpha 0 0 0 0 0, (99#100)%Q); (S2 FLp 0 0 0 0 0, (102#299)%Q);
  (S1 FX 0 1 0 0, (1#50)%Q); (S2 FAlpha 0 1 0 0 0, (24552#30199)%Q); (S2 FLp 0 1 0 0 0, (1#50)%Q)].
Lemma relaxed_feasibleL : feasible (pt relaxedL) (the_nlp CL).
Proof. apply (feasibleQ (ptQ relaxedL)). vm_compute. reflexivity. Qed.

Local Open Scope R_scope.
Lemma oneswK : one_switch decay_model.
Proof. split; try reflexivity; [exact fitK|left; split; reflexivity]. Qed.
Lemma surfaceK o rho eps : surface_close o decay_model rho unit_interval 1 eps.
Proof.
  intros c x _ Dx G. change (Rabs (x 0%nat) <= eps) in G. exists (fun _ => 0). split; [unfold unit_interval; lra|]. split; [reflexivity|].
  intros i Hi. cbn in Hi. assert (i = 0)%nat by lia. subst i. replace (0 - x 0%nat) with (- x 0%nat) by ring. rewrite Rabs_Ropp. lra.
Qed.
Lemma nrK : near_rule (the_opts CK) decay_model (smallest decay_model) (near_smallest decay_model).
Proof. left. split; [vm_compute; reflexivity|split; reflexivity]. Qed.
Lemma nrL : near_rule (the_opts CL) decay_model (in_closed_region decay_model) (near_region decay_model).
Proof. right. split; [vm_compute; reflexivity|]. split; [exact signsK|]. split; [exact fitK|]. split; [exact completeK|]. split; reflexivity. Qed.
Lemma pmK : product_mode (the_opts CK). Proof. unfold product_mode. replace (o_mpcc (the_opts CK)) with ScholtesIneq by (vm_compute; reflexivity). exact Logic.I. Qed.
Lemma pmL : product_mode (the_opts CL). Proof. unfold product_mode. replace (o_mpcc (the_opts CL)) with ScholtesIneq by (vm_compute; reflexivity). exact Logic.I. Qed.
Lemma rsettingK : relaxed_setting case_cpoints (the_opts CK) decay_model.
Proof. destruct settingK as (A & B & E & _). split; [exact A|]. split; [exact B|]. split; [exact E|exact pmK]. Qed.
Lemma rsettingL : relaxed_setting case_cpoints (the_opts CL) decay_model.
Proof. destruct settingL as (A & B & E & _). split; [exact A|]. split; [exact B|]. split; [exact E|exact pmL]. Qed.
Lemma paramK : relaxation (the_opts CK) (pt relaxedK) = / 10 * / 10.
Proof. unfold relaxation. replace (o_mpcc (the_opts CK)) with ScholtesIneq by (vm_compute; reflexivity). val relaxedK. unfold Q2R. cbn. lra. Qed.
Lemma paramL : relaxation (the_opts CL) (pt relaxedL) = / 10 * / 10.
Proof. unfold relaxation. replace (o_mpcc (the_opts CL)) with ScholtesIneq by (vm_compute; reflexivity). val relaxedL. unfold Q2R. cbn. lra. Qed.
Lemma rbyK : relaxed_by (the_opts CK) decay_model (pt relaxedK) (/ 10 * / 10).
Proof. rewrite <- paramK. apply (relaxed_by_parameter _ _ _ _ _ _ CK _ problemK relaxed_feasibleK pmK). apply nonneg_pt. reflexivity. Qed.
Lemma rbyL : relaxed_by (the_opts CL) decay_model (pt relaxedL) (/ 10 * / 10).
Proof. rewrite <- paramL. apply (relaxed_by_parameter _ _ _ _ _ _ CL _ problemL relaxed_feasibleL pmL). apply nonneg_pt. reflexivity. Qed.
Lemma rstepsK : steps_upto (the_opts CK) (pt relaxedK) (/ 2).
Proof.
  intros c e He. destruct (elemK c e He) as [-> _]. unfold step_len. replace (o_use_fesd (the_opts CK)) with false by (vm_compute; reflexivity).
  replace (nominal_step (the_opts CK) (nfe_of (the_opts CK) 0)) with (1#2)%Q by (vm_compute; reflexivity). unfold Q2R. cbn. lra.
Qed.
Lemma rstepsL : steps_upto (the_opts CL) (pt relaxedL) (/ 2).
Proof.
  intros c e He. destruct (elemL c e He) as [-> _]. unfold step_len. replace (o_use_fesd (the_opts CL)) with false by (vm_compute; reflexivity).
  replace (nominal_step (the_opts CL) (nfe_of (the_opts CL) 0)) with (1#2)%Q by (vm_compute; reflexivity). unfold Q2R. cbn. lra.
Qed.
Lemma rstagesK : stages_in (the_opts CK) (cn_tab CK) (pt relaxedK) unit_interval.
Proof.
  intros c e j He Hj. replace (o_ns (the_opts CK)) with 1%nat in Hj by (vm_compute; reflexivity). assert (j = 0)%nat by lia. subst j.
  unfold unit_interval, stage_state. replace (o_repr (the_opts CK)) with Integral by (vm_compute; reflexivity).
  destruct (elemK c e He) as [-> [->| ->]]; val relaxedK; unfold Q2R; cbn; lra.
Qed.
Lemma rstagesL : stages_in (the_opts CL) (cn_tab CL) (pt relaxedL) unit_interval.
Proof.
  intros c e j He Hj. replace (o_ns (the_opts CL)) with 1%nat in Hj by (vm_compute; reflexivity). assert (j = 0)%nat by lia. subst j.
  unfold unit_interval, stage_state. replace (o_repr (the_opts CL)) with Integral by (vm_compute; reflexivity).
  destruct (elemL c e He) as [-> [->| ->]]; val relaxedL; unfold Q2R; cbn; lra.
Qed.
Lemma relaxed_caseK : is_problem optsK decay_model None CK /\ feasible (pt relaxedK) (the_nlp CK) /\ relaxed_setting case_cpoints (the_opts CK) decay_model /\
  method Integral RadauIIA 1 (the_opts CK) /\ near_rule (the_opts CK) decay_model (smallest decay_model) (near_smallest decay_model) /\
  relaxation (the_opts CK) (pt relaxedK) = / 10 * / 10 /\ relaxed_by (the_opts CK) decay_model (pt relaxedK) (/ 10 * / 10) /\
  stages_in (the_opts CK) (cn_tab CK) (pt relaxedK) unit_interval /\ bounded_on (the_opts CK) decay_model (pt relaxedK) unit_interval 2 /\
  steps_upto (the_opts CK) (pt relaxedK) (/ 2).
Proof.
  split; [exact problemK|]. split; [exact relaxed_feasibleK|]. split; [exact rsettingK|]. split; [split; [|split]; vm_compute; reflexivity|]. split; [exact nrK|].
  split; [exact paramK|]. split; [exact rbyK|]. split; [exact rstagesK|]. split; [exact (boundK _ _ sotK)|exact rstepsK].
Qed.
Lemma relaxed_caseL : is_problem optsL decay_model None CL /\ feasible (pt relaxedL) (the_nlp CL) /\ relaxed_setting case_cpoints (the_opts CL) decay_model /\
  method Integral RadauIIA 1 (the_opts CL) /\ near_rule (the_opts CL) decay_model (in_closed_region decay_model) (near_region decay_model) /\
  relaxation (the_opts CL) (pt relaxedL) = / 10 * / 10 /\ relaxed_by (the_opts CL) decay_model (pt relaxedL) (/ 10 * / 10) /\
  stages_in (the_opts CL) (cn_tab CL) (pt relaxedL) unit_interval /\ bounded_on (the_opts CL) decay_model (pt relaxedL) unit_interval 2 /\
  steps_upto (the_opts CL) (pt relaxedL) (/ 2).
Proof.
  split; [exact problemL|]. split; [exact relaxed_feasibleL|]. split; [exact rsettingL|]. split; [split; [|split]; vm_compute; reflexivity|]. split; [exact nrL|].
  split; [exact paramL|]. split; [exact rbyL|]. split; [exact rstagesL|]. split; [exact (boundK _ _ sotL)|exact rstepsL].
Qed.
Lemma relaxed_fieldsK : one_switch decay_model /\ lipschitz_on (the_opts CK) decay_model (pt relaxedK) unit_interval 1 /\
  surface_close (the_opts CK) decay_model (pt relaxedK) unit_interval 1 (/ 10) /\
  correctable_on (the_opts CK) decay_model (pt relaxedK) (smallest decay_model) (near_smallest decay_model) unit_interval (/ 10) (6 * / 10) /\
  one_sided_on (the_opts CK) decay_model (pt relaxedK) (smallest decay_model) unit_interval 0 /\
  exact_solution (the_opts CK) decay_model (pt relaxedK) (smallest decay_model) (fun z _ => decay_solution z) /\
  (forall tm, 0 <= tm <= end_time (the_opts CK) (pt relaxedK) -> unit_interval (fun _ => decay_solution tm)).
Proof.
  split; [exact oneswK|]. split; [exact (lipK _ _ sotK)|]. split; [apply surfaceK|]. split.
  { replace (6 * / 10) with ((1 + 1 * 1 + 2 * 2) * / 10) by lra.
    exact (one_switch_correctable _ _ _ _ _ _ oneswK nrK 2 1 1 (/ 10) (boundK _ _ sotK) (lipK _ _ sotK) (surfaceK _ _ _) ltac:(lra) ltac:(lra) ltac:(lra) ltac:(lra)). }
  split; [exact (oneK _ _ _ sidesK sotK)|]. split; [|intros tm [H _]; exact (solution_range tm H)].
  apply (solutionK _ _ _ sidesK sotK). val relaxedK. unfold Q2R. cbn. lra.
Qed.
