(* Conv5_proofs.v -- a case of the convergence theorems: x' = 1 for x < 0, x' = -x - 1 for x > 0, two implicit Euler steps *)
From Coq Require Import Reals Qreals Lra Psatz.
From Verif Require Import Base Sx Utils Tableau Opts Model Ocp Problem Spec Cases Lib Sx_proofs Fesd Spec2 Spec3 Witness Feas6_proofs Witness5
  Dcs_proofs Elem_proofs Feas_proofs Mode_proofs Spec9 Spec10 Spec11 Filippov_proofs Filippov2_proofs Filippov3_proofs Filippov4_proofs Exact_proofs Exact2_proofs Spec4 Spec21.

Definition optsK : opts := with_grid (with_modes optsS Stewart ScholtesIneq SumLambdas HeuristicDelta SotNone false true) 1 [2].
Lemma sizedK : well_sized decay_model. Proof. apply sizedQ_ok. reflexivity. Qed.
Lemma caseK_ok : is_ok (build optsK decay_model None) = true. Proof. vm_compute. reflexivity. Qed.
Definition CK : constructed := get _ caseK_ok.
Lemma builtK : build optsK decay_model None = Ok CK. Proof. apply get_ok. Qed.
Lemma problemK : is_problem optsK decay_model None CK. Proof. exact (is_problem_ok _ _ _ _ builtK eq_refl sizedK). Qed.
Definition eulerK : list (sym * Q) := [(SX0 0, 1%Q); (SL00 FLam 0 0, 2%Q);
  (S1 FX 0 0 0 0, (1#3)%Q); (S2 FTheta 0 0 0 0 1, 1%Q); (S2 FLam 0 0 0 0 0, (2#3)%Q); (S2 FMu 0 0 0 0 0, (1#3)%Q);
  (S2 FTheta 0 1 0 0 0, (1#6)%Q); (S2 FTheta 0 1 0 0 1, (5#6)%Q)].
Lemma feasibleK : feasible (pt eulerK) (the_nlp CK).
Proof. apply (feasibleQ (ptQ eulerK)). vm_compute. reflexivity. Qed.
(* the same with Step *)
Definition optsL : opts := with_grid (with_modes optsS Step ScholtesIneq SumLambdas HeuristicDelta SotNone false true) 1 [2].
Lemma caseL_ok : is_ok (build optsL decay_model None) = true. Proof. vm_compute. reflexivity. Qed.
Definition CL : constructed := get _ caseL_ok.
Lemma builtL : build optsL decay_model None = Ok CL. Proof. apply get_ok. Qed.
Lemma problemL : is_problem optsL decay_model None CL. Proof. exact (is_problem_ok _ _ _ _ builtL eq_refl sizedK). Qed.
Definition eulerL : list (sym * Q) := [(SX0 0, 1%Q); (SL00 FLp 0 0, 1%Q);
  (S1 FX 0 0 0 0, (1#3)%Q); (S2 FAlpha 0 0 0 0 0, 1%Q); (S2 FLp 0 0 0 0 0, (1#3)%Q); (S2 FAlpha 0 1 0 0 0, (5#6)%Q)].
Lemma feasibleL : feasible (pt eulerL) (the_nlp CL).
Proof. apply (feasibleQ (ptQ eulerL)). vm_compute. reflexivity. Qed.

Local Open Scope R_scope.
Lemma plainK : plain_fields decay_model.
Proof.
  split; [discriminate|]. split.
  - intros s k i. destruct s as [|[|s]], k as [|[|[|k]]], i as [|[|i]]; intros x Hx; cbn in Hx; try contradiction. destruct Hx as [<-|[]]. cbn. lia.
  - intros [|s] e [H|H]; cbn in H; try contradiction; try (destruct s; contradiction). destruct H as [<-|[]]. intros x [<-|[]]. cbn. lia.
Qed.
Lemma settingK : convergence_setting case_cpoints (the_opts CK) decay_model (pt eulerK).
Proof.
  assert (N : o_ns (the_opts CK) = 1%nat) by (vm_compute; reflexivity). assert (E : o_scheme (the_opts CK) = RadauIIA) by (vm_compute; reflexivity).
  destruct (radau1 _ N E) as [P W]. split; [exact P|]. split; [exact W|]. split; [exact plainK|]. split; [|apply nonneg_pt; reflexivity].
  unfold zero_relaxation. replace (o_mpcc (the_opts CK)) with ScholtesIneq by (vm_compute; reflexivity). val eulerK. unfold Q2R. cbn. lra.
Qed.
Lemma settingL : convergence_setting case_cpoints (the_opts CL) decay_model (pt eulerL).
Proof.
  assert (N : o_ns (the_opts CL) = 1%nat) by (vm_compute; reflexivity). assert (E : o_scheme (the_opts CL) = RadauIIA) by (vm_compute; reflexivity).
  destruct (radau1 _ N E) as [P W]. split; [exact P|]. split; [exact W|]. split; [exact plainK|]. split; [|apply nonneg_pt; reflexivity].
  unfold zero_relaxation. replace (o_mpcc (the_opts CL)) with ScholtesIneq by (vm_compute; reflexivity). val eulerL. unfold Q2R. cbn. lra.
Qed.

Notation m := decay_model.
Lemma signsK : sign_matrix m.
Proof.
  intros s i k. unfold sign, user_S. cbn [m_S decay_model]. destruct s as [|[|s]], i as [|[|[|i]]], k as [|[|k]]; cbn; try (right; left; reflexivity); try (left; reflexivity); right; right; reflexivity.
Qed.
Lemma fitK : rows_fit m.
Proof. intros [|s] [|[|i]] Hs Hi; cbn in *; try reflexivity; lia. Qed.
Lemma completeK s : (s < n_subsystems m)%nat -> complete m s.
Proof.
  intros Hs. assert (s = 0)%nat by (cbn in Hs; lia). subst s. intros sg. exists (if sg 0%nat then 1%nat else 0%nat). split; [destruct (sg 0%nat); cbn; lia|]. split.
  - intros [|k] Hk; [|cbn in Hk; lia]. right. destruct (sg 0%nat); reflexivity.
  - intros [|[|j]] Hj A; cbn in Hj; try lia; specialize (A 0%nat Nat.lt_0_1); destruct (sg 0%nat); try reflexivity; destruct A as [A|A]; discriminate A.
Qed.
Lemma sidesK : sides (smallest m).
Proof.
  intros v. assert (R0 : region_value m v 0 0 = v (MX 0)) by (unfold region_value; cbn -[Q2R]; unfold rsum; cbn -[Q2R]; unfold Q2R; cbn; lra).
  assert (R1 : region_value m v 0 1 = - v (MX 0)) by (unfold region_value; cbn -[Q2R]; unfold rsum; cbn -[Q2R]; unfold Q2R; cbn; lra).
  unfold smallest. split; split.
  - intros H. specialize (H 1%nat Nat.lt_1_2). rewrite R0, R1 in H. lra.
  - intros H [|[|k]] Hk; [lra|rewrite R0, R1; lra|cbn in Hk; lia].
  - intros H. specialize (H 0%nat Nat.lt_0_2). rewrite R0, R1 in H. lra.
  - intros H [|[|k]] Hk; [rewrite R0, R1; lra|lra|cbn in Hk; lia].
Qed.
Lemma sidesL : sides (in_closed_region m).
Proof.
  intros v. assert (S0 : Q2R (sign m 0 0 0) = -1) by (unfold Q2R; cbn; lra). assert (S1 : Q2R (sign m 0 1 0) = 1) by (unfold Q2R; cbn; lra).
  assert (V : switch_value m v 0 0 = v (MX 0)) by reflexivity. unfold in_closed_region. split; split.
  - intros H. specialize (H 0%nat Nat.lt_0_1). rewrite S0, V in H. lra.
  - intros H [|k] Hk; [rewrite S0, V; lra|cbn in Hk; lia].
  - intros H. specialize (H 0%nat Nat.lt_0_1). rewrite S1, V in H. lra.
  - intros H [|k] Hk; [rewrite S1, V; lra|cbn in Hk; lia].
Qed.
Lemma weightsK th : convex_weights m th <-> 0 <= th 0%nat 0%nat /\ 0 <= th 0%nat 1%nat /\ th 0%nat 0%nat + th 0%nat 1%nat = 1.
Proof.
  split.
  - intros H. destruct (H 0%nat Nat.lt_0_1) as [P S]. cbn in S. repeat split; [apply P; cbn; lia|apply P; cbn; lia|lra].
  - intros (P & Q & S) [|s] Hs; [|cbn in Hs; lia]. split; [intros [|[|k]] Hk; [assumption|assumption|cbn in Hk; lia]|cbn; lra].
Qed.
Section At.
Variables (o : opts) (rho : env) (act : env -> nat -> nat -> Prop).
Hypothesis SD : sides act.
Hypothesis NS : o_sot o <> SotLocal.
Lemma velocityK c x th : velocity o m rho c x th 0 = th 0%nat 0%nat + (- x 0%nat - 1) * th 0%nat 1%nat.
Proof. unfold velocity. rewrite (sc_speed o rho NS). unfold mixed_field, mode_field. cbn -[Q2R]. unfold Q2R. cbn. lra. Qed.
Lemma boundK : bounded_on o m rho unit_interval 2.
Proof.
  intros c x th i _ [X0 X1] Cx Hi. cbn in Hi. assert (i = 0)%nat by lia. subst i. apply weightsK in Cx. destruct Cx as (P & Q & S). rewrite velocityK.
  set (p := th 0%nat 0%nat) in *. set (q := th 0%nat 1%nat) in *. assert (0 <= x 0%nat * q <= q) by (split; nra). apply Rabs_le. lra.
Qed.
Lemma oneK : one_sided_on o m rho act unit_interval 0.
Proof.
  intros c x y th th' _ Dx Dy [Cx Ax] [Cy Ay]. apply weightsK in Cx. apply weightsK in Cy. destruct Cx as (P & Q & S). destruct Cy as (P' & Q' & S').
  cbn [m_nx decay_model]. unfold rupto. cbn [seq map]. unfold rsum. cbn [fold_right]. rewrite !velocityK.
  assert (Ex : 0 < th 0%nat 0%nat -> x 0%nat <= 0) by (intros T; apply (proj1 (proj1 (SD (plain_point m rho c x)))), Ax; [cbn; lia|cbn; lia|exact T]).
  assert (Ey : 0 < th' 0%nat 0%nat -> y 0%nat <= 0) by (intros T; apply (proj1 (proj1 (SD (plain_point m rho c y)))), Ay; [cbn; lia|cbn; lia|exact T]).
  unfold unit_interval in Dx, Dy.
  set (p := th 0%nat 0%nat) in *. set (q := th 0%nat 1%nat) in *. set (p' := th' 0%nat 0%nat) in *. set (q' := th' 0%nat 1%nat) in *.
  set (u := x 0%nat) in *. set (v := y 0%nat) in *. clearbody p q p' q' u v. rewrite Rmult_0_l, Rplus_0_r.
  (* away from 0 only mode 1 is active *)
  assert (U : u = 0 \/ (p = 0 /\ q = 1)) by (destruct (Rle_dec p 0); [right; lra|left; pose proof (Ex ltac:(lra)); lra]).
  assert (V : v = 0 \/ (p' = 0 /\ q' = 1)) by (destruct (Rle_dec p' 0); [right; lra|left; pose proof (Ey ltac:(lra)); lra]).
  destruct U as [->|[-> ->]], V as [->|[-> ->]].
  - lra.
  - replace (p + (-0 - 1) * q - (0 + (- v - 1) * 1)) with (2 * p + v) by lra. nra.
  - replace (0 + (- u - 1) * 1 - (p' + (-0 - 1) * q')) with (- (2 * p' + u)) by lra. nra.
  - pose proof (Rle_0_sqr (u - v)) as G. unfold Rsqr in G. lra.
Qed.
Lemma exp_slope a b : 0 <= a -> a <= b -> 0 <= exp (- a) - exp (- b) <= b - a.
Proof.
  intros Ha Hab. replace (- b) with (- a + - (b - a)) by ring. rewrite exp_plus. pose proof (exp_ineq1_le (- (b - a))) as E.
  pose proof (exp_pos (- a)) as P. assert (P1 : exp (- a) <= 1).
  { rewrite <- exp_0. destruct (Rle_lt_or_eq_dec (- a) 0) as [G|G]; [lra|left; apply exp_increasing, G|rewrite G; lra]. }
  assert (E1 : exp (- (b - a)) <= 1).
  { rewrite <- exp_0. destruct (Rle_lt_or_eq_dec (- (b - a)) 0) as [G|G]; [lra|left; apply exp_increasing, G|rewrite G; lra]. }
  set (u := exp (- (b - a))) in *. set (w := exp (- a)) in *. clearbody u w. split; nra.
Qed.
Lemma solution_slope a b : 0 <= a -> a <= b -> 0 <= decay_solution a - decay_solution b <= 2 * (b - a).
Proof. intros Ha Hab. pose proof (exp_slope a b Ha Hab). unfold decay_solution, Rmax. repeat destruct (Rle_dec _ _); lra. Qed.
Lemma solution_range z : 0 <= z -> 0 <= decay_solution z <= 1.
Proof.
  intros Hz. pose proof (exp_slope 0 z ltac:(lra) Hz) as G. rewrite Ropp_0, exp_0 in G. unfold decay_solution, Rmax. destruct (Rle_dec _ _); lra.
Qed.
Lemma exp_ln2 z : z < ln 2 -> / 2 < exp (- z).
Proof. intros H. rewrite <- (exp_ln (/ 2)) by lra. rewrite ln_Rinv by lra. apply exp_increasing. lra. Qed.
Lemma exp_ln2' z : ln 2 < z -> exp (- z) < / 2.
Proof. intros H. rewrite <- (exp_ln (/ 2)) by lra. rewrite ln_Rinv by lra. apply exp_increasing. lra. Qed.
Lemma neg_exp_deriv z : derivable_pt_lim (fun z => 2 * exp (- z) - 1) z (- (2 * exp (- z))).
Proof.
  assert (D : derivable_pt_lim (fun z => exp (- z)) z (exp (- z) * -1)).
  { apply (derivable_pt_lim_comp (fun z => - z) exp); [apply (derivable_pt_lim_opp id), derivable_pt_lim_id|apply derivable_pt_lim_exp]. }
  pose proof (derivable_pt_lim_minus _ (fct_cte 1) z _ _ (derivable_pt_lim_scal _ 2 z _ D) (derivable_pt_lim_const 1 z)) as G.
  replace (- (2 * exp (- z))) with (2 * (exp (- z) * -1) - 0) by ring. exact G.
Qed.
Hypothesis X0 : rho (SX0 0) = 1.
Lemma solutionK : exact_solution o m rho act (fun z _ => decay_solution z).
Proof.
  split; [|split].
  - intros i _. apply (lip_cont _ _ _ 2). intros y z Hy Hz. destruct (Rle_dec y z) as [H|H].
    + pose proof (solution_slope y z ltac:(lra) H). rewrite (Rabs_pos_eq (_ - _)) by lra. rewrite Rabs_minus_sym, Rabs_pos_eq by lra. lra.
    + pose proof (solution_slope z y ltac:(lra) ltac:(lra)). rewrite Rabs_minus_sym, (Rabs_pos_eq (_ - _)) by lra. rewrite (Rabs_pos_eq (y - z)) by lra. lra.
  - intros i Hi. cbn in Hi. assert (i = 0)%nat by lia. subst i. rewrite X0. unfold decay_solution. rewrite Ropp_0, exp_0. rewrite Rmax_right; lra.
  - exists [ln 2]. intros c tm _ _ Ne. assert (tm <> ln 2) by (intros E; apply Ne; left; congruence).
    destruct (Rlt_dec tm (ln 2)) as [Hl|Hl].
    + assert (V : forall y, y < ln 2 -> decay_solution y = 2 * exp (- y) - 1) by (intros y Hy; pose proof (exp_ln2 y Hy); apply Rmax_right; lra).
      exists (fun _ k => match k with O => 0 | _ => 1 end). split; [split; [apply weightsK; lra|]|].
      * intros [|s] [|[|k]] Hs Hk P; cbn in Hs, Hk; try lia; try lra. apply SD. cbn. unfold decay_solution. apply Rmax_l.
      * intros i Hi. cbn in Hi. assert (i = 0)%nat by lia. subst i. rewrite velocityK. rewrite (V tm Hl).
        apply (derivable_pt_lim_locally_ext (fun z => 2 * exp (- z) - 1) _ tm (tm - 1) (ln 2)); [lra|intros y Hy; symmetry; apply V; lra|].
        replace (0 + (- (2 * exp (- tm) - 1) - 1) * 1) with (- (2 * exp (- tm))) by ring. apply neg_exp_deriv.
    + assert (V : forall y, ln 2 < y -> decay_solution y = 0) by (intros y Hy; pose proof (exp_ln2' y Hy); apply Rmax_left; lra).
      assert (Gt : ln 2 < tm) by lra. exists (fun _ k => / 2). split; [split; [apply weightsK; lra|]|].
      * intros [|s] [|[|k]] Hs Hk P; cbn in Hs, Hk; try lia; apply SD; cbn; rewrite (V tm Gt); lra.
      * intros i Hi. cbn in Hi. assert (i = 0)%nat by lia. subst i. rewrite velocityK. rewrite (V tm Gt).
        apply (derivable_pt_lim_locally_ext (fct_cte 0) _ tm (ln 2) (tm + 1)); [lra|intros y Hy; symmetry; apply V; lra|].
        replace (/ 2 + (- 0 - 1) * / 2) with 0 by lra. apply derivable_pt_lim_const.
Qed.
End At.
Lemma elemK c e : is_element (the_opts CK) c e -> c = 0%nat /\ (e = 0%nat \/ e = 1%nat).
Proof.
  intros [Hc He]. replace (o_N_stages (the_opts CK)) with 1%nat in Hc by (vm_compute; reflexivity). assert (c = 0)%nat by lia. subst c.
  replace (nfe_of (the_opts CK) 0) with 2%nat in He by (vm_compute; reflexivity). lia.
Qed.
Lemma elemL c e : is_element (the_opts CL) c e -> c = 0%nat /\ (e = 0%nat \/ e = 1%nat).
Proof.
  intros [Hc He]. replace (o_N_stages (the_opts CL)) with 1%nat in Hc by (vm_compute; reflexivity). assert (c = 0)%nat by lia. subst c.
  replace (nfe_of (the_opts CL) 0) with 2%nat in He by (vm_compute; reflexivity). lia.
Qed.
Lemma stepsK : steps_upto (the_opts CK) (pt eulerK) (/ 2).
Proof.
  intros c e He. destruct (elemK c e He) as [-> _]. unfold step_len. replace (o_use_fesd (the_opts CK)) with false by (vm_compute; reflexivity).
  replace (nominal_step (the_opts CK) (nfe_of (the_opts CK) 0)) with (1#2)%Q by (vm_compute; reflexivity). unfold Q2R. cbn. lra.
Qed.
Lemma stepsL : steps_upto (the_opts CL) (pt eulerL) (/ 2).
Proof.
  intros c e He. destruct (elemL c e He) as [-> _]. unfold step_len. replace (o_use_fesd (the_opts CL)) with false by (vm_compute; reflexivity).
  replace (nominal_step (the_opts CL) (nfe_of (the_opts CL) 0)) with (1#2)%Q by (vm_compute; reflexivity). unfold Q2R. cbn. lra.
Qed.
Lemma stagesK : stages_in (the_opts CK) (cn_tab CK) (pt eulerK) unit_interval.
Proof.
  intros c e j He Hj. replace (o_ns (the_opts CK)) with 1%nat in Hj by (vm_compute; reflexivity). assert (j = 0)%nat by lia. subst j.
  unfold unit_interval, stage_state. replace (o_repr (the_opts CK)) with Integral by (vm_compute; reflexivity).
  destruct (elemK c e He) as [-> [->| ->]]; val eulerK; unfold Q2R; cbn; lra.
Qed.
Lemma stagesL : stages_in (the_opts CL) (cn_tab CL) (pt eulerL) unit_interval.
Proof.
  intros c e j He Hj. replace (o_ns (the_opts CL)) with 1%nat in Hj by (vm_compute; reflexivity). assert (j = 0)%nat by lia. subst j.
  unfold unit_interval, stage_state. replace (o_repr (the_opts CL)) with Integral by (vm_compute; reflexivity).
  destruct (elemL c e He) as [-> [->| ->]]; val eulerL; unfold Q2R; cbn; lra.
Qed.
Lemma sotK : o_sot (the_opts CK) <> SotLocal. Proof. intros E. vm_compute in E. discriminate E. Qed.
Lemma sotL : o_sot (the_opts CL) <> SotLocal. Proof. intros E. vm_compute in E. discriminate E. Qed.
Lemma fieldsK : one_sided_on (the_opts CK) m (pt eulerK) (smallest m) unit_interval 0 /\
  exact_solution (the_opts CK) m (pt eulerK) (smallest m) (fun z _ => decay_solution z) /\
  (forall tm, 0 <= tm <= end_time (the_opts CK) (pt eulerK) -> unit_interval (fun _ => decay_solution tm)).
Proof.
  split; [exact (oneK _ _ _ sidesK sotK)|]. split; [|intros tm [H _]; exact (solution_range tm H)].
  apply (solutionK _ _ _ sidesK sotK). val eulerK. unfold Q2R. cbn. lra.
Qed.
Lemma fieldsL : one_sided_on (the_opts CL) m (pt eulerL) (in_closed_region m) unit_interval 0 /\
  exact_solution (the_opts CL) m (pt eulerL) (in_closed_region m) (fun z _ => decay_solution z) /\
  (forall tm, 0 <= tm <= end_time (the_opts CL) (pt eulerL) -> unit_interval (fun _ => decay_solution tm)).
Proof.
  split; [exact (oneK _ _ _ sidesL sotL)|]. split; [|intros tm [H _]; exact (solution_range tm H)].
  apply (solutionK _ _ _ sidesL sotL). val eulerL. unfold Q2R. cbn. lra.
Qed.
Lemma conv_caseK : is_problem optsK m None CK /\ feasible (pt eulerK) (the_nlp CK) /\ convergence_setting case_cpoints (the_opts CK) m (pt eulerK) /\
  method Integral RadauIIA 1 (the_opts CK) /\ mode_rule (the_opts CK) m (smallest m) /\
  stages_in (the_opts CK) (cn_tab CK) (pt eulerK) unit_interval /\ bounded_on (the_opts CK) m (pt eulerK) unit_interval 2 /\
  steps_upto (the_opts CK) (pt eulerK) (/ 2).
Proof.
  split; [exact problemK|]. split; [exact feasibleK|]. split; [exact settingK|]. split; [split; [|split]; vm_compute; reflexivity|].
  split; [left; split; [vm_compute; reflexivity|reflexivity]|]. split; [exact stagesK|]. split; [exact (boundK _ _ sotK)|exact stepsK].
Qed.
Lemma conv_caseL : is_problem optsL m None CL /\ feasible (pt eulerL) (the_nlp CL) /\ convergence_setting case_cpoints (the_opts CL) m (pt eulerL) /\
  method Integral RadauIIA 1 (the_opts CL) /\ mode_rule (the_opts CL) m (in_closed_region m) /\
  stages_in (the_opts CL) (cn_tab CL) (pt eulerL) unit_interval /\ bounded_on (the_opts CL) m (pt eulerL) unit_interval 2 /\
  steps_upto (the_opts CL) (pt eulerL) (/ 2).
Proof.
  split; [exact problemL|]. split; [exact feasibleL|]. split; [exact settingL|]. split; [split; [|split]; vm_compute; reflexivity|].
  split; [right; split; [vm_compute; reflexivity|]; split; [exact signsK|]; split; [exact fitK|]; split; [exact completeK|reflexivity]|].
  split; [exact stagesL|]. split; [exact (boundK _ _ sotL)|exact stepsL].
Qed.
Lemma refine_caseK : o_terminal_time (the_opts CK) = 1%Q /\ ext_upto (o_gamma_h (the_opts CK)) 1 /\ 2 * Q2R 1 <= INR 2 /\
  (forall c, (c < o_N_stages (the_opts CK))%nat -> (2 <= o_N_stages (the_opts CK) * nfe_of (the_opts CK) c)%nat) /\ o_use_fesd (the_opts CK) = false.
Proof.
  split; [vm_compute; reflexivity|]. split; [vm_compute; discriminate|]. split; [unfold Q2R; cbn; lra|]. split; [|vm_compute; reflexivity].
  intros c Hc. replace (o_N_stages (the_opts CK)) with 1%nat in * by (vm_compute; reflexivity). assert (c = 0)%nat by lia. subst c.
  replace (nfe_of (the_opts CK) 0) with 2%nat by (vm_compute; reflexivity). lia.
Qed.
