(* Picard4_proofs.v -- a case of Props_Picard.v: x' = x^2 / 8 from 1, two elements, two Radau points *)
From Coq Require Import Reals Qreals Lra Psatz.
From Verif Require Import Base Sx Utils Tableau Opts Model Ocp Problem Spec Cases Lib Sx_proofs Index3_proofs Fesd Spec2 Spec3 Spec4 Dcs_proofs Elem_proofs Nlp_proofs Poly_proofs Witness Witness2 Feas_proofs Feas2_proofs
  Spec9 Spec10 Spec11 Spec14 Spec21 Spec36 Spec37 Exact_proofs Exist2_proofs Exist3_proofs Picard3_proofs.
Local Open Scope R_scope.

Definition model_sq : model := with_switching 1 [1%Q] [mkFmat 1 [[cq 1]; [EBin BMul (cq (1#8)) (EBin BMul (cx 0) (cx 0))]]] [[cx 0]] [[[(-1)%Q]; [1%Q]]].
Definition optsP : opts := with_irk (with_grid default_opts 1 [2%nat]) Integral 2 RadauIIA.
Lemma sizedP : well_sized model_sq. Proof. apply sizedQ_ok. reflexivity. Qed.
Lemma caseP_ok : is_ok (build optsP model_sq None) = true. Proof. vm_compute. reflexivity. Qed.
Definition CP : constructed := get _ caseP_ok.
Lemma builtP : build optsP model_sq None = Ok CP. Proof. apply get_ok. Qed.
Lemma problemP : is_problem optsP model_sq None CP. Proof. exact (is_problem_ok _ _ _ _ builtP eq_refl sizedP). Qed.
Definition dataP : env := fun y => match y with SH _ _ => / 2 | SX0 0%nat => 1 | SL00 FLam 0%nat 0%nat => 2 | _ => 0 end.
Definition modeP (s : nat) : nat := 1.
Notation O := (the_opts CP).
Lemma gridP : o_N_stages O = 1%nat /\ nfe_of O 0 = 2%nat. Proof. split; vm_compute; reflexivity. Qed.
Lemma elementsP c e : is_element O c e -> c = 0%nat /\ (e = 0%nat \/ e = 1%nat).
Proof. intros [A B]. destruct gridP as [N F]. rewrite N in A. assert (c = 0%nat) by lia. subst c. rewrite F in B. split; lia. Qed.
Lemma stepP c e : step_len O dataP c e = / 2.
Proof. unfold step_len. replace (o_use_fesd O) with true by (vm_compute; reflexivity). reflexivity. Qed.
Lemma speedP c : speed O dataP c = 1.
Proof. unfold speed. replace (o_sot O) with SotNone by (vm_compute; reflexivity). reflexivity. Qed.
Lemma timeP : end_time O dataP = 1.
Proof. destruct gridP as [N F]. unfold end_time. rewrite N, rupto_succ, rupto_0. unfold stage_length. rewrite F, !rupto_succ, rupto_0, !stepP. lra. Qed.
Lemma regionP v : region_value model_sq v 0 0 = v (MX 0) /\ region_value model_sq v 0 1 = - v (MX 0).
Proof. unfold region_value. cbn -[Q2R]. unfold rsum. cbn -[Q2R]. unfold Q2R. cbn. lra. Qed.
Lemma subsP s k : (s < n_subsystems model_sq)%nat -> (k < n_modes model_sq s)%nat -> s = 0%nat /\ (k = 0%nat \/ k = 1%nat).
Proof. intros A B. cbn in A. assert (s = 0%nat) by lia. subst s. cbn in B. lia. Qed.
Lemma velocityP c x i : (i < m_nx model_sq)%nat -> velocity O model_sq dataP c x (pure modeP) i = x 0%nat * x 0%nat / 8.
Proof.
  intros Hi. assert (i = 0%nat) by (cbn in Hi; lia). subst i. unfold velocity. rewrite speedP. unfold mixed_field, mode_field, pure, modeP. cbn -[Q2R]. unfold Q2R. cbn. lra.
Qed.
Lemma ballP x : close_to_start model_sq dataP (1/2) x -> / 2 <= x 0%nat <= 3 / 2.
Proof. intros A. specialize (A 0%nat ltac:(cbn; lia)). change (dataP (SX0 0)) with 1 in A. unfold Rabs in A. destruct (Rcase_abs _) in A; lra. Qed.
Lemma modesP : mode_problem O model_sq dataP modeP (1/2) (3/8) (9/32).
Proof.
  split; [intros s Hs; assert (s = 0%nat) by (cbn in Hs; lia); subst s; unfold modeP; cbn; lia|]. split; [lra|]. split; [lra|]. split; [|split].
  - intros c x s Hc B Hs k Hk. destruct (subsP s k Hs Hk) as [-> K]. apply ballP in B. unfold modeP. set (v := plain_point model_sq dataP c x). assert (Ev : v (MX 0%nat) = x 0%nat) by reflexivity.
    destruct (regionP v) as [R0 R1]. destruct K as [-> | ->]; rewrite ?R0, ?R1; lra.
  - intros c x i Hc B Hi. rewrite velocityP by exact Hi. apply ballP in B. rewrite Rabs_right; nra.
  - intros c x y dl Hc Bx By D i Hi. rewrite !velocityP by exact Hi. apply ballP in Bx, By. specialize (D 0%nat ltac:(cbn; lia)).
    replace (x 0%nat * x 0%nat / 8 - y 0%nat * y 0%nat / 8) with ((x 0%nat + y 0%nat) / 8 * (x 0%nat - y 0%nat)) by field.
    rewrite Rabs_mult, (Rabs_right ((x 0%nat + y 0%nat) / 8)) by lra. apply Rmult_le_compat; [lra|apply Rabs_pos|lra|exact D].
Qed.
Lemma strictP : mode_strict O model_sq dataP modeP (1/2).
Proof.
  intros c x s k Hc B Hs Hk Ne. destruct (subsP s k Hs Hk) as [-> K]. apply ballP in B. unfold modeP in *. set (v := plain_point model_sq dataP c x). assert (Ev : v (MX 0%nat) = x 0%nat) by reflexivity.
  destruct (regionP v) as [R0 R1]. destruct K as [-> | ->]; [|congruence]. rewrite R0, R1. lra.
Qed.
(* the matrix of the two-stage Radau IIA method *)
Definition matrixP (j q : nat) : R := match j, q with 0%nat, 0%nat => 5 / 12 | 0%nat, _ => - / 12 | _, 0%nat => 3 / 4 | _, _ => / 4 end.
Lemma rowsP : row_bound (case_cpoints 2 RadauIIA) 1.
Proof.
  split; [lra|]. exists matrixP. split.
  - intros [|[|j]] [|[|k]] Hj Hk; cbn in Hj, Hk; try lia; unfold rupto, rsum; cbn; unfold Q2R; cbn; lra.
  - intros [|[|j]] Hj; cbn in Hj; try lia; unfold rupto, rsum; cbn; unfold Rabs; repeat destruct (Rcase_abs _); lra.
Qed.
Lemma shortP : short_steps O dataP 1 (1/2) (3/8) (9/32).
Proof. split; [intros c e Ie; rewrite stepP; lra|]. split; [intros c e Ie; rewrite stepP; lra|]. rewrite timeP. lra. Qed.
Lemma pointsP : points_ok case_cpoints O /\ points_inside case_cpoints O /\ o_scheme O = RadauIIA /\ o_repr O = Integral /\ o_ns O = 2%nat.
Proof.
  assert (E1 : o_scheme O = RadauIIA) by (vm_compute; reflexivity). assert (E2 : o_ns O = 2%nat) by (vm_compute; reflexivity). destruct (radau2 O E2 E1) as [A B].
  split; [exact A|]. split; [exact B|]. split; [exact E1|]. split; [vm_compute; reflexivity|exact E2].
Qed.
Lemma plainP : plain_model model_sq.
Proof.
  split; [discriminate|]. split; [reflexivity|]. split; [reflexivity|]. split.
  - intros s k i. destruct s as [|[|s]], k as [|[|[|k]]], i as [|[|[|i]]]; intros x Hx; cbn in Hx; try contradiction; destruct Hx as [<-|[<-|[]]]; cbn; lia.
  - intros [|s] e [E|E]; cbn in E; try contradiction; try (destruct s; contradiction). destruct E as [<-|[]]. intros x [<-|[]]. cbn. lia.
Qed.
Lemma initialP : exact_initial model_sq dataP.
Proof.
  intros s k k' Hs Hk Sm Hk'. destruct (subsP s k Hs Hk) as [-> K]. destruct (subsP 0%nat k' Hs Hk') as [_ K'].
  set (v0 := plain_point model_sq dataP 0 (fun i => dataP (SX0 i))) in *. assert (Ev : v0 (MX 0%nat) = 1) by reflexivity.
  destruct (regionP v0) as [R0 R1]. destruct K as [-> | ->]; [pose proof (Sm 1%nat ltac:(cbn; lia)); lra|]. destruct K' as [-> | ->]; rewrite ?R0, ?R1, Ev; cbn; lra.
Qed.
Lemma grid_okP : grid_ok O model_sq (the_ocp None) dataP.
Proof.
  destruct gridP as [GN GF]. split; [intros E; vm_compute in E; discriminate E|]. split; [intros i Hi; cbn in Hi; lia|]. split; [|split].
  - intros c Hc. split; [intros i Hi; cbn in Hi; lia|]. intros E. vm_compute in E. discriminate E.
  - intros c e Ie. destruct (elementsP c e Ie) as [-> _]. rewrite GF. replace (step_lower O 2) with (Fin (0 # 2)) by (vm_compute; reflexivity).
    replace (step_upper O 2) with (Fin (2 # 2)) by (vm_compute; reflexivity). split; cbn; unfold Q2R; cbn; lra.
  - replace (o_equidistant O) with true by (vm_compute; reflexivity). intros c Hc. rewrite GN in Hc. assert (c = 0%nat) by lia. subst c.
    unfold stage_length. rewrite GF, !rupto_succ, rupto_0, !stepP, GN. unfold T. replace (o_terminal_time O) with 1%Q by (vm_compute; reflexivity). unfold Q2R. cbn. lra.
Qed.
Lemma zeroP : zero_relaxation O dataP.
Proof. unfold zero_relaxation. replace (o_mpcc O) with ScholtesIneq by (vm_compute; reflexivity). reflexivity. Qed.
Lemma ocpP : plain_ocp model_sq (the_ocp None) /\ ball_admissible O model_sq (the_ocp None) dataP (1/2).
Proof.
  split; [split; [intros e [[]|[]]|reflexivity]|]. split; [reflexivity|]. intros c x _ _. split; [|intros i Hi; cbn in Hi; lia].
  intros i Hi. assert (i = 0%nat) by (cbn in Hi; lia). subst i. split; exact Logic.I.
Qed.
Lemma evenP : even_steps O dataP.
Proof. unfold even_steps. replace (o_step_eq O) with HeuristicDelta by (vm_compute; reflexivity). exact Logic.I. Qed.
Lemma nonnegP : initial_nonneg dataP.
Proof. intros f s i. cbn. destruct f; try lra. destruct s; [destruct i; lra|lra]. Qed.
Lemma rowsP' : row_bound (case_cpoints (o_ns O) (o_scheme O)) 1.
Proof. destruct pointsP as (_ & _ & E1 & _ & E2). rewrite E1, E2. exact rowsP. Qed.
Lemma case_picard : is_problem optsP model_sq None CP /\ points_ok case_cpoints O /\ points_inside case_cpoints O /\ o_scheme O = RadauIIA /\ o_repr O = Integral /\ o_pss O = Stewart /\
  o_use_fesd O = true /\ o_time_freezing O = false /\ zero_relaxation O dataP /\ plain_model model_sq /\ plain_ocp model_sq (the_ocp None) /\ same_globals model_sq dataP /\
  exact_initial model_sq dataP /\ initial_nonneg dataP /\ grid_ok O model_sq (the_ocp None) dataP /\ ball_admissible O model_sq (the_ocp None) dataP (1/2) /\ even_steps O dataP /\
  row_bound (case_cpoints (o_ns O) (o_scheme O)) 1 /\ mode_problem O model_sq dataP modeP (1/2) (3/8) (9/32) /\ mode_strict O model_sq dataP modeP (1/2) /\
  short_steps O dataP 1 (1/2) (3/8) (9/32).
Proof.
  destruct pointsP as (A & B & E1 & E2 & _). destruct ocpP as [D1 D2].
  split; [exact problemP|]. split; [exact A|]. split; [exact B|]. split; [exact E1|]. split; [exact E2|]. split; [vm_compute; reflexivity|]. split; [vm_compute; reflexivity|].
  split; [vm_compute; reflexivity|]. split; [exact zeroP|]. split; [exact plainP|]. split; [exact D1|]. split; [intros c c' i; reflexivity|]. split; [exact initialP|]. split; [exact nonnegP|].
  split; [exact grid_okP|]. split; [exact D2|]. split; [exact evenP|]. split; [exact rowsP'|]. split; [exact modesP|]. split; [exact strictP|exact shortP].
Qed.
