(* Weier3_proofs.v -- a controlled problem with bounded variables *)
From Coq Require Import Reals Qreals Lra Lia.
From Verif Require Import Base Sx Utils Tableau Opts Model Ocp Problem Spec Cases Fesd Spec2 Spec3 Witness Spec11 Spec30 Feas6_proofs Exist3_proofs Homot3_proofs Homot5_proofs Spec35.
Local Open Scope R_scope.

(* x' = 3 + u for x < 0, x' = 1 + u for x > 0 *)
Definition model_u : model := {|
  m_nx := 1; m_x0 := [(-10)%Q];
  m_F := Some [mkFmat 1 [[EBin BAdd (cq 3) (EVar (MU 0))]; [EBin BAdd (cq 1) (EVar (MU 0))]]];
  m_c := Some [[cx 0]]; m_S := Some [[[(-1)%Q]; [1%Q]]]; m_gS := None;
  m_nu := 1; m_nz := 0; m_z0 := None; m_lbz := None; m_ubz := None; m_alpha := None; m_fx := None;
  m_gz := []; m_npt := 0; m_npg := 0; m_ptv_val := None; m_pg_val := []; m_nvg := 0; m_tvar := None |}.
(* minimise the integral of u^2 plus (x(T) + 9)^2 with |u| <= 1 and |x| <= 20 *)
Definition ocp_u : ocp := mkOcp (Some [Fin (-1)]) (Some [Fin 1]) None (Some [Fin (-20)]) (Some [Fin 20]) (EUn USq (EVar (MU 0))) [] None None []
  (EUn USq (EBin BAdd (cx 0) (cq 9))) [] None None None.
Definition pointU : list (sym * Q) := (SU 0 0, 0%Q) :: straightD.
Lemma sizedU : well_sized model_u. Proof. apply sizedQ_ok. reflexivity. Qed.
Lemma caseU_ok : is_ok (build (with_step_eq optsS Direct) model_u (Some ocp_u)) = true. Proof. vm_compute. reflexivity. Qed.
Definition CU : constructed := get _ caseU_ok.
Lemma builtU : build (with_step_eq optsS Direct) model_u (Some ocp_u) = Ok CU. Proof. apply get_ok. Qed.
Lemma problemU : is_problem (with_step_eq optsS Direct) model_u (Some ocp_u) CU. Proof. exact (is_problem_ok _ _ _ _ builtU eq_refl sizedU). Qed.
Lemma feasibleU : feasible (pt pointU) (the_nlp CU).
Proof. apply (feasibleQ (ptQ pointU)). vm_compute. reflexivity. Qed.
Lemma nonnegU : initial_nonneg (pt pointU). Proof. apply nonneg_pt. reflexivity. Qed.
Lemma finiteU : finite_bounds (the_opts CU) model_u (the_ocp (Some ocp_u)).
Proof.
  split; cbn [m_nx m_nz m_nu m_nvg model_u]; try (intros i Hi; lia); try (intros [|i] Hi; [|lia]; split; eexists; reflexivity).
  eexists. vm_compute. reflexivity.
Qed.
Lemma switchingU : continuous_switching model_u.
Proof.
  intros s e He. assert (E : e = cx 0).
  { destruct s as [|[|s]]; cbn in He; intuition. }
  subst e. split; [intros y [<-|[]]; cbn; lia|intros v; exact Logic.I].
Qed.
Lemma case_bounded : is_problem (with_step_eq optsS Direct) model_u (Some ocp_u) CU /\ o_mpcc (the_opts CU) = ScholtesIneq /\ stages_bounded (the_opts CU) model_u /\
  finite_bounds (the_opts CU) model_u (the_ocp (Some ocp_u)) /\ continuous_switching model_u /\ free_of_relaxation model_u (the_ocp (Some ocp_u)) /\
  (forall v, (forall e, In e (g (the_nlp CU)) -> regular v e) /\ regular v (cost (the_nlp CU))) /\
  feasible (pt pointU) (the_nlp CU) /\ pt pointU SSigma = 0 /\ initial_nonneg (pt pointU) /\ (10 < length (w (the_nlp CU)))%nat.
Proof.
  split; [exact problemU|]. split; [vm_compute; reflexivity|]. split; [vm_compute; exact Logic.I|]. split; [exact finiteU|]. split; [exact switchingU|].
  split; [apply free_check; vm_compute; reflexivity|]. split.
  { intros v. split; [apply safe_all; vm_compute; reflexivity|apply safe_regular; vm_compute; reflexivity]. }
  split; [exact feasibleU|]. split; [rewrite (pt_val pointU _ 0) by reflexivity; unfold Q2R; cbn; lra|]. split; [exact nonnegU|]. apply Nat.ltb_lt. vm_compute. reflexivity.
Qed.

(* Step, slopes and stage values as variables *)
Definition optsL : opts := with_irk (with_modes default_opts Step ScholtesIneq SumLambdas Direct SotNone true true) DifferentialLiftX 1 RadauIIA.
Definition pointL : list (sym * Q) := [
  (SX0 0, (-10)%Q); (SL00 FLn 0 0, 10%Q); (SH 0 0, (1#2)%Q); (SH 0 1, (1#2)%Q); (SU 0 0, 0%Q);
  (S1 FV 0 0 0 0, 3%Q); (S1 FX 0 0 0 0, (-17#2)%Q); (S2 FLn 0 0 0 0 0, (17#2)%Q);
  (S1 FV 0 1 0 0, 3%Q); (S1 FX 0 1 0 0, (-7)%Q); (S2 FLn 0 1 0 0 0, 7%Q)].
Lemma caseL_ok : is_ok (build optsL model_u (Some ocp_u)) = true. Proof. vm_compute. reflexivity. Qed.
Definition CL : constructed := get _ caseL_ok.
Lemma builtL : build optsL model_u (Some ocp_u) = Ok CL. Proof. apply get_ok. Qed.
Lemma problemL : is_problem optsL model_u (Some ocp_u) CL. Proof. exact (is_problem_ok _ _ _ _ builtL eq_refl sizedU). Qed.
Lemma feasibleL : feasible (pt pointL) (the_nlp CL).
Proof. apply (feasibleQ (ptQ pointL)). vm_compute. reflexivity. Qed.
Lemma finiteL : finite_bounds (the_opts CL) model_u (the_ocp (Some ocp_u)).
Proof.
  split; cbn [m_nx m_nz m_nu m_nvg model_u]; try (intros i Hi; lia); try (intros [|i] Hi; [|lia]; split; eexists; reflexivity).
  eexists. vm_compute. reflexivity.
Qed.
Lemma fieldsU : continuous_fields model_u.
Proof.
  split; [discriminate|]. intros s k i. 
  assert (E : safe (nth i (nth k (user_F model_u s) []) (ECst 0)) = true /\ incl (fv (nth i (nth k (user_F model_u s) []) (ECst 0))) [MU 0]).
  { destruct s as [|[|s]]; destruct k as [|[|[|k]]]; destruct i as [|[|i]]; cbn; split; try reflexivity; intros y Hy; cbn in *; intuition. }
  destruct E as [E1 E2]. split; [|intros v; apply safe_regular, E1]. intros y Hy. destruct (E2 y Hy) as [<-|[]]. cbn. lia.
Qed.
Lemma fitsU : rows_fit model_u.
Proof. intros s i Hs Hi. assert (s = 0%nat) by (cbn in Hs; lia). subst s. destruct i as [|[|i]]; [reflexivity|reflexivity|cbn in Hi; lia]. Qed.
Lemma case_lifted : is_problem optsL model_u (Some ocp_u) CL /\ o_mpcc (the_opts CL) = ScholtesIneq /\ o_repr (the_opts CL) = DifferentialLiftX /\ stages_bounded (the_opts CL) model_u /\
  finite_bounds (the_opts CL) model_u (the_ocp (Some ocp_u)) /\ continuous_switching model_u /\ free_of_relaxation model_u (the_ocp (Some ocp_u)) /\
  (forall v, (forall e, In e (g (the_nlp CL)) -> regular v e) /\ regular v (cost (the_nlp CL))) /\
  feasible (pt pointL) (the_nlp CL) /\ pt pointL SSigma = 0 /\ initial_nonneg (pt pointL).
Proof.
  split; [exact problemL|]. split; [vm_compute; reflexivity|]. split; [vm_compute; reflexivity|]. split.
  { unfold stages_bounded. replace (o_repr (the_opts CL)) with DifferentialLiftX by (vm_compute; reflexivity). split; [exact fieldsU|intros _; exact fitsU]. }
  split; [exact finiteL|]. split; [exact switchingU|]. split; [apply free_check; vm_compute; reflexivity|]. split.
  { intros v. split; [apply safe_all; vm_compute; reflexivity|apply safe_regular; vm_compute; reflexivity]. }
  split; [exact feasibleL|]. split; [rewrite (pt_val pointL _ 0) by reflexivity; unfold Q2R; cbn; lra|]. apply nonneg_pt. reflexivity.
Qed.

(* Gauss points: the multipliers at the end of the first element are variables of their own *)
Definition ocp_g : ocp := mkOcp None None None (Some [Fin (-20)]) (Some [Fin 20]) (EUn USq (cx 0)) [] None None [] (ECst 0) [] None None None.
Lemma caseG_ok : is_ok (build (with_cross optsG ComplementAll) model4 (Some ocp_g)) = true. Proof. vm_compute. reflexivity. Qed.
Definition CGb : constructed := get _ caseG_ok.
Lemma builtGb : build (with_cross optsG ComplementAll) model4 (Some ocp_g) = Ok CGb. Proof. apply get_ok. Qed.
Lemma sized4 : well_sized model4. Proof. apply sizedQ_ok. reflexivity. Qed.
Lemma problemGb : is_problem (with_cross optsG ComplementAll) model4 (Some ocp_g) CGb. Proof. exact (is_problem_ok _ _ _ _ builtGb eq_refl sized4). Qed.
Lemma feasibleGb : feasible rhoG (the_nlp CGb).
Proof. apply (feasibleQ (ptQ crossG)). vm_compute. reflexivity. Qed.
Lemma finiteG : finite_bounds (the_opts CGb) model4 (the_ocp (Some ocp_g)).
Proof.
  split; cbn [m_nx m_nz m_nu m_nvg model4]; try (intros i Hi; lia); try (intros [|i] Hi; [|lia]; split; eexists; reflexivity).
  eexists. vm_compute. reflexivity.
Qed.
Lemma switchingG : continuous_switching model4.
Proof.
  intros s e He. assert (E : e = cx 0).
  { destruct s as [|[|s]]; cbn in He; intuition. }
  subst e. split; [intros y [<-|[]]; cbn; lia|intros v; exact Logic.I].
Qed.
Lemma case_gauss : is_problem (with_cross optsG ComplementAll) model4 (Some ocp_g) CGb /\ o_mpcc (the_opts CGb) = ScholtesIneq /\ explicit_end CGb = false /\ stages_bounded (the_opts CGb) model4 /\
  finite_bounds (the_opts CGb) model4 (the_ocp (Some ocp_g)) /\ continuous_switching model4 /\ free_of_relaxation model4 (the_ocp (Some ocp_g)) /\
  (forall v, (forall e, In e (g (the_nlp CGb)) -> regular v e) /\ regular v (cost (the_nlp CGb))) /\
  feasible rhoG (the_nlp CGb) /\ rhoG SSigma = 0 /\ initial_nonneg rhoG /\ In (S2 FLam 0 0 1 0 0) (w (the_nlp CGb)).
Proof.
  split; [exact problemGb|]. split; [vm_compute; reflexivity|]. split; [vm_compute; reflexivity|]. split; [vm_compute; exact Logic.I|].
  split; [exact finiteG|]. split; [exact switchingG|]. split; [apply free_check; vm_compute; reflexivity|]. split.
  { intros v. split; [apply safe_all; vm_compute; reflexivity|apply safe_regular; vm_compute; reflexivity]. }
  split; [exact feasibleGb|]. split; [unfold rhoG; rewrite (pt_val crossG _ 0) by reflexivity; unfold Q2R; cbn; lra|]. split; [apply nonneg_pt; reflexivity|].
  vm_compute. tauto.
Qed.
