(* Exist5_proofs.v -- the Step reformulation: cases and refutation of Props_Exist.v *)
From Coq Require Import Reals Qreals Lra Psatz.
From Verif Require Import Base Sx Utils Tableau Opts Model Ocp Problem Spec Cases Lib Sx_proofs Index3_proofs Fesd Spec2 Spec3 Spec4 Dcs_proofs Elem_proofs Nlp_proofs Poly_proofs Witness Witness2 Feas_proofs Feas2_proofs Feas6_proofs
  Init_proofs Results2_proofs Results3_proofs Feas5_proofs Spec9 Spec10 Spec11 Spec14 Filippov3_proofs Filippov4_proofs Exact_proofs Exact2_proofs Exact3_proofs Bounds_proofs
  ExistBase_proofs Exist_proofs ExistStep_proofs Exist2_proofs Exist3_proofs Exist4_proofs.
Local Open Scope R_scope.

(* ---- the case of Exist3_proofs with Step ---- *)
Definition optsQs : opts := with_modes default_opts Step ScholtesIneq SumLambdas Direct SotNone true true.
Lemma caseQs_ok : is_ok (build optsQs model_quad None) = true. Proof. vm_compute. reflexivity. Qed.
Definition CQs : constructed := get _ caseQs_ok.
Lemma builtQs : build optsQs model_quad None = Ok CQs. Proof. apply get_ok. Qed.
Lemma problemQs : is_problem optsQs model_quad None CQs. Proof. exact (is_problem_ok _ _ _ _ builtQs eq_refl sized_quad). Qed.
Definition dataQs : env := fun y => match y with SH _ _ => / 2 | SX0 0%nat => - / 8 | SL00 FLn 0%nat 0%nat => / 8 | _ => 0 end.
Definition alphaQ (c e : nat) (z : R) (s r : nat) : R := match e with 0%nat => 0 | _ => 1 end.
Lemma gridQs : o_N_stages (the_opts CQs) = 1%nat /\ nfe_of (the_opts CQs) 0 = 2%nat. Proof. split; vm_compute; reflexivity. Qed.
Lemma elementsQs c e : is_element (the_opts CQs) c e -> c = 0%nat /\ (e = 0%nat \/ e = 1%nat).
Proof. intros [A B]. destruct gridQs as [N F]. rewrite N in A. assert (c = 0%nat) by lia. subst c. rewrite F in B. split; lia. Qed.
Lemma stepQs c e : step_len (the_opts CQs) dataQs c e = / 2.
Proof. unfold step_len. replace (o_use_fesd (the_opts CQs)) with true by (vm_compute; reflexivity). reflexivity. Qed.
Lemma swQ s r : (s < n_subsystems model_quad)%nat -> (r < n_switch model_quad s)%nat -> s = 0%nat /\ r = 0%nat.
Proof. intros A B. cbn in A. assert (s = 0%nat) by lia. subst s. cbn in B. lia. Qed.
Lemma weightsQs a : step_weights model_quad a 0 0 = 1 - a 0%nat 0%nat /\ step_weights model_quad a 0 1 = a 0%nat 0%nat.
Proof. unfold step_weights, step_weight. cbn. unfold Q2R. cbn. split; lra. Qed.
Lemma solutionQs : step_polynomial_solution (the_opts CQs) model_quad dataQs polyQ alphaQ (exact_degree (the_opts CQs)).
Proof.
  replace (exact_degree (the_opts CQs)) with 2%nat by (vm_compute; reflexivity). intros c e Ie. destruct (elementsQs c e Ie) as [-> E]. split; [|split].
  - intros i Hi. assert (J : i = 0%nat \/ i = 1%nat) by (cbn in Hi; lia). destruct E as [-> | ->], J as [-> | ->]; (split; [cbn; lia|]); unfold state; cbn; lra.
  - intros z Hz. split.
    + intros s r Hs Hr. destruct E as [-> | ->]; cbn; lra.
    + intros i Hi. rewrite stepQs. assert (J : i = 0%nat \/ i = 1%nat) by (cbn in Hi; lia). unfold velocity.
      replace (speed (the_opts CQs) dataQs 0) with 1 by (unfold speed; replace (o_sot (the_opts CQs)) with SotNone by (vm_compute; reflexivity); reflexivity).
      match goal with |- derivable_pt_lim _ _ ?v => replace v with (peval (pder (polyQ 0 e i)) z) end; [apply peval_deriv|].
      destruct (weightsQs (alphaQ 0 e z)) as [W0 W1]. unfold mixed_field. change (n_subsystems model_quad) with 1%nat. rewrite rupto_succ, rupto_0.
      change (n_modes model_quad 0) with 2%nat. rewrite !rupto_succ, rupto_0, W0, W1.
      destruct E as [-> | ->], J as [-> | ->]; unfold mode_field, state; cbn; unfold Q2R; cbn; lra.
  - intros s r z z' Hs Hr Hz Hz'. destruct (swQ s r Hs Hr) as [-> ->]. unfold switch_at, switch_value.
    destruct E as [-> | ->]; cbn; unfold state; cbn; split; intros; nra.
Qed.
Lemma step_solution_case : is_problem optsQs model_quad None CQs /\ points_ok case_cpoints (the_opts CQs) /\ points_inside case_cpoints (the_opts CQs) /\
  o_repr (the_opts CQs) = Integral /\ o_scheme (the_opts CQs) = RadauIIA /\ o_pss (the_opts CQs) = Step /\ o_use_fesd (the_opts CQs) = true /\
  o_time_freezing (the_opts CQs) = false /\ o_step_eq (the_opts CQs) = Direct /\ zero_relaxation (the_opts CQs) dataQs /\ plain_model model_quad /\ plain_ocp model_quad (the_ocp None) /\
  same_globals model_quad dataQs /\ step_exact_initial model_quad dataQs /\ grid_ok (the_opts CQs) model_quad (the_ocp None) dataQs /\
  step_polynomial_solution (the_opts CQs) model_quad dataQs polyQ alphaQ (exact_degree (the_opts CQs)) /\
  admissible (the_opts CQs) model_quad (the_ocp None) dataQs polyQ /\ step_equilibrated (the_opts CQs) model_quad dataQs polyQ alphaQ.
Proof.
  assert (N : o_ns (the_opts CQs) = 2%nat) by (vm_compute; reflexivity). assert (Es : o_scheme (the_opts CQs) = RadauIIA) by (vm_compute; reflexivity).
  destruct (radau2 _ N Es) as [P I]. destruct gridQs as [GN GF].
  destruct solution_case as (_ & _ & _ & _ & _ & _ & _ & _ & _ & _ & PMq & PCq & _).
  split; [exact problemQs|]. split; [exact P|]. split; [exact I|]. do 6 (split; [vm_compute; reflexivity|]).
  split; [unfold zero_relaxation; replace (o_mpcc (the_opts CQs)) with ScholtesIneq by (vm_compute; reflexivity); reflexivity|].
  split; [exact PMq|]. split; [exact PCq|]. split; [intros c c' i; reflexivity|].
  split; [|split; [|split; [exact solutionQs|split]]].
  - intros s r Hs Hr. destruct (swQ s r Hs Hr) as [-> ->]. unfold switch_value. cbn. unfold Rmax. split; destruct (Rle_dec _ _); lra.
  - split; [intros E; vm_compute in E; discriminate E|]. split; [intros i Hi; cbn in Hi; lia|]. split; [|split].
    + intros c Hc. split; [intros i Hi; cbn in Hi; lia|]. intros E. vm_compute in E. discriminate E.
    + intros c e Ie. destruct (elementsQs c e Ie) as [-> _]. rewrite GF. replace (step_lower (the_opts CQs) 2) with (Fin (0 # 2)) by (vm_compute; reflexivity).
      replace (step_upper (the_opts CQs) 2) with (Fin (2 # 2)) by (vm_compute; reflexivity). split; unfold Q2R; cbn; lra.
    + replace (o_equidistant (the_opts CQs)) with true by (vm_compute; reflexivity). intros c Hc. rewrite GN in Hc. assert (c = 0%nat) by lia. subst c.
      unfold stage_length. rewrite GF, !rupto_succ, rupto_0, !stepQs, GN. unfold T. replace (o_terminal_time (the_opts CQs)) with 1%Q by (vm_compute; reflexivity). unfold Q2R. cbn. lra.
  - split; [|intros e []]. intros c e Ie z Hz. split; [|intros i Hi; cbn in Hi; lia]. intros i Hi. assert (J : i = 0%nat \/ i = 1%nat) by (cbn in Hi; lia).
    destruct J as [-> | ->]; split; exact Logic.I.
  - unfold step_equilibrated. replace (o_step_eq (the_opts CQs)) with Direct by (vm_compute; reflexivity). intros c e Ie He. left. unfold delta_h. rewrite !stepQs. ring.
Qed.

(* the scalar problem with Step and DIFFERENTIAL_LIFT_X *)
Definition optsSd : opts := with_irk (with_modes (with_grid default_opts 2 [2; 3]%nat) Step ScholtesEq ComplementAll DirectComplementarity SotNone true true) DifferentialLiftX 2 RadauIIA.
Lemma caseSd_ok : is_ok (build optsSd (switch_model 3 (-1) (-1)) None) = true. Proof. vm_compute. reflexivity. Qed.
Definition CSd : constructed := get _ caseSd_ok.
Lemma builtSd : build optsSd (switch_model 3 (-1) (-1)) None = Ok CSd. Proof. apply get_ok. Qed.
Lemma problemSd : is_problem optsSd (switch_model 3 (-1) (-1)) None CSd. Proof. exact (is_problem_ok _ _ _ _ builtSd eq_refl sized_sl). Qed.
Lemma solvable_case_step : is_problem optsSd (switch_model 3 (-1) (-1)) None CSd /\ points_ok case_cpoints (the_opts CSd) /\ points_inside case_cpoints (the_opts CSd) /\
  (1 <= exact_degree (the_opts CSd))%nat /\ o_scheme (the_opts CSd) = RadauIIA /\ o_pss (the_opts CSd) = Step /\ o_use_fesd (the_opts CSd) = true /\
  o_time_freezing (the_opts CSd) = false /\ product_mode (the_opts CSd) /\ elastic (the_opts CSd) = false /\ o_sot (the_opts CSd) <> SotLocal /\
  o_gamma_h (the_opts CSd) = Fin 1 /\ o_step_eq (the_opts CSd) = DirectComplementarity /\ (0 < o_terminal_time (the_opts CSd))%Q /\
  (forall c, (c < o_N_stages (the_opts CSd))%nat -> (2 <= nfe_of (the_opts CSd) c)%nat).
Proof.
  assert (N : o_ns (the_opts CSd) = 2%nat) by (vm_compute; reflexivity). assert (Es : o_scheme (the_opts CSd) = RadauIIA) by (vm_compute; reflexivity).
  destruct (radau2 _ N Es) as [P I]. split; [exact problemSd|]. split; [exact P|]. split; [exact I|].
  split; [replace (exact_degree (the_opts CSd)) with 1%nat by (vm_compute; reflexivity); lia|]. do 4 (split; [vm_compute; reflexivity|]).
  split; [unfold product_mode; replace (o_mpcc (the_opts CSd)) with ScholtesEq by (vm_compute; reflexivity); exact Logic.I|].
  split; [vm_compute; reflexivity|]. split; [vm_compute; discriminate|]. do 3 (split; [vm_compute; reflexivity|]).
  intros c Hc. replace (o_N_stages (the_opts CSd)) with 2%nat in Hc by (vm_compute; reflexivity). destruct c as [|[|c]]; [| |lia];
    [replace (nfe_of (the_opts CSd) 0) with 2%nat by (vm_compute; reflexivity)|replace (nfe_of (the_opts CSd) 1) with 3%nat by (vm_compute; reflexivity)]; lia.
Qed.

(* ---- Filippov solutions that the Step reformulation excludes: two switching functions, sliding on both ----
   x1' = -sgn x1, x2' = -sgn x2, and y' = 1 where sgn x1 = sgn x2, 0 elsewhere *)
Definition model_xor : model := with_switching 3 [0; 0; 0]%Q
  [mkFmat 3 [[cq (-1); cq (-1); cq 1]; [cq (-1); cq 1; cq 0]; [cq 1; cq (-1); cq 0]; [cq 1; cq 1; cq 1]]]
  [[cx 0; cx 1]] [[[1; 1]; [1; -1]; [-1; 1]; [-1; -1]]]%Q.
Definition optsX (p : pss_mode) : opts :=
  with_irk (with_modes (with_grid default_opts 1 [1]%nat) p ScholtesIneq SumLambdas HeuristicDelta SotNone true true) Differential 1 RadauIIA.
Lemma sized_xor : well_sized model_xor. Proof. apply sizedQ_ok. reflexivity. Qed.
Lemma caseXs_ok : is_ok (build (optsX Stewart) model_xor None) = true. Proof. vm_compute. reflexivity. Qed.
Definition CXs : constructed := get _ caseXs_ok.
Lemma builtXs : build (optsX Stewart) model_xor None = Ok CXs. Proof. apply get_ok. Qed.
Lemma problemXs : is_problem (optsX Stewart) model_xor None CXs. Proof. exact (is_problem_ok _ _ _ _ builtXs eq_refl sized_xor). Qed.
Lemma caseXt_ok : is_ok (build (optsX Step) model_xor None) = true. Proof. vm_compute. reflexivity. Qed.
Definition CXt : constructed := get _ caseXt_ok.
Lemma builtXt : build (optsX Step) model_xor None = Ok CXt. Proof. apply get_ok. Qed.
Lemma problemXt : is_problem (optsX Step) model_xor None CXt. Proof. exact (is_problem_ok _ _ _ _ builtXt eq_refl sized_xor). Qed.
Definition dataX : env := fun y => match y with SH _ _ => 1 | _ => 0 end.
Definition polyX (c e i : nat) : list R := match i with 2%nat => [0; 1] | _ => [0] end.
Definition weightX (c e : nat) (z : R) (s k : nat) : R := match k with 0%nat | 3%nat => / 2 | _ => 0 end.
Lemma subsX s k : (s < n_subsystems model_xor)%nat -> (k < n_modes model_xor s)%nat -> s = 0%nat /\ (k = 0 \/ k = 1 \/ k = 2 \/ k = 3)%nat.
Proof. intros A B. cbn in A. assert (s = 0%nat) by lia. subst s. cbn in B. lia. Qed.
Lemma smallestX v k : v (MX 0%nat) = 0 -> v (MX 1%nat) = 0 -> smallest model_xor v 0 k.
Proof.
  intros A B k' Hk'. assert (Z : forall k, region_value model_xor v 0 k = 0).
  { intros [|[|[|[|k0]]]]; unfold region_value; cbn -[Q2R]; unfold rsum; cbn -[Q2R]; rewrite ?A, ?B; try lra. destruct k0; cbn; lra. }
  rewrite !Z. lra.
Qed.
Section Xor.
Variables (lr : Q -> Q -> Q -> nat) (cp : nat -> scheme -> list Q) (d : ipopt_dict) (o : opts) (C : constructed) (r : env).
Notation O := (the_opts C).
Notation t := (cn_tab C).
Lemma step_half : construct_problem lr cp d o model_xor None = Ok C -> o_constr o = Exact -> feasible r (the_nlp C) -> product_mode O -> zero_relaxation O r ->
  (forall f s i, 0 <= r (SL00 f s i)) -> o_use_fesd O = true -> is_fe O 0 0 1 ->
  o_repr O = Differential -> o_ns O = 1%nat -> o_scheme O = RadauIIA -> o_pss O = Step -> o_sot O = SotNone ->
  step_len O r 0 0 = 1 -> (forall i, (i < 3)%nat -> r (SX0 i) = 0) -> end_state O t r 0 0 2 = / 2.
Proof.
  intros H Ex [BO CO] PM ZR L0 Hf I Er En Sc Ep So Hh X0. pose proof sized_xor as W.
  assert (NI : o_repr O <> Integral) by (rewrite Er; discriminate).
  pose proof (fun i Hi => chained lr cp d o model_xor None C r 0 0 1 i (conj H (conj Ex W)) CO NI I Hi) as Ch.
  destruct (elem_all lr cp d o model_xor None C H Ex W r CO 0 0 1 I) as (Al & Co & _).
  destruct (tab_differential cp _ _ (t_made _ _ _ _ _ _ _ H) NI) as (bt & Hb & EA & Eb). rewrite Sc, En in Hb. cbn in Hb. injection Hb as <-.
  assert (D0 : (0 < o_ns O)%nat) by (rewrite En; lia).
  set (a0 := r (S2 FAlpha 0 0 0 0 0)). set (a1 := r (S2 FAlpha 0 0 0 0 1)).
  assert (R : rhs O model_xor (stage_point O t model_xor r 0 0 0) 0 = 1 - 2 * a0 /\ rhs O model_xor (stage_point O t model_xor r 0 0 0) 1 = 1 - 2 * a1 /\
    rhs O model_xor (stage_point O t model_xor r 0 0 0) 2 = a0 * a1 + (1 - a0) * (1 - a1)).
  { unfold rhs, weight. rewrite Ep. cbn -[Q2R stage_point]. unfold step_weight. cbn -[Q2R stage_point].
    change (stage_point O t model_xor r 0 0 0 (MF FAlpha 0 0)) with a0. change (stage_point O t model_xor r 0 0 0 (MF FAlpha 0 1)) with a1.
    unfold mode_field. cbn -[stage_point]. unfold Q2R. cbn. repeat split; field. }
  assert (Sl : forall i, (i < 3)%nat -> slope r 0 0 0 i = rhs O model_xor (stage_point O t model_xor r 0 0 0) i).
  { intros i Hi. specialize (Co 0%nat i D0 Hi). cbv zeta in Co. rewrite Er in Co. rewrite Co. unfold speed. rewrite So. ring. }
  assert (En' : forall i, (i < 3)%nat -> end_state O t r 0 0 i = rhs O model_xor (stage_point O t model_xor r 0 0 0) i).
  { intros i Hi. rewrite (Ch i Hi). change (start_state O t r 0 0 i) with (r (SX0 i)). rewrite (X0 i Hi), En, Eb, Hh, <- (Sl i Hi). unfold rupto, rsum. cbn. unfold entry1. cbn. unfold Q2R. cbn. lra. }
  assert (St : forall i, (i < 3)%nat -> stage_state O t r 0 0 0 i = rhs O model_xor (stage_point O t model_xor r 0 0 0) i).
  { intros i Hi. unfold stage_state at 1. rewrite Er. change (start_state O t r 0 0 i) with (r (SX0 i)). rewrite (X0 i Hi), En, EA, Hh. rewrite <- (Sl i Hi).
    unfold rupto, rsum. cbn. unfold entryQ. cbn. unfold Q2R. cbn. lra. }
  assert (Half : forall k, (k < 2)%nat -> stage_state O t r 0 0 0 k = 1 - 2 * r (S2 FAlpha 0 0 0 0 k) -> r (S2 FAlpha 0 0 0 0 k) = / 2).
  { intros k Hk Ek. destruct (dim2_step O model_xor Ep) as (E1 & E2 & E3 & _ & _).
    assert (Hs : (0 < n_subsystems model_xor)%nat) by (cbn; lia). assert (Hk' : (k < n_switch model_xor 0)%nat) by (cbn; lia).
    destruct (step_exclusive lr cp d o model_xor None C H Ex W r BO CO 0 0 1 0 0 k ZR L0 Hf Ep I D0 Hs Hk') as [A B].
    assert (J : (0 < match o_cross O with SumLambdas => n_mult O t 0 0 | _ => o_ns O end)%nat) by (destruct (o_cross O); [exact D0|pose proof (n_mult_ge C 0 0); lia]).
    assert (P2 : forall f, f <> FTheta -> f <> FAlpha -> (0 < points2 O (t_rbe t) 1 0 f)%nat) by (intros [] Z Z'; try congruence; cbn; lia).
    pose proof (alg_nonneg lr cp d o model_xor None C H r BO 0 0 1 FLn 0 0 k PM ltac:(discriminate) I (P2 FLn ltac:(discriminate) ltac:(discriminate)) Hs ltac:(rewrite E2; exact Hk')) as N1.
    pose proof (alg_nonneg lr cp d o model_xor None C H r BO 0 0 1 FLp 0 0 k PM ltac:(discriminate) I (P2 FLp ltac:(discriminate) ltac:(discriminate)) Hs ltac:(rewrite E3; exact Hk')) as N2.
    destruct (Al 0%nat D0) as [Sw _]. specialize (Sw 0%nat k Hs ltac:(unfold n_switching; rewrite Ep; exact Hk')). unfold switching_residual in Sw. rewrite Ep in Sw.
    assert (V : switch_value model_xor (stage_point O t model_xor r 0 0 0) 0 k = stage_state O t r 0 0 0 k) by (destruct k as [|[|k]]; [reflexivity|reflexivity|lia]).
    rewrite V in Sw. change (stage_point O t model_xor r 0 0 0 (MF FLp 0 k)) with (r (S2 FLp 0 0 0 0 k)) in Sw. change (stage_point O t model_xor r 0 0 0 (MF FLn 0 k)) with (r (S2 FLn 0 0 0 0 k)) in Sw.
    destruct (Rlt_le_dec 0 (r (S2 FAlpha 0 0 0 0 k))) as [P|P].
    - pose proof (proj1 (A P) 0%nat J) as Z. destruct (Rlt_le_dec (r (S2 FAlpha 0 0 0 0 k)) 1) as [Q|Q]; [pose proof (proj1 (B Q) 0%nat J) as Z'; lra|lra].
    - pose proof (proj1 (B ltac:(lra)) 0%nat J) as Z. lra. }
  destruct R as (R0 & R1 & R2). pose proof (Half 0%nat ltac:(lia) ltac:(rewrite St, R0 by lia; reflexivity)) as H0. pose proof (Half 1%nat ltac:(lia) ltac:(rewrite St, R1 by lia; reflexivity)) as H1.
  rewrite En', R2 by lia. unfold a0, a1. rewrite H0, H1. lra.
Qed.
End Xor.
Section XorSolution.
Variable O : opts.
Hypothesis GN : o_N_stages O = 1%nat.
Hypothesis GF : nfe_of O 0 = 1%nat.
Hypothesis Hf : o_use_fesd O = true.
Hypothesis So : o_sot O = SotNone.
Hypothesis Ed : exact_degree O = 1%nat.
Hypothesis Mp : o_mpcc O = ScholtesIneq.
Hypothesis Eq : o_equidistant O = true.
Hypothesis Tt : o_terminal_time O = 1%Q.
Hypothesis Lo : step_lower O 1 = Fin (0 # 1).
Hypothesis Up : step_upper O 1 = Fin (2 # 1).
Hypothesis Se : o_step_eq O = HeuristicDelta.
Lemma elementsX c e : is_element O c e -> c = 0%nat /\ e = 0%nat.
Proof. intros [A B]. rewrite GN in A. assert (c = 0%nat) by lia. subst c. rewrite GF in B. split; lia. Qed.
Lemma stepX c e : step_len O dataX c e = 1. Proof. unfold step_len. rewrite Hf. reflexivity. Qed.
Lemma solutionX : polynomial_solution O model_xor dataX polyX weightX (exact_degree O).
Proof.
  rewrite Ed. intros c e Ie. destruct (elementsX c e Ie) as [-> ->]. split; [|split].
  - intros i Hi. destruct i as [|[|[|i]]]; cbn in Hi; try lia; (split; [cbn; lia|]); unfold state; cbn; lra.
  - intros z Hz. split.
    + intros s Hs. assert (s = 0%nat) by (cbn in Hs; lia). subst s. split; [intros [|[|[|[|k]]]] Hk; cbn in Hk; try lia|]; cbn; lra.
    + intros i Hi. rewrite stepX. unfold velocity. replace (speed O dataX 0) with 1 by (unfold speed; rewrite So; reflexivity).
      match goal with |- derivable_pt_lim _ _ ?v => replace v with (peval (pder (polyX 0 0 i)) z) end; [apply peval_deriv|].
      destruct i as [|[|[|i]]]; cbn in Hi; try lia; unfold mixed_field, mode_field; cbn; unfold Q2R; cbn; lra.
  - intros s k z z' Hs Hk Hz Hz' P. destruct (subsX s k Hs Hk) as [-> _]. apply smallestX; unfold at_state, plain_point; cbn; unfold state; cbn; lra.
Qed.
Lemma conditionsX : zero_relaxation O dataX /\ plain_model model_xor /\ plain_ocp model_xor (the_ocp None) /\ same_globals model_xor dataX /\
  exact_initial model_xor dataX /\ step_exact_initial model_xor dataX /\ grid_ok O model_xor (the_ocp None) dataX /\
  polynomial_solution O model_xor dataX polyX weightX (exact_degree O) /\ admissible O model_xor (the_ocp None) dataX polyX /\ equilibrated O model_xor dataX polyX weightX.
Proof.
  split; [unfold zero_relaxation; rewrite Mp; reflexivity|].
  split; [|split; [split; [intros e [[]|[]]|reflexivity]|split; [intros c c' i; reflexivity|split; [|split; [|split; [|split; [exact solutionX|split]]]]]]].
  - split; [discriminate|]. split; [reflexivity|]. split; [reflexivity|]. split.
    + intros s k i. destruct s as [|[|s]], k as [|[|[|[|[|k]]]]], i as [|[|[|[|i]]]]; intros x Hx; cbn in Hx; contradiction.
    + intros [|s] e [E|E]; cbn in E; try contradiction; try (destruct s; contradiction). destruct E as [<-|[<-|[]]]; intros x [<-|[]]; cbn; lia.
  - intros s k k' Hs Hk Sm Hk'. destruct (subsX s k Hs Hk) as [-> K]. destruct (subsX 0%nat k' Hs Hk') as [_ K'].
    set (v0 := plain_point model_xor dataX 0 (fun i => dataX (SX0 i))) in *. pose proof (smallestX v0 k' eq_refl eq_refl k Hk). pose proof (smallestX v0 k eq_refl eq_refl k' Hk'). cbn [dataX]. lra.
  - intros s k Hs Hk. assert (V : switch_value model_xor (plain_point model_xor dataX 0 (fun i => dataX (SX0 i))) s k = 0).
    { cbn in Hs. assert (s = 0%nat) by lia. subst s. cbn in Hk. destruct k as [|[|k]]; [reflexivity|reflexivity|lia]. }
    rewrite V, Ropp_0. cbn [dataX]. unfold Rmax. destruct (Rle_dec 0 0); lra.
  - split; [unfold elastic; rewrite Mp; discriminate|]. split; [intros i Hi; cbn in Hi; lia|]. split; [|split].
    + intros c Hc. split; [intros i Hi; cbn in Hi; lia|]. rewrite So. discriminate.
    + intros c e Ie. destruct (elementsX c e Ie) as [-> ->]. rewrite GF, Lo, Up. split; unfold Q2R; cbn; lra.
    + rewrite Eq. intros c Hc. rewrite GN in Hc. assert (c = 0%nat) by lia. subst c. unfold stage_length. rewrite GF, rupto_succ, rupto_0, stepX, GN. unfold T. rewrite Tt. unfold Q2R. cbn. lra.
  - split; [|intros e []]. intros c e Ie z Hz. split; [|intros i Hi; cbn in Hi; lia]. intros i Hi. cbn in Hi. destruct i as [|[|[|i]]]; try lia; split; exact Logic.I.
  - unfold equilibrated. rewrite Se. exact Logic.I.
Qed.
End XorSolution.
Lemma step_excludes : exists m C C' rho p th, is_problem (optsX Stewart) m None C /\ is_problem (optsX Step) m None C' /\
  o_pss (the_opts C') = Step /\ o_use_fesd (the_opts C') = true /\ o_scheme (the_opts C') = RadauIIA /\ o_time_freezing (the_opts C') = false /\ zero_relaxation (the_opts C') rho /\
  plain_model m /\ plain_ocp m (the_ocp None) /\ same_globals m rho /\ exact_initial m rho /\ step_exact_initial m rho /\ grid_ok (the_opts C') m (the_ocp None) rho /\
  polynomial_solution (the_opts C') m rho p th (exact_degree (the_opts C')) /\ admissible (the_opts C') m (the_ocp None) rho p /\ equilibrated (the_opts C') m rho p th /\
  (exists r, feasible r (the_nlp C) /\ same_data rho r /\ forall c e i, end_state (the_opts C) (cn_tab C) r c e i = state p c e 1 i) /\
  exists c e i, is_element (the_opts C') c e /\ (i < m_nx m)%nat /\
    forall r, feasible r (the_nlp C') -> same_data rho r -> end_state (the_opts C') (cn_tab C') r c e i <> state p c e 1 i.
Proof.
  exists model_xor, CXs, CXt, dataX, polyX, weightX.
  assert (Dt : zero_relaxation (the_opts CXt) dataX /\ plain_model model_xor /\ plain_ocp model_xor (the_ocp None) /\ same_globals model_xor dataX /\
    exact_initial model_xor dataX /\ step_exact_initial model_xor dataX /\ grid_ok (the_opts CXt) model_xor (the_ocp None) dataX /\
    polynomial_solution (the_opts CXt) model_xor dataX polyX weightX (exact_degree (the_opts CXt)) /\ admissible (the_opts CXt) model_xor (the_ocp None) dataX polyX /\ equilibrated (the_opts CXt) model_xor dataX polyX weightX)
    by (apply conditionsX; vm_compute; reflexivity).
  assert (Ds : zero_relaxation (the_opts CXs) dataX /\ plain_model model_xor /\ plain_ocp model_xor (the_ocp None) /\ same_globals model_xor dataX /\
    exact_initial model_xor dataX /\ step_exact_initial model_xor dataX /\ grid_ok (the_opts CXs) model_xor (the_ocp None) dataX /\
    polynomial_solution (the_opts CXs) model_xor dataX polyX weightX (exact_degree (the_opts CXs)) /\ admissible (the_opts CXs) model_xor (the_ocp None) dataX polyX /\ equilibrated (the_opts CXs) model_xor dataX polyX weightX)
    by (apply conditionsX; vm_compute; reflexivity).
  split; [exact problemXs|]. split; [exact problemXt|]. do 4 (split; [vm_compute; reflexivity|]).
  destruct Dt as (T1 & T2 & T3 & T4 & T5 & T6 & T7 & T8 & T9 & T10). split; [exact T1|]. split; [exact T2|]. split; [exact T3|]. split; [exact T4|].
  split; [exact T5|]. split; [exact T6|]. split; [exact T7|]. split; [exact T8|]. split; [exact T9|]. split; [exact T10|]. split.
  - destruct Ds as (S1 & S2 & S3 & S4 & S5 & S6 & S7 & S8 & S9 & S10).
    assert (h0 : o_repr (the_opts CXs) = Differential) by (vm_compute; reflexivity).
    assert (PO : points_ok case_cpoints (the_opts CXs)) by (intros E; rewrite h0 in E; discriminate E).
    assert (h1 : o_ns (the_opts CXs) = 1%nat) by (vm_compute; reflexivity). assert (h2 : o_scheme (the_opts CXs) = RadauIIA) by (vm_compute; reflexivity).
    assert (PI : points_inside case_cpoints (the_opts CXs)) by (intros q; rewrite h1, h2; intros [<-|[]]; unfold Qle; cbn; lia).
    assert (h3 : o_use_fesd (the_opts CXs) = true) by (vm_compute; reflexivity). assert (h4 : o_time_freezing (the_opts CXs) = false) by (vm_compute; reflexivity).
    assert (h5 : o_pss (the_opts CXs) = Stewart) by (vm_compute; reflexivity).
    destruct (stewart_solutions _ _ _ _ _ _ CXs dataX problemXs PO PI h2 h3 h4 S1 S2 S3 S4 S7 polyX weightX h5 S5 S8 S9 S10) as (tau & _ & r & F & SD & E & _). exists r. split; [exact F|split; [exact SD|exact E]].
  - exists 0%nat, 0%nat, 2%nat.
    assert (GN : o_N_stages (the_opts CXt) = 1%nat) by (vm_compute; reflexivity). assert (GF : nfe_of (the_opts CXt) 0 = 1%nat) by (vm_compute; reflexivity).
    split; [split; [rewrite GN|rewrite GF]; lia|]. split; [cbn; lia|]. intros r F SD.
    replace (state polyX 0 0 1 2) with 1 by (unfold state; cbn; lra).
    assert (h1 : o_mpcc (the_opts CXt) = ScholtesIneq) by (vm_compute; reflexivity).
    assert (h2 : is_fe (the_opts CXt) 0 0 1) by (vm_compute; repeat split; lia).
    assert (h3 : o_repr (the_opts CXt) = Differential) by (vm_compute; reflexivity).
    assert (h4 : o_ns (the_opts CXt) = 1%nat) by (vm_compute; reflexivity).
    assert (h5 : o_scheme (the_opts CXt) = RadauIIA) by (vm_compute; reflexivity).
    assert (h6 : o_pss (the_opts CXt) = Step) by (vm_compute; reflexivity).
    assert (h7 : o_sot (the_opts CXt) = SotNone) by (vm_compute; reflexivity).
    assert (h9 : o_use_fesd (the_opts CXt) = true) by (vm_compute; reflexivity).
    assert (h8 : step_len (the_opts CXt) r 0 0 = 1) by (unfold step_len; rewrite h9; exact (SD (SH 0 0))).
    assert (h10 : product_mode (the_opts CXt)) by (unfold product_mode; rewrite h1; exact Logic.I).
    assert (h11 : zero_relaxation (the_opts CXt) r) by (unfold zero_relaxation; rewrite h1; exact (SD SSigma)).
    assert (h12 : forall f s i, 0 <= r (SL00 f s i)) by (intros f s i; rewrite (SD (SL00 f s i)); cbn; lra).
    rewrite (step_half _ _ _ _ CXt r (proj1 problemXt) eq_refl F h10 h11 h12 h9 h2 h3 h4 h5 h6 h7 h8 (fun i _ => SD (SX0 i))). lra.
Qed.
