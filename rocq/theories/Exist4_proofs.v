(* Exist4_proofs.v -- more cases and refutations of Props_Exist.v: Step, rounded Butcher tables *)
From Coq Require Import Reals Qreals Lra Psatz.
From Verif Require Import Base Sx Utils Tableau Opts Model Ocp Problem Spec Cases Lib Sx_proofs Index3_proofs Fesd Spec2 Spec3 Spec4 Dcs_proofs Elem_proofs Nlp_proofs Poly_proofs Witness Witness2 Feas_proofs Feas2_proofs Feas6_proofs
  Init_proofs Results2_proofs Results3_proofs Feas5_proofs Spec9 Spec10 Spec11 Spec14 Filippov3_proofs Filippov4_proofs Exact_proofs Exact2_proofs Exact3_proofs Bounds_proofs
  ExistBase_proofs Exist_proofs ExistStep_proofs Exist2_proofs Exist3_proofs.
Local Open Scope R_scope.

(* ---- the statements with the nodes of the table ---- *)
Section Statements.
Variables (lr : Q -> Q -> Q -> nat) (cp : nat -> scheme -> list Q) (d : ipopt_dict) (o : opts) (m : model) (oc : option ocp) (C : constructed) (rho : env).
Notation O := (the_opts C).
Notation t := (cn_tab C).
Hypothesis FP : fesd_problem lr cp d o m oc C.
Hypothesis PO : points_ok cp O.
Hypothesis PI : points_inside cp O.
Hypothesis Sc : o_scheme O = RadauIIA.
Hypothesis Hf : o_use_fesd O = true.
Hypothesis Tf : o_time_freezing O = false.
Hypothesis ZR : zero_relaxation O rho.
Hypothesis PM : plain_model m.
Hypothesis PC : plain_ocp m (the_ocp oc).
Hypothesis SG : same_globals m rho.
Hypothesis GO : grid_ok O m (the_ocp oc) rho.
Lemma stewart_solutions p th : o_pss O = Stewart -> exact_initial m rho -> polynomial_solution O m rho p th (exact_degree O) ->
  admissible O m (the_ocp oc) rho p -> equilibrated O m rho p th ->
  exists tau, radau_times cp O tau /\ exists r, feasible r (the_nlp C) /\ same_data rho r /\
    (forall c e i, end_state O t r c e i = state p c e 1 i) /\
    (forall c e j i, is_element O c e -> (j < o_ns O)%nat -> (i < m_nx m)%nat -> stage_state O t r c e j i = state p c e (tau j) i) /\
    (forall c e j s k, r (S2 FTheta c e j s k) = th c e (tau j) s k).
Proof.
  intros Ep EI PS AD EQ. destruct FP as (H & Ex & WS).
  destruct (radau_nodes cp O t (t_made _ _ _ _ _ _ _ H) (Feas_proofs.ns_pos _ _ _ _ _ _ _ H) Sc PO PI) as (tau & NE & SA & G).
  exists tau. split; [split; [exact (proj1 (proj2 SA))|split; [exact (proj2 (proj2 SA))|exact G]]|].
  exact (exists_feasible lr cp d o m oc C H Ex WS rho p th _ tau NE SA Ep Hf Tf ZR PM PC SG EI GO PS AD EQ).
Qed.
Lemma step_solutions p al : o_pss O = Step -> step_exact_initial m rho -> step_polynomial_solution O m rho p al (exact_degree O) ->
  admissible O m (the_ocp oc) rho p -> step_equilibrated O m rho p al ->
  exists tau, radau_times cp O tau /\ exists r, feasible r (the_nlp C) /\ same_data rho r /\
    (forall c e i, end_state O t r c e i = state p c e 1 i) /\
    (forall c e j i, is_element O c e -> (j < o_ns O)%nat -> (i < m_nx m)%nat -> stage_state O t r c e j i = state p c e (tau j) i) /\
    (forall c e j s k, r (S2 FAlpha c e j s k) = al c e (tau j) s k).
Proof.
  intros Ep EI PS AD EQ. destruct FP as (H & Ex & WS).
  destruct (radau_nodes cp O t (t_made _ _ _ _ _ _ _ H) (Feas_proofs.ns_pos _ _ _ _ _ _ _ H) Sc PO PI) as (tau & NE & SA & G).
  exists tau. split; [split; [exact (proj1 (proj2 SA))|split; [exact (proj2 (proj2 SA))|exact G]]|].
  exact (exists_feasible_step lr cp d o m oc C H Ex WS rho p al _ tau NE SA Ep Hf Tf ZR PM PC SG EI GO PS AD EQ).
Qed.
End Statements.

(* ---- rounded tables: three and more stages ---- *)
Lemma radau_b_inexact ns bt : (3 <= ns)%nat -> generate_butcher_tableu ns RadauIIA = Ok bt -> rupto ns (fun j => entry1 (bt_b bt) j) <> 1.
Proof.
  intros N G. do 10 (destruct ns as [|ns]; [try lia; try (cbn in G; injection G as <-; unfold rupto, rsum; cbn; unfold entry1; cbn; unfold Q2R; cbn; lra); try discriminate G|]).
  discriminate G.
Qed.
Lemma differential_inexact lr cp d o m oc C rho c e nfe i f : fesd_problem lr cp d o m oc C -> constraints_ok rho (the_nlp C) ->
  o_repr (the_opts C) <> Integral -> o_scheme (the_opts C) = RadauIIA -> (3 <= o_ns (the_opts C))%nat -> is_fe (the_opts C) c e nfe -> (i < m_nx m)%nat ->
  (forall j, (j < o_ns (the_opts C))%nat -> rhs (the_opts C) m (stage_point (the_opts C) (cn_tab C) m rho c e j) i = f) ->
  step_len (the_opts C) rho c e * (speed (the_opts C) rho c * f) <> 0 ->
  end_state (the_opts C) (cn_tab C) rho c e i <> start_state (the_opts C) (cn_tab C) rho c e i + step_len (the_opts C) rho c e * (speed (the_opts C) rho c * f).
Proof.
  intros FP CO R Sc N I Hi G NZ E. pose proof (chained lr cp d o m oc C rho c e nfe i FP CO R I Hi) as Ch. destruct FP as (H & Ex & W).
  destruct (elem_all lr cp d o m oc C H Ex W rho CO c e nfe I) as (_ & Co & _).
  destruct (tab_differential cp _ _ (t_made _ _ _ _ _ _ _ H) R) as (bt & Hb & _ & Eb). rewrite Sc in Hb.
  assert (SL : forall j, (j < o_ns (the_opts C))%nat -> slope rho c e j i = speed (the_opts C) rho c * f).
  { intros j Hj. specialize (Co j i Hj Hi). cbv zeta in Co. rewrite (G j Hj) in Co. destruct (o_repr (the_opts C)); [congruence|exact Co|exact (proj1 Co)]. }
  rewrite (rupto_ext _ _ (fun j => (speed (the_opts C) rho c * f) * entry1 (t_b (cn_tab C)) j)) in Ch by (intros j Hj; rewrite (SL j Hj); ring).
  rewrite rupto_scale, Eb in Ch. pose proof (radau_b_inexact _ _ N Hb) as B. apply B.
  set (S := rupto (o_ns (the_opts C)) (fun j => entry1 (bt_b bt) j)) in *. set (v := speed (the_opts C) rho c * f) in *. set (h := step_len (the_opts C) rho c e) in *.
  assert (Z : h * v * (S - 1) = 0) by lra. apply Rmult_integral in Z. destruct Z; lra.
Qed.

(* ---- a case: x' = 1 from -2, three stages, DIFFERENTIAL ---- *)
Definition optsD3 : opts := with_irk (with_grid default_opts 1 [1%nat]) Differential 3 RadauIIA.
Definition model_one : model := switch_model 1 1 (-2).
Lemma sized_one : well_sized model_one. Proof. apply sizedQ_ok. reflexivity. Qed.
Lemma caseD3_ok : is_ok (build optsD3 model_one None) = true. Proof. vm_compute. reflexivity. Qed.
Definition CD3 : constructed := get _ caseD3_ok.
Lemma builtD3 : build optsD3 model_one None = Ok CD3. Proof. apply get_ok. Qed.
Lemma problemD3 : is_problem optsD3 model_one None CD3. Proof. exact (is_problem_ok _ _ _ _ builtD3 eq_refl sized_one). Qed.
Definition sumQ (l : list Q) : Q := fold_right Qplus 0%Q l.
Definition stateD3 (j : nat) : Q := (-2 + sumQ (nth j TableauData.radau_A_3 []))%Q.
Definition vD3 (y : sym) : Q := match y with
  | SH _ _ => 1%Q | SX0 _ => (-2)%Q | SL00 FLam _ 1%nat => 4%Q
  | S1 FX _ _ _ _ => (-2 + sumQ TableauData.radau_b_3)%Q | S1 FV _ _ _ _ => 1%Q
  | S2 FTheta _ _ _ _ 0%nat => 1%Q | S2 FLam _ _ j _ 1%nat => (-2 * stateD3 j)%Q | S2 FMu _ _ j _ _ => (- stateD3 j)%Q
  | _ => 0%Q end.
Definition rhoD3 : env := fun y => Q2R (vD3 y).
Lemma feasibleD3 : feasible rhoD3 (the_nlp CD3). Proof. apply feasibleQ. vm_compute. reflexivity. Qed.
Lemma inexact_case : is_problem optsD3 model_one None CD3 /\ feasible rhoD3 (the_nlp CD3) /\ o_repr (the_opts CD3) <> Integral /\ o_scheme (the_opts CD3) = RadauIIA /\
  (3 <= o_ns (the_opts CD3))%nat /\ is_fe (the_opts CD3) 0 0 1 /\
  (forall j, (j < o_ns (the_opts CD3))%nat -> rhs (the_opts CD3) model_one (stage_point (the_opts CD3) (cn_tab CD3) model_one rhoD3 0 0 j) 0 = 1) /\
  step_len (the_opts CD3) rhoD3 0 0 * (speed (the_opts CD3) rhoD3 0 * 1) <> 0.
Proof.
  split; [exact problemD3|]. split; [exact feasibleD3|]. split; [intros E; vm_compute in E; discriminate E|]. split; [vm_compute; reflexivity|].
  split; [replace (o_ns (the_opts CD3)) with 3%nat by (vm_compute; reflexivity); lia|]. split; [vm_compute; repeat split; lia|]. split.
  - assert (Ep : o_pss (the_opts CD3) = Stewart) by (vm_compute; reflexivity). revert Ep. generalize (the_opts CD3) as O, (cn_tab CD3) as t. intros O t Ep j _.
    unfold rhs, weight. rewrite Ep. cbn -[Q2R]. unfold rhoD3. cbn -[Q2R]. unfold Q2R. cbn. lra.
  - unfold step_len, speed. replace (o_use_fesd (the_opts CD3)) with true by (vm_compute; reflexivity). replace (o_sot (the_opts CD3)) with SotNone by (vm_compute; reflexivity).
    unfold rhoD3. cbn -[Q2R]. unfold Q2R. cbn. lra.
Qed.

(* ---- two stages, degree 2: x1' = 1, x2' = x1 from (1, 0), far from the switch ---- *)
Definition optsD2 : opts := with_irk (with_grid default_opts 1 [1%nat]) Differential 2 RadauIIA.
Definition model_dbl : model := with_switching 2 [1%Q; 0%Q] [mkFmat 2 [[cq 1; cx 0]; [cq 1; cx 0]]] [[cx 0]] [[[(-1)%Q]; [1%Q]]].
Lemma sized_dbl : well_sized model_dbl. Proof. apply sizedQ_ok. reflexivity. Qed.
Lemma caseD2_ok : is_ok (build optsD2 model_dbl None) = true. Proof. vm_compute. reflexivity. Qed.
Definition CD2 : constructed := get _ caseD2_ok.
Lemma builtD2 : build optsD2 model_dbl None = Ok CD2. Proof. apply get_ok. Qed.
Lemma problemD2 : is_problem optsD2 model_dbl None CD2. Proof. exact (is_problem_ok _ _ _ _ builtD2 eq_refl sized_dbl). Qed.
Definition dataD2 : env := fun y => match y with SH _ _ => 1 | SX0 0%nat => 1 | SL00 FLam 0%nat 0%nat => 2 | _ => 0 end.
Definition polyD2 (c e i : nat) : list R := match i with 0%nat => [1; 1] | _ => [0; 1; / 2] end.
Definition weightD2 (c e : nat) (z : R) (s k : nat) : R := match k with 1%nat => 1 | _ => 0 end.
Lemma regionD2 v : region_value model_dbl v 0 0 = v (MX 0) /\ region_value model_dbl v 0 1 = - v (MX 0).
Proof. unfold region_value. cbn -[Q2R]. unfold rsum. cbn -[Q2R]. unfold Q2R. cbn. lra. Qed.
Lemma subsD2 s k : (s < n_subsystems model_dbl)%nat -> (k < n_modes model_dbl s)%nat -> s = 0%nat /\ (k = 0%nat \/ k = 1%nat).
Proof. intros A B. cbn in A. assert (s = 0%nat) by lia. subst s. cbn in B. lia. Qed.
Lemma smallestD2 v : 0 <= v (MX 0%nat) -> smallest model_dbl v 0 1.
Proof. intros P k Hk. destruct (regionD2 v) as [R0 R1]. destruct (subsD2 0%nat k ltac:(cbn; lia) Hk) as [_ [-> | ->]]; lra. Qed.

Section Rounded.
Variables (lr : Q -> Q -> Q -> nat) (cp : nat -> scheme -> list Q) (d : ipopt_dict) (o : opts) (C : constructed) (r : env).
Notation O := (the_opts C).
Notation t := (cn_tab C).
Lemma degree_two : construct_problem lr cp d o model_dbl None = Ok C -> o_constr o = Exact -> feasible r (the_nlp C) -> product_mode O -> is_fe O 0 0 1 ->
  o_repr O = Differential -> o_ns O = 2%nat -> o_scheme O = RadauIIA -> o_pss O = Stewart -> o_sot O = SotNone ->
  step_len O r 0 0 = 1 -> r (SX0 0%nat) = 1 -> r (SX0 1%nat) = 0 -> end_state O t r 0 0 1 <> 3 / 2.
Proof.
  intros H Ex [BO CO] PM I Er En Sc Ep So Hh X0 X1 E. pose proof sized_dbl as W.
  assert (NI : o_repr O <> Integral) by (rewrite Er; discriminate).
  pose proof (chained lr cp d o model_dbl None C r 0 0 1 1 (conj H (conj Ex W)) CO NI I ltac:(cbn; lia)) as Ch.
  destruct (elem_all lr cp d o model_dbl None C H Ex W r CO 0 0 1 I) as (_ & Co & _).
  destruct (tab_differential cp _ _ (t_made _ _ _ _ _ _ _ H) NI) as (bt & Hb & EA & Eb). rewrite Sc, En in Hb. cbn in Hb. injection Hb as <-.
  assert (Th : forall j, (j < 2)%nat -> r (S2 FTheta 0 0 j 0 0) + r (S2 FTheta 0 0 j 0 1) = 1).
  { intros j Hj. destruct (convex lr cp d o model_dbl None C H Ex W r BO CO 0 0 1 j 0 I ltac:(rewrite En; exact Hj) ltac:(cbn; lia) Ep PM) as [_ S]. cbn in S. lra. }
  assert (S0 : forall j, (j < 2)%nat -> slope r 0 0 j 0 = 1).
  { intros j Hj. specialize (Co j 0%nat ltac:(rewrite En; exact Hj) ltac:(cbn; lia)). cbv zeta in Co. rewrite Er in Co. rewrite Co. unfold speed, rhs, weight. rewrite So, Ep.
    pose proof (Th j Hj) as T. cbn -[Q2R]. unfold Q2R. cbn. lra. }
  assert (S1 : forall j, (j < 2)%nat -> slope r 0 0 j 1 = stage_state O t r 0 0 j 0).
  { intros j Hj. pose proof (Co j 1%nat ltac:(rewrite En; exact Hj) ltac:(cbn; lia)) as Cj. cbv zeta in Cj. rewrite Er in Cj. rewrite Cj. unfold speed, rhs, weight. rewrite So, Ep.
    set (x := stage_state O t r 0 0 j 0). pose proof (Th j Hj) as T. replace (r (S2 FTheta 0 0 j 0 1)) with (1 - r (S2 FTheta 0 0 j 0 0)) by lra.
    unfold mode_field. cbn -[stage_state]. fold x. replace (r (S2 FTheta 0 0 j 0 1)) with (1 - r (S2 FTheta 0 0 j 0 0)) by lra. ring. }
  assert (St : forall j, (j < 2)%nat -> stage_state O t r 0 0 j 0 = 1 + rupto 2 (fun k => entryQ TableauData.radau_A_2 j k)).
  { intros j Hj. unfold stage_state. rewrite Er, En, EA, Hh. change (start_state O t r 0 0 0) with (r (SX0 0%nat)). rewrite X0.
    rewrite (rupto_ext _ _ (fun k => entryQ TableauData.radau_A_2 j k)) by (intros k Hk; rewrite (S0 k Hk); cbn [bt_A]; ring). ring. }
  change (start_state O t r 0 0 1) with (r (SX0 1%nat)) in Ch. rewrite En, Eb, Hh, X1, E in Ch.
  rewrite (rupto_ext _ _ (fun j => entry1 TableauData.radau_b_2 j * (1 + rupto 2 (fun k => entryQ TableauData.radau_A_2 j k)))) in Ch
    by (intros j Hj; rewrite (S1 j Hj), (St j Hj); reflexivity).
  unfold rupto, rsum in Ch. cbn in Ch. unfold entry1, entryQ, TableauData.radau_A_2, TableauData.radau_b_2, Q2R in Ch. cbn in Ch. lra.
Qed.
End Rounded.
Lemma gridD2 : o_N_stages (the_opts CD2) = 1%nat /\ nfe_of (the_opts CD2) 0 = 1%nat. Proof. split; vm_compute; reflexivity. Qed.
Lemma elementsD2 c e : is_element (the_opts CD2) c e -> c = 0%nat /\ e = 0%nat.
Proof. intros [A B]. destruct gridD2 as [N F]. rewrite N in A. assert (c = 0%nat) by lia. subst c. rewrite F in B. split; lia. Qed.
Lemma stepD2 c e : step_len (the_opts CD2) dataD2 c e = 1.
Proof. unfold step_len. replace (o_use_fesd (the_opts CD2)) with true by (vm_compute; reflexivity). reflexivity. Qed.
Lemma solutionD2 : polynomial_solution (the_opts CD2) model_dbl dataD2 polyD2 weightD2 (o_ns (the_opts CD2)).
Proof.
  replace (o_ns (the_opts CD2)) with 2%nat by (vm_compute; reflexivity). intros c e Ie. destruct (elementsD2 c e Ie) as [-> ->]. split; [|split].
  - intros i Hi. assert (J : i = 0%nat \/ i = 1%nat) by (cbn in Hi; lia). destruct J as [-> | ->]; (split; [cbn; lia|]); unfold state; cbn; lra.
  - intros z Hz. split.
    + intros s Hs. assert (s = 0%nat) by (cbn in Hs; lia). subst s. split; [intros [|[|k]] Hk; cbn in Hk; try lia|]; cbn; lra.
    + intros i Hi. assert (J : i = 0%nat \/ i = 1%nat) by (cbn in Hi; lia). rewrite stepD2. unfold velocity.
      replace (speed (the_opts CD2) dataD2 0) with 1 by (unfold speed; replace (o_sot (the_opts CD2)) with SotNone by (vm_compute; reflexivity); reflexivity).
      match goal with |- derivable_pt_lim _ _ ?v => replace v with (peval (pder (polyD2 0 0 i)) z) end; [apply peval_deriv|].
      destruct J as [-> | ->]; unfold mixed_field, mode_field, state; cbn; unfold Q2R; cbn; lra.
  - intros s k z z' Hs Hk Hz Hz' P. destruct (subsD2 s k Hs Hk) as [-> [-> | ->]]; cbn in P; [lra|]. apply smallestD2. unfold at_state, plain_point; cbn; unfold state; cbn. lra.
Qed.
Lemma differential_excludes : exists o m C rho p th, is_problem o m None C /\ o_pss (the_opts C) = Stewart /\ o_use_fesd (the_opts C) = true /\
  o_scheme (the_opts C) = RadauIIA /\ o_repr (the_opts C) = Differential /\ o_time_freezing (the_opts C) = false /\ zero_relaxation (the_opts C) rho /\
  plain_model m /\ plain_ocp m (the_ocp None) /\ same_globals m rho /\ exact_initial m rho /\ grid_ok (the_opts C) m (the_ocp None) rho /\
  polynomial_solution (the_opts C) m rho p th (o_ns (the_opts C)) /\ admissible (the_opts C) m (the_ocp None) rho p /\
  equilibrated (the_opts C) m rho p th /\
  exists c e i, is_element (the_opts C) c e /\ (i < m_nx m)%nat /\
    forall r, feasible r (the_nlp C) -> same_data rho r -> end_state (the_opts C) (cn_tab C) r c e i <> state p c e 1 i.
Proof.
  exists optsD2, model_dbl, CD2, dataD2, polyD2, weightD2. destruct gridD2 as [GN GF]. split; [exact problemD2|]. do 5 (split; [vm_compute; reflexivity|]).
  split; [unfold zero_relaxation; replace (o_mpcc (the_opts CD2)) with ScholtesIneq by (vm_compute; reflexivity); reflexivity|].
  split; [|split; [split; [intros e [[]|[]]|reflexivity]|split; [intros c c' i; reflexivity|split; [|split; [|split; [exact solutionD2|split; [|split]]]]]]].
  - split; [discriminate|]. split; [reflexivity|]. split; [reflexivity|]. split.
    + intros s k i. destruct s as [|[|s]], k as [|[|[|k]]], i as [|[|[|i]]]; intros x Hx; cbn in Hx; try contradiction; destruct Hx as [<-|[]]; cbn; lia.
    + intros [|s] e [E|E]; cbn in E; try contradiction; try (destruct s; contradiction). destruct E as [<-|[]]. intros x [<-|[]]. cbn. lia.
  - intros s k k' Hs Hk Sm Hk'. destruct (subsD2 s k Hs Hk) as [-> K]. destruct (subsD2 0%nat k' Hs Hk') as [_ K'].
    set (v0 := plain_point model_dbl dataD2 0 (fun i => dataD2 (SX0 i))) in *. assert (Ev : v0 (MX 0%nat) = 1) by reflexivity.
    destruct (regionD2 v0) as [R0 R1]. destruct K as [-> | ->]; [pose proof (Sm 1%nat ltac:(cbn; lia)); lra|]. destruct K' as [-> | ->]; rewrite ?R0, ?R1, Ev; cbn; lra.
  - split; [intros E; vm_compute in E; discriminate E|]. split; [intros i Hi; cbn in Hi; lia|]. split; [|split].
    + intros c Hc. split; [intros i Hi; cbn in Hi; lia|]. intros E. vm_compute in E. discriminate E.
    + intros c e Ie. destruct (elementsD2 c e Ie) as [-> ->]. rewrite GF. replace (step_lower (the_opts CD2) 1) with (Fin (0 # 1)) by (vm_compute; reflexivity).
      replace (step_upper (the_opts CD2) 1) with (Fin (2 # 1)) by (vm_compute; reflexivity). split; unfold Q2R; cbn; lra.
    + replace (o_equidistant (the_opts CD2)) with true by (vm_compute; reflexivity). intros c Hc. rewrite GN in Hc. assert (c = 0%nat) by lia. subst c.
      unfold stage_length. rewrite GF, !rupto_succ, rupto_0, !stepD2, GN. unfold T. replace (o_terminal_time (the_opts CD2)) with 1%Q by (vm_compute; reflexivity). unfold Q2R. cbn. lra.
  - split; [|intros e []]. intros c e Ie z Hz. split; [|intros i Hi; cbn in Hi; lia]. intros i Hi. assert (J : i = 0%nat \/ i = 1%nat) by (cbn in Hi; lia).
    destruct J as [-> | ->]; split; exact Logic.I.
  - unfold equilibrated. replace (o_step_eq (the_opts CD2)) with HeuristicDelta by (vm_compute; reflexivity). exact Logic.I.
  - exists 0%nat, 0%nat, 1%nat. split; [split; [rewrite GN|rewrite GF]; lia|]. split; [cbn; lia|]. intros r F SD.
    replace (state polyD2 0 0 1 1) with (3 / 2) by (unfold state; cbn; lra).
    assert (h1 : product_mode (the_opts CD2)) by (unfold product_mode; replace (o_mpcc (the_opts CD2)) with ScholtesIneq by (vm_compute; reflexivity); exact Logic.I).
    assert (h2 : is_fe (the_opts CD2) 0 0 1) by (vm_compute; repeat split; lia).
    assert (h3 : o_repr (the_opts CD2) = Differential) by (vm_compute; reflexivity).
    assert (h4 : o_ns (the_opts CD2) = 2%nat) by (vm_compute; reflexivity).
    assert (h5 : o_scheme (the_opts CD2) = RadauIIA) by (vm_compute; reflexivity).
    assert (h6 : o_pss (the_opts CD2) = Stewart) by (vm_compute; reflexivity).
    assert (h7 : o_sot (the_opts CD2) = SotNone) by (vm_compute; reflexivity).
    assert (h8 : step_len (the_opts CD2) r 0 0 = 1).
    { unfold step_len. replace (o_use_fesd (the_opts CD2)) with true by (vm_compute; reflexivity). exact (SD (SH 0 0)). }
    exact (degree_two _ _ _ _ CD2 r (proj1 problemD2) eq_refl F h1 h2 h3 h4 h5 h6 h7 h8 (SD (SX0 0%nat)) (SD (SX0 1%nat))).
Qed.
