(* Witness.v -- concrete points of concrete problems, checked with exact rational arithmetic.
   Used by the examples beside the theorems and by the refutations. *)
From Coq Require Import Reals Qreals Lra.
From Verif Require Import Base Sx Utils Tableau Opts Model Ocp Problem Spec Cases Sx_proofs Fesd Spec2.

(* a point given by its nonzero values *)
Fixpoint ptQ (l : list (sym * Q)) (s : sym) : Q :=
  match l with [] => 0%Q | (x, q) :: l' => if sym_eqb s x then q else ptQ l' s end.
Definition pt (l : list (sym * Q)) : env := fun s => Q2R (ptQ l s).

Definition withinQ (l u : ext) (q : Q) : bool :=
  match l with NInf => true | Fin x => Qle_bool x q | PInf => false end &&
  match u with PInf => true | Fin x => Qle_bool q x | NInf => false end.
Fixpoint all3 {A} (f : A -> ext -> ext -> bool) (a : list A) (l u : list ext) : bool :=
  match a, l, u with
  | x :: a', y :: l', z :: u' => f x y z && all3 f a' l' u'
  | _, _, _ => true
  end.
Definition boundsQ (v : sym -> Q) (f : fobj) : bool := all3 (fun s l u => withinQ l u (v s)) (w f) (lbw f) (ubw f).
Definition consQ (v : sym -> Q) (f : fobj) : bool :=
  all3 (fun e l u => match evalQ v e with Some q => withinQ l u q | None => false end) (g f) (lbg f) (ubg f).

Lemma withinQ_sound l u q : withinQ l u q = true -> within l u (Q2R q).
Proof.
  unfold withinQ, within. intros H. apply andb_prop in H. destruct H as [H1 H2].
  split; [destruct l; auto; try discriminate|destruct u; auto; try discriminate]; apply Q2R_le_bool; assumption.
Qed.
Lemma all3_nth {A} f (a : list A) : forall l u i x y z, all3 f a l u = true ->
  nth_error a i = Some x -> nth_error l i = Some y -> nth_error u i = Some z -> f x y z = true.
Proof.
  induction a as [|x0 a IH]; intros l u i x y z H H1 H2 H3; [destruct i; discriminate|].
  destruct l as [|y0 l]; [destruct i; discriminate|]. destruct u as [|z0 u]; [destruct i; discriminate|].
  cbn in H. apply andb_prop in H. destruct H as [H4 H5]. destruct i as [|i]; cbn in *; [congruence|]. eapply IH; eauto.
Qed.
Lemma feasibleQ v f : boundsQ v f && consQ v f = true -> feasible (fun s => Q2R (v s)) f.
Proof.
  intros H. apply andb_prop in H. destruct H as [H1 H2]. split.
  - intros i s l u A B D. apply withinQ_sound. exact (all3_nth _ _ _ _ _ _ _ _ H1 A B D).
  - intros j e l u A B D. pose proof (all3_nth _ _ _ _ _ _ _ _ H2 A B D) as G. cbv beta in G.
    destruct (evalQ v e) as [q|] eqn:E; [|discriminate]. rewrite (evalQ_sound _ _ _ E). apply withinQ_sound, G.
Qed.
Lemma withinQ_false l u q : withinQ l u q = false -> ~ within l u (Q2R q).
Proof.
  unfold withinQ, within. intros H [H1 H2]. apply andb_false_iff in H. destruct H as [H|H].
  - destruct l; try discriminate; try contradiction; apply Q2R_lt_bool in H; lra.
  - destruct u; try discriminate; try contradiction; apply Q2R_lt_bool in H; lra.
Qed.
(* the same for a constraint that is violated *)
Fixpoint bad (v : sym -> Q) (a : list expr) (l u : list ext) : bool :=
  match a, l, u with
  | x :: a', y :: l', z :: u' => match evalQ v x with Some q => negb (withinQ y z q) | None => false end || bad v a' l' u'
  | _, _, _ => false
  end.
Lemma bad_nth v a : forall l u, bad v a l u = true ->
  exists i e y z q, nth_error a i = Some e /\ nth_error l i = Some y /\ nth_error u i = Some z /\ evalQ v e = Some q /\ withinQ y z q = false.
Proof.
  induction a as [|x a IH]; intros [|y l] [|z u] H; try discriminate. cbn in H. apply orb_prop in H. destruct H as [H|H].
  - destruct (evalQ v x) as [q|] eqn:E; [|discriminate]. exists 0, x, y, z, q. cbn. repeat split; auto. destruct (withinQ y z q); [discriminate|reflexivity].
  - destruct (IH _ _ H) as (i & e & y' & z' & q & G). exists (S i), e, y', z', q. exact G.
Qed.
Lemma infeasibleQ v f : bad v (g f) (lbg f) (ubg f) = true -> ~ constraints_ok (fun s => Q2R (v s)) f.
Proof.
  intros H G. destruct (bad_nth _ _ _ _ H) as (i & e & y & z & q & A & B & D & E & F).
  apply (withinQ_false _ _ _ F). rewrite <- (evalQ_sound _ _ _ E). eapply G; eassumption.
Qed.

(* build is construct_problem with the oracles of the cases *)
Lemma made o m oc C : build o m oc = Ok C -> construct_problem case_log_round case_cpoints ipopt_init o m oc = Ok C.
Proof. exact (fun H => H). Qed.
Definition is_problem (o : opts) (m : model) (oc : option ocp) (C : constructed) : Prop :=
  fesd_problem case_log_round case_cpoints ipopt_init o m oc C.
Lemma is_problem_ok o m oc C : build o m oc = Ok C -> o_constr o = Exact -> well_sized m ->
  is_problem o m oc C.
Proof. intros H E W. repeat split; [exact (made _ _ _ _ H)|exact E|exact (ws_F _ W)|exact (ws_fx _ W)|exact (ws_S _ W)]. Qed.
Definition sizedQ (m : model) : bool :=
  match m_F m with
  | Some F => forallb (fun f => fm_rows f =? m_nx m) F
  | None => match m_fx m with Some fx => length (concat fx) =? m_nx m | None => true end
  end && match m_S m with
         | Some Sl => forallb (fun Sm => forallb (fun r => forallb (fun r' => length r =? length r') Sm) Sm) Sl
         | None => true
         end.
Lemma sizedQ_ok m : sizedQ m = true -> well_sized m.
Proof.
  unfold sizedQ. intros H. apply andb_prop in H. destruct H as [H1 H2]. split.
  - intros F E f Hf. rewrite E in H1. rewrite forallb_forall in H1. apply Nat.eqb_eq, H1, Hf.
  - intros E fx Ef. rewrite E, Ef in H1. apply Nat.eqb_eq, H1.
  - intros Sl E Sm HS r r' Hr Hr'. rewrite E in H2. rewrite forallb_forall in H2. specialize (H2 _ HS).
    rewrite forallb_forall in H2. specialize (H2 _ Hr). rewrite forallb_forall in H2. apply Nat.eqb_eq, H2, Hr'.
Qed.
Lemma sized3 : well_sized model3. Proof. apply sizedQ_ok. reflexivity. Qed.
Lemma sized1 : well_sized model1. Proof. apply sizedQ_ok. reflexivity. Qed.
Lemma sized2 : well_sized model2. Proof. apply sizedQ_ok. reflexivity. Qed.
Lemma problemA : is_problem optsA model1 (Some ocp1) CA. Proof. exact (is_problem_ok _ _ _ _ builtA eq_refl sized1). Qed.
Lemma problemB : is_problem optsB model2 None CB. Proof. exact (is_problem_ok _ _ _ _ builtB eq_refl sized2). Qed.
Lemma problemS : is_problem optsS model3 None CS. Proof. exact (is_problem_ok _ _ _ _ builtS eq_refl sized3). Qed.

(* ---- S: one Radau point, two elements, x' = 3 for x < 0 and x' = 1 for x > 0 from x0 = -1:
   switch at t = 1/3, end at x = 2/3 ---- *)
Definition switchS : list (sym * Q) := [
  (SX0 0, (-1)%Q); (SL00 FLam 0 1, 2%Q);
  (SH 0 0, (1#3)%Q); (SH 0 1, (2#3)%Q);
  (S2 FTheta 0 0 0 0 0, 1%Q);
  (S1 FX 0 1 0 0, (2#3)%Q); (S2 FTheta 0 1 0 0 1, 1%Q); (S2 FLam 0 1 0 0 0, (4#3)%Q); (S2 FMu 0 1 0 0 0, (2#3)%Q)].
Definition rhoS : env := pt switchS.
Lemma feasibleS : feasible rhoS (the_nlp CS).
Proof. apply (feasibleQ (ptQ switchS)). vm_compute. reflexivity. Qed.

(* ---- T: the same simulation in the Step representation ---- *)
Definition optsT : opts := with_modes optsS Step ScholtesIneq SumLambdas HeuristicDelta SotNone true true.
Lemma caseT_ok : is_ok (build optsT model3 None) = true. Proof. vm_compute. reflexivity. Qed.
Definition CT : constructed := get _ caseT_ok.
Lemma builtT : build optsT model3 None = Ok CT. Proof. apply get_ok. Qed.
Lemma problemT : is_problem optsT model3 None CT. Proof. exact (is_problem_ok _ _ _ _ builtT eq_refl sized3). Qed.
Definition switchT : list (sym * Q) := [
  (SX0 0, (-1)%Q); (SL00 FLn 0 0, 1%Q); (SH 0 0, (1#3)%Q); (SH 0 1, (2#3)%Q);
  (S1 FX 0 1 0 0, (2#3)%Q); (S2 FAlpha 0 1 0 0 0, 1%Q); (S2 FLp 0 1 0 0 0, (2#3)%Q)].
Definition rhoT : env := pt switchT.
Lemma feasibleT : feasible rhoT (the_nlp CT).
Proof. apply (feasibleQ (ptQ switchT)). vm_compute. reflexivity. Qed.

(* ---- S with the other cross-complementarity mode ---- *)
Lemma caseS1_ok : is_ok (build (with_cross optsS SumLambdas) model3 None) = true. Proof. vm_compute. reflexivity. Qed.
Definition CS1 : constructed := get _ caseS1_ok.
Lemma builtS1 : build (with_cross optsS SumLambdas) model3 None = Ok CS1. Proof. apply get_ok. Qed.
Lemma problemS1 : is_problem (with_cross optsS SumLambdas) model3 None CS1. Proof. exact (is_problem_ok _ _ _ _ builtS1 eq_refl sized3). Qed.
Lemma caseS2_ok : is_ok (build (with_cross optsS ComplementAll) model3 None) = true. Proof. vm_compute. reflexivity. Qed.
Definition CS2 : constructed := get _ caseS2_ok.
Lemma builtS2 : build (with_cross optsS ComplementAll) model3 None = Ok CS2. Proof. apply get_ok. Qed.
Lemma problemS2 : is_problem (with_cross optsS ComplementAll) model3 None CS2. Proof. exact (is_problem_ok _ _ _ _ builtS2 eq_refl sized3). Qed.
Lemma feasibleS1 : feasible rhoS (the_nlp CS1).
Proof. apply (feasibleQ (ptQ switchS)). vm_compute. reflexivity. Qed.

(* ---- E: ELASTIC_TWO_SIDED has no lower bound on the weights: from x0 = 0 with theta = (-1/2, 3/2)
   the state rests ---- *)
Definition optsE : opts := with_modes optsS Stewart ElasticTwoSided SumLambdas HeuristicDelta SotNone true true.
Lemma caseE_ok : is_ok (build optsE model3 None) = true. Proof. vm_compute. reflexivity. Qed.
Definition CE : constructed := get _ caseE_ok.
Lemma builtE : build optsE model3 None = Ok CE. Proof. apply get_ok. Qed.
Lemma problemE : is_problem optsE model3 None CE. Proof. exact (is_problem_ok _ _ _ _ builtE eq_refl sized3). Qed.
Definition restE : list (sym * Q) := [
  (SH 0 0, (1#2)%Q); (SH 0 1, (1#2)%Q);
  (S2 FTheta 0 0 0 0 0, (-1#2)%Q); (S2 FTheta 0 0 0 0 1, (3#2)%Q);
  (S2 FTheta 0 1 0 0 0, (-1#2)%Q); (S2 FTheta 0 1 0 0 1, (3#2)%Q)].
Lemma feasibleE : feasible (pt restE) (the_nlp CE).
Proof. apply (feasibleQ (ptQ restE)). vm_compute. reflexivity. Qed.

(* ---- G: one Gauss point, COMPLEMENT_ALL: x' = 3 for x < 0, x' = 0 for x > 0; the element (0, 0)
   integrates mode 0 from -1 to 1/2, past the surface x = 0 ---- *)
Definition model4 : model := {|
  m_nx := 1; m_x0 := [(-1)%Q];
  m_F := Some [mkFmat 1 [[cq 3]; [cq 0]]];
  m_c := Some [[cx 0]]; m_S := Some [[[(-1)%Q]; [1%Q]]]; m_gS := None;
  m_nu := 0; m_nz := 0; m_z0 := None; m_lbz := None; m_ubz := None; m_alpha := None; m_fx := None;
  m_gz := []; m_npt := 0; m_npg := 0; m_ptv_val := None; m_pg_val := []; m_nvg := 0; m_tvar := None |}.
Lemma sized4 : well_sized model4. Proof. apply sizedQ_ok. reflexivity. Qed.
Definition optsG : opts := with_irk default_opts Integral 1 GaussLegendre.
Lemma caseG1_ok : is_ok (build (with_cross optsG SumLambdas) model4 None) = true. Proof. vm_compute. reflexivity. Qed.
Definition CG1 : constructed := get _ caseG1_ok.
Lemma builtG1 : build (with_cross optsG SumLambdas) model4 None = Ok CG1. Proof. apply get_ok. Qed.
Lemma problemG1 : is_problem (with_cross optsG SumLambdas) model4 None CG1. Proof. exact (is_problem_ok _ _ _ _ builtG1 eq_refl sized4). Qed.
Lemma caseG2_ok : is_ok (build (with_cross optsG ComplementAll) model4 None) = true. Proof. vm_compute. reflexivity. Qed.
Definition CG2 : constructed := get _ caseG2_ok.
Lemma builtG2 : build (with_cross optsG ComplementAll) model4 None = Ok CG2. Proof. apply get_ok. Qed.
Lemma problemG2 : is_problem (with_cross optsG ComplementAll) model4 None CG2. Proof. exact (is_problem_ok _ _ _ _ builtG2 eq_refl sized4). Qed.
Definition crossG : list (sym * Q) := [
  (SX0 0, (-1)%Q); (SL00 FLam 0 1, 2%Q); (SH 0 0, (1#2)%Q); (SH 0 1, (1#2)%Q);
  (S1 FX 0 0 0 0, (-1#4)%Q); (S1 FX 0 0 1 0, (1#2)%Q); (S2 FTheta 0 0 0 0 0, 1%Q);
  (S2 FLam 0 0 0 0 1, (1#2)%Q); (S2 FMu 0 0 0 0 0, (1#4)%Q);
  (S2 FLam 0 0 1 0 0, 1%Q); (S2 FMu 0 0 1 0 0, (1#2)%Q);
  (S1 FX 0 1 0 0, (1#2)%Q); (S1 FX 0 1 1 0, (1#2)%Q); (S2 FTheta 0 1 0 0 1, 1%Q);
  (S2 FLam 0 1 0 0 0, 1%Q); (S2 FMu 0 1 0 0 0, (1#2)%Q)].
Definition rhoG : env := pt crossG.
Lemma feasibleG2 : feasible rhoG (the_nlp CG2).
Proof. apply (feasibleQ (ptQ crossG)). vm_compute. reflexivity. Qed.
Lemma infeasibleG1 : ~ constraints_ok rhoG (the_nlp CG1).
Proof. apply (infeasibleQ (ptQ crossG)). vm_compute. reflexivity. Qed.

(* ---- H: one Gauss point, DIFFERENTIAL, step sizes bounded away from zero ---- *)
Definition optsH : opts := with_gamma (with_irk default_opts Differential 1 GaussLegendre) (Fin (1#2)).
Lemma caseH_ok : is_ok (build optsH model3 None) = true. Proof. vm_compute. reflexivity. Qed.
Definition CH : constructed := get _ caseH_ok.
Lemma builtH : build optsH model3 None = Ok CH. Proof. apply get_ok. Qed.
Lemma problemH : is_problem optsH model3 None CH. Proof. exact (is_problem_ok _ _ _ _ builtH eq_refl sized3). Qed.

(* ---- U: a control u that the OCP requires to satisfy u * u <= sigma; Nfe_list = [1] while
   N_finite_elements = 2 ---- *)
Definition model5 : model := {|
  m_nx := 1; m_x0 := [(-1)%Q];
  m_F := Some [mkFmat 1 [[cq 0]; [cq 0]]];
  m_c := Some [[cx 0]]; m_S := Some [[[(-1)%Q]; [1%Q]]]; m_gS := None;
  m_nu := 1; m_nz := 0; m_z0 := None; m_lbz := None; m_ubz := None; m_alpha := None; m_fx := None;
  m_gz := []; m_npt := 0; m_npg := 0; m_ptv_val := None; m_pg_val := []; m_nvg := 0; m_tvar := None |}.
Lemma sized5 : well_sized model5. Proof. apply sizedQ_ok. reflexivity. Qed.
Definition ocpU : ocp := {|
  oc_lbu := None; oc_ubu := None; oc_u_guess := None; oc_lbx := None; oc_ubx := None;
  oc_fq := cq 1; oc_g_path := []; oc_lbg := None; oc_ubg := None;
  oc_comp := [(EVar (MU 0), EVar (MU 0))];
  oc_fT := cq 0; oc_gT := []; oc_lbv := None; oc_ubv := None; oc_v_guess := None |}.
Definition optsU : opts := with_grid optsS 1 [1].
Lemma caseU_ok : is_ok (build optsU model5 (Some ocpU)) = true. Proof. vm_compute. reflexivity. Qed.
Definition CU : constructed := get _ caseU_ok.
Lemma builtU : build optsU model5 (Some ocpU) = Ok CU. Proof. apply get_ok. Qed.
Lemma problemU : is_problem optsU model5 (Some ocpU) CU. Proof. exact (is_problem_ok _ _ _ _ builtU eq_refl sized5). Qed.
Definition restU : list (sym * Q) := [
  (SX0 0, (-1)%Q); (SL00 FLam 0 1, 2%Q); (SH 0 0, 1%Q); (SU 0 0, 5%Q);
  (S1 FX 0 0 0 0, (-1)%Q); (S2 FTheta 0 0 0 0 0, 1%Q); (S2 FLam 0 0 0 0 1, 2%Q); (S2 FMu 0 0 0 0 0, 1%Q)].
Lemma feasibleU : feasible (pt restU) (the_nlp CU).
Proof. apply (feasibleQ (ptQ restU)). vm_compute. reflexivity. Qed.
(* two elements, as N_finite_elements says *)
Definition optsU2 : opts := with_grid optsS 1 [2].
Lemma caseU2_ok : is_ok (build optsU2 model5 (Some ocpU)) = true. Proof. vm_compute. reflexivity. Qed.
Definition CU2 : constructed := get _ caseU2_ok.
Lemma builtU2 : build optsU2 model5 (Some ocpU) = Ok CU2. Proof. apply get_ok. Qed.
Lemma problemU2 : is_problem optsU2 model5 (Some ocpU) CU2. Proof. exact (is_problem_ok _ _ _ _ builtU2 eq_refl sized5). Qed.
Definition restU2 (u : Q) : list (sym * Q) := [
  (SX0 0, (-1)%Q); (SL00 FLam 0 1, 2%Q); (SH 0 0, (1#2)%Q); (SH 0 1, (1#2)%Q); (SU 0 0, u);
  (S1 FX 0 0 0 0, (-1)%Q); (S2 FTheta 0 0 0 0 0, 1%Q); (S2 FLam 0 0 0 0 1, 2%Q); (S2 FMu 0 0 0 0 0, 1%Q);
  (S1 FX 0 1 0 0, (-1)%Q); (S2 FTheta 0 1 0 0 0, 1%Q); (S2 FLam 0 1 0 0 1, 2%Q); (S2 FMu 0 1 0 0 0, 1%Q)].
Lemma feasibleU2 : feasible (pt (restU2 0)) (the_nlp CU2).
Proof. apply (feasibleQ (ptQ (restU2 0))). vm_compute. reflexivity. Qed.
(* the running cost is the constant 1, the horizon has length 1, the steps are equal *)
Lemma costU2 : eval (pt (restU2 0)) (cost (the_nlp CU2)) = (/ 2)%R.
Proof.
  change (pt (restU2 0)) with (fun s => Q2R (ptQ (restU2 0) s)). rewrite (evalQ_sound _ _ (1#2)%Q); [unfold Q2R; cbn; lra|].
  vm_compute. reflexivity.
Qed.

(* ---- L: least squares ---- *)
Definition ocpL (ub : ext) : ocp := {|
  oc_lbu := None; oc_ubu := None; oc_u_guess := None; oc_lbx := None; oc_ubx := None;
  oc_fq := cq 0; oc_g_path := [EVar (MU 0)]; oc_lbg := Some [Fin 0]; oc_ubg := Some [ub];
  oc_comp := []; oc_fT := cq 0; oc_gT := []; oc_lbv := None; oc_ubv := None; oc_v_guess := None |}.
Definition optsL : opts := with_modes optsS Stewart ScholtesEq SumLambdas HeuristicDelta SotNone true true.
Lemma caseL1_ok : is_ok (build (with_constr optsL Exact) model5 (Some (ocpL (Fin 7)))) = true. Proof. vm_compute. reflexivity. Qed.
Lemma caseL2_ok : is_ok (build (with_constr optsL LeastSquares) model5 (Some (ocpL (Fin 7)))) = true. Proof. vm_compute. reflexivity. Qed.
Definition CL1 : constructed := get _ caseL1_ok.
Definition CL2 : constructed := get _ caseL2_ok.
Lemma builtL1 : build (with_constr optsL Exact) model5 (Some (ocpL (Fin 7))) = Ok CL1. Proof. apply get_ok. Qed.
Lemma problemL1 : is_problem (with_constr optsL Exact) model5 (Some (ocpL (Fin 7))) CL1. Proof. exact (is_problem_ok _ _ _ _ builtL1 eq_refl sized5). Qed.
Lemma builtL2 : build (with_constr optsL LeastSquares) model5 (Some (ocpL (Fin 7))) = Ok CL2. Proof. apply get_ok. Qed.
Lemma feasibleL1 : feasible (pt (restU2 5)) (the_nlp CL1).
Proof. apply (feasibleQ (ptQ (restU2 5))). vm_compute. reflexivity. Qed.
Lemma costL1 : eval (pt (restU2 5)) (cost (the_nlp CL1)) = 0%R.
Proof.
  change (pt (restU2 5)) with (fun s => Q2R (ptQ (restU2 5) s)). rewrite (evalQ_sound _ _ 0%Q); [unfold Q2R; cbn; lra|].
  vm_compute. reflexivity.
Qed.
Lemma costL2 : eval (pt (restU2 5)) (cost (the_nlp CL2)) = 25%R.
Proof.
  change (pt (restU2 5)) with (fun s => Q2R (ptQ (restU2 5) s)). rewrite (evalQ_sound _ _ 25%Q); [unfold Q2R; cbn; lra|].
  vm_compute. reflexivity.
Qed.

(* ---- path complementarities are not part of comp_res: case A with x0 = x1 = 10, everything else 0 ---- *)
Definition pathA : list (sym * Q) :=
  map (fun p => (S1 FX (fst p) (snd p) 0 0, 10%Q)) [(0, 0); (1, 0); (1, 1)] ++
  map (fun p => (S1 FX (fst p) (snd p) 0 1, 10%Q)) [(0, 0); (1, 0); (1, 1)].
Lemma residualA : comp_residual CA (pt pathA) = 0%R.
Proof.
  unfold comp_residual. change (pt pathA) with (fun s => Q2R (ptQ pathA s)). rewrite (evalQ_sound _ _ 0%Q); [apply Q2R_0|].
  vm_compute. reflexivity.
Qed.
