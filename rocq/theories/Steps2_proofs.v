(* Steps2_proofs.v -- cases of the statements on step equilibration: points of problems with square roots, unequal steps *)
From Coq Require Import Reals Qreals Lra Psatz.
From Verif Require Import Base Sx Utils Tableau Opts Model Ocp Problem Spec Cases Sx_proofs Fesd Spec2 Spec3 Witness Feas_proofs Feas5_proofs Feas6_proofs Witness5 Spec9 Filippov4_proofs Spec29 Steps_proofs.

(* rational evaluation with roots of squares of rationals *)
Definition rootQ (x : Q) : option Q := let y := Qred x in let r := (Z.sqrt (Qnum y) # Pos.sqrt (Qden y))%Q in
  if Qle_bool 0 r && Qeq_bool (r * r) x then Some r else None.
Fixpoint evalS (rho : sym -> Q) (e : expr) : option Q :=
  match e with
  | ECst q => Some q
  | EVar s => Some (rho s)
  | EUn o a => match evalS rho a with Some x => match o with USqrt => rootQ x | _ => evalQ_un o x end | None => None end
  | EBin o a b => match evalS rho a, evalS rho b with Some x, Some y => evalQ_bin o x y | _, _ => None end
  end.
Lemma evalS_sound rho e q : evalS rho e = Some q -> eval (fun s => Q2R (rho s)) e = Q2R q.
Proof.
  revert q; induction e as [c|s|o a IH|o a IHa b IHb]; cbn [evalS eval]; intros q H.
  - apply Some_inj in H; subst q; reflexivity.
  - apply Some_inj in H; subst q; reflexivity.
  - destruct (evalS rho a) as [x|] eqn:E; [|discriminate]. rewrite (IH x eq_refl); clear IH.
    assert (Q : o = USqrt \/ evalQ_un o x = Some q) by (destruct o; auto). destruct Q as [->|Q].
    + unfold rootQ in H. cbv zeta in H. set (r := (Z.sqrt (Qnum (Qred x)) # Pos.sqrt (Qden (Qred x)))%Q) in *. clearbody r. destruct (Qle_bool 0 _ && Qeq_bool _ x) eqn:B in H; [|discriminate]. apply Some_inj in H. subst q. apply andb_prop in B. destruct B as [B1 B2].
      apply Q2R_le_bool in B1. rewrite Q2R_0 in B1. apply Q2R_eq in B2. rewrite Q2R_mult in B2. cbn [eval_un]. rewrite <- B2. apply sqrt_square. exact B1.
    + pose proof (evalQ_sound (fun _ => x) (EUn o (EVar (SX0 0))) q Q) as S. exact S.
  - destruct (evalS rho a) as [x|]; [|discriminate]. destruct (evalS rho b) as [y|]; [|discriminate]. rewrite (IHa x eq_refl), (IHb y eq_refl).
    pose proof (evalQ_sound (fun s => match s with SX0 0 => x | _ => y end) (EBin o (EVar (SX0 0)) (EVar (SX0 1))) q H) as S. exact S.
Qed.
Definition consS (v : sym -> Q) (f : fobj) : bool :=
  all3 (fun e l u => match evalS v e with Some q => withinQ l u q | None => false end) (g f) (lbg f) (ubg f).
Lemma feasibleS v f : boundsQ v f && consS v f = true -> feasible (fun s => Q2R (v s)) f.
Proof.
  intros H. apply andb_prop in H. destruct H as [H1 H2]. split.
  - intros i s l u A B D. apply withinQ_sound. exact (all3_nth _ _ _ _ _ _ _ _ H1 A B D).
  - intros j e l u A B D. pose proof (all3_nth _ _ _ _ _ _ _ _ H2 A B D) as G. cbv beta in G.
    destruct (evalS v e) as [q|] eqn:E; [|discriminate]. rewrite (evalS_sound _ _ _ E). apply withinQ_sound, G.
Qed.

(* x' = 3 from -10, no switch: steps 3/4 and 1/4 with DIRECT_COMPLEMENTARITY and SCHOLTES_INEQ *)
Definition optsV : opts := with_step_eq optsS DirectComplementarity.
Definition uneven : list (sym * Q) := [
  (SX0 0, (-10)%Q); (SL00 FLam 0 1, 20%Q); (SH 0 0, (3#4)%Q); (SH 0 1, (1#4)%Q);
  (S1 FX 0 0 0 0, (-31#4)%Q); (S2 FTheta 0 0 0 0 0, 1%Q); (S2 FLam 0 0 0 0 1, (31#2)%Q); (S2 FMu 0 0 0 0 0, (31#4)%Q);
  (S1 FX 0 1 0 0, (-7)%Q); (S2 FTheta 0 1 0 0 0, 1%Q); (S2 FLam 0 1 0 0 1, 14%Q); (S2 FMu 0 1 0 0 0, 7%Q)].
Lemma caseV_ok : is_ok (build optsV model3 None) = true. Proof. vm_compute. reflexivity. Qed.
Definition CV : constructed := get _ caseV_ok.
Lemma builtV : build optsV model3 None = Ok CV. Proof. apply get_ok. Qed.
Lemma problemV : is_problem optsV model3 None CV. Proof. exact (is_problem_ok _ _ _ _ builtV eq_refl sized3). Qed.
Lemma feasibleV : feasible (pt uneven) (the_nlp CV).
Proof. apply (feasibleQ (ptQ uneven)). vm_compute. reflexivity. Qed.
(* the same with SCHOLTES_EQ and equal steps *)
Definition optsVe : opts := with_modes optsS Stewart ScholtesEq SumLambdas DirectComplementarity SotNone true true.
Lemma caseVe_ok : is_ok (build optsVe model3 None) = true. Proof. vm_compute. reflexivity. Qed.
Definition CVe : constructed := get _ caseVe_ok.
Lemma builtVe : build optsVe model3 None = Ok CVe. Proof. apply get_ok. Qed.
Lemma problemVe : is_problem optsVe model3 None CVe. Proof. exact (is_problem_ok _ _ _ _ builtVe eq_refl sized3). Qed.
Lemma feasibleVe : feasible restD (the_nlp CVe).
Proof. apply (feasibleQ (ptQ straightD)). vm_compute. reflexivity. Qed.
(* Fischer-Burmeister: a switch at 3/4 *)
Definition optsVf (s : step_eq_mode) : opts := with_modes optsS Stewart FischerBurmeister SumLambdas s SotNone true true.
Lemma caseVf_ok s : is_ok (build (optsVf s) model3 None) = true. Proof. destruct s; vm_compute; reflexivity. Qed.
Definition CVf (s : step_eq_mode) : constructed := get _ (caseVf_ok s).
Lemma builtVf s : build (optsVf s) model3 None = Ok (CVf s). Proof. apply get_ok. Qed.
Lemma problemVf s : is_problem (optsVf s) model3 None (CVf s). Proof. exact (is_problem_ok _ _ _ _ (builtVf s) eq_refl sized3). Qed.
Definition late : list (sym * Q) := [
  (SX0 0, (-9#4)%Q); (SL00 FLam 0 1, (9#2)%Q); (SH 0 0, (3#4)%Q); (SH 0 1, (1#4)%Q);
  (S2 FTheta 0 0 0 0 0, 1%Q); (S1 FX 0 1 0 0, (1#4)%Q); (S2 FTheta 0 1 0 0 1, 1%Q); (S2 FLam 0 1 0 0 0, (1#2)%Q); (S2 FMu 0 1 0 0 0, (1#4)%Q)].
Definition early : list (sym * Q) := [
  (SX0 0, (-3#2)%Q); (SL00 FLam 0 1, 3%Q); (SH 0 0, (1#2)%Q); (SH 0 1, (1#2)%Q);
  (S2 FTheta 0 0 0 0 0, 1%Q); (S1 FX 0 1 0 0, (1#2)%Q); (S2 FTheta 0 1 0 0 1, 1%Q); (S2 FLam 0 1 0 0 0, 1%Q); (S2 FMu 0 1 0 0 0, (1#2)%Q)].
Lemma feasibleVf : feasible (pt late) (the_nlp (CVf Direct)).
Proof. apply (feasibleS (ptQ late)). vm_compute. reflexivity. Qed.
Lemma feasibleVg : feasible (pt early) (the_nlp (CVf DirectComplementarity)).
Proof. apply (feasibleS (ptQ early)). vm_compute. reflexivity. Qed.

Local Open Scope R_scope.
Section Keep.
Variables (oo : opts) (C : constructed) (l : list (sym * Q)) (q0 q1 : Q).
Hypothesis PC : is_problem oo model3 None C.
Hypothesis BO : bounds_ok (pt l) (the_nlp C).
Hypothesis PM : product_mode (the_opts C).
Hypothesis L0 : initial_nonneg (pt l).
Hypothesis ES : o_pss (the_opts C) = Stewart.
Hypothesis En : forall e, (e < 2)%nat -> n_mult (the_opts C) (cn_tab C) 0 e = 1%nat.
Hypothesis Es : o_ns (the_opts C) = 1%nat.
Hypothesis Fe : forall e, (e < 2)%nat -> is_fe (the_opts C) 0 e 2.
Hypothesis La : 0 < pt l (S2 FLam 0 0 0 0 1) /\ 0 < pt l (S2 FLam 0 1 0 0 1).
Hypothesis Th : 0 < pt l (S2 FTheta 0 0 0 0 0) /\ 0 < pt l (S2 FTheta 0 1 0 0 0).
Hypothesis Np : n_pairs (the_opts C) model3 = 2%nat.
Lemma keeps : no_switch (the_opts C) (cn_tab C) model3 (pt l) 0 1.
Proof.
  assert (K0 : (0 < n_subsystems model3)%nat) by (cbn; lia). assert (K1 : (1 < n_modes model3 0)%nat) by (cbn; lia). assert (K2 : (0 < n_modes model3 0)%nat) by (cbn; lia).
  pose proof PC as (H & _).
  assert (SL : forall e, (e < 2)%nat -> 0 < pt l (S2 FLam 0 e 0 0 1) -> 0 < sum_lam (the_opts C) (cn_tab C) model3 (pt l) 0 e 1).
  { intros e He P. unfold sum_lam. rewrite (En e He). pose proof (prev_nonneg _ _ _ _ _ _ _ H (pt l) BO 0 e 2 1 PM L0 (Fe e He)).
    pose proof (st_lam model3 C (pt l) 0 e 0 0 1 ES K0 K1) as E. change (upto 0 (n_modes model3) + 1)%nat with 1%nat in E. unfold rupto. cbn [seq map rsum fold_right]. rewrite E. lra. }
  assert (ST : forall e, (e < 2)%nat -> 0 < pt l (S2 FTheta 0 e 0 0 0) -> 0 < sum_theta (the_opts C) model3 (pt l) 0 e 0).
  { intros e He P. unfold sum_theta. rewrite Es. pose proof (st_theta model3 C (pt l) 0 e 0 0 0 ES K0 K2) as E. change (upto 0 (n_modes model3) + 0)%nat with 0%nat in E.
    unfold rupto. cbn [seq map rsum fold_right]. rewrite E. lra. }
  intros k Hk. rewrite Np in Hk. change (1 - 1)%nat with 0%nat. destruct k as [|[|k]]; [right|left|lia].
  - split; apply ST; try lia; apply Th.
  - split; apply SL; try lia; apply La.
Qed.
End Keep.

Lemma keepV : no_switch (the_opts CV) (cn_tab CV) model3 (pt uneven) 0 1.
Proof.
  apply (keeps optsV CV uneven problemV (proj1 feasibleV)).
  - vm_compute. exact Logic.I.
  - apply nonneg_pt. reflexivity.
  - vm_compute. reflexivity.
  - intros [|[|e]] He; [vm_compute; reflexivity|vm_compute; reflexivity|lia].
  - vm_compute. reflexivity.
  - intros [|[|e]] He; [vm_compute; repeat split; lia|vm_compute; repeat split; lia|lia].
  - split; val uneven; unfold Q2R; cbn; lra.
  - split; val uneven; unfold Q2R; cbn; lra.
  - vm_compute. reflexivity.
Qed.
Lemma keepVe : no_switch (the_opts CVe) (cn_tab CVe) model3 restD 0 1.
Proof.
  apply (keeps optsVe CVe straightD problemVe (proj1 feasibleVe)).
  - vm_compute. exact Logic.I.
  - apply nonneg_pt. reflexivity.
  - vm_compute. reflexivity.
  - intros [|[|e]] He; [vm_compute; reflexivity|vm_compute; reflexivity|lia].
  - vm_compute. reflexivity.
  - intros [|[|e]] He; [vm_compute; repeat split; lia|vm_compute; repeat split; lia|lia].
  - split; val straightD; unfold Q2R; cbn; lra.
  - split; val straightD; unfold Q2R; cbn; lra.
  - vm_compute. reflexivity.
Qed.
Lemma elementV : is_element (the_opts CV) 0 1. Proof. split; vm_compute; lia. Qed.
Lemma elementVe : is_element (the_opts CVe) 0 1. Proof. split; vm_compute; lia. Qed.
Lemma elementVf s : is_element (the_opts (CVf s)) 0 1. Proof. destruct s; split; vm_compute; lia. Qed.

Lemma two_case : is_problem optsVe model3 None CVe /\ feasible restD (the_nlp CVe) /\ o_use_fesd (the_opts CVe) = true /\ is_element (the_opts CVe) 0 1 /\
  o_step_eq (the_opts CVe) = DirectComplementarity /\ two_sided (o_mpcc (the_opts CVe)) /\ product_mode (the_opts CVe) /\ initial_nonneg restD /\
  relaxation (o_mpcc (the_opts CVe)) restD = 0 /\ no_switch (the_opts CVe) (cn_tab CVe) model3 restD 0 1.
Proof.
  split; [exact problemVe|]. split; [exact feasibleVe|]. split; [vm_compute; reflexivity|]. split; [exact elementVe|]. split; [vm_compute; reflexivity|].
  split; [left; vm_compute; reflexivity|]. split; [vm_compute; exact Logic.I|]. split; [apply nonneg_pt; reflexivity|]. split; [|exact keepVe].
  replace (o_mpcc (the_opts CVe)) with ScholtesEq by (vm_compute; reflexivity). cbn [relaxation]. unfold restD. val straightD. unfold Q2R. cbn. lra.
Qed.
Lemma uneven_case : is_problem optsV model3 None CV /\ feasible (pt uneven) (the_nlp CV) /\ o_use_fesd (the_opts CV) = true /\ is_element (the_opts CV) 0 1 /\
  o_step_eq (the_opts CV) = DirectComplementarity /\ upper_only (o_mpcc (the_opts CV)) /\ product_mode (the_opts CV) /\ initial_nonneg (pt uneven) /\
  relaxation (o_mpcc (the_opts CV)) (pt uneven) = 0 /\ no_switch (the_opts CV) (cn_tab CV) model3 (pt uneven) 0 1 /\
  pt uneven (SH 0 0) = 3 / 4 /\ pt uneven (SH 0 1) = 1 / 4.
Proof.
  split; [exact problemV|]. split; [exact feasibleV|]. split; [vm_compute; reflexivity|]. split; [exact elementV|]. split; [vm_compute; reflexivity|].
  split; [left; vm_compute; reflexivity|]. split; [vm_compute; exact Logic.I|]. split; [apply nonneg_pt; reflexivity|]. split; [|split; [exact keepV|split; val uneven; unfold Q2R; cbn; lra]].
  replace (o_mpcc (the_opts CV)) with ScholtesIneq by (vm_compute; reflexivity). cbn [relaxation]. val uneven. unfold Q2R. cbn. lra.
Qed.
Lemma fischer_case : is_problem (optsVf DirectComplementarity) model3 None (CVf DirectComplementarity) /\ feasible (pt early) (the_nlp (CVf DirectComplementarity)) /\
  o_use_fesd (the_opts (CVf DirectComplementarity)) = true /\ is_element (the_opts (CVf DirectComplementarity)) 0 1 /\
  o_step_eq (the_opts (CVf DirectComplementarity)) = DirectComplementarity /\ fischer_mode (o_mpcc (the_opts (CVf DirectComplementarity))).
Proof.
  split; [apply problemVf|]. split; [exact feasibleVg|]. split; [vm_compute; reflexivity|]. split; [apply elementVf|]. split; [vm_compute; reflexivity|left; vm_compute; reflexivity].
Qed.
Lemma late_excluded : is_problem (optsVf Direct) model3 None (CVf Direct) /\ is_problem (optsVf DirectComplementarity) model3 None (CVf DirectComplementarity) /\
  feasible (pt late) (the_nlp (CVf Direct)) /\ forall rho, rho (SH 0 0) = 3 / 4 -> rho (SH 0 1) = 1 / 4 -> ~ constraints_ok rho (the_nlp (CVf DirectComplementarity)).
Proof.
  split; [apply problemVf|]. split; [apply problemVf|]. split; [exact feasibleVf|]. intros rho E0 E1 CO. destruct fischer_case as (P & _ & F1 & F2 & F3 & F4).
  destruct (fischer_steps _ _ _ _ _ _ _ rho P CO F1 0 1 F2 (le_n 1) F3 F4) as [Q _]. change (1 - 1)%nat with 0%nat in Q. rewrite E0, E1 in Q. lra.
Qed.
Lemma stuck_case : exists C, is_problem (with_modes optsS Stewart ScholtesEq SumLambdas HeuristicDeltaHComp SotNone true true) model3 None C /\ o_use_fesd (the_opts C) = true /\
  o_step_eq (the_opts C) = HeuristicDeltaHComp /\ refined (the_opts C) /\ o_mpcc (the_opts C) = ScholtesEq /\ 0 < Q2R (o_sigma_0 (the_opts C)).
Proof.
  assert (B : is_ok (build (with_modes optsS Stewart ScholtesEq SumLambdas HeuristicDeltaHComp SotNone true true) model3 None) = true) by (vm_compute; reflexivity).
  exists (get _ B). split; [exact (is_problem_ok _ _ _ _ (get_ok _ B) eq_refl sized3)|]. split; [vm_compute; reflexivity|]. split; [vm_compute; reflexivity|].
  split; [exists 0%nat; split; vm_compute; lia|]. split; [vm_compute; reflexivity|].
  replace (o_sigma_0 (the_opts (get _ B))) with 1%Q by (vm_compute; reflexivity). rewrite Q2R_1. lra.
Qed.
Lemma late_lost : exists o1 o2 m C1 C2 rho0, o1 = optsVf Direct /\ o2 = optsVf DirectComplementarity /\ is_problem o1 m None C1 /\ is_problem o2 m None C2 /\
  feasible rho0 (the_nlp C1) /\ rho0 (SH 0 0) = 3 / 4 /\ rho0 (SH 0 1) = 1 / 4 /\
  forall rho, rho (SH 0 0) = 3 / 4 -> rho (SH 0 1) = 1 / 4 -> ~ constraints_ok rho (the_nlp C2).
Proof.
  destruct late_excluded as (P1 & P2 & F & N). exists (optsVf Direct), (optsVf DirectComplementarity), model3, (CVf Direct), (CVf DirectComplementarity), (pt late).
  split; [reflexivity|]. split; [reflexivity|]. split; [exact P1|]. split; [exact P2|]. split; [exact F|]. split; [val late; unfold Q2R; cbn; lra|]. split; [val late; unfold Q2R; cbn; lra|exact N].
Qed.
