(* Sim4_proofs.v -- the statements of Props_Sim.v *)
From Coq Require Import Reals Qreals Lra.
From Verif Require Import Base Lib Sx Sx_proofs Utils Tableau Opts Model Ocp Problem Numeric Rk4 Results Solver Looper Spec Fesd Spec2 Spec3 Spec4 Spec5 Spec6
  Looper_proofs Spec9 Filippov_proofs Filippov3_proofs Spec10 Exact_proofs Exact2_proofs Exact3_proofs Spec19 Sim_proofs Sim2_proofs Sim3_proofs.
Local Open Scope R_scope.

Section Run.
Variables (lr : Q -> Q -> Q -> nat) (cp : nat -> scheme -> list Q) (d : ipopt_dict) (o : opts) (m : model) (oc : option ocp) (C : constructed).
Hypothesis FP : fesd_problem lr cp d o m oc C.
Hypothesis EX : extractable (the_opts C) m.
Notation O := (the_opts C).
Hypothesis SS : simple_switching cp O m.
Hypothesis Hf : o_use_fesd O = true.
Hypothesis XC : o_cross O = SumLambdas \/ t_rbe (cn_tab C) = true.
Hypothesis GH : ext_upto (o_gamma_h O) 1.
Hypothesis TT : (0 <= o_terminal_time O)%Q.
Variables (nlp : nat -> nlp_call -> res nlp_ret) (x0 : list R) (Nsim : nat) (pv : option (list (list R))) (pc : nat) (wi : option (list (list R)))
  (L : looper) (s : sstate) (tr : list (sstate * solve_out)) (L' : looper) (rho : nat -> env).
Hypothesis LI : looper_init (cn_prob C) x0 Nsim pv pc wi = Ok L.
Hypothesis SI : simulation nlp C m 0 L s tr L'.
Hypothesis SE : forall k q, nth_error tr k = Some q -> solved_exactly C (snd q) (rho k).
Let AS : affine_switching m := proj2 (proj2 (proj2 (proj2 SS))).
Let N1 : o_N_stages O = 1%nat := run_N1 lr cp d o m oc C FP x0 Nsim pv pc wi L LI.

Lemma setting_of k q : o_pss O = Stewart \/ (gS_given m = false /\ n_subsystems m = 1%nat) -> nth_error tr k = Some q ->
  feasible (spread (rho k)) (the_nlp C) /\ filippov_setting cp O m (spread (rho k)) /\ steps_nonneg O (spread (rho k)).
Proof.
  intros HS Ek. destruct q as [si out]. destruct (sm_solve _ _ _ _ _ _ _ _ SI k si out Ek) as (Z & t & Es). pose proof (SE k _ Ek) as SEk. cbn [snd] in SEk.
  split; [exact (step_feasible _ _ _ _ _ _ _ FP N1 out (rho k) SEk)|]. split.
  - exact (step_setting _ _ _ _ _ _ _ FP N1 HS nlp si t out (rho k) Z Es SEk SS).
  - exact (step_steps _ _ _ _ _ _ _ FP N1 out (rho k) SEk GH TT).
Qed.
Lemma stewart_traj : o_pss O = Stewart -> forall k q, nth_error tr k = Some q -> exists X, filippov_trajectory O (cn_tab C) m (spread (rho k)) (smallest m) X.
Proof.
  intros Ep k q Ek. destruct (setting_of k q (or_introl Ep) Ek) as (FE & FS & SN).
  exact (stewart_filippov lr cp d o m oc C (spread (rho k)) FP FE FS Hf XC Ep SN).
Qed.
Lemma stewart_run : o_pss O = Stewart -> exists X, simulated O m (smallest m) rho tr (looper_t_grid L') (lp_X_sim L') X.
Proof.
  intros Ep. exact (run_filippov lr cp d o m oc C FP EX (or_introl Ep) SS GH TT nlp x0 Nsim pv pc wi L s tr L' rho LI SI SE (smallest m)
    (stewart_traj Ep) (fun k x => spread_smallest m (rho k) AS x)).
Qed.
Lemma stewart_run_exact Y Lc : o_pss O = Stewart -> o_repr O = Integral -> 0 <= Lc ->
  (forall k, (k < length tr)%nat -> one_sided O m (rho k) (smallest m) Lc) -> run_solution O m (smallest m) rho tr x0 Y ->
  forall j tm x i, nth_error (looper_t_grid L') j = Some tm -> nth_error (lp_X_sim L') j = Some x -> (i < m_nx m)%nat -> nth i x 0 = Y tm i.
Proof.
  intros Ep. exact (run_exact lr cp d o m oc C FP EX (or_introl Ep) SS GH TT nlp x0 Nsim pv pc wi L s tr L' rho LI SI SE (smallest m)
    (stewart_traj Ep) (fun k x => spread_smallest m (rho k) AS x) Y Lc).
Qed.

Lemma run_times : o_equidistant O = true -> forall k, (k <= length tr)%nat -> elapsed tr k = INR k * Q2R (o_terminal_time O).
Proof.
  intros Eq. induction k as [|k IH]; intros Hk; [rewrite elapsed_0; cbn; ring|].
  destruct (nth_error tr k) as [q|] eqn:Ek; [|exfalso; apply nth_error_None in Ek; clear - Hk Ek; lia]. rewrite (elapsed_succ tr k q Ek), IH by (clear - Hk; lia).
  destruct q as [si out]. destruct (sm_solve _ _ _ _ _ _ _ _ SI k si out Ek) as (_ & t & Es). pose proof (SE k _ Ek) as SEk. cbn [snd] in *.
  rewrite (total_time _ _ _ _ _ _ _ FP N1 EX nlp si t out (rho k) Es SEk), <- (first_end C N1 (rho k)).
  rewrite (end_time_T _ _ _ _ _ _ _ (spread (rho k)) FP (proj2 (step_feasible _ _ _ _ _ _ _ FP N1 out (rho k) SEk)) Hf (or_introl Eq)), S_INR. ring.
Qed.

Hypothesis GS : gS_given m = false.
Hypothesis N0 : n_subsystems m = 1%nat.
Hypothesis SM : sign_matrix m.
Hypothesis RF : rows_fit m.
Hypothesis CM : complete m 0.
Lemma step_traj : o_pss O = Step -> forall k q, nth_error tr k = Some q -> exists X, filippov_trajectory O (cn_tab C) m (spread (rho k)) (in_closed_region m) X.
Proof.
  intros Ep k q Ek. destruct (setting_of k q (or_intror (conj GS N0)) Ek) as (FE & FS & SN).
  refine (step_filippov lr cp d o m oc C (spread (rho k)) FP FE FS Hf XC Ep SM RF _ SN).
  intros j Hj. assert (j = 0%nat) by (clear - Hj N0; lia). subst j. exact CM.
Qed.
Lemma step_run : o_pss O = Step -> exists X, simulated O m (in_closed_region m) rho tr (looper_t_grid L') (lp_X_sim L') X.
Proof.
  intros Ep. exact (run_filippov lr cp d o m oc C FP EX (or_intror (conj GS N0)) SS GH TT nlp x0 Nsim pv pc wi L s tr L' rho LI SI SE (in_closed_region m)
    (step_traj Ep) (fun k x => spread_closed m (rho k) AS x)).
Qed.
Lemma step_run_exact Y Lc : o_pss O = Step -> o_repr O = Integral -> 0 <= Lc ->
  (forall k, (k < length tr)%nat -> one_sided O m (rho k) (in_closed_region m) Lc) -> run_solution O m (in_closed_region m) rho tr x0 Y ->
  forall j tm x i, nth_error (looper_t_grid L') j = Some tm -> nth_error (lp_X_sim L') j = Some x -> (i < m_nx m)%nat -> nth i x 0 = Y tm i.
Proof.
  intros Ep. exact (run_exact lr cp d o m oc C FP EX (or_intror (conj GS N0)) SS GH TT nlp x0 Nsim pv pc wi L s tr L' rho LI SI SE (in_closed_region m)
    (step_traj Ep) (fun k x => spread_closed m (rho k) AS x) Y Lc).
Qed.
End Run.

Section Scalar.
Variables (lr : Q -> Q -> Q -> nat) (cp : nat -> scheme -> list Q) (d : ipopt_dict) (o : opts) (a b x0 : Q) (oc : option ocp) (C : constructed).
Notation O := (the_opts C).
Notation m := (switch_model a b x0).
Lemma sc_run_solution rho act tr : 0 < Q2R a -> Q2R b <= Q2R a -> Q2R x0 <= 0 -> sides act -> o_sot O <> SotLocal ->
  run_solution O m act rho tr [Q2R x0] (fun z _ => switch_solution a b x0 z).
Proof.
  intros A B D SD NS. assert (G : forall r, _) by exact (fun r => sc_curve a b x0 A B D O r act SD NS).
  destruct (G (rho 0%nat)) as (G1 & G2 & _). split; [intros i _; apply G1|]. split.
  - intros i Hi. cbn in Hi. assert (i = 0)%nat by lia. subst i. exact G2.
  - (* finitely many points, the same for all steps *)
    exists (- Q2R x0 / Q2R a :: nil). intros k tm Hk Ht Np. destruct (G (rho k)) as (_ & _ & G3). exact (G3 0%nat tm Np).
Qed.
Lemma scalar_run nlp Nsim pv pc wi L s tr L' rho : fesd_problem lr cp d o m oc C -> extractable O m -> points_ok cp O -> weights_nonneg cp O ->
  o_use_fesd O = true -> o_cross O = SumLambdas \/ t_rbe (cn_tab C) = true -> ext_upto (o_gamma_h O) 1 -> (0 <= o_terminal_time O)%Q ->
  o_sot O <> SotLocal -> o_repr O = Integral -> (0 < a)%Q -> (b <= a)%Q -> (x0 <= 0)%Q ->
  looper_init (cn_prob C) [Q2R x0] Nsim pv pc wi = Ok L -> simulation nlp C m 0 L s tr L' ->
  (forall k q, nth_error tr k = Some q -> solved_exactly C (snd q) (rho k)) ->
  forall j tm x, nth_error (looper_t_grid L') j = Some tm -> nth_error (lp_X_sim L') j = Some x -> nth 0 x 0 = switch_solution a b x0 tm.
Proof.
  intros FP EX P1 P2 Hf XC GH TT NS Er Ha Hb Hx LI SI SE j tm x Hj HX.
  destruct (signs_ab a b x0 Ha Hb Hx) as (A & B & D).
  assert (SS : simple_switching cp O m) by (split; [exact P1|]; split; [exact P2|]; split; [discriminate|]; split; [exact (sc_constant a b x0)|exact (sc_affine a b x0)]).
  destruct (o_pss O) eqn:Ep.
  - exact (stewart_run_exact lr cp d o m oc C FP EX SS Hf XC GH TT nlp [Q2R x0] Nsim pv pc wi L s tr L' rho LI SI SE (fun z _ => switch_solution a b x0 z) 0 Ep Er (Rle_refl 0)
      (fun k _ => sc_one_sided a b x0 B O (rho k) _ (sides_smallest a b x0) NS) (sc_run_solution rho _ tr A B D (sides_smallest a b x0) NS) j tm x 0%nat Hj HX Nat.lt_0_1).
  - exact (step_run_exact lr cp d o m oc C FP EX SS Hf XC GH TT nlp [Q2R x0] Nsim pv pc wi L s tr L' rho LI SI SE eq_refl eq_refl (sc_signs a b x0) (sc_fit a b x0) (sc_complete a b x0 0%nat Nat.lt_0_1)
      (fun z _ => switch_solution a b x0 z) 0 Ep Er (Rle_refl 0)
      (fun k _ => sc_one_sided a b x0 B O (rho k) _ (sides_closed a b x0) NS) (sc_run_solution rho _ tr A B D (sides_closed a b x0) NS) j tm x 0%nat Hj HX Nat.lt_0_1).
Qed.
End Scalar.
