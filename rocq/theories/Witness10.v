(* Witness10.v -- polishing with positive region functions: x' = 3 for |x+1| < |x-1|, x' = 1 otherwise, from x0 = -1;
   g_Stewart holds the squared distances of (x, 0) to (-1, 1) and (1, 1) *)
From Coq Require Import Reals Qreals Lra.
From Verif Require Import Base Lib Sx Sx_proofs Utils Tableau Opts Model Ocp Problem Numeric Rk4 Results Solver Spec Cases Fesd Spec2 Spec3 Spec4 Spec5 Spec11 Spec17
  Con_proofs Index3_proofs Dcs_proofs Nlp_proofs Feas_proofs Witness Lam_proofs Results5_proofs Solve_proofs Solve2_proofs Init_proofs Init2_proofs Start_proofs Param_proofs Progress_proofs
  Set_proofs Hist_proofs Polish_proofs Solve3_proofs Solve4_proofs Witness3 Pin_proofs.
Local Open Scope nat_scope.

Definition dist2 (q : Q) : expr := EBin BAdd (EUn USq (EBin BSub (cx 0) (cq q))) (cq 1).
Definition modelV : model := {|
  m_nx := 1; m_x0 := [(-1)%Q];
  m_F := Some [mkFmat 1 [[cq 3]; [cq 1]]];
  m_c := None; m_S := None; m_gS := Some [[dist2 (-1)%Q; dist2 1%Q]];
  m_nu := 0; m_nz := 0; m_z0 := None; m_lbz := None; m_ubz := None; m_alpha := None; m_fx := None;
  m_gz := []; m_npt := 0; m_npg := 0; m_ptv_val := None; m_pg_val := []; m_nvg := 0; m_tvar := None |}.
Definition optsV : opts := with_solver optsS tol0 1 tol0 (1 # 10) Linear AllXcurrentW0Start false true.
Definition switchV : list (sym * Q) := [
  (SX0 0, (-1)%Q); (SL00 FLam 0 1, 4%Q);
  (SH 0 0, (1#3)%Q); (SH 0 1, (2#3)%Q);
  (S2 FTheta 0 0 0 0 0, 1%Q); (S2 FMu 0 0 0 0 0, (-2)%Q);
  (S1 FX 0 1 0 0, (2#3)%Q); (S2 FTheta 0 1 0 0 1, 1%Q); (S2 FLam 0 1 0 0 0, (24#9)%Q); (S2 FMu 0 1 0 0 0, (-10#9)%Q)].
Lemma sizedV : well_sized modelV. Proof. apply sizedQ_ok. reflexivity. Qed.
Lemma caseV_ok : is_ok (build optsV modelV None) = true. Proof. vm_compute. reflexivity. Qed.
Definition CV : constructed := get _ caseV_ok.
Lemma builtV : build optsV modelV None = Ok CV. Proof. exact (get_ok _ caseV_ok). Qed.
Lemma problemV : is_problem optsV modelV None CV. Proof. exact (is_problem_ok _ _ _ _ builtV eq_refl sizedV). Qed.
Lemma feasibleV : feasible (pt switchV) (the_nlp CV).
Proof. apply (feasibleQ (ptQ switchV)). vm_compute. reflexivity. Qed.
Lemma flagsV : o_pss (the_opts CV) = Stewart /\ o_do_polishing (the_opts CV) = true /\ o_init (the_opts CV) = AllXcurrentW0Start /\
  o_sot (the_opts CV) = SotNone /\ o_mpcc (the_opts CV) = ScholtesIneq /\ o_sigma_0 (the_opts CV) = 1%Q /\ o_slope (the_opts CV) = (1 # 10)%Q /\
  o_use_fesd (the_opts CV) = true /\ o_comp_tol (the_opts CV) = (1 # 100000000)%Q /\ o_ns (the_opts CV) = 1 /\ o_N_stages (the_opts CV) = 1 /\ o_Nfe_list (the_opts CV) = [2].
Proof. vm_compute. repeat split. Qed.
Lemma initialV : sized CV modelV (initial_state CV). Proof. exact (initial_sized _ _ _ _ _ _ _ (proj1 problemV)). Qed.
Lemma symsV : w (the_nlp CV) = [SH 0 0; S1 FX 0 0 0 0; S2 FTheta 0 0 0 0 0; S2 FTheta 0 0 0 0 1; S2 FLam 0 0 0 0 0; S2 FLam 0 0 0 0 1; S2 FMu 0 0 0 0 0;
  SH 0 1; S1 FX 0 1 0 0; S2 FTheta 0 1 0 0 0; S2 FTheta 0 1 0 0 1; S2 FLam 0 1 0 0 0; S2 FLam 0 1 0 0 1; S2 FMu 0 1 0 0 0].
Proof. vm_compute. reflexivity. Qed.
Lemma paramsV : p_p (the_problem CV) = [SSigma; STau; SL00 FLam 0 0; SL00 FLam 0 1; SX0 0]. Proof. vm_compute. reflexivity. Qed.
Lemma stateV : ss_x0 (initial_state CV) = [Q2R (-1)] /\ ss_pval (initial_state CV) = [[]]. Proof. split; vm_compute; reflexivity. Qed.
Lemma modesV k : k < n_subsystems modelV -> n_modes modelV k = 2. Proof. change (n_subsystems modelV) with 1. intros L. destruct k; [reflexivity|lia]. Qed.
Lemma positiveV v k : k < 2 -> (1 <= region_value modelV v 0 k)%R.
Proof.
  intros L. unfold region_value. change (gS_given modelV) with true. cbv iota. destruct k as [|[|k]]; [| |lia]; cbn [user_gS m_gS modelV nth]; unfold dist2; cbn;
    match goal with |- (1 <= ?a * ?a + _)%R => pose proof (Rle_0_sqr a) as X; unfold Rsqr in X; unfold Q2R in *; cbn in *; lra end.
Qed.
Lemma lamV : compute_lambda00 (pr_pm (cn_prob CV)) (ss_x0 (initial_state CV)) (ss_pval (initial_state CV)) = Ok [0%R; 4%R].
Proof.
  assert (GS : o_pss (the_opts CV) = Step -> gS_given modelV = false) by (rewrite (proj1 flagsV); discriminate).
  destruct (lam_ok _ _ _ _ _ _ _ (proj1 problemV) (initial_state CV) sizedV GS initialV) as (lam & EL & _). rewrite EL. f_equal.
  pose proof (params_belong _ _ _ _ _ _ _ (proj1 problemV) (initial_state CV) 0 0 lam initialV EL sizedV (or_introl (proj1 flagsV))) as B.
  rewrite paramsV in B. destruct stateV as [E1 E2]. rewrite E1, E2 in B. cbn [concat app] in B. clear EL.
  inversion B as [|? ? ? ? _ B1]; subst. inversion B1 as [|? ? ? ? _ B2]; subst. clear B B1.
  destruct lam as [|a [|b [|c l]]]; cbn [app] in B2; inversion B2 as [|? ? ? ? X1 B3]; subst; clear B2; inversion B3 as [|? ? ? ? X2 B4]; subst; clear B3;
    inversion B4 as [|? ? ? ? X3 B5]; subst; clear B4; try (inversion B5; fail).
  2: { exfalso. destruct l; inversion B5. }
  unfold belongs in X1, X2. rewrite E1 in X1, X2. set (v0 := initial_point _ _ _ _) in *.
  assert (V0 : region_value modelV v0 0 0 = 1%R) by (unfold region_value, v0; cbn; unfold Q2R; cbn; lra).
  assert (V1 : region_value modelV v0 0 1 = 5%R) by (unfold region_value, v0; cbn; unfold Q2R; cbn; lra).
  destruct X1 as (mn & [M1 (k & Hk & M2)] & X1). destruct X2 as (mn' & [M1' (k' & Hk' & M2')] & X2). change (n_modes modelV 0) with 2 in *.
  pose proof (M1 0 ltac:(lia)). pose proof (M1 1 ltac:(lia)). pose proof (M1' 0 ltac:(lia)). pose proof (M1' 1 ltac:(lia)).
  destruct k as [|[|k]]; [| |lia]; (destruct k' as [|[|k']]; [| |lia]); repeat f_equal; lra.
Qed.
Lemma parametersV : parameters CV (pt switchV) = concat (ss_pval (initial_state CV)) ++ [0%R; 0%R] ++ [0%R; 4%R] ++ ss_x0 (initial_state CV).
Proof.
  destruct stateV as [-> ->]. unfold parameters. rewrite paramsV. cbn [concat app map]. unfold pt.
  change (ptQ switchV SSigma) with 0%Q. change (ptQ switchV STau) with 0%Q. change (ptQ switchV (SL00 FLam 0 0)) with 0%Q.
  change (ptQ switchV (SL00 FLam 0 1)) with 4%Q. change (ptQ switchV (SX0 0)) with (-1)%Q. unfold Q2R. cbn [Qnum Qden]. repeat f_equal; lra.
Qed.

(* an NLP solver that returns a fixed point *)
Definition returns (C : constructed) (rho : env) : nat -> nlp_call -> res nlp_ret := fun _ _ => Ok (mkRet (primal C rho) 0 [] RSSolveSucceeded 0 0).
Lemma returns_ok C rho n c r : returns C rho n c = Ok r -> nr_x r = primal C rho.
Proof. unfold returns. intros [= <-]. reflexivity. Qed.
Lemma returns_answers C rho : answers C (returns C rho).
Proof. intros n c. eexists. split; [reflexivity|]. unfold primal. cbn. apply map_length. Qed.

Lemma runsV nlp s : sized CV modelV s -> answers CV nlp -> exists s' out, solve nlp CV s = (s', Ok out) /\ sized CV modelV s'.
Proof.
  destruct flagsV as (F1 & F2 & F3 & F4 & F5 & F6 & F7 & _ & _ & _ & F11 & F12).
  apply (runs _ _ _ _ _ _ _ (proj1 problemV) nlp s).
  - rewrite F3. discriminate.
  - exact sizedV.
  - rewrite F1. discriminate.
  - split; [cbn; lia|]. split; [|unfold one_nfe_per_stage; rewrite F11, F12; reflexivity]. intros _ j k Hj Hk. rewrite (modesV j Hj), (modesV k Hk). reflexivity.
  - rewrite F6. reflexivity.
  - rewrite F7. reflexivity.
  - exact F4.
  - rewrite F5. discriminate.
Qed.
Lemma tolV : pin_tol CV = (1 / 10000000)%R.
Proof. unfold pin_tol. destruct flagsV as (_ & _ & _ & _ & _ & _ & _ & _ & -> & _). unfold Q2R. cbn [Qnum Qden]. lra. Qed.
(* every variable is 0, 1 or far from both, mu included *)
Lemma decidedV y : In y (w (the_nlp CV)) -> multiplier y -> decided (pin_tol CV) (pt switchV y).
Proof.
  rewrite symsV, tolV. unfold decided, pt. cbn [In]. intros [<-|[<-|[<-|[<-|[<-|[<-|[<-|[<-|[<-|[<-|[<-|[<-|[<-|[<-|[]]]]]]]]]]]]]]] M; try destruct M.
  - change (ptQ switchV _) with 1%Q. right. left. unfold Q2R. cbn. lra.
  - change (ptQ switchV _) with 0%Q. left. unfold Q2R. cbn. lra.
  - change (ptQ switchV _) with 0%Q. left. unfold Q2R. cbn. lra.
  - change (ptQ switchV _) with 0%Q. left. unfold Q2R. cbn. lra.
  - change (ptQ switchV _) with (-2)%Q. right. right. unfold Q2R. cbn. split; rewrite Rabs_left; lra.
  - change (ptQ switchV _) with 0%Q. left. unfold Q2R. cbn. lra.
  - change (ptQ switchV _) with 1%Q. right. left. unfold Q2R. cbn. lra.
  - change (ptQ switchV _) with (24#9)%Q. right. right. unfold Q2R. cbn. split; rewrite Rabs_right; lra.
  - change (ptQ switchV _) with 0%Q. left. unfold Q2R. cbn. lra.
  - change (ptQ switchV _) with (-10#9)%Q. right. right. unfold Q2R. cbn. split; rewrite Rabs_left; lra.
Qed.
Lemma mu_pinned rho : primal CV rho = primal CV (pt switchV) -> nth_error (primal CV rho) 6 = Some (-2)%R.
Proof. intros ->. unfold primal. rewrite nth_error_map, symsV. cbn [nth_error option_map]. unfold pt. change (ptQ switchV _) with (-2)%Q. f_equal. unfold Q2R. cbn. lra. Qed.
Lemma elementV : is_fe (the_opts CV) 0 0 2. Proof. vm_compute. repeat split; lia. Qed.

(* the exact solution satisfies every constraint and bound of the NLP with the parameters of the polishing call, but that call has no feasible point *)
Lemma nothing_left : exists s' out h c r, solve (returns CV (pt switchV)) CV (initial_state CV) = (s', Ok out) /\ last_is (so_steps out) h /\ nr_x (hs_ret h) = primal CV (pt switchV) /\
  returns CV (pt switchV) (ss_calls s' - 1) c = Ok r /\ so_w_sol out = nr_x r /\ nc_x0 c = primal CV (pt switchV) /\ parameters CV (pt switchV) = nc_p c /\ forall rho, ~ call_feasible CV c rho.
Proof.
  destruct (runsV _ _ initialV (returns_answers CV (pt switchV))) as (s' & out & E & _).
  destruct flagsV as (F1 & F2 & F3 & F4 & F5 & F6 & F7 & F8 & _ & F10 & _).
  destruct (solve_polish _ _ _ _ _ _ _ (proj1 problemV) _ _ _ _ (returns_answers CV (pt switchV)) E F2) as (h & lam & c & r & Lh & EL & Er & EW & E0 & L0 & G1 & G2 & EP & PI).
  destruct (solve_count _ _ _ _ _ _ _ (proj1 problemV) _ _ _ _ E) as (_ & _ & SC & _).
  pose proof (returns_ok _ _ _ _ _ (SC _ _ (proj2 Lh))) as X.
  exists s', out, h, c, r. split; [exact E|]. split; [exact Lh|]. split; [exact X|]. split; [exact Er|]. split; [exact EW|]. split; [congruence|]. split.
  { rewrite EP. rewrite lamV in EL. injection EL as <-. exact parametersV. }
  intros rho F. rewrite E0, X in *.
  assert (HM : nth_error (w (the_nlp CV)) 6 = Some (S2 FMu 0 0 0 0 0)) by (rewrite symsV; reflexivity).
  assert (HX : nth_error (primal CV (pt switchV)) 6 = Some (-2)%R) by (apply mu_pinned; reflexivity).
  assert (Hj : 0 < o_ns (the_opts CV)) by (rewrite F10; lia). assert (Hq : 0 < n_subsystems modelV) by (cbn; lia).
  assert (T1 : (-2 < pin_tol CV)%R) by (rewrite tolV; lra). assert (T2 : ~ (Rabs (-2 - 1) < pin_tol CV)%R) by (rewrite tolV, Rabs_left by lra; lra).
  pose proof (pinned_mu _ _ _ _ _ _ _ (proj1 problemV) eq_refl sizedV _ c rho _ lam 0 0 2 0 0 (-2)%R 6 L0 PI G1 G2 EP initialV EL F1 F8 (or_introl F5) elementV Hj Hq HM HX T1 T2 F) as [_ (k & Hk & K)].
  pose proof (positiveV (stage_point (the_opts CV) (cn_tab CV) modelV rho 0 0 0) k Hk). lra.
Qed.

(* ---- the same switching system with S and c: mu is nonnegative and the exact solution is kept ---- *)
Lemma decidedF y : In y (w (the_nlp (CF AllXcurrentW0Start))) -> multiplier y -> decided (pin_tol (CF AllXcurrentW0Start)) (rhoS y) /\ (0 <= rhoS y)%R.
Proof.
  assert (T : pin_tol (CF AllXcurrentW0Start) = (1 / 10000000)%R).
  { unfold pin_tol. replace (o_comp_tol (the_opts (CF AllXcurrentW0Start))) with (1 # 100000000)%Q by (vm_compute; reflexivity). unfold Q2R. cbn [Qnum Qden]. lra. }
  assert (S : w (the_nlp (CF AllXcurrentW0Start)) = [SH 0 0; S1 FX 0 0 0 0; S2 FTheta 0 0 0 0 0; S2 FTheta 0 0 0 0 1; S2 FLam 0 0 0 0 0; S2 FLam 0 0 0 0 1; S2 FMu 0 0 0 0 0;
    SH 0 1; S1 FX 0 1 0 0; S2 FTheta 0 1 0 0 0; S2 FTheta 0 1 0 0 1; S2 FLam 0 1 0 0 0; S2 FLam 0 1 0 0 1; S2 FMu 0 1 0 0 0]) by (vm_compute; reflexivity).
  rewrite S, T. unfold decided, rhoS, pt. cbn [In]. intros [<-|[<-|[<-|[<-|[<-|[<-|[<-|[<-|[<-|[<-|[<-|[<-|[<-|[<-|[]]]]]]]]]]]]]]] M; try destruct M.
  1, 7: change (ptQ switchS _) with 1%Q; unfold Q2R; cbn; split; [right; left|]; lra.
  1, 2, 3, 4, 5, 7: change (ptQ switchS _) with 0%Q; unfold Q2R; cbn; split; [left|]; lra.
  - change (ptQ switchS _) with (4#3)%Q. unfold Q2R. cbn. split; [|lra]. right. right. split; rewrite Rabs_right; lra.
  - change (ptQ switchS _) with (2#3)%Q. unfold Q2R. cbn. split; [|lra]. right. right. split; [rewrite Rabs_right|rewrite Rabs_left]; lra.
Qed.
Lemma feasibleF : feasible rhoS (the_nlp (CF AllXcurrentW0Start)).
Proof. apply (feasibleQ (ptQ switchS)). vm_compute. reflexivity. Qed.
Lemma lamF : compute_lambda00 (pr_pm (cn_prob (CF AllXcurrentW0Start))) (ss_x0 (initial_state (CF AllXcurrentW0Start))) (ss_pval (initial_state (CF AllXcurrentW0Start))) = Ok [0%R; 2%R].
Proof.
  assert (E1 : pr_pm (cn_prob (CF AllXcurrentW0Start)) = pr_pm (cn_prob CS)) by (vm_compute; reflexivity).
  assert (E2 : ss_x0 (initial_state (CF AllXcurrentW0Start)) = ss_x0 (initial_state CS) /\ ss_pval (initial_state (CF AllXcurrentW0Start)) = ss_pval (initial_state CS))
    by (split; vm_compute; reflexivity).
  rewrite E1, (proj1 E2), (proj2 E2). exact lamS.
Qed.
Lemma all_kept : exists s' out c r, solve (returns (CF AllXcurrentW0Start) rhoS) (CF AllXcurrentW0Start) (initial_state (CF AllXcurrentW0Start)) = (s', Ok out) /\
  returns (CF AllXcurrentW0Start) rhoS (ss_calls s' - 1) c = Ok r /\ nc_x0 c = primal (CF AllXcurrentW0Start) rhoS /\ call_feasible (CF AllXcurrentW0Start) c rhoS.
Proof.
  set (i := AllXcurrentW0Start) in *.
  destruct (runsF i (returns (CF i) rhoS) _ ltac:(discriminate) (initial_sized _ _ _ _ _ _ _ (proj1 (problemF i))) (returns_answers (CF i) rhoS)) as (s' & out & E & _).
  destruct (flagsF i) as (_ & F1 & F2 & _).
  destruct (solve_polish _ _ _ _ _ _ _ (proj1 (problemF i)) _ _ _ _ (returns_answers (CF i) rhoS) E F2) as (h & lam & c & r & Lh & EL & Er & EW & E0 & L0 & G1 & G2 & EP & PI).
  destruct (solve_count _ _ _ _ _ _ _ (proj1 (problemF i)) _ _ _ _ E) as (_ & _ & SC & _).
  pose proof (returns_ok _ _ _ _ _ (SC _ _ (proj2 Lh))) as X.
  exists s', out, c, r. split; [exact E|]. split; [exact Er|]. split; [congruence|].
  assert (E1 : primal (CF i) rhoS = nc_x0 c) by congruence.
  refine (kept _ _ _ _ _ _ _ (proj1 (problemF i)) _ c rhoS PI G1 G2 E1 _ feasibleF _ decidedF).
  - rewrite EP. pose proof lamF as LF. fold i in LF. rewrite LF in EL. injection EL as <-.
    assert (S : ss_x0 (initial_state (CF i)) = [Q2R (-1)] /\ ss_pval (initial_state (CF i)) = [[]]) by (split; vm_compute; reflexivity).
    assert (PP : p_p (the_problem (CF i)) = [SSigma; STau; SL00 FLam 0 0; SL00 FLam 0 1; SX0 0]) by (vm_compute; reflexivity).
    destruct S as [-> ->]. unfold parameters. rewrite PP. cbn [concat app map]. unfold rhoS, pt.
    change (ptQ switchS SSigma) with 0%Q. change (ptQ switchS STau) with 0%Q. change (ptQ switchS (SL00 FLam 0 0)) with 0%Q.
    change (ptQ switchS (SL00 FLam 0 1)) with 2%Q. change (ptQ switchS (SX0 0)) with (-1)%Q. unfold Q2R. cbn [Qnum Qden]. repeat f_equal; lra.
  - unfold pin_tol. replace (o_comp_tol (the_opts (CF i))) with (1 # 100000000)%Q by (vm_compute; reflexivity). unfold Q2R. cbn [Qnum Qden]. lra.
Qed.

Lemma step_case : o_pss (the_opts CT) = Step /\ product_mode (the_opts CT) /\ (pin_tol CT <= 1)%R /\ feasible rhoT (the_nlp CT) /\
  forall y, In y (w (the_nlp CT)) -> multiplier y -> decided (pin_tol CT) (rhoT y).
Proof.
  assert (T : pin_tol CT = (1 / 10000000)%R).
  { unfold pin_tol. replace (o_comp_tol (the_opts CT)) with (1 # 100000000)%Q by (vm_compute; reflexivity). unfold Q2R. cbn [Qnum Qden]. lra. }
  assert (M : o_mpcc (the_opts CT) = ScholtesIneq) by (vm_compute; reflexivity).
  split; [vm_compute; reflexivity|]. split; [unfold product_mode; rewrite M; exact Logic.I|]. split; [rewrite T; lra|]. split; [exact feasibleT|].
  assert (S : exists l, w (the_nlp CT) = l /\ forallb (fun y => match y with S2 _ _ _ _ _ _ => Qeq_bool (ptQ switchT y) 0 || Qeq_bool (ptQ switchT y) 1 || Qeq_bool (ptQ switchT y) (2 # 3) | _ => true end) l = true)
    by (eexists; split; [vm_compute; reflexivity|vm_compute; reflexivity]).
  destruct S as (l & -> & S). intros y Hy My. rewrite forallb_forall in S. specialize (S y Hy). destruct y; try destruct My. rewrite T. unfold decided, rhoT, pt.
  apply orb_prop in S. destruct S as [S|S]; [apply orb_prop in S; destruct S as [S|S]|]; apply Qeq_bool_eq, Qeq_eqR in S; rewrite S; unfold Q2R; cbn.
  - left. lra.
  - right. left. lra.
  - right. right. split; [rewrite Rabs_right|rewrite Rabs_left]; lra.
Qed.
