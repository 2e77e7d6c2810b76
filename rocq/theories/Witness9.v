(* Witness9.v -- reported cost and statistics: a terminal cost, two control stages with polishing *)
From Coq Require Import Reals Qreals Lra.
From Verif Require Import Base Lib Sx Sx_proofs Utils Tableau Opts Model Ocp Problem Numeric Rk4 Results Solver Looper Plot Spec Cases Fesd Spec2 Spec3 Spec4 Spec5 Spec6 Spec16
  Con_proofs Index3_proofs Dcs_proofs Exact_proofs Nlp_proofs Feas_proofs Feas4_proofs Witness Lam_proofs Results5_proofs Solve_proofs Solve2_proofs Init_proofs Init2_proofs Start_proofs Progress_proofs
  Set_proofs Hist_proofs Polish_proofs Solve3_proofs Solve4_proofs Witness3 Report_proofs.
Local Open Scope nat_scope.

Lemma rupto_zeros n : rupto n (fun _ => 0%R) = 0%R.
Proof. induction n as [|n IH]; [reflexivity|]. rewrite rupto_succ, IH. lra. Qed.

Section Con.
Variables (lr : Q -> Q -> Q -> nat) (cp : nat -> scheme -> list Q) (d : ipopt_dict)
  (o : opts) (m : model) (oc : option ocp) (C : constructed).
Hypothesis H : construct_problem lr cp d o m oc = Ok C.
Notation O := (the_opts C).

(* the values handed to and returned by a pass are those of some point *)
Lemma pass_point nlp s s' out h : o_init O <> Rk4Smoothened -> well_sized m -> (o_pss O = Step -> gS_given m = false) -> 0 < m_nx m -> sized C m s -> answers C nlp ->
  solve nlp C s = (s', Ok out) -> In h (so_steps out) -> exists rho, primal C rho = nr_x (hs_ret h) /\ parameters C rho = nc_p (hs_call h).
Proof.
  intros I WS GS Hx Z A E Hh. destruct (solve_passes _ _ _ _ _ _ _ _ _ _ _ H (max_iter_pos _ _ _ _ _ _ _ H) E) as (s1 & lam & w1 & lb & ub & Ei & _ & PA & _).
  destruct (initialize_run _ _ _ _ _ _ _ H s I WS GS Hx Z) as (lam' & _ & Ll & Ei'). rewrite Ei in Ei'. injection Ei' as _ <-.
  apply In_nth_error in Hh. destruct Hh as [k Hk]. destruct (pa_call _ _ _ _ _ _ _ _ _ PA _ _ Hk) as (Er & _ & _ & _ & _ & Ep).
  apply (point_exists _ _ _ _ _ _ _ H).
  - destruct (A (ss_calls s + k) (hs_call h)) as (r & Er' & L). rewrite Er in Er'. injection Er' as <-. exact L.
  - rewrite Ep. apply (p_len _ _ _ _ _ _ _ H s lam); assumption.
Qed.
Lemma polish_point nlp s s' out : o_init O <> Rk4Smoothened -> well_sized m -> (o_pss O = Step -> gS_given m = false) -> 0 < m_nx m -> sized C m s -> answers C nlp ->
  solve nlp C s = (s', Ok out) -> o_do_polishing O = true -> exists c r rho lam, nlp (ss_calls s' - 1) c = Ok r /\ so_w_sol out = nr_x r /\
    primal C rho = nr_x r /\ parameters C rho = nc_p c /\ nc_p c = concat (ss_pval s) ++ [0%R; 0%R] ++ lam ++ ss_x0 s.
Proof.
  intros I WS GS Hx Z A E Ed. destruct (solve_last _ _ _ _ _ _ _ H nlp s s' out E) as (Ec & _ & _ & _ & _ & _ & _ & _ & _ & Q).
  destruct (Q Ed) as (h & q & lam & s1 & _ & Ei & _ & Ew & [(c & r & Er & Ew' & _ & _ & _ & _ & Ep & _)]).
  destruct (initialize_run _ _ _ _ _ _ _ H s I WS GS Hx Z) as (lam' & _ & Ll & Ei'). rewrite Ei in Ei'. injection Ei' as _ <-.
  rewrite Ed in Ec. pose proof (stages_pos_con _ _ _ _ _ _ _ H) as Np.
  replace (ss_calls s + length (so_steps out) + (o_N_stages O - 1)) with (ss_calls s' - 1) in Er by lia.
  destruct (point_exists _ _ _ _ _ _ _ H (nr_x r) (nc_p c)) as (rho & R1 & R2).
  - destruct (A (ss_calls s' - 1) c) as (r' & Er' & L). rewrite Er in Er'. injection Er' as <-. exact L.
  - rewrite Ep. apply (p_len _ _ _ _ _ _ _ H s lam); assumption.
  - exists c, r, rho, lam. split; [exact Er|]. split; [congruence|]. auto.
Qed.

(* an NLP solver whose solves take one second each: the reported times are too short by the repeated solves *)
Lemma missing_time nlp s s' out : (forall n c r, nlp n c = Ok r -> nr_cpu r = 1%R) -> solve nlp C s = (s', Ok out) -> o_do_polishing O = true ->
  rsum (map or_zero (so_cpu out)) = (INR (ss_calls s' - ss_calls s) - INR (o_N_stages O - 1))%R.
Proof.
  intros A E Ed. destruct (solve_stats _ _ _ _ _ _ _ H nlp s s' out E) as (c & rs & A1 & A2 & A3 & _ & _ & _ & _ & _ & A9 & _). rewrite Ed in A1.
  pose proof (stages_pos_con _ _ _ _ _ _ _ H) as Np.
  destruct (nth_error rs (length rs - 1)) as [r|] eqn:Er; [|apply nth_error_None in Er; lia].
  rewrite (A9 r) by (split; [lia|exact Er]). rewrite (A _ _ _ (A3 _ _ Er)).
  destruct (solve_count _ _ _ _ _ _ _ H nlp s s' out E) as (_ & _ & SC & _).
  assert (ES : rsum (map (fun h => nr_cpu (hs_ret h)) (so_steps out)) = INR (length (so_steps out))).
  { assert (AL : forall h, In h (so_steps out) -> nr_cpu (hs_ret h) = 1%R).
    { intros h Hh. apply In_nth_error in Hh. destruct Hh as [k Hk]. exact (A _ _ _ (SC _ _ Hk)). }
    clear -AL. unfold rsum. induction (so_steps out) as [|h l IH]; [reflexivity|]. cbn [map fold_right length]. rewrite AL by (left; reflexivity).
    rewrite IH by (intros; apply AL; right; assumption). rewrite S_INR. lra. }
  rewrite ES, A2, A1. replace (ss_calls s + length (so_steps out) + o_N_stages O - ss_calls s) with (length (so_steps out) + 1 + (o_N_stages O - 1)) by lia.
  rewrite !plus_INR. cbn [INR]. lra.
Qed.
End Con.

(* ---- one stage, terminal cost x(T) ---- *)
Definition ocpE : ocp := mkOcp None None None None None (ECst 0) [] None None [] (cx 0) [] None None None.
Definition optsE (pol : bool) : opts := with_step_eq (with_solver optsS tol0 1 tol0 (1 # 10) Linear AllXcurrentW0Start false pol) Direct.
Lemma caseE_ok pol : is_ok (build (optsE pol) model3 (Some ocpE)) = true. Proof. destruct pol; vm_compute; reflexivity. Qed.
Definition CE (pol : bool) : constructed := get _ (caseE_ok pol).
Lemma builtE pol : build (optsE pol) model3 (Some ocpE) = Ok (CE pol). Proof. exact (get_ok _ (caseE_ok pol)). Qed.
Lemma problemE pol : is_problem (optsE pol) model3 (Some ocpE) (CE pol). Proof. exact (is_problem_ok _ _ _ _ (builtE pol) eq_refl sized3). Qed.
Lemma extractE pol : extractable (the_opts (CE pol)) model3. Proof. apply (extract3 _ _ _ (builtE pol)). destruct pol; vm_compute; reflexivity. Qed.
Lemma flagsE pol : o_pss (the_opts (CE pol)) = Stewart /\ o_do_polishing (the_opts (CE pol)) = pol /\ o_init (the_opts (CE pol)) = AllXcurrentW0Start /\
  o_sot (the_opts (CE pol)) = SotNone /\ o_mpcc (the_opts (CE pol)) = ScholtesIneq /\ o_sigma_0 (the_opts (CE pol)) = 1%Q /\ o_slope (the_opts (CE pol)) = (1 # 10)%Q.
Proof. destruct pol; vm_compute; repeat split. Qed.
Lemma initialE pol : sized (CE pol) model3 (initial_state (CE pol)). Proof. exact (initial_sized _ _ _ _ _ _ _ (proj1 (problemE pol))). Qed.
Lemma runsE pol nlp s : sized (CE pol) model3 s -> answers (CE pol) nlp -> exists s' out, solve nlp (CE pol) s = (s', Ok out) /\ sized (CE pol) model3 s'.
Proof.
  destruct (flagsE pol) as (F1 & F2 & F3 & F4 & F5 & F6 & F7).
  apply (runs _ _ _ _ _ _ _ (proj1 (problemE pol)) nlp s).
  - rewrite F3. discriminate.
  - exact sized3.
  - rewrite F1. discriminate.
  - exact (extractE pol).
  - rewrite F6. reflexivity.
  - rewrite F7. reflexivity.
  - exact F4.
  - rewrite F5. discriminate.
Qed.
Lemma end_in pol : In (S1 FX 0 1 0 0) (w (the_nlp (CE pol))).
Proof. destruct pol; vm_compute; tauto. Qed.
Lemma costE pol rho : eval rho (cost (the_nlp (CE pol))) = rho (S1 FX 0 1 0 0).
Proof.
  destruct (problemE pol) as (B & Ex & Ws). rewrite (cost_exact _ _ _ _ _ _ _ B Ex Ws rho).
  assert (E1 : elastic (the_opts (CE pol)) = false) by (destruct pol; vm_compute; reflexivity). unfold nlp_cost. rewrite E1. unfold plain_cost.
  assert (E2 : running_cost (the_opts (CE pol)) (cn_tab (CE pol)) model3 (the_ocp (Some ocpE)) rho = 0%R).
  { unfold running_cost. rewrite <- (rupto_zeros (o_N_stages (the_opts (CE pol)))). apply rupto_ext. intros c _. rewrite <- (rupto_zeros (nfe_of (the_opts (CE pol)) c)). apply rupto_ext. intros e _.
    assert (E3 : o_step_eq (the_opts (CE pol)) = Direct) by (destruct pol; vm_compute; reflexivity). unfold step_cost. rewrite E3. destruct (o_use_fesd (the_opts (CE pol))).
    all: unfold stage_cost; rewrite (rupto_ext _ _ (fun _ => 0%R)); [rewrite rupto_zeros; lra|]; intros j _; cbn [oc_fq ocpE the_ocp eval]; change (Q2R 0) with (0 * / 1)%R; lra. }
  assert (E3 : o_N_stages (the_opts (CE pol)) = 1 /\ nfe_of (the_opts (CE pol)) 0 = 2 /\ points1 (the_opts (CE pol)) (t_rbe (cn_tab (CE pol))) FX = 1)
    by (destruct pol; vm_compute; auto).
  destruct E3 as (E3 & E4 & E5).
  rewrite E2, Rplus_0_l. unfold terminal_point, last_elem, last_stage. rewrite E3. cbn [Nat.sub]. rewrite E4. cbn [Nat.sub oc_fT the_ocp ocpE].
  match goal with |- eval (plain_point _ _ _ ?f) _ = _ => change (f 0%nat = rho (S1 FX 0 1 0 0)) end.
  unfold end_state. rewrite E5. reflexivity.
Qed.

Lemma constE pol v rho : primal (CE pol) rho = repeat v (length (w (the_nlp (CE pol)))) -> eval rho (cost (the_nlp (CE pol))) = v.
Proof. intros E. rewrite costE. exact (map_const_inv _ _ _ E _ (end_in pol)). Qed.

(* an answer all of whose entries are v *)
Definition all_v (N : nat) (v t : R) (k : nat) : nlp_ret := mkRet (repeat v N) v [] RSSolveSucceeded k t.
Lemma all_v_ok N v t k r : Ok (all_v N v t k) = Ok r -> nr_x r = repeat v N /\ nr_f r = v /\ nr_cpu r = t.
Proof. intros [= <-]. auto. Qed.
Lemma all_v_len N v t k : exists r, Ok (all_v N v t k) = Ok r /\ length (nr_x r) = N.
Proof. eexists. split; [reflexivity|]. cbn. apply repeat_length. Qed.

(* the NLP solver finds a point with cost -3 *)
Definition nlp_neg : nat -> nlp_call -> res nlp_ret := fun _ _ => Ok (all_v (length (w (the_nlp (CE false)))) (-3) 0 0).
Lemma neg_answers : answers (CE false) nlp_neg. Proof. intros n c. exact (all_v_len _ _ _ _). Qed.
Lemma neg_reports : reports_objective (CE false) nlp_neg.
Proof. intros n c r rho E Ep _. destruct (all_v_ok _ _ _ _ _ E) as (X & F & _). rewrite X in Ep. rewrite F. symmetry. exact (constE _ _ _ Ep). Qed.
Lemma sign_lost : exists s' out h rho, solve nlp_neg (CE false) (initial_state (CE false)) = (s', Ok out) /\ last_is (so_steps out) h /\
  primal (CE false) rho = so_w_sol out /\ parameters (CE false) rho = nc_p (hs_call h) /\ eval rho (cost (the_nlp (CE false))) = (-3)%R /\ so_cost out = 3%R.
Proof.
  destruct (runsE false nlp_neg _ (initialE false) neg_answers) as (s' & out & E & _). pose proof (flagsE false) as (F1 & F2 & F3 & _).
  destruct (solve_last _ _ _ _ _ _ _ (proj1 (problemE false)) nlp_neg _ s' out E) as (_ & _ & _ & c & r & Er & EW & _ & L & _). destruct (L F2) as (h & Lh & Ec & Eh).
  destruct (pass_point _ _ _ _ _ _ _ (proj1 (problemE false)) nlp_neg _ s' out h ltac:(rewrite F3; discriminate) sized3 ltac:(rewrite F1; discriminate) ltac:(cbn; lia) (initialE false) neg_answers E
    (nth_error_In _ _ (proj2 Lh))) as (rho & P1 & P2).
  destruct (all_v_ok _ _ _ _ _ Er) as (X & _). assert (EV : eval rho (cost (the_nlp (CE false))) = (-3)%R) by (apply constE; rewrite P1, Eh; exact X).
  exists s', out, h, rho. split; [exact E|]. split; [exact Lh|]. split; [congruence|]. split; [exact P2|]. split; [exact EV|].
  rewrite (cost_reported _ _ _ _ _ _ _ (proj1 (problemE false)) nlp_neg _ s' out h rho E neg_reports Lh P1 P2), EV.
  rewrite Rabs_left by lra. lra.
Qed.

(* the NLP solver finds a point with cost 1 for sigma > 0 and, when polishing, one with cost 2 *)
Definition nlp_two : nat -> nlp_call -> res nlp_ret := fun _ c =>
  Ok (all_v (length (w (the_nlp (CE true)))) (if Rltb 0 (nth 0 (nc_p c) 0%R) then 1%R else 2%R) 0 0).
Lemma two_answers : answers (CE true) nlp_two. Proof. intros n c. exact (all_v_len _ _ _ _). Qed.
Lemma two_reports : reports_objective (CE true) nlp_two.
Proof. intros n c r rho E Ep _. destruct (all_v_ok _ _ _ _ _ E) as (X & F & _). rewrite X in Ep. rewrite F. symmetry. exact (constE _ _ _ Ep). Qed.
Lemma pvalE : concat (ss_pval (initial_state (CE true))) = []. Proof. vm_compute. reflexivity. Qed.
Lemma polish_cost_lost : exists s' out c r rho, solve nlp_two (CE true) (initial_state (CE true)) = (s', Ok out) /\
  nlp_two (ss_calls s' - 1) c = Ok r /\ so_w_sol out = nr_x r /\ primal (CE true) rho = so_w_sol out /\ parameters (CE true) rho = nc_p c /\
  eval rho (cost (the_nlp (CE true))) = 2%R /\ so_cost out = 1%R.
Proof.
  destruct (runsE true nlp_two _ (initialE true) two_answers) as (s' & out & E & _). pose proof (flagsE true) as (F1 & F2 & F3 & _ & _ & F6 & F7).
  assert (I1 : o_init (the_opts (CE true)) <> Rk4Smoothened) by (rewrite F3; discriminate).
  assert (I2 : o_pss (the_opts (CE true)) = Step -> gS_given model3 = false) by (rewrite F1; discriminate).
  assert (I3 : 0 < m_nx model3) by (cbn; lia).
  destruct (polish_point _ _ _ _ _ _ _ (proj1 (problemE true)) nlp_two _ s' out I1 sized3 I2 I3 (initialE true) two_answers E F2) as (c & r & rho & lam & Er & EW & P1 & P2 & Ep).
  exists s', out, c, r, rho. split; [exact E|]. split; [exact Er|]. split; [exact EW|]. split; [congruence|]. split; [exact P2|]. split.
  - apply constE. rewrite P1. rewrite pvalE in Ep. destruct (all_v_ok _ _ _ _ _ Er) as (X & _). rewrite X, Ep. cbn [app nth].
    unfold Rltb. destruct (Rlt_dec 0 0) as [B|_]; [lra|reflexivity].
  - destruct (solve_last _ _ _ _ _ _ _ (proj1 (problemE true)) nlp_two _ s' out E) as (_ & _ & _ & _ & _ & _ & _ & _ & _ & Q).
    destruct (Q F2) as (h & _ & _ & _ & Lh & _). pose proof (nth_error_In _ _ (proj2 Lh)) as Ih.
    destruct (pass_point _ _ _ _ _ _ _ (proj1 (problemE true)) nlp_two _ s' out h I1 sized3 I2 I3 (initialE true) two_answers E Ih) as (rho' & P1' & P2').
    rewrite (cost_reported _ _ _ _ _ _ _ (proj1 (problemE true)) nlp_two _ s' out h rho' E two_reports Lh P1' P2').
    destruct (solve_passes _ _ _ _ _ _ _ _ _ _ _ (proj1 (problemE true)) (max_iter_pos _ _ _ _ _ _ _ (proj1 (problemE true))) E) as (s1 & lam1 & w1 & lb & ub & _ & _ & PA & _).
    destruct (pa_call _ _ _ _ _ _ _ _ _ PA _ _ (proj2 Lh)) as (Er' & _ & _ & _ & _ & Ep').
    assert (SP : (0 < hs_sigma h)%R).
    { destruct (solve_sigma _ _ _ _ _ _ _ (proj1 (problemE true)) nlp_two _ s' out E (initialE true)) as [S _].
      - rewrite F6. unfold Q2R. cbn. lra.
      - rewrite F7. unfold Q2R. cbn. lra.
      - destruct (S _ _ (proj2 Lh)) as (_ & _ & S3 & _). exact S3. }
    rewrite (constE true 1%R rho'); [apply Rabs_R1|]. rewrite P1'. rewrite pvalE in Ep'. destruct (all_v_ok _ _ _ _ _ Er') as (X & _). rewrite X, Ep'. cbn [app nth].
    unfold Rltb. destruct (Rlt_dec 0 (hs_sigma h)) as [_|B]; [reflexivity|contradiction].
Qed.

(* ---- two stages with polishing ---- *)
Definition optsD2 : opts := with_grid (optsE true) 2 [].
Lemma caseD2_ok : is_ok (build optsD2 model3 (Some ocpE)) = true. Proof. vm_compute. reflexivity. Qed.
Definition CD2 : constructed := get _ caseD2_ok.
Lemma builtD2 : build optsD2 model3 (Some ocpE) = Ok CD2. Proof. exact (get_ok _ caseD2_ok). Qed.
Lemma problemD2 : is_problem optsD2 model3 (Some ocpE) CD2. Proof. exact (is_problem_ok _ _ _ _ builtD2 eq_refl sized3). Qed.
Lemma flagsD2 : o_N_stages (the_opts CD2) = 2 /\ o_do_polishing (the_opts CD2) = true /\ o_init (the_opts CD2) = AllXcurrentW0Start /\ o_pss (the_opts CD2) = Stewart /\
  o_sigma_0 (the_opts CD2) = 1%Q /\ o_slope (the_opts CD2) = (1 # 10)%Q /\ o_sot (the_opts CD2) = SotNone /\ o_mpcc (the_opts CD2) = ScholtesIneq.
Proof. vm_compute. repeat split. Qed.
Definition nlp_second : nat -> nlp_call -> res nlp_ret := fun _ _ => Ok (all_v (length (w (the_nlp CD2))) 1 1 1).
Lemma second_answers : answers CD2 nlp_second. Proof. intros n c. exact (all_v_len _ _ _ _). Qed.
Lemma time_lost : exists s' out, solve nlp_second CD2 (initial_state CD2) = (s', Ok out) /\ rsum (map or_zero (so_cpu out)) = (INR (ss_calls s') - 1)%R.
Proof.
  destruct flagsD2 as (F0 & F1 & F2 & F3 & F4 & F5 & F6 & F7). pose proof (initial_sized _ _ _ _ _ _ _ (proj1 problemD2)) as Z.
  destruct (runs _ _ _ _ _ _ _ (proj1 problemD2) nlp_second (initial_state CD2)) as (s' & out & E & _).
  - rewrite F2. discriminate.
  - exact sized3.
  - rewrite F3. discriminate.
  - apply (extract3 _ _ _ builtD2). vm_compute. reflexivity.
  - rewrite F4. reflexivity.
  - rewrite F5. reflexivity.
  - exact F6.
  - rewrite F7. discriminate.
  - exact Z.
  - exact second_answers.
  - exists s', out. split; [exact E|]. rewrite (missing_time _ _ _ _ _ _ _ (proj1 problemD2) nlp_second (initial_state CD2) s' out ltac:(intros n c r Er; exact (proj2 (proj2 (all_v_ok _ _ _ _ _ Er)))) E F1).
    rewrite F0. change (ss_calls (initial_state CD2)) with 0. rewrite Nat.sub_0_r. cbn [Nat.sub INR]. lra.
Qed.
Lemma second_takes_one n c r : nlp_second n c = Ok r -> nr_cpu r = 1%R.
Proof. intros E. exact (proj2 (proj2 (all_v_ok _ _ _ _ _ E))). Qed.
