(* Props_Solver.v -- C05, C06 and C34-C45: NosnocSolver.set and NosnocSolver.solve.
   nlp n c is the answer of the NLP solver to its n-th call with the arguments c; it is arbitrary and may raise.
   The specification is Spec5.v (with Spec, Fesd, Spec2-Spec4); the problems of the examples are in Witness3.v and Cases.v. *)
From Coq Require Import Reals Qreals Lra.
From Verif Require Import Base Sx Utils Tableau Opts Model Ocp Problem Numeric Rk4 Results Solver Spec Cases Fesd Spec2 Spec3 Spec4 Spec5
  Witness Results5_proofs Progress_proofs Set_proofs Field_proofs Field2_proofs Sigma_proofs Polish_proofs Param_proofs Fix_proofs
  Solve3_proofs Solve4_proofs Witness3 Model_proofs Closed_proofs.
Local Open Scope nat_scope.

(* ---- C05: a constructed problem is closed, and the functions of (w, p) exist whenever the problem has been assembled ---- *)
Theorem C05_closed lr cp d o m oc C : construct_problem lr cp d o m oc = Ok C ->
  let known e := forall y, In y (fv e) -> In y (w (the_nlp C) ++ p_p (the_problem C)) in
  known (cost (the_nlp C)) /\ known (p_J_comp (the_problem C)) /\ forall e, In e (g (the_nlp C)) -> known e.
Proof. exact (nlp_known lr cp d o m oc C). Qed.
Print Assumptions C05_closed.
Example C05_case : is_problem optsA model1 (Some ocp1) CA /\ length (g (the_nlp CA)) > 10.
Proof. split; [exact problemA|]. apply Nat.ltb_lt. vm_compute. reflexivity. Qed.
(* the user's own functions have been made from the user's symbols (preprocess_model and preprocess_ocp succeed): then the
   constructions of f, comp_res and g_fun at problem.py:844-846 cannot fail for a free symbol *)
Theorem C05_functions o t m pm oc po P : preprocess_model o m = Ok pm -> preprocess_ocp pm oc = Ok po -> problem_body o t pm po = Ok P ->
  exists cf rf gf, mkfun [w (pb P); p_p P] [cost (pb P)] = Ok cf /\ mkfun [w (pb P); p_p P] [p_J_comp P] = Ok rf /\
    mkfun [w (pb P); p_p P] (g (pb P)) = Ok gf.
Proof. intros HM HO HB. exact (body_functions o t m pm oc po P (preprocess_model_ok _ _ _ HM) (preprocess_ocp_ok _ _ _ HO) HB). Qed.
Print Assumptions C05_functions.
Example C05_functions_case : exists o t pm po P,
  preprocess_model o model1 = Ok pm /\ preprocess_ocp pm ocp1 = Ok po /\ problem_body o t pm po = Ok P.
Proof. exact (constructed_body _ _ _ _ _ _ _ (proj1 problemA)). Qed.
(* the check is a real one: a function of (x, u) with a free symbol is refused *)
Example C05_functions_refusal : mkfun [[MX 0]; [MU 0]] [EVar (MX 0); EVar (MU 1)] = Err ECasadi.
Proof. reflexivity. Qed.

(* ---- C06: values of the parameters ---- *)
Theorem C06_parameters_partial lr cp d o m oc C nlp s s' out : construct_problem lr cp d o m oc = Ok C -> well_sized m -> sized C m s -> o_pss (the_opts C) = Stewart \/ (gS_given m = false /\ n_subsystems m = 1) ->
  solve nlp C s = (s', Ok out) -> forall h, In h (so_steps out) ->
  Forall2 (belongs C m s (hs_sigma h) (hs_tau h)) (p_p (the_problem C)) (nc_p (hs_call h)).
Proof. intros H WS Z HS E. exact (pass_parameters lr cp d o m oc C H nlp s s' out E WS Z HS). Qed.
Print Assumptions C06_parameters_partial.
Example C06_case nlp : answers CS nlp -> exists s' out, solve nlp CS (initial_state CS) = (s', Ok out) /\ sized CS model3 (initial_state CS).
Proof. intros A. destruct (runsS nlp _ initialS A) as (s' & out & E & _). exists s', out. split; [exact E|exact initialS]. Qed.
(* Step with two subsystems: lambda00 is computed as (n0, p0, n1, p1) and its symbols are (n0, n1, p0, p1) *)
Theorem C06_two_subsystems_refuted : exists o m C v, is_problem o m None C /\ forall nlp, answers C nlp ->
  let s := history nlp C [ASet (SetX0 v)] in exists s' out, solve nlp C s = (s', Ok out) /\ exists h, nth_error (so_steps out) 0 = Some h /\
    ~ Forall2 (belongs C m s (hs_sigma h) (hs_tau h)) (p_p (the_problem C)) (nc_p (hs_call h)).
Proof. exists optsB, model2, CB, [1%R; 2%R]. exact (conj problemB order_wrongB). Qed.
Print Assumptions C06_two_subsystems_refuted.

(* ---- C34: the relaxation parameters ---- *)
Theorem C34_relaxation lr cp d o m oc C nlp s s' out : construct_problem lr cp d o m oc = Ok C -> solve nlp C s = (s', Ok out) -> sized C m s ->
  (0 < Q2R (o_sigma_0 (the_opts C)))%R -> (0 < Q2R (o_slope (the_opts C)) < 1)%R ->
  (forall k h, nth_error (so_steps out) k = Some h ->
     (exists i, nth_error (p_p (the_problem C)) i = Some SSigma /\ nth_error (nc_p (hs_call h)) i = Some (hs_sigma h)) /\
     hs_sigma h = sigma_at (the_opts C) k /\ (0 < hs_sigma h)%R /\
     (o_rule (the_opts C) = Linear -> hs_sigma h = Q2R (o_sigma_0 (the_opts C)) * Q2R (o_slope (the_opts C)) ^ k)%R) /\
  (forall i j h h', i < j -> nth_error (so_steps out) i = Some h -> nth_error (so_steps out) j = Some h' -> (hs_sigma h' < hs_sigma h)%R) /\
  (o_rule (the_opts C) = Superlinear -> forall k h h', nth_error (so_steps out) k = Some h -> nth_error (so_steps out) (S k) = Some h' ->
     (Q2R (o_sigma_N (the_opts C)) <= hs_sigma h')%R /\
     ((Q2R (o_sigma_N (the_opts C)) < hs_sigma h')%R -> (hs_sigma h' <= Q2R (o_slope (the_opts C)) * hs_sigma h)%R)).
Proof. intros H. exact (solve_sigma lr cp d o m oc C H nlp s s' out). Qed.
Print Assumptions C34_relaxation.
Example C34_case i nlp : i <> Rk4Smoothened -> answers (CF i) nlp -> o_rule (the_opts (CF i)) = Superlinear /\
  sized (CF i) model3 (initial_state (CF i)) /\ exists s' out, solve nlp (CF i) (initial_state (CF i)) = (s', Ok out).
Proof.
  intros Hi A. split; [apply flagsF|]. split; [apply initialF|]. destruct (runsF i nlp _ Hi (initialF i) A) as (s' & out & E & _). exists s', out. exact E.
Qed.

(* ---- C35: the loop ends, and when ---- *)
Theorem C35_loop lr cp d o m oc C nlp s s' out : construct_problem lr cp d o m oc = Ok C -> solve nlp C s = (s', Ok out) ->
  1 <= length (so_steps out) <= o_max_iter_homotopy (the_opts C) /\
  ss_calls s' = ss_calls s + length (so_steps out) + (if o_do_polishing (the_opts C) then o_N_stages (the_opts C) else 0) /\
  (forall k h, nth_error (so_steps out) k = Some h -> nlp (ss_calls s + k) (hs_call h) = Ok (hs_ret h)) /\
  (forall k h, nth_error (so_steps out) k = Some h -> S k < length (so_steps out) -> ~ stops (the_opts C) h) /\
  (forall h, last_is (so_steps out) h -> length (so_steps out) < o_max_iter_homotopy (the_opts C) -> stops (the_opts C) h) /\
  (forall k h rho, nth_error (so_steps out) k = Some h -> primal C rho = nr_x (hs_ret h) -> parameters C rho = nc_p (hs_call h) ->
     hs_comp h = comp_residual C rho) /\
  length (so_w_all out) = length (so_steps out) + 1.
Proof. intros H. exact (solve_count lr cp d o m oc C H nlp s s' out). Qed.
Print Assumptions C35_loop.
(* and whatever the NLP solver answers, solve() reaches its end *)
Theorem C35_ends lr cp d o m oc C nlp s : construct_problem lr cp d o m oc = Ok C -> o_init (the_opts C) <> Rk4Smoothened -> well_sized m ->
  (o_pss (the_opts C) = Step -> gS_given m = false) -> extractable (the_opts C) m ->
  (0 < Q2R (o_sigma_0 (the_opts C)))%R -> (0 < Q2R (o_slope (the_opts C)))%R ->
  (o_do_polishing (the_opts C) = true -> o_sot (the_opts C) = SotNone /\ o_mpcc (the_opts C) <> MBoolean) ->
  sized C m s -> answers C nlp -> exists s' out, solve nlp C s = (s', Ok out) /\ sized C m s'.
Proof. intros H. exact (solve_total lr cp d o m oc C H nlp s). Qed.
Print Assumptions C35_ends.
Example C35_case v st : length v = length (w (the_nlp CS)) -> exists s' out, solve (constant_nlp v st) CS (initial_state CS) = (s', Ok out).
Proof. intros L. destruct (runsS _ _ initialS (constant_answers CS v st L)) as (s' & out & E & _). exists s', out. exact E. Qed.
(* every history of calls with arguments of the documented shape leads to a state in which solve() reaches its end *)
Theorem C35_histories lr cp d o m oc C nlp l : construct_problem lr cp d o m oc = Ok C -> (forall a, In a l -> right_shape C m a) -> sized C m (history nlp C l).
Proof. intros H. exact (history_sized lr cp d o m oc C H nlp l). Qed.
Print Assumptions C35_histories.

(* ---- C36: default number of passes ---- *)
Theorem C36_automatic_partial lr cp d o m oc C : construct_problem lr cp d o m oc = Ok C -> rounds lr -> o_max_iter_homotopy o = 0 -> o_rule o = Linear ->
  (0 < Q2R (o_comp_tol o) <= Q2R (o_sigma_0 o))%R -> (0 < Q2R (o_slope o) < 1)%R ->
  (Q2R (o_comp_tol o) * sqrt (Q2R (o_slope o)) <= sigma_at (the_opts C) (o_max_iter_homotopy (the_opts C) - 1) <= Q2R (o_comp_tol o) / sqrt (Q2R (o_slope o)))%R.
Proof. exact (auto_final lr cp d o m oc C). Qed.
Print Assumptions C36_automatic_partial.
Example C36_case : exists lr, rounds lr /\ exists C, construct_problem lr case_cpoints ipopt_init optsS model3 None = Ok C.
Proof. destruct rounding_exists as [lr R]. exists lr. split; [exact R|]. exact (ex_intro _ _ (get_ok _ (caseS_any lr))). Qed.
(* comp_tol = 10 > sigma_0 = 1: the absolute value of the logarithm makes the loop run past the tolerance *)
Theorem C36_large_tolerance_refuted : exists lr o m C, rounds lr /\ construct_problem lr case_cpoints ipopt_init o m None = Ok C /\
  o_max_iter_homotopy o = 0 /\ o_rule o = Linear /\ (0 < Q2R (o_comp_tol o))%R /\ (0 < Q2R (o_sigma_0 o))%R /\ (0 < Q2R (o_slope o) < 1)%R /\
  (sigma_at (the_opts C) (o_max_iter_homotopy (the_opts C) - 1) < Q2R (o_comp_tol o) * sqrt (Q2R (o_slope o)))%R.
Proof. destruct auto_wrong_case as (lr & C & R & E & L). exists lr, optsI, model3, C. exact (conj R (conj E (conj eq_refl (conj eq_refl (auto_signs L))))). Qed.
Print Assumptions C36_large_tolerance_refuted.

(* ---- C37: warm starts ---- *)
Theorem C37_chain lr cp d o m oc C nlp s s' out : construct_problem lr cp d o m oc = Ok C -> solve nlp C s = (s', Ok out) ->
  well_sized m -> (o_pss (the_opts C) = Step -> gS_given m = false) -> sized C m s ->
  (exists s1 lam, initialize C s = (s1, Ok lam) /\ compute_lambda00 (pr_pm (cn_prob C)) (ss_x0 s) (ss_pval s) = Ok lam /\
     starts_from C m lam (ss_w0 s1) out /\ so_w_all out = ss_w0 s1 :: map (fun h => nr_x (hs_ret h)) (so_steps out)) /\
  (forall k h h', nth_error (so_steps out) k = Some h -> nth_error (so_steps out) (S k) = Some h' -> nc_x0 (hs_call h') = nr_x (hs_ret h)) /\
  exists c r, nlp (ss_calls s' - 1) c = Ok r /\ so_w_sol out = nr_x r /\
    (o_do_polishing (the_opts C) = false -> exists h, last_is (so_steps out) h /\ hs_call h = c /\ hs_ret h = r) /\
    (o_do_polishing (the_opts C) = true -> exists h, last_is (so_steps out) h /\ nc_x0 c = nr_x (hs_ret h)).
Proof. intros H. exact (solve_chain lr cp d o m oc C H nlp s s' out). Qed.
Print Assumptions C37_chain.
Example C37_case i nlp : i <> Rk4Smoothened -> answers (CF i) nlp -> o_init (the_opts (CF i)) = i /\ o_do_polishing (the_opts (CF i)) = true /\
  o_fix_active_set_fe0 (the_opts (CF i)) = true /\ exists s' out, solve nlp (CF i) (initial_state (CF i)) = (s', Ok out).
Proof.
  intros Hi A. split; [apply initF|]. split; [apply flagsF|]. split; [apply flagsF|].
  destruct (runsF i nlp _ Hi (initialF i) A) as (s' & out & E & _). exists s', out. exact E.
Qed.

(* ---- C38: status ---- *)
Theorem C38_status lr cp d o m oc C nlp s s' out : construct_problem lr cp d o m oc = Ok C -> solve nlp C s = (s', Ok out) ->
  exists c r, nlp (ss_calls s' - 1) c = Ok r /\ (so_status out = SUCCESS <-> accepted (nr_status r)).
Proof. intros H. exact (solve_status lr cp d o m oc C H nlp s s' out). Qed.
Print Assumptions C38_status.
Example C38_case : accepted RSSolvedToAcceptableLevel /\ ~ accepted RSInfeasibleProblemDetected /\ forall n, ~ accepted (RSOther n).
Proof. split; [right; left; reflexivity|]. split; [intros [E|[E|[E|[E|[]]]]]; discriminate E|]. intros n [E|[E|[E|[E|[]]]]]; discriminate E. Qed.

(* ---- C39: what success says about complementarity. Missing: loops that end because sigma or the number of passes is exhausted ---- *)
Theorem C39_residual_partial lr cp d o m oc C nlp s s' out rho : construct_problem lr cp d o m oc = Ok C -> solve nlp C s = (s', Ok out) ->
  o_do_polishing (the_opts C) = false -> length (so_steps out) < o_max_iter_homotopy (the_opts C) ->
  (forall h, In h (so_steps out) -> (Q2R (o_sigma_N (the_opts C)) < hs_sigma h)%R) ->
  primal C rho = so_w_sol out -> (forall h, last_is (so_steps out) h -> parameters C rho = nc_p (hs_call h)) ->
  (comp_residual C rho < Q2R (o_comp_tol (the_opts C)))%R.
Proof. intros H. exact (success_residual lr cp d o m oc C H nlp s s' out rho). Qed.
Print Assumptions C39_residual_partial.
(* the status of the last NLP solve alone decides: SUCCESS with residual above the tolerance *)
Theorem C39_success_refuted : exists o m C nlp s' out rho h, is_problem o m None C /\ answers C nlp /\
  solve nlp C (initial_state C) = (s', Ok out) /\ so_status out = SUCCESS /\
  last_is (so_steps out) h /\ primal C rho = so_w_sol out /\ parameters C rho = nc_p (hs_call h) /\
  (Q2R (o_comp_tol (the_opts C)) < comp_residual C rho)%R.
Proof.
  destruct success_wrongS as (s' & out & rho & h & E). exists optsS, model3, CS, (constant_nlp (repeat 1%R (length (w (the_nlp CS)))) RSSolveSucceeded), s', out, rho, h.
  exact (conj problemS (conj (constant_answers _ _ _ (repeat_length _ _)) E)).
Qed.
Print Assumptions C39_success_refuted.

(* ---- C40: initial guesses ---- *)
(* ALL_XCURRENT_W0_START: independent of the solves in the history l *)
Theorem C40_w0_start lr cp d o m oc C nlp l s' out : construct_problem lr cp d o m oc = Ok C -> o_init (the_opts C) = AllXcurrentW0Start -> well_sized m ->
  (o_pss (the_opts C) = Step -> gS_given m = false) -> 0 < m_nx m ->
  (forall a, In a l -> right_shape C m a) -> (forall a, In a l -> quiet_or_solve a) ->
  solve nlp C (history nlp C l) = (s', Ok out) ->
  exists lam, compute_lambda00 (pr_pm (cn_prob C)) (ss_x0 (history nlp C l)) (ss_pval (history nlp C l)) = Ok lam /\
  starts_from C m lam (with_states C (reals (w0 (the_nlp C))) (ss_x0 (history nlp C l))) out.
Proof. intros H. exact (guess_w0_start lr cp d o m oc C H nlp l s' out). Qed.
Print Assumptions C40_w0_start.
(* ALL_XCURRENT_WOPT_PREV: the previous solution *)
Theorem C40_wopt_prev lr cp d o m oc C nlp s s1 out1 l s2 out2 : construct_problem lr cp d o m oc = Ok C -> o_init (the_opts C) = AllXcurrentWoptPrev -> well_sized m ->
  (o_pss (the_opts C) = Step -> gS_given m = false) -> 0 < m_nx m -> answers C nlp -> sized C m s -> solve nlp C s = (s1, Ok out1) ->
  (forall a, In a l -> right_shape C m a) -> (forall a, In a l -> quiet a) ->
  solve nlp C (fold_left (act nlp C) l s1) = (s2, Ok out2) ->
  exists lam, starts_from C m lam (with_states C (so_w_sol out1) (ss_x0 (fold_left (act nlp C) l s1))) out2.
Proof. intros H. exact (guess_wopt_prev lr cp d o m oc C H nlp s s1 out1 l s2 out2). Qed.
Print Assumptions C40_wopt_prev.
(* EXTERNAL: the guess of the user *)
Theorem C40_external lr cp d o m oc C nlp l1 v l2 s' out : construct_problem lr cp d o m oc = Ok C -> o_init (the_opts C) = External -> well_sized m ->
  (o_pss (the_opts C) = Step -> gS_given m = false) -> 0 < m_nx m ->
  (forall a, In a (l1 ++ ASet (SetW v) :: l2) -> right_shape C m a) -> (forall a, In a l2 -> quiet_or_solve a) ->
  solve nlp C (history nlp C (l1 ++ ASet (SetW v) :: l2)) = (s', Ok out) -> exists lam, starts_from C m lam v out.
Proof. intros H. exact (guess_external lr cp d o m oc C H nlp l1 v l2 s' out). Qed.
Print Assumptions C40_external.
Example C40_case i nlp l : i <> Rk4Smoothened -> answers (CF i) nlp -> (forall a, In a l -> right_shape (CF i) model3 a) ->
  exists s' out, solve nlp (CF i) (history nlp (CF i) l) = (s', Ok out).
Proof.
  intros Hi A R. destruct (runsF i nlp (history nlp (CF i) l) Hi (history_sized _ _ _ _ _ _ _ (proj1 (problemF i)) nlp l R) A) as (s' & out & E & _).
  exists s', out. exact E.
Qed.
Example C40_case_history : forall a, In a [ASolve; ASet (SetX0 [(-2)%R]); ASolve] -> right_shape (CF AllXcurrentW0Start) model3 a /\ quiet_or_solve a.
Proof. intros a [<-|[<-|[<-|[]]]]; (split; [exact Logic.I || reflexivity|]); (left; reflexivity) || (right; exact Logic.I). Qed.

(* ---- C41: set() ---- *)
Theorem C41_rest lr cp d o m oc C fv s : construct_problem lr cp d o m oc = Ok C -> sized C m s -> untouched C m fv s (fst (set C fv s)).
Proof. intros H. exact (set_keeps_rest lr cp d o m oc C H fv s). Qed.
Print Assumptions C41_rest.
(* one row per control stage. Unless the guess is EXTERNAL the values are written and then Warning is raised *)
Theorem C41_x_stages lr cp d o m oc C v s : construct_problem lr cp d o m oc = Ok C -> sized C m s -> length v = o_N_stages (the_opts C) ->
  (forall r, In r v -> length r = m_nx m) -> exists r, set C (SetX v) s =
  (mkState (ss_x0 s) (ss_pval s) (overwrite (w (the_nlp C)) (ss_w0 s) (stage_rows v)) (ss_calls s), r) /\
  (r = Ok tt <-> o_init (the_opts C) = External) /\ (r = Err EWarning <-> o_init (the_opts C) <> External).
Proof. intros H Z L R. exact (warned (the_opts C) _ _ (set_x_stages lr cp d o m oc C H v s Z L R)). Qed.
Print Assumptions C41_x_stages.
Theorem C41_x_elements lr cp d o m oc C v s : construct_problem lr cp d o m oc = Ok C -> sized C m s -> length v = total (o_Nfe_list (the_opts C)) ->
  length v <> o_N_stages (the_opts C) -> (forall r, In r v -> length r = m_nx m) -> exists r, set C (SetX v) s =
  (mkState (ss_x0 s) (ss_pval s) (overwrite (w (the_nlp C)) (ss_w0 s) (element_rows (the_opts C) v)) (ss_calls s), r) /\
  (r = Ok tt <-> o_init (the_opts C) = External) /\ (r = Err EWarning <-> o_init (the_opts C) <> External).
Proof. intros H Z L N R. exact (warned (the_opts C) _ _ (set_x_elements lr cp d o m oc C H v s Z L N R)). Qed.
Print Assumptions C41_x_elements.
Theorem C41_x_other lr cp d o m oc C v s : construct_problem lr cp d o m oc = Ok C -> length v <> o_N_stages (the_opts C) ->
  length v <> total (o_Nfe_list (the_opts C)) -> set C (SetX v) s = (s, Err EValueError).
Proof. intros _. exact (set_x_other C v s). Qed.
Print Assumptions C41_x_other.
Theorem C41_u lr cp d o m oc C v s : construct_problem lr cp d o m oc = Ok C -> sized C m s -> 0 < m_nu m -> length v = o_N_stages (the_opts C) ->
  (forall r, In r v -> length r = m_nu m) -> set C (SetU v) s =
  (mkState (ss_x0 s) (ss_pval s) (overwrite (w (the_nlp C)) (ss_w0 s) (control_rows v)) (ss_calls s), Ok tt).
Proof. intros H. exact (set_u_rows lr cp d o m oc C H v s). Qed.
Print Assumptions C41_u.
Theorem C41_v_global lr cp d o m oc C v s : construct_problem lr cp d o m oc = Ok C -> sized C m s -> 0 < m_nvg m -> length v = m_nvg m ->
  set C (SetVGlobal v) s = (mkState (ss_x0 s) (ss_pval s) (overwrite (w (the_nlp C)) (ss_w0 s) (global_row v)) (ss_calls s), Ok tt).
Proof. intros H. exact (set_vg_row lr cp d o m oc C H v s). Qed.
Print Assumptions C41_v_global.
Theorem C41_p_global lr cp d o m oc C v s : construct_problem lr cp d o m oc = Ok C -> sized C m s -> length v = m_npg m ->
  set C (SetPGlobal v) s = (mkState (ss_x0 s) (with_p_global m v (ss_pval s)) (ss_w0 s) (ss_calls s), Ok tt).
Proof. intros H. exact (set_p_global_rows lr cp d o m oc C H v s). Qed.
Print Assumptions C41_p_global.
Theorem C41_p_time_var lr cp d o m oc C v s : construct_problem lr cp d o m oc = Ok C -> sized C m s -> length v = o_N_stages (the_opts C) ->
  (forall r, In r v -> length r = m_npt m) ->
  set C (SetPTimeVar v) s = (mkState (ss_x0 s) (with_p_time_var m v (ss_pval s)) (ss_w0 s) (ss_calls s), Ok tt).
Proof. intros H. exact (set_p_time_var_rows lr cp d o m oc C H v s). Qed.
Print Assumptions C41_p_time_var.
Theorem C41_w lr cp d o m oc C v s : construct_problem lr cp d o m oc = Ok C -> exists r,
  set C (SetW v) s = (mkState (ss_x0 s) (ss_pval s) v (ss_calls s), r) /\
  (r = Ok tt <-> o_init (the_opts C) = External) /\ (r = Err EWarning <-> o_init (the_opts C) <> External).
Proof. intros _. exact (warned (the_opts C) _ _ (set_w_all C v s)). Qed.
Print Assumptions C41_w.
(* the parameters reach the next solve *)
Theorem C41_p_global_solved lr cp d o m oc C nlp l v s' out : construct_problem lr cp d o m oc = Ok C ->
  (forall a, In a l -> right_shape C m a) -> length v = m_npg m ->
  solve nlp C (history nlp C (l ++ [ASet (SetPGlobal v)])) = (s', Ok out) ->
  forall h, In h (so_steps out) -> exists rest, nc_p (hs_call h) = concat (with_p_global m v (ss_pval (history nlp C l))) ++ rest.
Proof. intros H. exact (global_solved lr cp d o m oc C H nlp l v s' out). Qed.
Print Assumptions C41_p_global_solved.
Theorem C41_p_time_var_solved lr cp d o m oc C nlp l v s' out : construct_problem lr cp d o m oc = Ok C ->
  (forall a, In a l -> right_shape C m a) -> length v = o_N_stages (the_opts C) -> (forall r, In r v -> length r = m_npt m) ->
  solve nlp C (history nlp C (l ++ [ASet (SetPTimeVar v)])) = (s', Ok out) ->
  forall h, In h (so_steps out) -> exists rest, nc_p (hs_call h) = concat (with_p_time_var m v (ss_pval (history nlp C l))) ++ rest.
Proof. intros H. exact (time_var_solved lr cp d o m oc C H nlp l v s' out). Qed.
Print Assumptions C41_p_time_var_solved.
Example C41_case : construct_problem case_log_round case_cpoints ipopt_init optsA model1 (Some ocp1) = Ok CA /\ sized CA model1 (initial_state CA) /\
  0 < m_nu model1 /\ 0 < m_nvg model1 /\ m_npg model1 = 1 /\ o_N_stages (the_opts CA) = 2 /\ total (o_Nfe_list (the_opts CA)) = 3.
Proof. exact (conj (proj1 problemA) (conj initialA sizesA)). Qed.
(* without controls or global variables the call raises instead of doing nothing *)
Theorem C41_none lr cp d o m oc C v v' s : construct_problem lr cp d o m oc = Ok C ->
  (m_nu m = 0 -> set C (SetU v) s = (s, Err EIndexError)) /\ (m_nvg m = 0 -> set C (SetVGlobal v') s = (s, Err EIndexError)).
Proof. intros H. exact (conj (set_u_none lr cp d o m oc C H v s) (set_vg_none lr cp d o m oc C H v' s)). Qed.
Print Assumptions C41_none.

(* ---- C42: set('theta') ---- *)
Theorem C42_theta_partial lr cp d o m oc C v s : construct_problem lr cp d o m oc = Ok C -> sized C m s -> o_pss (the_opts C) = Stewart -> n_subsystems m = 1 -> 
  length v = total (o_Nfe_list (the_opts C)) -> (forall r, In r v -> length r = n_modes m 0) ->
  set C (SetTheta v) s = (mkState (ss_x0 s) (ss_pval s) (overwrite (w (the_nlp C)) (ss_w0 s) (weight_rows (the_opts C) v)) (ss_calls s), Ok tt).
Proof. intros H Z PS N. exact (set_theta_one lr cp d o m oc C H v s Z PS N (Feas_proofs.ns_pos _ _ _ _ _ _ _ H)). Qed.
Print Assumptions C42_theta_partial.
Example C42_case : sized CS model3 (initial_state CS) /\ o_pss (the_opts CS) = Stewart /\ n_subsystems model3 = 1 /\ total (o_Nfe_list (the_opts CS)) = 2 /\ n_modes model3 0 = 2.
Proof. split; [exact initialS|]. vm_compute. auto. Qed.
(* two subsystems: the nested index list is used as an index array, ValueError *)
Theorem C42_two_subsystems_refuted : exists o m C, construct_problem case_log_round case_cpoints ipopt_init o m None = Ok C /\
  o_pss (the_opts C) = Stewart /\ forall v s, length v = total (o_Nfe_list (the_opts C)) ->
  (forall r, In r v -> length r = upto (n_subsystems m) (n_modes m)) -> set C (SetTheta v) s = (s, Err EValueError).
Proof. exists optsC, model2, CC. exact (conj (made _ _ _ _ builtC) (conj stewartC theta_refusedC)). Qed.
Print Assumptions C42_two_subsystems_refuted.

(* ---- C43: what polishing pins: in the NLP that it solves, every variable of the problem ---- *)
Theorem C43_pins_partial lr cp d o m oc C nlp lam v s s' q : construct_problem lr cp d o m oc = Ok C -> length v = length (w (the_nlp C)) ->
  polish_solution nlp C lam v s = (s', Ok q) -> exists c r, nlp (ss_calls s' - 1) c = Ok r /\ po_w q = nr_x r /\ nc_x0 c = v /\
  forall i y x, nth_error (w (the_nlp C)) i = Some y -> nth_error v i = Some x ->
    let eps := (10 * Q2R (o_comp_tol (the_opts C)))%R in
    (multiplier y /\ (Rabs (x - 1) < eps)%R -> nth_error (nc_lbx c) i = Some (Fin 1) /\ nth_error (nc_ubx c) i = Some (Fin 1)) /\
    (multiplier y /\ ~ (Rabs (x - 1) < eps)%R /\ (x < eps)%R -> nth_error (nc_lbx c) i = Some (Fin 0) /\ nth_error (nc_ubx c) i = Some (Fin 0)) /\
    (~ multiplier y \/ (~ (Rabs (x - 1) < eps)%R /\ ~ (x < eps)%R) ->
       nth_error (nc_lbx c) i = nth_error (lbw (the_nlp C)) i /\ nth_error (nc_ubx c) i = nth_error (ubw (the_nlp C)) i).
Proof. intros H. exact (polish_pins lr cp d o m oc C H nlp lam v s s' q). Qed.
Print Assumptions C43_pins_partial.
(* the test for 0 is one-sided: a multiplier of value -5 is pinned to 0 *)
Theorem C43_negative_refuted : exists o m C v lb ub i y, is_problem o m None C /\ length v = length (w (the_nlp C)) /\
  polish_bounds (the_opts C) (the_problem C) v = Ok (lb, ub) /\
  nth_error (w (the_nlp C)) i = Some y /\ multiplier y /\ nth_error v i = Some (-5)%R /\ nth_error lb i = Some (Fin 0) /\ nth_error ub i = Some (Fin 0) /\
  (10 * Q2R (o_comp_tol (the_opts C)) < 1)%R.
Proof. destruct polish_wrongS as (v & lb & ub & i & y & E). exists optsS, model3, CS, v, lb, ub, i, y. exact (conj problemS E). Qed.
Print Assumptions C43_negative_refuted.

(* ---- C44: problems that polishing handles ---- *)
Theorem C44_handled_partial lr cp d o m oc C v : construct_problem lr cp d o m oc = Ok C -> length v = length (w (the_nlp C)) ->
  (polish_check (the_problem C) v = true <-> forall y, In y (w (the_nlp C)) -> ~ unknown_to_polish y).
Proof. intros H. exact (polish_check_exact lr cp d o m oc C H v). Qed.
Print Assumptions C44_handled_partial.
Theorem C44_runs_partial lr cp d o m oc C nlp lam v s : construct_problem lr cp d o m oc = Ok C -> extractable (the_opts C) m -> answers C nlp ->
  compute_lambda00 (pr_pm (cn_prob C)) (ss_x0 s) (ss_pval s) = Ok lam -> well_sized m -> (o_pss (the_opts C) = Step -> gS_given m = false) ->
  length v = length (w (the_nlp C)) -> o_sot (the_opts C) = SotNone -> o_mpcc (the_opts C) <> MBoolean -> sized C m s ->
  exists s' q, polish_solution nlp C lam v s = (s', Ok q).
Proof. exact (polish_runs lr cp d o m oc C nlp lam v s). Qed.
Print Assumptions C44_runs_partial.
Example C44_case nlp v : answers CS nlp -> length v = length (w (the_nlp CS)) -> exists lam,
  compute_lambda00 (pr_pm (cn_prob CS)) (ss_x0 (initial_state CS)) (ss_pval (initial_state CS)) = Ok lam /\
  exists s' q, polish_solution nlp CS lam v (initial_state CS) = (s', Ok q).
Proof. exact (polish_runsS nlp v). Qed.
(* speed of time: the indices of these variables are in neither list *)
Theorem C44_speed_of_time_refuted : exists o m oc C, is_problem o m oc C /\ o_sot (the_opts C) = SotLocal /\
  forall nlp lam v s, length v = length (w (the_nlp C)) -> polish_solution nlp C lam v s = (s, Err EException).
Proof. exists optsA, model1, (Some ocp1), CA. exact (conj problemA (conj sotA polish_refusedA)). Qed.
Print Assumptions C44_speed_of_time_refuted.

(* ---- C45: fix_active_set_fe0 ---- *)
(* exactly the excluded weights get zero bounds, in every pass *)
Theorem C45_fixed lr cp d o m oc C nlp s s' out : construct_problem lr cp d o m oc = Ok C -> solve nlp C s = (s', Ok out) ->
  well_sized m -> (o_pss (the_opts C) = Step -> gS_given m = false) -> sized C m s ->
  exists lam, compute_lambda00 (pr_pm (cn_prob C)) (ss_x0 s) (ss_pval s) = Ok lam /\ forall h, In h (so_steps out) ->
  let fix_it := o_fix_active_set_fe0 (the_opts C) = true /\ o_pss (the_opts C) = Stewart in
  nc_p (hs_call h) = concat (ss_pval s) ++ [hs_sigma h; hs_tau h] ++ lam ++ ss_x0 s /\
  length (nc_lbx (hs_call h)) = length (w (the_nlp C)) /\ length (nc_ubx (hs_call h)) = length (w (the_nlp C)) /\
  forall i y, nth_error (w (the_nlp C)) i = Some y ->
    (fix_it /\ excluded C m lam y -> nth_error (nc_lbx (hs_call h)) i = Some (Fin 0) /\ nth_error (nc_ubx (hs_call h)) i = Some (Fin 0)) /\
    (~ (fix_it /\ excluded C m lam y) -> nth_error (nc_lbx (hs_call h)) i = nth_error (lbw (the_nlp C)) i /\
       nth_error (nc_ubx (hs_call h)) i = nth_error (ubw (the_nlp C)) i).
Proof. intros H. exact (pass_bounds lr cp d o m oc C H nlp s s' out). Qed.
Print Assumptions C45_fixed.
(* and these weights vanish at every feasible point with zero relaxation *)
Theorem C45_no_solution_lost lr cp d o m oc C s sg tau lam rho y : construct_problem lr cp d o m oc = Ok C -> o_constr o = Exact -> well_sized m ->
  sized C m s -> compute_lambda00 (pr_pm (cn_prob C)) (ss_x0 s) (ss_pval s) = Ok lam ->
  parameters C rho = concat (ss_pval s) ++ [sg; tau] ++ lam ++ ss_x0 s -> o_pss (the_opts C) = Stewart ->
  feasible rho (the_nlp C) -> zero_relaxation (the_opts C) rho -> o_use_fesd (the_opts C) = true -> (0 <= Q2R (o_comp_tol (the_opts C)))%R ->
  In y (w (the_nlp C)) -> excluded C m lam y -> rho y = 0%R.
Proof. intros H Ex WS Z EL EP Ep. exact (fixing_sound lr cp d o m oc C H Ex WS s sg tau lam rho Z EL EP Ep y). Qed.
Print Assumptions C45_no_solution_lost.
Example C45_case : exists lam y, compute_lambda00 (pr_pm (cn_prob CS)) (ss_x0 (initial_state CS)) (ss_pval (initial_state CS)) = Ok lam /\
  parameters CS rhoS = concat (ss_pval (initial_state CS)) ++ [0%R; 0%R] ++ lam ++ ss_x0 (initial_state CS) /\
  feasible rhoS (the_nlp CS) /\ zero_relaxation (the_opts CS) rhoS /\ o_use_fesd (the_opts CS) = true /\ In y (w (the_nlp CS)) /\ excluded CS model3 lam y.
Proof. exact excludedS. Qed.
