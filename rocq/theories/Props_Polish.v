(* Props_Polish.v -- C88: polishing keeps a solution. polish_solution fixes every multiplier below 10 comp_tol to 0 and every one
   near 1 to 1, then solves the NLP once more with sigma = 0. Vocabulary: Spec17.v. *)
From Coq Require Import Reals Qreals Lra.
From Verif Require Import Base Lib Sx Utils Tableau Opts Model Ocp Problem Numeric Rk4 Results Solver Spec Cases Fesd Spec2 Spec3 Spec4 Spec5 Spec17
  Witness Witness3 Pin_proofs Witness10.
Local Open Scope nat_scope.

(* c: the last call of the NLP solver. A point that solves the problem with sigma = 0, whose multipliers are nonnegative and 0, 1 or far from both, satisfies
   all bounds and constraints of the polishing call that starts from it. Missing: negative multipliers mu (below) *)
Theorem C88_keeps_partial lr cp d o m oc C nlp s s' out : construct_problem lr cp d o m oc = Ok C -> answers C nlp -> solve nlp C s = (s', Ok out) ->
  o_do_polishing (the_opts C) = true -> (pin_tol C <= 1)%R ->
  exists h c r, last_is (so_steps out) h /\ nlp (ss_calls s' - 1) c = Ok r /\ so_w_sol out = nr_x r /\ nc_x0 c = nr_x (hs_ret h) /\
  forall rho, primal C rho = nr_x (hs_ret h) -> parameters C rho = nc_p c -> feasible rho (the_nlp C) ->
    (forall y, In y (w (the_nlp C)) -> multiplier y -> decided (pin_tol C) (rho y) /\ (0 <= rho y)%R) -> call_feasible C c rho.
Proof. intros H. exact (solve_keeps lr cp d o m oc C H nlp s s' out). Qed.
Print Assumptions C88_keeps_partial.
Example C88_keeps_case : exists s' out c r, solve (returns (CF AllXcurrentW0Start) rhoS) (CF AllXcurrentW0Start) (initial_state (CF AllXcurrentW0Start)) = (s', Ok out) /\
  returns (CF AllXcurrentW0Start) rhoS (ss_calls s' - 1) c = Ok r /\ nc_x0 c = primal (CF AllXcurrentW0Start) rhoS /\ call_feasible (CF AllXcurrentW0Start) c rhoS.
Proof. exact all_kept. Qed.
(* Step with product complementarity: no multiplier can be negative *)
Theorem C88_step lr cp d o m oc C nlp s s' out : construct_problem lr cp d o m oc = Ok C -> answers C nlp -> solve nlp C s = (s', Ok out) ->
  o_do_polishing (the_opts C) = true -> (pin_tol C <= 1)%R -> o_pss (the_opts C) = Step -> product_mode (the_opts C) ->
  exists h c r, last_is (so_steps out) h /\ nlp (ss_calls s' - 1) c = Ok r /\ so_w_sol out = nr_x r /\ nc_x0 c = nr_x (hs_ret h) /\
  forall rho, primal C rho = nr_x (hs_ret h) -> parameters C rho = nc_p c -> feasible rho (the_nlp C) ->
    (forall y, In y (w (the_nlp C)) -> multiplier y -> decided (pin_tol C) (rho y)) -> call_feasible C c rho.
Proof. intros H. exact (solve_keeps_step lr cp d o m oc C H nlp s s' out). Qed.
Print Assumptions C88_step.
Example C88_step_case : o_pss (the_opts CT) = Step /\ product_mode (the_opts CT) /\ (pin_tol CT <= 1)%R /\ feasible rhoT (the_nlp CT) /\
  forall y, In y (w (the_nlp CT)) -> multiplier y -> decided (pin_tol CT) (rhoT y).
Proof. exact step_case. Qed.
(* nothing is added: a point of the polishing call is a point of the problem with sigma = tau = 0 and the parameters of the solve *)
Theorem C88_sound lr cp d o m oc C nlp s s' out : construct_problem lr cp d o m oc = Ok C -> answers C nlp -> solve nlp C s = (s', Ok out) ->
  o_do_polishing (the_opts C) = true ->
  exists lam c r, compute_lambda00 (pr_pm (cn_prob C)) (ss_x0 s) (ss_pval s) = Ok lam /\ nlp (ss_calls s' - 1) c = Ok r /\ so_w_sol out = nr_x r /\
  forall rho, call_feasible C c rho -> feasible rho (the_nlp C) /\ parameters C rho = concat (ss_pval s) ++ [0%R; 0%R] ++ lam ++ ss_x0 s.
Proof. intros H. exact (solve_sound lr cp d o m oc C H nlp s s' out). Qed.
Print Assumptions C88_sound.
(* Stewart: where the solution before polishing has a mu below 10 comp_tol and not near 1, every point of the polishing call has min g = 0 *)
Theorem C88_pinned lr cp d o m oc C nlp s s' out : fesd_problem lr cp d o m oc C -> answers C nlp -> sized C m s -> solve nlp C s = (s', Ok out) ->
  o_do_polishing (the_opts C) = true -> o_pss (the_opts C) = Stewart -> o_use_fesd (the_opts C) = true ->
  o_mpcc (the_opts C) = ScholtesIneq \/ o_mpcc (the_opts C) = ScholtesEq ->
  exists h c r, last_is (so_steps out) h /\ nlp (ss_calls s' - 1) c = Ok r /\ so_w_sol out = nr_x r /\
  forall rho rho' k e n j q, primal C rho = nr_x (hs_ret h) -> is_fe (the_opts C) k e n -> j < o_ns (the_opts C) -> q < n_subsystems m ->
    (rho (S2 FMu k e j q 0) < pin_tol C)%R -> ~ (Rabs (rho (S2 FMu k e j q 0) - 1) < pin_tol C)%R -> call_feasible C c rho' ->
    least (n_modes m q) (region_value m (stage_point (the_opts C) (cn_tab C) m rho' k e j) q) 0%R.
Proof. intros (H & Ex & WS). exact (solve_pinned lr cp d o m oc C H Ex WS nlp s s' out). Qed.
Print Assumptions C88_pinned.
(* region functions that are squared distances: the exact solution has mu < 0, and no point is left *)
Theorem C88_refuted : exists o m oc C nlp s' out h c r rho, is_problem o m oc C /\ answers C nlp /\ solve nlp C (initial_state C) = (s', Ok out) /\
  last_is (so_steps out) h /\ nlp (ss_calls s' - 1) c = Ok r /\ so_w_sol out = nr_x r /\ primal C rho = nr_x (hs_ret h) /\ parameters C rho = nc_p c /\
  feasible rho (the_nlp C) /\ (forall y, In y (w (the_nlp C)) -> multiplier y -> decided (pin_tol C) (rho y)) /\
  forall rho', ~ call_feasible C c rho'.
Proof.
  destruct nothing_left as (s' & out & h & c & r & E & Lh & X & Er & EW & _ & EP & N). exists optsV, modelV, None, CV, (returns CV (pt switchV)), s', out, h, c, r, (pt switchV).
  exact (conj problemV (conj (returns_answers _ _) (conj E (conj Lh (conj Er (conj EW (conj (eq_sym X) (conj EP (conj feasibleV (conj decidedV N)))))))))).
Qed.
Print Assumptions C88_refuted.
