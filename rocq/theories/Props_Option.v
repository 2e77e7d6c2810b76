(* Props_Option.v -- C98: the NLP depends on the applicable options only *)
From Coq Require Import Reals.
From Verif Require Import Base Sx Utils Tableau Opts Model Ocp Problem Spec Cases Spec2 Spec4 Spec9 Spec10 Spec21 Conv5_proofs Numeric Results Solver Spec26 Option_proofs Option2_proofs Option3_proofs.

(* option objects that agree on every option that applies give the same NLP: variables, bounds, initial values, constraints, objective, residual,
   parameters, index lists, finite elements *)
Theorem C98_same lr cp d d' o o' m oc C C' : same_applicable o o' -> construct_problem lr cp d o m oc = Ok C -> construct_problem lr cp d' o' m oc = Ok C' ->
  the_problem C' = the_problem C /\ cn_tab C' = cn_tab C /\ pr_pm (cn_prob C') = pr_pm (cn_prob C) /\ pr_cost_fun (cn_prob C') = pr_cost_fun (cn_prob C) /\
  pr_comp_res (cn_prob C') = pr_comp_res (cn_prob C) /\ pr_g_fun (cn_prob C') = pr_g_fun (cn_prob C) /\
  pr_w0_original (cn_prob C') = pr_w0_original (cn_prob C).
Proof.
  intros S H H'. pose proof (same_nlp2 lr cp o o' m oc S d d' C C' H H') as E. unfold nlp_part in E. injection E as E1 E2 E3 E4 E5 E6 E7 _.
  exact (conj E3 (conj E1 (conj E2 (conj E4 (conj E5 (conj E6 E7)))))).
Qed.
Print Assumptions C98_same.
(* the problem is accepted with one of them if it is with the other (RK4_SMOOTHENED needs more of the model) *)
Theorem C98_accepted lr cp d d' o o' m oc C : same_applicable o o' -> construct_problem lr cp d o m oc = Ok C ->
  (o_init o' = Rk4Smoothened -> o_init o = Rk4Smoothened /\ o_smoothing o = o_smoothing o') ->
  exists C', construct_problem lr cp d' o' m oc = Ok C' /\ the_problem C' = the_problem C.
Proof.
  intros S H Hi. destruct (same_nlp lr cp o o' m oc S d d' C H Hi) as (C' & A & E). exists C'. split; [exact A|].
  exact (f_equal (fun x => snd (fst (fst (fst (fst (fst x)))))) E).
Qed.
Print Assumptions C98_accepted.

(* if the options read by solve() agree too, the solver object made with the other options gives the same IPOPT options and, for every NLP solver and
   every sequence of set() and solve(), the same calls and the same result *)
Theorem C98_solve lr cp d o o' m oc C : same_applicable o o' -> same_solver o o' -> construct_problem lr cp d o m oc = Ok C ->
  exists C', construct_problem lr cp d o' m oc = Ok C' /\ cn_dict C' = cn_dict C /\
    forall nlp l, history nlp C' l = history nlp C l /\ solve nlp C' (history nlp C' l) = solve nlp C (history nlp C l).
Proof. intros S V. exact (same_solve lr cp o o' m oc d S V C). Qed.
Print Assumptions C98_solve.

(* Step without FESD: optsL2 has other values of the 25 options that do not apply *)
Example C98_case : same_applicable optsL optsL2 /\ build optsL decay_model None = Ok CL /\ build optsL2 decay_model None = Ok CL2 /\ the_opts CL2 <> the_opts CL.
Proof. exact option_case. Qed.
(* with FESD gamma_h applies and changes the bounds *)
Example C98_case_applies : exists C C', build default_opts decay_model None = Ok C /\ build (with_gamma default_opts (Fin (1#2))) decay_model None = Ok C' /\
  o_use_fesd default_opts = true /\ ubw (the_nlp C) <> ubw (the_nlp C').
Proof. exact option_applies. Qed.
(* optsL3 has other values of the options that apply neither to the NLP nor to solve() *)
Example C98_case_solve : same_applicable optsL optsL3 /\ same_solver optsL optsL3 /\ build optsL decay_model None = Ok CL /\ optsL3 <> optsL.
Proof. exact solver_case. Qed.
