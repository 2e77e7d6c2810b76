(* Props_Rebuild.v -- C113: setting parameters has the same effect as building the solver anew *)
From Coq Require Import Reals Qreals.
From Verif Require Import Base Sx Utils Tableau Opts Model Ocp Problem Numeric Solver Spec Cases Fesd Spec2 Witness Atomic2_proofs Spec40 Rebuild_proofs.

(* ---- C113 ---- *)
(* a solver built with other values of p_time_var and p_global has the same NLP, and every history of calls agrees with that of the old solver after set('p_time_var') and set('p_global') *)
Theorem C113_rebuild lr cp d o m oc C ptv pg : construct_problem lr cp d o m oc = Ok C ->
  length ptv = o_N_stages (the_opts C) -> (forall r, In r ptv -> length r = m_npt m) -> length pg = m_npg m ->
  exists C', construct_problem lr cp d o (with_values m ptv pg) oc = Ok C' /\ the_problem C' = the_problem C /\
    (forall fv s, set C' fv s = set C fv s) /\ (forall nlp s, solve nlp C' s = solve nlp C s) /\
    forall nlp l, history nlp C' l = history nlp C (ASet (SetPTimeVar (map reals ptv)) :: ASet (SetPGlobal (reals pg)) :: l).
Proof. exact (rebuild lr cp d o m oc C ptv pg). Qed.
Print Assumptions C113_rebuild.
Example C113_case : build optsB2 model2 None = Ok CB2 /\ length [[3%Q]; [5%Q]] = o_N_stages (the_opts CB2) /\ (forall r, In r [[3%Q]; [5%Q]] -> length r = m_npt model2) /\
  length (@nil Q) = m_npg model2 /\ ss_pval (initial_state CB2) <> map reals [[3%Q]; [5%Q]].
Proof. exact rebuild_case. Qed.
