(* Props_Unused.v -- C112: switching functions without subsystem have no effect *)
From Coq Require Import Reals Qreals.
From Verif Require Import Base Sx Utils Tableau Opts Model Ocp Problem Solver Spec Cases Fesd Spec2 Witness Spec39 Unused_proofs.

(* ---- C112 ---- *)
(* an accepted model stays accepted when entries of c and S behind those of the subsystems of F are added, removed or changed; the NLP and all runs stay the same *)
Theorem C112_unused lr cp d o m F c c' Sl Sl' oc C : m_F m = Some F -> m_c m = Some c -> m_S m = Some Sl -> length c = length Sl -> length c' = length Sl' ->
  same_start (length F) c' c -> same_start (length F) Sl' Sl -> construct_problem lr cp d o m oc = Ok C ->
  exists C', construct_problem lr cp d o (with_switch m c' Sl') oc = Ok C' /\ the_problem C' = the_problem C /\ initial_state C' = initial_state C /\
    (forall fv s, set C' fv s = set C fv s) /\ (forall nlp s, solve nlp C' s = solve nlp C s) /\ forall nlp l, history nlp C' l = history nlp C l.
Proof. exact (unused_nlp lr cp d o m F c c' Sl Sl' oc C). Qed.
Print Assumptions C112_unused.
Example C112_case : build optsS model3 None = Ok CS /\ m_F model3 = Some [mkFmat 1 [[cq 3]; [cq 1]]] /\ same_start 1 [[cx 0]; [EUn UNeg (cx 0); cx 0]] [[cx 0]] /\
  same_start 1 [[[(-1)%Q]; [1%Q]]; [[0%Q; 1%Q]]] [[[(-1)%Q]; [1%Q]]].
Proof. exact unused_case. Qed.
