(* Props_Sigma.v -- C34: relaxation parameters that are not positive *)
From Coq Require Import Reals Qreals Lra.
From Verif Require Import Base Sx Utils Tableau Opts Model Ocp Problem Numeric Rk4 Results Solver Spec Cases Fesd Spec2 Spec4 Spec5 Witness Witness3 Sigma3_proofs.

(* whatever the options are, a solve that returns has used no negative parameter, and a parameter zero stays zero (with tau zero) until the loop ends *)
Theorem C34_nonnegative nlp C s s' out : solve nlp C s = (s', Ok out) ->
  (forall h, In h (so_steps out) -> (0 <= hs_sigma h)%R /\ (hs_sigma h = 0%R -> hs_tau h = 0%R)) /\
  (forall k h h', nth_error (so_steps out) k = Some h -> nth_error (so_steps out) (S k) = Some h' -> hs_sigma h = 0%R -> hs_sigma h' = 0%R).
Proof. exact (sigma_nonneg nlp C s s' out). Qed.
Print Assumptions C34_nonnegative.
Example C34_nonnegative_case i nlp : i <> Rk4Smoothened -> answers (CF i) nlp -> exists s' out, solve nlp (CF i) (initial_state (CF i)) = (s', Ok out).
Proof. intros Hi A. destruct (runsF i nlp _ Hi (initialF i) A) as (s' & out & E & _). exists s', out. exact E. Qed.
(* a negative sigma_0 is accepted by the constructor, but then no solve returns *)
Theorem C34_negative lr cp d o m oc C nlp s s' out : construct_problem lr cp d o m oc = Ok C ->
  (Q2R (o_sigma_0 (the_opts C)) < 0)%R -> solve nlp C s <> (s', Ok out).
Proof. exact (sigma_negative lr cp d o m oc C nlp s s' out). Qed.
Print Assumptions C34_negative.
Example C34_negative_case : exists C, build optsNeg model3 None = Ok C /\ (Q2R (o_sigma_0 (the_opts C)) < 0)%R.
Proof. exact negative_case. Qed.
