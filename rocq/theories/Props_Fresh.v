(* Props_Fresh.v -- C114: the outcome of solve() does not depend on earlier solves *)
From Coq Require Import Reals Qreals.
From Verif Require Import Base Sx Utils Tableau Opts Model Ocp Problem Numeric Rk4 Results Solver Spec Cases Fesd Spec2 Spec3 Spec4 Spec5
  Set_proofs Solve3_proofs Witness Witness3 Spec41 Fresh_proofs Fresh2_proofs.

(* ---- C114 ---- *)
(* for an NLP solver without memory, solve() after a history of calls returns or raises the same as after the calls of set() of this history alone *)
Theorem C114_fresh nlp lr cp d o m oc C l : memoryless nlp -> construct_problem lr cp d o m oc = Ok C ->
  o_init (the_opts C) = AllXcurrentW0Start \/ o_init (the_opts C) = External -> 0 < m_nx m -> (forall a, In a l -> right_shape C m a) ->
  snd (solve nlp C (history nlp C l)) = snd (solve nlp C (history nlp C (sets_only l))).
Proof. intros M H. exact (fresh nlp M lr cp d o m oc C H l). Qed.
Print Assumptions C114_fresh.
(* in particular a second solve() in a row repeats the first *)
Theorem C114_repeat nlp lr cp d o m oc C l : memoryless nlp -> construct_problem lr cp d o m oc = Ok C ->
  o_init (the_opts C) = AllXcurrentW0Start \/ o_init (the_opts C) = External -> 0 < m_nx m -> (forall a, In a l -> right_shape C m a) ->
  snd (solve nlp C (fst (solve nlp C (history nlp C l)))) = snd (solve nlp C (history nlp C l)).
Proof. intros M H. exact (repeated nlp M lr cp d o m oc C H l). Qed.
Print Assumptions C114_repeat.
Example C114_case v st : length v = length (w (the_nlp (CF AllXcurrentW0Start))) -> memoryless (constant_nlp v st) /\
  (forall a, In a [ASolve; ASet (SetX0 [(-2)%R]); ASolve] -> right_shape (CF AllXcurrentW0Start) model3 a) /\
  exists s' out, solve (constant_nlp v st) (CF AllXcurrentW0Start) (history (constant_nlp v st) (CF AllXcurrentW0Start) [ASolve; ASet (SetX0 [(-2)%R]); ASolve]) = (s', Ok out).
Proof. exact (fresh_case v st). Qed.
(* with ALL_XCURRENT_WOPT_PREV the second solve() starts from the solution of the first and may end otherwise *)
Theorem C114_wopt_prev_refuted : exists nlp C s1 out1 s2 out2, build (optsF AllXcurrentWoptPrev) model3 None = Ok C /\ memoryless nlp /\ answers C nlp /\
  solve nlp C (initial_state C) = (s1, Ok out1) /\ solve nlp C s1 = (s2, Ok out2) /\ out1 <> out2.
Proof. exact wopt_prev_refuted. Qed.
Print Assumptions C114_wopt_prev_refuted.
