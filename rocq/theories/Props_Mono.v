(* Props_Mono.v -- C111: the objective grows along the homotopy *)
From Coq Require Import Reals Qreals.
From Verif Require Import Base Sx Utils Tableau Opts Model Ocp Problem Solver Spec Cases Fesd Spec2 Spec3 Spec4 Spec5 Spec30 Witness Witness3 Homot5_proofs Mono_proofs Mono2_proofs Mono3_proofs.
Local Open Scope R_scope.

(* ---- C111 ---- *)
(* SCHOLTES_INEQ: the objective of a global solution is at most that of every feasible point with a smaller sigma *)
Theorem C111_scholtes lr cp d o m oc C v v' : fesd_problem lr cp d o m oc C -> free_of_relaxation m (the_ocp oc) -> o_mpcc (the_opts C) = ScholtesIneq ->
  solution_of C v -> feasible v' (the_nlp C) -> same_data C v v' -> v' SSigma <= v SSigma -> eval v (cost (the_nlp C)) <= eval v' (cost (the_nlp C)).
Proof. intros FP FR. exact (scholtes_mono lr cp d o m oc C FP FR v v'). Qed.
Print Assumptions C111_scholtes.
Example C111_scholtes_case : is_problem (optsV ScholtesIneq) modelV (Some ocpV) CV /\ o_mpcc (the_opts CV) = ScholtesIneq /\ free_of_relaxation modelV ocpV /\
  exists v v', solution_of CV v /\ solution_of CV v' /\ same_data CV v v' /\ v' SSigma < v SSigma /\ eval v (cost (the_nlp CV)) < eval v' (cost (the_nlp CV)).
Proof. exact caseV. Qed.
(* elastic modes, both weightings of the objective: the user's objective grows and the relaxation s_elastic falls *)
Theorem C111_elastic lr cp d o m oc C v v' : fesd_problem lr cp d o m oc C -> free_of_relaxation m (the_ocp oc) -> elastic (the_opts C) = true ->
  solution_of C v -> solution_of C v' -> same_data C v v' -> 0 < v' SSigma -> v' SSigma < v SSigma ->
  plain_cost (the_opts C) (cn_tab C) m (the_ocp oc) v <= plain_cost (the_opts C) (cn_tab C) m (the_ocp oc) v' /\ v' SElastic <= v SElastic.
Proof. intros FP FR. exact (elastic_mono lr cp d o m oc C FP FR v v'). Qed.
Print Assumptions C111_elastic.
Example C111_elastic_case : is_problem (optsV ElasticIneq) modelV (Some ocpV) CW /\ elastic (the_opts CW) = true /\ (0 <= o_s_elastic_min (the_opts CW))%Q /\ free_of_relaxation modelV ocpV /\
  exists v v', solution_of CW v /\ solution_of CW v' /\ same_data CW v v' /\ 0 < v' SSigma < v SSigma /\
    plain_cost (the_opts CW) (cn_tab CW) modelV ocpV v < plain_cost (the_opts CW) (cn_tab CW) modelV ocpV v' /\ v' SElastic < v SElastic.
Proof. exact caseW. Qed.
(* elastic modes: a global solution without relaxation stays one for all smaller sigma, and has the least objective of all points without relaxation *)
Theorem C111_exact lr cp d o m oc C v sigma tau : fesd_problem lr cp d o m oc C -> free_of_relaxation m (the_ocp oc) -> elastic (the_opts C) = true -> (0 <= o_s_elastic_min (the_opts C))%Q ->
  solution_of C v -> v SElastic = 0 -> 0 < sigma <= v SSigma ->
  solution_of C (with_relaxation v sigma tau) /\
  forall v', feasible v' (the_nlp C) -> same_data C v' v -> v' SElastic = 0 -> plain_cost (the_opts C) (cn_tab C) m (the_ocp oc) v <= plain_cost (the_opts C) (cn_tab C) m (the_ocp oc) v'.
Proof. intros FP FR. exact (elastic_exact lr cp d o m oc C FP FR v sigma tau). Qed.
Print Assumptions C111_exact.
Example C111_exact_case : is_problem optsE model3 None CE /\ free_of_relaxation model3 (the_ocp None) /\ elastic (the_opts CE) = true /\ (0 <= o_s_elastic_min (the_opts CE))%Q /\
  forall k, solution_of CE (shrinking k) /\ shrinking k SElastic = 0 /\ 0 < shrinking k SSigma.
Proof. exact exact_case. Qed.
(* elastic modes: every pass bounds the least objective of the points without relaxation from below, and the relaxation is at most sigma times the gap *)
Theorem C111_rate lr cp d o m oc C v v' : fesd_problem lr cp d o m oc C -> free_of_relaxation m (the_ocp oc) -> elastic (the_opts C) = true -> (0 <= o_s_elastic_min (the_opts C))%Q ->
  solution_of C v -> 0 < v SSigma -> feasible v' (the_nlp C) -> same_data C v' v -> v' SElastic = 0 ->
  plain_cost (the_opts C) (cn_tab C) m (the_ocp oc) v <= plain_cost (the_opts C) (cn_tab C) m (the_ocp oc) v' /\
  0 <= v SElastic <= v SSigma * (plain_cost (the_opts C) (cn_tab C) m (the_ocp oc) v' - plain_cost (the_opts C) (cn_tab C) m (the_ocp oc) v).
Proof. intros FP FR. exact (elastic_rate lr cp d o m oc C FP FR v v'). Qed.
Print Assumptions C111_rate.
Example C111_rate_case : exists v v', solution_of CW v /\ 0 < v SSigma /\ feasible v' (the_nlp CW) /\ same_data CW v' v /\ v' SElastic = 0 /\ 0 < v SElastic.
Proof. exact caseR. Qed.
(* the passes of solve(): if the NLP solver finds a global solution in a pass, no later pass finds a feasible point with a smaller objective *)
Theorem C111_run_scholtes lr cp d o m oc C nlp s s' out i j h h' v v' : fesd_problem lr cp d o m oc C -> free_of_relaxation m (the_ocp oc) -> o_mpcc (the_opts C) = ScholtesIneq ->
  sized C m s -> 0 < Q2R (o_sigma_0 (the_opts C)) -> 0 < Q2R (o_slope (the_opts C)) < 1 -> solve nlp C s = (s', Ok out) ->
  (i < j)%nat -> nth_error (so_steps out) i = Some h -> nth_error (so_steps out) j = Some h' ->
  parameters C v = nc_p (hs_call h) -> parameters C v' = nc_p (hs_call h') -> solution_of C v -> feasible v' (the_nlp C) ->
  eval v (cost (the_nlp C)) <= eval v' (cost (the_nlp C)).
Proof. intros FP FR. exact (run_scholtes lr cp d o m oc C FP FR nlp s s' out i j h h' v v'). Qed.
Print Assumptions C111_run_scholtes.
Theorem C111_run_elastic lr cp d o m oc C nlp s s' out i j h h' v v' : fesd_problem lr cp d o m oc C -> free_of_relaxation m (the_ocp oc) -> elastic (the_opts C) = true ->
  sized C m s -> 0 < Q2R (o_sigma_0 (the_opts C)) -> 0 < Q2R (o_slope (the_opts C)) < 1 -> solve nlp C s = (s', Ok out) ->
  (i < j)%nat -> nth_error (so_steps out) i = Some h -> nth_error (so_steps out) j = Some h' ->
  parameters C v = nc_p (hs_call h) -> parameters C v' = nc_p (hs_call h') -> solution_of C v -> solution_of C v' ->
  plain_cost (the_opts C) (cn_tab C) m (the_ocp oc) v <= plain_cost (the_opts C) (cn_tab C) m (the_ocp oc) v' /\ v' SElastic <= v SElastic.
Proof. intros FP FR. exact (run_elastic lr cp d o m oc C FP FR nlp s s' out i j h h' v v'). Qed.
Print Assumptions C111_run_elastic.
Example C111_run_case nlp : answers CV nlp -> sized CV modelV (initial_state CV) /\ 0 < Q2R (o_sigma_0 (the_opts CV)) /\ 0 < Q2R (o_slope (the_opts CV)) < 1 /\
  exists s' out, solve nlp CV (initial_state CV) = (s', Ok out).
Proof. exact (runV nlp). Qed.
Example C111_run_elastic_case nlp : answers CW nlp -> sized CW modelV (initial_state CW) /\ 0 < Q2R (o_sigma_0 (the_opts CW)) /\ 0 < Q2R (o_slope (the_opts CW)) < 1 /\
  exists s' out, solve nlp CW (initial_state CW) = (s', Ok out).
Proof. exact (runW nlp). Qed.
(* SCHOLTES_EQ: the objective may fall *)
Theorem C111_equality_refuted : exists o m oc C v v', is_problem o m (Some oc) C /\ o_mpcc (the_opts C) = ScholtesEq /\ free_of_relaxation m oc /\
  solution_of C v /\ solution_of C v' /\ same_data C v v' /\ 0 < v' SSigma < v SSigma /\ eval v' (cost (the_nlp C)) < eval v (cost (the_nlp C)).
Proof. exact equality_falls. Qed.
Print Assumptions C111_equality_refuted.
