(* Props_Atomic.v -- C105: calls of set() that raise *)
From Coq Require Import Reals Qreals.
From Verif Require Import Base Sx Utils Tableau Opts Model Ocp Problem Results Solver Spec Spec2 Spec4 Spec5 Cases Witness Spec33 Atomic_proofs Atomic2_proofs.
Local Open Scope R_scope.

(* x0, u, v_global, p_global, unknown fields, and x and theta with a wrong number of rows: nothing is changed *)
Theorem C105_unchanged_partial lr cp d o m oc C fv s s' e : construct_problem lr cp d o m oc = Ok C -> sized C m s -> writes_once C fv -> set C fv s = (s', Err e) -> s' = s.
Proof. intros H. exact (set_atomic lr cp d o m oc C H fv s s' e). Qed.
Print Assumptions C105_unchanged_partial.
Example C105_case : is_problem optsB2 model2 None CB2 /\ sized CB2 model2 startB2 /\ writes_once CB2 (SetX [[0; 0]; [0; 0]; [0; 0]]) /\
  set CB2 (SetX [[0; 0]; [0; 0]; [0; 0]]) startB2 = (startB2, Err EValueError) /\ writes_once CB2 (SetPGlobal [1; 2; 3]) /\
  snd (set CB2 (SetPGlobal [1; 2; 3]) startB2) = Err EValueError.
Proof. exact refused_case. Qed.

(* p_time_var with too few rows: the rows that are there are written, then IndexError is raised *)
Theorem C105_time_var lr cp d o m oc C v s : construct_problem lr cp d o m oc = Ok C -> sized C m s -> (length v < o_N_stages (the_opts C))%nat -> (forall r, In r v -> length r = m_npt m) ->
  set C (SetPTimeVar v) s = (mkState (ss_x0 s) (with_p_time_var m v (ss_pval s) ++ skipn (length v) (ss_pval s)) (ss_w0 s) (ss_calls s), Err EIndexError).
Proof. intros H. exact (time_var_short lr cp d o m oc C H v s). Qed.
Print Assumptions C105_time_var.
Theorem C105_time_var_refuted : exists o m C s v, is_problem o m None C /\ sized C m s /\ (forall r, In r v -> length r = m_npt m) /\
  exists s', set C (SetPTimeVar v) s = (s', Err EIndexError) /\ ss_pval s = [[0]; [0]] /\ ss_pval s' = [[1]; [0]].
Proof. exact half_written. Qed.
Print Assumptions C105_time_var_refuted.
(* w (and x, C41_x_stages): the guess is replaced, then Warning is raised: finding *)
Theorem C105_warning_refuted : exists o m oc C s v s', is_problem o m oc C /\ sized C m s /\ right_shape C m (ASet (SetW v)) /\
  set C (SetW v) s = (s', Err EWarning) /\ ss_w0 s' = v /\ s' <> s.
Proof. exact warned_written. Qed.
Print Assumptions C105_warning_refuted.
