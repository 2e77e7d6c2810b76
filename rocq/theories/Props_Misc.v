(* Props_Misc.v -- problem.print() (C66) and models used more than once (C69) *)
From Verif Require Import Base Lib Sx Utils Tableau Opts Model Ocp Problem Spec Cases Spec7 Reuse_proofs Witness6.
Local Open Scope nat_scope.

(* ---- C66 ---- *)
(* the errors counted are the variables with crossed bounds or with a guess below the lower bound.
   Missing: guesses above the upper bound, which are not counted (line 878 compares ubw with ubw) *)
Theorem C66_counted_partial lr cp d o m oc C : construct_problem lr cp d o m oc = Ok C ->
  let f := the_nlp C in exists ps, NoDup ps /\ length ps = print_errors (lbw f) (ubw f) (w0 f) /\
  forall i, In i ps <-> crossed (lbw f) (ubw f) i \/ too_low (lbw f) (w0 f) i.
Proof. exact (print_con lr cp d o m oc C). Qed.
Print Assumptions C66_counted_partial.
Example C66_case : build optsA model1 (Some ocpL) = Ok CL /\ print_errors (lbw (the_nlp CL)) (ubw (the_nlp CL)) (w0 (the_nlp CL)) = 2.
Proof. split; [exact builtL|vm_compute; reflexivity]. Qed.
Theorem C66_refuted : exists o m oc C i, construct_problem case_log_round case_cpoints ipopt_init o m oc = Ok C /\
  too_high (ubw (the_nlp C)) (w0 (the_nlp C)) i /\ print_errors (lbw (the_nlp C)) (ubw (the_nlp C)) (w0 (the_nlp C)) = 0.
Proof. destruct too_highG as [i H]. exists optsA, model1, (Some ocpG), CG, i. exact (conj madeG (conj H silentG)). Qed.
Print Assumptions C66_refuted.

(* ---- C69 ---- *)
(* with the same number of control stages a used model (z0, lbz, ubz, p_time_var_val filled in) gives the
   same outcome as a fresh one, whatever the other options and the OCP *)
Theorem C69_same_stages_partial lr cp d d' o m oc C o2 oc2 : construct_problem lr cp d o m oc = Ok C -> o_N_stages o2 = o_N_stages o ->
  construct_problem lr cp d' o2 (pm_m (pr_pm (cn_prob C))) oc2 = construct_problem lr cp d' o2 m oc2.
Proof. exact (construct_again lr cp d d' o m oc C o2 oc2). Qed.
Print Assumptions C69_same_stages_partial.
Example C69_case : build optsS model3 None = Ok CS /\ o_N_stages optsS = o_N_stages default_opts /\ optsS <> default_opts /\
  m_ptv_val model3 = None /\ m_ptv_val (pm_m (pr_pm (cn_prob CS))) = Some [[]].
Proof. split; [exact builtS|]. split; [reflexivity|]. split; [discriminate|]. split; vm_compute; reflexivity. Qed.
(* with another number it always raises *)
Theorem C69_other_stages lr cp d d' o m oc C o2 oc2 C2 : construct_problem lr cp d o m oc = Ok C -> o_N_stages o2 <> o_N_stages o ->
  construct_problem lr cp d' o2 (pm_m (pr_pm (cn_prob C))) oc2 <> Ok C2.
Proof. exact (construct_other lr cp d d' o m oc C o2 oc2 C2). Qed.
Print Assumptions C69_other_stages.
Theorem C69_refuted : exists o o2 m C C2, build o m None = Ok C /\ build o2 m None = Ok C2 /\
  build o2 (pm_m (pr_pm (cn_prob C))) None = Err EException.
Proof. exists optsS, opts2, model3, CS, (get _ fresh2). split; [exact builtS|]. split; [apply get_ok|exact reused2]. Qed.
Print Assumptions C69_refuted.
