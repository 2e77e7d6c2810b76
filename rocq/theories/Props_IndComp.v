(* Props_IndComp.v -- C79: problem.ind_comp and the complementarity rows *)
From Coq Require Import Sorted.
From Verif Require Import Base Sx Utils Tableau Opts Model Ocp Problem Spec Cases Fesd Spec13 Spec2 Witness IndComp_proofs.

(* ---- C79 ---- *)
(* for constraint_handling EXACT; with LEAST_SQUARES there are no rows left, see below *)
(* one list per stage and element, no row twice, every index a row of g *)
Theorem C79_indices_partial lr cp d o m oc C : construct_problem lr cp d o m oc = Ok C -> o_constr o = Exact -> well_sized m ->
  let ic := p_ind_comp (the_problem C) in
  length ic = o_N_stages (the_opts C) /\
  (forall c nfe, nth_error (o_Nfe_list (the_opts C)) c = Some nfe -> c < o_N_stages (the_opts C) ->
     exists ls, nth_error ic c = Some ls /\ length ls = nfe) /\
  StronglySorted lt (concat (concat (concat ic))) /\
  (forall i, In i (concat (concat (concat ic))) -> i < length (g (the_nlp C))).
Proof. exact (con_ind_comp_places lr cp d o m oc C). Qed.
Print Assumptions C79_indices_partial.

(* the rows listed for an element say exactly what its complementarity conditions say *)
Theorem C79_rows_partial lr cp d o m oc C : construct_problem lr cp d o m oc = Ok C -> o_constr o = Exact -> well_sized m ->
  o_mpcc o <> MBoolean -> forall rho c e l, c < o_N_stages (the_opts C) ->
    at2 (p_ind_comp (the_problem C)) c e = Some l ->
    (rows_hold rho (the_nlp C) (concat l) <-> element_comp (the_opts C) (cn_tab C) m (the_ocp oc) rho c e).
Proof. exact (con_ind_comp_rows lr cp d o m oc C). Qed.
Print Assumptions C79_rows_partial.

(* BOOLEAN: the rows also involve the added binary variables, so only one direction can hold *)
Theorem C79_rows_bool_partial lr cp d o m oc C : construct_problem lr cp d o m oc = Ok C -> o_constr o = Exact -> well_sized m ->
  forall rho c e l, c < o_N_stages (the_opts C) -> at2 (p_ind_comp (the_problem C)) c e = Some l ->
    rows_hold rho (the_nlp C) (concat l) -> element_comp (the_opts C) (cn_tab C) m (the_ocp oc) rho c e.
Proof. exact (con_ind_comp_rows_bool lr cp d o m oc C). Qed.
Print Assumptions C79_rows_bool_partial.

(* two stages with 1 and 2 elements *)
Example C79_case : build optsA model1 (Some ocp1) = Ok CA /\ o_constr optsA = Exact /\ well_sized model1 /\ o_mpcc optsA <> MBoolean /\
  p_ind_comp (the_problem CA) = [[[[12]; [13]; [14; 15]; [16; 17]]];
    [[[32]; [33]; [34; 35]; [36; 37]]; [[50]; [51]; [52]; [53; 54]; [55; 56]]]] /\ length (g (the_nlp CA)) = 60.
Proof.
  split; [exact builtA|]. split; [reflexivity|]. split; [exact sized1|]. split; [discriminate|]. split; vm_compute; reflexivity.
Qed.

(* with least squares constraints the rows are gone but their indices stay *)
Theorem C79_refuted : exists o m oc C i, build o m (Some oc) = Ok C /\ o_constr o = LeastSquares /\
  In i (concat (concat (concat (p_ind_comp (the_problem C))))) /\ g (the_nlp C) = [].
Proof.
  exists (with_constr optsL LeastSquares), model5, (ocpL (Fin 7)), CL2.
  exists (hd 0 (concat (concat (concat (p_ind_comp (the_problem CL2)))))).
  split; [exact builtL2|]. split; [reflexivity|]. split; [vm_compute; left; reflexivity|vm_compute; reflexivity].
Qed.
Print Assumptions C79_refuted.
