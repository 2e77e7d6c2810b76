(* Props_Opts.v -- C25, C26, C53, C54, C55, C57: options. *)
From Coq Require Import Reals Qreals.
From Verif Require Import Base Sx Utils Tableau Opts Model Ocp Problem Spec Cases Opts_proofs Opts2_proofs.

(* ---- C25 ---- *)
Theorem C25_radau_raises_NotImplementedError_partial n : n = 0 \/ 9 < n -> generate_butcher_tableu n RadauIIA = Err ENotImplemented.
Proof. exact (fun H => proj1 (tableau_unsupported n H)). Qed.
Print Assumptions C25_radau_raises_NotImplementedError_partial.
(* Gauss-Legendre: the call fails for the same n_s, but with UnboundLocalError *)
Theorem C25_gauss_raises n : n = 0 \/ 9 < n -> generate_butcher_tableu n GaussLegendre = Err EUnboundLocal.
Proof. exact (fun H => proj2 (tableau_unsupported n H)). Qed.
Print Assumptions C25_gauss_raises.
Theorem C25_gauss_refuted : exists n, (n = 0 \/ 9 < n) /\ generate_butcher_tableu n GaussLegendre <> Err ENotImplemented.
Proof. exists 10. split; [right; repeat constructor|discriminate]. Qed.
Print Assumptions C25_gauss_refuted.
Theorem C25_supported n s : 1 <= n <= 9 -> exists bt, generate_butcher_tableu n s = Ok bt.
Proof. exact (tableau_supported n s). Qed.
Print Assumptions C25_supported.

(* ---- C26 ---- *)
(* For INTEGRAL the points come from CasADi: Radau points end in 1, Gauss points stay below. *)
Theorem C26_right_boundary_point lr cp d o d' o' t : preprocess lr cp d o = Ok (d', o', t) ->
  (o_repr o = Integral -> exists pts tl, cp (o_ns o) (o_scheme o) = pts ++ [tl] /\
      match o_scheme o with RadauIIA => (tl == 1)%Q | GaussLegendre => (tl <= 1 - (1 # 1000000000))%Q end) ->
  t_rbe t = match o_scheme o with RadauIIA => true | GaussLegendre => false end.
Proof.
  exact (fun H => make_tab_rbe cp o t (proj1 (proj2 (proj2 (preprocess_parts lr cp d o d' o' t H))))).
Qed.
Print Assumptions C26_right_boundary_point.
Example C26_case : match preprocess case_log_round case_cpoints ipopt_init optsA, preprocess case_log_round case_cpoints ipopt_init optsB with
  | Ok (_, _, t), Ok (_, _, t') => t_rbe t = true /\ t_rbe t' = false /\ o_repr optsA = Integral /\ case_cpoints 2 RadauIIA = [(1#3)%Q] ++ [1%Q]
  | _, _ => False end.
Proof. vm_compute. repeat split. Qed.

(* ---- C53 ---- *)
Theorem C53_preprocess_twice lr cp d o d' o' t :
  preprocess lr cp d o = Ok (d', o', t) -> preprocess lr cp d' o' = Ok (d', o', t).
Proof. exact (preprocess_again lr cp d o d' o' t). Qed.
Print Assumptions C53_preprocess_twice.
Example C53_case : match preprocess case_log_round case_cpoints ipopt_init optsB with
  | Ok (d', o', _) => o_Nfe_list o' = [2] /\ o_max_iter_homotopy o' = 9 /\ o_Nfe_list optsB = [] /\ ip_tol d' <> None
  | Err _ => False end.
Proof. vm_compute. repeat split. discriminate. Qed.

(* ---- C54 ---- *)
(* the iteration number, Nfe_list and the IPOPT tolerance of the first preprocess() stay, whatever is reassigned *)
Theorem C54_derived_options_are_kept lr cp d o d1 o1 t1 n nfe ct s0 sl d2 o2 t2 :
  preprocess lr cp d o = Ok (d1, o1, t1) ->
  preprocess lr cp d1 (reassign o1 n nfe ct s0 sl) = Ok (d2, o2, t2) ->
  o_max_iter_homotopy o2 = o_max_iter_homotopy o1 /\
  (o_Nfe_list o1 <> [] -> o_Nfe_list o2 = o_Nfe_list o1) /\ ip_tol d2 = ip_tol d1.
Proof. exact (reassign_kept lr cp d o d1 o1 t1 n nfe ct s0 sl d2 o2 t2). Qed.
Print Assumptions C54_derived_options_are_kept.
(* so the property fails: N_stages 1 -> 3 leaves one entry in Nfe_list where a fresh object has three *)
Theorem C54_refuted : exists lr cp d o n,
  match preprocess lr cp d o with
  | Ok (d1, o1, _) =>
      match preprocess lr cp d1 (reassign o1 n 2 (1#1000) 1 (1#10)), preprocess lr cp d (reassign o n 2 (1#1000) 1 (1#10)) with
      | Ok (d2, o2, _), Ok (d3, o3, _) =>
          o_Nfe_list o2 = [2] /\ o_Nfe_list o3 = [2; 2; 2] /\ ip_tol d2 <> ip_tol d3
      | _, _ => False end
  | Err _ => False end.
Proof. exists case_log_round, case_cpoints, ipopt_init, default_opts, 3. vm_compute. repeat split. discriminate. Qed.
Print Assumptions C54_refuted.
(* it holds if nothing was derived the first time *)
Theorem C54_fresh_if_nothing_derived_partial lr cp d o d1 o1 t1 n nfe ct s0 sl :
  o_max_iter_homotopy o <> 0 -> o_Nfe_list o <> [] -> ip_tol d <> None ->
  preprocess lr cp d o = Ok (d1, o1, t1) ->
  preprocess lr cp d1 (reassign o1 n nfe ct s0 sl) = preprocess lr cp d (reassign o n nfe ct s0 sl).
Proof. exact (reassign_fresh lr cp d o d1 o1 t1 n nfe ct s0 sl). Qed.
Print Assumptions C54_fresh_if_nothing_derived_partial.
Definition opts_explicit : opts := with_misc (with_grid default_opts 2 [1; 2]) Exact false false false true 2 5 AllXcurrentW0Start.
Example C54_case : o_max_iter_homotopy opts_explicit = 5 /\ o_Nfe_list opts_explicit = [1; 2] /\
  is_ok (preprocess case_log_round case_cpoints (mkIpopt (Some 1%Q) 500) opts_explicit) = true.
Proof. vm_compute. repeat split. Qed.

(* ---- C55 ---- *)
(* a tolerance or iteration limit set on one object is read by all of them *)
Theorem C55_shared_tolerance w i v w' j :
  ow_set_tol w i v = Ok w' -> j < length (ow_objs w) -> ow_tol w' j = Some (Some v).
Proof. exact (ow_shared_tol w i v w' j). Qed.
Print Assumptions C55_shared_tolerance.
Theorem C55_shared_iteration_limit w i v w' j :
  ow_set_max_iter w i v = Ok w' -> j < length (ow_objs w) -> ow_max_iter w' j = Some v.
Proof. exact (ow_shared_max_iter w i v w' j). Qed.
Print Assumptions C55_shared_iteration_limit.
(* setting one of the two keeps the other, and all other options *)
Theorem C55_setters_keep_the_rest w i v n w1 w2 j : ow_set_tol w i v = Ok w1 -> ow_set_max_iter w i n = Ok w2 ->
  ow_max_iter w1 j = ow_max_iter w j /\ ow_objs w1 = ow_objs w /\ ow_tol w2 j = ow_tol w j /\ ow_objs w2 = ow_objs w.
Proof. exact (ow_setters w i v n w1 w2 j). Qed.
Print Assumptions C55_setters_keep_the_rest.
Theorem C55_refuted : exists w i j v w', i <> j /\ ow_set_tol w i v = Ok w' /\ ow_tol w j = Some None /\ ow_tol w' j = Some (Some v).
Proof. exists (mkWorld ipopt_init [default_opts; default_opts]), 0, 1, (1#10)%Q. eexists. repeat split. discriminate. Qed.
Print Assumptions C55_refuted.
(* preprocess() of a loose object fixes the tolerance of a tight one: comp_tol = 1e-8 gets 1e-5 instead of 1e-10 *)
Theorem C55_derived_tolerance_refuted : exists w w1 w2,
  ow_preprocess case_log_round case_cpoints w 0 = Ok w1 /\ ow_preprocess case_log_round case_cpoints w1 1 = Ok w2 /\
  match nth_error (ow_objs w) 1, ow_tol w2 1 with
  | Some o, Some (Some tol) => (o_comp_tol o < tol)%Q
  | _, _ => False end.
Proof.
  exists (mkWorld ipopt_init [reassign default_opts 1 2 (1#1000) 1 (1#10); default_opts]).
  eexists; eexists. split; [vm_compute; reflexivity|]. split; vm_compute; reflexivity.
Qed.
Print Assumptions C55_derived_tolerance_refuted.
(* every other option belongs to its object *)
Theorem C55_other_options_are_own_partial lr cp w i w' : ow_preprocess lr cp w i = Ok w' ->
  forall j, j <> i -> nth_error (ow_objs w') j = nth_error (ow_objs w) j.
Proof. exact (ow_own lr cp w i w'). Qed.
Print Assumptions C55_other_options_are_own_partial.

(* ---- C57 ---- *)
(* an unsupported combination is accepted like any other *)
Theorem C57_refuted : exists lr cp d o, unsupported_combination o = true /\ is_ok (preprocess lr cp d o) = true.
Proof.
  exists case_log_round, case_cpoints, ipopt_init, (with_modes default_opts Stewart FischerBurmeister SumLambdas Direct SotNone true true).
  vm_compute. split; reflexivity.
Qed.
Print Assumptions C57_refuted.
(* acceptance depends on the tableau only *)
Theorem C57_accepted_whenever_tableau_exists lr cp d o : is_ok (preprocess lr cp d o) = is_ok (make_tab cp o).
Proof. exact (preprocess_accepts lr cp d o). Qed.
Print Assumptions C57_accepted_whenever_tableau_exists.
(* and so is each of them: whatever cross complementarity, MPCC and step equilibration mode is chosen with
   constraints kept exact *)
Theorem C57_every_combination_refuted cm mp st :
  (cm = SumLambdas /\ (mp = FischerBurmeister \/ mp = FischerBurmeisterIpAug)) \/ mp = FischerBurmeister \/
  st = Direct \/ st = DirectComplementarity ->
  exists lr cp d o, o_cross o = cm /\ o_mpcc o = mp /\ o_step_eq o = st /\ o_constr o = Exact /\
    unsupported_combination o = true /\ is_ok (preprocess lr cp d o) = true.
Proof.
  intros H. exists case_log_round, case_cpoints, ipopt_init, (with_modes default_opts Stewart mp cm st SotNone true true).
  destruct H as [[-> [->| ->]]|[->|[->| ->]]]; [destruct st|destruct st|destruct cm, st|destruct cm, mp|destruct cm, mp];
    vm_compute; auto 10.
Qed.
Print Assumptions C57_every_combination_refuted.
