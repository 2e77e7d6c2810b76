(* Props_Extras.v -- create_function_calculate_vector_field (C80), rootfinder_for_initial_z (C81),
   NosnocProblem.dump (C82). Vocabulary: Spec15.v. *)
From Coq Require Import Reals Qreals Lra.
From Verif Require Import Base Sx Utils Tableau Opts Model Ocp Problem Numeric Rk4 Results Solver Spec Cases Fesd Spec2 Spec3 Spec5
  Witness Witness2 Witness3 Extras Spec15 VField_proofs Root_proofs.
Local Open Scope R_scope.

(* ---- C80 ---- *)
(* Stewart: the function is created; the argument of its root system is (g_1, ..., g_n) of all modes.
   Missing: calling it (it always raises, below) and what the root is (not Stewart's weights, below). *)
Theorem C80_created_partial o m pm s : preprocess_model o m = Ok pm -> well_sized m ->
  (o_pss o = Step -> create_vector_field o pm s = Err ENotImplemented) /\
  (o_pss o = Stewart -> exists vf, create_vector_field o pm s = Ok vf /\ vf_n vf = upto (n_subsystems m) (n_modes m) /\
   forall x z p, length x = m_nx m -> length z = m_nz m -> length p = (m_npt m + m_npg m)%nat ->
     exists l, numcall (vf_gfun vf) [x; z; p] = Ok l /\ length l = vf_n vf /\
       forall s k, (s < n_subsystems m)%nat -> (k < n_modes m s)%nat ->
         nth_error l (offset (n_modes m) s k) = Some (region_value m (initial_point m x z p) s k)).
Proof. intros HP WS. split; [exact (vf_step o pm s)|intros Ep; exact (vf_created o m pm HP WS Ep s)]. Qed.
Print Assumptions C80_created_partial.
(* for every g and sigma > 0 the root system has exactly one root; its weights are positive and sum up to one *)
Theorem C80_one_root o pm s vf g : create_vector_field o pm s = Ok vf -> 0 < Q2R s -> (0 < vf_n vf)%nat ->
  exists th mu, vf_root vf g th mu /\ rupto (vf_n vf) th = 1 /\ (forall i, (i < vf_n vf)%nat -> 0 < th i) /\
  forall th' mu', vf_root vf g th' mu' -> mu' = mu /\ forall i, (i < vf_n vf)%nat -> th' i = th i.
Proof. exact (one_root o pm s vf g). Qed.
Print Assumptions C80_one_root.
(* the weights are those of the point of the simplex next to -g, up to sigma *)
Theorem C80_projection o pm s vf g th mu tau : create_vector_field o pm s = Ok vf -> 0 < Q2R s -> vf_root vf g th mu -> simplex (vf_n vf) tau ->
  half_distance2 (vf_n vf) g th + distance2n (vf_n vf) tau th / 2 <= half_distance2 (vf_n vf) g tau + INR (vf_n vf) * (Q2R s * Q2R s) / 2.
Proof. exact (root_projection o pm s vf g th mu tau). Qed.
Print Assumptions C80_projection.
Example C80_case : create_vector_field default_opts p3 (1#100) = Ok (vf3 (1#100)) /\ vf_n (vf3 (1#100)) = 2%nat /\
  preprocess_model default_opts model3 = Ok p3 /\ well_sized model3 /\ simplex 2 (fun i => nth i [1; 0] 0).
Proof. exact vf_case. Qed.
(* the function always raises: there is no model.F_fun *)
Theorem C80_call_refuted : exists o m pm s vf, preprocess_model o m = Ok pm /\ create_vector_field o pm s = Ok vf /\
  forall root p v x u z l, call_vector_field root pm vf p v x u z <> Ok l.
Proof.
  exists default_opts, model3, p3, (1#100)%Q, (vf3 (1#100)). split; [exact p3_is|]. split; [exact (proj1 vf_case)|].
  intros root p v x u z l. exact (vf_call_fails p3 root _ p v x u z l).
Qed.
Print Assumptions C80_call_refuted.
Theorem C80_never_returns pm vf root p v x u z l : call_vector_field root pm vf p v x u z <> Ok l.
Proof. exact (vf_call_fails pm root vf p v x u z l). Qed.
Print Assumptions C80_never_returns.
(* and its weights are not Stewart's, however small sigma is: x' = 3 for x < 0 and x' = 1 for x > 0 is given at
   x = -1/4 at least 1/8 of the mode of x > 0 *)
Theorem C80_weights_refuted : exists o m pm x, preprocess_model o m = Ok pm /\ well_sized m /\ o_pss o = Stewart /\
  forall s, 0 < Q2R s <= 1/12 -> exists vf gx, create_vector_field o pm s = Ok vf /\ numcall (vf_gfun vf) [x; []; []] = Ok gx /\
  gx = [-1/4; 1/4] /\ selects_least (vf_n vf) (fun i => nth i gx 0) (fun i => nth i [1; 0] 0) /\
  forall th mu, vf_root vf (fun i => nth i gx 0) th mu -> 1/8 <= th 1%nat.
Proof. exact wrong_weights. Qed.
Print Assumptions C80_weights_refuted.
(* several subsystems: the weights of all of them together sum up to one *)
Theorem C80_subsystems_refuted : exists o m pm s vf, preprocess_model o m = Ok pm /\ well_sized m /\ create_vector_field o pm s = Ok vf /\
  n_subsystems m = 2%nat /\ forall g th mu, vf_root vf g th mu ->
  ~ (forall s, (s < n_subsystems m)%nat -> rupto (n_modes m s) (fun k => th (offset (n_modes m) s k)) = 1).
Proof. exact two_subsystems_wrong. Qed.
Print Assumptions C80_subsystems_refuted.

(* ---- C81 ---- *)
(* rootfinder_for_initial_z: lambda00 is evaluated at a z that solves the algebraic equations at x0 and the
   parameters of the first stage *)
Theorem C81_stewart o m pm f root x0 pval p0 l : preprocess_model_root o m = Ok (pm, f) -> well_sized m -> o_pss o = Stewart -> rootfinder root f ->
  length x0 = m_nx m -> nth_error pval 0 = Some p0 -> length p0 = (m_npt m + m_npg m)%nat -> compute_lambda00_root root pm f x0 pval = Ok l ->
  exists z, length z = m_nz m /\ consistent_z m x0 z p0 /\ let v0 := initial_point m x0 z p0 in
  exists mn, length l = upto (n_subsystems m) (n_modes m) /\
   (forall s, (s < n_subsystems m)%nat -> least (n_modes m s) (region_value m v0 s) (mn s) /\
     forall k, (k < n_modes m s)%nat -> nth_error l (offset (n_modes m) s k) = Some (region_value m v0 s k - mn s)) /\
   forall v, (forall y, In y (mx m ++ mz m ++ mp m) -> v y = v0 y) -> forall e, In e (cf_out (pm_gsw_fun pm)) ->
     eval (with_lambda v (fun s k => nth (offset (n_modes m) s k) l 0) (fun s _ => - mn s)) e = 0.
Proof. intros HR. exact (root_stewart o m pm f HR root x0 pval p0 l). Qed.
Print Assumptions C81_stewart.
Theorem C81_step o m pm f root x0 pval p0 l : preprocess_model_root o m = Ok (pm, f) -> well_sized m -> o_pss o = Step -> gS_given m = false -> rootfinder root f ->
  length x0 = m_nx m -> nth_error pval 0 = Some p0 -> length p0 = (m_npt m + m_npg m)%nat -> compute_lambda00_root root pm f x0 pval = Ok l ->
  exists z, length z = m_nz m /\ consistent_z m x0 z p0 /\ let v0 := initial_point m x0 z p0 in let D := fun s => (2 * n_switch m s)%nat in
  length l = upto (n_subsystems m) D /\
  forall s k, (s < n_subsystems m)%nat -> (k < n_switch m s)%nat ->
    exists ln lp, nth_error l (offset D s k) = Some ln /\ nth_error l (offset D s (n_switch m s + k)) = Some lp /\
      0 <= ln /\ 0 <= lp /\ lp - ln = switch_value m v0 s k /\ lp * ln = 0.
Proof. intros HR. exact (root_step o m pm f HR root x0 pval p0 l). Qed.
Print Assumptions C81_step.
Example C81_case : exists root, rootfinder root (snd root_zc) /\ preprocess_model_root default_opts model_zc = Ok (fst root_zc, snd root_zc) /\ well_sized model_zc /\
  compute_lambda00_root root (fst root_zc) (snd root_zc) [-1] [[]] = Ok [0; 2] /\
  compute_lambda00 (fst root_zc) [-1] [[]] = Ok [2; 0].
Proof. exact root_case. Qed.
(* the option cannot be used with algebraic equations that contain a control *)
Theorem C81_controls_refused o m e i : In e (m_gz m) -> In (MU i) (fv e) -> forall r, preprocess_model_root o m <> Ok r.
Proof. exact (root_controls o m e i). Qed.
Print Assumptions C81_controls_refused.
(* without the option, lambda00 is evaluated at the user's guess z0 and need not belong to the initial state *)
Theorem C81_refuted : exists o m pm l, preprocess_model o m = Ok pm /\ well_sized m /\ o_pss o = Stewart /\
  compute_lambda00 pm (reals (m_x0 m)) (map reals (pm_pval pm)) = Ok l /\
  (exists z, consistent_z m (reals (m_x0 m)) z []) /\
  forall z, length z = m_nz m -> consistent_z m (reals (m_x0 m)) z [] ->
    ~ exists mn, forall k, (k < n_modes m 0)%nat -> least (n_modes m 0) (region_value m (initial_point m (reals (m_x0 m)) z []) 0) mn /\
      nth_error l k = Some (region_value m (initial_point m (reals (m_x0 m)) z []) 0 k - mn).
Proof. exact guess_wrong. Qed.
Print Assumptions C81_refuted.

(* ---- C82 ---- *)
Theorem C82_dumped_parameters_partial lr cp d o m oc C s : construct_problem lr cp d o m oc = Ok C -> well_sized m -> sized C m s ->
  o_pss (the_opts C) = Stewart \/ (gS_given m = false /\ n_subsystems m = 1%nat) ->
  exists v, dump_p0 (pr_pm (cn_prob C)) (ss_x0 s) (ss_pval s) = Ok v /\ Forall2 (belongs C m s 0 0) (p_p (the_problem C)) v.
Proof. exact (dump_belongs lr cp d o m oc C s). Qed.
Print Assumptions C82_dumped_parameters_partial.
Example C82_case : construct_problem case_log_round case_cpoints ipopt_init optsS model3 None = Ok CS /\ well_sized model3 /\ sized CS model3 (initial_state CS) /\ o_pss (the_opts CS) = Stewart.
Proof. exact (conj (proj1 problemS) (conj sized3 (conj initialS eq_refl))). Qed.
Theorem C82_refuted : exists o m C v, is_problem o m None C /\ let s := initial_state C in
  sized C m s /\ dump_p0 (pr_pm (cn_prob C)) (ss_x0 s) (ss_pval s) = Ok v /\ ~ Forall2 (belongs C m s 0 0) (p_p (the_problem C)) v.
Proof. exact dump_wrong. Qed.
Print Assumptions C82_refuted.
