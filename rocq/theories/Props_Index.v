(* Props_Index.v -- C01, C02, C03, C04, C07: layout of the decision vector.
   Every theorem quantifies over the oracles (log_round, collocation points), the shared IPOPT
   dictionary, the options, the model and the OCP of a successful construct_problem. *)
From Verif Require Import Base Sx Utils Tableau Opts Model Ocp Problem Spec Cases Index3_proofs.

(* ---- C01 ---- *)
Theorem C01_index_lists_partition_w lr cp d o m oc C :
  construct_problem lr cp d o m oc = Ok C ->
  NoDup (published (the_problem C)) /\
  (forall i, In i (published (the_problem C)) <-> i < length (w (the_nlp C))).
Proof. exact (partition_exact lr cp d o m oc C). Qed.
Print Assumptions C01_index_lists_partition_w.

Example C01_case : build optsA model1 (Some ocp1) = Ok CA /\
  length (published (the_problem CA)) = 50 /\ nodup Nat.eq_dec (published (the_problem CA)) = published (the_problem CA).
Proof. split; [exact builtA|]. vm_compute. split; reflexivity. Qed.
Example C01_case_boolean : build optsC model2 None = Ok CC /\
  length (published (the_problem CC)) = 160 /\ length (flat3 (p_ind_bool (the_problem CC))) = 32.
Proof. split; [exact builtC|]. vm_compute. split; reflexivity. Qed.

(* ---- C02, C07: the variables, their position and their bounds ---- *)

(* options used are the given ones; only max_iter_homotopy and an absent Nfe_list are filled in *)
Theorem C02_options_of_the_problem lr cp d o m oc C :
  construct_problem lr cp d o m oc = Ok C ->
  the_opts C = set_iter_nfe o (o_max_iter_homotopy (the_opts C))
     (match o_Nfe_list o with [] => repeat (o_N_finite_elements o) (o_N_stages o) | l => l end).
Proof. exact (options_kept lr cp d o m oc C). Qed.
Print Assumptions C02_options_of_the_problem.

(* every index list has one entry per control stage, finite element, RK stage (plus boundary
   point) and subsystem *)
Theorem C02_index_list_shapes lr cp d o m oc C :
  construct_problem lr cp d o m oc = Ok C ->
  (forall c, c < o_N_stages (the_opts C) -> exists nfe, nth_error (o_Nfe_list (the_opts C)) c = Some nfe /\ 0 < nfe) /\
  (forall f, length (p_ind1 (the_problem C) f) = o_N_stages (the_opts C) /\
    forall c, c < o_N_stages (the_opts C) -> exists r, nth_error (p_ind1 (the_problem C) f) c = Some r /\
      nth_error (o_Nfe_list (the_opts C)) c = Some (length r) /\
      forall e, e < length r -> exists rr, nth_error r e = Some rr /\ length rr = points1 (the_opts C) (explicit_end C) f) /\
  (forall f, length (p_ind2 (the_problem C) f) = o_N_stages (the_opts C) /\
    forall c, c < o_N_stages (the_opts C) -> exists r, nth_error (p_ind2 (the_problem C) f) c = Some r /\
      nth_error (o_Nfe_list (the_opts C)) c = Some (length r) /\
      forall e, e < length r -> exists rr, nth_error r e = Some rr /\
        map (@length _) rr = repeat (n_subsystems m) (points2 (the_opts C) (explicit_end C) (length r) e f)).
Proof. exact (shapes_con lr cp d o m oc C). Qed.
Print Assumptions C02_index_list_shapes.

(* ind_x, ind_v, ind_z *)
Theorem C02_C07_states_v_z lr cp d o m oc C :
  construct_problem lr cp d o m oc = Ok C ->
  forall c e nfe f j, is_fe (the_opts C) c e nfe -> j < points1 (the_opts C) (explicit_end C) f ->
  exists idx, at3 (p_ind1 (the_problem C) f) c e j = Some idx /\
    sel (w (the_nlp C)) idx = Ok (map (S1 f c e j) (seq 0 (dim1 (the_opts C) m f))) /\
    sel (lbw (the_nlp C)) idx = Ok (match f with FX => given (oc_lbx (the_ocp oc)) (m_nx m) NInf
        | FV => repeat NInf (dim1 (the_opts C) m FV) | FZ => given (m_lbz m) (m_nz m) NInf end) /\
    sel (ubw (the_nlp C)) idx = Ok (match f with FX => given (oc_ubx (the_ocp oc)) (m_nx m) PInf
        | FV => repeat PInf (dim1 (the_opts C) m FV) | FZ => given (m_ubz m) (m_nz m) PInf end).
Proof. exact (idx1_con lr cp d o m oc C). Qed.
Print Assumptions C02_C07_states_v_z.

Example C02_case_x : build optsA model1 (Some ocp1) = Ok CA /\ is_fe (the_opts CA) 1 1 2 /\
  1 < points1 (the_opts CA) (explicit_end CA) FX /\
  at3 (p_ind1 (the_problem CA) FX) 1 1 1 = Some [43; 44] /\
  sel (w (the_nlp CA)) [43; 44] = Ok [S1 FX 1 1 1 0; S1 FX 1 1 1 1] /\
  sel (lbw (the_nlp CA)) [43; 44] = Ok [Fin (-10); NInf].
Proof. split; [exact builtA|]. unfold is_fe. vm_compute. repeat split; repeat constructor. Qed.

(* ind_theta, ind_lam, ind_mu, ind_alpha, ind_lambda_n, ind_lambda_p *)
Theorem C02_C07_algebraic_variables lr cp d o m oc C :
  construct_problem lr cp d o m oc = Ok C ->
  forall c e nfe f j s, is_fe (the_opts C) c e nfe -> j < points2 (the_opts C) (explicit_end C) nfe e f ->
  s < n_subsystems m ->
  exists idx, at4 (p_ind2 (the_problem C) f) c e j s = Some idx /\
    sel (w (the_nlp C)) idx = Ok (map (S2 f c e j s) (seq 0 (dim2 (the_opts C) m f s))) /\
    sel (lbw (the_nlp C)) idx = Ok (repeat (match f with FMu => NInf | _ => lb_dual (the_opts C) end) (dim2 (the_opts C) m f s)) /\
    sel (ubw (the_nlp C)) idx = Ok (repeat (match f with FAlpha => Fin 1 | _ => PInf end) (dim2 (the_opts C) m f s)).
Proof. exact (idx2_con lr cp d o m oc C). Qed.
Print Assumptions C02_C07_algebraic_variables.

(* boundary multipliers of a Gauss scheme: element 0 has a third point, element 1 does not *)
Example C02_case_lambda_p : build optsB model2 None = Ok CB /\ is_fe (the_opts CB) 0 0 2 /\
  points2 (the_opts CB) (explicit_end CB) 2 0 FLp = 3 /\ points2 (the_opts CB) (explicit_end CB) 2 1 FLp = 2 /\
  (exists i, at4 (p_ind2 (the_problem CB) FLp) 0 0 2 1 = Some [i] /\
    nth_error (w (the_nlp CB)) i = Some (S2 FLp 0 0 2 1 0) /\ nth_error (lbw (the_nlp CB)) i = Some (Fin 0)).
Proof. split; [exact builtB|]. unfold is_fe. vm_compute. repeat split; repeat constructor. eexists. repeat split. Qed.

(* ind_x_cont holds the end-point state of every element *)
Theorem C02_end_point_states lr cp d o m oc C :
  construct_problem lr cp d o m oc = Ok C ->
  forall c e nfe, is_fe (the_opts C) c e nfe ->
  at2 (p_ind_x_cont (the_problem C)) c e =
  at3 (p_ind1 (the_problem C) FX) c e (points1 (the_opts C) (explicit_end C) FX - 1) /\
  at2 (p_ind_x_cont (the_problem C)) c e <> None.
Proof. exact (idx_x_cont lr cp d o m oc C). Qed.
Print Assumptions C02_end_point_states.

Example C02_case_x_cont : is_fe (the_opts CB) 0 1 2 /\ exists i, at2 (p_ind_x_cont (the_problem CB)) 0 1 = Some [i; S i].
Proof. unfold is_fe. vm_compute. split; [repeat split; repeat constructor|]. eexists. reflexivity. Qed.

(* ind_h: one step size per element in FESD mode, with bounds (1 -+ gamma_h) h0; none otherwise *)
Theorem C02_C07_step_sizes lr cp d o m oc C :
  construct_problem lr cp d o m oc = Ok C ->
  if o_use_fesd (the_opts C)
  then length (p_ind_h (the_problem C)) = total (firstn (o_N_stages (the_opts C)) (o_Nfe_list (the_opts C))) /\
    forall c e nfe, is_fe (the_opts C) c e nfe -> exists i,
    nth_error (p_ind_h (the_problem C)) (flat_pos (o_Nfe_list (the_opts C)) c e) = Some i /\
    nth_error (w (the_nlp C)) i = Some (SH c e) /\
    nth_error (lbw (the_nlp C)) i = Some (step_lower (the_opts C) nfe) /\
    nth_error (ubw (the_nlp C)) i = Some (step_upper (the_opts C) nfe)
  else p_ind_h (the_problem C) = [].
Proof. exact (idx_h_con lr cp d o m oc C). Qed.
Print Assumptions C02_C07_step_sizes.

Example C07_case_h : is_fe (the_opts CA) 1 0 2 /\ flat_pos (o_Nfe_list (the_opts CA)) 1 0 = 1 /\
  exists i, nth_error (p_ind_h (the_problem CA)) 1 = Some i /\ nth_error (w (the_nlp CA)) i = Some (SH 1 0) /\
  match nth_error (ubw (the_nlp CA)) i with Some (Fin q) => (q == 1#2)%Q | _ => False end.
Proof. unfold is_fe. vm_compute. repeat split; repeat constructor. eexists. repeat split. Qed.

(* ind_u *)
Theorem C02_C07_controls lr cp d o m oc C :
  construct_problem lr cp d o m oc = Ok C ->
  length (p_ind_u (the_problem C)) = o_N_stages (the_opts C) /\
  forall c, c < o_N_stages (the_opts C) -> exists idx, nth_error (p_ind_u (the_problem C)) c = Some idx /\
    sel (w (the_nlp C)) idx = Ok (map (SU c) (seq 0 (m_nu m))) /\
    sel (lbw (the_nlp C)) idx = Ok (given (oc_lbu (the_ocp oc)) (m_nu m) NInf) /\
    sel (ubw (the_nlp C)) idx = Ok (given (oc_ubu (the_ocp oc)) (m_nu m) PInf).
Proof. exact (idx_u_con lr cp d o m oc C). Qed.
Print Assumptions C02_C07_controls.

(* ind_sot *)
Theorem C02_C07_speed_of_time lr cp d o m oc C :
  construct_problem lr cp d o m oc = Ok C ->
  match o_sot (the_opts C) with
  | SotLocal => length (p_ind_sot (the_problem C)) = o_N_stages (the_opts C) /\
      forall c, c < o_N_stages (the_opts C) -> exists i, nth_error (p_ind_sot (the_problem C)) c = Some [i] /\
       nth_error (w (the_nlp C)) i = Some (SSot c) /\
       nth_error (lbw (the_nlp C)) i = Some (Fin (o_sot_min (the_opts C))) /\
       nth_error (ubw (the_nlp C)) i = Some (Fin (o_sot_max (the_opts C)))
  | SotNone => p_ind_sot (the_problem C) = []
  | SotGlobal => False
  end.
Proof. exact (idx_sot_con lr cp d o m oc C). Qed.
Print Assumptions C02_C07_speed_of_time.

Example C02_case_u_sot : p_ind_u (the_problem CA) = [[1]; [3]] /\ p_ind_sot (the_problem CA) = [[2]; [4]] /\
  firstn 5 (w (the_nlp CA)) = [SVg 0; SU 0 0; SSot 0; SU 1 0; SSot 1] /\
  firstn 5 (lbw (the_nlp CA)) = [Fin 0; Fin (-2); Fin 1; Fin (-2); Fin 1].
Proof. vm_compute. repeat split. Qed.

(* ind_v_global *)
Theorem C02_C07_global_variables lr cp d o m oc C :
  construct_problem lr cp d o m oc = Ok C ->
  exists idx, p_ind_vg (the_problem C) = [idx] /\
    sel (w (the_nlp C)) idx = Ok (map SVg (seq 0 (m_nvg m))) /\
    sel (lbw (the_nlp C)) idx = Ok (given (oc_lbv (the_ocp oc)) (m_nvg m) NInf) /\
    sel (ubw (the_nlp C)) idx = Ok (given (oc_ubv (the_ocp oc)) (m_nvg m) PInf).
Proof. exact (idx_vg_con lr cp d o m oc C). Qed.
Print Assumptions C02_C07_global_variables.

(* ind_elastic *)
Theorem C02_C07_elastic_slack lr cp d o m oc C :
  construct_problem lr cp d o m oc = Ok C ->
  if elastic (the_opts C)
  then exists i, p_ind_el (the_problem C) = [[i]] /\ nth_error (w (the_nlp C)) i = Some SElastic /\
    nth_error (lbw (the_nlp C)) i = Some (Fin (o_s_elastic_min (the_opts C))) /\
    nth_error (ubw (the_nlp C)) i = Some (Fin (o_s_elastic_max (the_opts C)))
  else p_ind_el (the_problem C) = [].
Proof. exact (idx_el_con lr cp d o m oc C). Qed.
Print Assumptions C02_C07_elastic_slack.

Example C02_case_elastic : elastic (the_opts CB) = true /\ p_ind_el (the_problem CB) = [[0]] /\
  nth_error (ubw (the_nlp CB)) 0 = Some (Fin 10).
Proof. vm_compute. repeat split. Qed.

(* ind_bool of the finite elements *)
Theorem C02_boolean_variables lr cp d o m oc C :
  construct_problem lr cp d o m oc = Ok C ->
  forall c e nfe, is_fe (the_opts C) c e nfe ->
  exists l, at2 (p_ind_bool (the_problem C)) c e = Some l /\
   (o_mpcc (the_opts C) <> MBoolean -> l = []) /\
   forall k idx, nth_error l k = Some idx -> sel (w (the_nlp C)) idx = Ok (map (SBool c e k) (seq 0 (length idx))).
Proof. exact (idx_bool_con lr cp d o m oc C). Qed.
Print Assumptions C02_boolean_variables.

Example C02_case_bool : is_fe (the_opts CC) 1 1 2 /\ exists l i, at2 (p_ind_bool (the_problem CC)) 1 1 = Some l /\
  length l = 5 /\ nth_error l 3 = Some [i; S i; S (S i); S (S (S i))].
Proof. unfold is_fe. vm_compute. split; [repeat split; repeat constructor|]. do 2 eexists. repeat split. Qed.

(* no variable and no parameter occurs twice *)
Theorem C02_symbols_distinct lr cp d o m oc C :
  construct_problem lr cp d o m oc = Ok C -> NoDup (w (the_nlp C) ++ p_p (the_problem C)).
Proof. exact (syms_distinct_con lr cp d o m oc C). Qed.
Print Assumptions C02_symbols_distinct.

(* ---- C03 ---- *)
Theorem C03_matching_lengths lr cp d o m oc C :
  construct_problem lr cp d o m oc = Ok C ->
  let consistent f := (length (lbw f) = length (w f) /\ length (ubw f) = length (w f) /\ length (w0 f) = length (w f)) /\
                      (length (lbg f) = length (g f) /\ length (ubg f) = length (g f)) in
  consistent (the_nlp C) /\
  forall st fe, In st (p_stages (the_problem C)) -> In fe st -> consistent (fo fe).
Proof. exact (lengths_con lr cp d o m oc C). Qed.
Print Assumptions C03_matching_lengths.

Example C03_case : length (w (the_nlp CA)) = 50 /\ length (g (the_nlp CA)) = 60 /\
  map (map (fun fe => (length (w (fo fe)), length (g (fo fe))))) (p_stages (the_problem CA)) <> [].
Proof. vm_compute. repeat split. discriminate. Qed.

(* ---- C04 ---- *)
Theorem C04_number_of_variables lr cp d o m oc C :
  construct_problem lr cp d o m oc = Ok C ->
  length (w (the_nlp C)) = problem_size (the_opts C) m (explicit_end C)
     + length (concat (ind_bool (the_nlp C))) + length (flat3 (p_ind_bool (the_problem C))).
Proof. exact (count_con lr cp d o m oc C). Qed.
Print Assumptions C04_number_of_variables.

Theorem C04_no_boolean_variables lr cp d o m oc C :
  construct_problem lr cp d o m oc = Ok C -> o_mpcc (the_opts C) <> MBoolean ->
  length (concat (ind_bool (the_nlp C))) = 0 /\ length (flat3 (p_ind_bool (the_problem C))) = 0.
Proof. exact (no_bool lr cp d o m oc C). Qed.
Print Assumptions C04_no_boolean_variables.

Example C04_case : problem_size (the_opts CA) model1 (explicit_end CA) = 50 /\
  problem_size (the_opts CB) model2 (explicit_end CB) = 47 /\ o_mpcc (the_opts CB) <> MBoolean /\
  problem_size (the_opts CC) model2 (explicit_end CC) = 128.
Proof. vm_compute. repeat split; discriminate. Qed.
