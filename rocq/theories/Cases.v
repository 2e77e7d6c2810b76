(* Cases.v -- concrete models, OCPs and options used by the examples beside the theorems and
   by the refutations. *)
From Verif Require Import Base Sx Utils Tableau Opts Model Ocp Problem Spec.

(* collocation points that are exact rationals; other stage numbers are not used by the cases *)
Definition case_cpoints (n : nat) (s : scheme) : list Q :=
  match s, n with
  | RadauIIA, 1 => [1%Q]
  | RadauIIA, 2 => [(1#3)%Q; 1%Q]
  | GaussLegendre, 1 => [(1#2)%Q]
  | _, _ => []
  end.
Definition case_log_round (_ _ _ : Q) : nat := 8.

Definition cx (i : nat) : expr := EVar (MX i).
Definition cq (q : Q) : expr := ECst q.

(* two states, one control, one global parameter, one global variable, one subsystem with two
   modes separated by x0 = 0 *)
Definition model1 : model := {|
  m_nx := 2; m_x0 := [(-1)%Q; 0%Q];
  m_F := Some [mkFmat 2 [[cq 1; EVar (MU 0)]; [EBin BAdd (cq 3) (EVar (SVg 0)); EVar (MPg 0)]]];
  m_c := Some [[cx 0]]; m_S := Some [[[1%Q]; [(-1)%Q]]]; m_gS := None;
  m_nu := 1; m_nz := 0; m_z0 := None; m_lbz := None; m_ubz := None; m_alpha := None; m_fx := None;
  m_gz := []; m_npt := 0; m_npg := 1; m_ptv_val := None; m_pg_val := [(1#2)%Q]; m_nvg := 1;
  m_tvar := Some (cx 1) |}.

(* two subsystems with two modes each; a user algebraic variable and a time-varying parameter *)
Definition model2 : model := {|
  m_nx := 2; m_x0 := [(-1)%Q; 2%Q];
  m_F := Some [mkFmat 2 [[cq 1; cq 0]; [cq (-1); cq 0]];
               mkFmat 2 [[cq 0; EVar (MZ 0)]; [cq 0; EVar (MPt 0)]]];
  m_c := Some [[cx 0]; [cx 1]]; m_S := Some [[[1%Q]; [(-1)%Q]]; [[1%Q]; [(-1)%Q]]]; m_gS := None;
  m_nu := 0; m_nz := 1; m_z0 := None; m_lbz := Some [Fin (-5)]; m_ubz := None; m_alpha := None; m_fx := None;
  m_gz := [EBin BSub (EVar (MZ 0)) (cq 1)]; m_npt := 1; m_npg := 0;
  m_ptv_val := None; m_pg_val := []; m_nvg := 0; m_tvar := None |}.

(* the smallest simulation problem: x' in {1, 3} switching at x = 0 *)
Definition model3 : model := {|
  m_nx := 1; m_x0 := [(-1)%Q];
  m_F := Some [mkFmat 1 [[cq 3]; [cq 1]]];
  m_c := Some [[cx 0]]; m_S := Some [[[(-1)%Q]; [1%Q]]]; m_gS := None;
  m_nu := 0; m_nz := 0; m_z0 := None; m_lbz := None; m_ubz := None; m_alpha := None; m_fx := None;
  m_gz := []; m_npt := 0; m_npg := 0; m_ptv_val := None; m_pg_val := []; m_nvg := 0; m_tvar := None |}.

Definition ocp1 : ocp := {|
  oc_lbu := Some [Fin (-2)]; oc_ubu := Some [Fin 2]; oc_u_guess := None;
  oc_lbx := Some [Fin (-10); NInf]; oc_ubx := None;
  oc_fq := EUn USq (EVar (MU 0));
  oc_g_path := [EBin BAdd (cx 0) (EVar (MU 0))]; oc_lbg := Some [NInf]; oc_ubg := Some [Fin 7];
  oc_comp := [(cx 0, cx 1); (EVar (MU 0), EVar (SVg 0))];
  oc_fT := EUn USq (cx 1); oc_gT := [EBin BSub (cx 0) (cq 1)];
  oc_lbv := Some [Fin 0]; oc_ubv := Some [Fin 4]; oc_v_guess := Some [1%Q] |}.

(* option changes used below *)
Definition with_grid (o : opts) (n : nat) (nfes : list nat) : opts := {|
  o_terminal_time := o_terminal_time o; o_use_fesd := o_use_fesd o; o_max_iter_homotopy := o_max_iter_homotopy o;
  o_init := o_init o; o_repr := o_repr o; o_ns := o_ns o; o_scheme := o_scheme o;
  o_cross := o_cross o; o_mpcc := o_mpcc o; o_constr := o_constr o; o_pss := o_pss o;
  o_gamma_h := o_gamma_h o; o_smoothing := o_smoothing o;
  o_fix_active_set_fe0 := o_fix_active_set_fe0 o;
  o_N_finite_elements := o_N_finite_elements o; o_Nfe_list := nfes; o_comp_tol := o_comp_tol o;
  o_sigma_0 := o_sigma_0 o; o_sigma_N := o_sigma_N o; o_slope := o_slope o;
  o_exponent := o_exponent o; o_rule := o_rule o; o_step_eq := o_step_eq o;
  o_step_eq_sigma := o_step_eq_sigma o; o_rho_h := o_rho_h o; o_fb1 := o_fb1 o; o_fb2 := o_fb2 o;
  o_do_polishing := o_do_polishing o; o_N_stages := n; o_equidistant := o_equidistant o;
  o_g_path_at_fe := o_g_path_at_fe o; o_g_path_at_stg := o_g_path_at_stg o;
  o_s_elastic_0 := o_s_elastic_0 o; o_s_elastic_max := o_s_elastic_max o;
  o_s_elastic_min := o_s_elastic_min o; o_obj_direct := o_obj_direct o;
  o_time_freezing := o_time_freezing o; o_tf_tol := o_tf_tol o; o_sot := o_sot o;
  o_sot_min := o_sot_min o; o_sot_max := o_sot_max o |}.
Definition with_irk (o : opts) (r : irk_repr) (ns : nat) (s : scheme) : opts := {|
  o_terminal_time := o_terminal_time o; o_use_fesd := o_use_fesd o; o_max_iter_homotopy := o_max_iter_homotopy o;
  o_init := o_init o; o_repr := r; o_ns := ns; o_scheme := s;
  o_cross := o_cross o; o_mpcc := o_mpcc o; o_constr := o_constr o; o_pss := o_pss o;
  o_gamma_h := o_gamma_h o; o_smoothing := o_smoothing o;
  o_fix_active_set_fe0 := o_fix_active_set_fe0 o;
  o_N_finite_elements := o_N_finite_elements o; o_Nfe_list := o_Nfe_list o; o_comp_tol := o_comp_tol o;
  o_sigma_0 := o_sigma_0 o; o_sigma_N := o_sigma_N o; o_slope := o_slope o;
  o_exponent := o_exponent o; o_rule := o_rule o; o_step_eq := o_step_eq o;
  o_step_eq_sigma := o_step_eq_sigma o; o_rho_h := o_rho_h o; o_fb1 := o_fb1 o; o_fb2 := o_fb2 o;
  o_do_polishing := o_do_polishing o; o_N_stages := o_N_stages o; o_equidistant := o_equidistant o;
  o_g_path_at_fe := o_g_path_at_fe o; o_g_path_at_stg := o_g_path_at_stg o;
  o_s_elastic_0 := o_s_elastic_0 o; o_s_elastic_max := o_s_elastic_max o;
  o_s_elastic_min := o_s_elastic_min o; o_obj_direct := o_obj_direct o;
  o_time_freezing := o_time_freezing o; o_tf_tol := o_tf_tol o; o_sot := o_sot o;
  o_sot_min := o_sot_min o; o_sot_max := o_sot_max o |}.
Definition with_modes (o : opts) (p : pss_mode) (mp : mpcc_mode) (cr : cross_mode) (se : step_eq_mode)
    (so : sot_mode) (fesd equi : bool) : opts := {|
  o_terminal_time := o_terminal_time o; o_use_fesd := fesd; o_max_iter_homotopy := o_max_iter_homotopy o;
  o_init := o_init o; o_repr := o_repr o; o_ns := o_ns o; o_scheme := o_scheme o;
  o_cross := cr; o_mpcc := mp; o_constr := o_constr o; o_pss := p;
  o_gamma_h := o_gamma_h o; o_smoothing := o_smoothing o;
  o_fix_active_set_fe0 := o_fix_active_set_fe0 o;
  o_N_finite_elements := o_N_finite_elements o; o_Nfe_list := o_Nfe_list o; o_comp_tol := o_comp_tol o;
  o_sigma_0 := o_sigma_0 o; o_sigma_N := o_sigma_N o; o_slope := o_slope o;
  o_exponent := o_exponent o; o_rule := o_rule o; o_step_eq := se;
  o_step_eq_sigma := o_step_eq_sigma o; o_rho_h := o_rho_h o; o_fb1 := o_fb1 o; o_fb2 := o_fb2 o;
  o_do_polishing := o_do_polishing o; o_N_stages := o_N_stages o; o_equidistant := equi;
  o_g_path_at_fe := o_g_path_at_fe o; o_g_path_at_stg := o_g_path_at_stg o;
  o_s_elastic_0 := o_s_elastic_0 o; o_s_elastic_max := o_s_elastic_max o;
  o_s_elastic_min := o_s_elastic_min o; o_obj_direct := o_obj_direct o;
  o_time_freezing := o_time_freezing o; o_tf_tol := o_tf_tol o; o_sot := so;
  o_sot_min := o_sot_min o; o_sot_max := o_sot_max o |}.
Definition with_misc (o : opts) (ch : constr_handling) (gfe gstg tf direct : bool) (nfe : nat) (it : nat)
    (strat : init_strategy) : opts := {|
  o_terminal_time := o_terminal_time o; o_use_fesd := o_use_fesd o; o_max_iter_homotopy := it;
  o_init := strat; o_repr := o_repr o; o_ns := o_ns o; o_scheme := o_scheme o;
  o_cross := o_cross o; o_mpcc := o_mpcc o; o_constr := ch; o_pss := o_pss o;
  o_gamma_h := o_gamma_h o; o_smoothing := o_smoothing o;
  o_fix_active_set_fe0 := o_fix_active_set_fe0 o;
  o_N_finite_elements := nfe; o_Nfe_list := o_Nfe_list o; o_comp_tol := o_comp_tol o;
  o_sigma_0 := o_sigma_0 o; o_sigma_N := o_sigma_N o; o_slope := o_slope o;
  o_exponent := o_exponent o; o_rule := o_rule o; o_step_eq := o_step_eq o;
  o_step_eq_sigma := o_step_eq_sigma o; o_rho_h := o_rho_h o; o_fb1 := o_fb1 o; o_fb2 := o_fb2 o;
  o_do_polishing := o_do_polishing o; o_N_stages := o_N_stages o; o_equidistant := o_equidistant o;
  o_g_path_at_fe := gfe; o_g_path_at_stg := gstg;
  o_s_elastic_0 := o_s_elastic_0 o; o_s_elastic_max := o_s_elastic_max o;
  o_s_elastic_min := o_s_elastic_min o; o_obj_direct := direct;
  o_time_freezing := tf; o_tf_tol := o_tf_tol o; o_sot := o_sot o;
  o_sot_min := o_sot_min o; o_sot_max := o_sot_max o |}.

(* Radau, INTEGRAL, two control stages with 1 and 2 elements, time freezing, all path constraints *)
Definition optsA : opts :=
  with_misc (with_grid (with_modes default_opts Stewart ScholtesIneq SumLambdas HeuristicDelta SotLocal true true)
    2 [1; 2]) Exact true true true true 2 0 AllXcurrentW0Start.
(* Gauss, DIFFERENTIAL, Step, elastic mode, default Nfe_list *)
Definition optsB : opts :=
  with_irk (with_modes default_opts Step ElasticIneq ComplementAll L2RelaxedScaled SotNone true true)
    Differential 2 GaussLegendre.
(* Gauss, lifted, Stewart, boolean mode, two stages, no FESD *)
Definition optsC : opts :=
  with_irk (with_grid (with_modes default_opts Stewart MBoolean SumLambdas HeuristicMean SotNone false true) 2 [])
    DifferentialLiftX 2 GaussLegendre.
(* the smallest simulation: one Radau point, one stage, two elements *)
Definition optsS : opts := with_irk default_opts Integral 1 RadauIIA.

Definition build (o : opts) (m : model) (oc : option ocp) : res constructed :=
  construct_problem case_log_round case_cpoints ipopt_init o m oc.

(* the objects built in the cases *)
Definition get {A} (r : res A) : is_ok r = true -> A :=
  match r with Ok a => fun _ => a | Err _ => fun H => match Bool.diff_false_true H with end end.
Lemma get_ok {A} (r : res A) (H : is_ok r = true) : r = Ok (get r H).
Proof. destruct r; [reflexivity|discriminate]. Qed.

Lemma caseA_ok : is_ok (build optsA model1 (Some ocp1)) = true. Proof. vm_compute. reflexivity. Qed.
Lemma caseB_ok : is_ok (build optsB model2 None) = true. Proof. vm_compute. reflexivity. Qed.
Lemma caseC_ok : is_ok (build optsC model2 None) = true. Proof. vm_compute. reflexivity. Qed.
Lemma caseS_ok : is_ok (build optsS model3 None) = true. Proof. vm_compute. reflexivity. Qed.
Definition CA : constructed := get _ caseA_ok.
Definition CB : constructed := get _ caseB_ok.
Definition CC : constructed := get _ caseC_ok.
Definition CS : constructed := get _ caseS_ok.
Lemma builtA : build optsA model1 (Some ocp1) = Ok CA. Proof. apply get_ok. Qed.
Lemma builtB : build optsB model2 None = Ok CB. Proof. apply get_ok. Qed.
Lemma builtC : build optsC model2 None = Ok CC. Proof. apply get_ok. Qed.
Lemma builtS : build optsS model3 None = Ok CS. Proof. apply get_ok. Qed.
