(* Spec26.v -- vocabulary of the theorem on options: which options the NLP depends on *)
From Coq Require Import Reals.
From Verif Require Import Base Sx Utils Tableau Opts Model Ocp Problem Spec.

(* number of finite elements of every control stage *)
Definition elements_of (o : opts) : list nat :=
  match o_Nfe_list o with [] => repeat (o_N_finite_elements o) (o_N_stages o) | l => l end.
Definition penalises_steps (s : step_eq_mode) : bool :=
  match s with HeuristicMean | HeuristicDelta | L2Relaxed | L2RelaxedScaled => true | _ => false end.
Definition elastic_mode (m : mpcc_mode) : bool :=
  match m with ElasticTwoSided | ElasticEq | ElasticIneq => true | _ => false end.

(* o and o' agree on every option that applies. Nothing is required of max_iter_homotopy, initialization_strategy,
   smoothing_parameter, fix_active_set_fe0, comp_tol, sigma_N, homotopy_update_slope, homotopy_update_exponent,
   homotopy_update_rule, do_polishing_step *)
Record same_applicable (o o' : opts) : Prop := mkSame {
  sa_time : o_terminal_time o = o_terminal_time o'; sa_fesd : o_use_fesd o = o_use_fesd o';
  sa_repr : o_repr o = o_repr o'; sa_ns : o_ns o = o_ns o'; sa_scheme : o_scheme o = o_scheme o';
  sa_mpcc : o_mpcc o = o_mpcc o'; sa_constr : o_constr o = o_constr o'; sa_pss : o_pss o = o_pss o';
  sa_stages : o_N_stages o = o_N_stages o'; sa_elements : elements_of o = elements_of o'; sa_nfe : o_N_finite_elements o = o_N_finite_elements o';
  sa_path_fe : o_g_path_at_fe o = o_g_path_at_fe o'; sa_path_stg : o_g_path_at_stg o = o_g_path_at_stg o';
  sa_freezing : o_time_freezing o = o_time_freezing o'; sa_sot : o_sot o = o_sot o';
  (* initial values of theta and lambda *)
  sa_sigma : o_pss o = Stewart -> o_sigma_0 o = o_sigma_0 o';
  (* variable step lengths *)
  sa_gamma : o_use_fesd o = true -> o_gamma_h o = o_gamma_h o'; sa_cross : o_use_fesd o = true -> o_cross o = o_cross o';
  sa_step_eq : o_use_fesd o = true -> o_step_eq o = o_step_eq o';
  sa_rho : o_use_fesd o = true -> penalises_steps (o_step_eq o) = true -> o_rho_h o = o_rho_h o';
  sa_scale : o_use_fesd o = true -> o_step_eq o = L2RelaxedScaled -> o_step_eq_sigma o = o_step_eq_sigma o';
  sa_equidistant : o_use_fesd o = true \/ o_time_freezing o = true -> o_equidistant o = o_equidistant o';
  sa_tolerance : o_time_freezing o = true -> o_equidistant o = true -> o_tf_tol o = o_tf_tol o';
  (* elastic modes, Fischer-Burmeister with augmentation, speed of time *)
  sa_elastic : elastic_mode (o_mpcc o) = true ->
    o_s_elastic_0 o = o_s_elastic_0 o' /\ o_s_elastic_max o = o_s_elastic_max o' /\ o_s_elastic_min o = o_s_elastic_min o' /\ o_obj_direct o = o_obj_direct o';
  sa_fb : o_mpcc o = FischerBurmeisterIpAug -> o_fb1 o = o_fb1 o' /\ o_fb2 o = o_fb2 o';
  sa_speed : o_sot o = SotLocal -> o_sot_min o = o_sot_min o' /\ o_sot_max o = o_sot_max o' }.

(* o and o' agree on the options that solve() reads *)
Record same_solver (o o' : opts) : Prop := mkSolverSame {
  sv_iter : o_max_iter_homotopy o = o_max_iter_homotopy o'; sv_tol : o_comp_tol o = o_comp_tol o';
  sv_sigma : o_sigma_0 o = o_sigma_0 o'; sv_sigma_N : o_sigma_N o = o_sigma_N o'; sv_slope : o_slope o = o_slope o'; sv_rule : o_rule o = o_rule o';
  sv_exponent : o_rule o = Superlinear -> o_exponent o = o_exponent o';
  sv_init : o_init o = o_init o'; sv_smoothing : o_init o = Rk4Smoothened -> o_smoothing o = o_smoothing o';
  sv_fix : o_pss o = Stewart -> o_fix_active_set_fe0 o = o_fix_active_set_fe0 o';
  sv_polish : o_do_polishing o = o_do_polishing o' }.
