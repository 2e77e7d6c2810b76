(* Spec2.v -- further vocabulary of the theorem statements: assumptions on CasADi's collocation
   points, zero relaxation, and positions of finite elements. *)
From Coq Require Import Reals Qreals.
From Verif Require Import Base Sx Utils Tableau Opts Model Ocp Problem Spec Fesd.

(* ca.collocation_points(n_s, scheme): n_s distinct nonzero points, the last one equal to 1 for
   Radau and at most 1 - 1e-9 for Gauss-Legendre. Only read for the INTEGRAL representation. *)
Definition points_ok (cp : nat -> scheme -> list Q) (o : opts) : Prop :=
  o_repr o = Integral ->
  length (cp (o_ns o) (o_scheme o)) = o_ns o /\ distinct (0%Q :: cp (o_ns o) (o_scheme o)) /\
  exists pts tl, cp (o_ns o) (o_scheme o) = pts ++ [tl] /\
    match o_scheme o with RadauIIA => (tl == 1)%Q | GaussLegendre => (tl <= 1 - (1 # 1000000000))%Q end.

(* modes that complement products of nonnegative variables *)
Definition product_mode (o : opts) : Prop :=
  match o_mpcc o with ScholtesIneq | ScholtesEq | ElasticIneq | ElasticEq => True | _ => False end.
(* the relaxation parameter of those modes is zero *)
Definition zero_relaxation (o : opts) (rho : env) : Prop :=
  match o_mpcc o with
  | ScholtesIneq | ScholtesEq => rho SSigma = 0%R
  | ElasticIneq | ElasticEq => rho SElastic = 0%R
  | _ => False
  end.

(* (c', e') is the element before (c, e) *)
Definition follows (o : opts) (c' e' c e : nat) : Prop := before o c e = Some (c', e').

(* the options with another cross-complementarity mode / objective scaling *)
Definition with_cross (o : opts) (cr : cross_mode) : opts := {|
  o_terminal_time := o_terminal_time o; o_use_fesd := o_use_fesd o; o_max_iter_homotopy := o_max_iter_homotopy o;
  o_init := o_init o; o_repr := o_repr o; o_ns := o_ns o; o_scheme := o_scheme o;
  o_cross := cr; o_mpcc := o_mpcc o; o_constr := o_constr o; o_pss := o_pss o;
  o_gamma_h := o_gamma_h o; o_smoothing := o_smoothing o; o_fix_active_set_fe0 := o_fix_active_set_fe0 o;
  o_N_finite_elements := o_N_finite_elements o; o_Nfe_list := o_Nfe_list o; o_comp_tol := o_comp_tol o;
  o_sigma_0 := o_sigma_0 o; o_sigma_N := o_sigma_N o; o_slope := o_slope o;
  o_exponent := o_exponent o; o_rule := o_rule o; o_step_eq := o_step_eq o;
  o_step_eq_sigma := o_step_eq_sigma o; o_rho_h := o_rho_h o; o_fb1 := o_fb1 o; o_fb2 := o_fb2 o;
  o_do_polishing := o_do_polishing o; o_N_stages := o_N_stages o; o_equidistant := o_equidistant o;
  o_g_path_at_fe := o_g_path_at_fe o; o_g_path_at_stg := o_g_path_at_stg o;
  o_s_elastic_0 := o_s_elastic_0 o; o_s_elastic_max := o_s_elastic_max o;
  o_s_elastic_min := o_s_elastic_min o; o_obj_direct := o_obj_direct o;
  o_time_freezing := o_time_freezing o; o_tf_tol := o_tf_tol o; o_sot := o_sot o;
  o_sot_min := o_sot_min o; o_sot_max := o_sot_max o |}.
Definition with_scaling (o : opts) (direct : bool) : opts := {|
  o_terminal_time := o_terminal_time o; o_use_fesd := o_use_fesd o; o_max_iter_homotopy := o_max_iter_homotopy o;
  o_init := o_init o; o_repr := o_repr o; o_ns := o_ns o; o_scheme := o_scheme o;
  o_cross := o_cross o; o_mpcc := o_mpcc o; o_constr := o_constr o; o_pss := o_pss o;
  o_gamma_h := o_gamma_h o; o_smoothing := o_smoothing o; o_fix_active_set_fe0 := o_fix_active_set_fe0 o;
  o_N_finite_elements := o_N_finite_elements o; o_Nfe_list := o_Nfe_list o; o_comp_tol := o_comp_tol o;
  o_sigma_0 := o_sigma_0 o; o_sigma_N := o_sigma_N o; o_slope := o_slope o;
  o_exponent := o_exponent o; o_rule := o_rule o; o_step_eq := o_step_eq o;
  o_step_eq_sigma := o_step_eq_sigma o; o_rho_h := o_rho_h o; o_fb1 := o_fb1 o; o_fb2 := o_fb2 o;
  o_do_polishing := o_do_polishing o; o_N_stages := o_N_stages o; o_equidistant := o_equidistant o;
  o_g_path_at_fe := o_g_path_at_fe o; o_g_path_at_stg := o_g_path_at_stg o;
  o_s_elastic_0 := o_s_elastic_0 o; o_s_elastic_max := o_s_elastic_max o;
  o_s_elastic_min := o_s_elastic_min o; o_obj_direct := direct;
  o_time_freezing := o_time_freezing o; o_tf_tol := o_tf_tol o; o_sot := o_sot o;
  o_sot_min := o_sot_min o; o_sot_max := o_sot_max o |}.
Definition with_gamma (o : opts) (gam : ext) : opts := {|
  o_terminal_time := o_terminal_time o; o_use_fesd := o_use_fesd o; o_max_iter_homotopy := o_max_iter_homotopy o;
  o_init := o_init o; o_repr := o_repr o; o_ns := o_ns o; o_scheme := o_scheme o;
  o_cross := o_cross o; o_mpcc := o_mpcc o; o_constr := o_constr o; o_pss := o_pss o;
  o_gamma_h := gam; o_smoothing := o_smoothing o; o_fix_active_set_fe0 := o_fix_active_set_fe0 o;
  o_N_finite_elements := o_N_finite_elements o; o_Nfe_list := o_Nfe_list o; o_comp_tol := o_comp_tol o;
  o_sigma_0 := o_sigma_0 o; o_sigma_N := o_sigma_N o; o_slope := o_slope o;
  o_exponent := o_exponent o; o_rule := o_rule o; o_step_eq := o_step_eq o;
  o_step_eq_sigma := o_step_eq_sigma o; o_rho_h := o_rho_h o; o_fb1 := o_fb1 o; o_fb2 := o_fb2 o;
  o_do_polishing := o_do_polishing o; o_N_stages := o_N_stages o; o_equidistant := o_equidistant o;
  o_g_path_at_fe := o_g_path_at_fe o; o_g_path_at_stg := o_g_path_at_stg o;
  o_s_elastic_0 := o_s_elastic_0 o; o_s_elastic_max := o_s_elastic_max o;
  o_s_elastic_min := o_s_elastic_min o; o_obj_direct := o_obj_direct o;
  o_time_freezing := o_time_freezing o; o_tf_tol := o_tf_tol o; o_sot := o_sot o;
  o_sot_min := o_sot_min o; o_sot_max := o_sot_max o |}.
Definition with_constr (o : opts) (ch : constr_handling) : opts := {|
  o_terminal_time := o_terminal_time o; o_use_fesd := o_use_fesd o; o_max_iter_homotopy := o_max_iter_homotopy o;
  o_init := o_init o; o_repr := o_repr o; o_ns := o_ns o; o_scheme := o_scheme o;
  o_cross := o_cross o; o_mpcc := o_mpcc o; o_constr := ch; o_pss := o_pss o;
  o_gamma_h := o_gamma_h o; o_smoothing := o_smoothing o; o_fix_active_set_fe0 := o_fix_active_set_fe0 o;
  o_N_finite_elements := o_N_finite_elements o; o_Nfe_list := o_Nfe_list o; o_comp_tol := o_comp_tol o;
  o_sigma_0 := o_sigma_0 o; o_sigma_N := o_sigma_N o; o_slope := o_slope o;
  o_exponent := o_exponent o; o_rule := o_rule o; o_step_eq := o_step_eq o;
  o_step_eq_sigma := o_step_eq_sigma o; o_rho_h := o_rho_h o; o_fb1 := o_fb1 o; o_fb2 := o_fb2 o;
  o_do_polishing := o_do_polishing o; o_N_stages := o_N_stages o; o_equidistant := o_equidistant o;
  o_g_path_at_fe := o_g_path_at_fe o; o_g_path_at_stg := o_g_path_at_stg o;
  o_s_elastic_0 := o_s_elastic_0 o; o_s_elastic_max := o_s_elastic_max o;
  o_s_elastic_min := o_s_elastic_min o; o_obj_direct := o_obj_direct o;
  o_time_freezing := o_time_freezing o; o_tf_tol := o_tf_tol o; o_sot := o_sot o;
  o_sot_min := o_sot_min o; o_sot_max := o_sot_max o |}.

(* the value of problem.comp_res at a point *)
Definition comp_residual (C : constructed) (rho : env) : R := eval rho (p_J_comp (the_problem C)).
(* products of a weight and a multiplier that the discretization complements: with FESD every
   weight of an element with every RK-stage multiplier of the element and with the multiplier on
   its left boundary; without FESD those of one RK stage *)
Inductive product (o : opts) (t : tab) (m : model) (rho : env) : R -> Prop :=
| pr_left c e j k : c < o_N_stages o -> e < nfe_of o c -> j < o_ns o -> k < n_pairs o m -> o_use_fesd o = true ->
    product o t m rho (ent (theta_vec o m rho c e j) k * ent (prev_lam o t m rho c e) k)%R
| pr_cross c e j jj k : c < o_N_stages o -> e < nfe_of o c -> j < o_ns o -> jj < o_ns o -> k < n_pairs o m ->
    o_use_fesd o = true ->
    product o t m rho (ent (theta_vec o m rho c e j) k * ent (lam_vec o m rho c e jj) k)%R
| pr_same c e j k : c < o_N_stages o -> e < nfe_of o c -> j < o_ns o -> k < n_pairs o m -> o_use_fesd o = false ->
    product o t m rho (ent (theta_vec o m rho c e j) k * ent (lam_vec o m rho c e j) k)%R.
Definition with_step_eq (o : opts) (se : step_eq_mode) : opts := {|
  o_terminal_time := o_terminal_time o; o_use_fesd := o_use_fesd o; o_max_iter_homotopy := o_max_iter_homotopy o;
  o_init := o_init o; o_repr := o_repr o; o_ns := o_ns o; o_scheme := o_scheme o;
  o_cross := o_cross o; o_mpcc := o_mpcc o; o_constr := o_constr o; o_pss := o_pss o;
  o_gamma_h := o_gamma_h o; o_smoothing := o_smoothing o; o_fix_active_set_fe0 := o_fix_active_set_fe0 o;
  o_N_finite_elements := o_N_finite_elements o; o_Nfe_list := o_Nfe_list o; o_comp_tol := o_comp_tol o;
  o_sigma_0 := o_sigma_0 o; o_sigma_N := o_sigma_N o; o_slope := o_slope o;
  o_exponent := o_exponent o; o_rule := o_rule o; o_step_eq := se;
  o_step_eq_sigma := o_step_eq_sigma o; o_rho_h := o_rho_h o; o_fb1 := o_fb1 o; o_fb2 := o_fb2 o;
  o_do_polishing := o_do_polishing o; o_N_stages := o_N_stages o; o_equidistant := o_equidistant o;
  o_g_path_at_fe := o_g_path_at_fe o; o_g_path_at_stg := o_g_path_at_stg o;
  o_s_elastic_0 := o_s_elastic_0 o; o_s_elastic_max := o_s_elastic_max o;
  o_s_elastic_min := o_s_elastic_min o; o_obj_direct := o_obj_direct o;
  o_time_freezing := o_time_freezing o; o_tf_tol := o_tf_tol o; o_sot := o_sot o;
  o_sot_min := o_sot_min o; o_sot_max := o_sot_max o |}.
(* factor in front of the user's cost *)
Definition cost_scale (o : opts) (rho : env) : R :=
  if elastic o then if o_obj_direct o then 1%R else rho SSigma else 1%R.
(* all constraints of element (c, e) except step equilibration *)
Definition element_rest (o : opts) (t : tab) (m : model) (oc : ocp) (rho : env) (c e : nat) : Prop :=
  stage_algebra o t m rho c e /\ collocation o t m rho c e /\ continuity o t m rho c e /\ path_ok o t m oc rho c e /\
  boundary_ok o t m rho c e /\ path_comp_ok o t m oc rho c e /\ cross_ok o t m rho c e.
(* the end of element (c, e): end state, algebraic variables of the last stage, last multipliers *)
Definition boundary_point (o : opts) (t : tab) (m : model) (rho : env) (c e : nat) : env :=
  at_point m rho c e (o_ns o - 1) (end_slots o t c e) (final_state o t rho c e).
(* the lambda00 parameters are nonnegative (C31) *)
Definition initial_nonneg (rho : env) : Prop := forall f s i, (0 <= rho (SL00 f s i))%R.
(* modes built on the Fischer-Burmeister function *)
Definition fischer_mode (o : opts) : Prop := match o_mpcc o with FischerBurmeister | FischerBurmeisterIpAug => True | _ => False end.
(* C is the problem constructed from o, m, oc with exact constraints;
   well_sized: the array shapes CasADi does not check *)
Definition fesd_problem (lr : Q -> Q -> Q -> nat) (cp : nat -> scheme -> list Q) (d : ipopt_dict)
    (o : opts) (m : model) (oc : option ocp) (C : constructed) : Prop :=
  construct_problem lr cp d o m oc = Ok C /\ o_constr o = Exact /\ well_sized m.
(* every lower constraint bound is zero *)
Definition zero_lower (f : fobj) : Prop := forall l, In l (lbg f) -> exists q, l = Fin q /\ (q == 0)%Q.
