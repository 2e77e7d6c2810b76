(* Opts.v -- nosnoc/nosnoc_types.py and nosnoc/nosnoc_opts.py *)
From Verif Require Import Base Utils Tableau.

(* nosnoc_types.py:4-33 MpccMode *)
Inductive mpcc_mode :=
| ScholtesIneq | ScholtesEq | FischerBurmeister | FischerBurmeisterIpAug
| ElasticIneq | ElasticEq | ElasticTwoSided | MBoolean.
(* nosnoc_types.py:42-49 InitializationStrategy *)
Inductive init_strategy := AllXcurrentW0Start | AllXcurrentWoptPrev | External | Rk4Smoothened.
(* nosnoc_types.py:52-60 StepEquilibrationMode *)
Inductive step_eq_mode :=
| HeuristicMean | HeuristicDelta | L2RelaxedScaled | L2Relaxed | Direct | DirectComplementarity
| HeuristicDeltaHComp.
(* nosnoc_types.py:63-66 CrossComplementarityMode *)
Inductive cross_mode := ComplementAll | SumLambdas.
(* nosnoc_types.py:69-73 IrkRepresentation *)
Inductive irk_repr := Integral | Differential | DifferentialLiftX.
(* nosnoc_types.py:76-78 HomotopyUpdateRule *)
Inductive update_rule := Linear | Superlinear.
(* nosnoc_types.py:81-83 ConstraintHandling *)
Inductive constr_handling := Exact | LeastSquares.
(* nosnoc_types.py:86-89 SpeedOfTimeVariableMode *)
Inductive sot_mode := SotNone | SotLocal | SotGlobal.
(* nosnoc_types.py:92-116 PssMode *)
Inductive pss_mode := Stewart | Step.
(* nosnoc_types.py:119-121 Status *)
Inductive status := SUCCESS | INFEASIBLE.

(* nosnoc_opts.py:17-118 NosnocOpts. Types are static here (what validate() checks
   dynamically is modelled in Utils.validate). Floats are exact rationals; gamma_h may be
   infinite. Not represented: print_level, use_upper_bound_h (never read by the code). *)
Record opts := mkOpts {
  o_terminal_time : Q;
  o_use_fesd : bool;
  o_max_iter_homotopy : nat;
  o_init : init_strategy;
  o_repr : irk_repr;
  o_ns : nat;
  o_scheme : scheme;
  o_cross : cross_mode;
  o_mpcc : mpcc_mode;
  o_constr : constr_handling;
  o_pss : pss_mode;
  o_gamma_h : ext;
  o_smoothing : Q;
  o_fix_active_set_fe0 : bool;
  o_N_finite_elements : nat;
  o_Nfe_list : list nat;
  o_comp_tol : Q;
  o_sigma_0 : Q;
  o_sigma_N : Q;
  o_slope : Q;
  o_exponent : Q;
  o_rule : update_rule;
  o_step_eq : step_eq_mode;
  o_step_eq_sigma : Q;
  o_rho_h : Q;
  o_fb1 : Q;
  o_fb2 : Q;
  o_do_polishing : bool;
  o_N_stages : nat;
  o_equidistant : bool;
  o_g_path_at_fe : bool;
  o_g_path_at_stg : bool;
  o_s_elastic_0 : Q;
  o_s_elastic_max : Q;
  o_s_elastic_min : Q;
  o_obj_direct : bool;
  o_time_freezing : bool;
  o_tf_tol : Q;
  o_sot : sot_mode;
  o_sot_min : Q;
  o_sot_max : Q
}.

(* Default values, nosnoc_opts.py:21-118. *)
Definition default_opts : opts := {|
  o_terminal_time := 1; o_use_fesd := true; o_max_iter_homotopy := 0;
  o_init := AllXcurrentW0Start; o_repr := Integral; o_ns := 2; o_scheme := RadauIIA;
  o_cross := SumLambdas; o_mpcc := ScholtesIneq; o_constr := Exact; o_pss := Stewart;
  o_gamma_h := Fin 1; o_smoothing := 10; o_fix_active_set_fe0 := false;
  o_N_finite_elements := 2; o_Nfe_list := []; o_comp_tol := 1 # 100000000; o_sigma_0 := 1;
  o_sigma_N := 1 # 100000000; o_slope := 1 # 10; o_exponent := 3 # 2; o_rule := Linear;
  o_step_eq := HeuristicDelta; o_step_eq_sigma := 1 # 10; o_rho_h := 1; o_fb1 := 1;
  o_fb2 := 1 # 10; o_do_polishing := false; o_N_stages := 1; o_equidistant := true;
  o_g_path_at_fe := false; o_g_path_at_stg := false; o_s_elastic_0 := 1; o_s_elastic_max := 10;
  o_s_elastic_min := 0; o_obj_direct := true; o_time_freezing := false; o_tf_tol := 1 # 1000;
  o_sot := SotNone; o_sot_min := 1; o_sot_max := 25 |}.

Definition set_iter_nfe (o : opts) (it : nat) (nfe : list nat) : opts := {|
  o_terminal_time := o_terminal_time o; o_use_fesd := o_use_fesd o; o_max_iter_homotopy := it;
  o_init := o_init o; o_repr := o_repr o; o_ns := o_ns o; o_scheme := o_scheme o;
  o_cross := o_cross o; o_mpcc := o_mpcc o; o_constr := o_constr o; o_pss := o_pss o;
  o_gamma_h := o_gamma_h o; o_smoothing := o_smoothing o;
  o_fix_active_set_fe0 := o_fix_active_set_fe0 o;
  o_N_finite_elements := o_N_finite_elements o; o_Nfe_list := nfe; o_comp_tol := o_comp_tol o;
  o_sigma_0 := o_sigma_0 o; o_sigma_N := o_sigma_N o; o_slope := o_slope o;
  o_exponent := o_exponent o; o_rule := o_rule o; o_step_eq := o_step_eq o;
  o_step_eq_sigma := o_step_eq_sigma o; o_rho_h := o_rho_h o; o_fb1 := o_fb1 o; o_fb2 := o_fb2 o;
  o_do_polishing := o_do_polishing o; o_N_stages := o_N_stages o; o_equidistant := o_equidistant o;
  o_g_path_at_fe := o_g_path_at_fe o; o_g_path_at_stg := o_g_path_at_stg o;
  o_s_elastic_0 := o_s_elastic_0 o; o_s_elastic_max := o_s_elastic_max o;
  o_s_elastic_min := o_s_elastic_min o; o_obj_direct := o_obj_direct o;
  o_time_freezing := o_time_freezing o; o_tf_tol := o_tf_tol o; o_sot := o_sot o;
  o_sot_min := o_sot_min o; o_sot_max := o_sot_max o |}.

(* attributes that preprocess() adds to the options object, nosnoc_opts.py:154-170 *)
Record tab := mkTab {
  t_A : list (list Q);        (* A_irk, DIFFERENTIAL* only *)
  t_b : list Q;               (* b_irk, DIFFERENTIAL* only *)
  t_B : list Q; t_C : list (list Q); t_D : list Q;   (* INTEGRAL only *)
  t_times : list Q;           (* irk_time_points; INTEGRAL: with leading 0.0 *)
  t_rbe : bool                (* right_boundary_point_explicit *)
}.

(* The dict NosnocOpts.opts_casadi_nlp['ipopt'] is a class attribute: one object shared by
   all instances (nosnoc_opts.py:85-106). Only the entries written by the code are kept. *)
Record ipopt_dict := mkIpopt { ip_tol : option Q; ip_max_iter : nat }.
Definition ipopt_init : ipopt_dict := mkIpopt None 500.

(* nosnoc_opts.py:93-100, 121-125 property setters *)
Definition set_tol_ipopt (d : ipopt_dict) (v : Q) : ipopt_dict := mkIpopt (Some v) (ip_max_iter d).
Definition set_nlp_max_iter (d : ipopt_dict) (v : nat) : ipopt_dict := mkIpopt (ip_tol d) v.

Definition Qabs_ltb (x y : Q) : bool := (* |x| < y *)
  negb (Qle_bool y x) && negb (Qle_bool y (- x)).

Section Preprocess.
(* numpy: int(np.round(np.abs(np.log(comp_tol/sigma_0)/np.log(slope)))) *)
Variable log_round : Q -> Q -> Q -> nat.
(* ca.collocation_points(n_s, scheme) *)
Variable cpoints : nat -> scheme -> list Q.

(* nosnoc_opts.py:154-170 *)
Definition make_tab (o : opts) : res tab :=
  do* t <- match o_repr o with
           | Integral =>
               do* it <- generate_butcher_tableu_integral (cpoints (o_ns o) (o_scheme o));
               Ok (mkTab [] [] (it_B it) (it_C it) (it_D it) (it_tau it) false)
           | _ =>
               do* bt <- generate_butcher_tableu (o_ns o) (o_scheme o);
               Ok (mkTab (bt_A bt) (bt_b bt) [] [] [] (bt_c bt) false)
           end;
  do* tl <- lastE EIndexError (t_times t);
  Ok (mkTab (t_A t) (t_b t) (t_B t) (t_C t) (t_D t) (t_times t)
        (Qabs_ltb (tl - 1) (1 # 1000000000))).

(* nosnoc_opts.py:133-189 preprocess. Returns the shared ipopt dict, the updated options and
   the tableau attributes. validate() is static here. The three `Warning(...)` expressions of
   lines 144, 176, 180, 186 construct an exception object and discard it: no effect. The logs
   raise no exception for nonpositive arguments (nan); that case is not modelled. *)
Definition preprocess (d : ipopt_dict) (o : opts) : res (ipopt_dict * opts * tab) :=
  let d' := match ip_tol d with None => set_tol_ipopt d (o_comp_tol o * (1 # 100))%Q | Some _ => d end in
  let it := if o_max_iter_homotopy o =? 0
            then log_round (o_comp_tol o) (o_sigma_0 o) (o_slope o) + 1
            else o_max_iter_homotopy o in
  let nfe := match o_Nfe_list o with
             | [] => repeat (o_N_finite_elements o) (o_N_stages o)
             | l => l
             end in
  let o' := set_iter_nfe o it nfe in
  do* t <- make_tab o';
  Ok (d', o', t).

(* nosnoc_opts.py:21-118: the annotated attributes in order. Enum classes: 0 InitializationStrategy,
   1 IrkRepresentation, 2 IrkSchemes, 3 CrossComplementarityMode, 4 MpccMode, 5 ConstraintHandling,
   6 PssMode, 7 HomotopyUpdateRule, 8 StepEquilibrationMode, 9 SpeedOfTimeVariableMode. The
   properties tol_ipopt, nlp_max_iter and the dict opts_casadi_nlp carry no annotation. *)
Definition opts_annotations : list annot := [
  AUnion [TFloat; TInt];                                         (* terminal_time *)
  AType TBool; AType TInt; AType TInt;                           (* use_fesd .. max_iter_homotopy *)
  AType (TEnum 0); AType (TEnum 1); AType TInt; AType (TEnum 2); (* .. irk_scheme *)
  AType (TEnum 3); AType (TEnum 4); AType (TEnum 5); AType (TEnum 6);  (* .. pss_mode *)
  AType TBool; AType TFloat;                                     (* use_upper_bound_h, gamma_h *)
  AType TFloat; AType TBool;                                     (* smoothing_parameter, fix_active_set_fe0 *)
  AType TInt; AType TList;                                       (* N_finite_elements, Nfe_list *)
  AType TFloat; AType TFloat; AType TFloat; AType TFloat; AType TFloat; (* comp_tol .. exponent *)
  AType (TEnum 7); AType (TEnum 8); AType TFloat; AType TFloat;  (* rule .. rho_h *)
  AType TFloat; AType TFloat; AType TBool;                       (* fb weights, do_polishing_step *)
  AType TInt; AType TBool; AType TBool; AType TBool;             (* N_stages .. g_path_at_stg *)
  AType TFloat; AType TFloat; AType TFloat; AType TBool;         (* s_elastic_*, objective_scaling_direct *)
  AType TBool; AType TFloat;                                     (* time_freezing, tolerance *)
  AType (TEnum 9); AType TFloat; AType TFloat;                   (* speed_of_time_* *)
  AType TBool ].                                                 (* rootfinder_for_initial_z *)

(* preprocess including validate(self) of line 139; [types] are the types of the attribute values,
   in the order of the annotations *)
Definition preprocess_checked (d : ipopt_dict) (types : list pyty) (o : opts) : res (ipopt_dict * opts * tab) :=
  do* _ <- validate (combine opts_annotations types);
  preprocess d o.

End Preprocess.

(* Options objects of one program: every instance refers to the same class-level dict
   (nosnoc_opts.py:85-107 are class attributes, not dataclass fields). *)
Record optworld := mkWorld { ow_dict : ipopt_dict; ow_objs : list opts }.
Definition ow_tol (w : optworld) (i : nat) : option (option Q) :=
  match nth_error (ow_objs w) i with Some _ => Some (ip_tol (ow_dict w)) | None => None end.
Definition ow_max_iter (w : optworld) (i : nat) : option nat :=
  match nth_error (ow_objs w) i with Some _ => Some (ip_max_iter (ow_dict w)) | None => None end.
Definition ow_set_tol (w : optworld) (i : nat) (v : Q) : res optworld :=
  do* _ <- nthE EIndexError (ow_objs w) i; Ok (mkWorld (set_tol_ipopt (ow_dict w) v) (ow_objs w)).
Definition ow_set_max_iter (w : optworld) (i : nat) (v : nat) : res optworld :=
  do* _ <- nthE EIndexError (ow_objs w) i; Ok (mkWorld (set_nlp_max_iter (ow_dict w) v) (ow_objs w)).
Definition ow_preprocess (lr : Q -> Q -> Q -> nat) (cp : nat -> scheme -> list Q) (w : optworld) (i : nat) : res optworld :=
  do* o <- nthE EIndexError (ow_objs w) i;
  do* r <- preprocess lr cp (ow_dict w) o;
  let '(d, o', _) := r in
  do* os <- updE EIndexError (ow_objs w) i o';
  Ok (mkWorld d os).

(* which combinations the code calls UNSUPPORTED (nosnoc_opts.py:173-188) *)
Definition unsupported_combination (o : opts) : bool :=
  (match o_cross o with SumLambdas => true | _ => false end &&
   match o_mpcc o with FischerBurmeister | FischerBurmeisterIpAug => true | _ => false end)
  || (match o_mpcc o with FischerBurmeister => true | _ => false end &&
      match o_constr o with LeastSquares => false | _ => true end)
  || (match o_step_eq o with Direct | DirectComplementarity => true | _ => false end &&
      match o_constr o with LeastSquares => false | _ => true end).
