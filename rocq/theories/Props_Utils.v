(* Props_Utils.v -- C56, C64, C65, C67: utils.py, validate, preprocess_ocp. *)
From Coq Require Import Reals Qreals.
From Verif Require Import Base Sx Utils Tableau Opts Model Ocp Problem Spec Cases Utils_proofs Opts_proofs.

(* ---- C64 ---- *)
Theorem C64_flatten t r : leaves t r <-> flatten t = r.
Proof. exact (flatten_leaves t r). Qed.
Print Assumptions C64_flatten.
Example C64_case_flatten : flatten (Node [Node [Leaf 1; Node [Leaf 2]]; Leaf 3; Node []]) = [Leaf 1; Leaf 2; Leaf 3].
Proof. reflexivity. Qed.

(* at every path the shape is kept and integers grow by inc *)
Theorem C64_increment_indices inc L L' : increment_indices L inc = Ok L' ->
  forall p, match sub (Node L) p, sub (Node L') p with
            | Some (Leaf n), Some (Leaf n') => n' = n + inc
            | Some (Node l), Some (Node l') => length l' = length l
            | None, None => True
            | _, _ => False end.
Proof. exact (increment_sub inc L L'). Qed.
Print Assumptions C64_increment_indices.
(* the only failure: an object that is neither an int nor a list *)
Theorem C64_increment_indices_fails inc L :
  increment_indices L inc = Err EValueError <-> exists p k, sub (Node L) p = Some (Other k).
Proof. exact (increment_err inc L). Qed.
Print Assumptions C64_increment_indices_fails.
Example C64_case_increment :
  increment_indices [Node [Leaf 1; Node [Leaf 0]]; Leaf 4] 7 = Ok [Node [Leaf 8; Node [Leaf 7]]; Leaf 11] /\
  sub (Node [Node [Leaf 1; Node [Leaf 0]]; Leaf 4]) [0; 1; 0] = Some (Leaf 0) /\
  increment_indices [Node [Other 0]] 7 = Err EValueError.
Proof. repeat split. Qed.

Theorem C64_flatten_layer k L L' :
  (flatten_layer k L = Ok L' <-> layer_removed k L L') /\
  (flatten_layer k L = Ok L' -> forall r, leaves (Node L') r <-> leaves (Node L) r).
Proof. exact (conj (flatten_layer_ok k L L') (fun H r => layer_keeps k L L' r H)). Qed.
Print Assumptions C64_flatten_layer.
Theorem C64_flatten_outer_layers n L L' : flatten_outer_layers n L = Ok L' ->
  forall r, leaves (Node L') r <-> leaves (Node L) r.
Proof. exact (fun H r => outer_keeps n L L' r H). Qed.
Print Assumptions C64_flatten_outer_layers.
Example C64_case_layer :
  flatten_layer 1 [Node [Node [Leaf 1]; Node [Leaf 2; Leaf 3]]; Node [Leaf 4]] = Ok [Node [Leaf 1; Leaf 2; Leaf 3]; Node [Leaf 4]] /\
  flatten_layer 0 [Node [Leaf 1]; Leaf 2] = Err ETypeError.
Proof. repeat split. Qed.

Theorem C64_vertcat_list {A} (x : list (list A)) : casadi_vertcat_list x = concat x.
Proof. exact (vertcat_concat x). Qed.
Print Assumptions C64_vertcat_list.
(* vectors of equal length are added componentwise *)
Theorem C64_sum_list n x : x <> [] -> (forall v, In v x -> length v = n) ->
  exists r, casadi_sum_list x = Ok r /\ length r = n /\
    forall rho j e, nth_error r j = Some e ->
      eval rho e = fold_right (fun v s => (match nth_error v j with Some a => eval rho a | None => 0 end + s)%R) 0%R x.
Proof. exact (sum_list_spec n x). Qed.
Print Assumptions C64_sum_list.
Example C64_case_sum : casadi_sum_list [[cx 0; cq 1]; [cx 1; cq 2]; [cq 5; cx 0]] =
  Ok [EBin BAdd (EBin BAdd (cx 0) (cx 1)) (cq 5); EBin BAdd (EBin BAdd (cq 1) (cq 2)) (cx 0)] /\
  casadi_sum_list [] = Err EIndexError /\ casadi_vertcat_list [[1; 2]; []; [3]] = [1; 2; 3].
Proof. repeat split. Qed.

(* ---- C65: the three groups are disjoint, exhaustive selections of the rows, in order ---- *)
Theorem C65_groups_of_path_complementarities pm oc p : preprocess_ocp pm oc = Ok p ->
  exists inst inct : expr * expr -> bool,
    (forall r, inst r = true <-> uses (mx (pm_m pm) ++ mz (pm_m pm)) r) /\
    (forall r, inct r = true <-> uses (mu_ (pm_m pm) ++ mpt (pm_m pm)) r) /\
    mkcomp [mx (pm_m pm); mu_ (pm_m pm); pm_zall pm; mp (pm_m pm); mvg (pm_m pm)] (filter inst (oc_comp oc)) = Ok (po_rk_comp p) /\
    mkcomp [mu_ (pm_m pm); mp (pm_m pm); mvg (pm_m pm)] (filter (fun r => negb (inst r) && inct r) (oc_comp oc)) = Ok (po_ctrl_comp p) /\
    mkcomp [mpg (pm_m pm); mvg (pm_m pm)] (filter (fun r => negb (inst r) && negb (inct r)) (oc_comp oc)) = Ok (po_global_comp p).
Proof. exact (ocp_groups pm oc p). Qed.
Print Assumptions C65_groups_of_path_complementarities.
(* the case: one row of each kind *)
Definition ocp_three : ocp := {|
  oc_lbu := None; oc_ubu := None; oc_u_guess := None; oc_lbx := None; oc_ubx := None; oc_fq := cq 0;
  oc_g_path := []; oc_lbg := None; oc_ubg := None;
  oc_comp := [(EVar (MPg 0), EVar (SVg 0)); (cx 0, cx 1); (EVar (MU 0), EVar (SVg 0))];
  oc_fT := cq 0; oc_gT := []; oc_lbv := None; oc_ubv := None; oc_v_guess := None |}.
Example C65_case : match preprocess_model default_opts model1 with
  | Ok pm => match preprocess_ocp pm ocp_three with
      | Ok p => (length (cf_out (fst (po_rk_comp p))), length (cf_out (fst (po_ctrl_comp p))), length (cf_out (fst (po_global_comp p)))) = (1, 1, 1)
      | Err _ => False end
  | Err _ => False end.
Proof. vm_compute. reflexivity. Qed.

(* ---- C67 ---- *)
(* accepted exactly if every expression uses the symbols it may use and every given vector has
   the right length *)
Theorem C67_accepted_iff_consistent pm oc : is_ok (preprocess_ocp pm oc) = true <-> ocp_fits pm oc.
Proof. exact (preprocess_ocp_iff pm oc). Qed.
Print Assumptions C67_accepted_iff_consistent.
(* leaving a bound out is the same as giving infinite (path constraint: zero) bounds *)
Theorem C67_absent_bounds pm oc : preprocess_ocp pm (written_out (pm_m pm) oc) = preprocess_ocp pm oc.
Proof. exact (preprocess_ocp_written pm oc). Qed.
Print Assumptions C67_absent_bounds.
Theorem C67_absent_bounds_same_problem lr cp d o m oc :
  construct_problem lr cp d o m (Some (written_out m oc)) = construct_problem lr cp d o m (Some oc).
Proof. exact (construct_written lr cp d o m oc). Qed.
Print Assumptions C67_absent_bounds_same_problem.
Example C67_case : match preprocess_model optsA model1 with
  | Ok pm => is_ok (preprocess_ocp pm ocp1) = true /\
      preprocess_ocp pm (mkOcp (Some [Fin 0; Fin 0]) None None None None (cq 0) [] None None [] (cq 0) [] None None None) = Err EValueError /\
      preprocess_ocp pm (mkOcp None None None None None (cq 0) [] None None [] (cq 0) [] (Some []) None None) = Err EException
  | Err _ => False end.
Proof. vm_compute. repeat split. Qed.

(* ---- C56 ---- *)
Theorem C56_type_error_iff lr cp d types o : length types = length opts_annotations ->
  (preprocess_checked lr cp d types o = Err ETypeError <->
   exists k a v, nth_error opts_annotations k = Some a /\ nth_error types k = Some v /\ ~ fits a v).
Proof. exact (preprocess_checked_type lr cp d types o). Qed.
Print Assumptions C56_type_error_iff.
Theorem C56_well_typed_options_pass lr cp d types o : length types = length opts_annotations ->
  (forall k a v, nth_error opts_annotations k = Some a -> nth_error types k = Some v -> fits a v) ->
  preprocess_checked lr cp d types o = preprocess lr cp d o.
Proof. exact (preprocess_checked_ok lr cp d types o). Qed.
Print Assumptions C56_well_typed_options_pass.
(* default values, with gamma_h = 1 (an int) and with a bool as n_s *)
Definition default_types : list pyty :=
  [TFloat; TBool; TInt; TInt; TEnum 0; TEnum 1; TInt; TEnum 2; TEnum 3; TEnum 4; TEnum 5; TEnum 6; TBool; TFloat; TFloat;
   TBool; TInt; TList; TFloat; TFloat; TFloat; TFloat; TFloat; TEnum 7; TEnum 8; TFloat; TFloat; TFloat; TFloat; TBool; TInt;
   TBool; TBool; TBool; TFloat; TFloat; TFloat; TBool; TBool; TFloat; TEnum 9; TFloat; TFloat; TBool].
Fixpoint put {A} (l : list A) (i : nat) (a : A) : list A :=
  match l, i with [], _ => [] | _ :: r, 0 => a :: r | x :: r, S i' => x :: put r i' a end.
Example C56_case : length default_types = length opts_annotations /\
  is_ok (preprocess_checked case_log_round case_cpoints ipopt_init default_types default_opts) = true /\
  preprocess_checked case_log_round case_cpoints ipopt_init (put default_types 13 TInt) default_opts = Err ETypeError /\
  is_ok (preprocess_checked case_log_round case_cpoints ipopt_init (put default_types 6 TBool) default_opts) = true.
Proof. vm_compute. repeat split. Qed.
