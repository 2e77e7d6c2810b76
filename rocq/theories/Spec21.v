(* Spec21.v -- vocabulary of the convergence theorems: vector fields that vary with the state, trajectories
   that move with the velocities of nearby states, bounds on a set of states. *)
From Coq Require Import Reals Qreals.
From Verif Require Import Base Sx Utils Tableau Opts Model Ocp Problem Spec Fesd Spec2 Spec3 Spec9 Spec10 Spec11.
Local Open Scope R_scope.

(* vector fields and switching functions are written in states, controls, parameters and global variables *)
Definition plain_fields (m : model) : Prop :=
  m_F m <> None /\
  (forall s k i, uses_only (plain_sym m) (nth i (nth k (user_F m s) []) (ECst 0))) /\
  (forall s e, In e (user_gS m s) \/ In e (user_c m s) -> uses_only (plain_sym m) e).
(* what the theorems assume besides feasibility: exact quadrature points, zero relaxation *)
Definition convergence_setting (cp : nat -> scheme -> list Q) (o : opts) (m : model) (rho : env) : Prop :=
  points_ok cp o /\ weights_nonneg cp o /\ plain_fields m /\ zero_relaxation o rho /\ initial_nonneg rho.

(* the discretisation method *)
Definition method (re : irk_repr) (sc : scheme) (n : nat) (o : opts) : Prop := o_repr o = re /\ o_scheme o = sc /\ o_ns o = n.
(* which modes may be used in a state: Stewart those of smallest switching function, Step those whose closed region contains it *)
Definition mode_rule (o : opts) (m : model) (act : env -> nat -> nat -> Prop) : Prop :=
  (o_pss o = Stewart /\ act = smallest m) \/
  (o_pss o = Step /\ sign_matrix m /\ rows_fit m /\ (forall s, (s < n_subsystems m)%nat -> complete m s) /\ act = in_closed_region m).

Section Approx.
Variables (o : opts) (t : tab) (m : model) (rho : env) (act : env -> nat -> nat -> Prop).
(* a set of states *)
Variable D : (nat -> R) -> Prop.

Definition steps_upto (h : R) : Prop := forall c e, is_element o c e -> 0 <= step_len o rho c e <= h.
Definition stages_in : Prop := forall c e j, is_element o c e -> (j < o_ns o)%nat -> D (stage_state o t rho c e j).
Definition bounded_on (M : R) : Prop := forall c x th i, (c < o_N_stages o)%nat -> D x -> convex_weights m th -> (i < m_nx m)%nat ->
  Rabs (velocity o m rho c x th i) <= M.
Definition one_sided_on (L : R) : Prop := forall c x y th th', (c < o_N_stages o)%nat -> D x -> D y ->
  active_weights m act (plain_point m rho c x) th -> active_weights m act (plain_point m rho c y) th' ->
  rupto (m_nx m) (fun i => (x i - y i) * (velocity o m rho c x th i - velocity o m rho c y th' i)) <= L * distance2 m x y.

(* X starts in x0, passes through the states at the grid points, is Lipschitz, and its velocity at any other time is an average
   of velocities that the switched system allows in states of D that are closer to X than delta *)
Definition approximate_trajectory (delta : R) (X : R -> nat -> R) : Prop :=
  (exists L, forall i a b, (i < m_nx m)%nat -> 0 <= a <= end_time o rho -> 0 <= b <= end_time o rho -> Rabs (X a i - X b i) <= L * Rabs (a - b)) /\
  (forall i, (i < m_nx m)%nat -> X 0 i = rho (SX0 i)) /\
  (forall c e i, is_element o c e -> (i < m_nx m)%nat -> X (grid_time o rho c e + step_len o rho c e) i = end_state o t rho c e i) /\
  forall tm, 0 <= tm <= end_time o rho -> (forall c e, is_element o c e -> tm <> grid_time o rho c e /\ tm <> grid_time o rho c e + step_len o rho c e) ->
    exists c e n be y th, is_element o c e /\ grid_time o rho c e < tm < grid_time o rho c e + step_len o rho c e /\
      (forall j, (j < n)%nat -> 0 <= be j /\ D (y j) /\ active_weights m act (plain_point m rho c (y j)) (th j) /\
         forall i, (i < m_nx m)%nat -> Rabs (y j i - X tm i) <= delta) /\
      Rabs (rupto n be - 1) <= weight_error o /\
      forall i, (i < m_nx m)%nat ->
        derivable_pt_lim (fun z => X z i) tm (rupto n (fun j => be j * velocity o m rho c (y j) (th j) i)).
End Approx.

(* distance of a solution of the switched system from a trajectory of the above kind, squared, at time tm *)
Definition error_bound (o : opts) (m : model) (L M delta tm : R) : R :=
  INR (m_nx m) * (8 * L * (delta * delta) + 8 * M * delta + weight_error o * (M * M)) * tm * exp ((8 * L + weight_error o) * tm).
(* two modes, x' = 1 for x < 0 and x' = -x - 1 for x > 0, from 1 *)
Definition decay_model : model := {|
  m_nx := 1; m_x0 := [1%Q];
  m_F := Some [mkFmat 1 [[ECst 1]; [EBin BSub (EBin BMul (ECst (-1)) (EVar (MX 0))) (ECst 1)]]];
  m_c := Some [[EVar (MX 0)]]; m_S := Some [[[(-1)%Q]; [1%Q]]]; m_gS := None;
  m_nu := 0; m_nz := 0; m_z0 := None; m_lbz := None; m_ubz := None; m_alpha := None; m_fx := None;
  m_gz := []; m_npt := 0; m_npg := 0; m_ptv_val := None; m_pg_val := []; m_nvg := 0; m_tvar := None |}.
Definition decay_solution (tm : R) : R := Rmax 0 (2 * exp (- tm) - 1).
Definition unit_interval (x : nat -> R) : Prop := 0 <= x 0%nat <= 1.
