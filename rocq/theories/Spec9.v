(* Spec9.v -- vocabulary of the theorems about Filippov solutions: piecewise constant vector
   fields, affine switching functions, convex weights and the trajectory through the grid points. *)
From Coq Require Import Reals Qreals.
From Verif Require Import Base Sx Utils Tableau Opts Model Ocp Problem Spec Fesd Spec2 Spec3.

(* the columns of F depend on controls, parameters and global variables only *)
Definition constant_sym (s : sym) : Prop := match s with MU _ | MPt _ | MPg _ | SVg _ => True | _ => False end.
Definition piecewise_constant (m : model) : Prop :=
  forall s k i, uses_only constant_sym (nth i (nth k (user_F m s) []) (ECst 0)).
(* an expression of state and global parameters that is affine in the state *)
Definition affine (m : model) (e : expr) : Prop :=
  uses_only (fun s => match s with MX i => i < m_nx m | MPg _ => True | _ => False end) e /\
  forall (v w z : env) (tau : R),
    (forall i, z (MX i) = ((1 - tau) * v (MX i) + tau * w (MX i))%R) ->
    (forall i, v (MPg i) = z (MPg i)) -> (forall i, w (MPg i) = z (MPg i)) ->
    eval z e = ((1 - tau) * eval v e + tau * eval w e)%R.
Definition affine_switching (m : model) : Prop :=
  forall s e, In e (user_gS m s) \/ In e (user_c m s) -> affine m e.
(* the global parameters have the same value on every control stage *)
Definition same_globals (m : model) (rho : env) : Prop :=
  forall c c' i, rho (SPst c (m_npt m + i)) = rho (SPst c' (m_npt m + i)).
(* the lambda00 parameters solve the switching equations at the initial state (C31) *)
Definition initial_multipliers (o : opts) (m : model) (rho : env) : Prop :=
  let v0 := plain_point m rho 0 (fun i => rho (SX0 i)) in
  match o_pss o with
  | Stewart => exists mu : nat -> R, forall s k, s < n_subsystems m -> k < n_modes m s ->
      rho (SL00 FLam s k) = (region_value m v0 s k + mu s)%R
  | Step => forall s k, s < n_subsystems m -> k < n_switch m s ->
      (rho (SL00 FLp s k) - rho (SL00 FLn s k) = switch_value m v0 s k)%R
  end.
(* the interpolatory quadrature rule of the collocation points has nonnegative weights, as those
   of Gauss and Radau have. Only read for the INTEGRAL representation. *)
Definition weights_nonneg (cp : nat -> scheme -> list Q) (o : opts) : Prop :=
  o_repr o = Integral -> exists be, length be = o_ns o /\ (forall q, In q be -> (0 <= q)%Q) /\
    forall p, p < o_ns o -> (moment be (cp (o_ns o) (o_scheme o)) p == 1 / inject_Z (Z.of_nat (S p)))%Q.
(* how far the quadrature weights of the tables may be from summing to one *)
Definition weight_error (o : opts) : R := match o_repr o with Integral => 0%R | _ => Q2R tolerance end.

Section Filippov.
Variables (o : opts) (t : tab) (m : model) (rho : env).
Local Open Scope R_scope.

Definition convex_weights (th : nat -> nat -> R) : Prop := forall s, (s < n_subsystems m)%nat ->
  (forall k, (k < n_modes m s)%nat -> 0 <= th s k) /\ rupto (n_modes m s) (th s) = 1.
Definition mixed_field (v : env) (th : nat -> nat -> R) (i : nat) : R :=
  rupto (n_subsystems m) (fun s => rupto (n_modes m s) (fun k => mode_field m v s k i * th s k)).
Definition smallest (v : env) (s k : nat) : Prop :=
  forall k', (k' < n_modes m s)%nat -> region_value m v s k <= region_value m v s k'.
(* the state lies in the closure of region R_k *)
Definition in_closed_region (v : env) (s k : nat) : Prop :=
  forall r, (r < n_switch m s)%nat -> 0 <= Q2R (sign m s k r) * switch_value m v s r.

(* straight line from the initial to the final state of element (c, e) *)
Definition segment (c e : nat) (tau : R) (i : nat) : R :=
  (1 - tau) * start_state o t rho c e i + tau * end_state o t rho c e i.
Definition on_segment (c e : nat) (tau : R) : env := plain_point m rho c (segment c e tau).
(* the same as a function of time, the element starting at time t0 *)
Definition trajectory (c e : nat) (t0 tm : R) : nat -> R := segment c e ((tm - t0) / step_len o rho c e).
Definition along (c e : nat) (t0 tm : R) : env := plain_point m rho c (trajectory c e t0 tm).

(* element (c, e) moves with kappa times a convex combination of modes that are active (in the
   sense of act) all along the element *)
Definition filippov_element (act : env -> nat -> nat -> Prop) (c e : nat) (kappa : R) : Prop :=
  exists th, convex_weights th /\
    (forall i tau, (i < m_nx m)%nat -> 
       end_state o t rho c e i - start_state o t rho c e i =
       step_len o rho c e * (kappa * (speed o rho c * mixed_field (on_segment c e tau) th i))) /\
    (forall tau s k, 0 <= tau <= 1 -> (s < n_subsystems m)%nat -> (k < n_modes m s)%nat -> 0 < th s k ->
       act (on_segment c e tau) s k).
(* the trajectory solves x' = kappa * speed * (element of the Filippov set) on [t0, t0 + h] *)
Definition filippov_solution (act : env -> nat -> nat -> Prop) (c e : nat) (kappa : R) : Prop :=
  exists th, convex_weights th /\ forall t0 tm, t0 <= tm <= t0 + step_len o rho c e ->
    (forall i, (i < m_nx m)%nat -> derivable_pt_lim (fun tm => trajectory c e t0 tm i) tm
       (kappa * (speed o rho c * mixed_field (along c e t0 tm) th i))) /\
    (forall s k, (s < n_subsystems m)%nat -> (k < n_modes m s)%nat -> 0 < th s k -> act (along c e t0 tm) s k).

(* ---- the whole horizon ---- *)
Definition is_element (c e : nat) : Prop := (c < o_N_stages o)%nat /\ (e < nfe_of o c)%nat.
Definition grid_time (c e : nat) : R := rupto c (stage_length o rho) + rupto e (step_len o rho c).
Definition end_time : R := rupto (o_N_stages o) (stage_length o rho).
(* X is a Filippov solution up to a factor kappa in the speed: it is Lipschitz and, away from the
   grid points, its derivative is a convex combination of active modes *)
Definition filippov_trajectory (act : env -> nat -> nat -> Prop) (X : R -> nat -> R) : Prop :=
  (exists L, forall i a b, (i < m_nx m)%nat -> 0 <= a <= end_time -> 0 <= b <= end_time -> Rabs (X a i - X b i) <= L * Rabs (a - b)) /\
  (forall i, (i < m_nx m)%nat -> X 0 i = rho (SX0 i)) /\
  (forall c e i, is_element c e -> (i < m_nx m)%nat -> X (grid_time c e + step_len o rho c e) i = end_state o t rho c e i) /\
  forall tm, 0 <= tm <= end_time -> (forall c e, is_element c e -> tm <> grid_time c e /\ tm <> grid_time c e + step_len o rho c e) ->
    exists c e th kappa, is_element c e /\ grid_time c e < tm < grid_time c e + step_len o rho c e /\
      convex_weights th /\ Rabs (kappa - 1) <= weight_error o /\
      (forall i, (i < m_nx m)%nat ->
         derivable_pt_lim (fun z => X z i) tm (kappa * (speed o rho c * mixed_field (plain_point m rho c (X tm)) th i))) /\
      (forall s k, (s < n_subsystems m)%nat -> (k < n_modes m s)%nat -> 0 < th s k -> act (plain_point m rho c (X tm)) s k).
End Filippov.

(* what the theorems assume besides feasibility: exact quadrature points, piecewise constant field,
   affine switching functions, consistent parameters, zero relaxation *)
Definition filippov_setting (cp : nat -> scheme -> list Q) (o : opts) (m : model) (rho : env) : Prop :=
  points_ok cp o /\ weights_nonneg cp o /\ m_F m <> None /\ piecewise_constant m /\ affine_switching m /\
  same_globals m rho /\ initial_multipliers o m rho /\ zero_relaxation o rho /\ initial_nonneg rho.
Definition steps_nonneg (o : opts) (rho : env) : Prop := forall c e, is_element o c e -> (0 <= step_len o rho c e)%R.
