(* Spec22.v -- vocabulary of the theorems on the order of convergence with FESD *)
From Coq Require Import Reals Qreals.
From Verif Require Import Base Sx Utils Tableau Opts Model Ocp Problem Spec Fesd Spec2 Spec3 Spec9 Spec10 Spec11 Spec21.
Local Open Scope R_scope.

(* FESD with affine switching functions; consistent parameters *)
Definition fesd_setting (cp : nat -> scheme -> list Q) (o : opts) (t : tab) (m : model) (rho : env) : Prop :=
  convergence_setting cp o m rho /\ affine_switching m /\ same_globals m rho /\ initial_multipliers o m rho /\
  o_use_fesd o = true /\ (o_cross o = SumLambdas \/ t_rbe t = true).

Section Track.
Variables (o : opts) (t : tab) (m : model) (rho : env) (act : env -> nat -> nat -> Prop).
Variable D : (nat -> R) -> Prop.
(* the straight lines between the states at the grid points stay in D *)
Definition segments_in : Prop := forall c e tau, is_element o c e -> 0 <= tau <= 1 -> D (segment o t rho c e tau).
(* the velocities of fixed weights are Lipschitz on D *)
Definition lipschitz_on (Lf : R) : Prop := forall c x y th dd i, (c < o_N_stages o)%nat -> D x -> D y -> convex_weights m th ->
  (forall k, (k < m_nx m)%nat -> Rabs (x k - y k) <= dd) -> (i < m_nx m)%nat ->
  Rabs (velocity o m rho c x th i - velocity o m rho c y th i) <= Lf * dd.
(* as approximate_trajectory, but the modes in use are active in X(tm) itself: X never uses a mode outside its region *)
Definition tracking_trajectory (delta : R) (X : R -> nat -> R) : Prop :=
  (exists L, forall i a b, (i < m_nx m)%nat -> 0 <= a <= end_time o rho -> 0 <= b <= end_time o rho -> Rabs (X a i - X b i) <= L * Rabs (a - b)) /\
  (forall i, (i < m_nx m)%nat -> X 0 i = rho (SX0 i)) /\
  (forall c e i, is_element o c e -> (i < m_nx m)%nat -> X (grid_time o rho c e + step_len o rho c e) i = end_state o t rho c e i) /\
  forall tm, 0 <= tm <= end_time o rho -> (forall c e, is_element o c e -> tm <> grid_time o rho c e /\ tm <> grid_time o rho c e + step_len o rho c e) ->
    exists c e n be y th, is_element o c e /\ grid_time o rho c e < tm < grid_time o rho c e + step_len o rho c e /\ D (X tm) /\
      (forall j, (j < n)%nat -> 0 <= be j /\ D (y j) /\ active_weights m act (plain_point m rho c (X tm)) (th j) /\
         forall i, (i < m_nx m)%nat -> Rabs (y j i - X tm i) <= delta) /\
      Rabs (rupto n be - 1) <= weight_error o /\
      forall i, (i < m_nx m)%nat ->
        derivable_pt_lim (fun z => X z i) tm (rupto n (fun j => be j * velocity o m rho c (y j) (th j) i)).
End Track.

Definition first_order_bound (o : opts) (m : model) (L Lf M delta tm : R) : R :=
  INR (m_nx m) * (2 * (Lf * delta * (Lf * delta)) + weight_error o * (M * M)) * tm * exp ((4 * L + 2 + weight_error o) * tm).
