(* Spec24.v -- vocabulary of the theorems on relaxed problems (sigma > 0): modes that are nearly active *)
From Coq Require Import Reals Qreals.
From Verif Require Import Base Sx Utils Tableau Opts Model Ocp Problem Spec Fesd Spec2 Spec3 Spec9 Spec10 Spec11 Spec21.
Local Open Scope R_scope.

(* the products of weight and multiplier of each stage are at most tol *)
Definition relaxed_by (o : opts) (m : model) (rho : env) (tol : R) : Prop := forall c e j k, is_element o c e -> (j < o_ns o)%nat -> (k < n_pairs o m)%nat ->
  ent (theta_vec o m rho c e j) k * ent (lam_vec o m rho c e j) k <= tol.
(* the relaxation parameter of the modes that complement products *)
Definition relaxation (o : opts) (rho : env) : R := match o_mpcc o with ScholtesIneq | ScholtesEq => rho SSigma | _ => rho SElastic end.

(* Stewart: the switching function is at most eps above the smallest one; Step: all signs are right up to eps *)
Definition near_smallest (m : model) (eps : R) (v : env) (s k : nat) : Prop :=
  forall l, (l < n_modes m s)%nat -> region_value m v s k <= region_value m v s l + eps.
Definition near_region (m : model) (eps : R) (v : env) (s k : nat) : Prop :=
  forall r, (r < n_switch m s)%nat -> - eps <= Q2R (sign m s k r) * switch_value m v s r.
Definition near_rule (o : opts) (m : model) (act : env -> nat -> nat -> Prop) (near : R -> env -> nat -> nat -> Prop) : Prop :=
  (o_pss o = Stewart /\ act = smallest m /\ near = near_smallest m) \/
  (o_pss o = Step /\ sign_matrix m /\ rows_fit m /\ (forall s, (s < n_subsystems m)%nat -> complete m s) /\ act = in_closed_region m /\ near = near_region m).
(* convex weights; a mode with a weight above eps is nearly active *)
Definition nearly_active_weights (m : model) (near : R -> env -> nat -> nat -> Prop) (eps : R) (v : env) (th : nat -> nat -> R) : Prop :=
  convex_weights m th /\ forall s k, (s < n_subsystems m)%nat -> (k < n_modes m s)%nat -> eps < th s k -> near eps v s k.

(* what the theorems assume besides feasibility: exact quadrature points; any relaxation *)
Definition relaxed_setting (cp : nat -> scheme -> list Q) (o : opts) (m : model) : Prop :=
  points_ok cp o /\ weights_nonneg cp o /\ plain_fields m /\ product_mode o.

Section Approx.
Variables (o : opts) (t : tab) (m : model) (rho : env) (act : env -> nat -> nat -> Prop) (near : R -> env -> nat -> nat -> Prop).
Variable D : (nat -> R) -> Prop.

(* as approximate_trajectory, with nearly active weights *)
Definition relaxed_trajectory (delta eps : R) (X : R -> nat -> R) : Prop :=
  (exists L, forall i a b, (i < m_nx m)%nat -> 0 <= a <= end_time o rho -> 0 <= b <= end_time o rho -> Rabs (X a i - X b i) <= L * Rabs (a - b)) /\
  (forall i, (i < m_nx m)%nat -> X 0 i = rho (SX0 i)) /\
  (forall c e i, is_element o c e -> (i < m_nx m)%nat -> X (grid_time o rho c e + step_len o rho c e) i = end_state o t rho c e i) /\
  forall tm, 0 <= tm <= end_time o rho -> (forall c e, is_element o c e -> tm <> grid_time o rho c e /\ tm <> grid_time o rho c e + step_len o rho c e) ->
    exists c e n be y th, is_element o c e /\ grid_time o rho c e < tm < grid_time o rho c e + step_len o rho c e /\
      (forall j, (j < n)%nat -> 0 <= be j /\ D (y j) /\ nearly_active_weights m near eps (plain_point m rho c (y j)) (th j) /\
         forall i, (i < m_nx m)%nat -> Rabs (y j i - X tm i) <= delta) /\
      Rabs (rupto n be - 1) <= weight_error o /\
      forall i, (i < m_nx m)%nat ->
        derivable_pt_lim (fun z => X z i) tm (rupto n (fun j => be j * velocity o m rho c (y j) (th j) i)).

(* nearly active weights at a state of D give, up to r, a velocity that the switched system allows in a state of D closer than r *)
Definition correctable_on (eps r : R) : Prop := forall c x th, (c < o_N_stages o)%nat -> D x ->
  nearly_active_weights m near eps (plain_point m rho c x) th ->
  exists x' th', D x' /\ active_weights m act (plain_point m rho c x') th' /\
    forall i, (i < m_nx m)%nat -> Rabs (x' i - x i) <= r /\ Rabs (velocity o m rho c x th i - velocity o m rho c x' th' i) <= r.
End Approx.

(* distance of a solution of the switched system from a trajectory of the above kind, squared, at time tm *)
Definition relaxed_bound (o : opts) (m : model) (L M delta r tm : R) : R :=
  INR (m_nx m) * (8 * L * (delta * delta) + 8 * M * delta + weight_error o * (M * M) + 2 * (r * r)) * tm * exp ((8 * L + weight_error o + 2) * tm).

(* one switching function that separates two modes *)
Record one_switch (m : model) : Prop := {
  os_sub : n_subsystems m = 1%nat; os_modes : n_modes m 0 = 2%nat; os_switch : n_switch m 0 = 1%nat; os_gS : gS_given m = false; os_rows : rows_fit m;
  os_signs : ((sign m 0 0 0 == -1)%Q /\ (sign m 0 1 0 == 1)%Q) \/ ((sign m 0 0 0 == 1)%Q /\ (sign m 0 1 0 == -1)%Q) }.
(* where the switching function is at most eps, its zero set is closer than a * eps *)
Definition surface_close (o : opts) (m : model) (rho : env) (D : (nat -> R) -> Prop) (a eps : R) : Prop := forall c x, (c < o_N_stages o)%nat -> D x ->
  Rabs (switch_value m (plain_point m rho c x) 0 0) <= eps ->
  exists x', D x' /\ switch_value m (plain_point m rho c x') 0 0 = 0 /\ forall i, (i < m_nx m)%nat -> Rabs (x' i - x i) <= a * eps.
