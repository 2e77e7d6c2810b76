(* Spec10.v -- vocabulary of the exactness theorems: solutions of the switched system itself, and systems
   for which there is only one. *)
From Coq Require Import Reals Qreals.
From Verif Require Import Base Sx Utils Tableau Opts Model Ocp Problem Spec Fesd Spec2 Spec3 Spec9.

Definition continuous_between (a b : R) (f : R -> R) : Prop := forall t, (a <= t <= b)%R -> forall eps, (0 < eps)%R ->
  exists delta, (0 < delta)%R /\ forall s, (a <= s <= b)%R -> (Rabs (s - t) < delta)%R -> (Rabs (f s - f t) < eps)%R.

Section Exact.
Variables (o : opts) (m : model) (rho : env) (act : env -> nat -> nat -> Prop).
Local Open Scope R_scope.
Definition active_weights (v : env) (th : nat -> nat -> R) : Prop :=
  convex_weights m th /\ forall s k, (s < n_subsystems m)%nat -> (k < n_modes m s)%nat -> 0 < th s k -> act v s k.
(* velocity in control stage c at state x *)
Definition velocity (c : nat) (x : nat -> R) (th : nat -> nat -> R) (i : nat) : R :=
  speed o rho c * mixed_field m (plain_point m rho c x) th i.
(* Y solves the switched system with the controls, speeds of time and parameters of rho: continuous,
   from x0, and with a velocity of the Filippov set at all but finitely many times *)
Definition exact_solution (Y : R -> nat -> R) : Prop :=
  (forall i, (i < m_nx m)%nat -> continuous_between 0 (end_time o rho) (fun z => Y z i)) /\
  (forall i, (i < m_nx m)%nat -> Y 0 i = rho (SX0 i)) /\
  exists pts, forall c tm, (c < o_N_stages o)%nat -> grid_time o rho c 0 < tm < grid_time o rho c 0 + stage_length o rho c -> ~ In tm pts ->
    exists th, active_weights (plain_point m rho c (Y tm)) th /\
      forall i, (i < m_nx m)%nat -> derivable_pt_lim (fun z => Y z i) tm (velocity c (Y tm) th i).
Definition distance2 (x y : nat -> R) : R := rupto (m_nx m) (fun i => (x i - y i) * (x i - y i)).
(* the one-sided Lipschitz condition *)
Definition one_sided (L : R) : Prop := forall c x y th th', (c < o_N_stages o)%nat ->
  active_weights (plain_point m rho c x) th -> active_weights (plain_point m rho c y) th' ->
  rupto (m_nx m) (fun i => (x i - y i) * (velocity c x th i - velocity c y th' i)) <= L * distance2 x y.
Definition field_bound (M : R) : Prop := forall c x th, (c < o_N_stages o)%nat -> convex_weights m th ->
  rupto (m_nx m) (fun i => velocity c x th i * velocity c x th i) <= M.
End Exact.

(* the scalar system x' = a for x < 0, x' = b for x > 0 *)
Definition switch_model (a b x0 : Q) : model := {|
  m_nx := 1; m_x0 := [x0];
  m_F := Some [mkFmat 1 [[ECst a]; [ECst b]]];
  m_c := Some [[EVar (MX 0)]]; m_S := Some [[[(-1)%Q]; [1%Q]]]; m_gS := None;
  m_nu := 0; m_nz := 0; m_z0 := None; m_lbz := None; m_ubz := None; m_alpha := None; m_fx := None;
  m_gz := []; m_npt := 0; m_npg := 0; m_ptv_val := None; m_pg_val := []; m_nvg := 0; m_tvar := None |}.
(* its solution from x0 <= 0 with a > 0: up to the surface, then across it (b > 0) or along it (b <= 0) *)
Definition switch_solution (a b x0 : Q) (tm : R) : R :=
  let ts := (- Q2R x0 / Q2R a)%R in
  if Rle_dec tm ts then (Q2R x0 + Q2R a * tm)%R else (Rmax 0 (Q2R b) * (tm - ts))%R.
