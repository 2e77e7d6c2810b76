(* Spec37.v -- vocabulary: initial value problems that stay in one mode *)
From Coq Require Import Reals Qreals.
From Verif Require Import Base Sx Utils Tableau Opts Model Ocp Problem Spec Fesd Spec2 Spec3 Spec9 Spec10 Spec11.
Local Open Scope R_scope.

Section Ball.
Variables (o : opts) (m : model) (oc : ocp) (rho : env).
(* a mode of every subsystem *)
Variable mode : nat -> nat.
Variables r L M : R.
Definition pure (s k : nat) : R := if (k =? mode s)%nat then 1 else 0.
(* the ball around the initial state *)
Definition close_to_start (x : nat -> R) : Prop := forall i, (i < m_nx m)%nat -> Rabs (x i - rho (SX0 i)) <= r.
(* in the ball the modes have the smallest region values *)
Definition mode_holds : Prop := forall c x s, (c < o_N_stages o)%nat -> close_to_start x -> (s < n_subsystems m)%nat ->
  smallest m (plain_point m rho c x) s (mode s).
Definition mode_strict : Prop := forall c x s k, (c < o_N_stages o)%nat -> close_to_start x -> (s < n_subsystems m)%nat -> (k < n_modes m s)%nat -> k <> mode s ->
  region_value m (plain_point m rho c x) s (mode s) < region_value m (plain_point m rho c x) s k.
(* in the ball the field of the modes is bounded by M and has the Lipschitz constant L *)
Definition field_bounded : Prop := forall c x i, (c < o_N_stages o)%nat -> close_to_start x -> (i < m_nx m)%nat ->
  Rabs (velocity o m rho c x pure i) <= M.
Definition field_lipschitz : Prop := forall c x y dl, (c < o_N_stages o)%nat -> close_to_start x -> close_to_start y ->
  (forall i, (i < m_nx m)%nat -> Rabs (x i - y i) <= dl) ->
  forall i, (i < m_nx m)%nat -> Rabs (velocity o m rho c x pure i - velocity o m rho c y pure i) <= L * dl.
(* the ball respects the bounds on the state and the path constraints; there are no terminal constraints *)
Definition ball_admissible : Prop := oc_gT oc = [] /\ forall c x, (c < o_N_stages o)%nat -> close_to_start x ->
  (forall i, (i < m_nx m)%nat -> within (lower1 m oc FX i) (upper1 m oc FX i) (x i)) /\ path_holds m oc rho c x.
Definition mode_problem : Prop := (forall s, (s < n_subsystems m)%nat -> (mode s < n_modes m s)%nat) /\
  0 <= L /\ 0 <= M /\ mode_holds /\ field_bounded /\ field_lipschitz.
End Ball.

(* a integrates the polynomials of degree less than the number of points exactly: the Butcher matrix of the points *)
Definition integrates (pts : list Q) (a : nat -> nat -> R) : Prop := forall j k, (j < length pts)%nat -> (k < length pts)%nat ->
  rupto (length pts) (fun q => a j q * Q2R (nth q pts 0%Q) ^ k) = Q2R (nth j pts 0%Q) ^ S k / INR (S k).
(* Lam bounds the row sums of a Butcher matrix *)
Definition row_bound (pts : list Q) (Lam : R) : Prop := 0 <= Lam /\ exists a, integrates pts a /\
  forall j, (j < length pts)%nat -> rupto (length pts) (fun q => Rabs (a j q)) <= Lam.
Definition short_steps (o : opts) (rho : env) (Lam r L M : R) : Prop :=
  steps_nonneg o rho /\ (forall c e, is_element o c e -> step_len o rho c e * Lam * L < 1) /\ Lam * M * end_time o rho <= r.
(* the direct modes of step equilibration forbid steps of different lengths inside a mode *)
Definition even_steps (o : opts) (rho : env) : Prop := match o_step_eq o with
  | Direct | DirectComplementarity => forall c e, is_element o c e -> (0 < e)%nat -> delta_h o rho c e = 0
  | _ => True
  end.
(* the points of the quadrature *)
Definition point_of (cp : nat -> scheme -> list Q) (o : opts) (j : nat) : R := Q2R (nth j (cp (o_ns o) (o_scheme o)) 0%Q).
