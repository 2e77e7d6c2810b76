(* Spec25.v -- vocabulary of the theorems on the objective: the cost of a solution of the switched system *)
From Coq Require Import Reals Qreals.
From Verif Require Import Base Sx Utils Tableau Opts Model Ocp Problem Spec Fesd Spec2 Spec3 Spec9 Spec10 Spec11 Spec21.
Local Open Scope R_scope.

Section Cost.
Variables (o : opts) (t : tab) (m : model) (oc : ocp) (rho : env).
(* running cost per unit of numerical time in state x on control stage c, and terminal cost *)
Definition cost_rate (c : nat) (x : nat -> R) : R := speed o rho c * eval (plain_point m rho c x) (oc_fq oc).
Definition end_cost (x : nat -> R) : R := eval (plain_point m rho (last_stage o) x) (oc_fT oc).
(* J tm = integral of the running cost along Y over [0, tm] *)
Definition accumulated_cost (Y : R -> nat -> R) (J : R -> R) : Prop :=
  continuous_between 0 (end_time o rho) J /\ J 0 = 0 /\
  exists pts, forall c tm, (c < o_N_stages o)%nat -> grid_time o rho c 0 < tm < grid_time o rho c 0 + stage_length o rho c -> ~ In tm pts ->
    derivable_pt_lim J tm (cost_rate c (Y tm)).
Definition total_cost (Y : R -> nat -> R) (J : R -> R) : R := J (end_time o rho) + end_cost (Y (end_time o rho)).

(* what the options add to the user's cost: penalties on the step lengths, the elastic variable *)
Definition step_penalty : R := rupto (o_N_stages o) (fun c => rupto (nfe_of o c) (fun e => step_cost o t m rho c e)).
Definition elastic_penalty : R := if elastic o then if o_obj_direct o then rho SElastic / rho SSigma else rho SElastic else 0.

Variable D : (nat -> R) -> Prop.
Definition rate_lipschitz (Lq : R) : Prop := forall c x y dd, (c < o_N_stages o)%nat -> D x -> D y ->
  (forall k, (k < m_nx m)%nat -> Rabs (x k - y k) <= dd) -> Rabs (cost_rate c x - cost_rate c y) <= Lq * dd.
Definition end_lipschitz (LT : R) : Prop := forall x y dd, D x -> D y ->
  (forall k, (k < m_nx m)%nat -> Rabs (x k - y k) <= dd) -> Rabs (end_cost x - end_cost y) <= LT * dd.
Definition rate_bounded (Mq : R) : Prop := forall c x, (c < o_N_stages o)%nat -> D x -> Rabs (cost_rate c x) <= Mq.
(* the states at the grid points are eta close to the values of Y *)
Definition grid_close (eta : R) (Y : R -> nat -> R) : Prop := forall c e i, is_element o c e -> (i < m_nx m)%nat ->
  Rabs (end_state o t rho c e i - Y (grid_time o rho c e + step_len o rho c e) i) <= eta.
End Cost.
(* INTEGRAL: the interpolation point at the left end has no weight in the cost (C22) *)
Definition no_left_weight (o : opts) (t : tab) : Prop := o_repr o = Integral -> entry1 (t_B t) 0 = 0.
