(* Spec32.v -- vocabulary: grids that are even between switches *)
From Coq Require Import Reals Qreals.
From Verif Require Import Base Sx Utils Tableau Opts Model Ocp Problem Spec Fesd Spec2 Spec3 Spec9 Spec29.
Local Open Scope R_scope.

Section Grid.
Variables (o : opts) (t : tab) (m : model) (rho : env).
(* no switch at the boundaries inside the elements a .. b - 1 of control stage c *)
Definition quiet (c a b : nat) : Prop := forall e, (a < e < b)%nat -> no_switch o t m rho c e.
(* the elements a .. b - 1 of control stage c divide the time they cover evenly *)
Definition even_grid (c a b : nat) : Prop := forall e, (a <= e < b)%nat -> step_len o rho c e = (grid_time o rho c b - grid_time o rho c a) / INR (b - a).
(* modes that make steps equal where no switch happens: DIRECT, and DIRECT_COMPLEMENTARITY in the equality modes *)
Definition equalizing : Prop := o_step_eq o = Direct \/ (o_step_eq o = DirectComplementarity /\ two_sided (o_mpcc o) /\ relaxation (o_mpcc o) rho = 0).
(* sum of f over a .. b - 1 *)
Definition rbetween (a b : nat) (f : nat -> R) : R := rupto (b - a) (fun k => f (a + k)%nat).
End Grid.
(* inside the control stages two points switch at the same times: each boundary is either no switch for both or at the same time *)
Definition same_switches (o : opts) (t : tab) (m : model) (rho rho' : env) : Prop := forall c e, (c < o_N_stages o)%nat -> (0 < e < nfe_of o c)%nat ->
  (no_switch o t m rho c e /\ no_switch o t m rho' c e) \/ grid_time o rho c e = grid_time o rho' c e.
