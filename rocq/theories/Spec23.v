(* Spec23.v -- vocabulary of the theorems on the detection of switches *)
From Coq Require Import Reals Qreals.
From Verif Require Import Base Sx Utils Tableau Opts Model Ocp Problem Spec Fesd Spec2 Spec3 Spec9.
Local Open Scope R_scope.

(* f has no derivative at tm *)
Definition kink (f : R -> R) (tm : R) : Prop := forall l, ~ derivable_pt_lim f tm l.
(* tm is the end of an element *)
Definition on_grid (o : opts) (rho : env) (tm : R) : Prop := exists c e, is_element o c e /\ tm = grid_time o rho c e + step_len o rho c e.
