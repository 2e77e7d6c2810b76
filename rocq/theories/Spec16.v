(* Spec16.v -- vocabulary: what the results of solve() and the plots report. *)
From Coq Require Import Reals Qreals.
From Verif Require Import Base Sx Utils Tableau Opts Model Ocp Problem Numeric Rk4 Results Solver Looper Spec Fesd Spec2 Spec3 Spec4 Spec5.
Local Open Scope nat_scope.

(* an NLP solver that reports the objective at the point it returns *)
Definition reports_objective (C : constructed) (nlp : nat -> nlp_call -> res nlp_ret) : Prop :=
  forall n c r rho, nlp n c = Ok r -> primal C rho = nr_x r -> parameters C rho = nc_p c -> nr_f r = eval rho (cost (the_nlp C)).

(* entry j of row k of a table *)
Definition cell (M : list (list R)) (k j : nat) : R := nth j (nth k M []) 0%R.
(* a table with [rows] rows and [cols] columns *)
Definition table (rows cols : nat) (M : list (list R)) : Prop := length M = rows /\ forall r, In r M -> length r = cols.
(* a recorded number counts, a missing one is zero *)
Definition or_zero (a : option R) : R := match a with Some x => x | None => 0%R end.
