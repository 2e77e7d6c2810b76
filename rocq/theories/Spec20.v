(* Spec20.v -- vocabulary of the theorems about the smoothed multipliers (C91) *)
From Coq Require Import Reals Qreals.
From Verif Require Import Base Sx Utils Tableau Opts Model Ocp Problem Spec Fesd Numeric Spec3.
Local Open Scope R_scope.

(* the average of g with the weights exp(-g/sp) *)
Definition soft_min (sp : R) (n : nat) (g : nat -> R) : R :=
  rupto n (fun k => g k * exp (- (g k / sp))) / rupto n (fun k => exp (- (g k / sp))).

(* how far the smoothed step functions of subsystem s are from 0 or 1, for the columns that define R_i *)
Definition smoothing_error (m : model) (v : env) (sp : R) (s i : nat) : R :=
  rupto (n_switch m s) (fun k => if Qeq_bool (sign m s i k) 0 then 0 else sp / (2 * Rabs (switch_value m v s k))).
