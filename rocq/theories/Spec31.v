(* Spec31.v -- vocabulary: feasible points whose objective approximates the cost of the solution with the same controls *)
From Coq Require Import Reals Qreals.
From Verif Require Import Base Sx Utils Tableau Opts Model Ocp Problem Spec Fesd Spec2 Spec3 Spec4 Spec9 Spec10 Spec11 Spec20 Spec21 Spec22 Spec24 Spec25.
Local Open Scope R_scope.

(* Y solves the switched system with the initial state, controls and parameters of rho, J is its accumulated cost, and on D, which contains Y and the
   stages of rho, the fields are bounded by M and one-sided Lipschitz and the costs are Lipschitz and bounded *)
Record cost_data (o : opts) (t : tab) (m : model) (oc : ocp) (rho : env) (act : env -> nat -> nat -> Prop) (D : (nat -> R) -> Prop) (M L Lq LT Mq : R)
    (Y : R -> nat -> R) (J : R -> R) : Prop := {
  cd_stages : stages_in o t rho D;
  cd_bounded : bounded_on o m rho D M;
  cd_one_sided : one_sided_on o m rho act D L;
  cd_solution : exact_solution o m rho act Y;
  cd_inside : forall tm, 0 <= tm <= end_time o rho -> D (Y tm);
  cd_rate : rate_lipschitz o m oc rho D Lq;
  cd_rate_bounded : rate_bounded o m oc rho D Mq;
  cd_end : end_lipschitz o m oc rho D LT;
  cd_last : D (end_state o t rho (last_stage o) (last_elem o (last_stage o)));
  cd_cost : accumulated_cost o m oc rho Y J }.

(* the grid: at least k elements per length of the horizon, of at most twice the nominal length *)
Record fine_grid (o : opts) (T : Q) (k : nat) : Prop := {
  fg_time : o_terminal_time o = T;
  fg_gamma : ext_upto (o_gamma_h o) 1;
  fg_pos : (0 < k)%nat;
  fg_elements : forall c, (c < o_N_stages o)%nat -> (k <= o_N_stages o * nfe_of o c)%nat;
  fg_horizon : o_use_fesd o = false \/ o_equidistant o = true \/ (1 < o_N_stages o)%nat }.

(* user's cost of the solution plus the penalties on the step lengths *)
Definition penalized_cost (o : opts) (t : tab) (m : model) (oc : ocp) (rho : env) (Y : R -> nat -> R) (J : R -> R) : R :=
  step_penalty o t m rho + total_cost o m oc rho Y J.
