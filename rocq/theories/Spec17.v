(* Spec17.v -- vocabulary: points that are feasible for the NLP of one call of the solver. *)
From Coq Require Import Reals Qreals.
From Verif Require Import Base Sx Utils Tableau Opts Model Ocp Problem Numeric Rk4 Results Solver Spec Fesd Spec2 Spec3 Spec4 Spec5.
Local Open Scope R_scope.

(* parameters, bounds and constraints handed over in the call *)
Definition call_feasible (C : constructed) (c : nlp_call) (rho : env) : Prop :=
  parameters C rho = nc_p c /\
  (forall i y l u, nth_error (w (the_nlp C)) i = Some y -> nth_error (nc_lbx c) i = Some l -> nth_error (nc_ubx c) i = Some u -> within l u (rho y)) /\
  (forall j e l u, nth_error (g (the_nlp C)) j = Some e -> nth_error (nc_lbg c) j = Some l -> nth_error (nc_ubg c) j = Some u -> within l u (eval rho e)).

(* zero, one, or far from both *)
Definition decided (eps x : R) : Prop := x = 0 \/ x = 1 \/ (eps <= Rabs x /\ eps <= Rabs (x - 1)).
(* the tolerance of polish_solution *)
Definition pin_tol (C : constructed) : R := 10 * Q2R (o_comp_tol (the_opts C)).
