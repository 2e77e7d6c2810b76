(* Spec27.v -- vocabulary: simulations whose steps are solved up to a relaxation of the complementarity conditions *)
From Coq Require Import Reals Qreals.
From Verif Require Import Base Sx Utils Tableau Opts Model Ocp Problem Numeric Rk4 Results Solver Looper Spec Fesd Spec2 Spec3 Spec4 Spec5 Spec6 Spec9 Spec10 Spec11 Spec19 Spec21 Spec24.
Local Open Scope R_scope.

(* the vector returned by a solve satisfies the constraints of the NLP: rho has the returned variables and the parameters that were
   handed to the NLP solver in one of the calls, except that the relaxation parameters sigma and tau may have any value *)
Record solved_relaxed (C : constructed) (out : solve_out) (rho : env) : Prop := {
  sr_x : primal C rho = so_w_sol out;
  sr_feasible : feasible rho (the_nlp C);
  sr_p : exists h, In h (so_steps out) /\ forall i y v, nth_error (p_p (the_problem C)) i = Some y -> nth_error (nc_p (hs_call h)) i = Some v ->
    y = SSigma \/ y = STau \/ rho y = v }.

(* what is assumed of the step of a simulation with the point rho, besides that it is solved: products of weights and multipliers up to eps^2,
   stage states in D, step lengths up to h, and on D fields bounded by M, the one-sided Lipschitz condition and the repair of nearly active weights *)
Record step_within (C : constructed) (m : model) (act : env -> nat -> nat -> Prop) (near : R -> env -> nat -> nat -> Prop) (D : (nat -> R) -> Prop)
    (M h eps r L : R) (rho : env) : Prop := {
  sw_relaxed : relaxed_by (the_opts C) m rho (eps * eps);
  sw_stages : stages_in (the_opts C) (cn_tab C) rho D;
  sw_bounded : bounded_on (the_opts C) m rho D M;
  sw_steps : steps_upto (the_opts C) rho h;
  sw_correctable : correctable_on (the_opts C) m rho act near D eps r;
  sw_one_sided : one_sided_on (the_opts C) m rho act D L }.
