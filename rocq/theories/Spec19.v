(* Spec19.v -- vocabulary: simulations whose steps are solved exactly, and the trajectory of the whole run. *)
From Coq Require Import Reals Qreals.
From Verif Require Import Base Sx Utils Tableau Opts Model Ocp Problem Numeric Rk4 Results Solver Looper Spec Fesd Spec2 Spec3 Spec4 Spec5 Spec6 Spec9 Spec10.
Local Open Scope R_scope.

(* the vector returned by a solve satisfies the NLP with complementarity conditions that are not relaxed: rho has the returned
   variables, the parameters that were handed to the NLP solver except for sigma and tau, and 0 elsewhere *)
Record solved_exactly (C : constructed) (out : solve_out) (rho : env) : Prop := {
  se_x : primal C rho = so_w_sol out;
  se_feasible : feasible rho (the_nlp C);
  se_zero : zero_relaxation (the_opts C) rho;
  se_p : forall h i y v, In h (so_steps out) -> nth_error (p_p (the_problem C)) i = Some y -> nth_error (nc_p (hs_call h)) i = Some v ->
    y = SSigma \/ y = STau \/ rho y = v;
  se_rest : forall y, ~ In y (w (the_nlp C) ++ p_p (the_problem C)) -> rho y = 0 }.

(* piecewise constant field, affine switching functions, collocation points of a quadrature rule with nonnegative weights *)
Definition simple_switching (cp : nat -> scheme -> list Q) (o : opts) (m : model) : Prop :=
  points_ok cp o /\ weights_nonneg cp o /\ m_F m <> None /\ piecewise_constant m /\ affine_switching m.

(* time at which step k of the simulation starts *)
Definition elapsed (tr : list (sstate * solve_out)) (k : nat) : R :=
  rsum (concat (map (fun q => rs_time_steps (so_results (snd q))) (firstn k tr))).

Section Run.
Variables (o : opts) (m : model) (act : env -> nat -> nat -> Prop) (rho : nat -> env) (tr : list (sstate * solve_out)) (grid : list R) (states : list (list R)).
(* X passes through all states of the simulation, is Lipschitz, and moves between the grid points with a velocity of the Filippov set
   for the parameters of the step, up to the factor kappa *)
Definition simulated (X : R -> nat -> R) : Prop :=
  (exists K, forall i a b, (i < m_nx m)%nat -> 0 <= a <= elapsed tr (length tr) -> 0 <= b <= elapsed tr (length tr) -> Rabs (X a i - X b i) <= K * Rabs (a - b)) /\
  (forall j tm x i, nth_error grid j = Some tm -> nth_error states j = Some x -> (i < m_nx m)%nat -> X tm i = nth i x 0) /\
  forall tm, 0 <= tm <= elapsed tr (length tr) -> ~ In tm grid ->
    exists k th kappa, (k < length tr)%nat /\ elapsed tr k < tm < elapsed tr (S k) /\ active_weights m act (plain_point m (rho k) 0 (X tm)) th /\
      Rabs (kappa - 1) <= weight_error o /\
      forall i, (i < m_nx m)%nat -> derivable_pt_lim (fun z => X z i) tm (kappa * velocity o m (rho k) 0 (X tm) th i).
(* Y solves the switched system whose parameters change at the starts of the steps *)
Definition run_solution (x0 : list R) (Y : R -> nat -> R) : Prop :=
  (forall i, (i < m_nx m)%nat -> continuous_between 0 (elapsed tr (length tr)) (fun z => Y z i)) /\
  (forall i, (i < m_nx m)%nat -> Y 0 i = nth i x0 0) /\
  exists pts, forall k tm, (k < length tr)%nat -> elapsed tr k < tm < elapsed tr (S k) -> ~ In tm pts ->
    exists th, active_weights m act (plain_point m (rho k) 0 (Y tm)) th /\
      forall i, (i < m_nx m)%nat -> derivable_pt_lim (fun z => Y z i) tm (velocity o m (rho k) 0 (Y tm) th i).
End Run.
