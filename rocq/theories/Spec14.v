(* Spec14.v -- vocabulary of the converse theorem for the Step reformulation: solutions whose vector field
   is the multi-affine combination of the modes by step functions. *)
From Coq Require Import Reals Qreals.
From Verif Require Import Base Sx Utils Tableau Opts Model Ocp Problem Spec Fesd Spec2 Spec3 Spec9 Spec10 Spec11.
Local Open Scope R_scope.

(* the weights of the modes that the step functions al give: products of al and 1 - al over the rows of S *)
Definition step_weights (m : model) (al : nat -> nat -> R) (s k : nat) : R := step_weight (nth k (user_S m s) []) (al s).

Section PolynomialStep.
Variables (o : opts) (m : model) (rho : env).
(* state number i on element (c, e): a polynomial of tau in [0, 1] *)
Variable p : nat -> nat -> nat -> list R.
(* step function number r of subsystem s on element (c, e) at tau *)
Variable al : nat -> nat -> R -> nat -> nat -> R.
Definition switch_at (c e : nat) (tau : R) (s r : nat) : R := switch_value m (at_state m rho p c e tau) s r.

(* a solution with the initial state, controls, speeds of time and steps of rho that is a polynomial of degree at
   most n on each element and does not switch inside the elements: al is 1 where c > 0, 0 where c < 0 *)
Definition step_polynomial_solution (n : nat) : Prop := forall c e, is_element o c e ->
  (forall i, (i < m_nx m)%nat -> (length (p c e i) <= S n)%nat /\
     state p c e 0 i = match before o c e with Some (c', e') => state p c' e' 1 i | None => rho (SX0 i) end) /\
  (forall tau, 0 <= tau <= 1 ->
     (forall s r, (s < n_subsystems m)%nat -> (r < n_switch m s)%nat -> 0 <= al c e tau s r <= 1) /\
     forall i, (i < m_nx m)%nat -> derivable_pt_lim (fun z => state p c e z i) tau
       (step_len o rho c e * velocity o m rho c (state p c e tau) (step_weights m (al c e tau)) i)) /\
  (forall s r tau tau', (s < n_subsystems m)%nat -> (r < n_switch m s)%nat -> 0 <= tau <= 1 -> 0 <= tau' <= 1 ->
     (0 < al c e tau s r -> 0 <= switch_at c e tau' s r) /\ (al c e tau s r < 1 -> switch_at c e tau' s r <= 0)).
(* P holds on one of the two elements that end and start at grid point (c, e) *)
Definition one_side (P : nat -> R -> Prop) (e : nat) : Prop :=
  (forall tau, 0 <= tau <= 1 -> P (e - 1)%nat tau) \/ (forall tau, 0 <= tau <= 1 -> P e tau).
(* the steps differ only where some step function is 0 on one side and c >= 0 on one side, or 1 and c <= 0 *)
Definition step_equilibrated : Prop := match o_step_eq o with
  | Direct | DirectComplementarity => forall c e, is_element o c e -> (0 < e)%nat ->
      delta_h o rho c e = 0 \/ exists s r, (s < n_subsystems m)%nat /\ (r < n_switch m s)%nat /\
        ((one_side (fun e tau => al c e tau s r = 0) e /\ one_side (fun e tau => 0 <= switch_at c e tau s r) e) \/
         (one_side (fun e tau => al c e tau s r = 1) e /\ one_side (fun e tau => switch_at c e tau s r <= 0) e))
  | _ => True
  end.
End PolynomialStep.

(* the parameters lambda00: positive and negative parts of the switching functions at x0 (C31) *)
Definition step_exact_initial (m : model) (rho : env) : Prop :=
  let v0 := plain_point m rho 0 (fun i => rho (SX0 i)) in
  forall s r, (s < n_subsystems m)%nat -> (r < n_switch m s)%nat ->
    rho (SL00 FLp s r) = Rmax 0 (switch_value m v0 s r) /\ rho (SL00 FLn s r) = Rmax 0 (- switch_value m v0 s r).

(* normalized times of the stages of a Radau scheme: in [0, 1], the last one 1; for the INTEGRAL representation the points of CasADi *)
Definition radau_times (cp : nat -> scheme -> list Q) (o : opts) (tau : nat -> R) : Prop :=
  (forall j, (j < o_ns o)%nat -> 0 <= tau j <= 1) /\ tau (o_ns o - 1)%nat = 1 /\
  (o_repr o = Integral -> forall j q, nth_error (cp (o_ns o) (o_scheme o)) j = Some q -> Q2R q = tau j).
