(* Spec15.v -- vocabulary of the theorems about create_function_calculate_vector_field and
   rootfinder_for_initial_z *)
From Coq Require Import Reals Qreals.
From Verif Require Import Base Sx Utils Opts Model Ocp Problem Spec Fesd Numeric Spec3 Extras.
Local Open Scope R_scope.

(* values of g, theta and mu in the root system of create_function_calculate_vector_field *)
Definition vf_point (g theta : nat -> R) (mu : R) : env := fun s =>
  match s with
  | MF FLam _ i => g i
  | MF FTheta _ i => theta i
  | MF FMu _ _ => mu
  | _ => 0
  end.
Definition vf_root (vf : vfield) (g theta : nat -> R) (mu : R) : Prop :=
  forall e, In e (vf_eqs vf) -> eval (vf_point g theta mu) e = 0.

Definition simplex (n : nat) (theta : nat -> R) : Prop :=
  (forall i, (i < n)%nat -> 0 <= theta i) /\ rupto n theta = 1.
(* what the equations should select (Stewart): theta minimises g . theta over the simplex, i.e. only the modes
   with the least g have positive weight *)
Definition selects_least (n : nat) (g theta : nat -> R) : Prop :=
  simplex n theta /\ forall i j, (i < n)%nat -> (j < n)%nat -> 0 < theta i -> g i <= g j.
(* what they do select: the projection of -g onto the simplex *)
Definition half_distance2 (n : nat) (g theta : nat -> R) : R :=
  rupto n (fun i => (theta i + g i) * (theta i + g i)) / 2.
Definition distance2n (n : nat) (a b : nat -> R) : R := rupto n (fun i => (a i - b i) * (a i - b i)).

(* (z, x0, p0) solves the user's algebraic equations *)
Definition consistent_z (m : model) (x0 z p0 : list R) : Prop :=
  forall e, In e (m_gz m) -> eval (initial_point m x0 z p0) e = 0.
(* a rootfinder for f(z, q) = 0: what it returns is a root *)
Definition rootfinder (root : cafun -> list R -> list R -> res (list R)) (f : cafun) : Prop :=
  forall z0 q z, root f z0 q = Ok z -> length z = length (nth 0 (cf_in f) []) /\
    forall r, numcall f [z; q] = Ok r -> forall x, In x r -> x = 0.
