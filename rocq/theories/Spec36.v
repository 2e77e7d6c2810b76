(* Spec36.v -- vocabulary: solutions of the collocation equations *)
From Coq Require Import Reals Qreals.
From Verif Require Import Base Sx Utils Tableau Opts Model Ocp Problem Spec Fesd Spec2 Spec3 Spec9 Spec10 Spec11.
Local Open Scope R_scope.

Section Nodes.
Variables (o : opts) (m : model) (oc : ocp) (rho : env).
Variable p : nat -> nat -> nat -> list R.
Variable th : nat -> nat -> R -> nat -> nat -> R.
Variable tau : nat -> R.
(* mode k has the smallest region value at the start and at all collocation points of element (c, e) *)
Definition smallest_on (c e s k : nat) : Prop :=
  smallest m (at_state m rho p c e 0) s k /\ forall j, (j < o_ns o)%nat -> smallest m (at_state m rho p c e (tau j)) s k.
(* polynomials of degree at most n that satisfy the differential equation at the collocation points; modes with weight are the smallest on the element *)
Definition collocation_solution (n : nat) : Prop := forall c e, is_element o c e ->
  (forall i, (i < m_nx m)%nat -> (length (p c e i) <= S n)%nat /\
     state p c e 0 i = match before o c e with Some (c', e') => state p c' e' 1 i | None => rho (SX0 i) end) /\
  (forall j, (j < o_ns o)%nat -> convex_weights m (th c e (tau j)) /\
     forall i, (i < m_nx m)%nat -> derivable_pt_lim (fun z => state p c e z i) (tau j)
       (step_len o rho c e * velocity o m rho c (state p c e (tau j)) (th c e (tau j)) i)) /\
  (forall s k j, (s < n_subsystems m)%nat -> (k < n_modes m s)%nat -> (j < o_ns o)%nat -> 0 < th c e (tau j) s k -> smallest_on c e s k).
(* bounds and path constraints at the collocation points, terminal constraints *)
Definition admissible_at : Prop :=
  (forall c e, is_element o c e -> forall j, (j < o_ns o)%nat ->
     (forall i, (i < m_nx m)%nat -> within (lower1 m oc FX i) (upper1 m oc FX i) (state p c e (tau j) i)) /\
     path_holds m oc rho c (state p c e (tau j))) /\
  forall e, In e (oc_gT oc) -> eval (at_state m rho p (last_stage o) (last_elem o (last_stage o)) 1) e = 0.
Definition equilibrated_at : Prop := match o_step_eq o with
  | Direct | DirectComplementarity => forall c e, is_element o c e -> (0 < e)%nat ->
      delta_h o rho c e = 0 \/ exists s k, (s < n_subsystems m)%nat /\ (k < n_modes m s)%nat /\
        ((forall j, (j < o_ns o)%nat -> th c (e - 1)%nat (tau j) s k = 0) \/ (forall j, (j < o_ns o)%nat -> th c e (tau j) s k = 0)) /\
        (smallest_on c (e - 1) s k \/ smallest_on c e s k)
  | _ => True
  end.
End Nodes.
