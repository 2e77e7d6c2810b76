(* Spec13.v -- vocabulary: the complementarity rows of an element. *)
From Coq Require Import Reals.
From Verif Require Import Base Sx Utils Tableau Opts Model Ocp Problem Spec Fesd.

(* the step equilibration modes that pose a complementarity *)
Definition step_is_comp (o : opts) : Prop := o_step_eq o = DirectComplementarity \/ o_step_eq o = HeuristicDeltaHComp.
(* the rows of a problem at some indices hold *)
Definition rows_hold (rho : sym -> R) (f : fobj) (idx : list nat) : Prop :=
  forall i e l u, In i idx -> nth_error (g f) i = Some e -> nth_error (lbg f) i = Some l -> nth_error (ubg f) i = Some u ->
    within l u (eval rho e).
(* what the complementarity rows of element (c, e) have to say *)
Definition element_comp (o : opts) (t : tab) (m : model) (oc : ocp) (rho : sym -> R) (c e : nat) : Prop :=
  path_comp_ok o t m oc rho c e /\ cross_ok o t m rho c e /\ (step_is_comp o -> step_constraint o t m rho c e).
