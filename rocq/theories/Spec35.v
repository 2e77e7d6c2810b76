(* Spec35.v -- vocabulary: problems with bounded variables *)
From Coq Require Import Reals Qreals.
From Verif Require Import Base Sx Utils Tableau Opts Model Ocp Problem Spec Fesd Spec2 Spec3 Spec11 Spec30.
Local Open Scope R_scope.

(* the values of all parameters of the NLP are those of data *)
Definition params_of (C : constructed) (v data : env) : Prop := forall y, In y (p_p (the_problem C)) -> v y = data y.

Definition finite (e : ext) : Prop := exists q, e = Fin q.
(* the user gives bounds for states, algebraic states, controls and global variables; the steps are bounded by gamma_h *)
Record finite_bounds (o : opts) (m : model) (oc : ocp) : Prop := {
  fb_x : forall i, (i < m_nx m)%nat -> finite (lower1 m oc FX i) /\ finite (upper1 m oc FX i);
  fb_z : forall i, (i < m_nz m)%nat -> finite (lower1 m oc FZ i) /\ finite (upper1 m oc FZ i);
  fb_u : forall i, (i < m_nu m)%nat -> finite (nth i (given (oc_lbu oc) (m_nu m) NInf) NInf) /\ finite (nth i (given (oc_ubu oc) (m_nu m) PInf) PInf);
  fb_v : forall i, (i < m_nvg m)%nat -> finite (nth i (given (oc_lbv oc) (m_nvg m) NInf) NInf) /\ finite (nth i (given (oc_ubv oc) (m_nvg m) PInf) PInf);
  fb_h : finite (o_gamma_h o) }.
(* symbols that have a place in the NLP *)
Definition model_sym (m : model) (y : sym) : Prop :=
  match y with
  | MX i => (i < m_nx m)%nat | MU i => (i < m_nu m)%nat | MZ i => (i < m_nz m)%nat | MPt i => (i < m_npt m)%nat | MPg i => (i < m_npg m)%nat
  | SVg i => (i < m_nvg m)%nat | _ => False
  end.
(* switching functions that are continuous at every point *)
Definition continuous_switching (m : model) : Prop :=
  forall s e, In e (user_gS m s) \/ In e (user_c m s) -> uses_only (model_sym m) e /\ forall v, regular v e.
(* vector fields that are continuous at every point *)
Definition continuous_fields (m : model) : Prop :=
  m_F m <> None /\ forall s k i, uses_only (model_sym m) (nth i (nth k (user_F m s) []) (ECst 0)) /\ forall v, regular v (nth i (nth k (user_F m s) []) (ECst 0)).
(* the stages carry states of the NLP; slopes are bounded by the vector fields *)
Definition stages_bounded (o : opts) (m : model) : Prop :=
  match o_repr o with
  | Integral => True
  | DifferentialLiftX => continuous_fields m /\ (o_pss o = Step -> rows_fit m)
  | Differential => False
  end.
