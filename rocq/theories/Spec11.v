(* Spec11.v -- vocabulary of the converse theorems: the variable bounds of the documented problem, and
   solutions of the switched system that are polynomial between the grid points. *)
From Coq Require Import Reals Qreals.
From Verif Require Import Base Sx Utils Tableau Opts Model Ocp Problem Spec Fesd Spec2 Spec3 Spec9 Spec10.
Local Open Scope R_scope.

(* ---- every variable of the problem and its bounds ---- *)
Definition lower1 (m : model) (oc : ocp) (f : fam1) (i : nat) : ext :=
  match f with FX => nth i (given (oc_lbx oc) (m_nx m) NInf) NInf | FV => NInf | FZ => nth i (given (m_lbz m) (m_nz m) NInf) NInf end.
Definition upper1 (m : model) (oc : ocp) (f : fam1) (i : nat) : ext :=
  match f with FX => nth i (given (oc_ubx oc) (m_nx m) PInf) PInf | FV => PInf | FZ => nth i (given (m_ubz m) (m_nz m) PInf) PInf end.
Definition lower2 (o : opts) (f : fam2) : ext := match f with FMu => NInf | _ => lb_dual o end.
Definition upper2 (f : fam2) : ext := match f with FAlpha => Fin 1 | _ => PInf end.

(* ex: the last stage of an element is its end point *)
Definition var_bounds (o : opts) (ex : bool) (m : model) (oc : ocp) (rho : env) : Prop :=
  (elastic o = true -> within (Fin (o_s_elastic_min o)) (Fin (o_s_elastic_max o)) (rho SElastic)) /\
  (forall i, (i < m_nvg m)%nat -> within (nth i (given (oc_lbv oc) (m_nvg m) NInf) NInf)
                                   (nth i (given (oc_ubv oc) (m_nvg m) PInf) PInf) (rho (SVg i))) /\
  (forall c, (c < o_N_stages o)%nat ->
     (forall i, (i < m_nu m)%nat -> within (nth i (given (oc_lbu oc) (m_nu m) NInf) NInf)
                                      (nth i (given (oc_ubu oc) (m_nu m) PInf) PInf) (rho (SU c i))) /\
     (o_sot o = SotLocal -> within (Fin (o_sot_min o)) (Fin (o_sot_max o)) (rho (SSot c)))) /\
  forall c e, is_element o c e ->
    (o_use_fesd o = true -> within (step_lower o (nfe_of o c)) (step_upper o (nfe_of o c)) (rho (SH c e))) /\
    (forall f j i, (j < points1 o ex f)%nat -> (i < dim1 o m f)%nat ->
       within (lower1 m oc f i) (upper1 m oc f i) (rho (S1 f c e j i))) /\
    (forall f j s i, (j < points2 o ex (nfe_of o c) e f)%nat -> (s < n_subsystems m)%nat -> (i < dim2 o m f s)%nat ->
       within (lower2 o f) (upper2 f) (rho (S2 f c e j s i))).

(* ---- trajectories that are polynomials of normalized time on every element ---- *)
Definition plain_sym (m : model) (y : sym) : Prop :=
  match y with MX i => (i < m_nx m)%nat | MU _ | MPt _ | MPg _ | SVg _ => True | _ => False end.
Definition switching_sym (m : model) (y : sym) : Prop :=
  match y with MX i => (i < m_nx m)%nat | MPg _ | SVg _ => True | _ => False end.
(* the vector fields are written in states, controls, parameters and global variables, the switching
   functions in states, global parameters and global variables; there are no algebraic states *)
Definition plain_model (m : model) : Prop :=
  m_F m <> None /\ m_nz m = 0%nat /\ m_gz m = [] /\
  (forall s k i, uses_only (plain_sym m) (nth i (nth k (user_F m s) []) (ECst 0))) /\
  (forall s e, In e (user_gS m s) \/ In e (user_c m s) -> uses_only (switching_sym m) e).
(* the same for the optimal control problem; no user complementarities *)
Definition plain_ocp (m : model) (oc : ocp) : Prop :=
  (forall e, In e (oc_g_path oc) \/ In e (oc_gT oc) -> uses_only (plain_sym m) e) /\ oc_comp oc = [].

Section Polynomial.
Variables (o : opts) (m : model) (oc : ocp) (rho : env).
(* state number i on element (c, e): a polynomial of tau in [0, 1] *)
Variable p : nat -> nat -> nat -> list R.
(* convex weights of the modes on element (c, e) at tau *)
Variable th : nat -> nat -> R -> nat -> nat -> R.
Definition state (c e : nat) (tau : R) (i : nat) : R := peval (p c e i) tau.
Definition at_state (c e : nat) (tau : R) : env := plain_point m rho c (state c e tau).

(* a Filippov solution with the initial state, controls, speeds of time and steps of rho that is a
   polynomial of degree at most n on each element and does not switch inside the elements *)
Definition polynomial_solution (n : nat) : Prop := forall c e, is_element o c e ->
  (forall i, (i < m_nx m)%nat -> (length (p c e i) <= S n)%nat /\
     state c e 0 i = match before o c e with Some (c', e') => state c' e' 1 i | None => rho (SX0 i) end) /\
  (forall tau, 0 <= tau <= 1 -> convex_weights m (th c e tau) /\
     forall i, (i < m_nx m)%nat -> derivable_pt_lim (fun z => state c e z i) tau
       (step_len o rho c e * velocity o m rho c (state c e tau) (th c e tau) i)) /\
  (forall s k tau tau', (s < n_subsystems m)%nat -> (k < n_modes m s)%nat -> 0 <= tau <= 1 -> 0 <= tau' <= 1 ->
     0 < th c e tau s k -> smallest m (at_state c e tau') s k).
(* it respects the bounds, path and terminal constraints of the optimal control problem *)
Definition admissible : Prop :=
  (forall c e, is_element o c e -> forall tau, 0 <= tau <= 1 ->
     (forall i, (i < m_nx m)%nat -> within (lower1 m oc FX i) (upper1 m oc FX i) (state c e tau i)) /\
     path_holds m oc rho c (state c e tau)) /\
  forall e, In e (oc_gT oc) -> eval (at_state (last_stage o) (last_elem o (last_stage o)) 1) e = 0.
(* the steps differ only where some mode k gets or loses weight while it has the smallest region value on one side *)
Definition equilibrated : Prop := match o_step_eq o with
  | Direct | DirectComplementarity => forall c e, is_element o c e -> (0 < e)%nat ->
      delta_h o rho c e = 0 \/ exists s k, (s < n_subsystems m)%nat /\ (k < n_modes m s)%nat /\
        ((forall tau, 0 <= tau <= 1 -> th c (e - 1)%nat tau s k = 0) \/ (forall tau, 0 <= tau <= 1 -> th c e tau s k = 0)) /\
        ((forall tau, 0 <= tau <= 1 -> smallest m (at_state c (e - 1) tau) s k) \/
         (forall tau, 0 <= tau <= 1 -> smallest m (at_state c e tau) s k))
  | _ => True
  end.
End Polynomial.

(* controls, step sizes, speeds of time and global variables within their bounds; the steps add up *)
Definition grid_ok (o : opts) (m : model) (oc : ocp) (rho : env) : Prop :=
  (elastic o = true -> within (Fin (o_s_elastic_min o)) (Fin (o_s_elastic_max o)) (rho SElastic)) /\
  (forall i, (i < m_nvg m)%nat -> within (nth i (given (oc_lbv oc) (m_nvg m) NInf) NInf)
                                   (nth i (given (oc_ubv oc) (m_nvg m) PInf) PInf) (rho (SVg i))) /\
  (forall c, (c < o_N_stages o)%nat ->
     (forall i, (i < m_nu m)%nat -> within (nth i (given (oc_lbu oc) (m_nu m) NInf) NInf)
                                      (nth i (given (oc_ubu oc) (m_nu m) PInf) PInf) (rho (SU c i))) /\
     (o_sot o = SotLocal -> within (Fin (o_sot_min o)) (Fin (o_sot_max o)) (rho (SSot c)))) /\
  (forall c e, is_element o c e -> within (step_lower o (nfe_of o c)) (step_upper o (nfe_of o c)) (rho (SH c e))) /\
  (if o_equidistant o then forall c, (c < o_N_stages o)%nat -> stage_length o rho c = T o / INR (o_N_stages o)
   else end_time o rho = T o).
(* the parameters lambda00: region values at x0 minus the smallest of them (C31) *)
Definition exact_initial (m : model) (rho : env) : Prop :=
  let v0 := plain_point m rho 0 (fun i => rho (SX0 i)) in
  forall s k k', (s < n_subsystems m)%nat -> (k < n_modes m s)%nat -> smallest m v0 s k -> (k' < n_modes m s)%nat ->
    rho (SL00 FLam s k') = region_value m v0 s k' - region_value m v0 s k.
(* the degree up to which the collocation equations are exact with Radau points: n_s for the INTEGRAL representation; the
   tables of the DIFFERENTIAL ones are rounded, and only those for one and two stages have sums without errors *)
Definition exact_degree (o : opts) : nat := match o_repr o with Integral => o_ns o | _ => if (o_ns o <=? 2)%nat then 1%nat else 0%nat end.
(* the collocation points lie in the element *)
Definition points_inside (cp : nat -> scheme -> list Q) (o : opts) : Prop :=
  forall q, In q (cp (o_ns o) (o_scheme o)) -> (0 <= q <= 1)%Q.
(* same controls, steps, speeds and parameters; only states and multipliers may differ *)
Definition same_data (rho rho' : env) : Prop :=
  forall y, match y with S1 _ _ _ _ _ | S2 _ _ _ _ _ _ => True | _ => rho' y = rho y end.
