(* Spec12.v -- vocabulary: the initial guess of every variable. *)
From Coq Require Import QArith.
From Verif Require Import Base Sx Utils Tableau Opts Model Ocp Problem Spec Fesd Spec2.

(* the initial value of a variable of the problem, by its name: the steps of an element are equal, states
   start at x0, algebraic variables at z0, controls and global variables at the user's guess (zero when
   there is none), the Stewart multipliers at sigma_0 over the number of modes *)
Definition initial_guess (o : opts) (m : model) (oc : ocp) (y : sym) : Q :=
  match y with
  | SElastic => o_s_elastic_0 o
  | SVg i => nth i (given (oc_v_guess oc) (m_nvg m) 0%Q) 0%Q
  | SU _ i => nth i (given (oc_u_guess oc) (m_nu m) 0%Q) 0%Q
  | SSot _ => 1%Q
  | SH c _ => nominal_step o (nfe_of o c)
  | S1 FX _ _ _ i => nth i (m_x0 m) 0%Q
  | S1 FV _ _ _ _ => 0%Q
  | S1 FZ _ _ _ i => nth i (given (m_z0 m) (m_nz m) 0%Q) 0%Q
  | S2 (FTheta | FLam) _ _ _ s _ => (o_sigma_0 o / inject_Z (Z.of_nat (n_modes m s)))%Q
  | S2 FMu _ _ _ _ _ => 1%Q
  | S2 _ _ _ _ _ _ => (1 # 2)%Q
  | SBool _ _ _ _ | SBoolG _ _ => (1 # 2)%Q
  | _ => 0%Q
  end.

(* data whose own guesses respect the bounds they come with *)
Definition qwithin (l u : ext) (q : Q) : Prop :=
  match l with NInf => True | Fin a => (a <= q)%Q | PInf => False end /\
  match u with PInf => True | Fin b => (q <= b)%Q | NInf => False end.
Definition guesses_inside (o : opts) (m : model) (oc : ocp) : Prop :=
  (0 <= o_terminal_time o)%Q /\ (0 <= o_sigma_0 o)%Q /\
  match o_gamma_h o with Fin g => (0 <= g)%Q | PInf => True | NInf => False end /\
  (o_sot o = SotLocal -> (o_sot_min o <= 1 <= o_sot_max o)%Q) /\
  (elastic o = true -> (o_s_elastic_min o <= o_s_elastic_0 o <= o_s_elastic_max o)%Q) /\
  (forall i, i < m_nx m -> qwithin (nth i (given (oc_lbx oc) (m_nx m) NInf) NInf) (nth i (given (oc_ubx oc) (m_nx m) PInf) PInf)
                             (nth i (m_x0 m) 0%Q)) /\
  (forall i, i < m_nz m -> qwithin (nth i (given (m_lbz m) (m_nz m) NInf) NInf) (nth i (given (m_ubz m) (m_nz m) PInf) PInf)
                             (nth i (given (m_z0 m) (m_nz m) 0%Q) 0%Q)) /\
  (forall i, i < m_nu m -> qwithin (nth i (given (oc_lbu oc) (m_nu m) NInf) NInf) (nth i (given (oc_ubu oc) (m_nu m) PInf) PInf)
                             (nth i (given (oc_u_guess oc) (m_nu m) 0%Q) 0%Q)) /\
  (forall i, i < m_nvg m -> qwithin (nth i (given (oc_lbv oc) (m_nvg m) NInf) NInf) (nth i (given (oc_ubv oc) (m_nvg m) PInf) PInf)
                              (nth i (given (oc_v_guess oc) (m_nvg m) 0%Q) 0%Q)).
