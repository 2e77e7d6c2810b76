(* Spec18.v -- vocabulary for NosnocAutoModel: the returned model, additive terms. *)
From Verif Require Import Base Sx Model Spec Fesd Spec7.
Local Open Scope nat_scope.

(* a model of x' = f(x, u): nothing but states, controls and the initial value *)
Definition plain_ode (nx nu : nat) (x0 : list Q) (m : model) : Prop :=
  m_nx m = nx /\ m_x0 m = x0 /\ m_nu m = nu /\ m_gS m = None /\
  m_nz m = 0 /\ m_z0 m = None /\ m_lbz m = None /\ m_ubz m = None /\ m_gz m = [] /\
  m_npt m = 0 /\ m_npg m = 0 /\ m_ptv_val m = None /\ m_pg_val m = [] /\ m_nvg m = 0 /\ m_tvar m = None.
(* t or -t or -(-t) ... *)
Inductive up_to_sign (t : expr) : expr -> Prop :=
| sign_self : up_to_sign t t
| sign_neg e : up_to_sign t e -> up_to_sign t (EUn UNeg e).
(* a switching node, alone or times a smooth factor *)
Definition additive (e : expr) : Prop :=
  exists t n, up_to_sign t e /\ switching n /\ (t = n \/ exists s, smooth s /\ (t = EBin BMul n s \/ t = EBin BMul s n)).
