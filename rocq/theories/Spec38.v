(* Spec38.v -- vocabulary: the checks of a model, in the order of the code *)
From Coq Require Import Reals Qreals.
From Verif Require Import Base Sx Utils Tableau Opts Model Ocp Spec Fesd Spec2 Spec3.

Section Checks.
Variables (o : opts) (m : model) (F : list fmat).
(* the columns of a matrix have the same length *)
Definition rectangular : Prop := forall f c, In f F -> In c (fm_cols f) -> length c = fm_rows f.
Definition z_sizes : Prop := optional_length (m_z0 m) (m_nz m) /\ optional_length (m_lbz m) (m_nz m) /\ optional_length (m_ubz m) (m_nz m).
(* g_Stewart is given, or a switching function for each of the n subsystems *)
Definition switching_given (n : nat) : Prop := gS_given m = true \/ exists c, m_c m = Some c /\ n <= length c.
Definition no_single_mode : Prop := forall f, In f F -> length (fm_cols f) <> 1.
Definition mode_sizes : Prop :=
  if gS_given m then o_pss o = Stewart /\ forall g, m_gS m = Some g -> forall i v, nth_error g i = Some v -> exists f, nth_error F i = Some f /\ length v = length (fm_cols f)
  else exists c Sl, m_c m = Some c /\ m_S m = Some Sl /\ length c = length Sl /\
    forall i f Si, nth_error F i = Some f -> nth_error Sl i = Some Si -> length (fm_cols f) = length Si.
(* g_Stewart has no entries without a matrix in F *)
Definition no_surplus : Prop := gS_given m = true -> o_pss o = Stewart -> forall g, m_gS m = Some g -> length g <= length F.
Definition parameter_sizes : Prop := length (m_pg_val m) = m_npg m /\
  forall M, m_ptv_val m = Some M -> length M = o_N_stages o /\ forall r, In r M -> length r = m_npt m.
End Checks.
(* the vectors of an OCP whose wrong length raises ValueError, and those whose wrong length raises Exception *)
Definition ocp_value_sizes (m : model) (oc : ocp) : Prop := length_ok (oc_lbg oc) (length (oc_g_path oc)) /\ length_ok (oc_ubg oc) (length (oc_g_path oc)) /\
  length_ok (oc_lbx oc) (m_nx m) /\ length_ok (oc_ubx oc) (m_nx m) /\ length_ok (oc_lbu oc) (m_nu m) /\ length_ok (oc_ubu oc) (m_nu m) /\ length_ok (oc_u_guess oc) (m_nu m).
Definition ocp_global_sizes (m : model) (oc : ocp) : Prop := length_ok (oc_lbv oc) (m_nvg m) /\ length_ok (oc_ubv oc) (m_nvg m) /\ length_ok (oc_v_guess oc) (m_nvg m).
(* the functions of an OCP without its vectors *)
Definition functions_of (oc : ocp) : ocp := mkOcp None None None None None (oc_fq oc) (oc_g_path oc) None None (oc_comp oc) (oc_fT oc) (oc_gT oc) None None None.
