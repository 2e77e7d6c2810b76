(* Spec39.v -- vocabulary: a model with other switching functions *)
From Verif Require Import Base Sx Model.

Definition with_switch (m : model) (c : list (list expr)) (Sl : list (list (list Q))) : model := {|
  m_nx := m_nx m; m_x0 := m_x0 m; m_F := m_F m; m_c := Some c; m_S := Some Sl; m_gS := m_gS m;
  m_nu := m_nu m; m_nz := m_nz m; m_z0 := m_z0 m; m_lbz := m_lbz m; m_ubz := m_ubz m; m_alpha := m_alpha m; m_fx := m_fx m;
  m_gz := m_gz m; m_npt := m_npt m; m_npg := m_npg m; m_ptv_val := m_ptv_val m; m_pg_val := m_pg_val m; m_nvg := m_nvg m; m_tvar := m_tvar m |}.
(* everything computed from the model stays, only the stored model changes *)
Definition stored_in (pm : pmodel) (m' : model) : pmodel :=
  mkPmodel m' (pm_nsys pm) (pm_nc pm) (pm_nf pm) (pm_z0 pm) (pm_lbz pm) (pm_ubz pm) (pm_pval pm) (pm_zall pm) (pm_fx_fun pm) (pm_gsw_fun pm) (pm_gz_fun pm) (pm_t_fun pm)
    (pm_lam00_fun pm) (pm_compl_fun pm) (pm_mu00_fun pm) (pm_gS_fun pm).
Definition same_start {A} (n : nat) (a b : list A) : Prop := forall i, i < n -> nth_error a i = nth_error b i.
