(* Spec40.v -- vocabulary: a model with other parameter values *)
From Verif Require Import Base Sx Model.

Definition with_values (m : model) (ptv : list (list Q)) (pg : list Q) : model := {|
  m_nx := m_nx m; m_x0 := m_x0 m; m_F := m_F m; m_c := m_c m; m_S := m_S m; m_gS := m_gS m;
  m_nu := m_nu m; m_nz := m_nz m; m_z0 := m_z0 m; m_lbz := m_lbz m; m_ubz := m_ubz m; m_alpha := m_alpha m; m_fx := m_fx m;
  m_gz := m_gz m; m_npt := m_npt m; m_npg := m_npg m; m_ptv_val := Some ptv; m_pg_val := pg; m_nvg := m_nvg m; m_tvar := m_tvar m |}.
