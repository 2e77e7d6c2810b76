(* Option2_proofs.v -- a case of the theorem on options: without FESD, Step *)
From Coq Require Import Reals.
From Verif Require Import Base Sx Utils Tableau Opts Model Ocp Problem Spec Cases Spec2 Witness Witness5 Spec4 Spec9 Spec10 Spec21 Conv5_proofs Spec26 Option_proofs.

(* other values of all options that do not apply to optsL *)
Definition optsL2 : opts := {|
  o_terminal_time := o_terminal_time optsL; o_use_fesd := o_use_fesd optsL; o_max_iter_homotopy := 3;
  o_init := External; o_repr := o_repr optsL; o_ns := o_ns optsL; o_scheme := o_scheme optsL;
  o_cross := ComplementAll; o_mpcc := o_mpcc optsL; o_constr := o_constr optsL; o_pss := o_pss optsL;
  o_gamma_h := Fin (1#4); o_smoothing := 17; o_fix_active_set_fe0 := true;
  o_N_finite_elements := o_N_finite_elements optsL; o_Nfe_list := o_Nfe_list optsL; o_comp_tol := 1#10;
  o_sigma_0 := 5; o_sigma_N := 1#7; o_slope := 1#2;
  o_exponent := 3; o_rule := o_rule optsL; o_step_eq := DirectComplementarity;
  o_step_eq_sigma := 9; o_rho_h := 11; o_fb1 := 12; o_fb2 := 13;
  o_do_polishing := true; o_N_stages := o_N_stages optsL; o_equidistant := false;
  o_g_path_at_fe := o_g_path_at_fe optsL; o_g_path_at_stg := o_g_path_at_stg optsL;
  o_s_elastic_0 := 14; o_s_elastic_max := 15; o_s_elastic_min := 16; o_obj_direct := false;
  o_time_freezing := o_time_freezing optsL; o_tf_tol := 18; o_sot := o_sot optsL;
  o_sot_min := 19; o_sot_max := 20 |}.
Lemma sameL : same_applicable optsL optsL2.
Proof. constructor; try reflexivity; cbn; try discriminate. intros [H|H]; discriminate H. Qed.
Lemma caseL2_ok : is_ok (build optsL2 decay_model None) = true. Proof. vm_compute. reflexivity. Qed.
Definition CL2 : constructed := get _ caseL2_ok.
Lemma option_case : same_applicable optsL optsL2 /\ build optsL decay_model None = Ok CL /\ build optsL2 decay_model None = Ok CL2 /\ the_opts CL2 <> the_opts CL.
Proof.
  split; [exact sameL|]. split; [exact builtL|]. split; [apply get_ok|]. intros E. apply (f_equal (fun o => o_max_iter_homotopy o)) in E. vm_compute in E. discriminate E.
Qed.
(* with FESD gamma_h does apply *)
Definition optsF2 : opts := with_gamma default_opts (Fin (1#2)).
Lemma caseF1_ok : is_ok (build default_opts decay_model None) = true. Proof. vm_compute. reflexivity. Qed.
Lemma caseF2_ok : is_ok (build optsF2 decay_model None) = true. Proof. vm_compute. reflexivity. Qed.
Definition CF1 : constructed := get _ caseF1_ok.
Definition CF2 : constructed := get _ caseF2_ok.
Lemma option_applies : exists C C', build default_opts decay_model None = Ok C /\ build (with_gamma default_opts (Fin (1#2))) decay_model None = Ok C' /\
  o_use_fesd default_opts = true /\ ubw (the_nlp C) <> ubw (the_nlp C').
Proof.
  exists CF1, CF2. split; [apply get_ok|]. split; [apply get_ok|]. split; [reflexivity|]. intros E. vm_compute in E. discriminate E.
Qed.
(* the options of solve() as in optsL, other values of the rest that does not apply *)
Definition optsL3 : opts := {|
  o_terminal_time := o_terminal_time optsL; o_use_fesd := o_use_fesd optsL; o_max_iter_homotopy := o_max_iter_homotopy optsL;
  o_init := o_init optsL; o_repr := o_repr optsL; o_ns := o_ns optsL; o_scheme := o_scheme optsL;
  o_cross := ComplementAll; o_mpcc := o_mpcc optsL; o_constr := o_constr optsL; o_pss := o_pss optsL;
  o_gamma_h := Fin (1#4); o_smoothing := 17; o_fix_active_set_fe0 := negb (o_fix_active_set_fe0 optsL);
  o_N_finite_elements := o_N_finite_elements optsL; o_Nfe_list := o_Nfe_list optsL; o_comp_tol := o_comp_tol optsL;
  o_sigma_0 := o_sigma_0 optsL; o_sigma_N := o_sigma_N optsL; o_slope := o_slope optsL;
  o_exponent := 3; o_rule := o_rule optsL; o_step_eq := DirectComplementarity;
  o_step_eq_sigma := 9; o_rho_h := 11; o_fb1 := 12; o_fb2 := 13;
  o_do_polishing := o_do_polishing optsL; o_N_stages := o_N_stages optsL; o_equidistant := false;
  o_g_path_at_fe := o_g_path_at_fe optsL; o_g_path_at_stg := o_g_path_at_stg optsL;
  o_s_elastic_0 := 14; o_s_elastic_max := 15; o_s_elastic_min := 16; o_obj_direct := false;
  o_time_freezing := o_time_freezing optsL; o_tf_tol := 18; o_sot := o_sot optsL;
  o_sot_min := 19; o_sot_max := 20 |}.
Lemma solver_case : same_applicable optsL optsL3 /\ same_solver optsL optsL3 /\ build optsL decay_model None = Ok CL /\ optsL3 <> optsL.
Proof.
  split; [constructor; try reflexivity; cbn; try discriminate; intros [H|H]; discriminate H|]. split; [constructor; try reflexivity; cbn; discriminate|].
  split; [exact builtL|]. intros E. apply (f_equal o_smoothing) in E. vm_compute in E. discriminate E.
Qed.
