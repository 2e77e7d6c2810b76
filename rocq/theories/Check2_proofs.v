(* Check2_proofs.v -- malformed models *)
From Coq Require Import Reals Qreals.
From Verif Require Import Base Lib Sx Utils Tableau Opts Model Spec Cases Fesd Spec2 Spec3 Witness2 Spec38 Check_proofs.

Definition pm2 : fmat := mkFmat 1 [[cq 1]; [cq (-1)]].
(* the model x' in {1, -1} with given parts *)
Definition raw (F : list fmat) (c : option (list (list expr))) (Sl : option (list (list (list Q)))) (g : option (list (list expr))) (nz : nat) (z0 : option (list Q)) (pg : list Q) (ptv : option (list (list Q))) : model := {|
  m_nx := 1; m_x0 := [0%Q]; m_F := Some F; m_c := c; m_S := Sl; m_gS := g;
  m_nu := 0; m_nz := nz; m_z0 := z0; m_lbz := None; m_ubz := None; m_alpha := None; m_fx := None;
  m_gz := []; m_npt := 0; m_npg := 0; m_ptv_val := ptv; m_pg_val := pg; m_nvg := 0; m_tvar := None |}.
Definition S2m : list (list Q) := [[1%Q]; [(-1)%Q]].
Definition raw_good : model := raw [pm2] (Some [[cx 0]]) (Some [S2m]) None 0 None [] None.
Definition raw_single : model := raw [mkFmat 1 [[cq 1]]] (Some [[cx 0]]) (Some [[[1%Q]]]) None 0 None [] None.
Definition raw_z0 : model := raw [pm2] (Some [[cx 0]]) (Some [S2m]) None 0 (Some [1%Q]) [] None.
Definition raw_S : model := raw [pm2] (Some [[cx 0]]) (Some [[[1%Q]; [(-1)%Q]; [0%Q]]]) None 0 None [] None.
Definition raw_g : model := raw [pm2] None None (Some [[cx 0; cx 0; cx 0]]) 0 None [] None.
Definition raw_pg : model := raw [pm2] (Some [[cx 0]]) (Some [S2m]) None 0 None [1%Q] None.
Definition raw_ptv : model := raw [pm2] (Some [[cx 0]]) (Some [S2m]) None 0 None [] (Some [[1%Q]]).
Definition raw_c : model := raw [pm2; pm2] (Some [[cx 0]]) (Some [S2m]) None 0 None [] None.
Definition raw_few : model := raw [pm2; pm2] None None (Some [[cx 0; EUn UNeg (cx 0)]]) 0 None [] None.
Definition raw_many : model := raw [pm2] None None (Some [[cx 0; EUn UNeg (cx 0)]; [cx 0; EUn UNeg (cx 0)]]) 0 None [] None.
Definition raw_cols : model := raw [pm2] (Some [[cx 0]]) (Some [[[1%Q; 0%Q]; [(-1)%Q; 0%Q]]]) None 0 None [] None.
Lemma pm2_rect n : rectangular (repeat pm2 n).
Proof. intros f c Hf Hc. apply repeat_spec in Hf. subst f. destruct Hc as [<-|[<-|[]]]; reflexivity. Qed.
Lemma raised : is_ok (preprocess_model default_opts raw_good) = true /\ preprocess_model default_opts raw_single = Err EWarning /\
  preprocess_model default_opts raw_z0 = Err EValueError /\ preprocess_model default_opts raw_S = Err EValueError /\ preprocess_model default_opts raw_g = Err EValueError /\
  preprocess_model default_opts raw_pg = Err EException /\ preprocess_model default_opts raw_ptv = Err EException /\ preprocess_model default_opts raw_c = Err EIndexError.
Proof. vm_compute. repeat split. Qed.
(* a g_Stewart with too few entries passes all checks *)
Lemma raw_few_passes : z_sizes raw_few /\ switching_given raw_few 2 /\ no_single_mode [pm2; pm2] /\ mode_sizes default_opts raw_few [pm2; pm2] /\ parameter_sizes default_opts raw_few /\
  preprocess_model default_opts raw_few = Err EIndexError.
Proof.
  split; [split; [|split]; intros l E; discriminate|]. split; [left; reflexivity|]. split; [intros f [<-|[<-|[]]]; discriminate|]. split; [|split; [split; [reflexivity|intros M E; discriminate]|vm_compute; reflexivity]].
  split; [reflexivity|]. intros g E i v Hv. injection E as <-. destruct i as [|[|i]]; cbn in Hv; try discriminate. injection Hv as <-. exists pm2. auto.
Qed.
Lemma raw_cols_passes : z_sizes raw_cols /\ switching_given raw_cols 1 /\ no_single_mode [pm2] /\ mode_sizes default_opts raw_cols [pm2] /\ parameter_sizes default_opts raw_cols /\
  preprocess_model default_opts raw_cols = Err ECasadi.
Proof.
  split; [split; [|split]; intros l E; discriminate|]. split; [right; exists [[cx 0]]; auto|]. split; [intros f [<-|[]]; discriminate|]. split; [|split; [split; [reflexivity|intros M E; discriminate]|vm_compute; reflexivity]].
  eexists _, _. split; [reflexivity|]. split; [reflexivity|]. split; [reflexivity|]. intros [|[|i]] f Si Hf HS; cbn in *; try discriminate. injection Hf as <-. injection HS as <-. reflexivity.
Qed.
Lemma raw_many_fails : ~ mode_sizes default_opts raw_many [pm2] /\ preprocess_model default_opts raw_many = Err EIndexError.
Proof. split; [|vm_compute; reflexivity]. intros [_ H]. destruct (H _ eq_refl 1 _ eq_refl) as (f & E & _). discriminate. Qed.
Definition with_freezing (o : opts) : opts := {|
  o_terminal_time := o_terminal_time o; o_use_fesd := o_use_fesd o; o_max_iter_homotopy := o_max_iter_homotopy o;
  o_init := o_init o; o_repr := o_repr o; o_ns := o_ns o; o_scheme := o_scheme o;
  o_cross := o_cross o; o_mpcc := o_mpcc o; o_constr := o_constr o; o_pss := o_pss o;
  o_gamma_h := o_gamma_h o; o_smoothing := o_smoothing o;
  o_fix_active_set_fe0 := o_fix_active_set_fe0 o;
  o_N_finite_elements := o_N_finite_elements o; o_Nfe_list := o_Nfe_list o; o_comp_tol := o_comp_tol o;
  o_sigma_0 := o_sigma_0 o; o_sigma_N := o_sigma_N o; o_slope := o_slope o;
  o_exponent := o_exponent o; o_rule := o_rule o; o_step_eq := o_step_eq o;
  o_step_eq_sigma := o_step_eq_sigma o; o_rho_h := o_rho_h o; o_fb1 := o_fb1 o; o_fb2 := o_fb2 o;
  o_do_polishing := o_do_polishing o; o_N_stages := o_N_stages o; o_equidistant := o_equidistant o;
  o_g_path_at_fe := o_g_path_at_fe o; o_g_path_at_stg := o_g_path_at_stg o;
  o_s_elastic_0 := o_s_elastic_0 o; o_s_elastic_max := o_s_elastic_max o;
  o_s_elastic_min := o_s_elastic_min o; o_obj_direct := o_obj_direct o;
  o_time_freezing := true; o_tf_tol := o_tf_tol o; o_sot := o_sot o;
  o_sot_min := o_sot_min o; o_sot_max := o_sot_max o |}.
Lemma raised_freezing : preprocess_model (with_freezing default_opts) raw_good = Err EValueError.
Proof. vm_compute. reflexivity. Qed.
