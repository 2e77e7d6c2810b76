(* Forward_proofs.v -- the direction of time *)
From Coq Require Import Reals Qreals Lra Lia Psatz.
From Verif Require Import Base Sx Utils Tableau Opts Model Ocp Problem Spec Cases Sx_proofs Fesd Spec2 Spec3 Spec4 Spec9 Witness Nlp_proofs Dcs_proofs Feas_proofs Filippov3_proofs Filippov4_proofs Exact_proofs Exact2_proofs Even2_proofs.

Definition with_horizon (o : opts) (T : Q) (g : ext) (f : bool) : opts := {|
  o_terminal_time := T; o_use_fesd := f; o_max_iter_homotopy := o_max_iter_homotopy o;
  o_init := o_init o; o_repr := o_repr o; o_ns := o_ns o; o_scheme := o_scheme o;
  o_cross := o_cross o; o_mpcc := o_mpcc o; o_constr := o_constr o; o_pss := o_pss o;
  o_gamma_h := g; o_smoothing := o_smoothing o;
  o_fix_active_set_fe0 := o_fix_active_set_fe0 o;
  o_N_finite_elements := o_N_finite_elements o; o_Nfe_list := o_Nfe_list o; o_comp_tol := o_comp_tol o;
  o_sigma_0 := o_sigma_0 o; o_sigma_N := o_sigma_N o; o_slope := o_slope o;
  o_exponent := o_exponent o; o_rule := o_rule o; o_step_eq := o_step_eq o;
  o_step_eq_sigma := o_step_eq_sigma o; o_rho_h := o_rho_h o; o_fb1 := o_fb1 o; o_fb2 := o_fb2 o;
  o_do_polishing := o_do_polishing o; o_N_stages := o_N_stages o; o_equidistant := o_equidistant o;
  o_g_path_at_fe := o_g_path_at_fe o; o_g_path_at_stg := o_g_path_at_stg o;
  o_s_elastic_0 := o_s_elastic_0 o; o_s_elastic_max := o_s_elastic_max o;
  o_s_elastic_min := o_s_elastic_min o; o_obj_direct := o_obj_direct o;
  o_time_freezing := o_time_freezing o; o_tf_tol := o_tf_tol o; o_sot := o_sot o;
  o_sot_min := o_sot_min o; o_sot_max := o_sot_max o |}.
(* bounds of a negative nominal step exclude each other *)
Lemma no_backward lr cp d o m oc C q rho : fesd_problem lr cp d o m oc C -> o_use_fesd (the_opts C) = true -> o_gamma_h (the_opts C) = Fin q -> (0 < q)%Q -> (o_terminal_time (the_opts C) < 0)%Q ->
  (0 < o_N_stages (the_opts C)) -> ~ feasible rho (the_nlp C).
Proof.
  intros FP Hf Hg Hq HT HN [FB _]. pose proof FP as (H & _). assert (He : is_element (the_opts C) 0 0) by (split; [exact HN|apply (nfe_pos_con _ _ _ _ _ _ _ FP 0 HN)]).
  pose proof (element_fe _ _ _ _ _ _ _ FP 0 0 He) as Fe. pose proof (step_within lr cp d o m oc C H rho FB 0 0 _ Fe Hf) as W. unfold step_lower, step_upper in W. rewrite Hg in W. destruct W as [W1 W2].
  destruct He as [_ Hn]. cbn [fst snd] in Hn. set (n := nfe_of (the_opts C) 0) in *. set (N := o_N_stages (the_opts C)) in *.
  rewrite Q2R_mult in W1, W2. rewrite Q2R_plus in W2. rewrite Q2R_minus in W1.
  assert (Z : (Q2R (nominal_step (the_opts C) n) < 0)%R).
  { rewrite <- Q2R_0. apply Qlt_Rlt. unfold nominal_step. fold N.
    assert (P : forall k, 0 < k -> (0 < / inject_Z (Z.of_nat k))%Q) by (intros k Hk; apply Qinv_lt_0_compat; change 0%Q with (inject_Z 0); rewrite <- Zlt_Qlt; lia).
    pose proof (P N HN). pose proof (P n Hn). unfold Qdiv. assert (A : (o_terminal_time (the_opts C) * / inject_Z (Z.of_nat N) < 0)%Q).
    { assert (B : (o_terminal_time (the_opts C) * / inject_Z (Z.of_nat N) < 0 * / inject_Z (Z.of_nat N))%Q) by (apply Qmult_lt_r; assumption). rewrite Qmult_0_l in B. exact B. }
    assert (B : (o_terminal_time (the_opts C) * / inject_Z (Z.of_nat N) * / inject_Z (Z.of_nat n) < 0 * / inject_Z (Z.of_nat n))%Q) by (apply Qmult_lt_r; assumption). rewrite Qmult_0_l in B. exact B. }
  apply Qlt_Rlt in Hq. rewrite Q2R_0 in Hq. replace (Q2R 1) with 1%R in * by (unfold Q2R; cbn; lra). nra.
Qed.

(* elements in the order of the code follow each other in time *)
Lemma in_order o rho : steps_nonneg o rho -> forall c e c' e', is_element o c e -> is_element o c' e' -> c < c' \/ c = c' /\ e < e' ->
  (0 <= grid_time o rho c e /\ grid_time o rho c e <= grid_time o rho c e + step_len o rho c e /\ grid_time o rho c e + step_len o rho c e <= grid_time o rho c' e' /\ grid_time o rho c' e' <= end_time o rho)%R.
Proof.
  intros Hh c e c' e' He He' Hl. pose proof (Hh c e He) as Hs. pose proof (Hh c' e' He') as Hs'.
  destruct (element_in_stage o rho Hh c e He) as [A1 A2]. destruct (element_in_stage o rho Hh c' e' He') as [B1 B2].
  destruct (stage_in_horizon o rho Hh c (proj1 He)) as [D1 D2]. destruct (stage_in_horizon o rho Hh c' (proj1 He')) as [E1 E2].
  split; [lra|]. split; [lra|]. split; [|lra]. destruct Hl as [Hl|[-> Hl]].
  - assert (G : (grid_time o rho c 0 + stage_length o rho c <= grid_time o rho c' 0)%R); [|lra]. unfold grid_time. rewrite !rupto_0.
    pose proof (rupto_mono (S c) c' (stage_length o rho) Hl ltac:(intros j Hj; apply stage_nonneg; [exact Hh|destruct He'; lia])) as G. rewrite rupto_succ in G. lra.
  - unfold grid_time. pose proof (rupto_mono (S e) e' (step_len o rho c') Hl ltac:(intros j Hj; apply Hh; split; [apply He'|destruct He'; lia])) as G. rewrite rupto_succ in G. lra.
Qed.
Lemma forward lr cp d o m oc C rho : fesd_problem lr cp d o m oc C -> ext_upto (o_gamma_h (the_opts C)) 1 -> (0 <= o_terminal_time (the_opts C))%Q -> feasible rho (the_nlp C) ->
  forall c e c' e', is_element (the_opts C) c e -> is_element (the_opts C) c' e' -> c < c' \/ c = c' /\ e < e' ->
  (0 <= grid_time (the_opts C) rho c e /\ grid_time (the_opts C) rho c e <= grid_time (the_opts C) rho c e + step_len (the_opts C) rho c e /\
   grid_time (the_opts C) rho c e + step_len (the_opts C) rho c e <= grid_time (the_opts C) rho c' e' /\ grid_time (the_opts C) rho c' e' <= end_time (the_opts C) rho)%R.
Proof. intros (H & _) Hg HT [FB _]. apply in_order. exact (bounds_steps lr cp d o m oc C rho H FB Hg HT). Qed.

(* gamma_h = 2, two elements: the first step goes back *)
Definition optsB : opts := with_grid (with_horizon optsS 1 (Fin 2) true) 1 [2].
Lemma caseB_ok : is_ok (build optsB model3 None) = true. Proof. vm_compute. reflexivity. Qed.
Definition CB : constructed := get _ caseB_ok.
Lemma problemB : is_problem optsB model3 None CB. Proof. exact (is_problem_ok _ _ _ _ (get_ok _ caseB_ok) eq_refl sized3). Qed.
Definition backB : list (sym * Q) := [(SX0 0, 1%Q); (SL00 FLam 0 0, 2%Q); (SH 0 0, (-(1#4))%Q); (SH 0 1, (5#4)%Q)] ++ right_of 0 (3#4) ++ right_of 1 2.
Lemma feasibleB : feasible (pt backB) (the_nlp CB).
Proof. apply (feasibleQ (ptQ backB)). vm_compute. reflexivity. Qed.
(* a negative terminal time without FESD *)
Definition optsN : opts := with_grid (with_horizon optsS (-1) (Fin 1) false) 1 [2].
Lemma caseN_ok : is_ok (build optsN model3 None) = true. Proof. vm_compute. reflexivity. Qed.
Definition CN : constructed := get _ caseN_ok.
Lemma problemN : is_problem optsN model3 None CN. Proof. exact (is_problem_ok _ _ _ _ (get_ok _ caseN_ok) eq_refl sized3). Qed.
Definition backN : list (sym * Q) := [(SX0 0, 2%Q); (SL00 FLam 0 0, 4%Q)] ++ right_of 0 (3#2) ++ right_of 1 1.
Lemma feasibleN : feasible (pt backN) (the_nlp CN).
Proof. apply (feasibleQ (ptQ backN)). vm_compute. reflexivity. Qed.
(* a negative terminal time with FESD *)
Definition optsI : opts := with_grid (with_horizon optsS (-1) (Fin 1) true) 1 [2].
Lemma caseI_ok : is_ok (build optsI model3 None) = true. Proof. vm_compute. reflexivity. Qed.
Definition CI : constructed := get _ caseI_ok.
Lemma problemI : is_problem optsI model3 None CI. Proof. exact (is_problem_ok _ _ _ _ (get_ok _ caseI_ok) eq_refl sized3). Qed.
Lemma setI : o_use_fesd (the_opts CI) = true /\ o_gamma_h (the_opts CI) = Fin 1 /\ (o_terminal_time (the_opts CI) < 0)%Q /\ 0 < o_N_stages (the_opts CI).
Proof. vm_compute. repeat split; auto. Qed.
Lemma back_gamma : exists o m C rho, is_problem o m None C /\ (0 < o_terminal_time (the_opts C))%Q /\ o_use_fesd (the_opts C) = true /\ feasible rho (the_nlp C) /\ zero_relaxation (the_opts C) rho /\
  (step_len (the_opts C) rho 0 0 < 0)%R /\ is_element (the_opts C) 0 0.
Proof.
  exists optsB, model3, CB, (pt backB). split; [exact problemB|]. split; [vm_compute; reflexivity|]. split; [vm_compute; reflexivity|]. split; [exact feasibleB|]. split; [|split].
  - unfold zero_relaxation. replace (o_mpcc (the_opts CB)) with ScholtesIneq by (vm_compute; reflexivity). val backB. unfold Q2R. cbn. lra.
  - unfold step_len. replace (o_use_fesd (the_opts CB)) with true by (vm_compute; reflexivity). val backB. unfold Q2R. cbn. lra.
  - split; vm_compute; lia.
Qed.
Lemma back_time : exists o m C rho, is_problem o m None C /\ (o_terminal_time (the_opts C) < 0)%Q /\ feasible rho (the_nlp C) /\ zero_relaxation (the_opts C) rho /\
  (step_len (the_opts C) rho 0 0 < 0)%R /\ is_element (the_opts C) 0 0.
Proof.
  exists optsN, model3, CN, (pt backN). split; [exact problemN|]. split; [vm_compute; reflexivity|]. split; [exact feasibleN|]. split; [|split].
  - unfold zero_relaxation. replace (o_mpcc (the_opts CN)) with ScholtesIneq by (vm_compute; reflexivity). val backN. unfold Q2R. cbn. lra.
  - unfold step_len. replace (o_use_fesd (the_opts CN)) with false by (vm_compute; reflexivity). rewrite <- Q2R_0. apply Qlt_Rlt. vm_compute. reflexivity.
  - split; vm_compute; lia.
Qed.
Lemma forward_case : is_problem (optsE Direct) model3 None (CE Direct) /\ ext_upto (o_gamma_h (the_opts (CE Direct))) 1 /\ (0 <= o_terminal_time (the_opts (CE Direct)))%Q /\
  feasible (pt (awayE 1)) (the_nlp (CE Direct)) /\ is_element (the_opts (CE Direct)) 0 0 /\ is_element (the_opts (CE Direct)) 0 3.
Proof.
  split; [exact (problemE Direct)|]. split; [vm_compute; discriminate|]. split; [vm_compute; discriminate|]. split; [exact feasible_away1|]. split; split; vm_compute; lia.
Qed.
