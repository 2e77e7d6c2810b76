(* Results5_proofs.v -- where the extraction of results fails, and the counterexamples *)
From Coq Require Import Reals Qreals Lra Permutation.
From Verif Require Import Base Lib Sx Sx_proofs Utils Tableau Opts Model Ocp Problem Spec Fesd Spec2 Cases Witness
  Fo_proofs Fe_proofs FeMake_proofs FeSel_proofs FeZero_proofs Prob_proofs Coll_proofs Body_proofs Model_proofs
  Con_proofs Index_proofs Index2_proofs Index3_proofs Nlp_proofs Feas_proofs Accept_proofs Results Spec4 Results_proofs Results2_proofs
  Results3_proofs Results4_proofs.

Lemma mapM_same_err {A B} (f : A -> res B) (e : exn) l : (forall a e', In a l -> f a = Err e' -> e' = e) ->
  (exists a, In a l /\ f a = Err e) -> mapM f l = Err e.
Proof.
  induction l as [|x l IH]; intros Hs (a & Ha & Hf); [destruct Ha|]. cbn. destruct (f x) as [y|e'] eqn:E.
  - cbn. destruct Ha as [<-|Ha]; [congruence|]. rewrite IH; [reflexivity|intros a' e' Ha'; apply Hs; right; assumption|eauto].
  - cbn. f_equal. exact (Hs x e' (or_introl eq_refl) E).
Qed.
Lemma all_len_eq_elim {A} (l : list (list A)) : all_len_eq l = true -> forall a b, In a l -> In b l -> length a = length b.
Proof.
  destruct l as [|r l]; intros H a b Ha Hb; [destruct Ha|]. cbn in H. rewrite forallb_forall in H.
  assert (G : forall x, In x (r :: l) -> length x = length r).
  { intros x [<-|Hx]; [reflexivity|]. specialize (H x Hx). apply Nat.eqb_eq in H. congruence. }
  rewrite (G a Ha), (G b Hb). reflexivity.
Qed.

Section Con.
Variables (lr : Q -> Q -> Q -> nat) (cp : nat -> scheme -> list Q) (d : ipopt_dict)
  (o : opts) (m : model) (oc : option ocp) (C : constructed).
Hypothesis H : construct_problem lr cp d o m oc = Ok C.
Notation O := (the_opts C).
Notation P := (the_problem C).
Variable rho : env.
Variable x0 : list R.

Lemma first_element : exists es, elements O = (0, 0) :: es.
Proof.
  pose proof (stages_pos _ _ _ _ _ _ _ H) as N0. destruct (nfe_of_nth _ _ _ _ _ _ _ H 0 N0) as [_ Hp].
  unfold elements. destruct (o_N_stages O) as [|n]; [lia|]. cbn [seq map concat]. destruct (nfe_of O 0) as [|k]; [lia|]. cbn. eauto.
Qed.

Lemma results_no_state : m_nx m = 0 -> get_results (cn_prob C) x0 (primal C rho) = Err EIndexError.
Proof.
  intros Hx. unfold get_results, primal. change (pr_o (cn_prob C)) with O. change (pr (cn_prob C)) with P.
  destruct (r_x_out _ _ _ _ _ _ _ H rho) as (l1 & l2 & l3 & -> & E2 & E3 & E4). cbn [bind]. rewrite E2. cbn [bind]. rewrite E3. cbn [bind]. rewrite E4. cbn [bind].
  rewrite (r_x_list _ _ _ _ _ _ _ H rho). cbn [bind].
  destruct first_element as [es Ees]. pose proof (nested1 _ _ _ _ _ _ _ H FX) as N. rewrite Ees in N.
  destruct (concat (p_ind1 P FX)) as [|a ll]; [inversion N|]. inversion N as [|? ? ? ? Ha _]; subst. cbn [fst snd] in Ha.
  assert (Hin : In (0, 0) (elements O)) by (rewrite Ees; left; reflexivity).
  destruct (row1 _ _ _ _ _ _ _ H FX (0, 0) a Hin Ha) as [L R].
  destruct (R 0) as (idx & Hi & Hs); [exact (points1_pos _ _ _ _ _ _ _ H FX)|].
  apply sel_length in Hs. cbn [dim1] in Hs. rewrite Hx in Hs. cbn in Hs. destruct idx; [|discriminate].
  destruct a as [|i a]; [discriminate|]. cbn in Hi. injection Hi as ->. reflexivity.
Qed.

Lemma results_ragged : 0 < m_nx m -> o_pss O = Stewart -> ~ uniform_modes m -> get_results (cn_prob C) x0 (primal C rho) = Err EValueError.
Proof.
  intros Hx Hp NU. unfold get_results, primal. change (pr_o (cn_prob C)) with O. change (pr (cn_prob C)) with P.
  destruct (r_x_out _ _ _ _ _ _ _ H rho) as (l1 & l2 & l3 & -> & E2 & E3 & E4). cbn [bind]. rewrite E2. cbn [bind]. rewrite E3. cbn [bind]. rewrite E4. cbn [bind].
  rewrite (r_x_list _ _ _ _ _ _ _ H rho). cbn [bind]. rewrite (r_x_all _ _ _ _ _ _ _ H rho Hx). cbn [bind].
  rewrite (r_u _ _ _ _ _ _ _ H rho). cbn [bind]. rewrite (r_sot _ _ _ _ _ _ _ H rho). cbn [bind].
  rewrite (r_cont _ _ _ _ _ _ _ H FTheta). cbn [bind].
  destruct first_element as [es Ees]. rewrite Ees. cbn [map mapM].
  assert (Hin : In (0, 0) (elements O)) by (rewrite Ees; left; reflexivity).
  destruct (cont_rows_ok _ _ _ _ _ _ _ H FTheta (0, 0) Hin) as [L R].
  unfold gather2 at 1. destruct (all_len_eq (cont_rows C FTheta (0, 0))) eqn:E; [|reflexivity].
  exfalso. apply NU. intros s s' Hs Hs'.
  destruct (R s Hs) as (i & I1 & I2). destruct (R s' Hs') as (j & J1 & J2). apply sel_length in I2, J2.
  rewrite map_length, seq_length in I2, J2. unfold dim2 in I2, J2. rewrite Hp in I2, J2. rewrite I2, J2.
  symmetry. eapply all_len_eq_elim; [exact E| |]; eapply nth_error_In; eassumption.
Qed.

Lemma results_overlong_fesd : 0 < m_nx m -> (o_pss O = Stewart -> uniform_modes m) -> o_use_fesd O = true ->
  total (firstn (o_N_stages O) (o_Nfe_list O)) < total (o_Nfe_list O) ->
  get_results (cn_prob C) x0 (primal C rho) = Err EIndexError.
Proof.
  intros Hx U F Lt. unfold get_results, primal. change (pr_o (cn_prob C)) with O. change (pr (cn_prob C)) with P.
  destruct (r_x_out _ _ _ _ _ _ _ H rho) as (l1 & l2 & l3 & -> & E2 & E3 & E4). cbn [bind]. rewrite E2. cbn [bind]. rewrite E3. cbn [bind]. rewrite E4. cbn [bind].
  rewrite (r_x_list _ _ _ _ _ _ _ H rho). cbn [bind]. rewrite (r_x_all _ _ _ _ _ _ _ H rho Hx). cbn [bind].
  rewrite (r_u _ _ _ _ _ _ _ H rho). cbn [bind]. rewrite (r_sot _ _ _ _ _ _ _ H rho). cbn [bind].
  do 2 (rewrite (r_cont _ _ _ _ _ _ _ H); cbn [bind]; rewrite (r_rows _ _ _ _ _ _ _ H rho) by (apply dims_equal; auto); cbn [bind]).
  do 3 (rewrite (r_cont _ _ _ _ _ _ _ H); cbn [bind]; rewrite (r_flat _ _ _ _ _ _ _ H rho); cbn [bind]).
  destruct (r_z_idx _ _ _ _ _ _ _ H rho) as (lz & -> & Ez). cbn [bind]. rewrite Ez. cbn [bind].
  rewrite (r_steps_fesd _ _ _ _ _ _ _ H rho F). cbn [bind].
  rewrite (mapM_same_err _ EIndexError); [reflexivity| |].
  - intros a e' _ E. unfold nthE in E. destruct (nth_error _ a); [discriminate|]. congruence.
  - exists (total (o_Nfe_list O)). split.
    + rewrite u_grid_map. apply in_map_iff. exists (length (o_Nfe_list O)). split; [rewrite firstn_all; reflexivity|apply in_seq; lia].
    + unfold nthE. rewrite (proj2 (nth_error_None _ _)); [reflexivity|]. cbn [length]. rewrite cumsum_length. unfold step_lengths.
      rewrite map_length, elements_length by (eapply nfes_long; eassumption). lia.
Qed.

Lemma results_overlong_plain : 0 < m_nx m -> (o_pss O = Stewart -> uniform_modes m) -> o_use_fesd O = false ->
  (forall n, In n (o_Nfe_list O) -> 0 < n) ->
  exists r, get_results (cn_prob C) x0 (primal C rho) = Ok r /\
    length (rs_t_grid r) = total (o_Nfe_list O) + 1 /\ length (rs_x_traj r) = total (firstn (o_N_stages O) (o_Nfe_list O)) + 1.
Proof.
  intros Hx U F Hpos. pose proof (r_steps_plain _ _ _ _ _ _ _ H rho F Hpos) as Es.
  set (steps := concat (map (fun nfe => repeat (plain_step C nfe) nfe) (o_Nfe_list O))) in *.
  assert (Ls : length steps = total (o_Nfe_list O)).
  { unfold steps. rewrite length_concat, map_map. rewrite (map_ext _ (fun n => n)) by (intros; apply repeat_length). rewrite map_id. reflexivity. }
  pose proof (elements_length O (nfes_long _ _ _ _ _ _ _ H)) as Le. pose proof (total_firstn_le (o_Nfe_list O) (o_N_stages O)) as Lf.
  destruct (results_gen _ _ _ _ _ _ _ H rho x0 steps Hx U Es) as (r & sw & Hr & G); [lia|lia|]. exists r. split; [exact Hr|]. cbv zeta in G.
  destruct G as (_ & E2 & _ & _ & _ & _ & _ & _ & _ & _ & _ & _ & _ & _ & Eg & _). split.
  - rewrite Eg, map_length, seq_length. lia.
  - rewrite E2. cbn. rewrite map_length. lia.
Qed.
End Con.

(* ---- C08: one control stage, no equidistant grid: nothing ties the step sizes to the horizon ---- *)
Definition optsN : opts := with_modes optsS Stewart ScholtesIneq SumLambdas HeuristicDelta SotNone true false.
Lemma caseN_ok : is_ok (build optsN model3 None) = true. Proof. vm_compute. reflexivity. Qed.
Definition CN : constructed := get _ caseN_ok.
Lemma builtN : build optsN model3 None = Ok CN. Proof. apply get_ok. Qed.
Lemma problemN : is_problem optsN model3 None CN. Proof. exact (is_problem_ok _ _ _ _ builtN eq_refl sized3). Qed.
Definition shortN : list (sym * Q) := [
  (SX0 0, (-1)%Q); (SL00 FLam 0 1, 2%Q);
  (SH 0 0, (1#3)%Q); (SH 0 1, (1#3)%Q);
  (S2 FTheta 0 0 0 0 0, 1%Q);
  (S1 FX 0 1 0 0, (1#3)%Q); (S2 FTheta 0 1 0 0 1, 1%Q); (S2 FLam 0 1 0 0 0, (2#3)%Q); (S2 FMu 0 1 0 0 0, (1#3)%Q)].
Lemma feasibleN : feasible (pt shortN) (the_nlp CN).
Proof. apply (feasibleQ (ptQ shortN)). vm_compute. reflexivity. Qed.

(* ---- C48: three elements, the switch is at t = 1/3 after elements of length 1/6 ---- *)
Definition optsK : opts := with_grid optsS 1 [3].
Lemma caseK_ok : is_ok (build optsK model3 None) = true. Proof. vm_compute. reflexivity. Qed.
Definition CK3 : constructed := get _ caseK_ok.
Lemma builtK : build optsK model3 None = Ok CK3. Proof. apply get_ok. Qed.
Lemma problemK : is_problem optsK model3 None CK3. Proof. exact (is_problem_ok _ _ _ _ builtK eq_refl sized3). Qed.
Definition switchK : list (sym * Q) := [
  (SX0 0, (-1)%Q); (SL00 FLam 0 1, 2%Q);
  (SH 0 0, (1#6)%Q); (SH 0 1, (1#6)%Q); (SH 0 2, (2#3)%Q);
  (S1 FX 0 0 0 0, (-1#2)%Q); (S2 FTheta 0 0 0 0 0, 1%Q); (S2 FLam 0 0 0 0 1, 1%Q); (S2 FMu 0 0 0 0 0, (1#2)%Q);
  (S2 FTheta 0 1 0 0 0, 1%Q);
  (S1 FX 0 2 0 0, (2#3)%Q); (S2 FTheta 0 2 0 0 1, 1%Q); (S2 FLam 0 2 0 0 0, (4#3)%Q); (S2 FMu 0 2 0 0 0, (2#3)%Q)].
Lemma feasibleK : feasible (pt switchK) (the_nlp CK3).
Proof. apply (feasibleQ (ptQ switchK)). vm_compute. reflexivity. Qed.

Lemma one_mode : uniform_modes model3.
Proof. intros s s' Hs Hs'. cbn in Hs, Hs'. assert (s = 0) by lia. assert (s' = 0) by lia. subst. reflexivity. Qed.
Lemma extract3 o oc C : build o model3 oc = Ok C -> length (o_Nfe_list (the_opts C)) = o_N_stages (the_opts C) -> extractable (the_opts C) model3.
Proof. intros _ L. split; [cbn; lia|]. split; [intros; exact one_mode|exact L]. Qed.
Lemma extractN : extractable (the_opts CN) model3. Proof. apply (extract3 _ _ _ builtN). vm_compute. reflexivity. Qed.
Lemma extractK : extractable (the_opts CK3) model3. Proof. apply (extract3 _ _ _ builtK). vm_compute. reflexivity. Qed.
Lemma extractS : extractable (the_opts CS) model3. Proof. apply (extract3 _ _ _ builtS). vm_compute. reflexivity. Qed.

Lemma short_grid x0 : exists r, get_results (cn_prob CN) x0 (primal CN (pt shortN)) = Ok r /\ last_is (rs_t_grid r) (2 / 3)%R /\ Q2R (o_terminal_time (the_opts CN)) = 1%R.
Proof.
  destruct (results_read _ _ _ _ _ _ CN (pt shortN) x0 (proj1 problemN) extractN) as (r & sw & Hr & G). exists r. split; [exact Hr|].
  cbv zeta in G. destruct G as (_ & _ & _ & _ & _ & _ & _ & _ & _ & _ & _ & _ & _ & _ & Eg & _).
  assert (Ee : elements (the_opts CN) = [(0, 0); (0, 1)]) by (vm_compute; reflexivity).
  assert (Ef : o_use_fesd (the_opts CN) = true) by (vm_compute; reflexivity).
  assert (ET : o_terminal_time (the_opts CN) = 1%Q) by (vm_compute; reflexivity).
  split; [|rewrite ET; unfold Q2R; cbn; lra].
  rewrite Eg. split; [rewrite map_length, seq_length; lia|]. rewrite map_length, seq_length, Ee.
  rewrite nth_error_map, nth_error_seq by (cbn; lia). cbn [option_map]. f_equal. unfold partial_sum, step_lengths. rewrite Ee. cbn [length map firstn plus Nat.sub fst snd].
  unfold step_len. rewrite Ef. unfold rsum. cbn [fold_right]. unfold pt, Q2R. cbn. lra.
Qed.

Lemma jumpsK : forall j, jump_after (mode_values (the_opts CK3) (explicit_end CK3) model3 (pt switchK)) j <-> j = 1.
Proof.
  assert (Ee : elements (the_opts CK3) = [(0, 0); (0, 1); (0, 2)]) by (vm_compute; reflexivity).
  assert (Ep : o_pss (the_opts CK3) = Stewart) by (vm_compute; reflexivity).
  assert (En : forall nfe e, points2 (the_opts CK3) (explicit_end CK3) nfe e FTheta - 1 = 0) by (intros; vm_compute; reflexivity).
  assert (E : mode_values (the_opts CK3) (explicit_end CK3) model3 (pt switchK) = [[Q2R 1; Q2R 0]; [Q2R 1; Q2R 0]; [Q2R 0; Q2R 1]]).
  { unfold mode_values. rewrite Ee, Ep. cbn [map]. unfold end_family. cbn [fst snd n_subsystems m_F model3 length seq map]. rewrite !En. unfold dim2. rewrite Ep. reflexivity. }
  assert (R0 : Q2R 0 = 0%R) by (unfold Q2R; cbn; lra). assert (R1 : Q2R 1 = 1%R) by (unfold Q2R; cbn; lra).
  rewrite E, R0, R1. intros j. split.
  - intros (a & b & Ha & Hb & (k & x & y & Hx & Hy & J)). destruct j as [|[|[|j]]]; cbn in Ha, Hb; try reflexivity.
    + injection Ha as <-. injection Hb as <-. exfalso.
      assert (y = x) by congruence. subst. rewrite Rminus_diag_eq in J by reflexivity. rewrite Rabs_R0 in J. lra.
    + discriminate.
    + destruct j; discriminate.
  - intros ->. exists [1%R; 0%R], [0%R; 1%R]. split; [reflexivity|]. split; [reflexivity|]. exists 0, 1%R, 0%R.
    split; [reflexivity|]. split; [reflexivity|]. rewrite Rabs_left by lra. lra.
Qed.

Lemma increasing_single l a : increasing l -> (forall j, In j l <-> j = a) -> l = [a].
Proof.
  intros I Hl. destruct l as [|x l]; [destruct (proj2 (Hl a) eq_refl)|]. assert (x = a) by (apply Hl; left; reflexivity). subst.
  destruct l as [|y l]; [reflexivity|]. cbn in I. assert (y = a) by (apply Hl; right; left; reflexivity). lia.
Qed.

Lemma switchK_reported x0 : exists r, get_results (cn_prob CK3) x0 (primal CK3 (pt switchK)) = Ok r /\
  rs_switch_times r = [(1 / 6)%R] /\ nth_error (rs_t_grid r) 2 = Some (1 / 3)%R.
Proof.
  destruct (results_read _ _ _ _ _ _ CK3 (pt switchK) x0 (proj1 problemK) extractK) as (r & sw & Hr & G). exists r. split; [exact Hr|].
  cbv zeta in G. destruct G as (_ & _ & _ & _ & _ & _ & _ & _ & _ & _ & _ & _ & _ & _ & Eg & _ & Es & Is & Hs).
  assert (Esw : sw = [1]) by (apply increasing_single; [exact Is|]; intros j; rewrite Hs; apply jumpsK).
  assert (Ee : elements (the_opts CK3) = [(0, 0); (0, 1); (0, 2)]) by (vm_compute; reflexivity).
  assert (Ef : o_use_fesd (the_opts CK3) = true) by (vm_compute; reflexivity).
  rewrite Es, Eg, Esw. unfold step_lengths. rewrite Ee. cbn [length map plus seq nth_error nth fst snd].
  unfold partial_sum. cbn [firstn]. unfold step_len. rewrite Ef. unfold rsum. cbn [fold_right]. unfold pt, Q2R. cbn.
  split; [f_equal; lra|f_equal; lra].
Qed.

(* ---- C47: Nfe_list with a superfluous entry, standard discretization ---- *)
Definition optsO : opts := with_grid (with_modes optsS Stewart ScholtesIneq SumLambdas HeuristicDelta SotNone false true) 1 [2; 1].
Lemma caseO_ok : is_ok (build optsO model3 None) = true. Proof. vm_compute. reflexivity. Qed.
Definition CO : constructed := get _ caseO_ok.
Lemma builtO : build optsO model3 None = Ok CO. Proof. apply get_ok. Qed.
Lemma resultsO rho x0 : exists r, get_results (cn_prob CO) x0 (primal CO rho) = Ok r /\ length (rs_t_grid r) = 4 /\ length (rs_x_traj r) = 3.
Proof.
  destruct (results_overlong_plain _ _ _ _ _ _ _ (made _ _ _ _ builtO) rho x0) as (r & Hr & L1 & L2).
  - cbn; lia.
  - intros; exact one_mode.
  - vm_compute; reflexivity.
  - intros n Hn. assert (E : o_Nfe_list (the_opts CO) = [2; 1]) by (vm_compute; reflexivity). rewrite E in Hn. cbn in Hn. lia.
  - exists r. split; [exact Hr|]. split; [rewrite L1|rewrite L2]; vm_compute; reflexivity.
Qed.
(* with FESD *)
Definition optsO2 : opts := with_grid optsS 1 [2; 1].
Lemma caseO2_ok : is_ok (build optsO2 model3 None) = true. Proof. vm_compute. reflexivity. Qed.
Definition CO2 : constructed := get _ caseO2_ok.
Lemma builtO2 : build optsO2 model3 None = Ok CO2. Proof. apply get_ok. Qed.
Lemma resultsO2 rho x0 : get_results (cn_prob CO2) x0 (primal CO2 rho) = Err EIndexError.
Proof.
  apply (results_overlong_fesd _ _ _ _ _ _ _ (made _ _ _ _ builtO2)).
  - cbn; lia.
  - intros; exact one_mode.
  - vm_compute; reflexivity.
  - vm_compute; lia.
Qed.

(* two subsystems with two and three modes *)
Definition model_ragged : model := {|
  m_nx := 2; m_x0 := [(-1)%Q; 2%Q];
  m_F := Some [mkFmat 2 [[cq 1; cq 0]; [cq (-1); cq 0]]; mkFmat 2 [[cq 0; cq 1]; [cq 0; cq 2]; [cq 0; cq 3]]];
  m_c := Some [[cx 0]; [cx 0; cx 1]]; m_S := Some [[[1%Q]; [(-1)%Q]]; [[1%Q; 0%Q]; [(-1)%Q; 1%Q]; [(-1)%Q; (-1)%Q]]]; m_gS := None;
  m_nu := 0; m_nz := 0; m_z0 := None; m_lbz := None; m_ubz := None; m_alpha := None; m_fx := None;
  m_gz := []; m_npt := 0; m_npg := 0; m_ptv_val := None; m_pg_val := []; m_nvg := 0; m_tvar := None |}.
Lemma caseR_ok : is_ok (build optsS model_ragged None) = true. Proof. vm_compute. reflexivity. Qed.
Definition CR : constructed := get _ caseR_ok.
Lemma builtR : build optsS model_ragged None = Ok CR. Proof. apply get_ok. Qed.
Lemma resultsR rho x0 : get_results (cn_prob CR) x0 (primal CR rho) = Err EValueError.
Proof.
  apply (results_ragged _ _ _ _ _ _ _ (made _ _ _ _ builtR)).
  - cbn; lia.
  - vm_compute; reflexivity.
  - intros U. specialize (U 0 1). cbn in U. assert (2 = 3) by (apply U; lia). discriminate.
Qed.
