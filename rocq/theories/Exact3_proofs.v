(* Exact3_proofs.v -- the statements of Props_Exact.v and their cases *)
From Coq Require Import Reals Qreals Lra Psatz.
From Verif Require Import Base Sx Utils Tableau Opts Model Ocp Problem Spec Cases Lib Sx_proofs Fesd Spec2 Spec3 Spec4 Witness Feas6_proofs Results2_proofs
  Spec9 Spec10 Filippov3_proofs Filippov4_proofs Exact_proofs Exact2_proofs.
Local Open Scope R_scope.

Section Con.
Variables (lr : Q -> Q -> Q -> nat) (cp : nat -> scheme -> list Q) (d : ipopt_dict) (o : opts) (m : model)
  (oc : option ocp) (C : constructed) (rho : env).
Notation O := (the_opts C).
Notation t := (cn_tab C).
Hypothesis FP : fesd_problem lr cp d o m oc C.
Hypothesis FE : feasible rho (the_nlp C).
Hypothesis FS : filippov_setting cp O m rho.
Hypothesis Hf : o_use_fesd O = true.
Hypothesis XC : o_cross O = SumLambdas \/ t_rbe t = true.
Hypothesis Hg : ext_upto (o_gamma_h O) 1.
Hypothesis HT : (0 <= o_terminal_time O)%Q.
Lemma steps : steps_nonneg O rho.
Proof. exact (bounds_steps lr cp d o m oc C rho (proj1 FP) (proj1 FE) Hg HT). Qed.
Lemma stewart_exact Y L : o_pss O = Stewart -> o_repr O = Integral -> exact_solution O m rho (smallest m) Y -> 0 <= L -> one_sided O m rho (smallest m) L ->
  forall c e i, is_element O c e -> (i < m_nx m)%nat -> end_state O t rho c e i = Y (grid_time O rho c e + step_len O rho c e) i.
Proof. intros Ep. apply (exact_at m C rho steps (smallest m)). exact (stewart_filippov lr cp d o m oc C rho FP FE FS Hf XC Ep steps). Qed.
Lemma stewart_error Y L M : o_pss O = Stewart -> exact_solution O m rho (smallest m) Y -> 0 <= L -> one_sided O m rho (smallest m) L ->
  field_bound O m rho M -> 0 <= M -> forall c e, is_element O c e -> let tm := grid_time O rho c e + step_len O rho c e in
  distance2 m (end_state O t rho c e) (Y tm) <= weight_error O * M * tm * exp ((2 * L + weight_error O) * tm).
Proof. intros Ep. apply (error_at m C rho steps (smallest m)). exact (stewart_filippov lr cp d o m oc C rho FP FE FS Hf XC Ep steps). Qed.
Hypothesis SM : sign_matrix m.
Hypothesis RF : rows_fit m.
Hypothesis CM : forall s, (s < n_subsystems m)%nat -> complete m s.
Lemma step_exact Y L : o_pss O = Step -> o_repr O = Integral -> exact_solution O m rho (in_closed_region m) Y -> 0 <= L -> one_sided O m rho (in_closed_region m) L ->
  forall c e i, is_element O c e -> (i < m_nx m)%nat -> end_state O t rho c e i = Y (grid_time O rho c e + step_len O rho c e) i.
Proof. intros Ep. apply (exact_at m C rho steps (in_closed_region m)). exact (step_filippov lr cp d o m oc C rho FP FE FS Hf XC Ep SM RF CM steps). Qed.
Lemma step_error Y L M : o_pss O = Step -> exact_solution O m rho (in_closed_region m) Y -> 0 <= L -> one_sided O m rho (in_closed_region m) L ->
  field_bound O m rho M -> 0 <= M -> forall c e, is_element O c e -> let tm := grid_time O rho c e + step_len O rho c e in
  distance2 m (end_state O t rho c e) (Y tm) <= weight_error O * M * tm * exp ((2 * L + weight_error O) * tm).
Proof. intros Ep. apply (error_at m C rho steps (in_closed_region m)). exact (step_filippov lr cp d o m oc C rho FP FE FS Hf XC Ep SM RF CM steps). Qed.
End Con.

Section Scalar.
Variables (lr : Q -> Q -> Q -> nat) (cp : nat -> scheme -> list Q) (d : ipopt_dict) (o : opts) (a b x0 : Q)
  (oc : option ocp) (C : constructed) (rho : env).
Notation O := (the_opts C).
Notation t := (cn_tab C).
Notation m := (switch_model a b x0).
Hypothesis FP : fesd_problem lr cp d o m oc C.
Hypothesis FE : feasible rho (the_nlp C).
Hypothesis FS : filippov_setting cp O m rho.
Hypothesis Hf : o_use_fesd O = true.
Hypothesis XC : o_cross O = SumLambdas \/ t_rbe t = true.
Hypothesis Hg : ext_upto (o_gamma_h O) 1.
Hypothesis HT : (0 <= o_terminal_time O)%Q.
Hypothesis NS : o_sot O <> SotLocal.
Hypothesis X0 : rho (SX0 0) = Q2R x0.
Hypothesis Ha : (0 < a)%Q.
Hypothesis Hab : (b <= a)%Q.
Hypothesis Hx : (x0 <= 0)%Q.
Lemma signs_ab : 0 < Q2R a /\ Q2R b <= Q2R a /\ Q2R x0 <= 0.
Proof. apply Qlt_Rlt in Ha. apply Qle_Rle in Hab. apply Qle_Rle in Hx. rewrite RMicromega.Q2R_0 in *. auto. Qed.
Lemma scalar_exact : o_repr O = Integral -> forall c e, is_element O c e ->
  end_state O t rho c e 0 = switch_solution a b x0 (grid_time O rho c e + step_len O rho c e).
Proof.
  intros Er c e He. destruct signs_ab as (A & B & D). destruct (o_pss O) eqn:Ep.
  - exact (stewart_exact lr cp d o m oc C rho FP FE FS Hf XC Hg HT (fun z _ => switch_solution a b x0 z) 0 Ep Er
      (sc_solution a b x0 A B D O rho _ (sides_smallest a b x0) NS X0) (Rle_refl 0) (sc_one_sided a b x0 B O rho _ (sides_smallest a b x0) NS) c e 0%nat He Nat.lt_0_1).
  - exact (step_exact lr cp d o m oc C rho FP FE FS Hf XC Hg HT (sc_signs a b x0) (sc_fit a b x0) (sc_complete a b x0) (fun z _ => switch_solution a b x0 z) 0 Ep Er
      (sc_solution a b x0 A B D O rho _ (sides_closed a b x0) NS X0) (Rle_refl 0) (sc_one_sided a b x0 B O rho _ (sides_closed a b x0) NS) c e 0%nat He Nat.lt_0_1).
Qed.
(* the final state *)
Lemma scalar_final : o_repr O = Integral -> o_equidistant O = true \/ (1 < o_N_stages O)%nat ->
  end_state O t rho (last_stage O) (last_elem O (last_stage O)) 0 = switch_solution a b x0 (Q2R (o_terminal_time O)).
Proof.
  intros Er HE. pose proof (Init_proofs.stages_pos' _ _ _ _ _ _ _ (proj1 FP)) as N.
  assert (Hc : (last_stage O < o_N_stages O)%nat) by (unfold last_stage; lia).
  destruct (nfe_pos_con lr cp d o m oc C FP (last_stage O) Hc) as [_ P].
  assert (He : is_element O (last_stage O) (last_elem O (last_stage O))) by (split; [exact Hc|unfold last_elem; lia]).
  rewrite (scalar_exact Er _ _ He). f_equal. rewrite <- (end_time_T lr cp d o m oc C rho FP (proj2 FE) Hf HE).
  unfold grid_time, end_time. rewrite Rplus_assoc, <- (rupto_succ (last_elem O (last_stage O))).
  replace (S (last_elem O (last_stage O))) with (nfe_of O (last_stage O)) by (unfold last_elem; lia). fold (stage_length O rho (last_stage O)).
  rewrite <- (rupto_succ (last_stage O)). f_equal. unfold last_stage. lia.
Qed.
Lemma scalar_error : forall c e, is_element O c e -> let tm := grid_time O rho c e + step_len O rho c e in
  (end_state O t rho c e 0 - switch_solution a b x0 tm) * (end_state O t rho c e 0 - switch_solution a b x0 tm) <=
  weight_error O * (Q2R a * Q2R a + Q2R b * Q2R b) * tm * exp (weight_error O * tm).
Proof.
  intros c e He tm. destruct signs_ab as (A & B & D). set (M := Q2R a * Q2R a + Q2R b * Q2R b).
  assert (M0 : 0 <= M) by (unfold M; pose proof (Rle_0_sqr (Q2R a)); pose proof (Rle_0_sqr (Q2R b)); unfold Rsqr in *; lra).
  assert (G : distance2 m (end_state O t rho c e) (fun _ => switch_solution a b x0 tm) <= weight_error O * M * tm * exp ((2 * 0 + weight_error O) * tm)).
  { destruct (o_pss O) eqn:Ep.
    - exact (stewart_error lr cp d o m oc C rho FP FE FS Hf XC Hg HT (fun z _ => switch_solution a b x0 z) 0 M Ep
        (sc_solution a b x0 A B D O rho _ (sides_smallest a b x0) NS X0) (Rle_refl 0) (sc_one_sided a b x0 B O rho _ (sides_smallest a b x0) NS)
        (sc_bound a b x0 O rho NS) M0 c e He).
    - exact (step_error lr cp d o m oc C rho FP FE FS Hf XC Hg HT (sc_signs a b x0) (sc_fit a b x0) (sc_complete a b x0) (fun z _ => switch_solution a b x0 z) 0 M Ep
        (sc_solution a b x0 A B D O rho _ (sides_closed a b x0) NS X0) (Rle_refl 0) (sc_one_sided a b x0 B O rho _ (sides_closed a b x0) NS)
        (sc_bound a b x0 O rho NS) M0 c e He). }
  unfold distance2 in G. cbn [m_nx switch_model] in G. rewrite (rupto_succ 0) in G. change (rupto 0 _) with 0 in G.
  replace ((2 * 0 + weight_error O) * tm) with (weight_error O * tm) in G by ring. lra.
Qed.
End Scalar.

(* ---- cases ---- *)
Lemma scalar_case : is_problem (with_cross optsS SumLambdas) (switch_model 3 1 (-1)) None CS1 /\ feasible rhoS (the_nlp CS1) /\
  filippov_setting case_cpoints (the_opts CS1) (switch_model 3 1 (-1)) rhoS /\ o_use_fesd (the_opts CS1) = true /\
  o_cross (the_opts CS1) = SumLambdas /\ ext_upto (o_gamma_h (the_opts CS1)) 1 /\ (0 <= o_terminal_time (the_opts CS1))%Q /\
  o_sot (the_opts CS1) <> SotLocal /\ rhoS (SX0 0) = Q2R (-1) /\ o_repr (the_opts CS1) = Integral /\ o_equidistant (the_opts CS1) = true.
Proof.
  split; [exact problemS1|]. split; [exact feasibleS1|]. split; [exact settingS|]. split; [vm_compute; reflexivity|]. split; [vm_compute; reflexivity|].
  split; [vm_compute; discriminate|]. split; [vm_compute; discriminate|]. split; [vm_compute; discriminate|].
  split; [unfold rhoS; val switchS; reflexivity|]. split; vm_compute; reflexivity.
Qed.
Lemma solution_value : switch_solution 3 1 (-1) 1 = 2 / 3.
Proof.
  unfold switch_solution. replace (Q2R 3) with 3 by (unfold Q2R; cbn; lra). replace (Q2R 1) with 1 by (unfold Q2R; cbn; lra). replace (Q2R (-1)) with (-1) by (unfold Q2R; cbn; lra).
  destruct (Rle_dec _ _) as [H|H]; [lra|]. rewrite Rmax_right by lra. lra.
Qed.

Lemma complement_all_inexact : exists o C rho, is_problem o (switch_model 3 0 (-1)) None C /\ feasible rho (the_nlp C) /\
  filippov_setting case_cpoints (the_opts C) (switch_model 3 0 (-1)) rho /\ o_use_fesd (the_opts C) = true /\ o_pss (the_opts C) = Stewart /\
  o_cross (the_opts C) = ComplementAll /\ t_rbe (cn_tab C) = false /\ o_sot (the_opts C) <> SotLocal /\ rho (SX0 0) = Q2R (-1) /\
  o_repr (the_opts C) = Integral /\ o_equidistant (the_opts C) = true /\ is_element (the_opts C) 0 1 /\
  grid_time (the_opts C) rho 0 1 + step_len (the_opts C) rho 0 1 = 1 /\ end_state (the_opts C) (cn_tab C) rho 0 1 0 = / 2 /\ switch_solution 3 0 (-1) 1 = 0.
Proof.
  exists (with_cross optsG ComplementAll), CG2, rhoG. split; [exact problemG2|]. split; [exact feasibleG2|]. split; [exact settingG|].
  split; [vm_compute; reflexivity|]. split; [vm_compute; reflexivity|]. split; [vm_compute; reflexivity|]. split; [vm_compute; reflexivity|].
  split; [vm_compute; discriminate|]. split; [unfold rhoG; val crossG; reflexivity|]. split; [vm_compute; reflexivity|]. split; [vm_compute; reflexivity|].
  split; [vm_compute; repeat split; lia|]. split; [|split].
  - unfold grid_time. rewrite (rupto_succ 0). change (rupto 0 _) with 0. change (rupto 0 (step_len (the_opts CG2) rhoG 0)) with 0.
    unfold step_len. replace (o_use_fesd (the_opts CG2)) with true by (vm_compute; reflexivity). unfold rhoG. val crossG. unfold Q2R. cbn. lra.
  - unfold end_state. replace (points1 (the_opts CG2) (t_rbe (cn_tab CG2)) FX - 1)%nat with 1%nat by (vm_compute; reflexivity). unfold rhoG. val crossG. unfold Q2R. cbn. lra.
  - unfold switch_solution. replace (Q2R 3) with 3 by (unfold Q2R; cbn; lra). replace (Q2R 0) with 0 by (unfold Q2R; cbn; lra). replace (Q2R (-1)) with (-1) by (unfold Q2R; cbn; lra).
    destruct (Rle_dec _ _) as [H|H]; [lra|]. rewrite Rmax_left by lra. lra.
Qed.
Lemma no_fesd_inexact : exists o C rho, is_problem o (switch_model 3 1 (-1)) None C /\ feasible rho (the_nlp C) /\
  filippov_setting case_cpoints (the_opts C) (switch_model 3 1 (-1)) rho /\ o_use_fesd (the_opts C) = false /\
  o_cross (the_opts C) = SumLambdas /\ t_rbe (cn_tab C) = true /\ o_sot (the_opts C) <> SotLocal /\ rho (SX0 0) = Q2R (-1) /\
  o_repr (the_opts C) = Integral /\ o_terminal_time (the_opts C) = 1%Q /\
  end_state (the_opts C) (cn_tab C) rho (last_stage (the_opts C)) (last_elem (the_opts C) (last_stage (the_opts C))) 0 = 0 /\ switch_solution 3 1 (-1) 1 = 2 / 3.
Proof.
  exists optsN, CN, (pt eulerN). split; [exact problemN|]. split; [exact feasibleN|]. split; [exact settingN|].
  split; [vm_compute; reflexivity|]. split; [vm_compute; reflexivity|]. split; [vm_compute; reflexivity|]. split; [vm_compute; discriminate|].
  split; [val eulerN; reflexivity|]. split; [vm_compute; reflexivity|]. split; [vm_compute; reflexivity|]. split; [|exact solution_value].
  replace (last_stage (the_opts CN)) with 0%nat by (vm_compute; reflexivity). replace (last_elem (the_opts CN) 0) with 0%nat by (vm_compute; reflexivity).
  unfold end_state. replace (points1 (the_opts CN) (t_rbe (cn_tab CN)) FX - 1)%nat with 0%nat by (vm_compute; reflexivity). val eulerN. apply RMicromega.Q2R_0.
Qed.

(* a < b: from x0 = 0 the solution may leave to either side *)
Definition model_split : model := switch_model (-1) 1 0.
Lemma sized_split : well_sized model_split. Proof. apply sizedQ_ok. reflexivity. Qed.
Lemma caseSp_ok : is_ok (build (with_cross optsS SumLambdas) model_split None) = true. Proof. vm_compute. reflexivity. Qed.
Definition CSp : constructed := get _ caseSp_ok.
Lemma builtSp : build (with_cross optsS SumLambdas) model_split None = Ok CSp. Proof. apply get_ok. Qed.
Lemma problemSp : is_problem (with_cross optsS SumLambdas) model_split None CSp. Proof. exact (is_problem_ok _ _ _ _ builtSp eq_refl sized_split). Qed.
Definition splitL : list (sym * Q) := [
  (SH 0 0, (1#2)%Q); (SH 0 1, (1#2)%Q);
  (S1 FX 0 0 0 0, (-1#2)%Q); (S2 FTheta 0 0 0 0 0, 1%Q); (S2 FLam 0 0 0 0 1, 1%Q); (S2 FMu 0 0 0 0 0, (1#2)%Q);
  (S1 FX 0 1 0 0, (-1)%Q); (S2 FTheta 0 1 0 0 0, 1%Q); (S2 FLam 0 1 0 0 1, 2%Q); (S2 FMu 0 1 0 0 0, 1%Q)].
Definition splitR : list (sym * Q) := [
  (SH 0 0, (1#2)%Q); (SH 0 1, (1#2)%Q);
  (S1 FX 0 0 0 0, (1#2)%Q); (S2 FTheta 0 0 0 0 1, 1%Q); (S2 FLam 0 0 0 0 0, 1%Q); (S2 FMu 0 0 0 0 0, (1#2)%Q);
  (S1 FX 0 1 0 0, 1%Q); (S2 FTheta 0 1 0 0 1, 1%Q); (S2 FLam 0 1 0 0 0, 2%Q); (S2 FMu 0 1 0 0 0, 1%Q)].
Lemma feasibleSpL : feasible (pt splitL) (the_nlp CSp).
Proof. apply (feasibleQ (ptQ splitL)). vm_compute. reflexivity. Qed.
Lemma feasibleSpR : feasible (pt splitR) (the_nlp CSp).
Proof. apply (feasibleQ (ptQ splitR)). vm_compute. reflexivity. Qed.
Lemma settingSp l : no_params l = true -> nonnegQ l = true -> pt l (SX0 0) = 0 -> pt l SSigma = 0 -> pt l (SL00 FLam 0 0) = 0 -> pt l (SL00 FLam 0 1) = 0 ->
  filippov_setting case_cpoints (the_opts CSp) model_split (pt l).
Proof.
  intros NP NN X Z A B. assert (N : o_ns (the_opts CSp) = 1%nat) by (vm_compute; reflexivity). assert (E : o_scheme (the_opts CSp) = RadauIIA) by (vm_compute; reflexivity).
  destruct (radau1 _ N E) as [P W]. split; [exact P|]. split; [exact W|]. split; [discriminate|]. split; [exact (sc_constant (-1) 1 0)|]. split; [exact (sc_affine (-1) 1 0)|].
  split; [apply same_pt; exact NP|]. split; [|split; [|apply nonneg_pt; exact NN]].
  - unfold initial_multipliers. replace (o_pss (the_opts CSp)) with Stewart by (vm_compute; reflexivity). exists (fun _ => 0).
    intros [|s] [|[|k]] Hs Hk; cbn in Hs, Hk; try lia; [rewrite A|rewrite B]; unfold region_value; cbn -[Q2R pt]; unfold rsum; cbn -[Q2R pt]; rewrite X; ring.
  - unfold zero_relaxation. replace (o_mpcc (the_opts CSp)) with ScholtesIneq by (vm_compute; reflexivity). exact Z.
Qed.
Lemma two_solutions : exists o m C rho1 rho2, is_problem o m None C /\ feasible rho1 (the_nlp C) /\ feasible rho2 (the_nlp C) /\
  filippov_setting case_cpoints (the_opts C) m rho1 /\ filippov_setting case_cpoints (the_opts C) m rho2 /\ o_use_fesd (the_opts C) = true /\
  o_cross (the_opts C) = SumLambdas /\ rho1 (SX0 0) = rho2 (SX0 0) /\
  end_state (the_opts C) (cn_tab C) rho1 0 1 0 = -1 /\ end_state (the_opts C) (cn_tab C) rho2 0 1 0 = 1.
Proof.
  assert (E : forall l, end_state (the_opts CSp) (cn_tab CSp) (pt l) 0 1 0 = pt l (S1 FX 0 1 0 0)).
  { intros l. unfold end_state. replace (points1 (the_opts CSp) (t_rbe (cn_tab CSp)) FX - 1)%nat with 0%nat by (vm_compute; reflexivity). reflexivity. }
  exists (with_cross optsS SumLambdas), model_split, CSp, (pt splitL), (pt splitR). split; [exact problemSp|]. split; [exact feasibleSpL|]. split; [exact feasibleSpR|].
  split; [apply settingSp; try reflexivity; val splitL; apply RMicromega.Q2R_0|]. split; [apply settingSp; try reflexivity; val splitR; apply RMicromega.Q2R_0|].
  split; [vm_compute; reflexivity|]. split; [vm_compute; reflexivity|]. split; [val splitL; val splitR; reflexivity|].
  rewrite !E. split; [val splitL|val splitR]; unfold Q2R; cbn; lra.
Qed.

(* Step *)
Lemma scalar_caseT : is_problem optsT (switch_model 3 1 (-1)) None CT /\ feasible rhoT (the_nlp CT) /\
  filippov_setting case_cpoints (the_opts CT) (switch_model 3 1 (-1)) rhoT /\ o_use_fesd (the_opts CT) = true /\ o_pss (the_opts CT) = Step /\
  (o_cross (the_opts CT) = SumLambdas \/ t_rbe (cn_tab CT) = true) /\ ext_upto (o_gamma_h (the_opts CT)) 1 /\ (0 <= o_terminal_time (the_opts CT))%Q /\
  o_sot (the_opts CT) <> SotLocal /\ rhoT (SX0 0) = Q2R (-1).
Proof.
  split; [exact problemT|]. split; [exact feasibleT|]. split; [exact settingT|]. split; [vm_compute; reflexivity|]. split; [vm_compute; reflexivity|].
  split; [right; vm_compute; reflexivity|]. split; [vm_compute; discriminate|]. split; [vm_compute; discriminate|]. split; [vm_compute; discriminate|].
  unfold rhoT. val switchT. reflexivity.
Qed.
(* the hypotheses of the general theorems hold for it *)
Lemma general_case : exact_solution (the_opts CS1) (switch_model 3 1 (-1)) rhoS (smallest (switch_model 3 1 (-1))) (fun z _ => switch_solution 3 1 (-1) z) /\
  one_sided (the_opts CS1) (switch_model 3 1 (-1)) rhoS (smallest (switch_model 3 1 (-1))) 0 /\ field_bound (the_opts CS1) (switch_model 3 1 (-1)) rhoS 10.
Proof.
  assert (NS : o_sot (the_opts CS1) <> SotLocal) by (vm_compute; discriminate).
  assert (A : 0 < Q2R 3 /\ Q2R 1 <= Q2R 3 /\ Q2R (-1) <= 0) by (unfold Q2R; cbn; lra). destruct A as (A & B & D).
  split; [|split].
  - apply (sc_solution 3 1 (-1) A B D (the_opts CS1) rhoS _ (sides_smallest 3 1 (-1)) NS). exact (proj1 (proj2 (proj2 (proj2 (proj2 (proj2 (proj2 (proj2 (proj2 scalar_case))))))))).
  - exact (sc_one_sided 3 1 (-1) B (the_opts CS1) rhoS _ (sides_smallest 3 1 (-1)) NS).
  - replace 10 with (Q2R 3 * Q2R 3 + Q2R 1 * Q2R 1) by (unfold Q2R; cbn; lra). exact (sc_bound 3 1 (-1) (the_opts CS1) rhoS NS).
Qed.
