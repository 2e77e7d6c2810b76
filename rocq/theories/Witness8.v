(* Witness8.v -- the relaxation BOOLEAN and LEAST_SQUARES: points without convex weights,
   complementarity or a grid *)
From Coq Require Import Reals Qreals Lra.
From Verif Require Import Base Lib Sx Utils Tableau Opts Model Ocp Problem Spec Cases Fesd Spec2 Results Spec4 Fo_proofs Sem_proofs
  Con_proofs Index3_proofs Feas_proofs Witness Results4_proofs Results5_proofs.

(* ---- what the rows mean ---- *)
Lemma boolean_meaning o z f x y f' n rho :
  create_complementarity o z f x y = Ok f' -> o_mpcc o = MBoolean ->
  length (lbg f) = length (g f) -> length (ubg f) = length (g f) ->
  length (w f) = length (lbw f) -> length (w f) = length (ubw f) -> length (w f) = length (w0 f) ->
  length y = n -> Forall (fun v => length v = n) x ->
  (constraints_ok rho f' <-> constraints_ok rho f /\
     forall k, k < n -> big_m_rows (rho (z (length (ind_bool f)) k)) (rsum (map (fun v => eval rho (nth k v (ECst 0))) x)) (eval rho (nth k y (ECst 0)))).
Proof.
  intros H EM L1 L2 W1 W2 W3 Ly Lx. assert (W : wf_f f) by (split; [unfold wf_w|unfold wf_g]; auto).
  destruct (cc_bool rho o z f x y f' n H EM W Ly Lx) as [W' S]. rewrite (feasible_cons rho f W), (feasible_cons rho f' W'). exact S.
Qed.
Lemma boolean_relaxed s y : (exists b, (0 <= b <= 1)%R /\ big_m_rows b s y) <-> (Rabs s + Rabs y <= 100000)%R.
Proof.
  unfold big_m_rows. split; [intros (b & B & A1 & A2); lra|]. intros A. pose proof (Rabs_pos s). pose proof (Rabs_pos y).
  exists (Rabs y / 100000)%R. split; [split; [apply Rmult_le_pos; lra|]|split]; try lra.
Qed.
Lemma boolean_integer s y : (exists b, (b = 0 \/ b = 1)%R /\ big_m_rows b s y) <->
  (s = 0 /\ Rabs y <= 100000)%R \/ (y = 0 /\ Rabs s <= 100000)%R.
Proof.
  unfold big_m_rows. split.
  - intros (b & [-> | ->] & A1 & A2).
    + right. split; [|lra]. rewrite Rmult_0_r in A1. destruct (Req_dec y 0) as [E|N]; [exact E|]. pose proof (Rabs_pos_lt y N). lra.
    + left. split; [|lra]. replace (100000 * (1 - 1))%R with 0%R in A2 by ring. destruct (Req_dec s 0) as [E|N]; [exact E|]. pose proof (Rabs_pos_lt s N). lra.
  - intros [[-> A]|[-> A]]; [exists 1%R|exists 0%R]; rewrite Rabs_R0; split; auto; split; lra.
Qed.

(* ---- BOOLEAN: from x0 = -1 with the weights (-1, 2) the state moves left, theta_1 lambda_1 = 6 ---- *)
Definition optsBo : opts := with_modes optsS Stewart MBoolean SumLambdas HeuristicDelta SotNone true true.
Lemma caseBo_ok : is_ok (build optsBo model3 None) = true. Proof. vm_compute. reflexivity. Qed.
Definition CBo : constructed := get _ caseBo_ok.
Lemma builtBo : build optsBo model3 None = Ok CBo. Proof. apply get_ok. Qed.
Lemma problemBo : is_problem optsBo model3 None CBo. Proof. exact (is_problem_ok _ _ _ _ builtBo eq_refl sized3). Qed.
Definition leftBo : list (sym * Q) := [
  (SX0 0, (-1)%Q); (SL00 FLam 0 1, 2%Q); (SH 0 0, (1#2)%Q); (SH 0 1, (1#2)%Q);
  (S1 FX 0 0 0 0, (-3#2)%Q); (S2 FTheta 0 0 0 0 0, (-1)%Q); (S2 FTheta 0 0 0 0 1, 2%Q);
  (S2 FLam 0 0 0 0 1, 3%Q); (S2 FMu 0 0 0 0 0, (3#2)%Q);
  (S1 FX 0 1 0 0, (-2)%Q); (S2 FTheta 0 1 0 0 0, (-1)%Q); (S2 FTheta 0 1 0 0 1, 2%Q);
  (S2 FLam 0 1 0 0 1, 4%Q); (S2 FMu 0 1 0 0 0, 2%Q)].
Definition vBo (s : sym) : Q := match s with SBool _ _ _ _ | SBoolG _ _ => (1#2)%Q | _ => ptQ leftBo s end.
Definition rhoBo : env := fun s => Q2R (vBo s).
Lemma feasibleBo : feasible rhoBo (the_nlp CBo).
Proof. apply (feasibleQ vBo). vm_compute. reflexivity. Qed.
Lemma boolean_bad : exists o m C rho, is_problem o m None C /\ feasible rho (the_nlp C) /\
  o_pss (the_opts C) = Stewart /\ o_mpcc (the_opts C) = MBoolean /\ is_fe (the_opts C) 0 0 2 /\
  (rho (S2 FTheta 0 0 0 0 0) < 0)%R /\ (rho (S2 FTheta 0 0 0 0 1) * rho (S2 FLam 0 0 0 0 1) = 6)%R.
Proof.
  exists optsBo, model3, CBo, rhoBo. split; [exact problemBo|]. split; [exact feasibleBo|]. split; [vm_compute; reflexivity|].
  split; [vm_compute; reflexivity|]. split; [vm_compute; repeat split; lia|].
  assert (A : vBo (S2 FTheta 0 0 0 0 0) = (-1)%Q) by (vm_compute; reflexivity).
  assert (B : vBo (S2 FTheta 0 0 0 0 1) = 2%Q) by (vm_compute; reflexivity).
  assert (D : vBo (S2 FLam 0 0 0 0 1) = 3%Q) by (vm_compute; reflexivity).
  unfold rhoBo. rewrite A, B, D. unfold Q2R. cbn. lra.
Qed.
Lemma extractBo : extractable (the_opts CBo) model3. Proof. apply (extract3 _ _ _ builtBo). vm_compute. reflexivity. Qed.

(* ---- LEAST_SQUARES: no constraints, so nothing ties step sizes or weights ---- *)
Definition optsQ : opts := with_constr (with_modes optsS Stewart ScholtesEq SumLambdas HeuristicDelta SotNone true true) LeastSquares.
Lemma caseQ_ok : is_ok (build optsQ model3 None) = true. Proof. vm_compute. reflexivity. Qed.
Definition CQ : constructed := get _ caseQ_ok.
Lemma builtQ : build optsQ model3 None = Ok CQ. Proof. apply get_ok. Qed.
Definition shortQ : list (sym * Q) := [(SH 0 0, (1#3)%Q); (SH 0 1, (1#3)%Q); (S2 FTheta 0 0 0 0 0, 5%Q)].
Lemma feasibleQ_ : feasible (pt shortQ) (the_nlp CQ).
Proof. apply (feasibleQ (ptQ shortQ)). vm_compute. reflexivity. Qed.
Lemma extractQ : extractable (the_opts CQ) model3. Proof. apply (extract3 _ _ _ builtQ). vm_compute. reflexivity. Qed.
Lemma least_squares_grid x0 : exists r, get_results (cn_prob CQ) x0 (primal CQ (pt shortQ)) = Ok r /\ last_is (rs_t_grid r) (2 / 3)%R /\
  nth_error (rs_t_grid_u r) 1 = Some (2 / 3)%R /\ o_N_stages (the_opts CQ) = 1 /\ o_equidistant (the_opts CQ) = true /\
  Q2R (o_terminal_time (the_opts CQ)) = 1%R.
Proof.
  destruct (results_read _ _ _ _ _ _ CQ (pt shortQ) x0 (made _ _ _ _ builtQ) extractQ) as (r & sw & Hr & G). exists r. split; [exact Hr|].
  cbv zeta in G. destruct G as (_ & _ & _ & _ & _ & _ & _ & _ & _ & _ & _ & _ & _ & _ & Eg & Eu & _).
  assert (Ee : elements (the_opts CQ) = [(0, 0); (0, 1)]) by (vm_compute; reflexivity).
  assert (Ef : o_use_fesd (the_opts CQ) = true) by (vm_compute; reflexivity).
  assert (En : o_N_stages (the_opts CQ) = 1) by (vm_compute; reflexivity).
  assert (El : o_Nfe_list (the_opts CQ) = [2]) by (vm_compute; reflexivity).
  assert (ET : o_terminal_time (the_opts CQ) = 1%Q) by (vm_compute; reflexivity).
  assert (V : partial_sum (step_lengths (the_opts CQ) (pt shortQ)) 2 = (2 / 3)%R).
  { unfold partial_sum, step_lengths. rewrite Ee. cbn [map firstn fst snd]. unfold step_len. rewrite Ef. unfold rsum. cbn [fold_right]. unfold pt, Q2R. cbn. lra. }
  split; [|split; [|split; [exact En|split; [vm_compute; reflexivity|rewrite ET; unfold Q2R; cbn; lra]]]].
  - rewrite Eg. split; [rewrite map_length, seq_length; lia|]. rewrite map_length, seq_length, Ee.
    rewrite nth_error_map, nth_error_seq by (cbn; lia). cbn [option_map]. f_equal. exact V.
  - rewrite Eu, En, El. cbn [seq plus map firstn nth_error total]. f_equal. exact V.
Qed.
Lemma least_squares_weights : exists o m C rho, construct_problem case_log_round case_cpoints ipopt_init o m None = Ok C /\ feasible rho (the_nlp C) /\
  o_pss (the_opts C) = Stewart /\ product_mode (the_opts C) /\ o_constr o = LeastSquares /\ is_fe (the_opts C) 0 0 2 /\
  rupto (n_modes m 0) (fun k => rho (S2 FTheta 0 0 0 0 k)) = 5%R.
Proof.
  exists optsQ, model3, CQ, (pt shortQ). split; [exact (made _ _ _ _ builtQ)|]. split; [exact feasibleQ_|]. split; [vm_compute; reflexivity|].
  split; [vm_compute; exact Logic.I|]. split; [reflexivity|]. split; [vm_compute; repeat split; lia|].
  change (n_modes model3 0) with 2. unfold rupto. cbn [seq map]. unfold rsum. cbn [fold_right]. unfold pt, Q2R. cbn. lra.
Qed.
