(* Detect2_proofs.v -- simulations: switches are grid points; the scalar systems of examples/simplest *)
From Coq Require Import Reals Qreals Lra Psatz.
From Verif Require Import Base Lib Sx Sx_proofs Utils Tableau Opts Model Ocp Problem Numeric Rk4 Results Solver Looper Spec Cases Fesd Spec2 Spec3 Spec4 Spec5 Spec6
  Dcs_proofs Elem_proofs Feas_proofs Mode_proofs Looper_proofs Spec9 Filippov_proofs Filippov2_proofs Filippov3_proofs Spec10 Spec11 Exact_proofs Exact2_proofs Exact3_proofs
  Spec19 Sim_proofs Sim2_proofs Sim3_proofs Sim4_proofs Spec23 Detect_proofs.
Local Open Scope R_scope.

Section Run.
Variables (lr : Q -> Q -> Q -> nat) (cp : nat -> scheme -> list Q) (d : ipopt_dict) (o : opts) (m : model) (oc : option ocp) (C : constructed).
Hypothesis FP : fesd_problem lr cp d o m oc C.
Notation O := (the_opts C).
Variables (nlp : nat -> nlp_call -> res nlp_ret) (x0 : list R) (Nsim : nat) (pv : option (list (list R))) (pc : nat) (wi : option (list (list R)))
  (L : looper) (s : sstate) (tr : list (sstate * solve_out)) (L' : looper) (rho : nat -> env).
Hypothesis LI : looper_init (cn_prob C) x0 Nsim pv pc wi = Ok L.
Hypothesis SI : simulation nlp C m 0 L s tr L'.
Lemma run_start act X : simulated O m act rho tr (looper_t_grid L') (lp_X_sim L') X -> forall i, (i < m_nx m)%nat -> X 0 i = nth i x0 0.
Proof.
  intros (_ & G & _) i Hi. destruct (run_fields m C nlp x0 Nsim pv pc wi L s tr L' LI SI) as (F1 & _ & F3).
  apply (G 0%nat 0 x0 i); [rewrite F3; reflexivity|rewrite F1; reflexivity|exact Hi].
Qed.
Lemma run_index j tm : nth_error (looper_t_grid L') j = Some tm -> exists x, nth_error (lp_X_sim L') j = Some x.
Proof.
  intros Hj. destruct (run_fields m C nlp x0 Nsim pv pc wi L s tr L' LI SI) as (F1 & _ & F3).
  destruct (nth_error (lp_X_sim L') j) as [x|] eqn:E; [exists x; reflexivity|]. exfalso. apply nth_error_None in E. rewrite F1 in E. cbn [length] in E.
  rewrite mapi_stops, (steps_length tr (sm_lengths _ _ _ _ _ _ _ _ SI)), <- mapi_lengths in E.
  assert (Hl : (j < length (looper_t_grid L'))%nat) by (apply nth_error_Some; congruence). rewrite F3 in Hl. unfold grid_of in Hl. rewrite map_length, seq_length in Hl. lia.
Qed.
Lemma run_end : nth_error (looper_t_grid L') (length (lp_X_sim L') - 1) = Some (elapsed tr (length tr)).
Proof.
  destruct (run_fields m C nlp x0 Nsim pv pc wi L s tr L' LI SI) as (F1 & _ & F3). rewrite F1, F3, elapsed_all. cbn [length].
  rewrite mapi_stops, (steps_length tr (sm_lengths _ _ _ _ _ _ _ _ SI)), <- mapi_lengths. unfold grid_of. rewrite nth_error_map, nth_error_seq by lia.
  cbn [option_map]. f_equal. rewrite Nat.add_0_l, Nat.sub_succ, Nat.sub_0_r. apply psum_all.
Qed.
Hypothesis EX : extractable O m.
Hypothesis SS : simple_switching cp O m.
Hypothesis Hf : o_use_fesd O = true.
Hypothesis XC : o_cross O = SumLambdas \/ t_rbe (cn_tab C) = true.
Hypothesis GH : ext_upto (o_gamma_h O) 1.
Hypothesis TT : (0 <= o_terminal_time O)%Q.
Hypothesis SE : forall k q, nth_error tr k = Some q -> solved_exactly C (snd q) (rho k).
Lemma stewart_run_detect Y Lc : o_pss O = Stewart -> o_repr O = Integral -> 0 <= Lc ->
  (forall k, (k < length tr)%nat -> one_sided O m (rho k) (smallest m) Lc) -> run_solution O m (smallest m) rho tr x0 Y ->
  forall tm i, 0 < tm < elapsed tr (length tr) -> (i < m_nx m)%nat -> kink (fun z => Y z i) tm -> In tm (looper_t_grid L').
Proof.
  intros Ep Er L0 OS RY tm i Ht Hi K.
  destruct (stewart_run lr cp d o m oc C FP EX SS Hf XC GH TT nlp x0 Nsim pv pc wi L s tr L' rho LI SI SE Ep) as [X SX].
  assert (N0 : (0 < o_N_stages O)%nat) by (rewrite (run_N1 lr cp d o m oc C FP x0 Nsim pv pc wi L LI); lia).
  exact (run_detect O m (smallest m) rho tr (looper_t_grid L') (lp_X_sim L') x0 X Y Lc Er SX (run_start _ X SX) RY N0 L0 OS tm i Ht Hi K).
Qed.
Lemma step_run_detect Y Lc : gS_given m = false -> n_subsystems m = 1%nat -> sign_matrix m -> rows_fit m -> complete m 0 ->
  o_pss O = Step -> o_repr O = Integral -> 0 <= Lc ->
  (forall k, (k < length tr)%nat -> one_sided O m (rho k) (in_closed_region m) Lc) -> run_solution O m (in_closed_region m) rho tr x0 Y ->
  forall tm i, 0 < tm < elapsed tr (length tr) -> (i < m_nx m)%nat -> kink (fun z => Y z i) tm -> In tm (looper_t_grid L').
Proof.
  intros GS N1 SM RF CM Ep Er L0 OS RY tm i Ht Hi K.
  destruct (step_run lr cp d o m oc C FP EX SS Hf XC GH TT nlp x0 Nsim pv pc wi L s tr L' rho LI SI SE GS N1 SM RF CM Ep) as [X SX].
  assert (N0 : (0 < o_N_stages O)%nat) by (rewrite (run_N1 lr cp d o m oc C FP x0 Nsim pv pc wi L LI); clear; lia).
  exact (run_detect O m (in_closed_region m) rho tr (looper_t_grid L') (lp_X_sim L') x0 X Y Lc Er SX (run_start _ X SX) RY N0 L0 OS tm i Ht Hi K).
Qed.
End Run.

(* the kink of the scalar solution *)
Lemma switch_kink a b x0 : 0 < Q2R a -> Q2R b < Q2R a -> kink (switch_solution a b x0) (- Q2R x0 / Q2R a).
Proof.
  intros A B l D. set (ts := - Q2R x0 / Q2R a) in *. set (r := Rmax 0 (Q2R b)).
  assert (Hr : r < Q2R a) by (unfold r, Rmax; destruct (Rle_dec 0 (Q2R b)); lra).
  assert (E0 : switch_solution a b x0 ts = 0).
  { unfold switch_solution. fold ts. destruct (Rle_dec ts ts); [|lra]. unfold ts. field. lra. }
  destruct (D ((Q2R a - r) / 2) ltac:(lra)) as [[delta Hd] G]. cbn in G.
  assert (G1 := G (delta / 2) ltac:(lra) ltac:(rewrite Rabs_pos_eq; lra)).
  assert (G2 := G (- (delta / 2)) ltac:(lra) ltac:(rewrite Rabs_left; lra)).
  rewrite E0 in G1, G2.
  assert (V1 : switch_solution a b x0 (ts + delta / 2) = r * (delta / 2)).
  { unfold switch_solution. fold ts r. destruct (Rle_dec (ts + delta / 2) ts); [lra|]. ring. }
  assert (V2 : switch_solution a b x0 (ts + - (delta / 2)) = - (Q2R a * (delta / 2))).
  { unfold switch_solution. fold ts r. destruct (Rle_dec (ts + - (delta / 2)) ts); [|lra]. unfold ts. field. lra. }
  rewrite V1 in G1. rewrite V2 in G2.
  replace ((r * (delta / 2) - 0) / (delta / 2) - l) with (r - l) in G1 by (field; lra).
  replace ((- (Q2R a * (delta / 2)) - 0) / - (delta / 2) - l) with (Q2R a - l) in G2 by (field; lra).
  apply Rabs_def2 in G1. apply Rabs_def2 in G2. lra.
Qed.
Section Scalar.
Variables (lr : Q -> Q -> Q -> nat) (cp : nat -> scheme -> list Q) (d : ipopt_dict) (o : opts) (a b x0 : Q) (oc : option ocp) (C : constructed).
Notation O := (the_opts C).
Notation m := (switch_model a b x0).
Lemma scalar_detect nlp Nsim pv pc wi L s tr L' rho : fesd_problem lr cp d o m oc C -> extractable O m -> points_ok cp O -> weights_nonneg cp O ->
  o_use_fesd O = true -> o_cross O = SumLambdas \/ t_rbe (cn_tab C) = true -> ext_upto (o_gamma_h O) 1 -> (0 <= o_terminal_time O)%Q ->
  o_sot O <> SotLocal -> o_repr O = Integral -> o_equidistant O = true -> (0 < a)%Q -> (b < a)%Q -> (x0 < 0)%Q ->
  looper_init (cn_prob C) [Q2R x0] Nsim pv pc wi = Ok L -> simulation nlp C m 0 L s tr L' ->
  (forall k q, nth_error tr k = Some q -> solved_exactly C (snd q) (rho k)) ->
  let tend := INR (length tr) * Q2R (o_terminal_time O) in
  (* the simulation ends on time, in the right state *)
  (nth_error (looper_t_grid L') (length (lp_X_sim L') - 1) = Some tend /\
   exists x, nth_error (lp_X_sim L') (length (lp_X_sim L') - 1) = Some x /\ nth 0 x 0 = switch_solution a b x0 tend) /\
  (* the switch is a grid point, with the state on the surface *)
  (- Q2R x0 / Q2R a < tend -> exists j x, nth_error (looper_t_grid L') j = Some (- Q2R x0 / Q2R a) /\ nth_error (lp_X_sim L') j = Some x /\ nth 0 x 0 = 0).
Proof.
  intros FP EX P1 P2 Hf XC GH TT NS Er Eq Ha Hb Hx LI SI SE tend.
  destruct (signs_ab a b x0 Ha (Qlt_le_weak _ _ Hb) (Qlt_le_weak _ _ Hx)) as (A & B & D).
  pose proof (Qlt_Rlt _ _ Hb) as Bs. pose proof (Qlt_Rlt _ _ Hx) as Xs. rewrite RMicromega.Q2R_0 in Xs.
  assert (SS : simple_switching cp O m) by (split; [exact P1|]; split; [exact P2|]; split; [discriminate|]; split; [exact (sc_constant a b x0)|exact (sc_affine a b x0)]).
  assert (ET : elapsed tr (length tr) = tend) by exact (run_times lr cp d o m oc C FP EX Hf nlp [Q2R x0] Nsim pv pc wi L s tr L' rho LI SI SE Eq (length tr) (le_n _)).
  assert (AT : forall j tm x, nth_error (looper_t_grid L') j = Some tm -> nth_error (lp_X_sim L') j = Some x -> nth 0 x 0 = switch_solution a b x0 tm)
    by exact (scalar_run lr cp d o a b x0 oc C nlp Nsim pv pc wi L s tr L' rho FP EX P1 P2 Hf XC GH TT NS Er Ha (Qlt_le_weak _ _ Hb) (Qlt_le_weak _ _ Hx) LI SI SE).
  split.
  - pose proof (run_end m C nlp [Q2R x0] Nsim pv pc wi L s tr L' LI SI) as RE. rewrite ET in RE. split; [exact RE|].
    destruct (run_index m C nlp [Q2R x0] Nsim pv pc wi L s tr L' LI SI _ _ RE) as [x Hxx]. exists x. split; [exact Hxx|exact (AT _ _ _ RE Hxx)].
  - intros Hts. set (ts := - Q2R x0 / Q2R a) in *. assert (T0 : 0 < ts) by (apply Rdiv_lt_0_compat; lra).
    assert (I : In ts (looper_t_grid L')).
    { destruct (o_pss O) eqn:Ep.
      - exact (stewart_run_detect lr cp d o m oc C FP nlp [Q2R x0] Nsim pv pc wi L s tr L' rho LI SI EX SS Hf XC GH TT SE (fun z _ => switch_solution a b x0 z) 0 Ep Er (Rle_refl 0)
          (fun k _ => sc_one_sided a b x0 B O (rho k) _ (sides_smallest a b x0) NS) (sc_run_solution a b x0 C rho _ tr A B D (sides_smallest a b x0) NS) ts 0%nat
          ltac:(rewrite ET; lra) Nat.lt_0_1 (switch_kink a b x0 A Bs)).
      - exact (step_run_detect lr cp d o m oc C FP nlp [Q2R x0] Nsim pv pc wi L s tr L' rho LI SI EX SS Hf XC GH TT SE (fun z _ => switch_solution a b x0 z) 0
          eq_refl eq_refl (sc_signs a b x0) (sc_fit a b x0) (sc_complete a b x0 0%nat Nat.lt_0_1) Ep Er (Rle_refl 0)
          (fun k _ => sc_one_sided a b x0 B O (rho k) _ (sides_closed a b x0) NS) (sc_run_solution a b x0 C rho _ tr A B D (sides_closed a b x0) NS) ts 0%nat
          ltac:(rewrite ET; lra) Nat.lt_0_1 (switch_kink a b x0 A Bs)). }
    apply In_nth_error in I. destruct I as [j Hj]. destruct (run_index m C nlp [Q2R x0] Nsim pv pc wi L s tr L' LI SI _ _ Hj) as [x Hxx].
    exists j, x. split; [exact Hj|]. split; [exact Hxx|]. rewrite (AT _ _ _ Hj Hxx). unfold switch_solution. fold ts. destruct (Rle_dec ts ts); [|lra]. unfold ts. field. lra.
Qed.
End Scalar.
