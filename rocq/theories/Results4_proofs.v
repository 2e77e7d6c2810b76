(* Results4_proofs.v -- the statements about results, and their failures *)
From Coq Require Import Reals Qreals Lra Permutation.
From Verif Require Import Base Lib Sx Sx_proofs Utils Tableau Opts Model Ocp Problem Spec Fesd Spec2 Cases Witness
  Fo_proofs Fe_proofs FeMake_proofs FeSel_proofs FeZero_proofs Prob_proofs Coll_proofs Body_proofs Model_proofs
  Con_proofs Index_proofs Index2_proofs Index3_proofs Nlp_proofs Feas_proofs Accept_proofs Results Spec4 Results_proofs Results2_proofs
  Results3_proofs.

Lemma NoDup_left {A} (a b : list A) : NoDup (a ++ b) -> NoDup a.
Proof. induction a as [|x a IH]; intros N; [constructor|]. cbn in N. inversion N; subst. constructor; [intros Hx; apply H1, in_or_app; left; assumption|auto]. Qed.
Lemma firstn_S_snoc {A} (l : list A) : forall i h, nth_error l i = Some h -> firstn (S i) l = firstn i l ++ [h].
Proof. induction l as [|a l IH]; intros [|i] h E; try discriminate; cbn in E; [injection E as ->; reflexivity|]. cbn [firstn app]. f_equal. apply IH. assumption. Qed.

Section Con.
Variables (lr : Q -> Q -> Q -> nat) (cp : nat -> scheme -> list Q) (d : ipopt_dict)
  (o : opts) (m : model) (oc : option ocp) (C : constructed).
Notation O := (the_opts C).

(* every vector of the right length is the primal vector of a point *)
Lemma as_primal v : construct_problem lr cp d o m oc = Ok C -> length v = length (w (the_nlp C)) -> exists rho, primal C rho = v.
Proof.
  intros H L. pose proof (syms_distinct_con _ _ _ _ _ _ _ H) as ND. apply NoDup_left in ND. unfold primal.
  revert v L. induction ND as [|s l Hs ND IH]; intros v L; destruct v as [|x v]; try discriminate.
  - exists (fun _ => 0%R). reflexivity.
  - injection L as L. destruct (IH v L) as [rho E]. exists (fun s' => if sym_eqb s' s then x else rho s'). cbn [map]. f_equal.
    + rewrite (proj2 (sym_eqb_eq s s) eq_refl). reflexivity.
    + rewrite <- E. apply map_ext_in. intros s' Hs'. destruct (sym_eqb s' s) eqn:E'; [|reflexivity]. apply sym_eqb_eq in E'. subst. contradiction.
Qed.

Lemma results_read rho x0 : construct_problem lr cp d o m oc = Ok C -> extractable O m -> exists r sw, get_results (cn_prob C) x0 (primal C rho) = Ok r /\
  let E := explicit_end C in let es := elements O in let steps := step_lengths O rho in
  rs_x_list r = map (end_states O E m rho) es /\
  rs_x_traj r = x0 :: map (end_states O E m rho) es /\
  rs_x_out r = end_states O E m rho (final_element O) /\
  rs_x_all_list r = x0 :: concat (map (all_states O E m rho) es) /\
  rs_u_list r = map (fun c => vals rho (SU c) (m_nu m)) (seq 0 (o_N_stages O)) /\
  rs_sot r = match o_sot O with SotNone => None | _ => Some (map (fun c => [rho (SSot c)]) (seq 0 (o_N_stages O))) end /\
  rs_theta_list r = map (end_family O E m rho FTheta) es /\
  rs_lambda_list r = map (end_family O E m rho FLam) es /\
  rs_alpha_list r = map (fun p => concat (end_family O E m rho FAlpha p)) es /\
  rs_lambda_n_list r = map (fun p => concat (end_family O E m rho FLn p)) es /\
  rs_lambda_p_list r = map (fun p => concat (end_family O E m rho FLp p)) es /\
  rs_z_list r = map (end_z O m rho) es /\
  rs_v_global r = [vals rho SVg (m_nvg m)] /\
  rs_time_steps r = steps /\
  rs_t_grid r = map (partial_sum steps) (seq 0 (length es + 1)) /\
  rs_t_grid_u r = map (fun c => partial_sum steps (total (firstn c (o_Nfe_list O)))) (seq 0 (o_N_stages O + 1)) /\
  rs_switch_times r = map (fun j => nth j steps 0%R) sw /\
  increasing sw /\ (forall j, In j sw <-> jump_after (mode_values O E m rho) j).
Proof. intros H (X1 & X2 & X3). exact (results_ok _ _ _ _ _ _ _ H rho x0 X1 X2 X3). Qed.

Lemma grid_terminal_time rho x0 : fesd_problem lr cp d o m oc C -> extractable O m -> constraints_ok rho (the_nlp C) ->
  (o_use_fesd O = true -> o_equidistant O = false -> 1 < o_N_stages O) ->
  exists r, get_results (cn_prob C) x0 (primal C rho) = Ok r /\ first_is (rs_t_grid r) 0%R /\ last_is (rs_t_grid r) (Q2R (o_terminal_time O)).
Proof.
  intros (H & X1 & WS) X CK E. destruct (results_read rho x0 H X) as (r & sw & Hr & G). exists r. split; [exact Hr|].
  cbv zeta in G. destruct G as (_ & _ & _ & _ & _ & _ & _ & _ & _ & _ & _ & _ & _ & _ & G & _). rewrite G. split.
  - unfold first_is. rewrite nth_error_map, nth_error_seq by lia. reflexivity.
  - unfold last_is. rewrite map_length, seq_length. split; [lia|]. rewrite nth_error_map, nth_error_seq by lia. cbn [option_map plus]. f_equal.
    rewrite Nat.add_sub. destruct X as (_ & _ & X3). rewrite (total_all C X3).
    assert (Ef : o_Nfe_list O = firstn (o_N_stages O) (o_Nfe_list O)) by (unfold one_nfe_per_stage in X3; rewrite <- X3, firstn_all; reflexivity).
    rewrite Ef. rewrite partial_sum_stages by (try (eapply nfes_long; eassumption); lia).
    exact (grid_total lr cp d o m oc C H rho X1 WS CK E).
Qed.

Lemma grid_equidistant rho x0 : fesd_problem lr cp d o m oc C -> extractable O m -> constraints_ok rho (the_nlp C) ->
  o_equidistant O = true ->
  exists r, get_results (cn_prob C) x0 (primal C rho) = Ok r /\ length (rs_t_grid_u r) = o_N_stages O + 1 /\
   forall k, k <= o_N_stages O -> nth_error (rs_t_grid_u r) k = Some (INR k * Q2R (o_terminal_time O) / INR (o_N_stages O))%R.
Proof.
  intros (H & X1 & WS) X CK E. destruct (results_read rho x0 H X) as (r & sw & Hr & G). exists r. split; [exact Hr|].
  cbv zeta in G. destruct G as (_ & _ & _ & _ & _ & _ & _ & _ & _ & _ & _ & _ & _ & _ & _ & G & _). rewrite G. split.
  - rewrite map_length, seq_length. reflexivity.
  - intros k Hk. rewrite nth_error_map, nth_error_seq by lia. cbn [option_map plus]. f_equal.
    rewrite partial_sum_stages by (try (eapply nfes_long; eassumption); lia).
    rewrite (rupto_const k (T O / INR (o_N_stages O))%R).
    + unfold T, Rdiv. ring.
    + intros c Hc. apply (stage_T lr cp d o m oc C H rho X1 WS CK); [lia|auto].
Qed.

Lemma grid_plain rho x0 : construct_problem lr cp d o m oc = Ok C -> extractable O m -> o_use_fesd O = false ->
  exists r, get_results (cn_prob C) x0 (primal C rho) = Ok r /\
   forall k, k <= o_N_stages O -> nth_error (rs_t_grid_u r) k = Some (INR k * Q2R (o_terminal_time O) / INR (o_N_stages O))%R.
Proof.
  intros H X E. destruct (results_read rho x0 H X) as (r & sw & Hr & G). exists r. split; [exact Hr|].
  cbv zeta in G. destruct G as (_ & _ & _ & _ & _ & _ & _ & _ & _ & _ & _ & _ & _ & _ & _ & G & _). rewrite G.
  intros k Hk. rewrite nth_error_map, nth_error_seq by lia. cbn [option_map plus]. f_equal.
  rewrite partial_sum_stages by (try (eapply nfes_long; eassumption); lia).
  rewrite (rupto_const k (T O / INR (o_N_stages O))%R).
  + unfold T, Rdiv. ring.
  + intros c Hc. eapply plain_stage_length; [eassumption|lia|assumption].
Qed.

Lemma partial_sum_mono l : (forall x, In x l -> (0 <= x)%R) -> forall i j, i <= j -> (partial_sum l i <= partial_sum l j)%R.
Proof.
  intros Hl i j Hij. unfold partial_sum. replace j with (i + (j - i)) by lia. rewrite <- (firstn_skipn i l) at 2. generalize (j - i) as k. intros k.
  assert (Ek : firstn (i + k) (firstn i l ++ skipn i l) = firstn i l ++ firstn k (skipn i l)).
  { rewrite firstn_skipn. clear. revert l k. induction i as [|i IH]; intros [|a l] k; cbn; [reflexivity|reflexivity|destruct k; reflexivity|f_equal; apply IH]. }
  rewrite Ek, rsum_app. assert (0 <= rsum (firstn k (skipn i l)))%R; [|lra].
  assert (Hin : forall x, In x (firstn k (skipn i l)) -> (0 <= x)%R).
  { intros x Hx. apply Hl. rewrite <- (firstn_skipn i l). apply in_or_app. right. rewrite <- (firstn_skipn k (skipn i l)). apply in_or_app. left. assumption. }
  revert Hin. generalize (firstn k (skipn i l)). unfold rsum. induction l0 as [|x l0 IH]; intros Hin; cbn; [lra|].
  pose proof (Hin x (or_introl eq_refl)). assert (0 <= fold_right Rplus 0 l0)%R by (apply IH; intros; apply Hin; right; assumption). lra.
Qed.

Lemma grid_forward rho x0 : construct_problem lr cp d o m oc = Ok C -> extractable O m -> bounds_ok rho (the_nlp C) ->
  ext_upto (o_gamma_h O) 1 -> (0 <= o_terminal_time O)%Q ->
  exists r, get_results (cn_prob C) x0 (primal C rho) = Ok r /\ (forall h, In h (rs_time_steps r) -> (0 <= h)%R) /\
  (ext_below (o_gamma_h O) 1 -> (0 < o_terminal_time O)%Q -> forall h, In h (rs_time_steps r) -> (0 < h)%R) /\
  forall i j a b, i <= j -> nth_error (rs_t_grid r) i = Some a -> nth_error (rs_t_grid r) j = Some b -> (a <= b)%R.
Proof.
  intros H X BK Hg HT. destruct (results_read rho x0 H X) as (r & sw & Hr & G). exists r. split; [exact Hr|].
  cbv zeta in G. destruct G as (_ & _ & _ & _ & _ & _ & _ & _ & _ & _ & _ & _ & _ & Es & Eg & _).
  assert (NoNeg : forall h, In h (step_lengths O rho) -> (0 <= h)%R).
  { intros h Hh. apply in_map_iff in Hh. destruct Hh as (p & <- & Hp). destruct (o_gamma_h O) as [|q|] eqn:Eq; cbn in Hg; [|eapply step_nonneg; eassumption|contradiction].
    assert (Hc : fst p < o_N_stages O) by (apply elements_in in Hp; apply Hp).
    destruct (o_use_fesd O) eqn:F; [|unfold step_len; rewrite F; eapply nominal_nonneg; eassumption].
    pose proof (step_bounds _ _ _ _ _ _ _ H rho BK p Hp F) as [B _]. unfold step_lower in B. rewrite Eq in B. contradiction. }
  split; [rewrite Es; exact NoNeg|]. split.
  - rewrite Es. intros Hlt HT' h Hh. apply in_map_iff in Hh. destruct Hh as (p & <- & Hp). destruct (o_gamma_h O) as [|q|] eqn:Eq; cbn in Hlt; [|eapply step_positive; eassumption|contradiction].
    assert (Hc : fst p < o_N_stages O) by (apply elements_in in Hp; apply Hp).
    destruct (o_use_fesd O) eqn:F; [|unfold step_len; rewrite F; eapply nominal_positive; eassumption].
    pose proof (step_bounds _ _ _ _ _ _ _ H rho BK p Hp F) as [B _]. unfold step_lower in B. rewrite Eq in B. contradiction.
  - rewrite Eg. intros i j a b Hij Ha Hb. rewrite nth_error_map in Ha, Hb.
    assert (Hj : j < length (elements O) + 1) by (destruct (nth_error (seq 0 (length (elements O) + 1)) j) eqn:E; [apply nth_error_Some_lt in E; rewrite seq_length in E; exact E|discriminate]).
    rewrite nth_error_seq in Ha by lia. rewrite nth_error_seq in Hb by lia. injection Ha as <-. injection Hb as <-. apply partial_sum_mono; assumption.
Qed.

Lemma gather_pick v idx out : gather v idx = Ok out -> pick v idx out.
Proof.
  unfold gather, pick. revert out. induction idx as [|i idx IH]; intros out E; cbn in E; [injection E as <-; constructor|].
  apply bind_ok in E. destruct E as (x & Ex & E). apply bind_ok in E. destruct E as (l & El & E). injection E as <-.
  constructor; [apply nthE_ok in Ex; exact Ex|apply IH; assumption].
Qed.

Lemma results_consistent v x0 : construct_problem lr cp d o m oc = Ok C -> extractable O m -> length v = length (w (the_nlp C)) ->
  exists r, get_results (cn_prob C) x0 v = Ok r /\
  length (rs_x_traj r) = total (o_Nfe_list O) + 1 /\ length (rs_t_grid r) = total (o_Nfe_list O) + 1 /\
  first_is (rs_x_traj r) x0 /\ last_is (rs_x_traj r) (rs_x_out r) /\
  (exists idx, at3 (p_ind1 (the_problem C) FX) (o_N_stages O - 1) (nth (o_N_stages O - 1) (o_Nfe_list O) 0 - 1) (points1 O (explicit_end C) FX - 1) = Some idx /\
     pick v idx (rs_x_out r)) /\
  length (rs_u_list r) = o_N_stages O /\ length (rs_t_grid_u r) = o_N_stages O + 1 /\
  length (rs_time_steps r) = total (o_Nfe_list O) /\
  (forall i a b h, nth_error (rs_t_grid r) i = Some a -> nth_error (rs_t_grid r) (S i) = Some b -> nth_error (rs_time_steps r) i = Some h -> (b - a = h)%R).
Proof.
  intros H X L. destruct (as_primal v H L) as [rho <-]. destruct (results_read rho x0 H X) as (r & sw & Hr & G). exists r. split; [exact Hr|].
  cbv zeta in G. destruct G as (E1 & E2 & E3 & E4 & E5 & _ & _ & _ & _ & _ & _ & _ & _ & Es & Eg & Eu & _).
  destruct X as (X1 & X2 & X3). pose proof (total_all C X3) as Lt.
  pose proof (stages_pos _ _ _ _ _ _ _ H) as N0. pose proof (points1_pos _ _ _ _ _ _ _ H FX) as Pp.
  destruct (nfe_of_nth _ _ _ _ _ _ _ H (o_N_stages O - 1)) as [En Hp]; [lia|].
  split; [rewrite E2; cbn; rewrite map_length; lia|].
  split; [rewrite Eg, map_length, seq_length; lia|].
  split; [rewrite E2; reflexivity|].
  split.
  { split; [rewrite E2; cbn; lia|]. rewrite E2, E3. cbn [length]. rewrite map_length.
    assert (Hfl : nth_error (elements O) (length (elements O) - 1) = Some (final_element O)).
    { unfold elements, final_element. replace (o_N_stages O) with (S (o_N_stages O - 1)) by lia. rewrite seq_S, map_app, concat_app. cbn [plus map concat]. rewrite app_nil_r.
      replace (S (o_N_stages O - 1) - 1) with (o_N_stages O - 1) by lia.
      rewrite app_length, map_length, seq_length, nth_error_app2 by lia.
      replace (_ + nfe_of O (o_N_stages O - 1) - 1 - _) with (nfe_of O (o_N_stages O - 1) - 1) by lia.
      rewrite nth_error_map, nth_error_seq by lia. reflexivity. }
    assert (Lp : 0 < length (elements O)) by (apply nth_error_Some_lt in Hfl; lia).
    replace (S (length (elements O)) - 1) with (S (length (elements O) - 1)) by lia. cbn [nth_error]. rewrite nth_error_map, Hfl. reflexivity. }
  split.
  { destruct (idx1_con _ _ _ _ _ _ _ H (o_N_stages O - 1) (nfe_of O (o_N_stages O - 1) - 1) (nfe_of O (o_N_stages O - 1)) FX (points1 O (explicit_end C) FX - 1)) as (idx & F1 & F2 & _).
    { split; [lia|]. split; [assumption|lia]. } { lia. }
    exists idx. split; [exact F1|]. apply gather_pick. rewrite E3. exact (gather_vals C rho idx _ _ F2). }
  split; [rewrite E5, map_length, seq_length; reflexivity|].
  split; [rewrite Eu, map_length, seq_length; reflexivity|].
  split; [rewrite Es; unfold step_lengths; rewrite map_length; exact Lt|].
  intros i a b h Ha Hb Hh. rewrite Eg, nth_error_map in Ha, Hb.
  assert (Hi : S i < length (elements O) + 1) by (destruct (nth_error (seq 0 (length (elements O) + 1)) (S i)) eqn:E; [apply nth_error_Some_lt in E; rewrite seq_length in E; exact E|discriminate]).
  rewrite nth_error_seq in Ha by lia. rewrite nth_error_seq in Hb by lia. injection Ha as <-. injection Hb as <-. cbn [plus]. rewrite Es in Hh. unfold partial_sum.
  rewrite (firstn_S_snoc _ _ _ Hh), rsum_app. unfold rsum. cbn. lra.
Qed.
End Con.
