(* Results3_proofs.v -- time grids at feasible points; extraction errors *)
From Coq Require Import Reals Qreals Lra Permutation.
From Verif Require Import Base Lib Sx Sx_proofs Utils Tableau Opts Model Ocp Problem Spec Fesd Spec2
  Fo_proofs Fe_proofs FeMake_proofs FeSel_proofs FeZero_proofs Prob_proofs Coll_proofs Body_proofs Model_proofs
  Con_proofs Index_proofs Index2_proofs Index3_proofs Nlp_proofs Feas_proofs Accept_proofs Results Spec4 Results_proofs Results2_proofs.

Lemma rsum_app a b : rsum (a ++ b) = (rsum a + rsum b)%R.
Proof. unfold rsum. induction a as [|x a IH]; cbn; [lra|rewrite IH; lra]. Qed.

(* the first k stages of the time grid *)
Lemma partial_sum_stages o rho : length (o_Nfe_list o) >= o_N_stages o -> forall k, k <= o_N_stages o ->
  partial_sum (step_lengths o rho) (total (firstn k (o_Nfe_list o))) = rupto k (stage_length o rho).
Proof.
  intros L k Hk. unfold partial_sum, step_lengths.
  assert (E : elements o = concat (map (fun c => map (pair c) (seq 0 (nfe_of o c))) (seq 0 k)) ++ concat (map (fun c => map (pair c) (seq 0 (nfe_of o c))) (seq k (o_N_stages o - k)))).
  { unfold elements. rewrite <- concat_app, <- map_app. do 2 f_equal. pose proof (seq_app k (o_N_stages o - k) 0) as E. cbn [plus] in E. rewrite <- E. f_equal. lia. }
  assert (Lk : length (concat (map (fun c => map (pair c) (seq 0 (nfe_of o c))) (seq 0 k))) = total (firstn k (o_Nfe_list o))).
  { rewrite length_concat, map_map. change sumn with total. f_equal. apply nth_error_ext. intros i. rewrite nth_error_map.
    destruct (Nat.lt_ge_cases i k) as [Hi|Hi].
    - rewrite nth_error_seq by lia. cbn. rewrite map_length, seq_length. unfold nfe_of.
      destruct (nth_error_lt (o_Nfe_list o) i ltac:(lia)) as [x Hx]. rewrite (nth_error_nth _ _ _ Hx).
      symmetry. clear - Hx Hi. revert i k Hx Hi. generalize (o_Nfe_list o).
      induction l as [|a l IH]; intros i n Hx Hi; [destruct i; discriminate|]. destruct n; [lia|]. destruct i; cbn in *; [assumption|]. apply IH; [assumption|lia].
    - rewrite (proj2 (nth_error_None (seq 0 _) i)) by (rewrite seq_length; lia). cbn. symmetry. apply nth_error_None. rewrite firstn_length. lia. }
  rewrite E, map_app, firstn_app, map_length, Lk, Nat.sub_diag. cbn [firstn]. rewrite app_nil_r.
  rewrite firstn_all2 by (rewrite map_length; lia). rewrite concat_map, map_map. unfold rupto.
  generalize (seq 0 k) as cs. induction cs as [|c cs IH]; [reflexivity|]. cbn [map concat]. rewrite rsum_app, IH.
  unfold rsum at 3. cbn [fold_right]. f_equal. rewrite map_map. reflexivity.
Qed.

Section Con.
Variables (lr : Q -> Q -> Q -> nat) (cp : nat -> scheme -> list Q) (d : ipopt_dict)
  (o : opts) (m : model) (oc : option ocp) (C : constructed).
Hypothesis H : construct_problem lr cp d o m oc = Ok C.
Notation O := (the_opts C).
Notation P := (the_problem C).
Notation W := (w (the_nlp C)).

Lemma nfes_long : length (o_Nfe_list O) >= o_N_stages O.
Proof.
  pose proof (stages_pos _ _ _ _ _ _ _ H) as N0. destruct (nfe_of_nth _ _ _ _ _ _ _ H (o_N_stages O - 1)) as [E _]; [lia|].
  apply nth_error_Some_lt in E. lia.
Qed.

Lemma plain_stage_length rho c : c < o_N_stages O -> o_use_fesd O = false -> stage_length O rho c = (T O / INR (o_N_stages O))%R.
Proof.
  intros Hc F. destruct (nfe_of_nth _ _ _ _ _ _ _ H c Hc) as [_ Hp]. unfold stage_length, rupto.
  rewrite (map_ext _ (fun _ => plain_step C (nfe_of O c))).
  - unfold plain_step. assert (G : forall n k r, rsum (map (fun _ => r) (seq k n)) = (INR n * r)%R).
    { induction n as [|n IH]; intros k r; [unfold rsum; cbn; lra|]. cbn [seq map]. unfold rsum in *. cbn [fold_right]. rewrite IH, S_INR. lra. }
    rewrite G. unfold T. field. pose proof (stages_pos _ _ _ _ _ _ _ H) as N0. split; apply not_0_INR; lia.
  - intros e. unfold step_len. rewrite F. symmetry. eapply plain_nominal; eassumption.
Qed.

Lemma rupto_const n r f : (forall c, c < n -> f c = r) -> rupto n f = (INR n * r)%R.
Proof.
  intros Hf. unfold rupto.
  assert (G : forall k s, s + k <= n -> rsum (map f (seq s k)) = (INR k * r)%R).
  { induction k as [|k IH]; intros s Hs; [unfold rsum; cbn; lra|]. cbn [seq map]. unfold rsum in *. cbn [fold_right]. rewrite IH, S_INR, Hf by lia. lra. }
  apply G. lia.
Qed.

Variable rho : env.
Hypothesis X1 : o_constr o = Exact.
Hypothesis WS : well_sized m.
Hypothesis CK : constraints_ok rho (the_nlp C).

Lemma stages_feasible : stages_ok O (cn_tab C) m rho /\ horizon_ok O rho.
Proof. apply (nlp_sound lr cp d o m oc C H X1 WS rho) in CK. destruct CK as (_ & S & Hz & _). split; assumption. Qed.

Lemma stage_T c : c < o_N_stages O -> (o_use_fesd O = true -> o_equidistant O = true) -> stage_length O rho c = (T O / INR (o_N_stages O))%R.
Proof.
  intros Hc E. destruct (o_use_fesd O) eqn:F; [|apply plain_stage_length; assumption].
  destruct stages_feasible as [S _]. destruct (S c Hc) as [S1 _]. auto.
Qed.

Lemma grid_total : (o_use_fesd O = true -> o_equidistant O = false -> 1 < o_N_stages O) ->
  rupto (o_N_stages O) (stage_length O rho) = T O.
Proof.
  intros E. pose proof (stages_pos _ _ _ _ _ _ _ H) as N0.
  assert (G : (o_use_fesd O = true -> o_equidistant O = true) -> rupto (o_N_stages O) (stage_length O rho) = T O).
  { intros E'. rewrite (rupto_const _ (T O / INR (o_N_stages O))%R) by (intros; apply stage_T; assumption). field. apply not_0_INR. lia. }
  destruct (o_use_fesd O) eqn:F; [|apply G; congruence]. destruct (o_equidistant O) eqn:Q; [apply G; auto|].
  destruct stages_feasible as [_ Hz]. apply Hz; auto.
Qed.
End Con.

(* ---- signs of the step sizes ---- *)
Section Steps.
Variables (lr : Q -> Q -> Q -> nat) (cp : nat -> scheme -> list Q) (d : ipopt_dict)
  (o : opts) (m : model) (oc : option ocp) (C : constructed).
Hypothesis H : construct_problem lr cp d o m oc = Ok C.
Notation O := (the_opts C).
Variable rho : env.
Hypothesis BK : bounds_ok rho (the_nlp C).

Lemma nominal_nonneg c : c < o_N_stages O -> (0 <= o_terminal_time O)%Q -> (0 <= Q2R (nominal_step O (nfe_of O c)))%R.
Proof.
  intros Hc HT. rewrite <- (plain_nominal _ _ _ _ _ _ _ H) by assumption. unfold plain_step.
  destruct (nfe_of_nth _ _ _ _ _ _ _ H c Hc) as [_ Hp]. apply Qle_Rle in HT. rewrite RMicromega.Q2R_0 in HT.
  assert (0 < INR (o_N_stages O))%R by (apply lt_0_INR; lia). assert (0 < INR (nfe_of O c))%R by (apply lt_0_INR; lia).
  apply Rmult_le_pos; [apply Rmult_le_pos|]; try assumption; left; apply Rinv_0_lt_compat; assumption.
Qed.
Lemma nominal_positive c : c < o_N_stages O -> (0 < o_terminal_time O)%Q -> (0 < Q2R (nominal_step O (nfe_of O c)))%R.
Proof.
  intros Hc HT. rewrite <- (plain_nominal _ _ _ _ _ _ _ H) by assumption. unfold plain_step.
  destruct (nfe_of_nth _ _ _ _ _ _ _ H c Hc) as [_ Hp]. apply Qlt_Rlt in HT. rewrite RMicromega.Q2R_0 in HT.
  assert (0 < INR (o_N_stages O))%R by (apply lt_0_INR; lia). assert (0 < INR (nfe_of O c))%R by (apply lt_0_INR; lia).
  apply Rmult_lt_0_compat; [apply Rmult_lt_0_compat|]; try assumption; apply Rinv_0_lt_compat; assumption.
Qed.

Lemma step_bounds p : In p (elements O) -> o_use_fesd O = true ->
  within (step_lower O (nfe_of O (fst p))) (step_upper O (nfe_of O (fst p))) (step_len O rho (fst p) (snd p)).
Proof.
  intros Hp F. pose proof (idx_h_con _ _ _ _ _ _ _ H) as Hh. rewrite F in Hh. destruct Hh as [_ S].
  destruct (S _ _ _ (elements_fe _ _ _ _ _ _ _ H p Hp)) as (i & _ & E1 & E2 & E3). unfold step_len. rewrite F. eapply BK; eassumption.
Qed.

Lemma step_nonneg p q : In p (elements O) -> o_gamma_h O = Fin q -> (q <= 1)%Q -> (0 <= o_terminal_time O)%Q -> (0 <= step_len O rho (fst p) (snd p))%R.
Proof.
  intros Hp G Hq HT. assert (Hc : fst p < o_N_stages O) by (apply elements_in in Hp; apply Hp).
  pose proof (nominal_nonneg _ Hc HT) as Hn. destruct (o_use_fesd O) eqn:F; [|unfold step_len; rewrite F; assumption].
  pose proof (step_bounds p Hp F) as [B _]. unfold step_lower in B. rewrite G in B. rewrite Q2R_mult, Q2R_minus, RMicromega.Q2R_1 in B.
  apply Qle_Rle in Hq. rewrite RMicromega.Q2R_1 in Hq. eapply Rle_trans; [|exact B]. apply Rmult_le_pos; lra.
Qed.
Lemma step_positive p q : In p (elements O) -> o_gamma_h O = Fin q -> (q < 1)%Q -> (0 < o_terminal_time O)%Q -> (0 < step_len O rho (fst p) (snd p))%R.
Proof.
  intros Hp G Hq HT. assert (Hc : fst p < o_N_stages O) by (apply elements_in in Hp; apply Hp).
  pose proof (nominal_positive _ Hc HT) as Hn. destruct (o_use_fesd O) eqn:F; [|unfold step_len; rewrite F; assumption].
  pose proof (step_bounds p Hp F) as [B _]. unfold step_lower in B. rewrite G in B. rewrite Q2R_mult, Q2R_minus, RMicromega.Q2R_1 in B.
  apply Qlt_Rlt in Hq. rewrite RMicromega.Q2R_1 in Hq. eapply Rlt_le_trans; [|exact B]. apply Rmult_lt_0_compat; lra.
Qed.
End Steps.
