(* Filippov3_proofs.v -- statements about constructed problems, and cases *)
From Coq Require Import Reals Qreals Lra Psatz Permutation.
From Verif Require Import Base Sx Utils Tableau Opts Model Ocp Problem Spec Cases Lib Sx_proofs Fe_proofs Prob_proofs Coll_proofs
  Body_proofs Model_proofs Con_proofs Index3_proofs Fesd Sem_proofs Dcs_proofs Point_proofs Elem_proofs Nlp_proofs
  Opts_proofs Tableau_proofs Poly_proofs Spec2 Feas_proofs Feas2_proofs Spec3 Numeric Mode_proofs Smooth_proofs
  Witness Init_proofs Results2_proofs Feas5_proofs Feas6_proofs Spec9 Filippov_proofs Filippov2_proofs.

Section Con.
Variables (lr : Q -> Q -> Q -> nat) (cp : nat -> scheme -> list Q) (d : ipopt_dict) (o : opts) (m : model)
  (oc : option ocp) (C : constructed) (rho : env).
Hypothesis FP : fesd_problem lr cp d o m oc C.
Hypothesis FE : feasible rho (the_nlp C).
Hypothesis FS : filippov_setting cp (the_opts C) m rho.
Hypothesis Hf : o_use_fesd (the_opts C) = true.
Hypothesis XC : o_cross (the_opts C) = SumLambdas \/ t_rbe (cn_tab C) = true.
Notation O := (the_opts C).
Notation t := (cn_tab C).

Lemma nfe_pos_con c : c < o_N_stages O -> nth_error (o_Nfe_list O) c = Some (nfe_of O c) /\ 0 < nfe_of O c.
Proof. intros Hc. destruct FP as (H & _ & _). exact (nfe_of_nth _ _ _ _ _ _ _ H c Hc). Qed.
Lemma element_fe c e : is_element O c e -> is_fe O c e (nfe_of O c).
Proof. intros [A B]. split; [exact A|]. split; [apply nfe_pos_con; exact A|exact B]. Qed.
Lemma N_pos : 0 < o_N_stages O.
Proof. destruct FP as (H & _ & _). exact (stages_pos' _ _ _ _ _ _ _ H). Qed.

Lemma stewart_elements : o_pss O = Stewart -> forall c e, is_element O c e ->
  exists kappa, (Rabs (kappa - 1) <= weight_error O)%R /\ filippov_element O t m rho (smallest m) c e kappa.
Proof.
  intros Ep c e He. destruct FP as (H & E & W). destruct FE as [F1 F2]. destruct FS as (A1 & A2 & A3 & A4 & A5 & A6 & A7 & A8 & A9).
  eapply stewart_element; try eassumption. exact (element_fe c e He).
Qed.
Lemma stewart_filippov : o_pss O = Stewart -> steps_nonneg O rho -> exists X, filippov_trajectory O t m rho (smallest m) X.
Proof.
  intros Ep Hh. eexists. apply whole; [intros; apply nfe_pos_con; assumption|exact N_pos|exact Hh|exact (stewart_elements Ep)].
Qed.
Lemma step_elements : o_pss O = Step -> sign_matrix m -> rows_fit m -> (forall s, s < n_subsystems m -> complete m s) ->
  forall c e, is_element O c e ->
  exists kappa, (Rabs (kappa - 1) <= weight_error O)%R /\ filippov_element O t m rho (in_closed_region m) c e kappa.
Proof.
  intros Ep SM RF CM c e He. destruct FP as (H & E & W). destruct FE as [F1 F2]. destruct FS as (A1 & A2 & A3 & A4 & A5 & A6 & A7 & A8 & A9).
  eapply step_element; try eassumption. exact (element_fe c e He).
Qed.
Lemma step_filippov : o_pss O = Step -> sign_matrix m -> rows_fit m -> (forall s, s < n_subsystems m -> complete m s) ->
  steps_nonneg O rho -> exists X, filippov_trajectory O t m rho (in_closed_region m) X.
Proof.
  intros Ep SM RF CM Hh. eexists. apply whole; [intros; apply nfe_pos_con; assumption|exact N_pos|exact Hh|exact (step_elements Ep SM RF CM)].
Qed.
Lemma stewart_solution c e : o_pss O = Stewart -> is_element O c e -> (0 < step_len O rho c e)%R ->
  exists kappa, (Rabs (kappa - 1) <= weight_error O)%R /\ filippov_solution O t m rho (smallest m) c e kappa.
Proof. intros Ep He Hp. destruct (stewart_elements Ep c e He) as (k & Hk & Fk). exists k. split; [exact Hk|exact (element_solution' _ _ _ _ _ _ _ _ Hp Fk)]. Qed.
Lemma step_solution c e : o_pss O = Step -> sign_matrix m -> rows_fit m -> (forall s, s < n_subsystems m -> complete m s) ->
  is_element O c e -> (0 < step_len O rho c e)%R ->
  exists kappa, (Rabs (kappa - 1) <= weight_error O)%R /\ filippov_solution O t m rho (in_closed_region m) c e kappa.
Proof. intros Ep SM RF CM He Hp. destruct (step_elements Ep SM RF CM c e He) as (k & Hk & Fk). exists k. split; [exact Hk|exact (element_solution' _ _ _ _ _ _ _ _ Hp Fk)]. Qed.
End Con.

(* smallest region value = closed region, for complete full sign matrices *)
Lemma smallest_region lr cp d o m oc C v s k : fesd_problem lr cp d o m oc C -> o_pss (the_opts C) = Stewart -> gS_given m = false ->
  sign_matrix m -> s < n_subsystems m -> complete m s -> (forall i, i < n_modes m s -> full_row m s i) -> k < n_modes m s ->
  (smallest m v s k <-> in_closed_region m v s k).
Proof.
  intros (H & _ & W) Ep Eg SM Hs CM FR Hk. destruct (construct_ok _ _ _ _ _ _ _ H) as (o' & t & pm & po & P' & K).
  pose proof (co_pm _ _ _ _ _ _ _ _ _ _ _ _ K) as HP. rewrite (co_o _ _ _ _ _ _ _ _ _ _ _ _ K) in Ep.
  assert (RS := region_sum o' m _ HP W v Ep s).
  assert (AB : forall i r, i < n_modes m s -> r < n_switch m s -> (Q2R (sign m s i r) * switch_value m v s r <= Rabs (switch_value m v s r))%R).
  { intros i r Hi Hr. unfold Rabs. destruct (SM s i r) as [E|[E|E]]; rewrite (Qeq_eqR _ _ E); destruct (Rcase_abs _);
      rewrite ?Q2R_0, ?Q2R_1; try (replace (Q2R (-1)) with (-1)%R by (unfold Q2R; cbn; lra)); lra. }
  split.
  - intros SK. set (sg := fun r => if Rle_dec 0 (switch_value m v s r) then true else false).
    destruct (CM sg) as (i & Hi & Ad & _). specialize (SK i Hi). rewrite (RS k Eg Hs Hk), (RS i Eg Hs Hi) in SK.
    assert (EI : rupto (n_switch m s) (fun r => (Q2R (sign m s i r) * switch_value m v s r)%R) = rupto (n_switch m s) (fun r => Rabs (switch_value m v s r))).
    { apply rupto_ext. intros r Hr. destruct (Ad r Hr) as [Z|Z]; [exfalso; exact (FR i Hi r Hr Z)|]. unfold sg in Z. unfold Rabs.
      rewrite (Qeq_eqR _ _ Z). destruct (Rle_dec 0 (switch_value m v s r)); destruct (Rcase_abs (switch_value m v s r)); rewrite ?Q2R_1; try (replace (Q2R (-1)) with (-1)%R by (unfold Q2R; cbn; lra)); lra. }
    rewrite EI in SK.
    assert (D : forall r, r < n_switch m s -> (Rabs (switch_value m v s r) - Q2R (sign m s k r) * switch_value m v s r = 0)%R).
    { apply rupto_zero; [intros r Hr; specialize (AB k r Hk Hr); lra|]. rewrite rupto_minus. apply Rle_antisym; [lra|].
      rewrite <- rupto_minus. apply rupto_nonneg. intros r Hr. specialize (AB k r Hk Hr). lra. }
    intros r Hr. specialize (D r Hr). pose proof (Rabs_pos (switch_value m v s r)). lra.
  - intros CK i Hi. rewrite (RS k Eg Hs Hk), (RS i Eg Hs Hi). apply Ropp_le_contravar.
    assert (D : (0 <= rupto (n_switch m s) (fun r => Q2R (sign m s k r) * switch_value m v s r) - rupto (n_switch m s) (fun r => Q2R (sign m s i r) * switch_value m v s r))%R); [|lra].
    rewrite <- rupto_minus. apply rupto_nonneg. intros r Hr. specialize (AB i r Hi Hr). specialize (CK r Hr).
    assert (E : (Q2R (sign m s k r) * switch_value m v s r = Rabs (switch_value m v s r))%R); [|lra].
    destruct (SM s k r) as [E|[E|E]]; [|exfalso; exact (FR k Hk r Hr E)|]; rewrite (Qeq_eqR _ _ E) in *.
    + replace (Q2R (-1)) with (-1)%R in * by (unfold Q2R; cbn; lra). unfold Rabs. destruct (Rcase_abs _); lra.
    + rewrite Q2R_1 in *. unfold Rabs. destruct (Rcase_abs _); lra.
Qed.
