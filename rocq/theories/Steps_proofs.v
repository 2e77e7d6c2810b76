(* Steps_proofs.v -- step equilibration by complementarity *)
From Coq Require Import Reals Qreals Lra Psatz.
From Verif Require Import Base Sx Utils Tableau Opts Model Ocp Problem Spec Cases Lib Sx_proofs Fe_proofs Prob_proofs Coll_proofs
  Body_proofs Model_proofs Con_proofs Index3_proofs Fesd Sem_proofs Dcs_proofs Point_proofs Elem_proofs Nlp_proofs
  Opts_proofs Tableau_proofs Spec2 Feas_proofs Feas2_proofs Feas3_proofs Spec3 Witness Feas5_proofs Feas6_proofs Witness5 Spec9 Filippov3_proofs Spec29.
Local Open Scope R_scope.

Lemma fischer_zero x y s : fischer x y s = 0 -> 0 <= x /\ 0 <= y /\ x * y = s * s / 2.
Proof.
  unfold fischer. intros E. assert (S : x + y = sqrt (x * x + y * y + s * s)) by lra.
  assert (N : 0 <= x * x + y * y + s * s) by nra. pose proof (sqrt_pos (x * x + y * y + s * s)) as P. rewrite <- S in P.
  pose proof (sqrt_sqrt _ N) as Q. rewrite <- S in Q. assert (X : x * y = s * s / 2) by lra. assert (0 <= x * y) by (rewrite X; nra).
  split; [nra|]. split; [nra|exact X].
Qed.
Lemma rsum_one x : rsum [x] = x. Proof. unfold rsum. cbn. lra. Qed.

Section Con.
Variables (lr : Q -> Q -> Q -> nat) (cp : nat -> scheme -> list Q) (d : ipopt_dict) (o : opts) (m : model)
  (oc : option ocp) (C : constructed) (rho : env).
Hypothesis FP : fesd_problem lr cp d o m oc C.
Hypothesis CO : constraints_ok rho (the_nlp C).
Notation O := (the_opts C).
Notation t := (cn_tab C).
Hypothesis Hf : o_use_fesd O = true.
Variables (c e : nat).
Hypothesis He : is_element O c e.
Hypothesis Pos : (0 < e)%nat.

Lemma the_constraint : step_constraint O t m rho c e.
Proof. destruct FP as (H & E & W). destruct (elem_all _ _ _ _ _ _ _ H E W rho CO c e _ (element_fe _ _ _ _ _ _ _ FP c e He)) as (_ & _ & _ & _ & _ & _ & _ & S). exact S. Qed.
Lemma delta_is : delta_h O rho c e = rho (SH c e) - rho (SH c (e - 1)).
Proof. unfold delta_h, step_len. rewrite Hf. reflexivity. Qed.
Lemma is_relaxed : o_step_eq O = DirectComplementarity -> relaxed O rho [nu O t m rho c e] (rho (SH c e) - rho (SH c (e - 1))).
Proof. intros Es. pose proof (the_constraint Hf Pos) as S. rewrite Es, delta_is in S. exact S. Qed.

Lemma two_sided_steps : o_step_eq O = DirectComplementarity -> two_sided (o_mpcc O) ->
  Rabs (nu O t m rho c e * (rho (SH c e) - rho (SH c (e - 1)))) <= Rabs (relaxation (o_mpcc O) rho).
Proof.
  intros Es Mm. pose proof (is_relaxed Es) as S. unfold relaxed in S. destruct Mm as [E|[E|E]]; rewrite E in S |- *; cbn [relaxation]; rewrite ?rsum_one in S.
  - rewrite S. lra.
  - rewrite S. lra.
  - apply Rabs_le. pose proof (Rle_abs (rho SElastic)). lra.
Qed.
Lemma two_sided_equal : o_step_eq O = DirectComplementarity -> two_sided (o_mpcc O) -> bounds_ok rho (the_nlp C) -> product_mode O -> initial_nonneg rho ->
  relaxation (o_mpcc O) rho = 0 -> no_switch O t m rho c e -> rho (SH c e) = rho (SH c (e - 1)).
Proof.
  intros Es Mm BO PM L0 Z NSw. pose proof (two_sided_steps Es Mm) as Q. rewrite Z, Rabs_R0 in Q. pose proof FP as (H & _).
  pose proof (nu_pos lr cp d o m oc C rho H BO PM L0 c e _ (element_fe _ _ _ _ _ _ _ FP c e He) Pos NSw) as N.
  pose proof (Rabs_pos (nu O t m rho c e * (rho (SH c e) - rho (SH c (e - 1))))) as A.
  assert (E : nu O t m rho c e * (rho (SH c e) - rho (SH c (e - 1))) = 0) by (destruct (Req_dec (nu O t m rho c e * (rho (SH c e) - rho (SH c (e - 1)))) 0) as [Y|Y]; [exact Y|]; apply Rabs_no_R0 in Y; lra). apply Rmult_integral in E. lra.
Qed.
Lemma upper_steps : o_step_eq O = DirectComplementarity -> upper_only (o_mpcc O) ->
  nu O t m rho c e * (rho (SH c e) - rho (SH c (e - 1))) <= relaxation (o_mpcc O) rho.
Proof.
  intros Es Mm. pose proof (is_relaxed Es) as S. unfold relaxed in S. destruct Mm as [E|E]; rewrite E in S |- *; cbn [relaxation]; rewrite rsum_one in S; exact S.
Qed.
Lemma upper_shrink : o_step_eq O = DirectComplementarity -> upper_only (o_mpcc O) -> bounds_ok rho (the_nlp C) -> product_mode O -> initial_nonneg rho ->
  relaxation (o_mpcc O) rho = 0 -> no_switch O t m rho c e -> rho (SH c e) <= rho (SH c (e - 1)).
Proof.
  intros Es Mm BO PM L0 Z NSw. pose proof (upper_steps Es Mm) as Q. rewrite Z in Q. pose proof FP as (H & _).
  pose proof (nu_pos lr cp d o m oc C rho H BO PM L0 c e _ (element_fe _ _ _ _ _ _ _ FP c e He) Pos NSw) as N. nra.
Qed.
Lemma fischer_steps : o_step_eq O = DirectComplementarity -> fischer_mode (o_mpcc O) ->
  rho (SH c (e - 1)) <= rho (SH c e) /\ 0 <= nu O t m rho c e /\ nu O t m rho c e * (rho (SH c e) - rho (SH c (e - 1))) = rho SSigma * rho SSigma / 2.
Proof.
  intros Es Mm. pose proof (is_relaxed Es) as S. unfold relaxed in S.
  assert (F : fischer (nu O t m rho c e) (rho (SH c e) - rho (SH c (e - 1))) (rho SSigma) = 0).
  { destruct Mm as [E|E]; rewrite E in S; [cbn [map] in S; rewrite rsum_one in S; exact S|]. cbv zeta in S. rewrite rsum_one in S. exact (proj1 S). }
  apply fischer_zero in F. split; [lra|]. split; [apply F|apply F].
Qed.
Lemma fischer_heuristic : o_step_eq O = HeuristicDeltaHComp -> fischer_mode (o_mpcc O) -> rho SSigma = 0 /\ rho (SH c (e - 1)) <= rho (SH c e).
Proof.
  intros Es Mm. pose proof (the_constraint Hf Pos) as S. rewrite Es, delta_is in S. unfold relaxed in S.
  assert (F : fischer 0 (rho (SH c e) - rho (SH c (e - 1))) (rho SSigma) = 0).
  { destruct Mm as [E|E]; rewrite E in S; [cbn [map] in S; rewrite rsum_one in S; exact S|]. cbv zeta in S. rewrite rsum_one in S. exact (proj1 S). }
  apply fischer_zero in F. split; [nra|lra].
Qed.
Lemma heuristic_eq : o_step_eq O = HeuristicDeltaHComp -> (o_mpcc O = ScholtesEq \/ o_mpcc O = ElasticEq) -> relaxation (o_mpcc O) rho = 0.
Proof.
  intros Es Mm. pose proof (the_constraint Hf Pos) as S. rewrite Es in S. unfold relaxed in S. destruct Mm as [E|E]; rewrite E in S |- *; rewrite rsum_one in S; cbn [relaxation]; lra.
Qed.
End Con.

Lemma heuristic_infeasible lr cp d o m oc C rho : fesd_problem lr cp d o m oc C -> o_use_fesd (the_opts C) = true -> o_step_eq (the_opts C) = HeuristicDeltaHComp ->
  refined (the_opts C) -> (o_mpcc (the_opts C) = ScholtesEq \/ o_mpcc (the_opts C) = ElasticEq \/ fischer_mode (o_mpcc (the_opts C))) ->
  relaxation (o_mpcc (the_opts C)) rho <> 0 -> ~ constraints_ok rho (the_nlp C).
Proof.
  intros FP Hf Es (c & Hc & Hn) Mm NZ CO. assert (He : is_element (the_opts C) c 1) by (split; assumption). apply NZ.
  destruct Mm as [E|[E|E]].
  - apply (heuristic_eq _ _ _ _ _ _ _ _ FP CO Hf c 1%nat He (le_n 1) Es). left. exact E.
  - apply (heuristic_eq _ _ _ _ _ _ _ _ FP CO Hf c 1%nat He (le_n 1) Es). right. exact E.
  - destruct (fischer_heuristic _ _ _ _ _ _ _ _ FP CO Hf c 1%nat He (le_n 1) Es E) as [Z _]. destruct E as [E|E]; rewrite E; exact Z.
Qed.
Lemma heuristic_vacuous lr cp d o m oc C1 C2 rho : construct_problem lr cp d (with_step_eq o HeuristicDeltaHComp) m oc = Ok C1 ->
  construct_problem lr cp d (with_step_eq o HeuristicMean) m oc = Ok C2 -> o_constr o = Exact -> well_sized m ->
  (upper_only (o_mpcc o) \/ o_mpcc o = ElasticTwoSided) -> 0 <= relaxation (o_mpcc o) rho ->
  (constraints_ok rho (the_nlp C1) <-> constraints_ok rho (the_nlp C2)).
Proof.
  intros H1 H2 Ex W Mm Nn. assert (HB : o_mpcc o <> MBoolean) by (destruct Mm as [[E|E]|E]; rewrite E; discriminate).
  rewrite (step_modes_constraints lr cp d o m oc HeuristicDeltaHComp C1 C2 rho H1 H2 Ex HB W). split; [intros [A _]; exact A|]. intros A. split; [exact A|].
  intros c e nfe _. unfold step_constraint. rewrite (opts_eq _ _ _ _ _ _ _ H1). intros _ _. 
  cbn [set_iter_nfe with_step_eq o_step_eq]. unfold relaxed. cbn [set_iter_nfe with_step_eq o_mpcc]. rewrite rsum_one.
  destruct Mm as [[E|E]|E]; rewrite E in *; cbn [relaxation] in Nn; lra.
Qed.
