(* Homot5_proofs.v -- cases for Props_Homot.v *)
From Coq Require Import Reals Qreals Lra Lia.
From Verif Require Import Base Lib Sx Sx_proofs Utils Tableau Opts Model Ocp Problem Spec Cases Fesd Spec2 Spec3 Witness Spec11 Spec30 Dcs_proofs Feas_proofs Feas6_proofs Bounds_proofs Nlp_proofs Filippov4_proofs
  Homot_proofs Homot2_proofs Homot3_proofs Homot4_proofs.
Local Open Scope R_scope.

Fixpoint safe (e : expr) : bool :=
  match e with
  | ECst _ | EVar _ => true
  | EUn u a => match u with USign | UInv | ULog | UTan => false | _ => safe a end
  | EBin b x y => match b with BDiv => false | _ => safe x && safe y end
  end.
Lemma safe_regular v e : safe e = true -> regular v e.
Proof.
  induction e as [q|y|u a IH|b x IHx z IHz]; intros H; cbn in *; auto.
  - destruct u; try discriminate; auto.
  - destruct b; try discriminate; apply andb_prop in H as [H1 H2]; auto.
Qed.
Lemma safe_all v l : forallb safe l = true -> forall e, In e l -> regular v e.
Proof. intros H e He. apply safe_regular. rewrite forallb_forall in H. apply H, He. Qed.

Definition no_relaxation (e : expr) : bool := forallb (fun y => match y with SSigma | STau => false | _ => true end) (fv e).
Lemma no_relaxation_ok e : no_relaxation e = true -> uses_only (fun y => y <> SSigma /\ y <> STau) e.
Proof. intros H y Hy. unfold no_relaxation in H. rewrite forallb_forall in H. specialize (H y Hy). split; intros ->; discriminate H. Qed.
Definition all_user (m : model) (oc : ocp) : list expr :=
  match m_F m with Some F => concat (map (fun f => concat (fm_cols f)) F) | None => [] end ++
  match m_c m with Some c => concat c | None => [] end ++ match m_gS m with Some c => concat c | None => [] end ++
  user_fx m ++ m_gz m ++ match m_tvar m with Some e => [e] | None => [] end ++ oc_g_path oc ++ oc_gT oc ++ [oc_fq oc; oc_fT oc] ++ map fst (oc_comp oc) ++ map snd (oc_comp oc).
Lemma in_nth_concat {A} (l : list (list A)) s e : In e (nth s l []) -> In e (concat l).
Proof.
  intros H. destruct (Nat.lt_ge_cases s (length l)) as [L|L]; [|rewrite nth_overflow in H by exact L; destruct H].
  apply in_concat. exists (nth s l []). split; [apply nth_In, L|exact H].
Qed.
Lemma all_user_in m oc e : user_expression m oc e -> In e (all_user m oc).
Proof.
  intros H. unfold all_user. rewrite !in_app_iff. unfold user_expression, user_F, user_c, user_gS in H.
  destruct H as [(s & col & Hc & He)|[(s & [He|He])|[He|[He|[He|[He|[He|[He|[He|(r & Hr & [He|He])]]]]]]]]].
  - left. revert Hc. destruct (m_F m) as [F|]; [|intros []]. destruct (nth_error F s) as [f|] eqn:E; [|intros []]. intros Hc.
    apply in_concat. exists (concat (fm_cols f)). split; [apply in_map_iff; exists f; split; [reflexivity|eapply nth_error_In, E]|]. apply in_concat. exists col. auto.
  - right. left. revert He. destruct (m_c m); [apply in_nth_concat|intros He; exact He].
  - right. right. left. revert He. destruct (m_gS m); [apply in_nth_concat|intros He; exact He].
  - do 3 right. left. exact He.
  - do 4 right. left. exact He.
  - do 5 right. left. rewrite He. left. reflexivity.
  - do 6 right. left. exact He.
  - do 7 right. left. exact He.
  - do 8 right. left. left. symmetry. exact He.
  - do 8 right. left. right. left. symmetry. exact He.
  - do 9 right. left. subst e. apply in_map, Hr.
  - do 10 right. subst e. apply in_map, Hr.
Qed.
Lemma free_check m oc : forallb no_relaxation (all_user m oc) = true -> free_of_relaxation m oc.
Proof. intros H e U. apply no_relaxation_ok. rewrite forallb_forall in H. apply H, all_user_in, U. Qed.

Lemma zero_plain o t m oc rho : oc_fq oc = ECst 0 -> oc_fT oc = ECst 0 -> o_step_eq o = Direct -> plain_cost o t m oc rho = 0.
Proof.
  intros E1 E2 E3. unfold plain_cost. rewrite E2. assert (Z : eval (terminal_point o t m rho) (ECst 0) = 0) by (cbn; unfold Q2R; cbn; lra). rewrite Z, Rplus_0_r.
  assert (G : forall n f, (forall i, (i < n)%nat -> f i = 0) -> rupto n f = 0).
  { intros n f H. rewrite (rupto_ext n f (fun _ => 0)) by exact H. unfold rupto. induction (seq 0 n) as [|a l IH]; cbn; [reflexivity|]. unfold rsum in IH. lra. }
  apply G. intros c _. apply G. intros e _. assert (S1 : stage_cost o t m oc rho c e = 0).
  { apply G. intros j _. rewrite E1. cbn [eval]. replace (Q2R 0) with 0 by (unfold Q2R; cbn; lra). ring. }
  rewrite S1. unfold step_cost. rewrite E3. destruct (o_use_fesd o); lra.
Qed.

Definition shrinking (k : nat) : env := with_relaxation restD (/ (INR k + 1)) (/ (INR k + 1)).
Lemma cv_inv : Un_cv (fun k => / (INR k + 1)) 0.
Proof.
  intros eps He. destruct (archimed_cor1 eps He) as (N & HN & PN). exists N. intros n Hn. unfold R_dist. rewrite Rminus_0_r.
  pose proof (rad n). rewrite Rabs_right by lra. eapply Rle_lt_trans; [|exact HN]. apply Rinv_le_contravar; [apply lt_0_INR, PN|]. apply le_INR in Hn. lra.
Qed.
Lemma shrinking_cv y : Un_cv (fun k => shrinking k y) (restD y).
Proof.
  assert (Z1 : restD SSigma = 0) by (unfold restD; rewrite (pt_val straightD _ 0) by reflexivity; unfold Q2R; cbn; lra).
  assert (Z2 : restD STau = 0) by (unfold restD; rewrite (pt_val straightD _ 0) by reflexivity; unfold Q2R; cbn; lra).
  assert (K : y <> SSigma -> y <> STau -> Un_cv (fun k => shrinking k y) (restD y)).
  { intros N1 N2. apply (cv_ext (fun _ => restD y)); [|apply cv_const]. intros k. destruct y; try reflexivity; congruence. }
  destruct (sym_eq_dec y SSigma) as [->|N1]; [rewrite Z1; apply cv_inv|]. destruct (sym_eq_dec y STau) as [->|N2]; [rewrite Z2; apply cv_inv|]. apply K; assumption.
Qed.

Lemma relaxedD k : feasible (shrinking k) (the_nlp CD).
Proof.
  apply (larger_sigma case_log_round case_cpoints ipopt_init (with_step_eq optsS Direct) model3 None CD restD); [exact problemD|vm_compute; reflexivity| | |exact feasibleD].
  - apply free_check. vm_compute. reflexivity.
  - unfold restD. rewrite (pt_val straightD _ 0) by reflexivity. replace (Q2R 0) with 0 by (unfold Q2R; cbn; lra). apply Rlt_le, rad.
Qed.
Lemma costD v : eval v (cost (the_nlp CD)) = 0.
Proof.
  destruct problemD as (H & E & W). rewrite (cost_exact _ _ _ _ _ _ _ H E W). unfold nlp_cost. replace (elastic (the_opts CD)) with false by (vm_compute; reflexivity).
  apply zero_plain; vm_compute; reflexivity.
Qed.
Lemma solutionsD k : solution_of CD (shrinking k).
Proof. split; [apply relaxedD|]. intros v _ _. rewrite !costD. lra. Qed.
Lemma dataD k : same_data CD (shrinking k) restD.
Proof. intros y _ N1 N2. destruct y; try reflexivity; congruence. Qed.
Lemma restD_sigma : restD SSigma = 0.
Proof. unfold restD. rewrite (pt_val straightD _ 0) by reflexivity. unfold Q2R; cbn; lra. Qed.
Lemma caseH : is_problem (with_step_eq optsS Direct) model3 None CD /\ o_mpcc (the_opts CD) = ScholtesIneq /\ free_of_relaxation model3 (the_ocp None) /\
  (forall k, solution_of CD (shrinking k)) /\ (forall k, same_data CD (shrinking k) restD) /\ (forall k, 0 < shrinking k SSigma) /\ restD SSigma = 0 /\
  (forall y, Un_cv (fun k => shrinking k y) (restD y)) /\
  (forall v, (forall e, In e (g (the_nlp CD)) -> regular v e) /\ regular v (cost (the_nlp CD))) /\ (10 < length (g (the_nlp CD)))%nat.
Proof.
  split; [exact problemD|]. split; [vm_compute; reflexivity|]. split; [apply free_check; vm_compute; reflexivity|]. split; [exact solutionsD|]. split; [exact dataD|].
  split; [exact rad|]. split; [exact restD_sigma|]. split; [exact shrinking_cv|]. split.
  - intros v. split; [apply safe_all; vm_compute; reflexivity|apply safe_regular; vm_compute; reflexivity].
  - apply Nat.ltb_lt. vm_compute. reflexivity.
Qed.
Lemma boundedD : exists B, forall k y, In y (w (the_nlp CD) ++ p_p (the_problem CD)) -> Rabs (shrinking k y) <= B.
Proof.
  assert (G : forall l : list sym, exists B, forall k y, In y l -> Rabs (shrinking k y) <= B).
  { induction l as [|y l [B HB]]; [exists 0; intros k y []|]. exists (Rmax B (Rmax 1 (Rabs (restD y)))). intros k z [<-|Hz].
    - assert (X : Rabs (shrinking k y) <= 1 \/ Rabs (shrinking k y) = Rabs (restD y)).
      { assert (K : Rabs (/ (INR k + 1)) <= 1).
        { pose proof (rad k). rewrite Rabs_right by lra. rewrite <- Rinv_1. apply Rinv_le_contravar; [lra|]. pose proof (pos_INR k). lra. }
        destruct y; try (right; reflexivity); left; exact K. }
      eapply Rle_trans; [|apply Rmax_r]. destruct X as [X| ->]; [eapply Rle_trans; [exact X|apply Rmax_l]|apply Rmax_r].
    - eapply Rle_trans; [apply HB, Hz|apply Rmax_l]. }
  apply G.
Qed.

(* elastic mode *)
Definition optsE : opts := with_modes optsS Stewart ElasticIneq SumLambdas Direct SotNone true true.
Lemma caseE_ok : is_ok (build optsE model3 None) = true. Proof. vm_compute. reflexivity. Qed.
Definition CE : constructed := get _ caseE_ok.
Lemma builtE : build optsE model3 None = Ok CE. Proof. apply get_ok. Qed.
Lemma problemE : is_problem optsE model3 None CE. Proof. exact (is_problem_ok _ _ _ _ builtE eq_refl sized3). Qed.
Lemma feasibleE : feasible restD (the_nlp CE).
Proof. apply (feasibleQ (ptQ straightD)). vm_compute. reflexivity. Qed.
Lemma elasticE v : bounds_ok v (the_nlp CE) -> 0 <= v SElastic.
Proof.
  intros B. destruct problemE as (H & _). assert (NB : o_mpcc (the_opts CE) <> MBoolean) by (intros E; vm_compute in E; discriminate E).
  apply (bounds_iff _ _ _ _ _ _ _ H v NB) in B. destruct B as [B _]. assert (El : elastic (the_opts CE) = true) by (vm_compute; reflexivity).
  destruct (B El) as [L _]. replace (o_s_elastic_min (the_opts CE)) with 0%Q in L by (vm_compute; reflexivity). replace (Q2R 0) with 0 in L by (unfold Q2R; cbn; lra). exact L.
Qed.
Lemma solutionsE k : solution_of CE (shrinking k).
Proof.
  split; [apply (elastic_any case_log_round case_cpoints ipopt_init optsE model3 None CE restD _ _ problemE); [vm_compute; reflexivity|apply free_check; vm_compute; reflexivity|exact feasibleE]|].
  intros v F P. destruct problemE as (H & E & W). rewrite !(cost_exact _ _ _ _ _ _ _ H E W). unfold nlp_cost.
  replace (elastic (the_opts CE)) with true by (vm_compute; reflexivity). rewrite !zero_plain by (vm_compute; reflexivity).
  assert (Es : v SSigma = shrinking k SSigma) by (apply P, (sigma_in _ _ _ _ _ _ _ H)). rewrite Es. clear Es.
  replace (shrinking k SElastic) with 0 by (change (0 = restD SElastic); unfold restD; rewrite (pt_val straightD _ 0) by reflexivity; unfold Q2R; cbn; lra).
  pose proof (elasticE v (proj1 F)) as L. pose proof (rad k) as Ps. change (shrinking k SSigma) with (/ (INR k + 1)) in *.
  destruct (o_obj_direct (the_opts CE)); [|lra]. unfold Rdiv. rewrite Rmult_0_l. assert (0 <= v SElastic * / / (INR k + 1)); [|lra].
  apply Rmult_le_pos; [exact L|]. apply Rlt_le, Rinv_0_lt_compat, Ps.
Qed.
Lemma caseHE : is_problem optsE model3 None CE /\ elastic (the_opts CE) = true /\ free_of_relaxation model3 (the_ocp None) /\
  (forall k, solution_of CE (shrinking k)) /\ (forall k, same_data CE (shrinking k) restD) /\ (forall k, 0 < shrinking k SSigma) /\ restD SSigma = 0 /\
  (forall y, Un_cv (fun k => shrinking k y) (restD y)) /\ (forall e, In e (g (the_nlp CE)) -> regular restD e) /\ regular_costs (the_opts CE) (cn_tab CE) model3 (the_ocp None) restD.
Proof.
  split; [exact problemE|]. split; [vm_compute; reflexivity|]. split; [apply free_check; vm_compute; reflexivity|]. split; [exact solutionsE|].
  split; [intros k y _ N1 N2; destruct y; try reflexivity; congruence|]. split; [exact rad|]. split; [exact restD_sigma|]. split; [exact shrinking_cv|].
  split; [apply safe_all; vm_compute; reflexivity|]. split; [intros c e j _ _ _|]; apply safe_regular; reflexivity.
Qed.
