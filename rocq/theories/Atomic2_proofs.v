(* Atomic2_proofs.v -- cases of the statements on calls of set() that raise *)
From Coq Require Import Reals Qreals Lra.
From Verif Require Import Base Lib Sx Sx_proofs Utils Tableau Opts Model Ocp Problem Numeric Rk4 Results Solver Spec Fesd Spec2 Spec4 Spec5 Cases Witness Witness3
  Con_proofs Set_proofs Hist_proofs Field_proofs Field2_proofs Spec33 Atomic_proofs.

Definition optsB2 : opts := with_grid optsB 2 [1; 1].
Lemma caseB2_ok : is_ok (build optsB2 model2 None) = true. Proof. vm_compute. reflexivity. Qed.
Definition CB2 : constructed := get _ caseB2_ok.
Lemma builtB2 : build optsB2 model2 None = Ok CB2. Proof. apply get_ok. Qed.
Lemma problemB2 : is_problem optsB2 model2 None CB2. Proof. exact (is_problem_ok _ _ _ _ builtB2 eq_refl sized2). Qed.
Local Open Scope R_scope.
Definition startB2 : sstate := mkState (ss_x0 (initial_state CB2)) [[0]; [0]] (ss_w0 (initial_state CB2)) 0.
Lemma resized C m s M : sized C m s -> length M = o_N_stages (the_opts C) -> (forall r, In r M -> length r = (m_npt m + m_npg m)%nat) -> sized C m (mkState (ss_x0 s) M (ss_w0 s) 0).
Proof. intros [A B D E] L R. split; assumption. Qed.
Lemma stages2 : o_N_stages (the_opts CB2) = 2%nat /\ total (o_Nfe_list (the_opts CB2)) = 2%nat. Proof. split; vm_compute; reflexivity. Qed.
Lemma start_sized : sized CB2 model2 startB2.
Proof.
  apply resized; [exact (initial_sized _ _ _ _ _ _ _ (proj1 problemB2))|rewrite (proj1 stages2); reflexivity|].
  intros r [<-|[<-|[]]]; reflexivity.
Qed.
Lemma short_state C m s : sized C m s -> o_N_stages (the_opts C) = 2%nat -> m_npt m = 1%nat -> m_npg m = 0%nat -> forall lr cp d o oc, construct_problem lr cp d o m oc = Ok C ->
  ss_pval s = [[0]; [0]] -> exists s', set C (SetPTimeVar [[1]]) s = (s', Err EIndexError) /\ ss_pval s' = [[1]; [0]].
Proof.
  intros Z N P1 P2 lr cp d o oc H E. eexists. split.
  - apply (time_var_short lr cp d o m oc C H); [exact Z|rewrite N; cbn; lia|intros r [<-|[]]; rewrite P1; reflexivity].
  - cbn [ss_pval]. rewrite E. unfold with_p_time_var. rewrite P1. reflexivity.
Qed.
Lemma half_written : exists o m C s v, is_problem o m None C /\ sized C m s /\ (forall r, In r v -> length r = m_npt m) /\
  exists s', set C (SetPTimeVar v) s = (s', Err EIndexError) /\ ss_pval s = [[0]; [0]] /\ ss_pval s' = [[1]; [0]].
Proof.
  exists optsB2, model2, CB2, startB2, [[1]]. split; [exact problemB2|]. split; [exact start_sized|]. split; [intros r [<-|[]]; reflexivity|].
  destruct (short_state CB2 model2 startB2 start_sized (proj1 stages2) eq_refl eq_refl _ _ _ _ _ (proj1 problemB2) eq_refl) as (s' & A & B).
  exists s'. split; [exact A|]. split; [reflexivity|exact B].
Qed.
Lemma bumped l : l <> [] -> map (fun x => x + 1) l <> l.
Proof. destruct l as [|x l]; [congruence|]. intros _ E. cbn in E. injection E as E _. lra. Qed.
Lemma warned_state C m s : sized C m s -> w (the_nlp C) <> [] -> o_init (the_opts C) <> External ->
  exists v s', right_shape C m (ASet (SetW v)) /\ set C (SetW v) s = (s', Err EWarning) /\ ss_w0 s' = v /\ s' <> s.
Proof.
  intros Z W Ex. exists (map (fun x => x + 1) (ss_w0 s)), (mkState (ss_x0 s) (ss_pval s) (map (fun x => x + 1) (ss_w0 s)) (ss_calls s)).
  pose proof (sz_w0 _ _ _ Z) as L. split; [cbn [right_shape]; rewrite map_length; exact L|].
  split. { unfold set. cbv zeta. change (pr_o (cn_prob C)) with (the_opts C). unfold sbind, put_w0, raise, not_external. destruct (o_init (the_opts C)); try reflexivity. congruence. }
  split; [reflexivity|]. intros E. apply (f_equal ss_w0) in E. cbn [ss_w0] in E. revert E. apply bumped. intros N. rewrite N in L.
  apply W. apply length_zero_iff_nil. symmetry. exact L.
Qed.
Lemma shapeA : w (the_nlp CA) <> [] /\ o_init (the_opts CA) <> External. Proof. split; intros E; vm_compute in E; discriminate E. Qed.
Lemma warned_written : exists o m oc C s v s', is_problem o m oc C /\ sized C m s /\ right_shape C m (ASet (SetW v)) /\
  set C (SetW v) s = (s', Err EWarning) /\ ss_w0 s' = v /\ s' <> s.
Proof.
  destruct (warned_state CA model1 (initial_state CA) initialA (proj1 shapeA) (proj2 shapeA)) as (v & s' & A).
  exists optsA, model1, (Some ocp1), CA, (initial_state CA), v, s'. split; [exact problemA|]. split; [exact initialA|]. exact A.
Qed.
(* calls that are refused: three rows for two control stages with one element each, a value for parameters that do not exist *)
Lemma refused_state C m s : sized C m s -> o_N_stages (the_opts C) = 2%nat -> m_npt m = 1%nat -> m_npg m = 0%nat -> forall lr cp d o oc, construct_problem lr cp d o m oc = Ok C ->
  snd (set C (SetPGlobal [1; 2; 3]) s) = Err EValueError.
Proof.
  intros Z N P1 P2 lr cp d o oc H. unfold set. cbv zeta. destruct (npt_pm _ _ _ _ _ _ _ H) as [D5 D6]. rewrite D5, D6. change (pr_o (cn_prob C)) with (the_opts C).
  pose proof (sz_pval _ _ _ Z) as L. rewrite N in *. rewrite P1, P2. destruct (ss_pval s) as [|r M] eqn:E; [discriminate L|].
  cbn [seq sfor]. unfold sbind at 1. unfold sbind at 1, sget at 1. unfold sbind at 1, lift at 1, assign_cols at 1. rewrite E. reflexivity.
Qed.
Lemma refused_case : is_problem optsB2 model2 None CB2 /\ sized CB2 model2 startB2 /\ writes_once CB2 (SetX [[0; 0]; [0; 0]; [0; 0]]) /\
  set CB2 (SetX [[0; 0]; [0; 0]; [0; 0]]) startB2 = (startB2, Err EValueError) /\ writes_once CB2 (SetPGlobal [1; 2; 3]) /\
  snd (set CB2 (SetPGlobal [1; 2; 3]) startB2) = Err EValueError.
Proof.
  destruct stages2 as [N1 N2]. split; [exact problemB2|]. split; [exact start_sized|]. split; [split; [rewrite N1|rewrite N2]; discriminate|].
  split; [apply set_x_other; [rewrite N1|rewrite N2]; discriminate|]. split; [exact Logic.I|].
  exact (refused_state CB2 model2 startB2 start_sized N1 eq_refl eq_refl _ _ _ _ _ (proj1 problemB2)).
Qed.
