(* Mono3_proofs.v -- runs of the solver on the problem of Mono2_proofs.v *)
From Coq Require Import Reals Qreals Lra Lia.
From Verif Require Import Base Sx Utils Tableau Opts Model Ocp Problem Solver Spec Cases Fesd Spec2 Spec3 Spec4 Spec5 Spec30 Witness Set_proofs Witness3 Results5_proofs Feas6_proofs Homot4_proofs Homot5_proofs Mono2_proofs.

Lemma uniformV : uniform_modes modelV.
Proof. intros s s' Hs Hs'. cbn in Hs, Hs'. assert (s = 0) by lia. assert (s' = 0) by lia. subst. reflexivity. Qed.
Lemma extractV : extractable (the_opts CV) modelV. Proof. split; [cbn; lia|]. split; [intros; exact uniformV|vm_compute; reflexivity]. Qed.
Lemma runV nlp : answers CV nlp -> sized CV modelV (initial_state CV) /\ (0 < Q2R (o_sigma_0 (the_opts CV)))%R /\ (0 < Q2R (o_slope (the_opts CV)) < 1)%R /\
  exists s' out, solve nlp CV (initial_state CV) = (s', Ok out).
Proof.
  intros A. assert (Z : sized CV modelV (initial_state CV)) by exact (initial_sized _ _ _ _ _ _ _ (proj1 problemV)).
  split; [exact Z|]. split; [rewrite <- RMicromega.Q2R_0; apply Qlt_Rlt; vm_compute; reflexivity|].
  split; [split; [rewrite <- RMicromega.Q2R_0; apply Qlt_Rlt; vm_compute; reflexivity|replace 1%R with (Q2R 1) by (unfold Q2R; cbn; lra); apply Qlt_Rlt; vm_compute; reflexivity]|].
  assert (R : exists s' out, solve nlp CV (initial_state CV) = (s', Ok out) /\ sized CV modelV s').
  { apply (runs _ _ _ _ _ _ _ (proj1 problemV) nlp (initial_state CV)); [vm_compute; discriminate|exact sizedV|intros E; exfalso; vm_compute in E; discriminate E|exact extractV|
      vm_compute; reflexivity|vm_compute; reflexivity|vm_compute; reflexivity|vm_compute; discriminate|exact Z|exact A]. }
  destruct R as (s' & out & E & _). exists s', out. exact E.
Qed.
Lemma extractW : extractable (the_opts CW) modelV. Proof. split; [cbn; lia|]. split; [intros; exact uniformV|vm_compute; reflexivity]. Qed.
Lemma runW nlp : answers CW nlp -> sized CW modelV (initial_state CW) /\ (0 < Q2R (o_sigma_0 (the_opts CW)))%R /\ (0 < Q2R (o_slope (the_opts CW)) < 1)%R /\
  exists s' out, solve nlp CW (initial_state CW) = (s', Ok out).
Proof.
  intros A. assert (Z : sized CW modelV (initial_state CW)) by exact (initial_sized _ _ _ _ _ _ _ (proj1 problemW)).
  split; [exact Z|]. split; [rewrite <- RMicromega.Q2R_0; apply Qlt_Rlt; vm_compute; reflexivity|].
  split; [split; [rewrite <- RMicromega.Q2R_0; apply Qlt_Rlt; vm_compute; reflexivity|replace 1%R with (Q2R 1) by (unfold Q2R; cbn; lra); apply Qlt_Rlt; vm_compute; reflexivity]|].
  assert (R : exists s' out, solve nlp CW (initial_state CW) = (s', Ok out) /\ sized CW modelV s').
  { apply (runs _ _ _ _ _ _ _ (proj1 problemW) nlp (initial_state CW)); [vm_compute; discriminate|exact sizedV|intros E; exfalso; vm_compute in E; discriminate E|exact extractW|
      vm_compute; reflexivity|vm_compute; reflexivity|vm_compute; reflexivity|vm_compute; discriminate|exact Z|exact A]. }
  destruct R as (s' & out & E & _). exists s', out. exact E.
Qed.
Lemma exact_case : is_problem optsE model3 None CE /\ free_of_relaxation model3 (the_ocp None) /\ elastic (the_opts CE) = true /\ (0 <= o_s_elastic_min (the_opts CE))%Q /\
  forall k, solution_of CE (shrinking k) /\ shrinking k SElastic = 0%R /\ (0 < shrinking k SSigma)%R.
Proof.
  destruct caseHE as (H1 & H2 & H3 & H4 & _ & H6 & _). split; [exact H1|]. split; [exact H3|]. split; [exact H2|]. split; [vm_compute; discriminate|].
  intros k. split; [apply H4|]. split; [|apply H6]. change (restD SElastic = 0%R). unfold restD. rewrite (pt_val straightD _ 0) by reflexivity. unfold Q2R. cbn. lra.
Qed.
