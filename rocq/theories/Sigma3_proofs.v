(* Sigma3_proofs.v -- relaxation parameters that are not positive *)
From Coq Require Import Reals Qreals Lra.
From Verif Require Import Base Lib Sx Sx_proofs Utils Tableau Opts Model Ocp Problem Numeric Rk4 Results Solver Spec Fesd Spec2 Spec4 Spec5
  Con_proofs Index3_proofs Results_proofs Solve_proofs Solve2_proofs Init_proofs Cases Witness Witness3.

Lemma py_pow_nonneg x e t : py_pow x e = Ok t -> (0 <= x)%R.
Proof.
  unfold py_pow. destruct (Rltb 0 x) eqn:A; [apply Rltb_true in A; intros _; lra|]. destruct (Rltb x 0) eqn:B; [discriminate|].
  intros _. destruct (Rlt_le_dec x 0) as [L|L]; [|exact L]. apply Rltb_true in L. congruence.
Qed.
Lemma Rltb_00 : Rltb 0 0 = false.
Proof. destruct (Rltb 0 0) eqn:E; [apply Rltb_true in E; lra|reflexivity]. Qed.
Lemma py_pow_32 : py_pow 0 (3 # 2) = Ok 0%R.
Proof. unfold py_pow. rewrite Rltb_00. reflexivity. Qed.
Lemma py_pow_0 e t : py_pow 0 e = Ok t -> (0 <= t)%R.
Proof. unfold py_pow. rewrite Rltb_00. destruct (Qeq_bool e 0); [|destruct (Qle_bool e 0); [discriminate|]]; intros E; injection E as <-; lra. Qed.
Lemma update_zero o s : (Q2R (o_sigma_N o) < 0)%R -> homotopy_sigma_update o 0 = Ok s -> s = 0%R.
Proof.
  unfold homotopy_sigma_update. intros N. destruct (o_rule o); [intros E; injection E as <-; lra|].
  intros E. apply bind_ok in E. destruct E as (t & Et & E). apply py_pow_0 in Et. injection E as <-. rewrite Rmult_0_r, Rmin_left by exact Et. apply Rmax_right. lra.
Qed.

Lemma sigma_nonneg nlp C s s' out : solve nlp C s = (s', Ok out) ->
  (forall h, In h (so_steps out) -> (0 <= hs_sigma h)%R /\ (hs_sigma h = 0%R -> hs_tau h = 0%R)) /\
  (forall k h h', nth_error (so_steps out) k = Some h -> nth_error (so_steps out) (S k) = Some h' -> hs_sigma h = 0%R -> hs_sigma h' = 0%R).
Proof.
  intros E. apply solve_inv in E. destruct E as [(s1 & s2 & s3 & lam & w1 & lb & ub & h & I & SV & HH & _)].
  apply homotopy_loop in HH. destruct HH as [_ _ _ _ A5 A6 _]. split.
  - intros h0 Hin. apply In_nth_error in Hin. destruct Hin as [k Hk]. destruct (A5 k h0 Hk) as (_ & _ & _ & t & Ht & Et).
    split; [exact (py_pow_nonneg _ _ _ Ht)|]. intros Z. rewrite Z in Ht. rewrite Et, Z. rewrite py_pow_32 in Ht. injection Ht as <-. apply Rmin_left. lra.
  - intros k h0 h' Hk Hk' Z. destruct (A6 k h0 h' Hk Hk') as (NS & _ & U). rewrite Z in U. eapply update_zero; [|exact U].
    destruct (Rlt_le_dec (Q2R (o_sigma_N (the_opts C))) 0) as [L|L]; [exact L|]. exfalso. apply NS. right. rewrite Z. exact L.
Qed.
Lemma sigma_negative lr cp d o m oc C nlp s s' out : construct_problem lr cp d o m oc = Ok C ->
  (Q2R (o_sigma_0 (the_opts C)) < 0)%R -> solve nlp C s <> (s', Ok out).
Proof.
  intros H N E. pose proof (max_iter_pos _ _ _ _ _ _ _ H) as Hn. destruct (sigma_nonneg _ _ _ _ _ E) as [P _]. destruct (solve_passes _ _ _ _ _ _ _ _ _ _ _ H Hn E) as (s1 & lam & w1 & lb & ub & _ & _ & PA & _).
  destruct (so_steps out) as [|h l] eqn:El; [pose proof (pa_nonempty _ _ _ _ _ _ _ _ _ PA) as L; cbn in L; lia|].
  destruct (pa_first _ _ _ _ _ _ _ _ _ PA h eq_refl) as [F _]. destruct (P h (or_introl eq_refl)) as [Q _]. rewrite F in Q. lra.
Qed.
Definition optsNeg : opts := set_iter_nfe (with_solver optsS (1 # 1000) (-1) (1 # 1000) (1 # 10) Superlinear AllXcurrentW0Start true false) 3 [].
Lemma caseNeg_ok : is_ok (build optsNeg model3 None) = true. Proof. vm_compute. reflexivity. Qed.
Lemma sigmaNeg : o_sigma_0 (the_opts (get _ caseNeg_ok)) = (-1)%Q. Proof. vm_compute. reflexivity. Qed.
Lemma negative_case : exists C, build optsNeg model3 None = Ok C /\ (Q2R (o_sigma_0 (the_opts C)) < 0)%R.
Proof. exists (get _ caseNeg_ok). split; [apply get_ok|]. rewrite sigmaNeg. unfold Q2R. cbn. lra. Qed.
