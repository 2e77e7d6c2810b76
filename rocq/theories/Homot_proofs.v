(* Homot_proofs.v -- continuity of expressions along sequences, dependence of the NLP on sigma and tau *)
From Coq Require Import Reals Qreals Lra Lia.
From Verif Require Import Base Lib Sx Sx_proofs Utils Tableau Opts Model Ocp Problem Spec Fesd Spec2 Spec3 Spec11 Spec30 Feas_proofs Exact_proofs Syms_proofs Bounds_proofs Nlp_proofs.
Local Open Scope R_scope.

Lemma cv_const c : Un_cv (fun _ => c) c.
Proof. intros eps He. exists 0%nat. intros n _. unfold R_dist. replace (c - c) with 0 by ring. rewrite Rabs_R0. exact He. Qed.
Lemma cv_ext f g l : (forall k, f k = g k) -> Un_cv f l -> Un_cv g l.
Proof. intros E H eps He. destruct (H eps He) as [N HN]. exists N. intros n Hn. rewrite <- E. apply HN, Hn. Qed.
Lemma cv_le f g a b : (forall k, f k <= g k) -> Un_cv f a -> Un_cv g b -> a <= b.
Proof.
  intros L F G. destruct (Rle_lt_dec a b) as [X|X]; [exact X|exfalso].
  destruct (F ((a - b) / 2)) as [N1 H1]; [lra|]. destruct (G ((a - b) / 2)) as [N2 H2]; [lra|].
  specialize (H1 (N1 + N2)%nat ltac:(lia)). specialize (H2 (N1 + N2)%nat ltac:(lia)). specialize (L (N1 + N2)%nat).
  unfold R_dist in *. apply Rabs_def2 in H1. apply Rabs_def2 in H2. lra.
Qed.
Lemma cv_at f (u : nat -> R) l : continuity_pt f l -> Un_cv u l -> Un_cv (fun k => f (u k)) (f l).
Proof. intros F U. exact (continuity_seq f u l F U). Qed.

Lemma local_pt f g x d : 0 < d -> (forall y, Rabs (y - x) < d -> f y = g y) -> continuity_pt g x -> continuity_pt f x.
Proof.
  intros Hd E G eps He. destruct (G eps He) as (a & Ha & K). exists (Rmin a d). split; [apply Rmin_pos; lra|].
  intros y [Dy Hy]. cbn [dist R_met] in *. unfold R_dist in *. rewrite (E y), (E x).
  - apply K. split; [exact Dy|]. eapply Rlt_le_trans; [exact Hy|apply Rmin_l].
  - replace (x - x) with 0 by ring. rewrite Rabs_R0. exact Hd.
  - eapply Rlt_le_trans; [exact Hy|apply Rmin_r].
Qed.
Lemma sqrt_pt x : continuity_pt sqrt x.
Proof.
  destruct (Rle_lt_dec 0 x) as [H|H]; [apply continuity_pt_sqrt, H|].
  apply (local_pt sqrt (fct_cte 0) x (- x)); [lra| |apply continuity_pt_const; intros a b; reflexivity].
  intros y Hy. apply Rabs_def2 in Hy. unfold fct_cte. apply sqrt_neg_0. lra.
Qed.
Lemma sign_pt x : x <> 0 -> continuity_pt Rsign x.
Proof.
  intros H. apply (local_pt Rsign (fct_cte (Rsign x)) x (Rabs x)); [apply Rabs_pos_lt, H| |apply continuity_pt_const; intros a b; reflexivity].
  intros y Hy. unfold fct_cte, Rsign. destruct (Rlt_dec 0 x) as [P|P].
  - rewrite (Rabs_right x) in Hy by lra. apply Rabs_def2 in Hy. destruct (Rlt_dec 0 y); [reflexivity|lra].
  - rewrite (Rabs_left x) in Hy by lra. apply Rabs_def2 in Hy. destruct (Rlt_dec 0 y); [lra|]. destruct (Rlt_dec y 0); [|lra]. destruct (Rlt_dec x 0); [reflexivity|lra].
Qed.
Lemma exp_pt x : continuity_pt exp x. Proof. apply derivable_continuous_pt, derivable_pt_exp. Qed.
Lemma tanh_pt x : continuity_pt tanh x.
Proof.
  assert (Hc : cosh x <> 0). { unfold cosh. pose proof (exp_pos x). pose proof (exp_pos (- x)). lra. }
  apply (continuity_pt_div sinh cosh x); [apply derivable_continuous_pt, derivable_pt_sinh|apply derivable_continuous_pt, derivable_pt_cosh|exact Hc].
Qed.
Lemma inv_pt x : x <> 0 -> continuity_pt Rinv x.
Proof. intros H. apply (continuity_pt_inv id x); [apply derivable_continuous_pt, derivable_pt_id|exact H]. Qed.
Lemma unop_pt u x : match u with USign | UInv => x <> 0 | ULog => 0 < x | UTan => cos x <> 0 | _ => True end -> continuity_pt (eval_un u) x.
Proof.
  intros H. destruct u; cbn [eval_un].
  - apply (continuity_pt_opp id). apply derivable_continuous_pt, derivable_pt_id.
  - apply sign_pt, H.
  - apply Rcontinuity_abs.
  - apply sqrt_pt.
  - apply (continuity_pt_mult id id); apply derivable_continuous_pt, derivable_pt_id.
  - apply exp_pt.
  - exact (derivable_continuous_pt _ _ (exist _ (/ x) (derivable_pt_lim_ln x H))).
  - apply derivable_continuous_pt, derivable_pt_sin.
  - apply derivable_continuous_pt, derivable_pt_cos.
  - apply (continuity_pt_div sin cos); [apply derivable_continuous_pt, derivable_pt_sin|apply derivable_continuous_pt, derivable_pt_cos|exact H].
  - apply tanh_pt.
  - apply inv_pt, H.
Qed.
Lemma cv_min u v a b : Un_cv u a -> Un_cv v b -> Un_cv (fun k => Rmin (u k) (v k)) (Rmin a b).
Proof.
  intros U V eps He. destruct (U eps He) as [N1 H1]. destruct (V eps He) as [N2 H2]. exists (N1 + N2)%nat. intros n Hn.
  specialize (H1 n ltac:(lia)). specialize (H2 n ltac:(lia)). unfold R_dist in *. apply Rabs_def2 in H1. apply Rabs_def2 in H2.
  apply Rabs_def1; unfold Rmin; destruct (Rle_dec (u n) (v n)), (Rle_dec a b); lra.
Qed.
Lemma cv_max u v a b : Un_cv u a -> Un_cv v b -> Un_cv (fun k => Rmax (u k) (v k)) (Rmax a b).
Proof.
  intros U V eps He. destruct (U eps He) as [N1 H1]. destruct (V eps He) as [N2 H2]. exists (N1 + N2)%nat. intros n Hn.
  specialize (H1 n ltac:(lia)). specialize (H2 n ltac:(lia)). unfold R_dist in *. apply Rabs_def2 in H1. apply Rabs_def2 in H2.
  apply Rabs_def1; unfold Rmax; destruct (Rle_dec (u n) (v n)), (Rle_dec a b); lra.
Qed.
Lemma cv_div u v a b : Un_cv u a -> Un_cv v b -> b <> 0 -> Un_cv (fun k => u k / v k) (a / b).
Proof. intros U V H. unfold Rdiv. apply CV_mult; [exact U|]. apply (cv_at Rinv v b); [apply inv_pt, H|exact V]. Qed.

Lemma eval_cv (r : nat -> env) rho e : converge_in (fv e) r rho -> regular rho e -> Un_cv (fun k => eval (r k) e) (eval rho e).
Proof.
  induction e as [q|y|u a IH|b x IHx z IHz]; intros A G; cbn [eval regular fv] in *.
  - apply cv_const.
  - apply A. left. reflexivity.
  - destruct G as [G1 G2]. apply (cv_at (eval_un u)); [apply unop_pt, G2|apply IH; assumption].
  - destruct G as (G1 & G2 & G3). assert (X := IHx (fun y Hy => A y (in_or_app _ _ _ (or_introl Hy))) G1).
    assert (Z := IHz (fun y Hy => A y (in_or_app _ _ _ (or_intror Hy))) G2). destruct b; cbn [eval_bin].
    + apply CV_plus; assumption.
    + apply CV_minus; assumption.
    + apply CV_mult; assumption.
    + apply cv_div; assumption.
    + apply cv_min; assumption.
    + apply cv_max; assumption.
Qed.
Lemma within_cv l u (f : nat -> R) a : (forall k, within l u (f k)) -> Un_cv f a -> within l u a.
Proof.
  intros W U. split.
  - destruct l as [|q|]; [exact I| |destruct (W 0%nat) as [[] _]]. apply (cv_le (fun _ => Q2R q) f); [intros k; exact (proj1 (W k))|apply cv_const|exact U].
  - destruct u as [|q|]; [destruct (W 0%nat) as [_ []]| |exact I]. apply (cv_le f (fun _ => Q2R q)); [intros k; exact (proj2 (W k))|exact U|apply cv_const].
Qed.
