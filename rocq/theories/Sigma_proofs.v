(* Sigma_proofs.v -- the sequence of relaxation parameters *)
From Coq Require Import Reals Qreals Lra Lia List.
From Verif Require Import Base Lib Sx Utils Tableau Opts Model Ocp Problem Numeric Rk4 Results Solver Spec Fesd Spec2 Spec4 Spec5
  Con_proofs Index3_proofs Results_proofs Solve_proofs Solve2_proofs Init_proofs Progress_proofs.
Local Open Scope R_scope.

Lemma sigma_linear o k : o_rule o = Linear -> sigma_at o k = Q2R (o_sigma_0 o) * Q2R (o_slope o) ^ k.
Proof. intros L. induction k as [|k IH]; cbn; [ring|]. unfold next_sigma. rewrite L, IH. ring. Qed.
Lemma sigma_pos o k : 0 < Q2R (o_slope o) -> 0 < Q2R (o_sigma_0 o) -> 0 < sigma_at o k.
Proof. intros A B. induction k as [|k IH]; cbn; [exact B|]. apply next_sigma_pos; assumption. Qed.
(* one update *)
Lemma next_linear o s : o_rule o = Linear -> next_sigma o s = Q2R (o_slope o) * s.
Proof. intros L. unfold next_sigma. rewrite L. reflexivity. Qed.
Lemma next_super o s : o_rule o = Superlinear -> Q2R (o_sigma_N o) <= next_sigma o s /\
  (Q2R (o_sigma_N o) < next_sigma o s -> next_sigma o s <= Q2R (o_slope o) * s).
Proof.
  intros L. unfold next_sigma. rewrite L. split; [apply Rmax_l|]. intros G. unfold Rmax in *. destruct (Rle_dec _ _); [apply Rmin_l|lra].
Qed.
Lemma next_less o s : 0 < Q2R (o_slope o) < 1 -> 0 < s -> Q2R (o_sigma_N o) < s \/ o_rule o = Linear -> next_sigma o s < s.
Proof.
  intros [A B] S N. unfold next_sigma. destruct (o_rule o) eqn:L; [nra|]. destruct N as [N|N]; [|discriminate].
  apply Rmax_lub_lt; [exact N|]. eapply Rle_lt_trans; [apply Rmin_l|]. nra.
Qed.

(* the passes of a loop *)
Section Passes.
Variables (nlp : nat -> nlp_call -> res nlp_ret) (C : constructed) (s : sstate) (n : nat) (lam00 : list R) (lb ub : list ext) (first : list R) (l : list hstep).
Hypothesis P : passes nlp C s n lam00 lb ub first l.
Notation O := (the_opts C).
Hypothesis S0 : 0 < Q2R (o_sigma_0 O).
Hypothesis Sl : 0 < Q2R (o_slope O).
Lemma pass_sigma k : forall h, nth_error l k = Some h -> hs_sigma h = sigma_at O k.
Proof.
  induction k as [|k IH]; intros h Hh; [apply (pa_first _ _ _ _ _ _ _ _ _ P h Hh)|].
  destruct (nth_error_lt l k) as [h0 H0]; [apply nth_error_Some_lt in Hh; lia|].
  destruct (pa_next _ _ _ _ _ _ _ _ _ P k h0 h H0 Hh) as (_ & _ & E). rewrite E; [|rewrite (IH h0 H0); apply sigma_pos; assumption].
  cbn. rewrite (IH h0 H0). reflexivity.
Qed.
Lemma pass_pos k h : nth_error l k = Some h -> 0 < hs_sigma h.
Proof. intros Hh. rewrite (pass_sigma k h Hh). apply sigma_pos; assumption. Qed.
Lemma pass_step k h h' : Q2R (o_slope O) < 1 -> nth_error l k = Some h -> nth_error l (S k) = Some h' -> hs_sigma h' < hs_sigma h.
Proof.
  intros S1 Hh Hh'. destruct (pa_next _ _ _ _ _ _ _ _ _ P k h h' Hh Hh') as (NS & _ & E). pose proof (pass_pos k h Hh) as Pp. rewrite (E Pp).
  apply next_less; [lra|exact Pp|]. left. destruct (Rle_or_lt (hs_sigma h) (Q2R (o_sigma_N O))) as [L|L]; [|exact L]. exfalso. apply NS. right. exact L.
Qed.
Lemma pass_decreasing k : Q2R (o_slope O) < 1 -> forall j h h', nth_error l j = Some h -> nth_error l (j + S k) = Some h' -> hs_sigma h' < hs_sigma h.
Proof.
  intros S1. induction k as [|k IH]; intros j h h' Hh Hh'.
  - replace (j + 1)%nat with (S j) in Hh' by lia. eapply pass_step; eassumption.
  - destruct (nth_error_lt l (j + S k)) as [h1 H1]; [apply nth_error_Some_lt in Hh'; lia|]. pose proof (IH j h h1 Hh H1) as A.
    replace (j + S (S k))%nat with (S (j + S k)) in Hh' by lia. pose proof (pass_step _ _ _ S1 H1 Hh') as B. lra.
Qed.
Lemma pass_super k h : o_rule O = Superlinear -> nth_error l (S k) = Some h -> Q2R (o_sigma_N O) <= hs_sigma h.
Proof. intros Su Hh. rewrite (pass_sigma (S k) h Hh). cbn. apply next_super, Su. Qed.
Lemma pass_rate k h h' : nth_error l k = Some h -> nth_error l (S k) = Some h' -> o_rule O = Superlinear -> Q2R (o_sigma_N O) < hs_sigma h' ->
  hs_sigma h' <= Q2R (o_slope O) * hs_sigma h.
Proof.
  intros Hh Hh' Su G. rewrite (pass_sigma _ _ Hh), (pass_sigma _ _ Hh') in *. cbn in *. apply next_super; assumption.
Qed.
(* the loop runs until the residual is small, sigma is small, or the number of passes is used up *)
Lemma pass_end h : last_is l h -> hs_comp h < Q2R (o_comp_tol O) \/ hs_sigma h <= Q2R (o_sigma_N O) \/ length l = o_max_iter_homotopy O.
Proof.
  intros Hh. destruct (Nat.eq_dec (length l) (o_max_iter_homotopy O)) as [E|E]; [auto|].
  destruct (pa_last _ _ _ _ _ _ _ _ _ P h Hh) as [A|A]; [pose proof (pa_bounded _ _ _ _ _ _ _ _ _ P); lia|auto|auto].
Qed.
End Passes.

(* ---- the automatic number of passes ---- *)
Lemma Rabs_inv x y : Rabs x <= y -> - y <= x <= y.
Proof. intros A. unfold Rabs in A. destruct (Rcase_abs x); lra. Qed.
Lemma rounding_exists : exists lr, rounds lr.
Proof.
  exists (fun tol s0 sl => Z.to_nat (up (Rabs (ln (Q2R tol / Q2R s0) / ln (Q2R sl)) - 1 / 2))).
  intros tol s0 sl _ _ _. set (x := Rabs (ln (Q2R tol / Q2R s0) / ln (Q2R sl))). pose proof (Rabs_pos (ln (Q2R tol / Q2R s0) / ln (Q2R sl))) as Px. fold x in Px.
  destruct (archimed (x - 1 / 2)) as [A B]. assert (Zp : (0 <= up (x - 1 / 2))%Z).
  { apply le_IZR. destruct (Z_lt_le_dec (up (x - 1/2)) 0) as [L|L]; [|apply IZR_le, L]. exfalso. assert (up (x - 1/2) <= -1)%Z by lia. apply IZR_le in H. lra. }
  rewrite INR_IZR_INZ, Z2Nat.id by exact Zp. apply Rabs_le. lra.
Qed.
Lemma pow_exp x n : 0 < x -> x ^ n = exp (INR n * ln x).
Proof. intros X. rewrite <- Rpower_pow by exact X. reflexivity. Qed.
Lemma auto_bound tol s0 sl n : 0 < tol -> 0 < s0 -> 0 < sl < 1 -> tol <= s0 -> Rabs (INR n - Rabs (ln (tol / s0) / ln sl)) <= 1 / 2 ->
  tol * sqrt sl <= s0 * sl ^ n <= tol / sqrt sl.
Proof.
  intros T S [L1 L2] Le A.
  assert (N : ln sl < 0) by (rewrite <- ln_1; apply ln_increasing; lra).
  assert (D : ln (tol / s0) <= 0).
  { destruct (Req_dec tol s0) as [->|Ne]; [unfold Rdiv; rewrite Rinv_r, ln_1 by lra; lra|]. left. rewrite <- ln_1. apply ln_increasing; [apply Rdiv_lt_0_compat; assumption|].
    apply Rmult_lt_reg_r with s0; [assumption|]. unfold Rdiv. rewrite Rmult_assoc, Rinv_l by lra. lra. }
  assert (R0 : 0 <= ln (tol / s0) / ln sl).
  { replace (ln (tol / s0) / ln sl) with ((- ln (tol / s0)) * / (- ln sl)) by (field; lra). apply Rmult_le_pos; [lra|]. left. apply Rinv_0_lt_compat. lra. }
  rewrite (Rabs_pos_eq _ R0) in A. apply Rabs_inv in A.
  set (r := ln (tol / s0) / ln sl) in *. assert (Er : ln (tol / s0) = r * ln sl) by (unfold r; field; lra).
  assert (Et : ln tol = ln s0 + r * ln sl). { rewrite <- Er. unfold Rdiv. rewrite ln_mult, ln_Rinv by (try apply Rinv_0_lt_compat; assumption). lra. }
  assert (Sq : sqrt sl = exp (/ 2 * ln sl)). { rewrite <- (Rpower_sqrt sl L1). reflexivity. }
  rewrite (pow_exp sl n L1), Sq. rewrite <- (exp_ln tol T), <- (exp_ln s0 S). rewrite Et. unfold Rdiv. rewrite <- exp_Ropp, <- !exp_plus.
  split; (match goal with |- exp ?a <= exp ?b => destruct (Req_dec a b) as [->|Ne]; [lra|left; apply exp_increasing] end; nra).
Qed.
Lemma auto_passes lr cp d o m oc C : construct_problem lr cp d o m oc = Ok C -> o_max_iter_homotopy o = 0%nat ->
  o_max_iter_homotopy (the_opts C) = (lr (o_comp_tol o) (o_sigma_0 o) (o_slope o) + 1)%nat.
Proof.
  intros H Z. destruct (construct_ok _ _ _ _ _ _ _ H) as (o' & t & pm & po & P' & K). rewrite (co_o _ _ _ _ _ _ _ _ _ _ _ _ K), (co_o' _ _ _ _ _ _ _ _ _ _ _ _ K).
  cbn. rewrite Z. reflexivity.
Qed.
Lemma auto_final lr cp d o m oc C : construct_problem lr cp d o m oc = Ok C -> rounds lr -> o_max_iter_homotopy o = 0%nat -> o_rule o = Linear ->
  0 < Q2R (o_comp_tol o) <= Q2R (o_sigma_0 o) -> 0 < Q2R (o_slope o) < 1 ->
  Q2R (o_comp_tol o) * sqrt (Q2R (o_slope o)) <= sigma_at (the_opts C) (o_max_iter_homotopy (the_opts C) - 1) <= Q2R (o_comp_tol o) / sqrt (Q2R (o_slope o)).
Proof.
  intros H R Z L [T TS] Sl. rewrite (auto_passes _ _ _ _ _ _ _ H Z).
  assert (Eo : o_rule (the_opts C) = Linear /\ o_sigma_0 (the_opts C) = o_sigma_0 o /\ o_slope (the_opts C) = o_slope o)
    by (rewrite (options_kept _ _ _ _ _ _ _ H); cbn; auto).
  destruct Eo as (E1 & E2 & E3). rewrite sigma_linear by exact E1. rewrite E2, E3. replace (lr (o_comp_tol o) (o_sigma_0 o) (o_slope o) + 1 - 1)%nat with (lr (o_comp_tol o) (o_sigma_0 o) (o_slope o)) by lia.
  apply auto_bound; try assumption; [lra|]. apply R; [assumption|lra|assumption].
Qed.
(* the formula takes the absolute value: comp_tol above sigma_0 *)
Lemma auto_wrong lr : rounds lr -> (1 <= lr 10%Q 1%Q (1 # 10)%Q)%nat.
Proof.
  intros R. specialize (R 10%Q 1%Q (1 # 10)%Q).
  assert (E1 : Q2R 10 = 10) by (unfold Q2R; cbn; lra). assert (E2 : Q2R 1 = 1) by (unfold Q2R; cbn; lra). assert (E3 : Q2R (1 # 10) = / 10) by (unfold Q2R; cbn; lra).
  rewrite E1, E2, E3 in R. specialize (R ltac:(lra) ltac:(lra) ltac:(lra)). replace (10 / 1) with 10 in R by lra. rewrite ln_Rinv in R by lra.
  assert (L : 0 < ln 10) by (rewrite <- ln_1; apply ln_increasing; lra). replace (ln 10 / - ln 10) with (-1) in R by (field; lra).
  rewrite (Rabs_left (-1)) in R by lra. apply Rabs_inv in R. destruct (lr 10%Q 1%Q (1 # 10)%Q); [cbn in R; lra|lia].
Qed.
