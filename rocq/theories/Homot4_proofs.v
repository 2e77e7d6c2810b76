(* Homot4_proofs.v -- bounded sequences of solutions have subsequences that converge to a solution *)
From Coq Require Import Reals Qreals Lra Lia ConstructiveEpsilon.
From Verif Require Import Base Lib Sx Sx_proofs Utils Tableau Opts Model Ocp Problem Spec Fesd Spec2 Spec3 Spec11 Spec30 Homot_proofs Homot2_proofs Homot3_proofs.
Local Open Scope R_scope.

Section One.
Variables (u : nat -> R) (l : R).
Hypothesis VA : ValAdh u l.
Let close (N k p : nat) : Prop := (N <= p)%nat /\ Rabs (u p - l) < / (INR k + 1).
Lemma close_dec N k p : {close N k p} + {~ close N k p}.
Proof.
  unfold close. destruct (le_dec N p) as [A|A]; [|right; tauto]. destruct (Rlt_dec (Rabs (u p - l)) (/ (INR k + 1))) as [B|B]; [left; tauto|right; tauto].
Qed.
Lemma rad k : 0 < / (INR k + 1). Proof. apply Rinv_0_lt_compat. pose proof (pos_INR k). lra. Qed.
Lemma close_ex N k : exists p, close N k p.
Proof.
  destruct (VA (disc l (mkposreal _ (rad k))) N) as (p & Hp & D); [exists (mkposreal _ (rad k)); intros x Hx; exact Hx|].
  exists p. split; [exact Hp|exact D].
Qed.
Definition nxt (N k : nat) : nat := proj1_sig (constructive_indefinite_ground_description_nat (close N k) (close_dec N k) (close_ex N k)).
Lemma nxt_ok N k : close N k (nxt N k). Proof. unfold nxt. exact (proj2_sig _). Qed.
Fixpoint pick (k : nat) : nat := match k with 0%nat => nxt 0 0 | S k' => nxt (S (pick k')) k end.
Lemma pick_step k : (pick k < pick (S k))%nat. Proof. cbn [pick]. destruct (nxt_ok (S (pick k)) (S k)) as [H _]. lia. Qed.
Lemma pick_picks : picks pick.
Proof. intros i j H. induction H as [|j H IH]; [apply pick_step|]. pose proof (pick_step j). lia. Qed.
Lemma pick_close k : Rabs (u (pick k) - l) < / (INR k + 1).
Proof. destruct k; cbn [pick]; [destruct (nxt_ok 0 0) as [_ H]|destruct (nxt_ok (S (pick k)) (S k)) as [_ H]]; exact H. Qed.
Lemma pick_cv : Un_cv (fun k => u (pick k)) l.
Proof.
  intros eps He. destruct (archimed_cor1 eps He) as (N & HN & PN). exists N. intros n Hn. unfold R_dist.
  eapply Rlt_trans; [apply pick_close|]. eapply Rle_lt_trans; [|exact HN]. apply Rinv_le_contravar; [apply lt_0_INR, PN|].
  apply le_INR in Hn. lra.
Qed.
End One.

Lemma picks_ge phi : picks phi -> forall k, (k <= phi k)%nat.
Proof. intros P k. induction k as [|k IH]; [lia|]. specialize (P k (S k) ltac:(lia)). lia. Qed.
Lemma picks_comp phi psi : picks phi -> picks psi -> picks (fun k => phi (psi k)).
Proof. intros P Q i j H. apply P, Q, H. Qed.
Lemma cv_sub u a phi : picks phi -> Un_cv u a -> Un_cv (fun k => u (phi k)) a.
Proof. intros P U eps He. destruct (U eps He) as [N HN]. exists N. intros n Hn. apply HN. pose proof (picks_ge phi P n). lia. Qed.
Lemma bounded_sub (u : nat -> R) B : (forall k, Rabs (u k) <= B) -> exists phi l, picks phi /\ Un_cv (fun k => u (phi k)) l.
Proof.
  intros H. destruct (Bolzano_Weierstrass u (fun c => - B <= c <= B) (compact_P3 (- B) B)) as [l Hl].
  - intros k. specialize (H k). destruct (Rle_dec 0 (u k)) as [X|X]; [rewrite Rabs_right in H by lra; lra|rewrite Rabs_left in H by lra; lra].
  - exists (pick u l Hl), l. split; [apply pick_picks|apply pick_cv].
Qed.
Lemma env_sub (r : nat -> env) (ys : list sym) B : (forall k y, In y ys -> Rabs (r k y) <= B) ->
  exists phi rho, picks phi /\ converge_in ys (fun k => r (phi k)) rho.
Proof.
  induction ys as [|y ys IH]; intros H.
  - exists (fun k => k), (fun _ => 0). split; [intros i j X; exact X|intros y []].
  - destruct IH as (phi & rho & P & A); [intros k z Hz; apply H; right; exact Hz|].
    destruct (bounded_sub (fun k => r (phi k) y) B) as (psi & l & Q & L); [intros k; apply H; left; reflexivity|].
    exists (fun k => phi (psi k)), (fun z => if sym_eq_dec z y then l else rho z). split; [apply picks_comp; assumption|].
    intros z Hz. destruct (sym_eq_dec z y) as [->|N]; [exact L|]. destruct Hz as [->|Hz]; [congruence|].
    apply (cv_sub (fun k => r (phi k) z) _ psi Q). apply A, Hz.
Qed.

Lemma solution_cluster lr cp d o m oc C r data B : fesd_problem lr cp d o m oc C -> o_mpcc (the_opts C) = ScholtesIneq -> free_of_relaxation m (the_ocp oc) ->
  (forall k, solution_of C (r k)) -> (forall k, same_data C (r k) data) -> (forall k, 0 <= r k SSigma) -> Un_cv (fun k => r k SSigma) 0 ->
  (forall k y, In y (w (the_nlp C) ++ p_p (the_problem C)) -> Rabs (r k y) <= B) ->
  (forall v, bounds_ok v (the_nlp C) -> (forall e, In e (g (the_nlp C)) -> regular v e) /\ regular v (cost (the_nlp C))) ->
  exists phi rho, picks phi /\ converge_in (w (the_nlp C) ++ p_p (the_problem C)) (fun k => r (phi k)) rho /\ rho SSigma = 0 /\ same_data C rho data /\ solution_of C rho.
Proof.
  intros FP Sc FR S D Ps Z Bd G. destruct (env_sub r _ B Bd) as (phi & rho & P & A).
  assert (Z' : rho SSigma = 0).
  { apply (UL_sequence (fun k => r (phi k) SSigma)); [apply A, in_or_app; right; apply (sigma_in _ _ _ _ _ _ _ (proj1 FP))|exact (cv_sub _ _ phi P Z)]. }
  assert (D' : same_data C rho data).
  { intros y Hy N1 N2. apply (UL_sequence (fun k => r (phi k) y)); [apply A, in_or_app; right; exact Hy|].
    apply (cv_ext (fun _ => data y)); [intros k; symmetry; apply D; assumption|apply cv_const]. }
  assert (Bo : bounds_ok rho (the_nlp C)).
  { intros i y l u H1 H2 H3. apply (within_cv l u (fun k => r (phi k) y)); [intros k; exact (proj1 (proj1 (S (phi k))) i y l u H1 H2 H3)|].
    apply A, in_or_app. left. eapply nth_error_In, H1. }
  exists phi, rho. split; [exact P|]. split; [exact A|]. split; [exact Z'|]. split; [exact D'|].
  destruct (G rho Bo) as [G1 G2]. apply (solution_limit lr cp d o m oc C (fun k => r (phi k)) rho FP Sc FR); auto.
  - intros k y Hy N1 N2. rewrite (D (phi k) y Hy N1 N2). symmetry. apply D'; assumption.
  - intros k. rewrite Z'. apply Ps.
Qed.
