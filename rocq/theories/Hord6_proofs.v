(* Hord6_proofs.v -- errors along a sequence of elements that goes through the pieces of a solution *)
From Coq Require Import Reals Qreals Lra Psatz.
From Verif Require Import Base Sx Utils Tableau Opts Model Ocp Problem Spec Lib Fesd Spec2 Spec3 Spec9 Spec10 Spec11 Spec21 Spec28 Hord2_proofs.
Local Open Scope R_scope.

Section Chain.
Variables (N nx : nat) (tt : nat -> R) (ph : nat -> nat) (x : nat -> nat -> R) (P : nat -> piece) (last : nat) (Y : R -> nat -> R) (a b g M hn : R).
Hypothesis a0 : 0 <= a. Hypothesis b0 : 0 <= b. Hypothesis g0 : 0 <= g. Hypothesis M0 : 0 <= M. Hypothesis hn0 : 0 <= hn.
Definition G : R := 1 + 2 * M * g.
Lemma G1 : 1 <= G. Proof. unfold G. assert (0 <= 2 * M * g) by (apply Rmult_le_pos; lra). lra. Qed.
Hypothesis tt0 : tt 0%nat = 0.
Hypothesis mono : forall k, (k < N)%nat -> tt k <= tt (S k).
Hypothesis ph0 : ph 0%nat = 0%nat.
Hypothesis start : forall i, (i < nx)%nat -> x 0%nat i = pc_curve (P 0%nat) 0 i.
Hypothesis element : forall k E, (k < N)%nat -> 0 <= E -> (forall i, (i < nx)%nat -> Rabs (x k i - pc_curve (P (ph k)) (tt k) i) <= E) ->
  forall i, (i < nx)%nat -> Rabs (x (S k) i - pc_curve (P (ph k)) (tt (S k)) i) <= (1 + a * (tt (S k) - tt k)) * E + b * (tt (S k) - tt k) * hn.
Hypothesis switch : forall k, (S k < N)%nat -> ph (S k) = ph k \/ (ph (S k) = S (ph k) /\ forall E, 0 <= E -> (forall i, (i < nx)%nat -> Rabs (x (S k) i - pc_curve (P (ph k)) (tt (S k)) i) <= E) ->
  Rabs (tt (S k) - pc_start (P (ph (S k)))) <= g * E /\ forall i, (i < nx)%nat -> Rabs (x (S k) i - pc_curve (P (ph (S k))) (tt (S k)) i) <= G * E).
Hypothesis CL : forall r, (r <= last)%nat -> forall z z' i, pc_lo (P r) <= z <= pc_hi (P r) -> pc_lo (P r) <= z' <= pc_hi (P r) -> (i < nx)%nat ->
  Rabs (pc_curve (P r) z i - pc_curve (P r) z' i) <= M * Rabs (z - z').
Hypothesis dom : forall k, (k < N)%nat -> pc_lo (P (ph k)) <= tt (S k) <= pc_hi (P (ph k)).
Hypothesis ph_last : forall k, (k < N)%nat -> (ph k <= last)%nat.
Hypothesis reached : exists k, (k < N)%nat /\ ph k = last.
Notation TE := (tt N).
Definition pe (r : nat) : R := if (r =? last)%nat then TE else pc_start (P (S r)).
Hypothesis S0 : pc_start (P 0%nat) = 0.
Hypothesis J : forall r, (r < last)%nat -> pc_lo (P r) <= pc_start (P (S r)) <= pc_hi (P r) /\ pc_lo (P (S r)) <= pc_start (P (S r)) <= pc_hi (P (S r)) /\
  forall i, (i < nx)%nat -> pc_curve (P r) (pc_start (P (S r))) i = pc_curve (P (S r)) (pc_start (P (S r))) i.
Hypothesis Pc : forall r, (r <= last)%nat -> pc_start (P r) <= pe r /\ pc_lo (P r) <= pc_start (P r) /\ pe r <= pc_hi (P r) /\
  forall tm i, pc_start (P r) <= tm <= pe r -> (i < nx)%nat -> Y tm i = pc_curve (P r) tm i.

(* Y is Lipschitz *)
Lemma Y_lip : forall r, (r <= last)%nat -> forall r' z z' i, (r <= r' <= last)%nat -> pc_start (P r) <= z <= pe r -> pc_start (P r') <= z' <= pe r' ->
  z <= z' -> (i < nx)%nat -> Rabs (Y z' i - Y z i) <= M * (z' - z).
Proof.
  intros r Hr r' z z' i [Hl Hr']. revert z'. induction Hl as [|r' Hl IH]; intros z' Hz Hz' Hzz Hi.
  - destruct (Pc r Hr) as (A1 & A2 & A3 & A4). rewrite (A4 z i Hz Hi), (A4 z' i Hz' Hi).
    pose proof (CL r Hr z' z i ltac:(lra) ltac:(lra) Hi) as Q. rewrite (Rabs_pos_eq (z' - z)) in Q by lra. exact Q.
  - specialize (IH ltac:(lia)). destruct (Pc r' ltac:(lia)) as (B1 & _). destruct (Pc (S r') Hr') as (A1 & A2 & A3 & A4).
    assert (Eq : pe r' = pc_start (P (S r'))) by (unfold pe; replace (r' =? last)%nat with false by (symmetry; apply Nat.eqb_neq; lia); reflexivity).
    rewrite Eq in *. set (zs := pc_start (P (S r'))) in *. destruct (Rle_dec z zs) as [Hzs|Hzs].
    + specialize (IH zs Hz ltac:(lra) Hzs Hi).
      rewrite (A4 z' i Hz' Hi). rewrite (A4 zs i ltac:(lra) Hi) in IH.
      pose proof (CL (S r') Hr' z' zs i ltac:(lra) ltac:(lra) Hi) as Q. rewrite (Rabs_pos_eq (z' - zs)) in Q by lra.
      replace (pc_curve (P (S r')) z' i - Y z i) with ((pc_curve (P (S r')) z' i - pc_curve (P (S r')) zs i) + (pc_curve (P (S r')) zs i - Y z i)) by ring.
      eapply Rle_trans; [apply Rabs_triang|]. lra.
    + exfalso. apply Hzs. clear - Hz Hl Pc Hr Hr' Eq B1. subst zs.
      assert (G : forall r1, (r <= r1)%nat -> (S r1 <= last)%nat -> pe r <= pc_start (P (S r1))).
      { induction 1 as [|r1 Hr1 IHr]; intros H1.
        - unfold pe. replace (r =? last)%nat with false by (symmetry; apply Nat.eqb_neq; lia). lra.
        - specialize (IHr ltac:(lia)). destruct (Pc (S r1) ltac:(lia)) as (Q & _). unfold pe in Q at 1. replace (S r1 =? last)%nat with false in Q by (symmetry; apply Nat.eqb_neq; lia). lra. }
      specialize (G r' Hl Hr'). lra.
Qed.
Lemma locate_piece z : 0 <= z <= TE -> exists r, (r <= last)%nat /\ pc_start (P r) <= z <= pe r.
Proof.
  intros Hz.
  assert (G : forall k, (k <= last)%nat -> (exists r, (r <= k)%nat /\ (r < k)%nat /\ pc_start (P r) <= z <= pe r) \/ pc_start (P k) <= z).
  { induction k as [|k IH]; intros Hk; [right; lra|]. destruct (IH ltac:(lia)) as [(r & A1 & A2 & A3)|Q]; [left; exists r; repeat split; try lia; apply A3|].
    destruct (Rle_dec (pc_start (P (S k))) z) as [Hl|Hl]; [right; exact Hl|]. left. exists k. split; [lia|]. split; [lia|]. unfold pe.
    replace (k =? last)%nat with false by (symmetry; apply Nat.eqb_neq; lia). lra. }
  destruct (G last (le_n _)) as [(r & A1 & _ & A2)|Q]; [exists r; split; assumption|]. exists last. split; [lia|]. unfold pe. rewrite Nat.eqb_refl. lra.
Qed.
Lemma Y_lipschitz z z' i : 0 <= z <= TE -> 0 <= z' <= TE -> (i < nx)%nat -> Rabs (Y z i - Y z' i) <= M * Rabs (z - z').
Proof.
  assert (G : forall z z', 0 <= z <= TE -> 0 <= z' <= TE -> (i < nx)%nat -> z <= z' -> Rabs (Y z' i - Y z i) <= M * (z' - z)).
  { intros za za' Ha Ha' Hi Hl. destruct (locate_piece za Ha) as (r & R1 & R2). destruct (locate_piece za' Ha') as (r' & R1' & R2').
    destruct (Nat.le_gt_cases r r') as [Hr|Hr]; [apply (Y_lip r R1 r'); try assumption; lia|].
    (* then both are the same time *)
    assert (za = za') as ->; [|replace (Y za' i - Y za' i) with 0 by ring; rewrite Rabs_R0; lra].
    assert (Q : pe r' <= pc_start (P r)); [|lra]. clear - Pc Hr R1. induction Hr as [|r Hr IH].
    - unfold pe. replace (r' =? last)%nat with false by (symmetry; apply Nat.eqb_neq; lia). lra.
    - specialize (IH ltac:(lia)). destruct (Pc r ltac:(lia)) as (Q & _). unfold pe in Q at 1. replace (r =? last)%nat with false in Q by (symmetry; apply Nat.eqb_neq; lia). lra. }
  intros Hz Hz' Hi. destruct (Rle_dec z z') as [H|H].
  - rewrite Rabs_minus_sym, (Rabs_left1 (z - z')) by lra. specialize (G z z' Hz Hz' Hi H). lra.
  - rewrite (Rabs_pos_eq (z - z')) by lra. apply G; try assumption. lra.
Qed.

Definition bound : R := level a b G hn last TE.
Lemma level_bound k : (k < N)%nat -> level a b G hn (ph k) (tt (S k)) <= bound.
Proof.
  intros Hk. assert (E1 : tt (S k) <= TE) by (apply (tt_le N tt mono (S k) N); lia).
  apply level_mono; [exact a0|exact b0|exact hn0|exact G1|apply ph_last, Hk|]. split; [|exact E1]. apply (times N tt tt0 mono (S k)). lia.
Qed.
Lemma bound_nonneg : 0 <= bound.
Proof.
  destruct reached as (k & Hk & _). eapply Rle_trans; [|apply (level_bound k Hk)]. apply level_nonneg; [exact b0|exact hn0|exact G1|]. apply (times N tt tt0 mono (S k)). lia.
Qed.
Lemma SB k : (S k < N)%nat -> g * level a b G hn (ph k) (tt (S k)) <= g * bound.
Proof. intros Hk. apply Rmult_le_compat_l; [exact g0|]. apply level_bound. lia. Qed.
Lemma chain_times k : (S k < N)%nat -> ph (S k) = S (ph k) -> Rabs (tt (S k) - pc_start (P (ph (S k)))) <= g * bound.
Proof.
  intros Hk Es. pose proof G1 as G1. eapply Rle_trans; [|exact (SB k Hk)].
  exact (switch_errors N nx tt ph x (fun r => pc_curve (P r)) (fun r => pc_start (P r)) a b g G hn a0 b0 hn0 G1 tt0 mono ph0 start element switch k Hk Es).
Qed.
Lemma chain_order k i : (k < N)%nat -> (i < nx)%nat -> Rabs (x (S k) i - Y (tt (S k)) i) <= G * bound.
Proof.
  intros Hk Hi. pose proof bound_nonneg as BN. pose proof G1 as G1.
  pose proof (end_errors N nx tt ph x (fun r => pc_curve (P r)) (fun r => pc_start (P r)) a b g G hn a0 b0 hn0 G1 tt0 mono ph0 start element switch k Hk i Hi) as EE.
  pose proof (level_bound k Hk) as LB. pose proof (dom k Hk) as Dz. pose proof (ph_last k Hk) as Hr.
  assert (z0 : 0 <= tt (S k)) by (apply (times N tt tt0 mono (S k)); lia). assert (zT : tt (S k) <= TE) by (apply (tt_le N tt mono (S k) N); lia).
  set (z := tt (S k)) in *. set (r := ph k) in *. destruct (Pc r Hr) as (B1 & B2 & B3 & B4).
    (* distance of the piece from Y *)
    assert (Far : forall zs, 0 <= zs <= TE -> pc_lo (P r) <= zs <= pc_hi (P r) -> Y zs i = pc_curve (P r) zs i -> Rabs (z - zs) <= g * bound ->
      Rabs (pc_curve (P r) z i - Y z i) <= 2 * M * g * bound).
    { intros zs Hzs Dzs Ez Hd. pose proof (Y_lipschitz zs z i Hzs ltac:(lra) Hi) as Q1. rewrite Ez, (Rabs_minus_sym zs z) in Q1.
      pose proof (CL r Hr z zs i Dz Dzs Hi) as Q2. apply (Rmult_le_compat_l M _ _ M0) in Hd.
      replace (pc_curve (P r) z i - Y z i) with ((pc_curve (P r) z i - pc_curve (P r) zs i) + (pc_curve (P r) zs i - Y z i)) by ring.
      eapply Rle_trans; [apply Rabs_triang|]. lra. }
    assert (NN : 0 <= 2 * M * g * bound) by (apply Rmult_le_pos; [apply Rmult_le_pos; [lra|exact g0]|exact BN]).
    assert (DY : Rabs (pc_curve (P r) z i - Y z i) <= 2 * M * g * bound).
    { destruct (Rle_dec (pc_start (P r)) z) as [H1|H1]; [destruct (Rle_dec z (pe r)) as [H2|H2]|].
      - rewrite (B4 z i (conj H1 H2) Hi). replace (pc_curve (P r) z i - pc_curve (P r) z i) with 0 by ring. rewrite Rabs_R0. exact NN.
      - (* late *)
        assert (Hl : (r < last)%nat).
        { destruct (Nat.eq_dec r last) as [E|]; [|lia]. exfalso. apply H2. unfold pe. rewrite E, Nat.eqb_refl. exact zT. }
        assert (Ep : pe r = pc_start (P (S r))) by (unfold pe; replace (r =? last)%nat with false by (symmetry; apply Nat.eqb_neq; lia); reflexivity).
        apply (Far (pe r)).
        + assert (Q : 0 <= pc_start (P r)); [|clear - Q B1 H2 zT; lra]. clear - Pc S0 Hr. induction r as [|r IH]; [lra|]. specialize (IH ltac:(lia)). destruct (Pc r ltac:(lia)) as (Q & _). unfold pe in Q.
          replace (r =? last)%nat with false in Q by (symmetry; apply Nat.eqb_neq; lia). lra.
        + lra.
        + apply B4; [lra|exact Hi].
        + destruct reached as (kl & Hkl & Epk).
          destruct (Nat.le_gt_cases k kl) as [Hkk|Hkk].
          * destruct (next_piece N nx tt ph x (fun r => pc_curve (P r)) (fun r => pc_start (P r)) a b g G hn a0 b0 hn0 G1 tt0 mono ph0 start element switch (g * bound) SB k kl Hkk Hkl) as [_ [Q|Q]].
            { fold r in Q. rewrite Epk in Q. lia. }
            fold r in Q. fold z in Q. rewrite Ep in *. rewrite Rabs_pos_eq by lra. lra.
          * destruct (next_piece N nx tt ph x (fun r => pc_curve (P r)) (fun r => pc_start (P r)) a b g G hn a0 b0 hn0 G1 tt0 mono ph0 start element switch (g * bound) SB kl k ltac:(lia) Hk) as [Q _].
            fold r in Q. rewrite Epk in Q. lia.
      - (* early *)
        destruct (not_early N nx tt ph x (fun r => pc_curve (P r)) (fun r => pc_start (P r)) a b g G hn a0 b0 hn0 G1 tt0 mono ph0 start element switch (g * bound) SB k Hk) as [Q|Q].
        { fold r in Q. rewrite Q in H1. lra. }
        fold r in Q. pose proof (mono k Hk) as Q'. fold z in Q'. apply (Far (pc_start (P r))).
        + split; [lra|]. eapply Rle_trans; [exact B1|]. clear - Pc Hr. assert (G : forall q, (r + q <= last)%nat -> pe r <= pe (r + q)).
          { induction q as [|q IH]; intros Hq; [rewrite Nat.add_0_r; lra|]. specialize (IH ltac:(lia)). destruct (Pc (r + S q)%nat Hq) as (Q & _).
            unfold pe in IH at 2. replace (r + q =? last)%nat with false in IH by (symmetry; apply Nat.eqb_neq; lia). replace (r + S q)%nat with (S (r + q)) in * by lia. lra. }
          specialize (G (last - r)%nat ltac:(lia)). replace (r + (last - r))%nat with last in G by lia. unfold pe in G at 2. rewrite Nat.eqb_refl in G. exact G.
        + split; [exact B2|lra].
        + apply B4; [lra|exact Hi].
        + rewrite Rabs_left1 by lra. lra. }
    unfold G. replace (x (S k) i - Y z i) with ((x (S k) i - pc_curve (P r) z i) + (pc_curve (P r) z i - Y z i)) by ring.
    eapply Rle_trans; [apply Rabs_triang|]. lra.
Qed.
End Chain.
