(* Hord2_proofs.v -- the error of one element; accumulation of the errors over pieces *)
From Coq Require Import Reals Qreals Lra Psatz.
From Verif Require Import Base Sx Utils Tableau Opts Model Ocp Problem Spec Cases Lib Sx_proofs Fe_proofs Prob_proofs Coll_proofs
  Body_proofs Model_proofs Con_proofs Index3_proofs Fesd Sem_proofs Dcs_proofs Point_proofs Elem_proofs Nlp_proofs
  Opts_proofs Tableau_proofs Poly_proofs Spec2 Feas_proofs Feas2_proofs Spec3 Numeric Mode_proofs Smooth_proofs Spec9 Spec10 Filippov_proofs
  Filippov2_proofs Filippov3_proofs Exact_proofs Spec11 ExistBase_proofs Spec20 Soft_proofs Spec21 Conv_proofs Conv2_proofs Conv3_proofs Spec28 Hord1_proofs.
Local Open Scope R_scope.

Lemma fin_max n (f : nat -> R) : (0 < n)%nat -> exists k, (k < n)%nat /\ forall j, (j < n)%nat -> f j <= f k.
Proof.
  induction n as [|n IH]; intros H; [lia|]. destruct n as [|n]; [exists 0%nat; split; [lia|]; intros j Hj; replace j with 0%nat by lia; lra|].
  destruct (IH ltac:(lia)) as (k & Hk & Mk). destruct (Rle_dec (f k) (f (S n))) as [Hl|Hl].
  - exists (S n). split; [lia|]. intros j Hj. destruct (Nat.eq_dec j (S n)) as [->|]; [lra|]. specialize (Mk j ltac:(lia)). lra.
  - exists k. split; [lia|]. intros j Hj. destruct (Nat.eq_dec j (S n)) as [->|]; [lra|]. apply Mk. lia.
Qed.
Lemma fin_max2 n nx (f : nat -> nat -> R) : (0 < n)%nat -> (0 < nx)%nat -> exists j i, (j < n)%nat /\ (i < nx)%nat /\
  forall j' i', (j' < n)%nat -> (i' < nx)%nat -> f j' i' <= f j i.
Proof.
  intros Hn Hx. assert (G : forall j, exists i, (i < nx)%nat /\ forall i', (i' < nx)%nat -> f j i' <= f j i) by (intros j; apply fin_max; exact Hx).
  assert (F : exists g : nat -> nat, forall j, (j < n)%nat -> (g j < nx)%nat /\ forall i', (i' < nx)%nat -> f j i' <= f j (g j)).
  { clear Hn. induction n as [|n IH]; [exists (fun _ => 0%nat); intros; lia|]. destruct IH as [g Hg]. destruct (G n) as [i Hi].
    exists (fun j => if (j =? n)%nat then i else g j). intros j Hj. destruct (Nat.eqb_spec j n) as [->|]; [exact Hi|]. apply Hg. lia. }
  destruct F as [g Hg]. destruct (fin_max n (fun j => f j (g j)) Hn) as (j & Hj & Mj). exists j, (g j). split; [exact Hj|]. split; [apply (Hg j Hj)|].
  intros j' i' Hj' Hi'. eapply Rle_trans; [apply (proj2 (Hg j' Hj')), Hi'|]. exact (Mj j' Hj').
Qed.

(* one element, without the model: slopes F of the stages, G of the curve *)
Section Element.
Variables (n nx : nat) (A : nat -> nat -> R) (b tau : nat -> R) (K : R).
Hypothesis n0 : (0 < n)%nat.
Hypothesis K0 : 0 <= K.
Hypothesis HA : forall j, (j < n)%nat -> rupto n (fun k => Rabs (A j k)) <= K.
Hypothesis Hb : rupto n (fun k => Rabs (b k)) <= K.
Hypothesis Htau : forall j, (j < n)%nat -> 0 <= tau j <= 1.
Hypothesis PA : forall q, (length q <= S n)%nat -> (forall j, (j < n)%nat -> peval q (tau j) - peval q 0 = rupto n (fun k => A j k * peval (pder q) (tau k))) /\
  peval q 1 - peval q 0 = rupto n (fun k => b k * peval (pder q) (tau k)).

Lemma weighted (a u : nat -> R) M : rupto n (fun k => Rabs (a k)) <= K -> 0 <= M -> (forall k, (k < n)%nat -> Rabs (u k) <= M) -> Rabs (rupto n (fun k => a k * u k)) <= K * M.
Proof.
  intros Ha HM Hu. eapply Rle_trans; [apply rupto_abs|]. eapply Rle_trans; [apply (rupto_le n _ (fun k => M * Rabs (a k)))|].
  - intros k Hk. rewrite Rabs_mult, Rmult_comm. apply Rmult_le_compat_r; [apply Rabs_pos|apply Hu, Hk].
  - rewrite rupto_scale, Rmult_comm. apply Rmult_le_compat_r; [exact HM|exact Ha].
Qed.

(* the defect of a smooth curve *)
Lemma scaled q h : exists q', (length q' = length q)%nat /\ (forall s, peval q' s = peval q (h * s)) /\ forall s, peval (pder q') s = h * peval (pder q) (h * s).
Proof.
  clear. assert (G : exists q', length q' = length q /\ forall s, peval q' s = peval q (h * s)).
  { induction q as [|a q [q' [L E]]]; [exists []; split; reflexivity|]. exists (a :: pscale h q'). split; [cbn; unfold pscale; rewrite map_length; congruence|].
    intros s. cbn [peval]. rewrite peval_pscale, E. ring. }
  destruct G as (q' & L & E). exists q'. split; [exact L|]. split; [exact E|]. intros s.
  apply (uniqueness_limite (peval q') s); [apply peval_deriv|].
  apply (derivable_pt_lim_ext (fun s => peval q (h * s))); [intros; symmetry; apply E|].
  replace (h * peval (pder q) (h * s)) with (peval (pder q) (h * s) * (h * 1)) by ring.
  apply (derivable_pt_lim_comp (fun s => h * s) (peval q)); [|apply peval_deriv]. apply (derivable_pt_lim_scal (fun s => s)). apply derivable_pt_lim_id.
Qed.
Lemma defect B h y0 (y g : R -> R) q : 0 <= B -> 0 <= h -> (length q <= S n)%nat -> y 0 = y0 ->
  (forall s, 0 <= s <= h -> Rabs (y s - peval q s) <= B * s ^ S n /\ Rabs (g s - peval (pder q) s) <= B * s ^ n) ->
  (forall j, (j < n)%nat -> Rabs (y (h * tau j) - y0 - h * rupto n (fun k => A j k * g (h * tau k))) <= (1 + K) * B * (h * h ^ n)) /\
  Rabs (y h - y0 - h * rupto n (fun k => b k * g (h * tau k))) <= (1 + K) * B * (h * h ^ n).
Proof.
  intros B0 h0 Lq Ey Hq. destruct (scaled q h) as (q' & Lq' & E1 & E2). destruct (PA q' ltac:(lia)) as [P1 P2].
  assert (Hs : forall x, 0 <= x <= 1 -> 0 <= h * x <= h) by (intros x Hx; split; [apply Rmult_le_pos; lra|nra]).
  assert (Z : peval q 0 = y0).
  { destruct (Hq 0 ltac:(lra)) as [Z _]. rewrite Ey in Z. replace (0 ^ S n) with 0 in Z by (cbn [pow]; ring). rewrite Rmult_0_r in Z.
    pose proof (Rabs_pos (y0 - peval q 0)). assert (Q : Rabs (y0 - peval q 0) = 0) by lra. destruct (Req_dec (y0 - peval q 0) 0) as [|Q']; [lra|].
    pose proof (Rabs_pos_lt _ Q'). lra. }
  assert (G : forall x (a : nat -> R), 0 <= x <= 1 -> rupto n (fun k => Rabs (a k)) <= K -> peval q' x - peval q' 0 = rupto n (fun k => a k * peval (pder q') (tau k)) ->
    Rabs (y (h * x) - y0 - h * rupto n (fun k => a k * g (h * tau k))) <= (1 + K) * B * (h * h ^ n)).
  { intros x a Hx Ha P. rewrite !E1, Rmult_0_r, Z in P.
    assert (P' : peval q (h * x) - y0 = h * rupto n (fun k => a k * peval (pder q) (h * tau k))).
    { rewrite P, <- rupto_scale. apply rupto_ext. intros k Hk. rewrite E2. ring. }
    replace (y (h * x) - y0 - h * rupto n (fun k => a k * g (h * tau k)))
      with ((y (h * x) - peval q (h * x)) - h * rupto n (fun k => a k * (g (h * tau k) - peval (pder q) (h * tau k)))).
    2:{ rewrite (rupto_ext n (fun k => a k * (g (h * tau k) - peval (pder q) (h * tau k))) (fun k => a k * g (h * tau k) + (-1) * (a k * peval (pder q) (h * tau k)))) by (intros; ring).
        rewrite rupto_plus, rupto_scale. lra. }
    eapply Rle_trans; [apply Rabs_triang|]. rewrite Rabs_Ropp, Rabs_mult, (Rabs_pos_eq h h0).
    pose proof (proj1 (Hq (h * x) (Hs x Hx))) as G1.
    assert (G2 : B * (h * x) ^ S n <= B * (h * h ^ n)) by (apply Rmult_le_compat_l; [exact B0|]; change (h * h ^ n) with (h ^ S n); apply pow_incr, Hs, Hx).
    assert (G3 : Rabs (rupto n (fun k => a k * (g (h * tau k) - peval (pder q) (h * tau k)))) <= K * (B * h ^ n)).
    { apply weighted; [exact Ha|apply Rmult_le_pos; [exact B0|apply pow_le, h0]|]. intros k Hk. eapply Rle_trans; [apply (Hq (h * tau k)), Hs, Htau, Hk|].
      apply Rmult_le_compat_l; [exact B0|]. apply pow_incr. apply Hs, Htau, Hk. }
    apply (Rmult_le_compat_l h _ _ h0) in G3. lra. }
  split.
  - intros j Hj. apply G; [apply Htau, Hj|apply HA, Hj|apply P1, Hj].
  - replace (y h) with (y (h * 1)) by (f_equal; ring). apply G; [lra|exact Hb|exact P2].
Qed.

(* x: start, stages, end of the discrete solution; y: the same of the curve *)
Lemma element_error (Lf E h rr : R) (x0 x1 y0 y1 : nat -> R) (xs ys F G : nat -> nat -> R) :
  0 <= Lf -> 0 <= E -> 0 <= h -> 0 <= rr -> K * Lf * h <= / 2 ->
  (forall i, (i < nx)%nat -> Rabs (x0 i - y0 i) <= E) ->
  (forall j i, (j < n)%nat -> (i < nx)%nat -> xs j i - x0 i = h * rupto n (fun k => A j k * F k i)) ->
  (forall i, (i < nx)%nat -> x1 i - x0 i = h * rupto n (fun k => b k * F k i)) ->
  (forall j i, (j < n)%nat -> (i < nx)%nat -> Rabs (ys j i - y0 i - h * rupto n (fun k => A j k * G k i)) <= rr) ->
  (forall i, (i < nx)%nat -> Rabs (y1 i - y0 i - h * rupto n (fun k => b k * G k i)) <= rr) ->
  (forall j dd, (j < n)%nat -> (forall i, (i < nx)%nat -> Rabs (xs j i - ys j i) <= dd) -> forall i, (i < nx)%nat -> Rabs (F j i - G j i) <= Lf * dd) ->
  forall i, (i < nx)%nat -> Rabs (x1 i - y1 i) <= (1 + 2 * K * Lf * h) * E + 2 * rr.
Proof.
  intros L0 E0 h0 r0 Hs H0 HX HX1 HY HY1 HL i Hi.
  destruct (fin_max2 n nx (fun j i => Rabs (xs j i - ys j i)) n0 ltac:(lia)) as (jm & im & Hjm & Him & Hm).
  set (M := Rabs (xs jm im - ys jm im)) in *. assert (M0 : 0 <= M) by apply Rabs_pos.
  assert (FG : forall k i, (k < n)%nat -> (i < nx)%nat -> Rabs (F k i - G k i) <= Lf * M) by (intros k i' Hk Hi'; apply (HL k M Hk); [intros; apply Hm; assumption|exact Hi']).
  assert (LM : 0 <= Lf * M) by (apply Rmult_le_pos; assumption).
  assert (W : forall (a : nat -> R) i, (i < nx)%nat -> rupto n (fun k => Rabs (a k)) <= K ->
    Rabs (h * rupto n (fun k => a k * F k i) - h * rupto n (fun k => a k * G k i)) <= K * Lf * h * M).
  { intros a i' Hi' Ha. rewrite <- Rmult_minus_distr_l, Rabs_mult, (Rabs_pos_eq h h0).
    replace (rupto n (fun k => a k * F k i') - rupto n (fun k => a k * G k i')) with (rupto n (fun k => a k * (F k i' - G k i'))).
    2:{ rewrite (rupto_ext n (fun k => a k * (F k i' - G k i')) (fun k => a k * F k i' + (-1) * (a k * G k i'))) by (intros; ring). rewrite rupto_plus, rupto_scale. ring. }
    pose proof (weighted a (fun k => F k i' - G k i') (Lf * M) Ha LM ltac:(intros; apply FG; assumption)) as Q.
    apply (Rmult_le_compat_l h _ _ h0) in Q. lra. }
  assert (T3 : forall a b c, Rabs (a + b - c) <= Rabs a + Rabs b + Rabs c).
  { intros a b0 c. eapply Rle_trans; [apply Rabs_triang|]. rewrite Rabs_Ropp. pose proof (Rabs_triang a b0). lra. }
  assert (B1 : M <= E + K * Lf * h * M + rr).
  { unfold M at 1.
    replace (xs jm im - ys jm im) with ((x0 im - y0 im) + (h * rupto n (fun k => A jm k * F k im) - h * rupto n (fun k => A jm k * G k im))
      - (ys jm im - y0 im - h * rupto n (fun k => A jm k * G k im))) by (rewrite <- (HX jm im Hjm Him); ring).
    eapply Rle_trans; [apply T3|]. pose proof (H0 im Him). pose proof (W (A jm) im Him (HA jm Hjm)). pose proof (HY jm im Hjm Him). lra. }
  assert (B2 : M <= 2 * (E + rr)).
  { assert (Q : K * Lf * h * M <= / 2 * M) by (apply Rmult_le_compat_r; assumption). lra. }
  replace (x1 i - y1 i) with ((x0 i - y0 i) + (h * rupto n (fun k => b k * F k i) - h * rupto n (fun k => b k * G k i))
      - (y1 i - y0 i - h * rupto n (fun k => b k * G k i))) by (rewrite <- (HX1 i Hi); ring).
  eapply Rle_trans; [apply T3|]. pose proof (H0 i Hi) as Q1. pose proof (W b i Hi Hb) as Q2. pose proof (HY1 i Hi) as Q3.
  assert (Z : 0 <= K * Lf * h) by (repeat apply Rmult_le_pos; assumption).
  assert (Q4 : K * Lf * h * M <= K * Lf * h * (2 * (E + rr))) by (apply Rmult_le_compat_l; assumption).
  assert (Q5 : K * Lf * h * (2 * rr) <= / 2 * (2 * rr)) by (apply Rmult_le_compat_r; lra). lra.
Qed.
End Element.

(* ---- accumulation ---- *)
Section Accumulate.
Variables (N : nat) (nx : nat) (tt : nat -> R) (ph : nat -> nat) (x : nat -> nat -> R) (Y : nat -> R -> nat -> R) (T : nat -> R) (last : nat) (a b g G hn : R).
Hypothesis a0 : 0 <= a. Hypothesis b0 : 0 <= b. Hypothesis g0 : 0 <= g. Hypothesis hn0 : 0 <= hn. Hypothesis G1 : 1 <= G.
Hypothesis tt0 : tt 0%nat = 0.
Hypothesis mono : forall k, (k < N)%nat -> tt k <= tt (S k).
Lemma tt_le k k' : (k <= k')%nat -> (k' <= N)%nat -> tt k <= tt k'.
Proof. induction 1 as [|k' Hk IH]; intros H; [lra|]. specialize (IH ltac:(lia)). pose proof (mono k' ltac:(lia)). lra. Qed.
Lemma times k : (k <= N)%nat -> 0 <= tt k.
Proof. induction k as [|k IH]; intros Hk; [lra|]. specialize (IH ltac:(lia)). pose proof (mono k ltac:(lia)). lra. Qed.
Hypothesis ph0 : ph 0%nat = 0%nat.
Hypothesis start : forall i, (i < nx)%nat -> x 0%nat i = Y 0%nat 0 i.
Hypothesis element : forall k E, (k < N)%nat -> 0 <= E -> (forall i, (i < nx)%nat -> Rabs (x k i - Y (ph k) (tt k) i) <= E) ->
  forall i, (i < nx)%nat -> Rabs (x (S k) i - Y (ph k) (tt (S k)) i) <= (1 + a * (tt (S k) - tt k)) * E + b * (tt (S k) - tt k) * hn.
Hypothesis switch : forall k, (S k < N)%nat -> ph (S k) = ph k \/ (ph (S k) = S (ph k) /\ forall E, 0 <= E -> (forall i, (i < nx)%nat -> Rabs (x (S k) i - Y (ph k) (tt (S k)) i) <= E) ->
  Rabs (tt (S k) - T (ph (S k))) <= g * E /\ forall i, (i < nx)%nat -> Rabs (x (S k) i - Y (ph (S k)) (tt (S k)) i) <= G * E).
Definition level (r : nat) (z : R) : R := G ^ r * exp (a * z) * (b * z * hn).
Lemma gr r : 1 <= G ^ r. Proof. apply pow_R1_Rle, G1. Qed.
Lemma exp_ge z : 0 <= z -> 1 <= exp z.
Proof. intros Hz. pose proof (exp_ineq1_le z). lra. Qed.
Lemma level_nonneg r z : 0 <= z -> 0 <= level r z.
Proof.
  intros Hz. unfold level. pose proof (gr r). pose proof (exp_pos (a * z)). assert (0 <= b * z * hn) by (repeat apply Rmult_le_pos; assumption).
  apply Rmult_le_pos; [|assumption]. apply Rmult_le_pos; lra.
Qed.
Lemma level_step r z h : 0 <= z -> 0 <= h -> (1 + a * h) * level r z + b * h * hn <= level r (z + h).
Proof.
  intros Hz Hh. unfold level. pose proof (gr r) as P. set (g' := G ^ r) in *. rewrite Rmult_plus_distr_l, exp_plus.
  pose proof (exp_ineq1_le (a * h)) as Q. pose proof (exp_ge (a * z) ltac:(apply Rmult_le_pos; assumption)) as Q1. pose proof (exp_ge (a * h) ltac:(apply Rmult_le_pos; assumption)) as Q2.
  set (u := exp (a * z)) in *. set (v := exp (a * h)) in *.
  assert (S1 : 0 <= g' * u * (b * z * hn)) by (apply Rmult_le_pos; [apply Rmult_le_pos; lra|repeat apply Rmult_le_pos; assumption]).
  assert (S2 : (1 + a * h) * (g' * u * (b * z * hn)) <= v * (g' * u * (b * z * hn))) by (apply Rmult_le_compat_r; [exact S1|lra]).
  assert (S3 : 0 <= b * h * hn) by (repeat apply Rmult_le_pos; assumption).
  assert (S4 : 1 * 1 <= g' * u) by (apply Rmult_le_compat; lra).
  assert (S5 : 1 * 1 <= g' * u * v) by (apply Rmult_le_compat; lra).
  assert (S6 : 1 * (b * h * hn) <= g' * u * v * (b * h * hn)) by (apply Rmult_le_compat_r; lra).
  replace (g' * (u * v) * (b * (z + h) * hn)) with (v * (g' * u * (b * z * hn)) + g' * u * v * (b * h * hn)) by ring. lra.
Qed.
Lemma level_up r z : 0 <= z -> level r z <= level (S r) z /\ G * level r z = level (S r) z.
Proof.
  intros Hz. assert (E : G * level r z = level (S r) z) by (unfold level; cbn [pow]; ring). split; [|exact E]. rewrite <- E.
  pose proof (level_nonneg r z Hz). assert (1 * level r z <= G * level r z) by (apply Rmult_le_compat_r; assumption). lra.
Qed.
Lemma level_mono r r' z z' : (r <= r')%nat -> 0 <= z <= z' -> level r z <= level r' z'.
Proof.
  intros Hr [Hz Hz']. apply Rle_trans with (level r' z).
  - induction Hr as [|r' Hr IH]; [lra|]. pose proof (proj1 (level_up r' z Hz)). lra.
  - replace z' with (z + (z' - z)) by ring. eapply Rle_trans; [|apply level_step; lra].
    pose proof (level_nonneg r' z Hz) as P. assert (0 <= b * (z' - z) * hn) by (repeat apply Rmult_le_pos; lra).
    assert (0 <= a * (z' - z) * level r' z) by (apply Rmult_le_pos; [apply Rmult_le_pos; lra|exact P]). lra.
Qed.
Lemma start_errors k : (k < N)%nat -> forall i, (i < nx)%nat -> Rabs (x k i - Y (ph k) (tt k) i) <= level (ph k) (tt k).
Proof.
  induction k as [|k IH]; intros Hk i Hi.
  - rewrite ph0, tt0, (start i Hi). replace (Y 0%nat 0 i - Y 0%nat 0 i) with 0 by ring. rewrite Rabs_R0. apply level_nonneg. lra.
  - specialize (IH ltac:(lia)). pose proof (times k ltac:(lia)) as P. pose proof (mono k ltac:(lia)) as Q.
    assert (E : forall i, (i < nx)%nat -> Rabs (x (S k) i - Y (ph k) (tt (S k)) i) <= level (ph k) (tt (S k))).
    { intros i' Hi'. eapply Rle_trans; [apply (element k (level (ph k) (tt k)) ltac:(lia) (level_nonneg _ _ P) IH i' Hi')|].
      replace (tt (S k)) with (tt k + (tt (S k) - tt k)) at 3 by ring. apply level_step; lra. }
    destruct (switch k Hk) as [Es|[Es Sw]]; [rewrite Es; exact (E i Hi)|].
    destruct (Sw (level (ph k) (tt (S k))) (level_nonneg _ _ (Rle_trans _ _ _ P Q)) E) as [_ Sx]. eapply Rle_trans; [exact (Sx i Hi)|].
    rewrite Es. rewrite (proj2 (level_up (ph k) (tt (S k)) ltac:(lra))). lra.
Qed.
Lemma end_errors k : (k < N)%nat -> forall i, (i < nx)%nat -> Rabs (x (S k) i - Y (ph k) (tt (S k)) i) <= level (ph k) (tt (S k)).
Proof.
  intros Hk i Hi. pose proof (times k ltac:(lia)) as P. pose proof (mono k Hk) as Q.
  eapply Rle_trans; [apply (element k (level (ph k) (tt k)) Hk (level_nonneg _ _ P) (start_errors k Hk) i Hi)|].
  replace (tt (S k)) with (tt k + (tt (S k) - tt k)) at 3 by ring. apply level_step; lra.
Qed.
Lemma switch_errors k : (S k < N)%nat -> ph (S k) = S (ph k) -> Rabs (tt (S k) - T (ph (S k))) <= g * level (ph k) (tt (S k)).
Proof.
  intros Hk Es. pose proof (times (S k) ltac:(lia)) as P. destruct (switch k Hk) as [E|[_ Sw]]; [lia|]. apply (Sw _ (level_nonneg _ _ P)). apply end_errors. lia.
Qed.

(* how far the discrete solution may be from the interval of its piece *)
Variable bd : R.
Hypothesis bd0 : 0 <= bd.
Hypothesis Hbd : forall k, (S k < N)%nat -> g * level (ph k) (tt (S k)) <= bd.
Lemma not_early k : (k < N)%nat -> ph k = 0%nat \/ T (ph k) - bd <= tt k.
Proof.
  induction k as [|k IH]; intros Hk; [left; exact ph0|]. specialize (IH ltac:(lia)). pose proof (mono k ltac:(lia)).
  destruct (switch k Hk) as [Es|[Es _]]; [rewrite Es; destruct IH; [left; assumption|right; lra]|]. right.
  pose proof (switch_errors k Hk Es) as Q. pose proof (Hbd k Hk). pose proof (Rle_abs (T (ph (S k)) - tt (S k))) as W; rewrite Rabs_minus_sym in W; lra.
Qed.
Lemma next_piece k k' : (k <= k')%nat -> (k' < N)%nat -> (ph k <= ph k')%nat /\ (ph k' = ph k \/ tt (S k) <= T (S (ph k)) + bd).
Proof.
  induction 1 as [|k' Hk IH]; intros H; [split; [lia|left; reflexivity]|]. destruct (IH ltac:(lia)) as [P Q].
  destruct (switch k' H) as [Es|[Es _]]; [rewrite Es; split; assumption|]. split; [lia|]. right. destruct Q as [Q|Q]; [|exact Q].
  pose proof (switch_errors k' H Es) as W. rewrite Es, Q in W. pose proof (Hbd k' H) as B. rewrite Q in B. pose proof (tt_le (S k) (S k') ltac:(lia) ltac:(lia)).
  pose proof (Rle_abs (tt (S k') - T (S (ph k)))). lra.
Qed.
End Accumulate.
