(* Picard_proofs.v -- the collocation equations of one element have a solution when the step is short *)
From Coq Require Import Reals Lra Qreals.
From Verif Require Import Base Lib Sx Sx_proofs Utils Tableau Opts Model Ocp Problem Spec Tableau_proofs Poly_proofs Fesd Dcs_proofs Elem_proofs Mode_proofs Feas_proofs Feas2_proofs Exact_proofs ExistBase_proofs.
Local Open Scope R_scope.

(* ---- primitives of polynomials ---- *)
Fixpoint pintk (k : nat) (a : list R) : list R := match a with [] => [] | c :: a' => c / INR (S k) :: pintk (S k) a' end.
Lemma pintk_length a : forall k, length (pintk k a) = length a.
Proof. induction a as [|c a IH]; intros k; [reflexivity|]. cbn [pintk length]. rewrite IH. reflexivity. Qed.
Lemma pintk_der a x : forall k, INR (S k) * peval (pintk k a) x + x * peval (pder (pintk k a)) x = peval a x.
Proof.
  induction a as [|c a IH]; intros k; [cbn [pintk peval pder]; ring|].
  cbn [pintk]. rewrite pder_cons. cbn [peval]. rewrite <- (IH (S k)). rewrite (S_INR (S k)). field. apply not_0_INR. lia.
Qed.
Lemma primitive_der x0 a x : peval (pder (x0 :: pintk 0 a)) x = peval a x.
Proof. rewrite pder_cons, <- (pintk_der a x 0). change (INR 1) with 1. ring. Qed.

(* ---- a polynomial with given value at 0 and given derivatives at the nodes ---- *)
Section Nodes.
Variables (cp : list Q) (ns : nat).
Hypothesis Dc : distinct cp.
Hypothesis Ln : length cp = ns.
Notation tau := (fun j => Q2R (nth j cp 0%Q)).
Lemma basis : exists cs, mapM (lagrange_coeff cp) (seq 0 (length cp)) = Ok cs.
Proof.
  assert (G : forall l, (forall j, In j l -> (j < length cp)%nat) -> exists cs, mapM (lagrange_coeff cp) l = Ok cs).
  { induction l as [|j l IH]; intros A; [exists []; reflexivity|]. destruct (lagrange_ok cp Dc j (A j (or_introl eq_refl))) as (c & E & _).
    destruct (IH (fun j' Hj => A j' (or_intror Hj))) as (cs & Es). exists (c :: cs). cbn [mapM]. rewrite E. cbn [bind]. rewrite Es. reflexivity. }
  apply G. intros j Hj. apply in_seq in Hj. lia.
Qed.
Lemma hermite : exists P : R -> (nat -> R) -> list R, forall x0 V, (length (P x0 V) <= S ns)%nat /\ peval (P x0 V) 0 = x0 /\
  forall j, (j < ns)%nat -> peval (pder (P x0 V)) (tau j) = V j.
Proof.
  destruct basis as (cs & Ec). exists (fun x0 V => x0 :: pintk 0 (pcomb cs (map V (seq 0 ns)))). intros x0 V. split; [|split].
  - cbn [length]. rewrite pintk_length. pose proof (pcomb_length cs (length cp) (cs_all cp Dc cs Ec) (map V (seq 0 ns))). lia.
  - cbn [peval]. ring.
  - intros j Hj. rewrite primitive_der, pcomb_eval.
    destruct (lcomb_at cp Dc cs Ec (map V (seq 0 ns)) j (nth j cp 0%Q)) as (y & Hy & E).
    + rewrite map_length, seq_length. lia.
    + apply nth_error_nth'. lia.
    + rewrite E. rewrite nth_error_map in Hy. rewrite (nth_error_nth' (seq 0 ns) 0%nat) in Hy by (rewrite seq_length; exact Hj). rewrite seq_nth in Hy by exact Hj. cbn in Hy. congruence.
Qed.
End Nodes.

(* ---- fixed points ---- *)
Section Fixed.
Variables (ns nx : nat) (a : nat -> nat -> R) (F : (nat -> R) -> nat -> R) (x x0 : nat -> R) (h r L M Lam : R).
Hypothesis H0 : 0 <= h.
Hypothesis L0 : 0 <= L.
Hypothesis M0 : 0 <= M.
Hypothesis Ha : forall j, (j < ns)%nat -> rupto ns (fun q => Rabs (a j q)) <= Lam.
Hypothesis Lam0 : 0 <= Lam.
Definition ballx (y : nat -> R) : Prop := forall i, (i < nx)%nat -> Rabs (y i - x0 i) <= r.
Hypothesis BM : forall y i, ballx y -> (i < nx)%nat -> Rabs (F y i) <= M.
Hypothesis BL : forall y y' dl, ballx y -> ballx y' -> (forall i, (i < nx)%nat -> Rabs (y i - y' i) <= dl) -> forall i, (i < nx)%nat -> Rabs (F y i - F y' i) <= L * dl.
Hypothesis Near : forall i, (i < nx)%nat -> Rabs (x i - x0 i) + h * (Lam * M) <= r.
Hypothesis Short : h * Lam * L < 1.

Definition stagev (V : nat -> nat -> R) (j i : nat) : R := x i + h * rupto ns (fun q => a j q * V q i).
Lemma weighted j (W : nat -> R) B : (j < ns)%nat -> (forall q, (q < ns)%nat -> Rabs (W q) <= B) -> Rabs (rupto ns (fun q => a j q * W q)) <= Lam * B.
Proof.
  intros Hj A. assert (B0 : 0 <= B) by (eapply Rle_trans; [apply Rabs_pos|apply (A j Hj)]).
  assert (G : forall n, (n <= ns)%nat -> Rabs (rupto n (fun q => a j q * W q)) <= rupto n (fun q => Rabs (a j q)) * B).
  { induction n as [|n IH]; intros Hn; [unfold rupto; cbn; rewrite Rabs_R0; lra|]. rewrite !rupto_succ. specialize (IH ltac:(lia)).
    eapply Rle_trans; [apply Rabs_triang|]. rewrite Rabs_mult. pose proof (Rmult_le_compat_l _ _ _ (Rabs_pos (a j n)) (A n ltac:(lia))). lra. }
  eapply Rle_trans; [apply (G ns), le_n|]. apply Rmult_le_compat_r; [exact B0|apply Ha, Hj].
Qed.
Lemma stage_near V j i : (j < ns)%nat -> (i < nx)%nat -> (forall q, (q < ns)%nat -> Rabs (V q i) <= M) -> Rabs (stagev V j i - x0 i) <= Rabs (x i - x0 i) + h * (Lam * M).
Proof.
  intros Hj Hi A. unfold stagev. replace (_ - x0 i) with ((x i - x0 i) + h * rupto ns (fun q => a j q * V q i)) by ring.
  eapply Rle_trans; [apply Rabs_triang|]. apply Rplus_le_compat_l. rewrite Rabs_mult, (Rabs_right h) by lra.
  apply Rmult_le_compat_l; [exact H0|]. apply (weighted j (fun q => V q i)); assumption.
Qed.
Definition bounded_by (V : nat -> nat -> R) : Prop := forall j i, (j < ns)%nat -> (i < nx)%nat -> Rabs (V j i) <= M.
Lemma stage_ball V j : (j < ns)%nat -> bounded_by V -> ballx (stagev V j).
Proof. intros Hj A i Hi. eapply Rle_trans; [apply stage_near; try assumption; intros; apply A; assumption|apply Near, Hi]. Qed.
Lemma stage_diff V W j i dl : (j < ns)%nat -> (forall q, (q < ns)%nat -> Rabs (V q i - W q i) <= dl) -> Rabs (stagev V j i - stagev W j i) <= h * (Lam * dl).
Proof.
  intros Hj A. unfold stagev. replace (_ - _) with (h * rupto ns (fun q => a j q * (V q i - W q i))).
  - rewrite Rabs_mult, (Rabs_right h) by lra. apply Rmult_le_compat_l; [exact H0|]. apply weighted; assumption.
  - rewrite (rupto_ext _ _ (fun q => a j q * V q i + (-1) * (a j q * W q i))) by (intros; ring). rewrite rupto_plus, rupto_scale. ring.
Qed.
Lemma contract V W dl : bounded_by V -> bounded_by W -> (forall j i, (j < ns)%nat -> (i < nx)%nat -> Rabs (V j i - W j i) <= dl) ->
  forall j i, (j < ns)%nat -> (i < nx)%nat -> Rabs (F (stagev V j) i - F (stagev W j) i) <= (h * Lam * L) * dl.
Proof.
  intros BV BW A j i Hj Hi. replace (h * Lam * L * dl) with (L * (h * (Lam * dl))) by ring.
  apply BL; [apply stage_ball; assumption|apply stage_ball; assumption| |exact Hi].
  intros i' Hi'. apply stage_diff; [exact Hj|]. intros q Hq. apply A; assumption.
Qed.

Notation kap := (h * Lam * L).
Lemma kap0 : 0 <= kap. Proof. apply Rmult_le_pos; [apply Rmult_le_pos; assumption|assumption]. Qed.
Fixpoint iter (q : nat) (j i : nat) : R := match q with
  | O => 0
  | S q' => if ((j <? ns) && (i <? nx))%nat then F (stagev (iter q') j) i else 0
  end.
Lemma iter_S q j i : (j < ns)%nat -> (i < nx)%nat -> iter (S q) j i = F (stagev (iter q) j) i.
Proof. intros Hj Hi. cbn [iter]. apply Nat.ltb_lt in Hj, Hi. rewrite Hj, Hi. reflexivity. Qed.
Lemma iter_out q j i : ~ ((j < ns)%nat /\ (i < nx)%nat) -> iter q j i = 0.
Proof. intros A. destruct q; [reflexivity|]. cbn [iter]. destruct (j <? ns)%nat eqn:E1, (i <? nx)%nat eqn:E2; try reflexivity. apply Nat.ltb_lt in E1, E2. tauto. Qed.
Lemma iter_bounded q : bounded_by (iter q).
Proof.
  induction q as [|q IH]; intros j i Hj Hi; [cbn; rewrite Rabs_R0; exact M0|]. rewrite iter_S by assumption. apply BM; [apply stage_ball; assumption|exact Hi].
Qed.
Lemma iter_step q : forall j i, Rabs (iter (S q) j i - iter q j i) <= M * kap ^ q.
Proof.
  assert (G : forall j i, (j < ns)%nat -> (i < nx)%nat -> Rabs (iter (S q) j i - iter q j i) <= M * kap ^ q).
  { induction q as [|q IH]; intros j i Hj Hi.
    - cbn [pow]. replace (iter 1 j i - iter 0 j i) with (iter 1 j i) by (cbn [iter]; ring). rewrite Rmult_1_r. apply iter_bounded; assumption.
    - rewrite (iter_S (S q)), (iter_S q) by assumption. cbn [pow]. replace (M * (kap * kap ^ q)) with (kap * (M * kap ^ q)) by ring.
      apply contract; try apply iter_bounded; assumption. }
  intros j i. destruct (Nat.lt_decidable j ns) as [Hj|Hj], (Nat.lt_decidable i nx) as [Hi|Hi]; [apply G; assumption| | |]; rewrite !iter_out by tauto;
  rewrite Rminus_0_r, Rabs_R0; apply Rmult_le_pos; try exact M0; apply pow_le, kap0.
Qed.
Lemma iter_far q n j i : Rabs (iter (q + n) j i - iter q j i) <= M * kap ^ q / (1 - kap).
Proof.
  assert (K := kap0). assert (G : Rabs (iter (q + n) j i - iter q j i) <= M * kap ^ q * (1 - kap ^ n) / (1 - kap)).
  { induction n as [|n IH].
    - rewrite Nat.add_0_r. replace (iter q j i - iter q j i) with 0 by ring. rewrite Rabs_R0. cbn [pow]. replace (1 - 1) with 0 by ring. unfold Rdiv. rewrite Rmult_0_r, Rmult_0_l. lra.
    - rewrite Nat.add_succ_r. replace (iter (S (q + n)) j i - iter q j i) with ((iter (S (q + n)) j i - iter (q + n) j i) + (iter (q + n) j i - iter q j i)) by ring.
      eapply Rle_trans; [apply Rabs_triang|]. pose proof (iter_step (q + n) j i) as St. rewrite pow_add in St. cbn [pow].
      replace (M * kap ^ q * (1 - kap * kap ^ n) / (1 - kap)) with (M * (kap ^ q * kap ^ n) + M * kap ^ q * (1 - kap ^ n) / (1 - kap)) by (field; lra). lra. }
  eapply Rle_trans; [exact G|]. unfold Rdiv. apply Rmult_le_compat_r; [left; apply Rinv_0_lt_compat; lra|].
  rewrite <- (Rmult_1_r (M * kap ^ q)) at 2. apply Rmult_le_compat_l; [apply Rmult_le_pos; [exact M0|apply pow_le, K]|]. pose proof (pow_le kap n K). lra.
Qed.
Lemma geometric_small eps B : 0 < eps -> exists N, forall n, (N <= n)%nat -> B * kap ^ n < eps.
Proof.
  intros E. assert (K := kap0). assert (Bp : 0 < Rabs B + 1) by (pose proof (Rabs_pos B); lra).
  destruct (pow_lt_1_zero kap ltac:(rewrite Rabs_right; lra) (eps / (Rabs B + 1)) ltac:(apply Rdiv_lt_0_compat; lra)) as [N HN].
  exists N. intros n Hn. specialize (HN n ltac:(lia)). pose proof (pow_le kap n K) as P. rewrite (Rabs_right (kap ^ n)) in HN by lra.
  apply (Rle_lt_trans _ ((Rabs B + 1) * kap ^ n)); [apply Rmult_le_compat_r; [exact P|pose proof (Rle_abs B); lra]|].
  apply (Rmult_lt_compat_l (Rabs B + 1)) in HN; [|exact Bp]. replace ((Rabs B + 1) * (eps / (Rabs B + 1))) with eps in HN by (field; lra). exact HN.
Qed.
Lemma iter_cauchy j i : Cauchy_crit (fun q => iter q j i).
Proof.
  intros eps E. destruct (geometric_small (eps / 2) (M / (1 - kap)) ltac:(lra)) as [N HN]. exists N. intros n k Hn Hk.
  assert (G : forall n, (N <= n)%nat -> Rabs (iter n j i - iter N j i) < eps / 2).
  { intros n' Hn'. pose proof (iter_far N (n' - N) j i) as A. replace (N + (n' - N))%nat with n' in A by lia. eapply Rle_lt_trans; [exact A|].
    specialize (HN N (le_n _)). replace (M * kap ^ N / (1 - kap)) with (M / (1 - kap) * kap ^ N) by (field; lra). exact HN. }
  unfold R_dist. replace (iter n j i - iter k j i) with ((iter n j i - iter N j i) - (iter k j i - iter N j i)) by ring.
  pose proof (G n ltac:(lia)). pose proof (G k ltac:(lia)). eapply Rle_lt_trans; [apply Rabs_triang|]. rewrite Rabs_Ropp. lra.
Qed.
Definition limit (j i : nat) : R := proj1_sig (R_complete _ (iter_cauchy j i)).
Lemma limit_cv j i : Un_cv (fun q => iter q j i) (limit j i).
Proof. exact (proj2_sig (R_complete _ (iter_cauchy j i))). Qed.
Lemma limit_near q j i : Rabs (iter q j i - limit j i) <= M * kap ^ q / (1 - kap).
Proof.
  destruct (Rle_lt_dec (Rabs (iter q j i - limit j i)) (M * kap ^ q / (1 - kap))) as [A|A]; [exact A|exfalso].
  destruct (limit_cv j i (Rabs (iter q j i - limit j i) - M * kap ^ q / (1 - kap)) ltac:(lra)) as [N HN].
  specialize (HN (q + N)%nat ltac:(lia)). unfold R_dist in HN. pose proof (iter_far q N j i) as B.
  pose proof (Rabs_triang (iter (q + N) j i - limit j i) (- (iter (q + N) j i - iter q j i))) as T. rewrite Rabs_Ropp in T.
  replace (_ + - _) with (iter q j i - limit j i) in T by ring. lra.
Qed.
Lemma le_small u B : (forall q, u <= B * kap ^ q) -> u <= 0.
Proof.
  intros A. destruct (Rle_lt_dec u 0) as [P|P]; [exact P|]. destruct (geometric_small u B P) as [N HN]. specialize (HN N (le_n _)). specialize (A N). lra.
Qed.
Lemma limit_bounded : bounded_by limit.
Proof.
  intros j i Hj Hi. enough (Rabs (limit j i) - M <= 0) by lra. apply (le_small _ (M / (1 - kap))). intros q. pose proof (limit_near q j i) as A.
  pose proof (iter_bounded q j i Hj Hi) as B. pose proof (Rabs_triang (iter q j i) (- (iter q j i - limit j i))) as T. rewrite Rabs_Ropp in T.
  replace (_ + - _) with (limit j i) in T by ring. replace (M / (1 - kap) * kap ^ q) with (M * kap ^ q / (1 - kap)) by (field; lra). lra.
Qed.
Lemma limit_fixed j i : (j < ns)%nat -> (i < nx)%nat -> limit j i = F (stagev limit j) i.
Proof.
  intros Hj Hi. enough (Rabs (limit j i - F (stagev limit j) i) <= 0).
  { destruct (Rabs_pos (limit j i - F (stagev limit j) i)) as [P|P]; [lra|]. destruct (Req_dec (limit j i - F (stagev limit j) i) 0) as [Z|Z]; [lra|]. pose proof (Rabs_pos_lt _ Z). lra. }
  apply (le_small _ (2 * (kap * M) / (1 - kap))). intros q. pose proof (limit_near (S q) j i) as A. rewrite iter_S in A by assumption.
  pose proof (contract (iter q) limit _ (iter_bounded q) limit_bounded (fun j' i' _ _ => limit_near q j' i') j i Hj Hi) as B.
  pose proof (Rabs_triang (- (F (stagev (iter q) j) i - limit j i)) (F (stagev (iter q) j) i - F (stagev limit j) i)) as T. rewrite Rabs_Ropp in T.
  replace (- _ + _) with (limit j i - F (stagev limit j) i) in T by ring. cbn [pow] in A.
  replace (2 * (kap * M) / (1 - kap) * kap ^ q) with (M * (kap * kap ^ q) / (1 - kap) + kap * (M * kap ^ q / (1 - kap))) by (field; lra). lra.
Qed.
Lemma fixed_point : exists V, bounded_by V /\ forall j i, (j < ns)%nat -> (i < nx)%nat -> V j i = F (stagev V j) i.
Proof. exists limit. split; [exact limit_bounded|exact limit_fixed]. Qed.
(* two solutions in the ball agree *)
Lemma fixed_unique V W : bounded_by V -> bounded_by W ->
  (forall j i, (j < ns)%nat -> (i < nx)%nat -> V j i = F (stagev V j) i) -> (forall j i, (j < ns)%nat -> (i < nx)%nat -> W j i = F (stagev W j) i) ->
  forall j i, (j < ns)%nat -> (i < nx)%nat -> V j i = W j i.
Proof.
  intros BV BW EV EW j i Hj Hi. assert (G : forall q j i, (j < ns)%nat -> (i < nx)%nat -> Rabs (V j i - W j i) <= (2 * M) * kap ^ q).
  { induction q as [|q IH]; intros j' i' Hj' Hi'.
    - cbn [pow]. rewrite Rmult_1_r. pose proof (BV j' i' Hj' Hi'). pose proof (BW j' i' Hj' Hi'). eapply Rle_trans; [apply Rabs_triang|]. rewrite Rabs_Ropp. lra.
    - rewrite (EV j' i'), (EW j' i') by assumption. cbn [pow]. replace (2 * M * (kap * kap ^ q)) with (kap * (2 * M * kap ^ q)) by ring. apply contract; assumption. }
  pose proof (le_small _ _ (fun q => G q j i Hj Hi)) as A.
  destruct (Req_dec (V j i - W j i) 0) as [Z|Z]; [lra|]. pose proof (Rabs_pos_lt _ Z). lra.
Qed.
End Fixed.
