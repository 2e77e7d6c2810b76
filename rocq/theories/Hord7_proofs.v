(* Hord7_proofs.v -- the order of the method over whole simulations *)
From Coq Require Import Reals Qreals Lra Psatz.
From Verif Require Import Base Lib Sx Sx_proofs Utils Tableau Opts Model Ocp Problem Numeric Rk4 Results Solver Looper Spec Fesd Spec2 Spec3 Spec4 Spec5 Spec6
  Model_proofs Con_proofs Index_proofs Index3_proofs Sem_proofs Dcs_proofs Point_proofs Elem_proofs Nlp_proofs Poly_proofs Feas_proofs Feas2_proofs Mode_proofs Smooth_proofs
  Solve_proofs Solve2_proofs Solve4_proofs Looper_proofs Init_proofs Init2_proofs
  Spec9 Filippov_proofs Filippov2_proofs Filippov3_proofs Spec10 Exact_proofs Exact2_proofs Spec11 Spec19 Sim_proofs Sim2_proofs Sim3_proofs Spec20 Soft_proofs Spec21 Conv_proofs Conv2_proofs Conv3_proofs Conv4_proofs
  Spec27 Run_proofs Run2_proofs Spec28 Hord1_proofs Hord2_proofs Hord3_proofs Hord4_proofs Hord6_proofs Spec34.
Local Open Scope R_scope.

Lemma rupto_join (f : nat -> R) a : forall b, rupto (a + b) f = rupto a f + rupto b (fun k => f (a + k)%nat).
Proof. induction b as [|b IH]; [rewrite Nat.add_0_r, rupto_0; ring|]. rewrite Nat.add_succ_r, !rupto_succ, IH. ring. Qed.
Lemma pos_div n s e : (e < n)%nat -> ((s * n + e) / n = s)%nat /\ ((s * n + e) mod n = e)%nat.
Proof.
  intros He. split.
  - rewrite Nat.add_comm, Nat.div_add by lia. rewrite Nat.div_small by exact He. reflexivity.
  - rewrite Nat.add_comm, Nat.mod_add by lia. apply Nat.mod_small, He.
Qed.
Lemma pos_of n L k : (k < L * n)%nat -> exists s e, (s < L)%nat /\ (e < n)%nat /\ k = (s * n + e)%nat.
Proof.
  intros H. assert (Hn : n <> 0%nat) by (intros ->; lia). exists (k / n)%nat, (k mod n)%nat. split; [apply Nat.div_lt_upper_bound; lia|].
  split; [apply Nat.mod_upper_bound, Hn|]. rewrite Nat.mul_comm. apply Nat.div_mod, Hn.
Qed.
Lemma pos_lt n L s e : (s < L)%nat -> (e < n)%nat -> (s * n + e < L * n)%nat.
Proof. intros Hs He. assert (S s * n <= L * n)%nat by (apply Nat.mul_le_mono_r; lia). cbn in *. lia. Qed.

Section Run.
Variables (lr : Q -> Q -> Q -> nat) (cp : nat -> scheme -> list Q) (d : ipopt_dict) (o : opts) (m : model) (oc : option ocp) (C : constructed).
Hypothesis FP : fesd_problem lr cp d o m oc C.
Hypothesis EX : extractable (the_opts C) m.
Hypothesis HS : o_pss (the_opts C) = Stewart \/ (gS_given m = false /\ n_subsystems m = 1%nat).
Notation O := (the_opts C).
Notation t := (cn_tab C).
Variables (nlp : nat -> nlp_call -> res nlp_ret) (x0 : list R) (Nsim : nat) (pv : option (list (list R))) (pc : nat) (wi : option (list (list R)))
  (lp : looper) (s : sstate) (tr : list (sstate * solve_out)) (lp' : looper) (rho : nat -> env).
Hypothesis LI : looper_init (cn_prob C) x0 Nsim pv pc wi = Ok lp.
Hypothesis SI : simulation nlp C m 0 lp s tr lp'.
Variable h : R.
Hypothesis SS : forall k q, nth_error tr k = Some q -> solved_relaxed C (snd q) (rho k) /\ steps_upto O (rho k) h.
Let N1 : o_N_stages O = 1%nat := run_N1 lr cp d o m oc C FP x0 Nsim pv pc wi lp LI.
Notation ne := (nfe_of O 0).
Notation N := (length tr * ne)%nat.
Let ne0 : (0 < ne)%nat := ne_pos _ _ _ _ _ _ _ FP N1.

Lemma step_of k : (k < length tr)%nat -> exists si out, nth_error tr k = Some (si, out).
Proof. intros Hk. destruct (nth_error tr k) as [[si out]|] eqn:E; [eauto|apply nth_error_None in E; lia]. Qed.
Lemma step_sol k : (k < length tr)%nat -> feasible (rho k) (the_nlp C) /\ steps_upto O (rho k) h.
Proof. intros Hk. destruct (step_of k Hk) as (si & out & E). destruct (SS k _ E) as [A B]. split; [exact (sr_feasible _ _ _ A)|exact B]. Qed.
Lemma step_next k : (k < length tr)%nat -> elapsed tr (S k) = elapsed tr k + rupto ne (step_len O (rho k) 0).
Proof.
  intros Hk. destruct (step_of k Hk) as (si & out & E). rewrite (elapsed_succ tr k _ E). cbn [snd]. f_equal. destruct (sm_solve _ _ _ _ _ _ _ _ SI k si out E) as (_ & t' & Es).
  rewrite (r_total _ _ _ _ _ _ _ FP N1 EX nlp si t' out (rho k) Es (proj1 (SS k _ E))). apply r_end, N1.
Qed.
Lemma step_first i : (0 < length tr)%nat -> (i < m_nx m)%nat -> rho 0%nat (SX0 i) = nth i x0 0.
Proof.
  intros H0 Hi. destruct (step_of 0 H0) as (si & out & E). destruct (sm_solve _ _ _ _ _ _ _ _ SI 0%nat si out E) as (Z & t' & Es).
  rewrite (r_x0 _ _ _ _ _ _ _ FP N1 nlp si t' out (rho 0%nat) Es (proj1 (SS 0%nat _ E)) HS Z i Hi).
  destruct (sm_first _ _ _ _ _ _ _ _ SI si out E) as [-> _]. destruct (init_start C x0 Nsim pv pc wi lp LI) as [-> _]. reflexivity.
Qed.
Lemma step_after k i : (S k < length tr)%nat -> (i < m_nx m)%nat -> rho (S k) (SX0 i) = end_state O t (rho k) 0 (ne - 1) i.
Proof.
  intros Hk Hi. destruct (step_of k ltac:(lia)) as (si & out & E). destruct (step_of (S k) Hk) as (sj & out' & E').
  destruct (sm_solve _ _ _ _ _ _ _ _ SI k si out E) as (_ & t1 & Es). destruct (sm_solve _ _ _ _ _ _ _ _ SI (S k) sj out' E') as (Z & t2 & Es').
  rewrite (r_x0 _ _ _ _ _ _ _ FP N1 nlp sj t2 out' (rho (S k)) Es' (proj1 (SS _ _ E')) HS Z i Hi).
  destruct (sm_next _ _ _ _ _ _ _ _ SI k si out sj out' t1 E E' Es) as [LA _]. destruct LA as [_ LA].
  destruct (r_results _ _ _ _ _ _ _ FP N1 EX nlp si t1 out (rho k) Es (proj1 (SS k _ E))) as [_ R]. rewrite R in LA. rewrite map_length, seq_length in LA. rewrite <- R in LA.
  destruct (r_state _ _ _ _ _ _ _ FP N1 EX nlp si t1 out (rho k) Es (proj1 (SS k _ E)) _ _ i LA Hi) as [_ Q]. exact Q.
Qed.

(* all elements of the simulation in one sequence *)
Definition at_elem {X} (f : nat -> nat -> X) (k : nat) : X := f (k / ne)%nat (k mod ne)%nat.
Lemma at_pos {X} (f : nat -> nat -> X) a e : (e < ne)%nat -> at_elem f (a * ne + e) = f a e.
Proof. intros He. unfold at_elem. destruct (pos_div ne a e He) as [-> ->]. reflexivity. Qed.
Definition tq (k : nat) : R := rupto k (at_elem (fun a e => step_len O (rho a) 0 e)).
Definition xq (k : nat) : nat -> R := match k with 0%nat => fun i => nth i x0 0 | S k' => at_elem (fun a e => end_state O t (rho a) 0 e) k' end.
Lemma tq_step : forall a, (a <= length tr)%nat -> tq (a * ne) = elapsed tr a.
Proof.
  induction a as [|a IH]; intros Ha; [rewrite elapsed_0; reflexivity|]. specialize (IH ltac:(lia)). cbn [Nat.mul]. rewrite Nat.add_comm. unfold tq in *. rewrite rupto_join, IH, (step_next a) by lia.
  f_equal. apply rupto_ext. intros e He. apply (at_pos (fun a e => step_len O (rho a) 0 e)), He.
Qed.
Lemma tq_at a e : (a < length tr)%nat -> (e < ne)%nat -> tq (a * ne + e) = run_time O rho tr a e.
Proof.
  intros Ha He. unfold tq. rewrite rupto_join. fold (tq (a * ne)). rewrite (tq_step a) by lia. unfold run_time. rewrite r_time. f_equal.
  apply rupto_ext. intros e' He'. apply (at_pos (fun a e => step_len O (rho a) 0 e)). lia.
Qed.
Lemma tq_next a e : (a < length tr)%nat -> (e < ne)%nat -> tq (S (a * ne + e)) = run_time O rho tr a e + step_len O (rho a) 0 e.
Proof. intros Ha He. unfold tq. rewrite rupto_succ. fold (tq (a * ne + e)). rewrite (tq_at a e Ha He), (at_pos (fun a e => step_len O (rho a) 0 e)) by exact He. reflexivity. Qed.
Lemma tq_end : tq N = elapsed tr (length tr). Proof. apply tq_step. lia. Qed.
Lemma elem_steps a e : (a < length tr)%nat -> (e < ne)%nat -> 0 <= step_len O (rho a) 0 e <= h.
Proof. intros Ha He. apply (proj2 (step_sol a Ha)). apply (r_elem C N1), He. Qed.
Lemma tq_mono k : (k < N)%nat -> tq k <= tq (S k).
Proof. intros Hk. destruct (pos_of ne _ k Hk) as (a & e & Ha & He & ->). rewrite (tq_at a e Ha He), (tq_next a e Ha He). pose proof (elem_steps a e Ha He). lra. Qed.
Lemma xq_start a e i : (a < length tr)%nat -> (e < ne)%nat -> (i < m_nx m)%nat -> xq (a * ne + e) i = start_state O t (rho a) 0 e i.
Proof.
  intros Ha He Hi. destruct e as [|e].
  - rewrite Nat.add_0_r. destruct a as [|a].
    + cbn [Nat.mul xq]. unfold start_state. cbn [before state_at]. symmetry. apply step_first; [exact Ha|exact Hi].
    + replace (S a * ne)%nat with (S (a * ne + (ne - 1))) by (cbn [Nat.mul]; lia). cbn [xq]. rewrite (at_pos (fun a e => end_state O t (rho a) 0 e)) by lia.
      unfold start_state. cbn [before state_at]. symmetry. apply step_after; [exact Ha|exact Hi].
  - rewrite Nat.add_succ_r. cbn [xq]. rewrite (at_pos (fun a e => end_state O t (rho a) 0 e)) by lia. reflexivity.
Qed.
Lemma xq_next a e : (e < ne)%nat -> xq (S (a * ne + e)) = end_state O t (rho a) 0 e.
Proof. intros He. cbn [xq]. apply (at_pos (fun a e => end_state O t (rho a) 0 e)), He. Qed.
Lemma run_before_pos a e a' e' : (e < ne)%nat -> run_before O a e = Some (a', e') -> (e' < ne)%nat /\ (a * ne + e = S (a' * ne + e'))%nat /\ (a' <= a)%nat.
Proof.
  intros He E. unfold run_before in E. destruct e as [|e].
  - destruct a as [|a]; [discriminate|]. injection E as <- <-. cbn [Nat.mul]. lia.
  - injection E as <- <-. lia.
Qed.
Lemma run_before_next k a e : (e < ne)%nat -> (S k = a * ne + e)%nat -> exists a' e', run_before O a e = Some (a', e') /\ (e' < ne)%nat /\ (a' <= a)%nat /\ k = (a' * ne + e')%nat.
Proof.
  intros He Ek. destruct (run_before O a e) as [[a' e']|] eqn:E.
  - destruct (run_before_pos a e a' e' He E) as (A & B & D). exists a', e'. split; [reflexivity|]. split; [exact A|]. split; [exact D|]. lia.
  - unfold run_before in E. destruct e; [|discriminate]. destruct a; [|discriminate]. cbn in Ek. discriminate.
Qed.

Hypothesis PO : points_ok cp O.
Hypothesis PI : points_inside cp O.
Hypothesis PF : plain_fields m.
Variables (sc : scheme) (n : nat).
Hypothesis Me : method Integral sc n O.
Variables (A : nat -> nat -> R) (b : nat -> R) (K : R).
Hypothesis Rows : forall o t m rho c e, method Integral sc n o -> make_tab cp o = Ok t -> points_ok cp o ->
  (0 < n)%nat ->
  (forall q, (length q <= S n)%nat ->
     (forall j, (j < n)%nat -> peval q (Q2R (nth j (cp n sc) 0%Q)) - peval q 0 = rupto n (fun k => A j k * peval (pder q) (Q2R (nth k (cp n sc) 0%Q)))) /\
     peval q 1 - peval q 0 = rupto n (fun k => b k * peval (pder q) (Q2R (nth k (cp n sc) 0%Q)))) /\
  (collocation o t m rho c e -> continuity o t m rho c e -> forall i, (i < m_nx m)%nat ->
     (forall j, (j < n)%nat -> stage_state o t rho c e j i - start_state o t rho c e i =
        step_len o rho c e * rupto n (fun k => A j k * (speed o rho c * rhs o m (stage_point o t m rho c e k) i))) /\
     end_state o t rho c e i - start_state o t rho c e i =
        step_len o rho c e * rupto n (fun k => b k * (speed o rho c * rhs o m (stage_point o t m rho c e k) i))).
Hypothesis K0 : 0 <= K.
Hypothesis HA : forall j, (j < n)%nat -> rupto n (fun k => Rabs (A j k)) <= K.
Hypothesis Hb : rupto n (fun k => Rabs (b k)) <= K.
Variables (D : (nat -> R) -> Prop) (Lf M B Lpsi kappa : R) (P : nat -> piece) (last : nat) (ph : nat -> nat -> nat) (Y : R -> nat -> R).
Hypothesis L0 : 0 <= Lf. Hypothesis M0 : 0 <= M. Hypothesis B0 : 0 <= B. Hypothesis Lp0 : 0 <= Lpsi. Hypothesis kp : 0 < kappa.
Hypothesis Hs : K * Lf * h <= / 2.
Hypothesis Reg : run_regular O m rho tr D n Lf M B P ph.
Hypothesis Fo : run_follows O t m rho tr D Lpsi kappa P last ph.
Hypothesis CY : run_consists m tr x0 Y P last.
Notation g := (ga Lpsi kappa).
Notation Gq := (G g M).
Definition pq (k : nat) : nat := at_elem ph k.
Lemma pq_at a e : (e < ne)%nat -> pq (a * ne + e) = ph a e. Proof. exact (at_pos ph a e). Qed.

Lemma has_step : (0 < length tr)%nat.
Proof. destruct (proj2 Fo) as (a & e & [Ha _] & _). lia. Qed.
Lemma pq0 : pq 0 = 0%nat.
Proof. destruct (proj1 Fo 0%nat 0%nat (conj has_step ne0)) as (_ & _ & _ & _ & Q). cbn [run_before] in Q. rewrite <- Q at 2. exact (pq_at 0 0 ne0). Qed.
Lemma pq_last k : (k < N)%nat -> (pq k <= last)%nat.
Proof. intros Hk. destruct (pos_of ne _ k Hk) as (a & e & Ha & He & ->). rewrite (pq_at a e He). apply (proj1 Fo a e (conj Ha He)). Qed.
Lemma pq_reached : exists k, (k < N)%nat /\ pq k = last.
Proof. destruct (proj2 Fo) as (a & e & [Ha He] & Q). exists (a * ne + e)%nat. split; [exact (pos_lt ne _ a e Ha He)|]. rewrite (pq_at a e He). exact Q. Qed.
Lemma pq_next k : (S k < N)%nat -> pq (S k) = pq k \/ pq (S k) = S (pq k).
Proof.
  intros Hk. destruct (pos_of ne _ (S k) Hk) as (a & e & Ha & He & Ek). destruct (run_before_next k a e He Ek) as (a' & e' & Eb & He' & _ & Ek').
  rewrite Ek, Ek', (pq_at a e He), (pq_at a' e' He'). destruct (proj1 Fo a e (conj Ha He)) as (_ & _ & _ & _ & Q). rewrite Eb in Q. destruct Q as [Q|[Q _]]; auto.
Qed.
Lemma pq_all : forall k, (k < N)%nat -> forall r, (r <= pq k)%nat -> exists k', (k' < N)%nat /\ pq k' = r.
Proof.
  induction k as [|k IH]; intros Hk r Hr.
  - rewrite pq0 in Hr. exists 0%nat. split; [exact Hk|]. rewrite pq0. lia.
  - destruct (Nat.eq_dec r (pq (S k))) as [->|Hne]; [exists (S k); auto|]. apply IH; [lia|]. destruct (pq_next k Hk); lia.
Qed.
Lemma used r : (r <= last)%nat -> exists a e, run_element O tr a e /\ ph a e = r.
Proof.
  intros Hr. destruct pq_reached as (k & Hk & Ek). destruct (pq_all k Hk r ltac:(lia)) as (k' & Hk' & E'). destruct (pos_of ne _ k' Hk') as (a & e & Ha & He & ->).
  exists a, e. split; [split; assumption|]. rewrite <- (pq_at a e He). exact E'.
Qed.
Lemma curves r : (r <= last)%nat -> forall z z' i, pc_lo (P r) <= z <= pc_hi (P r) -> pc_lo (P r) <= z' <= pc_hi (P r) -> (i < m_nx m)%nat ->
  Rabs (pc_curve (P r) z i - pc_curve (P r) z' i) <= M * Rabs (z - z').
Proof.
  intros Hr z z' i Hz Hz' Hi. destruct (used r Hr) as (a & e & He & Er). pose proof (Reg a e He) as Q. rewrite Er in Q.
  pose proof (curve_lipschitz _ _ _ _ _ _ _ _ _ Q (z - elapsed tr a) (z' - elapsed tr a) i) as L. cbn [piece_in counted_from pc_lo pc_hi pc_curve] in L.
  replace (elapsed tr a + (z - elapsed tr a)) with z in L by ring. replace (elapsed tr a + (z' - elapsed tr a)) with z' in L by ring.
  replace (z - elapsed tr a - (z' - elapsed tr a)) with (z - z') in L by ring. apply L; [lra|lra|exact Hi].
Qed.
Lemma in_D r z : (r <= last)%nat -> pc_lo (P r) <= z <= pc_hi (P r) -> D (pc_curve (P r) z).
Proof.
  intros Hr Hz. destruct (used r Hr) as (a & e & He & Er). pose proof (Reg a e He) as ((Q & _) & _). rewrite Er in Q. specialize (Q (z - elapsed tr a)).
  cbn [piece_in counted_from pc_lo pc_hi pc_curve] in Q. replace (elapsed tr a + (z - elapsed tr a)) with z in Q by ring. apply Q. lra.
Qed.
Lemma g0 : 0 <= g. Proof. apply ga0; assumption. Qed.
Lemma start_q i : (i < m_nx m)%nat -> xq 0 i = pc_curve (P 0%nat) 0 i.
Proof.
  intros Hi. cbn [xq]. destruct CY as (S0 & Y0 & _ & Pc). rewrite <- (Y0 i Hi). destruct (Pc 0%nat (Nat.le_0_l _)) as (P1 & _ & _ & P2). rewrite S0 in *. apply P2; [lra|exact Hi].
Qed.
Lemma dom_q a e : run_element O tr a e -> pc_lo (P (ph a e)) <= run_time O rho tr a e /\ run_time O rho tr a e + step_len O (rho a) 0 e <= pc_hi (P (ph a e)).
Proof. intros He. destruct (proj1 Fo a e He) as (_ & (_ & Q1 & Q2 & _) & _). cbn [piece_in counted_from pc_lo pc_hi] in Q1, Q2. unfold run_time. lra. Qed.
Lemma element_q k E : (k < N)%nat -> 0 <= E -> (forall i, (i < m_nx m)%nat -> Rabs (xq k i - pc_curve (P (pq k)) (tq k) i) <= E) ->
  forall i, (i < m_nx m)%nat -> Rabs (xq (S k) i - pc_curve (P (pq k)) (tq (S k)) i) <= (1 + 2 * K * Lf * (tq (S k) - tq k)) * E + 2 * (1 + K) * B * (tq (S k) - tq k) * h ^ n.
Proof.
  intros Hk E0 HE i Hi. destruct (pos_of ne _ k Hk) as (a & e & Ha & He & Ek). rewrite Ek in *.
  rewrite (tq_next a e Ha He), (pq_at a e He), (xq_next a e He) in *. rewrite (tq_at a e Ha He) in *.
  replace (run_time O rho tr a e + step_len O (rho a) 0 e - run_time O rho tr a e) with (step_len O (rho a) 0 e) by ring.
  destruct (elem_steps a e Ha He) as [h0 h1]. set (hk := step_len O (rho a) 0 e) in *. assert (KL : 0 <= K * Lf) by (apply Rmult_le_pos; assumption).
  destruct (proj1 Fo a e (conj Ha He)) as (_ & IP & _).
  pose proof (one_element lr cp d o m oc C (rho a) FP (proj1 (step_sol a Ha)) PO PI PF sc n Me A b K Rows K0 HA Hb D Lf M B L0 B0 (piece_in tr P a (ph a e)) 0 e E
    (r_elem C N1 e He) (Reg a e (conj Ha He)) IP h0) as Q. fold hk in Q. cbn [piece_in counted_from pc_curve] in Q. unfold run_time in *.
  rewrite Rplus_assoc. eapply Rle_trans; [apply Q; try assumption|].
  - assert (K * Lf * hk <= K * Lf * h) by (apply Rmult_le_compat_l; assumption). lra.
  - intros i' Hi'. rewrite <- (xq_start a e i' Ha He Hi'). exact (HE i' Hi').
  - apply Rplus_le_compat_l. assert (Pw : hk ^ n <= h ^ n) by (apply pow_incr; lra).
    assert (Z : 0 <= 2 * (1 + K) * B * hk) by (repeat apply Rmult_le_pos; lra). apply (Rmult_le_compat_l _ _ _ Z) in Pw. lra.
Qed.
Lemma switch_q k : (S k < N)%nat -> pq (S k) = pq k \/ (pq (S k) = S (pq k) /\ forall E, 0 <= E -> (forall i, (i < m_nx m)%nat -> Rabs (xq (S k) i - pc_curve (P (pq k)) (tq (S k)) i) <= E) ->
  Rabs (tq (S k) - pc_start (P (pq (S k)))) <= g * E /\ forall i, (i < m_nx m)%nat -> Rabs (xq (S k) i - pc_curve (P (pq (S k))) (tq (S k)) i) <= Gq * E).
Proof.
  intros Hk. destruct (pos_of ne _ (S k) Hk) as (a & e & Ha & He & Ek). destruct (run_before_next k a e He Ek) as (a' & e' & Eb & He' & La & Ek').
  assert (E1 : pq (S k) = ph a e) by (rewrite Ek; exact (pq_at a e He)). assert (E2 : pq k = ph a' e') by (rewrite Ek'; exact (pq_at a' e' He')). rewrite E1, E2. assert (Ha' : (a' < length tr)%nat) by lia.
  destruct (proj1 Fo a e (conj Ha He)) as (Pl & IP & Ds & _ & Q). rewrite Eb in Q. destruct (proj1 Fo a' e' (conj Ha' He')) as (Pl' & IP' & _).
  destruct Q as [Q|[Q Go]]; [left; exact Q|]. right. split; [exact Q|]. intros E E0 HE.
  destruct CY as (_ & _ & J & _). destruct (J (ph a' e') ltac:(lia)) as (J1 & J2 & J3). rewrite <- Q in J1, J2, J3.
  pose proof (dom_q a' e' (conj Ha' He')) as D1. pose proof (dom_q a e (conj Ha He)) as D2. pose proof (elem_steps a' e' Ha' He') as S1'. pose proof (elem_steps a e Ha He) as S2'.
  assert (T1 : tq (S k) = run_time O rho tr a e) by (rewrite Ek; exact (tq_at a e Ha He)).
  assert (T2 : tq (S k) = run_time O rho tr a' e' + step_len O (rho a') 0 e') by (rewrite Ek'; exact (tq_next a' e' Ha' He')).
  assert (X1 : xq (S k) = end_state O t (rho a') 0 e') by (rewrite Ek'; exact (xq_next a' e' He')).
  assert (X2 : forall i, (i < m_nx m)%nat -> xq (S k) i = start_state O t (rho a) 0 e i) by (rewrite Ek; intros i Hi; exact (xq_start a e i Ha He Hi)).
  rewrite X1, T1 in *.
  set (z := run_time O rho tr a e) in *. set (x := end_state O t (rho a') 0 e') in *.
  assert (Tm : Rabs (z - pc_start (P (ph a e))) <= g * E).
  { destruct Go as [Go|[[Cr Li] Z]].
    - cbn [piece_in counted_from pc_start] in Go. assert (Ez : z = pc_start (P (ph a e))) by (unfold z, run_time; lra). rewrite Ez.
      replace (pc_start (P (ph a e)) - pc_start (P (ph a e))) with 0 by ring. rewrite Rabs_R0. apply Rmult_le_pos; [exact g0|exact E0].
    - specialize (Cr (z - elapsed tr a)). cbn [piece_in counted_from pc_lo pc_hi pc_start pc_curve pc_switch] in Cr, Li, Z.
      replace (elapsed tr a + (z - elapsed tr a)) with z in Cr by ring. replace (z - elapsed tr a - (pc_start (P (ph a e)) - elapsed tr a)) with (z - pc_start (P (ph a e))) in Cr by ring.
      specialize (Cr ltac:(lra)).
      pose proof (Li (pc_curve (P (ph a' e')) z) (start_state O t (rho a) 0 e) E) as L.
      assert (Nb : near_by m (pc_curve (P (ph a' e')) z) (start_state O t (rho a) 0 e) E).
      { intros i Hi. rewrite <- (X2 i Hi), Rabs_minus_sym. apply HE, Hi. }
      specialize (L (in_D (ph a' e') z Pl' ltac:(lra)) Ds Nb). rewrite Z, Rminus_0_r in L.
      apply (Rmult_le_reg_l kappa); [exact kp|]. eapply Rle_trans; [exact Cr|]. eapply Rle_trans; [exact L|]. unfold ga. right. field. lra. }
  split; [exact Tm|]. intros i Hi.
  pose proof (curves (ph a' e') Pl' z (pc_start (P (ph a e))) i ltac:(lra) J1 Hi) as Q1.
  pose proof (curves (ph a e) Pl z (pc_start (P (ph a e))) i ltac:(lra) J2 Hi) as Q2. rewrite (J3 i Hi) in Q1.
  apply (Rmult_le_compat_l M _ _ M0) in Tm. specialize (HE i Hi). unfold G.
  set (y := pc_curve (P (ph a e)) (pc_start (P (ph a e))) i) in *.
  replace (x i - pc_curve (P (ph a e)) z i) with ((x i - pc_curve (P (ph a' e')) z i) + (pc_curve (P (ph a' e')) z i - y) + (y - pc_curve (P (ph a e)) z i)) by ring.
  eapply Rle_trans; [apply Rabs_triang|]. rewrite (Rabs_minus_sym y). eapply Rle_trans; [apply Rplus_le_compat_r, Rabs_triang|]. lra.
Qed.

Notation bd := (bound N tq last (2 * K * Lf) (2 * (1 + K) * B) g M (h ^ n)).
Lemma h_nonneg : 0 <= h. Proof. pose proof (elem_steps 0%nat 0%nat has_step ne0). lra. Qed.
Lemma pe_run r : pe N tq P last r = run_piece_end tr P last r.
Proof. unfold pe, run_piece_end. rewrite tq_end. reflexivity. Qed.
Lemma pieces_q r : (r <= last)%nat -> pc_start (P r) <= pe N tq P last r /\ pc_lo (P r) <= pc_start (P r) /\ pe N tq P last r <= pc_hi (P r) /\
  forall tm i, pc_start (P r) <= tm <= pe N tq P last r -> (i < m_nx m)%nat -> Y tm i = pc_curve (P r) tm i.
Proof. rewrite pe_run. apply CY. Qed.
Lemma dom_seq k : (k < N)%nat -> pc_lo (P (pq k)) <= tq (S k) <= pc_hi (P (pq k)).
Proof.
  intros Hk. destruct (pos_of ne _ k Hk) as (a & e & Ha & He & Ek). rewrite Ek, (pq_at a e He), (tq_next a e Ha He).
  pose proof (dom_q a e (conj Ha He)). pose proof (elem_steps a e Ha He). lra.
Qed.
Lemma sim_states a e : run_element O tr a e -> near_by m (end_state O t (rho a) 0 e) (Y (run_time O rho tr a e + step_len O (rho a) 0 e)) (Gq * bd).
Proof.
  intros [Ha He] i Hi. pose proof h_nonneg as h0. pose proof g0 as gg.
  assert (a0 : 0 <= 2 * K * Lf) by (repeat apply Rmult_le_pos; lra). assert (b0 : 0 <= 2 * (1 + K) * B) by (repeat apply Rmult_le_pos; lra).
  rewrite <- (xq_next a e He), <- (tq_next a e Ha He).
  exact (chain_order N (m_nx m) tq pq xq P last Y _ _ g M (h ^ n) a0 b0 gg M0 (pow_le h n h0) (rupto_0 _) tq_mono pq0 start_q element_q switch_q curves dom_seq pq_last pq_reached
    (proj1 CY) pieces_q (a * ne + e) i (pos_lt ne _ a e Ha He) Hi).
Qed.
Lemma sim_times a e a' e' : run_element O tr a e -> run_before O a e = Some (a', e') -> ph a e <> ph a' e' ->
  Rabs (run_time O rho tr a e - pc_start (P (ph a e))) <= g * bd.
Proof.
  intros [Ha He] Eb Hne. pose proof h_nonneg as h0. pose proof g0 as gg.
  assert (a0 : 0 <= 2 * K * Lf) by (repeat apply Rmult_le_pos; lra). assert (b0 : 0 <= 2 * (1 + K) * B) by (repeat apply Rmult_le_pos; lra).
  destruct (run_before_pos a e a' e' He Eb) as (He' & Ek & La). pose proof (pos_lt ne _ a e Ha He) as Hk. rewrite Ek in Hk.
  assert (E1 : pq (S (a' * ne + e')) = ph a e) by (rewrite <- Ek; exact (pq_at a e He)). pose proof (pq_at a' e' He') as E2.
  assert (T1 : tq (S (a' * ne + e')) = run_time O rho tr a e) by (rewrite <- Ek; exact (tq_at a e Ha He)).
  rewrite <- T1, <- E1.
  apply (chain_times N (m_nx m) tq pq xq P last _ _ g M (h ^ n) a0 b0 gg M0 (pow_le h n h0) (rupto_0 _) tq_mono pq0 start_q element_q switch_q pq_last _ Hk).
  destruct (pq_next _ Hk) as [Q|Q]; [|exact Q]. exfalso. apply Hne. congruence.
Qed.
Lemma time_range a e : run_element O tr a e -> 0 <= run_time O rho tr a e /\ run_time O rho tr a e + step_len O (rho a) 0 e <= elapsed tr (length tr).
Proof.
  intros [Ha He]. pose proof (pos_lt ne _ a e Ha He) as Hk. rewrite <- (tq_next a e Ha He), <- (tq_at a e Ha He), <- tq_end. split.
  - apply (times N tq (rupto_0 _) tq_mono). lia.
  - apply (tt_le N tq tq_mono); lia.
Qed.
Lemma sim_D tm : 0 <= tm <= elapsed tr (length tr) -> exists y, D y /\ forall i, (i < m_nx m)%nat -> Y tm i = y i.
Proof.
  intros Ht. rewrite <- tq_end in Ht. destruct (Hord6_proofs.locate_piece N tq pq P last pq0 (proj1 CY) tm Ht) as (r & Hr & Lr).
  destruct (pieces_q r Hr) as (B1 & B2 & B3 & B4). exists (pc_curve (P r) tm). split; [apply in_D; [exact Hr|lra]|]. intros i Hi. apply B4; [exact Lr|exact Hi].
Qed.
Lemma start_range r : (r <= last)%nat -> 0 <= pc_start (P r) <= elapsed tr (length tr).
Proof.
  destruct CY as (S0 & _ & _ & Pc). assert (Nx : forall r, (r < last)%nat -> run_piece_end tr P last r = pc_start (P (S r))).
  { intros q Hq. unfold run_piece_end. replace (q =? last)%nat with false by (symmetry; apply Nat.eqb_neq; lia). reflexivity. }
  intros Hr. split.
  - induction r as [|r IH]; [lra|]. specialize (IH ltac:(lia)). destruct (Pc r ltac:(lia)) as (Q & _). rewrite Nx in Q by lia. lra.
  - assert (G : forall q r, (r + q = last)%nat -> pc_start (P r) <= elapsed tr (length tr)).
    { induction q as [|q IH]; intros r' E.
      - destruct (Pc r' ltac:(lia)) as (Q & _). unfold run_piece_end in Q. replace (r' =? last)%nat with true in Q by (symmetry; apply Nat.eqb_eq; lia). exact Q.
      - specialize (IH (S r') ltac:(lia)). destruct (Pc r' ltac:(lia)) as (Q & _). rewrite Nx in Q by lia. lra. }
    apply (G (last - r)%nat). lia.
Qed.
Lemma sim_lipschitz z z' i : 0 <= z <= elapsed tr (length tr) -> 0 <= z' <= elapsed tr (length tr) -> (i < m_nx m)%nat -> Rabs (Y z i - Y z' i) <= M * Rabs (z - z').
Proof.
  rewrite <- tq_end. exact (Hord6_proofs.Y_lipschitz N (m_nx m) tq pq P last Y M pq0 curves (proj1 CY) pieces_q z z' i).
Qed.
End Run.

(* the states and times that the looper collects *)
Section Collected.
Variables (lr : Q -> Q -> Q -> nat) (cp : nat -> scheme -> list Q) (d : ipopt_dict) (o : opts) (m : model) (oc : option ocp) (C : constructed).
Hypothesis FP : fesd_problem lr cp d o m oc C.
Hypothesis EX : extractable (the_opts C) m.
Notation O := (the_opts C).
Notation t := (cn_tab C).
Variables (nlp : nat -> nlp_call -> res nlp_ret) (x0 : list R) (Nsim : nat) (pv : option (list (list R))) (pc : nat) (wi : option (list (list R)))
  (lp : looper) (s : sstate) (tr : list (sstate * solve_out)) (lp' : looper) (rho : nat -> env).
Hypothesis LI : looper_init (cn_prob C) x0 Nsim pv pc wi = Ok lp.
Hypothesis SI : simulation nlp C m 0 lp s tr lp'.
Hypothesis SE : forall k q, nth_error tr k = Some q -> solved_relaxed C (snd q) (rho k).
Let N1 : o_N_stages O = 1%nat := run_N1 lr cp d o m oc C FP x0 Nsim pv pc wi lp LI.
Lemma collected j tm x : nth_error (looper_t_grid lp') j = Some tm -> nth_error (lp_X_sim lp') j = Some x ->
  (tm = 0 /\ x = x0) \/ exists a e, run_element O tr a e /\ tm = run_time O rho tr a e + step_len O (rho a) 0 e /\
    forall i, (i < m_nx m)%nat -> nth i x 0 = end_state O t (rho a) 0 e i.
Proof.
  intros Hj Hx. destruct (run_fields m C nlp x0 Nsim pv pc wi lp s tr lp' LI SI) as (F1 & F2 & F3).
  rewrite (run_grid m C nlp x0 Nsim pv pc wi lp s tr lp' LI SI j tm Hj). rewrite F1 in Hx. destruct j as [|j].
  - left. cbn in Hx. injection Hx as <-. split; [apply psum_0|reflexivity].
  - right. cbn [nth_error] in Hx. destruct (locate (map the_piece tr)) with (2 := Hx) as (k & p & j' & Hp & Hj' & ->).
    { intros p Hp. apply in_map_iff in Hp. destruct Hp as ([si out] & <- & Hq). apply In_nth_error in Hq. destruct Hq as [k Hk].
      exact (sm_lengths _ _ _ _ _ _ _ _ SI k si out Hk). }
    rewrite nth_error_map in Hp. destruct (nth_error tr k) as [[si out]|] eqn:Ek; [|discriminate]. injection Hp as <-.
    assert (Lk : (k < length tr)%nat) by (apply nth_error_Some; congruence).
    rewrite <- elapsed_lengths. cbn [the_piece fst snd] in *. destruct (sm_solve _ _ _ _ _ _ _ _ SI k si out Ek) as (Z & t' & Es).
    assert (Lj : (j' < nfe_of O 0)%nat).
    { rewrite (proj2 (r_results _ _ _ _ _ _ _ FP N1 EX nlp si t' out (rho k) Es (SE k _ Ek))) in Hj'.
      rewrite <- (seq_length (nfe_of O 0) 0). erewrite <- map_length. apply nth_error_Some. rewrite Hj'. discriminate. }
    exists k, j'. split; [split; assumption|]. split.
    + rewrite (r_psum _ _ _ _ _ _ _ FP N1 EX nlp si t' out (rho k) Es (SE k _ Ek)) by lia. unfold run_time. rewrite r_time, rupto_succ. ring.
    + intros i Hi. exact (proj2 (r_state _ _ _ _ _ _ _ FP N1 EX nlp si t' out (rho k) Es (SE k _ Ek) j' x i Hj' Hi)).
Qed.
End Collected.
