(* Even_proofs.v -- grids between switches *)
From Coq Require Import Reals Qreals Lra Lia Psatz.
From Verif Require Import Base Sx Utils Tableau Opts Model Ocp Problem Spec Lib Fesd Dcs_proofs Elem_proofs Mode_proofs Spec2 Spec3 Spec9 Feas_proofs Feas5_proofs Filippov3_proofs Exact_proofs Results3_proofs Spec29 Steps_proofs Spec32.
Local Open Scope R_scope.

Lemma rbetween_S a b f : (a <= b)%nat -> rbetween a (S b) f = rbetween a b f + f b.
Proof. intros H. unfold rbetween. replace (S b - a)%nat with (S (b - a)) by lia. rewrite rupto_succ. do 2 f_equal. lia. Qed.
Lemma rbetween_empty a f : rbetween a a f = 0. Proof. unfold rbetween. rewrite Nat.sub_diag. reflexivity. Qed.
Lemma grid_between o rho c a b : (a <= b)%nat -> grid_time o rho c b - grid_time o rho c a = rbetween a b (step_len o rho c).
Proof.
  intros H. unfold grid_time. replace (rupto c (stage_length o rho) + rupto b (step_len o rho c) - (rupto c (stage_length o rho) + rupto a (step_len o rho c)))
    with (rupto b (step_len o rho c) - rupto a (step_len o rho c)) by ring. induction H as [|b H IH].
  - rewrite rbetween_empty. ring.
  - rewrite rupto_succ, rbetween_S by lia. rewrite <- IH. ring.
Qed.
Lemma rbetween_const a b f v : (a <= b)%nat -> (forall e, (a <= e < b)%nat -> f e = v) -> rbetween a b f = INR (b - a) * v.
Proof.
  intros H. induction H as [|b H IH]; intros E.
  - rewrite rbetween_empty, Nat.sub_diag. cbn. lra.
  - rewrite rbetween_S, IH by (try lia; intros; apply E; lia). rewrite E by lia. replace (S b - a)%nat with (S (b - a)) by lia. rewrite S_INR. lra.
Qed.
Lemma rbetween_ext a b f g : (forall e, (a <= e < b)%nat -> f e = g e) -> rbetween a b f = rbetween a b g.
Proof. intros E. apply rupto_ext. intros k Hk. apply E. lia. Qed.
Lemma equal_even o rho c a b : (forall e, (a < e < b)%nat -> step_len o rho c e = step_len o rho c (e - 1)) -> even_grid o rho c a b.
Proof.
  intros E e He. assert (G : forall k, (a <= k < b)%nat -> step_len o rho c k = step_len o rho c a).
  { intros k [H1 H2]. induction H1 as [|k H1 IH]; [reflexivity|]. rewrite (E (S k)) by lia. replace (S k - 1)%nat with k by lia. apply IH. lia. }
  rewrite grid_between, (rbetween_const _ _ _ (step_len o rho c a)), (G e He) by (try lia; exact G). field. apply not_0_INR. lia.
Qed.

Section Con.
Variables (lr : Q -> Q -> Q -> nat) (cp : nat -> scheme -> list Q) (d : ipopt_dict) (o : opts) (m : model) (oc : option ocp) (C : constructed).
Hypothesis FP : fesd_problem lr cp d o m oc C.
Notation O := (the_opts C).
Notation t := (cn_tab C).
Hypothesis Hf : o_use_fesd O = true.
Hypothesis PM : product_mode O.

Lemma equal_step rho c e : feasible rho (the_nlp C) -> initial_nonneg rho -> equalizing O rho -> is_element O c e -> (0 < e)%nat -> no_switch O t m rho c e ->
  step_len O rho c e = step_len O rho c (e - 1).
Proof.
  intros [BO CO] L0 Eq He Pos NSw. unfold step_len. rewrite Hf. destruct Eq as [Es|(Es & Mm & Z)].
  - destruct FP as (H & E & W). exact (direct_equal_steps lr cp d o m oc C rho H BO PM L0 c e _ E W CO Hf Es (element_fe _ _ _ _ _ _ _ FP c e He) Pos NSw).
  - exact (two_sided_equal lr cp d o m oc C rho FP CO Hf c e He Pos Es Mm BO PM L0 Z NSw).
Qed.
Lemma quiet_even rho c a b : feasible rho (the_nlp C) -> initial_nonneg rho -> equalizing O rho -> (c < o_N_stages O)%nat -> (b <= nfe_of O c)%nat ->
  quiet O t m rho c a b -> even_grid O rho c a b.
Proof. intros F L0 Eq Hc Hb Qt. apply equal_even. intros e He. apply equal_step; try assumption; [split; [exact Hc|lia]|lia|]. apply Qt. exact He. Qed.
Lemma stage_known rho c : feasible rho (the_nlp C) -> o_equidistant O = true -> (c < o_N_stages O)%nat -> stage_length O rho c = T O / INR (o_N_stages O).
Proof. intros [_ CO] Eq Hc. destruct FP as (H & E & W). apply (stage_T lr cp d o m oc C H rho E W CO c Hc). intros _. exact Eq. Qed.
Lemma quiet_nominal rho c e : feasible rho (the_nlp C) -> initial_nonneg rho -> equalizing O rho -> o_equidistant O = true -> is_element O c e ->
  quiet O t m rho c 0 (nfe_of O c) -> step_len O rho c e = T O / INR (o_N_stages O) / INR (nfe_of O c).
Proof.
  intros F L0 Eq Qd He Qt. rewrite (quiet_even rho c 0 (nfe_of O c) F L0 Eq (proj1 He) (Nat.le_refl _) Qt e) by (destruct He; lia).
  rewrite grid_between, Nat.sub_0_r by lia. f_equal. rewrite <- (stage_known rho c F Qd (proj1 He)). unfold rbetween, stage_length. rewrite Nat.sub_0_r. reflexivity.
Qed.
Lemma left_end (P G : nat -> Prop) e : G 0%nat -> (forall k, (0 < k <= e)%nat -> P k \/ G k) -> exists a, (a <= e)%nat /\ G a /\ forall k, (a < k <= e)%nat -> P k.
Proof.
  intros G0. induction e as [|e IH]; intros H; [exists 0%nat; split; [lia|split; [exact G0|lia]]|].
  destruct (H (S e)) as [Pk|Gk]; [lia| |].
  - destruct IH as (a & A & B & D); [intros k Hk; apply H; lia|]. exists a. split; [lia|]. split; [exact B|]. intros k Hk. destruct (Nat.eq_dec k (S e)) as [->|]; [exact Pk|apply D; lia].
  - exists (S e). split; [lia|]. split; [exact Gk|lia].
Qed.
Lemma right_end (P G : nat -> Prop) n e : (e < n)%nat -> G n -> (forall k, (e < k < n)%nat -> P k \/ G k) -> exists b, (e < b <= n)%nat /\ G b /\ forall k, (e < k < b)%nat -> P k.
Proof.
  intros He Gn. remember (n - e)%nat as w eqn:Ew. revert e He Ew. induction w as [|w IH]; intros e He Ew H; [lia|].
  destruct (Nat.eq_dec (S e) n) as [<-|Ne]; [exists (S e); split; [lia|split; [exact Gn|lia]]|].
  destruct (H (S e)) as [Ps|Gs]; [lia| |exists (S e); split; [lia|split; [exact Gs|lia]]].
  destruct (IH (S e)) as (b & B1 & B2 & B3); [lia|lia|intros k Hk; apply H; lia|]. exists b. split; [lia|]. split; [exact B2|].
  intros k Hk. destruct (Nat.eq_dec k (S e)) as [->|]; [exact Ps|apply B3; lia].
Qed.
Lemma same_grid rho rho' c e : feasible rho (the_nlp C) -> feasible rho' (the_nlp C) -> initial_nonneg rho -> initial_nonneg rho' -> equalizing O rho -> equalizing O rho' ->
  o_equidistant O = true -> same_switches O t m rho rho' -> is_element O c e -> step_len O rho c e = step_len O rho' c e.
Proof.
  intros F F' L0 L0' Eq Eq' Qd SS [Hc He]. pose (P := fun k => no_switch O t m rho c k /\ no_switch O t m rho' c k). pose (G := fun k => grid_time O rho c k = grid_time O rho' c k).
  assert (St : rupto c (stage_length O rho) = rupto c (stage_length O rho')).
  { apply rupto_ext. intros k Hk. rewrite !stage_known by (try assumption; lia). reflexivity. }
  assert (G0 : G 0%nat) by (unfold G, grid_time; rewrite St; reflexivity).
  assert (Gn : G (nfe_of O c)) by (unfold G, grid_time; rewrite St; f_equal; change (stage_length O rho c = stage_length O rho' c); rewrite !stage_known by assumption; reflexivity).
  destruct (left_end P G e G0) as (a & A1 & A2 & A3); [intros k Hk; apply SS; [exact Hc|lia]|].
  destruct (right_end P G (nfe_of O c) e He Gn) as (b & B1 & B2 & B3); [intros k Hk; apply SS; [exact Hc|lia]|].
  assert (Q1 : forall k, (a < k < b)%nat -> P k) by (intros k Hk; destruct (le_lt_dec k e); [apply A3|apply B3]; lia).
  rewrite (quiet_even rho c a b F L0 Eq Hc) by (try lia; intros k Hk; exact (proj1 (Q1 k Hk))).
  rewrite (quiet_even rho' c a b F' L0' Eq' Hc) by (try lia; intros k Hk; exact (proj2 (Q1 k Hk))). rewrite A2, B2. reflexivity.
Qed.
End Con.

(* HEURISTIC_MEAN: the penalty splits into the mean and the deviation from it *)
Lemma rbetween_plus a b f g : rbetween a b (fun e => f e + g e) = rbetween a b f + rbetween a b g. Proof. apply rupto_plus. Qed.
Lemma rbetween_scale a b k f : rbetween a b (fun e => k * f e) = k * rbetween a b f. Proof. apply rupto_scale. Qed.
Lemma mean_split a b f v : (a < b)%nat -> rbetween a b (fun e => (f e - v) ^ 2) =
  INR (b - a) * (rbetween a b f / INR (b - a) - v) ^ 2 + rbetween a b (fun e => (f e - rbetween a b f / INR (b - a)) ^ 2).
Proof.
  intros H. assert (N : INR (b - a) <> 0) by (apply not_0_INR; lia). set (w := rbetween a b f / INR (b - a)).
  assert (S : rbetween a b f = INR (b - a) * w) by (unfold w; field; exact N).
  rewrite (rbetween_ext a b _ (fun e => (f e - w) ^ 2 + ((2 * (w - v)) * f e + (v ^ 2 - w ^ 2)))) by (intros; ring).
  rewrite rbetween_plus, rbetween_plus, rbetween_scale, S, (rbetween_const a b (fun _ => v ^ 2 - w ^ 2) (v ^ 2 - w ^ 2)) by (try lia; reflexivity). ring.
Qed.
Lemma mean_penalty o t m rho c a b : o_use_fesd o = true -> o_step_eq o = HeuristicMean -> (a < b)%nat ->
  rbetween a b (step_cost o t m rho c) = Q2R (o_rho_h o) *
    (INR (b - a) * ((grid_time o rho c b - grid_time o rho c a) / INR (b - a) - Q2R (nominal_step o (nfe_of o c))) ^ 2 +
     rbetween a b (fun e => (step_len o rho c e - (grid_time o rho c b - grid_time o rho c a) / INR (b - a)) ^ 2)).
Proof.
  intros Hf Es H. rewrite grid_between by lia. rewrite <- mean_split by exact H. rewrite <- rbetween_scale. apply rbetween_ext. intros e _. unfold step_cost. rewrite Hf, Es. reflexivity.
Qed.
Lemma mean_least o t m rho rho' c a b : o_use_fesd o = true -> o_step_eq o = HeuristicMean -> (0 < o_rho_h o)%Q -> (a < b)%nat ->
  grid_time o rho c a = grid_time o rho' c a -> grid_time o rho c b = grid_time o rho' c b -> even_grid o rho c a b ->
  rbetween a b (step_cost o t m rho c) <= rbetween a b (step_cost o t m rho' c) /\
  (rbetween a b (step_cost o t m rho' c) <= rbetween a b (step_cost o t m rho c) -> even_grid o rho' c a b).
Proof.
  intros Hf Es Hr H Ea Eb Ev. assert (R : 0 < Q2R (o_rho_h o)) by (rewrite <- RMicromega.Q2R_0; apply Qlt_Rlt; exact Hr).
  rewrite !mean_penalty by assumption. rewrite Ea, Eb. set (w := (grid_time o rho' c b - grid_time o rho' c a) / INR (b - a)).
  assert (Z : rbetween a b (fun e => (step_len o rho c e - w) ^ 2) = 0).
  { rewrite (rbetween_const a b _ 0); [ring|lia|]. intros e He. rewrite (Ev e He), Ea, Eb. fold w. replace (w - w) with 0 by ring. ring. }
  rewrite Z. assert (P : forall k, (k < b - a)%nat -> 0 <= (step_len o rho' c (a + k)%nat - w) ^ 2) by (intros; apply pow2_ge_0).
  assert (S : 0 <= rbetween a b (fun e => (step_len o rho' c e - w) ^ 2)) by (apply rupto_nonneg; exact P).
  split; [apply Rmult_le_compat_l; lra|]. intros L e He. apply Rmult_le_reg_l in L; [|exact R].
  pose proof (rupto_zero (b - a) (fun k => (step_len o rho' c (a + k)%nat - w) ^ 2) P) as V.
  assert (E0 : rupto (b - a) (fun k => (step_len o rho' c (a + k)%nat - w) ^ 2) = 0) by (change (rbetween a b (fun e => (step_len o rho' c e - w) ^ 2) = 0); lra).
  specialize (V E0 (e - a)%nat ltac:(lia)). cbv beta in V. replace (a + (e - a))%nat with e in V by lia. change (step_len o rho' c e = w).
  destruct (Req_dec (step_len o rho' c e - w) 0) as [X|X]; [lra|]. apply (pow_nonzero _ 2) in X. contradiction.
Qed.
