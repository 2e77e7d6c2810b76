(* Filippov2_proofs.v -- the trajectory over the whole horizon; closed regions *)
From Coq Require Import Reals Qreals Lra Psatz Permutation.
From Verif Require Import Base Sx Utils Tableau Opts Model Ocp Problem Spec Cases Lib Sx_proofs Fe_proofs Prob_proofs Coll_proofs
  Body_proofs Model_proofs Con_proofs Index3_proofs Fesd Sem_proofs Dcs_proofs Point_proofs Elem_proofs Nlp_proofs
  Opts_proofs Tableau_proofs Poly_proofs Spec2 Feas_proofs Feas2_proofs Spec3 Numeric Mode_proofs Smooth_proofs Spec9 Filippov_proofs.

(* ---- gluing curves on consecutive intervals ---- *)
Section Glue.
Variables (ts : nat -> R) (f : nat -> R -> nat -> R).
Fixpoint glue (n : nat) (z : R) : nat -> R :=
  match n with O => f 0 z | S n' => if Rle_dec z (ts n) then glue n' z else f n z end.
Hypothesis mono : forall k, (ts k <= ts (S k))%R.
Lemma ts_mono a b : a <= b -> (ts a <= ts b)%R.
Proof. induction 1 as [|b Hb IH]; [lra|]. specialize (mono b). lra. Qed.
Lemma glue_before n z : (z <= ts 1)%R -> glue n z = f 0 z.
Proof.
  intros Hz. induction n as [|n IH]; [reflexivity|]. cbn [glue].
  destruct (Rle_dec z (ts (S n))) as [Hl|Hl]; [exact IH|]. pose proof (ts_mono 1 (S n) ltac:(lia)). lra.
Qed.
Lemma glue_in n k z : k <= n -> (ts k < z <= ts (S k))%R -> glue n z = f k z.
Proof.
  induction n as [|n IH]; intros Hk Hz; [replace k with 0 by lia; reflexivity|]. cbn [glue].
  destruct (Rle_dec z (ts (S n))) as [Hl|Hl].
  - apply IH; [|exact Hz]. destruct (Nat.eq_dec k (S n)) as [->|]; [lra|lia].
  - assert (k = S n) as ->; [|reflexivity]. pose proof (ts_mono (S k) (S n)). destruct (Nat.eq_dec k (S n)); [assumption|]. specialize (H ltac:(lia)). lra.
Qed.
Variable i : nat.
Variable K : nat.
Hypothesis joint : forall k, k < K -> f k (ts (S k)) i = f (S k) (ts (S k)) i.
Lemma glue_right n k : n <= K -> k <= n -> glue n (ts (S k)) i = f k (ts (S k)) i.
Proof.
  revert k. induction n as [|n IH]; intros k Hn Hk; [replace k with 0 by lia; reflexivity|]. cbn [glue].
  destruct (Rle_dec (ts (S k)) (ts (S n))) as [Hl|Hl].
  - destruct (Nat.eq_dec k (S n)) as [->|Hne]; [|apply IH; lia].
    assert (E : ts (S (S n)) = ts (S n)) by (pose proof (mono (S n)); lra). rewrite E.
    rewrite (IH n ltac:(lia) (le_n n)). apply joint. lia.
  - assert (k = S n) as ->; [|reflexivity]. pose proof (ts_mono (S k) (S n)). destruct (Nat.eq_dec k (S n)); [assumption|]. specialize (H ltac:(lia)). lra.
Qed.
Lemma glue_left n : n <= K -> (n = 0 -> True) -> glue n (ts n) i = f n (ts n) i.
Proof.
  destruct n as [|n]; [reflexivity|]. intros Hn _. cbn [glue]. destruct (Rle_dec (ts (S n)) (ts (S n))) as [Hl|Hl]; [|lra].
  rewrite (glue_right n n ltac:(lia) (le_n n)). apply joint. lia.
Qed.
Variable L : R.
Hypothesis lip : forall k a b, k <= K -> (ts k <= a <= ts (S k))%R -> (ts k <= b <= ts (S k))%R -> (Rabs (f k a i - f k b i) <= L * Rabs (a - b))%R.
Lemma glue_lip n : n <= K -> forall a b, (ts 0 <= a <= ts (S n))%R -> (ts 0 <= b <= ts (S n))%R -> (Rabs (glue n a i - glue n b i) <= L * Rabs (a - b))%R.
Proof.
  induction n as [|n IH]; intros Hn a b Ha Hb; [apply (lip 0); lia || assumption|].
  assert (G : forall a b, (ts 0 <= a <= ts (S n))%R -> (ts (S n) < b <= ts (S (S n)))%R -> (Rabs (glue n a i - f (S n) b i) <= L * Rabs (a - b))%R).
  { clear a b Ha Hb. intros a b Ha Hb.
    pose proof (IH ltac:(lia) a (ts (S n)) Ha ltac:(pose proof (ts_mono 0 (S n) ltac:(lia)); lra)) as G1.
    rewrite (glue_right n n ltac:(lia) (le_n n)), joint in G1 by lia.
    pose proof (lip (S n) (ts (S n)) b Hn ltac:(pose proof (mono (S n)); lra) ltac:(lra)) as G2.
    replace (glue n a i - f (S n) b i)%R with ((glue n a i - f (S n) (ts (S n)) i) + (f (S n) (ts (S n)) i - f (S n) b i))%R by ring.
    eapply Rle_trans; [apply Rabs_triang|].
    rewrite (Rabs_left1 (a - ts (S n))) in G1 by lra. rewrite (Rabs_left1 (ts (S n) - b)) in G2 by lra. rewrite (Rabs_left1 (a - b)) by lra. lra. }
  cbn [glue]. destruct (Rle_dec a (ts (S n))) as [A|A]; destruct (Rle_dec b (ts (S n))) as [B|B].
  - apply IH; try lia; lra.
  - apply G; lra.
  - rewrite Rabs_minus_sym, (Rabs_minus_sym a b). apply G; lra.
  - apply lip; try lia; lra.
Qed.
End Glue.

(* ---- the elements in order ---- *)
Section Walk.
Variables (o : opts) (t : tab) (m : model) (rho : env).
Hypothesis NP : forall c, c < o_N_stages o -> 0 < nfe_of o c.
Definition next (p : nat * nat) : nat * nat := let (c, e) := p in if e + 1 <? nfe_of o c then (c, e + 1) else (c + 1, 0).
Fixpoint walk (k : nat) : nat * nat := match k with O => (0, 0) | S k' => next (walk k') end.
Lemma walk_at c : c <= o_N_stages o -> forall e, e = 0 \/ (c < o_N_stages o /\ e < nfe_of o c) -> walk (upto c (nfe_of o) + e) = (c, e).
Proof.
  induction c as [|c IHc]; intros Hc.
  - induction e as [|e IHe]; intros He; [reflexivity|]. destruct He as [|He]; [lia|]. rewrite Nat.add_succ_r. cbn [walk].
    rewrite IHe by lia. cbn [next]. destruct (e + 1 <? nfe_of o 0) eqn:E; [f_equal; lia|apply Nat.ltb_ge in E; lia].
  - assert (B : walk (upto (S c) (nfe_of o)) = (S c, 0)).
    { rewrite upto_S. pose proof (NP c ltac:(lia)) as P. replace (upto c (nfe_of o) + nfe_of o c) with (S (upto c (nfe_of o) + (nfe_of o c - 1))) by lia.
      cbn [walk]. rewrite IHc by lia. cbn [next]. replace (nfe_of o c - 1 + 1) with (nfe_of o c) by lia. rewrite Nat.ltb_irrefl. f_equal. lia. }
    induction e as [|e IHe]; intros He; [rewrite Nat.add_0_r; exact B|]. destruct He as [|He]; [lia|]. rewrite Nat.add_succ_r. cbn [walk].
    rewrite IHe by lia. cbn [next]. destruct (e + 1 <? nfe_of o (S c)) eqn:E; [f_equal; lia|apply Nat.ltb_ge in E; lia].
Qed.
Lemma upto_find (f : nat -> nat) n k : k < upto n f -> exists c e, c < n /\ e < f c /\ k = upto c f + e.
Proof.
  induction n as [|n IH]; [cbn; lia|]. rewrite upto_S. intros Hk. destruct (Nat.lt_ge_cases k (upto n f)) as [Hl|Hl].
  - destruct (IH Hl) as (c & e & A & B & D). exists c, e. repeat split; try assumption. lia.
  - exists n, (k - upto n f). repeat split; lia.
Qed.
Lemma walk_element k : k < upto (o_N_stages o) (nfe_of o) -> is_element o (fst (walk k)) (snd (walk k)).
Proof.
  intros Hk. destruct (upto_find _ _ _ Hk) as (c & e & A & B & ->). rewrite (walk_at c ltac:(lia) e (or_intror (conj A B))). split; assumption.
Qed.
Lemma element_walk c e : is_element o c e -> exists k, k < upto (o_N_stages o) (nfe_of o) /\ walk k = (c, e).
Proof.
  intros [A B]. exists (upto c (nfe_of o) + e). split; [|apply walk_at; [lia|right; split; assumption]].
  pose proof (upto_mono (nfe_of o) (S c) (o_N_stages o) A) as G. rewrite upto_S in G. lia.
Qed.
Lemma walk_before k : k < upto (o_N_stages o) (nfe_of o) -> before o (fst (walk (S k))) (snd (walk (S k))) = Some (walk k).
Proof.
  intros Hk. destruct (walk_element k Hk) as [A B]. cbn [walk]. destruct (walk k) as [c e]. cbn [fst snd next] in *.
  destruct (e + 1 <? nfe_of o c) eqn:E; cbn [fst snd before].
  - replace (e + 1) with (S e) by lia. reflexivity.
  - replace (c + 1) with (S c) by lia. cbn [before]. apply Nat.ltb_ge in E. f_equal. f_equal. lia.
Qed.
Definition ts (k : nat) : R := grid_time o rho (fst (walk k)) (snd (walk k)).
Lemma ts_next k : k < upto (o_N_stages o) (nfe_of o) -> (ts (S k) = ts k + step_len o rho (fst (walk k)) (snd (walk k)))%R.
Proof.
  intros Hk. destruct (walk_element k Hk) as [A B]. unfold ts, grid_time. cbn [walk]. destruct (walk k) as [c e]. cbn [fst snd next] in *.
  destruct (e + 1 <? nfe_of o c) eqn:E; cbn [fst snd].
  - rewrite rupto_S. ring.
  - apply Nat.ltb_ge in E. rewrite rupto_S, rupto_0. unfold stage_length at 2. replace (nfe_of o c) with (e + 1) by lia. rewrite rupto_S. ring.
Qed.
Lemma ts_end : ts (upto (o_N_stages o) (nfe_of o)) = end_time o rho.
Proof.
  unfold ts. pose proof (walk_at (o_N_stages o) (le_n _) 0 (or_introl eq_refl)) as E. rewrite Nat.add_0_r in E. rewrite E. cbn [fst snd].
  unfold grid_time, end_time. rewrite rupto_0. ring.
Qed.
Lemma ts_0 : ts 0 = 0%R. Proof. unfold ts, grid_time. cbn [walk fst snd]. rewrite !rupto_0. ring. Qed.
End Walk.

Lemma finite_bound (P : nat -> R -> Prop) n : (forall k L L', P k L -> (L <= L')%R -> P k L') -> (forall k, k < n -> exists L, P k L) -> exists L, forall k, k < n -> P k L.
Proof.
  intros M. induction n as [|n IH]; intros Hn; [exists 0%R; lia|].
  destruct IH as [L1 H1]; [intros; apply Hn; lia|]. destruct (Hn n ltac:(lia)) as [L2 H2]. exists (Rmax L1 L2). intros k Hk.
  destruct (Nat.eq_dec k n) as [->|]; [apply (M n L2); [exact H2|apply Rmax_r]|apply (M k L1); [apply H1; lia|apply Rmax_l]].
Qed.
Lemma locate (u : nat -> R) n z : (u 0%nat <= z <= u n)%R -> 0 < n -> exists k, k < n /\ (u k <= z <= u (S k))%R.
Proof.
  induction n as [|n IH]; intros Hz Hn; [lia|]. destruct (Rle_dec z (u n)) as [Hl|Hl].
  - destruct n as [|n]; [exists 0; split; [lia|]; lra|]. destruct (IH ltac:(lra) ltac:(lia)) as (k & A & B). exists k. split; [lia|exact B].
  - exists n. split; [lia|lra].
Qed.

Section Whole.
Variables (o : opts) (t : tab) (m : model) (rho : env) (act : env -> nat -> nat -> Prop).
Hypothesis NP : forall c, c < o_N_stages o -> 0 < nfe_of o c.
Hypothesis N0 : 0 < o_N_stages o.
Hypothesis Hh : forall c e, is_element o c e -> (0 <= step_len o rho c e)%R.
Hypothesis El : forall c e, is_element o c e -> exists kappa, (Rabs (kappa - 1) <= weight_error o)%R /\ filippov_element o t m rho act c e kappa.
Notation n := (upto (o_N_stages o) (nfe_of o)).
Notation wk := (walk o).
Lemma n_pos : 0 < n.
Proof. pose proof (upto_mono (nfe_of o) 1 (o_N_stages o) N0) as G. rewrite upto_S in G. pose proof (NP 0 N0). lia. Qed.
Definition tt' (k : nat) : R := ts o rho (Nat.min k n).
Definition curve (k : nat) (z : R) : nat -> R := trajectory o t rho (fst (wk k)) (snd (wk k)) (tt' k) z.
Definition X : R -> nat -> R := glue tt' curve (n - 1).
Lemma tt_next k : k < n -> (tt' (S k) = tt' k + step_len o rho (fst (wk k)) (snd (wk k)))%R.
Proof. intros Hk. unfold tt'. rewrite !Nat.min_l by lia. apply ts_next; [exact NP|exact Hk]. Qed.
Lemma tt_mono k : (tt' k <= tt' (S k))%R.
Proof.
  destruct (Nat.lt_ge_cases k n) as [Hk|Hk].
  - rewrite (tt_next k Hk). pose proof (Hh _ _ (walk_element o NP k Hk)). lra.
  - unfold tt'. rewrite !Nat.min_r by lia. lra.
Qed.
Lemma tt_0 : tt' 0 = 0%R. Proof. unfold tt'. cbn [Nat.min]. apply ts_0. Qed.
Lemma tt_n : tt' n = end_time o rho. Proof. unfold tt'. rewrite Nat.min_id. apply ts_end. exact NP. Qed.
Lemma tt_grid k c e : k < n -> wk k = (c, e) -> tt' k = grid_time o rho c e.
Proof. intros Hk E. unfold tt'. rewrite Nat.min_l by lia. unfold ts. rewrite E. reflexivity. Qed.
Lemma speed_of k : k < n -> exists v, forall i, i < m_nx m ->
  (end_state o t rho (fst (wk k)) (snd (wk k)) i - start_state o t rho (fst (wk k)) (snd (wk k)) i = step_len o rho (fst (wk k)) (snd (wk k)) * v i)%R.
Proof.
  intros Hk. destruct (El _ _ (walk_element o NP k Hk)) as (kappa & _ & th & _ & B & _).
  eexists (fun i => _). intros i Hi. exact (B i 0%R Hi).
Qed.
Lemma curve_left k i : curve k (tt' k) i = start_state o t rho (fst (wk k)) (snd (wk k)) i.
Proof. unfold curve, trajectory, segment. replace (tt' k - tt' k)%R with 0%R by ring. unfold Rdiv. rewrite Rmult_0_l. ring. Qed.
Lemma curve_right k i : k < n -> i < m_nx m -> curve k (tt' (S k)) i = end_state o t rho (fst (wk k)) (snd (wk k)) i.
Proof.
  intros Hk Hi. destruct (speed_of k Hk) as [v Hv]. specialize (Hv i Hi). unfold curve, trajectory, segment. rewrite (tt_next k Hk).
  set (h := step_len o rho (fst (wk k)) (snd (wk k))) in *. replace (tt' k + h - tt' k)%R with h by ring.
  destruct (Req_dec h 0) as [E|E].
  - rewrite E in *. unfold Rdiv. rewrite Rmult_0_l. lra.
  - unfold Rdiv. rewrite Rinv_r by exact E. ring.
Qed.
Lemma curve_joint i k : i < m_nx m -> k < n - 1 -> curve k (tt' (S k)) i = curve (S k) (tt' (S k)) i.
Proof.
  intros Hi Hk. rewrite (curve_right k i) by lia. rewrite curve_left. unfold start_state. rewrite (walk_before o NP k) by lia.
  destruct (wk k). reflexivity.
Qed.
Lemma curve_lip k : k < n -> exists L, forall i a b, i < m_nx m -> (tt' k <= a <= tt' (S k))%R -> (tt' k <= b <= tt' (S k))%R ->
  (Rabs (curve k a i - curve k b i) <= L * Rabs (a - b))%R.
Proof.
  intros Hk. destruct (speed_of k Hk) as [v Hv].
  destruct (finite_bound (fun i L => (Rabs (v i) <= L)%R) (m_nx m)) as [L HL]; [intros; lra|intros i _; exists (Rabs (v i)); lra|].
  exists L. intros i a b Hi Ha Hb. specialize (Hv i Hi). specialize (HL i Hi). rewrite (tt_next k Hk) in Ha, Hb.
  unfold curve, trajectory, segment. set (h := step_len o rho (fst (wk k)) (snd (wk k))) in *.
  destruct (Req_dec h 0) as [E|E].
  - rewrite E in *. assert (Ea : a = tt' k) by lra. assert (Eb : b = tt' k) by lra. rewrite Ea, Eb, !Rminus_diag_eq by reflexivity. rewrite Rabs_R0. lra.
  - replace (end_state o t rho (fst (wk k)) (snd (wk k)) i) with (start_state o t rho (fst (wk k)) (snd (wk k)) i + h * v i)%R by lra.
    match goal with |- (Rabs ?x <= _)%R => replace x with (v i * (a - b))%R by (field; exact E) end.
    rewrite Rabs_mult. apply Rmult_le_compat_r; [apply Rabs_pos|exact HL].
Qed.
Lemma whole : filippov_trajectory o t m rho act X.
Proof.
  pose proof n_pos as NPos. split; [|split; [|split]].
  - destruct (finite_bound (fun k L => forall i a b, i < m_nx m -> (tt' k <= a <= tt' (S k))%R -> (tt' k <= b <= tt' (S k))%R ->
      (Rabs (curve k a i - curve k b i) <= L * Rabs (a - b))%R) n) as [L HL].
    + intros k L L' HL Hle i a b Hi Ha Hb. eapply Rle_trans; [apply HL; assumption|]. apply Rmult_le_compat_r; [apply Rabs_pos|exact Hle].
    + exact curve_lip.
    + exists L. intros i a b Hi Ha Hb. unfold X. apply (glue_lip tt' curve tt_mono i (n - 1)).
      * intros k Hk. apply curve_joint; assumption.
      * intros k a' b' Hk Ha' Hb'. apply (HL k); try assumption. lia.
      * lia.
      * rewrite tt_0. replace (S (n - 1)) with n by lia. rewrite tt_n. exact Ha.
      * rewrite tt_0. replace (S (n - 1)) with n by lia. rewrite tt_n. exact Hb.
  - intros i Hi. unfold X. rewrite (glue_before tt' curve tt_mono) by (rewrite <- tt_0; apply tt_mono).
    rewrite <- tt_0 at 1. rewrite curve_left. reflexivity.
  - intros c e i He Hi. destruct (element_walk o NP c e He) as (k & Hk & Ek). rewrite <- (tt_grid k c e Hk Ek).
    pose proof (tt_next k Hk) as TN. pose proof (curve_right k i Hk Hi) as CR. rewrite Ek in TN, CR. cbn [fst snd] in TN, CR. rewrite <- TN, <- CR.
    unfold X. apply (glue_right tt' curve tt_mono i (n - 1)); try lia. intros k' Hk'. apply curve_joint; assumption.
  - intros tm Ht Hne. rewrite <- tt_0, <- tt_n in Ht. destruct (locate tt' n tm Ht NPos) as (k & Hk & Hin).
    destruct (wk k) as [c e] eqn:Ek. pose proof (walk_element o NP k Hk) as IE. rewrite Ek in IE. cbn [fst snd] in IE.
    pose proof (tt_grid k c e Hk Ek) as TG. pose proof (tt_next k Hk) as TN. rewrite Ek in TN. cbn [fst snd] in TN.
    destruct (Hne c e IE) as [N1 N2]. rewrite <- TG, <- TN in N2. rewrite <- TG in N1.
    assert (S1' : (tt' k < tm < tt' (S k))%R) by (split; apply Rnot_le_lt; intros Hc; [apply N1|apply N2]; lra).
    destruct (El c e IE) as (kappa & Hk1 & FE).
    assert (Hp : (0 < step_len o rho c e)%R) by lra.
    destruct (element_solution' o t m rho c e act kappa Hp FE) as (th & A & B).
    exists c, e, th, kappa. split; [exact IE|]. split; [rewrite <- TG, <- TN; exact S1'|]. split; [exact A|]. split; [exact Hk1|].
    destruct (B (tt' k) tm ltac:(lra)) as [B1 B2].
    assert (EX : forall z, (tt' k < z <= tt' (S k))%R -> X z = trajectory o t rho c e (tt' k) z).
    { intros z Hz. unfold X. rewrite (glue_in tt' curve tt_mono (n - 1) k z) by (try lia; exact Hz). unfold curve. rewrite Ek. reflexivity. }
    rewrite (EX tm) by lra. split.
    + intros i Hi. apply (derivable_pt_lim_locally_ext (fun z => trajectory o t rho c e (tt' k) z i) _ tm (tt' k) (tt' (S k))); [exact S1'| |exact (B1 i Hi)].
      intros z Hz. rewrite (EX z) by lra. reflexivity.
    + exact B2.
Qed.
End Whole.
