(* Feas2_proofs.v -- what the coefficient tables make of the collocation equations and of the cost *)
From Coq Require Import Reals Qreals Lra Psatz Permutation.
From Verif Require Import Base Sx Utils Tableau Opts Model Ocp Problem Spec Cases Lib Sx_proofs Fe_proofs Prob_proofs Coll_proofs
  Body_proofs Model_proofs Con_proofs Index3_proofs Fesd Sem_proofs Dcs_proofs Point_proofs Elem_proofs Nlp_proofs
  Opts_proofs Tableau_proofs Poly_proofs Spec2 Feas_proofs.

Lemma nth_column M i r : nth r (column M i) 0%Q = nth i (nth r M []) 0%Q.
Proof.
  unfold column. destruct (Nat.lt_ge_cases r (length M)) as [L|L].
  - destruct (nth_error_lt M r L) as [row Hr]. rewrite (nth_error_nth _ _ _ Hr).
    apply nth_error_nth. rewrite nth_error_map, Hr. reflexivity.
  - rewrite nth_overflow by (rewrite map_length; exact L). rewrite (nth_overflow M) by exact L. destruct i; reflexivity.
Qed.
Lemma rupto_cons n f : rupto (S n) f = (f 0%nat + rupto n (fun k => f (S k)))%R.
Proof. unfold rupto. cbn [seq map]. rewrite rsum_cons. f_equal. rewrite <- seq_shift, map_map. reflexivity. Qed.
Lemma rupto_all0 n f : (forall k, f k = 0%R) -> rupto n f = 0%R.
Proof. intros H. induction n as [|n IH]; [reflexivity|]. rewrite <- Nat.add_1_r, rupto_S, IH, H. lra. Qed.
Lemma dotR_rupto q : forall v, dotR q v = rupto (length v) (fun r => (entry1 q r * nth r v 0)%R).
Proof.
  induction q as [|x q IH]; intros [|y v]; cbn [dotR length]; rewrite ?rupto_0; try reflexivity.
  - symmetry. apply rupto_all0. intros k. unfold entry1. destruct k; cbn [nth]; rewrite Q2R_0; lra.
  - rewrite rupto_cons, IH. reflexivity.
Qed.
(* C[0][i] a + sum_r C[r+1][i] x_r as a product with column i *)
Lemma dot_column M i a n x : dotR (column M i) (a :: map x (seq 0 n)) = (entryQ M 0 i * a + rupto n (fun r => entryQ M (r + 1) i * x r))%R.
Proof.
  rewrite dotR_rupto. cbn [length]. rewrite map_length, seq_length, rupto_cons. cbn [nth]. unfold entry1 at 1. rewrite nth_column. f_equal.
  apply rupto_ext. intros k Hk. unfold entry1. rewrite nth_column. cbn [nth]. rewrite Nat.add_1_r.
  rewrite (nth_error_nth _ _ _ (nth_error_map_seq x n k Hk)). reflexivity.
Qed.
Lemma dot_row q a n x : dotR q (a :: map x (seq 0 n)) = (entry1 q 0 * a + rupto n (fun r => entry1 q (r + 1) * x r))%R.
Proof.
  rewrite dotR_rupto. cbn [length]. rewrite map_length, seq_length, rupto_cons. cbn [nth]. f_equal.
  apply rupto_ext. intros k Hk. rewrite Nat.add_1_r.
  rewrite (nth_error_nth _ _ _ (nth_error_map_seq x n k Hk)). reflexivity.
Qed.

Lemma map_const_seq {A} (f : A -> R) k l : forall a n, length l = n -> (forall x, In x l -> f x = k) -> map f l = map (fun _ => k) (seq a n).
Proof.
  induction l as [|x l IH]; intros a n L G; subst n; [reflexivity|]. cbn [map length seq]. rewrite (G x (or_introl eq_refl)). f_equal.
  apply IH; [reflexivity|intros; apply G; right; assumption].
Qed.

Section Tab.
Variables (cp : nat -> scheme -> list Q) (o : opts) (t : tab).
Hypothesis MT : make_tab cp o = Ok t.

Lemma tab_integral : o_repr o = Integral -> exists it, generate_butcher_tableu_integral (cp (o_ns o) (o_scheme o)) = Ok it /\
  t_B t = it_B it /\ t_C t = it_C it /\ t_D t = it_D it.
Proof.
  intros E. unfold make_tab in MT. rewrite E in MT. inv_ok. subst. exists a1. cbn. auto.
Qed.
Lemma tab_differential : o_repr o <> Integral -> exists bt, generate_butcher_tableu (o_ns o) (o_scheme o) = Ok bt /\
  t_A t = bt_A bt /\ t_b t = bt_b bt.
Proof.
  intros E. unfold make_tab in MT. destruct (o_repr o) eqn:Er; [congruence| |]; inv_ok; subst; exists a1; cbn; auto.
Qed.
Lemma tab_scheme : points_ok cp o -> t_rbe t = match o_scheme o with RadauIIA => true | GaussLegendre => false end.
Proof. intros PO. apply (make_tab_rbe cp o t MT). intros E. apply (PO E). Qed.
Lemma stiff : o_repr o <> Integral -> t_rbe t = true -> nth_error (t_A t) (o_ns o - 1) = Some (t_b t).
Proof.
  intros E R. assert (PO : points_ok cp o) by (intros E'; congruence). rewrite (tab_scheme PO) in R.
  destruct (tab_differential E) as (bt & Hb & EA & Eb). rewrite EA, Eb. destruct (o_scheme o); [|discriminate].
  destruct (tables_ok _ _ _ Hb) as (_ & _ & _ & _ & _ & _ & _ & _ & _ & G). apply (G eq_refl).
Qed.
Lemma stiff_entry r : o_repr o <> Integral -> t_rbe t = true -> entryQ (t_A t) (o_ns o - 1) r = entry1 (t_b t) r.
Proof. intros E R. unfold entryQ, entry1. rewrite (nth_error_nth _ _ _ (stiff E R)). reflexivity. Qed.
Lemma b_sum : o_repr o <> Integral -> (Rabs (rupto (o_ns o) (entry1 (t_b t)) - 1) <= Q2R tolerance)%R.
Proof.
  intros E. destruct (tab_differential E) as (bt & Hb & _ & Eb). rewrite Eb.
  destruct (tables_ok _ _ _ Hb) as (Hn & Ho & _ & Lb & Lc & _ & _ & G & _).
  specialize (G 1). replace (1 - 1) with 0 in G by lia.
  assert (K : 1 <= 1 <= bt_order bt) by (rewrite Ho; destruct (o_scheme o); lia). specialize (G K).
  assert (M : Q2R (moment (bt_b bt) (bt_c bt) 0) = rupto (o_ns o) (entry1 (bt_b bt))).
  { rewrite <- Lb. unfold moment. assert (L : length (bt_b bt) <= length (bt_c bt)) by lia. revert L. generalize (bt_c bt) as cl. clear.
    induction (bt_b bt) as [|x b IH]; intros cl L; [apply Q2R_0|]. destruct cl as [|y cl]; [cbn in L; lia|].
    cbn [combine map qsum fold_right fst snd length]. rewrite Q2R_plus, Q2R_mult, rupto_cons. f_equal.
    - unfold entry1. cbn [nth]. replace (Q2R (Qpower y (Z.of_nat 0))) with 1%R; [lra|]. cbn. rewrite Q2R_1. reflexivity.
    - apply IH. cbn in L. lia. }
  destruct G as [G1 G2]. apply Qreals.Qle_Rle in G1. apply Qreals.Qle_Rle in G2. rewrite Q2R_minus, M in G1, G2.
  assert (E1 : Q2R (1 / inject_Z (Z.of_nat 1)) = 1%R) by (unfold Q2R; cbn; lra). rewrite E1 in G1, G2.
  apply Rabs_le. lra.
Qed.
End Tab.

Section Elt.
Variables (cp : nat -> scheme -> list Q) (o : opts) (t : tab) (m : model) (oc : ocp) (rho : env).
Hypothesis MT : make_tab cp o = Ok t.
Hypothesis NS : 0 < o_ns o.
Notation ns := (o_ns o).

(* the end-point state is the last stage state for stiffly accurate schemes *)
Lemma end_is_last_stage c e i : collocation o t m rho c e -> continuity o t m rho c e -> t_rbe t = true -> i < m_nx m ->
  stage_state o t rho c e (ns - 1) i = end_state o t rho c e i.
Proof.
  intros Co Cn R Hi. unfold stage_state, end_state, points1. destruct (o_repr o) eqn:Er; [rewrite R; reflexivity| |rewrite R; reflexivity].
  specialize (Cn (or_intror Er) i Hi). unfold end_state, points1 in Cn. rewrite Er in Cn. rewrite Cn. f_equal. f_equal.
  apply rupto_ext. intros r Hr. rewrite (stiff_entry cp o t MT r ltac:(congruence) R). reflexivity.
Qed.

(* DIFFERENTIAL: the step formula *)
Lemma end_differential c e i : collocation o t m rho c e -> continuity o t m rho c e -> o_repr o <> Integral -> i < m_nx m ->
  (end_state o t rho c e i = start_state o t rho c e i + step_len o rho c e * rupto ns (fun j => entry1 (t_b t) j * slope rho c e j i))%R.
Proof.
  intros Co Cn Er Hi.
  assert (D : (t_rbe t = false \/ o_repr o = Differential) \/ (t_rbe t = true /\ o_repr o = DifferentialLiftX)).
  { destruct (t_rbe t); [|auto]. destruct (o_repr o); [congruence|auto|auto]. }
  destruct D as [D|[D1 D2]].
  - specialize (Cn D i Hi). destruct (o_repr o); [congruence|exact Cn|exact Cn].
  - specialize (Co (ns - 1) i ltac:(lia) Hi). cbv zeta in Co. rewrite D2 in Co. destruct Co as [_ Co].
    unfold end_state at 1, points1. rewrite D2, D1. rewrite Co. f_equal. f_equal. apply rupto_ext. intros r Hr.
    rewrite (stiff_entry cp o t MT r Er D1). reflexivity.
Qed.

(* INTEGRAL: constant right-hand side *)
Lemma end_constant c e i f : points_ok cp o -> collocation o t m rho c e -> continuity o t m rho c e -> o_repr o = Integral -> i < m_nx m ->
  (forall j, j < ns -> rhs o m (stage_point o t m rho c e j) i = f) ->
  (end_state o t rho c e i = start_state o t rho c e i + step_len o rho c e * (speed o rho c * f))%R.
Proof.
  intros PO Co Cn Er Hi Hf. destruct (PO Er) as (Lp & Dp & pts & tl & Ep & Htl).
  destruct (tab_integral cp o t MT Er) as (it & Hit & _ & EC & ED).
  set (v := start_state o t rho c e i :: map (fun r => rho (S1 FX c e r i)) (seq 0 ns)).
  assert (Lv : length v = S (length (cp ns (o_scheme o)))) by (unfold v; cbn; rewrite map_length, seq_length, Lp; reflexivity).
  assert (NE : cp ns (o_scheme o) <> []) by (intros E0; rewrite E0 in Lp; cbn in Lp; lia).
  destruct (integral_slope _ Dp it Hit v (step_len o rho c e * (speed o rho c * f))%R NE Lv) as [G1 G2].
  { intros k Hk. unfold v. rewrite dot_column. specialize (Co (k - 1) i ltac:(lia) Hi). cbv zeta in Co. rewrite Er in Co.
    rewrite (Hf (k - 1)) in Co by lia. rewrite Co, EC. replace (k - 1 + 1) with k by lia. reflexivity. }
  assert (V0 : nth 0 v 0%R = start_state o t rho c e i) by reflexivity. rewrite V0 in G1, G2.
  destruct (t_rbe t) eqn:R.
  - unfold end_state, points1. rewrite Er, R.
    assert (Sc : o_scheme o = RadauIIA) by (pose proof (tab_scheme cp o t MT PO) as TS; rewrite R in TS; destruct (o_scheme o); [reflexivity|discriminate]).
    assert (Ht : nth_error (it_tau it) ns = Some tl).
    { destruct (it_parts _ it Hit) as (_ & _ & _ & _ & _ & _ & Et). rewrite Et.
      assert (L2 : ns = S (length pts)). { rewrite Ep in Lp. rewrite app_length in Lp. cbn in Lp. lia. }
      rewrite Ep. rewrite L2 at 1. cbn [nth_error]. rewrite nth_error_app2 by lia. rewrite Nat.sub_diag. reflexivity. }
    specialize (G2 ns tl Ht).
    assert (Vn : nth ns v 0%R = rho (S1 FX c e (ns - 1) i)).
    { unfold v. destruct ns as [|n] eqn:En; [lia|]. cbn [nth]. rewrite (nth_error_nth _ _ _ (nth_error_map_seq (fun r => rho (S1 FX c e r i)) (S n) n ltac:(lia))).
      f_equal. f_equal. lia. }
    rewrite Vn in G2. rewrite G2. rewrite Sc in Htl. apply Qeq_eqR in Htl. rewrite Htl, Q2R_1. lra.
  - specialize (Cn (or_introl R) i Hi). rewrite Er in Cn. rewrite Cn, ED. unfold v in G1. rewrite dot_row in G1. exact G1.
Qed.

(* C21: polynomial trajectories satisfy the equations *)
Lemma polynomial_solves c e (p : nat -> list R) : points_ok cp o -> o_repr o = Integral ->
  (forall i, i < m_nx m -> length (p i) <= S ns) ->
  (forall i, i < m_nx m -> start_state o t rho c e i = peval (p i) 0%R) ->
  (forall i j tj, i < m_nx m -> nth_error (cp ns (o_scheme o)) j = Some tj -> rho (S1 FX c e j i) = peval (p i) (Q2R tj)) ->
  (t_rbe t = false -> forall i, i < m_nx m -> end_state o t rho c e i = peval (p i) 1%R) ->
  (forall i j tj, i < m_nx m -> nth_error (cp ns (o_scheme o)) j = Some tj ->
     derivable_pt_lim (peval (p i)) (Q2R tj) (step_len o rho c e * (speed o rho c * rhs o m (stage_point o t m rho c e j) i))%R) ->
  collocation o t m rho c e /\ continuity o t m rho c e.
Proof.
  intros PO Er Hl H0 Hj H1 Hd. destruct (PO Er) as (Lp & Dp & pts & tl & Ep & Htl).
  destruct (tab_integral cp o t MT Er) as (it & Hit & _ & EC & ED).
  assert (Et : it_tau it = 0%Q :: cp ns (o_scheme o)) by (destruct (it_parts _ it Hit) as (_ & _ & _ & _ & _ & _ & Et); exact Et).
  assert (V : forall i, i < m_nx m -> map (fun tq => peval (p i) (Q2R tq)) (it_tau it) =
     start_state o t rho c e i :: map (fun r => rho (S1 FX c e r i)) (seq 0 ns)).
  { intros i Hi. rewrite Et. cbn [map]. rewrite Q2R_0, <- (H0 i Hi). f_equal.
    symmetry. apply nth_error_same. intros k. rewrite !nth_error_map.
    destruct (Nat.lt_ge_cases k ns) as [L|L].
    - rewrite nth_error_seq by lia. destruct (nth_error_lt (cp ns (o_scheme o)) k ltac:(lia)) as [tk Hk]. rewrite Hk. cbn. f_equal. apply Hj; assumption.
    - replace (nth_error (seq 0 ns) k) with (@None nat) by (symmetry; apply nth_error_None; rewrite seq_length; lia).
      replace (nth_error (cp ns (o_scheme o)) k) with (@None Q) by (symmetry; apply nth_error_None; lia). reflexivity. }
  split.
  - intros j i Hjn Hi. cbv zeta. rewrite Er. destruct (nth_error_lt (cp ns (o_scheme o)) j ltac:(lia)) as [tj Htj].
    assert (Ht : nth_error (it_tau it) (j + 1) = Some tj) by (rewrite Et, Nat.add_1_r; exact Htj).
    pose proof (integral_C _ Dp it Hit (p i) (j + 1) tj ltac:(rewrite Lp; apply Hl, Hi) Ht) as G. rewrite (V i Hi), dot_column, <- EC in G.
    exact (uniqueness_limite _ _ _ _ (Hd i j tj Hi Htj) G).
  - intros D i Hi. rewrite Er. destruct D as [D|D]; [|congruence]. rewrite (H1 D i Hi).
    pose proof (integral_D _ Dp it Hit (p i) ltac:(rewrite Lp; apply Hl, Hi)) as G. rewrite (V i Hi), dot_row, <- ED in G. symmetry. exact G.
Qed.

(* C22 *)
Lemma cost_constant_integral c e q0 : points_ok cp o -> o_repr o = Integral -> o_sot o = SotNone ->
  (forall j, j < ns -> eval (stage_point o t m rho c e j) (oc_fq oc) = q0) ->
  (stage_cost o t m oc rho c e = (1 - entry1 (t_B t) 0) * (step_len o rho c e * q0))%R.
Proof.
  intros PO Er So Hq. destruct (PO Er) as (Lp & Dp & _).
  destruct (tab_integral cp o t MT Er) as (it & Hit & EB & _).
  unfold stage_cost, quad_weight. rewrite Er. unfold speed. rewrite So.
  rewrite (rupto_ext _ _ (fun j => step_len o rho c e * q0 * entry1 (t_B t) (j + 1))%R) by (intros j Hj; rewrite (Hq j Hj); ring).
  rewrite rupto_scale.
  assert (S1' : (entry1 (t_B t) 0 + rupto ns (fun j => entry1 (t_B t) (j + 1)) = 1)%R).
  { assert (pr : Riemann_integrable (peval [1%R]) 0 1) by (apply continuity_implies_RiemannInt; [lra|intros x _; apply peval_continuity]).
    pose proof (integral_B _ Dp it Hit [1%R] pr ltac:(cbn; lia)) as G.
    assert (Et : it_tau it = 0%Q :: cp ns (o_scheme o)) by (destruct (it_parts _ it Hit) as (_ & _ & _ & _ & _ & _ & Et); exact Et).
    assert (E1 : map (fun tq => peval [1%R] (Q2R tq)) (it_tau it) = 1%R :: map (fun _ => 1%R) (seq 0 ns)).
    { rewrite Et. cbn [map]. f_equal; [cbn; ring|]. apply map_const_seq; [exact Lp|intros x _; cbn; ring]. }
    rewrite E1, dot_row in G. rewrite <- EB in G.
    assert (I1 : RiemannInt pr = 1%R).
    { assert (EE : RiemannInt pr = RiemannInt (RiemannInt_P14 0 1 1)).
      { apply RiemannInt_P18; [lra|]. intros x _. cbn. unfold fct_cte. ring. }
      rewrite EE, RiemannInt_P15. ring. }
    rewrite I1 in G. rewrite <- G. rewrite Rmult_1_r. f_equal. apply rupto_ext. intros k _. ring. }
  replace (rupto ns (fun j => entry1 (t_B t) (j + 1))) with (1 - entry1 (t_B t) 0)%R by lra. ring.
Qed.
Lemma cost_constant_differential c e q0 : o_repr o <> Integral -> o_sot o = SotNone ->
  (forall j, j < ns -> eval (stage_point o t m rho c e j) (oc_fq oc) = q0) ->
  (Rabs (stage_cost o t m oc rho c e - step_len o rho c e * q0) <= Q2R tolerance * Rabs (step_len o rho c e * q0))%R.
Proof.
  intros Er So Hq. unfold stage_cost, quad_weight, speed. rewrite So.
  replace (rupto ns _) with (step_len o rho c e * q0 * rupto ns (entry1 (t_b t)))%R.
  - replace (step_len o rho c e * q0 * rupto ns (entry1 (t_b t)) - step_len o rho c e * q0)%R
      with ((rupto ns (entry1 (t_b t)) - 1) * (step_len o rho c e * q0))%R by ring.
    rewrite Rabs_mult. apply Rmult_le_compat_r; [apply Rabs_pos|]. apply (b_sum cp o t MT Er).
  - rewrite <- rupto_scale. apply rupto_ext. intros j Hj. rewrite (Hq j Hj). destruct (o_repr o); [congruence| |]; ring.
Qed.
(* the weight at the left end vanishes when the nodal polynomial has zero mean *)
Lemma B0_zero a (pr : Riemann_integrable (peval a) 0 1) : points_ok cp o -> o_repr o = Integral ->
  length a <= S ns -> (forall q, In q (cp ns (o_scheme o)) -> peval a (Q2R q) = 0%R) -> peval a 0%R <> 0%R -> RiemannInt pr = 0%R ->
  entry1 (t_B t) 0 = 0%R.
Proof.
  intros PO Er La Z N0 I0. destruct (PO Er) as (Lp & Dp & _).
  destruct (tab_integral cp o t MT Er) as (it & Hit & EB & _).
  assert (Et : it_tau it = 0%Q :: cp ns (o_scheme o)) by (destruct (it_parts _ it Hit) as (_ & _ & _ & _ & _ & _ & Et); exact Et).
  pose proof (integral_B _ Dp it Hit a pr ltac:(lia)) as G.
  assert (E1 : map (fun tq => peval a (Q2R tq)) (it_tau it) = peval a 0%R :: map (fun _ => 0%R) (seq 0 ns)).
  { rewrite Et. cbn [map]. rewrite Q2R_0. f_equal. apply map_const_seq; [exact Lp|exact Z]. }
  rewrite E1, dot_row, <- EB, I0 in G.
  rewrite (rupto_all0 ns (fun r => entry1 (t_B t) (r + 1) * 0)%R) in G by (intros; ring).
  destruct (Req_dec (entry1 (t_B t) 0) 0) as [E0|E0]; [exact E0|]. exfalso.
  apply (Rmult_integral_contrapositive_currified _ _ E0 N0). lra.
Qed.
End Elt.
