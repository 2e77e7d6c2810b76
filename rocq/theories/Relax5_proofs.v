(* Relax5_proofs.v -- two modes separated by one switching function: nearly active weights can be corrected *)
From Coq Require Import Reals Qreals Lra Psatz.
From Verif Require Import Base Sx Utils Tableau Opts Model Ocp Problem Spec Cases Lib Sx_proofs Fesd Spec2 Spec3 Dcs_proofs Elem_proofs Feas_proofs Spec9 Spec10 Spec11
  Exact_proofs Spec20 Spec21 Spec22 Spec24.
Local Open Scope R_scope.

Section One.
Variables (o : opts) (m : model) (rho : env) (act : env -> nat -> nat -> Prop) (near : R -> env -> nat -> nat -> Prop).
Variable D : (nat -> R) -> Prop.
Hypothesis OS : one_switch m.
Hypothesis NR : near_rule o m act near.
Let sg (k : nat) : R := Q2R (sign m 0 k 0).
Notation cv v := (switch_value m v 0 0).

Lemma sg_cases : (sg 0 = -1 /\ sg 1 = 1) \/ (sg 0 = 1 /\ sg 1 = -1).
Proof.
  unfold sg. assert (A : Q2R (-1) = -1) by (unfold Q2R; cbn; lra). assert (B : Q2R 1 = 1) by (unfold Q2R; cbn; lra).
  destruct (os_signs m OS) as [[E1 E2]|[E1 E2]]; rewrite (Qeq_eqR _ _ E1), (Qeq_eqR _ _ E2), A, B; auto.
Qed.
Lemma region_one v k : (k < 2)%nat -> region_value m v 0 k = - (sg k * cv v).
Proof.
  intros Hk. pose proof (os_rows m OS 0%nat k ltac:(rewrite (os_sub m OS); lia) ltac:(rewrite (os_modes m OS); lia)) as Lr.
  pose proof (os_switch m OS) as Lc. rewrite Lc in Lr. assert (Lu : length (user_c m 0) = 1%nat).
  { unfold n_switch in Lc. rewrite (os_gS m OS) in Lc. unfold user_c. destruct (m_c m) as [cl|]; [|exact Lc]. destruct cl as [|x cl]; exact Lc. }
  unfold region_value, sg, sign, switch_value. rewrite (os_gS m OS).
  destruct (nth k (user_S m 0) []) as [|q [|? ?]]; cbn in Lr; try lia. destruct (user_c m 0) as [|x [|? ?]]; cbn in Lu; try lia.
  unfold rsum. cbn [combine map fold_right fst snd nth]. ring.
Qed.
Lemma act_one v k : (k < 2)%nat -> 0 <= sg k * cv v -> act v 0 k.
Proof.
  intros Hk G. destruct NR as [(_ & -> & _)|(_ & _ & _ & _ & -> & _)].
  - intros l Hl. rewrite (os_modes m OS) in Hl. rewrite !region_one by lia. destruct sg_cases as [[E0 E1]|[E0 E1]]; destruct k as [|[|k]], l as [|[|l]]; try lia; rewrite ?E0, ?E1 in *; lra.
  - intros r Hr. rewrite (os_switch m OS) in Hr. assert (r = 0)%nat by lia. subst r. exact G.
Qed.
Lemma near_one eps v k : 0 <= eps -> (k < 2)%nat -> near eps v 0 k -> - eps <= sg k * cv v.
Proof.
  intros e0 Hk G. destruct NR as [(_ & _ & ->)|(_ & _ & _ & _ & _ & ->)].
  - assert (G0 := G 0%nat ltac:(rewrite (os_modes m OS); lia)). assert (G1 := G 1%nat ltac:(rewrite (os_modes m OS); lia)). rewrite !region_one in G0, G1 by lia.
    destruct sg_cases as [[E0 E1]|[E0 E1]]; destruct k as [|[|k]]; try lia; rewrite ?E0, ?E1 in *; lra.
  - apply (G 0%nat). rewrite (os_switch m OS). lia.
Qed.
Lemma weights_one th : convex_weights m th <-> 0 <= th 0%nat 0%nat /\ 0 <= th 0%nat 1%nat /\ th 0%nat 0%nat + th 0%nat 1%nat = 1.
Proof.
  unfold convex_weights. rewrite (os_sub m OS). split.
  - intros H. destruct (H 0%nat Nat.lt_0_1) as [P S]. rewrite (os_modes m OS) in P, S. unfold rupto in S. cbn in S. repeat split; [apply P; lia|apply P; lia|lra].
  - intros (P & Q & S) [|s] Hs; [|lia]. rewrite (os_modes m OS). split; [intros [|[|k]] Hk; [assumption|assumption|lia]|unfold rupto; cbn; lra].
Qed.
Definition pure (k : nat) : nat -> nat -> R := fun _ l => if Nat.eqb l k then 1 else 0.
Lemma pure_convex k : (k < 2)%nat -> convex_weights m (pure k).
Proof. intros Hk. apply weights_one. unfold pure. destruct k as [|[|k]]; cbn; try lia; lra. Qed.
Lemma velocity_one c x th i : velocity o m rho c x th i = th 0%nat 0%nat * velocity o m rho c x (pure 0) i + th 0%nat 1%nat * velocity o m rho c x (pure 1) i.
Proof. unfold velocity, mixed_field. rewrite (os_sub m OS). unfold rupto at 1 3 5. cbn [seq map]. unfold rsum. cbn [fold_right]. rewrite (os_modes m OS). unfold rupto. cbn. ring. Qed.
Lemma active_pure v k : (k < 2)%nat -> 0 <= sg k * cv v -> active_weights m act v (pure k).
Proof.
  intros Hk G. split; [apply pure_convex; exact Hk|]. intros s l Hs Hl Hw. rewrite (os_sub m OS) in Hs. assert (s = 0)%nat by lia. subst s.
  unfold pure in Hw. destruct (Nat.eqb l k) eqn:E; [|lra]. apply Nat.eqb_eq in E. subst l. apply act_one; assumption.
Qed.
Lemma active_zero v th : cv v = 0 -> convex_weights m th -> active_weights m act v th.
Proof.
  intros Z Cx. split; [exact Cx|]. intros s l Hs Hl _. rewrite (os_sub m OS) in Hs. assert (s = 0)%nat by lia. subst s. rewrite (os_modes m OS) in Hl.
  apply act_one; [exact Hl|]. rewrite Z. lra.
Qed.
Variables (M Lf a eps : R).
Hypothesis BD : bounded_on o m rho D M.
Hypothesis LI : lipschitz_on o m rho D Lf.
Hypothesis SC : surface_close o m rho D a eps.
Hypothesis M0 : 0 <= M.
Hypothesis L0 : 0 <= Lf.
Hypothesis a0 : 0 <= a.
Hypothesis e0 : 0 <= eps < / 2.
Lemma one_switch_correctable : correctable_on o m rho act near D eps ((a + Lf * a + 2 * M) * eps).
Proof.
  intros c x th Hc Dx [Cx Nx]. set (v := plain_point m rho c x) in *.
  assert (A0 : 0 <= a * eps) by (apply Rmult_le_pos; lra). assert (A1 : 0 <= Lf * a * eps) by (apply Rmult_le_pos; [apply Rmult_le_pos; assumption|lra]).
  assert (A2 : 0 <= M * eps) by (apply Rmult_le_pos; lra).
  (* on the surface all weights are active *)
  assert (OnS : Rabs (cv v) <= eps -> exists x' th', D x' /\ active_weights m act (plain_point m rho c x') th' /\
    forall i, (i < m_nx m)%nat -> Rabs (x' i - x i) <= (a + Lf * a + 2 * M) * eps /\ Rabs (velocity o m rho c x th i - velocity o m rho c x' th' i) <= (a + Lf * a + 2 * M) * eps).
  { intros G. destruct (SC c x Hc Dx G) as (x' & Dx' & Z & Cl). exists x', th. split; [exact Dx'|]. split; [apply active_zero; assumption|].
    intros i Hi. pose proof (Cl i Hi) as Ci. split; [lra|].
    pose proof (LI c x x' th (a * eps) i Hc Dx Dx' Cx ltac:(intros k Hk; rewrite Rabs_minus_sym; exact (Cl k Hk)) Hi) as G2. lra. }
  assert (W := proj1 (weights_one th) Cx). destruct W as (W0 & W1 & WS).
  assert (Nk : forall k, (k < 2)%nat -> eps < th 0%nat k -> - eps <= sg k * cv v).
  { intros k Hk Hw. apply near_one; [lra|exact Hk|]. apply Nx; [rewrite (os_sub m OS); lia|rewrite (os_modes m OS); exact Hk|exact Hw]. }
  (* a pure mode *)
  assert (Pure : forall k l, (k < 2)%nat -> (l < 2)%nat -> k <> l -> th 0%nat k <= eps -> 0 <= sg l * cv v -> exists x' th', D x' /\ active_weights m act (plain_point m rho c x') th' /\
    forall i, (i < m_nx m)%nat -> Rabs (x' i - x i) <= (a + Lf * a + 2 * M) * eps /\ Rabs (velocity o m rho c x th i - velocity o m rho c x' th' i) <= (a + Lf * a + 2 * M) * eps).
  { intros k l Hk Hl Ne Ht Gs. exists x, (pure l). split; [exact Dx|]. split; [apply active_pure; assumption|]. intros i Hi. replace (x i - x i) with 0 by ring.
    rewrite Rabs_R0. split; [lra|].
    pose proof (BD c x (pure k) i Hc Dx (pure_convex k Hk) Hi) as B1. pose proof (BD c x (pure l) i Hc Dx (pure_convex l Hl) Hi) as B2.
    assert (Ev : velocity o m rho c x th i - velocity o m rho c x (pure l) i = th 0%nat k * (velocity o m rho c x (pure k) i - velocity o m rho c x (pure l) i)).
    { rewrite velocity_one. destruct k as [|[|k]], l as [|[|l]]; try lia.
      - replace (th 0%nat 1%nat) with (1 - th 0%nat 0%nat) by lra. ring.
      - replace (th 0%nat 0%nat) with (1 - th 0%nat 1%nat) by lra. ring. }
    rewrite Ev, Rabs_mult. assert (T0 : 0 <= th 0%nat k) by (destruct k as [|[|k]]; try lia; assumption). rewrite (Rabs_right (th 0%nat k)) by lra.
    assert (V : Rabs (velocity o m rho c x (pure k) i - velocity o m rho c x (pure l) i) <= 2 * M).
    { eapply Rle_trans; [apply (Rabs_triang _ (- _))|]. rewrite Rabs_Ropp. lra. }
    assert (th 0%nat k * Rabs (velocity o m rho c x (pure k) i - velocity o m rho c x (pure l) i) <= eps * (2 * M)) by (apply Rmult_le_compat; [exact T0|apply Rabs_pos|exact Ht|exact V]). lra. }
  destruct (Rle_dec (th 0%nat 0%nat) eps) as [H0|H0].
  - pose proof (Nk 1%nat ltac:(lia) ltac:(lra)) as N1. destruct (Rle_dec 0 (sg 1 * cv v)) as [G|G]; [apply (Pure 0%nat 1%nat); try lia; assumption|].
    apply OnS. destruct sg_cases as [[_ E]|[_ E]]; rewrite E in *; apply Rabs_le; lra.
  - pose proof (Nk 0%nat ltac:(lia) ltac:(lra)) as N0. destruct (Rle_dec (th 0%nat 1%nat) eps) as [H1|H1].
    + destruct (Rle_dec 0 (sg 0 * cv v)) as [G|G]; [apply (Pure 1%nat 0%nat); try lia; assumption|].
      apply OnS. destruct sg_cases as [[E _]|[E _]]; rewrite E in *; apply Rabs_le; lra.
    + pose proof (Nk 1%nat ltac:(lia) ltac:(lra)) as N1. apply OnS. destruct sg_cases as [[E0 E1]|[E0 E1]]; rewrite ?E0, ?E1 in *; apply Rabs_le; lra.
Qed.
End One.
