(* Exact_proofs.v -- one-sided Lipschitz systems: the FESD trajectory is the solution *)
From Coq Require Import Reals Qreals Lra Psatz.
From Verif Require Import Base Sx Utils Tableau Opts Model Ocp Problem Spec Cases Lib Sx_proofs Fesd Spec2 Spec3 Dcs_proofs Elem_proofs Feas_proofs Mode_proofs
  Spec9 Spec10 Filippov_proofs Filippov2_proofs.
Local Open Scope R_scope.

(* ---- functions that are differentiable up to finitely many points ---- *)
Lemma clamp_in a b z : a <= b -> a <= Rmax a (Rmin b z) <= b.
Proof. intros H. unfold Rmax, Rmin. destruct (Rle_dec b z), (Rle_dec a _); lra. Qed.
Lemma clamp_id a b z : a <= z <= b -> Rmax a (Rmin b z) = z.
Proof. intros H. unfold Rmax, Rmin. destruct (Rle_dec b z), (Rle_dec a _); lra. Qed.
Lemma clamp_lip a b y z : a <= b -> Rabs (Rmax a (Rmin b y) - Rmax a (Rmin b z)) <= Rabs (y - z).
Proof.
  intros H. unfold Rmax, Rmin, Rabs. destruct (Rle_dec b z), (Rle_dec b y); repeat destruct (Rle_dec a _); repeat destruct (Rcase_abs _); lra.
Qed.
Lemma clamp_cont a b f : a <= b -> continuous_between a b f -> forall z, continuity_pt (fun z => f (Rmax a (Rmin b z))) z.
Proof.
  intros H C z eps He. destruct (C _ (clamp_in a b z H) eps He) as (d & Hd & G). exists d. split; [exact Hd|]. intros y [_ Hy].
  cbn in *. unfold R_dist in *. apply G; [apply clamp_in; exact H|]. eapply Rle_lt_trans; [apply clamp_lip; exact H|exact Hy].
Qed.
Lemma clamp_deriv a b f z l : a < z < b -> derivable_pt_lim f z l -> derivable_pt_lim (fun z => f (Rmax a (Rmin b z))) z l.
Proof.
  intros H D. apply (derivable_pt_lim_locally_ext f _ z a b l H); [|exact D]. intros y Hy. rewrite clamp_id by lra. reflexivity.
Qed.

Lemma derivable_sig f z : (exists l, derivable_pt_lim f z l) -> derivable_pt f z.
Proof.
  intros H. set (u := fun n => (f (z + / INR (S n)) - f z) / / INR (S n)).
  assert (U : forall l, derivable_pt_lim f z l -> Un_cv u l).
  { intros l D eps He. destruct (D eps He) as (d & Hd). destruct (archimed_cor1 d (cond_pos d)) as (N & HN & NP).
    exists N. intros n Hn. unfold R_dist, u.
    assert (P : 0 < / INR (S n)) by (apply Rinv_0_lt_compat, lt_0_INR; lia).
    apply Hd; [lra|]. rewrite Rabs_right by lra. eapply Rle_lt_trans; [|exact HN]. apply Rinv_le_contravar; [apply lt_0_INR; lia|apply le_INR; lia]. }
  assert (Ca : Cauchy_crit u) by (destruct H as [l D]; apply CV_Cauchy; exists l; apply U, D).
  destruct (R_complete u Ca) as [l Cl]. exists l. destruct H as [l' D]. unfold derivable_pt_abs. rewrite (UL_sequence _ _ _ Cl (U _ D)). exact D.
Qed.
Lemma decreasing f (pts : list R) : forall a b, a <= b -> (forall z, a <= z <= b -> continuity_pt f z) ->
  (forall z, a < z < b -> ~ In z pts -> exists l, derivable_pt_lim f z l /\ l <= 0) -> f b <= f a.
Proof.
  induction pts as [|p pts IH]; intros a b H C D.
  - destruct (Rle_lt_or_eq_dec a b H) as [Hlt|He]; [|subst; lra].
    assert (pr : forall c, a < c < b -> derivable_pt f c) by (intros c Hc; apply derivable_sig; destruct (D c Hc (fun x => x)) as (l & Dl & _); exists l; exact Dl).
    assert (pr2 : forall c, a < c < b -> derivable_pt id c) by (intros; apply derivable_pt_id).
    destruct (MVT f id a b pr pr2 Hlt C ltac:(intros; apply derivable_continuous_pt, derivable_pt_id)) as (c & P & E).
    destruct (D c P (fun x => x)) as (l & Dl & Nl).
    assert (E1 : derive_pt id c (pr2 c P) = 1) by (rewrite (pr_nu id c (pr2 c P) (derivable_pt_id c)); apply derive_pt_id).
    assert (E2 : derive_pt f c (pr c P) = l) by (apply derive_pt_eq_0, Dl).
    rewrite E1, E2 in E. unfold id in E. nra.
  - destruct (Rle_dec a p) as [A|A]; [destruct (Rle_dec p b) as [B|B]|].
    + apply Rle_trans with (f p); apply IH; try assumption.
      * intros z Hz. apply C. lra.
      * intros z Hz N. apply D; [lra|]. intros [E|I]; [lra|contradiction].
      * intros z Hz. apply C. lra.
      * intros z Hz N. apply D; [lra|]. intros [E|I]; [lra|contradiction].
    + apply IH; try assumption. intros z Hz N. apply D; [lra|]. intros [E|I]; [lra|contradiction].
    + apply IH; try assumption. intros z Hz N. apply D; [lra|]. intros [E|I]; [lra|contradiction].
Qed.

(* ---- sums ---- *)
Lemma rupto_succ n f : rupto (S n) f = rupto n f + f n.
Proof. rewrite <- Nat.add_1_r. apply rupto_S. Qed.
Lemma continuity_pt_ext f h z : (forall y, f y = h y) -> continuity_pt f z -> continuity_pt h z.
Proof.
  intros E C eps He. destruct (C eps He) as (d & Hd & G). exists d. split; [exact Hd|]. intros y Hy. rewrite <- !E. apply G, Hy.
Qed.
Lemma rupto_cont n (g : nat -> R -> R) z : (forall i, (i < n)%nat -> continuity_pt (g i) z) -> continuity_pt (fun z => rupto n (fun i => g i z)) z.
Proof.
  induction n as [|n IH]; intros H.
  - apply (continuity_pt_ext (fct_cte 0)); [intros; rewrite rupto_0; reflexivity|]. apply continuity_pt_const. intros ? ?. reflexivity.
  - apply (continuity_pt_ext (fun z => rupto n (fun i => g i z) + g n z)); [intros; rewrite rupto_succ; reflexivity|].
    apply (continuity_pt_plus (fun z => rupto n (fun i => g i z)) (g n)); [apply IH; intros; apply H; lia|apply H; lia].
Qed.
Lemma rupto_deriv n (g : nat -> R -> R) (l : nat -> R) z : (forall i, (i < n)%nat -> derivable_pt_lim (g i) z (l i)) ->
  derivable_pt_lim (fun z => rupto n (fun i => g i z)) z (rupto n l).
Proof.
  induction n as [|n IH]; intros H.
  - rewrite rupto_0. apply (derivable_pt_lim_ext (fct_cte 0)); [intros; rewrite rupto_0; reflexivity|]. apply derivable_pt_lim_const.
  - rewrite rupto_succ. apply (derivable_pt_lim_ext (fun z => rupto n (fun i => g i z) + g n z)); [intros; rewrite rupto_succ; reflexivity|].
    apply (derivable_pt_lim_plus (fun z => rupto n (fun i => g i z)) (g n)); [apply IH; intros; apply H; lia|apply H; lia].
Qed.

(* ---- Gronwall ---- *)
Lemma linear_deriv a z : derivable_pt_lim (fun z => a * z) z a.
Proof. pose proof (derivable_pt_lim_scal id a z 1 (derivable_pt_lim_id z)) as G. rewrite Rmult_1_r in G. exact G. Qed.
Lemma gronwall (phi : R -> R) K E T pts : 0 <= K -> 0 <= E -> 0 <= T -> (forall z, continuity_pt phi z) ->
  (forall z, 0 < z < T -> ~ In z pts -> exists l, derivable_pt_lim phi z l /\ l <= K * phi z + E) ->
  phi T <= (phi 0 + E * T) * exp (K * T).
Proof.
  intros HK HE HT C D.
  set (psi := fun z => phi z * exp (- K * z) - E * z).
  assert (De : forall z, derivable_pt_lim (fun z => exp (- K * z)) z (exp (- K * z) * (- K))).
  { intros z. apply (derivable_pt_lim_comp (fun z => - K * z) exp); [|apply derivable_pt_lim_exp].
    apply linear_deriv. }
  assert (Dl : forall z, derivable_pt_lim (fun z => E * z) z E).
  { intros z. apply linear_deriv. }
  assert (G : psi T <= psi 0).
  { apply (decreasing psi pts 0 T HT).
    - intros z _. apply (continuity_pt_minus (fun z => phi z * exp (- K * z)) (fun z => E * z)).
      + apply (continuity_pt_mult phi (fun z => exp (- K * z))); [apply C|]. apply derivable_continuous_pt. eexists; apply De.
      + apply derivable_continuous_pt. eexists; apply Dl.
    - intros z Hz N. destruct (D z Hz N) as (dl & D1 & D2). exists (dl * exp (- K * z) + phi z * (exp (- K * z) * (- K)) - E). split.
      + apply (derivable_pt_lim_minus (fun z => phi z * exp (- K * z)) (fun z => E * z)); [|apply Dl].
        apply (derivable_pt_lim_mult phi (fun z => exp (- K * z))); [exact D1|apply De].
      + assert (P : 0 < exp (- K * z)) by apply exp_pos.
        assert (U : exp (- K * z) <= 1). { rewrite <- exp_0. destruct (Req_dec (K * z) 0) as [Ez|Ez]; [right; f_equal; lra|left; apply exp_increasing; nra]. }
        assert (S1 : (dl - K * phi z) * exp (- K * z) <= E * exp (- K * z)) by (apply Rmult_le_compat_r; lra).
        assert (S2 : E * exp (- K * z) <= E * 1) by (apply Rmult_le_compat_l; lra). lra. }
  unfold psi in G. rewrite !Rmult_0_r, exp_0 in G.
  assert (Ex : exp (- K * T) * exp (K * T) = 1) by (rewrite <- exp_plus; replace (- K * T + K * T) with 0 by ring; apply exp_0).
  assert (P : 0 < exp (K * T)) by apply exp_pos.
  apply Rmult_le_compat_r with (r := exp (K * T)) in G; [|lra].
  replace ((phi T * exp (- K * T) - E * T) * exp (K * T)) with (phi T * (exp (- K * T) * exp (K * T)) - E * T * exp (K * T)) in G by ring.
  rewrite Ex in G. lra.
Qed.

(* ---- times ---- *)
Lemma rupto_mono n k f : (n <= k)%nat -> (forall j, (j < k)%nat -> 0 <= f j) -> rupto n f <= rupto k f.
Proof.
  intros H N. induction H as [|k Hk IH]; [lra|]. rewrite rupto_succ. specialize (N k (Nat.lt_succ_diag_r k)) as Nk.
  specialize (IH ltac:(intros; apply N; lia)). lra.
Qed.
Lemma rupto_le n f h : (forall j, (j < n)%nat -> f j <= h j) -> rupto n f <= rupto n h.
Proof. intros H. induction n as [|n IH]; [rewrite !rupto_0; lra|]. rewrite !rupto_succ. specialize (H n (Nat.lt_succ_diag_r n)) as Hn. specialize (IH ltac:(intros; apply H; lia)). lra. Qed.

Section Time.
Variables (o : opts) (rho : env).
Hypothesis Hh : steps_nonneg o rho.
Lemma stage_nonneg c : (c < o_N_stages o)%nat -> 0 <= stage_length o rho c.
Proof. intros Hc. apply rupto_nonneg. intros e He. apply Hh. split; assumption. Qed.
Lemma element_in_stage c e : is_element o c e -> grid_time o rho c 0 <= grid_time o rho c e /\
  grid_time o rho c e + step_len o rho c e <= grid_time o rho c 0 + stage_length o rho c.
Proof.
  intros [Hc He]. unfold grid_time. rewrite rupto_0. split.
  - assert (0 <= rupto e (step_len o rho c)); [|lra]. apply rupto_nonneg. intros j Hj. apply Hh. split; [assumption|lia].
  - pose proof (rupto_mono (S e) (nfe_of o c) (step_len o rho c) He ltac:(intros; apply Hh; split; assumption)) as G.
    rewrite rupto_succ in G. unfold stage_length. lra.
Qed.
Lemma stage_in_horizon c : (c < o_N_stages o)%nat -> 0 <= grid_time o rho c 0 /\ grid_time o rho c 0 + stage_length o rho c <= end_time o rho.
Proof.
  intros Hc. unfold grid_time. rewrite rupto_0. split.
  - assert (0 <= rupto c (stage_length o rho)); [|lra]. apply rupto_nonneg. intros j Hj. apply stage_nonneg. lia.
  - pose proof (rupto_mono (S c) (o_N_stages o) (stage_length o rho) Hc stage_nonneg) as G. rewrite rupto_succ in G. unfold end_time. lra.
Qed.
Definition grid_points : list R :=
  flat_map (fun c => flat_map (fun e => [grid_time o rho c e; grid_time o rho c e + step_len o rho c e]) (seq 0 (nfe_of o c))) (seq 0 (o_N_stages o)).
Lemma not_grid_point tm : ~ In tm grid_points -> forall c e, is_element o c e -> tm <> grid_time o rho c e /\ tm <> grid_time o rho c e + step_len o rho c e.
Proof.
  intros N c e [Hc He].
  assert (I : forall z, In z [grid_time o rho c e; grid_time o rho c e + step_len o rho c e] -> In z grid_points).
  { intros z Hz. unfold grid_points. apply in_flat_map. exists c. split; [apply in_seq; lia|]. apply in_flat_map. exists e. split; [apply in_seq; lia|exact Hz]. }
  split; intros ->; apply N, I; cbn; auto.
Qed.
End Time.

(* ---- comparison ---- *)
Section Compare.
Variables (o : opts) (t : tab) (m : model) (rho : env) (act : env -> nat -> nat -> Prop) (X Y : R -> nat -> R) (L E : R).
Hypothesis Hh : steps_nonneg o rho.
Hypothesis FX : filippov_trajectory o t m rho act X.
Hypothesis EY : exact_solution o m rho act Y.
Hypothesis L0 : 0 <= L.
Hypothesis OS : one_sided o m rho act L.
Hypothesis E0 : 0 <= E.
Hypothesis FB : forall c x th, (c < o_N_stages o)%nat -> convex_weights m th ->
  weight_error o * rupto (m_nx m) (fun i => velocity o m rho c x th i * velocity o m rho c x th i) <= E.
Lemma error_nonneg : 0 <= weight_error o.
Proof. unfold weight_error. destruct (o_repr o); try lra; unfold Q2R; cbn; lra. Qed.

Lemma lip_cont a b f K : (forall y z, a <= y <= b -> a <= z <= b -> Rabs (f y - f z) <= K * Rabs (y - z)) -> continuous_between a b f.
Proof.
  intros H z Hz eps He. set (k := Rmax K 1). assert (k1 : 1 <= k) by apply Rmax_r. assert (Kk : K <= k) by apply Rmax_l.
  exists (eps / k). split; [apply Rdiv_lt_0_compat; lra|]. intros s Hs D. eapply Rle_lt_trans; [apply H; assumption|].
  apply Rle_lt_trans with (k * Rabs (s - z)); [apply Rmult_le_compat_r; [apply Rabs_pos|exact Kk]|].
  apply Rmult_lt_compat_l with (r := k) in D; [|lra]. replace (k * (eps / k)) with eps in D by (field; lra). exact D.
Qed.

Lemma compare T : 0 <= T <= end_time o rho -> distance2 m (X T) (Y T) <= E * T * exp ((2 * L + weight_error o) * T).
Proof.
  intros HT. destruct FX as ((K & Lip) & X0 & _ & DX). destruct EY as (CY & Y0 & pts & DY). set (TT := end_time o rho) in *.
  assert (T0 : 0 <= TT) by lra. set (W := weight_error o) in *. assert (W0 : 0 <= W) by apply error_nonneg.
  set (xc := fun i z => X (Rmax 0 (Rmin TT z)) i). set (yc := fun i z => Y (Rmax 0 (Rmin TT z)) i).
  set (g := fun i z => (xc i z - yc i z) * (xc i z - yc i z)). set (phi := fun z => rupto (m_nx m) (fun i => g i z)).
  assert (Pe : forall z, 0 <= z <= TT -> phi z = distance2 m (X z) (Y z)).
  { intros z Hz. unfold phi, distance2, g, xc, yc. rewrite (clamp_id 0 TT z Hz). reflexivity. }
  assert (P0 : phi 0 = 0).
  { rewrite Pe by lra. unfold distance2. transitivity (rupto (m_nx m) (fun _ => 0)); [|clear; induction (m_nx m); [reflexivity|rewrite rupto_succ, IHn; ring]].
    apply rupto_ext. intros i Hi. rewrite X0, Y0 by assumption. ring. }
  assert (C : forall z, continuity_pt phi z).
  { intros z. apply rupto_cont. intros i Hi. unfold g.
    assert (Ci : continuity_pt (fun z => xc i z - yc i z) z).
    { apply (continuity_pt_minus (xc i) (yc i)).
      - apply (clamp_cont 0 TT (fun z => X z i) T0). apply (lip_cont 0 TT _ K). intros a b Ha Hb. exact (Lip i a b Hi Ha Hb).
      - apply (clamp_cont 0 TT (fun z => Y z i) T0). exact (CY i Hi). }
    exact (continuity_pt_mult _ _ z Ci Ci). }
  assert (D : forall z, 0 < z < T -> ~ In z (grid_points o rho ++ pts) -> exists l, derivable_pt_lim phi z l /\ l <= (2 * L + W) * phi z + E).
  { intros z Hz N. assert (N1 : ~ In z (grid_points o rho)) by (intros G; apply N, in_app_iff; auto).
    assert (N2 : ~ In z pts) by (intros G; apply N, in_app_iff; auto).
    destruct (DX z ltac:(lra) (not_grid_point o rho z N1)) as (c & e & th & kappa & He & Ht & Cv & Ka & Dx & Ax).
    destruct (element_in_stage o rho Hh c e He) as [S1 S2]. destruct He as [Hc He].
    destruct (DY c z Hc ltac:(lra) N2) as (th' & Ay & Dy).
    assert (Ax' : active_weights m act (plain_point m rho c (X z)) th) by (split; assumption).
    set (vx := velocity o m rho c (X z) th). set (vy := velocity o m rho c (Y z) th').
    assert (Zc : Rmax 0 (Rmin TT z) = z) by (apply clamp_id; lra).
    exists (rupto (m_nx m) (fun i => 2 * ((X z i - Y z i) * (kappa * vx i - vy i)))). split.
    - apply rupto_deriv. intros i Hi. unfold g.
      assert (Di : derivable_pt_lim (fun z => xc i z - yc i z) z (kappa * vx i - vy i)).
      { apply (derivable_pt_lim_minus (xc i) (yc i)).
        - apply (clamp_deriv 0 TT (fun z => X z i)); [lra|]. exact (Dx i Hi).
        - apply (clamp_deriv 0 TT (fun z => Y z i)); [lra|]. exact (Dy i Hi). }
      pose proof (derivable_pt_lim_mult _ _ z _ _ Di Di) as G. unfold xc, yc in G at 4 5 6 7 || idtac.
      replace (2 * ((X z i - Y z i) * (kappa * vx i - vy i))) with
        ((kappa * vx i - vy i) * (xc i z - yc i z) + (xc i z - yc i z) * (kappa * vx i - vy i)); [exact G|].
      unfold xc, yc. rewrite Zc. ring.
    - rewrite Pe by lra. pose proof (OS c (X z) (Y z) th th' Hc Ax' Ay) as G1. fold vx vy in G1.
      pose proof (FB c (X z) th Hc Cv) as G2. fold vx W in G2. unfold distance2 in *.
      assert (B : rupto (m_nx m) (fun i => 2 * ((X z i - Y z i) * (kappa * vx i - vy i))) <=
                  rupto (m_nx m) (fun i => 2 * ((X z i - Y z i) * (vx i - vy i)) + (W * ((X z i - Y z i) * (X z i - Y z i)) + W * (vx i * vx i)))).
      { apply rupto_le. intros i _. set (dd := X z i - Y z i). set (a := vx i). set (b := vy i).
        assert (Q : 2 * ((kappa - 1) * (dd * a)) <= W * (dd * dd) + W * (a * a)).
        { apply Rabs_le_inv in Ka || idtac. assert (K1 : - W <= kappa - 1 <= W) by (revert Ka; unfold Rabs; try destruct (Rcase_abs _); lra).
          pose proof (Rle_0_sqr (dd - a)) as Q1. pose proof (Rle_0_sqr (dd + a)) as Q2. unfold Rsqr in *.
          destruct (Rle_dec 0 (dd * a)) as [P|P].
          - assert ((kappa - 1) * (dd * a) <= W * (dd * a)) by (apply Rmult_le_compat_r; lra).
            assert (W * (2 * (dd * a)) <= W * (dd * dd + a * a)) by (apply Rmult_le_compat_l; lra). lra.
          - assert ((kappa - 1) * (dd * a) <= W * - (dd * a)).
            { replace ((kappa - 1) * (dd * a)) with ((1 - kappa) * - (dd * a)) by ring. apply Rmult_le_compat_r; lra. }
            assert (W * (2 * - (dd * a)) <= W * (dd * dd + a * a)) by (apply Rmult_le_compat_l; lra). lra. }
        replace (2 * (dd * (kappa * a - b))) with (2 * (dd * (a - b)) + 2 * ((kappa - 1) * (dd * a))) by ring. lra. }
      rewrite !rupto_plus, !rupto_scale in B. rewrite rupto_scale. lra. }
  pose proof (gronwall phi (2 * L + W) E T (grid_points o rho ++ pts) ltac:(lra) E0 ltac:(lra) C D) as G.
  rewrite P0, Pe in G by lra. rewrite Rplus_0_l in G. exact G.
Qed.
End Compare.
