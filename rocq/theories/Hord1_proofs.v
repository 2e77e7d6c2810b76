(* Hord1_proofs.v -- Taylor polynomials; the coefficients of the collocation methods are exact for polynomials *)
From Coq Require Import Reals Qreals Lra Psatz.
From Verif Require Import Base Sx Utils Tableau Opts Model Ocp Problem Spec Cases Lib Sx_proofs Fe_proofs Prob_proofs Coll_proofs
  Body_proofs Model_proofs Con_proofs Index3_proofs Fesd Sem_proofs Dcs_proofs Point_proofs Elem_proofs Nlp_proofs
  Opts_proofs Tableau_proofs Poly_proofs Spec2 Feas_proofs Feas2_proofs Spec3 Numeric Mode_proofs Smooth_proofs Spec9 Spec10 Filippov_proofs
  Filippov2_proofs Filippov3_proofs Exact_proofs Spec11 ExistBase_proofs Spec20 Soft_proofs Spec21 Conv_proofs Spec28.
Local Open Scope R_scope.

Lemma mvt_bound f df a b M : a <= b -> (forall x, a <= x <= b -> derivable_pt_lim f x (df x)) -> (forall x, a <= x <= b -> Rabs (df x) <= M) ->
  Rabs (f b - f a) <= M * (b - a).
Proof.
  intros Hab Hd Hb.
  assert (U : forall g dg, (forall x, a <= x <= b -> derivable_pt_lim g x (dg x)) -> (forall x, a <= x <= b -> dg x <= M) -> g b - g a <= M * (b - a)).
  { intros g dg Dg Bg.
    assert (G : g b - M * b <= g a - M * a).
    { apply (decreasing (fun x => g x - M * x) [] a b Hab).
      - intros z Hz. apply derivable_continuous_pt. exists (dg z - M * 1). apply (derivable_pt_lim_minus g (fun x => M * x)); [apply Dg, Hz|].
        apply (derivable_pt_lim_scal (fun x => x)). apply derivable_pt_lim_id.
      - intros z Hz _. exists (dg z - M * 1). split; [|specialize (Bg z ltac:(lra)); lra].
        apply (derivable_pt_lim_minus g (fun x => M * x)); [apply Dg; lra|]. apply (derivable_pt_lim_scal (fun x => x)). apply derivable_pt_lim_id. }
    lra. }
  apply Rabs_le. split.
  - pose proof (U (fun x => - f x) (fun x => - df x)) as G. cbv beta in G.
    assert (G' : - f b - - f a <= M * (b - a)); [|lra]. apply G.
    + intros x Hx. apply (derivable_pt_lim_opp f). apply Hd, Hx.
    + intros x Hx. specialize (Hb x Hx). pose proof (Rle_abs (- df x)) as Q. rewrite Rabs_Ropp in Q. lra.
  - apply (U f df Hd). intros x Hx. specialize (Hb x Hx). pose proof (Rle_abs (df x)). lra.
Qed.

Lemma anti c q : exists q', length q' = S (length q) /\ peval q' 0 = c /\ forall x, peval (pder q') x = peval q x.
Proof.
  assert (G : forall q k, (0 < k)%nat -> exists q', length q' = length q /\ forall x, INR k * peval q' x + x * peval (pder q') x = peval q x).
  { clear. induction q as [|a q IH]; intros k Hk; [exists []; split; [reflexivity|]; intros x; cbn; ring|].
    assert (P : 0 < INR k) by (apply lt_0_INR; exact Hk).
    destruct (IH (S k) ltac:(lia)) as (q' & Lq & Eq). exists (a / INR k :: q'). split; [cbn; congruence|]. intros x.
    rewrite pder_cons. cbn [peval]. specialize (Eq x). rewrite S_INR in Eq. rewrite <- Eq. field. lra. }
  destruct (G q 1%nat Nat.lt_0_1) as (q' & Lq & Eq). exists (c :: q'). split; [cbn; congruence|]. split; [cbn; ring|].
  intros x. rewrite pder_cons. rewrite <- Eq. cbn [INR]. ring.
Qed.

(* Taylor polynomial and its derivative *)
Lemma taylor_chain n : forall B a b (d : nat -> R -> R), (forall k x, (k <= n)%nat -> a <= x <= b -> derivable_pt_lim (d k) x (d (S k) x)) ->
  (forall x, a <= x <= b -> Rabs (d (S n) x) <= B) -> forall tm, a <= tm <= b ->
  exists q, (length q <= S n)%nat /\ forall s, 0 <= s -> tm + s <= b ->
    Rabs (d 0%nat (tm + s) - peval q s) <= B * s ^ S n /\ Rabs (d 1%nat (tm + s) - peval (pder q) s) <= B * s ^ n.
Proof.
  induction n as [|n IH]; intros B a b d Hd HB tm Ht.
  - exists [d 0%nat tm]. split; [cbn; lia|]. intros s Hs Hb.
    split; [|cbn [pder peval pow]; rewrite Rminus_0_r, Rmult_1_r; apply HB; lra].
    replace (peval [d 0%nat tm] s) with (d 0%nat tm) by (cbn; ring).
    pose proof (mvt_bound (d 0%nat) (d 1%nat) tm (tm + s) B ltac:(lra)) as G. replace (tm + s - tm) with s in G by ring. cbn [pow]. rewrite Rmult_1_r. apply G.
    + intros x Hx. apply Hd; [lia|lra].
    + intros x Hx. apply HB. lra.
  - destruct (IH B a b (fun k => d (S k))) with (tm := tm) as (q & Lq & Hq); [intros k x Hk Hx; apply (Hd (S k)); [lia|exact Hx]|exact HB|exact Ht|].
    destruct (anti (d 0%nat tm) q) as (q' & Lq' & E0 & E1). exists q'. split; [lia|]. intros s Hs Hb.
    split; [|rewrite E1; apply (Hq s Hs Hb)].
    pose proof (mvt_bound (fun x => d 0%nat (tm + x) - peval q' x) (fun x => d 1%nat (tm + x) - peval q x) 0 s (B * s ^ S n) Hs) as G. cbv beta in G.
    rewrite Rplus_0_r, E0, Rminus_0_r in G.
    replace (d 0%nat (tm + s) - peval q' s) with (d 0%nat (tm + s) - peval q' s - (d 0%nat tm - d 0%nat tm)) by ring.
    replace (B * s ^ S (S n)) with (B * s ^ S n * s) by (cbn [pow]; ring). apply G.
    + intros x Hx. apply (derivable_pt_lim_minus (fun x => d 0%nat (tm + x)) (peval q')); [|rewrite <- E1; apply peval_deriv].
      replace (d 1%nat (tm + x)) with (d 1%nat (tm + x) * (0 + 1)) by ring.
      apply (derivable_pt_lim_comp (fun x => tm + x) (d 0%nat)); [|apply Hd; [lia|lra]].
      apply (derivable_pt_lim_plus (fun _ => tm) (fun x => x)); [apply derivable_pt_lim_const|apply derivable_pt_lim_id].
    + intros x Hx. eapply Rle_trans; [apply (Hq x); lra|]. 
      assert (B0 : 0 <= B) by (eapply Rle_trans; [apply Rabs_pos|apply (HB tm Ht)]).
      apply Rmult_le_compat_l; [exact B0|]. apply pow_incr. exact Hx.
Qed.
Lemma taylor n B a b f tm df : smooth n B a b f -> a <= tm <= b -> (forall x, a <= x <= b -> derivable_pt_lim f x (df x)) ->
  exists q, (length q <= S n)%nat /\ forall s, 0 <= s -> tm + s <= b ->
    Rabs (f (tm + s) - peval q s) <= B * s ^ S n /\ Rabs (df (tm + s) - peval (pder q) s) <= B * s ^ n.
Proof.
  intros (d & E & Hd & HB) Ht Hf. destruct (taylor_chain n B a b d Hd HB tm Ht) as (q & Lq & Hq). exists q. split; [exact Lq|]. intros s Hs Hb.
  destruct (Hq s Hs Hb) as [G1 G2]. rewrite E in G1. split; [exact G1|].
  replace (df (tm + s)) with (d 1%nat (tm + s)); [exact G2|]. apply (uniqueness_limite f (tm + s)); [|apply Hf; lra].
  apply (derivable_pt_lim_ext (d 0%nat)); [exact E|]. apply Hd; [lia|lra].
Qed.

(* the end point from the slopes *)
Lemma integral_end pts it : distinct (0%Q :: pts) -> generate_butcher_tableu_integral pts = Ok it ->
  exists b : nat -> R, forall v, length v = S (length pts) ->
    dotR (it_D it) v - nth 0 v 0 = rupto (length pts) (fun k => b k * dotR (column (it_C it) (S k)) v).
Proof.
  intros Hd Hit. pose proof (distinct_tail _ _ Hd) as Hd'.
  destruct (it_parts pts it Hit) as (cs & Hcs & Lc & _ & EC & ED & Et).
  assert (Q : exists cq, mapM (lagrange_coeff pts) (seq 0 (length pts)) = Ok cq).
  { assert (G : forall j, In j (seq 0 (length pts)) -> exists c, lagrange_coeff pts j = Ok c).
    { intros j Hj. apply in_seq in Hj. destruct (lagrange_ok _ Hd' j) as (c & Hc & _); [lia|]. eauto. }
    revert G. generalize (seq 0 (length pts)) as l. induction l as [|j l IH]; intros G; [eexists; reflexivity|].
    destruct (G j (or_introl eq_refl)) as [c Hc]. destruct IH as [cq Hq]; [intros; apply G; right; assumption|].
    cbn [mapM]. rewrite Hc. cbn [bind]. rewrite Hq. eexists; reflexivity. }
  destruct Q as [cq Hq]. pose proof (cs_length pts cq Hq) as Lq.
  exists (fun k => hval (polyint (nth k cq [])) 1). intros v Lv.
  set (tau := 0%Q :: pts) in *. set (a := pcomb cs v).
  assert (La : (length a <= length tau)%nat) by (apply pcomb_length; exact (cs_all tau Hd cs Hcs)).
  assert (V : forall i t, nth_error tau i = Some t -> nth i v 0 = peval a (Q2R t)).
  { intros i t Hi. destruct (lcomb_at tau Hd cs Hcs v i t) as (y & Hy & E); [exact Lv|exact Hi|].
    unfold a. rewrite pcomb_eval, E. apply nth_error_nth with (d := 0) in Hy. exact Hy. }
  rewrite ED, it_dot_D, <- (pcomb_eval cs v 1). fold a. rewrite (V 0%nat 0%Q eq_refl), Q2R_0.
  set (w := map (fun t => peval (pder a) (Q2R t)) pts).
  rewrite (primitive_eq (peval a) (lcomb (map polyint cq) w) (peval (pder a))).
  - rewrite lcomb_polyint_0, Rminus_0_r, (lcomb_map_sum polyint) by (unfold w; rewrite map_length; lia).
    rewrite Lq. apply rupto_ext. intros k Hk. f_equal. unfold w.
    rewrite (nth_indep _ 0 (peval (pder a) (Q2R 0%Q))) by (rewrite map_length; exact Hk).
    rewrite (map_nth (fun t => peval (pder a) (Q2R t))).
    apply (lcomb_ext_deriv (peval a) (lcomb cs v) (Q2R (nth k pts 0%Q))); [intros; apply pcomb_eval|apply peval_deriv|].
    rewrite EC. unfold tau. rewrite (it_dot_C pts cs v (S k) (nth k pts 0%Q)) by (cbn [nth_error]; apply nth_error_nth'; exact Hk).
    apply (lcomb_deriv cs polyder). intros c. apply polyder_hval.
  - intros x. apply peval_deriv.
  - intros x. rewrite <- (interp pts Hd' cq Hq (pder a) x).
    + fold w. apply lcomb_polyint_deriv.
    + pose proof (length_pder a) as G. unfold tau in La. cbn [length] in La. lia.
Qed.

(* stages and end point of an element, and the same formulas for polynomials *)
Lemma method_rows cp sc n : exists (A : nat -> nat -> R) (b : nat -> R), forall o t m rho c e, method Integral sc n o -> make_tab cp o = Ok t -> points_ok cp o ->
  (0 < n)%nat ->
  (forall q, (length q <= S n)%nat ->
     (forall j, (j < n)%nat -> peval q (Q2R (nth j (cp n sc) 0%Q)) - peval q 0 = rupto n (fun k => A j k * peval (pder q) (Q2R (nth k (cp n sc) 0%Q)))) /\
     peval q 1 - peval q 0 = rupto n (fun k => b k * peval (pder q) (Q2R (nth k (cp n sc) 0%Q)))) /\
  (collocation o t m rho c e -> continuity o t m rho c e -> forall i, (i < m_nx m)%nat ->
     (forall j, (j < n)%nat -> stage_state o t rho c e j i - start_state o t rho c e i =
        step_len o rho c e * rupto n (fun k => A j k * (speed o rho c * rhs o m (stage_point o t m rho c e k) i))) /\
     end_state o t rho c e i - start_state o t rho c e i =
        step_len o rho c e * rupto n (fun k => b k * (speed o rho c * rhs o m (stage_point o t m rho c e k) i))).
Proof.
  destruct (Classical_Prop.classic (distinct (0%Q :: cp n sc) /\ exists it, generate_butcher_tableu_integral (cp n sc) = Ok it)) as [(Hd & it & Hit)|N].
  - destruct (integral_stages _ it Hd Hit) as [A HA]. destruct (integral_end _ it Hd Hit) as [b Hb]. exists A, b.
    intros o t m rho c e (E1 & E2 & E3) MT PO Hn.
    destruct (PO E1) as (Lp & _ & pts & tl & Ep & Htl). rewrite E2, E3 in Lp, Ep.
    destruct (tab_integral cp o t MT E1) as (it' & Hit' & _ & EC & ED). rewrite E2, E3, Hit in Hit'. injection Hit' as <-.
    assert (Et : it_tau it = 0%Q :: cp n sc) by (destruct (it_parts _ it Hit) as (cs & _ & _ & _ & _ & _ & Et); exact Et).
    split.
    + intros q Lq. set (v := map (fun t => peval q (Q2R t)) (it_tau it)).
      assert (Lv : length v = S (length (cp n sc))) by (unfold v; rewrite map_length, Et; reflexivity).
      assert (Sl : forall k, (k < n)%nat -> dotR (column (it_C it) (S k)) v = peval (pder q) (Q2R (nth k (cp n sc) 0%Q))).
      { intros k Hk. apply (uniqueness_limite (peval q) (Q2R (nth k (cp n sc) 0%Q))); [|apply peval_deriv].
        apply (integral_C _ Hd it Hit q (S k)); [rewrite Lp; exact Lq|]. rewrite Et. cbn [nth_error]. apply nth_error_nth'. lia. }
      assert (V0 : nth 0 v 0 = peval q 0) by (unfold v; rewrite Et; cbn [map nth]; rewrite Q2R_0; reflexivity).
      split.
      * intros j Hj. specialize (HA v Lv j ltac:(lia)). rewrite V0, Lp in HA. unfold v in HA at 1. rewrite Et in HA. cbn [map nth] in HA.
        rewrite (nth_indep _ 0 (peval q (Q2R 0%Q))) in HA by (rewrite map_length; lia). rewrite (map_nth (fun t => peval q (Q2R t))) in HA.
        rewrite HA. apply rupto_ext. intros k Hk. rewrite (Sl k Hk). reflexivity.
      * specialize (Hb v Lv). rewrite V0, Lp in Hb. unfold v in Hb at 1. rewrite (integral_D _ Hd it Hit q ltac:(lia)) in Hb.
        rewrite Hb. apply rupto_ext. intros k Hk. rewrite (Sl k Hk). reflexivity.
    + intros Co Cn i Hi. set (v := start_state o t rho c e i :: map (fun r => rho (S1 FX c e r i)) (seq 0 n)).
      assert (Lv : length v = S (length (cp n sc))) by (unfold v; cbn [length]; rewrite map_length, seq_length, Lp; reflexivity).
      assert (Sl : forall k, (k < n)%nat -> dotR (column (it_C it) (S k)) v = step_len o rho c e * (speed o rho c * rhs o m (stage_point o t m rho c e k) i)).
      { intros k Hk. specialize (Co k i ltac:(lia) Hi). cbv zeta in Co. rewrite E1, E3, EC in Co. unfold v. rewrite <- (Nat.add_1_r k), dot_column, <- Co. reflexivity. }
      split.
      * intros j Hj. specialize (HA v Lv j ltac:(lia)). unfold v in HA at 1 2. cbn [nth] in HA. rewrite (nth_error_nth _ _ _ (nth_error_map_seq (fun r => rho (S1 FX c e r i)) n j Hj)) in HA.
        unfold stage_state. rewrite E1, HA, Lp, <- rupto_scale. apply rupto_ext. intros k Hk. rewrite (Sl k Hk). ring.
      * assert (EE : end_state o t rho c e i = dotR (it_D it) v).
        { destruct (t_rbe t) eqn:Er.
          - rewrite <- (end_is_last_stage cp o t m rho MT c e i Co Cn Er Hi). unfold stage_state. rewrite E1, E3.
            assert (Sc : o_scheme o = RadauIIA) by (pose proof (tab_scheme cp o t MT PO) as Q; rewrite Er in Q; destruct (o_scheme o); congruence).
            rewrite Sc in Htl. 
            destruct (it_parts _ it Hit) as (cs & Hcs & Lc & _ & _ & ED' & _). rewrite ED', it_dot_D.
            destruct (lcomb_at (0%Q :: cp n sc) Hd cs Hcs v n tl) as (y & Hy & E); [exact Lv| |].
            + destruct n as [|n']; [lia|]. cbn [nth_error]. rewrite Ep. rewrite Ep, app_length in Lp. cbn [length] in Lp.
              rewrite nth_error_app2 by lia. replace (n' - length pts)%nat with 0%nat by lia. reflexivity.
            + apply Qeq_eqR in Htl. rewrite Htl, Q2R_1 in E. rewrite E. apply nth_error_nth with (d := 0) in Hy. rewrite <- Hy. unfold v.
              destruct n as [|n']; [lia|]. cbn [nth]. rewrite (nth_error_nth _ _ _ (nth_error_map_seq (fun r => rho (S1 FX c e r i)) (S n') n' ltac:(lia))).
              f_equal. f_equal. lia.
          - rewrite (Cn (or_introl Er) i Hi), E1, E3, ED. unfold v. rewrite dot_row. reflexivity. }
        specialize (Hb v Lv). rewrite EE. unfold v in Hb at 2. cbn [nth] in Hb. rewrite Hb, Lp, <- rupto_scale. apply rupto_ext. intros k Hk. rewrite (Sl k Hk). ring.
  - exists (fun _ _ => 0), (fun _ => 0). intros o t m rho c e (E1 & E2 & E3) MT PO. exfalso. apply N.
    destruct (PO E1) as (_ & Hd & _). rewrite E2, E3 in Hd. split; [exact Hd|].
    destruct (tab_integral cp o t MT E1) as (it & Hit & _). rewrite E2, E3 in Hit. exists it. exact Hit.
Qed.
