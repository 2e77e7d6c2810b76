(* Conv_proofs.v -- how far the stages of an element are from its first point *)
From Coq Require Import Reals Qreals Lra Psatz.
From Verif Require Import Base Sx Utils Tableau Opts Model Ocp Problem Spec Cases Lib Sx_proofs
  Fesd Dcs_proofs Elem_proofs Tableau_proofs Poly_proofs Spec2 Feas_proofs Feas2_proofs Spec3 Numeric Mode_proofs Spec9 Spec10 Filippov_proofs
  Filippov2_proofs Exact_proofs Spec11 ExistBase_proofs Spec20 Soft_proofs Spec21.
Local Open Scope R_scope.

Lemma lcomb_map_sum (F : list Q -> list Q) cs : forall v x, length v = length cs ->
  lcomb (map F cs) v x = rupto (length cs) (fun k => hval (F (nth k cs [])) x * nth k v 0).
Proof.
  unfold lcomb. induction cs as [|c cs IH]; intros [|y v] x L; cbn in L; try lia.
  - rewrite rupto_0. reflexivity.
  - cbn [map combine fold_right fst snd length]. rewrite rupto_cons. cbn [nth]. f_equal. apply IH. lia.
Qed.
Lemma lcomb_polyint_deriv cs : forall v x, derivable_pt_lim (lcomb (map polyint cs) v) x (lcomb cs v x).
Proof.
  intros v x. unfold lcomb. revert v. induction cs as [|c l IH]; intros [|y v]; cbn; try apply (derivable_pt_lim_const 0).
  apply (derivable_pt_lim_plus (fun x => hval (polyint c) x * y) (fun x => fold_right (fun cv s => hval (fst cv) x * snd cv + s) 0 (combine (map polyint l) v))); [|apply IH].
  apply (derivable_pt_lim_ext (fun x => y * hval (polyint c) x)); [intros; ring|]. rewrite Rmult_comm.
  apply (derivable_pt_lim_scal (hval (polyint c))). apply polyint_hval.
Qed.
Lemma lcomb_polyint_0 cs : forall v, lcomb (map polyint cs) v 0 = 0.
Proof. unfold lcomb. induction cs as [|c l IH]; intros [|y v]; cbn; try reflexivity. rewrite IH, polyint_0. ring. Qed.
Lemma primitive_eq (f g h : R -> R) : (forall x, derivable_pt_lim f x (h x)) -> (forall x, derivable_pt_lim g x (h x)) -> forall x y, f x - f y = g x - g y.
Proof.
  intros Df Dg x y. set (F := fun x => f x - g x).
  assert (D2 : forall x, derivable_pt_lim F x 0).
  { intros z. replace 0 with (h z - h z) by ring. apply (derivable_pt_lim_minus f g); [apply Df|apply Dg]. }
  assert (pF : derivable F) by (intros z; exists 0; apply D2).
  assert (CF : constant F).
  { apply (null_derivative_1 F pF). intros z. apply (uniqueness_limite F z); [apply derive_pt_eq_1 with (pr := pF z); reflexivity|apply D2]. }
  assert (E := CF x y). unfold F in E. lra.
Qed.
Lemma distinct_tail q l : distinct (q :: l) -> distinct l.
Proof. intros H i j x y Hi Hj N. pose proof (H (S i) (S j) x y Hi Hj N) as G. lia. Qed.

(* INTEGRAL: differences of stage values in terms of the slopes at the stages *)
Lemma integral_stages pts it : distinct (0%Q :: pts) -> generate_butcher_tableu_integral pts = Ok it ->
  exists A : nat -> nat -> R, forall v, length v = S (length pts) -> forall j, (j < length pts)%nat ->
    nth (S j) v 0 - nth 0 v 0 = rupto (length pts) (fun k => A j k * dotR (column (it_C it) (S k)) v).
Proof.
  intros Hd Hit. pose proof (distinct_tail _ _ Hd) as Hd'.
  destruct (it_parts pts it Hit) as (cs & Hcs & Lc & _ & EC & _ & Et).
  assert (Q : exists cq, mapM (lagrange_coeff pts) (seq 0 (length pts)) = Ok cq).
  { assert (G : forall j, In j (seq 0 (length pts)) -> exists c, lagrange_coeff pts j = Ok c).
    { intros j Hj. apply in_seq in Hj. destruct (lagrange_ok _ Hd' j) as (c & Hc & _); [lia|]. eauto. }
    revert G. generalize (seq 0 (length pts)) as l. induction l as [|j l IH]; intros G; [eexists; reflexivity|].
    destruct (G j (or_introl eq_refl)) as [c Hc]. destruct IH as [cq Hq]; [intros; apply G; right; assumption|].
    cbn [mapM]. rewrite Hc. cbn [bind]. rewrite Hq. eexists; reflexivity. }
  destruct Q as [cq Hq]. pose proof (cs_length pts cq Hq) as Lq.
  exists (fun j k => hval (polyint (nth k cq [])) (Q2R (nth j pts 0%Q))). intros v Lv j Hj.
  set (tau := 0%Q :: pts) in *. set (a := pcomb cs v).
  assert (La : (length a <= length tau)%nat) by (apply pcomb_length; exact (cs_all tau Hd cs Hcs)).
  assert (V : forall i t, nth_error tau i = Some t -> nth i v 0 = peval a (Q2R t)).
  { intros i t Hi. destruct (lcomb_at tau Hd cs Hcs v i t) as (y & Hy & E); [exact Lv|exact Hi|].
    unfold a. rewrite pcomb_eval, E. apply nth_error_nth with (d := 0) in Hy. exact Hy. }
  assert (Ej : nth_error tau (S j) = Some (nth j pts 0%Q)) by (cbn [nth_error tau]; unfold tau; cbn [nth_error]; apply nth_error_nth'; exact Hj).
  rewrite (V (S j) _ Ej), (V 0%nat 0%Q eq_refl), Q2R_0.
  set (w := map (fun t => peval (pder a) (Q2R t)) pts).
  rewrite (primitive_eq (peval a) (lcomb (map polyint cq) w) (peval (pder a))).
  - rewrite lcomb_polyint_0, Rminus_0_r, (lcomb_map_sum polyint) by (unfold w; rewrite map_length; lia).
    rewrite Lq. apply rupto_ext. intros k Hk. f_equal. unfold w.
    rewrite (nth_indep _ 0 (peval (pder a) (Q2R 0%Q))) by (rewrite map_length; exact Hk).
    rewrite (map_nth (fun t => peval (pder a) (Q2R t))).
    apply (lcomb_ext_deriv (peval a) (lcomb cs v) (Q2R (nth k pts 0%Q))); [intros; apply pcomb_eval|apply peval_deriv|].
    rewrite EC. unfold tau. rewrite (it_dot_C pts cs v (S k) (nth k pts 0%Q)) by (cbn [nth_error]; apply nth_error_nth'; exact Hk).
    apply (lcomb_deriv cs polyder). intros c. apply polyder_hval.
  - intros x. apply peval_deriv.
  - intros x. rewrite <- (interp pts Hd' cq Hq (pder a) x).
    + fold w. apply lcomb_polyint_deriv.
    + pose proof (length_pder a) as G. unfold tau in La. cbn [length] in La. lia.
Qed.

(* a number K that depends only on the discretisation method bounds the coefficients *)
Definition coeff_bound (n : nat) (A : nat -> nat -> R) : R := rupto n (fun j => rupto n (fun k => Rabs (A j k))).
Lemma coeff_row n A j : (j < n)%nat -> rupto n (fun k => Rabs (A j k)) <= coeff_bound n A.
Proof.
  intros Hj. unfold coeff_bound.
  assert (G : rupto (S j) (fun j => rupto n (fun k => Rabs (A j k))) <= rupto n (fun j => rupto n (fun k => Rabs (A j k)))).
  { apply rupto_mono; [exact Hj|]. intros i _. apply rupto_nonneg. intros k _. apply Rabs_pos. }
  rewrite rupto_succ in G.
  assert (P : 0 <= rupto j (fun j => rupto n (fun k => Rabs (A j k)))) by (apply rupto_nonneg; intros i _; apply rupto_nonneg; intros k _; apply Rabs_pos).
  lra.
Qed.
Lemma coeff_nonneg n A : 0 <= coeff_bound n A.
Proof. apply rupto_nonneg; intros i _; apply rupto_nonneg; intros k _; apply Rabs_pos. Qed.
Lemma coeff_use n A j (u : nat -> R) M : (j < n)%nat -> 0 <= M -> (forall k, (k < n)%nat -> Rabs (u k) <= M) ->
  Rabs (rupto n (fun k => A j k * u k)) <= coeff_bound n A * M.
Proof.
  intros Hj HM Hu. eapply Rle_trans; [apply rupto_abs|]. eapply Rle_trans; [apply (rupto_le n _ (fun k => M * Rabs (A j k)))|].
  - intros k Hk. rewrite Rabs_mult, Rmult_comm. apply Rmult_le_compat_r; [apply Rabs_pos|apply Hu, Hk].
  - rewrite rupto_scale, Rmult_comm. apply Rmult_le_compat_r; [exact HM|apply coeff_row, Hj].
Qed.

Lemma integral_dec (r : irk_repr) : r = Integral \/ r <> Integral.
Proof. destruct r; [left; reflexivity|right; discriminate|right; discriminate]. Qed.
Section Offset.
Variables (cp : nat -> scheme -> list Q) (re : irk_repr) (sc : scheme) (n : nat).
Lemma stage_offset : exists A : nat -> nat -> R, forall o t m rho c e j i, method re sc n o -> make_tab cp o = Ok t -> points_ok cp o ->
  collocation o t m rho c e -> (j < n)%nat -> (i < m_nx m)%nat ->
  stage_state o t rho c e j i - start_state o t rho c e i =
  step_len o rho c e * rupto n (fun k => A j k * (speed o rho c * rhs o m (stage_point o t m rho c e k) i)).
Proof.
  destruct (Classical_Prop.classic (re = Integral /\ distinct (0%Q :: cp n sc) /\ exists it, generate_butcher_tableu_integral (cp n sc) = Ok it)) as [(Er & Hd & it & Hit)|N].
  - destruct (integral_stages _ it Hd Hit) as [A HA]. exists A. intros o t m rho c e j i (E1 & E2 & E3) MT PO Co Hj Hi.
    destruct (PO ltac:(congruence)) as (Lp & _). rewrite E2, E3 in Lp.
    destruct (tab_integral cp o t MT ltac:(congruence)) as (it' & Hit' & _ & EC & _). rewrite E2, E3, Hit in Hit'. injection Hit' as <-.
    set (v := start_state o t rho c e i :: map (fun r => rho (S1 FX c e r i)) (seq 0 n)).
    assert (Lv : length v = S (length (cp n sc))) by (unfold v; cbn [length]; rewrite map_length, seq_length, Lp; reflexivity).
    specialize (HA v Lv j ltac:(lia)). unfold v in HA at 1 2. cbn [nth] in HA. rewrite (nth_error_nth _ _ _ (nth_error_map_seq (fun r => rho (S1 FX c e r i)) n j Hj)) in HA.
    unfold stage_state. rewrite E1, Er. rewrite HA, Lp, <- rupto_scale. apply rupto_ext. intros k Hk.
    specialize (Co k i ltac:(lia) Hi). cbv zeta in Co. rewrite E1, Er, E3, EC in Co. unfold v.
    rewrite <- (Nat.add_1_r k), dot_column, <- Co. ring.
  - destruct (Classical_Prop.classic (exists bt, generate_butcher_tableu n sc = Ok bt)) as [[bt Hbt]|N2].
    + exists (fun j k => entryQ (bt_A bt) j k). intros o t m rho c e j i (E1 & E2 & E3) MT PO Co Hj Hi.
      assert (Er : o_repr o <> Integral).
      { intros Ei. apply N. split; [congruence|]. destruct (PO Ei) as (_ & Hd & _). rewrite E2, E3 in Hd. split; [exact Hd|].
        destruct (tab_integral cp o t MT Ei) as (it & Hit & _). rewrite E2, E3 in Hit. exists it. exact Hit. }
      destruct (tab_differential cp o t MT Er) as (bt' & Hb & EA & _). rewrite E2, E3, Hbt in Hb. injection Hb as <-.
      assert (Sl : forall k, (k < n)%nat -> slope rho c e k i = speed o rho c * rhs o m (stage_point o t m rho c e k) i).
      { intros k Hk. specialize (Co k i ltac:(lia) Hi). cbv zeta in Co. destruct (o_repr o); [congruence|exact Co|exact (proj1 Co)]. }
      assert (St : stage_state o t rho c e j i = start_state o t rho c e i + step_len o rho c e * rupto n (fun r => entryQ (t_A t) j r * slope rho c e r i)).
      { specialize (Co j i ltac:(lia) Hi). cbv zeta in Co. unfold stage_state. destruct (o_repr o) eqn:E0; [congruence|rewrite E3; reflexivity|].
        rewrite (proj2 Co), E3. reflexivity. }
      rewrite St, EA. match goal with |- ?a + ?b - ?a = _ => replace (a + b - a) with b by ring end.
      f_equal. apply rupto_ext. intros k Hk. rewrite (Sl k Hk). reflexivity.
    + exists (fun _ _ => 0). intros o t m rho c e j i (E1 & E2 & E3) MT PO Co Hj Hi. exfalso.
      destruct (integral_dec (o_repr o)) as [Ei|Ei].
      * apply N. split; [congruence|]. destruct (PO Ei) as (_ & Hd & _). rewrite E2, E3 in Hd. split; [exact Hd|].
        destruct (tab_integral cp o t MT Ei) as (it & Hit & _). rewrite E2, E3 in Hit. exists it. exact Hit.
      * destruct (tab_differential cp o t MT Ei) as (bt' & Hb & _). rewrite E2, E3 in Hb. apply N2. exists bt'. exact Hb.
Qed.
End Offset.
