(* Exist2_proofs.v -- FESD problems of scalar switched systems have feasible points *)
From Coq Require Import Reals Qreals Lra Psatz.
From Verif Require Import Base Sx Utils Tableau Opts Model Ocp Problem Spec Lib Sx_proofs Fesd Spec2 Spec3 Spec4 Dcs_proofs Elem_proofs Tableau_proofs Poly_proofs Feas_proofs Feas2_proofs
  Nlp_proofs Init_proofs Results_proofs Results3_proofs Spec9 Spec10 Spec11 Spec14 Filippov_proofs Filippov2_proofs Filippov3_proofs Exact_proofs Exact2_proofs Bounds_proofs ExistBase_proofs Exist_proofs ExistStep_proofs.
Local Open Scope R_scope.

(* ---- a stage of length L with n elements, one grid point placed at ts if ts lies inside ---- *)
Section Stage.
Variables (lo L ts : R) (n : nat).
Hypothesis HL : 0 < L.
Hypothesis Hn : (2 <= n)%nat.
Definition split : nat := Z.to_nat (up (INR n * ((ts - lo) / L) / 2)).
Definition inside : Prop := lo < ts < lo + L.
Definition hstep (e : nat) : R :=
  if Rlt_dec lo ts then if Rlt_dec ts (lo + L) then if (e <? split)%nat then (ts - lo) / INR split else (lo + L - ts) / INR (n - split)
  else L / INR n else L / INR n.
Lemma n_pos : 2 <= INR n. Proof. apply le_INR in Hn. cbn in Hn. lra. Qed.
Lemma split_facts : inside -> (0 < split < n)%nat /\ INR n * (ts - lo) <= 2 * L * INR split /\ INR n * (lo + L - ts) <= 2 * L * INR (n - split).
Proof.
  intros [A B]. pose proof n_pos as N. set (r := (ts - lo) / L). assert (Er : r * L = ts - lo) by (unfold r; field; lra).
  assert (R0 : 0 < r) by (unfold r; apply Rdiv_lt_0_compat; lra). assert (R1 : r < 1) by (apply (Rmult_lt_reg_r L); [exact HL|]; rewrite Er; lra).
  assert (S : split = Z.to_nat (up (INR n * r / 2))) by reflexivity.
  destruct (archimed (INR n * r / 2)) as [U1 U2]. assert (P : 0 < INR n * r / 2) by (apply Rdiv_lt_0_compat; [apply Rmult_lt_0_compat; lra|lra]).
  assert (Z0 : (0 < up (INR n * r / 2))%Z) by (apply lt_IZR; lra).
  assert (I : INR split = IZR (up (INR n * r / 2))) by (rewrite S, INR_IZR_INZ, Z2Nat.id; [reflexivity|lia]).
  assert (K1 : INR n * r / 2 < INR split) by (rewrite I; lra). assert (K2 : INR split <= INR n * r / 2 + 1) by (rewrite I; lra).
  assert (K3 : INR split < INR n) by nra.
  assert (Lt : (split < n)%nat) by (apply INR_lt; exact K3).
  split; [split; [rewrite S; lia|exact Lt]|]. rewrite minus_INR by lia. rewrite <- Er. split; nra.
Qed.
Lemma hstep_in e : inside -> hstep e = if (e <? split)%nat then (ts - lo) / INR split else (lo + L - ts) / INR (n - split).
Proof. intros [A B]. unfold hstep. destruct (Rlt_dec lo ts); [|contradiction]. destruct (Rlt_dec ts (lo + L)); [reflexivity|contradiction]. Qed.
Lemma hstep_out e : ~ inside -> hstep e = L / INR n.
Proof. intros A. unfold hstep. destruct (Rlt_dec lo ts); [|reflexivity]. destruct (Rlt_dec ts (lo + L)); [|reflexivity]. destruct A. split; assumption. Qed.
Lemma inside_dec : inside \/ ~ inside.
Proof. unfold inside. destruct (Rlt_dec lo ts); [|right; lra]. destruct (Rlt_dec ts (lo + L)); [left; lra|right; lra]. Qed.
Lemma hstep_bounds e : (e < n)%nat -> 0 <= hstep e <= 2 * (L / INR n).
Proof.
  intros He. pose proof n_pos as N. assert (Q : 0 < L / INR n) by (apply Rdiv_lt_0_compat; lra).
  destruct inside_dec as [I|I]; [|rewrite hstep_out by exact I; lra]. rewrite hstep_in by exact I. destruct (split_facts I) as ([S0 S1] & F1 & F2). destruct I as [I1 I2].
  assert (P1 : 0 < INR split) by (apply lt_0_INR; exact S0). assert (P2 : 0 < INR (n - split)) by (apply lt_0_INR; lia).
  replace (2 * (L / INR n)) with (2 * L / INR n) by (unfold Rdiv; ring).
  assert (G : forall x k, 0 < x -> 0 < k -> INR n * x <= 2 * L * k -> 0 <= x / k <= 2 * L / INR n).
  { intros x k Hx Hk F. split; [left; apply Rdiv_lt_0_compat; assumption|]. apply (Rmult_le_reg_r k); [exact Hk|]. replace (x / k * k) with x by (field; lra).
    apply (Rmult_le_reg_l (INR n)); [lra|]. replace (INR n * (2 * L / INR n * k)) with (2 * L * k) by (field; lra). exact F. }
  destruct (e <? split)%nat; apply G; try assumption; lra.
Qed.
Lemma hstep_sum_before e : inside -> (e <= split)%nat -> rupto e hstep = INR e * ((ts - lo) / INR split).
Proof.
  intros I He. apply rupto_const. intros k Hk. rewrite hstep_in by exact I. destruct (k <? split)%nat eqn:E; [reflexivity|]. apply Nat.ltb_ge in E. lia.
Qed.
Lemma hstep_at : inside -> rupto split hstep = ts - lo.
Proof. intros I. rewrite hstep_sum_before by (try exact I; lia). destruct (split_facts I) as ([S0 _] & _). apply lt_0_INR in S0. field. lra. Qed.
Lemma hstep_after k : inside -> (split + k <= n)%nat -> rupto (split + k) hstep = ts - lo + INR k * ((lo + L - ts) / INR (n - split)).
Proof.
  intros I. induction k as [|k IH]; intros Hk; [rewrite Nat.add_0_r, hstep_at by exact I; cbn; ring|].
  rewrite Nat.add_succ_r, rupto_succ, IH by lia. rewrite hstep_in by exact I. replace (split + k <? split)%nat with false by (symmetry; apply Nat.ltb_ge; lia). rewrite S_INR. ring.
Qed.
Lemma hstep_sum : rupto n hstep = L.
Proof.
  pose proof n_pos as N. destruct inside_dec as [I|I].
  - destruct (split_facts I) as ([S0 S1] & _). replace n with (split + (n - split))%nat at 1 by lia. rewrite hstep_after by (try exact I; lia).
    assert (P2 : 0 < INR (n - split)) by (apply lt_0_INR; lia). field. lra.
  - rewrite (rupto_const n (L / INR n)); [field; lra|]. intros k _. apply hstep_out. exact I.
Qed.
Lemma hstep_partial e : (e <= n)%nat -> 0 <= rupto e hstep <= L.
Proof.
  intros He. split; [apply rupto_nonneg; intros k Hk; apply (hstep_bounds k); lia|]. rewrite <- hstep_sum. apply rupto_mono; [exact He|]. intros k Hk. apply hstep_bounds, Hk.
Qed.
Lemma hstep_sides e : (e < n)%nat -> lo + rupto (S e) hstep <= ts \/ ts <= lo + rupto e hstep.
Proof.
  intros He. pose proof n_pos as N. destruct inside_dec as [I|I].
  - destruct (Nat.lt_ge_cases e split) as [G|G].
    + left. destruct (split_facts I) as ([S0 S1] & _). assert (rupto (S e) hstep <= rupto split hstep) by (apply rupto_mono; [lia|]; intros k Hk; apply (hstep_bounds k); lia).
      rewrite hstep_at in H by exact I. lra.
    + right. assert (rupto split hstep <= rupto e hstep) by (apply rupto_mono; [lia|]; intros k Hk; apply (hstep_bounds k); lia).
      rewrite hstep_at in H by exact I. lra.
  - pose proof (hstep_partial e ltac:(lia)). pose proof (hstep_partial (S e) ltac:(lia)). destruct (Rlt_dec lo ts); [left|right; lra].
    destruct (Rlt_dec ts (lo + L)); [destruct I; split; assumption|lra].
Qed.
Lemma hstep_jump e : (0 < e < n)%nat -> hstep e = hstep (e - 1) \/ lo + rupto e hstep = ts.
Proof.
  intros He. destruct inside_dec as [I|I]; [|left; rewrite !hstep_out by exact I; reflexivity].
  destruct (Nat.eq_dec e split) as [->|Ne]; [right; rewrite hstep_at by exact I; lra|]. left. rewrite !hstep_in by exact I.
  replace (e - 1 <? split)%nat with (e <? split)%nat; [reflexivity|]. destruct (Nat.ltb_spec e split); destruct (Nat.ltb_spec (e - 1) split); try reflexivity; lia.
Qed.
End Stage.

Section Scalar.
Variables (lr : Q -> Q -> Q -> nat) (cp : nat -> scheme -> list Q) (d : ipopt_dict) (o : opts) (a b x0 : Q) (C : constructed).
Notation O := (the_opts C).
Notation t := (cn_tab C).
Notation m := (switch_model a b x0).
Hypothesis FP : fesd_problem lr cp d o m None C.
Hypothesis PO : points_ok cp O.
Hypothesis PI : points_inside cp O.
Hypothesis Er : (1 <= exact_degree O)%nat.
Hypothesis Sc : o_scheme O = RadauIIA.
Hypothesis Hf : o_use_fesd O = true.
Hypothesis Tf : o_time_freezing O = false.
Hypothesis PMo : product_mode O.
Hypothesis El : elastic O = true -> (o_s_elastic_min O <= 0 <= o_s_elastic_max O)%Q.
Hypothesis NS : o_sot O <> SotLocal.
Hypothesis Gm : match o_gamma_h O with Fin q => (1 <= q)%Q | PInf => True | NInf => False end.
Hypothesis HT : (0 < o_terminal_time O)%Q.
Hypothesis Two : forall c, (c < o_N_stages O)%nat -> (2 <= nfe_of O c)%nat.
Hypothesis Ha : (0 < a)%Q.
Hypothesis Hx : (x0 <= 0)%Q.

Definition L : R := T O / INR (o_N_stages O).
Definition ts : R := - Q2R x0 / Q2R a.
Definition H (c e : nat) : R := hstep (INR c * L) L ts (nfe_of O c) e.
Definition base : env := fun y => match y with
  | SH c e => H c e | SX0 _ => Q2R x0 | SL00 FLam _ 1%nat => - 2 * Q2R x0 | SL00 FLn _ _ => - Q2R x0 | _ => 0 end.
Definition Y (z : R) : R := switch_solution a b x0 z.
Definition g (c e : nat) : R := grid_time O base c e.
Definition p (c e i : nat) : list R := [Y (g c e); Y (g c e + H c e) - Y (g c e)].
Definition th (c e : nat) (z : R) (s k : nat) : R :=
  if Rle_dec (g c e + H c e) ts then match k with 0%nat => 1 | _ => 0 end
  else if Rlt_dec 0 (Q2R b) then match k with 0%nat => 0 | _ => 1 end
  else match k with 0%nat => - Q2R b / (Q2R a - Q2R b) | _ => Q2R a / (Q2R a - Q2R b) end.

Lemma a_pos : 0 < Q2R a. Proof. apply Qlt_Rlt in Ha. rewrite RMicromega.Q2R_0 in Ha. exact Ha. Qed.
Lemma x_neg : Q2R x0 <= 0. Proof. apply Qle_Rle in Hx. rewrite RMicromega.Q2R_0 in Hx. exact Hx. Qed.
Lemma N_pos : 0 < INR (o_N_stages O). Proof. apply lt_0_INR. exact (stages_pos' _ _ _ _ _ _ _ (proj1 FP)). Qed.
Lemma L_pos : 0 < L.
Proof. unfold L, T. apply Rdiv_lt_0_compat; [|exact N_pos]. apply Qlt_Rlt in HT. rewrite RMicromega.Q2R_0 in HT. exact HT. Qed.
Lemma step_is c e : step_len O base c e = H c e. Proof. unfold step_len. rewrite Hf. reflexivity. Qed.
Lemma stage_is c : (c < o_N_stages O)%nat -> stage_length O base c = L.
Proof. intros Hc. unfold stage_length. rewrite (rupto_ext _ _ (H c)) by (intros; apply step_is). apply (hstep_sum (INR c * L) L ts); [exact L_pos|apply Two, Hc]. Qed.
Lemma g_is c e : (c <= o_N_stages O)%nat -> g c e = INR c * L + rupto e (H c).
Proof.
  intros Hc. unfold g, grid_time. f_equal; [|apply rupto_ext; intros; apply step_is]. apply rupto_const. intros k Hk. apply stage_is. lia.
Qed.
Lemma g_next c e : g c e + H c e = g c (S e).
Proof. unfold g, grid_time. rewrite rupto_succ, step_is. ring. Qed.
Lemma g_stage c : (S c <= o_N_stages O)%nat -> g c (nfe_of O c) = g (S c) 0.
Proof. intros Hc. unfold g, grid_time. rewrite rupto_succ. change (rupto 0 (step_len O base (S c))) with 0. unfold stage_length. ring. Qed.
Lemma h_bounds c e : is_element O c e -> 0 <= H c e <= 2 * (L / INR (nfe_of O c)).
Proof. intros [Hc He]. apply hstep_bounds; [exact L_pos|apply Two, Hc|exact He]. Qed.
Lemma sides_grid c e : is_element O c e -> g c e + H c e <= ts \/ ts <= g c e.
Proof.
  intros [Hc He]. rewrite g_next, !g_is by lia. apply hstep_sides; [exact L_pos|apply Two, Hc|exact He].
Qed.
Lemma ts_nonneg : 0 <= ts.
Proof. pose proof a_pos. pose proof x_neg. unfold ts. apply Rmult_le_pos; [lra|left; apply Rinv_0_lt_compat; assumption]. Qed.
Lemma at_ts : Q2R x0 + Q2R a * ts = 0. Proof. pose proof a_pos. unfold ts. field. lra. Qed.
Lemma Y_lo z : z <= ts -> Y z = Q2R x0 + Q2R a * z.
Proof. intros Hz. unfold Y, switch_solution. fold ts. destruct (Rle_dec z ts); [reflexivity|lra]. Qed.
Lemma Y_hi z : ts <= z -> Y z = Rmax 0 (Q2R b) * (z - ts).
Proof. intros Hz. unfold Y, switch_solution. fold ts. destruct (Rle_dec z ts) as [G|G]; [|reflexivity]. replace z with ts by lra. rewrite at_ts. ring. Qed.
Lemma state_is c e z i : state p c e z i = (1 - z) * Y (g c e) + z * Y (g c e + H c e).
Proof. unfold state, p. cbn [peval]. ring. Qed.

(* the two kinds of elements *)
Lemma kinds c e z : is_element O c e -> 0 <= z <= 1 ->
  (g c e + H c e <= ts /\ (forall i, state p c e z i <= 0) /\ Y (g c e + H c e) - Y (g c e) = H c e * Q2R a /\
     forall s, th c e z s 0%nat = 1 /\ th c e z s 1%nat = 0) \/
  (ts <= g c e /\ (forall i, 0 <= state p c e z i) /\ Y (g c e + H c e) - Y (g c e) = H c e * Rmax 0 (Q2R b) /\
     (0 < Q2R b -> forall s, th c e z s 0%nat = 0 /\ th c e z s 1%nat = 1) /\
     (Q2R b <= 0 -> (forall i, state p c e z i = 0) /\ forall s, th c e z s 0%nat = - Q2R b / (Q2R a - Q2R b) /\ th c e z s 1%nat = Q2R a / (Q2R a - Q2R b))).
Proof.
  intros Ie Hz. pose proof a_pos as A. destruct (h_bounds c e Ie) as [H0 _]. destruct (Rle_dec (g c e + H c e) ts) as [D|D].
  - left. split; [exact D|]. assert (Q2R a * g c e <= Q2R a * ts) by (apply Rmult_le_compat_l; lra). assert (Q2R a * (g c e + H c e) <= Q2R a * ts) by (apply Rmult_le_compat_l; lra).
    pose proof at_ts. split; [intros i; rewrite state_is, !Y_lo by lra; nra|]. split; [rewrite !Y_lo by lra; ring|].
    intros s. unfold th. destruct (Rle_dec (g c e + H c e) ts); [split; reflexivity|contradiction].
  - right. destruct (sides_grid c e Ie) as [|G]; [contradiction|]. split; [exact G|]. assert (M : 0 <= Rmax 0 (Q2R b)) by apply Rmax_l.
    assert (M1 : 0 <= Rmax 0 (Q2R b) * (g c e - ts)) by (apply Rmult_le_pos; lra). assert (M2 : 0 <= Rmax 0 (Q2R b) * (g c e + H c e - ts)) by (apply Rmult_le_pos; lra).
    split; [intros i; rewrite state_is, !Y_hi by lra; nra|]. split; [rewrite !Y_hi by lra; ring|]. split.
    + intros B s. unfold th. destruct (Rle_dec (g c e + H c e) ts); [contradiction|]. destruct (Rlt_dec 0 (Q2R b)); [split; reflexivity|contradiction].
    + intros B. split; [intros i; rewrite state_is, !Y_hi, Rmax_left by lra; ring|]. intros s. unfold th. destruct (Rle_dec (g c e + H c e) ts); [contradiction|]. destruct (Rlt_dec 0 (Q2R b)); [lra|split; reflexivity].
Qed.

Lemma mode_smallest c e z : (forall i, state p c e z i <= 0) -> smallest m (at_state m base p c e z) 0%nat 0%nat.
Proof. intros A. apply (proj1 (sides_smallest a b x0 _)). exact (A 0%nat). Qed.
Lemma mode_smallest' c e z : (forall i, 0 <= state p c e z i) -> smallest m (at_state m base p c e z) 0%nat 1%nat.
Proof. intros A. apply (proj2 (sides_smallest a b x0 _)). exact (A 0%nat). Qed.
Lemma subs s k : (s < n_subsystems m)%nat -> (k < n_modes m s)%nat -> s = 0%nat /\ (k = 0%nat \/ k = 1%nat).
Proof. clear Er. intros A B. cbn in A. assert (s = 0%nat) by lia. subst s. cbn in B. lia. Qed.
Lemma g_0 : g 0 0 = 0. Proof. unfold g, grid_time. cbn. ring. Qed.
Lemma Y_0 : Y 0 = Q2R x0. Proof. rewrite Y_lo by exact ts_nonneg. ring. Qed.
Lemma joins c e i : is_element O c e ->
  state p c e 0 i = match before O c e with Some (c', e') => state p c' e' 1 i | None => base (SX0 i) end.
Proof.
  intros [Hc He]. rewrite state_is. replace ((1 - 0) * Y (g c e) + 0 * Y (g c e + H c e)) with (Y (g c e)) by ring. destruct e as [|e]; [destruct c as [|c]|]; cbn [before].
  - rewrite g_0. exact Y_0.
  - rewrite state_is, g_next. pose proof (Two c ltac:(lia)). replace (S (nfe_of O c - 1)) with (nfe_of O c) by lia. rewrite g_stage by lia. ring.
  - rewrite state_is, g_next. ring.
Qed.
Lemma solution : polynomial_solution O m base p th (exact_degree O).
Proof.
  pose proof (Feas_proofs.ns_pos _ _ _ _ _ _ _ (proj1 FP)) as Pn. pose proof a_pos as A. intros c e Ie. split; [|split].
  - intros i Hi. split; [cbn; lia|]. apply joins. exact Ie.
  - intros z Hz. assert (W : convex_weights m (th c e z) /\ Y (g c e + H c e) - Y (g c e) = H c e * (Q2R a * th c e z 0%nat 0%nat + Q2R b * th c e z 0%nat 1%nat)).
    { destruct (kinds c e z Ie Hz) as [(_ & _ & D & W)|(_ & _ & D & W1 & W2)].
      - destruct (W 0%nat) as [E0 E1]. split; [apply sc_weights|]; rewrite ?E0, ?E1; [lra|rewrite D; ring].
      - destruct (Rlt_dec 0 (Q2R b)) as [B|B].
        + destruct (W1 B 0%nat) as [E0 E1]. split; [apply sc_weights|]; rewrite ?E0, ?E1; [lra|rewrite D, Rmax_right by lra; ring].
        + destruct (W2 ltac:(lra)) as [_ W]. destruct (W 0%nat) as [E0 E1]. split; [apply sc_weights|]; rewrite ?E0, ?E1.
          * split; [apply Rmult_le_pos; [lra|left; apply Rinv_0_lt_compat; lra]|]. split; [apply Rmult_le_pos; [lra|left; apply Rinv_0_lt_compat; lra]|field; lra].
          * rewrite D, Rmax_left by lra. field. lra. }
    destruct W as [W D]. split; [exact W|]. intros i Hi. assert (i = 0%nat) by (cbn in Hi; lia). subst i. rewrite sc_velocity by exact NS. rewrite step_is, <- D.
    replace (Y (g c e + H c e) - Y (g c e)) with (peval (pder (p c e 0%nat)) z) by (unfold p; cbn; ring). apply peval_deriv.
  - intros s k z z' Hs Hk Hz Hz' P. destruct (subs s k Hs Hk) as [-> K]. destruct (kinds c e z Ie Hz) as [(G & _ & _ & W)|(G & _ & _ & W1 & W2)].
    + destruct (W 0%nat) as [E0 E1]. destruct K as [-> | ->]; [|lra]. destruct (kinds c e z' Ie Hz') as [(_ & S & _)|(G' & _)]; [apply mode_smallest, S|].
      apply mode_smallest. intros i. destruct (h_bounds c e Ie) as [H0 _]. rewrite state_is. replace (g c e + H c e) with ts by lra. replace (g c e) with ts by lra. rewrite Y_lo, at_ts by lra. lra.
    + destruct (kinds c e z' Ie Hz') as [(G' & S & _ & W)|(_ & S & _ & _ & V2)].
      * assert (Z : forall i, state p c e z' i = 0).
        { intros i. destruct (h_bounds c e Ie) as [H0 _]. rewrite state_is. replace (g c e + H c e) with ts by lra. replace (g c e) with ts by lra. rewrite Y_lo, at_ts by lra. lra. }
        destruct K as [-> | ->]; [apply mode_smallest|apply mode_smallest']; intros i; rewrite Z; lra.
      * destruct K as [-> | ->]; [|apply mode_smallest', S]. destruct (Rlt_dec 0 (Q2R b)) as [B|B]; [destruct (W1 B 0%nat); lra|].
        destruct (V2 ltac:(lra)) as [Z _]. apply mode_smallest. intros i. rewrite Z. lra.
Qed.
Lemma equilibrium : equilibrated O m base p th.
Proof.
  assert (G : forall c e, is_element O c e -> (0 < e)%nat -> delta_h O base c e = 0 \/ exists s k, (s < n_subsystems m)%nat /\ (k < n_modes m s)%nat /\
        ((forall tau, 0 <= tau <= 1 -> th c (e - 1)%nat tau s k = 0) \/ (forall tau, 0 <= tau <= 1 -> th c e tau s k = 0)) /\
        ((forall tau, 0 <= tau <= 1 -> smallest m (at_state m base p c (e - 1) tau) s k) \/
         (forall tau, 0 <= tau <= 1 -> smallest m (at_state m base p c e tau) s k))).
  { intros c e Ie He. pose proof Ie as [Hc Hn]. destruct (hstep_jump (INR c * L) L ts (nfe_of O c) L_pos (Two c Hc) e ltac:(lia)) as [E|E].
    - left. unfold delta_h. rewrite !step_is. unfold H. rewrite E. ring.
    - right. assert (Gt : g c e = ts) by (rewrite g_is by lia; exact E). exists 0%nat, 1%nat. split; [cbn; lia|]. split; [cbn; lia|]. split.
      + left. intros z Hz. unfold th. rewrite g_next. replace (S (e - 1)) with e by lia. rewrite Gt. destruct (Rle_dec ts ts); [reflexivity|lra].
      + right. intros z Hz. apply mode_smallest'. destruct (kinds c e z Ie Hz) as [(G' & _)|(_ & S & _)]; [|exact S].
        intros i. destruct (h_bounds c e Ie) as [H0 _]. rewrite state_is. replace (g c e + H c e) with ts by lra. rewrite Gt, Y_lo, at_ts by lra. lra. }
  unfold equilibrated. destruct (o_step_eq O); try exact I; exact G.
Qed.
(* ---- the same solution for the Step reformulation: the step function is the weight of the second mode ---- *)
Definition al (c e : nat) (z : R) (s r : nat) : R := th c e z s 1%nat.
Lemma switch_is v : switch_value m v 0%nat 0%nat = v (MX 0%nat). Proof. reflexivity. Qed.
Lemma row_is : user_S m 0%nat = [[(-1)%Q]; [1%Q]]. Proof. reflexivity. Qed.
Lemma swts s r : (s < n_subsystems m)%nat -> (r < n_switch m s)%nat -> s = 0%nat /\ r = 0%nat.
Proof. intros A B. cbn in A. assert (s = 0%nat) by lia. subst s. cbn in B. lia. Qed.
Lemma step_weights_is c e z : is_element O c e -> 0 <= z <= 1 -> step_weights m (al c e z) 0%nat 0%nat = th c e z 0%nat 0%nat /\ step_weights m (al c e z) 0%nat 1%nat = th c e z 0%nat 1%nat.
Proof.
  intros Ie Hz. destruct (solution c e Ie) as (_ & A & _). destruct (A z Hz) as [W _]. apply sc_weights in W. destruct W as (_ & _ & W).
  unfold step_weights. rewrite row_is. unfold step_weight, al. cbn. unfold Q2R. cbn. split; lra.
Qed.
Lemma step_solution : step_polynomial_solution O m base p al (exact_degree O).
Proof.
  intros c e Ie. destruct (solution c e Ie) as (A & B & D). split; [exact A|]. split.
  - intros z Hz. destruct (B z Hz) as [W V]. destruct (step_weights_is c e z Ie Hz) as [E0 E1]. split.
    + intros s r Hs Hr. destruct (swts s r Hs Hr) as [-> ->]. apply sc_weights in W. unfold al. lra.
    + intros i Hi. specialize (V i Hi). assert (i = 0%nat) by (cbn in Hi; lia). subst i. rewrite sc_velocity in V |- * by exact NS. rewrite E0, E1. exact V.
  - intros s r z z' Hs Hr Hz Hz'. destruct (swts s r Hs Hr) as [-> ->]. destruct (B z Hz) as [W _]. apply sc_weights in W. unfold al, switch_at. rewrite switch_is. split; intros P.
    + apply (proj2 (sides_smallest a b x0 _)). apply (D 0%nat 1%nat z z'); try assumption; cbn; lia.
    + apply (proj1 (sides_smallest a b x0 _)). apply (D 0%nat 0%nat z z'); try assumption; try (cbn; lia). lra.
Qed.
Lemma step_equilibrium : step_equilibrated O m base p al.
Proof.
  assert (G : forall c e, is_element O c e -> (0 < e)%nat -> delta_h O base c e = 0 \/ exists s r, (s < n_subsystems m)%nat /\ (r < n_switch m s)%nat /\
        ((one_side (fun e tau => al c e tau s r = 0) e /\ one_side (fun e tau => 0 <= switch_at m base p c e tau s r) e) \/
         (one_side (fun e tau => al c e tau s r = 1) e /\ one_side (fun e tau => switch_at m base p c e tau s r <= 0) e))).
  { intros c e Ie He. pose proof Ie as [Hc Hn]. destruct (hstep_jump (INR c * L) L ts (nfe_of O c) L_pos (Two c Hc) e ltac:(lia)) as [E|E].
    - left. unfold delta_h. rewrite !step_is. unfold H. rewrite E. ring.
    - right. assert (Gt : g c e = ts) by (rewrite g_is by lia; exact E). exists 0%nat, 0%nat. split; [cbn; lia|]. split; [cbn; lia|]. left. split.
      + left. intros z Hz. unfold al, th. rewrite g_next. replace (S (e - 1)) with e by lia. rewrite Gt. destruct (Rle_dec ts ts); [reflexivity|lra].
      + right. intros z Hz. unfold switch_at. rewrite switch_is. apply (proj2 (sides_smallest a b x0 _)). apply mode_smallest'. destruct (kinds c e z Ie Hz) as [(G' & _)|(_ & S & _)]; [|exact S].
        intros i. destruct (h_bounds c e Ie) as [H0 _]. rewrite state_is. replace (g c e + H c e) with ts by lra. rewrite Gt, Y_lo, at_ts by lra. lra. }
  unfold step_equilibrated. destruct (o_step_eq O); try exact I; exact G.
Qed.
Lemma step_init rho : rho (SX0 0) = Q2R x0 -> (forall f s i, rho (SL00 f s i) = base (SL00 f s i)) -> step_exact_initial m rho.
Proof.
  intros X0 B s r Hs Hr. destruct (swts s r Hs Hr) as [-> ->]. rewrite switch_is. change (plain_point m rho 0 (fun i => rho (SX0 i)) (MX 0)) with (rho (SX0 0)). rewrite X0, !B. cbn [base].
  pose proof x_neg. rewrite Rmax_left, Rmax_right by lra. split; reflexivity.
Qed.
Lemma nominal c : (c < o_N_stages O)%nat -> Q2R (nominal_step O (nfe_of O c)) = L / INR (nfe_of O c).
Proof.
  intros Hc. pose proof N_pos as N. pose proof (Two c Hc) as N2. assert (N3 : 0 < INR (nfe_of O c)) by (apply lt_0_INR; lia).
  assert (K : forall n, Q2R (inject_Z (Z.of_nat n)) = INR n) by (intros n; rewrite INR_IZR_INZ; unfold Q2R; cbn; field).
  assert (NZ : forall n, 0 < INR n -> ~ (inject_Z (Z.of_nat n) == 0)%Q) by (intros n P E; apply Qeq_eqR in E; rewrite K, RMicromega.Q2R_0 in E; lra).
  unfold nominal_step. rewrite !Q2R_div, !K by (apply NZ; assumption). reflexivity.
Qed.
Lemma grid : grid_ok O m (the_ocp None) base.
Proof.
  split; [|split; [|split; [|split]]].
  - intros E. destruct (El E) as [E1 E2]. apply Qle_Rle in E1, E2. rewrite RMicromega.Q2R_0 in E1, E2. split; assumption.
  - intros i Hi. cbn in Hi. lia.
  - intros c Hc. split; [intros i Hi; cbn in Hi; lia|]. intros E. contradiction.
  - intros c e Ie. destruct (h_bounds c e Ie) as [H0 H1]. pose proof Ie as [Hc _]. pose proof (nominal c Hc) as Nm. cbn [base].
    assert (Q0 : 0 <= L / INR (nfe_of O c)) by lra. unfold step_lower, step_upper. destruct (o_gamma_h O) as [|q|]; [contradiction| |split; exact I].
    apply Qle_Rle in Gm. rewrite RMicromega.Q2R_1 in Gm. split; rewrite Q2R_mult, Nm, ?Q2R_minus, ?Q2R_plus, RMicromega.Q2R_1.
    + assert ((1 - Q2R q) * (L / INR (nfe_of O c)) <= 0); [|lra]. assert (0 <= (Q2R q - 1) * (L / INR (nfe_of O c))) by (apply Rmult_le_pos; lra). lra.
    + assert (0 <= (Q2R q - 1) * (L / INR (nfe_of O c))) by (apply Rmult_le_pos; lra). lra.
  - pose proof N_pos as N. destruct (o_equidistant O); [intros c Hc; apply stage_is, Hc|]. unfold end_time. rewrite (rupto_const _ L) by (intros c Hc; apply stage_is, Hc). unfold L. field. lra.
Qed.
Lemma ok_admissible : admissible O m (the_ocp None) base p.
Proof.
  split; [|intros e []]. intros c e Ie z Hz. split; [|intros i Hi; cbn in Hi; lia]. intros i Hi. assert (i = 0%nat) by (cbn in Hi; lia). subst i. split; exact I.
Qed.
Lemma init : exact_initial m base.
Proof.
  intros s k k' Hs Hk Sm Hk'. destruct (subs s k Hs Hk) as [-> K]. destruct (subs 0%nat k' Hs Hk') as [_ K']. pose proof x_neg as X.
  assert (V0 : forall v, region_value m v 0%nat 0%nat = v (MX 0%nat)) by (intros v; unfold region_value; cbn; unfold Q2R; cbn; lra).
  assert (V1 : forall v, region_value m v 0%nat 1%nat = - v (MX 0%nat)) by (intros v; unfold region_value; cbn; unfold Q2R; cbn; lra).
  pose proof (Sm 0%nat ltac:(cbn; lia)) as S0. pose proof (Sm 1%nat ltac:(cbn; lia)) as S1.
  set (v0 := plain_point m base 0 (fun i => base (SX0 i))) in *. assert (Ev : v0 (MX 0%nat) = Q2R x0) by reflexivity.
  destruct K as [-> | ->], K' as [-> | ->]; rewrite ?V0, ?V1, ?Ev in *; cbn [base]; lra.
Qed.
Lemma plain : plain_model m.
Proof.
  clear Er.
  split; [discriminate|]. split; [reflexivity|]. split; [reflexivity|]. split; [intros s k i; destruct s as [|[|s]], k as [|[|[|k]]], i as [|[|i]]; intros x []|].
  intros [|s] e [E|E]; cbn in E; try contradiction; try (destruct s; contradiction). destruct E as [<-|[]]. intros x [<-|[]]. cbn. lia.
Qed.
Theorem scalar_feasible : exists rho, feasible rho (the_nlp C) /\ zero_relaxation O rho /\ rho (SX0 0) = Q2R x0 /\
  exact_initial m rho /\ step_exact_initial m rho /\ same_globals m rho /\ initial_nonneg rho /\ (forall c e, is_element O c e -> 0 <= step_len O rho c e) /\
  (forall c e, is_element O c e -> end_state O t rho c e 0 = switch_solution a b x0 (grid_time O rho c e + step_len O rho c e)) /\
  end_time O rho = T O /\
  end_state O t rho (last_stage O) (last_elem O (last_stage O)) 0 = switch_solution a b x0 (T O).
Proof.
  destruct FP as (Hcon & Ex & WS).
  assert (ZR : forall r, same_data base r -> zero_relaxation O r).
  { intros r SD. unfold zero_relaxation. pose proof PMo as P. unfold product_mode in P. destruct (o_mpcc O); try contradiction; first [exact (SD SSigma)|exact (SD SElastic)]. }
  assert (PC : plain_ocp m (the_ocp None)) by (split; [intros e [[]|[]]|reflexivity]).
  assert (SD0 : same_data base base) by (intros y; destruct y; trivial).
  assert (EX : exists r, feasible r (the_nlp C) /\ same_data base r /\ forall c e i, end_state O t r c e i = state p c e 1 i).
  { destruct (radau_nodes cp O t (t_made _ _ _ _ _ _ _ Hcon) (Feas_proofs.ns_pos _ _ _ _ _ _ _ Hcon) Sc PO PI) as (tau & NE & SA & _).
    destruct (o_pss O) eqn:Ep.
    - destruct (exists_feasible lr cp d o m None C Hcon Ex WS base p th (exact_degree O) tau NE SA Ep Hf Tf (ZR base SD0) plain PC
        (fun _ _ _ => eq_refl) init grid solution ok_admissible equilibrium) as (r & F & SD & En & _). exists r. auto.
    - destruct (exists_feasible_step lr cp d o m None C Hcon Ex WS base p al (exact_degree O) tau NE SA Ep Hf Tf (ZR base SD0) plain PC
        (fun _ _ _ => eq_refl) (step_init base eq_refl (fun _ _ _ => eq_refl)) grid step_solution ok_admissible step_equilibrium) as (r & F & SD & En & _). exists r. auto. }
  destruct EX as (r & F & SD & En).
  assert (St : forall c e, step_len O r c e = step_len O base c e) by (intros c e; unfold step_len; rewrite Hf; exact (SD (SH c e))).
  assert (Sl : forall c, stage_length O r c = stage_length O base c) by (intros c; apply rupto_ext; intros; apply St).
  assert (Gr : forall c e, grid_time O r c e = g c e) by (intros c e; unfold g, grid_time; f_equal; apply rupto_ext; intros; [apply Sl|apply St]).
  assert (EE : forall c e, end_state O t r c e 0 = Y (g c e + H c e)) by (intros c e; rewrite En, state_is; ring).
  assert (ET : end_time O r = T O).
  { pose proof N_pos as N. unfold end_time. rewrite (rupto_const _ L) by (intros c Hc; rewrite Sl; apply stage_is, Hc). unfold L. field. lra. }
  exists r. split; [exact F|]. split; [apply ZR, SD|]. split; [exact (SD (SX0 0))|]. split; [|split; [exact (step_init r (SD (SX0 0)) (fun f s i => SD (SL00 f s i)))|split; [|split; [|split; [|split; [|split]]]]]].
  - intros s k k' Hs Hk Sm Hk'. rewrite (SD (SL00 FLam s k')). destruct (subs s k Hs Hk) as [-> K]. destruct (subs 0%nat k' Hs Hk') as [_ K'].
    assert (RV : forall j, (j = 0 \/ j = 1)%nat -> region_value m (plain_point m r 0 (fun i => r (SX0 i))) 0 j = region_value m (plain_point m base 0 (fun i => base (SX0 i))) 0 j).
    { intros j [-> | ->]; unfold region_value; cbn; rewrite (SD (SX0 0)); reflexivity. }
    rewrite (RV k K), (RV k' K'). apply init; try assumption. intros j Hj. destruct (subs 0%nat j Hs Hj) as [_ J]. rewrite <- (RV k K), <- (RV j J). apply Sm, Hj.
  - intros c c' i. rewrite (SD (SPst c _)), (SD (SPst c' _)). reflexivity.
  - intros f s i. rewrite (SD (SL00 f s i)). pose proof x_neg as X. destruct f; cbn; try lra. destruct i as [|[|i]]; lra.
  - intros c e Ie. rewrite St, step_is. apply h_bounds, Ie.
  - intros c e Ie. rewrite EE, Gr, St, step_is. reflexivity.
  - exact ET.
  - pose proof (stages_pos' _ _ _ _ _ _ _ Hcon) as NP. pose proof (Two (last_stage O) ltac:(unfold last_stage; lia)) as N2. rewrite EE, g_next. unfold last_elem.
    replace (S (nfe_of O (last_stage O) - 1)) with (nfe_of O (last_stage O)) by lia. rewrite g_stage by (unfold last_stage; lia).
    change (Y (g (S (last_stage O)) 0) = Y (T O)). f_equal. rewrite <- ET. unfold g, grid_time, end_time. change (rupto 0 (step_len O base (S (last_stage O)))) with 0. rewrite Rplus_0_r.
    unfold last_stage. replace (S (o_N_stages O - 1)) with (o_N_stages O) by lia. apply rupto_ext. intros. symmetry. apply Sl.
Qed.
End Scalar.
