(* Soft_proofs.v -- the smoothed multipliers of add_smooth_step_representation (C91) *)
From Coq Require Import Reals Qreals Lra Lia.
From Verif Require Import Base Sx Utils Tableau Opts Model Ocp Problem Spec Cases Lib Sx_proofs Fesd Sem_proofs Spec2 Witness Numeric Spec3 Model_proofs Dcs_proofs Elem_proofs Feas_proofs Mode_proofs Smooth_proofs Smooth2_proofs Exact_proofs Accept_proofs Spec20.

Section Min.
Local Open Scope R_scope.
Variables (sp : R) (n : nat) (g : nat -> R) (mn : R).
Hypothesis Pos : 0 < sp.
Hypothesis LM : least n g mn.
Let w k := exp (- (g k / sp)).
Let W := rupto n w.
Let d k := g k - mn.

Lemma w_pos k : 0 < w k. Proof. apply exp_pos. Qed.
Lemma W_low : exp (- (mn / sp)) <= W.
Proof.
  destruct LM as [_ (k & Hk & E)]. replace (exp (- (mn / sp))) with (w k) by (unfold w; rewrite E; reflexivity). unfold W.
  pose proof (Mode_proofs.rupto_single n (fun j => if (j =? k)%nat then w k else 0) k Hk) as S. cbn beta in S. rewrite Nat.eqb_refl in S.
  rewrite <- S. 2:{ intros j _ N. apply Nat.eqb_neq in N. rewrite N. reflexivity. }
  apply rupto_le. intros j _. destruct (Nat.eqb_spec j k) as [->|]; [lra|]. pose proof (w_pos j). lra.
Qed.
Lemma W_pos : 0 < W. Proof. pose proof W_low. pose proof (exp_pos (- (mn / sp))). lra. Qed.
Lemma gap : soft_min sp n g - mn = rupto n (fun k => d k * w k) / W.
Proof.
  unfold soft_min. fold w. fold W. rewrite (rupto_ext n (fun k => d k * w k) (fun k => g k * w k - mn * w k)) by (intros; unfold d; ring).
  rewrite Mode_proofs.rupto_minus, rupto_scale. fold W. change (fun k => g k * exp (- (g k / sp))) with (fun k => g k * w k).
  field. pose proof W_pos. lra.
Qed.
Lemma d_nonneg k : (k < n)%nat -> 0 <= d k. Proof. intros H. pose proof (proj1 LM k H). unfold d. lra. Qed.
Lemma term_low k : (k < n)%nat -> 0 <= d k * w k.
Proof. intros H. apply Rmult_le_pos; [apply d_nonneg, H|left; apply w_pos]. Qed.
Lemma term_high k : (k < n)%nat -> d k * w k <= sp * exp (-1) * exp (- (mn / sp)).
Proof.
  intros H. replace (w k) with (exp (- (d k / sp)) * exp (- (mn / sp))).
  2:{ unfold w, d. rewrite <- exp_plus. f_equal. field. lra. }
  rewrite <- Rmult_assoc. apply Rmult_le_compat_r; [left; apply exp_pos|].
  replace (exp (- (d k / sp))) with (exp (-1) * / exp (d k / sp - 1)).
  2:{ rewrite <- exp_Ropp, <- exp_plus. f_equal. ring. }
  pose proof (exp_ineq1_le (d k / sp - 1)) as I. pose proof (exp_pos (-1)) as P1. pose proof (exp_pos (d k / sp - 1)) as P2.
  assert (D : d k <= sp * exp (d k / sp - 1)).
  { apply Rmult_le_reg_r with (/ sp); [apply Rinv_0_lt_compat, Pos|]. replace (sp * exp (d k / sp - 1) * / sp) with (exp (d k / sp - 1)) by (field; lra).
    unfold Rdiv in I |- *. lra. }
  apply Rmult_le_reg_r with (exp (d k / sp - 1)); [exact P2|].
  replace (d k * (exp (-1) * / exp (d k / sp - 1)) * exp (d k / sp - 1)) with (exp (-1) * d k) by (field; lra).
  replace (sp * exp (-1) * exp (d k / sp - 1)) with (exp (-1) * (sp * exp (d k / sp - 1))) by ring.
  apply Rmult_le_compat_l; lra.
Qed.
Lemma sum_high : rupto n (fun k => d k * w k) <= INR (n - 1) * (sp * exp (-1) * exp (- (mn / sp))).
Proof.
  destruct LM as [_ (k & Hk & E)]. set (B := sp * exp (-1) * exp (- (mn / sp))).
  assert (0 < B) as PB by (unfold B; repeat apply Rmult_lt_0_compat; try apply exp_pos; exact Pos).
  apply Rle_trans with (rupto n (fun j => B - (if (j =? k)%nat then B else 0))).
  - apply rupto_le. intros j Hj. destruct (Nat.eqb_spec j k) as [->|_].
    + unfold d. rewrite E. lra.
    + rewrite Rminus_0_r. apply term_high, Hj.
  - rewrite Mode_proofs.rupto_minus. rewrite (Mode_proofs.rupto_single n (fun j => if (j =? k)%nat then B else 0) k Hk).
    2:{ intros j _ N. apply Nat.eqb_neq in N. rewrite N. reflexivity. }
    rewrite Nat.eqb_refl. assert (R : forall c, rupto c (fun _ => B) = INR c * B).
    { induction c as [|c IH]; [rewrite rupto_0; cbn; ring|]. rewrite rupto_succ, IH, S_INR. ring. }
    rewrite R. rewrite minus_INR by lia. change (INR 1) with 1. lra.
Qed.
Lemma soft_bounds : mn <= soft_min sp n g <= mn + INR (n - 1) * (sp * exp (-1)).
Proof.
  pose proof gap as G. pose proof W_pos as PW. pose proof W_low as WL.
  assert (0 <= rupto n (fun k => d k * w k)) as S0 by (apply rupto_nonneg; intros k Hk; apply term_low, Hk).
  assert (0 <= rupto n (fun k => d k * w k) / W) as L by (apply Rmult_le_pos; [exact S0|left; apply Rinv_0_lt_compat, PW]).
  assert (rupto n (fun k => d k * w k) / W <= INR (n - 1) * (sp * exp (-1))) as U.
  { apply Rmult_le_reg_r with W; [exact PW|]. unfold Rdiv. rewrite Rmult_assoc, Rinv_l, Rmult_1_r by lra.
    apply Rle_trans with (1 := sum_high). rewrite !Rmult_assoc. apply Rmult_le_compat_l; [apply pos_INR|].
    apply Rmult_le_compat_l; [lra|]. apply Rmult_le_compat_l; [left; apply exp_pos|exact WL]. }
  lra.
Qed.
Lemma soft_above k : (k < n)%nat -> mn < g k -> mn < soft_min sp n g.
Proof.
  intros Hk Lt. pose proof gap as G. pose proof W_pos as PW.
  assert (0 < rupto n (fun k => d k * w k)) as S0.
  { apply (Mode_proofs.rupto_pos n _ k Hk); [intros j Hj; apply term_low, Hj|]. apply Rmult_lt_0_compat; [unfold d; lra|apply w_pos]. }
  assert (0 < rupto n (fun k => d k * w k) / W) by (apply Rmult_lt_0_compat; [exact S0|apply Rinv_0_lt_compat, PW]). lra.
Qed.
Lemma soft_same : (forall k, (k < n)%nat -> g k = mn) -> soft_min sp n g = mn.
Proof.
  intros E. pose proof gap as G. replace (rupto n (fun k => d k * w k)) with 0 in G; [unfold Rdiv in G; lra|].
  symmetry. rewrite <- (Rmult_0_l (rupto n w)), <- rupto_scale. apply rupto_ext. intros k Hk. unfold d. rewrite (E k Hk). ring.
Qed.
End Min.

Lemma least_exists n (f : nat -> R) : 0 < n -> exists mn, least n f mn.
Proof.
  induction n as [|n IH]; [lia|]. intros _. destruct n as [|n].
  - exists (f 0). split; [|exists 0; split; [lia|reflexivity]]. intros k Hk. replace k with 0 by lia. lra.
  - destruct (IH ltac:(lia)) as (mn & A & k & Hk & E). destruct (Rle_dec mn (f (S n))) as [L|L].
    + exists mn. split; [|exists k; split; [lia|exact E]]. intros j Hj. destruct (Nat.eq_dec j (S n)) as [->|]; [exact L|apply A; lia].
    + exists (f (S n)). split; [|exists (S n); split; [lia|reflexivity]]. intros j Hj. destruct (Nat.eq_dec j (S n)) as [->|]; [lra|].
      specialize (A j ltac:(lia)). lra.
Qed.

Lemma soft_eval v s gi n (f : nat -> R) : (0 < Q2R s)%R -> isvec v n f gi -> eval v (smooth_min s gi) = soft_min (Q2R s) n f.
Proof.
  intros P V. apply isvec_iff in V. destruct V as [L V]. unfold smooth_min, soft_min. cbn [eval eval_bin]. rewrite !eval_esum, !map_map.
  assert (Ew : forall e, eval v (EUn UExp (EBin BMul (ECst (- / s)%Q) e)) = exp (- (eval v e / Q2R s))).
  { intros e. cbn [eval eval_bin eval_un]. rewrite Q2R_opp, Q2R_inv.
    - f_equal. unfold Rdiv. ring.
    - intros Z. apply Qeq_eqR in Z. rewrite Q2R_0 in Z. lra. }
  assert (G : forall h : R -> R, rsum (map (fun e => h (eval v e)) gi) = rupto n (fun k => h (f k))).
  { intros h. rewrite (rsum_nth _ gi (ECst 0)), L. apply rupto_ext. intros k Hk. f_equal.
    destruct (nth_error_lt gi k ltac:(lia)) as [e He]. rewrite (nth_error_nth _ _ _ He). apply V, He. }
  f_equal; [|f_equal]; [rewrite <- (G (fun y => y * exp (- (y / Q2R s)))%R)|rewrite <- (G (fun y => exp (- (y / Q2R s)))%R)];
    change rsum with Rsum; f_equal; apply map_ext; intros e; [cbn [eval eval_bin]; f_equal|]; apply Ew.
Qed.

Section Smooth.
Variables (o : opts) (m : model) (pm : pmodel).
Hypothesis HP : preprocess_model o m = Ok pm.
Hypothesis WS : well_sized m.
Variables (sp : Q) (sm : smooth_funs).
Hypothesis HS : add_smooth_step_representation pm sp = Ok sm.
Variable v : env.

Lemma soft_facts : gS_given m = false /\ (0 < Q2R sp)%R /\
  cf_in (sm_mu sm) = [mx (pm_m pm); mp (pm_m pm)] /\ cf_in (sm_lambda sm) = [mx (pm_m pm); mp (pm_m pm)] /\
  exists gSl lam, length gSl = n_subsystems m /\
    (forall s gi, nth_error gSl s = Some gi -> isvec v (n_modes m s) (region_value m v s) gi) /\
    cf_out (sm_mu sm) = map (fun g => EUn UNeg (smooth_min sp g)) gSl /\
    cf_out (sm_lambda sm) = concat lam /\ mapM (fun g => vbin BSub g [smooth_min sp g]) gSl = Ok lam.
Proof.
  pose proof (preprocess_model_ok o m pm HP) as K. pose proof HS as H. unfold add_smooth_step_representation in H. gsg. cbv zeta in H.
  destruct (mo_m _ _ _ K) as (ptv & Em & _).
  assert (E1 : gS_given (pm_m pm) = gS_given m) by (rewrite Em; reflexivity).
  assert (E2 : gS_list (pm_m pm) (pm_nsys pm) = gS_list m (pm_nsys pm)) by (rewrite Em; reflexivity).
  assert (E5 : m_F (pm_m pm) = m_F m) by (rewrite Em; reflexivity).
  rewrite E1, E2, E5 in H. clear Em E1 E2 E5 ptv.
  apply bind_ok in H. destruct H as (u1 & G1 & H). apply guard_ok in G1. apply Bool.negb_true_iff in G1.
  apply bind_ok in H. destruct H as (u2 & G2 & H). apply guard_ok in G2. apply Bool.negb_true_iff in G2.
  apply bind_ok in H. destruct H as (gSl & Hg & H).
  apply bind_ok in H. destruct H as (c & Hc & H). apply bind_ok in H. destruct H as (Sl & HSl & H).
  apply bind_ok in H. destruct H as (F & HF & H). apply opt_res_ok in HF.
  apply bind_ok in H. destruct H as (thl & _ & H). apply bind_ok in H. destruct H as (fx & _ & H).
  apply bind_ok in H. destruct H as (lam & Hl & H).
  apply bind_ok in H. destruct H as (f1 & _ & H). apply bind_ok in H. destruct H as (f2 & _ & H).
  apply bind_ok in H. destruct H as (f3 & M3 & H). apply mkfun_ok in M3. destruct M3 as [-> _].
  apply bind_ok in H. destruct H as (f4 & M4 & H). apply mkfun_ok in M4. destruct M4 as [-> _]. injection H as <-.
  cbn [sm_mu sm_lambda cf_out cf_in].
  split; [exact G1|]. split.
  { rewrite <- Q2R_0. apply Qlt_Rlt. apply Qnot_le_lt. intros L. apply Qle_bool_iff in L. congruence. }
  split; [reflexivity|]. split; [reflexivity|]. exists gSl, lam.
  assert (Lg : length gSl = pm_nsys pm).
  { unfold gS_list in Hg. gsg. rewrite G1 in Hg. apply bind_ok in Hg. destruct Hg as (Sl' & _ & Hg). apply bind_ok in Hg. destruct Hg as (c' & _ & Hg).
    rewrite (mapM_length _ _ _ Hg), seq_length. reflexivity. }
  rewrite <- (mo_nsys _ _ _ K). split; [exact Lg|]. split; [|auto].
  intros s gi Hs. refine (gS_facts o m pm K WS v F gSl s gi HF Hg Hs _). rewrite <- Lg. eapply nth_error_Some_lt; eauto.
Qed.

Lemma soft_mu : length (cf_out (sm_mu sm)) = n_subsystems m /\
  forall s e, nth_error (cf_out (sm_mu sm)) s = Some e -> eval v e = (- soft_min (Q2R sp) (n_modes m s) (region_value m v s))%R.
Proof.
  destruct soft_facts as (_ & P & _ & _ & gSl & lam & L & V & -> & _ & _). rewrite map_length. split; [exact L|].
  intros s e He. rewrite nth_error_map in He. destruct (nth_error gSl s) as [gi|] eqn:Es; [|discriminate]. injection He as <-.
  cbn [eval eval_un]. rewrite (soft_eval v sp gi _ _ P (V s gi Es)). reflexivity.
Qed.
Lemma soft_lambda : length (cf_out (sm_lambda sm)) = upto (n_subsystems m) (n_modes m) /\
  forall s k, s < n_subsystems m -> k < n_modes m s -> exists e, nth_error (cf_out (sm_lambda sm)) (offset (n_modes m) s k) = Some e /\
    eval v e = (region_value m v s k - soft_min (Q2R sp) (n_modes m s) (region_value m v s))%R.
Proof.
  destruct soft_facts as (_ & P & _ & _ & gSl & lam & L & V & _ & -> & Hl).
  assert (I : forall s la, nth_error lam s = Some la -> isvec v (n_modes m s) (fun k => region_value m v s k - soft_min (Q2R sp) (n_modes m s) (region_value m v s))%R la).
  { intros s la Hs. destruct (nth_error_lt gSl s) as [gi Hg]; [rewrite <- (mapM_length _ _ _ Hl); eapply nth_error_Some_lt; eauto|].
    destruct (mapM_nth _ _ _ s gi Hl Hg) as (la' & E & X). assert (la' = la) by congruence. subst la'.
    pose proof (V s gi Hg) as Vg. pose proof (soft_eval v sp gi _ _ P Vg) as Es.
    apply isvec_iff in Vg. destruct Vg as [Lg Vg]. rewrite vbin_scalar_r in X. injection X as <-. apply isvec_iff. rewrite map_length. split; [exact Lg|].
    intros k e He. rewrite nth_error_map in He. destruct (nth_error gi k) as [x|] eqn:Ex; [|discriminate]. injection He as <-.
    cbn [eval eval_bin]. rewrite Es, (Vg k x Ex). reflexivity. }
  assert (D : forall s la, nth_error lam s = Some la -> length la = n_modes m s) by (intros s la Hs; exact (isvec_length _ _ _ _ (I s la Hs))).
  assert (Ll : length lam = n_subsystems m) by (rewrite (mapM_length _ _ _ Hl); exact L).
  split.
  - rewrite length_concat, <- sumn_upto, <- Ll. f_equal. apply nth_error_ext. intros s. rewrite !nth_error_map.
    destruct (nth_error lam s) as [th|] eqn:Es; cbn [option_map].
    + rewrite nth_error_seq by (eapply nth_error_Some_lt; eauto). cbn. rewrite (D s th Es). reflexivity.
    + apply nth_error_None in Es. rewrite (proj2 (nth_error_None _ _)); [reflexivity|]. rewrite seq_length. exact Es.
  - intros s k Hs Hk. destruct (nth_error_lt lam s ltac:(lia)) as [la Hla]. destruct (isvec_nth _ _ _ _ k (I s la Hla) Hk) as (e & He & Ev).
    exists e. rewrite (nth_concat_offset _ _ s k la D Hla Hk). split; [exact He|exact Ev].
Qed.
End Smooth.

(* ---- how close the smoothed weights are to the indicator of the region ---- *)
Lemma smoothed_up sp y : (0 < sp)%R -> (0 < y)%R -> (1 - sp / (2 * Rabs y) <= smoothed sp y <= 1)%R.
Proof.
  intros P Y. split; [|left; apply smoothed_range]. rewrite Rabs_pos_eq by lra. unfold smoothed, tanh, sinh, cosh.
  set (x := (y / sp)%R). assert (0 < x)%R as X by (apply Rdiv_lt_0_compat; assumption).
  pose proof (exp_pos x) as E1. pose proof (exp_pos (- x)) as E2.
  assert (E : (((exp x - exp (- x)) / 2 / ((exp x + exp (- x)) / 2) + 1) / 2 = 1 - exp (- x) / (exp x + exp (- x)))%R) by (field; lra).
  rewrite E. apply Rplus_le_compat_l, Ropp_le_contravar. replace (sp / (2 * y))%R with (/ (2 * x))%R by (unfold x; field; lra).
  assert (exp (- x) / (exp x + exp (- x)) = / (exp (2 * x) + 1))%R as ->.
  { replace (2 * x)%R with (x + x)%R by ring. rewrite exp_plus, exp_Ropp. field. split; [|lra].
    assert (0 < exp x * exp x)%R by (apply Rmult_lt_0_compat; lra). lra. }
  pose proof (exp_ineq1_le (2 * x)) as I. apply Rinv_le_contravar; lra.
Qed.
Lemma smoothed_sym sp y : smoothed sp (- y) = (1 - smoothed sp y)%R.
Proof.
  unfold smoothed. replace (- y / sp)%R with (- (y / sp))%R by (unfold Rdiv; ring). unfold tanh, sinh, cosh. rewrite Ropp_involutive.
  set (x := (y / sp)%R). pose proof (exp_pos x). pose proof (exp_pos (- x)). field. lra.
Qed.
Lemma fac_close sp q y : (0 < sp)%R -> is_sign q -> (~ (q == 0)%Q -> (0 < Q2R q * y)%R) ->
  (1 - (if Qeq_bool q 0 then 0 else sp / (2 * Rabs y)) <= fac q (smoothed sp y) <= 1)%R.
Proof.
  intros P H A. unfold fac. destruct (Qeq_bool q 0) eqn:E; [lra|]. apply Qeq_bool_neq in E. specialize (A E).
  destruct H as [H|[H|H]]; [|contradiction|]; rewrite (Qeq_eqR _ _ H) in *.
  - replace (Q2R (-1)) with (-1)%R in * by (unfold Q2R; cbn; lra). pose proof (smoothed_up sp (- y) P ltac:(lra)) as S.
    rewrite smoothed_sym, Rabs_Ropp in S. lra.
  - replace (Q2R 1) with 1%R in * by (unfold Q2R; cbn; lra). pose proof (smoothed_up sp y P ltac:(lra)). lra.
Qed.
Lemma rprod_close (f e : nat -> R) l : (forall k, In k l -> (0 < f k /\ 1 - e k <= f k <= 1)%R) ->
  (1 - rsum (map e l) <= rprod (map f l) <= 1)%R /\ (0 < rprod (map f l))%R.
Proof.
  induction l as [|a l IH]; intros H; [cbn; lra|]. destruct (IH (fun k Hk => H k (or_intror Hk))) as [[L U] P].
  destruct (H a (or_introl eq_refl)) as (P' & L' & U').
  change (rprod (map f (a :: l))) with (f a * rprod (map f l))%R. change (rsum (map e (a :: l))) with (e a + rsum (map e l))%R.
  set (p := rprod (map f l)) in *. set (x := f a) in *. split; [|apply Rmult_lt_0_compat; assumption].
  assert (x * p <= 1 * 1)%R by (apply Rmult_le_compat; lra).
  assert (0 <= (1 - x) * (1 - p))%R by (apply Rmult_le_pos; lra). split; [|lra].
  replace ((1 - x) * (1 - p))%R with (1 - x - p + x * p)%R in * by ring. lra.
Qed.
Lemma rupto_abs n f : (Rabs (rupto n f) <= rupto n (fun k => Rabs (f k)))%R.
Proof.
  induction n as [|n IH]; [rewrite !rupto_0, Rabs_R0; lra|]. rewrite !rupto_succ. apply Rle_trans with (1 := Rabs_triang _ _). lra.
Qed.

Section Limit.
Variables (o : opts) (m : model) (pm : pmodel).
Hypothesis HP : preprocess_model o m = Ok pm.
Hypothesis WS : well_sized m.
Variables (sp : Q) (sm : smooth_funs).
Hypothesis HS : add_smooth_step_representation pm sp = Ok sm.
Hypothesis SG : sign_matrix m.
Variable v : env.
Notation wt s k := (smooth_weight m sp v s k).
Notation err s i := (smoothing_error m v (Q2R sp) s i).

Lemma weight_close s i : s < n_subsystems m -> i < n_modes m s -> in_region m v s i -> (1 - err s i <= wt s i <= 1)%R.
Proof.
  intros Hs Hi R. destruct (smooth_facts o m pm HP WS sp sm HS SG v) as (_ & P & _ & RF & _).
  rewrite (smooth_weight_fac m sp v s i (RF s i Hs Hi)). unfold smoothing_error. rewrite <- rsum_seq.
  apply (rprod_close _ (fun k => if Qeq_bool (sign m s i k) 0 then 0%R else (Q2R sp / (2 * Rabs (switch_value m v s k)))%R) (seq 0 (n_switch m s))).
  intros k Hk. apply in_seq in Hk. split; [apply fac_pos; [apply SG|apply smoothed_range]|].
  apply fac_close; [exact P|apply SG|]. intros N. apply R; [lia|exact N].
Qed.
Lemma others_close s i : s < n_subsystems m -> i < n_modes m s -> in_region m v s i -> complete m s ->
  (rupto (n_modes m s) (fun k => if (k =? i)%nat then 0 else wt s k) <= err s i)%R.
Proof.
  intros Hs Hi R C. pose proof (smooth_weight_sum o m pm HP WS sp sm HS SG v s Hs C) as S.
  rewrite (rupto_ext _ _ (fun k => (if (k =? i)%nat then wt s i else 0) + (if (k =? i)%nat then 0 else wt s k))%R) in S.
  2:{ intros k _. destruct (Nat.eqb_spec k i) as [->|]; lra. }
  rewrite rupto_plus, (Mode_proofs.rupto_single _ _ i Hi) in S.
  2:{ intros k _ N. apply Nat.eqb_neq in N. rewrite N. reflexivity. }
  rewrite Nat.eqb_refl in S. pose proof (weight_close s i Hs Hi R). lra.
Qed.
Lemma field_close act D j e : (forall s, s < n_subsystems m -> act s < n_modes m s /\ in_region m v s (act s) /\ complete m s) ->
  (forall s k, s < n_subsystems m -> k < n_modes m s -> (Rabs (mode_field m v s k j - mode_field m v s (act s) j) <= D s)%R) ->
  nth_error (cf_out (sm_fx sm)) j = Some e ->
  (Rabs (eval v e - rupto (n_subsystems m) (fun s => mode_field m v s (act s) j)) <= rupto (n_subsystems m) (fun s => D s * err s (act s)))%R.
Proof.
  intros A B He. destruct (smooth_facts o m pm HP WS sp sm HS SG v) as (_ & P & _ & _ & _ & F). apply isvec_iff in F. destruct F as [_ F].
  rewrite (F j e He), <- Mode_proofs.rupto_minus. apply Rle_trans with (1 := rupto_abs _ _). apply rupto_le. intros s Hs.
  destruct (A s Hs) as (Ha & Hr & Hc). pose proof (smooth_weight_sum o m pm HP WS sp sm HS SG v s Hs Hc) as S.
  assert (E : (rupto (n_modes m s) (fun k => mode_field m v s k j * wt s k) - mode_field m v s (act s) j =
     rupto (n_modes m s) (fun k => (mode_field m v s k j - mode_field m v s (act s) j) * wt s k))%R).
  { rewrite (rupto_ext _ (fun k => (mode_field m v s k j - mode_field m v s (act s) j) * wt s k)%R
       (fun k => mode_field m v s k j * wt s k - mode_field m v s (act s) j * wt s k)%R) by (intros; ring).
    rewrite Mode_proofs.rupto_minus, rupto_scale. change (fun k => wt s k) with (smooth_weight m sp v s). rewrite S. ring. }
  rewrite E. apply Rle_trans with (1 := rupto_abs _ _).
  apply Rle_trans with (rupto (n_modes m s) (fun k => D s * (if (k =? act s)%nat then 0 else wt s k))%R).
  - apply rupto_le. intros k Hk. destruct (Nat.eqb_spec k (act s)) as [->|N].
    + rewrite Rminus_diag_eq by reflexivity. rewrite Rmult_0_l, Rabs_R0. lra.
    + pose proof (smooth_weight_pos o m pm HP WS sp sm HS SG v s k Hs Hk) as W. rewrite Rabs_mult, (Rabs_pos_eq (wt s k)) by lra.
      apply Rmult_le_compat_r; [lra|]. apply B; assumption.
  - rewrite rupto_scale. apply Rmult_le_compat_l; [|apply others_close; assumption].
    apply Rle_trans with (2 := B s (act s) Hs Ha). apply Rabs_pos.
Qed.
End Limit.
