(* Smooth_proofs.v -- add_smooth_step_representation *)
From Coq Require Import Reals Qreals Lra Qround Qpower Qfield.
From Verif Require Import Base Sx Utils Tableau Opts Model Ocp Problem Spec Lib Sx_proofs Model_proofs Fesd Sem_proofs Dcs_proofs
  Elem_proofs Feas_proofs Feas2_proofs Numeric Spec3 Mode_proofs Lam_proofs.

(* ---- partition of unity ---- *)
Section Unity.
Variable al : nat -> R.
Definition upd (sg : nat -> bool) k b : nat -> bool := fun j => if j =? k then b else sg j.
Fixpoint expect (n : nat) (G : (nat -> bool) -> R) (sg : nat -> bool) : R :=
  match n with
  | O => G sg
  | S n => (al n * expect n G (upd sg n true) + (1 - al n) * expect n G (upd sg n false))%R
  end.
Lemma expect_ext n G H : (forall sg, G sg = H sg) -> forall sg, expect n G sg = expect n H sg.
Proof. intros E. induction n as [|n IH]; intros sg; cbn; [apply E|]. rewrite !IH. reflexivity. Qed.
Lemma expect_const n c sg : expect n (fun _ => c) sg = c.
Proof. revert sg. induction n as [|n IH]; intros sg; cbn; [reflexivity|]. rewrite !IH. ring. Qed.
Lemma expect_plus n G H sg : expect n (fun t => (G t + H t)%R) sg = (expect n G sg + expect n H sg)%R.
Proof. revert sg. induction n as [|n IH]; intros sg; cbn; [reflexivity|]. rewrite !IH. ring. Qed.
Lemma expect_rupto n N (G : nat -> (nat -> bool) -> R) sg :
  expect n (fun t => rupto N (fun i => G i t)) sg = rupto N (fun i => expect n (G i) sg).
Proof.
  induction N as [|N IH].
  - unfold rupto. cbn. apply expect_const.
  - replace (S N) with (N + 1) by lia. rewrite rupto_S, <- IH, <- expect_plus. apply expect_ext. intros t. rewrite rupto_S. reflexivity.
Qed.
Lemma expect_const_factor n G (h : bool -> R) k sg : n <= k -> expect n (fun t => (G t * h (t k))%R) sg = (expect n G sg * h (sg k))%R.
Proof.
  revert sg. induction n as [|n IH]; intros sg L; cbn; [reflexivity|]. rewrite !IH by lia.
  unfold upd. replace (k =? n) with false by (symmetry; apply Nat.eqb_neq; lia). ring.
Qed.
Lemma expect_prod n (f : nat -> bool -> R) sg :
  expect n (fun t => rprod (map (fun k => f k (t k)) (seq 0 n))) sg =
  rprod (map (fun k => (al k * f k true + (1 - al k) * f k false)%R) (seq 0 n)).
Proof.
  revert sg. induction n as [|n IH]; intros sg; [reflexivity|]. cbn [expect].
  assert (E : forall t, rprod (map (fun k => f k (t k)) (seq 0 (S n))) = (rprod (map (fun k => f k (t k)) (seq 0 n)) * f n (t n))%R).
  { intros t. replace (S n) with (n + 1) by lia. rewrite seq_app, map_app, rprod_app. cbn. ring. }
  rewrite (expect_ext n _ _ E (upd sg n true)), (expect_ext n _ _ E (upd sg n false)).
  rewrite !expect_const_factor by lia. rewrite !IH. replace (S n) with (n + 1) by lia. rewrite seq_app, map_app, rprod_app.
  cbn [map seq Nat.add]. rewrite rprod_cons. change (rprod []) with 1%R. unfold upd. rewrite Nat.eqb_refl. ring.
Qed.

Definition fac (q : Q) (a : R) : R := if Qeq_bool q 0 then 1%R else ((1 - Q2R q) / 2 + Q2R q * a)%R.
Definition ind (q : Q) (b : bool) : R := if Qeq_bool q 0 then 1%R else if Qeq_bool q (if b then 1 else -1) then 1%R else 0%R.
Definition is_sign (q : Q) : Prop := (q == -1)%Q \/ (q == 0)%Q \/ (q == 1)%Q.
Lemma fac_ind q a : is_sign q -> fac q a = (a * ind q true + (1 - a) * ind q false)%R.
Proof.
  intros H. unfold fac, ind. destruct (Qeq_bool q 0) eqn:E; [lra|]. apply Qeq_bool_neq in E.
  destruct H as [H|[H|H]]; [|contradiction|]; rewrite (Qeq_eqR _ _ H).
  - replace (Qeq_bool q 1) with false by (symmetry; rewrite H; reflexivity). replace (Qeq_bool q (-1)) with true by (symmetry; rewrite H; reflexivity).
    unfold Q2R; cbn. lra.
  - replace (Qeq_bool q 1) with true by (symmetry; rewrite H; reflexivity). replace (Qeq_bool q (-1)) with false by (symmetry; rewrite H; reflexivity).
    unfold Q2R; cbn. lra.
Qed.
Lemma ind_cases q b : is_sign q -> (ind q b = 1%R /\ ((q == 0)%Q \/ (q == if b then 1 else -1)%Q)) \/
  (ind q b = 0%R /\ ~ ((q == 0)%Q \/ (q == if b then 1 else -1)%Q)).
Proof.
  intros H. unfold ind. destruct (Qeq_bool q 0) eqn:E; [left; split; [reflexivity|left; apply Qeq_bool_iff, E]|].
  destruct (Qeq_bool q (if b then 1%Q else (-1)%Q)) eqn:E2.
  - left. split; [reflexivity|]. right. apply Qeq_bool_iff in E2. destruct b; exact E2.
  - right. split; [reflexivity|]. apply Qeq_bool_neq in E. apply Qeq_bool_neq in E2. intros [A|A]; [auto|]. apply E2. destruct b; exact A.
Qed.

Lemma unity N n (sg : nat -> nat -> Q) : (forall i k, is_sign (sg i k)) ->
  (forall t : nat -> bool, exists i, i < N /\ (forall k, k < n -> (sg i k == 0)%Q \/ (sg i k == if t k then 1 else -1)%Q) /\
     forall j, j < N -> (forall k, k < n -> (sg j k == 0)%Q \/ (sg j k == if t k then 1 else -1)%Q) -> j = i) ->
  rupto N (fun i => rprod (map (fun k => fac (sg i k) (al k)) (seq 0 n))) = 1%R.
Proof.
  intros SM C.
  transitivity (rupto N (fun i => expect n (fun t => rprod (map (fun k => ind (sg i k) (t k)) (seq 0 n))) (fun _ => true))).
  - apply rupto_ext. intros i Hi. rewrite (expect_prod n (fun k => ind (sg i k))). f_equal. apply map_ext. intros k. apply fac_ind, SM.
  - rewrite <- expect_rupto. transitivity (expect n (fun _ => 1%R) (fun _ => true)); [|apply expect_const]. apply expect_ext. intros t.
    destruct (C t) as (i & Hi & Ai & U). rewrite (rupto_single _ _ i Hi).
    + apply rprod_one. intros k Hk. apply in_seq in Hk. destruct (ind_cases (sg i k) (t k) (SM i k)) as [[A _]|[_ A]]; [exact A|].
      exfalso. apply A, Ai. lia.
    + intros j Hj Ne.
      destruct (Classical_Prop.classic (exists k, k < n /\ ind (sg j k) (t k) = 0%R)) as [(k & Hk & Z)|NE].
      * apply (rprod_zero _ _ k); [apply in_seq; lia|exact Z].
      * exfalso. apply Ne, U; [exact Hj|]. intros k Hk. destruct (ind_cases (sg j k) (t k) (SM j k)) as [[_ A]|[A _]]; [exact A|].
        exfalso. apply NE. eauto.
Qed.

Lemma fac_pos q a : is_sign q -> (0 < a < 1)%R -> (0 < fac q a)%R.
Proof.
  intros H A. unfold fac. destruct (Qeq_bool q 0) eqn:E; [lra|]. apply Qeq_bool_neq in E.
  destruct H as [H|[H|H]]; [|contradiction|]; rewrite (Qeq_eqR _ _ H); unfold Q2R; cbn; lra.
Qed.
Lemma rprod_pos (f : nat -> R) l : (forall k, In k l -> (0 < f k)%R) -> (0 < rprod (map f l))%R.
Proof.
  intros H. induction l as [|a l IH]; [cbn; lra|]. change (rprod (map f (a :: l))) with (f a * rprod (map f l))%R.
  apply Rmult_lt_0_compat; [apply H; left; reflexivity|]. apply IH. intros k Hk. apply H. right. exact Hk.
Qed.
End Unity.

(* ---- tanh ---- *)
Lemma smoothed_range sp y : (0 < smoothed sp y < 1)%R.
Proof.
  unfold smoothed. set (x := (y / sp)%R). unfold tanh, sinh, cosh.
  pose proof (exp_pos x) as E1. pose proof (exp_pos (- x)) as E2.
  assert (H : (((exp x - exp (- x)) / 2 / ((exp x + exp (- x)) / 2) + 1) / 2 = exp x / (exp x + exp (- x)))%R) by (field; lra).
  rewrite H. split.
  - apply Rdiv_lt_0_compat; lra.
  - apply Rmult_lt_reg_r with (exp x + exp (- x))%R; [lra|]. unfold Rdiv. rewrite Rmult_assoc, Rinv_l by lra. lra.
Qed.
Lemma smooth_step_eval v s e : (0 < Q2R s)%R -> eval v (smooth_step s e) = smoothed (Q2R s) (eval v e).
Proof.
  intros Hs. unfold smooth_step, smoothed. cbn [eval eval_bin eval_un]. rewrite Q2R_1.
  assert (N : ~ (s == 0)%Q). { intros E. apply Qeq_eqR in E. rewrite E, Q2R_0 in Hs. lra. }
  rewrite Q2R_inv by exact N. replace (Q2R 2) with 2%R by (unfold Q2R; cbn; lra). unfold Rdiv. rewrite (Rmult_comm (/ Q2R s)). reflexivity.
Qed.

(* ---- the factor 2**(n_c - n_Ri) ---- *)
Fixpoint zeros (row : list Q) : nat := match row with [] => 0 | q :: r => (if Qeq_bool q 0 then 1 else 0) + zeros r end.
Lemma zeros_le row : zeros row <= length row.
Proof. induction row as [|q r IH]; cbn; [lia|]. destruct (Qeq_bool q 0); lia. Qed.
Lemma fold_Qplus l a : (fold_left Qplus l a == a + Qsum l)%Q.
Proof.
  unfold Qsum. revert a. induction l as [|x l IH]; intros a; cbn; [ring|]. rewrite (IH (a + x)%Q), (IH (0 + x)%Q). ring.
Qed.
Lemma abs_count row : (forall q, In q row -> is_sign q) -> (Qsum (map Qabs_ row) == inject_Z (Z.of_nat (length row - zeros row)))%Q.
Proof.
  induction row as [|q r IH]; intros H; [reflexivity|]. unfold Qsum. cbn [map fold_left]. rewrite fold_Qplus, IH by (intros; apply H; right; assumption).
  pose proof (zeros_le r). cbn [length zeros].
  assert (Q : (Qabs_ q == if Qeq_bool q 0 then 0 else 1)%Q).
  { unfold Qabs_. destruct (H q (or_introl eq_refl)) as [E|[E|E]].
    - assert (Qle_bool 0 q = false) as -> by (rewrite E; reflexivity). assert (Qeq_bool q 0 = false) as -> by (rewrite E; reflexivity). rewrite E; reflexivity.
    - assert (Qle_bool 0 q = true) as -> by (rewrite E; reflexivity). assert (Qeq_bool q 0 = true) as -> by (rewrite E; reflexivity). exact E.
    - assert (Qle_bool 0 q = true) as -> by (rewrite E; reflexivity). assert (Qeq_bool q 0 = false) as -> by (rewrite E; reflexivity). exact E. }
  rewrite Q. destruct (Qeq_bool q 0).
  - replace (S (length r) - (1 + zeros r)) with (length r - zeros r) by lia. ring.
  - replace (S (length r) - (0 + zeros r)) with (S (length r - zeros r)) by lia. rewrite Nat2Z.inj_succ. unfold Z.succ. rewrite inject_Z_plus.
    change (inject_Z 1) with 1%Q. ring.
Qed.
Lemma Q2R_pow2 k : Q2R (Qpower 2 (Z.of_nat k)) = (2 ^ k)%R.
Proof.
  induction k as [|k IH]; [unfold Q2R; cbn; lra|].
  assert (E : (Qpower 2 (Z.of_nat (S k)) == 2 * Qpower 2 (Z.of_nat k))%Q).
  { rewrite Nat2Z.inj_succ. unfold Z.succ. rewrite Qpower_plus by discriminate. cbn [Qpower]. ring_simplify. 
    change (Qpower_positive 2 1) with 2%Q. ring. }
  rewrite (Qeq_eqR _ _ E), Q2R_mult, IH. replace (Q2R 2) with 2%R by (unfold Q2R; cbn; lra). reflexivity.
Qed.

Definition plain (q : Q) (a : R) : R := ((1 - Q2R q) / 2 + Q2R q * a)%R.
Lemma plain_fac (al : nat -> R) row : (forall q, In q row -> is_sign q) -> forall a,
  (2 ^ zeros row * rprod (map (fun p => plain (snd p) (al (fst p))) (combine (seq a (length row)) row)))%R =
  rprod (map (fun p => fac (snd p) (al (fst p))) (combine (seq a (length row)) row)).
Proof.
  induction row as [|q r IH]; intros H a; [cbn; lra|]. cbn [length seq combine map]. rewrite !rprod_cons. cbn [fst snd zeros].
  specialize (IH (fun q' Hq' => H q' (or_intror Hq')) (S a)). rewrite <- IH. unfold fac at 1. destruct (Qeq_bool q 0) eqn:E.
  - apply Qeq_bool_iff, Qeq_eqR in E. unfold plain at 1. rewrite E, Q2R_0. cbn [Nat.add pow]. field.
  - unfold plain at 1. cbn [Nat.add]. ring.
Qed.

Lemma theta_smooth_val v row alpha e (al : nat -> R) : (forall q, In q row -> is_sign q) ->
  (forall k a, nth_error alpha k = Some a -> eval v a = al k) ->
  theta_smooth_entry (length row) row alpha = Ok e -> eval v e = step_weight row al.
Proof.
  intros HS Ha H. change (step_weight row al) with (rprod (map (fun p => fac (snd p) (al (fst p))) (combine (seq 0 (length row)) row))).
  rewrite <- plain_fac by exact HS. unfold theta_smooth_entry in H. cbv zeta in H.
  rewrite (Qfloor_comp _ _ (abs_count row HS)), Qfloor_Z in H. pose proof (zeros_le row) as ZL.
  replace (Z.of_nat (length row) - Z.of_nat (length row - zeros row))%Z with (Z.of_nat (zeros row)) in H by lia.
  apply (foldM_seq0 _ (fun k acc => eval v acc =
    (2 ^ zeros row * rprod (map (fun p => plain (snd p) (al (fst p))) (combine (seq 0 k) (firstn k row))))%R)) in H.
  - rewrite firstn_all in H. exact H.
  - intros k acc acc' Hk HI Hs. apply bind_ok in Hs. destruct Hs as (s & Es & Hs). apply nthE_ok in Es.
    assert (EQ : combine (seq 0 (k + 1)) (firstn (k + 1) row) = combine (seq 0 k) (firstn k row) ++ [(k, s)]).
    { rewrite seq_app. cbn [seq]. replace (firstn (k + 1) row) with (firstn k row ++ [s]).
      - rewrite combine_app by (rewrite seq_length, firstn_length; lia). reflexivity.
      - clear - Es. revert row Es. induction k as [|k IH]; intros [|q row] Es; try discriminate; cbn in *.
        + injection Es as <-. reflexivity.
        + f_equal. apply IH. assumption. }
    rewrite EQ, map_app, rprod_app, <- Rmult_assoc, <- HI. cbn [map fst snd]. rewrite rprod_cons. change (rprod []) with 1%R.
    apply bind_ok in Hs. destruct Hs as (a & Ea & Hs). injection Hs as <-. apply nthE_ok in Ea.
    cbn [eval eval_bin]. rewrite (Ha _ _ Ea), Q2R_div, Q2R_minus, Q2R_1 by discriminate. unfold plain.
    replace (Q2R 2) with 2%R by (unfold Q2R; cbn; lra). lra.
  - cbn [seq firstn combine map eval]. rewrite Q2R_pow2. change (rprod []) with 1%R. lra.
Qed.

Section Smooth.
Variables (o : opts) (m : model) (pm : pmodel).
Hypothesis HP : preprocess_model o m = Ok pm.
Hypothesis WS : well_sized m.
Let K := preprocess_model_ok o m pm HP.
Variables (sp : Q) (sm : smooth_funs).
Hypothesis HS : add_smooth_step_representation pm sp = Ok sm.
Hypothesis SG : sign_matrix m.
Variable v : env.

Definition smooth_weight (s k : nat) : R := step_weight (nth k (user_S m s) []) (fun r => smoothed (Q2R sp) (switch_value m v s r)).

Lemma smooth_facts : gS_given m = false /\ (0 < Q2R sp)%R /\ m_F m <> None /\
  (forall s i, s < n_subsystems m -> i < n_modes m s -> length (nth i (user_S m s) []) = n_switch m s) /\
  (exists thl, cf_out (sm_theta sm) = concat thl /\ length thl = n_subsystems m /\
     forall s th, nth_error thl s = Some th -> isvec v (n_modes m s) (smooth_weight s) th) /\
  isvec v (m_nx m) (fun i => rupto (n_subsystems m) (fun s => rupto (n_modes m s) (fun k => (mode_field m v s k i * smooth_weight s k)%R))) (cf_out (sm_fx sm)).
Proof.
  pose proof HS as H. unfold add_smooth_step_representation in H. gsg. cbv zeta in H.
  destruct (mo_m _ _ _ K) as (ptv & Em & _).
  assert (E1 : gS_given (pm_m pm) = gS_given m) by (rewrite Em; reflexivity).
  assert (E2 : gS_list (pm_m pm) (pm_nsys pm) = gS_list m (pm_nsys pm)) by (rewrite Em; reflexivity).
  assert (E3 : m_c (pm_m pm) = m_c m) by (rewrite Em; reflexivity).
  assert (E4 : m_S (pm_m pm) = m_S m) by (rewrite Em; reflexivity).
  assert (E5 : m_F (pm_m pm) = m_F m) by (rewrite Em; reflexivity).
  assert (E6 : m_nx (pm_m pm) = m_nx m) by (rewrite Em; reflexivity).
  rewrite E1, E2, E3, E4, E5, E6 in H. clear Em E1 E2 E3 E4 E5 E6 ptv.
  apply bind_ok in H. destruct H as (u1 & G1 & H). apply guard_ok in G1. apply Bool.negb_true_iff in G1.
  apply bind_ok in H. destruct H as (u2 & G2 & H). apply guard_ok in G2. apply Bool.negb_true_iff in G2.
  apply bind_ok in H. destruct H as (gSl & Hg & H).
  apply bind_ok in H. destruct H as (c & Hc & H). apply opt_res_ok in Hc.
  apply bind_ok in H. destruct H as (Sl & HSl & H). apply opt_res_ok in HSl.
  apply bind_ok in H. destruct H as (F & HF & H). apply opt_res_ok in HF.
  apply bind_ok in H. destruct H as (thl & Hth & H).
  apply bind_ok in H. destruct H as (fx & Hfx & H).
  apply bind_ok in H. destruct H as (lam & _ & H).
  apply bind_ok in H. destruct H as (f1 & M1 & H). apply mkfun_ok in M1. destruct M1 as [-> _].
  apply bind_ok in H. destruct H as (f2 & M2 & H). apply mkfun_ok in M2. destruct M2 as [-> _].
  apply bind_ok in H. destruct H as (f3 & _ & H). apply bind_ok in H. destruct H as (f4 & _ & H). injection H as <-.
  cbn [sm_theta sm_fx cf_out].
  assert (Pos : (0 < Q2R sp)%R).
  { rewrite <- Q2R_0. apply Qlt_Rlt. apply Qnot_le_lt. intros L. apply Qle_bool_iff in L. congruence. }
  assert (Rows : forall s ci Si, s < n_subsystems m -> nth_error c s = Some ci -> nth_error Sl s = Some Si ->
     forall row, In row Si -> length row = length ci).
  { intros s ci Si Hs Hci HSi row Hr. unfold gS_list in Hg. gsg. rewrite G1, HSl, Hc in Hg. cbn [opt_res bind] in Hg.
    rewrite <- (mo_nsys _ _ _ K) in Hs.
    apply mapM_nth with (k := s) (a := s) in Hg; [|apply nth_error_seq; exact Hs]. destruct Hg as (gi & _ & Hg).
    rewrite (nthE_Some _ _ _ _ HSi), (nthE_Some _ _ _ _ Hci) in Hg. cbn [bind] in Hg. unfold neg_S_c in Hg.
    apply In_nth_error in Hr. destruct Hr as [k Hr]. apply mapM_nth with (k := k) (a := row) in Hg; [|exact Hr].
    destruct Hg as (e & _ & He). apply (edot_eval v) in He. destruct He as [He _]. rewrite map_length in He. exact He. }
  assert (Th : forall s th, nth_error thl s = Some th -> s < n_subsystems m /\
     (forall i, i < n_modes m s -> length (nth i (user_S m s) []) = n_switch m s) /\ isvec v (n_modes m s) (smooth_weight s) th).
  { intros s th Ht. pose proof (mapM_length _ _ _ Hth) as Lt. rewrite seq_length, (mo_nsys _ _ _ K) in Lt.
    pose proof (nth_error_Some_lt _ _ _ Ht) as Hs. rewrite Lt in Hs. split; [exact Hs|].
    assert (Hs' : s < pm_nsys pm) by (rewrite (mo_nsys _ _ _ K); exact Hs).
    destruct (mapM_nth _ _ _ s s Hth ltac:(apply nth_error_seq; exact Hs')) as (th' & Ht' & X).
    assert (th' = th) by congruence. subst th'.
    apply bind_ok in X. destruct X as (ci & Hci & X). apply nthE_ok in Hci.
    apply bind_ok in X. destruct X as (Si & HSi & X). apply nthE_ok in HSi.
    apply bind_ok in X. destruct X as (nci & Hn & X). apply nthE_ok in Hn.
    rewrite (pm_nc_nth _ _ _ _ K G1 Hs') in Hn. injection Hn as <-.
    assert (Lc : length ci = n_switch m s). { unfold n_switch. rewrite G1, Hc, Hci. reflexivity. }
    pose proof (S_rows o m pm K WS F Sl s Si HF G1 HSl HSi Hs') as LS.
    assert (Eu : user_S m s = Si). { unfold user_S. rewrite HSl. exact (nth_error_nth _ _ _ HSi). }
    split.
    - intros i Hi. rewrite Eu. destruct (nth_error_lt Si i ltac:(lia)) as [row Hr]. rewrite (nth_error_nth _ _ _ Hr), <- Lc.
      eapply Rows; eauto. eapply nth_error_In; eauto.
    - apply mapM_Forall2, Forall2_nth_iff in X. destruct X as [L X]. apply isvec_iff. split; [lia|]. intros i e He.
      destruct (nth_error_lt Si i) as [row Hr]; [rewrite L; eapply nth_error_Some_lt; eauto|]. specialize (X i row e Hr He).
      unfold smooth_weight. rewrite Eu, (nth_error_nth _ _ _ Hr). rewrite <- Lc, <- (Rows s ci Si Hs Hci HSi row (nth_error_In _ _ Hr)) in X.
      eapply theta_smooth_val; [| |exact X].
      + intros q Hq. apply In_nth_error in Hq. destruct Hq as [r Hq]. pose proof (SG s i r) as Y. unfold sign in Y.
        rewrite Eu, (nth_error_nth _ _ _ Hr), (nth_error_nth _ _ _ Hq) in Y. exact Y.
      + intros k a Ha. rewrite nth_error_map in Ha. destruct (nth_error ci k) as [ck|] eqn:Ek; [|discriminate]. injection Ha as <-.
        rewrite smooth_step_eval by exact Pos. f_equal. unfold switch_value, user_c. rewrite Hc, (nth_error_nth _ _ _ Hci), (nth_error_nth _ _ _ Ek). reflexivity. }
  assert (Lt : length thl = n_subsystems m) by (rewrite (mapM_length _ _ _ Hth), seq_length; apply (mo_nsys _ _ _ K)).
  split; [exact G1|]. split; [exact Pos|]. split; [congruence|]. split; [|split].
  - intros s i Hs Hi. destruct (nth_error_lt thl s ltac:(lia)) as [th Ht]. apply (Th s th Ht). exact Hi.
  - exists thl. split; [reflexivity|]. split; [exact Lt|]. intros s th Ht. apply (Th s th Ht).
  - rewrite <- (mo_nsys _ _ _ K).
    refine (foldM_seq0 _ (fun n acc => isvec v (m_nx m) (fun i => rupto n (fun s => rupto (n_modes m s) (fun k => (mode_field m v s k i * smooth_weight s k)%R))) acc) (pm_nsys pm) _ _ _ _ Hfx).
    + intros k a a' Hk IH X. apply bind_ok in X. destruct X as (Fi & HFi & X). apply nthE_ok in HFi.
      apply bind_ok in X. destruct X as (th & Ht & X). apply nthE_ok in Ht. apply bind_ok in X. destruct X as (ft & Hft & X).
      destruct (F_facts o m pm K WS F HF) as [_ HFf]. destruct (HFf k Fi HFi) as (F1 & F2 & F3 & F4).
      destruct (matvec_isvec v _ _ _ F1 Hft) as [HL Ift]. rewrite F2 in Ift.
      eapply isvec_ext; [|exact (isvec_vbin _ _ BAdd _ _ _ _ _ IH Ift X)].
      intros i Hi. cbn [eval_bin]. rewrite rupto_S. f_equal. rewrite F4. apply rupto_ext.
      intros j Hj. rewrite (mode_eval m v k Fi F3). f_equal.
      destruct (Th k th Ht) as (_ & _ & Iw). apply isvec_iff in Iw. destruct Iw as [Lw Iw].
      destruct (nth_error_lt th j ltac:(lia)) as [e He]. rewrite (nth_error_nth _ _ _ He). first [apply Iw, He | symmetry; apply Iw, He].
    + eapply isvec_ext; [|apply isvec_repeat]. intros i Hi. rewrite rupto_0. apply Q2R_0.
Qed.

Lemma smooth_weight_fac s k : length (nth k (user_S m s) []) = n_switch m s ->
  smooth_weight s k = rprod (map (fun r => fac (sign m s k r) (smoothed (Q2R sp) (switch_value m v s r))) (seq 0 (n_switch m s))).
Proof.
  intros L. unfold smooth_weight, step_weight. rewrite (map_nth_seq _ _ (0, 0%Q)), combine_length, seq_length, Nat.min_id, L.
  f_equal. apply map_ext_in. intros r Hr. apply in_seq in Hr. rewrite combine_nth by (rewrite seq_length; lia).
  rewrite seq_nth by lia. reflexivity.
Qed.
Lemma smooth_weight_pos s k : s < n_subsystems m -> k < n_modes m s -> (0 < smooth_weight s k)%R.
Proof.
  intros Hs Hk. destruct smooth_facts as (_ & _ & _ & RF & _). rewrite smooth_weight_fac by (apply RF; assumption).
  apply rprod_pos. intros r _. apply fac_pos; [apply SG|apply smoothed_range].
Qed.
Lemma smooth_weight_sum s : s < n_subsystems m -> complete m s -> rupto (n_modes m s) (smooth_weight s) = 1%R.
Proof.
  intros Hs C. destruct smooth_facts as (_ & _ & _ & RF & _).
  rewrite (rupto_ext _ _ (fun k => rprod (map (fun r => fac (sign m s k r) (smoothed (Q2R sp) (switch_value m v s r))) (seq 0 (n_switch m s)))))
    by (intros k Hk; apply smooth_weight_fac; apply RF; assumption).
  apply unity; [intros i k; apply SG|exact C].
Qed.
End Smooth.
