(* Mode_proofs.v -- which mode the Stewart and Step equations select, lambda00 *)
From Coq Require Import Reals Qreals Lra Qround.
From Verif Require Import Base Sx Utils Tableau Opts Model Ocp Problem Spec Lib Sx_proofs Model_proofs Fesd Sem_proofs Dcs_proofs
  Elem_proofs Feas_proofs Feas2_proofs Numeric Spec3.

Lemma rupto_single n f i : i < n -> (forall k, k < n -> k <> i -> f k = 0%R) -> rupto n f = f i.
Proof.
  induction n as [|n IH]; intros Hi H; [lia|]. replace (S n) with (n + 1) by lia. rewrite rupto_S.
  destruct (Nat.eq_dec i n) as [->|E].
  - rewrite (rupto_ext n f (fun _ => 0%R)), rupto_all0; [lra|reflexivity|]. intros k Hk. apply H; lia.
  - rewrite IH, (H n); try lia; [lra|]. intros k Hk. apply H. lia.
Qed.
Lemma rupto_minus n f h : rupto n (fun j => (f j - h j)%R) = (rupto n f - rupto n h)%R.
Proof. induction n as [|n IH]; [unfold rupto; cbn; lra|]. replace (S n) with (n + 1) by lia. rewrite !rupto_S, IH. lra. Qed.
Lemma rupto_pos n f i : i < n -> (forall k, k < n -> (0 <= f k)%R) -> (0 < f i)%R -> (0 < rupto n f)%R.
Proof.
  intros Hi H Hp. destruct (Rle_lt_or_eq_dec _ _ (rupto_nonneg n f H)) as [L|E]; [exact L|exfalso].
  rewrite (rupto_zero n f H (eq_sym E) i Hi) in Hp. lra.
Qed.

Section At.
Variables (o : opts) (m : model) (pm : pmodel).
Hypothesis HP : preprocess_model o m = Ok pm.
Hypothesis WS : well_sized m.
Variable v : env.

Let K := preprocess_model_ok o m pm HP.

Lemma nsys_is : pm_nsys pm = n_subsystems m. Proof. apply (mo_nsys _ _ _ K). Qed.
Lemma pm_m_nx : m_nx (pm_m pm) = m_nx m.
Proof. destruct (mo_m _ _ _ K) as (ptv & E & _). rewrite E. reflexivity. Qed.

Lemma algebra_unfold : algebra_holds pm v -> switching_ok o m v /\ convex_ok o m v.
Proof.
  intros H. destruct (model_at_ok o m pm K WS v) as [(d & D & M1 & M2 & M3 & I & A & B & _)].
  apply mkfun_ok in M3. destruct M3 as [M3 _].
  unfold algebra_holds in H. rewrite M3 in H. cbn [cf_out] in H. split.
  - apply A. intros x Hx. apply H. apply in_app_iff. auto.
  - apply B. intros x Hx. apply H. apply in_app_iff. right. apply in_app_iff. auto.
Qed.
Lemma dynamics_rhs : dynamics_are pm v (rhs o m v).
Proof.
  destruct (model_at_ok o m pm K WS v) as [(d & D & M1 & M2 & M3 & I & A & B & _)].
  apply mkfun_ok in M1. destruct M1 as [M1 _]. unfold dynamics_are. rewrite M1, pm_m_nx. cbn [cf_out].
  apply isvec_iff in I. exact I.
Qed.
Lemma dynamics_ext f h : (forall i, f i = h i) -> dynamics_are pm v f -> dynamics_are pm v h.
Proof. intros E [L H]. split; [exact L|]. intros i e Hi. rewrite <- E. auto. Qed.

(* Stewart: the unique smallest g wins *)
Section Stewart.
Hypothesis Ep : o_pss o = Stewart.
Hypothesis AL : algebra_holds pm v.
Hypothesis CO : stewart_complementary m v.

Lemma stewart_theta s i : s < n_subsystems m -> i < n_modes m s ->
  (forall j, j < n_modes m s -> j <> i -> (region_value m v s i < region_value m v s j)%R) ->
  forall k, k < n_modes m s -> v (MF FTheta s k) = if k =? i then 1%R else 0%R.
Proof.
  intros Hs Hi Hm. destruct (algebra_unfold AL) as [SW CV].
  assert (Z : forall k, k < n_modes m s -> k <> i -> v (MF FTheta s k) = 0%R).
  { intros k Hk Ne. destruct (CO s k Hs Hk) as (_ & _ & P). apply Rmult_integral in P. destruct P as [P|P]; [exact P|].
    exfalso. destruct (CO s i Hs Hi) as (_ & Li & _).
    assert (Wn : forall j, j < n_modes m s -> (region_value m v s j - v (MF FLam s j) + v (MF FMu s 0))%R = 0%R).
    { intros j Hj. pose proof (SW s j Hs) as Q. unfold n_switching, switching_residual in Q. rewrite Ep in Q. apply Q, Hj. }
    pose proof (Wn k Hk). pose proof (Wn i Hi). pose proof (Hm k Hk Ne). lra. }
  specialize (CV Ep s Hs). rewrite (rupto_single _ _ i Hi) in CV.
  - intros k Hk. destruct (k =? i) eqn:E; [apply Nat.eqb_eq in E; subst; exact CV|]. apply Nat.eqb_neq in E. auto.
  - intros k Hk Ne. auto.
Qed.

Lemma stewart_dynamics (act : nat -> nat) :
  (forall s, s < n_subsystems m -> act s < n_modes m s /\
     forall j, j < n_modes m s -> j <> act s -> (region_value m v s (act s) < region_value m v s j)%R) ->
  dynamics_are pm v (fun i => rupto (n_subsystems m) (fun s => mode_field m v s (act s) i)).
Proof.
  intros H. eapply dynamics_ext; [|apply dynamics_rhs]. intros i.
  assert (EF : m_F m <> None).
  { intros E. pose proof (noF_noS o m pm K E) as N. congruence. }
  unfold rhs. destruct (m_F m); [|congruence]. apply rupto_ext. intros s Hs. destruct (H s Hs) as [Ha Hm].
  pose proof (stewart_theta s (act s) Hs Ha Hm) as T.
  rewrite (rupto_single _ _ (act s) Ha).
  - unfold weight. rewrite Ep, (T _ Ha), Nat.eqb_refl. lra.
  - intros k Hk Ne. unfold weight. rewrite Ep, (T _ Hk). apply Nat.eqb_neq in Ne. rewrite Ne. lra.
Qed.

Lemma stewart_F : exists F, m_F m = Some F.
Proof. destruct (m_F m) as [F|] eqn:E; [eauto|]. pose proof (noF_noS o m pm K E). congruence. Qed.

(* g = -S c *)
Lemma region_sum s i : gS_given m = false -> s < n_subsystems m -> i < n_modes m s ->
  region_value m v s i = (- rupto (n_switch m s) (fun k => Q2R (sign m s i k) * switch_value m v s k))%R.
Proof.
  intros Eg Hs Hi. destruct stewart_F as [F EF].
  destruct (mo_dcs _ _ _ K) as (gSl & ups & fx0 & d & Hg & _). rewrite Ep in Hg.
  unfold gS_list in Hg. gsg. rewrite Eg in Hg. apply bind_ok in Hg. destruct Hg as (Sl & HS & Hg). apply opt_res_ok in HS.
  apply bind_ok in Hg. destruct Hg as (c & Hc & Hg). apply opt_res_ok in Hc.
  apply mapM_nth with (k := s) (a := s) in Hg; [|apply nth_error_seq; rewrite nsys_is; exact Hs].
  destruct Hg as (gi & _ & Hg). apply bind_ok in Hg. destruct Hg as (Si & HSi & Hg). apply nthE_ok in HSi.
  apply bind_ok in Hg. destruct Hg as (ci & Hci & Hg). apply nthE_ok in Hci.
  pose proof (S_rows o m pm K WS F Sl s Si EF Eg HS HSi ltac:(rewrite nsys_is; exact Hs)) as LS.
  destruct (nth_error_lt Si i ltac:(lia)) as [row Hrow].
  unfold neg_S_c in Hg. apply mapM_nth with (k := i) (a := row) in Hg; [|exact Hrow].
  destruct Hg as (e & _ & He). apply (edot_eval v) in He. destruct He as [LL _]. rewrite map_length in LL.
  unfold region_value. rewrite Eg. f_equal.
  assert (Eu : user_c m s = ci). { unfold user_c. rewrite Hc. exact (nth_error_nth _ _ _ Hci). }
  assert (Er : nth i (user_S m s) [] = row). { unfold user_S. rewrite HS, (nth_error_nth _ _ _ HSi). exact (nth_error_nth _ _ _ Hrow). }
  rewrite Eu, Er.
  replace (n_switch m s) with (length (combine row ci)).
  - rewrite (rsum_nth _ _ (0%Q, ECst 0)). apply rupto_ext. intros k Hk. rewrite combine_nth by exact LL. cbn [fst snd].
    unfold sign, switch_value. rewrite Eu, Er. reflexivity.
  - rewrite combine_length, LL, Nat.min_id. unfold n_switch. rewrite Eg, Hc, Hci. reflexivity.
Qed.

(* a full sign row with x in its region has the smallest g *)
Lemma full_row_smallest s i : gS_given m = false -> sign_matrix m -> s < n_subsystems m -> i < n_modes m s -> full_row m s i ->
  in_region m v s i -> forall j, j < n_modes m s -> ~ same_row m s i j -> (region_value m v s i < region_value m v s j)%R.
Proof.
  intros Eg SM Hs Hi FR IR j Hj NS. rewrite !region_sum by assumption.
  apply Ropp_lt_contravar, Rminus_gt_0_lt. unfold Rminus. fold (Rminus (rupto (n_switch m s) (fun k => Q2R (sign m s i k) * switch_value m v s k)%R) (rupto (n_switch m s) (fun k => Q2R (sign m s j k) * switch_value m v s k)%R)).
  rewrite <- rupto_minus.
  assert (Val : forall a k, (Q2R (sign m s a k) = -1 \/ Q2R (sign m s a k) = 0 \/ Q2R (sign m s a k) = 1)%R).
  { intros a k. destruct (SM s a k) as [E|[E|E]]; apply Qeq_eqR in E; rewrite E; [left|right; left|right; right]; unfold Q2R; cbn; lra. }
  assert (Term : forall k, k < n_switch m s -> (0 <= Q2R (sign m s i k) * switch_value m v s k - Q2R (sign m s j k) * switch_value m v s k)%R /\
     (~ (sign m s i k == sign m s j k)%Q -> (0 < Q2R (sign m s i k) * switch_value m v s k - Q2R (sign m s j k) * switch_value m v s k)%R)).
  { intros k Hk. pose proof (IR k Hk (FR k Hk)) as P.
    assert (E : Q2R (sign m s i k) = Q2R (sign m s j k) -> (sign m s i k == sign m s j k)%Q) by apply eqR_Qeq.
    destruct (Val i k) as [A|[A|A]]; rewrite A in *; destruct (Val j k) as [B|[B|B]]; rewrite B in *; split; try lra;
      intros N; try lra; exfalso; apply N, E; reflexivity. }
  assert (Ex : exists k, k < n_switch m s /\ ~ (sign m s i k == sign m s j k)%Q).
  { destruct (Classical_Prop.classic (exists k, k < n_switch m s /\ ~ (sign m s i k == sign m s j k)%Q)) as [E|E]; [exact E|].
    exfalso. apply NS. intros k Hk. destruct (Qeq_dec (sign m s i k) (sign m s j k)) as [Y|N]; [exact Y|]. exfalso. apply E. eauto. }
  destruct Ex as (k & Hk & Nk). apply (rupto_pos _ _ k Hk); [intros; apply Term; assumption|apply Term; assumption].
Qed.
End Stewart.

(* Step: complementarity makes alpha the step function of c *)
Section Step.
Hypothesis Ep : o_pss o = Step.
Hypothesis AL : algebra_holds pm v.
Hypothesis CO : step_complementary m v.

Lemma step_alpha s k : s < n_subsystems m -> k < n_switch m s ->
  ((0 < switch_value m v s k)%R -> v (MF FAlpha s k) = 1%R) /\ ((switch_value m v s k < 0)%R -> v (MF FAlpha s k) = 0%R).
Proof.
  intros Hs Hk. destruct (algebra_unfold AL) as [SW _]. pose proof (SW s k Hs) as Q. unfold n_switching, switching_residual in Q.
  rewrite Ep in Q. specialize (Q Hk). destruct (CO s k Hs Hk) as (A & L1 & L2 & P1 & P2). split; intros C.
  - apply Rmult_integral in P2. destruct P2; lra.
  - apply Rmult_integral in P1. destruct P1; lra.
Qed.

Definition factor (m : model) (v : env) s i k : R :=
  if Qeq_bool (sign m s i k) 0 then 1%R else ((1 - Q2R (sign m s i k)) / 2 + Q2R (sign m s i k) * v (MF FAlpha s k))%R.
Lemma step_weight_factors s i : length (nth i (user_S m s) []) = n_switch m s ->
  weight o m v s i = rprod (map (factor m v s i) (seq 0 (n_switch m s))).
Proof.
  intros L. unfold weight. rewrite Ep. unfold step_weight. rewrite (map_nth_seq _ _ (0, 0%Q)), combine_length, seq_length, Nat.min_id, L.
  f_equal. apply map_ext_in. intros k Hk. apply in_seq in Hk. rewrite combine_nth by (rewrite seq_length; lia).
  rewrite seq_nth by lia. reflexivity.
Qed.
Lemma rprod_one (f : nat -> R) l : (forall k, In k l -> f k = 1%R) -> rprod (map f l) = 1%R.
Proof. intros H. induction l as [|a l IH]; [reflexivity|]. change (rprod (map f (a :: l))) with (f a * rprod (map f l))%R. rewrite (H a), IH; [lra| |left; reflexivity]. intros k Hk. apply H. right. exact Hk. Qed.
Lemma rprod_zero (f : nat -> R) l k : In k l -> f k = 0%R -> rprod (map f l) = 0%R.
Proof. intros H E. induction l as [|a l IH]; [destruct H|]. change (rprod (map f (a :: l))) with (f a * rprod (map f l))%R. destruct H as [->|H]; [rewrite E; lra|rewrite IH by exact H; lra]. Qed.

Lemma factor_active s i k : sign_matrix m -> s < n_subsystems m -> k < n_switch m s -> in_region m v s i -> factor m v s i k = 1%R.
Proof.
  intros SM Hs Hk IR. unfold factor. destruct (Qeq_bool (sign m s i k) 0) eqn:E; [reflexivity|].
  apply Qeq_bool_neq in E. specialize (IR k Hk E). destruct (step_alpha s k Hs Hk) as [A1 A2].
  destruct (SM s i k) as [V|[V|V]]; [|contradiction|]; apply Qeq_eqR in V; rewrite V in IR |- *; unfold Q2R in *; cbn in IR |- *.
  - rewrite A2 by lra. lra.
  - rewrite A1 by lra. lra.
Qed.
Lemma factor_inactive s i j k : sign_matrix m -> s < n_subsystems m -> k < n_switch m s -> in_region m v s i ->
  (sign m s i k * sign m s j k < 0)%Q -> factor m v s j k = 0%R.
Proof.
  intros SM Hs Hk IR Neg. destruct (step_alpha s k Hs Hk) as [A1 A2].
  assert (Vi : ~ (sign m s i k == 0)%Q). { intros E. rewrite E in Neg. apply (Qlt_irrefl 0). setoid_replace (0 * sign m s j k)%Q with 0%Q in Neg by ring. exact Neg. }
  specialize (IR k Hk Vi). unfold factor.
  destruct (SM s i k) as [V|[V|V]]; [| contradiction|];
  destruct (SM s j k) as [W|[W|W]]; rewrite V, W in Neg; try (exfalso; revert Neg; vm_compute; discriminate);
  assert (QF : Qeq_bool (sign m s j k) 0 = false) by (rewrite W; reflexivity); rewrite QF;
  apply Qeq_eqR in V; apply Qeq_eqR in W; rewrite V in IR; rewrite W; unfold Q2R in *; cbn in IR |- *.
  - rewrite A2 by lra. lra.
  - rewrite A1 by lra. lra.
Qed.

Lemma step_dynamics (act : nat -> nat) : m_F m <> None -> sign_matrix m -> rows_fit m ->
  (forall s, s < n_subsystems m -> act s < n_modes m s /\ in_region m v s (act s) /\
     forall j, j < n_modes m s -> j <> act s -> separated m s (act s) j) ->
  dynamics_are pm v (fun i => rupto (n_subsystems m) (fun s => mode_field m v s (act s) i)).
Proof.
  intros EF SM RF H. eapply dynamics_ext; [|apply dynamics_rhs]. intros i.
  unfold rhs. destruct (m_F m); [|congruence]. apply rupto_ext. intros s Hs. destruct (H s Hs) as (Ha & IR & Sep).
  rewrite (rupto_single _ _ (act s) Ha).
  - rewrite step_weight_factors by (apply RF; assumption). rewrite rprod_one; [lra|].
    intros k Hk. apply in_seq in Hk. apply factor_active; auto. lia.
  - intros j Hj Ne. rewrite step_weight_factors by (apply RF; assumption).
    destruct (Sep j Hj Ne) as (k & Hk & Neg). rewrite (rprod_zero _ _ k); [lra|apply in_seq; lia|].
    eapply factor_inactive; eauto.
Qed.
End Step.
End At.
