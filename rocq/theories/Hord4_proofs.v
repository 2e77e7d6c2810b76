(* Hord4_proofs.v -- constants that do not depend on the problem; solutions that consist of pieces; sliding *)
From Coq Require Import Reals Qreals Lra Psatz.
From Verif Require Import Base Sx Utils Tableau Opts Model Ocp Problem Spec Cases Lib Sx_proofs Fe_proofs Prob_proofs Coll_proofs
  Body_proofs Model_proofs Con_proofs Index3_proofs Fesd Sem_proofs Dcs_proofs Point_proofs Elem_proofs Nlp_proofs
  Opts_proofs Tableau_proofs Poly_proofs Spec2 Feas_proofs Feas2_proofs Spec3 Numeric Mode_proofs Smooth_proofs Spec9 Spec10 Filippov_proofs
  Filippov2_proofs Filippov3_proofs Exact_proofs Exact2_proofs Spec11 ExistBase_proofs Spec20 Soft_proofs Spec21 Conv_proofs Conv2_proofs Conv3_proofs Conv4_proofs Spec28 Hord1_proofs Hord2_proofs Hord3_proofs.
Local Open Scope R_scope.

Section Starts.
Variables (o : opts) (m : model) (rho : env) (Y : R -> nat -> R) (P : nat -> piece) (last : nat).
Hypothesis CY : consists_of o m rho Y P last.
Lemma piece_end_next r : (r < last)%nat -> piece_end o rho P last r = pc_start (P (S r)).
Proof. intros H. unfold piece_end. replace (r =? last)%nat with false by (symmetry; apply Nat.eqb_neq; lia). reflexivity. Qed.
Lemma piece_end_last : piece_end o rho P last last = end_time o rho.
Proof. unfold piece_end. rewrite Nat.eqb_refl. reflexivity. Qed.
Lemma starts_nonneg r : (r <= last)%nat -> 0 <= pc_start (P r).
Proof.
  destruct CY as (S0 & _ & _ & Pc). induction r as [|r IH]; intros Hr; [lra|]. specialize (IH ltac:(lia)). destruct (Pc r ltac:(lia)) as (Q & _). rewrite piece_end_next in Q by lia. lra.
Qed.
Lemma ends_before r : (r <= last)%nat -> piece_end o rho P last r <= end_time o rho.
Proof.
  destruct CY as (_ & _ & _ & Pc). intros Hr. remember (last - r)%nat as q eqn:Eq. revert r Hr Eq. induction q as [|q IH]; intros r Hr Eq.
  - replace r with last by lia. rewrite piece_end_last. lra.
  - specialize (IH (S r) ltac:(lia) ltac:(lia)). destruct (Pc (S r) ltac:(lia)) as (Q & _). rewrite (piece_end_next r) by lia. lra.
Qed.
End Starts.

Section Uniform.
Variables (cp : nat -> scheme -> list Q) (sc : scheme) (n : nat).
Variables (Lf M B Lpsi kappa T Delta : R) (last : nat).
Hypothesis L0 : 0 <= Lf. Hypothesis M0 : 0 <= M. Hypothesis B0 : 0 <= B. Hypothesis Lp0 : 0 <= Lpsi. Hypothesis kp : 0 < kappa. Hypothesis T0 : 0 <= T. Hypothesis De0 : 0 <= Delta.

Lemma high_order : exists Kc, 0 <= Kc /\ forall lr d o m oc C rho (D : (nat -> R) -> Prop) h P ph Y,
  fesd_problem lr cp d o m oc C -> feasible rho (the_nlp C) -> points_ok cp (the_opts C) -> points_inside cp (the_opts C) -> plain_fields m ->
  method Integral sc n (the_opts C) -> steps_upto (the_opts C) rho h -> end_time (the_opts C) rho <= T ->
  (forall x y, D x -> D y -> near_by m x y Delta) ->
  (forall r, (r <= last)%nat -> regular_piece (the_opts C) m rho D n Lf M B (P r)) ->
  consists_of (the_opts C) m rho Y P last -> follows (the_opts C) (cn_tab C) m rho D Lpsi kappa P last ph ->
  (forall c e, is_element (the_opts C) c e -> near_by m (end_state (the_opts C) (cn_tab C) rho c e) (Y (grid_time (the_opts C) rho c e + step_len (the_opts C) rho c e)) (Kc * h ^ n)) /\
  (forall c e, is_element (the_opts C) c e -> (0 < ph c e)%nat -> (forall c' e', before (the_opts C) c e = Some (c', e') -> ph c' e' <> ph c e) ->
     Rabs (grid_time (the_opts C) rho c e - pc_start (P (ph c e))) <= Kc * h ^ n).
Proof.
  destruct (method_rows cp sc n) as (A & b & Rows).
  set (K := coeff_bound n A + rupto n (fun k => Rabs (b k))).
  assert (bn : 0 <= rupto n (fun k => Rabs (b k))) by (apply rupto_nonneg; intros; apply Rabs_pos).
  pose proof (coeff_nonneg n A) as cn.
  assert (K0 : 0 <= K) by (unfold K; lra).
  assert (HA : forall j, (j < n)%nat -> rupto n (fun k => Rabs (A j k)) <= K) by (intros j Hj; pose proof (coeff_row n A j Hj); unfold K; lra).
  assert (Hb : rupto n (fun k => Rabs (b k)) <= K) by (unfold K; lra).
  assert (KL : 0 <= K * Lf) by (apply Rmult_le_pos; assumption).
  set (h0 := / (2 * (K * Lf + 1))). assert (hp : 0 < h0) by (apply Rinv_0_lt_compat; lra).
  set (G := gG M Lpsi kappa). set (g := ga Lpsi kappa).
  assert (g0 : 0 <= g) by (apply ga0; assumption). assert (G1 : 1 <= G) by (apply gG1; assumption).
  set (K1 := G ^ last * exp (2 * K * Lf * T) * (2 * (1 + K) * B * T)).
  assert (K10 : 0 <= K1).
  { unfold K1. pose proof (pow_R1_Rle G last G1). pose proof (exp_pos (2 * K * Lf * T)). apply Rmult_le_pos; [apply Rmult_le_pos; lra|]. repeat apply Rmult_le_pos; lra. }
  set (K2 := (Delta + T) * / h0 ^ n). pose proof (pow_lt h0 n hp) as hnp.
  assert (K20 : 0 <= K2) by (unfold K2; apply Rmult_le_pos; [lra|]; left; apply Rinv_0_lt_compat, hnp).
  exists ((G + g) * K1 + K2).
  assert (GK : 0 <= (G + g) * K1) by (apply Rmult_le_pos; lra).
  split; [lra|]. intros lr d o m oc C rho D h P ph Y FP FE PO PI PF Me Hh HT Dia Reg CY Fo.
  pose proof (has_element _ _ _ _ _ _ _ FP) as He0. assert (hh : 0 <= h) by (pose proof (Hh _ _ He0); lra). pose proof (pow_le h n hh) as hn.
  assert (NPc : forall c, (c < o_N_stages (the_opts C))%nat -> (0 < nfe_of (the_opts C) c)%nat) by exact (NP _ _ _ _ _ _ _ FP).
  assert (Hn : steps_nonneg (the_opts C) rho) by (intros c e He; apply (Hh c e He)).
  assert (E0 : 0 <= end_time (the_opts C) rho) by (apply rupto_nonneg; intros c Hc; apply rupto_nonneg; intros e He; apply Hn; split; assumption).
  destruct (Rle_dec h h0) as [Hs|Hl].
  - assert (Hk : K * Lf * h <= / 2).
    { apply Rle_trans with ((K * Lf + 1) * h0); [|right; unfold h0; field; lra].
      apply Rmult_le_compat; lra. }
    destruct (discrete_order lr cp d o m oc C rho FP FE PO PI PF sc n Me A b K Rows K0 HA Hb D Lf M B L0 M0 B0 h Lpsi kappa P last ph Y Hh Hk Lp0 kp Reg Fo CY) as [R1 R2].
    fold G in R1. fold g in R2.
    assert (BB : bound_at C rho n K Lf M B h Lpsi kappa last <= K1 * h ^ n).
    { unfold bound_at. fold G. unfold K1. set (TE := end_time (the_opts C) rho) in *. pose proof (pow_R1_Rle G last G1) as PG.
      assert (X1 : exp (2 * K * Lf * TE) <= exp (2 * K * Lf * T)).
      { destruct (Req_dec TE T) as [->|Hne]; [lra|]. destruct (Req_dec (K * Lf) 0) as [Z|Z]; [replace (2 * K * Lf * TE) with (2 * (K * Lf) * TE) by ring; replace (2 * K * Lf * T) with (2 * (K * Lf) * T) by ring; rewrite Z; replace (2 * 0 * TE) with (2 * 0 * T) by ring; lra|].
        left. apply exp_increasing. assert (0 < K * Lf) by lra. assert (K * Lf * TE < K * Lf * T) by (apply Rmult_lt_compat_l; lra). lra. }
      assert (X2 : 2 * (1 + K) * B * TE * h ^ n <= 2 * (1 + K) * B * T * h ^ n).
      { apply Rmult_le_compat_r; [exact hn|]. apply Rmult_le_compat_l; [repeat apply Rmult_le_pos; lra|exact HT]. }
      pose proof (exp_pos (2 * K * Lf * TE)).
      replace (G ^ last * exp (2 * K * Lf * T) * (2 * (1 + K) * B * T) * h ^ n) with (G ^ last * exp (2 * K * Lf * T) * (2 * (1 + K) * B * T * h ^ n)) by ring.
      apply Rmult_le_compat; [apply Rmult_le_pos; lra|repeat apply Rmult_le_pos; lra|apply Rmult_le_compat_l; lra|exact X2]. }
    assert (KK : 0 <= K1 * h ^ n) by (apply Rmult_le_pos; assumption). assert (K2h : 0 <= K2 * h ^ n) by (apply Rmult_le_pos; assumption).
    assert (Q1 : G * bound_at C rho n K Lf M B h Lpsi kappa last <= G * (K1 * h ^ n)) by (apply Rmult_le_compat_l; lra).
    assert (Q2 : g * bound_at C rho n K Lf M B h Lpsi kappa last <= g * (K1 * h ^ n)) by (apply Rmult_le_compat_l; lra).
    assert (Q3 : 0 <= G * (K1 * h ^ n)) by (apply Rmult_le_pos; lra). assert (Q4 : 0 <= g * (K1 * h ^ n)) by (apply Rmult_le_pos; lra).
    split.
    + intros c e He i Hi. specialize (R1 c e i He Hi). lra.
    + intros c e He Hp Hne. specialize (R2 c e He Hp Hne). lra.
  - assert (Big : Delta + T <= K2 * h ^ n).
    { unfold K2. assert (Q : h0 ^ n <= h ^ n) by (apply pow_incr; lra).
      assert (Q' : 1 <= / h0 ^ n * h ^ n).
      { apply (Rmult_le_compat_l (/ h0 ^ n)) in Q; [|left; apply Rinv_0_lt_compat, hnp]. rewrite Rinv_l in Q by lra. exact Q. }
      apply (Rmult_le_compat_l (Delta + T)) in Q'; lra. }
    assert (GKh : 0 <= (G + g) * K1 * h ^ n) by (apply Rmult_le_pos; assumption).
    assert (Gr : forall c e, is_element (the_opts C) c e -> 0 <= grid_time (the_opts C) rho c e /\ grid_time (the_opts C) rho c e + step_len (the_opts C) rho c e <= end_time (the_opts C) rho).
    { intros c e He. destruct (element_in_stage _ rho Hn c e He) as [Q1 Q2]. destruct (stage_in_horizon _ rho Hn c (proj1 He)) as [Q3 Q4]. lra. }
    split.
    + intros c e He i Hi. destruct (Gr c e He) as [G0' G1']. pose proof (Hn c e He).
      destruct (locate_piece m C rho P last Y CY (grid_time (the_opts C) rho c e + step_len (the_opts C) rho c e) ltac:(lra)) as (r & Hr & Lr).
      destruct CY as (_ & _ & _ & Pc). destruct (Pc r Hr) as (B1 & B2 & B3 & B4). rewrite (B4 _ i Lr Hi).
      destruct (proj1 Fo c e He) as (_ & _ & De & _).
      assert (Dy : D (pc_curve (P r) (grid_time (the_opts C) rho c e + step_len (the_opts C) rho c e))) by (apply (proj1 (proj1 (Reg r Hr))); lra).
      pose proof (Dia _ _ De Dy i Hi) as Q. lra.
    + intros c e He Hp _. destruct (Gr c e He) as [G0' G1']. pose proof (Hn c e He). destruct (proj1 Fo c e He) as (Hr & _).
      pose proof (starts_nonneg _ _ _ _ _ _ CY _ Hr) as Q1. pose proof (ends_before _ _ _ _ _ _ CY _ Hr) as Q2. destruct CY as (_ & _ & _ & Pc). destruct (Pc _ Hr) as (B1 & _).
      assert (Rabs (grid_time (the_opts C) rho c e - pc_start (P (ph c e))) <= T) by (apply Rabs_le; lra). lra.
Qed.
End Uniform.

(* ---- a function that consists of lawful pieces is a solution of the switched system ---- *)
Section Solution.
Variables (lr : Q -> Q -> Q -> nat) (cp : nat -> scheme -> list Q) (d : ipopt_dict) (o : opts) (m : model)
  (oc : option ocp) (C : constructed) (rho : env).
Hypothesis FP : fesd_problem lr cp d o m oc C.
Notation O := (the_opts C).
Hypothesis PF : plain_fields m.
Variables (D : (nat -> R) -> Prop) (n : nat) (Lf M B : R) (P : nat -> piece) (last : nat) (Y : R -> nat -> R) (act : env -> nat -> nat -> Prop).
Hypothesis MR : mode_rule O m act.
Hypothesis Hn : steps_nonneg O rho.
Hypothesis Reg : forall r, (r <= last)%nat -> regular_piece O m rho D n Lf M B (P r).
Hypothesis CY : consists_of O m rho Y P last.
Hypothesis Lw : lawful O m rho act P last.

Lemma pieces_solution : exact_solution O m rho act Y.
Proof.
  split; [|split].
  - intros i Hi. apply (lip_cont 0 (end_time O rho) (fun z => Y z i) M). intros y z Hy Hz.
    apply (Y_lipschitz m C rho n D Lf M B P last Y Reg CY y z i Hy Hz Hi).
  - apply CY.
  - exists (map (fun r => pc_start (P r)) (seq 0 (S last))). intros c tm Hc Ht Hnot.
    assert (St : forall a b, (a <= b)%nat -> (b <= o_N_stages O)%nat -> grid_time O rho a 0 <= grid_time O rho b 0).
    { intros a b Hab. induction Hab as [|b Hab IH]; intros Hb; [lra|]. specialize (IH ltac:(lia)). unfold grid_time in *. rewrite !rupto_0 in *.
      rewrite (rupto_succ b). pose proof (stage_nonneg O rho Hn b ltac:(lia)). lra. }
    assert (Nx : forall a, grid_time O rho a 0 + stage_length O rho a = grid_time O rho (S a) 0) by (intros a; unfold grid_time; rewrite rupto_succ, !rupto_0; ring).
    assert (En : grid_time O rho (o_N_stages O) 0 = end_time O rho) by (unfold grid_time, end_time; rewrite rupto_0; ring).
    assert (Rg : 0 <= tm <= end_time O rho /\ tm < end_time O rho).
    { pose proof (St 0%nat c ltac:(lia) ltac:(lia)) as Q1. pose proof (St (S c) (o_N_stages O) ltac:(lia) ltac:(lia)) as Q2. rewrite <- Nx, En in Q2.
      assert (Z : grid_time O rho 0 0 = 0) by (unfold grid_time; rewrite !rupto_0; ring). rewrite Z in Q1. lra. }
    destruct (locate_piece m C rho P last Y CY tm (proj1 Rg)) as (r & Hr & Lr).
    assert (Notst : forall r', (r' <= last)%nat -> tm <> pc_start (P r')).
    { intros r' Hr' E. apply Hnot. rewrite E. apply (in_map (fun r => pc_start (P r))). apply in_seq. lia. }
    assert (Op : pc_start (P r) < tm < piece_end O rho P last r).
    { split; [pose proof (Notst r Hr); lra|]. destruct (Nat.eq_dec r last) as [->|Hne]; [rewrite piece_end_last; lra|].
      rewrite piece_end_next in * by lia. pose proof (Notst (S r) ltac:(lia)). lra. }
    destruct (Lw r Hr) as (W1 & W2 & W3 & W4). specialize (W4 tm Op).
    assert (Ec : pc_stage (P r) = c).
    { destruct (Nat.lt_trichotomy (pc_stage (P r)) c) as [Q|[Q|Q]]; [|exact Q|].
      - pose proof (St (S (pc_stage (P r))) c ltac:(lia) ltac:(lia)) as Z. rewrite <- Nx in Z. lra.
      - pose proof (St (S c) (pc_stage (P r)) ltac:(lia) ltac:(lia)) as Z. rewrite <- Nx in Z. lra. }
    rewrite Ec in *. destruct CY as (_ & _ & _ & Pc). destruct (Pc r Hr) as (B1 & B2 & B3 & B4).
    assert (Ag : plain_agree m (plain_point m rho c (pc_curve (P r) tm)) (plain_point m rho c (Y tm))) by (apply plain_ext; intros i Hi; symmetry; apply B4; [lra|exact Hi]).
    exists (pc_weights (P r) (pc_curve (P r) tm)). split.
    + destruct W4 as [W4 W5]. split; [exact W4|]. intros s k Hs Hk Hp. specialize (W5 s k Hs Hk Hp).
      destruct MR as [[_ Ea]|(_ & _ & _ & _ & Ea)]; rewrite Ea in *; [exact (smallest_plain m PF _ _ s k Ag W5)|exact (closed_plain m PF _ _ s k Ag W5)].
    + intros i Hi. replace (velocity O m rho c (Y tm) (pc_weights (P r) (pc_curve (P r) tm)) i) with (flow O m rho (P r) (pc_curve (P r) tm) i).
      2:{ unfold flow, velocity. rewrite Ec. f_equal. apply (mixed_plain m PF). exact Ag. }
      apply (derivable_pt_lim_locally_ext (fun z => pc_curve (P r) z i) _ tm (pc_start (P r)) (piece_end O rho P last r) _ Op).
      * intros z Hz. symmetry. apply B4; [lra|exact Hi].
      * apply (proj1 (proj1 (Reg r Hr)) tm ltac:(lra)), Hi.
Qed.
End Solution.

(* ---- sliding: states of an element on a plane ---- *)
Lemma rupto_pair n f a b : (a < n)%nat -> (b < n)%nat -> a <> b -> (forall k, (k < n)%nat -> k <> a -> k <> b -> f k = 0) -> rupto n f = f a + f b.
Proof.
  intros Ha Hb Hab Z. rewrite (rupto_ext n f (fun k => (if (k =? a)%nat then f k else 0) + (if (k =? a)%nat then 0 else f k))) by (intros k _; destruct (k =? a)%nat; ring).
  rewrite rupto_plus. f_equal.
  - rewrite (rupto_single n _ a Ha) by (intros k _ Hk; apply Nat.eqb_neq in Hk; rewrite Hk; reflexivity). rewrite Nat.eqb_refl. reflexivity.
  - rewrite (rupto_single n _ b Hb).
    + replace (b =? a)%nat with false by (symmetry; apply Nat.eqb_neq; auto). reflexivity.
    + intros k Hk Hkb. destruct (k =? a)%nat eqn:E; [reflexivity|]. apply Z; [exact Hk| |exact Hkb]. apply Nat.eqb_neq, E.
Qed.

Section Sliding.
Variables (lr : Q -> Q -> Q -> nat) (cp : nat -> scheme -> list Q) (d : ipopt_dict) (o : opts) (m : model)
  (oc : option ocp) (C : constructed) (rho : env).
Hypothesis FP : fesd_problem lr cp d o m oc C.
Hypothesis FE : feasible rho (the_nlp C).
Notation O := (the_opts C).
Notation t := (cn_tab C).
Variables (c e : nat) (a : nat -> R) (a0 : R).
Hypothesis He : is_element O c e.
Hypothesis Hp : 0 < step_len O rho c e.
Hypothesis Er : o_repr O = Integral.
Hypothesis On0 : plane m a a0 (start_state O t rho c e).
Hypothesis On : forall j, (j < o_ns O)%nat -> plane m a a0 (stage_state O t rho c e j).

Lemma tangent : points_ok cp O -> forall j, (j < o_ns O)%nat -> rupto (m_nx m) (fun i => a i * (speed O rho c * rhs O m (stage_point O t m rho c e j) i)) = 0.
Proof.
  intros PO j Hj. pose proof FP as (H & E & W). pose proof FE as [F1 F2].
  destruct (elem_all _ _ _ _ _ _ _ H E W rho F2 c e _ (element_fe _ _ _ _ _ _ _ FP c e He)) as (_ & Co & _).
  destruct (tab_integral cp O t (t_made _ _ _ _ _ _ _ H) Er) as (it & Hit & _ & EC & _).
  destruct (PO Er) as (Lp & Hd & _).
  assert (Et : it_tau it = 0%Q :: cp (o_ns O) (o_scheme O)) by (destruct (it_parts _ it Hit) as (cs & _ & _ & _ & _ & _ & Et); exact Et).
  set (w := fun r => entryQ (t_C t) r (j + 1)%nat) in *.
  assert (Sum : w 0%nat + rupto (o_ns O) (fun r => w (r + 1)%nat) = 0).
  { assert (Q1 : derivable_pt_lim (peval [1]) (Q2R (nth j (cp (o_ns O) (o_scheme O)) 0%Q)) (dotR (column (it_C it) (S j)) (map (fun t => peval [1] (Q2R t)) (it_tau it)))).
    { apply (integral_C _ Hd it Hit [1] (S j)); [cbn; lia|]. rewrite Et. cbn [nth_error]. apply nth_error_nth'. lia. }
    pose proof (uniqueness_limite _ _ _ _ Q1 (peval_deriv [1] _)) as Q2.
    rewrite Et in Q2. cbn [map] in Q2.
    replace (map (fun t0 => peval [1] (Q2R t0)) (cp (o_ns O) (o_scheme O))) with (map (fun _ : nat => 1) (seq 0 (o_ns O))) in Q2.
    2:{ rewrite <- Lp at 1. generalize (cp (o_ns O) (o_scheme O)). intros l. generalize 0%nat. induction l as [|x l IH]; intros k; [reflexivity|]. cbn [length seq map]. rewrite IH. f_equal. cbn. ring. }
    rewrite <- (Nat.add_1_r j), dot_column in Q2. unfold w. rewrite EC. rewrite (rupto_ext _ _ (fun r => entryQ (it_C it) (r + 1) (j + 1) * 1)) by (intros; ring).
    cbn in Q2. lra. }
  assert (Pt : forall r, (r < o_ns O)%nat -> rupto (m_nx m) (fun i => a i * rho (S1 FX c e r i)) = - a0).
  { intros r Hr. specialize (On r Hr). unfold plane, stage_state in On. rewrite Er in On. lra. }
  assert (Eq : step_len O rho c e * rupto (m_nx m) (fun i => a i * (speed O rho c * rhs O m (stage_point O t m rho c e j) i)) = 0).
  { rewrite <- rupto_scale.
    rewrite (rupto_ext _ _ (fun i => w 0%nat * (a i * start_state O t rho c e i) + rupto (o_ns O) (fun r => w (r + 1)%nat * (a i * rho (S1 FX c e r i))))).
    2:{ intros i Hi. specialize (Co j i Hj Hi). cbv zeta in Co. rewrite Er in Co. fold w in Co.
      replace (step_len O rho c e * (a i * (speed O rho c * rhs O m (stage_point O t m rho c e j) i))) with (a i * (step_len O rho c e * (speed O rho c * rhs O m (stage_point O t m rho c e j) i))) by ring.
      rewrite Co. rewrite Rmult_plus_distr_l. unfold w. f_equal; [ring|]. rewrite <- rupto_scale. apply rupto_ext. intros r _. ring. }
    rewrite rupto_plus, rupto_scale, rupto_swap.
    rewrite (rupto_ext (o_ns O) _ (fun r => w (r + 1)%nat * - a0)) by (intros r Hr; rewrite rupto_scale, (Pt r Hr); reflexivity).
    unfold plane in On0. replace (rupto (m_nx m) (fun i => a i * start_state O t rho c e i)) with (- a0) by lra.
    rewrite (rupto_ext (o_ns O) _ (fun r => (- a0) * w (r + 1)%nat)) by (intros; ring). rewrite rupto_scale.
    replace (w 0%nat * - a0 + - a0 * rupto (o_ns O) (fun r => w (r + 1)%nat)) with (- a0 * (w 0%nat + rupto (o_ns O) (fun r => w (r + 1)%nat))) by ring. rewrite Sum. ring. }
  apply Rmult_integral in Eq. destruct Eq as [Eq|Eq]; [lra|exact Eq].
Qed.

Variable act : env -> nat -> nat -> Prop.
Hypothesis CS : convergence_setting cp O m rho.
Hypothesis MR : mode_rule O m act.
Lemma stage_active j : (j < o_ns O)%nat -> active_weights m act (plain_point m rho c (stage_state O t rho c e j)) (weight O m (stage_point O t m rho c e j)).
Proof.
  intros Hj. destruct MR as [[Ep ->]|(Ep & SM & RF & CM & ->)].
  - exact (stewart_active _ _ _ _ _ _ _ _ FP FE CS Ep c e j He Hj).
  - exact (step_active _ _ _ _ _ _ _ _ FP FE CS Ep SM RF CM c e j He Hj).
Qed.
Lemma sliding_weights j ka kb : (j < o_ns O)%nat -> n_subsystems m = 1%nat -> (ka < n_modes m 0)%nat -> (kb < n_modes m 0)%nat -> ka <> kb ->
  (forall k, (k < n_modes m 0)%nat -> act (plain_point m rho c (stage_state O t rho c e j)) 0%nat k -> k = ka \/ k = kb) ->
  speed O rho c <> 0 ->
  let x := stage_state O t rho c e j in let th := weight O m (stage_point O t m rho c e j) in
  th 0%nat ka + th 0%nat kb = 1 /\
  th 0%nat ka * normal_speed m rho a c x ka + th 0%nat kb * normal_speed m rho a c x kb = 0.
Proof.
  intros Hj N1 Ha Hb Hab Two Sp x th. destruct (stage_active j Hj) as [Cv Ac]. fold x th in Cv, Ac.
  destruct (Cv 0%nat ltac:(lia)) as [Nn Su].
  assert (Z : forall k, (k < n_modes m 0)%nat -> k <> ka -> k <> kb -> th 0%nat k = 0).
  { intros k Hk H1 H2. destruct (Rle_lt_or_eq_dec _ _ (Nn k Hk)) as [Q|Q]; [|symmetry; exact Q].
    destruct (Two k Hk (Ac 0%nat k ltac:(lia) Hk Q)); contradiction. }
  split; [rewrite <- Su; symmetry; apply (rupto_pair _ (th 0%nat)); assumption|].
  destruct CS as (PO & _ & PF & _). pose proof (tangent PO j Hj) as Tg.
  rewrite (rupto_ext _ _ (fun i => speed O rho c * (a i * (mode_field m (plain_point m rho c x) 0 ka i * th 0%nat ka + mode_field m (plain_point m rho c x) 0 kb i * th 0%nat kb)))) in Tg.
  2:{ intros i Hi. rewrite (rhs_plain m PF). fold x th. unfold mixed_field. rewrite N1. rewrite (rupto_single 1 _ 0%nat) by lia.
    rewrite (rupto_pair (n_modes m 0) _ ka kb Ha Hb Hab) by (intros k Hk H1 H2; rewrite (Z k Hk H1 H2); ring). ring. }
  rewrite rupto_scale in Tg. apply Rmult_integral in Tg. destruct Tg as [Tg|Tg]; [contradiction|].
  unfold normal_speed. rewrite <- !rupto_scale, <- rupto_plus. rewrite <- Tg. apply rupto_ext. intros i _. ring.
Qed.
End Sliding.

(* ---- one active mode ---- *)
Section Pure.
Variables (lr : Q -> Q -> Q -> nat) (cp : nat -> scheme -> list Q) (d : ipopt_dict) (o : opts) (m : model)
  (oc : option ocp) (C : constructed) (rho : env).
Hypothesis FP : fesd_problem lr cp d o m oc C.
Hypothesis FE : feasible rho (the_nlp C).
Notation O := (the_opts C).
Notation t := (cn_tab C).
Lemma pure_weights c e act j s ka : is_element O c e -> convergence_setting cp O m rho -> mode_rule O m act -> (j < o_ns O)%nat -> (s < n_subsystems m)%nat -> (ka < n_modes m s)%nat ->
  (forall k, (k < n_modes m s)%nat -> act (plain_point m rho c (stage_state O t rho c e j)) s k -> k = ka) ->
  forall k, (k < n_modes m s)%nat -> weight O m (stage_point O t m rho c e j) s k = (if (k =? ka)%nat then 1 else 0).
Proof.
  intros He CS MR Hj Hs Ha One k Hk. destruct (stage_active _ _ _ _ _ _ _ _ FP FE c e He act CS MR j Hj) as [Cv Ac].
  destruct (Cv s Hs) as [Nn Su]. set (th := weight O m (stage_point O t m rho c e j)) in *.
  assert (Z : forall k, (k < n_modes m s)%nat -> k <> ka -> th s k = 0).
  { intros k' Hk' H1. destruct (Rle_lt_or_eq_dec _ _ (Nn k' Hk')) as [Q|Q]; [|symmetry; exact Q]. destruct H1. exact (One k' Hk' (Ac s k' Hs Hk' Q)). }
  destruct (k =? ka)%nat eqn:E; [apply Nat.eqb_eq in E; subst k; rewrite <- Su; symmetry; apply (rupto_single _ (th s) ka Ha); exact Z|].
  apply Z; [exact Hk|]. apply Nat.eqb_neq, E.
Qed.
End Pure.
