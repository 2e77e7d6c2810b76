(* Hord8_proofs.v -- simulations: constants that do not depend on the problem; solutions that consist of pieces *)
From Coq Require Import Reals Qreals Lra Psatz.
From Verif Require Import Base Lib Sx Sx_proofs Utils Tableau Opts Model Ocp Problem Numeric Rk4 Results Solver Looper Spec Fesd Spec2 Spec3 Spec4 Spec5 Spec6
  Dcs_proofs Feas_proofs Mode_proofs Spec9 Filippov_proofs Filippov3_proofs Spec10 Exact_proofs Exact2_proofs Spec11 Spec19 Sim_proofs Sim2_proofs Sim3_proofs Spec20 Soft_proofs Spec21 Conv_proofs Conv2_proofs Conv3_proofs Conv4_proofs ExistBase_proofs
  Spec27 Run_proofs Run2_proofs Spec28 Hord1_proofs Hord2_proofs Hord3_proofs Hord4_proofs Hord6_proofs Spec34 Hord7_proofs.
Local Open Scope R_scope.

Lemma exp_mono x y : x <= y -> exp x <= exp y.
Proof. intros H. destruct (Rle_lt_or_eq_dec x y H) as [Q|Q]; [left; apply exp_increasing, Q|rewrite Q; lra]. Qed.

Section Uniform.
Variables (cp : nat -> scheme -> list Q) (sc : scheme) (n : nat).
Variables (Lf M B Lpsi kappa T Delta : R) (last : nat).
Hypothesis L0 : 0 <= Lf. Hypothesis M0 : 0 <= M. Hypothesis B0 : 0 <= B. Hypothesis Lp0 : 0 <= Lpsi. Hypothesis kp : 0 < kappa. Hypothesis T0 : 0 <= T. Hypothesis De0 : 0 <= Delta.

Lemma simulation_order : exists Kc, 0 <= Kc /\ forall lr d o m oc C nlp x0 Nsim pv pc wi lp s tr lp' rho (D : (nat -> R) -> Prop) h P ph Y,
  fesd_problem lr cp d o m oc C -> extractable (the_opts C) m -> (o_pss (the_opts C) = Stewart \/ (gS_given m = false /\ n_subsystems m = 1%nat)) ->
  points_ok cp (the_opts C) -> points_inside cp (the_opts C) -> plain_fields m -> method Integral sc n (the_opts C) ->
  looper_init (cn_prob C) x0 Nsim pv pc wi = Ok lp -> simulation nlp C m 0 lp s tr lp' ->
  (forall k q, nth_error tr k = Some q -> solved_relaxed C (snd q) (rho k) /\ steps_upto (the_opts C) (rho k) h) -> elapsed tr (length tr) <= T ->
  (forall x y, D x -> D y -> near_by m x y Delta) ->
  run_regular (the_opts C) m rho tr D n Lf M B P ph -> run_consists m tr x0 Y P last -> run_follows (the_opts C) (cn_tab C) m rho tr D Lpsi kappa P last ph ->
  (forall j tm x, nth_error (looper_t_grid lp') j = Some tm -> nth_error (lp_X_sim lp') j = Some x -> near_by m (fun i => nth i x 0) (Y tm) (Kc * h ^ n)) /\
  (forall a e a' e', run_element (the_opts C) tr a e -> run_before (the_opts C) a e = Some (a', e') -> ph a e <> ph a' e' ->
     Rabs (run_time (the_opts C) rho tr a e - pc_start (P (ph a e))) <= Kc * h ^ n).
Proof.
  destruct (method_rows cp sc n) as (A & b & Rows).
  set (K := coeff_bound n A + rupto n (fun k => Rabs (b k))).
  assert (bn : 0 <= rupto n (fun k => Rabs (b k))) by (apply rupto_nonneg; intros; apply Rabs_pos).
  pose proof (coeff_nonneg n A) as cn.
  assert (K0 : 0 <= K) by (unfold K; lra).
  assert (HA : forall j, (j < n)%nat -> rupto n (fun k => Rabs (A j k)) <= K) by (intros j Hj; pose proof (coeff_row n A j Hj); unfold K; lra).
  assert (Hb : rupto n (fun k => Rabs (b k)) <= K) by (unfold K; lra).
  assert (KL : 0 <= K * Lf) by (apply Rmult_le_pos; assumption).
  set (h0 := / (2 * (K * Lf + 1))). assert (hp : 0 < h0) by (apply Rinv_0_lt_compat; lra).
  set (g := ga Lpsi kappa). assert (g0 : 0 <= g) by (apply ga0; assumption). set (Gc := G g M). assert (G1 : 1 <= Gc) by (apply G1; assumption).
  set (K1 := Gc ^ last * exp (2 * K * Lf * T) * (2 * (1 + K) * B * T)).
  assert (K10 : 0 <= K1).
  { unfold K1. pose proof (pow_R1_Rle Gc last G1). pose proof (exp_pos (2 * K * Lf * T)). apply Rmult_le_pos; [apply Rmult_le_pos; lra|]. repeat apply Rmult_le_pos; lra. }
  set (K2 := (Delta + T) * / h0 ^ n). pose proof (pow_lt h0 n hp) as hnp.
  assert (K20 : 0 <= K2) by (unfold K2; apply Rmult_le_pos; [lra|]; left; apply Rinv_0_lt_compat, hnp).
  assert (GK : 0 <= (Gc + g) * K1) by (apply Rmult_le_pos; lra).
  exists ((Gc + g) * K1 + K2). split; [lra|].
  intros lr d o m oc C nlp x0 Nsim pv pc wi lp s tr lp' rho D h P ph Y FP EX HS PO PI PF Me LI SI SS HT Dia Reg CY Fo.
  assert (hh : 0 <= h) by exact (h_nonneg lr cp d o m oc C FP HS x0 Nsim pv pc wi lp tr rho LI h SS D Lpsi kappa P last ph Fo).
  pose proof (pow_le h n hh) as hn.
  assert (SE : forall k q, nth_error tr k = Some q -> solved_relaxed C (snd q) (rho k)) by (intros k q Hq; exact (proj1 (SS k q Hq))).
  assert (Col := collected lr cp d o m oc C FP EX nlp x0 Nsim pv pc wi lp s tr lp' rho LI SI SE).
  assert (KK : 0 <= K1 * h ^ n) by (apply Rmult_le_pos; assumption). assert (K2h : 0 <= K2 * h ^ n) by (apply Rmult_le_pos; assumption).
  assert (GKh : 0 <= (Gc + g) * K1 * h ^ n) by (apply Rmult_le_pos; assumption).
  assert (Rng : forall a e, run_element (the_opts C) tr a e -> 0 <= run_time (the_opts C) rho tr a e /\ run_time (the_opts C) rho tr a e + step_len (the_opts C) (rho a) 0 e <= elapsed tr (length tr)).
  { intros a e He. exact (time_range lr cp d o m oc C FP EX HS nlp x0 Nsim pv pc wi lp s tr lp' rho LI SI h SS a e He). }
  assert (Sn : forall a e, run_element (the_opts C) tr a e -> 0 <= step_len (the_opts C) (rho a) 0 e).
  { intros a e [Ha He]. exact (proj1 (elem_steps lr cp d o m oc C FP HS x0 Nsim pv pc wi lp tr rho LI h SS a e Ha He)). }
  assert (First : near_by m (fun i => nth i x0 0) (Y 0) (((Gc + g) * K1 + K2) * h ^ n)).
  { intros i Hi. destruct CY as (_ & Y0 & _). rewrite (Y0 i Hi). replace (nth i x0 0 - nth i x0 0) with 0 by ring. rewrite Rabs_R0. lra. }
  destruct (Rle_dec h h0) as [Hs|Hl].
  - assert (Hk : K * Lf * h <= / 2).
    { apply Rle_trans with ((K * Lf + 1) * h0); [|right; unfold h0; field; lra]. apply Rmult_le_compat; lra. }
    set (bd := bound (length tr * nfe_of (the_opts C) 0) (tq C rho) last (2 * K * Lf) (2 * (1 + K) * B) g M (h ^ n)).
    assert (BB : bd <= K1 * h ^ n).
    { unfold bd, bound. rewrite (tq_end lr cp d o m oc C FP EX HS nlp x0 Nsim pv pc wi lp s tr lp' rho LI SI h SS). fold Gc. unfold level, K1. set (TE := elapsed tr (length tr)) in *.
      assert (E0 : 0 <= TE).
      { destruct (proj2 Fo) as (a & e & He & _). pose proof (Rng a e He). pose proof (Sn a e He). lra. }
      pose proof (pow_R1_Rle Gc last G1) as PG.
      assert (X1 : exp (2 * K * Lf * TE) <= exp (2 * K * Lf * T)) by (apply exp_mono, Rmult_le_compat_l; [|exact HT]; repeat apply Rmult_le_pos; lra).
      assert (X2 : 2 * (1 + K) * B * TE * h ^ n <= 2 * (1 + K) * B * T * h ^ n).
      { apply Rmult_le_compat_r; [exact hn|]. apply Rmult_le_compat_l; [repeat apply Rmult_le_pos; lra|exact HT]. }
      pose proof (exp_pos (2 * K * Lf * TE)).
      replace (Gc ^ last * exp (2 * K * Lf * T) * (2 * (1 + K) * B * T) * h ^ n) with (Gc ^ last * exp (2 * K * Lf * T) * (2 * (1 + K) * B * T * h ^ n)) by ring.
      apply Rmult_le_compat; [apply Rmult_le_pos; lra|repeat apply Rmult_le_pos; lra|apply Rmult_le_compat_l; lra|exact X2]. }
    assert (Q1 : Gc * bd <= Gc * (K1 * h ^ n)) by (apply Rmult_le_compat_l; lra).
    assert (Q2 : g * bd <= g * (K1 * h ^ n)) by (apply Rmult_le_compat_l; lra).
    assert (Q3 : 0 <= Gc * (K1 * h ^ n)) by (apply Rmult_le_pos; lra). assert (Q4 : 0 <= g * (K1 * h ^ n)) by (apply Rmult_le_pos; lra).
    split.
    + intros j tm x Hj Hx. destruct (Col j tm x Hj Hx) as [[-> ->]|(a & e & He & -> & Ex)]; [exact First|]. intros i Hi. rewrite (Ex i Hi).
      pose proof (sim_states lr cp d o m oc C FP EX HS nlp x0 Nsim pv pc wi lp s tr lp' rho LI SI h SS PO PI PF sc n Me A b K Rows K0 HA Hb D Lf M B Lpsi kappa P last ph Y
        L0 M0 B0 Lp0 kp Hk Reg Fo CY a e He i Hi) as R. fold g in R. fold Gc in R. fold bd in R. lra.
    + intros a e a' e' He Eb Hne.
      pose proof (sim_times lr cp d o m oc C FP EX HS nlp x0 Nsim pv pc wi lp s tr lp' rho LI SI h SS PO PI PF sc n Me A b K Rows K0 HA Hb D Lf M B Lpsi kappa P last ph Y
        L0 M0 B0 Lp0 kp Hk Reg Fo CY a e a' e' He Eb Hne) as R. fold g in R. fold bd in R. lra.
  - assert (Big : Delta + T <= K2 * h ^ n).
    { unfold K2. assert (Q : h0 ^ n <= h ^ n) by (apply pow_incr; lra).
      assert (Q' : 1 <= / h0 ^ n * h ^ n).
      { apply (Rmult_le_compat_l (/ h0 ^ n)) in Q; [|left; apply Rinv_0_lt_compat, hnp]. rewrite Rinv_l in Q by lra. exact Q. }
      apply (Rmult_le_compat_l (Delta + T)) in Q'; lra. }
    split.
    + intros j tm x Hj Hx. destruct (Col j tm x Hj Hx) as [[-> ->]|(a & e & He & Et & Ex)]; [exact First|]. intros i Hi. rewrite (Ex i Hi).
      pose proof (Rng a e He) as R1. pose proof (Sn a e He) as R2.
      destruct (sim_D lr cp d o m oc C FP EX HS nlp x0 Nsim pv pc wi lp s tr lp' rho LI SI h SS n D Lf M B Lpsi kappa P last ph Y Reg Fo CY tm ltac:(lra)) as (y & Dy & Ey).
      rewrite (Ey i Hi). destruct (proj1 Fo a e He) as (_ & _ & _ & De & _). pose proof (Dia _ _ De Dy i Hi) as Q. lra.
    + intros a e a' e' He _ _. pose proof (Rng a e He) as R1. pose proof (Sn a e He) as R2. destruct (proj1 Fo a e He) as (Hr & _).
      pose proof (start_range lr cp d o m oc C FP HS x0 Nsim pv pc wi lp tr LI P last Y CY (ph a e) Hr) as R3.
      assert (Rabs (run_time (the_opts C) rho tr a e - pc_start (P (ph a e))) <= T) by (apply Rabs_le; lra). lra.
Qed.
End Uniform.

(* a function that consists of lawful pieces solves the switched system with the parameters of the steps *)
Section Solution.
Variables (lr : Q -> Q -> Q -> nat) (cp : nat -> scheme -> list Q) (d : ipopt_dict) (o : opts) (m : model) (oc : option ocp) (C : constructed).
Hypothesis FP : fesd_problem lr cp d o m oc C.
Hypothesis EX : extractable (the_opts C) m.
Hypothesis HS : o_pss (the_opts C) = Stewart \/ (gS_given m = false /\ n_subsystems m = 1%nat).
Notation O := (the_opts C).
Variables (nlp : nat -> nlp_call -> res nlp_ret) (x0 : list R) (Nsim : nat) (pv : option (list (list R))) (pc : nat) (wi : option (list (list R)))
  (lp : looper) (s : sstate) (tr : list (sstate * solve_out)) (lp' : looper) (rho : nat -> env) (h : R).
Hypothesis LI : looper_init (cn_prob C) x0 Nsim pv pc wi = Ok lp.
Hypothesis SI : simulation nlp C m 0 lp s tr lp'.
Hypothesis SS : forall k q, nth_error tr k = Some q -> solved_relaxed C (snd q) (rho k) /\ steps_upto O (rho k) h.
Hypothesis PF : plain_fields m.
Variables (D : (nat -> R) -> Prop) (n : nat) (Lf M B Lpsi kappa : R) (P : nat -> piece) (last : nat) (ph : nat -> nat -> nat) (Y : R -> nat -> R) (act : env -> nat -> nat -> Prop).
Hypothesis MR : mode_rule O m act.
Hypothesis Reg : run_regular O m rho tr D n Lf M B P ph.
Hypothesis Fo : run_follows O (cn_tab C) m rho tr D Lpsi kappa P last ph.
Hypothesis CY : run_consists m tr x0 Y P last.
Hypothesis Lw : run_lawful O m rho tr act P last.
Lemma simulation_pieces : run_solution O m act rho tr x0 Y.
Proof.
  split; [|split].
  - intros i Hi. apply (lip_cont 0 (elapsed tr (length tr)) (fun z => Y z i) M). intros y z Hy Hz.
    exact (sim_lipschitz lr cp d o m oc C FP EX HS nlp x0 Nsim pv pc wi lp s tr lp' rho LI SI h SS n D Lf M B Lpsi kappa P last ph Y Reg Fo CY y z i Hy Hz Hi).
  - apply CY.
  - exists (map (fun r => pc_start (P r)) (seq 0 (S last))). intros k tm Hk Ht Hnot.
    assert (SE : forall k q, nth_error tr k = Some q -> solved_relaxed C (snd q) (rho k)) by (intros k' q Hq; exact (proj1 (SS k' q Hq))).
    pose proof (run_N1 lr cp d o m oc C FP x0 Nsim pv pc wi lp LI) as N1.
    assert (MO : forall i j, (i <= j)%nat -> elapsed tr i <= elapsed tr j).
    { apply elapsed_mono. intros q hh Hq Hh. apply In_nth_error in Hq. destruct Hq as [k' Ek]. destruct q as [si out].
      destruct (sm_solve _ _ _ _ _ _ _ _ SI k' si out Ek) as (Z & t' & Es). cbn [snd] in Hh.
      rewrite (proj1 (r_results _ _ _ _ _ _ _ FP N1 EX nlp si t' out (rho k') Es (SE k' _ Ek))) in Hh. apply in_map_iff in Hh. destruct Hh as (e & <- & He). apply in_seq in He.
      apply (proj2 (SS k' _ Ek) 0%nat e). apply (r_elem C N1). lia. }
    assert (Rg : 0 <= tm <= elapsed tr (length tr) /\ tm < elapsed tr (length tr)).
    { pose proof (MO 0%nat k ltac:(lia)) as Q1. rewrite elapsed_0 in Q1. pose proof (MO (S k) (length tr) ltac:(lia)) as Q2. lra. }
    assert (Nx : forall r, (r < last)%nat -> run_piece_end tr P last r = pc_start (P (S r))).
    { intros q Hq. unfold run_piece_end. replace (q =? last)%nat with false by (symmetry; apply Nat.eqb_neq; lia). reflexivity. }
    assert (Ls : run_piece_end tr P last last = elapsed tr (length tr)) by (unfold run_piece_end; rewrite Nat.eqb_refl; reflexivity).
    destruct CY as (S0 & _ & _ & Pc).
    assert (Lr : exists r, (r <= last)%nat /\ pc_start (P r) <= tm <= run_piece_end tr P last r).
    { assert (G : forall k, (k <= last)%nat -> (exists r, (r < k)%nat /\ pc_start (P r) <= tm <= run_piece_end tr P last r) \/ pc_start (P k) <= tm).
      { induction k0 as [|k0 IH]; intros Hk0; [right; lra|]. destruct (IH ltac:(lia)) as [(r & A1 & A2)|Q]; [left; exists r; split; [lia|exact A2]|].
        destruct (Rle_dec (pc_start (P (S k0))) tm) as [Hl|Hl]; [right; exact Hl|]. left. exists k0. split; [lia|]. rewrite Nx by lia. lra. }
      destruct (G last (le_n _)) as [(r & A1 & A2)|Q]; [exists r; split; [lia|exact A2]|]. exists last. split; [lia|]. rewrite Ls. lra. }
    destruct Lr as (r & Hr & Lr).
    assert (Notst : forall r', (r' <= last)%nat -> tm <> pc_start (P r')).
    { intros r' Hr' E. apply Hnot. rewrite E. apply (in_map (fun r => pc_start (P r))). apply in_seq. lia. }
    assert (Op : pc_start (P r) < tm < run_piece_end tr P last r).
    { split; [pose proof (Notst r Hr); lra|]. destruct (Nat.eq_dec r last) as [->|Hne]; [rewrite Ls; lra|]. rewrite Nx in * by lia. pose proof (Notst (S r) ltac:(lia)). lra. }
    destruct (Lw k r tm Hk Hr Ht Op) as ([W4 W5] & Dv). destruct (Pc r Hr) as (B1 & B2 & B3 & B4).
    assert (Ag : plain_agree m (plain_point m (rho k) 0 (pc_curve (P r) tm)) (plain_point m (rho k) 0 (Y tm))) by (apply plain_ext; intros i Hi; symmetry; apply B4; [lra|exact Hi]).
    exists (pc_weights (P r) (pc_curve (P r) tm)). split.
    + split; [exact W4|]. intros q j Hq Hj Hp. specialize (W5 q j Hq Hj Hp).
      destruct MR as [[_ Ea]|(_ & _ & _ & _ & Ea)]; rewrite Ea in *; [exact (smallest_plain m PF _ _ q j Ag W5)|exact (closed_plain m PF _ _ q j Ag W5)].
    + intros i Hi. replace (velocity O m (rho k) 0 (Y tm) (pc_weights (P r) (pc_curve (P r) tm)) i) with (velocity O m (rho k) 0 (pc_curve (P r) tm) (pc_weights (P r) (pc_curve (P r) tm)) i).
      2:{ unfold velocity. f_equal. apply (mixed_plain m PF). exact Ag. }
      apply (derivable_pt_lim_locally_ext (fun z => pc_curve (P r) z i) _ tm (pc_start (P r)) (run_piece_end tr P last r) _ Op).
      * intros z Hz. symmetry. apply B4; [lra|exact Hi].
      * exact (Dv i Hi).
Qed.
End Solution.
