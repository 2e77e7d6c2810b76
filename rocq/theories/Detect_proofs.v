(* Detect_proofs.v -- switches of the solution are grid points *)
From Coq Require Import Reals Qreals Lra Psatz.
From Verif Require Import Base Lib Sx Sx_proofs Utils Tableau Opts Model Ocp Problem Numeric Rk4 Results Solver Looper Spec Fesd Spec2 Spec3 Spec4 Spec5 Spec6
  Dcs_proofs Elem_proofs Feas_proofs Mode_proofs Looper_proofs Spec9 Filippov_proofs Filippov2_proofs Filippov3_proofs Spec10 Spec11 Exact_proofs Exact2_proofs Exact3_proofs
  Spec19 Sim_proofs Sim2_proofs Sim3_proofs Sim4_proofs Spec21 Conv_proofs Conv2_proofs Conv3_proofs Conv4_proofs Spec22 Conv6_proofs Conv7_proofs Spec23.
Local Open Scope R_scope.

Lemma agree_deriv f g a b z l : a < z < b -> (forall y, a <= y <= b -> f y = g y) -> derivable_pt_lim f z l -> derivable_pt_lim g z l.
Proof. intros Hz E D. apply (derivable_pt_lim_locally_ext f g z a b l Hz); [intros y Hy; apply E; lra|exact D]. Qed.
Lemma sq_zero n (f : nat -> R) : rupto n (fun i => f i * f i) <= 0 -> forall i, (i < n)%nat -> f i = 0.
Proof.
  intros G i Hi. assert (Z : rupto n (fun i => f i * f i) = 0).
  { apply Rle_antisym; [exact G|]. apply rupto_nonneg. intros k _. exact (Rle_0_sqr (f k)). }
  pose proof (rupto_zero _ _ ltac:(intros k _; exact (Rle_0_sqr (f k))) Z i Hi) as S. apply Rsqr_0_uniq in S. exact S.
Qed.

(* an element has, for each subsystem, a mode that is active on the whole line between the states at its ends *)
Lemma one_mode lr cp d o m oc C rho act : fesd_problem lr cp d o m oc C -> feasible rho (the_nlp C) ->
  fesd_setting cp (the_opts C) (cn_tab C) m rho -> mode_rule (the_opts C) m act ->
  forall c e s, is_element (the_opts C) c e -> (s < n_subsystems m)%nat ->
  exists k, (k < n_modes m s)%nat /\ forall tau, 0 <= tau <= 1 ->
    act (plain_point m rho c (segment (the_opts C) (cn_tab C) rho c e tau)) s k.
Proof.
  intros FP FE FS MR c e s He Hs. pose proof FP as (H & _ & _). assert (N0 : (0 < o_ns (the_opts C))%nat) by exact (ns_pos _ _ _ _ _ _ _ H).
  pose proof (fun tau => rule_segment _ _ _ _ _ _ _ _ FP FE FS act MR c e 0%nat tau He N0) as G.
  destruct (proj1 (G 0 ltac:(lra)) s Hs) as [P S].
  assert (K : exists k, (k < n_modes m s)%nat /\ 0 < th_at m C rho c e 0 s k).
  { revert P S. generalize (n_modes m s). generalize (th_at m C rho c e 0 s). intros th n. induction n as [|n IH]; intros P S; [rewrite rupto_0 in S; lra|].
    rewrite rupto_succ in S. destruct (Rlt_dec 0 (th n)) as [L|L]; [exists n; split; [lia|exact L]|]. destruct IH as (k & Hk & L'); [intros; apply P; lia|pose proof (P n ltac:(lia)); lra|exists k; split; [lia|exact L']]. }
  destruct K as (k & Hk & L). exists k. split; [exact Hk|]. intros tau Ht. exact (proj2 (G tau Ht) s k Hs Hk L).
Qed.

(* ---- one solve ---- *)
Section Con.
Variables (lr : Q -> Q -> Q -> nat) (cp : nat -> scheme -> list Q) (d : ipopt_dict) (o : opts) (m : model)
  (oc : option ocp) (C : constructed) (rho : env).
Notation O := (the_opts C).
Notation t := (cn_tab C).
Hypothesis FP : fesd_problem lr cp d o m oc C.
Hypothesis Hh : steps_nonneg O rho.
Lemma grid_time_end c e : is_element O c e -> 0 < grid_time O rho c e -> on_grid O rho (grid_time O rho c e).
Proof.
  intros [Hc He] P. destruct e as [|e].
  - destruct c as [|c]; [unfold grid_time in P; rewrite !rupto_0 in P; lra|].
    destruct (nfe_pos_con _ _ _ _ _ _ _ FP c ltac:(lia)) as [_ Np]. exists c, (nfe_of O c - 1)%nat. split; [split; [lia|lia]|].
    unfold grid_time. rewrite rupto_0, rupto_succ. unfold stage_length at 2.
    replace (nfe_of O c) with (S (nfe_of O c - 1)) at 1 by lia. rewrite rupto_succ. ring.
  - exists c, e. split; [split; [exact Hc|lia]|]. unfold grid_time. rewrite rupto_succ. ring.
Qed.
Lemma grid_point_end tm : 0 < tm -> In tm (grid_points O rho) -> on_grid O rho tm.
Proof.
  intros P I. apply in_flat_map in I. destruct I as (c & Hc & I). apply in_flat_map in I. destruct I as (e & He & I).
  apply in_seq in Hc. apply in_seq in He. assert (EL : is_element O c e) by (split; lia).
  destruct I as [<-|[<-|[]]]; [exact (grid_time_end c e EL P)|exists c, e; split; [exact EL|reflexivity]].
Qed.
Variable act : env -> nat -> nat -> Prop.
Hypothesis TR : exists X, filippov_trajectory O t m rho act X.
Lemma detect Y L : o_repr O = Integral -> exact_solution O m rho act Y -> 0 <= L -> one_sided O m rho act L ->
  forall tm i, 0 < tm < end_time O rho -> (i < m_nx m)%nat -> kink (fun z => Y z i) tm -> on_grid O rho tm.
Proof.
  intros Er EY L0 OS tm i Ht Hi K. destruct TR as [X FX].
  assert (W0 : weight_error O = 0) by (unfold weight_error; rewrite Er; reflexivity).
  assert (E : forall z, 0 <= z <= end_time O rho -> X z i = Y z i).
  { intros z Hz. pose proof (compare O t m rho act X Y L 0 Hh FX EY L0 OS ltac:(lra) ltac:(intros; rewrite W0; lra) z Hz) as G.
    rewrite !Rmult_0_l in G. pose proof (sq_zero _ (fun i => X z i - Y z i) G i Hi) as Q. cbn beta in Q. lra. }
  destruct (in_dec Req_EM_T tm (grid_points O rho)) as [I|N]; [exact (grid_point_end tm (proj1 Ht) I)|].
  exfalso. destruct FX as (_ & _ & _ & DX). destruct (DX tm ltac:(lra) (not_grid_point O rho tm N)) as (c & e & th & kappa & _ & _ & _ & _ & D & _).
  exact (K _ (agree_deriv _ _ 0 (end_time O rho) tm _ Ht E (D i Hi))).
Qed.
End Con.
Lemma stewart_detect lr cp d o m oc C rho Y L : fesd_problem lr cp d o m oc C -> feasible rho (the_nlp C) ->
  filippov_setting cp (the_opts C) m rho -> o_use_fesd (the_opts C) = true ->
  o_cross (the_opts C) = SumLambdas \/ t_rbe (cn_tab C) = true ->
  ext_upto (o_gamma_h (the_opts C)) 1 -> (0 <= o_terminal_time (the_opts C))%Q ->
  o_pss (the_opts C) = Stewart -> o_repr (the_opts C) = Integral ->
  exact_solution (the_opts C) m rho (smallest m) Y -> 0 <= L -> one_sided (the_opts C) m rho (smallest m) L ->
  forall tm i, 0 < tm < end_time (the_opts C) rho -> (i < m_nx m)%nat -> kink (fun z => Y z i) tm -> on_grid (the_opts C) rho tm.
Proof.
  intros FP FE FS Hf XC GH TT Ep Er EY L0 OS.
  assert (SN : steps_nonneg (the_opts C) rho) by exact (bounds_steps _ _ _ _ _ _ _ _ (proj1 FP) (proj1 FE) GH TT).
  exact (detect lr cp d o m oc C rho FP SN (smallest m) (stewart_filippov lr cp d o m oc C rho FP FE FS Hf XC Ep SN) Y L Er EY L0 OS).
Qed.
Lemma step_detect lr cp d o m oc C rho Y L : fesd_problem lr cp d o m oc C -> feasible rho (the_nlp C) ->
  filippov_setting cp (the_opts C) m rho -> o_use_fesd (the_opts C) = true ->
  o_cross (the_opts C) = SumLambdas \/ t_rbe (cn_tab C) = true ->
  ext_upto (o_gamma_h (the_opts C)) 1 -> (0 <= o_terminal_time (the_opts C))%Q ->
  sign_matrix m -> rows_fit m -> (forall s, (s < n_subsystems m)%nat -> complete m s) ->
  o_pss (the_opts C) = Step -> o_repr (the_opts C) = Integral ->
  exact_solution (the_opts C) m rho (in_closed_region m) Y -> 0 <= L -> one_sided (the_opts C) m rho (in_closed_region m) L ->
  forall tm i, 0 < tm < end_time (the_opts C) rho -> (i < m_nx m)%nat -> kink (fun z => Y z i) tm -> on_grid (the_opts C) rho tm.
Proof.
  intros FP FE FS Hf XC GH TT SM RF CM Ep Er EY L0 OS.
  assert (SN : steps_nonneg (the_opts C) rho) by exact (bounds_steps _ _ _ _ _ _ _ _ (proj1 FP) (proj1 FE) GH TT).
  exact (detect lr cp d o m oc C rho FP SN (in_closed_region m) (step_filippov lr cp d o m oc C rho FP FE FS Hf XC Ep SM RF CM SN) Y L Er EY L0 OS).
Qed.

(* ---- a simulation ---- *)
Section Run.
Variables (o : opts) (m : model) (act : env -> nat -> nat -> Prop) (rho : nat -> env) (tr : list (sstate * solve_out)) (grid : list R) (states : list (list R))
  (x0 : list R) (X Y : R -> nat -> R) (L : R).
Hypothesis Er : o_repr o = Integral.
Hypothesis SX : simulated o m act rho tr grid states X.
Hypothesis X0 : forall i, (i < m_nx m)%nat -> X 0 i = nth i x0 0.
Hypothesis RY : run_solution o m act rho tr x0 Y.
Hypothesis N0 : (0 < o_N_stages o)%nat.
Hypothesis L0 : 0 <= L.
Hypothesis OS : forall k, (k < length tr)%nat -> one_sided o m (rho k) act L.
Notation E := (elapsed tr (length tr)).
Lemma run_unique T : 0 <= T <= E -> forall i, (i < m_nx m)%nat -> X T i = Y T i.
Proof.
  intros HT. destruct SX as ((K & Lip) & _ & DX). destruct RY as (CY & Y0 & pts & DY). set (TT := E) in *.
  assert (T0 : 0 <= TT) by lra. assert (W0 : weight_error o = 0) by (unfold weight_error; rewrite Er; reflexivity).
  set (xc := fun i z => X (Rmax 0 (Rmin TT z)) i). set (yc := fun i z => Y (Rmax 0 (Rmin TT z)) i).
  set (g := fun i z => (xc i z - yc i z) * (xc i z - yc i z)). set (phi := fun z => rupto (m_nx m) (fun i => g i z)).
  assert (Pe : forall z, 0 <= z <= TT -> phi z = distance2 m (X z) (Y z)).
  { intros z Hz. unfold phi, distance2, g, xc, yc. rewrite (clamp_id 0 TT z Hz). reflexivity. }
  assert (P0 : phi 0 = 0).
  { rewrite Pe by lra. unfold distance2. transitivity (rupto (m_nx m) (fun _ => 0)); [|clear; induction (m_nx m); [reflexivity|rewrite rupto_succ, IHn; ring]].
    apply rupto_ext. intros i Hi. rewrite X0, Y0 by assumption. ring. }
  assert (C : forall z, continuity_pt phi z).
  { intros z. apply rupto_cont. intros i Hi. unfold g.
    assert (Ci : continuity_pt (fun z => xc i z - yc i z) z).
    { apply (continuity_pt_minus (xc i) (yc i)).
      - apply (clamp_cont 0 TT (fun z => X z i) T0). apply (lip_cont 0 TT _ K). intros a b Ha Hb. exact (Lip i a b Hi Ha Hb).
      - apply (clamp_cont 0 TT (fun z => Y z i) T0). exact (CY i Hi). }
    exact (continuity_pt_mult _ _ z Ci Ci). }
  assert (D : forall z, 0 < z < T -> ~ In z (grid ++ pts) -> exists l, derivable_pt_lim phi z l /\ l <= 2 * L * phi z + 0).
  { intros z Hz N. assert (N1 : ~ In z grid) by (intros G; apply N, in_app_iff; auto).
    assert (N2 : ~ In z pts) by (intros G; apply N, in_app_iff; auto).
    destruct (DX z ltac:(lra) N1) as (k & th & kappa & Hk & Hb & Ax & Ka & Dx).
    destruct (DY k z Hk Hb N2) as (th' & Ay & Dy).
    assert (K1 : kappa = 1).
    { rewrite W0 in Ka. pose proof (Rabs_pos (kappa - 1)). destruct (Req_dec (kappa - 1) 0) as [G|G]; [lra|]. apply Rabs_no_R0 in G. lra. }
    subst kappa. set (vx := velocity o m (rho k) 0 (X z) th) in *. set (vy := velocity o m (rho k) 0 (Y z) th') in *.
    assert (Zc : Rmax 0 (Rmin TT z) = z) by (apply clamp_id; lra).
    exists (rupto (m_nx m) (fun i => 2 * ((X z i - Y z i) * (vx i - vy i)))). split.
    - apply rupto_deriv. intros i Hi. unfold g.
      assert (Di : derivable_pt_lim (fun z => xc i z - yc i z) z (vx i - vy i)).
      { apply (derivable_pt_lim_minus (xc i) (yc i)).
        - apply (clamp_deriv 0 TT (fun z => X z i)); [lra|]. specialize (Dx i Hi). rewrite Rmult_1_l in Dx. exact Dx.
        - apply (clamp_deriv 0 TT (fun z => Y z i)); [lra|]. exact (Dy i Hi). }
      pose proof (derivable_pt_lim_mult _ _ z _ _ Di Di) as G.
      replace (2 * ((X z i - Y z i) * (vx i - vy i))) with ((vx i - vy i) * (xc i z - yc i z) + (xc i z - yc i z) * (vx i - vy i)); [exact G|].
      unfold xc, yc. rewrite Zc. ring.
    - rewrite Pe by lra. pose proof (OS k Hk 0%nat (X z) (Y z) th th' N0 Ax Ay) as G1. fold vx vy in G1.
      rewrite rupto_scale. lra. }
  pose proof (gronwall phi (2 * L) 0 T (grid ++ pts) ltac:(lra) ltac:(lra) ltac:(lra) C D) as G.
  rewrite P0, Pe in G by lra. rewrite Rmult_0_l, Rplus_0_l, Rmult_0_l in G.
  intros i Hi. pose proof (sq_zero _ (fun i => X T i - Y T i) G i Hi) as Q. cbn beta in Q. lra.
Qed.
Lemma run_detect tm i : 0 < tm < E -> (i < m_nx m)%nat -> kink (fun z => Y z i) tm -> In tm grid.
Proof.
  intros Ht Hi K. destruct (in_dec Req_EM_T tm grid) as [I|N]; [exact I|]. exfalso.
  pose proof SX as (_ & _ & DX). destruct (DX tm ltac:(lra) N) as (k & th & kappa & _ & _ & _ & _ & D).
  exact (K _ (agree_deriv _ _ 0 E tm _ Ht (fun y Hy => run_unique y Hy i Hi) (D i Hi))).
Qed.
End Run.
