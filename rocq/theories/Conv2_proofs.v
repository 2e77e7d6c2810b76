(* Conv2_proofs.v -- trajectories through the grid points; active modes at the stages *)
From Coq Require Import Reals Qreals Lra Psatz.
From Verif Require Import Base Sx Utils Tableau Opts Model Ocp Problem Spec Cases Lib Sx_proofs Fe_proofs Prob_proofs Coll_proofs
  Body_proofs Model_proofs Con_proofs Index3_proofs Fesd Sem_proofs Dcs_proofs Point_proofs Elem_proofs Nlp_proofs
  Opts_proofs Tableau_proofs Poly_proofs Spec2 Feas_proofs Feas2_proofs Spec3 Numeric Mode_proofs Smooth_proofs Spec9 Spec10 Filippov_proofs
  Filippov2_proofs Filippov3_proofs Exact_proofs Spec11 ExistBase_proofs Spec20 Soft_proofs Spec21 Conv_proofs.

(* ---- straight lines through the grid points ---- *)
Section Line.
Variables (o : opts) (t : tab) (m : model) (rho : env).
Hypothesis NP : forall c, c < o_N_stages o -> 0 < nfe_of o c.
Hypothesis N0 : 0 < o_N_stages o.
Hypothesis Hh : forall c e, is_element o c e -> (0 <= step_len o rho c e)%R.
Hypothesis Sp : forall c e, is_element o c e -> exists v, forall i, i < m_nx m ->
  (end_state o t rho c e i - start_state o t rho c e i = step_len o rho c e * v i)%R.
Notation n := (upto (o_N_stages o) (nfe_of o)).
Notation wk := (walk o).
Lemma n_pos : 0 < n.
Proof. pose proof (upto_mono (nfe_of o) 1 (o_N_stages o) N0) as G. rewrite upto_S in G. pose proof (NP 0 N0). lia. Qed.
Definition tt' (k : nat) : R := ts o rho (Nat.min k n).
Definition curve (k : nat) (z : R) : nat -> R := trajectory o t rho (fst (wk k)) (snd (wk k)) (tt' k) z.
Definition X : R -> nat -> R := glue tt' curve (n - 1).
Lemma tt_next k : k < n -> (tt' (S k) = tt' k + step_len o rho (fst (wk k)) (snd (wk k)))%R.
Proof. intros Hk. unfold tt'. rewrite !Nat.min_l by lia. apply ts_next; [exact NP|exact Hk]. Qed.
Lemma tt_mono k : (tt' k <= tt' (S k))%R.
Proof.
  destruct (Nat.lt_ge_cases k n) as [Hk|Hk].
  - rewrite (tt_next k Hk). pose proof (Hh _ _ (walk_element o NP k Hk)). lra.
  - unfold tt'. rewrite !Nat.min_r by lia. lra.
Qed.
Lemma tt_0 : tt' 0 = 0%R. Proof. unfold tt'. cbn [Nat.min]. apply ts_0. Qed.
Lemma tt_n : tt' n = end_time o rho. Proof. unfold tt'. rewrite Nat.min_id. apply ts_end. exact NP. Qed.
Lemma tt_grid k c e : k < n -> wk k = (c, e) -> tt' k = grid_time o rho c e.
Proof. intros Hk E. unfold tt'. rewrite Nat.min_l by lia. unfold ts. rewrite E. reflexivity. Qed.
Lemma speed_of k : k < n -> exists v, forall i, i < m_nx m ->
  (end_state o t rho (fst (wk k)) (snd (wk k)) i - start_state o t rho (fst (wk k)) (snd (wk k)) i = step_len o rho (fst (wk k)) (snd (wk k)) * v i)%R.
Proof.
  intros Hk. exact (Sp _ _ (walk_element o NP k Hk)).
Qed.
Lemma curve_left k i : curve k (tt' k) i = start_state o t rho (fst (wk k)) (snd (wk k)) i.
Proof. unfold curve, trajectory, segment. replace (tt' k - tt' k)%R with 0%R by ring. unfold Rdiv. rewrite Rmult_0_l. ring. Qed.
Lemma curve_right k i : k < n -> i < m_nx m -> curve k (tt' (S k)) i = end_state o t rho (fst (wk k)) (snd (wk k)) i.
Proof.
  intros Hk Hi. destruct (speed_of k Hk) as [v Hv]. specialize (Hv i Hi). unfold curve, trajectory, segment. rewrite (tt_next k Hk).
  set (h := step_len o rho (fst (wk k)) (snd (wk k))) in *. replace (tt' k + h - tt' k)%R with h by ring.
  destruct (Req_dec h 0) as [E|E].
  - rewrite E in *. unfold Rdiv. rewrite Rmult_0_l. lra.
  - unfold Rdiv. rewrite Rinv_r by exact E. ring.
Qed.
Lemma curve_joint i k : i < m_nx m -> k < n - 1 -> curve k (tt' (S k)) i = curve (S k) (tt' (S k)) i.
Proof.
  intros Hi Hk. rewrite (curve_right k i) by lia. rewrite curve_left. unfold start_state. rewrite (walk_before o NP k) by lia.
  destruct (wk k). reflexivity.
Qed.
Lemma curve_lip k : k < n -> exists L, forall i a b, i < m_nx m -> (tt' k <= a <= tt' (S k))%R -> (tt' k <= b <= tt' (S k))%R ->
  (Rabs (curve k a i - curve k b i) <= L * Rabs (a - b))%R.
Proof.
  intros Hk. destruct (speed_of k Hk) as [v Hv].
  destruct (finite_bound (fun i L => (Rabs (v i) <= L)%R) (m_nx m)) as [L HL]; [intros; lra|intros i _; exists (Rabs (v i)); lra|].
  exists L. intros i a b Hi Ha Hb. specialize (Hv i Hi). specialize (HL i Hi). rewrite (tt_next k Hk) in Ha, Hb.
  unfold curve, trajectory, segment. set (h := step_len o rho (fst (wk k)) (snd (wk k))) in *.
  destruct (Req_dec h 0) as [E|E].
  - rewrite E in *. assert (Ea : a = tt' k) by lra. assert (Eb : b = tt' k) by lra. rewrite Ea, Eb, !Rminus_diag_eq by reflexivity. rewrite Rabs_R0. lra.
  - replace (end_state o t rho (fst (wk k)) (snd (wk k)) i) with (start_state o t rho (fst (wk k)) (snd (wk k)) i + h * v i)%R by lra.
    match goal with |- (Rabs ?x <= _)%R => replace x with (v i * (a - b))%R by (field; exact E) end.
    rewrite Rabs_mult. apply Rmult_le_compat_r; [apply Rabs_pos|exact HL].
Qed.
Lemma line : 
  (exists L, forall i a b, i < m_nx m -> (0 <= a <= end_time o rho)%R -> (0 <= b <= end_time o rho)%R -> (Rabs (X a i - X b i) <= L * Rabs (a - b))%R) /\
  (forall i, i < m_nx m -> X 0%R i = rho (SX0 i)) /\
  (forall c e i, is_element o c e -> i < m_nx m -> X (grid_time o rho c e + step_len o rho c e)%R i = end_state o t rho c e i) /\
  forall tm, (0 <= tm <= end_time o rho)%R -> (forall c e, is_element o c e -> tm <> grid_time o rho c e /\ tm <> (grid_time o rho c e + step_len o rho c e)%R) ->
    exists c e, is_element o c e /\ (grid_time o rho c e < tm < grid_time o rho c e + step_len o rho c e)%R /\
      X tm = segment o t rho c e ((tm - grid_time o rho c e) / step_len o rho c e) /\
      forall i, i < m_nx m -> derivable_pt_lim (fun z => X z i) tm ((end_state o t rho c e i - start_state o t rho c e i) / step_len o rho c e)%R.
Proof.
  pose proof n_pos as NPos. split; [|split; [|split]].
  - destruct (finite_bound (fun k L => forall i a b, i < m_nx m -> (tt' k <= a <= tt' (S k))%R -> (tt' k <= b <= tt' (S k))%R ->
      (Rabs (curve k a i - curve k b i) <= L * Rabs (a - b))%R) n) as [L HL].
    + intros k L L' HL Hle i a b Hi Ha Hb. eapply Rle_trans; [apply HL; assumption|]. apply Rmult_le_compat_r; [apply Rabs_pos|exact Hle].
    + exact curve_lip.
    + exists L. intros i a b Hi Ha Hb. unfold X. apply (glue_lip tt' curve tt_mono i (n - 1)).
      * intros k Hk. apply curve_joint; assumption.
      * intros k a' b' Hk Ha' Hb'. apply (HL k); try assumption. lia.
      * lia.
      * rewrite tt_0. replace (S (n - 1)) with n by lia. rewrite tt_n. exact Ha.
      * rewrite tt_0. replace (S (n - 1)) with n by lia. rewrite tt_n. exact Hb.
  - intros i Hi. unfold X. rewrite (glue_before tt' curve tt_mono) by (rewrite <- tt_0; apply tt_mono).
    rewrite <- tt_0 at 1. rewrite curve_left. reflexivity.
  - intros c e i He Hi. destruct (element_walk o NP c e He) as (k & Hk & Ek). rewrite <- (tt_grid k c e Hk Ek).
    pose proof (tt_next k Hk) as TN. pose proof (curve_right k i Hk Hi) as CR. rewrite Ek in TN, CR. cbn [fst snd] in TN, CR. rewrite <- TN, <- CR.
    unfold X. apply (glue_right tt' curve tt_mono i (n - 1)); try lia. intros k' Hk'. apply curve_joint; assumption.
  - intros tm Ht Hne. rewrite <- tt_0, <- tt_n in Ht. destruct (locate tt' n tm Ht NPos) as (k & Hk & Hin).
    destruct (wk k) as [c e] eqn:Ek. pose proof (walk_element o NP k Hk) as IE. rewrite Ek in IE. cbn [fst snd] in IE.
    pose proof (tt_grid k c e Hk Ek) as TG. pose proof (tt_next k Hk) as TN. rewrite Ek in TN. cbn [fst snd] in TN.
    destruct (Hne c e IE) as [N1 N2]. rewrite <- TG, <- TN in N2. rewrite <- TG in N1.
    assert (S1' : (tt' k < tm < tt' (S k))%R) by (split; apply Rnot_le_lt; intros Hc; [apply N1|apply N2]; lra).
    assert (Hp : (0 < step_len o rho c e)%R) by lra.
    assert (EX : forall z, (tt' k < z <= tt' (S k))%R -> X z = trajectory o t rho c e (tt' k) z).
    { intros z Hz. unfold X. rewrite (glue_in tt' curve tt_mono (n - 1) k z) by (try lia; exact Hz). unfold curve. rewrite Ek. reflexivity. }
    exists c, e. split; [exact IE|]. split; [rewrite <- TG, <- TN; exact S1'|]. split.
    + rewrite (EX tm) by lra. unfold trajectory. rewrite TG. reflexivity.
    + intros i Hi. apply (derivable_pt_lim_locally_ext (fun z => trajectory o t rho c e (tt' k) z i) _ tm (tt' k) (tt' (S k))); [exact S1'| |].
      * intros z Hz. rewrite (EX z) by lra. reflexivity.
      * unfold trajectory, segment. set (h := step_len o rho c e) in *. set (s0 := start_state o t rho c e i). set (e0 := end_state o t rho c e i).
        apply (derivable_pt_lim_ext (fun z => ((s0 - (e0 - s0) / h * tt' k) + (e0 - s0) / h * z)%R)); [intros z; field; lra|].
        replace (derivable_pt_lim (fun z => ((s0 - (e0 - s0) / h * tt' k) + (e0 - s0) / h * z)%R) tm ((e0 - s0) / h)%R)
          with (derivable_pt_lim (fun z => ((s0 - (e0 - s0) / h * tt' k) + (e0 - s0) / h * z)%R) tm (0 + (e0 - s0) / h)%R) by (f_equal; ring).
        apply (derivable_pt_lim_plus (fct_cte (s0 - (e0 - s0) / h * tt' k)%R) (fun z => ((e0 - s0) / h * z)%R)); [apply derivable_pt_lim_const|apply linear_deriv].
Qed.
End Line.

(* ---- values at points with the same states, controls and parameters ---- *)
Section Plain.
Variable m : model.
Hypothesis PF : plain_fields m.
Lemma nth_plain l k : (forall e, In e l -> uses_only (plain_sym m) e) -> uses_only (plain_sym m) (nth k l (ECst 0)).
Proof.
  intros G. destruct (Nat.lt_ge_cases k (length l)) as [L|L]; [apply G, nth_In, L|]. rewrite nth_overflow by exact L. intros y Hy. destruct Hy.
Qed.
Lemma switch_plain v w s k : plain_agree m v w -> switch_value m v s k = switch_value m w s k.
Proof. intros A. unfold switch_value. apply (plain_eval m); [|exact A]. apply nth_plain. intros e He. destruct PF as (_ & _ & G). apply (G s). right. exact He. Qed.
Lemma region_plain v w s k : plain_agree m v w -> region_value m v s k = region_value m w s k.
Proof.
  intros A. destruct PF as (_ & _ & G). unfold region_value. destruct (gS_given m).
  - apply (plain_eval m); [|exact A]. apply nth_plain. intros e He. apply (G s). left. exact He.
  - f_equal. f_equal. apply map_ext_in. intros [q e] Hp. apply in_combine_r in Hp. cbn [fst snd]. f_equal. apply (plain_eval m); [|exact A]. apply (G s). right. exact Hp.
Qed.
Lemma mixed_plain v w th i : plain_agree m v w -> mixed_field m v th i = mixed_field m w th i.
Proof.
  intros A. destruct PF as (_ & G & _). unfold mixed_field. apply rupto_ext. intros s _. apply rupto_ext. intros k _. f_equal.
  unfold mode_field. apply (plain_eval m); [apply G|exact A].
Qed.
Lemma smallest_plain v w s k : plain_agree m v w -> smallest m v s k -> smallest m w s k.
Proof. intros A G k' Hk'. rewrite <- !(region_plain v w) by exact A. apply G, Hk'. Qed.
Lemma closed_plain v w s k : plain_agree m v w -> in_closed_region m v s k -> in_closed_region m w s k.
Proof. intros A G r Hr. rewrite <- (switch_plain v w) by exact A. apply G, Hr. Qed.
Lemma stage_plain o t rho c e j : plain_agree m (stage_point o t m rho c e j) (plain_point m rho c (stage_state o t rho c e j)).
Proof. intros y Hy. destruct y; try contradiction; reflexivity. Qed.
Lemma rhs_plain o t rho c e j i : rhs o m (stage_point o t m rho c e j) i =
  mixed_field m (plain_point m rho c (stage_state o t rho c e j)) (weight o m (stage_point o t m rho c e j)) i.
Proof.
  rewrite <- (mixed_plain _ _ _ i (stage_plain o t rho c e j)). unfold rhs. destruct PF as (G & _). destruct (m_F m) eqn:EF; [|congruence]. reflexivity.
Qed.
End Plain.

(* ---- modes with weight at a stage are active there ---- *)
Section Stage.
Variables (lr : Q -> Q -> Q -> nat) (cp : nat -> scheme -> list Q) (d : ipopt_dict) (o : opts) (m : model)
  (oc : option ocp) (C : constructed).
Hypothesis H : construct_problem lr cp d o m oc = Ok C.
Hypothesis Ex : o_constr o = Exact.
Hypothesis WS : well_sized m.
Variable rho : env.
Hypothesis BO : bounds_ok rho (the_nlp C).
Hypothesis CO : constraints_ok rho (the_nlp C).
Notation O := (the_opts C).
Notation t := (cn_tab C).
Hypothesis ZR : zero_relaxation O rho.
Hypothesis L0 : initial_nonneg rho.
Variables (c e nfe : nat).
Hypothesis I : is_fe O c e nfe.

Lemma same_stage j k : j < o_ns O -> k < n_pairs O m -> (0 < ent (theta_vec O m rho c e j) k)%R -> ent (lam_vec O m rho c e j) k = 0%R.
Proof.
  intros Hj Hk Hth. destruct (o_use_fesd O) eqn:Hf.
  - destruct (exclusive _ _ _ _ _ _ _ H Ex WS rho BO CO c e nfe j k ZR L0 Hf I Hj Hk Hth) as [G _]. apply G.
    pose proof (n_mult_ge C c e). destruct (o_cross O); lia.
  - destruct (elem_all _ _ _ _ _ _ _ H Ex WS rho CO c e nfe I) as (_ & _ & _ & _ & _ & _ & X & _). specialize (X j k Hj Hk). cbv zeta in X. rewrite Hf in X.
    assert (Nn : (0 <= ent (lam_vec O m rho c e j) k)%R).
    { apply (lam_nonneg _ _ _ _ _ _ _ H rho BO c e nfe); [exact (zr_product _ _ ZR)|exact I|]. pose proof (n_mult_ge C c e). lia. }
    destruct (relaxed_zero C rho [ent (lam_vec O m rho c e j) k] _ ZR ltac:(intros x [<-|[]]; exact Nn) (Rlt_le _ _ Hth) X) as [G _]. apply (G Hth). left. reflexivity.
Qed.
Lemma stage_switching j : j < o_ns O -> switching_ok O m (stage_point O t m rho c e j).
Proof. intros Hj. destruct (elem_all _ _ _ _ _ _ _ H Ex WS rho CO c e nfe I) as (A & _). apply (A j Hj). Qed.
Lemma stage_slot f j : f <> FTheta -> f <> FAlpha -> j < o_ns O -> j < points2 O (t_rbe t) nfe e f.
Proof. intros N1 N2 Hj. unfold points2. destruct f; try congruence; lia. Qed.

Section Stewart.
Hypothesis Ep : o_pss O = Stewart.
Lemma stewart_stage j s k : j < o_ns O -> s < n_subsystems m -> k < n_modes m s -> (0 < weight O m (stage_point O t m rho c e j) s k)%R ->
  smallest m (stage_point O t m rho c e j) s k.
Proof.
  intros Hj Hs Hk Hw k' Hk'. unfold weight in Hw. rewrite Ep in Hw. change (0 < rho (S2 FTheta c e j s k))%R in Hw.
  assert (Z : rho (S2 FLam c e j s k) = 0%R).
  { rewrite <- (st_lam m C rho c e j s k Ep Hs Hk). apply same_stage; [exact Hj|exact (st_pairs m C rho s k Ep Hs Hk)|].
    rewrite (st_theta m C rho c e j s k Ep Hs Hk). exact Hw. }
  pose proof (stage_switching j Hj) as Sw.
  assert (G : forall q, q < n_modes m s -> (region_value m (stage_point O t m rho c e j) s q - rho (S2 FLam c e j s q) + rho (S2 FMu c e j s 0) = 0)%R).
  { intros q Hq. specialize (Sw s q Hs). unfold n_switching, switching_residual in Sw. rewrite Ep in Sw. exact (Sw Hq). }
  pose proof (G k Hk) as G1. pose proof (G k' Hk') as G2.
  assert (P : (0 <= rho (S2 FLam c e j s k'))%R).
  { apply (alg_nonneg _ _ _ _ _ _ _ H rho BO c e nfe); [exact (zr_product _ _ ZR)|discriminate|exact I|apply stage_slot; [discriminate|discriminate|exact Hj]|exact Hs|].
    rewrite (proj1 (proj2 (dim2_stewart O m Ep))). exact Hk'. }
  lra.
Qed.
Lemma stewart_weights j : j < o_ns O -> convex_weights m (weight O m (stage_point O t m rho c e j)).
Proof.
  intros Hj s Hs. pose proof (convex _ _ _ _ _ _ _ H Ex WS rho BO CO c e nfe j s I Hj Hs Ep (zr_product _ _ ZR)) as [G1 G2].
  unfold weight. rewrite Ep. split; [exact G1|exact G2].
Qed.
End Stewart.

Section Step.
Hypothesis Ep : o_pss O = Step.
Hypothesis SM : sign_matrix m.
Hypothesis RF : rows_fit m.
Hypothesis CM : forall s, s < n_subsystems m -> complete m s.
Lemma step_ents j s k : s < n_subsystems m -> k < n_switch m s -> exists q q', q < n_pairs O m /\ q' < n_pairs O m /\
  ent (lam_vec O m rho c e j) q = rho (S2 FLn c e j s k) /\ ent (lam_vec O m rho c e j) q' = rho (S2 FLp c e j s k) /\
  ent (theta_vec O m rho c e j) q = rho (S2 FAlpha c e j s k) /\ ent (theta_vec O m rho c e j) q' = (1 - rho (S2 FAlpha c e j s k))%R.
Proof.
  intros Hs Hk. destruct (step_vecs O m rho Ep) as (VL & VT & NP). destruct (dim2_step O m Ep) as (D1 & D2 & D3 & _ & _).
  assert (Ha : k < dim2 O m FAlpha s) by (rewrite D1; exact Hk). assert (Hn : k < dim2 O m FLn s) by (rewrite D2; exact Hk).
  assert (Hp : k < dim2 O m FLp s) by (rewrite D3; exact Hk).
  set (q := upto s (n_switch m) + k).
  assert (Qa : q = upto s (dim2 O m FAlpha) + k) by (unfold q; rewrite (upto_ext _ _ _ D1); reflexivity).
  assert (Qn : q = upto s (dim2 O m FLn) + k) by (unfold q; rewrite (upto_ext _ _ _ D2); reflexivity).
  assert (Qp : q = upto s (dim2 O m FLp) + k) by (unfold q; rewrite (upto_ext _ _ _ D3); reflexivity).
  set (N := upto (n_subsystems m) (n_switch m)).
  assert (Na : N = upto (n_subsystems m) (dim2 O m FAlpha)) by (unfold N; rewrite (upto_ext _ _ _ D1); reflexivity).
  assert (Nn : N = upto (n_subsystems m) (dim2 O m FLn)) by (unfold N; rewrite (upto_ext _ _ _ D2); reflexivity).
  assert (Hq : q < N) by (apply upto_lt; assumption).
  exists q, (N + q). rewrite NP. fold N. split; [lia|]. split; [lia|]. split; [|split; [|split]].
  - rewrite VL. unfold values at 1. rewrite Qn. apply (sp_half m (fun s i => rho (S2 FLn c e j s i)) _ _ _ eq_refl); assumption.
  - rewrite VL. unfold values at 1. rewrite Nn, Qn. rewrite sp_half2 by assumption. rewrite <- Qn, Qp. unfold values.
    apply (ent_over m (fun s i => rho (S2 FLp c e j s i))); assumption.
  - rewrite VT. unfold values at 1. rewrite Qa. apply (sp_half m (fun s i => rho (S2 FAlpha c e j s i)) _ _ _ eq_refl); assumption.
  - rewrite VT. unfold values at 1. rewrite Na, Qa. rewrite sp_half2 by assumption. unfold ent.
    assert (G : nth_error (map (fun a => (1 - a)%R) (values O m rho FAlpha c e j)) (upto s (dim2 O m FAlpha) + k) = Some (1 - rho (S2 FAlpha c e j s k))%R).
    { rewrite nth_error_map. unfold values. rewrite (over_at m (fun s i => rho (S2 FAlpha c e j s i)) _ s k Hs Ha). reflexivity. }
    rewrite (nth_error_nth _ _ _ G). reflexivity.
Qed.
Lemma step_stage j s k : j < o_ns O -> s < n_subsystems m -> k < n_modes m s -> (0 < weight O m (stage_point O t m rho c e j) s k)%R ->
  in_closed_region m (stage_point O t m rho c e j) s k.
Proof.
  intros Hj Hs Hk Hw r Hr. destruct (dim2_step O m Ep) as (D1 & D2 & D3 & _).
  destruct (step_support _ _ _ _ _ _ _ H rho BO ZR c e nfe I Ep RF j s k r Hj Hs Hk Hw Hr) as [U1 U2].
  destruct (step_ents j s r Hs Hr) as (q & q' & Q1 & Q2 & E1 & E2 & E3 & E4).
  pose proof (stage_switching j Hj s r Hs) as Sw. unfold n_switching, switching_residual in Sw. rewrite Ep in Sw. specialize (Sw Hr).
  change (switch_value m (stage_point O t m rho c e j) s r - rho (S2 FLp c e j s r) + rho (S2 FLn c e j s r) = 0)%R in Sw.
  assert (P1 : (0 <= rho (S2 FLp c e j s r))%R).
  { apply (alg_nonneg _ _ _ _ _ _ _ H rho BO c e nfe); [exact (zr_product _ _ ZR)|discriminate|exact I|apply stage_slot; [discriminate|discriminate|exact Hj]|exact Hs|rewrite D3; exact Hr]. }
  assert (P2 : (0 <= rho (S2 FLn c e j s r))%R).
  { apply (alg_nonneg _ _ _ _ _ _ _ H rho BO c e nfe); [exact (zr_product _ _ ZR)|discriminate|exact I|apply stage_slot; [discriminate|discriminate|exact Hj]|exact Hs|rewrite D2; exact Hr]. }
  destruct (SM s k r) as [E|[E|E]]; rewrite (Qeq_eqR _ _ E).
  - assert (Z := same_stage j q' Hj Q2 ltac:(rewrite E4; specialize (U2 E); lra)). rewrite E2 in Z. replace (Q2R (-1)) with (-1)%R by (unfold Q2R; cbn; lra). lra.
  - rewrite Q2R_0. lra.
  - assert (Z := same_stage j q Hj Q1 ltac:(rewrite E3; specialize (U1 E); lra)). rewrite E1 in Z. rewrite Q2R_1. lra.
Qed.
Lemma step_weights j : j < o_ns O -> convex_weights m (weight O m (stage_point O t m rho c e j)).
Proof. intros Hj. exact (step_convex _ _ _ _ _ _ _ H rho BO ZR c e nfe I Ep SM RF CM j Hj). Qed.
End Step.
End Stage.
