(* Cost_proofs.v -- the objective of a feasible point and the cost of a solution of the switched system *)
From Coq Require Import Reals Qreals Lra Psatz.
From Verif Require Import Base Sx Utils Tableau Opts Model Ocp Problem Spec Cases Lib Sx_proofs Fe_proofs Prob_proofs Coll_proofs
  Body_proofs Model_proofs Con_proofs Index3_proofs Fesd Sem_proofs Dcs_proofs Point_proofs Elem_proofs Nlp_proofs
  Opts_proofs Tableau_proofs Poly_proofs Spec2 Feas_proofs Feas2_proofs Spec3 Numeric Mode_proofs Smooth_proofs Spec9 Spec10 Results_proofs Results2_proofs Results3_proofs Spec4 Init_proofs Filippov_proofs
  Filippov2_proofs Filippov3_proofs Exact_proofs Exact2_proofs Spec11 ExistBase_proofs Spec20 Soft_proofs Spec21 Conv_proofs Conv2_proofs Conv3_proofs Conv4_proofs
  Spec24 Relax_proofs Relax2_proofs Relax3_proofs Spec25.
Local Open Scope R_scope.

(* ---- increments of functions that are differentiable off finitely many points ---- *)
Lemma increment_le a b f pts v : a <= b -> continuous_between a b f ->
  (forall z, a < z < b -> ~ In z pts -> exists l, derivable_pt_lim f z l /\ l <= v) -> f b - f a <= v * (b - a).
Proof.
  intros H Cf Df. set (g := fun z => f (Rmax a (Rmin b z)) - v * z).
  assert (G : g b <= g a).
  { apply (decreasing g pts a b H).
    - intros z Hz. unfold g. apply (continuity_pt_minus (fun z => f (Rmax a (Rmin b z))) (fun z => v * z)); [apply (clamp_cont a b f H Cf)|].
      apply derivable_continuous_pt. exists v. apply linear_deriv.
    - intros z Hz N. destruct (Df z Hz N) as (l & Dl & Hl). exists (l - v). split; [|lra]. unfold g.
      apply (derivable_pt_lim_minus (fun z => f (Rmax a (Rmin b z))) (fun z => v * z)); [apply (clamp_deriv a b f z l Hz Dl)|apply linear_deriv]. }
  unfold g in G. rewrite !clamp_id in G by lra. lra.
Qed.
Lemma increment a b f pts s E : a <= b -> continuous_between a b f ->
  (forall z, a < z < b -> ~ In z pts -> exists l, derivable_pt_lim f z l /\ Rabs (l - s) <= E) -> Rabs (f b - f a - s * (b - a)) <= E * (b - a).
Proof.
  intros H Cf Df.
  assert (U : f b - f a <= (s + E) * (b - a)).
  { apply (increment_le a b f pts); [exact H|exact Cf|]. intros z Hz N. destruct (Df z Hz N) as (l & Dl & Hl). exists l. split; [exact Dl|].
    pose proof (Rle_abs (l - s)). lra. }
  assert (V : - f b - - f a <= (E - s) * (b - a)).
  { apply (increment_le a b (fun z => - f z) pts); [exact H| |].
    - intros z Hz eps He. destruct (Cf z Hz eps He) as (d & Hd & G). exists d. split; [exact Hd|]. intros y Hy Hyz.
      replace (- f y - - f z) with (- (f y - f z)) by ring. rewrite Rabs_Ropp. exact (G y Hy Hyz).
    - intros z Hz N. destruct (Df z Hz N) as (l & Dl & Hl). exists (- l). split; [apply derivable_pt_lim_opp; exact Dl|].
      pose proof (Rle_abs (- (l - s))) as G. rewrite Rabs_Ropp in G. lra. }
  apply Rabs_le. lra.
Qed.
Lemma between_sub a b a' b' f : a <= a' -> b' <= b -> continuous_between a b f -> continuous_between a' b' f.
Proof.
  intros Ha Hb Cf z Hz eps He. destruct (Cf z ltac:(lra) eps He) as (d & Hd & G). exists d. split; [exact Hd|]. intros y Hy. apply G. lra.
Qed.

(* ---- telescoping over the grid ---- *)
Lemma telescope n (f : nat -> R) : rupto n (fun k => f (S k) - f k) = f n - f 0%nat.
Proof. induction n as [|n IH]; [rewrite rupto_0; ring|]. rewrite rupto_succ, IH. ring. Qed.
Lemma rupto_diff n f g : rupto n f - rupto n g = rupto n (fun k => f k - g k).
Proof. induction n as [|n IH]; [rewrite !rupto_0; ring|]. rewrite !rupto_succ, <- IH. ring. Qed.
Lemma grid_telescope o rho (J : R -> R) :
  rupto (o_N_stages o) (fun c => rupto (nfe_of o c) (fun e => J (grid_time o rho c e + step_len o rho c e) - J (grid_time o rho c e))) =
  J (end_time o rho) - J 0.
Proof.
  rewrite (rupto_ext _ _ (fun c => J (rupto (S c) (stage_length o rho)) - J (rupto c (stage_length o rho)))).
  - rewrite (telescope (o_N_stages o) (fun c => J (rupto c (stage_length o rho)))). rewrite rupto_0. reflexivity.
  - intros c _. rewrite (rupto_ext _ _ (fun e => J (rupto c (stage_length o rho) + rupto (S e) (step_len o rho c)) - J (rupto c (stage_length o rho) + rupto e (step_len o rho c)))).
    + rewrite (telescope (nfe_of o c) (fun e => J (rupto c (stage_length o rho) + rupto e (step_len o rho c)))).
      rewrite rupto_0, Rplus_0_r, rupto_succ. reflexivity.
    + intros e _. unfold grid_time. rewrite rupto_succ, Rplus_assoc. reflexivity.
Qed.
Lemma end_is_last o rho : (0 < o_N_stages o)%nat -> (0 < nfe_of o (last_stage o))%nat ->
  grid_time o rho (last_stage o) (last_elem o (last_stage o)) + step_len o rho (last_stage o) (last_elem o (last_stage o)) = end_time o rho.
Proof.
  intros N0 F0. unfold grid_time, end_time. rewrite Rplus_assoc, <- rupto_succ. unfold last_elem at 1. replace (S (nfe_of o (last_stage o) - 1)) with (nfe_of o (last_stage o)) by lia.
  change (rupto (nfe_of o (last_stage o)) (step_len o rho (last_stage o))) with (stage_length o rho (last_stage o)). rewrite <- rupto_succ. f_equal. unfold last_stage. lia.
Qed.

(* ---- weights of the cost ---- *)
Lemma B_sum cp o t : make_tab cp o = Ok t -> points_ok cp o -> o_repr o = Integral ->
  entry1 (t_B t) 0 + rupto (o_ns o) (fun j => entry1 (t_B t) (j + 1)) = 1.
Proof.
  intros MT PO Er. destruct (PO Er) as (Lp & Dp & _). destruct (tab_integral cp o t MT Er) as (it & Hit & EB & _).
  assert (pr : Riemann_integrable (peval [1%R]) 0 1) by (apply continuity_implies_RiemannInt; [lra|intros x _; apply peval_continuity]).
  pose proof (integral_B _ Dp it Hit [1%R] pr ltac:(cbn; lia)) as G.
  assert (Et : it_tau it = 0%Q :: cp (o_ns o) (o_scheme o)) by (destruct (it_parts _ it Hit) as (_ & _ & _ & _ & _ & _ & Et); exact Et).
  assert (E1 : map (fun tq => peval [1%R] (Q2R tq)) (it_tau it) = 1%R :: map (fun _ => 1%R) (seq 0 (o_ns o))).
  { rewrite Et. cbn [map]. f_equal; [cbn; ring|]. apply map_const_seq; [exact Lp|intros x _; cbn; ring]. }
  rewrite E1, dot_row in G. rewrite <- EB in G.
  assert (I1 : RiemannInt pr = 1%R).
  { assert (EE : RiemannInt pr = RiemannInt (RiemannInt_P14 0 1 1)).
    { apply RiemannInt_P18; [lra|]. intros x _. cbn. unfold fct_cte. ring. }
    rewrite EE, RiemannInt_P15. ring. }
  rewrite I1 in G. rewrite <- G. rewrite Rmult_1_r. f_equal. apply rupto_ext. intros k _. ring.
Qed.
Lemma cost_weights cp re sc n : exists K, 0 <= K /\ forall o t, method re sc n o -> make_tab cp o = Ok t -> points_ok cp o -> no_left_weight o t ->
  rupto (o_ns o) (fun j => Rabs (quad_weight o t j)) <= K /\ Rabs (rupto (o_ns o) (quad_weight o t) - 1) <= weight_error o.
Proof.
  set (KI := match generate_butcher_tableu_integral (cp n sc) with Ok it => rupto n (fun j => Rabs (entry1 (it_B it) (j + 1))) | _ => 0 end).
  set (KD := match generate_butcher_tableu n sc with Ok bt => rupto n (fun j => Rabs (entry1 (bt_b bt) j)) | _ => 0 end).
  assert (I0 : 0 <= KI) by (unfold KI; destruct (generate_butcher_tableu_integral (cp n sc)); [apply rupto_nonneg; intros; apply Rabs_pos|lra]).
  assert (D0 : 0 <= KD) by (unfold KD; destruct (generate_butcher_tableu n sc); [apply rupto_nonneg; intros; apply Rabs_pos|lra]).
  exists (KI + KD). split; [lra|]. intros o t (E1 & E2 & E3) MT PO NL. destruct (integral_dec (o_repr o)) as [Er|Er].
  - destruct (tab_integral cp o t MT Er) as (it & Hit & EB & _). split.
    + apply Rle_trans with KI; [|lra]. unfold KI. rewrite <- E2, <- E3, Hit. right. apply rupto_ext. intros j _. unfold quad_weight. rewrite Er, EB. reflexivity.
    + pose proof (B_sum cp o t MT PO Er) as G. rewrite (NL Er), Rplus_0_l in G.
      rewrite (rupto_ext _ _ (fun j => entry1 (t_B t) (j + 1))) by (intros j _; unfold quad_weight; rewrite Er; reflexivity). rewrite G.
      replace (1 - 1) with 0 by ring. rewrite Rabs_R0. apply error_nonneg.
  - destruct (tab_differential cp o t MT Er) as (bt & Hb & _ & Eb).
    assert (Q : forall j, quad_weight o t j = entry1 (t_b t) j) by (intros j; unfold quad_weight; destruct (o_repr o); [congruence|reflexivity|reflexivity]). split.
    + apply Rle_trans with KD; [|lra]. unfold KD. rewrite <- E2, <- E3, Hb. right. apply rupto_ext. intros j _. rewrite Q, Eb. reflexivity.
    + rewrite (rupto_ext _ _ (entry1 (t_b t))) by (intros j _; apply Q). unfold weight_error. destruct (o_repr o) eqn:E0; [congruence| |]; apply (b_sum cp o t MT); rewrite E0; discriminate.
Qed.

(* ---- the objective against the cost of a solution ---- *)
Section Con.
Variables (lr : Q -> Q -> Q -> nat) (cp : nat -> scheme -> list Q) (d : ipopt_dict) (o : opts) (m : model)
  (oc : option ocp) (C : constructed) (rho : env).
Hypothesis FP : fesd_problem lr cp d o m oc C.
Hypothesis FE : feasible rho (the_nlp C).
Hypothesis CS : relaxed_setting cp (the_opts C) m.
Notation O := (the_opts C).
Notation t := (cn_tab C).
Notation OC := (the_ocp oc).
Variables (act : env -> nat -> nat -> Prop) (near : R -> env -> nat -> nat -> Prop) (D : (nat -> R) -> Prop) (M h eta Kw : R) (Y : R -> nat -> R).
Hypothesis NR : near_rule O m act near.
Hypothesis SI : stages_in O t rho D.
Hypothesis BD : bounded_on O m rho D M.
Hypothesis M0 : 0 <= M.
Hypothesis Hh : steps_upto O rho h.
Variable A : nat -> nat -> R.
Hypothesis HA : forall c e j i, is_element O c e -> (j < o_ns O)%nat -> (i < m_nx m)%nat ->
  stage_state O t rho c e j i - start_state O t rho c e i =
  step_len O rho c e * rupto (o_ns O) (fun k => A j k * (speed O rho c * rhs O m (stage_point O t m rho c e k) i)).
Let K : R := coeff_bound (o_ns O) A + 2.
Hypothesis EY : exact_solution O m rho act Y.
Hypothesis YD : forall tm, 0 <= tm <= end_time O rho -> D (Y tm).
Hypothesis GC : grid_close O t m rho eta Y.
Hypothesis eta0 : 0 <= eta.

Lemma some_relaxation : exists eps, 0 <= eps /\ relaxed_by O m rho (eps * eps).
Proof.
  exists (sqrt (Rmax 0 (comp_residual C rho))). split; [apply sqrt_pos|]. rewrite sqrt_sqrt by apply Rmax_l.
  apply (relaxed_by_residual lr cp d o m oc C rho FP). apply Rmax_r.
Qed.
Lemma stage_start c e j i : is_element O c e -> (j < o_ns O)%nat -> (i < m_nx m)%nat ->
  Rabs (stage_state O t rho c e j i - start_state O t rho c e i) <= K * M * h.
Proof.
  intros He Hj Hi. destruct some_relaxation as (eps & e0 & RB). pose proof CS as (_ & _ & PF & PM).
  destruct (element_weights' lr cp d o m oc C rho FP FE CS c e He) as (be & B1 & B2 & B3).
  pose proof (near_stage' cp m C rho CS near D M h eps (rule_near lr cp d o m oc C rho FP FE PM eps e0 RB PF act near NR) SI BD M0 Hh A HA
    c e 0 be j i He ltac:(lra) Hj Hi B1 B2 (B3 i Hi)) as G.
  unfold segment in G. rewrite Rmult_0_l, Rplus_0_r, Rminus_0_r, Rmult_1_l in G. exact G.
Qed.
Lemma sn : steps_nonneg O rho. Proof. intros c e He. apply (Hh c e He). Qed.
Lemma nfe_all c : (c < o_N_stages O)%nat -> (0 < nfe_of O c)%nat.
Proof. intros Hc. apply (nfe_pos_con _ _ _ _ _ _ _ FP c Hc). Qed.
Lemma grid_start c e : is_element O c e -> 0 <= grid_time O rho c e <= end_time O rho.
Proof.
  intros He. pose proof (element_in_stage O rho sn c e He) as [G1 _]. pose proof (stage_in_horizon O rho sn c (proj1 He)) as [G2 _].
  pose proof (grid_in C rho sn c e He). pose proof (sn c e He). lra.
Qed.
Lemma start_close c e i : is_element O c e -> (i < m_nx m)%nat -> Rabs (start_state O t rho c e i - Y (grid_time O rho c e) i) <= eta.
Proof.
  intros He Hi. destruct (element_walk O nfe_all c e He) as (k & Hk & Ek). destruct k as [|k].
  - cbn [walk] in Ek. injection Ek as <- <-. destruct EY as (_ & Y0 & _). unfold start_state. cbn. unfold grid_time. rewrite !rupto_0, Rplus_0_r, (Y0 i Hi).
    match goal with |- Rabs (?x - ?x) <= _ => replace (x - x) with 0 by ring end. rewrite Rabs_R0. exact eta0.
  - pose proof (walk_before O nfe_all k ltac:(lia)) as B. pose proof (ts_next O rho nfe_all k ltac:(lia)) as T1. unfold ts in T1. rewrite Ek in B, T1. cbn [fst snd] in B, T1.
    pose proof (walk_element O nfe_all k ltac:(lia)) as W. destruct (walk O k) as [c' e']. cbn [fst snd] in *. rewrite T1.
    unfold start_state. rewrite B. exact (GC c' e' i W Hi).
Qed.
Lemma solution_moves c e tm i : is_element O c e -> grid_time O rho c e <= tm <= grid_time O rho c e + step_len O rho c e -> (i < m_nx m)%nat ->
  Rabs (Y tm i - Y (grid_time O rho c e) i) <= M * h.
Proof.
  intros He Ht Hi. destruct EY as (CY & _ & pts & DY). pose proof (element_in_stage O rho sn c e He) as [G1 G2]. pose proof (grid_start c e He) as G3. pose proof (grid_in C rho sn c e He) as G4.
  pose proof (Hh c e He) as [_ h1].
  pose proof (increment (grid_time O rho c e) tm (fun z => Y z i) pts 0 M ltac:(lra)) as G. rewrite Rmult_0_l, Rminus_0_r in G.
  eapply Rle_trans; [apply G|].
  - apply (between_sub 0 (end_time O rho)); [lra|lra|exact (CY i Hi)].
  - intros z Hz N. destruct (DY c z (proj1 He) ltac:(lra) N) as (th & Aw & Dz). exists (velocity O m rho c (Y z) th i). split; [exact (Dz i Hi)|].
    rewrite Rminus_0_r. apply BD; [apply He|apply YD; lra|apply Aw|exact Hi].
  - apply Rmult_le_compat_l; [exact M0|lra].
Qed.

Variables (Lq LT Mq : R) (J : R -> R).
Hypothesis PQ : uses_only (plain_sym m) (oc_fq OC).
Hypothesis RL : rate_lipschitz O m OC rho D Lq.
Hypothesis RB : rate_bounded O m OC rho D Mq.
Hypothesis EL : end_lipschitz O m OC rho D LT.
Hypothesis ED : D (end_state O t rho (last_stage O) (last_elem O (last_stage O))).
Hypothesis AJ : accumulated_cost O m OC rho Y J.
Hypothesis L0 : 0 <= Lq.
Hypothesis W1 : rupto (o_ns O) (fun j => Rabs (quad_weight O t j)) <= Kw.
Hypothesis W2 : Rabs (rupto (o_ns O) (quad_weight O t) - 1) <= weight_error O.
Let E : R := Kw * (Lq * (eta + (K + 1) * M * h)) + weight_error O * Mq.

Lemma rate_at c e j : speed O rho c * eval (stage_point O t m rho c e j) (oc_fq OC) = cost_rate O m OC rho c (stage_state O t rho c e j).
Proof. unfold cost_rate. f_equal. apply (plain_eval m); [exact PQ|]. apply stage_plain. Qed.
Lemma element_cost c e : is_element O c e ->
  Rabs (stage_cost O t m OC rho c e - (J (grid_time O rho c e + step_len O rho c e) - J (grid_time O rho c e))) <= E * step_len O rho c e.
Proof.
  intros He. pose proof (element_in_stage O rho sn c e He) as [G1 G2]. pose proof (grid_start c e He) as G3. pose proof (grid_in C rho sn c e He) as G4. pose proof (sn c e He) as h0.
  set (hh := step_len O rho c e) in *. set (g := grid_time O rho c e) in *.
  set (q := fun j => cost_rate O m OC rho c (stage_state O t rho c e j)). set (w := quad_weight O t) in *.
  set (S := rupto (o_ns O) (fun j => w j * q j)).
  assert (ES : stage_cost O t m OC rho c e = S * hh).
  { unfold stage_cost, S. fold hh. rewrite (Rmult_comm _ hh), <- rupto_scale. apply rupto_ext. intros j Hj. rewrite rate_at. unfold w, q. ring. }
  rewrite ES. destruct AJ as (CJ & _ & pts & DJ).
  pose proof (increment g (g + hh) J pts S E ltac:(lra) (between_sub 0 (end_time O rho) g (g + hh) J ltac:(lra) ltac:(lra) CJ)) as G.
  replace (g + hh - g) with hh in G by ring. rewrite Rabs_minus_sym. apply G. clear G.
  intros z Hz N. exists (cost_rate O m OC rho c (Y z)). split; [apply DJ; [apply He|lra|exact N]|].
  set (y := cost_rate O m OC rho c (Y z)). assert (Dz : D (Y z)) by (apply YD; lra).
  assert (Q1 : forall j, (j < o_ns O)%nat -> Rabs (q j - y) <= Lq * (eta + (K + 1) * M * h)).
  { intros j Hj. apply RL; [apply He|apply SI; assumption|exact Dz|]. intros k Hk.
    pose proof (stage_start c e j k He Hj Hk) as A1. pose proof (start_close c e k He Hk) as A2. pose proof (solution_moves c e z k He ltac:(fold g hh; lra) Hk) as A3. fold g in A2, A3.
    set (a := stage_state O t rho c e j k) in *. set (b := start_state O t rho c e k) in *. set (y0 := Y g k) in *.
    replace (a - Y z k) with ((a - b) + ((b - y0) + - (Y z k - y0))) by ring.
    eapply Rle_trans; [apply Rabs_triang|]. eapply Rle_trans; [apply Rplus_le_compat_l, Rabs_triang|]. rewrite Rabs_Ropp. lra. }
  set (kap := rupto (o_ns O) w) in *.
  replace (y - S) with (- (rupto (o_ns O) (fun j => w j * (q j - y)) + (kap - 1) * y)).
  2:{ unfold S, kap. rewrite (rupto_ext _ (fun j => w j * (q j - y)) (fun j => w j * q j + (- y) * w j)) by (intros; ring). rewrite rupto_plus, rupto_scale. ring. }
  rewrite Rabs_Ropp. eapply Rle_trans; [apply Rabs_triang|]. unfold E. apply Rplus_le_compat.
  - eapply Rle_trans; [apply rupto_abs|]. set (r := Lq * (eta + (K + 1) * M * h)) in *.
    eapply Rle_trans; [apply (rupto_le _ _ (fun j => r * Rabs (w j)))|].
    + intros j Hj. rewrite Rabs_mult, Rmult_comm. apply Rmult_le_compat_r; [apply Rabs_pos|exact (Q1 j Hj)].
    + rewrite rupto_scale, (Rmult_comm Kw). apply Rmult_le_compat_l; [|exact W1].
      unfold r. apply Rmult_le_pos; [exact L0|]. pose proof (coeff_nonneg (o_ns O) A). pose proof (Hh c e He). assert (0 <= (K + 1) * M * h); [|lra].
      apply Rmult_le_pos; [apply Rmult_le_pos; [unfold K; lra|exact M0]|lra].
  - rewrite Rabs_mult. apply Rmult_le_compat; [apply Rabs_pos|apply Rabs_pos|exact W2|]. apply RB; [apply He|exact Dz].
Qed.
Lemma plain_close : Rabs (plain_cost O t m OC rho - (step_penalty O t m rho + total_cost O m OC rho Y J)) <= E * end_time O rho + LT * eta.
Proof.
  pose proof (N_pos _ _ _ _ _ _ _ FP) as N0. assert (Nl : (last_stage O < o_N_stages O)%nat) by (unfold last_stage; lia).
  pose proof (nfe_all _ Nl) as F0. assert (He : is_element O (last_stage O) (last_elem O (last_stage O))) by (split; [exact Nl|unfold last_elem; lia]).
  pose proof (end_is_last O rho N0 F0) as ET. pose proof (grid_in C rho sn _ _ He) as G4.
  unfold plain_cost, running_cost, total_cost, terminal_point, step_penalty.
  rewrite (rupto_ext _ _ (fun c => rupto (nfe_of O c) (fun e => stage_cost O t m OC rho c e) + rupto (nfe_of O c) (fun e => step_cost O t m rho c e))) by (intros; apply rupto_plus).
  rewrite rupto_plus. set (P := rupto (o_N_stages O) (fun c => rupto (nfe_of O c) (fun e => step_cost O t m rho c e))).
  assert (J0 : J 0 = 0) by apply AJ. pose proof (grid_telescope O rho J) as Tl. rewrite J0, Rminus_0_r in Tl.
  set (x := end_state O t rho (last_stage O) (last_elem O (last_stage O))) in *.
  change (eval (plain_point m rho (last_stage O) x) (oc_fT OC)) with (end_cost O m OC rho x).
  assert (T1 : Rabs (end_cost O m OC rho x - end_cost O m OC rho (Y (end_time O rho))) <= LT * eta).
  { apply EL; [exact ED|apply YD; lra|]. intros k Hk. pose proof (GC _ _ k He Hk) as G. rewrite ET in G. exact G. }
  set (u := rupto (o_N_stages O) (fun c => rupto (nfe_of O c) (fun e => stage_cost O t m OC rho c e))).
  assert (T2 : Rabs (u - J (end_time O rho)) <= E * end_time O rho).
  { rewrite <- Tl. unfold u, end_time. rewrite <- rupto_scale, rupto_diff.
    eapply Rle_trans; [apply rupto_abs|]. apply rupto_le. intros c Hc. rewrite rupto_diff.
    eapply Rle_trans; [apply rupto_abs|]. unfold stage_length. rewrite <- rupto_scale. apply rupto_le. intros e Hej.
    exact (element_cost c e (conj Hc Hej)). }
  match goal with |- Rabs ?z <= _ => replace z with ((u - J (end_time O rho)) + (end_cost O m OC rho x - end_cost O m OC rho (Y (end_time O rho)))) by ring end.
  eapply Rle_trans; [apply Rabs_triang|]. lra.
Qed.
Lemma objective_close : Rabs (eval rho (cost (the_nlp C)) - (elastic_penalty O rho + cost_scale O rho * (step_penalty O t m rho + total_cost O m OC rho Y J))) <=
  Rabs (cost_scale O rho) * (E * end_time O rho + LT * eta).
Proof.
  pose proof FP as (H & Ex & W). rewrite (cost_exact lr cp d o m oc C H Ex W rho).
  replace (nlp_cost O t m OC rho) with (elastic_penalty O rho + cost_scale O rho * plain_cost O t m OC rho).
  2:{ unfold nlp_cost, elastic_penalty, cost_scale. destruct (elastic O); [destruct (o_obj_direct O)|]; ring. }
  match goal with |- Rabs (?a + ?s * ?x - (?a + ?s * ?y)) <= _ => replace (a + s * x - (a + s * y)) with (s * (x - y)) by ring end.
  rewrite Rabs_mult. apply Rmult_le_compat_l; [apply Rabs_pos|exact plain_close].
Qed.
End Con.
