(* Exact2_proofs.v -- exactness of constructed problems, and the scalar systems *)
From Coq Require Import Reals Qreals Lra Psatz.
From Verif Require Import Base Sx Utils Tableau Opts Model Ocp Problem Spec Cases Lib Sx_proofs Fesd Spec2 Spec3 Spec4 Dcs_proofs Elem_proofs Feas_proofs
  Mode_proofs Nlp_proofs Init_proofs Results_proofs Results2_proofs Results3_proofs Spec9 Spec10 Filippov_proofs Filippov2_proofs Filippov3_proofs Exact_proofs.
Local Open Scope R_scope.

Section Con.
Variables (lr : Q -> Q -> Q -> nat) (cp : nat -> scheme -> list Q) (d : ipopt_dict) (o : opts) (m : model)
  (oc : option ocp) (C : constructed) (rho : env).
Notation O := (the_opts C).
Notation t := (cn_tab C).
(* C10: the step bounds *)
Lemma bounds_steps : construct_problem lr cp d o m oc = Ok C -> bounds_ok rho (the_nlp C) ->
  ext_upto (o_gamma_h O) 1 -> (0 <= o_terminal_time O)%Q -> steps_nonneg O rho.
Proof.
  intros H BK Hg HT c e [Hc He]. assert (Hp : In (c, e) (elements O)) by (apply elements_in; split; assumption).
  destruct (o_gamma_h O) as [|q|] eqn:Eq; cbn in Hg; [|exact (step_nonneg _ _ _ _ _ _ _ H rho BK (c, e) q Hp Eq Hg HT)|contradiction].
  destruct (o_use_fesd O) eqn:F; [|unfold step_len; rewrite F; exact (nominal_nonneg _ _ _ _ _ _ _ H c Hc HT)].
  pose proof (step_bounds _ _ _ _ _ _ _ H rho BK (c, e) Hp F) as [B _]. unfold step_lower in B. rewrite Eq in B. contradiction.
Qed.
(* C08: the horizon *)
Lemma end_time_T : fesd_problem lr cp d o m oc C -> constraints_ok rho (the_nlp C) -> o_use_fesd O = true ->
  o_equidistant O = true \/ (1 < o_N_stages O)%nat -> end_time O rho = Q2R (o_terminal_time O).
Proof.
  intros (H & Ex & W) CO F HE. destruct (nlp_sound _ _ _ _ _ _ _ H Ex W rho CO) as (_ & SO & HO & _).
  destruct (o_equidistant O) eqn:Eq.
  - unfold end_time. rewrite (rupto_ext _ _ (fun _ => T O / INR (o_N_stages O))) by (intros c Hc; apply (SO c Hc); assumption).
    pose proof (stages_pos' _ _ _ _ _ _ _ H) as N. assert (P : 0 < INR (o_N_stages O)) by (apply lt_0_INR; exact N).
    assert (G : forall n v, rupto n (fun _ => v) = INR n * v).
    { intros n v. induction n as [|n IH]; [rewrite rupto_0; cbn; ring|]. rewrite rupto_succ, IH, S_INR. ring. }
    rewrite G. unfold T. field. lra.
  - destruct HE as [|HN]; [congruence|]. exact (HO HN F Eq).
Qed.

Hypothesis Hh : steps_nonneg O rho.
Lemma grid_in c e : is_element O c e -> 0 <= grid_time O rho c e + step_len O rho c e <= end_time O rho.
Proof.
  intros He. destruct (element_in_stage O rho Hh c e He) as [A B]. destruct (stage_in_horizon O rho Hh c (proj1 He)) as [D E].
  pose proof (Hh c e He). lra.
Qed.
Section Act.
Variable act : env -> nat -> nat -> Prop.
Hypothesis TR : exists X, filippov_trajectory O t m rho act X.
Lemma error_at Y L M : exact_solution O m rho act Y -> 0 <= L -> one_sided O m rho act L -> field_bound O m rho M -> 0 <= M ->
  forall c e, is_element O c e -> let tm := grid_time O rho c e + step_len O rho c e in
  distance2 m (end_state O t rho c e) (Y tm) <= weight_error O * M * tm * exp ((2 * L + weight_error O) * tm).
Proof.
  intros EY L0 OS FB M0 c e He tm. destruct TR as [X FX].
  assert (W0 : 0 <= weight_error O) by apply error_nonneg.
  pose proof (compare O t m rho act X Y L (weight_error O * M) Hh FX EY L0 OS ltac:(apply Rmult_le_pos; assumption)
    ltac:(intros; apply Rmult_le_compat_l; [exact W0|apply FB; assumption]) tm (grid_in c e He)) as G.
  destruct FX as (_ & _ & XE & _). eapply Rle_trans; [|exact G]. right. apply rupto_ext. intros i Hi. unfold tm. rewrite (XE c e i He Hi). reflexivity.
Qed.
Lemma exact_at Y L : o_repr O = Integral -> exact_solution O m rho act Y -> 0 <= L -> one_sided O m rho act L ->
  forall c e i, is_element O c e -> (i < m_nx m)%nat -> end_state O t rho c e i = Y (grid_time O rho c e + step_len O rho c e) i.
Proof.
  intros Er EY L0 OS c e i He Hi. destruct TR as [X FX]. set (tm := grid_time O rho c e + step_len O rho c e).
  assert (W0 : weight_error O = 0) by (unfold weight_error; rewrite Er; reflexivity).
  pose proof (compare O t m rho act X Y L 0 Hh FX EY L0 OS ltac:(lra) ltac:(intros; rewrite W0; lra) tm (grid_in c e He)) as G.
  rewrite !Rmult_0_l in G. destruct FX as (_ & _ & XE & _). rewrite <- (XE c e i He Hi). fold tm.
  assert (Z : distance2 m (X tm) (Y tm) = 0).
  { apply Rle_antisym; [exact G|]. apply rupto_nonneg. intros k _. pose proof (Rle_0_sqr (X tm k - Y tm k)) as S. exact S. }
  pose proof (rupto_zero _ _ ltac:(intros k _; exact (Rle_0_sqr (X tm k - Y tm k))) Z i Hi) as S. apply Rsqr_0_uniq in S. lra.
Qed.
End Act.
End Con.

(* ---- scalar systems ---- *)
Section Scalar.
Variables (a b x0 : Q).
Hypothesis Ha : 0 < Q2R a.
Hypothesis Hab : Q2R b <= Q2R a.
Hypothesis Hx : Q2R x0 <= 0.
Notation m := (switch_model a b x0).
Lemma sc_constant : piecewise_constant m.
Proof. intros s k i. destruct s as [|[|s]], k as [|[|[|k]]], i as [|[|i]]; intros x []. Qed.
Lemma sc_affine : affine_switching m.
Proof.
  intros [|s] e [H|H]; cbn in H; try contradiction; try (destruct s; contradiction). destruct H as [<-|[]].
  split; [intros x [<-|[]]; cbn; lia|]. intros v w z tau E _ _. exact (E 0%nat).
Qed.
Lemma sc_signs : sign_matrix m.
Proof.
  intros s i k. unfold sign, user_S. cbn [m_S switch_model]. destruct s as [|[|s]], i as [|[|[|i]]], k as [|[|k]]; cbn; try (right; left; reflexivity); try (left; reflexivity); right; right; reflexivity.
Qed.
Lemma sc_fit : rows_fit m.
Proof. intros [|s] [|[|i]] Hs Hi; cbn in *; try reflexivity; lia. Qed.
Lemma sc_complete s : (s < n_subsystems m)%nat -> complete m s.
Proof.
  intros Hs. assert (s = 0)%nat by (cbn in Hs; lia). subst s. intros sg. exists (if sg 0%nat then 1%nat else 0%nat). split; [destruct (sg 0%nat); cbn; lia|]. split.
  - intros [|k] Hk; [|cbn in Hk; lia]. right. destruct (sg 0%nat); reflexivity.
  - intros [|[|j]] Hj A; cbn in Hj; try lia; specialize (A 0%nat Nat.lt_0_1); destruct (sg 0%nat); try reflexivity; destruct A as [A|A]; discriminate A.
Qed.
(* mode 0 is active for x <= 0, mode 1 for x >= 0 *)
Definition sides (act : env -> nat -> nat -> Prop) : Prop := forall v, (act v 0%nat 0%nat <-> v (MX 0) <= 0) /\ (act v 0%nat 1%nat <-> 0 <= v (MX 0)).
Lemma sides_smallest : sides (smallest m).
Proof.
  intros v. assert (R0 : region_value m v 0 0 = v (MX 0)) by (unfold region_value; cbn -[Q2R]; unfold rsum; cbn -[Q2R]; unfold Q2R; cbn; lra).
  assert (R1 : region_value m v 0 1 = - v (MX 0)) by (unfold region_value; cbn -[Q2R]; unfold rsum; cbn -[Q2R]; unfold Q2R; cbn; lra).
  unfold smallest. split; split.
  - intros H. specialize (H 1%nat Nat.lt_1_2). rewrite R0, R1 in H. lra.
  - intros H [|[|k]] Hk; [lra|rewrite R0, R1; lra|cbn in Hk; lia].
  - intros H. specialize (H 0%nat Nat.lt_0_2). rewrite R0, R1 in H. lra.
  - intros H [|[|k]] Hk; [rewrite R0, R1; lra|lra|cbn in Hk; lia].
Qed.
Lemma sides_closed : sides (in_closed_region m).
Proof.
  intros v. assert (S0 : Q2R (sign m 0 0 0) = -1) by (unfold Q2R; cbn; lra). assert (S1 : Q2R (sign m 0 1 0) = 1) by (unfold Q2R; cbn; lra).
  assert (V : switch_value m v 0 0 = v (MX 0)) by reflexivity. unfold in_closed_region. split; split.
  - intros H. specialize (H 0%nat Nat.lt_0_1). rewrite S0, V in H. lra.
  - intros H [|k] Hk; [rewrite S0, V; lra|cbn in Hk; lia].
  - intros H. specialize (H 0%nat Nat.lt_0_1). rewrite S1, V in H. lra.
  - intros H [|k] Hk; [rewrite S1, V; lra|cbn in Hk; lia].
Qed.

Section At.
Variables (o : opts) (rho : env) (act : env -> nat -> nat -> Prop).
Hypothesis SD : sides act.
Hypothesis NS : o_sot o <> SotLocal.
Hypothesis X0 : rho (SX0 0) = Q2R x0.
Lemma sc_speed c : speed o rho c = 1.
Proof. unfold speed. destruct (o_sot o); try reflexivity. contradiction. Qed.
Lemma sc_velocity c x th : velocity o m rho c x th 0 = Q2R a * th 0%nat 0%nat + Q2R b * th 0%nat 1%nat.
Proof. unfold velocity. rewrite sc_speed. unfold mixed_field, mode_field. cbn -[Q2R]. ring. Qed.
Lemma sc_weights th : convex_weights m th <-> 0 <= th 0%nat 0%nat /\ 0 <= th 0%nat 1%nat /\ th 0%nat 0%nat + th 0%nat 1%nat = 1.
Proof.
  split.
  - intros H. destruct (H 0%nat Nat.lt_0_1) as [P S]. cbn in S. repeat split; [apply P; cbn; lia|apply P; cbn; lia|lra].
  - intros (P & Q & S) [|s] Hs; [|cbn in Hs; lia]. split; [intros [|[|k]] Hk; [assumption|assumption|cbn in Hk; lia]|cbn; lra].
Qed.
Lemma sc_one_sided : one_sided o m rho act 0.
Proof.
  intros c x y th th' _ [Cx Ax] [Cy Ay]. apply sc_weights in Cx. apply sc_weights in Cy. destruct Cx as (P & Q & S). destruct Cy as (P' & Q' & S').
  cbn [m_nx switch_model]. unfold rupto. cbn [seq map]. unfold rsum. cbn [fold_right]. rewrite !sc_velocity.
  assert (Ex : 0 < th 0%nat 0%nat -> x 0%nat <= 0) by (intros T; apply (proj1 (proj1 (SD (plain_point m rho c x)))), Ax; [cbn; lia|cbn; lia|exact T]).
  assert (Ex1 : 0 < th 0%nat 1%nat -> 0 <= x 0%nat) by (intros T; apply (proj1 (proj2 (SD (plain_point m rho c x)))), Ax; [cbn; lia|cbn; lia|exact T]).
  assert (Ey : 0 < th' 0%nat 0%nat -> y 0%nat <= 0) by (intros T; apply (proj1 (proj1 (SD (plain_point m rho c y)))), Ay; [cbn; lia|cbn; lia|exact T]).
  assert (Ey1 : 0 < th' 0%nat 1%nat -> 0 <= y 0%nat) by (intros T; apply (proj1 (proj2 (SD (plain_point m rho c y)))), Ay; [cbn; lia|cbn; lia|exact T]).
  set (p := th 0%nat 0%nat) in *. set (q := th 0%nat 1%nat) in *. set (p' := th' 0%nat 0%nat) in *. set (q' := th' 0%nat 1%nat) in *.
  set (u := x 0%nat) in *. set (v := y 0%nat) in *. clearbody p q p' q' u v.
  replace (Q2R a * p + Q2R b * q - (Q2R a * p' + Q2R b * q')) with ((Q2R a - Q2R b) * (p - p')).
  2: { replace q with (1 - p) by lra. replace q' with (1 - p') by lra. ring. }
  rewrite Rmult_0_l, Rplus_0_r.
  assert (G : (u - v) * (p - p') <= 0).
  { destruct (Rtotal_order u v) as [Hl|[He|Hg]].
    - assert (p' <= p); [|nra]. destruct (Rle_dec p' 0) as [|Np]; [lra|]. destruct (Rle_dec q 0) as [|Nq]; [lra|]. specialize (Ex1 ltac:(lra)). specialize (Ey ltac:(lra)). lra.
    - subst. lra.
    - assert (p <= p'); [|nra]. destruct (Rle_dec p 0) as [|Np]; [lra|]. destruct (Rle_dec q' 0) as [|Nq]; [lra|]. specialize (Ex ltac:(lra)). specialize (Ey1 ltac:(lra)). lra. }
  replace ((u - v) * ((Q2R a - Q2R b) * (p - p'))) with ((Q2R a - Q2R b) * ((u - v) * (p - p'))) by ring. nra.
Qed.
Lemma sc_bound : field_bound o m rho (Q2R a * Q2R a + Q2R b * Q2R b).
Proof.
  intros c x th _ Cx. apply sc_weights in Cx. destruct Cx as (P & Q & S). cbn [m_nx switch_model]. unfold rupto. cbn [seq map]. unfold rsum. cbn [fold_right].
  rewrite !sc_velocity. set (p := th 0%nat 0%nat) in *. set (q := th 0%nat 1%nat) in *. clearbody p q. replace q with (1 - p) by lra.
  pose proof (Rle_0_sqr (Q2R a - Q2R b)) as G. unfold Rsqr in G.
  assert (p <= 1) by lra. assert (0 <= p * (1 - p)) by (apply Rmult_le_pos; lra).
  assert (p * (1 - p) * (2 * (Q2R a * Q2R b)) <= p * (1 - p) * (Q2R a * Q2R a + Q2R b * Q2R b)) by (apply Rmult_le_compat_l; lra).
  assert (0 <= Q2R a * Q2R a) by (apply Rle_0_sqr). assert (0 <= Q2R b * Q2R b) by (apply Rle_0_sqr).
  assert (p * p <= p) by nra. assert ((1 - p) * (1 - p) <= 1 - p) by nra.
  nra.
Qed.
Lemma sc_curve : (forall T, continuous_between 0 T (switch_solution a b x0)) /\ switch_solution a b x0 0 = Q2R x0 /\
  forall c tm, ~ In tm [- Q2R x0 / Q2R a] -> exists th, active_weights m act (plain_point m rho c (fun _ => switch_solution a b x0 tm)) th /\
    forall i, (i < m_nx m)%nat -> derivable_pt_lim (switch_solution a b x0) tm (velocity o m rho c (fun _ => switch_solution a b x0 tm) th i).
Proof.
  set (ts := - Q2R x0 / Q2R a). assert (Ts : 0 <= ts) by (unfold ts; apply Rmult_le_pos; [lra|left; apply Rinv_0_lt_compat; exact Ha]).
  assert (At : Q2R x0 + Q2R a * ts = 0) by (unfold ts; field; lra).
  assert (Lo : forall z, z <= ts -> switch_solution a b x0 z = Q2R x0 + Q2R a * z).
  { intros z Hz. unfold switch_solution. fold ts. destruct (Rle_dec z ts); [reflexivity|lra]. }
  assert (Hi : forall z, ts <= z -> switch_solution a b x0 z = Rmax 0 (Q2R b) * (z - ts)).
  { intros z Hz. unfold switch_solution. fold ts. destruct (Rle_dec z ts) as [G|G]; [|reflexivity]. replace z with ts by lra. rewrite At. ring. }
  assert (Mx : 0 <= Rmax 0 (Q2R b)) by apply Rmax_l.
  assert (Mb : Rmax 0 (Q2R b) <= Q2R a) by (apply Rmax_lub; lra).
  assert (Mul : forall w, 0 <= w -> Rmax 0 (Q2R b) * w <= Q2R a * w) by (intros w Hw; apply Rmult_le_compat_r; assumption).
  assert (Mul0 : forall w, 0 <= w -> 0 <= Rmax 0 (Q2R b) * w) by (intros w Hw; apply Rmult_le_pos; assumption).
  split; [|split].
  - intros T. apply (lip_cont 0 T _ (Q2R a)).
    assert (G : forall y z, y <= z -> Rabs (switch_solution a b x0 z - switch_solution a b x0 y) <= Q2R a * (z - y)).
    { intros y z Hyz. assert (0 <= Q2R a * (z - y)) by (apply Rmult_le_pos; lra).
      destruct (Rle_dec z ts) as [Z|Z]; [|destruct (Rle_dec y ts) as [Y|Y]].
      - rewrite !Lo by lra. rewrite Rabs_right; lra.
      - rewrite (Hi z), (Lo y) by lra. pose proof (Mul (z - ts) ltac:(lra)). pose proof (Mul0 (z - ts) ltac:(lra)).
        assert (Q2R a * y <= Q2R a * ts) by (apply Rmult_le_compat_l; lra).
        rewrite Rabs_right; lra.
      - rewrite !Hi by lra. pose proof (Mul (z - y) ltac:(lra)). pose proof (Mul0 (z - y) ltac:(lra)). rewrite Rabs_right; lra. }
    intros y z _ _. destruct (Rle_dec y z) as [H|H].
    + rewrite Rabs_minus_sym, (Rabs_minus_sym y z), (Rabs_right (z - y)) by lra. apply G; exact H.
    + rewrite (Rabs_right (y - z)) by lra. apply G; lra.
  - rewrite Lo by lra. ring.
  - fold ts. intros c tm Ne. assert (tm <> ts) by (intros E; apply Ne; left; congruence).
    destruct (Rlt_dec tm ts) as [Hl|Hl].
    + exists (fun _ k => match k with O => 1 | _ => 0 end). split; [split; [apply sc_weights; lra|]|].
      * intros [|s] [|[|k]] Hs Hk P; cbn in Hs, Hk; try lia; try lra. apply SD. cbn. rewrite Lo by lra.
        assert (Q2R a * tm <= Q2R a * ts) by (apply Rmult_le_compat_l; lra). lra.
      * intros i Hi'. cbn in Hi'. assert (i = 0)%nat by lia. subst i. rewrite sc_velocity.
        apply (derivable_pt_lim_locally_ext (fun z => Q2R x0 + Q2R a * z) _ tm (tm - 1) ts); [lra|intros y Hy; symmetry; apply Lo; lra|].
        replace (Q2R a * 1 + Q2R b * 0) with (0 + Q2R a) by ring.
        apply (derivable_pt_lim_plus (fct_cte (Q2R x0)) (fun z => Q2R a * z)); [apply derivable_pt_lim_const|apply linear_deriv].
    + assert (Gt : ts < tm) by lra.
      assert (D : derivable_pt_lim (switch_solution a b x0) tm (Rmax 0 (Q2R b))).
      { apply (derivable_pt_lim_locally_ext (fun z => Rmax 0 (Q2R b) * z + - (Rmax 0 (Q2R b) * ts)) _ tm ts (tm + 1)); [lra|intros y Hy; rewrite Hi by lra; ring|].
        pose proof (derivable_pt_lim_plus (fun z => Rmax 0 (Q2R b) * z) (fct_cte (- (Rmax 0 (Q2R b) * ts))) tm _ _
          (linear_deriv _ tm) (derivable_pt_lim_const _ tm)) as G. rewrite Rplus_0_r in G. exact G. }
      destruct (Rle_dec (Q2R b) 0) as [Hb|Hb].
      * assert (M0 : Rmax 0 (Q2R b) = 0) by (apply Rmax_left; exact Hb). rewrite M0 in D.
        assert (P : 0 < Q2R a - Q2R b) by lra.
        assert (W0 : 0 <= - Q2R b / (Q2R a - Q2R b)) by (apply Rmult_le_pos; [lra|left; apply Rinv_0_lt_compat; exact P]).
        assert (W1 : 0 <= Q2R a / (Q2R a - Q2R b)) by (apply Rmult_le_pos; [lra|left; apply Rinv_0_lt_compat; exact P]).
        exists (fun _ k => match k with O => - Q2R b / (Q2R a - Q2R b) | _ => Q2R a / (Q2R a - Q2R b) end).
        assert (Z : switch_solution a b x0 tm = 0) by (rewrite Hi, M0 by lra; ring).
        split; [split; [apply sc_weights; repeat split; [exact W0|exact W1|field; lra]|]|].
        -- intros [|s] [|[|k]] Hs Hk _; cbn in Hs, Hk; try lia; apply SD; cbn; rewrite Z; lra.
        -- intros i Hi'. cbn in Hi'. assert (i = 0)%nat by lia. subst i. rewrite sc_velocity.
           replace (Q2R a * (- Q2R b / (Q2R a - Q2R b)) + Q2R b * (Q2R a / (Q2R a - Q2R b))) with 0 by (field; lra). exact D.
      * assert (M1 : Rmax 0 (Q2R b) = Q2R b) by (apply Rmax_right; lra). rewrite M1 in D.
        exists (fun _ k => match k with O => 0 | _ => 1 end). split; [split; [apply sc_weights; lra|]|].
        -- intros [|s] [|[|k]] Hs Hk P; cbn in Hs, Hk; try lia; try lra. apply SD. cbn. rewrite Hi by lra. apply Mul0. lra.
        -- intros i Hi'. cbn in Hi'. assert (i = 0)%nat by lia. subst i. rewrite sc_velocity.
           replace (Q2R a * 0 + Q2R b * 1) with (Q2R b) by ring. exact D.
Qed.
Lemma sc_solution : exact_solution o m rho act (fun z _ => switch_solution a b x0 z).
Proof.
  destruct sc_curve as (A & B & D). split; [intros i _; apply A|]. split.
  - intros i Hi'. cbn in Hi'. assert (i = 0)%nat by lia. subst i. rewrite X0. exact B.
  - exists [- Q2R x0 / Q2R a]. intros c tm _ _ Ne. exact (D c tm Ne).
Qed.
End At.
End Scalar.
