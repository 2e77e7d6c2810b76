(* Exist3_proofs.v -- the statements of Props_Exist.v and their cases *)
From Coq Require Import Reals Qreals Lra Psatz.
From Verif Require Import Base Sx Utils Tableau Opts Model Ocp Problem Spec Cases Lib Sx_proofs Index3_proofs Fesd Spec2 Spec3 Spec4 Dcs_proofs Nlp_proofs Poly_proofs Witness Feas6_proofs
  Init_proofs Results2_proofs Results3_proofs Feas5_proofs Spec9 Spec10 Spec11 Filippov3_proofs Filippov4_proofs Exact_proofs Exact2_proofs Exact3_proofs Bounds_proofs Exist_proofs Exist2_proofs.
Local Open Scope R_scope.

Lemma feasible_set lr cp d o m oc C rho : fesd_problem lr cp d o m oc C -> o_mpcc (the_opts C) <> MBoolean ->
  (feasible rho (the_nlp C) <-> var_bounds (the_opts C) (explicit_end C) m (the_ocp oc) rho /\ nlp_constraints (the_opts C) (cn_tab C) m (the_ocp oc) rho).
Proof.
  intros (H & E & W) NB. assert (NB' : o_mpcc o <> MBoolean) by (intros A; apply NB; rewrite (options_kept _ _ _ _ _ _ _ H); exact A).
  unfold feasible. rewrite (bounds_iff lr cp d o m oc C H rho NB), (nlp_exact lr cp d o m oc C H E W rho NB'). reflexivity.
Qed.

(* ---- a single element cannot hold a switch ---- *)
Section One.
Variables (lr : Q -> Q -> Q -> nat) (cp : nat -> scheme -> list Q) (d : ipopt_dict) (o : opts) (a b x0 : Q) (oc : option ocp)
  (C : constructed) (rho : env).
Notation O := (the_opts C).
Notation m := (switch_model a b x0).
Lemma one_element c : fesd_problem lr cp d o m oc C -> filippov_setting cp O m rho -> o_use_fesd O = true ->
  o_cross O = SumLambdas \/ t_rbe (cn_tab C) = true -> ext_upto (o_gamma_h O) 1 -> o_sot O <> SotLocal ->
  rho (SX0 0) = Q2R x0 -> (0 < a)%Q -> (b < a)%Q -> (x0 <= 0)%Q -> o_repr O = Integral -> o_equidistant O = true -> (0 <= o_terminal_time O)%Q ->
  (c < o_N_stages O)%nat -> nfe_of O c = 1%nat ->
  INR c * (T O / INR (o_N_stages O)) < - Q2R x0 / Q2R a < INR (S c) * (T O / INR (o_N_stages O)) ->
  ~ feasible rho (the_nlp C).
Proof.
  intros FP FS Hf XC Hg NS X0 Ha Hb Hx Er Eq HT Hc N1 [B1 B2] FE.
  pose proof (scalar_exact lr cp d o a b x0 oc C rho FP FE FS Hf XC Hg HT NS X0 Ha ltac:(apply Qlt_le_weak, Hb) Hx Er) as EX.
  assert (A : 0 < Q2R a) by (apply Qlt_Rlt in Ha; rewrite RMicromega.Q2R_0 in Ha; exact Ha). assert (B : Q2R b < Q2R a) by (apply Qlt_Rlt, Hb).
  set (L := T O / INR (o_N_stages O)) in *. set (ts := - Q2R x0 / Q2R a) in *. assert (At : Q2R x0 + Q2R a * ts = 0) by (unfold ts; field; lra).
  destruct FP as (H & Exx & W). destruct (nlp_sound _ _ _ _ _ _ _ H Exx W rho (proj2 FE)) as (_ & SO & _).
  assert (SL : forall k, (k < o_N_stages O)%nat -> stage_length O rho k = L) by (intros k Hk; apply (SO k Hk); assumption).
  assert (G0 : grid_time O rho c 0 = INR c * L) by (unfold grid_time; rewrite (rupto_const c L) by (intros k Hk; apply SL; lia); rewrite rupto_0; ring).
  assert (Ie : is_element O c 0) by (split; [exact Hc|rewrite N1; lia]).
  assert (S1 : step_len O rho c 0 = L) by (pose proof (SL c Hc) as E; unfold stage_length in E; rewrite N1, rupto_succ, rupto_0 in E; lra).
  assert (LP : 0 < L) by (rewrite S_INR in B2; lra).
  assert (St : start_state O (cn_tab C) rho c 0 0 = Q2R x0 + Q2R a * (INR c * L)).
  { unfold start_state. destruct c as [|c]; cbn [before state_at]; [rewrite X0; cbn; ring|].
    assert (Ip : is_element O c (nfe_of O c - 1)).
    { split; [lia|]. pose proof (proj2 (nfe_pos_con lr cp d o m oc C (conj H (conj Exx W)) c ltac:(lia))). lia. }
    change (end_state O (cn_tab C) rho c (nfe_of O c - 1) 0 = Q2R x0 + Q2R a * (INR (S c) * L)). rewrite (EX _ _ Ip).
    assert (G1 : grid_time O rho c (nfe_of O c - 1) + step_len O rho c (nfe_of O c - 1) = INR (S c) * L).
    { rewrite <- G0. unfold grid_time. rewrite rupto_0, (rupto_succ c). unfold stage_length.
      replace (rupto (nfe_of O c) (step_len O rho c)) with (rupto (S (nfe_of O c - 1)) (step_len O rho c)) by (f_equal; destruct Ip; lia). rewrite rupto_succ. ring. }
    rewrite G1. unfold switch_solution. fold ts. destruct (Rle_dec (INR (S c) * L) ts); [reflexivity|lra]. }
  assert (FEl : exists act, sides act /\ exists kappa, Rabs (kappa - 1) <= weight_error O /\ filippov_element O (cn_tab C) m rho act c 0 kappa).
  { destruct (o_pss O) eqn:Ep.
    - exists (smallest m). split; [apply sides_smallest|]. exact (stewart_elements lr cp d o m oc C rho (conj H (conj Exx W)) FE FS Hf XC Ep c 0%nat Ie).
    - exists (in_closed_region m). split; [apply sides_closed|].
      exact (step_elements lr cp d o m oc C rho (conj H (conj Exx W)) FE FS Hf XC Ep (sc_signs a b x0) (sc_fit a b x0) (sc_complete a b x0) c 0%nat Ie). }
  destruct FEl as (act & SD & kap & Hk & th & CW & D & AC).
  unfold weight_error in Hk. rewrite Er in Hk. assert (kap = 1) by (unfold Rabs in Hk; destruct (Rcase_abs (kap - 1)); lra). subst kap.
  apply sc_weights in CW. destruct CW as (W0 & W1 & WS).
  assert (AL : Q2R a * (INR c * L) < Q2R a * ts) by (apply Rmult_lt_compat_l; assumption).
  assert (Z1 : th 0%nat 1%nat = 0).
  { destruct (Rle_lt_or_eq_dec _ _ W1) as [P|P]; [|symmetry; exact P]. pose proof (AC 0 0%nat 1%nat ltac:(lra) ltac:(cbn; lia) ltac:(cbn; lia) P) as S.
    apply (proj2 (SD _)) in S. change (0 <= segment O (cn_tab C) rho c 0 0 0%nat) in S. unfold segment in S. rewrite St in S. lra. }
  pose proof (D 0%nat 0 ltac:(cbn; lia)) as D0. rewrite (EX c 0%nat Ie), St, G0, S1 in D0. rewrite Rmult_1_l in D0.
  change (speed O rho c * mixed_field m (on_segment O (cn_tab C) m rho c 0 0) th 0) with (velocity O m rho c (segment O (cn_tab C) rho c 0 0) th 0) in D0.
  rewrite sc_velocity, Z1 in D0 by exact NS. replace (th 0%nat 0%nat) with 1 in D0 by lra.
  rewrite S_INR in B2. unfold switch_solution in D0. fold ts in D0. destruct (Rle_dec (INR c * L + L) ts) as [|_]; [lra|].
  assert (P : 0 < INR c * L + L - ts) by lra. assert (M : Rmax 0 (Q2R b) < Q2R a) by (apply Rmax_lub_lt; assumption).
  assert (Rmax 0 (Q2R b) * (INR c * L + L - ts) < Q2R a * (INR c * L + L - ts)) by (apply Rmult_lt_compat_r; assumption). lra.
Qed.
End One.

(* ---- cases ---- *)
Lemma radau2 o : o_ns o = 2%nat -> o_scheme o = RadauIIA -> points_ok case_cpoints o /\ points_inside case_cpoints o.
Proof.
  intros N Es. split.
  - intros _. rewrite N, Es. split; [reflexivity|]. split; [distinct_points|]. exists [(1#3)%Q], 1%Q. split; reflexivity.
  - intros q. rewrite N, Es. intros [<-|[<-|[]]]; unfold Qle; cbn; lia.
Qed.
Lemma radau2_weights o : o_ns o = 2%nat -> o_scheme o = RadauIIA -> weights_nonneg case_cpoints o.
Proof.
  intros N E _. exists [(3#4)%Q; (1#4)%Q]. rewrite N, E. split; [reflexivity|]. split; [intros q [<-|[<-|[]]]; unfold Qle; cbn; lia|].
  intros [|[|k]] Hk; [reflexivity|reflexivity|lia].
Qed.
(* x1' = x2, x2' = 1 for x1 < 0 and 2 for x1 > 0, from (-1/8, 0) *)
Definition model_quad : model := {|
  m_nx := 2; m_x0 := [(-1#8)%Q; 0%Q];
  m_F := Some [mkFmat 2 [[cx 1; cq 1]; [cx 1; cq 2]]];
  m_c := Some [[cx 0]]; m_S := Some [[[(-1)%Q]; [1%Q]]]; m_gS := None;
  m_nu := 0; m_nz := 0; m_z0 := None; m_lbz := None; m_ubz := None; m_alpha := None; m_fx := None;
  m_gz := []; m_npt := 0; m_npg := 0; m_ptv_val := None; m_pg_val := []; m_nvg := 0; m_tvar := None |}.
Definition optsQd : opts := with_step_eq default_opts Direct.
Lemma sized_quad : well_sized model_quad. Proof. apply sizedQ_ok. reflexivity. Qed.
Lemma caseQd_ok : is_ok (build optsQd model_quad None) = true. Proof. vm_compute. reflexivity. Qed.
Definition CQd : constructed := get _ caseQd_ok.
Lemma builtQd : build optsQd model_quad None = Ok CQd. Proof. apply get_ok. Qed.
Lemma problemQd : is_problem optsQd model_quad None CQd. Proof. exact (is_problem_ok _ _ _ _ builtQd eq_refl sized_quad). Qed.
Definition dataQ : env := fun y => match y with SH _ _ => / 2 | SX0 0%nat => - / 8 | SL00 FLam 0%nat 1%nat => / 4 | _ => 0 end.
(* before the switch at 1/2: (-1/8 + t^2/2, t); afterwards (s/2 + s^2, 1/2 + 2 s) with s = t - 1/2 *)
Definition polyQ (c e i : nat) : list R := match e, i with
  | 0%nat, 0%nat => [- / 8; 0; / 8] | 0%nat, _ => [0; / 2] | _, 0%nat => [0; / 4; / 4] | _, _ => [/ 2; 1] end.
Definition weightQ (c e : nat) (z : R) (s k : nat) : R := match e, k with 0%nat, 0%nat => 1 | 0%nat, _ => 0 | _, 0%nat => 0 | _, _ => 1 end.
Lemma gridQ : o_N_stages (the_opts CQd) = 1%nat /\ nfe_of (the_opts CQd) 0 = 2%nat. Proof. split; vm_compute; reflexivity. Qed.
Lemma elementsQ c e : is_element (the_opts CQd) c e -> c = 0%nat /\ (e = 0%nat \/ e = 1%nat).
Proof. intros [A B]. destruct gridQ as [N F]. rewrite N in A. assert (c = 0%nat) by lia. subst c. rewrite F in B. split; lia. Qed.
Lemma stepQ c e : step_len (the_opts CQd) dataQ c e = / 2.
Proof. unfold step_len. replace (o_use_fesd (the_opts CQd)) with true by (vm_compute; reflexivity). reflexivity. Qed.
Lemma regionQ v : region_value model_quad v 0 0 = v (MX 0) /\ region_value model_quad v 0 1 = - v (MX 0).
Proof. unfold region_value. cbn -[Q2R]. unfold rsum. cbn -[Q2R]. unfold Q2R. cbn. lra. Qed.
Lemma smallestQ v : (smallest model_quad v 0 0 <-> v (MX 0%nat) <= 0) /\ (smallest model_quad v 0 1 <-> 0 <= v (MX 0%nat)).
Proof.
  destruct (regionQ v) as [R0 R1]. unfold smallest. split; (split; [intros S; pose proof (S 0%nat ltac:(cbn; lia)); pose proof (S 1%nat ltac:(cbn; lia)); lra|]);
    intros S [|[|k]] Hk; cbn in Hk; try lia; lra.
Qed.
Lemma subsQ s k : (s < n_subsystems model_quad)%nat -> (k < n_modes model_quad s)%nat -> s = 0%nat /\ (k = 0%nat \/ k = 1%nat).
Proof. intros A B. cbn in A. assert (s = 0%nat) by lia. subst s. cbn in B. lia. Qed.
Lemma velocityQ c x th i : (i < 2)%nat -> velocity (the_opts CQd) model_quad dataQ c x th i =
  match i with 0%nat => x 1%nat * th 0%nat 0%nat + x 1%nat * th 0%nat 1%nat | _ => th 0%nat 0%nat + 2 * th 0%nat 1%nat end.
Proof.
  intros Hi. unfold velocity. replace (speed (the_opts CQd) dataQ c) with 1 by (unfold speed; replace (o_sot (the_opts CQd)) with SotNone by (vm_compute; reflexivity); reflexivity).
  destruct i as [|[|i]]; [| |lia]; unfold mixed_field, mode_field; cbn; unfold Q2R; cbn; lra.
Qed.
Lemma solutionQ : polynomial_solution (the_opts CQd) model_quad dataQ polyQ weightQ (exact_degree (the_opts CQd)).
Proof.
  replace (exact_degree (the_opts CQd)) with 2%nat by (vm_compute; reflexivity). intros c e Ie. destruct (elementsQ c e Ie) as [-> E]. split; [|split].
  - intros i Hi. assert (J : i = 0%nat \/ i = 1%nat) by (cbn in Hi; lia). destruct E as [-> | ->], J as [-> | ->]; (split; [cbn; lia|]); unfold state; cbn; lra.
  - intros z Hz. split.
    + intros s Hs. assert (s = 0%nat) by (cbn in Hs; lia). subst s. split; [intros [|[|k]] Hk; cbn in Hk; try lia|]; destruct E as [-> | ->]; cbn; lra.
    + intros i Hi. rewrite velocityQ, stepQ by exact Hi. assert (J : i = 0%nat \/ i = 1%nat) by (cbn in Hi; lia).
      match goal with |- derivable_pt_lim _ _ ?v => replace v with (peval (pder (polyQ 0 e i)) z) end; [apply peval_deriv|].
      destruct E as [-> | ->], J as [-> | ->]; unfold state; cbn; lra.
  - intros s k z z' Hs Hk Hz Hz' P. destruct (subsQ s k Hs Hk) as [-> K].
    destruct E as [-> | ->], K as [-> | ->]; cbn in P; try lra; [apply (proj1 (smallestQ _))|apply (proj2 (smallestQ _))]; unfold at_state, plain_point; cbn; unfold state; cbn; nra.
Qed.
Lemma solution_case : is_problem optsQd model_quad None CQd /\ points_ok case_cpoints (the_opts CQd) /\ points_inside case_cpoints (the_opts CQd) /\
  o_repr (the_opts CQd) = Integral /\ o_scheme (the_opts CQd) = RadauIIA /\ o_pss (the_opts CQd) = Stewart /\ o_use_fesd (the_opts CQd) = true /\
  o_time_freezing (the_opts CQd) = false /\ o_step_eq (the_opts CQd) = Direct /\ zero_relaxation (the_opts CQd) dataQ /\ plain_model model_quad /\ plain_ocp model_quad (the_ocp None) /\
  same_globals model_quad dataQ /\ exact_initial model_quad dataQ /\ grid_ok (the_opts CQd) model_quad (the_ocp None) dataQ /\
  polynomial_solution (the_opts CQd) model_quad dataQ polyQ weightQ (exact_degree (the_opts CQd)) /\
  admissible (the_opts CQd) model_quad (the_ocp None) dataQ polyQ /\ equilibrated (the_opts CQd) model_quad dataQ polyQ weightQ.
Proof.
  assert (N : o_ns (the_opts CQd) = 2%nat) by (vm_compute; reflexivity). assert (Es : o_scheme (the_opts CQd) = RadauIIA) by (vm_compute; reflexivity).
  destruct (radau2 _ N Es) as [P I]. destruct gridQ as [GN GF].
  split; [exact problemQd|]. split; [exact P|]. split; [exact I|]. do 6 (split; [vm_compute; reflexivity|]).
  split; [unfold zero_relaxation; replace (o_mpcc (the_opts CQd)) with ScholtesIneq by (vm_compute; reflexivity); reflexivity|].
  split; [|split; [|split; [|split; [|split; [|split; [exact solutionQ|split]]]]]].
  - split; [discriminate|]. split; [reflexivity|]. split; [reflexivity|]. split.
    + intros s k i. destruct s as [|[|s]], k as [|[|[|k]]], i as [|[|[|i]]]; intros x Hx; cbn in Hx; try contradiction; destruct Hx as [<-|[]]; first [exact Logic.I|cbn; lia].
    + intros [|s] e [E|E]; cbn in E; try contradiction; try (destruct s; contradiction). destruct E as [<-|[]]. intros x [<-|[]]. cbn. lia.
  - split; [intros e [[]|[]]|reflexivity].
  - intros c c' i. reflexivity.
  - intros s k k' Hs Hk Sm Hk'. destruct (subsQ s k Hs Hk) as [-> K]. destruct (subsQ 0%nat k' Hs Hk') as [_ K'].
    set (v0 := plain_point model_quad dataQ 0 (fun i => dataQ (SX0 i))) in *. assert (Ev : v0 (MX 0%nat) = - / 8) by reflexivity.
    destruct (regionQ v0) as [R0 R1]. destruct (smallestQ v0) as [S0 S1].
    destruct K as [-> | ->]; [|apply S1 in Sm; lra]. destruct K' as [-> | ->]; rewrite ?R0, ?R1, Ev; cbn; lra.
  - split; [intros E; vm_compute in E; discriminate E|]. split; [intros i Hi; cbn in Hi; lia|]. split; [|split].
    + intros c Hc. split; [intros i Hi; cbn in Hi; lia|]. intros E. vm_compute in E. discriminate E.
    + intros c e Ie. destruct (elementsQ c e Ie) as [-> _]. rewrite GF. replace (step_lower (the_opts CQd) 2) with (Fin (0 # 2)) by (vm_compute; reflexivity).
      replace (step_upper (the_opts CQd) 2) with (Fin (2 # 2)) by (vm_compute; reflexivity). split; unfold Q2R; cbn; lra.
    + replace (o_equidistant (the_opts CQd)) with true by (vm_compute; reflexivity). intros c Hc. rewrite GN in Hc. assert (c = 0%nat) by lia. subst c.
      unfold stage_length. rewrite GF, !rupto_succ, rupto_0, !stepQ, GN. unfold T. replace (o_terminal_time (the_opts CQd)) with 1%Q by (vm_compute; reflexivity). unfold Q2R. cbn. lra.
  - split; [|intros e []]. intros c e Ie z Hz. split; [|intros i Hi; cbn in Hi; lia]. intros i Hi. assert (J : i = 0%nat \/ i = 1%nat) by (cbn in Hi; lia).
    destruct J as [-> | ->]; split; exact Logic.I.
  - unfold equilibrated. replace (o_step_eq (the_opts CQd)) with Direct by (vm_compute; reflexivity). intros c e Ie He. left. unfold delta_h. rewrite !stepQ. ring.
Qed.

(* two stages with two and three elements, sliding from 1/3 on *)
Definition optsSl : opts := with_grid optsQd 2 [2; 3]%nat.
Lemma sized_sl : well_sized (switch_model 3 (-1) (-1)). Proof. apply sizedQ_ok. reflexivity. Qed.
Lemma caseSl_ok : is_ok (build optsSl (switch_model 3 (-1) (-1)) None) = true. Proof. vm_compute. reflexivity. Qed.
Definition CSl : constructed := get _ caseSl_ok.
Lemma builtSl : build optsSl (switch_model 3 (-1) (-1)) None = Ok CSl. Proof. apply get_ok. Qed.
Lemma problemSl : is_problem optsSl (switch_model 3 (-1) (-1)) None CSl. Proof. exact (is_problem_ok _ _ _ _ builtSl eq_refl sized_sl). Qed.
Lemma solvable_case : is_problem optsSl (switch_model 3 (-1) (-1)) None CSl /\ points_ok case_cpoints (the_opts CSl) /\ points_inside case_cpoints (the_opts CSl) /\
  weights_nonneg case_cpoints (the_opts CSl) /\
  o_repr (the_opts CSl) = Integral /\ o_scheme (the_opts CSl) = RadauIIA /\ o_pss (the_opts CSl) = Stewart /\ o_use_fesd (the_opts CSl) = true /\
  o_time_freezing (the_opts CSl) = false /\ product_mode (the_opts CSl) /\ elastic (the_opts CSl) = false /\ o_sot (the_opts CSl) <> SotLocal /\
  o_gamma_h (the_opts CSl) = Fin 1 /\ o_cross (the_opts CSl) = SumLambdas /\ o_step_eq (the_opts CSl) = Direct /\ o_equidistant (the_opts CSl) = true /\ (0 < o_terminal_time (the_opts CSl))%Q /\
  (forall c, (c < o_N_stages (the_opts CSl))%nat -> (2 <= nfe_of (the_opts CSl) c)%nat).
Proof.
  assert (N : o_ns (the_opts CSl) = 2%nat) by (vm_compute; reflexivity). assert (Es : o_scheme (the_opts CSl) = RadauIIA) by (vm_compute; reflexivity).
  destruct (radau2 _ N Es) as [P I]. split; [exact problemSl|]. split; [exact P|]. split; [exact I|]. split; [exact (radau2_weights _ N Es)|]. do 5 (split; [vm_compute; reflexivity|]).
  split; [unfold product_mode; replace (o_mpcc (the_opts CSl)) with ScholtesIneq by (vm_compute; reflexivity); exact Logic.I|].
  split; [vm_compute; reflexivity|]. split; [vm_compute; discriminate|]. do 5 (split; [vm_compute; reflexivity|]).
  intros c Hc. replace (o_N_stages (the_opts CSl)) with 2%nat in Hc by (vm_compute; reflexivity). destruct c as [|[|c]]; [| |lia];
    [replace (nfe_of (the_opts CSl) 0) with 2%nat by (vm_compute; reflexivity)|replace (nfe_of (the_opts CSl) 1) with 3%nat by (vm_compute; reflexivity)]; lia.
Qed.
(* one element: the switch at 1/3 lies inside *)
Definition optsO : opts := with_grid (with_cross optsS SumLambdas) 1 [1]%nat.
Lemma caseO_ok : is_ok (build optsO model3 None) = true. Proof. vm_compute. reflexivity. Qed.
Definition CO1 : constructed := get _ caseO_ok.
Lemma builtO : build optsO model3 None = Ok CO1. Proof. apply get_ok. Qed.
Lemma problemO : is_problem optsO model3 None CO1. Proof. exact (is_problem_ok _ _ _ _ builtO eq_refl sized3). Qed.
Lemma settingO : filippov_setting case_cpoints (the_opts CO1) model3 rhoS.
Proof.
  assert (N : o_ns (the_opts CO1) = 1%nat) by (vm_compute; reflexivity). assert (E : o_scheme (the_opts CO1) = RadauIIA) by (vm_compute; reflexivity).
  destruct (radau1 _ N E) as [P W]. split; [exact P|]. split; [exact W|]. split; [discriminate|]. split; [exact constant3|]. split; [exact affine3|].
  split; [apply same_pt; reflexivity|]. split; [|split; [|exact nonnegS]].
  - apply multS; [vm_compute; reflexivity| | |]; val switchS; unfold Q2R; cbn; lra.
  - unfold zero_relaxation. replace (o_mpcc (the_opts CO1)) with ScholtesIneq by (vm_compute; reflexivity). exact zeroS.
Qed.
Lemma one_case : is_problem optsO (switch_model 3 1 (-1)) None CO1 /\ filippov_setting case_cpoints (the_opts CO1) (switch_model 3 1 (-1)) rhoS /\
  o_use_fesd (the_opts CO1) = true /\ o_cross (the_opts CO1) = SumLambdas /\ ext_upto (o_gamma_h (the_opts CO1)) 1 /\ o_sot (the_opts CO1) <> SotLocal /\
  o_pss (the_opts CO1) = Stewart /\ rhoS (SX0 0) = Q2R (-1) /\ o_repr (the_opts CO1) = Integral /\ o_equidistant (the_opts CO1) = true /\
  (0 <= o_terminal_time (the_opts CO1))%Q /\ (0 < o_N_stages (the_opts CO1))%nat /\ nfe_of (the_opts CO1) 0 = 1%nat /\
  INR 0 * (T (the_opts CO1) / INR (o_N_stages (the_opts CO1))) < - Q2R (-1) / Q2R 3 < INR 1 * (T (the_opts CO1) / INR (o_N_stages (the_opts CO1))).
Proof.
  split; [exact problemO|]. split; [exact settingO|]. do 2 (split; [vm_compute; reflexivity|]). do 2 (split; [vm_compute; discriminate|]). split; [vm_compute; reflexivity|].
  split; [unfold rhoS; val switchS; reflexivity|]. do 2 (split; [vm_compute; reflexivity|]). split; [vm_compute; discriminate|].
  assert (N : o_N_stages (the_opts CO1) = 1%nat) by (vm_compute; reflexivity). rewrite N. split; [lia|]. split; [vm_compute; reflexivity|].
  unfold T. replace (o_terminal_time (the_opts CO1)) with 1%Q by (vm_compute; reflexivity). unfold Q2R. cbn. lra.
Qed.

(* solvable, and every solution is exact *)
Lemma solvable_exact lr cp d o a b x0 C : fesd_problem lr cp d o (switch_model a b x0) None C -> points_ok cp (the_opts C) -> points_inside cp (the_opts C) ->
  weights_nonneg cp (the_opts C) -> o_repr (the_opts C) = Integral -> o_scheme (the_opts C) = RadauIIA ->
  o_use_fesd (the_opts C) = true -> o_time_freezing (the_opts C) = false -> product_mode (the_opts C) ->
  (elastic (the_opts C) = true -> (o_s_elastic_min (the_opts C) <= 0 <= o_s_elastic_max (the_opts C))%Q) -> o_sot (the_opts C) <> SotLocal ->
  o_gamma_h (the_opts C) = Fin 1 -> o_equidistant (the_opts C) = true \/ (1 < o_N_stages (the_opts C))%nat -> (0 < o_terminal_time (the_opts C))%Q ->
  (forall c, (c < o_N_stages (the_opts C))%nat -> (2 <= nfe_of (the_opts C) c)%nat) ->
  (0 < a)%Q -> (b <= a)%Q -> (x0 <= 0)%Q ->
  let final rho := end_state (the_opts C) (cn_tab C) rho (last_stage (the_opts C)) (last_elem (the_opts C) (last_stage (the_opts C))) 0 in
  let admitted rho := feasible rho (the_nlp C) /\ filippov_setting cp (the_opts C) (switch_model a b x0) rho /\ rho (SX0 0) = Q2R x0 in
  (exists rho, admitted rho) /\ forall rho, admitted rho -> final rho = switch_solution a b x0 (T (the_opts C)).
Proof.
  intros FP PO PI WN Er Sc Hf Tf PM El NS Gm Eq HT Two Ha Hb Hx final admitted.
  assert (Gm' : match o_gamma_h (the_opts C) with Fin q => (1 <= q)%Q | PInf => True | NInf => False end) by (rewrite Gm; apply Qle_refl).
  assert (Rb : t_rbe (cn_tab C) = true).
  { pose proof (Feas2_proofs.tab_scheme cp (the_opts C) (cn_tab C) (Feas_proofs.t_made _ _ _ _ _ _ _ (proj1 FP)) PO) as E. rewrite Sc in E. exact E. }
  assert (Ed : (1 <= exact_degree (the_opts C))%nat) by (unfold exact_degree; rewrite Er; exact (Feas_proofs.ns_pos _ _ _ _ _ _ _ (proj1 FP))).
  split.
  - destruct (scalar_feasible lr cp d o a b x0 C FP PO PI Ed Sc Hf Tf PM El NS Gm' HT Two Ha Hx) as (rho & F & ZR & X0 & EI & EIs & SG & IN & _).
    exists rho. split; [exact F|]. split; [|exact X0]. split; [exact PO|]. split; [exact WN|]. split; [discriminate|]. split; [apply sc_constant|]. split; [apply sc_affine|]. split; [exact SG|].
    set (v0 := plain_point (switch_model a b x0) rho 0 (fun i => rho (SX0 i))). assert (Ev : v0 (MX 0%nat) = Q2R x0) by exact X0.
    assert (S0 : smallest (switch_model a b x0) v0 0 0). { apply (proj1 (sides_smallest a b x0 v0)). rewrite Ev. apply Qle_Rle in Hx. rewrite RMicromega.Q2R_0 in Hx. exact Hx. }
    split; [|split; [exact ZR|exact IN]].
    unfold initial_multipliers. destruct (o_pss (the_opts C)).
    + exists (fun s => - region_value (switch_model a b x0) v0 s 0). intros s k Hs Hk. assert (s = 0%nat) by (cbn in Hs; lia). subst s.
      rewrite (EI 0%nat 0%nat k Hs ltac:(cbn; lia) S0 Hk). fold v0. ring.
    + intros s k Hs Hk. destruct (EIs s k Hs Hk) as [-> ->]. fold v0. unfold Rmax. destruct (Rle_dec _ _), (Rle_dec _ _); lra.
  - intros rho (F & FS & X0). exact (scalar_final lr cp d o a b x0 None C rho FP F FS Hf (or_intror Rb) ltac:(rewrite Gm; apply Qle_refl) ltac:(apply Qlt_le_weak, HT) NS X0 Ha Hb Hx Er Eq).
Qed.

(* Gauss points: the solution of x' = 3 (x < 0), 1 (x > 0) from -1 on the grid 0, 1/3, 1 *)
Definition dataH : env := fun y => match y with SH _ 0%nat => / 3 | SH _ _ => 2 / 3 | SX0 _ => - 1 | SL00 FLam 0%nat 1%nat => 2 | _ => 0 end.
Definition polyH (c e i : nat) : list R := match e with 0%nat => [- 1; 1] | _ => [0; 2 / 3] end.
Lemma gridH : o_N_stages (the_opts CH) = 1%nat /\ nfe_of (the_opts CH) 0 = 2%nat. Proof. split; vm_compute; reflexivity. Qed.
Lemma elementsH c e : is_element (the_opts CH) c e -> c = 0%nat /\ (e = 0%nat \/ e = 1%nat).
Proof. intros [A B]. destruct gridH as [N F]. rewrite N in A. assert (c = 0%nat) by lia. subst c. rewrite F in B. split; lia. Qed.
Lemma stepH c e : step_len (the_opts CH) dataH c e = dataH (SH c e).
Proof. unfold step_len. replace (o_use_fesd (the_opts CH)) with true by (vm_compute; reflexivity). reflexivity. Qed.
Notation model_h := (switch_model 3 1 (-1)).
Lemma solutionH : polynomial_solution (the_opts CH) model_h dataH polyH weightQ (o_ns (the_opts CH)).
Proof.
  replace (o_ns (the_opts CH)) with 1%nat by (vm_compute; reflexivity). assert (NS : o_sot (the_opts CH) <> SotLocal) by (vm_compute; discriminate).
  intros c e Ie. destruct (elementsH c e Ie) as [-> E]. split; [|split].
  - intros i Hi. destruct E as [-> | ->]; (split; [cbn; lia|]); unfold state; cbn; lra.
  - intros z Hz. split; [apply sc_weights; destruct E as [-> | ->]; cbn; lra|]. intros i Hi. assert (i = 0%nat) by (cbn in Hi; lia). subst i. rewrite sc_velocity, stepH by exact NS.
    match goal with |- derivable_pt_lim _ _ ?v => replace v with (peval (pder (polyH 0 e 0)) z) end; [apply peval_deriv|]. destruct E as [-> | ->]; cbn; unfold Q2R; cbn; lra.
  - intros s k z z' Hs Hk Hz Hz' P. destruct (subs 3 1 (-1) s k Hs Hk) as [-> K].
    destruct E as [-> | ->], K as [-> | ->]; cbn in P; try lra; [apply (proj1 (sides_smallest 3 1 (-1) _))|apply (proj2 (sides_smallest 3 1 (-1) _))]; unfold at_state, plain_point; cbn; unfold state; cbn; lra.
Qed.
Lemma gauss_excludes : exists o m C rho p th, is_problem o m None C /\ o_pss (the_opts C) = Stewart /\ o_use_fesd (the_opts C) = true /\
  o_scheme (the_opts C) = GaussLegendre /\ o_time_freezing (the_opts C) = false /\ zero_relaxation (the_opts C) rho /\
  plain_model m /\ plain_ocp m (the_ocp None) /\ same_globals m rho /\ exact_initial m rho /\ grid_ok (the_opts C) m (the_ocp None) rho /\
  polynomial_solution (the_opts C) m rho p th (o_ns (the_opts C)) /\ admissible (the_opts C) m (the_ocp None) rho p /\
  equilibrated (the_opts C) m rho p th /\ forall r, ~ feasible r (the_nlp C).
Proof.
  exists optsH, model_h, CH, dataH, polyH, weightQ. destruct gridH as [GN GF]. split; [exact problemH|]. do 4 (split; [vm_compute; reflexivity|]).
  split; [unfold zero_relaxation; replace (o_mpcc (the_opts CH)) with ScholtesIneq by (vm_compute; reflexivity); reflexivity|].
  split; [apply plain|]. split; [split; [intros e [[]|[]]|reflexivity]|]. split; [intros c c' i; reflexivity|].
  split; [|split; [|split; [exact solutionH|split; [|split; [|exact gauss_infeasible]]]]].
  - intros s k k' Hs Hk Sm Hk'. destruct (subs 3 1 (-1) s k Hs Hk) as [-> K]. destruct (subs 3 1 (-1) 0%nat k' Hs Hk') as [_ K'].
    set (v0 := plain_point model_h dataH 0 (fun i => dataH (SX0 i))) in *. assert (Ev : v0 (MX 0%nat) = - 1) by reflexivity.
    destruct (region3 v0) as [R0 R1]. change model3 with model_h in R0, R1. pose proof (proj2 (sides_smallest 3 1 (-1) v0)) as S1.
    destruct K as [-> | ->]; [|apply S1 in Sm; lra]. destruct K' as [-> | ->]; rewrite ?R0, ?R1, Ev; cbn; lra.
  - split; [intros E; vm_compute in E; discriminate E|]. split; [intros i Hi; cbn in Hi; lia|]. split; [|split].
    + intros c Hc. split; [intros i Hi; cbn in Hi; lia|]. intros E. vm_compute in E. discriminate E.
    + intros c e Ie. destruct (elementsH c e Ie) as [-> E]. rewrite GF. replace (step_lower (the_opts CH) 2) with (Fin (1 # 4)) by (vm_compute; reflexivity).
      replace (step_upper (the_opts CH) 2) with (Fin (3 # 4)) by (vm_compute; reflexivity). destruct E as [-> | ->]; split; unfold Q2R; cbn; lra.
    + replace (o_equidistant (the_opts CH)) with true by (vm_compute; reflexivity). intros c Hc. rewrite GN in Hc. assert (c = 0%nat) by lia. subst c.
      unfold stage_length. rewrite GF, !rupto_succ, rupto_0, !stepH, GN. unfold T. replace (o_terminal_time (the_opts CH)) with 1%Q by (vm_compute; reflexivity). unfold Q2R. cbn. lra.
  - split; [|intros e []]. intros c e Ie z Hz. split; [|intros i Hi; cbn in Hi; lia]. intros i Hi. assert (i = 0%nat) by (cbn in Hi; lia). subst i. split; exact Logic.I.
  - unfold equilibrated. replace (o_step_eq (the_opts CH)) with HeuristicDelta by (vm_compute; reflexivity). exact Logic.I.
Qed.
