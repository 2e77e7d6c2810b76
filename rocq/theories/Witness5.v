(* Witness5.v -- concrete RK4_SMOOTHENED initializations *)
From Coq Require Import Reals Qreals Lra.
From Verif Require Import Base Lib Sx Sx_proofs Utils Tableau Opts Model Ocp Problem Numeric Rk4 Results Solver Spec Cases Fesd Spec2 Spec3 Spec4 Spec5 Spec6
  Witness Results_proofs Smooth2_proofs Init_proofs Init2_proofs Set_proofs Witness3 Rk4_proofs RkInit_proofs.
Local Open Scope nat_scope.

Definition optsR (r : irk_repr) : opts := with_solver (with_irk default_opts r 2 RadauIIA) tol0 1 tol0 (1 # 10) Linear Rk4Smoothened false false.
Lemma caseR_ok r : is_ok (build (optsR r) model3 None) = true. Proof. destruct r; vm_compute; reflexivity. Qed.
Definition CR (r : irk_repr) : constructed := get _ (caseR_ok r).
Lemma builtR r : build (optsR r) model3 None = Ok (CR r). Proof. apply get_ok. Qed.
Lemma problemR r : is_problem (optsR r) model3 None (CR r). Proof. exact (is_problem_ok _ _ _ _ (builtR r) eq_refl sized3). Qed.
Lemma initialR r : sized (CR r) model3 (initial_state (CR r)). Proof. exact (initial_sized _ _ _ _ _ _ _ (proj1 (problemR r))). Qed.
Lemma signs3 : sign_matrix model3.
Proof. intros [|[|s]] [|[|[|i]]] [|[|k]]; cbn; first [left; reflexivity | right; left; reflexivity | right; right; reflexivity]. Qed.
Lemma optsR_init r : o_init (the_opts (CR r)) = Rk4Smoothened. Proof. destruct r; vm_compute; reflexivity. Qed.
Lemma optsR_repr r : o_repr (the_opts (CR r)) = r. Proof. destruct r; vm_compute; reflexivity. Qed.
Lemma optsR_fe r : o_N_finite_elements (the_opts (CR r)) = 2. Proof. destruct r; vm_compute; reflexivity. Qed.
Lemma optsR_ns r : o_ns (the_opts (CR r)) = 2. Proof. destruct r; vm_compute; reflexivity. Qed.
Lemma optsR_dt r : (0 < rk4_dt (CR r))%R.
Proof.
  unfold rk4_dt. rewrite optsR_fe. assert (E : o_terminal_time (the_opts (CR r)) = 1%Q) by (destruct r; vm_compute; reflexivity).
  assert (N : o_N_stages (the_opts (CR r)) = 1) by (destruct r; vm_compute; reflexivity). rewrite E, N, RMicromega.Q2R_1. cbn. lra.
Qed.
Lemma initializedR r : r <> Differential -> exists s' lam, initialize (CR r) (initial_state (CR r)) = (s', Ok lam).
Proof.
  intros Hr. destruct (smooth_of_con _ _ _ _ _ _ _ (proj1 (problemR r)) (optsR_init r)) as (sm & Hs & Ha).
  assert (T : exists te, lastE EIndexError (t_times (cn_tab (CR r))) = Ok te /\ Qeq_bool te 1 = true) by (destruct r; vm_compute; eexists; split; reflexivity).
  destruct T as (te & T1 & T2). apply Qeq_bool_iff in T2.
  apply (init_total _ _ _ _ _ _ _ (proj1 (problemR r)) sized3 signs3) with (sm := sm) (te := te); try assumption.
  - destruct r; vm_compute; reflexivity.
  - destruct r; try contradiction; vm_compute; lia.
  - destruct r; try contradiction; vm_compute; lia.
  - apply optsR_init.
  - apply initialR.
  - destruct r; vm_compute; lia.
  - destruct r; vm_compute; lia.
Qed.

(* the smoothed field of model3 is positive *)
Lemma field3 r sm x k : add_smooth_step_representation (pr_pm (cn_prob (CR r))) (o_smoothing (the_opts (CR r))) = Ok sm ->
  length x = 1 -> numcall (sm_fx sm) [x] = Ok k -> (0 < nth 0 k 0)%R.
Proof.
  intros Hs L E. destruct (pm_facts _ _ _ _ _ _ _ (proj1 (problemR r))) as [HP _].
  unfold numcall in E. apply bind_ok in E. destruct E as (u & _ & E). apply bind_ok in E. destruct E as (vs & _ & E). injection E as <-.
  set (v := bindR (concat (cf_in (sm_fx sm))) (concat vs)).
  destruct (smooth_entries _ _ _ _ _ v HP sized3 Hs signs3) as (_ & W & L1 & F).
  destruct (nth_error_lt (cf_out (sm_fx sm)) 0) as [e He]; [rewrite L1; cbn; lia|].
  rewrite (nth_error_nth (map (eval v) (cf_out (sm_fx sm))) 0 0%R (map_nth_error (eval v) _ _ He)). rewrite (F 0 e He).
  destruct (W 0 0) as (e0 & _ & E0 & P0); [cbn; lia|cbn; lia|]. destruct (W 0 1) as (e1 & _ & E1 & P1); [cbn; lia|cbn; lia|].
  rewrite E0 in P0. rewrite E1 in P1. cbn [n_subsystems model3 m_F length]. 
  match goal with |- (0 < rupto _ ?f)%R => set (g := f) end.
  assert (G : g 0 = (mode_field model3 v 0 0 0 * step_weight (nth 0 (user_S model3 0) []) (fun r0 => smoothed (Q2R (o_smoothing (the_opts (CR r)))) (switch_value model3 v 0 r0)) +
     mode_field model3 v 0 1 0 * step_weight (nth 1 (user_S model3 0) []) (fun r0 => smoothed (Q2R (o_smoothing (the_opts (CR r)))) (switch_value model3 v 0 r0)))%R).
  { unfold g. change (n_modes model3 0) with 2. unfold rupto. cbn [seq map]. unfold rsum. cbn [fold_right]. ring. }
  change (rupto (n_subsystems model3) g) with (rupto 1 g). unfold rupto. cbn [seq map]. unfold rsum. cbn [fold_right]. rewrite G.
  set (a := step_weight _ _) in *. set (b := step_weight (nth 1 _ _) _) in *.
  assert (M0 : mode_field model3 v 0 0 0 = 3%R) by (cbn; unfold Q2R; cbn; lra). assert (M1 : mode_field model3 v 0 1 0 = 1%R) by (cbn; unfold Q2R; cbn; lra).
  rewrite M0, M1. lra.
Qed.
Lemma grows r sm hs x y : add_smooth_step_representation (pr_pm (cn_prob (CR r))) (o_smoothing (the_opts (CR r))) = Ok sm -> length x = 1 ->
  (forall h, In h hs -> 0 < h)%R -> reached (fun z => numcall (sm_fx sm) [z]) x hs y -> length y = 1 /\ (nth 0 x 0 <= nth 0 y 0)%R /\ (hs <> [] -> nth 0 x 0 < nth 0 y 0)%R.
Proof.
  intros Hs L Hh R. induction R as [|hs y h z R IH Cl].
  - split; [exact L|]. split; [lra|]. intros N. contradiction.
  - destruct IH as (Ly & Le & _). { intros h' Hh'. apply Hh. apply in_or_app. left. exact Hh'. }
    assert (Hp : (0 < h)%R) by (apply Hh, in_or_app; right; left; reflexivity).
    destruct Cl as (k1 & k2 & k3 & k4 & E1 & E2 & E3 & E4 & L1 & L2 & L3 & L4 & Lz & N). 
    assert (A : forall c k, length k = length y -> length (axpy y c k) = 1) by (intros c k Lk; rewrite axpy_len; congruence).
    pose proof (field3 r sm _ _ Hs Ly E1) as P1. pose proof (field3 r sm _ _ Hs (A _ _ L1) E2) as P2.
    pose proof (field3 r sm _ _ Hs (A _ _ L2) E3) as P3. pose proof (field3 r sm _ _ Hs (A _ _ L3) E4) as P4.
    specialize (N 0 ltac:(lia)).
    assert (D : (0 < h * (nth 0 k1 0 / 6 + nth 0 k2 0 / 3 + nth 0 k3 0 / 3 + nth 0 k4 0 / 6))%R) by (apply Rmult_lt_0_compat; lra).
    split; [congruence|]. split; [lra|]. intros _. lra.
Qed.
Lemma guess_fun C s y v v' lr cp d o m oc : construct_problem lr cp d o m oc = Ok C -> guess C s y v -> guess C s y v' -> v = v'.
Proof.
  intros H (p & A1 & A2) (p' & B1 & B2). assert (p = p'); [|subst; congruence].
  eapply NoDup_nth_error; [exact (W_NoDup _ _ _ _ _ _ _ H)| |congruence]. eapply nth_error_Some_lt, A1.
Qed.
(* INTEGRAL: the guess of the first stage is not reached in a positive time *)
Lemma first_stage_wrong : let C := CR Integral in let s := initial_state C in exists s1 lam sm, initialize C s = (s1, Ok lam) /\ cn_smooth C = Some sm /\
  forall hs y, (forall h, In h hs -> 0 < h)%R -> hs <> [] -> reached (fun z => numcall (sm_fx sm) [z]) (ss_x0 s) hs y -> ~ state_guess C model3 s1 0 0 y.
Proof.
  intros C s. destruct (initializedR Integral ltac:(discriminate)) as (s1 & lam & E). destruct (smooth_of_con _ _ _ _ _ _ _ (proj1 (problemR Integral)) (optsR_init Integral)) as (sm & Hs & Ha).
  exists s1, lam, sm. split; [exact E|]. split; [exact Hs|]. intros hs y Hp Hn R [Ly G].
  pose proof (sz_x0 _ _ _ (initialR Integral)) as Lx.
  destruct (rk_integral_first _ _ _ _ _ _ _ (proj1 (problemR Integral)) s s1 lam (optsR_init _) (optsR_repr _) ltac:(rewrite optsR_ns; lia) ltac:(rewrite optsR_fe; lia) (initialR _) E) as [_ G0].
  destruct (grows Integral sm hs (ss_x0 s) y Ha Lx Hp R) as (L1 & _ & Lt). specialize (Lt Hn).
  destruct (nth_error_lt (ss_x0 s) 0) as [a Ea]. { unfold s, C. rewrite Lx. cbn. lia. } destruct (nth_error_lt y 0) as [b Eb]; [rewrite L1; lia|].
  rewrite (nth_error_nth _ _ 0%R Ea), (nth_error_nth _ _ 0%R Eb) in Lt.
  pose proof (guess_fun _ _ _ _ _ _ _ _ _ _ _ (proj1 (problemR Integral)) (G0 0 a Ea) (G 0 b Eb)). lra.
Qed.
Lemma points_of r : case_cpoints (o_ns (the_opts (CR r))) (o_scheme (the_opts (CR r))) = [(1 # 3)%Q; 1%Q].
Proof. destruct r; vm_compute; reflexivity. Qed.
