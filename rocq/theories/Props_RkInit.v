(* Props_RkInit.v -- InitializationStrategy.RK4_SMOOTHENED: C46 *)
From Coq Require Import Reals Qreals Lra.
From Verif Require Import Base Lib Sx Utils Tableau Opts Model Ocp Problem Numeric Rk4 Results Solver Spec Cases Fesd Spec2 Spec3 Spec4 Spec5 Spec6
  Witness Rk4_proofs RkInit_proofs Witness5.
Local Open Scope nat_scope.

(* DIFFERENTIAL and DIFFERENTIAL_LIFT_X: the guess of stage k of element i is reached by RK4 steps of
   the smoothed field from stage to stage; their lengths add up to (i + c_k) h.
   Missing: INTEGRAL, for which it is false (below). *)
Theorem C46_differential_partial lr cp d o m oc C s s1 lam : construct_problem lr cp d o m oc = Ok C ->
  o_init (the_opts C) = Rk4Smoothened -> o_repr (the_opts C) <> Integral -> sized C m s -> initialize C s = (s1, Ok lam) ->
  exists sm bt, cn_smooth C = Some sm /\ generate_butcher_tableu (o_ns (the_opts C)) (o_scheme (the_opts C)) = Ok bt /\
  let h := (Q2R (o_terminal_time (the_opts C)) / INR (o_N_stages (the_opts C) * o_N_finite_elements (the_opts C)))%R in
  let steps := increments h 0 (map Q2R (bt_c bt)) in
  forall i k, i < o_N_finite_elements (the_opts C) -> k < o_ns (the_opts C) -> exists c y, nth_error (bt_c bt) k = Some c /\
  reached (fun z => numcall (sm_fx sm) [z]) (ss_x0 s) (concat (repeat steps i) ++ firstn (k + 1) steps) y /\
  rsum (concat (repeat steps i) ++ firstn (k + 1) steps) = ((INR i + Q2R c) * h)%R /\ state_guess C m s1 i k y.
Proof. intros H. exact (rk_differential lr cp d o m oc C H s s1 lam). Qed.
Print Assumptions C46_differential_partial.
(* it does not raise for the lifted representation with Radau points *)
Theorem C46_differential_total lr cp d o m oc C s : construct_problem lr cp d o m oc = Ok C ->
  o_init (the_opts C) = Rk4Smoothened -> well_sized m -> sign_matrix m -> o_pss (the_opts C) = Stewart ->
  o_repr (the_opts C) = DifferentialLiftX -> o_scheme (the_opts C) = RadauIIA -> sized C m s ->
  0 < o_N_finite_elements (the_opts C) <= nfe_of (the_opts C) 0 -> exists s1 lam, initialize C s = (s1, Ok lam).
Proof. intros H. exact (rk_total lr cp d o m oc C H s). Qed.
Print Assumptions C46_differential_total.
Example C46_case : is_problem (optsR DifferentialLiftX) model3 None (CR DifferentialLiftX) /\ sign_matrix model3 /\
  o_init (the_opts (CR DifferentialLiftX)) = Rk4Smoothened /\ o_repr (the_opts (CR DifferentialLiftX)) = DifferentialLiftX /\
  o_ns (the_opts (CR DifferentialLiftX)) = 2 /\ o_N_finite_elements (the_opts (CR DifferentialLiftX)) = 2 /\
  sized (CR DifferentialLiftX) model3 (initial_state (CR DifferentialLiftX)) /\
  exists s1 lam, initialize (CR DifferentialLiftX) (initial_state (CR DifferentialLiftX)) = (s1, Ok lam).
Proof.
  exact (conj (problemR _) (conj signs3 (conj (optsR_init _) (conj (optsR_repr _) (conj (optsR_ns _) (conj (optsR_fe _) (conj (initialR _)
    (initializedR DifferentialLiftX ltac:(discriminate))))))))).
Qed.
(* INTEGRAL: irk_time_points starts with 0, so the points are shifted by one and an element ends at its
   last but one point *)
Theorem C46_integral lr cp d o m oc C s s1 lam : construct_problem lr cp d o m oc = Ok C ->
  o_init (the_opts C) = Rk4Smoothened -> o_repr (the_opts C) = Integral -> 0 < o_ns (the_opts C) -> sized C m s -> initialize C s = (s1, Ok lam) ->
  exists sm, cn_smooth C = Some sm /\
  let h := (Q2R (o_terminal_time (the_opts C)) / INR (o_N_stages (the_opts C) * o_N_finite_elements (the_opts C)))%R in
  let steps := increments h 0 (map Q2R (firstn (o_ns (the_opts C)) (0%Q :: cp (o_ns (the_opts C)) (o_scheme (the_opts C))))) in
  forall i k, i < o_N_finite_elements (the_opts C) -> k < o_ns (the_opts C) -> exists y,
  reached (fun z => numcall (sm_fx sm) [z]) (ss_x0 s) (concat (repeat steps i) ++ firstn (k + 1) steps) y /\ state_guess C m s1 i k y.
Proof. intros H. exact (rk_integral lr cp d o m oc C H s s1 lam). Qed.
Print Assumptions C46_integral.
Theorem C46_integral_first_stage lr cp d o m oc C s s1 lam : construct_problem lr cp d o m oc = Ok C ->
  o_init (the_opts C) = Rk4Smoothened -> o_repr (the_opts C) = Integral -> 0 < o_ns (the_opts C) -> 0 < o_N_finite_elements (the_opts C) ->
  sized C m s -> initialize C s = (s1, Ok lam) -> state_guess C m s1 0 0 (ss_x0 s).
Proof. intros H. exact (rk_integral_first lr cp d o m oc C H s s1 lam). Qed.
Print Assumptions C46_integral_first_stage.
(* the guess of the first stage is no RK4 approximation at any positive time *)
Theorem C46_refuted : exists lr cp d o m oc C s s1 lam sm, construct_problem lr cp d o m oc = Ok C /\ o_init (the_opts C) = Rk4Smoothened /\
  sized C m s /\ initialize C s = (s1, Ok lam) /\ cn_smooth C = Some sm /\ cp (o_ns (the_opts C)) (o_scheme (the_opts C)) = [(1 # 3)%Q; 1%Q] /\
  forall hs y, (forall h, In h hs -> 0 < h)%R -> hs <> [] -> reached (fun z => numcall (sm_fx sm) [z]) (ss_x0 s) hs y -> ~ state_guess C m s1 0 0 y.
Proof.
  destruct first_stage_wrong as (s1 & lam & sm & E & Es & N). exists case_log_round, case_cpoints, ipopt_init, (optsR Integral), model3, None, (CR Integral), (initial_state (CR Integral)), s1, lam, sm.
  exact (conj (proj1 (problemR Integral)) (conj (optsR_init Integral) (conj (initialR Integral) (conj E (conj Es (conj (points_of _) N)))))).
Qed.
Print Assumptions C46_refuted.
(* with one state per element (DIFFERENTIAL) it raises as soon as n_s > 1 *)
Theorem C46_enough_slots lr cp d o m oc C s s1 lam : construct_problem lr cp d o m oc = Ok C ->
  o_init (the_opts C) = Rk4Smoothened -> 0 < o_ns (the_opts C) -> 0 < o_N_finite_elements (the_opts C) -> sized C m s -> initialize C s = (s1, Ok lam) ->
  o_ns (the_opts C) <= points1 (the_opts C) (explicit_end C) FX.
Proof. intros H. exact (rk_one_slot lr cp d o m oc C H s s1 lam). Qed.
Print Assumptions C46_enough_slots.
Example C46_enough_slots_case : points1 (the_opts (CR Differential)) (explicit_end (CR Differential)) FX = 1 /\ o_ns (the_opts (CR Differential)) = 2.
Proof. split; vm_compute; reflexivity. Qed.
(* every other guess, in particular those of later control stages, is left alone *)
Theorem C46_only_first_control_stage lr cp d o m oc C s s1 lam p y : construct_problem lr cp d o m oc = Ok C ->
  o_init (the_opts C) = Rk4Smoothened -> 0 < o_ns (the_opts C) -> sized C m s -> initialize C s = (s1, Ok lam) ->
  nth_error (w (the_nlp C)) p = Some y -> (forall i k j, y <> S1 FX 0 i k j) -> (forall f i k q j, y <> S2 f 0 i k q j) ->
  nth_error (ss_w0 s1) p = nth_error (ss_w0 s) p.
Proof. intros H. exact (rk_other_stages lr cp d o m oc C H s s1 lam p y). Qed.
Print Assumptions C46_only_first_control_stage.
(* it raises unless the last Runge-Kutta point is the end of the element (so for all Gauss points) *)
Theorem C46_last_point lr cp d o m oc C s s1 lam : construct_problem lr cp d o m oc = Ok C ->
  o_init (the_opts C) = Rk4Smoothened -> 0 < o_ns (the_opts C) -> sized C m s -> initialize C s = (s1, Ok lam) ->
  exists te, last_is (t_times (cn_tab C)) te /\ (te == 1)%Q.
Proof. intros H. exact (rk_gauss lr cp d o m oc C H s s1 lam). Qed.
Print Assumptions C46_last_point.
