(* Props_Hsim.v -- C106: simulations keep the order of the method across switches *)
From Coq Require Import Reals Qreals.
From Verif Require Import Base Sx Utils Tableau Opts Model Ocp Problem Results Solver Looper Spec Cases Fesd Spec2 Spec3 Spec4 Spec6 Witness Feas_proofs Spec9 Spec10 Spec11 Spec19 Spec21 Spec22 Spec27 Spec28 Spec34
  Hord5_proofs Hord8_proofs Hord9_proofs.
Local Open Scope R_scope.

(* all states that the looper stores and the times of all switches: errors of order h^n with one constant for all numbers of steps *)
Theorem C106_order cp sc n Lf M B Lpsi kappa T Delta last :
  0 <= Lf -> 0 <= M -> 0 <= B -> 0 <= Lpsi -> 0 < kappa -> 0 <= T -> 0 <= Delta -> exists Kc, 0 <= Kc /\
  forall lr d o m oc C nlp x0 Nsim pv pc wi lp s tr lp' (rho : nat -> env) (D : (nat -> R) -> Prop) h P ph Y,
  fesd_problem lr cp d o m oc C -> extractable (the_opts C) m -> o_pss (the_opts C) = Stewart \/ gS_given m = false /\ n_subsystems m = 1%nat ->
  points_ok cp (the_opts C) -> points_inside cp (the_opts C) -> plain_fields m -> method Integral sc n (the_opts C) ->
  looper_init (cn_prob C) x0 Nsim pv pc wi = Ok lp -> simulation nlp C m 0 lp s tr lp' ->
  (forall k q, nth_error tr k = Some q -> solved_relaxed C (snd q) (rho k) /\ steps_upto (the_opts C) (rho k) h) ->
  elapsed tr (length tr) <= T -> (forall x y, D x -> D y -> near_by m x y Delta) ->
  run_regular (the_opts C) m rho tr D n Lf M B P ph -> run_consists m tr x0 Y P last ->
  run_follows (the_opts C) (cn_tab C) m rho tr D Lpsi kappa P last ph ->
  (forall j tm x, nth_error (looper_t_grid lp') j = Some tm -> nth_error (lp_X_sim lp') j = Some x ->
     near_by m (fun i => nth i x 0) (Y tm) (Kc * h ^ n)) /\
  (forall a e a' e', run_element (the_opts C) tr a e -> run_before (the_opts C) a e = Some (a', e') -> ph a e <> ph a' e' ->
     Rabs (run_time (the_opts C) rho tr a e - pc_start (P (ph a e))) <= Kc * h ^ n).
Proof. exact (simulation_order cp sc n Lf M B Lpsi kappa T Delta last). Qed.
Print Assumptions C106_order.

(* what consists of lawful pieces solves the switched system over the whole simulation *)
Theorem C106_solution lr cp d o m oc C nlp x0 Nsim pv pc wi lp s tr lp' (rho : nat -> env) h (D : (nat -> R) -> Prop) n Lf M B Lpsi kappa P last ph Y act :
  fesd_problem lr cp d o m oc C -> extractable (the_opts C) m -> o_pss (the_opts C) = Stewart \/ gS_given m = false /\ n_subsystems m = 1%nat ->
  looper_init (cn_prob C) x0 Nsim pv pc wi = Ok lp -> simulation nlp C m 0 lp s tr lp' ->
  (forall k q, nth_error tr k = Some q -> solved_relaxed C (snd q) (rho k) /\ steps_upto (the_opts C) (rho k) h) ->
  plain_fields m -> mode_rule (the_opts C) m act -> run_regular (the_opts C) m rho tr D n Lf M B P ph ->
  run_follows (the_opts C) (cn_tab C) m rho tr D Lpsi kappa P last ph -> run_consists m tr x0 Y P last ->
  run_lawful (the_opts C) m rho tr act P last -> run_solution (the_opts C) m act rho tr x0 Y.
Proof.
  intros H1 H2 H3 H4 H5 H6 H7 H8 H9 H10 H11 H12. exact (simulation_pieces lr cp d o m oc C H1 H2 H3 nlp x0 Nsim pv pc wi lp s tr lp' rho h H4 H5 H6 H7 D n Lf M B Lpsi kappa P last ph Y act H8 H9 H10 H11 H12).
Qed.
Print Assumptions C106_solution.

(* case: two steps of Radau IIA with two stages, the surface reached in the first one and sliding in both *)
Example C106_case : is_problem optsH decay_model None CH /\ extractable (the_opts CH) decay_model /\ o_pss (the_opts CH) = Stewart /\
  points_ok case_cpoints (the_opts CH) /\ points_inside case_cpoints (the_opts CH) /\ plain_fields decay_model /\ method Integral RadauIIA 2 (the_opts CH) /\
  (forall x y, DH x -> DH y -> near_by decay_model x y 2) /\ mode_rule (the_opts CH) decay_model (smallest decay_model) /\
  exists L s' L' tr, looper_init (cn_prob CH) [25 / 88] 2 None 0 None = Ok L /\ run nlpH CH false L (initial_state CH) = (s', L', Ok true) /\
  simulation nlpH CH decay_model 0 L (initial_state CH) tr L' /\ length tr = 2%nat /\
  (forall k q, nth_error tr k = Some q -> solved_relaxed CH (snd q) (rhosH k) /\ steps_upto (the_opts CH) (rhosH k) (/ 4)) /\ elapsed tr (length tr) <= 1 /\
  run_regular (the_opts CH) decay_model rhosH tr DH 2 1 2 2 PS phS /\ run_consists decay_model tr [25 / 88] YH PS 1 /\
  run_follows (the_opts CH) (cn_tab CH) decay_model rhosH tr DH 1 (/ 2) PS 1 phS /\ run_lawful (the_opts CH) decay_model rhosH tr (smallest decay_model) PS 1.
Proof.
  destruct order_case as (A1 & _ & A2 & A3 & A4 & A5 & _ & _ & A6 & _).
  exact (conj A1 (conj extractH (conj stewartH (conj A2 (conj A3 (conj A4 (conj A5 (conj A6 (conj (proj1 solution_case) simulation_case))))))))).
Qed.
