(* Props_Total.v -- C70: construct_problem accepts every consistent model and OCP, except for three groups of
   options that it rejects whatever the model is. *)
From Coq Require Import Reals Qreals.
From Verif Require Import Base Sx Utils Tableau Opts Model Ocp Problem Spec Cases Fesd Spec2 Numeric Spec3 Spec8
  Total3_proofs Witness Witness2 Witness7.

(* The statement asks for every combination of the enums. Missing: SpeedOfTimeVariableMode GLOBAL,
   FISCHER_BURMEISTER_IP_AUG with the lambdas summed, and LEAST_SQUARES (C19 says when that one is accepted).
   With RK4_SMOOTHENED, F and c have to be functions of x only. *)
Theorem C70_accepted_partial lr cp d o m oc : supported o -> scheme_available cp o -> grid_given o -> consistent_model o m ->
  (o_init o = Rk4Smoothened -> smoothable o m) -> (forall x, oc = Some x -> consistent_ocp m x) ->
  exists C, construct_problem lr cp d o m oc = Ok C.
Proof. exact (construct_total lr cp d o m oc). Qed.
Print Assumptions C70_accepted_partial.

(* the two enum combinations are the only obstacles *)
Theorem C70_exactly lr cp d o m oc : o_constr o = Exact -> o_init o <> Rk4Smoothened -> scheme_available cp o -> grid_given o ->
  consistent_model o m -> (forall x, oc = Some x -> consistent_ocp m x) ->
  ((exists C, construct_problem lr cp d o m oc = Ok C) <->
   o_sot o <> SotGlobal /\ ~ (o_mpcc o = FischerBurmeisterIpAug /\ o_use_fesd o = true /\ o_cross o = SumLambdas)).
Proof. exact (construct_iff lr cp d o m oc). Qed.
Print Assumptions C70_exactly.

(* whatever the model *)
Theorem C70_aug_sum_never lr cp d o m oc C : o_mpcc o = FischerBurmeisterIpAug -> o_use_fesd o = true -> o_cross o = SumLambdas ->
  0 < o_ns o -> construct_problem lr cp d o m oc <> Ok C.
Proof. exact (aug_sum_never lr cp d o m oc C). Qed.
Print Assumptions C70_aug_sum_never.

(* the hypotheses hold for every combination of the enums, both ways of giving a model, with and without an OCP *)
Example C70_case_F p mp cr se so fesd r ns s : consistent_model (enums p mp cr se so fesd r ns s) model2 /\ grid_given (enums p mp cr se so fesd r ns s).
Proof. split; [apply consistent2|split; cbn; lia]. Qed.
Example C70_case_fx mp cr se so fesd r ns s : consistent_model (enums Step mp cr se so fesd r ns s) model_fx.
Proof. apply consistent_fx. Qed.
Example C70_case_ocp : consistent_model optsA model1 /\ consistent_ocp model1 ocp1.
Proof. exact consistent1. Qed.
Example C70_case_scheme p mp cr se so fesd r n s : In (n, s) [(1, RadauIIA); (2, RadauIIA); (1, GaussLegendre)] ->
  scheme_available case_cpoints (enums p mp cr se so fesd r n s).
Proof.
  intros H. destruct (points_ok n s H) as [A B].
  assert (1 <= n <= 9) by (destruct H as [H|[H|[H|[]]]]; injection H as <- <-; lia).
  destruct r; cbn; [split; [lia|split; assumption]|lia|lia].
Qed.
Example C70_case_smooth p : consistent_model (smooth_opts p) model3 /\ smoothable (smooth_opts p) model3 /\ o_init (smooth_opts p) = Rk4Smoothened.
Proof. split; [apply consistent3; reflexivity|split; [apply smoothable3; reflexivity|reflexivity]]. Qed.
Example C70_case_built : is_ok (build (smooth_opts Step) model3 None) = true /\
  is_ok (build (enums Step FischerBurmeisterIpAug ComplementAll HeuristicMean SotNone true Differential 4 GaussLegendre) model_fx None) = true.
Proof. vm_compute. split; reflexivity. Qed.

(* consistent inputs that raise, one for each missing group *)
Theorem C70_global_refuted : exists o m, consistent_model o m /\ grid_given o /\ scheme_available case_cpoints o /\
  build o m None = Err EAttributeError.
Proof.
  exists (enums Stewart ScholtesIneq SumLambdas HeuristicMean SotGlobal true Integral 2 RadauIIA), model2.
  split; [apply consistent2|]. split; [split; cbn; lia|]. split; [apply C70_case_scheme; cbn; tauto|]. vm_compute. reflexivity.
Qed.
Print Assumptions C70_global_refuted.
Theorem C70_aug_refuted : exists o m e, consistent_model o m /\ grid_given o /\ scheme_available case_cpoints o /\
  o_mpcc o = FischerBurmeisterIpAug /\ build o m None = Err e.
Proof.
  exists (enums Stewart FischerBurmeisterIpAug SumLambdas HeuristicMean SotNone true Integral 2 RadauIIA), model2. eexists.
  split; [apply consistent2|]. split; [split; cbn; lia|]. split; [apply C70_case_scheme; cbn; tauto|]. split; [reflexivity|]. vm_compute. reflexivity.
Qed.
Print Assumptions C70_aug_refuted.
Theorem C70_least_squares_refuted : exists o m, consistent_model o m /\ grid_given o /\ scheme_available case_cpoints o /\
  o_constr o = LeastSquares /\ build o m None = Err EException.
Proof.
  exists (with_constr optsS LeastSquares), model3.
  split; [apply consistent3; reflexivity|]. split; [split; cbn; lia|]. split.
  - destruct (points_ok 1 RadauIIA) as [A B]; [cbn; tauto|]. cbn. split; [lia|split; assumption].
  - split; [reflexivity|]. vm_compute. reflexivity.
Qed.
Print Assumptions C70_least_squares_refuted.
Theorem C70_smooth_refuted : exists o m e, consistent_model o m /\ grid_given o /\ scheme_available case_cpoints o /\
  supported o /\ o_init o = Rk4Smoothened /\ build o m None = Err e.
Proof.
  exists optsA_smooth, model1. eexists.
  split; [apply consistent1_smooth|]. split; [split; cbn; lia|]. split; [|split; [split; discriminate||reflexivity|split; [reflexivity|]]].
  - destruct (points_ok 2 RadauIIA) as [A B]; [cbn; tauto|]. cbn. split; [lia|split; assumption].
  - vm_compute. reflexivity.
Qed.
Print Assumptions C70_smooth_refuted.
