(* Props_Soft.v -- C91: the smoothed representation (add_smooth_step_representation) approximates the multipliers and
   the vector field, "larger -> smoother, smaller -> more exact". soft_min and smoothing_error: Spec20.v. *)
From Coq Require Import Reals Qreals Lra.
From Verif Require Import Base Sx Utils Tableau Opts Model Ocp Problem Spec Cases Fesd Spec2 Witness Numeric Spec3 Witness2 Spec20 Soft_proofs Soft2_proofs.

(* what mu_smooth_fun and lambda_smooth_fun return *)
Theorem C91_multipliers o m pm sp sm v : preprocess_model o m = Ok pm -> well_sized m -> add_smooth_step_representation pm sp = Ok sm ->
  length (cf_out (sm_mu sm)) = n_subsystems m /\
  (forall s e, nth_error (cf_out (sm_mu sm)) s = Some e -> eval v e = (- soft_min (Q2R sp) (n_modes m s) (region_value m v s))%R) /\
  length (cf_out (sm_lambda sm)) = upto (n_subsystems m) (n_modes m) /\
  (forall s k, s < n_subsystems m -> k < n_modes m s -> exists e, nth_error (cf_out (sm_lambda sm)) (offset (n_modes m) s k) = Some e /\
     eval v e = (region_value m v s k - soft_min (Q2R sp) (n_modes m s) (region_value m v s))%R).
Proof.
  intros HP WS HS. exact (conj (proj1 (soft_mu o m pm HP WS sp sm HS v)) (conj (proj2 (soft_mu o m pm HP WS sp sm HS v)) (soft_lambda o m pm HP WS sp sm HS v))).
Qed.
Print Assumptions C91_multipliers.
(* they satisfy the stationarity condition g - lambda + mu = 0, and are at most (n_f - 1) s / e away from the multipliers
   of the switching problem, mu = - min g and lambda = g - min g *)
Theorem C91_close o m pm sp sm v s k em el : preprocess_model o m = Ok pm -> well_sized m -> add_smooth_step_representation pm sp = Ok sm ->
  s < n_subsystems m -> k < n_modes m s -> nth_error (cf_out (sm_mu sm)) s = Some em ->
  nth_error (cf_out (sm_lambda sm)) (offset (n_modes m) s k) = Some el ->
  (region_value m v s k - eval v el + eval v em = 0)%R /\
  exists mn, least (n_modes m s) (region_value m v s) mn /\
    (- mn - INR (n_modes m s - 1) * (Q2R sp * exp (-1)) <= eval v em <= - mn)%R /\
    (region_value m v s k - mn - INR (n_modes m s - 1) * (Q2R sp * exp (-1)) <= eval v el <= region_value m v s k - mn)%R.
Proof. exact (multipliers_close o m pm sp sm v s k em el). Qed.
Print Assumptions C91_close.
(* unless all g of a subsystem are equal, the smoothed multiplier of the active mode is negative *)
Theorem C91_negative o m pm sp sm v s k k' e : preprocess_model o m = Ok pm -> well_sized m -> add_smooth_step_representation pm sp = Ok sm ->
  s < n_subsystems m -> k < n_modes m s -> least (n_modes m s) (region_value m v s) (region_value m v s k) ->
  k' < n_modes m s -> (region_value m v s k < region_value m v s k')%R ->
  nth_error (cf_out (sm_lambda sm)) (offset (n_modes m) s k) = Some e -> (eval v e < 0)%R.
Proof. exact (multiplier_negative o m pm sp sm v s k k' e). Qed.
Print Assumptions C91_negative.
(* inside a region the weights are close to 0 and 1 ... *)
Theorem C91_weights o m pm sp sm v s i k e : preprocess_model o m = Ok pm -> well_sized m -> add_smooth_step_representation pm sp = Ok sm ->
  sign_matrix m -> s < n_subsystems m -> i < n_modes m s -> k < n_modes m s -> in_region m v s i -> complete m s ->
  nth_error (cf_out (sm_theta sm)) (offset (n_modes m) s k) = Some e ->
  (Rabs (eval v e - if k =? i then 1 else 0) <= smoothing_error m v (Q2R sp) s i)%R.
Proof. exact (weights_close o m pm sp sm v s i k e). Qed.
Print Assumptions C91_weights.
(* ... and f_x_smooth_fun is close to the field of the active modes *)
Theorem C91_field o m pm sp sm v act D j e : preprocess_model o m = Ok pm -> well_sized m -> add_smooth_step_representation pm sp = Ok sm ->
  sign_matrix m ->
  (forall s, s < n_subsystems m -> act s < n_modes m s /\ in_region m v s (act s) /\ complete m s) ->
  (forall s k, s < n_subsystems m -> k < n_modes m s -> (Rabs (mode_field m v s k j - mode_field m v s (act s) j) <= D s)%R) ->
  nth_error (cf_out (sm_fx sm)) j = Some e ->
  (Rabs (eval v e - rupto (n_subsystems m) (fun s => mode_field m v s (act s) j)) <=
   rupto (n_subsystems m) (fun s => D s * smoothing_error m v (Q2R sp) s (act s)))%R.
Proof. intros HP WS HS SG A B He. exact (field_close o m pm HP WS sp sm HS SG v act D j e A B He). Qed.
Print Assumptions C91_field.
(* three modes with a zero in S, x = (0.1, 10) in R_0, s = 1/1000: the weights are within 1/200 of (1, 0, 0) *)
Example C91_case : exists sm, preprocess_model (stepopts) sparse_model = Ok sp_step /\ well_sized sparse_model /\
  add_smooth_step_representation sp_step (1#1000) = Ok sm /\ sign_matrix sparse_model /\ complete sparse_model 0 /\
  in_region sparse_model (pt sparse_point) 0 0 /\ length (cf_out (sm_lambda sm)) = 3 /\
  smoothing_error sparse_model (pt sparse_point) (Q2R (1#1000)) 0 0 = (1 / 200)%R /\
  least 3 (region_value sparse_model (pt sparse_point) 0) (region_value sparse_model (pt sparse_point) 0 1) /\
  (region_value sparse_model (pt sparse_point) 0 1 < region_value sparse_model (pt sparse_point) 0 0)%R.
Proof. exact soft_case. Qed.
