(* Soft2_proofs.v -- C91 as stated, and its case *)
From Coq Require Import Reals Qreals Lra Lia.
From Verif Require Import Base Sx Utils Tableau Opts Model Ocp Problem Spec Cases Lib Sx_proofs Fesd Sem_proofs Spec2 Witness Numeric Spec3 Dcs_proofs Mode_proofs Smooth_proofs Smooth2_proofs Exact_proofs Witness2 Spec20 Soft_proofs.

Lemma multipliers_close o m pm sp sm v s k em el : preprocess_model o m = Ok pm -> well_sized m -> add_smooth_step_representation pm sp = Ok sm ->
  s < n_subsystems m -> k < n_modes m s -> nth_error (cf_out (sm_mu sm)) s = Some em ->
  nth_error (cf_out (sm_lambda sm)) (offset (n_modes m) s k) = Some el ->
  (region_value m v s k - eval v el + eval v em = 0)%R /\
  exists mn, least (n_modes m s) (region_value m v s) mn /\
    (- mn - INR (n_modes m s - 1) * (Q2R sp * exp (-1)) <= eval v em <= - mn)%R /\
    (region_value m v s k - mn - INR (n_modes m s - 1) * (Q2R sp * exp (-1)) <= eval v el <= region_value m v s k - mn)%R.
Proof.
  intros HP WS HS Hs Hk Em El. destruct (soft_facts o m pm HP WS sp sm HS v) as (_ & P & _).
  rewrite (proj2 (soft_mu o m pm HP WS sp sm HS v) s em Em).
  destruct (proj2 (soft_lambda o m pm HP WS sp sm HS v) s k Hs Hk) as (e & He & Ev). assert (e = el) by congruence. subst e. rewrite Ev.
  split; [ring|]. destruct (least_exists (n_modes m s) (region_value m v s) ltac:(lia)) as [mn L]. exists mn. split; [exact L|].
  pose proof (soft_bounds _ _ _ mn P L). lra.
Qed.

Lemma multiplier_negative o m pm sp sm v s k k' e : preprocess_model o m = Ok pm -> well_sized m -> add_smooth_step_representation pm sp = Ok sm ->
  s < n_subsystems m -> k < n_modes m s -> least (n_modes m s) (region_value m v s) (region_value m v s k) ->
  k' < n_modes m s -> (region_value m v s k < region_value m v s k')%R ->
  nth_error (cf_out (sm_lambda sm)) (offset (n_modes m) s k) = Some e -> (eval v e < 0)%R.
Proof.
  intros HP WS HS Hs Hk L Hk' Lt He. destruct (soft_facts o m pm HP WS sp sm HS v) as (_ & P & _).
  destruct (proj2 (soft_lambda o m pm HP WS sp sm HS v) s k Hs Hk) as (e' & He' & Ev). assert (e' = e) by congruence. subst e'. rewrite Ev.
  pose proof (soft_above (Q2R sp) _ _ _ L k' Hk' Lt). lra.
Qed.

Lemma weights_close o m pm sp sm v s i k e : preprocess_model o m = Ok pm -> well_sized m -> add_smooth_step_representation pm sp = Ok sm ->
  sign_matrix m -> s < n_subsystems m -> i < n_modes m s -> k < n_modes m s -> in_region m v s i -> complete m s ->
  nth_error (cf_out (sm_theta sm)) (offset (n_modes m) s k) = Some e ->
  (Rabs (eval v e - if k =? i then 1 else 0) <= smoothing_error m v (Q2R sp) s i)%R.
Proof.
  intros HP WS HS SG Hs Hi Hk HR HC He. destruct (smooth_entries o m pm sp sm v HP WS HS SG) as (_ & E & _).
  destruct (E s k Hs Hk) as (e' & He' & Ev & _). assert (e' = e) by congruence. subst e'. rewrite Ev. change (step_weight _ _) with (smooth_weight m sp v s k).
  pose proof (weight_close o m pm HP WS sp sm HS SG v s i Hs Hi HR) as W. destruct (Nat.eqb_spec k i) as [->|N].
  - rewrite Rabs_left1; lra.
  - pose proof (smooth_weight_pos o m pm HP WS sp sm HS SG v s k Hs Hk) as Pk. rewrite Rminus_0_r, Rabs_pos_eq by lra.
    apply Rle_trans with (2 := others_close o m pm HP WS sp sm HS SG v s i Hs Hi HR HC).
    pose proof (Mode_proofs.rupto_single (n_modes m s) (fun j => if (j =? k)%nat then smooth_weight m sp v s k else 0%R) k Hk) as S.
    cbn beta in S. rewrite Nat.eqb_refl in S. rewrite <- S. 2:{ intros j _ Nj. apply Nat.eqb_neq in Nj. rewrite Nj. reflexivity. }
    apply rupto_le. intros j Hj. pose proof (smooth_weight_pos o m pm HP WS sp sm HS SG v s j Hs Hj) as Pj.
    destruct (Nat.eqb_spec j k) as [->|]; [rewrite (proj2 (Nat.eqb_neq k i) N); lra|]. destruct (j =? i); lra.
Qed.

Lemma sparse_values : region_value sparse_model (pt sparse_point) 0 0 = (- (1 / 10))%R /\
  region_value sparse_model (pt sparse_point) 0 1 = (- (99 / 10))%R /\ region_value sparse_model (pt sparse_point) 0 2 = (101 / 10)%R.
Proof.
  unfold region_value, user_S, user_c. cbn -[pt]. unfold pt, ptQ. cbn. unfold Q2R. cbn. lra.
Qed.
Lemma soft_case : exists sm, preprocess_model stepopts sparse_model = Ok sp_step /\ well_sized sparse_model /\
  add_smooth_step_representation sp_step (1#1000) = Ok sm /\ sign_matrix sparse_model /\ complete sparse_model 0 /\
  in_region sparse_model (pt sparse_point) 0 0 /\ length (cf_out (sm_lambda sm)) = 3 /\
  smoothing_error sparse_model (pt sparse_point) (Q2R (1#1000)) 0 0 = (1 / 200)%R /\
  least 3 (region_value sparse_model (pt sparse_point) 0) (region_value sparse_model (pt sparse_point) 0 1) /\
  (region_value sparse_model (pt sparse_point) 0 1 < region_value sparse_model (pt sparse_point) 0 0)%R.
Proof.
  destruct (add_smooth_step_representation sp_step (1#1000)) as [sm|] eqn:E; [|vm_compute in E; discriminate].
  exists sm. split; [exact sp_step_is|]. split; [exact sparse_sized|]. split; [reflexivity|]. split; [exact sparse_signs|]. split; [exact sparse_complete|].
  split; [exact (proj1 (proj2 (proj2 sparse_stewart_wrong)))|]. split.
  { rewrite (proj1 (soft_lambda _ _ _ sp_step_is sparse_sized _ _ E (pt sparse_point))). reflexivity. }
  destruct sparse_values as (V0 & V1 & V2). split; [|split].
  - unfold smoothing_error. change (n_switch sparse_model 0) with 2. rewrite !rupto_succ, rupto_0. change (Qeq_bool (sign sparse_model 0 0 0) 0) with false. change (Qeq_bool (sign sparse_model 0 0 1) 0) with true. cbv iota.
    replace (switch_value sparse_model (pt sparse_point) 0 0) with (1 / 10)%R by (unfold switch_value, pt, ptQ; cbn; unfold Q2R; cbn; lra).
    rewrite (Rabs_pos_eq (1 / 10)) by lra. unfold Q2R. cbn. lra.
  - split; [|exists 1; split; [lia|reflexivity]]. intros [|[|[|k]]] Hk; rewrite ?V0, ?V1, ?V2; try lra. lia.
  - lra.
Qed.
