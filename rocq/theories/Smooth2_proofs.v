(* Smooth2_proofs.v -- C32 in terms of the entries of theta_smooth_fun and f_x_smooth_fun *)
From Coq Require Import Reals Qreals Lra.
From Verif Require Import Base Sx Utils Tableau Opts Model Ocp Problem Spec Cases Lib Sx_proofs Fesd Sem_proofs Spec2 Witness Numeric Spec3 Mode_proofs Smooth_proofs Witness2 Accept_proofs Accept2_proofs.

Lemma nth_concat_offset {A} (d : nat -> nat) (l : list (list A)) : forall s k th,
  (forall s th, nth_error l s = Some th -> length th = d s) -> nth_error l s = Some th -> k < d s ->
  nth_error (concat l) (offset d s k) = nth_error th k.
Proof.
  intros s. revert d l. induction s as [|s IH]; intros d l k th H Hs Hk.
  - destruct l as [|a l]; [discriminate|]. injection Hs as <-. unfold offset. change (upto 0 d) with 0. cbn [concat Nat.add].
    rewrite nth_error_app1; [reflexivity|]. rewrite (H 0 a eq_refl). exact Hk.
  - destruct l as [|a l]; [discriminate|]. cbn [concat]. pose proof (H 0 a eq_refl) as La.
    assert (E : offset d (S s) k = d 0 + offset (fun s => d (S s)) s k).
    { unfold offset, upto. cbn [seq]. rewrite <- seq_shift. cbn [map total fold_right]. rewrite map_map. unfold total. lia. }
    rewrite E, nth_error_app2 by lia. replace (d 0 + offset (fun s => d (S s)) s k - length a) with (offset (fun s => d (S s)) s k) by lia.
    apply IH; [|exact Hs|exact Hk]. intros s' th' H'. exact (H (S s') th' H').
Qed.

Lemma smooth_entries o m pm sp sm v : preprocess_model o m = Ok pm -> well_sized m -> add_smooth_step_representation pm sp = Ok sm ->
  sign_matrix m ->
  length (cf_out (sm_theta sm)) = upto (n_subsystems m) (n_modes m) /\
  (forall s k, s < n_subsystems m -> k < n_modes m s -> exists e,
     nth_error (cf_out (sm_theta sm)) (offset (n_modes m) s k) = Some e /\
     eval v e = step_weight (nth k (user_S m s) []) (fun r => smoothed (Q2R sp) (switch_value m v s r)) /\ (0 < eval v e)%R) /\
  length (cf_out (sm_fx sm)) = m_nx m /\
  (forall i e, nth_error (cf_out (sm_fx sm)) i = Some e -> eval v e =
     rupto (n_subsystems m) (fun s => rupto (n_modes m s) (fun k => mode_field m v s k i *
       step_weight (nth k (user_S m s) []) (fun r => smoothed (Q2R sp) (switch_value m v s r))))%R).
Proof.
  intros HP WS HS SG. destruct (smooth_facts o m pm HP WS sp sm HS SG v) as (_ & _ & _ & _ & (thl & E & L & V) & F).
  assert (D : forall s th, nth_error thl s = Some th -> length th = n_modes m s) by (intros s th Hs; exact (isvec_length _ _ _ _ (V s th Hs))).
  split; [|split; [|split]].
  - rewrite E, length_concat, <- sumn_upto, <- L. f_equal. apply nth_error_ext. intros s. rewrite !nth_error_map.
    destruct (nth_error thl s) as [th|] eqn:Es; cbn [option_map].
    + rewrite nth_error_seq by (eapply nth_error_Some_lt; eauto). cbn. rewrite (D s th Es). reflexivity.
    + apply nth_error_None in Es. rewrite (proj2 (nth_error_None _ _)); [reflexivity|]. rewrite seq_length. exact Es.
  - intros s k Hs Hk. destruct (nth_error_lt thl s ltac:(lia)) as [th Hth]. destruct (isvec_nth _ _ _ _ k (V s th Hth) Hk) as (e & He & Ev).
    exists e. rewrite E, (nth_concat_offset _ _ s k th D Hth Hk). split; [exact He|]. split; [exact Ev|]. rewrite Ev.
    exact (smooth_weight_pos o m pm HP WS sp sm HS SG v s k Hs Hk).
  - exact (isvec_length _ _ _ _ F).
  - intros i e He. apply isvec_iff in F. destruct F as [LF F]. exact (F i e He).
Qed.
