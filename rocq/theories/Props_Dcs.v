(* Props_Dcs.v -- C29-C33: the dynamic complementarity system built from the model.
   algebra_holds pm v: all algebraic equations (g_z_all) vanish at the point v; dynamics_are pm v f: f_x(v) = f.
   The specification is Spec3.v and the first part of Fesd.v; the models and points of the examples are in Witness2.v. *)
From Coq Require Import Reals Qreals Lra.
From Verif Require Import Base Sx Utils Tableau Opts Model Ocp Problem Spec Cases Fesd Spec2 Witness Numeric Spec3
  Mode_proofs Lam_proofs Smooth_proofs Accept_proofs Accept2_proofs Smooth2_proofs Witness2.

(* ---- C29: Stewart ---- *)
(* the mode with the smallest g is the active one *)
Theorem C29_smallest_g_partial o m pm v act : preprocess_model o m = Ok pm -> well_sized m -> o_pss o = Stewart ->
  algebra_holds pm v -> stewart_complementary m v ->
  (forall s, s < n_subsystems m -> act s < n_modes m s /\
     forall j, j < n_modes m s -> j <> act s -> (region_value m v s (act s) < region_value m v s j)%R) ->
  (forall s k, s < n_subsystems m -> k < n_modes m s -> v (MF FTheta s k) = if k =? act s then 1%R else 0%R) /\
  dynamics_are pm v (fun i => rupto (n_subsystems m) (fun s => mode_field m v s (act s) i)).
Proof.
  intros HP WS Ep HA HC H. split.
  - intros s k Hs Hk. destruct (H s Hs) as [Ha Hm]. exact (stewart_theta o m pm HP WS v Ep HA HC s (act s) Hs Ha Hm k Hk).
  - exact (stewart_dynamics o m pm HP WS v Ep HA HC act H).
Qed.
Print Assumptions C29_smallest_g_partial.
(* which is the region containing x if the row of that region has no zero *)
Theorem C29_full_rows_partial o m pm v act : preprocess_model o m = Ok pm -> well_sized m -> o_pss o = Stewart ->
  gS_given m = false -> sign_matrix m -> algebra_holds pm v -> stewart_complementary m v ->
  (forall s, s < n_subsystems m -> act s < n_modes m s /\ in_region m v s (act s) /\ full_row m s (act s) /\
     forall j, j < n_modes m s -> j <> act s -> ~ same_row m s (act s) j) ->
  (forall s k, s < n_subsystems m -> k < n_modes m s -> v (MF FTheta s k) = if k =? act s then 1%R else 0%R) /\
  dynamics_are pm v (fun i => rupto (n_subsystems m) (fun s => mode_field m v s (act s) i)).
Proof.
  intros HP WS Ep Hg SG HA HC H. apply (C29_smallest_g_partial o m pm v act HP WS Ep HA HC). intros s Hs.
  destruct (H s Hs) as (Ha & Hr & Hf & Hd). split; [exact Ha|]. intros j Hj N.
  exact (full_row_smallest o m pm HP WS v Ep s (act s) Hg SG Hs Ha Hf Hr j Hj (Hd j Hj N)).
Qed.
Print Assumptions C29_full_rows_partial.
Example C29_case : preprocess_model default_opts full_model = Ok fu_stewart /\ well_sized full_model /\ sign_matrix full_model /\
  algebra_holds fu_stewart (pt full_point) /\ stewart_complementary full_model (pt full_point) /\
  in_region full_model (pt full_point) 0 0 /\ full_row full_model 0 0 /\ (forall j, j < 4 -> j <> 0 -> ~ same_row full_model 0 0 j) /\
  dynamics_are fu_stewart (pt full_point) (fun i => Q2R (nth i [1; 0]%Q 0%Q)).
Proof. exact (conj fu_stewart_is (conj full_sized (conj full_signs full_stewart_right))). Qed.
(* with zeros in S the algebraic equations can select another mode: S = [[1,0],[-1,1],[-1,-1]], c = (x_0, x_1),
   x = (0.1, 10) lies in R_0 only but theta = e_1 *)
Theorem C29_refuted : exists o m pm v, preprocess_model o m = Ok pm /\ well_sized m /\ o_pss o = Stewart /\ gS_given m = false /\
  sign_matrix m /\ complete m 0 /\ algebra_holds pm v /\ stewart_complementary m v /\
  in_region m v 0 0 /\ separated m 0 0 1 /\ separated m 0 0 2 /\ v (MF FTheta 0 0) = 0%R /\ v (MF FTheta 0 1) = 1%R /\
  dynamics_are pm v (fun i => Q2R (nth i [2; 0]%Q 0%Q)).
Proof.
  exists default_opts, sparse_model, sp_stewart, (pt sparse_point).
  exact (conj sp_stewart_is (conj sparse_sized (conj eq_refl (conj eq_refl (conj sparse_signs (conj sparse_complete sparse_stewart_wrong)))))).
Qed.
Print Assumptions C29_refuted.

(* ---- C30: Step ---- *)
Theorem C30_step_modes o m pm v act : preprocess_model o m = Ok pm -> well_sized m -> o_pss o = Step -> m_F m <> None ->
  sign_matrix m -> rows_fit m -> algebra_holds pm v -> step_complementary m v ->
  (forall s, s < n_subsystems m -> act s < n_modes m s /\ in_region m v s (act s) /\
     forall j, j < n_modes m s -> j <> act s -> separated m s (act s) j) ->
  dynamics_are pm v (fun i => rupto (n_subsystems m) (fun s => mode_field m v s (act s) i)).
Proof. intros HP WS Ep HF SG RF HA HC H. exact (step_dynamics o m pm HP WS v Ep HA HC act HF SG RF H). Qed.
Print Assumptions C30_step_modes.
Theorem C30_alpha o m pm v s k : preprocess_model o m = Ok pm -> well_sized m -> o_pss o = Step ->
  algebra_holds pm v -> step_complementary m v -> s < n_subsystems m -> k < n_switch m s ->
  ((0 < switch_value m v s k)%R -> v (MF FAlpha s k) = 1%R) /\ ((switch_value m v s k < 0)%R -> v (MF FAlpha s k) = 0%R).
Proof. intros HP WS Ep HA HC Hs Hk. exact (step_alpha o m pm HP WS v Ep HA HC s k Hs Hk). Qed.
Print Assumptions C30_alpha.
Example C30_case : preprocess_model stepopts sparse_model = Ok sp_step /\ well_sized sparse_model /\ sign_matrix sparse_model /\ rows_fit sparse_model /\
  algebra_holds sp_step (pt step_point) /\ step_complementary sparse_model (pt step_point) /\
  in_region sparse_model (pt step_point) 0 0 /\ (forall j, j < 3 -> j <> 0 -> separated sparse_model 0 0 j) /\
  dynamics_are sp_step (pt step_point) (fun i => Q2R (nth i [1; 0]%Q 0%Q)).
Proof. exact (conj sp_step_is (conj sparse_sized (conj sparse_signs (conj sparse_fit sparse_step_right)))). Qed.

(* ---- C31: lambda00 ---- *)
Theorem C31_stewart o m pm x0 pval p0 : preprocess_model o m = Ok pm -> well_sized m -> o_pss o = Stewart ->
  length x0 = m_nx m -> nth_error pval 0 = Some p0 -> length p0 = m_npt m + m_npg m ->
  let v0 := initial_point m x0 (reals (pm_z0 pm)) p0 in
  exists l mn, compute_lambda00 pm x0 pval = Ok l /\ length l = upto (n_subsystems m) (n_modes m) /\
    (forall s, s < n_subsystems m -> least (n_modes m s) (region_value m v0 s) (mn s) /\
       forall k, k < n_modes m s -> nth_error l (offset (n_modes m) s k) = Some (region_value m v0 s k - mn s)%R) /\
    (forall v : env, (forall y, In y (mx m ++ mz m ++ mp m) -> v y = v0 y) -> forall e, In e (cf_out (pm_gsw_fun pm)) ->
       eval (with_lambda v (fun s k => nth (offset (n_modes m) s k) l 0%R) (fun s _ => (- mn s)%R)) e = 0%R).
Proof. intros HP WS Ep Lx Hp Lp. exact (stewart_lambda00 o m pm HP WS x0 pval p0 Ep Lx Hp Lp). Qed.
Print Assumptions C31_stewart.
Theorem C31_step o m pm x0 pval p0 : preprocess_model o m = Ok pm -> well_sized m -> o_pss o = Step -> gS_given m = false ->
  length x0 = m_nx m -> nth_error pval 0 = Some p0 -> length p0 = m_npt m + m_npg m ->
  let v0 := initial_point m x0 (reals (pm_z0 pm)) p0 in
  let d := fun s => 2 * n_switch m s in
  exists l, compute_lambda00 pm x0 pval = Ok l /\ length l = upto (n_subsystems m) d /\
    (forall s k, s < n_subsystems m -> k < n_switch m s -> exists ln lp,
       nth_error l (offset d s k) = Some ln /\ nth_error l (offset d s (n_switch m s + k)) = Some lp /\
       (0 <= ln)%R /\ (0 <= lp)%R /\ (lp - ln)%R = switch_value m v0 s k /\ (lp * ln)%R = 0%R) /\
    (forall v : env, (forall y, In y (mx m ++ mz m ++ mp m) -> v y = v0 y) -> forall e, In e (cf_out (pm_gsw_fun pm)) ->
       eval (with_step_lambda v (fun s k => nth (offset d s k) l 0%R) (fun s k => nth (offset d s (n_switch m s + k)) l 0%R)) e = 0%R).
Proof. intros HP WS Ep Hg Lx Hp Lp. exact (step_lambda00 o m pm HP WS x0 pval p0 Ep Hg Lx Hp Lp). Qed.
Print Assumptions C31_step.
Example C31_case : preprocess_model default_opts sparse_model = Ok sp_stewart /\ preprocess_model stepopts sparse_model = Ok sp_step /\
  well_sized sparse_model /\ length (reals (m_x0 sparse_model)) = m_nx sparse_model /\ gS_given sparse_model = false.
Proof. exact (conj sp_stewart_is (conj sp_step_is (conj sparse_sized (conj eq_refl eq_refl)))). Qed.
(* mu00_stewart_fun returns min g, not the multiplier -min g: with lambda00 it violates g_switching *)
Theorem C31_mu00_refuted : exists o m pm v f e r, preprocess_model o m = Ok pm /\ well_sized m /\ o_pss o = Stewart /\
  pm_mu00_fun pm = Some f /\ nth_error (cf_out f) 0 = Some e /\ v (MF FMu 0 0) = eval v e /\
  v (MX 0) = (-1)%R /\ v (MF FLam 0 0) = 0%R /\ v (MF FLam 0 1) = 2%R /\ In r (cf_out (pm_gsw_fun pm)) /\ eval v r <> 0%R.
Proof.
  destruct mu00_wrong as (f & e & H1 & H2 & H3 & H4 & H5 & H6 & r & H7 & H8).
  exists default_opts, model3, p3, (pt mu_point), f, e, r.
  exact (conj p3_is (conj sized3 (conj eq_refl (conj H1 (conj H2 (conj H3 (conj H4 (conj H5 (conj H6 (conj H7 H8)))))))))).
Qed.
Print Assumptions C31_mu00_refuted.

(* ---- C32: smoothed representation ---- *)
Theorem C32_weights o m pm sp sm v : preprocess_model o m = Ok pm -> well_sized m -> add_smooth_step_representation pm sp = Ok sm ->
  sign_matrix m ->
  length (cf_out (sm_theta sm)) = upto (n_subsystems m) (n_modes m) /\
  (forall s k, s < n_subsystems m -> k < n_modes m s -> exists e,
     nth_error (cf_out (sm_theta sm)) (offset (n_modes m) s k) = Some e /\
     eval v e = step_weight (nth k (user_S m s) []) (fun r => smoothed (Q2R sp) (switch_value m v s r)) /\ (0 < eval v e)%R) /\
  length (cf_out (sm_fx sm)) = m_nx m /\
  (forall i e, nth_error (cf_out (sm_fx sm)) i = Some e -> eval v e =
     rupto (n_subsystems m) (fun s => rupto (n_modes m s) (fun k => mode_field m v s k i *
       step_weight (nth k (user_S m s) []) (fun r => smoothed (Q2R sp) (switch_value m v s r))))%R).
Proof. exact (smooth_entries o m pm sp sm v). Qed.
Print Assumptions C32_weights.
Theorem C32_sum_to_one o m pm sp sm v s : preprocess_model o m = Ok pm -> well_sized m -> add_smooth_step_representation pm sp = Ok sm ->
  sign_matrix m -> s < n_subsystems m -> complete m s ->
  rupto (n_modes m s) (fun k => step_weight (nth k (user_S m s) []) (fun r => smoothed (Q2R sp) (switch_value m v s r))) = 1%R.
Proof. intros HP WS HS SG Hs HC. exact (smooth_weight_sum o m pm HP WS sp sm HS SG v s Hs HC). Qed.
Print Assumptions C32_sum_to_one.
Example C32_case : exists sm, add_smooth_step_representation sp_step (1#10) = Ok sm /\ sign_matrix sparse_model /\ complete sparse_model 0 /\
  length (cf_out (sm_theta sm)) = 3.
Proof.
  destruct (add_smooth_step_representation sp_step (1#10)) as [sm|] eqn:E; [|vm_compute in E; discriminate].
  exists sm. split; [reflexivity|]. split; [exact sparse_signs|]. split; [exact sparse_complete|].
  assert (X : match add_smooth_step_representation sp_step (1#10) with Ok sm => length (cf_out (sm_theta sm)) | Err _ => 0 end = 3) by (vm_compute; reflexivity).
  rewrite E in X. exact X.
Qed.

(* ---- C33: input checks ---- *)
Theorem C33_constructor m :
  (model_init m = Ok m <->
     (given (m_F m) /\ ~ (given (m_fx m) /\ given (m_alpha m)) /\
        ((given (m_c m) /\ given (m_S m) /\ m_gS m = None) \/ ((m_c m = None \/ m_S m = None) /\ given (m_gS m)))) \/
     (m_F m = None /\ given (m_fx m) /\ given (m_alpha m))) /\
  (model_init m = Ok m \/ model_init m = Err EValueError).
Proof. exact (conj (model_init_iff m) (model_init_cases m)). Qed.
Print Assumptions C33_constructor.
Theorem C33_accepted o m : well_sized m -> closed_model m -> (o_pss o = Step -> gS_given m = false) ->
  ((exists pm, preprocess_model o m = Ok pm) <-> acceptable o m).
Proof. exact (accepted_iff o m). Qed.
Print Assumptions C33_accepted.
Example C33_case : acceptable default_opts model2 /\ acceptable stepopts sparse_model /\ acceptable default_opts sparse_model /\
  ~ acceptable default_opts (with_switching 1 [0%Q] [mkFmat 1 [[cq 1]]] [[cx 0]] [[[1%Q]]]).
Proof.
  split; [apply (proj1 (C33_accepted default_opts model2 sized2 closed2 ltac:(discriminate))); apply accepted_ok; vm_compute; reflexivity|].
  split; [apply (proj1 (C33_accepted stepopts sparse_model sparse_sized sparse_closed ltac:(reflexivity))); exact (ex_intro _ _ sp_step_is)|].
  split; [apply (proj1 (C33_accepted default_opts sparse_model sparse_sized sparse_closed ltac:(discriminate))); exact (ex_intro _ _ sp_stewart_is)|].
  intros H. pose proof (ac_modes _ _ H) as G. cbn in G. destruct G as [G _]. destruct (G _ (or_introl eq_refl)) as [_ L]. cbn in L. lia.
Qed.
(* accepted although sizes differ: surplus entries of c and S, F with one row (broadcast), S with too few columns (Step) *)
Theorem C33_refuted :
  (exists m pm, preprocess_model default_opts m = Ok pm /\ well_sized m /\ ~ consistent_sizes m) /\
  (exists m pm, preprocess_model default_opts m = Ok pm /\ ~ well_sized m) /\
  (exists m pm, preprocess_model stepopts m = Ok pm /\ well_sized m /\ ~ rows_fit m).
Proof.
  destruct badly_accepted as (([p1 H1] & N1) & ([p2 H2] & N2) & ([q3 H3] & N3)). split; [|split].
  - exists extra_model, p1. split; [exact H1|]. split; [apply sizedQ_ok; reflexivity|exact N1].
  - exists short_F_model, p2. split; [exact H2|]. intros W. specialize (ws_F _ W _ eq_refl _ (or_introl eq_refl)). discriminate.
  - exists narrow_S_model, q3. split; [exact H3|]. split; [apply sizedQ_ok; reflexivity|].
    intros W. specialize (W 0 0 ltac:(cbn; lia) ltac:(cbn; lia)). discriminate.
Qed.
Print Assumptions C33_refuted.
