(* Feas5_proofs.v -- complementarity functions, step equilibration modes, Gauss end points *)
From Coq Require Import Reals Qreals Lra Psatz Permutation.
From Verif Require Import Base Sx Utils Tableau Opts Model Ocp Problem Spec Cases Lib Sx_proofs Fo_proofs Fe_proofs FeMake_proofs FeSel_proofs FeZero_proofs Prob_proofs Coll_proofs
  Body_proofs Model_proofs Con_proofs Index3_proofs Fesd Sem_proofs Dcs_proofs Point_proofs Elem_proofs Nlp_proofs
  Opts_proofs Tableau_proofs Poly_proofs Spec2 Witness Feas_proofs Feas2_proofs Feas3_proofs Feas4_proofs.

(* ---- C11 ---- *)
Lemma fischer_zero x y s : fischer x y s = 0%R <-> (x * y = s * s / 2 /\ 0 <= x + y)%R.
Proof.
  unfold fischer. assert (P : (0 <= x * x + y * y + s * s)%R) by nra. pose proof (sqrt_pos (x * x + y * y + s * s)) as Sp.
  pose proof (sqrt_sqrt _ P) as SS. split.
  - intros E. assert (E' : sqrt (x * x + y * y + s * s) = (x + y)%R) by lra. rewrite E' in *. split; [nra|lra].
  - intros [E1 E2]. assert (E : (x * x + y * y + s * s = (x + y) * (x + y))%R) by nra. rewrite E, sqrt_square by exact E2. lra.
Qed.

Lemma complementarity_meaning o z f x y f' n rho :
  create_complementarity o z f x y = Ok f' -> o_mpcc o <> MBoolean ->
  length (lbg f) = length (g f) -> length (ubg f) = length (g f) ->
  length (w f) = length (lbw f) -> length (w f) = length (ubw f) -> length (w f) = length (w0 f) ->
  length y = n -> Forall (fun v => length v = n) x ->
  (constraints_ok rho f' <-> constraints_ok rho f /\
     forall k, k < n -> relaxed o rho (map (fun v => eval rho (nth k v (ECst 0))) x) (eval rho (nth k y (ECst 0)))).
Proof.
  intros H HB L1 L2 W1 W2 W3 Ly Lx. assert (W : wf_f f) by (split; [unfold wf_w|unfold wf_g]; auto).
  destruct (cc_sat rho o z f x y f' n H W Ly Lx) as [W' S]. rewrite (feasible_cons rho f W), (feasible_cons rho f' W'). split; [apply S|apply (proj2 S HB)].
Qed.

(* ---- C12, Fischer-Burmeister ---- *)
Lemma fischer_neg x y s : (y < 0 -> fischer x y s < 0)%R.
Proof.
  intros Hy. unfold fischer. assert (A : (x <= sqrt (x * x + y * y + s * s))%R).
  { destruct (Rle_dec x 0) as [Hx|Hx]; [pose proof (sqrt_pos (x * x + y * y + s * s)); lra|].
    rewrite <- (sqrt_square x) at 1 by lra. apply sqrt_le_1_alt. nra. }
  lra.
Qed.
Lemma fischer_swap x y s : fischer x y s = fischer y x s.
Proof. unfold fischer. replace (y * y + x * x + s * s)%R with (x * x + y * y + s * s)%R by ring. ring. Qed.
Lemma fischer_sum_neg y s l : l <> [] -> (y < 0)%R -> (rsum (map (fun x => fischer x y s) l) < 0)%R.
Proof.
  intros Hl Hy. destruct l as [|a l]; [congruence|]. clear Hl. revert a. induction l as [|b l IH]; intros a; cbn [map rsum fold_right].
  - unfold rsum; cbn. pose proof (fischer_neg a y s Hy). lra.
  - specialize (IH b). pose proof (fischer_neg a y s Hy). unfold rsum in *. cbn in *. lra.
Qed.
Lemma fb_right o rho xs y : fischer_mode o -> xs <> [] -> relaxed o rho xs y -> (0 <= y)%R.
Proof.
  unfold fischer_mode, relaxed. intros F Hx G. apply Rnot_lt_le. intros Hy. destruct (o_mpcc o); try contradiction.
  - pose proof (fischer_sum_neg y (rho SSigma) xs Hx Hy). lra.
  - destruct G as [G _]. pose proof (fischer_neg (rsum xs) y (rho SSigma) Hy). lra.
Qed.
Lemma fb_left o rho x y : fischer_mode o -> relaxed o rho [x] y -> (0 <= x)%R.
Proof.
  unfold fischer_mode, relaxed. intros F G. apply Rnot_lt_le. intros Hy. destruct (o_mpcc o); try contradiction.
  - unfold rsum in G. cbn in G. rewrite fischer_swap in G. pose proof (fischer_neg y x (rho SSigma) Hy). lra.
  - destruct G as [G _]. unfold rsum in G. cbn in G. replace (x + 0)%R with x in G by ring. rewrite fischer_swap in G. pose proof (fischer_neg y x (rho SSigma) Hy). lra.
Qed.
Lemma convex_fb lr cp d o m oc C (H : construct_problem lr cp d o m oc = Ok C) : o_constr o = Exact -> well_sized m ->
  forall rho, constraints_ok rho (the_nlp C) ->
  forall c e nfe j s, is_fe (the_opts C) c e nfe -> j < o_ns (the_opts C) -> s < n_subsystems m -> o_pss (the_opts C) = Stewart -> fischer_mode (the_opts C) ->
  (forall k, k < n_modes m s -> (0 <= rho (S2 FTheta c e j s k))%R) /\ rupto (n_modes m s) (fun k => rho (S2 FTheta c e j s k)) = 1%R.
Proof.
  intros Ex WS rho CO c e nfe j s I Hj Hs Ep FM.
  destruct (elem_all lr cp d o m oc C H Ex WS rho CO c e nfe I) as (G & _ & _ & _ & _ & _ & X & _). split.
  - intros k Hk. specialize (X j (upto s (n_modes m) + k) Hj (st_pairs m C rho s k Ep Hs Hk)). cbv zeta in X.
    rewrite (st_theta m C rho c e j s k Ep Hs Hk) in X. destruct (o_use_fesd (the_opts C)); [destruct (o_cross (the_opts C))|].
    + destruct X as [X _]. exact (fb_left _ _ _ _ FM X).
    + refine (fb_right _ _ _ _ FM _ X). intros E. apply app_eq_nil in E. destruct E; discriminate.
    + refine (fb_right _ _ _ _ FM _ X). discriminate.
  - destruct (G j Hj) as (_ & G2 & _). exact (G2 Ep s Hs).
Qed.

(* ---- C18 ---- *)
Lemma step_modes_cost lr cp d o m oc s C1 C2 rho :
  construct_problem lr cp d (with_step_eq o s) m oc = Ok C1 ->
  construct_problem lr cp d (with_step_eq o Direct) m oc = Ok C2 ->
  o_constr o = Exact -> well_sized m ->
  (eval rho (cost (the_nlp C1)) = eval rho (cost (the_nlp C2)) + cost_scale o rho *
     rupto (o_N_stages o) (fun c => rupto (nfe_of (the_opts C1) c) (fun e => step_cost (the_opts C1) (cn_tab C1) m rho c e)))%R.
Proof.
  intros H1 H2 Ex WS.
  rewrite (cost_exact _ _ _ _ _ _ _ H1 Ex WS rho), (cost_exact _ _ _ _ _ _ _ H2 Ex WS rho).
  pose proof (opts_eq _ _ _ _ _ _ _ H1) as E1. pose proof (opts_eq _ _ _ _ _ _ _ H2) as E2.
  assert (E21 : the_opts C2 = with_step_eq (the_opts C1) Direct) by (rewrite E1, E2; reflexivity).
  assert (ET : cn_tab C2 = cn_tab C1).
  { pose proof (t_made _ _ _ _ _ _ _ H1) as M1. pose proof (t_made _ _ _ _ _ _ _ H2) as M2. rewrite E21 in M2.
    change (make_tab cp (with_step_eq (the_opts C1) Direct)) with (make_tab cp (the_opts C1)) in M2. congruence. }
  rewrite E21, ET. replace (o_N_stages o) with (o_N_stages (the_opts C1)) by (rewrite E1; reflexivity).
  replace (cost_scale o rho) with (cost_scale (the_opts C1) rho) by (rewrite E1; reflexivity).
  set (O := the_opts C1) in *. set (t := cn_tab C1) in *.
  assert (P : (plain_cost O t m (the_ocp oc) rho = plain_cost (with_step_eq O Direct) t m (the_ocp oc) rho +
     rupto (o_N_stages O) (fun c => rupto (nfe_of O c) (fun e => step_cost O t m rho c e)))%R).
  { assert (SP : forall (st sp : nat -> nat -> R), rupto (o_N_stages O) (fun c => rupto (nfe_of O c) (fun e => (st c e + sp c e)%R)) =
      (rupto (o_N_stages O) (fun c => rupto (nfe_of O c) (st c)) + rupto (o_N_stages O) (fun c => rupto (nfe_of O c) (sp c)))%R).
    { intros st sp. rewrite <- rupto_plus. apply rupto_ext. intros c Hc. apply (rupto_plus (nfe_of O c) (st c) (sp c)). }
    unfold plain_cost. change (terminal_point (with_step_eq O Direct) t m rho) with (terminal_point O t m rho).
    assert (R1 : running_cost O t m (the_ocp oc) rho = (rupto (o_N_stages O) (fun c => rupto (nfe_of O c) (stage_cost O t m (the_ocp oc) rho c)) +
      rupto (o_N_stages O) (fun c => rupto (nfe_of O c) (step_cost O t m rho c)))%R) by apply SP.
    assert (R2 : running_cost (with_step_eq O Direct) t m (the_ocp oc) rho = rupto (o_N_stages O) (fun c => rupto (nfe_of O c) (stage_cost O t m (the_ocp oc) rho c))).
    { apply rupto_ext. intros c Hc. apply rupto_ext. intros e He.
      change (stage_cost O t m (the_ocp oc) rho c e + step_cost (with_step_eq O Direct) t m rho c e = stage_cost O t m (the_ocp oc) rho c e)%R.
      unfold step_cost. cbn [with_step_eq o_step_eq o_use_fesd]. destruct (o_use_fesd O); lra. }
    rewrite R1, R2. change (fun c => rupto (nfe_of O c) (fun e => step_cost O t m rho c e)) with (fun c => rupto (nfe_of O c) (step_cost O t m rho c)). lra. }
  unfold nlp_cost, cost_scale. change (elastic (with_step_eq O Direct)) with (elastic O). change (o_obj_direct (with_step_eq O Direct)) with (o_obj_direct O).
  rewrite P. destruct (elastic O); [destruct (o_obj_direct O)|]; lra.
Qed.

Lemma step_modes_constraints lr cp d o m oc s C1 C2 rho :
  construct_problem lr cp d (with_step_eq o s) m oc = Ok C1 ->
  construct_problem lr cp d (with_step_eq o HeuristicMean) m oc = Ok C2 ->
  o_constr o = Exact -> o_mpcc o <> MBoolean -> well_sized m ->
  (constraints_ok rho (the_nlp C1) <-> constraints_ok rho (the_nlp C2) /\
     forall c e nfe, is_fe (the_opts C1) c e nfe -> step_constraint (the_opts C1) (cn_tab C1) m rho c e).
Proof.
  intros H1 H2 Ex HB WS.
  rewrite (nlp_exact _ _ _ _ _ _ _ H1 Ex WS rho HB), (nlp_exact _ _ _ _ _ _ _ H2 Ex WS rho HB).
  pose proof (opts_eq _ _ _ _ _ _ _ H1) as E1. pose proof (opts_eq _ _ _ _ _ _ _ H2) as E2.
  assert (E21 : the_opts C2 = with_step_eq (the_opts C1) HeuristicMean) by (rewrite E1, E2; reflexivity).
  assert (ET : cn_tab C2 = cn_tab C1).
  { pose proof (t_made _ _ _ _ _ _ _ H1) as M1. pose proof (t_made _ _ _ _ _ _ _ H2) as M2. rewrite E21 in M2.
    change (make_tab cp (with_step_eq (the_opts C1) HeuristicMean)) with (make_tab cp (the_opts C1)) in M2. congruence. }
  destruct (shapes_con _ _ _ _ _ _ _ H1) as (Sh & _).
  rewrite E21, ET. set (O := the_opts C1) in *. set (t := cn_tab C1) in *. clearbody O t.
  assert (X : forall c e, element_ok O t m (the_ocp oc) rho c e <-> element_ok (with_step_eq O HeuristicMean) t m (the_ocp oc) rho c e /\ step_constraint O t m rho c e).
  { intros c e. unfold element_ok at 2. change (step_constraint (with_step_eq O HeuristicMean) t m rho c e) with (o_use_fesd O = true -> 0 < e -> True).
    unfold element_ok. 
    change (stage_algebra (with_step_eq O HeuristicMean)) with (stage_algebra O). change (collocation (with_step_eq O HeuristicMean)) with (collocation O).
    change (continuity (with_step_eq O HeuristicMean)) with (continuity O). change (path_ok (with_step_eq O HeuristicMean)) with (path_ok O).
    change (boundary_ok (with_step_eq O HeuristicMean)) with (boundary_ok O). change (path_comp_ok (with_step_eq O HeuristicMean)) with (path_comp_ok O).
    change (cross_ok (with_step_eq O HeuristicMean)) with (cross_ok O). tauto. }
  assert (F : forall c e nfe, is_fe O c e nfe -> c < o_N_stages O /\ e < nfe_of O c).
  { intros c e nfe (A & B & D). unfold nfe_of. rewrite (nth_error_nth _ _ _ B). auto. }
  unfold nlp_constraints. change (o_N_stages (with_step_eq O HeuristicMean)) with (o_N_stages O). change (nfe_of (with_step_eq O HeuristicMean)) with (nfe_of O).
  change (stages_ok (with_step_eq O HeuristicMean)) with (stages_ok O). change (horizon_ok (with_step_eq O HeuristicMean)) with (horizon_ok O).
  change (terminal_ok (with_step_eq O HeuristicMean)) with (terminal_ok O). change (global_comp_ok (with_step_eq O HeuristicMean)) with (global_comp_ok O).
  split.
  - intros (A & B). split; [split; [|exact B]|].
    + intros c e Hc He. exact (proj1 (proj1 (X c e) (A c e Hc He))).
    + intros c e nfe I. destruct (F c e nfe I) as [Hc He]. exact (proj2 (proj1 (X c e) (A c e Hc He))).
  - intros ((A & B) & D). split; [|exact B]. intros c e Hc He. apply X. split; [apply A; assumption|].
    destruct (Sh c Hc) as (nfe & Hn & Hp). apply (D c e nfe). repeat split; [exact Hc|exact Hn|]. unfold nfe_of in He. rewrite (nth_error_nth _ _ _ Hn) in He. exact He.
Qed.

Lemma tanh_nonneg x : (0 <= x)%R -> (0 <= tanh x)%R.
Proof.
  intros H. unfold tanh, Rdiv. apply Rmult_le_pos.
  - unfold sinh. assert (exp (- x) <= exp x)%R; [|lra]. destruct (Rle_lt_or_eq_dec _ _ H) as [H'|<-].
    + left. apply exp_increasing. lra.
    + rewrite Ropp_0. lra.
  - left. apply Rinv_0_lt_compat. unfold cosh. pose proof (exp_pos x). pose proof (exp_pos (- x)). lra.
Qed.
Lemma rprod_nonneg l : (forall x, In x l -> (0 <= x)%R) -> (0 <= rprod l)%R.
Proof. intros H. induction l as [|a l IH]; cbn; [lra|]. apply Rmult_le_pos; [apply H; left; reflexivity|apply IH; intros; apply H; right; assumption]. Qed.
Lemma rprod_pos l : (forall x, In x l -> (0 < x)%R) -> (0 < rprod l)%R.
Proof. intros H. induction l as [|a l IH]; cbn; [lra|]. apply Rmult_lt_0_compat; [apply H; left; reflexivity|apply IH; intros; apply H; right; assumption]. Qed.

Section Nu.
Variables (lr : Q -> Q -> Q -> nat) (cp : nat -> scheme -> list Q) (d : ipopt_dict) (o : opts) (m : model) (oc : option ocp) (C : constructed) (rho : env).
Hypothesis H : construct_problem lr cp d o m oc = Ok C.
Hypothesis BO : bounds_ok rho (the_nlp C).
Hypothesis PM : product_mode (the_opts C).
Hypothesis L0 : forall f s i, (0 <= rho (SL00 f s i))%R.
Notation O := (the_opts C).
Notation t := (cn_tab C).

Lemma sum_lam_nonneg c e nfe k : is_fe O c e nfe -> (0 <= sum_lam O t m rho c e k)%R.
Proof.
  intros I. unfold sum_lam. pose proof (prev_nonneg lr cp d o m oc C H rho BO c e nfe k PM L0 I).
  pose proof (rupto_nonneg (n_mult O t c e) (fun jj => ent (lam_vec O m rho c e jj) k) ltac:(intros jj Hjj; eapply (lam_nonneg lr cp d); eauto)). lra.
Qed.
Lemma sum_theta_nonneg c e nfe k : is_fe O c e nfe -> (0 <= sum_theta O m rho c e k)%R.
Proof. intros I. unfold sum_theta. apply rupto_nonneg. intros j Hj. eapply (theta_nonneg lr cp d); eauto. Qed.
Lemma before_fe c e nfe : is_fe O c e nfe -> 0 < e -> is_fe O c (e - 1) nfe.
Proof. intros (A & B & D) He. repeat split; [exact A|exact B|lia]. Qed.
Lemma nu_nonneg c e nfe : is_fe O c e nfe -> 0 < e -> (0 <= nu O t m rho c e)%R.
Proof.
  intros I He. pose proof (before_fe c e nfe I He) as I'. unfold nu. apply rprod_nonneg. intros x Hx. apply in_map_iff in Hx. destruct Hx as (k & <- & _).
  pose proof (Rmult_le_pos _ _ (sum_lam_nonneg _ _ _ k I') (sum_lam_nonneg _ _ _ k I)).
  pose proof (Rmult_le_pos _ _ (sum_theta_nonneg _ _ _ k I') (sum_theta_nonneg _ _ _ k I)). lra.
Qed.
(* no switch between two elements: every component keeps its multiplier or its weight positive *)
Lemma nu_pos c e nfe : is_fe O c e nfe -> 0 < e ->
  (forall k, k < n_pairs O m -> (0 < sum_lam O t m rho c (e - 1) k /\ 0 < sum_lam O t m rho c e k)%R \/
                               (0 < sum_theta O m rho c (e - 1) k /\ 0 < sum_theta O m rho c e k)%R) ->
  (0 < nu O t m rho c e)%R.
Proof.
  intros I He G. pose proof (before_fe c e nfe I He) as I'. unfold nu. apply rprod_pos. intros x Hx. apply in_map_iff in Hx. destruct Hx as (k & <- & Hk).
  apply in_seq in Hk.
  pose proof (Rmult_le_pos _ _ (sum_lam_nonneg _ _ _ k I') (sum_lam_nonneg _ _ _ k I)).
  pose proof (Rmult_le_pos _ _ (sum_theta_nonneg _ _ _ k I') (sum_theta_nonneg _ _ _ k I)).
  destruct (G k ltac:(lia)) as [[A B]|[A B]]; pose proof (Rmult_lt_0_compat _ _ A B); lra.
Qed.
Lemma scaled_term_nonneg c e nfe : is_fe O c e nfe -> o_step_eq O = L2RelaxedScaled -> (0 <= o_rho_h O)%Q -> (0 < o_step_eq_sigma O)%Q ->
  (0 <= step_cost O t m rho c e)%R.
Proof.
  intros I Es Hr Hs. unfold step_cost. rewrite Es. destruct (o_use_fesd O); [|lra]. destruct (Nat.eqb_spec e 0) as [|He]; [lra|].
  apply Qle_Rle in Hr. rewrite Q2R_0 in Hr. apply Qlt_Rlt in Hs. rewrite Q2R_0 in Hs.
  pose proof (nu_nonneg c e nfe I ltac:(lia)) as N.
  assert (T : (0 <= tanh (nu O t m rho c e / Q2R (o_step_eq_sigma O)))%R).
  { apply tanh_nonneg. unfold Rdiv. apply Rmult_le_pos; [exact N|]. left. apply Rinv_0_lt_compat, Hs. }
  apply Rmult_le_pos; [apply Rmult_le_pos; assumption|apply pow2_ge_0].
Qed.
Lemma direct_equal_steps c e nfe : o_constr o = Exact -> well_sized m -> constraints_ok rho (the_nlp C) ->
  o_use_fesd O = true -> o_step_eq O = Direct -> is_fe O c e nfe -> 0 < e ->
  (forall k, k < n_pairs O m -> (0 < sum_lam O t m rho c (e - 1) k /\ 0 < sum_lam O t m rho c e k)%R \/
                               (0 < sum_theta O m rho c (e - 1) k /\ 0 < sum_theta O m rho c e k)%R) ->
  rho (SH c e) = rho (SH c (e - 1)).
Proof.
  intros Ex WS CO Hf Es I He G. pose proof (nu_pos c e nfe I He G) as N.
  destruct (elem_all lr cp d o m oc C H Ex WS rho CO c e nfe I) as (_ & _ & _ & _ & _ & _ & _ & S). specialize (S Hf He). rewrite Es in S.
  unfold delta_h, step_len in S. rewrite Hf in S. apply Rmult_integral in S. lra.
Qed.
End Nu.
Lemma no_fesd_no_steps o t m rho c e : o_use_fesd o = false -> step_cost o t m rho c e = 0%R /\ step_constraint o t m rho c e.
Proof. intros E. unfold step_cost, step_constraint. rewrite E. split; [reflexivity|discriminate]. Qed.

(* ---- C15: the Gauss scheme with FESD on model3 ---- *)
Lemma gauss_clash O t rho : o_pss O = Stewart -> o_ns O = 1 -> o_repr O = Differential -> o_use_fesd O = true -> o_sot O = SotNone ->
  t_A t = [[(5#10)%Q]] -> t_b t = [1%Q] ->
  region_value model3 (end_point O t model3 rho 0 1) 0 0 = region_value model3 (stage_point O t model3 rho 0 1 (o_ns O - 1)) 0 0 ->
  collocation O t model3 rho 0 1 -> continuity O t model3 rho 0 1 -> (Q2R (1 # 4) <= rho (SH 0 1))%R ->
  (forall k, k < 2 -> (0 <= rho (S2 FTheta 0 1 0 0 k))%R) -> rupto 2 (fun k => rho (S2 FTheta 0 1 0 0 k)) = 1%R -> False.
Proof.
  intros ES En Er Ef Eo EA Eb G Co Cn Hh Th1 Th2.
  pose proof (Th1 0 ltac:(lia)) as T0. pose proof (Th1 1 ltac:(lia)) as T1.
  specialize (Co 0 0 ltac:(rewrite En; lia) ltac:(cbn; lia)). cbv zeta in Co. rewrite Er in Co. unfold speed in Co. rewrite Eo in Co.
  specialize (Cn (or_intror Er) 0 ltac:(cbn; lia)). rewrite Er, En, Eb in Cn.
  rewrite En in G. change (1 - 1) with 0 in G.
  assert (G' : end_state O t rho 0 1 0 = stage_state O t rho 0 1 0 0).
  { unfold region_value in G. cbn in G. unfold rsum in G. cbn in G. lra. }
  unfold stage_state in G'. rewrite Er, En, EA in G'.
  assert (R : rhs O model3 (stage_point O t model3 rho 0 1 0) 0 = (3 * rho (S2 FTheta 0 1 0 0 0%nat) + rho (S2 FTheta 0 1 0 0 1%nat))%R).
  { unfold rhs, weight. rewrite ES. cbn. lra. }
  rewrite R in Co. cbn in G', Cn, Th2. unfold step_len in *. rewrite Ef in *. rewrite Cn in G'. rewrite Co in G'.
  assert (Q1 : Q2R (5 # 10) = (/ 2)%R) by (unfold Q2R; cbn; lra). assert (Q2 : Q2R 1 = 1%R) by (unfold Q2R; cbn; lra).
  assert (Q3 : Q2R (1 # 4) = (/ 4)%R) by (unfold Q2R; cbn; lra).
  assert (Q4 : entry1 [1%Q] 0 = 1%R) by exact Q2. assert (Q5 : entryQ [[(5#10)%Q]] 0 0 = (/ 2)%R) by exact Q1.
  rewrite Q4, Q5 in G'. rewrite Q3 in Hh.
  pose proof (Rmult_le_compat (/ 4) (rho (SH 0 1)) 1 (3 * rho (S2 FTheta 0 1 0 0 0%nat) + rho (S2 FTheta 0 1 0 0 1%nat)) ltac:(lra) ltac:(lra) Hh ltac:(lra)) as M.
  set (h := rho (SH 0 1)) in *. set (f := (3 * rho (S2 FTheta 0 1 0 0 0%nat) + rho (S2 FTheta 0 1 0 0 1%nat))%R) in *. nra.
Qed.
Lemma gauss_infeasible_gen lr cp d o C rho : construct_problem lr cp d o model3 None = Ok C -> o_constr o = Exact ->
  is_fe (the_opts C) 0 1 2 -> o_pss (the_opts C) = Stewart -> o_ns (the_opts C) = 1 -> o_repr (the_opts C) = Differential ->
  t_rbe (cn_tab C) = false ->
  t_A (cn_tab C) = [[(5#10)%Q]] -> t_b (cn_tab C) = [1%Q] -> product_mode (the_opts C) -> step_lower (the_opts C) 2 = Fin (1 # 4) ->
  o_use_fesd (the_opts C) = true -> o_sot (the_opts C) = SotNone -> ~ feasible rho (the_nlp C).
Proof.
  intros H EX I ES En Er Rb EA Eb PM El Ef Eo [BO CO]. pose proof sized3 as WS.
  assert (K0 : 0 < n_subsystems model3) by (cbn; lia).
  assert (K1 : 0 < n_switching (the_opts C) model3 0) by (unfold n_switching; rewrite ES; cbn; lia).
  pose proof (last_element_coupled _ _ _ _ _ _ _ H EX WS rho CO 0 1 2 Ef Rb I eq_refl 0 0 K0 K1) as G. rewrite ES in G.
  destruct (elem_all _ _ _ _ _ _ _ H EX WS rho CO 0 1 2 I) as (_ & Co & Cn & _).
  assert (J0 : 0 < o_ns (the_opts C)) by (rewrite En; lia).
  destruct (convex _ _ _ _ _ _ _ H EX WS rho BO CO 0 1 2 0 0 I J0 K0 ES PM) as [Th1 Th2].
  pose proof (step_within _ _ _ _ _ _ _ H rho BO 0 1 2 I Ef) as [Hh _]. rewrite El in Hh.
  exact (gauss_clash (the_opts C) (cn_tab C) rho ES En Er Ef Eo EA Eb G Co Cn Hh Th1 Th2).
Qed.
Lemma gauss_infeasible rho : ~ feasible rho (the_nlp CH).
Proof.
  pose proof (made _ _ _ _ builtH) as H.
  assert (h0 : o_constr optsH = Exact) by (vm_compute; reflexivity).
  assert (h2 : is_fe (the_opts CH) 0 1 2) by (vm_compute; repeat split; lia).
  assert (h3 : product_mode (the_opts CH)) by (vm_compute; exact Logic.I).
  assert (h4 : o_pss (the_opts CH) = Stewart) by (vm_compute; reflexivity).
  assert (h5 : o_ns (the_opts CH) = 1) by (vm_compute; reflexivity).
  assert (h6 : o_repr (the_opts CH) = Differential) by (vm_compute; reflexivity).
  assert (h7 : t_rbe (cn_tab CH) = false) by (vm_compute; reflexivity).
  assert (h8 : t_A (cn_tab CH) = [[(5#10)%Q]]) by (vm_compute; reflexivity).
  assert (h9 : t_b (cn_tab CH) = [1%Q]) by (vm_compute; reflexivity).
  assert (h10 : step_lower (the_opts CH) 2 = Fin (1 # 4)) by (vm_compute; reflexivity).
  assert (h11 : o_use_fesd (the_opts CH) = true) by (vm_compute; reflexivity).
  assert (h12 : o_sot (the_opts CH) = SotNone) by (vm_compute; reflexivity).
  exact (gauss_infeasible_gen case_log_round case_cpoints ipopt_init optsH CH rho H h0 h2 h4 h5 h6 h7 h8 h9 h3 h10 h11 h12).
Qed.
