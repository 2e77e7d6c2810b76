(* Pin_proofs.v -- which points the NLP of polish_solution admits *)
From Coq Require Import Reals Qreals Lra.
From Verif Require Import Base Lib Sx Sx_proofs Utils Tableau Opts Model Ocp Problem Numeric Rk4 Results Solver Spec Fesd Spec2 Spec3 Spec4 Spec5 Spec11 Spec17
  Con_proofs Index3_proofs Nlp_proofs Feas_proofs Lam_proofs Solve_proofs Solve2_proofs Syms_proofs Init_proofs Init2_proofs Start_proofs Param_proofs Polish_proofs Solve3_proofs Solve4_proofs
  Bounds_proofs Fix_proofs Dcs_proofs Results_proofs.
Local Open Scope nat_scope.

Section Con.
Variables (lr : Q -> Q -> Q -> nat) (cp : nat -> scheme -> list Q) (d : ipopt_dict)
  (o : opts) (m : model) (oc : option ocp) (C : constructed).
Hypothesis H : construct_problem lr cp d o m oc = Ok C.
Notation O := (the_opts C).
Notation P := (the_problem C).
Notation W := (w (the_nlp C)).
Notation PM := (pr_pm (cn_prob C)).

Definition pins (v : list R) (c : nlp_call) : Prop := forall i y x, nth_error W i = Some y -> nth_error v i = Some x ->
  (multiplier y /\ (Rabs (x - 1) < pin_tol C)%R -> nth_error (nc_lbx c) i = Some (Fin 1) /\ nth_error (nc_ubx c) i = Some (Fin 1)) /\
  (multiplier y /\ ~ (Rabs (x - 1) < pin_tol C)%R /\ (x < pin_tol C)%R -> nth_error (nc_lbx c) i = Some (Fin 0) /\ nth_error (nc_ubx c) i = Some (Fin 0)) /\
  (~ multiplier y \/ (~ (Rabs (x - 1) < pin_tol C)%R /\ ~ (x < pin_tol C)%R) ->
     nth_error (nc_lbx c) i = nth_error (lbw (the_nlp C)) i /\ nth_error (nc_ubx c) i = nth_error (ubw (the_nlp C)) i).

Lemma polish_known nlp lam v s s' q : length v = length W -> polish_solution nlp C lam v s = (s', Ok q) -> forall y, In y W -> ~ unknown_to_polish y.
Proof.
  intros Lv E. apply (polish_check_exact _ _ _ _ _ _ _ H v Lv). destruct (polish_check P v) eqn:K; [reflexivity|exfalso].
  rewrite polish_unfold in E. unfold sbind at 1 in E. unfold lift at 1 in E. change (pr (cn_prob C)) with P in E. rewrite K in E. discriminate E.
Qed.
Lemma polish_call nlp lam v s s' q : length v = length W -> polish_solution nlp C lam v s = (s', Ok q) ->
  exists c r, nlp (ss_calls s' - 1) c = Ok r /\ po_w q = nr_x r /\ nc_x0 c = v /\ nc_lbg c = lbg (the_nlp C) /\ nc_ubg c = ubg (the_nlp C) /\
  nc_p c = concat (ss_pval s) ++ [0%R; 0%R] ++ lam ++ ss_x0 s /\ pins v c.
Proof.
  intros Lv E. pose proof (stages_pos_con _ _ _ _ _ _ _ H) as SP. pose proof (polish_known _ _ _ _ _ _ Lv E) as U.
  destruct (polish_ok _ _ _ _ _ _ _ E) as (NC & [(c & r & B1 & B2 & _ & B4 & B6 & B7 & B8 & B5)]).
  exists c, r. split. { rewrite NC. replace (ss_calls s + o_N_stages O - 1) with (ss_calls s + (o_N_stages O - 1)) by lia. exact B1. }
  do 5 (split; [assumption|]). intros i y x Hi Hx. apply (polish_bounds_exact _ _ _ _ _ _ _ H v _ _ Lv B5 i y x Hi Hx). apply U. eapply nth_error_In. exact Hi.
Qed.

(* the polishing calls made by solve *)
Lemma solve_polish nlp s s' out : answers C nlp -> solve nlp C s = (s', Ok out) -> o_do_polishing O = true ->
  exists h lam c r, last_is (so_steps out) h /\ compute_lambda00 PM (ss_x0 s) (ss_pval s) = Ok lam /\ nlp (ss_calls s' - 1) c = Ok r /\ so_w_sol out = nr_x r /\
  nc_x0 c = nr_x (hs_ret h) /\ length (nc_x0 c) = length W /\ nc_lbg c = lbg (the_nlp C) /\ nc_ubg c = ubg (the_nlp C) /\
  nc_p c = concat (ss_pval s) ++ [0%R; 0%R] ++ lam ++ ss_x0 s /\ pins (nc_x0 c) c.
Proof.
  intros A E Ed. destruct (solve_count _ _ _ _ _ _ _ H nlp s s' out E) as (_ & _ & SC & _).
  destruct (solve_inv _ _ _ _ _ E) as [(s1 & s2 & s3 & lam & w1 & lb & ub & h & I & SV & HH & LA & PO & EW & ES & _ & _ & _ & EI & _)].
  pose proof (keeps_out _ _ _ _ _ (initialize_keeps C) I) as (K1 & K2 & K3).
  pose proof (keeps_out _ _ _ _ _ (homotopy_keeps _ _ _ _ _ _ _ _) HH) as (J1 & J2 & _).
  apply lastE_is in LA.
  assert (E3 : ss_calls s' = ss_calls s3). { destruct (o_init O); try (subst s'; auto; fail). destruct EI as (v & _ & ->). auto. }
  destruct (so_polish out) as [q|]; [|destruct PO; congruence]. destruct PO as [_ PO].
  assert (Lh : length (nr_x (hs_ret h)) = length W).
  { destruct (A (ss_calls s + (length (so_steps out) - 1)) (hs_call h)) as (r & Er & L). rewrite (SC _ _ (proj2 LA)) in Er. injection Er as <-. exact L. }
  destruct (polish_call _ _ _ _ _ _ Lh PO) as (c & r & C1 & C2 & C3 & C4 & C5 & C6 & C7).
  exists h, lam, c, r. split; [exact LA|]. split; [exact (init_lam _ _ _ _ I)|]. rewrite E3. split; [exact C1|]. split; [congruence|].
  split; [exact C3|]. split; [congruence|]. split; [exact C4|]. split; [exact C5|]. split; [congruence|]. rewrite C3. exact C7.
Qed.

(* the pinned values respect the bounds of the problem *)
Lemma mult_bounds i y l u : nth_error W i = Some y -> multiplier y -> nth_error (lbw (the_nlp C)) i = Some l -> nth_error (ubw (the_nlp C)) i = Some u ->
  within l u 0 /\ within l u 1.
Proof.
  intros Hi M Hl Hu. pose proof (sym_in_w _ _ _ _ _ _ _ _ H (nth_error_In _ _ Hi)) as R. destruct y; try destruct M.
  destruct (placed_unique _ _ _ _ _ _ _ H _ _ _ _ _ _ (all_placed _ _ _ _ _ _ _ H _ R Logic.I) Hi Hl Hu) as [-> ->].
  cbn [low upp]. assert (D : lb_dual O = Fin 0 \/ lb_dual O = NInf) by (unfold lb_dual; destruct (o_mpcc O); auto).
  destruct f; cbn [lower2 upper2]; try (destruct D as [-> | ->]); split; split; cbn; try exact Logic.I; unfold Q2R; cbn; lra.
Qed.
Lemma lens i y : nth_error W i = Some y -> exists l u, nth_error (lbw (the_nlp C)) i = Some l /\ nth_error (ubw (the_nlp C)) i = Some u.
Proof.
  intros Hi. apply nth_error_Some_lt in Hi. destruct (lengths_con _ _ _ _ _ _ _ H) as [[(L1 & L2 & _) _] _].
  destruct (nth_error (lbw (the_nlp C)) i) as [l|] eqn:E1; [|apply nth_error_None in E1; unfold the_nlp in *; lia].
  destruct (nth_error (ubw (the_nlp C)) i) as [u|] eqn:E2; [|apply nth_error_None in E2; unfold the_nlp in *; lia]. eauto.
Qed.
Lemma within_pin q l u x : l = Some (Fin q) -> u = Some (Fin q) -> (forall l' u', l = Some l' -> u = Some u' -> within l' u' x) -> x = Q2R q.
Proof. intros -> -> W. destruct (W _ _ eq_refl eq_refl) as [A B]. cbn in A, B. lra. Qed.

(* nothing is added by pinning *)
Lemma call_is_feasible v c rho : length v = length W -> pins v c -> nc_lbg c = lbg (the_nlp C) -> nc_ubg c = ubg (the_nlp C) -> call_feasible C c rho -> feasible rho (the_nlp C).
Proof.
  intros Lv PI G1 G2 (_ & B & G). rewrite G1, G2 in G. split; [|exact G].
  intros i y l u Hi Hl Hu. destruct (nth_error v i) as [x|] eqn:Hx; [|apply nth_error_None in Hx; apply nth_error_Some_lt in Hi; lia].
  destruct (PI i y x Hi Hx) as (P1 & P2 & P3). pose proof (B i y) as Bi.
  assert (DM : multiplier y \/ ~ multiplier y) by (destruct y; cbn; auto).
  destruct DM as [M|M]; [|destruct (P3 (or_introl M)) as [E1 E2]; rewrite Hl in E1; rewrite Hu in E2; eapply Bi; eassumption].
  pose proof (mult_bounds i y l u Hi M Hl Hu) as [W0 W1].
  destruct (Rlt_dec (Rabs (x - 1)) (pin_tol C)) as [N|N].
  - destruct (P1 (conj M N)) as [E1 E2]. rewrite (within_pin 1 _ _ (rho y) E1 E2 (fun l' u' => Bi l' u' Hi)). unfold Q2R. cbn. replace (1 * / 1)%R with 1%R by lra. exact W1.
  - destruct (Rlt_dec x (pin_tol C)) as [N'|N'].
    + destruct (P2 (conj M (conj N N'))) as [E1 E2]. rewrite (within_pin 0 _ _ (rho y) E1 E2 (fun l' u' => Bi l' u' Hi)). unfold Q2R. cbn. replace (0 * / 1)%R with 0%R by lra. exact W0.
    + destruct (P3 (or_intror (conj N N'))) as [E1 E2]. rewrite Hl in E1. rewrite Hu in E2. eapply Bi; eassumption.
Qed.

(* a decided point without negative multipliers is kept *)
Lemma kept v c rho : pins v c -> nc_lbg c = lbg (the_nlp C) -> nc_ubg c = ubg (the_nlp C) -> primal C rho = v -> parameters C rho = nc_p c -> feasible rho (the_nlp C) ->
  (pin_tol C <= 1)%R -> (forall y, In y W -> multiplier y -> decided (pin_tol C) (rho y) /\ (0 <= rho y)%R) -> call_feasible C c rho.
Proof.
  intros PI G1 G2 Ev Ep [B G] T D. split; [exact Ep|]. split; [|rewrite G1, G2; exact G].
  intros i y l u Hi Hl Hu. destruct (lens i y Hi) as (l' & u' & Hl' & Hu'). pose proof (B i y l' u' Hi Hl' Hu') as BB.
  assert (Hx : nth_error v i = Some (rho y)) by (rewrite <- Ev; unfold primal; rewrite nth_error_map, Hi; reflexivity).
  destruct (PI i y _ Hi Hx) as (P1 & P2 & P3).
  assert (DM : multiplier y \/ ~ multiplier y) by (destruct y; cbn; auto).
  destruct DM as [M|M]; [|destruct (P3 (or_introl M)) as [E1 E2]; congruence].
  destruct (D y (nth_error_In _ _ Hi) M) as [DC NN].
  destruct (Rlt_dec (Rabs (rho y - 1)) (pin_tol C)) as [N|N].
  - destruct (P1 (conj M N)) as [E1 E2]. rewrite Hl in E1. rewrite Hu in E2. injection E1 as ->. injection E2 as ->.
    assert (X : rho y = 1%R). { destruct DC as [X|[X|[X Y]]]; [|exact X|lra]. rewrite X in N. replace (0 - 1)%R with (-1)%R in N by lra. rewrite Rabs_left in N by lra. lra. }
    rewrite X. split; cbn; unfold Q2R; cbn; lra.
  - destruct (Rlt_dec (rho y) (pin_tol C)) as [N'|N'].
    + destruct (P2 (conj M (conj N N'))) as [E1 E2]. rewrite Hl in E1. rewrite Hu in E2. injection E1 as ->. injection E2 as ->.
      assert (X : rho y = 0%R). { destruct DC as [X|[X|[X Y]]]; [exact X| |rewrite Rabs_pos_eq in X by exact NN; lra]. rewrite X in *. exfalso. apply N. replace (1 - 1)%R with 0%R by lra. rewrite Rabs_R0. lra. }
      rewrite X. split; cbn; unfold Q2R; cbn; lra.
    + destruct (P3 (or_intror (conj N N'))) as [E1 E2]. congruence.
Qed.

(* Step: all multipliers are nonnegative anyway *)
Lemma step_nonneg rho : o_pss O = Step -> product_mode O -> feasible rho (the_nlp C) -> forall y, In y W -> multiplier y -> (0 <= rho y)%R.
Proof.
  intros Ep PM' [B _] y Hy M. pose proof (sym_in_w _ _ _ _ _ _ _ _ H Hy) as R. destruct y; try destruct M.
  pose proof (placed_within _ _ _ _ _ (all_placed _ _ _ _ _ _ _ H _ R Logic.I) B) as [A _]. cbn [low lower2] in A.
  assert (D : lb_dual O = Fin 0) by (unfold lb_dual, product_mode in *; destruct (o_mpcc O); try contradiction; reflexivity).
  cbn [in_range] in R. destruct R as (_ & _ & _ & R). unfold dim2 in R. rewrite Ep in R.
  destruct f; try lia; cbn [lower2] in A; rewrite D in A; unfold Q2R in A; cbn in A; lra.
Qed.

Lemma solve_keeps nlp s s' out : answers C nlp -> solve nlp C s = (s', Ok out) -> o_do_polishing O = true -> (pin_tol C <= 1)%R ->
  exists h c r, last_is (so_steps out) h /\ nlp (ss_calls s' - 1) c = Ok r /\ so_w_sol out = nr_x r /\ nc_x0 c = nr_x (hs_ret h) /\
  forall rho, primal C rho = nr_x (hs_ret h) -> parameters C rho = nc_p c -> feasible rho (the_nlp C) ->
    (forall y, In y W -> multiplier y -> decided (pin_tol C) (rho y) /\ (0 <= rho y)%R) -> call_feasible C c rho.
Proof.
  intros A E Ed T. destruct (solve_polish nlp s s' out A E Ed) as (h & lam & c & r & Lh & _ & Er & EW & E0 & _ & G1 & G2 & _ & PI).
  exists h, c, r. do 4 (split; [assumption|]). intros rho E1 E2 F D. apply (kept _ c rho PI G1 G2); congruence || assumption.
Qed.
Lemma solve_keeps_step nlp s s' out : answers C nlp -> solve nlp C s = (s', Ok out) -> o_do_polishing O = true -> (pin_tol C <= 1)%R -> o_pss O = Step -> product_mode O ->
  exists h c r, last_is (so_steps out) h /\ nlp (ss_calls s' - 1) c = Ok r /\ so_w_sol out = nr_x r /\ nc_x0 c = nr_x (hs_ret h) /\
  forall rho, primal C rho = nr_x (hs_ret h) -> parameters C rho = nc_p c -> feasible rho (the_nlp C) ->
    (forall y, In y W -> multiplier y -> decided (pin_tol C) (rho y)) -> call_feasible C c rho.
Proof.
  intros A E Ed T Ep PM'. destruct (solve_keeps nlp s s' out A E Ed T) as (h & c & r & Lh & Er & EW & E0 & K).
  exists h, c, r. do 4 (split; [assumption|]). intros rho E1 E2 F D. apply (K rho E1 E2 F). intros y Hy My. split; [exact (D y Hy My)|exact (step_nonneg rho Ep PM' F y Hy My)].
Qed.
Lemma solve_sound nlp s s' out : answers C nlp -> solve nlp C s = (s', Ok out) -> o_do_polishing O = true ->
  exists lam c r, compute_lambda00 PM (ss_x0 s) (ss_pval s) = Ok lam /\ nlp (ss_calls s' - 1) c = Ok r /\ so_w_sol out = nr_x r /\
  forall rho, call_feasible C c rho -> feasible rho (the_nlp C) /\ parameters C rho = concat (ss_pval s) ++ [0%R; 0%R] ++ lam ++ ss_x0 s.
Proof.
  intros A E Ed. destruct (solve_polish nlp s s' out A E Ed) as (h & lam & c & r & Lh & EL & Er & EW & E0 & L0 & G1 & G2 & EP & PI).
  exists lam, c, r. do 3 (split; [assumption|]). intros rho F. split; [exact (call_is_feasible _ c rho L0 PI G1 G2 F)|]. rewrite <- EP. apply F.
Qed.

Hypothesis Ex : o_constr o = Exact.
Hypothesis WS : well_sized m.

(* Stewart: a pinned mu forces the trajectory onto the zeros of min g *)
Lemma pinned_mu v c rho s lam cc e nfe j q x i : length v = length W -> pins v c -> nc_lbg c = lbg (the_nlp C) -> nc_ubg c = ubg (the_nlp C) ->
  nc_p c = concat (ss_pval s) ++ [0%R; 0%R] ++ lam ++ ss_x0 s -> sized C m s -> compute_lambda00 PM (ss_x0 s) (ss_pval s) = Ok lam ->
  o_pss O = Stewart -> o_use_fesd O = true -> o_mpcc O = ScholtesIneq \/ o_mpcc O = ScholtesEq ->
  is_fe O cc e nfe -> j < o_ns O -> q < n_subsystems m ->
  nth_error W i = Some (S2 FMu cc e j q 0) -> nth_error v i = Some x -> (x < pin_tol C)%R -> ~ (Rabs (x - 1) < pin_tol C)%R ->
  call_feasible C c rho ->
  least (n_modes m q) (region_value m (stage_point O (cn_tab C) m rho cc e j) q) 0%R.
Proof.
  intros Lv PI G1 G2 EP Z EL Ep UF MP I Hj Hq Hi Hx X1 X2 F. pose proof (call_is_feasible v c rho Lv PI G1 G2 F) as FF.
  destruct F as (F1 & F2 & _). rewrite EP in F1.
  destruct (PI i _ x Hi Hx) as (_ & P2 & _). destruct (P2 (conj Logic.I (conj X2 X1))) as [E1 E2].
  pose proof (within_pin 0 _ _ _ E1 E2 (fun l' u' => F2 i _ l' u' Hi)) as MU. replace (Q2R 0) with 0%R in MU by (unfold Q2R; cbn; lra).
  assert (S0 : rho SSigma = 0%R).
  { assert (In SSigma (p_p P)) by (rewrite (p_layout _ _ _ _ _ _ _ H), !in_app_iff; right; left; left; reflexivity).
    exact (stewart_param _ _ _ _ _ _ _ H WS s 0%R 0%R lam rho Z EL F1 Ep SSigma H0). }
  assert (ZR : zero_relaxation O (clean C rho)) by (unfold zero_relaxation; destruct MP as [-> | ->]; exact S0).
  assert (F' : feasible (clean C rho) (the_nlp C)). { eapply (feasible_ext _ _ _ _ _ _ _ H); [|exact FF]. intros y Hy'. apply (clean_same _ _ _ _ _ _ _ H), Hy'. }
  pose proof (clean_nonneg _ _ _ _ _ _ _ H WS s 0%R 0%R lam rho Z EL F1 Ep) as CN.
  destruct (elem_all _ _ _ _ _ _ _ H Ex WS rho (proj2 FF) cc e nfe I) as (A & _). destruct (A j Hj) as (A1 & A2 & _).
  assert (G : forall k, k < n_modes m q -> region_value m (stage_point O (cn_tab C) m rho cc e j) q k = rho (S2 FLam cc e j q k)).
  { intros k Hk. specialize (A1 q k Hq). unfold n_switching, switching_residual in A1. rewrite Ep in A1. specialize (A1 Hk). 
    unfold stage_point at 2 3 in A1. cbn [at_point] in A1. rewrite MU in A1. lra. }
  assert (PM' : product_mode O) by (unfold product_mode; destruct MP as [-> | ->]; exact Logic.I).
  assert (D1 : forall k, k < n_modes m q -> k < dim2 O m FLam q /\ k < dim2 O m FTheta q) by (intros k Hk; unfold dim2; rewrite Ep; auto).
  assert (J1 : j < points2 O (t_rbe (cn_tab C)) nfe e FLam /\ j < points2 O (t_rbe (cn_tab C)) nfe e FTheta) by (unfold points2; split; [lia|exact Hj]).
  split.
  - intros k Hk. rewrite (G k Hk). apply (alg_nonneg _ _ _ _ _ _ _ H rho (proj1 FF) cc e nfe FLam j q k PM' ltac:(discriminate) I (proj1 J1) Hq (proj1 (D1 k Hk))).
  - destruct (Classical_Prop.classic (exists k, k < n_modes m q /\ (0 < rho (S2 FTheta cc e j q k))%R)) as [(k & Hk & T)|N].
    + exists k. split; [exact Hk|]. rewrite (G k Hk). 
      destruct (stewart_exclusive _ _ _ _ _ _ _ H Ex WS (clean C rho) (proj1 F') (proj2 F') cc e nfe j q k ZR CN UF Ep I Hj Hq Hk T) as [B _].
      apply (B j). destruct (o_cross O); try exact Hj. pose proof (n_mult_ge C cc e). lia.
    + exfalso. specialize (A2 Ep q Hq). assert (Z0 : rupto (n_modes m q) (fun k => rho (S2 FTheta cc e j q k)) = 0%R).
      { rewrite (rupto_ext _ _ (fun _ => 0%R)).
        - clear. induction (n_modes m q) as [|n IH]; [reflexivity|]. unfold rupto in *. rewrite seq_S, map_app. unfold rsum in *. rewrite fold_right_app. cbn. rewrite Rplus_0_r. exact IH.
        - intros k Hk. apply Rle_antisym.
          + apply Rnot_lt_le. intros L. apply N. exists k. auto.
          + apply (alg_nonneg _ _ _ _ _ _ _ H rho (proj1 FF) cc e nfe FTheta j q k PM' ltac:(discriminate) I (proj2 J1) Hq (proj2 (D1 k Hk))). }
      unfold stage_point in A2. cbn [at_point] in A2. rewrite Z0 in A2. lra.
Qed.
Lemma solve_pinned nlp s s' out : answers C nlp -> sized C m s -> solve nlp C s = (s', Ok out) ->
  o_do_polishing O = true -> o_pss O = Stewart -> o_use_fesd O = true -> o_mpcc O = ScholtesIneq \/ o_mpcc O = ScholtesEq ->
  exists h c r, last_is (so_steps out) h /\ nlp (ss_calls s' - 1) c = Ok r /\ so_w_sol out = nr_x r /\
  forall rho rho' k e n j q, primal C rho = nr_x (hs_ret h) -> is_fe O k e n -> j < o_ns O -> q < n_subsystems m ->
    (rho (S2 FMu k e j q 0) < pin_tol C)%R -> ~ (Rabs (rho (S2 FMu k e j q 0) - 1) < pin_tol C)%R -> call_feasible C c rho' ->
    least (n_modes m q) (region_value m (stage_point O (cn_tab C) m rho' k e j) q) 0%R.
Proof.
  intros A Z E Ed Ep UF MP. destruct (solve_polish nlp s s' out A E Ed) as (h & lam & c & r & Lh & EL & Er & EW & E0 & L0 & G1 & G2 & EP & PI).
  exists h, c, r. do 3 (split; [assumption|]). intros rho rho' k e n j q E1 I Hj Hq X1 X2 F.
  assert (R : in_range O (explicit_end C) m (S2 FMu k e j q 0)).
  { destruct I as (I1 & I2 & I3). cbn [in_range]. split; [|split; [unfold points2; lia|split; [exact Hq|unfold dim2; rewrite Ep; lia]]].
    apply elements_in. cbn [fst snd]. split; [exact I1|]. unfold nfe_of. rewrite (nth_error_nth _ _ _ I2). exact I3. }
  destruct (all_placed _ _ _ _ _ _ _ H _ R Logic.I) as (i & Hi & _).
  refine (pinned_mu _ c rho' s lam k e n j q _ i L0 PI G1 G2 EP Z EL Ep UF MP I Hj Hq Hi _ X1 X2 F).
  rewrite E0, <- E1. unfold primal. rewrite nth_error_map, Hi. reflexivity.
Qed.
End Con.
