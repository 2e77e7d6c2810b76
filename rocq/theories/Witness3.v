(* Witness3.v -- concrete solves: examples beside the theorems about solve() and set(), and refutations *)
From Coq Require Import Reals Qreals Lra.
From Verif Require Import Base Lib Sx Sx_proofs Utils Tableau Opts Model Ocp Problem Numeric Rk4 Results Solver Spec Cases Fesd Spec2 Spec3 Spec4 Spec5
  Con_proofs Index3_proofs Feas_proofs Feas4_proofs Witness Lam_proofs Results5_proofs Solve_proofs Solve2_proofs Init_proofs Init2_proofs Start_proofs Progress_proofs
  Set_proofs Hist_proofs Field_proofs Field2_proofs Sigma_proofs Polish_proofs Param_proofs Fix_proofs Solve3_proofs Solve4_proofs.
Local Open Scope nat_scope.

Definition with_solver (o : opts) (tol s0 sN sl : Q) (r : update_rule) (i : init_strategy) (fixa pol : bool) : opts := {|
  o_terminal_time := o_terminal_time o; o_use_fesd := o_use_fesd o; o_max_iter_homotopy := o_max_iter_homotopy o;
  o_init := i; o_repr := o_repr o; o_ns := o_ns o; o_scheme := o_scheme o;
  o_cross := o_cross o; o_mpcc := o_mpcc o; o_constr := o_constr o; o_pss := o_pss o;
  o_gamma_h := o_gamma_h o; o_smoothing := o_smoothing o; o_fix_active_set_fe0 := fixa;
  o_N_finite_elements := o_N_finite_elements o; o_Nfe_list := o_Nfe_list o; o_comp_tol := tol;
  o_sigma_0 := s0; o_sigma_N := sN; o_slope := sl;
  o_exponent := o_exponent o; o_rule := r; o_step_eq := o_step_eq o;
  o_step_eq_sigma := o_step_eq_sigma o; o_rho_h := o_rho_h o; o_fb1 := o_fb1 o; o_fb2 := o_fb2 o;
  o_do_polishing := pol; o_N_stages := o_N_stages o; o_equidistant := o_equidistant o;
  o_g_path_at_fe := o_g_path_at_fe o; o_g_path_at_stg := o_g_path_at_stg o;
  o_s_elastic_0 := o_s_elastic_0 o; o_s_elastic_max := o_s_elastic_max o;
  o_s_elastic_min := o_s_elastic_min o; o_obj_direct := o_obj_direct o;
  o_time_freezing := o_time_freezing o; o_tf_tol := o_tf_tol o; o_sot := o_sot o;
  o_sot_min := o_sot_min o; o_sot_max := o_sot_max o |}.

(* ---- C39: an NLP solver that reports success at a point that is not complementary ---- *)
Section Con.
Variables (lr : Q -> Q -> Q -> nat) (cp : nat -> scheme -> list Q) (d : ipopt_dict)
  (o : opts) (m : model) (oc : option ocp) (C : constructed).
Hypothesis H : construct_problem lr cp d o m oc = Ok C.
Notation O := (the_opts C).
Notation P := (the_problem C).
Notation W := (w (the_nlp C)).
Notation ones := (repeat 1%R (length W)).

Lemma in_w_first f i : o_pss O = Stewart -> (f = FTheta \/ f = FLam) -> 0 < n_subsystems m -> i < n_modes m 0 -> In (S2 f 0 0 0 0 i) W.
Proof.
  intros PS Hf N Hi. pose proof (first_element _ _ _ _ _ _ _ H) as FE.
  destruct (idx2_con _ _ _ _ _ _ _ H 0 0 _ f 0 0 (Results2_proofs.elements_fe _ _ _ _ _ _ _ H (0, 0) FE)) as (idx & _ & Sl & _); [apply (Results2_proofs.points2_pos _ _ _ _ _ _ _ H)|exact N|].
  assert (D : dim2 O m f 0 = n_modes m 0) by (unfold dim2; rewrite PS; destruct Hf as [-> | ->]; reflexivity). rewrite D in Sl.
  apply sel_ok in Sl. assert (I : In (S2 f 0 0 0 0 i) (map (S2 f 0 0 0 0) (seq 0 (n_modes m 0)))) by (apply in_map, in_seq; lia).
  apply In_nth_error in I. destruct I as [k Hk]. destruct (Forall2_nth_r _ _ _ _ _ Sl Hk) as (p & _ & Hp). eapply nth_error_In. exact Hp.
Qed.

Lemma success_wrong s : o_init O <> Rk4Smoothened -> well_sized m -> extractable O m -> (0 < Q2R (o_sigma_0 O))%R -> (0 < Q2R (o_slope O))%R ->
  o_do_polishing O = false -> o_pss O = Stewart -> o_use_fesd O = true -> 0 < n_subsystems m -> 0 < n_modes m 0 -> (Q2R (o_comp_tol O) < 1)%R -> sized C m s ->
  exists s' out rho h, solve (constant_nlp ones RSSolveSucceeded) C s = (s', Ok out) /\ so_status out = SUCCESS /\
    last_is (so_steps out) h /\ primal C rho = so_w_sol out /\ parameters C rho = nc_p (hs_call h) /\ (Q2R (o_comp_tol O) < comp_residual C rho)%R.
Proof.
  intros I WS X S0 Sl Np PS UF N1 N2 T Z. set (nlp := constant_nlp ones RSSolveSucceeded).
  assert (A : answers C nlp) by (apply constant_answers; apply repeat_length).
  destruct (solve_total _ _ _ _ _ _ _ H nlp s I WS ltac:(congruence) X S0 Sl ltac:(intros E; congruence) Z A) as (s' & out & E & _).
  destruct (solve_last _ _ _ _ _ _ _ H nlp s s' out E) as (_ & _ & _ & c & r & Er & EW & ES & L & _). destruct (L Np) as (h & Lh & Ec & Eh).
  injection Er as Er. subst r.
  destruct (solve_passes _ _ _ _ _ _ _ _ _ _ _ H (max_iter_pos _ _ _ _ _ _ _ H) E) as (s1 & lam & w1 & lb & ub & Ei & _ & PA & _).
  assert (Hx : 0 < m_nx m) by apply X.
  destruct (initialize_run _ _ _ _ _ _ _ H s I WS ltac:(congruence) Hx Z) as (lam' & _ & Ll & Ei'). rewrite Ei in Ei'. injection Ei' as _ <-.
  destruct (pa_call _ _ _ _ _ _ _ _ _ PA _ _ (proj2 Lh)) as (_ & _ & _ & _ & _ & Ep).
  destruct (point_exists _ _ _ _ _ _ _ H ones (nc_p (hs_call h))) as (rho & R1 & R2).
  { apply repeat_length. }
  { rewrite Ep. apply (p_len _ _ _ _ _ _ _ H s lam); assumption. }
  exists s', out, rho, h. split; [exact E|]. split; [apply ES; cbn; auto|]. split; [exact Lh|]. split; [rewrite R1, EW; reflexivity|]. split; [exact R2|].
  destruct (residual_max _ _ _ _ _ _ _ rho H) as (_ & M & _).
  assert (V : forall y, In y W -> rho y = 1%R) by (apply map_const_inv; exact R1).
  pose proof (first_element _ _ _ _ _ _ _ H) as FE. apply Results_proofs.elements_in in FE. cbn [fst snd] in FE. destruct FE as [F1 F2].
  assert (K : product O (cn_tab C) m rho (ent (theta_vec O m rho 0 0 0) (upto 0 (n_modes m) + 0) * ent (lam_vec O m rho 0 0 0) (upto 0 (n_modes m) + 0))%R).
  { apply pr_cross; try assumption; try (apply (Feas_proofs.ns_pos _ _ _ _ _ _ _ H)). apply st_pairs; assumption. }
  apply M in K. rewrite st_theta, st_lam in K by assumption. rewrite !V in K by (apply in_w_first; auto). lra.
Qed.

(* ---- C43: a negative multiplier is pinned to zero ---- *)
Lemma polish_wrong lb ub : o_pss O = Stewart -> 0 < n_subsystems m -> (0 <= Q2R (o_comp_tol O) < 1 / 10)%R ->
  polish_bounds O P (repeat (-5)%R (length W)) = Ok (lb, ub) -> exists i y, nth_error W i = Some y /\ y = S2 FMu 0 0 0 0 0 /\
    nth_error lb i = Some (Fin 0) /\ nth_error ub i = Some (Fin 0).
Proof.
  intros PS N T E. pose proof (mu_in_w _ _ _ _ _ _ _ H PS N) as I. apply In_nth_error in I. destruct I as [i Hi]. exists i, (S2 FMu 0 0 0 0 0).
  split; [exact Hi|]. split; [reflexivity|].
  assert (Hx : nth_error (repeat (-5)%R (length W)) i = Some (-5)%R) by (apply nth_error_repeat; eapply nth_error_Some_lt; exact Hi).
  destruct (polish_bounds_exact _ _ _ _ _ _ _ H _ _ _ (repeat_length _ _) E i _ _ Hi Hx ltac:(intros [])) as (_ & B & _). apply B.
  split; [exact Logic.I|]. split; [|lra]. intros A. unfold Rabs in A. destruct (Rcase_abs _); lra.
Qed.
Lemma polish_bounds_ok v : length v = length W -> exists lb ub, polish_bounds O P v = Ok (lb, ub).
Proof. intros Lv. destruct (polish_bounds_total _ _ _ _ _ _ _ H v Lv) as ([lb ub] & E). eauto. Qed.

(* ---- C06: two subsystems in Step mode ---- *)
Lemma step_order_wrong nlp v : o_init O <> Rk4Smoothened -> well_sized m -> extractable O m -> (0 < Q2R (o_sigma_0 O))%R -> (0 < Q2R (o_slope O))%R ->
  o_do_polishing O = false -> o_pss O = Step -> gS_given m = false -> n_subsystems m = 2 -> n_switch m 0 = 1 -> n_switch m 1 = 1 ->
  length v = m_nx m -> (forall z p, Rmax 0 (switch_value m (initial_point m v z p) 0 0) <> Rmax 0 (- switch_value m (initial_point m v z p) 1 0))%R ->
  answers C nlp -> let s := history nlp C [ASet (SetX0 v)] in
  exists s' out, solve nlp C s = (s', Ok out) /\ exists h, nth_error (so_steps out) 0 = Some h /\
    ~ Forall2 (belongs C m s (hs_sigma h) (hs_tau h)) (p_p P) (nc_p (hs_call h)).
Proof.
  intros I WS X S0 Sl Np PS GS N W0 W1 Lv V A s.
  assert (Z : sized C m s) by (apply (history_sized _ _ _ _ _ _ _ H); intros a [<-|[]]; exact Lv).
  destruct (solve_total _ _ _ _ _ _ _ H nlp s I WS (fun _ => GS) X S0 Sl ltac:(intros E; congruence) Z A) as (s' & out & E & _).
  exists s', out. split; [exact E|].
  destruct (pass_bounds _ _ _ _ _ _ _ H nlp s s' out E WS (fun _ => GS) Z) as (lam & EL & B).
  destruct (solve_count _ _ _ _ _ _ _ H nlp s s' out E) as ((K & _) & _). destruct (so_steps out) as [|h l] eqn:Es; [cbn in K; lia|].
  exists h. split; [reflexivity|]. destruct (B h (or_introl eq_refl)) as (-> & _).
  apply (step_two_wrong _ _ _ _ _ _ _ H); try assumption. cbv zeta. apply V.
Qed.

(* ---- all the theorems about solve() apply: a solve of the object as constructed, with a given NLP solver ---- *)
Lemma runs nlp s : o_init O <> Rk4Smoothened -> well_sized m -> (o_pss O = Step -> gS_given m = false) -> extractable O m ->
  Qlt 0 (o_sigma_0 O) -> Qlt 0 (o_slope O) -> o_sot O = SotNone -> o_mpcc O <> MBoolean -> sized C m s -> answers C nlp ->
  exists s' out, solve nlp C s = (s', Ok out) /\ sized C m s'.
Proof.
  intros I WS GS X S0 Sl SO MB Z A. apply (solve_total _ _ _ _ _ _ _ H nlp s I WS GS X); auto.
  - rewrite <- RMicromega.Q2R_0. apply Qlt_Rlt. exact S0.
  - rewrite <- RMicromega.Q2R_0. apply Qlt_Rlt. exact Sl.
  - intros _. auto.
Qed.
End Con.

(* ---- concrete problems ---- *)
Definition tol0 : Q := o_comp_tol default_opts.
(* one subsystem, weights of the first element fixed, polishing *)
Definition optsF (i : init_strategy) : opts := with_solver optsS tol0 1 tol0 (1 # 10) Superlinear i true true.
Lemma caseF_ok i : is_ok (build (optsF i) model3 None) = true. Proof. destruct i; vm_compute; reflexivity. Qed.
Definition CF (i : init_strategy) : constructed := get _ (caseF_ok i).
Lemma builtF i : build (optsF i) model3 None = Ok (CF i). Proof. apply get_ok. Qed.
Lemma problemF i : is_problem (optsF i) model3 None (CF i). Proof. exact (is_problem_ok _ _ _ _ (builtF i) eq_refl sized3). Qed.
Lemma extractF i : extractable (the_opts (CF i)) model3. Proof. apply (extract3 _ _ _ (builtF i)). destruct i; vm_compute; reflexivity. Qed.
Lemma initF i : o_init (the_opts (CF i)) = i. Proof. destruct i; vm_compute; reflexivity. Qed.
Lemma flagsF i : o_fix_active_set_fe0 (the_opts (CF i)) = true /\ o_pss (the_opts (CF i)) = Stewart /\ o_do_polishing (the_opts (CF i)) = true /\
  o_use_fesd (the_opts (CF i)) = true /\ o_rule (the_opts (CF i)) = Superlinear.
Proof. destruct i; vm_compute; auto. Qed.
Lemma runsF i nlp s : i <> Rk4Smoothened -> sized (CF i) model3 s -> answers (CF i) nlp -> exists s' out, solve nlp (CF i) s = (s', Ok out) /\ sized (CF i) model3 s'.
Proof.
  intros Hi. apply (runs _ _ _ _ _ _ _ (proj1 (problemF i)) nlp s).
  - rewrite initF. exact Hi.
  - exact sized3.
  - destruct (flagsF i) as (_ & -> & _). discriminate.
  - exact (extractF i).
  - destruct i; vm_compute; reflexivity.
  - destruct i; vm_compute; reflexivity.
  - destruct i; vm_compute; reflexivity.
  - destruct i; vm_compute; discriminate.
Qed.
Lemma initialF i : sized (CF i) model3 (initial_state (CF i)). Proof. exact (initial_sized _ _ _ _ _ _ _ (proj1 (problemF i))). Qed.
Lemma initialS : sized CS model3 (initial_state CS). Proof. exact (initial_sized _ _ _ _ _ _ _ (proj1 problemS)). Qed.
Lemma runsS nlp s : sized CS model3 s -> answers CS nlp -> exists s' out, solve nlp CS s = (s', Ok out) /\ sized CS model3 s'.
Proof.
  apply (runs _ _ _ _ _ _ _ (proj1 problemS) nlp s).
  - vm_compute. discriminate.
  - exact sized3.
  - intros E. exfalso. vm_compute in E. discriminate E.
  - exact extractS.
  - vm_compute. reflexivity.
  - vm_compute. reflexivity.
  - vm_compute. reflexivity.
  - vm_compute. discriminate.
Qed.

(* C39: success at a point with residual at least 1 *)
Lemma success_wrongS : exists s' out rho h, solve (constant_nlp (repeat 1%R (length (w (the_nlp CS)))) RSSolveSucceeded) CS (initial_state CS) = (s', Ok out) /\
  so_status out = SUCCESS /\ last_is (so_steps out) h /\ primal CS rho = so_w_sol out /\ parameters CS rho = nc_p (hs_call h) /\
  (Q2R (o_comp_tol (the_opts CS)) < comp_residual CS rho)%R.
Proof.
  apply (success_wrong _ _ _ _ _ _ _ (proj1 problemS) (initial_state CS)).
  - vm_compute. discriminate.
  - exact sized3.
  - exact extractS.
  - rewrite <- RMicromega.Q2R_0. apply Qlt_Rlt. vm_compute. reflexivity.
  - rewrite <- RMicromega.Q2R_0. apply Qlt_Rlt. vm_compute. reflexivity.
  - vm_compute. reflexivity.
  - vm_compute. reflexivity.
  - vm_compute. reflexivity.
  - vm_compute. lia.
  - vm_compute. lia.
  - rewrite <- RMicromega.Q2R_1. apply Qlt_Rlt. vm_compute. reflexivity.
  - exact initialS.
Qed.
(* C43 *)
Lemma polish_wrongS : exists v lb ub i y, length v = length (w (the_nlp CS)) /\ polish_bounds (the_opts CS) (the_problem CS) v = Ok (lb, ub) /\
  nth_error (w (the_nlp CS)) i = Some y /\ multiplier y /\ nth_error v i = Some (-5)%R /\ nth_error lb i = Some (Fin 0) /\ nth_error ub i = Some (Fin 0) /\
  (10 * Q2R (o_comp_tol (the_opts CS)) < 1)%R.
Proof.
  pose proof (repeat_length (-5)%R (length (w (the_nlp CS)))) as L.
  destruct (polish_bounds_ok _ _ _ _ _ _ _ (proj1 problemS) _ L) as (lb & ub & E).
  assert (T : (0 <= Q2R (o_comp_tol (the_opts CS)) < 1 / 10)%R).
  { replace (Q2R (o_comp_tol (the_opts CS))) with (Q2R (1 # 100000000)) by (f_equal; vm_compute; reflexivity). unfold Q2R. cbn [Qnum Qden]. lra. }
  destruct (polish_wrong _ _ _ _ _ _ _ (proj1 problemS) lb ub ltac:(vm_compute; reflexivity) ltac:(vm_compute; lia) T E) as (i & y & A1 & A2 & A3 & A4).
  exists (repeat (-5)%R (length (w (the_nlp CS)))), lb, ub, i, y. split; [exact L|]. split; [exact E|]. split; [exact A1|].
  split; [rewrite A2; exact Logic.I|]. split; [apply nth_error_repeat; eapply nth_error_Some_lt; exact A1|]. split; [exact A3|]. split; [exact A4|]. lra.
Qed.
(* C44 *)
Lemma polish_refusedA nlp lam v s : length v = length (w (the_nlp CA)) -> polish_solution nlp CA lam v s = (s, Err EException).
Proof.
  intros L. apply (polish_refuses _ _ _ _ _ _ _ (proj1 problemA) nlp lam v s L). exists (SSot 0). split; [|exact Logic.I].
  apply (sot_in_w _ _ _ _ _ _ _ (proj1 problemA)). vm_compute. reflexivity.
Qed.
(* C42 *)
Lemma theta_refusedC v s : length v = total (o_Nfe_list (the_opts CC)) -> (forall r, In r v -> length r = upto (n_subsystems model2) (n_modes model2)) ->
  set CC (SetTheta v) s = (s, Err EValueError).
Proof.
  intros L R. apply (set_theta_many _ _ _ _ _ _ _ (made _ _ _ _ builtC) v s).
  - vm_compute. reflexivity.
  - vm_compute. lia.
  - change (n_subsystems model2) with 2. intros q Hq. destruct q as [|[|q]]; vm_compute; lia.
  - exact L.
  - exact R.
Qed.
(* C06 *)
Lemma extractB : extractable (the_opts CB) model2.
Proof. split; [cbn; lia|]. split; [intros E; exfalso; vm_compute in E; discriminate E|vm_compute; reflexivity]. Qed.
Lemma order_wrongB nlp : answers CB nlp -> let s := history nlp CB [ASet (SetX0 [1%R; 2%R])] in
  exists s' out, solve nlp CB s = (s', Ok out) /\ exists h, nth_error (so_steps out) 0 = Some h /\
    ~ Forall2 (belongs CB model2 s (hs_sigma h) (hs_tau h)) (p_p (the_problem CB)) (nc_p (hs_call h)).
Proof.
  apply (step_order_wrong _ _ _ _ _ _ _ (proj1 problemB) nlp [1%R; 2%R]).
  - vm_compute. discriminate.
  - exact sized2.
  - exact extractB.
  - rewrite <- RMicromega.Q2R_0. apply Qlt_Rlt. vm_compute. reflexivity.
  - rewrite <- RMicromega.Q2R_0. apply Qlt_Rlt. vm_compute. reflexivity.
  - vm_compute. reflexivity.
  - vm_compute. reflexivity.
  - reflexivity.
  - reflexivity.
  - reflexivity.
  - reflexivity.
  - reflexivity.
  - intros z p. change (switch_value model2 (initial_point model2 [1%R; 2%R] z p) 0 0) with 1%R.
    change (switch_value model2 (initial_point model2 [1%R; 2%R] z p) 1 0) with 2%R.
    rewrite (Rmax_right 0 1) by lra. rewrite (Rmax_left 0 (-(2))) by lra. lra.
Qed.
(* C36: a tolerance above sigma_0 *)
Definition optsI : opts := with_solver optsS 10 1 tol0 (1 # 10) Linear AllXcurrentW0Start false false.
Lemma caseI_ok lr : is_ok (construct_problem lr case_cpoints ipopt_init optsI model3 None) = true. Proof. vm_compute. reflexivity. Qed.
Lemma auto_wrong_case : exists lr C, rounds lr /\ construct_problem lr case_cpoints ipopt_init optsI model3 None = Ok C /\
  (sigma_at (the_opts C) (o_max_iter_homotopy (the_opts C) - 1) < Q2R (o_comp_tol optsI) * sqrt (Q2R (o_slope optsI)))%R.
Proof.
  destruct rounding_exists as [lr R]. exists lr, (get _ (caseI_ok lr)). split; [exact R|].
  pose proof (get_ok _ (caseI_ok lr)) as G. split; [exact G|]. rewrite (auto_passes _ _ _ _ _ _ _ G eq_refl).
  pose proof (options_kept _ _ _ _ _ _ _ G) as K. set (Cx := get _ _) in *.
  rewrite sigma_linear by (rewrite K; reflexivity). rewrite K. clear G K.
  pose proof (auto_wrong lr R) as B. change (o_comp_tol optsI) with 10%Q. change (o_sigma_0 optsI) with 1%Q. change (o_slope optsI) with (1 # 10)%Q.
  cbn [o_sigma_0 o_slope set_iter_nfe optsI with_solver].
  replace (Q2R 10) with 10%R by (unfold Q2R; cbn [Qnum Qden]; lra). replace (Q2R 1) with 1%R by (unfold Q2R; cbn [Qnum Qden]; lra).
  replace (Q2R (1 # 10)) with (1 / 10)%R by (unfold Q2R; cbn [Qnum Qden]; lra).
  destruct (lr 10%Q 1%Q (1 # 10)%Q) as [|n]; [lia|]. replace (S n + 1 - 1) with (S n) by lia. cbn [pow].
  assert (0 < (1 / 10) ^ n <= 1)%R by (split; [apply pow_lt; lra|rewrite <- (pow1 n) at 2; apply pow_incr; lra]).
  assert (1 / 10 <= sqrt (1 / 10))%R by (rewrite <- (sqrt_square (1 / 10)) at 1 by lra; apply sqrt_le_1; lra). lra.
Qed.

(* ---- small facts used by the examples ---- *)
Lemma caseS_any lr : is_ok (construct_problem lr case_cpoints ipopt_init optsS model3 None) = true. Proof. vm_compute. reflexivity. Qed.
Lemma auto_signs {P : Prop} : P -> (0 < Q2R (o_comp_tol optsI))%R /\ (0 < Q2R (o_sigma_0 optsI))%R /\ (0 < Q2R (o_slope optsI) < 1)%R /\ P.
Proof.
  intros p. change (o_comp_tol optsI) with 10%Q. change (o_sigma_0 optsI) with 1%Q. change (o_slope optsI) with (1 # 10)%Q. unfold Q2R. cbn [Qnum Qden].
  repeat split; try lra. exact p.
Qed.
Lemma warned o s' (x : sstate * res unit) : x = (s', if not_external o then Err EWarning else Ok tt) ->
  exists r, x = (s', r) /\ (r = Ok tt <-> o_init o = External) /\ (r = Err EWarning <-> o_init o <> External).
Proof. intros ->. eexists. split; [reflexivity|]. unfold not_external. destruct (o_init o); split; split; intros E; try reflexivity; try discriminate; try (exfalso; apply E; reflexivity). Qed.
Lemma initialA : sized CA model1 (initial_state CA). Proof. exact (initial_sized _ _ _ _ _ _ _ (proj1 problemA)). Qed.
Lemma sizesA : 0 < m_nu model1 /\ 0 < m_nvg model1 /\ m_npg model1 = 1 /\ o_N_stages (the_opts CA) = 2 /\ total (o_Nfe_list (the_opts CA)) = 3.
Proof. vm_compute. repeat split; lia. Qed.
Lemma stewartC : o_pss (the_opts CC) = Stewart. Proof. vm_compute. reflexivity. Qed.
Lemma sotA : o_sot (the_opts CA) = SotLocal. Proof. vm_compute. reflexivity. Qed.
Lemma polish_runs lr cp d o m oc C nlp lam v s : construct_problem lr cp d o m oc = Ok C -> extractable (the_opts C) m -> answers C nlp ->
  compute_lambda00 (pr_pm (cn_prob C)) (ss_x0 s) (ss_pval s) = Ok lam -> well_sized m -> (o_pss (the_opts C) = Step -> gS_given m = false) ->
  length v = length (w (the_nlp C)) -> o_sot (the_opts C) = SotNone -> o_mpcc (the_opts C) <> MBoolean -> sized C m s ->
  exists s' q, polish_solution nlp C lam v s = (s', Ok q).
Proof.
  intros H X A EL WS GS Lv SO MB Z. destruct (lam_ok _ _ _ _ _ _ _ H s WS GS Z) as (lam' & EL' & Ll). rewrite EL in EL'. injection EL' as <-.
  destruct (polish_total _ _ _ _ _ _ _ H nlp lam v s X A Ll Lv SO MB Z) as (s' & q & E & _). eauto.
Qed.
Lemma polish_runsS nlp v : answers CS nlp -> length v = length (w (the_nlp CS)) -> exists lam,
  compute_lambda00 (pr_pm (cn_prob CS)) (ss_x0 (initial_state CS)) (ss_pval (initial_state CS)) = Ok lam /\
  exists s' q, polish_solution nlp CS lam v (initial_state CS) = (s', Ok q).
Proof.
  intros A L. assert (GS : o_pss (the_opts CS) = Step -> gS_given model3 = false) by (intros; reflexivity).
  destruct (lam_ok _ _ _ _ _ _ _ (proj1 problemS) (initial_state CS) sized3 GS initialS) as (lam & EL & _). exists lam. split; [exact EL|].
  apply (polish_runs _ _ _ _ _ _ _ nlp lam v _ (proj1 problemS) extractS A EL sized3 GS L).
  - vm_compute. reflexivity.
  - vm_compute. discriminate.
  - exact initialS.
Qed.

Lemma paramsS : p_p (the_problem CS) = [SSigma; STau; SL00 FLam 0 0; SL00 FLam 0 1; SX0 0]. Proof. vm_compute. reflexivity. Qed.
Lemma stateS : ss_x0 (initial_state CS) = [Q2R (-1)] /\ ss_pval (initial_state CS) = [[]]. Proof. split; vm_compute; reflexivity. Qed.
Lemma lamS : compute_lambda00 (pr_pm (cn_prob CS)) (ss_x0 (initial_state CS)) (ss_pval (initial_state CS)) = Ok [0%R; 2%R].
Proof.
  assert (GS : o_pss (the_opts CS) = Step -> gS_given model3 = false) by (intros; reflexivity).
  destruct (lam_ok _ _ _ _ _ _ _ (proj1 problemS) (initial_state CS) sized3 GS initialS) as (lam & EL & _). rewrite EL. f_equal.
  pose proof (params_belong _ _ _ _ _ _ _ (proj1 problemS) (initial_state CS) 0 0 lam initialS EL sized3 (or_intror (conj eq_refl eq_refl))) as B.
  rewrite paramsS in B. destruct stateS as [E1 E2]. rewrite E1, E2 in B. cbn [concat app] in B. clear EL.
  inversion B as [|? ? ? ? _ B1]; subst. inversion B1 as [|? ? ? ? _ B2]; subst. clear B B1.
  destruct lam as [|a [|b [|c l]]]; cbn [app] in B2; inversion B2 as [|? ? ? ? X1 B3]; subst; clear B2; inversion B3 as [|? ? ? ? X2 B4]; subst; clear B3;
    inversion B4 as [|? ? ? ? X3 B5]; subst; clear B4; try (inversion B5; fail).
  2: { exfalso. destruct l; inversion B5. }
  unfold belongs in X1, X2. rewrite E1 in X1, X2. set (v0 := initial_point _ _ _ _) in *.
  assert (V0 : region_value model3 v0 0 0 = (-1)%R) by (unfold region_value, v0; cbn; unfold Q2R; cbn; lra).
  assert (V1 : region_value model3 v0 0 1 = 1%R) by (unfold region_value, v0; cbn; unfold Q2R; cbn; lra).
  destruct X1 as (mn & [M1 (k & Hk & M2)] & X1). destruct X2 as (mn' & [M1' (k' & Hk' & M2')] & X2). change (n_modes model3 0) with 2 in *.
  pose proof (M1 0 ltac:(lia)). pose proof (M1 1 ltac:(lia)). pose proof (M1' 0 ltac:(lia)). pose proof (M1' 1 ltac:(lia)).
  destruct k as [|[|k]]; [| |lia]; (destruct k' as [|[|k']]; [| |lia]); repeat f_equal; lra.
Qed.
Lemma excludedS : exists lam y, compute_lambda00 (pr_pm (cn_prob CS)) (ss_x0 (initial_state CS)) (ss_pval (initial_state CS)) = Ok lam /\
  parameters CS rhoS = concat (ss_pval (initial_state CS)) ++ [0%R; 0%R] ++ lam ++ ss_x0 (initial_state CS) /\
  feasible rhoS (the_nlp CS) /\ zero_relaxation (the_opts CS) rhoS /\ o_use_fesd (the_opts CS) = true /\ In y (w (the_nlp CS)) /\ excluded CS model3 lam y.
Proof.
  exists [0%R; 2%R], (S2 FTheta 0 0 0 0 1). split; [exact lamS|]. destruct stateS as [-> ->]. split.
  { unfold parameters. rewrite paramsS. cbn [concat app map]. unfold rhoS, pt.
    change (ptQ switchS SSigma) with 0%Q. change (ptQ switchS STau) with 0%Q. change (ptQ switchS (SL00 FLam 0 0)) with 0%Q.
    change (ptQ switchS (SL00 FLam 0 1)) with 2%Q. change (ptQ switchS (SX0 0)) with (-1)%Q. unfold Q2R. cbn [Qnum Qden]. repeat f_equal; lra. }
  split; [exact feasibleS|]. split.
  { unfold zero_relaxation. replace (o_mpcc (the_opts CS)) with ScholtesIneq by (vm_compute; reflexivity). unfold rhoS, pt. change (ptQ switchS SSigma) with 0%Q. unfold Q2R. cbn [Qnum Qden]. lra. }
  split; [vm_compute; reflexivity|]. split.
  { replace (w (the_nlp CS)) with (w (the_nlp CS)) by reflexivity. apply (in_w_first _ _ _ _ _ _ _ (proj1 problemS)); [vm_compute; reflexivity|left; reflexivity|vm_compute; lia|vm_compute; lia]. }
  exists 0, 0, 1. split; [reflexivity|]. split; [vm_compute; lia|]. split; [vm_compute; lia|].
  replace (o_comp_tol (the_opts CS)) with (1 # 100000000)%Q by (vm_compute; reflexivity). change (offset (n_modes model3) 0 1) with 1. cbn [nth]. unfold Q2R. cbn [Qnum Qden]. lra.
Qed.
