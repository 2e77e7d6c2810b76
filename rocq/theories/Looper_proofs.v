(* Looper_proofs.v -- NosnocSimLooper *)
From Coq Require Import Reals Qreals Lra.
From Verif Require Import Base Lib Sx Utils Tableau Opts Model Ocp Problem Numeric Rk4 Results Solver Looper Spec Fesd Spec2 Spec3 Spec4 Spec5 Spec6
  Con_proofs Index3_proofs Results_proofs Results2_proofs Results4_proofs Solve_proofs Solve2_proofs Init_proofs Init2_proofs Start_proofs Progress_proofs
  Vec_proofs Set_proofs Hist_proofs Field_proofs Field2_proofs Solve3_proofs Solve4_proofs.
Local Open Scope nat_scope.

Section Con.
Variables (lr : Q -> Q -> Q -> nat) (cp : nat -> scheme -> list Q) (d : ipopt_dict)
  (o : opts) (m : model) (oc : option ocp) (C : constructed).
Hypothesis H : construct_problem lr cp d o m oc = Ok C.
Notation O := (the_opts C).
Notation P := (the_problem C).
Notation W := (w (the_nlp C)).
Variable nlp : nat -> nlp_call -> res nlp_ret.
Hypothesis RT : returns C nlp.
Hypothesis X : extractable O m.

Lemma solve_results s s' out : solve nlp C s = (s', Ok out) -> sized C m s ->
  sized C m s' /\ ss_pval s' = ss_pval s /\ exists rho, so_w_sol out = primal C rho /\
  get_results (cn_prob C) (ss_x0 s) (primal C rho) = Ok (so_results out).
Proof.
  intros E Z. pose proof (keeps_out _ _ _ _ _ (solve_len nlp C) E) as SL.
  split; [exact (sized_len _ _ _ _ SL Z)|].
  destruct (solve_last _ _ _ _ _ _ _ H nlp s s' out E) as (_ & Ex & Ep & c & r & Er & Ew & _). split; [exact Ep|].
  assert (Lw : length (so_w_sol out) = length W) by (rewrite Ew; exact (RT _ _ _ Er)).
  destruct (as_primal _ _ _ _ _ _ _ _ H Lw) as [rho Erho]. exists rho. split; [congruence|]. rewrite Erho.
  apply solve_inv in E. destruct E as [(s1 & s2 & s3 & lam & w1 & lb & ub & h & _ & _ & _ & _ & _ & _ & _ & _ & _ & Q & EI & _)].
  replace (ss_x0 s) with (ss_x0 s3); [exact Q|]. destruct (o_init O); try (subst s'; exact Ex). destruct EI as (v & _ & ->). exact Ex.
Qed.

Lemma solve_states s s' out : solve nlp C s = (s', Ok out) -> sized C m s ->
  length (rs_x_list (so_results out)) = length (rs_time_steps (so_results out)) /\
  last_is (rs_x_list (so_results out)) (rs_x_out (so_results out)) /\ length (rs_x_out (so_results out)) = m_nx m.
Proof.
  intros E Z. destruct (solve_results _ _ _ E Z) as (_ & _ & rho & _ & G).
  destruct (results_read _ _ _ _ _ _ _ rho (ss_x0 s) H X) as (r & sw & Hr & Q). rewrite G in Hr. injection Hr as Hr. rewrite <- Hr in Q. cbv zeta in Q.
  destruct Q as (Q1 & Q2 & Q3 & _ & _ & _ & _ & _ & _ & _ & _ & _ & _ & Q4 & _). split.
  { rewrite Q1, Q4. unfold step_lengths. rewrite !map_length. reflexivity. }
  split.
  - destruct (results_consistent _ _ _ _ _ _ _ (primal C rho) (ss_x0 s) H X) as (r2 & G2 & L2 & _ & _ & LL & _).
    { unfold primal. apply map_length. }
    rewrite G in G2. injection G2 as G2. rewrite <- G2 in *. rewrite Q2 in LL, L2. rewrite <- Q1 in LL, L2. destruct LL as [LL1 LL2]. cbn [length] in *.
    assert (0 < total (o_Nfe_list O)).
    { pose proof X as (_ & _ & X3). rewrite <- (total_all C X3). pose proof (first_element _ _ _ _ _ _ _ H) as F. destruct (elements O); [contradiction|cbn [length]; lia]. }
    split; [lia|]. replace (S (length (rs_x_list (so_results out))) - 1) with (S (length (rs_x_list (so_results out)) - 1)) in LL2 by lia. exact LL2.
  - rewrite Q3. unfold end_states, vals. rewrite map_length, seq_length. reflexivity.
Qed.

(* a step of the looper *)
Lemma step_ok L i s s' out : step_inputs nlp C L i s = (s', Ok out) -> sized C m s -> length (lp_xcurrent L) = m_nx m -> tables C m L ->
  exists si, solve nlp C si = (s', Ok out) /\ sized C m si /\ ss_x0 si = lp_xcurrent L /\ ss_calls si = ss_calls s /\
  match lp_p_values L with
  | Some M => exists row, nth_error M i = Some row /\ length row = m_npg m /\ ss_pval si = with_p_global m row (ss_pval s)
  | None => ss_pval si = ss_pval s
  end /\
  (forall M, lp_w_init L = Some M -> nth_error M i = Some (ss_w0 si)).
Proof.
  intros E Z Lx T. unfold step_inputs in E.
  apply sbind_ok in E. destruct E as (s1 & [] & E1 & E). cbn [set] in E1. unfold put_x0 in E1. injection E1 as <-.
  set (s1 := mkState _ _ _ _) in *. assert (Z1 : sized C m s1) by (destruct Z; split; assumption).
  apply sbind_ok in E. destruct E as (s2 & [] & E2 & E).
  assert (S2 : sized C m s2 /\ ss_x0 s2 = lp_xcurrent L /\ ss_calls s2 = ss_calls s /\ ss_pval s2 = ss_pval s /\ (forall M, lp_w_init L = Some M -> nth_error M i = Some (ss_w0 s2))).
  { destruct (lp_w_init L) as [M|] eqn:EM.
    - apply sbind_ok in E2. destruct E2 as (s1' & row & Er & E2). apply lift_ok in Er. destruct Er as [-> Er]. apply nthE_ok in Er.
      rewrite set_w_all in E2. unfold warn in E2. destruct (not_external _); [discriminate|]. injection E2 as <-.
      cbn [ss_x0 ss_calls ss_pval ss_w0 s1]. split; [|repeat split; congruence].
      destruct Z1 as [A1 A2 A3 A4]. split; try assumption. cbn [ss_w0]. apply (tb_w _ _ _ T M row EM). eapply nth_error_In. exact Er.
    - apply sret_ok in E2. destruct E2 as [-> _]. split; [exact Z1|]. repeat split. discriminate. }
  destruct S2 as (Z2 & X2 & C2 & P2 & W2).
  apply sbind_ok in E. destruct E as (s3 & [] & E3 & E). exists s3. split; [exact E|].
  destruct (lp_p_values L) as [M|] eqn:EM.
  - apply sbind_ok in E3. destruct E3 as (s2' & row & Er & E3). apply lift_ok in Er. destruct Er as [-> Er]. apply nthE_ok in Er.
    assert (Lr : length row = m_npg m) by (apply (tb_p _ _ _ T M row EM); eapply nth_error_In; exact Er).
    pose proof (act_sized _ _ _ _ _ _ _ H nlp s2 (ASet (SetPGlobal row)) Logic.I Z2) as Z3. cbn [act] in Z3.
    rewrite (set_p_global_rows _ _ _ _ _ _ _ H row s2 Z2 Lr) in E3, Z3. injection E3 as <-. split; [exact Z3|]. cbn [ss_x0 ss_calls ss_pval ss_w0].
    split; [exact X2|]. split; [exact C2|]. split; [|exact W2]. exists row. split; [exact Er|]. split; [exact Lr|]. rewrite P2. reflexivity.
  - apply sret_ok in E3. destruct E3 as [-> _]. auto.
Qed.

Lemma collect_ok L i out L' : collect L O i out = Ok L' -> 
  (forall y, last_is (rs_x_list (so_results out)) y -> lp_xcurrent L' = y) /\
  lp_Nsim L' = lp_Nsim L /\ lp_p_values L' = lp_p_values L /\ lp_w_init L' = lp_w_init L /\
  lp_X_sim L' = lp_X_sim L ++ rs_x_list (so_results out) /\
  lp_time_steps L' = lp_time_steps L ++ rs_time_steps (so_results out) /\
  lp_theta_sim L' = lp_theta_sim L ++ [rs_theta_list (so_results out)] /\
  lp_lambda_sim L' = lp_lambda_sim L ++ [rs_lambda_list (so_results out)] /\
  lp_alpha_sim L' = lp_alpha_sim L ++ [rs_alpha_list (so_results out)] /\
  lp_z_sim L' = lp_z_sim L ++ [rs_z_list (so_results out)] /\
  lp_w_sim L' = lp_w_sim L ++ [so_w_sol out] /\ lp_w_all L' = lp_w_all L ++ [so_w_all out] /\
  lp_cost_vals L' = lp_cost_vals L ++ [so_cost out] /\ lp_status L' = lp_status L ++ [so_status out] /\
  lp_switch_times L' = lp_switch_times L ++ map (fun t => (t + rsum (lp_time_steps L))%R) (rs_switch_times (so_results out)) /\
  updE EIndexError (lp_cpu_nlp L) i (so_cpu out) = Ok (lp_cpu_nlp L').
Proof.
  unfold collect. cbv zeta. intros E. apply bind_ok in E. destruct E as (xc & Ex & E). apply bind_ok in E. destruct E as (cpu & Ec & E). apply bind_ok in E. destruct E as (sot & _ & E). injection E as <-.
  cbn. split; [|repeat split; assumption || reflexivity]. intros y [Ly Hy]. apply lastE_is in Ex. destruct Ex as [_ Ex].
  rewrite nth_error_app2, app_length in Ex by (rewrite app_length; lia).
  replace (length (lp_X_sim L) + length (rs_x_list (so_results out)) - 1 - length (lp_X_sim L)) with (length (rs_x_list (so_results out)) - 1) in Ex by lia.
  congruence.
Qed.

Lemma pg_twice (r r' : list R) M : (forall a, In a M -> length a = m_npt m + m_npg m) -> with_p_global m r (with_p_global m r' M) = with_p_global m r M.
Proof.
  intros HM. unfold with_p_global. rewrite map_map. apply map_ext_in. intros a Ha. f_equal.
  assert (L : length (firstn (m_npt m) a) = m_npt m) by (rewrite firstn_length, (HM a Ha); lia).
  rewrite <- L at 1. rewrite firstn_app, Nat.sub_diag, firstn_all, firstn_O, app_nil_r. reflexivity.
Qed.

Lemma simulation_run stop n : forall i L s s' L' r, run_from nlp C stop n i L s = (s', L', r) -> sized C m s -> length (lp_xcurrent L) = m_nx m -> tables C m L ->
  exists tr, simulation nlp C m i L s tr L' /\ length tr <= n /\ (r = Ok true -> length tr = n /\ sized C m s') /\ r <> Ok false /\ length (lp_xcurrent L') = m_nx m /\
    lp_Nsim L' = lp_Nsim L.
Proof.
  assert (NIL : forall i L s, simulation nlp C m i L s [] L).
  { intros i L s. split; cbn; try (rewrite app_nil_r; reflexivity); intros; try reflexivity; destruct k || idtac; discriminate. }
  induction n as [|n IH]; intros i L s s' L' r E Z Lx T; cbn [run_from] in E.
  { injection E as <- <- <-. exists []. split; [apply NIL|]. cbn [length]. split; [lia|]. split; [auto|]. split; [discriminate|]. auto. }
  destruct (step_inputs nlp C L i s) as [s1 [out|e]] eqn:E1.
  2: { injection E as <- <- <-. exists []. cbn [length]. split; [apply NIL|]. repeat split; auto; try discriminate; lia. }
  change (pr_o (cn_prob C)) with O in E. destruct (collect L O i out) as [L1|e] eqn:E2.
  2: { injection E as <- <- <-. exists []. cbn [length]. split; [apply NIL|]. repeat split; auto; try discriminate; lia. }
  destruct (step_ok _ _ _ _ _ E1 Z Lx T) as (si & Es & Zi & Xi & Ci & Pi & Wi).
  destruct (solve_states _ _ _ Es Zi) as (LL & LA & Lo). destruct (solve_results _ _ _ Es Zi) as (Z1 & P1 & _).
  destruct (collect_ok _ _ _ _ E2) as (Q1 & Q0 & Q2 & Q3 & Q4 & Q5 & Q6 & Q7 & Q8 & Q9 & Q10 & Q11 & Q12 & Q13 & Q14 & Q15).
  specialize (Q1 _ LA). unfold status_eq_str in E. rewrite Bool.andb_false_r in E.
  destruct (IH (S i) L1 s1 s' L' r E Z1) as (tr & SM & Lt & Rt & Rf & Lf & Ln).
  { rewrite Q1. exact Lo. }
  { destruct T as [T1 T2]. split; [rewrite Q2; exact T1|rewrite Q3; exact T2]. }
  exists ((si, out) :: tr). split; [|cbn [length]; split; [lia|]; split; [intros R; destruct (Rt R); split; [lia|assumption]|]; split; [exact Rf|split; [exact Lf|congruence]]].
  destruct SM as [M1 M2 M3 M4 M4w M5 M6 M7 M8 M9 M10 M11 M12 M13 M14 M15 M16 M17 M18].
  split; cbn [map concat snd shifted].
  - intros [|k] sk ok Hk; [injection Hk as <- <-|exact (M1 k sk ok Hk)]. split; [exact Zi|exists s1; exact Es].
  - intros sk ok Hk. injection Hk as <- <-. auto.
  - intros [|k] sk ok sj oj t Hk Hj St; [|exact (M3 k sk ok sj oj t Hk Hj St)]. cbn [nth_error] in Hk, Hj. injection Hk as <- <-. rewrite Es in St. injection St as <-.
    destruct (M2 sj oj Hj) as [A B]. rewrite A, Q1. auto.
  - intros [|k] sk ok Hk.
    + injection Hk as <- <-. rewrite Nat.add_0_r. destruct (lp_p_values L); [|exact Pi]. destruct Pi as (row & A & _ & B). eauto.
    + specialize (M4 k sk ok Hk). rewrite Q2 in M4. rewrite Nat.add_succ_r. cbn [plus] in M4. destruct (lp_p_values L); [|congruence].
      destruct M4 as (row & A & B). exists row. split; [exact A|]. destruct Pi as (row' & _ & _ & Pi). rewrite B, P1, Pi. apply pg_twice, (sz_rows _ _ _ Z).
  - intros [|k] sk ok M Hk EM.
    + injection Hk as <- <-. rewrite Nat.add_0_r. apply Wi, EM.
    + rewrite Nat.add_succ_r. rewrite <- Q3 in EM. exact (M4w k sk ok M Hk EM).
  - intros [|k] sk ok Hk; [injection Hk as <- <-; exact LL|exact (M5 k sk ok Hk)].
  - rewrite M6, Q4, <- app_assoc. reflexivity.
  - rewrite M7, Q5, <- app_assoc. reflexivity.
  - rewrite M8, Q6, <- app_assoc. reflexivity.
  - rewrite M9, Q7, <- app_assoc. reflexivity.
  - rewrite M10, Q8, <- app_assoc. reflexivity.
  - rewrite M11, Q9, <- app_assoc. reflexivity.
  - rewrite M12, Q10, <- app_assoc. reflexivity.
  - rewrite M13, Q11, <- app_assoc. reflexivity.
  - rewrite M14, Q12, <- app_assoc. reflexivity.
  - rewrite M15, Q13, <- app_assoc. reflexivity.
  - rewrite M16, Q14, <- app_assoc, Q5. reflexivity.
  - intros [|k] sk ok Hk.
    + injection Hk as <- <-. rewrite Nat.add_0_r, M18 by lia. rewrite (updE_nth _ _ _ _ _ i Q15), Nat.eqb_refl. reflexivity.
    + rewrite Nat.add_succ_r. exact (M17 k sk ok Hk).
  - cbn [length]. intros j Hj. rewrite M18 by lia. rewrite (updE_nth _ _ _ _ _ j Q15). destruct (j =? i) eqn:Eq; [apply Nat.eqb_eq in Eq; lia|reflexivity].
Qed.

Lemma steps_length (tr : list (sstate * solve_out)) : (forall k si out, nth_error tr k = Some (si, out) -> length (rs_x_list (so_results out)) = length (rs_time_steps (so_results out))) ->
  length (concat (map (fun q => rs_x_list (so_results (snd q))) tr)) = length (concat (map (fun q => rs_time_steps (so_results (snd q))) tr)).
Proof.
  induction tr as [|[si out] tr IH]; intros A; [reflexivity|]. cbn [map concat snd]. rewrite !app_length. f_equal; [apply (A 0 si out eq_refl)|].
  apply IH. intros k sk ok Hk. exact (A (S k) sk ok Hk).
Qed.

(* progress: nothing raises if no solve does *)
Hypothesis RUNS : forall s, sized C m s -> exists s' out, solve nlp C s = (s', Ok out).

Lemma step_total L i s : sized C m s -> length (lp_xcurrent L) = m_nx m -> tables C m L ->
  (forall M, lp_p_values L = Some M -> i < length M) -> (forall M, lp_w_init L = Some M -> i < length M /\ o_init O = External) ->
  exists s' out, step_inputs nlp C L i s = (s', Ok out).
Proof.
  intros Z Lx T BP BW. unfold step_inputs. unfold sbind at 1.
  change (set C (SetX0 (lp_xcurrent L)) s) with (mkState (lp_xcurrent L) (ss_pval s) (ss_w0 s) (ss_calls s), Ok tt). cbv beta iota.
  set (s1 := mkState _ _ _ _). assert (Z1 : sized C m s1) by (destruct Z; split; assumption).
  assert (S2 : exists s2, match lp_w_init L with Some W0 => dos w <- lift (nthE EIndexError W0 i); set C (SetW w) | None => sret tt end s1 = (s2, Ok tt) /\ sized C m s2).
  { destruct (lp_w_init L) as [M|] eqn:EM; [|exists s1; split; [reflexivity|exact Z1]]. destruct (BW M eq_refl) as [Hi Hx].
    destruct (nth_error_lt M i Hi) as [row Hr]. unfold sbind. unfold lift. rewrite (proj2 (nthE_ok _ _ _ _) Hr). rewrite set_w_all. unfold warn, not_external. rewrite Hx. cbn.
    eexists. split; [reflexivity|]. destruct Z1 as [A1 A2 A3 A4]. split; try assumption. cbn [ss_w0]. apply (tb_w _ _ _ T M row EM). eapply nth_error_In, Hr. }
  destruct S2 as (s2 & E2 & Z2). unfold sbind at 1. rewrite E2. unfold sbind at 1.
  destruct (lp_p_values L) as [M|] eqn:EM; [|unfold sret; apply RUNS; exact Z2].
  destruct (nth_error_lt M i (BP M eq_refl)) as [row Hr]. unfold sbind, lift. rewrite (proj2 (nthE_ok _ _ _ _) Hr).
  assert (Lr : length row = m_npg m) by (apply (tb_p _ _ _ T M row EM); eapply nth_error_In; exact Hr).
  pose proof (act_sized _ _ _ _ _ _ _ H nlp s2 (ASet (SetPGlobal row)) Logic.I Z2) as Z3. cbn [act] in Z3.
  rewrite (set_p_global_rows _ _ _ _ _ _ _ H row s2 Z2 Lr) in *. apply RUNS. exact Z3.
Qed.

Lemma sot_there s s' out : solve nlp C s = (s', Ok out) -> sized C m s -> o_sot O <> SotNone -> exists v, rs_sot (so_results out) = Some v.
Proof.
  intros E Z N. destruct (solve_results _ _ _ E Z) as (_ & _ & rho & _ & G).
  destruct (results_read _ _ _ _ _ _ _ rho (ss_x0 s) H X) as (r & sw & Hr & Q). rewrite G in Hr. injection Hr as Hr. rewrite <- Hr in Q. cbv zeta in Q.
  destruct Q as (_ & _ & _ & _ & _ & Q & _). destruct (o_sot O); [contradiction|..]; eauto.
Qed.

Lemma run_total stop n : forall i L s, sized C m s -> length (lp_xcurrent L) = m_nx m -> tables C m L -> i + n <= length (lp_cpu_nlp L) ->
  (forall M, lp_p_values L = Some M -> i + n <= length M) -> (forall M, lp_w_init L = Some M -> i + n <= length M /\ o_init O = External) ->
  exists s' L', run_from nlp C stop n i L s = (s', L', Ok true).
Proof.
  induction n as [|n IH]; intros i L s Z Lx T BC BP BW; cbn [run_from]; [eauto|].
  destruct (step_total L i s Z Lx T) as (s1 & out & E1).
  { intros M EM. specialize (BP M EM). lia. }
  { intros M EM. specialize (BW M EM). split; [lia|apply BW]. }
  rewrite E1. change (pr_o (cn_prob C)) with O.
  destruct (step_ok _ _ _ _ _ E1 Z Lx T) as (si & Es & Zi & _). destruct (solve_states _ _ _ Es Zi) as (_ & LA & Lo). destruct (solve_results _ _ _ Es Zi) as (Z1 & _).
  assert (CO : exists L1, collect L O i out = Ok L1).
  { unfold collect. cbv zeta. destruct (lastE_in EIndexError (lp_X_sim L ++ rs_x_list (so_results out))) as (xc & -> & _).
    { rewrite app_length. destruct LA. lia. }
    cbn [bind]. destruct (updE_total EIndexError (lp_cpu_nlp L) i (so_cpu out)) as [cpu ->]; [lia|]. cbn [bind].
    pose proof (sot_there _ _ _ Es Zi) as ST. destruct (o_sot O); cbn [bind]; [eauto|..]; destruct ST as [v ->]; try discriminate; cbn [opt_res bind]; eauto. }
  destruct CO as [L1 E2]. rewrite E2. unfold status_eq_str. rewrite Bool.andb_false_r.
  destruct (collect_ok _ _ _ _ E2) as (Q1 & Q0 & Q2 & Q3 & _ & _ & _ & _ & _ & _ & _ & _ & _ & _ & _ & Q15). specialize (Q1 _ LA).
  apply IH; [exact Z1|congruence| | | |].
  - destruct T as [T1 T2]. split; [rewrite Q2; exact T1|rewrite Q3; exact T2].
  - rewrite (updE_len _ _ _ _ _ Q15). lia.
  - rewrite Q2. intros M EM. specialize (BP M EM). lia.
  - rewrite Q3. intros M EM. specialize (BW M EM). split; [lia|apply BW].
Qed.
End Con.

Section Init.
Variables (lr : Q -> Q -> Q -> nat) (cp : nat -> scheme -> list Q) (d : ipopt_dict)
  (o : opts) (m : model) (oc : option ocp) (C : constructed).
Hypothesis H : construct_problem lr cp d o m oc = Ok C.
Notation O := (the_opts C).

Lemma sim_problem : is_sim_problem (cn_prob C) = true <-> m_nu m = 0 /\ o_N_stages O = 1 /\ oc = None.
Proof.
  destruct (pm_dims _ _ _ (proj2 (pm_facts _ _ _ _ _ _ _ H))) as (_ & D & _).
  unfold is_sim_problem. rewrite !Bool.andb_true_iff, !Nat.eqb_eq, D. fold O.
  assert (E : pr_ocp_trivial (cn_prob C) = true <-> oc = None).
  { unfold construct_problem in H. apply bind_ok in H. destruct H as ([[d' o'] t] & _ & H1). apply bind_ok in H1. destruct H1 as (pm & E1 & H1).
    apply bind_ok in H1. destruct H1 as (sm & _ & H1). apply bind_ok in H1. destruct H1 as (P & EP & H1). injection H1 as <-. cbn [cn_prob].
    unfold nosnoc_problem in EP. cbv zeta in EP. repeat (apply bind_ok in EP; destruct EP as (? & _ & EP)). injection EP as <-. cbn.
    destruct oc; split; congruence. }
  rewrite E. split; intros Q; [destruct Q as [[]]|destruct Q as (? & ? & ?)]; auto.
Qed.

Lemma init_ok x0 Nsim pv pc wi : 
  (exists L, looper_init (cn_prob C) x0 Nsim pv pc wi = Ok L) <->
  (m_nu m = 0 /\ o_N_stages O = 1 /\ oc = None) /\ match pv with Some M => length M = Nsim /\ pc = m_npg m | None => True end.
Proof.
  rewrite <- sim_problem. destruct (npt_pm _ _ _ _ _ _ _ H) as [_ D]. unfold looper_init. rewrite D.
  destruct (is_sim_problem (cn_prob C)); cbn [guard bind]; [|split; [intros [L E]; discriminate|intros [E _]; discriminate]].
  destruct pv as [M|]; cbn [bind]; [|split; [auto|intros _; eauto]].
  destruct (length M =? Nsim) eqn:E1; cbn [andb guard bind].
  - apply Nat.eqb_eq in E1. destruct (pc =? m_npg m) eqn:E2; cbn [guard bind].
    + apply Nat.eqb_eq in E2. split; [auto|eauto].
    + apply Nat.eqb_neq in E2. split; [intros [L E]; discriminate|intros (_ & _ & E); contradiction].
  - apply Nat.eqb_neq in E1. split; [intros [L E]; discriminate|intros (_ & E & _); contradiction].
Qed.

Lemma init_err x0 Nsim pv pc wi e : looper_init (cn_prob C) x0 Nsim pv pc wi = Err e ->
  (e = EException /\ ~ (m_nu m = 0 /\ o_N_stages O = 1 /\ oc = None)) \/ (e = EValueError /\ exists M, pv = Some M /\ ~ (length M = Nsim /\ pc = m_npg m)).
Proof.
  rewrite <- sim_problem. destruct (npt_pm _ _ _ _ _ _ _ H) as [_ D]. unfold looper_init. rewrite D.
  destruct (is_sim_problem (cn_prob C)); cbn [guard bind]; [|intros E; injection E as <-; left; split; [reflexivity|discriminate]].
  destruct pv as [M|]; cbn [bind]; [|discriminate].
  destruct ((length M =? Nsim) && (pc =? m_npg m)) eqn:E1; cbn [guard bind]; [discriminate|]. intros E. injection E as <-. right. split; [reflexivity|].
  exists M. split; [reflexivity|]. intros [A B]. apply Nat.eqb_eq in A, B. rewrite A, B in E1. discriminate.
Qed.

Lemma init_start x0 Nsim pv pc wi L : looper_init (cn_prob C) x0 Nsim pv pc wi = Ok L ->
  L = mkLooper Nsim pv wi x0 [x0] [] [] [] [] [] [] [] [] [] [] [] (lp_cpu_nlp L) /\ length (lp_cpu_nlp L) = Nsim.
Proof.
  unfold looper_init. intros E. apply bind_ok in E. destruct E as (? & _ & E). apply bind_ok in E. destruct E as (? & _ & E). injection E as <-. 
  cbn. rewrite repeat_length. auto.
Qed.

Lemma cumsum_len l : forall a, length (cumsum a l) = length l.
Proof. induction l as [|x l IH]; intros a; cbn; [reflexivity|rewrite IH; reflexivity]. Qed.

Lemma cpu_width nlp s s' out : solve nlp C s = (s', Ok out) -> length (so_cpu out) = o_max_iter_homotopy O + (if o_do_polishing O then 1 else 0).
Proof.
  intros E. pose proof (solve_count _ _ _ _ _ _ _ H nlp s s' out E) as SC.
  apply solve_inv in E. destruct E as [(s1 & s2 & s3 & lam & w1 & lb & ub & h & _ & _ & HH & _ & PO & _ & _ & _ & _ & _ & _ & -> & _)].
  rewrite app_length. f_equal.
  - unfold pad. rewrite app_length, !map_length, repeat_length. destruct SC as [SC _]. lia.
  - destruct (so_polish out); destruct PO as [-> _]; reflexivity.
Qed.
End Init.

Lemma run_last nlp C stop n : forall i L s s' L' r, run_from nlp C stop n i L s = (s', L', r) -> last_is (lp_X_sim L) (lp_xcurrent L) -> last_is (lp_X_sim L') (lp_xcurrent L').
Proof.
  induction n as [|n IH]; intros i L s s' L' r E LA; cbn [run_from] in E; [injection E as <- <- <-; exact LA|].
  destruct (step_inputs nlp C L i s) as [s1 [out|e]]; [|injection E as <- <- <-; exact LA].
  destruct (collect L (pr_o (cn_prob C)) i out) as [L1|e] eqn:E2; [|injection E as <- <- <-; exact LA].
  unfold status_eq_str in E. rewrite Bool.andb_false_r in E. apply (IH _ _ _ _ _ _ E).
  unfold collect in E2. cbv zeta in E2. apply bind_ok in E2. destruct E2 as (xc & Ex & E2). apply bind_ok in E2. destruct E2 as (cpu & _ & E2).
  apply bind_ok in E2. destruct E2 as (sot & _ & E2). injection E2 as <-. cbn. exact (lastE_is _ _ _ Ex).
Qed.

Section Run.
Variables (lr : Q -> Q -> Q -> nat) (cp : nat -> scheme -> list Q) (d : ipopt_dict)
  (o : opts) (m : model) (oc : option ocp) (C : constructed).
Hypothesis H : construct_problem lr cp d o m oc = Ok C.
Notation O := (the_opts C).

Lemma glued nlp x0 Nsim pv pc wi L stop s s' L' r : returns C nlp -> extractable O m -> looper_init (cn_prob C) x0 Nsim pv pc wi = Ok L ->
  length x0 = m_nx m -> tables C m L -> sized C m s -> run nlp C stop L s = (s', L', r) ->
  exists tr, simulation nlp C m 0 L s tr L' /\ length tr <= Nsim /\ (r = Ok true -> length tr = Nsim) /\
  first_is (lp_X_sim L') x0 /\ last_is (lp_X_sim L') (lp_xcurrent L') /\ length (lp_X_sim L') = length (lp_time_steps L') + 1 /\
  looper_t_grid L' = map (partial_sum (lp_time_steps L')) (seq 0 (length (lp_X_sim L'))) /\
  length (lp_status L') = length tr /\ length (lp_cost_vals L') = length tr /\ length (lp_w_sim L') = length tr.
Proof.
  intros RT X EL Lx T Z E. destruct (init_start _ _ _ _ _ _ _ EL) as [E0 Lc].
  assert (NS : lp_Nsim L = Nsim) by (rewrite E0; reflexivity). assert (XC : lp_xcurrent L = x0) by (rewrite E0; reflexivity).
  unfold run in E. rewrite NS in E.
  destruct (simulation_run _ _ _ _ _ _ _ H nlp RT X stop Nsim 0 L s s' L' r E Z) as (tr & SM & Lt & Rt & _); [congruence|exact T|].
  exists tr. split; [exact SM|]. split; [exact Lt|]. split; [intros Q; apply (Rt Q)|].
  pose proof (sm_X _ _ _ _ _ _ _ _ SM) as MX. pose proof (sm_steps _ _ _ _ _ _ _ _ SM) as MS.
  replace (lp_X_sim L) with [x0] in MX by (rewrite E0; reflexivity). replace (lp_time_steps L) with (@nil R) in MS by (rewrite E0; reflexivity). cbn [app] in MX, MS.
  assert (LX : length (lp_X_sim L') = length (lp_time_steps L') + 1).
  { rewrite MX, MS. cbn [length]. rewrite (steps_length _ (sm_lengths _ _ _ _ _ _ _ _ SM)). lia. }
  split; [rewrite MX; reflexivity|]. split; [apply (run_last _ _ _ _ _ _ _ _ _ _ E); rewrite E0; split; [cbn; lia|reflexivity]|].
  split; [exact LX|]. split; [unfold looper_t_grid; rewrite grid_map, LX; reflexivity|].
  rewrite (sm_status _ _ _ _ _ _ _ _ SM), (sm_cost _ _ _ _ _ _ _ _ SM), (sm_w_sim _ _ _ _ _ _ _ _ SM).
  rewrite !app_length, !map_length. rewrite E0. auto.
Qed.

Lemma looper_runs nlp x0 Nsim pv pc wi L stop s : o_init O <> Rk4Smoothened -> well_sized m -> (o_pss O = Step -> gS_given m = false) -> extractable O m ->
  (0 < Q2R (o_sigma_0 O))%R -> (0 < Q2R (o_slope O))%R -> (o_do_polishing O = true -> o_sot O = SotNone /\ o_mpcc O <> MBoolean) -> answers C nlp ->
  looper_init (cn_prob C) x0 Nsim pv pc wi = Ok L -> length x0 = m_nx m -> tables C m L -> sized C m s ->
  (forall M, wi = Some M -> Nsim <= length M /\ o_init O = External) ->
  exists s' L', run nlp C stop L s = (s', L', Ok true).
Proof.
  intros I WS GS X S0 Sl MP A EL Lx T Z BW. destruct (init_start _ _ _ _ _ _ _ EL) as [E0 Lc].
  assert (RT : returns C nlp). { intros n c r E. destruct (A n c) as (r' & E' & L'). congruence. }
  unfold run. replace (lp_Nsim L) with Nsim by (rewrite E0; reflexivity).
  apply (run_total _ _ _ _ _ _ _ H nlp RT X).
  - intros s0 Z0. destruct (solve_total _ _ _ _ _ _ _ H nlp s0 I WS GS X S0 Sl MP Z0 A) as (s' & out & E & _). eauto.
  - exact Z.
  - rewrite E0. exact Lx.
  - exact T.
  - rewrite Lc. cbn. lia.
  - intros M EM. replace (lp_p_values L) with pv in EM by (rewrite E0; reflexivity). subst pv.
    destruct (proj1 (init_ok _ _ _ _ _ _ _ H x0 Nsim (Some M) pc wi) (ex_intro _ L EL)) as [_ [B _]]. rewrite B. cbn. lia.
  - intros M EM. replace (lp_w_init L) with wi in EM by (rewrite E0; reflexivity). cbn. apply BW, EM.
Qed.

(* w_init needs InitializationStrategy.EXTERNAL *)
Lemma w_init_raises nlp x0 Nsim pv pc M L stop s : looper_init (cn_prob C) x0 Nsim pv pc (Some M) = Ok L -> 0 < Nsim -> 0 < length M -> o_init O <> External ->
  exists s', run nlp C stop L s = (s', L, Err EWarning) /\ ss_calls s' = ss_calls s.
Proof.
  intros EL N LM I. destruct (init_start _ _ _ _ _ _ _ EL) as [E0 Lc]. unfold run. replace (lp_Nsim L) with Nsim by (rewrite E0; reflexivity).
  destruct Nsim as [|n]; [lia|]. cbn [run_from]. destruct (nth_error_lt M 0 LM) as [row Hr].
  assert (E : step_inputs nlp C L 0 s = (mkState x0 (ss_pval s) row (ss_calls s), Err EWarning)).
  { unfold step_inputs. unfold sbind at 1. change (set C (SetX0 (lp_xcurrent L)) s) with (mkState (lp_xcurrent L) (ss_pval s) (ss_w0 s) (ss_calls s), Ok tt). cbv beta iota.
    replace (lp_w_init L) with (Some M) by (rewrite E0; reflexivity). unfold sbind, lift. rewrite (proj2 (nthE_ok _ _ _ _) Hr). rewrite set_w_all. unfold warn, not_external.
    destruct (o_init O); try contradiction; cbn; rewrite E0; reflexivity. }
  rewrite E. eexists. split; reflexivity.
Qed.
Lemma global_steps nlp L s tr L' k si out h M : simulation nlp C m 0 L s tr L' -> nth_error tr k = Some (si, out) -> In h (so_steps out) -> lp_p_values L = Some M ->
  exists row rest, nth_error M k = Some row /\ nc_p (hs_call h) = concat (with_p_global m row (ss_pval s)) ++ rest.
Proof.
  intros SM Hk Hh EM. destruct (sm_solve _ _ _ _ _ _ _ _ SM _ _ _ Hk) as (_ & t & Es). pose proof (sm_p _ _ _ _ _ _ _ _ SM _ _ _ Hk) as Q. rewrite EM in Q.
  destruct Q as (row & A & B). destruct (next_parameters _ _ _ _ _ _ _ H nlp si t out Es h Hh) as [rest R]. exists row, rest. split; [exact A|]. rewrite R, B. reflexivity.
Qed.
Lemma no_table nlp L s tr L' k si out h : simulation nlp C m 0 L s tr L' -> nth_error tr k = Some (si, out) -> In h (so_steps out) -> lp_p_values L = None ->
  exists rest, nc_p (hs_call h) = concat (ss_pval s) ++ rest.
Proof.
  intros SM Hk Hh EM. destruct (sm_solve _ _ _ _ _ _ _ _ SM _ _ _ Hk) as (_ & t & Es). pose proof (sm_p _ _ _ _ _ _ _ _ SM _ _ _ Hk) as Q. rewrite EM in Q.
  destruct (next_parameters _ _ _ _ _ _ _ H nlp si t out Es h Hh) as [rest R]. exists rest. rewrite R, Q. reflexivity.
Qed.
Lemma never_stops nlp stop n : forall i L s, snd (run_from nlp C stop n i L s) <> Ok false.
Proof.
  induction n as [|n IH]; intros i L s; cbn [run_from]; [discriminate|].
  destruct (step_inputs nlp C L i s) as [s1 [out|e]]; [|discriminate]. destruct (collect L (pr_o (cn_prob C)) i out) as [L1|e]; [|discriminate].
  unfold status_eq_str. rewrite Bool.andb_false_r. apply IH.
Qed.

(* an NLP solver that always reports infeasibility *)
Lemma failing_status v s s' out : solve (constant_nlp v RSInfeasibleProblemDetected) C s = (s', Ok out) -> so_status out = INFEASIBLE.
Proof.
  intros E. destruct (solve_last _ _ _ _ _ _ _ H _ _ _ _ E) as (_ & _ & _ & c & r & Er & _ & ST & _). unfold constant_nlp in Er. injection Er as <-. cbn in ST.
  destruct (so_status out); [|reflexivity]. exfalso.
  pose proof (proj1 ST eq_refl) as A. unfold accepted in A. repeat (destruct A as [A|A]; [discriminate A|]). exact A.
Qed.
End Run.
