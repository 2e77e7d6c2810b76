(* Sim3_proofs.v -- a simulation whose steps are solved exactly follows the switched system *)
From Coq Require Import Reals Qreals Lra.
From Verif Require Import Base Lib Sx Sx_proofs Utils Tableau Opts Model Ocp Problem Numeric Rk4 Results Solver Looper Spec Fesd Spec2 Spec3 Spec4 Spec5 Spec6
  Model_proofs Con_proofs Index_proofs Dcs_proofs Feas_proofs Results_proofs Results4_proofs Solve_proofs Solve2_proofs Looper_proofs
  Spec9 Filippov_proofs Filippov3_proofs Spec10 Exact_proofs Exact2_proofs Spec19 Sim_proofs Sim2_proofs Sem_proofs Elem_proofs.
Local Open Scope R_scope.

Lemma one_stage_elements o : o_N_stages o = 1%nat -> elements o = map (pair 0%nat) (seq 0 (nfe_of o 0)).
Proof. intros N. unfold elements. rewrite N. cbn [seq map concat]. apply app_nil_r. Qed.
Lemma firstn_seq' : forall j n a, (j <= n)%nat -> firstn j (seq a n) = seq a j.
Proof. induction j as [|j IH]; intros [|n] a Hj; try reflexivity; [lia|]. cbn [seq firstn]. rewrite IH by lia. reflexivity. Qed.
Lemma psum_rupto (f : nat -> R) n j : (j <= n)%nat -> partial_sum (map f (seq 0 n)) j = rupto j f.
Proof. intros Hj. unfold partial_sum. rewrite firstn_map, firstn_seq' by lia. apply rsum_seq. Qed.

Definition the_piece (q : sstate * solve_out) : piece := (rs_time_steps (so_results (snd q)), rs_x_list (so_results (snd q))).
Definition moves (o : opts) (m : model) (act : env -> nat -> nat -> Prop) (rho : env) (x v : nat -> R) : Prop :=
  exists th kappa, active_weights m act (plain_point m rho 0 x) th /\ Rabs (kappa - 1) <= weight_error o /\
  forall i, (i < m_nx m)%nat -> v i = kappa * velocity o m rho 0 x th i.

Section Step.
Variables (lr : Q -> Q -> Q -> nat) (cp : nat -> scheme -> list Q) (d : ipopt_dict) (o : opts) (m : model) (oc : option ocp) (C : constructed).
Hypothesis FP : fesd_problem lr cp d o m oc C.
Hypothesis N1 : o_N_stages (the_opts C) = 1%nat.
Hypothesis EX : extractable (the_opts C) m.
Notation O := (the_opts C).
Notation t := (cn_tab C).
Let H : construct_problem lr cp d o m oc = Ok C := proj1 FP.
Variables (nlp : nat -> nlp_call -> res nlp_ret) (s s' : sstate) (out : solve_out) (rho : env).
Hypothesis E : solve nlp C s = (s', Ok out).
Hypothesis SE : solved_exactly C out rho.

Notation ne := (nfe_of O 0).
Lemma step_results : rs_time_steps (so_results out) = map (step_len O rho 0) (seq 0 ne) /\
  rs_x_list (so_results out) = map (fun e => map (end_state O t rho 0 e) (seq 0 (m_nx m))) (seq 0 ne).
Proof.
  destruct (sv_ex _ _ _ _ _ (solve_inv _ _ _ _ _ E)) as (s1 & s2 & s3 & lam & w1 & lb & ub & h & _ & _ & _ & _ & _ & _ & _ & _ & _ & G & _).
  rewrite <- (se_x _ _ _ SE) in G. destruct (results_read _ _ _ _ _ _ _ rho (ss_x0 s3) H EX) as (r & sw & G' & R). rewrite G in G'. injection G' as <-.
  cbv zeta in R. destruct R as (R1 & _ & _ & _ & _ & _ & _ & _ & _ & _ & _ & _ & _ & R2 & _).
  split.
  - rewrite R2. unfold step_lengths. rewrite one_stage_elements, map_map by exact N1. reflexivity.
  - rewrite R1. rewrite one_stage_elements, map_map by exact N1. reflexivity.
Qed.
Lemma ne_pos : (0 < ne)%nat.
Proof. apply (nfe_pos_con _ _ _ _ _ _ _ FP). rewrite N1. lia. Qed.
Lemma first_elem e : (e < ne)%nat -> is_element O 0 e.
Proof. intros He. split; [rewrite N1; lia|exact He]. Qed.
Lemma only_first c e : is_element O c e -> c = 0%nat /\ (e < ne)%nat.
Proof. intros [A B]. rewrite N1 in A. assert (c = 0%nat) by lia. subst c. auto. Qed.
Lemma first_time e : grid_time O (spread rho) 0 e = rupto e (step_len O rho 0).
Proof. unfold grid_time. rewrite rupto_0. rewrite Rplus_0_l. reflexivity. Qed.
Lemma first_end : end_time O (spread rho) = rupto ne (step_len O rho 0).
Proof. unfold end_time. rewrite N1, rupto_succ, rupto_0, Rplus_0_l. reflexivity. Qed.
Lemma total_time : rsum (rs_time_steps (so_results out)) = rupto ne (step_len O rho 0).
Proof. rewrite (proj1 step_results). apply rsum_seq. Qed.
Lemma step_psum j : (j <= ne)%nat -> partial_sum (rs_time_steps (so_results out)) j = rupto j (step_len O rho 0).
Proof. intros Hj. rewrite (proj1 step_results). apply psum_rupto, Hj. Qed.
Lemma step_state j x i : nth_error (rs_x_list (so_results out)) j = Some x -> (i < m_nx m)%nat ->
  (j < ne)%nat /\ nth i x 0 = end_state O t (spread rho) 0 j i.
Proof.
  intros Hj Hi. rewrite (proj2 step_results) in Hj. rewrite nth_error_map in Hj. destruct (nth_error (seq 0 ne) j) as [e|] eqn:Ee; [|discriminate].
  assert (Hl : (j < ne)%nat) by (rewrite <- (seq_length ne 0); apply nth_error_Some; congruence). split; [exact Hl|].
  rewrite nth_error_seq in Ee by exact Hl. injection Ee as <-. cbn [option_map] in Hj. injection Hj as <-.
  erewrite nth_error_nth; [reflexivity|]. rewrite nth_error_map, nth_error_seq by exact Hi. reflexivity.
Qed.

Hypothesis HS : o_pss (the_opts C) = Stewart \/ (gS_given m = false /\ n_subsystems m = 1%nat).
Hypothesis Z : sized C m s.
Hypothesis SS : simple_switching cp O m.
Hypothesis GH : ext_upto (o_gamma_h O) 1.
Hypothesis TT : (0 <= o_terminal_time O)%Q.
Lemma step_steps : steps_nonneg O (spread rho).
Proof. exact (bounds_steps _ _ _ _ _ _ _ (spread rho) H (proj1 (step_feasible _ _ _ _ _ _ _ FP N1 out rho SE)) GH TT). Qed.

Variable act : env -> nat -> nat -> Prop.
Hypothesis TR : exists X, filippov_trajectory O t m (spread rho) act X.
Hypothesis SP : forall x q k, act (plain_point m (spread rho) 0 x) q k <-> act (plain_point m rho 0 x) q k.
Let PC : piecewise_constant m := proj1 (proj2 (proj2 (proj2 SS))).

Lemma step_piece : piece_ok (m_nx m) (moves O m act rho) (fun i => nth i (ss_x0 s) 0) (the_piece (s, out)).
Proof.
  unfold piece_ok, the_piece. cbn [fst snd]. pose proof step_results as [R1 R2].
  split; [rewrite R1, R2, !map_length; reflexivity|]. split; [rewrite R1, map_length, seq_length; exact ne_pos|].
  split; [intros h Hh; rewrite R1 in Hh; apply in_map_iff in Hh; destruct Hh as (e & <- & He); apply in_seq in He; apply (step_steps 0%nat e), first_elem; lia|].
  destruct TR as (X & LX & X0 & XE & XD). exists X. unfold piece_curve. cbn [fst snd]. rewrite total_time, <- first_end.
  split; [exact LX|]. split; [|split].
  - intros i Hi. rewrite (X0 i Hi). exact (step_x0 _ _ _ _ _ _ _ FP N1 HS _ _ _ _ rho Z E SE i Hi).
  - intros j x i Hj Hi. destruct (step_state j x i Hj Hi) as [Lj ->]. rewrite step_psum by lia.
    rewrite <- (XE 0%nat j i (first_elem j Lj) Hi). f_equal. rewrite first_time, rupto_succ. reflexivity.
  - intros tm Ht N. destruct (XD tm Ht) as (c & e & th & kappa & He & _ & CW & Kp & Dv & Av).
    { intros c e He. destruct (only_first c e He) as [-> Le]. rewrite first_time.
      assert (Q : forall j, (j <= ne)%nat -> tm <> rupto j (step_len O rho 0)).
      { intros j Hj Ej. apply N. rewrite Ej, <- step_psum by exact Hj. apply grid_of_in. rewrite R1, map_length, seq_length. exact Hj. }
      split; [apply Q; lia|]. pose proof (Q (S e) ltac:(lia)) as Q'. rewrite rupto_succ in Q'. exact Q'. }
    destruct (only_first c e He) as [-> Le].
    exists (fun i => kappa * velocity O m rho 0 (X tm) th i). split.
    + exists th, kappa. split; [|split; [exact Kp|reflexivity]]. split; [exact CW|]. intros q k Hq Hk Pt. apply SP. apply Av; assumption.
    + intros i Hi. rewrite <- (spread_velocity O m rho PC). apply Dv, Hi.
Qed.

Lemma step_through Y L : o_repr O = Integral -> 0 <= L -> one_sided O m rho act L -> exact_solution O m (spread rho) act Y ->
  forall j x i, nth_error (rs_x_list (so_results out)) j = Some x -> (i < m_nx m)%nat ->
  nth i x 0 = Y (partial_sum (rs_time_steps (so_results out)) (S j)) i.
Proof.
  intros Er L0 OS EY j x i Hj Hi. destruct (step_state j x i Hj Hi) as [Lj ->]. rewrite step_psum by lia.
  assert (OS' : one_sided O m (spread rho) act L).
  { intros c x1 y1 th th' Hc A1 A2. rewrite N1 in Hc. assert (c = 0%nat) by lia. subst c.
    rewrite (rupto_ext _ _ (fun i => (x1 i - y1 i) * (velocity O m rho 0 x1 th i - velocity O m rho 0 y1 th' i)))
      by (intros k _; rewrite !(spread_velocity O m rho PC); reflexivity).
    apply OS; [rewrite N1; lia| |].
    - destruct A1 as [A B]. split; [exact A|]. intros; apply SP; auto.
    - destruct A2 as [A B]. split; [exact A|]. intros; apply SP; auto. }
  rewrite (exact_at m C (spread rho) step_steps act TR Y L Er EY L0 OS' 0%nat j i (first_elem j Lj) Hi).
  f_equal. rewrite first_time, rupto_succ. reflexivity.
Qed.
End Step.

Lemma last_snoc {A} (l : list A) a : last_is l a -> exists pre, l = pre ++ [a].
Proof.
  intros [Hl Hn]. destruct (exists_last (l := l)) as (pre & b & ->); [intros ->; cbn in Hl; lia|]. exists pre.
  rewrite app_length, Nat.add_sub, nth_error_app2, Nat.sub_diag in Hn by (cbn; lia). injection Hn as ->. reflexivity.
Qed.
Lemma mapi_lengths (tr : list (sstate * solve_out)) : lengths (map the_piece tr) = concat (map (fun q => rs_time_steps (so_results (snd q))) tr).
Proof. unfold lengths. rewrite map_map. reflexivity. Qed.
Lemma mapi_stops (tr : list (sstate * solve_out)) : stops (map the_piece tr) = concat (map (fun q => rs_x_list (so_results (snd q))) tr).
Proof. unfold stops. rewrite map_map. reflexivity. Qed.
Lemma elapsed_lengths tr k : elapsed tr k = rsum (lengths (firstn k (map the_piece tr))).
Proof. rewrite firstn_map, mapi_lengths. reflexivity. Qed.
Lemma elapsed_all tr : elapsed tr (length tr) = rsum (lengths (map the_piece tr)).
Proof. rewrite elapsed_lengths, <- (map_length the_piece tr), firstn_all. reflexivity. Qed.
Lemma elapsed_0 tr : elapsed tr 0 = 0.
Proof. reflexivity. Qed.
Lemma elapsed_succ tr k q : nth_error tr k = Some q -> elapsed tr (S k) = elapsed tr k + rsum (rs_time_steps (so_results (snd q))).
Proof.
  intros Hk. unfold elapsed. rewrite (firstn_S_snoc tr k q Hk), map_app, concat_app, rsum_app. cbn [map concat]. rewrite app_nil_r. reflexivity.
Qed.
Lemma elapsed_mono tr : (forall q h, In q tr -> In h (rs_time_steps (so_results (snd q))) -> 0 <= h) ->
  forall j k, (j <= k)%nat -> elapsed tr j <= elapsed tr k.
Proof.
  intros NN j k Hjk. induction Hjk as [|k Hjk IH]; [lra|]. eapply Rle_trans; [exact IH|].
  destruct (nth_error tr k) as [q|] eqn:Ek.
  - rewrite (elapsed_succ tr k q Ek). assert (0 <= rsum (rs_time_steps (so_results (snd q)))); [|lra].
    apply rsum_nonneg. intros h Hh. exact (NN q h (nth_error_In _ _ Ek) Hh).
  - apply nth_error_None in Ek. unfold elapsed. rewrite !firstn_all2 by lia. lra.
Qed.

Section Run.
Variables (lr : Q -> Q -> Q -> nat) (cp : nat -> scheme -> list Q) (d : ipopt_dict) (o : opts) (m : model) (oc : option ocp) (C : constructed).
Hypothesis FP : fesd_problem lr cp d o m oc C.
Hypothesis EX : extractable (the_opts C) m.
Hypothesis HS : o_pss (the_opts C) = Stewart \/ (gS_given m = false /\ n_subsystems m = 1%nat).
Notation O := (the_opts C).
Hypothesis SS : simple_switching cp O m.
Hypothesis GH : ext_upto (o_gamma_h O) 1.
Hypothesis TT : (0 <= o_terminal_time O)%Q.
Let H : construct_problem lr cp d o m oc = Ok C := proj1 FP.
Variables (nlp : nat -> nlp_call -> res nlp_ret) (x0 : list R) (Nsim : nat) (pv : option (list (list R))) (pc : nat) (wi : option (list (list R)))
  (L : looper) (s : sstate) (tr : list (sstate * solve_out)) (L' : looper) (rho : nat -> env).
Hypothesis LI : looper_init (cn_prob C) x0 Nsim pv pc wi = Ok L.
Hypothesis SI : simulation nlp C m 0 L s tr L'.
Hypothesis SE : forall k q, nth_error tr k = Some q -> solved_exactly C (snd q) (rho k).
Variable act : env -> nat -> nat -> Prop.
Hypothesis TR : forall k q, nth_error tr k = Some q -> exists X, filippov_trajectory O (cn_tab C) m (spread (rho k)) act X.
Hypothesis SP : forall k x q j, act (plain_point m (spread (rho k)) 0 x) q j <-> act (plain_point m (rho k) 0 x) q j.
Notation l := (map the_piece tr).
Notation nx := (m_nx m).

Lemma run_N1 : o_N_stages O = 1%nat.
Proof. assert (G : exists L, looper_init (cn_prob C) x0 Nsim pv pc wi = Ok L) by (exists L; exact LI). apply (init_ok _ _ _ _ _ _ _ H) in G. apply G. Qed.
Lemma run_pieces k p : nth_error l k = Some p -> piece_ok nx (moves O m act (rho k)) (start_of l (fun i => nth i x0 0) k) p.
Proof.
  intros Hp. rewrite nth_error_map in Hp. destruct (nth_error tr k) as [[si out]|] eqn:Ek; [|discriminate]. injection Hp as <-.
  destruct (sm_solve _ _ _ _ _ _ _ _ SI k si out Ek) as (Z & t & Es).
  pose proof (step_piece _ _ _ _ _ _ _ FP run_N1 EX nlp si t out (rho k) Es (SE k _ Ek) HS Z SS GH TT act (TR k _ Ek) (SP k)) as G.
  assert (ST : start_of l (fun i => nth i x0 0) k = fun i => nth i (ss_x0 si) 0); [|rewrite ST; exact G].
  destruct k as [|k]; cbn [start_of].
  - destruct (sm_first _ _ _ _ _ _ _ _ SI si out Ek) as [-> _]. destruct (init_start C x0 Nsim pv pc wi L LI) as [-> _]. reflexivity.
  - rewrite nth_error_map. destruct (nth_error tr k) as [[sj out']|] eqn:Ej.
    + cbn [option_map the_piece fst snd]. destruct (sm_solve _ _ _ _ _ _ _ _ SI k sj out' Ej) as (_ & t' & Es').
      destruct (sm_next _ _ _ _ _ _ _ _ SI k sj out' si out t' Ej Ek Es') as [LA _]. destruct (last_snoc _ _ LA) as [pre LA']. rewrite LA', last_last. reflexivity.
    + exfalso. apply nth_error_None in Ej. assert (S k < length tr)%nat by (apply nth_error_Some; congruence). lia.
Qed.
Lemma run_steps_nonneg q h : In q tr -> In h (rs_time_steps (so_results (snd q))) -> 0 <= h.
Proof.
  intros Hq Hh. apply In_nth_error in Hq. destruct Hq as [k Hk]. assert (Hp : nth_error l k = Some (the_piece q)) by (rewrite nth_error_map, Hk; reflexivity).
  destruct (run_pieces k _ Hp) as (_ & _ & NN & _). exact (NN h Hh).
Qed.
Lemma run_fields : lp_X_sim L' = x0 :: stops l /\ lp_time_steps L' = lengths l /\ looper_t_grid L' = grid_of (lengths l).
Proof.
  destruct (init_start C x0 Nsim pv pc wi L LI) as [EL _].
  assert (A : lp_X_sim L' = x0 :: stops l) by (rewrite (sm_X _ _ _ _ _ _ _ _ SI), EL, mapi_stops; reflexivity).
  assert (B : lp_time_steps L' = lengths l) by (rewrite (sm_steps _ _ _ _ _ _ _ _ SI), EL, mapi_lengths; reflexivity).
  split; [exact A|]. split; [exact B|]. unfold looper_t_grid. rewrite B, grid_map. unfold grid_of. rewrite Nat.add_1_r. reflexivity.
Qed.
Lemma run_grid j tm : nth_error (looper_t_grid L') j = Some tm -> tm = partial_sum (lengths l) j.
Proof.
  destruct run_fields as (_ & _ & ->). unfold grid_of. rewrite nth_error_map. destruct (nth_error (seq 0 (S (length (lengths l)))) j) as [a|] eqn:Ea; [|discriminate].
  assert (Hl : (j < S (length (lengths l)))%nat) by (rewrite <- (seq_length (S (length (lengths l))) 0); apply nth_error_Some; congruence).
  rewrite nth_error_seq in Ea by exact Hl. injection Ea as <-. cbn [option_map]. intros G. injection G as <-. reflexivity.
Qed.

Lemma run_filippov : exists X, simulated O m act rho tr (looper_t_grid L') (lp_X_sim L') X.
Proof.
  destruct (glue_pieces nx l (fun k => moves O m act (rho k)) (fun i => nth i x0 0) run_pieces) as (X & LX & X0 & XP & XD).
  destruct run_fields as (F1 & F2 & F3). exists X. unfold simulated. rewrite elapsed_all. split; [exact LX|]. split.
  - intros j tm x i Hj Hx Hi. rewrite (run_grid j tm Hj). rewrite F1 in Hx. destruct j as [|j].
    + cbn in Hx. injection Hx as <-. exact (X0 i Hi).
    + exact (XP j x i Hx Hi).
  - intros tm Ht N. rewrite F3 in N. destruct (XD tm Ht N) as (k & v & Hk & Hb & (th & kappa & AW & Kp & Ev) & Dv).
    exists k, th, kappa. rewrite !elapsed_lengths. rewrite map_length in Hk. split; [exact Hk|]. split; [exact Hb|]. split; [exact AW|]. split; [exact Kp|].
    intros i Hi. rewrite <- (Ev i Hi). exact (Dv i Hi).
Qed.

Lemma run_exact Y Lc : o_repr O = Integral -> 0 <= Lc -> (forall k, (k < length tr)%nat -> one_sided O m (rho k) act Lc) ->
  run_solution O m act rho tr x0 Y ->
  forall j tm x i, nth_error (looper_t_grid L') j = Some tm -> nth_error (lp_X_sim L') j = Some x -> (i < nx)%nat -> nth i x 0 = Y tm i.
Proof.
  intros Er L0 OS (CY & Y0 & pts & DY).
  assert (MO := elapsed_mono tr run_steps_nonneg).
  assert (ST : forall k q, nth_error tr k = Some q -> (forall i, (i < nx)%nat -> nth i (ss_x0 (fst q)) 0 = Y (elapsed tr k) i) ->
    forall j x i, nth_error (rs_x_list (so_results (snd q))) j = Some x -> (i < nx)%nat -> nth i x 0 = Y (elapsed tr k + partial_sum (rs_time_steps (so_results (snd q))) (S j)) i).
  { intros k [si out] Ek IH j x i Hj Hi. cbn [fst snd] in *. assert (Lk : (k < length tr)%nat) by (apply nth_error_Some; congruence).
    destruct (sm_solve _ _ _ _ _ _ _ _ SI k si out Ek) as (Z & t & Es).
    pose proof (elapsed_succ tr k _ Ek) as ES. cbn [snd] in ES.
    pose proof (total_time _ _ _ _ _ _ _ FP run_N1 EX nlp si t out (rho k) Es (SE k _ Ek)) as TT'.
    pose proof (first_end C run_N1 (rho k)) as FE.
    assert (E0 : elapsed tr 0 <= elapsed tr k) by (apply MO; lia). rewrite elapsed_0 in E0.
    assert (E1 : elapsed tr (S k) <= elapsed tr (length tr)) by (apply MO; lia).
    apply (step_through _ _ _ _ _ _ _ FP run_N1 EX nlp si t out (rho k) Es (SE k _ Ek) HS SS GH TT act (TR k _ Ek) (SP k) (fun z => Y (elapsed tr k + z)) Lc Er L0 (OS k Lk)); [|exact Hj|exact Hi].
    split; [|split].
    - intros i' Hi' u Hu eps He. rewrite FE, <- TT' in Hu. destruct (CY i' Hi' (elapsed tr k + u) ltac:(lra) eps He) as (dl & Hd & B). exists dl. split; [exact Hd|].
      intros v Hv Hvu. rewrite FE, <- TT' in Hv. apply B; [lra|]. replace (elapsed tr k + v - (elapsed tr k + u)) with (v - u) by lra. exact Hvu.
    - intros i' Hi'. rewrite Rplus_0_r. rewrite <- (IH i' Hi'). symmetry. exact (step_x0 _ _ _ _ _ _ _ FP run_N1 HS _ _ _ _ (rho k) Z Es (SE k _ Ek) i' Hi').
    - exists (map (fun p => p - elapsed tr k) pts). intros c tm Hc Ht Np. rewrite run_N1 in Hc. assert (c = 0%nat) by lia. subst c.
      rewrite (first_time C (rho k)), rupto_0 in Ht. change (stage_length O (spread (rho k)) 0) with (rupto (nfe_of O 0) (step_len O (rho k) 0)) in Ht. rewrite <- TT' in Ht.
      destruct (DY k (elapsed tr k + tm) Lk ltac:(lra)) as (th & AW & Dv).
      { intros G. apply Np. apply in_map_iff. exists (elapsed tr k + tm). split; [lra|exact G]. }
      exists th. split.
      + destruct AW as [A B]. split; [exact A|]. intros q' j' H1 H2 H3. apply SP. exact (B q' j' H1 H2 H3).
      + intros i' Hi'. rewrite (spread_velocity O m (rho k) (proj1 (proj2 (proj2 (proj2 SS))))).
        apply (derivable_pt_lim_locally_ext (fun y => Y (y - - elapsed tr k) i') _ tm (tm - 1) (tm + 1)); [lra|intros y _; f_equal; lra|].
        apply (shift_deriv (fun z => Y z i')). replace (tm - - elapsed tr k) with (elapsed tr k + tm) by lra. exact (Dv i' Hi'). }
  assert (IV : forall k q, nth_error tr k = Some q -> forall i, (i < nx)%nat -> nth i (ss_x0 (fst q)) 0 = Y (elapsed tr k) i).
  { induction k as [|k IH]; intros q Ek i Hi.
    - destruct q as [si out]. cbn [fst]. destruct (sm_first _ _ _ _ _ _ _ _ SI si out Ek) as [-> _]. destruct (init_start C x0 Nsim pv pc wi L LI) as [-> _].
      rewrite elapsed_0. symmetry. exact (Y0 i Hi).
    - destruct (nth_error tr k) as [q'|] eqn:Ej; [|exfalso; apply nth_error_None in Ej; assert (S k < length tr)%nat by (apply nth_error_Some; congruence); lia].
      pose proof (ST k q' Ej (IH q' eq_refl)) as G. destruct q as [si out], q' as [sj out']. cbn [fst snd] in *.
      destruct (sm_solve _ _ _ _ _ _ _ _ SI k sj out' Ej) as (_ & t' & Es').
      destruct (sm_next _ _ _ _ _ _ _ _ SI k sj out' si out t' Ej Ek Es') as [LA _]. destruct (last_snoc _ _ LA) as [pre LA'].
      pose proof (sm_lengths _ _ _ _ _ _ _ _ SI k sj out' Ej) as LL. rewrite LA', app_length in LL. cbn [length] in LL.
      rewrite (G (length pre) (ss_x0 si) i); [|rewrite LA', nth_error_app2, Nat.sub_diag by lia; reflexivity|exact Hi].
      rewrite (elapsed_succ tr k _ Ej). cbn [snd]. do 2 f_equal. rewrite <- psum_all. f_equal. lia. }
  intros j tm x i Hj Hx Hi. destruct run_fields as (F1 & F2 & F3). rewrite (run_grid j tm Hj). rewrite F1 in Hx. destruct j as [|j].
  - cbn in Hx. injection Hx as <-. symmetry. exact (Y0 i Hi).
  - cbn [nth_error] in Hx. apply (pass_pieces nx l Y); [| |exact Hx|exact Hi].
    + intros p Hp. apply in_map_iff in Hp. destruct Hp as ([si out] & <- & Hq). apply In_nth_error in Hq. destruct Hq as [k Hk].
      exact (sm_lengths _ _ _ _ _ _ _ _ SI k si out Hk).
    + intros k p j' x' i' Hp Hj' Hi'. rewrite nth_error_map in Hp. destruct (nth_error tr k) as [q|] eqn:Ek; [|discriminate]. injection Hp as <-.
      rewrite <- elapsed_lengths. exact (ST k q Ek (IV k q Ek) j' x' i' Hj' Hi').
Qed.
End Run.
