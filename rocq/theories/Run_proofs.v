(* Run_proofs.v -- a simulation with relaxed steps and fields that vary with the state follows the switched system *)
From Coq Require Import Reals Qreals Lra.
From Verif Require Import Base Lib Sx Sx_proofs Utils Tableau Opts Model Ocp Problem Numeric Rk4 Results Solver Looper Spec Fesd Spec2 Spec3 Spec4 Spec5 Spec6
  Model_proofs Con_proofs Index_proofs Dcs_proofs Feas_proofs Results_proofs Results4_proofs Solve_proofs Solve2_proofs Solve4_proofs Looper_proofs Init_proofs Init2_proofs Param_proofs
  Spec9 Filippov_proofs Filippov3_proofs Spec10 Exact_proofs Exact2_proofs Spec11 Spec19 Sim_proofs Sim2_proofs Sim3_proofs Sem_proofs Elem_proofs Spec21 Conv3_proofs Spec24 Relax_proofs Relax2_proofs Relax3_proofs Spec27.
Local Open Scope R_scope.

Section Step.
Variables (lr : Q -> Q -> Q -> nat) (cp : nat -> scheme -> list Q) (d : ipopt_dict) (o : opts) (m : model) (oc : option ocp) (C : constructed).
Hypothesis FP : fesd_problem lr cp d o m oc C.
Hypothesis N1 : o_N_stages (the_opts C) = 1%nat.
Hypothesis EX : extractable (the_opts C) m.
Notation O := (the_opts C).
Notation P := (the_problem C).
Notation t := (cn_tab C).
Let H : construct_problem lr cp d o m oc = Ok C := proj1 FP.
Let WS : well_sized m := proj2 (proj2 FP).
Variables (nlp : nat -> nlp_call -> res nlp_ret) (s s' : sstate) (out : solve_out) (rho : env).
Hypothesis E : solve nlp C s = (s', Ok out).
Hypothesis SE : solved_relaxed C out rho.
Notation ne := (nfe_of O 0).

Lemma r_results : rs_time_steps (so_results out) = map (step_len O rho 0) (seq 0 ne) /\
  rs_x_list (so_results out) = map (fun e => map (end_state O t rho 0 e) (seq 0 (m_nx m))) (seq 0 ne).
Proof.
  destruct (sv_ex _ _ _ _ _ (solve_inv _ _ _ _ _ E)) as (s1 & s2 & s3 & lam & w1 & lb & ub & h & _ & _ & _ & _ & _ & _ & _ & _ & _ & G & _).
  rewrite <- (sr_x _ _ _ SE) in G. destruct (results_read _ _ _ _ _ _ _ rho (ss_x0 s3) H EX) as (r & sw & G' & R). rewrite G in G'. injection G' as <-.
  cbv zeta in R. destruct R as (R1 & _ & _ & _ & _ & _ & _ & _ & _ & _ & _ & _ & _ & R2 & _).
  split.
  - rewrite R2. unfold step_lengths. rewrite one_stage_elements, map_map by exact N1. reflexivity.
  - rewrite R1. rewrite one_stage_elements, map_map by exact N1. reflexivity.
Qed.
Lemma r_elem e : (e < ne)%nat -> is_element O 0 e.
Proof. intros He. split; [rewrite N1; lia|exact He]. Qed.
Lemma r_time e : grid_time O rho 0 e = rupto e (step_len O rho 0).
Proof. unfold grid_time. rewrite rupto_0. rewrite Rplus_0_l. reflexivity. Qed.
Lemma r_end : end_time O rho = rupto ne (step_len O rho 0).
Proof. unfold end_time. rewrite N1, rupto_succ, rupto_0, Rplus_0_l. reflexivity. Qed.
Lemma r_total : rsum (rs_time_steps (so_results out)) = end_time O rho.
Proof. rewrite r_end, (proj1 r_results). apply rsum_seq. Qed.
Lemma r_psum j : (j <= ne)%nat -> partial_sum (rs_time_steps (so_results out)) j = rupto j (step_len O rho 0).
Proof. intros Hj. rewrite (proj1 r_results). apply psum_rupto, Hj. Qed.
Lemma r_state j x i : nth_error (rs_x_list (so_results out)) j = Some x -> (i < m_nx m)%nat ->
  (j < ne)%nat /\ nth i x 0 = end_state O t rho 0 j i.
Proof.
  intros Hj Hi. rewrite (proj2 r_results) in Hj. rewrite nth_error_map in Hj. destruct (nth_error (seq 0 ne) j) as [e|] eqn:Ee; [|discriminate].
  assert (Hl : (j < ne)%nat) by (rewrite <- (seq_length ne 0); apply nth_error_Some; congruence). split; [exact Hl|].
  rewrite nth_error_seq in Ee by exact Hl. injection Ee as <-. cbn [option_map] in Hj. injection Hj as <-.
  erewrite nth_error_nth; [reflexivity|]. rewrite nth_error_map, nth_error_seq by exact Hi. reflexivity.
Qed.
Hypothesis HS : o_pss (the_opts C) = Stewart \/ (gS_given m = false /\ n_subsystems m = 1%nat).
Hypothesis Z : sized C m s.
Lemma r_x0 i : (i < m_nx m)%nat -> rho (SX0 i) = nth i (ss_x0 s) 0.
Proof.
  intros Hi. assert (Hy : In (SX0 i) (p_p P)).
  { rewrite (p_layout _ _ _ _ _ _ _ H). rewrite !in_app_iff. right. right. right. apply in_map, in_seq. lia. }
  destruct (sr_p _ _ _ SE) as (h & Hh & SP). pose proof (pass_parameters lr cp d o m oc C H nlp s s' out E WS Z HS h Hh) as B.
  apply In_nth_error in Hy. destruct Hy as [k Hk].
  destruct (nth_error (nc_p (hs_call h)) k) as [v|] eqn:Hv.
  - destruct (SP k _ v Hk Hv) as [A|[A|A]]; try discriminate. rewrite A.
    assert (G : belongs C m s (hs_sigma h) (hs_tau h) (SX0 i) v).
    { clear - B Hk Hv. revert k Hk Hv. induction B as [|a b l l' B0 B IH]; intros [|k] Hi Hv; try discriminate.
      + injection Hi as ->. injection Hv as ->. exact B0.
      + exact (IH k Hi Hv). }
    cbn [belongs] in G. symmetry. apply nth_error_nth, G.
  - exfalso. apply nth_error_None in Hv. rewrite <- (Forall2_length _ _ _ B) in Hv. apply nth_error_None in Hv. congruence.
Qed.

(* one step, from an initial state that may differ from that of the solution *)
Variables (act : env -> nat -> nat -> Prop) (near : R -> env -> nat -> nat -> Prop) (D : (nat -> R) -> Prop) (M h eps r L delta : R) (Y : R -> nat -> R) (pts : list R).
Hypothesis SW : step_within C m act near D M h eps r L rho.
Hypothesis TX : exists X, relaxed_trajectory O t m rho near D delta eps X.
Hypothesis CY : forall i, (i < m_nx m)%nat -> continuous_between 0 (end_time O rho) (fun z => Y z i).
Hypothesis DY : forall tm, 0 < tm < end_time O rho -> ~ In tm pts ->
  exists th, active_weights m act (plain_point m rho 0 (Y tm)) th /\
    forall i, (i < m_nx m)%nat -> derivable_pt_lim (fun z => Y z i) tm (velocity O m rho 0 (Y tm) th i).
Hypothesis YD : forall tm, 0 <= tm <= end_time O rho -> D (Y tm).
Hypothesis L0 : 0 <= L.
Hypothesis M0 : 0 <= M.
Hypothesis d0 : 0 <= delta.
Hypothesis r0 : 0 <= r.
Definition err_rate : R := INR (m_nx m) * (8 * L * ((delta + r) * (delta + r)) + 8 * M * (delta + r) + weight_error O * (M * M) + 2 * (r * r)).
Definition err_grow : R := 8 * L + weight_error O + 2.
Lemma r_step j x : nth_error (rs_x_list (so_results out)) j = Some x ->
  let tm := partial_sum (rs_time_steps (so_results out)) (S j) in
  0 <= tm <= end_time O rho /\
  distance2 m (fun i => nth i x 0) (Y tm) <= (distance2 m (fun i => nth i (ss_x0 s) 0) (Y 0) + err_rate * tm) * exp (err_grow * tm).
Proof.
  intros Hj tm. assert (Lj : (j < ne)%nat).
  { rewrite (proj2 r_results), nth_error_map in Hj. rewrite <- (seq_length ne 0). apply nth_error_Some. destruct (nth_error (seq 0 ne) j); [discriminate|discriminate Hj]. }
  assert (SN : steps_nonneg O rho) by (intros c e He; apply (sw_steps _ _ _ _ _ _ _ _ _ _ _ SW c e He)).
  assert (Et : tm = grid_time O rho 0 j + step_len O rho 0 j) by (unfold tm; rewrite r_psum by lia; rewrite rupto_succ, r_time; reflexivity).
  assert (Ht : 0 <= tm <= end_time O rho) by (rewrite Et; exact (grid_in C rho SN 0%nat j (r_elem j Lj))).
  split; [exact Ht|]. destruct TX as [X AX].
  assert (DY' : forall c z, (c < o_N_stages O)%nat -> grid_time O rho c 0 < z < grid_time O rho c 0 + stage_length O rho c -> ~ In z pts ->
    exists th, active_weights m act (plain_point m rho c (Y z)) th /\ forall i, (i < m_nx m)%nat -> derivable_pt_lim (fun z => Y z i) z (velocity O m rho c (Y z) th i)).
  { intros c z Hc Hz. assert (c = 0%nat) by lia. subst c. rewrite r_time, rupto_0 in Hz. change (stage_length O rho 0) with (rupto ne (step_len O rho 0)) in Hz. rewrite <- r_end in Hz.
    apply DY. lra. }
  pose proof (relaxed_from O t m rho act near D X Y L M delta eps r SN AX (sw_correctable _ _ _ _ _ _ _ _ _ _ _ SW) CY pts DY' YD L0 M0 d0 r0
    (sw_one_sided _ _ _ _ _ _ _ _ _ _ _ SW) (sw_bounded _ _ _ _ _ _ _ _ _ _ _ SW) tm Ht) as G.
  destruct AX as (_ & X0 & XE & _).
  assert (A : distance2 m (fun i => nth i x 0) (Y tm) = distance2 m (X tm) (Y tm)).
  { apply rupto_ext. intros i Hi. destruct (r_state j x i Hj Hi) as [_ ->]. rewrite Et, (XE 0%nat j i (r_elem j Lj) Hi). reflexivity. }
  assert (B : distance2 m (fun i => nth i (ss_x0 s) 0) (Y 0) = distance2 m (X 0) (Y 0)).
  { apply rupto_ext. intros i Hi. rewrite X0, (r_x0 i Hi) by exact Hi. reflexivity. }
  rewrite A, B. exact G.
Qed.
End Step.

Lemma locate : forall (l : list piece), (forall p, In p l -> length (snd p) = length (fst p)) ->
  forall j x, nth_error (stops l) j = Some x -> exists k p j', nth_error l k = Some p /\ nth_error (snd p) j' = Some x /\
    partial_sum (lengths l) (S j) = rsum (lengths (firstn k l)) + partial_sum (fst p) (S j').
Proof.
  induction l as [|p l IH]; intros LN j x Hj; [destruct j; discriminate|]. destruct p as [hs xs].
  change (stops ((hs, xs) :: l)) with (xs ++ stops l) in Hj. change (lengths ((hs, xs) :: l)) with (hs ++ lengths l).
  pose proof (LN (hs, xs) (or_introl eq_refl)) as L1. cbn [fst snd] in L1.
  destruct (le_lt_dec (length xs) j) as [Gj|Gj].
  - rewrite nth_error_app2 in Hj by exact Gj. destruct (IH (fun q Hq => LN q (or_intror Hq)) _ _ Hj) as (k & p & j' & A & B & D).
    exists (S k), p, j'. split; [exact A|]. split; [exact B|]. replace (S j) with (length hs + S (j - length xs))%nat by lia. rewrite psum_app_r, D.
    change (lengths (firstn (S k) ((hs, xs) :: l))) with (hs ++ lengths (firstn k l)). rewrite rsum_app. lra.
  - rewrite nth_error_app1 in Hj by exact Gj. exists 0%nat, (hs, xs), j. split; [reflexivity|]. split; [exact Hj|]. rewrite psum_app_l by lia. cbn [firstn fst]. change (rsum (lengths [])) with 0. lra.
Qed.
Lemma grow A B e ta tb : 0 <= A -> 0 <= B -> 0 <= ta -> 0 <= tb -> e <= A * ta * exp (B * ta) ->
  (e + A * tb) * exp (B * tb) <= A * (ta + tb) * exp (B * (ta + tb)).
Proof.
  intros HA HB Ha Hb He. rewrite Rmult_plus_distr_l with (r1 := B), exp_plus. pose proof (exp_pos (B * tb)) as P.
  assert (U : 1 <= exp (B * ta)). { pose proof (exp_ineq1_le (B * ta)). assert (0 <= B * ta) by (apply Rmult_le_pos; assumption). lra. }
  assert (V : A * tb * 1 <= A * tb * exp (B * ta)) by (apply Rmult_le_compat_l; [apply Rmult_le_pos; assumption|exact U]).
  replace (A * (ta + tb) * (exp (B * ta) * exp (B * tb))) with ((A * ta * exp (B * ta) + A * tb * exp (B * ta)) * exp (B * tb)) by ring.
  apply Rmult_le_compat_r; lra.
Qed.

Section Run.
Variables (lr : Q -> Q -> Q -> nat) (cp : nat -> scheme -> list Q) (d : ipopt_dict) (o : opts) (m : model) (oc : option ocp) (C : constructed).
Hypothesis FP : fesd_problem lr cp d o m oc C.
Hypothesis EX : extractable (the_opts C) m.
Hypothesis HS : o_pss (the_opts C) = Stewart \/ (gS_given m = false /\ n_subsystems m = 1%nat).
Notation O := (the_opts C).
Variables (nlp : nat -> nlp_call -> res nlp_ret) (x0 : list R) (Nsim : nat) (pv : option (list (list R))) (pc : nat) (wi : option (list (list R)))
  (lp : looper) (s : sstate) (tr : list (sstate * solve_out)) (lp' : looper) (rho : nat -> env).
Hypothesis LI : looper_init (cn_prob C) x0 Nsim pv pc wi = Ok lp.
Hypothesis SI : simulation nlp C m 0 lp s tr lp'.
Hypothesis SE : forall k q, nth_error tr k = Some q -> solved_relaxed C (snd q) (rho k).
Variables (act : env -> nat -> nat -> Prop) (near : R -> env -> nat -> nat -> Prop) (D : (nat -> R) -> Prop) (M h eps r L delta : R) (Y : R -> nat -> R).
Hypothesis SW : forall k, (k < length tr)%nat -> step_within C m act near D M h eps r L (rho k).
Hypothesis TX : forall k q, nth_error tr k = Some q -> exists X, relaxed_trajectory O (cn_tab C) m (rho k) near D delta eps X.
Hypothesis RY : run_solution O m act rho tr x0 Y.
Hypothesis YD : forall tm, 0 <= tm <= elapsed tr (length tr) -> D (Y tm).
Hypothesis L0 : 0 <= L.
Hypothesis M0 : 0 <= M.
Hypothesis d0 : 0 <= delta.
Hypothesis r0 : 0 <= r.
Let N1 : o_N_stages O = 1%nat := run_N1 lr cp d o m oc C FP x0 Nsim pv pc wi lp LI.
Notation A := (err_rate m C M r L delta).
Notation B := (err_grow C L).
Lemma A_nonneg : 0 <= A.
Proof.
  unfold err_rate. assert (0 <= delta + r) by lra. assert (0 <= L * ((delta + r) * (delta + r))) by (apply Rmult_le_pos; [exact L0|apply Rmult_le_pos; assumption]).
  assert (0 <= M * (delta + r)) by (apply Rmult_le_pos; assumption). assert (0 <= weight_error O * (M * M)) by (apply Rmult_le_pos; [apply error_nonneg|apply Rmult_le_pos; assumption]).
  assert (0 <= r * r) by (apply Rmult_le_pos; assumption). apply Rmult_le_pos; [apply pos_INR|lra].
Qed.
Lemma B_nonneg : 0 <= B. Proof. unfold err_grow. pose proof (error_nonneg O). lra. Qed.
Lemma run_lengths q hh : In q tr -> In hh (rs_time_steps (so_results (snd q))) -> 0 <= hh.
Proof.
  intros Hq Hh. apply In_nth_error in Hq. destruct Hq as [k Ek]. assert (Lk : (k < length tr)%nat) by (apply nth_error_Some; congruence). destruct q as [si out].
  destruct (sm_solve _ _ _ _ _ _ _ _ SI k si out Ek) as (Z & t & Es). cbn [snd] in Hh.
  rewrite (proj1 (r_results _ _ _ _ _ _ _ FP N1 EX nlp si t out (rho k) Es (SE k _ Ek))) in Hh. apply in_map_iff in Hh. destruct Hh as (e & <- & He). apply in_seq in He.
  apply (sw_steps _ _ _ _ _ _ _ _ _ _ _ (SW k Lk) 0%nat e). apply r_elem; [exact N1|lia].
Qed.
Lemma run_step k q : nth_error tr k = Some q -> distance2 m (fun i => nth i (ss_x0 (fst q)) 0) (Y (elapsed tr k)) <= A * elapsed tr k * exp (B * elapsed tr k) ->
  forall j x, nth_error (rs_x_list (so_results (snd q))) j = Some x ->
  let tm := elapsed tr k + partial_sum (rs_time_steps (so_results (snd q))) (S j) in
  distance2 m (fun i => nth i x 0) (Y tm) <= A * tm * exp (B * tm).
Proof.
  intros Ek IH j x Hj tm. destruct q as [si out]. cbn [fst snd] in *. assert (Lk : (k < length tr)%nat) by (apply nth_error_Some; congruence).
  assert (MO := elapsed_mono tr run_lengths). destruct RY as (CY & Y0 & pts & DY).
  destruct (sm_solve _ _ _ _ _ _ _ _ SI k si out Ek) as (Z & t & Es).
  pose proof (elapsed_succ tr k _ Ek) as ES. cbn [snd] in ES.
  pose proof (r_total _ _ _ _ _ _ _ FP N1 EX nlp si t out (rho k) Es (SE k _ Ek)) as TT. rewrite TT in ES.
  assert (E0 : elapsed tr 0 <= elapsed tr k) by (apply MO; lia). rewrite elapsed_0 in E0.
  assert (E1 : elapsed tr (S k) <= elapsed tr (length tr)) by (apply MO; lia).
  assert (G := r_step _ _ _ _ _ _ _ FP N1 EX nlp si t out (rho k) Es (SE k _ Ek) HS Z act near D M h eps r L delta (fun z => Y (elapsed tr k + z))
    (map (fun p => p - elapsed tr k) pts) (SW k Lk) (TX k _ Ek)).
  destruct G with (j := j) (x := x) as [G1 G2]; try assumption.
  - intros i' Hi' u Hu ep He. destruct (CY i' Hi' (elapsed tr k + u) ltac:(lra) ep He) as (dl & Hd & Bd). exists dl. split; [exact Hd|].
    intros v Hv Hvu. apply Bd; [lra|]. replace (elapsed tr k + v - (elapsed tr k + u)) with (v - u) by lra. exact Hvu.
  - intros z Hz Np. destruct (DY k (elapsed tr k + z) Lk ltac:(lra)) as (th & AW & Dv).
    { intros G'. apply Np. apply in_map_iff. exists (elapsed tr k + z). split; [lra|exact G']. }
    exists th. split; [exact AW|]. intros i' Hi'.
    apply (derivable_pt_lim_locally_ext (fun y => Y (y - - elapsed tr k) i') _ z (z - 1) (z + 1)); [lra|intros y _; f_equal; lra|].
    apply (shift_deriv (fun z => Y z i')). replace (z - - elapsed tr k) with (elapsed tr k + z) by lra. exact (Dv i' Hi').
  - intros z Hz. apply YD. lra.
  - cbv beta in G2. rewrite Rplus_0_r in G2. eapply Rle_trans; [exact G2|]. apply grow; [exact A_nonneg|exact B_nonneg|exact E0|exact (proj1 G1)|exact IH].
Qed.
Lemma run_start : forall k q, nth_error tr k = Some q ->
  distance2 m (fun i => nth i (ss_x0 (fst q)) 0) (Y (elapsed tr k)) <= A * elapsed tr k * exp (B * elapsed tr k).
Proof.
  induction k as [|k IH]; intros q Ek.
  - destruct q as [si out]. cbn [fst]. destruct (sm_first _ _ _ _ _ _ _ _ SI si out Ek) as [-> _]. destruct (init_start C x0 Nsim pv pc wi lp LI) as [-> _].
    rewrite elapsed_0. destruct RY as (_ & Y0 & _). cbn [lp_xcurrent]. right. rewrite Rmult_0_r, Rmult_0_l. unfold distance2.
    rewrite (rupto_ext _ _ (fun _ => 0)) by (intros i Hi; rewrite (Y0 i Hi); ring). rewrite rupto_const. ring.
  - destruct (nth_error tr k) as [q'|] eqn:Ej; [|exfalso; apply nth_error_None in Ej; assert (S k < length tr)%nat by (apply nth_error_Some; congruence); lia].
    pose proof (run_step k q' Ej (IH q' eq_refl)) as G. destruct q as [si out], q' as [sj out']. cbn [fst snd] in *.
    destruct (sm_solve _ _ _ _ _ _ _ _ SI k sj out' Ej) as (_ & t' & Es').
    destruct (sm_next _ _ _ _ _ _ _ _ SI k sj out' si out t' Ej Ek Es') as [LA _]. destruct (last_snoc _ _ LA) as [pre LA'].
    pose proof (sm_lengths _ _ _ _ _ _ _ _ SI k sj out' Ej) as LL. rewrite LA', app_length in LL. cbn [length] in LL.
    specialize (G (length pre) (ss_x0 si)). rewrite LA', nth_error_app2, Nat.sub_diag in G by lia. specialize (G eq_refl).
    rewrite (elapsed_succ tr k _ Ej). cbn [snd]. replace (rsum (rs_time_steps (so_results out'))) with (partial_sum (rs_time_steps (so_results out')) (S (length pre))); [exact G|].
    rewrite <- psum_all. f_equal. lia.
Qed.
Lemma run_error j tm x : nth_error (looper_t_grid lp') j = Some tm -> nth_error (lp_X_sim lp') j = Some x ->
  distance2 m (fun i => nth i x 0) (Y tm) <= A * tm * exp (B * tm).
Proof.
  intros Hj Hx. destruct (run_fields m C nlp x0 Nsim pv pc wi lp s tr lp' LI SI) as (F1 & F2 & F3).
  rewrite (run_grid m C nlp x0 Nsim pv pc wi lp s tr lp' LI SI j tm Hj). rewrite F1 in Hx. destruct j as [|j].
  - cbn in Hx. injection Hx as <-. destruct RY as (_ & Y0 & _). right. unfold partial_sum. cbn [firstn rsum fold_right]. rewrite Rmult_0_r, Rmult_0_l. unfold distance2.
    rewrite (rupto_ext _ _ (fun _ => 0)) by (intros i Hi; rewrite (Y0 i Hi); ring). rewrite rupto_const. ring.
  - cbn [nth_error] in Hx. destruct (locate (map the_piece tr)) with (2 := Hx) as (k & p & j' & Hp & Hj' & ->).
    { intros p Hp. apply in_map_iff in Hp. destruct Hp as ([si out] & <- & Hq). apply In_nth_error in Hq. destruct Hq as [k Hk].
      exact (sm_lengths _ _ _ _ _ _ _ _ SI k si out Hk). }
    rewrite nth_error_map in Hp. destruct (nth_error tr k) as [q|] eqn:Ek; [|discriminate]. injection Hp as <-.
    rewrite <- elapsed_lengths. exact (run_step k q Ek (run_start k q Ek) j' x Hj').
Qed.
End Run.
