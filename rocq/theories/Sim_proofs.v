(* Sim_proofs.v -- one step of a simulation that is solved exactly *)
From Coq Require Import Reals Qreals Lra.
From Verif Require Import Base Lib Sx Sx_proofs Utils Tableau Opts Model Ocp Problem Numeric Rk4 Results Solver Looper Spec Fesd Spec2 Spec3 Spec4 Spec5 Spec6
  Model_proofs Con_proofs Index_proofs Index2_proofs Index3_proofs Dcs_proofs Nlp_proofs Feas_proofs Lam_proofs Results_proofs Results2_proofs Results4_proofs Solve_proofs Solve2_proofs Progress_proofs Vec_proofs Syms_proofs
  Init_proofs Init2_proofs Start_proofs Param_proofs FeMake_proofs FeZero_proofs Prob_proofs Body_proofs Accept_proofs Smooth2_proofs Fix_proofs Solve4_proofs Spec9 Filippov_proofs Filippov3_proofs Spec10 Exact_proofs Exact2_proofs Spec19.
Local Open Scope nat_scope.

(* rho with the parameters of the first control stage on all of them *)
Definition spread (rho : env) : env := fun y => match y with SPst _ i => rho (SPst 0 i) | _ => rho y end.

Section Step.
Variables (lr : Q -> Q -> Q -> nat) (cp : nat -> scheme -> list Q) (d : ipopt_dict) (o : opts) (m : model) (oc : option ocp) (C : constructed).
Hypothesis FP : fesd_problem lr cp d o m oc C.
Hypothesis N1 : o_N_stages (the_opts C) = 1.
Hypothesis HS : o_pss (the_opts C) = Stewart \/ (gS_given m = false /\ n_subsystems m = 1).
Variables (nlp : nat -> nlp_call -> res nlp_ret) (s s' : sstate) (out : solve_out) (rho : env).
Hypothesis Z : sized C m s.
Hypothesis E : solve nlp C s = (s', Ok out).
Hypothesis SE : solved_exactly C out rho.
Notation O := (the_opts C).
Notation P := (the_problem C).
Let H : construct_problem lr cp d o m oc = Ok C := proj1 FP.
Let WS : well_sized m := proj2 (proj2 FP).

Lemma some_pass : exists h, In h (so_steps out).
Proof.
  destruct (sv_ex _ _ _ _ _ (solve_inv _ _ _ _ _ E)) as (s1 & s2 & s3 & lam & w1 & lb & ub & h & _ & _ & _ & L & _).
  exists h. unfold lastE in L. destruct (rev (so_steps out)) as [|a l] eqn:R; [discriminate|]. injection L as ->. apply in_rev. rewrite R. left. reflexivity.
Qed.
Lemma step_param y : In y (p_p P) -> y = SSigma \/ y = STau \/ exists sg tau, belongs C m s sg tau y (rho y).
Proof.
  intros Hy. destruct some_pass as [h Hh]. pose proof (pass_parameters lr cp d o m oc C H nlp s s' out E WS Z HS h Hh) as B.
  apply In_nth_error in Hy. destruct Hy as [i Hi].
  destruct (nth_error (nc_p (hs_call h)) i) as [v|] eqn:Hv.
  - destruct (se_p _ _ _ SE h i y v Hh Hi Hv) as [A|[A|A]]; auto. right. right. exists (hs_sigma h), (hs_tau h). rewrite A.
    clear - B Hi Hv. revert i Hi Hv. induction B as [|a b l l' B0 B IH]; intros [|i] Hi Hv; try discriminate.
    + injection Hi as ->. injection Hv as ->. exact B0.
    + exact (IH i Hi Hv).
  - exfalso. apply nth_error_None in Hv. rewrite <- (Forall2_length _ _ _ B) in Hv. apply nth_error_None in Hv. congruence.
Qed.
Lemma step_x0 i : i < m_nx m -> rho (SX0 i) = nth i (ss_x0 s) 0%R.
Proof.
  intros Hi. assert (Hy : In (SX0 i) (p_p P)).
  { rewrite (p_layout _ _ _ _ _ _ _ H). rewrite !in_app_iff. right. right. right. apply in_map, in_seq. lia. }
  destruct (step_param _ Hy) as [A|[A|(sg & tau & B)]]; try discriminate. cbn [belongs] in B. symmetry. apply nth_error_nth, B.
Qed.
Lemma outside_p y : match y with SPst _ _ | SX0 _ | SL00 _ _ _ | SSigma | STau => True | _ => False end -> ~ In y (p_p P) -> rho y = 0%R.
Proof.
  intros Y N. apply (se_rest _ _ _ SE). intros G. apply in_app_iff in G. destruct G as [G|G]; [|contradiction].
  apply (sym_in_w _ _ _ _ _ _ _ _ H) in G. destruct y; try contradiction; exact G.
Qed.
Lemma step_p p0 i : nth_error (ss_pval s) 0 = Some p0 -> rho (SPst 0 i) = nth i p0 0%R.
Proof.
  intros Hp. assert (Lp : length p0 = m_npt m + m_npg m) by exact (sz_rows _ _ _ Z p0 (nth_error_In _ _ Hp)).
  destruct (le_lt_dec (m_npt m + m_npg m) i) as [G|G].
  - rewrite nth_overflow by lia. apply outside_p; [exact Logic.I|]. intros Hy. rewrite (p_layout _ _ _ _ _ _ _ H) in Hy. rewrite !in_app_iff in Hy.
    destruct Hy as [Hy|[Hy|[Hy|Hy]]].
    + apply in_concat in Hy. destruct Hy as (l & Hl & Hy). apply in_map_iff in Hl. destruct Hl as (c & <- & _). apply in_map_iff in Hy. destruct Hy as (k & Ek & Hk).
      injection Ek as _ ->. apply in_seq in Hk. lia.
    + destruct Hy as [Hy|[Hy|[]]]; discriminate.
    + unfold lam0 in Hy. rewrite !(lab0_dim _ _ _ _ _ _ _ H) in Hy. rewrite !in_app_iff in Hy.
      destruct Hy as [Hy|[Hy|Hy]]; apply in_concat in Hy; destruct Hy as (l & Hl & Hy); apply in_map_iff in Hl; destruct Hl as (c & <- & _);
        apply in_map_iff in Hy; destruct Hy as (k & Ek & Hk); discriminate.
    + apply in_map_iff in Hy. destruct Hy as (k & Ek & _). discriminate.
  - assert (Hy : In (SPst 0 i) (p_p P)).
    { rewrite (p_layout _ _ _ _ _ _ _ H). rewrite N1. cbn [seq map concat]. rewrite !in_app_iff. left. left. apply in_map, in_seq. lia. }
    destruct (step_param _ Hy) as [A|[A|(sg & tau & B)]]; try discriminate. cbn [belongs] in B. destruct B as (r & Hr & Hn). rewrite Hp in Hr. injection Hr as <-.
    symmetry. apply nth_error_nth, Hn.
Qed.
Lemma only_l00 f q k : In (SL00 f q k) (p_p P) -> q < n_subsystems m /\ k < dim2 O m f q.
Proof.
  intros Hy. rewrite (p_layout _ _ _ _ _ _ _ H) in Hy. rewrite !in_app_iff in Hy. destruct Hy as [Hy|[Hy|[Hy|Hy]]].
  - apply in_concat in Hy. destruct Hy as (l & Hl & Hy). apply in_map_iff in Hl. destruct Hl as (c & <- & _). apply in_map_iff in Hy. destruct Hy as (i & Ei & _). discriminate.
  - destruct Hy as [Hy|[Hy|[]]]; discriminate.
  - unfold lam0 in Hy. rewrite !(lab0_dim _ _ _ _ _ _ _ H) in Hy. rewrite !in_app_iff in Hy.
    destruct Hy as [Hy|[Hy|Hy]]; apply in_concat in Hy; destruct Hy as (l & Hl & Hy); apply in_map_iff in Hl; destruct Hl as (c & <- & Hc); apply in_seq in Hc;
      apply in_map_iff in Hy; destruct Hy as (i & Ei & Hi); apply in_seq in Hi; injection Ei as <- <- <-; lia.
  - apply in_map_iff in Hy. destruct Hy as (i & Ei & _). discriminate.
Qed.
Lemma l00_in f q k : match f with FLam | FLn | FLp => True | _ => False end -> q < n_subsystems m -> k < dim2 O m f q -> In (SL00 f q k) (p_p P).
Proof.
  intros Hf Hq Hk. rewrite (p_layout _ _ _ _ _ _ _ H). rewrite !in_app_iff. right. right. left. unfold lam0. rewrite !(lab0_dim _ _ _ _ _ _ _ H).
  assert (G : In (SL00 f q k) (concat (map (fun s => map (SL00 f s) (seq 0 (dim2 O m f s))) (seq 0 (n_subsystems m))))).
  { apply in_concat. eexists. split; [apply in_map_iff; exists q; split; [reflexivity|apply in_seq; lia]|]. apply in_map, in_seq. lia. }
  rewrite !in_app_iff. destruct f; try contradiction; auto.
Qed.

Lemma step_feasible : feasible (spread rho) (the_nlp C).
Proof.
  eapply (feasible_ext _ _ _ _ _ _ _ H); [|exact (se_feasible _ _ _ SE)]. intros y Hy. destruct y as [ | | | | | | |c i| | | | | | | | | | | | | ]; try reflexivity.
  cbn. apply in_app_iff in Hy. destruct Hy as [Hy|Hy]; [apply (sym_in_w _ _ _ _ _ _ _ _ H) in Hy; destruct Hy|].
  rewrite (p_layout _ _ _ _ _ _ _ H), N1 in Hy. cbn [seq map concat] in Hy. rewrite !in_app_iff in Hy. destruct Hy as [[Hy|[]]|[Hy|[Hy|Hy]]].
  - apply in_map_iff in Hy. destruct Hy as (k & Ek & _). injection Ek as <- <-. reflexivity.
  - destruct Hy as [Hy|[Hy|[]]]; discriminate.
  - unfold lam0 in Hy. rewrite !(lab0_dim _ _ _ _ _ _ _ H) in Hy. rewrite !in_app_iff in Hy.
    destruct Hy as [Hy|[Hy|Hy]]; apply in_concat in Hy; destruct Hy as (l & Hl & Hy); apply in_map_iff in Hl; destruct Hl as (c' & <- & _);
        apply in_map_iff in Hy; destruct Hy as (k & Ek & Hk); discriminate.
  - apply in_map_iff in Hy. destruct Hy as (k & Ek & _). discriminate.
Qed.

Hypothesis SS : simple_switching cp O m.
Let AS : affine_switching m := proj2 (proj2 (proj2 (proj2 SS))).
Let PC : piecewise_constant m := proj1 (proj2 (proj2 (proj2 SS))).
Lemma start_agree' p0 : nth_error (ss_pval s) 0 = Some p0 ->
  agree m (initial_point m (ss_x0 s) (reals (pm_z0 (pr_pm (cn_prob C)))) p0) (plain_point m (spread rho) 0 (fun i => spread rho (SX0 i))).
Proof.
  intros Hp. split.
  - intros i Hi. cbn. symmetry. apply step_x0, Hi.
  - intros i. cbn. symmetry. apply step_p, Hp.
Qed.
Lemma step_multipliers : initial_multipliers O m (spread rho).
Proof.
  unfold initial_multipliers. destruct (row0 _ _ _ _ _ _ _ H s Z) as (p0 & Hp & En & Lp).
  pose proof (start_agree' p0 Hp) as A. set (v := initial_point _ _ _ _) in A. set (v1 := plain_point _ _ _ _) in *.
  pose proof step_param as SP. pose proof l00_in as LI. clear HS. destruct (o_pss O) eqn:Ep.
  - exists (fun q => (rho (SL00 FLam q 0) - region_value m v1 q 0)%R). intros q k Hq Hk. change (spread rho (SL00 FLam q k)) with (rho (SL00 FLam q k)).
    assert (V : forall k, k < n_modes m q -> exists mn, least (n_modes m q) (region_value m v q) mn /\ rho (SL00 FLam q k) = (region_value m v1 q k - mn)%R).
    { intros j Hj. destruct (SP (SL00 FLam q j)) as [B|[B|(sg & tau & B)]]; try discriminate.
      { apply LI; [exact Logic.I|exact Hq|]. unfold dim2. rewrite Ep. exact Hj. }
      cbn [belongs] in B. rewrite En in B. destruct B as (mn & LE & B). fold v in LE, B. exists mn. split; [exact LE|]. rewrite B, (region_ext m AS v v1 q j A). reflexivity. }
    destruct (V k Hk) as (mn & L1 & ->). destruct (V 0 ltac:(lia)) as (mn' & L2 & ->). rewrite (least_unique _ _ _ _ L1 L2). lra.
  - intros q k Hq Hk. change (spread rho (SL00 FLp q k)) with (rho (SL00 FLp q k)). change (spread rho (SL00 FLn q k)) with (rho (SL00 FLn q k)).
    assert (B1 : rho (SL00 FLp q k) = Rmax 0 (switch_value m v q k)).
    { destruct (SP (SL00 FLp q k)) as [B|[B|(sg & tau & B)]]; try discriminate; [apply LI; [exact Logic.I|exact Hq|unfold dim2; rewrite Ep; exact Hk]|].
      cbn [belongs] in B. rewrite En in B. exact B. }
    assert (B2 : rho (SL00 FLn q k) = Rmax 0 (- switch_value m v q k)).
    { destruct (SP (SL00 FLn q k)) as [B|[B|(sg & tau & B)]]; try discriminate; [apply LI; [exact Logic.I|exact Hq|unfold dim2; rewrite Ep; exact Hk]|].
      cbn [belongs] in B. rewrite En in B. exact B. }
    rewrite B1, B2, <- (switch_ext m AS v v1 q k A). unfold Rmax. destruct (Rle_dec _ _), (Rle_dec _ _); lra.
Qed.
Lemma step_nonneg0 : initial_nonneg (spread rho).
Proof.
  intros f q k. change (spread rho (SL00 f q k)) with (rho (SL00 f q k)).
  destruct (in_dec sym_eq_dec (SL00 f q k) (p_p P)) as [Hy|Hy]; [|rewrite outside_p; [lra|exact Logic.I|exact Hy]].
  destruct (only_l00 f q k Hy) as [Hq Hk]. destruct (step_param _ Hy) as [B|[B|(sg & tau & B)]]; try discriminate. cbn [belongs] in B. destruct f; try contradiction.
  - destruct B as (mn & [L1 L2] & ->). assert (G : k < n_modes m q) by (clear - Hk; unfold dim2 in Hk; destruct (o_pss O); [exact Hk|lia]). pose proof (L1 k G). lra.
  - rewrite B. apply Rmax_l.
  - rewrite B. apply Rmax_l.
Qed.
Lemma step_setting : filippov_setting cp O m (spread rho).
Proof.
  pose proof SS as (A1 & A2 & A3 & A4 & A5). split; [exact A1|]. split; [exact A2|]. split; [exact A3|]. split; [exact A4|]. split; [exact A5|]. split; [intros c c' i; reflexivity|]. split; [exact step_multipliers|].
  split; [exact (se_zero _ _ _ SE)|exact step_nonneg0].
Qed.
End Step.

(* velocities and active modes do not see the difference *)
Section Same.
Variables (o : opts) (m : model) (rho : env).
Hypothesis PC : piecewise_constant m.
Hypothesis AS : affine_switching m.
Lemma spread_velocity x th i : velocity o m (spread rho) 0 x th i = velocity o m rho 0 x th i.
Proof.
  unfold velocity. f_equal. unfold mixed_field. apply rupto_ext. intros s Hs. apply rupto_ext. intros k Hk. f_equal. unfold mode_field.
  apply eval_ext. intros y Hy. apply PC in Hy. destruct y; try contradiction; reflexivity.
Qed.
Lemma spread_agree x : agree m (plain_point m (spread rho) 0 x) (plain_point m rho 0 x).
Proof. split; reflexivity. Qed.
Lemma spread_smallest x s k : smallest m (plain_point m (spread rho) 0 x) s k <-> smallest m (plain_point m rho 0 x) s k.
Proof.
  unfold smallest. split; intros G k' Hk'; specialize (G k' Hk'); rewrite !(region_ext m AS _ _ s _ (spread_agree x)) in *; exact G.
Qed.
Lemma spread_closed x s k : in_closed_region m (plain_point m (spread rho) 0 x) s k <-> in_closed_region m (plain_point m rho 0 x) s k.
Proof.
  unfold in_closed_region. split; intros G r Hr; specialize (G r Hr); rewrite !(switch_ext m AS _ _ s _ (spread_agree x)) in *; exact G.
Qed.
End Same.
