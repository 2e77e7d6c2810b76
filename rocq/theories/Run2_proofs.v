(* Run2_proofs.v -- whole simulations: error bound and convergence *)
From Coq Require Import Reals Qreals Lra.
From Verif Require Import Base Lib Sx Sx_proofs Utils Tableau Opts Model Ocp Problem Numeric Rk4 Results Solver Looper Spec Fesd Spec2 Spec3 Spec4 Spec5 Spec6
  Init2_proofs Feas4_proofs Index3_proofs Solve_proofs Solve2_proofs Solve3_proofs Solve4_proofs Looper_proofs Dcs_proofs
  Spec9 Spec10 Exact_proofs Exact2_proofs Spec11 Spec19 Sim_proofs Sim2_proofs Sim3_proofs Spec21 Conv4_proofs Spec24 Relax_proofs Relax2_proofs Relax3_proofs Spec27 Run_proofs.
Local Open Scope R_scope.

Lemma simulation_error cp re sc n : exists K, 0 <= K /\
  forall lr d o m oc C nlp x0 Nsim pv pc wi lp s tr lp' rho act near D M h eps r L Y, fesd_problem lr cp d o m oc C -> extractable (the_opts C) m ->
  (o_pss (the_opts C) = Stewart \/ (gS_given m = false /\ n_subsystems m = 1%nat)) ->
  relaxed_setting cp (the_opts C) m -> method re sc n (the_opts C) -> near_rule (the_opts C) m act near ->
  looper_init (cn_prob C) x0 Nsim pv pc wi = Ok lp -> simulation nlp C m 0 lp s tr lp' ->
  (forall k q, nth_error tr k = Some q -> solved_relaxed C (snd q) (rho k) /\ step_within C m act near D M h eps r L (rho k)) ->
  0 <= eps -> 0 <= M -> 0 <= r -> 0 <= L ->
  run_solution (the_opts C) m act rho tr x0 Y -> (forall tm, 0 <= tm <= elapsed tr (length tr) -> D (Y tm)) ->
  forall j tm x, nth_error (looper_t_grid lp') j = Some tm -> nth_error (lp_X_sim lp') j = Some x ->
  distance2 m (fun i => nth i x 0) (Y tm) <= relaxed_bound (the_opts C) m L M (K * M * h + r) r tm.
Proof.
  destruct (relaxed_constant cp re sc n) as (K & K0 & HK). exists K. split; [exact K0|].
  intros lr d o m oc C nlp x0 Nsim pv pc wi lp s tr lp' rho act near D M h eps r L Y FP EX HS CS Me MR LI SI SS e0 M0 r0 L0 RY YD j tm x Hj Hx.
  destruct tr as [|q0 tr0] eqn:Et.
  - (* no step *)
    assert (E1 : lp_X_sim lp' = [x0]).
    { destruct (run_fields m C nlp x0 Nsim pv pc wi lp s [] lp' LI SI) as (F1 & _ & _). exact F1. }
    assert (E2 : looper_t_grid lp' = [0]).
    { destruct (run_fields m C nlp x0 Nsim pv pc wi lp s [] lp' LI SI) as (_ & _ & F1). exact F1. }
    rewrite E1 in Hx. rewrite E2 in Hj. destruct j as [|j]; [|destruct j; discriminate]. injection Hj as <-. injection Hx as <-. destruct RY as (_ & Y0 & _).
    right. unfold relaxed_bound. rewrite Rmult_0_r, Rmult_0_l. unfold distance2. transitivity (rupto (m_nx m) (fun _ => 0)).
    + apply rupto_ext. intros i Hi. rewrite (Y0 i Hi). ring.
    + rewrite Conv3_proofs.rupto_const. ring.
  - rewrite <- Et in *.
    assert (SE : forall k q, nth_error tr k = Some q -> solved_relaxed C (snd q) (rho k)) by (intros k q Hq; exact (proj1 (SS k q Hq))).
    assert (SW : forall k, (k < length tr)%nat -> step_within C m act near D M h eps r L (rho k)).
    { intros k Hk. destruct (nth_error tr k) as [q|] eqn:Ek; [exact (proj2 (SS k q Ek))|apply nth_error_None in Ek; lia]. }
    assert (TX : forall k q, nth_error tr k = Some q -> exists X, relaxed_trajectory (the_opts C) (cn_tab C) m (rho k) near D (K * M * h) eps X).
    { intros k q Hq. destruct (SS k q Hq) as [A [B1 B2 B3 B4 B5 B6]].
      exact (HK lr d o m oc C (rho k) act near D M h eps FP (sr_feasible _ _ _ A) CS Me MR e0 B1 B2 B3 M0 B4). }
    assert (N1 : o_N_stages (the_opts C) = 1%nat) by exact (run_N1 lr cp d o m oc C FP x0 Nsim pv pc wi lp LI).
    assert (h0 : 0 <= h).
    { pose proof (sw_steps _ _ _ _ _ _ _ _ _ _ _ (SW 0%nat ltac:(rewrite Et; cbn; lia)) 0%nat 0%nat) as G.
      assert (G' : is_element (the_opts C) 0 0) by (apply (r_elem C N1), (ne_pos _ _ _ _ _ _ _ FP N1)). specialize (G G'). lra. }
    assert (d0 : 0 <= K * M * h) by (apply Rmult_le_pos; [apply Rmult_le_pos; assumption|exact h0]).
    exact (run_error lr cp d o m oc C FP EX HS nlp x0 Nsim pv pc wi lp s tr lp' rho LI SI SE act near D M h eps r L (K * M * h) Y SW TX RY YD L0 M0 d0 r0 j tm x Hj Hx).
Qed.

(* refinement: steps of length h and relaxation eps, over simulations of length up to H *)
Lemma simulation_convergence cp sc n nx L M kappa H : 0 <= L -> 0 <= M -> 0 <= kappa -> 0 <= H -> exists B, 0 <= B /\
  forall lr d o m oc C nlp x0 Nsim pv pc wi lp s tr lp' rho act near D h eps Y, fesd_problem lr cp d o m oc C -> extractable (the_opts C) m ->
  (o_pss (the_opts C) = Stewart \/ (gS_given m = false /\ n_subsystems m = 1%nat)) ->
  relaxed_setting cp (the_opts C) m -> method Integral sc n (the_opts C) -> near_rule (the_opts C) m act near -> (m_nx m <= nx)%nat ->
  looper_init (cn_prob C) x0 Nsim pv pc wi = Ok lp -> simulation nlp C m 0 lp s tr lp' ->
  (forall k q, nth_error tr k = Some q -> solved_relaxed C (snd q) (rho k) /\ step_within C m act near D M h eps (kappa * eps) L (rho k)) ->
  0 <= h <= 1 -> 0 <= eps <= 1 ->
  run_solution (the_opts C) m act rho tr x0 Y -> (forall tm, 0 <= tm <= elapsed tr (length tr) -> D (Y tm)) ->
  forall j tm x, nth_error (looper_t_grid lp') j = Some tm -> nth_error (lp_X_sim lp') j = Some x -> 0 <= tm <= H ->
  distance2 m (fun i => nth i x 0) (Y tm) <= B * (h + eps).
Proof.
  intros L0 M0 k0 H0. destruct (simulation_error cp Integral sc n) as (K & K0 & HK). exists (relaxed_rate (INR nx) L M K kappa H).
  split; [apply relaxed_rate_nonneg; try assumption; apply pos_INR|].
  intros lr d o m oc C nlp x0 Nsim pv pc wi lp s tr lp' rho act near D h eps Y FP EX HS CS Me MR Hn LI SI SS Hh He RY YD j tm x Hj Hx Ht.
  assert (r0 : 0 <= kappa * eps) by (apply Rmult_le_pos; lra).
  eapply Rle_trans; [exact (HK lr d o m oc C nlp x0 Nsim pv pc wi lp s tr lp' rho act near D M h eps (kappa * eps) L Y FP EX HS CS Me MR LI SI SS (proj1 He) M0 r0 L0 RY YD j tm x Hj Hx)|].
  exact (relaxed_bound_rate _ _ _ _ _ _ _ _ H _ nx (proj1 Me) Hn L0 M0 K0 k0 Hh He Ht).
Qed.

Lemma apart {A} (l k : list A) : NoDup (l ++ k) -> forall y, In y l -> ~ In y k.
Proof.
  induction l as [|a l IH]; intros N y Hy Hk; [exact Hy|]. cbn in N. inversion N as [|? ? N1 N2]. subst. destruct Hy as [->|Hy]; [apply N1, in_or_app; auto|exact (IH N2 y Hy Hk)].
Qed.
(* other values of sigma and tau *)
Definition with_relaxation (rho : env) (sg tau : R) : env := fun y => match y with SSigma => sg | STau => tau | _ => rho y end.
Lemma product_relaxation o t m rho sg tau r : product o t m (with_relaxation rho sg tau) r <-> product o t m rho r.
Proof.
  split; intros G.
  - destruct G as [c e j k A B D E F|c e j jj k A B D E F G|c e j k A B D E F]; [exact (pr_left o t m rho c e j k A B D E F)|exact (pr_cross o t m rho c e j jj k A B D E F G)|exact (pr_same o t m rho c e j k A B D E F)].
  - destruct G as [c e j k A B D E F|c e j jj k A B D E F G|c e j k A B D E F].
    + exact (pr_left o t m (with_relaxation rho sg tau) c e j k A B D E F).
    + exact (pr_cross o t m (with_relaxation rho sg tau) c e j jj k A B D E F G).
    + exact (pr_same o t m (with_relaxation rho sg tau) c e j k A B D E F).
Qed.
Lemma residual_relaxation lr cp d o m oc C rho sg tau : construct_problem lr cp d o m oc = Ok C -> comp_residual C (with_relaxation rho sg tau) = comp_residual C rho.
Proof.
  intros H. destruct (residual_max _ _ _ _ _ _ _ rho H) as (_ & A & B). destruct (residual_max _ _ _ _ _ _ _ (with_relaxation rho sg tau) H) as (_ & A' & B').
  apply Rle_antisym; [apply A, (product_relaxation _ _ _ _ sg tau), B'|apply A', product_relaxation, B].
Qed.

(* the residual that the code computes is what is needed of each step *)
Lemma simulation_residual lr cp d o m oc C nlp s s' out h rho tol : fesd_problem lr cp d o m oc C ->
  (o_pss (the_opts C) = Stewart \/ (gS_given m = false /\ n_subsystems m = 1%nat)) -> sized C m s -> solve nlp C s = (s', Ok out) ->
  o_do_polishing (the_opts C) = false -> last_is (so_steps out) h -> primal C rho = so_w_sol out -> feasible rho (the_nlp C) ->
  (forall i y v, nth_error (p_p (the_problem C)) i = Some y -> nth_error (nc_p (hs_call h)) i = Some v -> y = SSigma \/ y = STau \/ rho y = v) ->
  hs_comp h <= tol -> solved_relaxed C out rho /\ relaxed_by (the_opts C) m rho tol.
Proof.
  intros FP HS Z E NP LA EP FE EQ Hc. destruct (solve_count _ _ _ _ _ _ _ (proj1 FP) nlp s s' out E) as (_ & _ & _ & _ & _ & CR & _).
  destruct (solve_last _ _ _ _ _ _ _ (proj1 FP) nlp s s' out E) as (_ & _ & _ & c & r & _ & EW & _ & LP & _). destruct (LP NP) as (h' & LA' & _ & Er).
  assert (Eh : h' = h) by (destruct LA as [_ LA], LA' as [_ LA']; congruence). subst h'.
  assert (Ih : In h (so_steps out)) by exact (nth_error_In _ _ (proj2 LA)).
  split; [split; [exact EP|exact FE|exists h; split; assumption]|].
  apply (relaxed_by_residual lr cp d o m oc C rho FP). rewrite <- (residual_relaxation _ _ _ _ _ _ _ rho (hs_sigma h) (hs_tau h) (proj1 FP)).
  rewrite <- (CR _ h (with_relaxation rho (hs_sigma h) (hs_tau h)) (proj2 LA)); [exact Hc| |].
  - transitivity (primal C rho); [|rewrite EP, EW, <- Er; reflexivity]. unfold primal. apply map_ext_in. intros y Hy.
    assert (Ny : ~ In y (p_p (the_problem C))) by exact (apart _ _ (syms_distinct_con _ _ _ _ _ _ _ (proj1 FP)) y Hy).
    rewrite (p_layout _ _ _ _ _ _ _ (proj1 FP)), !in_app_iff in Ny. destruct y; try reflexivity; exfalso; apply Ny; right; left; cbn; auto.
  - pose proof (pass_parameters lr cp d o m oc C (proj1 FP) nlp s s' out E (proj2 (proj2 FP)) Z HS h Ih) as B. unfold parameters.
    clear - B EQ. revert EQ B. generalize (p_p (the_problem C)) as ps, (nc_p (hs_call h)) as vs. intros ps vs EQ B. induction B as [|y v ps vs B1 B IH]; [reflexivity|].
    cbn [map]. f_equal; [|apply IH; intros i y' v' Hy Hv; exact (EQ (S i) y' v' Hy Hv)].
    destruct (EQ 0%nat y v eq_refl eq_refl) as [->|[->|G]]; [symmetry; exact B1|symmetry; exact B1|]. destruct y; try exact G; symmetry; exact B1.
Qed.
