(* Homot3_proofs.v -- limits of the solutions of the relaxed problems *)
From Coq Require Import Reals Qreals Lra Lia ConstructiveEpsilon.
From Verif Require Import Base Lib Sx Sx_proofs Utils Tableau Opts Model Ocp Problem Spec Fesd Spec2 Spec3 Spec11 Spec30 Index3_proofs Dcs_proofs Feas_proofs Exact_proofs Syms_proofs Bounds_proofs
  Nlp_proofs Fix_proofs Init2_proofs Exist3_proofs Homot_proofs Homot2_proofs.
Local Open Scope R_scope.

(* ---- sums, products and the cost along sequences ---- *)
Lemma cv_rsum {A} (l : list A) (f : nat -> A -> R) (h : A -> R) : (forall a, In a l -> Un_cv (fun k => f k a) (h a)) -> Un_cv (fun k => rsum (map (f k) l)) (rsum (map h l)).
Proof.
  induction l as [|a l IH]; intros H; cbn [map rsum fold_right]; [apply cv_const|].
  apply CV_plus; [apply H; left; reflexivity|apply IH; intros; apply H; right; assumption].
Qed.
Lemma cv_rupto n (f : nat -> nat -> R) (h : nat -> R) : (forall i, (i < n)%nat -> Un_cv (fun k => f k i) (h i)) -> Un_cv (fun k => rupto n (f k)) (rupto n h).
Proof. intros H. unfold rupto. apply cv_rsum. intros i Hi. apply H. apply in_seq in Hi. lia. Qed.
Lemma cv_rprod {A} (l : list A) (f : nat -> A -> R) (h : A -> R) : (forall a, In a l -> Un_cv (fun k => f k a) (h a)) -> Un_cv (fun k => rprod (map (f k) l)) (rprod (map h l)).
Proof.
  induction l as [|a l IH]; intros H; cbn [map rprod fold_right]; [apply cv_const|].
  apply CV_mult; [apply H; left; reflexivity|apply IH; intros; apply H; right; assumption].
Qed.
Lemma cv_scal c u a : Un_cv u a -> Un_cv (fun k => c * u k) (c * a).
Proof. intros U. apply CV_mult; [apply cv_const|exact U]. Qed.
Lemma cv_pow u a n : Un_cv u a -> Un_cv (fun k => u k ^ n) (a ^ n).
Proof. intros U. induction n as [|n IH]; cbn [pow]; [apply cv_const|apply CV_mult; assumption]. Qed.

Section Cost.
Variables (o : opts) (t : tab) (m : model) (oc : ocp) (r : nat -> env) (rho : env).
Hypothesis A : forall y, Un_cv (fun k => r k y) (rho y).

Lemma cv_step c e : Un_cv (fun k => step_len o (r k) c e) (step_len o rho c e).
Proof. unfold step_len. destruct (o_use_fesd o); [apply A|apply cv_const]. Qed.
Lemma cv_speed c : Un_cv (fun k => speed o (r k) c) (speed o rho c).
Proof. unfold speed. destruct (o_sot o); try apply cv_const; apply A. Qed.
Lemma cv_start c e i : Un_cv (fun k => start_state o t (r k) c e i) (start_state o t rho c e i).
Proof. unfold start_state, state_at, end_state. destruct (before o c e) as [[c' e']|]; apply A. Qed.
Lemma cv_stage c e j i : Un_cv (fun k => stage_state o t (r k) c e j i) (stage_state o t rho c e j i).
Proof.
  unfold stage_state. destruct (o_repr o); try apply A. apply CV_plus; [apply cv_start|]. apply CV_mult; [apply cv_step|].
  apply cv_rupto. intros q _. apply cv_scal, A.
Qed.
Lemma cv_point c e jz jf x v y : (forall i, Un_cv (fun k => x k i) (v i)) -> Un_cv (fun k => at_point m (r k) c e jz jf (x k) y) (at_point m rho c e jz jf v y).
Proof. intros X. destruct y; cbn [at_point]; first [apply X|apply A]. Qed.

Definition entries (f : env -> list R) : Prop := forall n, Un_cv (fun k => ent (f (r k)) n) (ent (f rho) n).
Lemma cv_list (l : list sym) : entries (fun v => map v l).
Proof.
  intros n. unfold ent. destruct (Nat.lt_ge_cases n (length l)) as [L|L].
  - apply (cv_ext (fun k => r k (nth n l SSigma))).
    + intros k. rewrite (nth_indep _ 0 (r k SSigma)) by (rewrite map_length; exact L). symmetry. apply (map_nth (r k)).
    + rewrite (nth_indep _ 0 (rho SSigma)) by (rewrite map_length; exact L). rewrite (map_nth rho). apply A.
  - rewrite nth_overflow by (rewrite map_length; exact L). apply (cv_ext (fun _ => 0)); [|apply cv_const].
    intros k. symmetry. apply nth_overflow. rewrite map_length. exact L.
Qed.
Lemma cv_cst n a : (n < 0)%nat -> Un_cv (fun _ => a) a. Proof. lia. Qed.
Lemma cv_app f h : entries f -> entries h -> (forall k, length (f (r k)) = length (f rho)) -> entries (fun v => f v ++ h v).
Proof.
  intros F H L n. unfold ent in *. destruct (Nat.lt_ge_cases n (length (f rho))) as [X|X].
  - apply (cv_ext (fun k => nth n (f (r k)) 0)); [intros k; symmetry; apply app_nth1; rewrite L; exact X|]. rewrite app_nth1 by exact X. apply F.
  - apply (cv_ext (fun k => nth (n - length (f rho)) (h (r k)) 0)); [intros k; symmetry; rewrite app_nth2 by (rewrite L; exact X); rewrite L; reflexivity|].
    rewrite app_nth2 by exact X. apply H.
Qed.
Lemma cv_compl f : entries f -> (forall k, length (f (r k)) = length (f rho)) -> entries (fun v => map (fun a => 1 - a) (f v)).
Proof.
  intros F L n. specialize (F n). unfold ent in *. destruct (Nat.lt_ge_cases n (length (f rho))) as [X|X].
  - apply (cv_ext (fun k => 1 - nth n (f (r k)) 0)).
    + intros k. symmetry. rewrite (nth_indep _ 0 (1 - 0)) by (rewrite map_length, L; exact X). apply (map_nth (fun a => 1 - a)).
    + rewrite (nth_indep _ 0 (1 - 0)) by (rewrite map_length; exact X). rewrite (map_nth (fun a => 1 - a)). apply CV_minus; [apply cv_const|exact F].
  - rewrite nth_overflow by (rewrite map_length; exact X). apply (cv_ext (fun _ => 0)); [|apply cv_const].
    intros k. symmetry. apply nth_overflow. rewrite map_length, L. exact X.
Qed.
Lemma over_map (v : env) (f : nat -> nat -> sym) d : over_systems m (fun s i => v (f s i)) d = map v (concat (map (fun s => map (f s) (seq 0 (d s))) (seq 0 (n_subsystems m)))).
Proof. unfold over_systems. rewrite concat_map, map_map. f_equal. apply map_ext. intros s. rewrite map_map. reflexivity. Qed.
Lemma entries_ext f h : (forall v, f v = h v) -> entries f -> entries h.
Proof. intros E F n. rewrite <- E. apply (cv_ext (fun k => ent (f (r k)) n)); [intros k; rewrite E; reflexivity|apply F]. Qed.
Lemma values_map v f c e j : values o m v f c e j = map v (concat (map (fun s => map (S2 f c e j s) (seq 0 (dim2 o m f s))) (seq 0 (n_subsystems m)))).
Proof. unfold values. apply (over_map v (S2 f c e j)). Qed.
Lemma cv_values f c e j : entries (fun v => values o m v f c e j).
Proof. eapply entries_ext; [intros v; symmetry; apply values_map|]. apply cv_list. Qed.
Lemma len_values v w f c e j : length (values o m v f c e j) = length (values o m w f c e j).
Proof. rewrite !values_map, !map_length. reflexivity. Qed.
Lemma cv_lam c e j n : Un_cv (fun k => ent (lam_vec o m (r k) c e j) n) (ent (lam_vec o m rho c e j) n).
Proof.
  revert n. change (entries (fun v => lam_vec o m v c e j)). unfold lam_vec.
  apply cv_app; [apply cv_values|apply cv_app; [apply cv_values|apply cv_values|]|]; intros; apply len_values.
Qed.
Lemma cv_theta c e j n : Un_cv (fun k => ent (theta_vec o m (r k) c e j) n) (ent (theta_vec o m rho c e j) n).
Proof.
  revert n. change (entries (fun v => theta_vec o m v c e j)). unfold theta_vec.
  apply cv_app; [apply cv_values|apply cv_app; [apply cv_values|apply cv_compl; [apply cv_values|]|]|]; intros; apply len_values.
Qed.
Lemma cv_lam00 : entries (fun v => lam00 o m v).
Proof.
  unfold lam00. cbn [map concat]. repeat apply cv_app; try (intros; rewrite !over_map, !map_length; reflexivity);
    try (eapply entries_ext; [intros v; symmetry; apply over_map|]; apply cv_list). intros n. apply cv_const.
Qed.
Lemma cv_prev c e n : Un_cv (fun k => ent (prev_lam o t m (r k) c e) n) (ent (prev_lam o t m rho c e) n).
Proof. unfold prev_lam, last_lam. destruct (before o c e) as [[c' e']|]; [apply cv_lam|apply cv_lam00]. Qed.
Lemma cv_nu c e : Un_cv (fun k => nu o t m (r k) c e) (nu o t m rho c e).
Proof.
  unfold nu. apply cv_rprod. intros n _.
  assert (L : forall e', Un_cv (fun k => sum_lam o t m (r k) c e' n) (sum_lam o t m rho c e' n)).
  { intros e'. unfold sum_lam. apply CV_plus; [apply cv_rupto; intros; apply cv_lam|apply cv_prev]. }
  assert (Th : forall e', Un_cv (fun k => sum_theta o m (r k) c e' n) (sum_theta o m rho c e' n)).
  { intros e'. unfold sum_theta. apply cv_rupto; intros; apply cv_theta. }
  apply CV_plus; apply CV_mult; auto.
Qed.
Lemma cv_delta c e : Un_cv (fun k => delta_h o (r k) c e) (delta_h o rho c e).
Proof. unfold delta_h. apply CV_minus; apply cv_step. Qed.
Lemma cv_step_cost c e : Un_cv (fun k => step_cost o t m (r k) c e) (step_cost o t m rho c e).
Proof.
  unfold step_cost. destruct (o_use_fesd o); [|apply cv_const]. cbv zeta. destruct (o_step_eq o); try apply cv_const; try (destruct (e =? 0)%nat; [apply cv_const|]).
  - apply cv_scal, cv_pow. apply CV_minus; [apply cv_step|apply cv_const].
  - apply cv_scal, cv_pow, cv_delta.
  - apply CV_mult; [|apply cv_pow, cv_delta]. apply cv_scal. apply (cv_at tanh); [apply tanh_pt|].
    unfold Rdiv. apply CV_mult; [apply cv_nu|apply cv_const].
  - apply CV_mult; [apply cv_scal, cv_nu|apply cv_pow, cv_delta].
Qed.
Lemma cv_plain_cost : regular_costs o t m oc rho -> Un_cv (fun k => plain_cost o t m oc (r k)) (plain_cost o t m oc rho).
Proof.
  intros [R1 R2]. unfold plain_cost. apply CV_plus.
  - unfold running_cost. apply cv_rupto. intros c Hc. apply cv_rupto. intros e He. apply CV_plus; [|apply cv_step_cost].
    unfold stage_cost. apply cv_rupto. intros j Hj. apply CV_mult; [apply cv_scal, cv_step|]. apply CV_mult; [apply cv_speed|].
    apply eval_cv; [|apply R1; assumption]. intros y _. unfold stage_point. apply cv_point. intros i. apply cv_stage.
  - apply eval_cv; [|exact R2]. intros y _. unfold terminal_point, plain_point. apply cv_point. intros i. apply A.
Qed.
End Cost.

(* ---- limits of feasible points and of solutions ---- *)
Section Con.
Variables (lr : Q -> Q -> Q -> nat) (cp : nat -> scheme -> list Q) (d : ipopt_dict) (o : opts) (m : model) (oc : option ocp) (C : constructed).
Notation O := (the_opts C).
Notation f := (the_nlp C).
Notation syms := (w (the_nlp C) ++ p_p (the_problem C)).

Lemma limit_feasible r rho : construct_problem lr cp d o m oc = Ok C -> (forall k, feasible (r k) f) -> converge_in syms r rho ->
  (forall e, In e (g f) -> regular rho e) -> feasible rho f.
Proof.
  intros H F A G. destruct (nlp_known _ _ _ _ _ _ _ H) as (_ & _ & K). split.
  - intros i y l u H1 H2 H3. apply (within_cv l u (fun k => r k y)); [intros k; exact (proj1 (F k) i y l u H1 H2 H3)|].
    apply A, in_or_app. left. eapply nth_error_In, H1.
  - intros j e l u H1 H2 H3. pose proof (nth_error_In _ _ H1) as He.
    apply (within_cv l u (fun k => eval (r k) e)); [intros k; exact (proj2 (F k) j e l u H1 H2 H3)|].
    apply eval_cv; [intros y Hy; apply A, (K e He y Hy)|apply G, He].
Qed.
Lemma larger_sigma rho sg tau : fesd_problem lr cp d o m oc C -> o_mpcc O = ScholtesIneq -> free_of_relaxation m (the_ocp oc) -> rho SSigma <= sg ->
  feasible rho f -> feasible (with_relaxation rho sg tau) f /\ eval (with_relaxation rho sg tau) (cost f) = eval rho (cost f).
Proof.
  intros FP Sc FR Le F. split.
  - apply (feasible_relaxed _ _ _ _ _ _ _ FP); [rewrite Sc; discriminate|exact FR| |exact F].
    intros xs y. unfold relaxed. rewrite Sc. cbn. lra.
  - apply (plain_cost_relaxed _ _ _ _ _ _ _ FP); [|exact FR]. unfold elastic. rewrite Sc. reflexivity.
Qed.
Lemma sigma_in : construct_problem lr cp d o m oc = Ok C -> In SSigma (p_p (the_problem C)).
Proof. intros H. rewrite (p_layout _ _ _ _ _ _ _ H), !in_app_iff. right. left. left. reflexivity. Qed.
Lemma moved_data v rho rho' : same_data C v rho -> (forall y, In y (p_p (the_problem C)) -> y <> SSigma -> y <> STau -> rho' y = rho y) ->
  forall y, In y (p_p (the_problem C)) -> with_relaxation rho' (v SSigma) (v STau) y = v y.
Proof.
  intros D P y Hy. destruct (sym_eq_dec y SSigma) as [->|N1]; [reflexivity|]. destruct (sym_eq_dec y STau) as [->|N2]; [reflexivity|].
  transitivity (rho' y); [destruct y; try reflexivity; congruence|]. rewrite (P y Hy N1 N2). symmetry. apply D; assumption.
Qed.
Lemma solution_limit r rho : fesd_problem lr cp d o m oc C -> o_mpcc O = ScholtesIneq -> free_of_relaxation m (the_ocp oc) ->
  (forall k, solution_of C (r k)) -> (forall k, same_data C (r k) rho) -> (forall k, rho SSigma <= r k SSigma) -> converge_in syms r rho ->
  (forall e, In e (g f) -> regular rho e) -> regular rho (cost f) -> solution_of C rho.
Proof.
  intros FP Sc FR S D Le A G Gc. destruct (nlp_known _ _ _ _ _ _ _ (proj1 FP)) as (Kc & _ & _). split.
  - apply (limit_feasible r rho (proj1 FP)); [intros k; apply S|exact A|exact G].
  - intros rho' F P. apply (cv_le (fun k => eval (r k) (cost f)) (fun _ => eval rho' (cost f))); [|apply eval_cv; [intros y Hy; apply A, (Kc y Hy)|exact Gc]|apply cv_const].
    intros k. assert (Ls : rho' SSigma <= r k SSigma) by (rewrite (P SSigma (sigma_in (proj1 FP))); apply Le).
    destruct (larger_sigma rho' (r k SSigma) (r k STau) FP Sc FR Ls F) as [F' E]. rewrite <- E. apply (proj2 (S k)); [exact F'|].
    apply (moved_data (r k) rho rho'); [apply D|intros y Hy _ _; apply P, Hy].
Qed.

(* elastic modes: the feasible set does not depend on sigma *)
Lemma elastic_any rho sg tau : fesd_problem lr cp d o m oc C -> elastic O = true -> free_of_relaxation m (the_ocp oc) ->
  feasible rho f -> feasible (with_relaxation rho sg tau) f.
Proof.
  intros FP El FR F. apply (feasible_relaxed _ _ _ _ _ _ _ FP); [intros X; unfold elastic in El; rewrite X in El; discriminate|exact FR| |exact F].
  intros xs y. unfold relaxed. unfold elastic in El. destruct (o_mpcc O); try discriminate; intros X; exact X.
Qed.
Lemma elastic_compare v rho rho' : fesd_problem lr cp d o m oc C -> elastic O = true -> free_of_relaxation m (the_ocp oc) ->
  solution_of C v -> 0 < v SSigma -> same_data C v rho -> feasible rho' f -> same_data C rho' rho ->
  v SSigma * plain_cost O (cn_tab C) m (the_ocp oc) v + v SElastic <= v SSigma * plain_cost O (cn_tab C) m (the_ocp oc) rho' + rho' SElastic.
Proof.
  intros FP El FR [_ S] P D F D'. pose proof (S (with_relaxation rho' (v SSigma) (v STau)) (elastic_any _ _ _ FP El FR F) (moved_data v rho rho' D D')) as L.
  pose proof FP as (H & E & W). rewrite !(cost_exact lr cp d o m oc C H E W) in L. unfold nlp_cost in L. rewrite El in L.
  rewrite (cost_relaxed O (cn_tab C) m (the_ocp oc) rho' _ _ FR) in L. cbn [with_relaxation] in L.
  destruct (o_obj_direct O); [|exact L].
  apply (Rmult_le_compat_l (v SSigma)) in L; [|lra]. replace (v SSigma * (plain_cost O (cn_tab C) m (the_ocp oc) v + v SElastic / v SSigma))
    with (v SSigma * plain_cost O (cn_tab C) m (the_ocp oc) v + v SElastic) in L by (field; lra).
  replace (v SSigma * (plain_cost O (cn_tab C) m (the_ocp oc) rho' + rho' SElastic / v SSigma))
    with (v SSigma * plain_cost O (cn_tab C) m (the_ocp oc) rho' + rho' SElastic) in L by (field; lra). exact L.
Qed.
Lemma elastic_limit r rho : fesd_problem lr cp d o m oc C -> elastic O = true -> free_of_relaxation m (the_ocp oc) ->
  (forall k, solution_of C (r k)) -> (forall k, same_data C (r k) rho) -> (forall k, 0 < r k SSigma) -> rho SSigma = 0 -> (forall y, Un_cv (fun k => r k y) (rho y)) ->
  (forall e, In e (g f) -> regular rho e) -> regular_costs O (cn_tab C) m (the_ocp oc) rho ->
  feasible rho f /\
  (forall rho', feasible rho' f -> same_data C rho' rho -> rho SElastic <= rho' SElastic) /\
  forall rho', feasible rho' f -> same_data C rho' rho -> rho' SElastic = rho SElastic -> plain_cost O (cn_tab C) m (the_ocp oc) rho <= plain_cost O (cn_tab C) m (the_ocp oc) rho'.
Proof.
  intros FP El FR S D Ps Z A G Gc. pose proof (cv_plain_cost O (cn_tab C) m (the_ocp oc) r rho A Gc) as PC.
  assert (Min : forall rho', feasible rho' f -> same_data C rho' rho -> rho SElastic <= rho' SElastic).
  { intros rho' F D'. apply (cv_le (fun k => r k SSigma * plain_cost O (cn_tab C) m (the_ocp oc) (r k) + r k SElastic)
      (fun k => r k SSigma * plain_cost O (cn_tab C) m (the_ocp oc) rho' + rho' SElastic)).
    - intros k. apply (elastic_compare (r k) rho rho'); auto.
    - replace (rho SElastic) with (rho SSigma * plain_cost O (cn_tab C) m (the_ocp oc) rho + rho SElastic) by (rewrite Z; ring).
      apply CV_plus; [apply CV_mult; [apply A|exact PC]|apply A].
    - assert (X : Un_cv (fun k => r k SSigma * plain_cost O (cn_tab C) m (the_ocp oc) rho' + rho' SElastic)
        (rho SSigma * plain_cost O (cn_tab C) m (the_ocp oc) rho' + rho' SElastic))
        by (apply CV_plus; [apply CV_mult; [apply A|apply cv_const]|apply cv_const]).
      rewrite Z, Rmult_0_l, Rplus_0_l in X. exact X. }
  split; [|split; [exact Min|]].
  - apply (limit_feasible r rho (proj1 FP)); [intros k; apply S|intros y _; apply A|exact G].
  - intros rho' F D' Es. apply (cv_le (fun k => plain_cost O (cn_tab C) m (the_ocp oc) (r k)) (fun _ => plain_cost O (cn_tab C) m (the_ocp oc) rho')); [|exact PC|apply cv_const].
    intros k. pose proof (elastic_compare (r k) rho rho' FP El FR (S k) (Ps k) (D k) F D') as L.
    pose proof (Min (r k) (proj1 (S k)) (D k)) as L2. specialize (Ps k). apply (Rmult_le_reg_l (r k SSigma)); [exact Ps|]. lra.
Qed.
End Con.
