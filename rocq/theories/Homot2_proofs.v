(* Homot2_proofs.v -- the NLP at other values of sigma and tau *)
From Coq Require Import Reals Qreals Lra Lia.
From Verif Require Import Base Lib Sx Sx_proofs Utils Tableau Opts Model Ocp Problem Spec Fesd Spec2 Spec3 Spec11 Spec30 Index3_proofs Dcs_proofs Feas_proofs Exact_proofs Syms_proofs Bounds_proofs Nlp_proofs Exist3_proofs Homot_proofs.
Local Open Scope R_scope.

Section Sigma.
Variables (o : opts) (t : tab) (m : model) (oc : ocp) (rho : env) (sg tau : R).
Notation rho' := (with_relaxation rho sg tau).
Hypothesis FR : free_of_relaxation m oc.

Lemma ev e c k jz jf x : (user_expression m oc e \/ e = ECst 0) -> eval (at_point m rho' c k jz jf x) e = eval (at_point m rho c k jz jf x) e.
Proof.
  intros [U|E]; [|subst e; reflexivity]. apply eval_ext. intros y Hy. destruct (FR e U y Hy) as [N1 N2].
  destruct y; try reflexivity; congruence.
Qed.
Lemma ev_nth l i c k jz jf x : (forall e, In e l -> user_expression m oc e) ->
  eval (at_point m rho' c k jz jf x) (nth i l (ECst 0)) = eval (at_point m rho c k jz jf x) (nth i l (ECst 0)).
Proof.
  intros U. apply ev. destruct (Nat.lt_ge_cases i (length l)) as [L|L]; [left; apply U, nth_In, L|right; apply nth_overflow, L].
Qed.
Lemma ev_switch s k c e jz jf x : switch_value m (at_point m rho' c e jz jf x) s k = switch_value m (at_point m rho c e jz jf x) s k.
Proof. apply ev_nth. intros a Ha. right. left. exists s. left. exact Ha. Qed.
Lemma ev_region s k c e jz jf x : region_value m (at_point m rho' c e jz jf x) s k = region_value m (at_point m rho c e jz jf x) s k.
Proof.
  unfold region_value. destruct (gS_given m); [apply ev_nth; intros a Ha; right; left; exists s; right; exact Ha|].
  f_equal. f_equal. apply map_ext_in. intros [q a] Hp. apply in_combine_r in Hp. cbn [fst snd]. f_equal. apply ev. left. right. left. exists s. left. exact Hp.
Qed.
Lemma ev_field s k i c e jz jf x : mode_field m (at_point m rho' c e jz jf x) s k i = mode_field m (at_point m rho c e jz jf x) s k i.
Proof.
  unfold mode_field. destruct (Nat.lt_ge_cases k (length (user_F m s))) as [L|L].
  - apply ev_nth. intros a Ha. left. exists s, (nth k (user_F m s) []). split; [apply nth_In, L|exact Ha].
  - rewrite (nth_overflow (user_F m s)) by exact L. apply ev_nth. intros a [].
Qed.
Lemma ev_rhs i c e jz jf x : rhs o m (at_point m rho' c e jz jf x) i = rhs o m (at_point m rho c e jz jf x) i.
Proof.
  unfold rhs. destruct (m_F m).
  - apply rupto_ext. intros s _. apply rupto_ext. intros k _. rewrite ev_field. f_equal.
  - apply ev_nth. intros a Ha. right. right. left. exact Ha.
Qed.
Lemma ev_switching c e jz jf x : switching_ok o m (at_point m rho c e jz jf x) -> switching_ok o m (at_point m rho' c e jz jf x).
Proof.
  intros H s k Hs Hk. rewrite <- (H s k Hs Hk). unfold switching_residual. destruct (o_pss o); [rewrite ev_region|rewrite ev_switch]; reflexivity.
Qed.
Lemma ev_user c e jz jf x : user_ok m (at_point m rho c e jz jf x) -> user_ok m (at_point m rho' c e jz jf x).
Proof. intros H a Ha. rewrite <- (H a Ha). apply ev. left. right. right. right. left. exact Ha. Qed.
Lemma ev_path c x : path_holds m oc rho c x -> path_holds m oc rho' c x.
Proof.
  intros H i Hi. specialize (H i Hi). unfold plain_point in *. rewrite ev_nth; [exact H|].
  intros a Ha. do 5 right. left. exact Ha.
Qed.

Hypothesis RM : forall xs y, relaxed o rho xs y -> relaxed o rho' xs y.
Lemma ev_row c e jz jf x r : In r (oc_comp oc) -> row_ok o rho (at_point m rho c e jz jf x) r -> row_ok o rho' (at_point m rho' c e jz jf x) r.
Proof.
  intros Hr H. unfold row_ok in *. rewrite !ev; [apply RM, H| |]; left; do 9 right; exists r; auto.
Qed.

Lemma element_relaxed c e : element_ok o t m oc rho c e -> element_ok o t m oc rho' c e.
Proof.
  intros (A & Co & Cn & Pa & Bo & Pc & Cr & St). repeat apply conj.
  - intros j Hj. destruct (A j Hj) as (A1 & A2 & A3). split; [exact (ev_switching _ _ _ _ _ A1)|]. split; [exact A2|exact (ev_user _ _ _ _ _ A3)].
  - intros j i Hj Hi. specialize (Co j i Hj Hi). cbv zeta in *. unfold stage_point in *. rewrite ev_rhs. exact Co.
  - exact Cn.
  - intros Q. exact (ev_path _ _ (proj1 Pa Q)).
  - intros Q j Hj. exact (ev_path _ _ (proj2 Pa Q j Hj)).
  - intros Q1 Q2. exact (ev_switching _ _ _ _ _ (Bo Q1 Q2)).
  - intros r Hr Hs j Hj. exact (ev_row _ _ _ _ _ r Hr (proj1 Pc r Hr Hs j Hj)).
  - intros Q r Hr Hs. exact (ev_row _ _ _ _ _ r Hr (proj2 Pc Q r Hr Hs)).
  - intros j k Hj Hk. specialize (Cr j k Hj Hk). cbv zeta in *. destruct (o_use_fesd o); [|exact (RM _ _ Cr)]. destruct (o_cross o).
    + destruct Cr as [C1 C2]. split; [exact (RM _ _ C1)|intros jj Hjj; exact (RM _ _ (C2 jj Hjj))].
    + exact (RM _ _ Cr).
  - intros Q He. specialize (St Q He). destruct (o_step_eq o); try exact St; exact (RM _ _ St).
Qed.
Lemma nlp_relaxed : nlp_constraints o t m oc rho -> nlp_constraints o t m oc rho'.
Proof.
  intros (E & S & H & Te & Gc). repeat apply conj.
  - intros c e Hc He. apply element_relaxed, E; assumption.
  - intros c Hc. destruct (S c Hc) as [S1 S2]. split; [exact S1|]. intros Q1 Q2 tv Htv. specialize (S2 Q1 Q2 tv Htv). unfold plain_point in *.
    rewrite !ev; [exact S2| |]; left; do 4 right; left; exact Htv.
  - exact H.
  - intros e He. rewrite <- (Te e He). apply ev. left. do 6 right. left. exact He.
  - intros r Hr Hg. exact (ev_row _ _ _ _ _ r Hr (Gc r Hr Hg)).
Qed.
Lemma cost_relaxed : plain_cost o t m oc rho' = plain_cost o t m oc rho.
Proof.
  unfold plain_cost. f_equal.
  - apply rupto_ext. intros c _. apply rupto_ext. intros e _. f_equal. apply rupto_ext. intros j _. unfold stage_point. rewrite ev; [reflexivity|].
    left. do 7 right. left. reflexivity.
  - apply ev. left. do 8 right. left. reflexivity.
Qed.
End Sigma.

(* ---- the problem built by nosnoc ---- *)
Section Con.
Variables (lr : Q -> Q -> Q -> nat) (cp : nat -> scheme -> list Q) (d : ipopt_dict) (o : opts) (m : model) (oc : option ocp) (C : constructed).
Hypothesis FP : fesd_problem lr cp d o m oc C.
Notation O := (the_opts C).

Lemma w_free y : In y (w (the_nlp C)) -> y <> SSigma /\ y <> STau.
Proof. intros Hy. pose proof (sym_in_w _ _ _ _ _ _ _ _ (proj1 FP) Hy) as R. split; intros ->; exact R. Qed.
Lemma bounds_relaxed rho sg tau : bounds_ok rho (the_nlp C) -> bounds_ok (with_relaxation rho sg tau) (the_nlp C).
Proof.
  intros B i y l u H1 H2 H3. specialize (B i y l u H1 H2 H3). destruct (w_free y (nth_error_In _ _ H1)) as [N1 N2].
  destruct y; try exact B; congruence.
Qed.
Lemma feasible_relaxed rho sg tau : o_mpcc O <> MBoolean -> free_of_relaxation m (the_ocp oc) ->
  (forall xs y, relaxed O rho xs y -> relaxed O (with_relaxation rho sg tau) xs y) ->
  feasible rho (the_nlp C) -> feasible (with_relaxation rho sg tau) (the_nlp C).
Proof.
  intros NB FR RM F. pose proof (proj1 F) as B. apply (feasible_set _ _ _ _ _ _ _ _ FP NB) in F. destruct F as [_ F].
  pose proof FP as (H & E & W). assert (NB' : o_mpcc o <> MBoolean) by (intros A; apply NB; rewrite (options_kept _ _ _ _ _ _ _ H); exact A).
  split; [apply bounds_relaxed, B|]. apply (nlp_exact lr cp d o m oc C H E W _ NB'). apply nlp_relaxed; assumption.
Qed.
Lemma plain_cost_relaxed rho sg tau : elastic O = false -> free_of_relaxation m (the_ocp oc) ->
  eval (with_relaxation rho sg tau) (cost (the_nlp C)) = eval rho (cost (the_nlp C)).
Proof.
  intros El FR. pose proof FP as (H & E & W). rewrite !(cost_exact lr cp d o m oc C H E W). unfold nlp_cost. rewrite El. apply cost_relaxed, FR.
Qed.
End Con.
