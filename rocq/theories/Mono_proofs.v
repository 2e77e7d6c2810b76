(* Mono_proofs.v -- the objectives along the homotopy *)
From Coq Require Import Reals Qreals Lra Lia.
From Verif Require Import Base Sx Utils Tableau Opts Model Ocp Problem Solver Spec Cases Fesd Spec2 Spec3 Spec4 Spec5 Spec30 Witness Nlp_proofs FeZero_proofs Init_proofs Bounds_proofs Init2_proofs Feas6_proofs Homot2_proofs Homot3_proofs Solve2_proofs Sigma_proofs Solve4_proofs.
Local Open Scope R_scope.

Section Con.
Variables (lr : Q -> Q -> Q -> nat) (cp : nat -> scheme -> list Q) (d : ipopt_dict) (o : opts) (m : model) (oc : option ocp) (C : constructed).
Notation O := (the_opts C).
Notation f := (the_nlp C).
Notation J := (plain_cost O (cn_tab C) m (the_ocp oc)).
Hypothesis FP : fesd_problem lr cp d o m oc C.
Hypothesis FR : free_of_relaxation m (the_ocp oc).

Lemma same_sym v v' : same_data C v v' -> same_data C v' v.
Proof. intros D y H1 H2 H3. symmetry. apply D; assumption. Qed.
Lemma same_refl v : same_data C v v. Proof. intros y _ _ _. reflexivity. Qed.
Lemma scholtes_mono v v' : o_mpcc O = ScholtesIneq -> solution_of C v -> feasible v' f -> same_data C v v' -> v' SSigma <= v SSigma ->
  eval v (cost f) <= eval v' (cost f).
Proof.
  intros Sc [_ S] F D Le. destruct (larger_sigma lr cp d o m oc C v' (v SSigma) (v STau) FP Sc FR Le F) as [F' E]. rewrite <- E. apply S; [exact F'|].
  apply (moved_data C v v' v' D). reflexivity.
Qed.
Lemma elastic_mono v v' : elastic O = true -> solution_of C v -> solution_of C v' -> same_data C v v' -> 0 < v' SSigma -> v' SSigma < v SSigma ->
  J v <= J v' /\ v' SElastic <= v SElastic.
Proof.
  intros El S S' D P Lt. assert (P' : 0 < v SSigma) by lra.
  pose proof (elastic_compare lr cp d o m oc C v v v' FP El FR S P' (same_refl v) (proj1 S') (same_sym _ _ D)) as L1.
  pose proof (elastic_compare lr cp d o m oc C v' v v FP El FR S' P (same_sym _ _ D) (proj1 S) (same_refl v)) as L2.
  assert (X : J v <= J v'). { apply (Rmult_le_reg_l (v SSigma - v' SSigma)); lra. }
  split; [exact X|]. assert (v' SSigma * J v <= v' SSigma * J v') by (apply Rmult_le_compat_l; lra). lra.
Qed.
Lemma elastic_low v : elastic O = true -> (0 <= o_s_elastic_min O)%Q -> feasible v f -> 0 <= v SElastic.
Proof.
  intros El Hm [B _]. assert (NB : o_mpcc O <> MBoolean) by (intros E; unfold elastic in El; rewrite E in El; discriminate).
  apply (bounds_iff _ _ _ _ _ _ _ (proj1 FP) v NB) in B. destruct B as [B _]. destruct (B El) as [L _]. cbn in L. apply Qle_Rle in Hm. rewrite RMicromega.Q2R_0 in Hm. lra.
Qed.
Lemma elastic_exact v sg tau : elastic O = true -> (0 <= o_s_elastic_min O)%Q -> solution_of C v -> v SElastic = 0 -> 0 < sg <= v SSigma ->
  solution_of C (with_relaxation v sg tau) /\ forall v', feasible v' f -> same_data C v' v -> v' SElastic = 0 -> J v <= J v'.
Proof.
  intros El Hm S Z [P Le]. assert (Pv : 0 < v SSigma) by lra.
  assert (K : forall v', feasible v' f -> same_data C v' v -> v SSigma * J v <= v SSigma * J v' + v' SElastic).
  { intros v' F D. pose proof (elastic_compare lr cp d o m oc C v v v' FP El FR S Pv (same_refl v) F D) as L. lra. }
  split.
  - split; [apply (elastic_any lr cp d o m oc C); try assumption; apply S|]. intros v' F D.
    assert (D' : same_data C v' v). { intros y Hy N1 N2. rewrite (D y Hy). destruct y; try reflexivity; congruence. }
    assert (Es : v' SSigma = sg) by (rewrite (D SSigma (sigma_in _ _ _ _ _ _ _ (proj1 FP))); reflexivity).
    pose proof (K v' F D') as L. pose proof (elastic_low v' El Hm F) as N.
    assert (G : sg * J v <= sg * J v' + v' SElastic).
    { apply (Rmult_le_reg_l (v SSigma)); [exact Pv|]. apply (Rmult_le_compat_l sg) in L; [|lra]. assert (sg * v' SElastic <= v SSigma * v' SElastic) by (apply Rmult_le_compat_r; lra). lra. }
    pose proof FP as (H & E & W). rewrite !(cost_exact lr cp d o m oc C H E W). unfold nlp_cost. rewrite El.
    rewrite (cost_relaxed O (cn_tab C) m (the_ocp oc) v _ _ FR). rewrite Es. cbn [with_relaxation]. rewrite Z.
    destruct (o_obj_direct O); [|lra]. apply (Rmult_le_reg_l sg); [exact P|].
    replace (sg * (J v + 0 / sg)) with (sg * J v) by (field; lra). replace (sg * (J v' + v' SElastic / sg)) with (sg * J v' + v' SElastic) by (field; lra). exact G.
  - intros v' F D Z'. pose proof (K v' F D) as L. rewrite Z', Rplus_0_r in L. apply (Rmult_le_reg_l (v SSigma)); assumption.
Qed.
Lemma elastic_rate v v' : elastic O = true -> (0 <= o_s_elastic_min O)%Q -> solution_of C v -> 0 < v SSigma -> feasible v' f -> same_data C v' v -> v' SElastic = 0 ->
  J v <= J v' /\ 0 <= v SElastic <= v SSigma * (J v' - J v).
Proof.
  intros El Hm S P F D Z. pose proof (elastic_compare lr cp d o m oc C v v v' FP El FR S P (same_refl v) F D) as L. rewrite Z in L. pose proof (elastic_low v El Hm (proj1 S)) as N.
  split; [apply (Rmult_le_reg_l (v SSigma)); lra|]. lra.
Qed.

(* the passes of solve() use the same data *)
Lemma app_same {A} (a b a' b' : list A) : length a = length a' -> a ++ b = a' ++ b' -> a = a' /\ b = b'.
Proof. revert a'. induction a as [|x a IH]; intros [|x' a'] L E; cbn in *; try discriminate; [auto|]. injection E as -> E. injection L as L. destruct (IH _ L E). subst. auto. Qed.
Lemma map_same (v v' : env) l : map v l = map v' l -> forall y, In y l -> v y = v' y.
Proof. induction l as [|z l IH]; intros E y Y; [contradiction|]. cbn in E. injection E as E1 E2. destruct Y as [<-|Y]; [exact E1|apply IH; assumption]. Qed.
Lemma concat_length {A} (l : list (list A)) k : (forall r, In r l -> length r = k) -> length (concat l) = (length l * k)%nat.
Proof. intros H. induction l as [|r l IH]; [reflexivity|]. cbn. rewrite app_length, (H r (or_introl eq_refl)), IH; [reflexivity|]. intros r' Hr. apply H. right. exact Hr. Qed.
Lemma passes_same nlp s n lam lb ub first l h h' v v' : sized C m s -> passes nlp C s n lam lb ub first l -> In h l -> In h' l ->
  parameters C v = nc_p (hs_call h) -> parameters C v' = nc_p (hs_call h') -> same_data C v v' /\ v SSigma = hs_sigma h /\ v' SSigma = hs_sigma h'.
Proof.
  intros Z P Hh Hh' Pv Pv'. apply In_nth_error in Hh as [k Hk]. apply In_nth_error in Hh' as [k' Hk'].
  destruct (pa_call _ _ _ _ _ _ _ _ _ P k h Hk) as (_ & _ & _ & _ & _ & E). destruct (pa_call _ _ _ _ _ _ _ _ _ P k' h' Hk') as (_ & _ & _ & _ & _ & E').
  rewrite E in Pv. rewrite E' in Pv'. unfold parameters in Pv, Pv'. rewrite (p_layout _ _ _ _ _ _ _ (proj1 FP)) in Pv, Pv'. unfold same_data. rewrite (p_layout _ _ _ _ _ _ _ (proj1 FP)).
  set (A := concat (map (fun c => map (SPst c) (seq 0 (m_npt m + m_npg m))) (seq 0 (o_N_stages O)))) in *. set (B := lam0 _ _ ++ _) in *.
  assert (L : length A = length (concat (ss_pval s))).
  { unfold A. rewrite (concat_length _ (m_npt m + m_npg m)), (concat_length (ss_pval s) (m_npt m + m_npg m)); [rewrite map_length, seq_length, (sz_pval _ _ _ Z); reflexivity|apply (sz_rows _ _ _ Z)|].
    intros r Hr. apply in_map_iff in Hr as (c & <- & _). rewrite map_length, seq_length. reflexivity. }
  rewrite map_app in Pv, Pv'. apply app_same in Pv as [A1 B1]; [|rewrite map_length; exact L]. apply app_same in Pv' as [A2 B2]; [|rewrite map_length; exact L].
  cbn [map app] in B1, B2. injection B1 as S1 T1 B1. injection B2 as S2 T2 B2.
  split; [|split; assumption]. intros y Hy N1 N2. apply in_app_or in Hy as [Hy|[Hy|[Hy|Hy]]]; [|congruence|congruence|].
  - apply (map_same v v' A); [congruence|exact Hy].
  - apply (map_same v v' B); [congruence|exact Hy].
Qed.
Lemma run_data nlp s s' out i j h h' v v' : sized C m s -> (0 < Q2R (o_sigma_0 O)) -> (0 < Q2R (o_slope O) < 1) -> solve nlp C s = (s', Ok out) ->
  (i < j)%nat -> nth_error (so_steps out) i = Some h -> nth_error (so_steps out) j = Some h' ->
  parameters C v = nc_p (hs_call h) -> parameters C v' = nc_p (hs_call h') -> same_data C v v' /\ 0 < v' SSigma /\ v' SSigma < v SSigma.
Proof.
  intros Z S0 [Sl S1] E Hij Hi Hj Pv Pv'. destruct (solve_passes _ _ _ _ _ _ _ _ _ _ _ (proj1 FP) (max_iter_pos _ _ _ _ _ _ _ (proj1 FP)) E) as (s1 & lam & w1 & lb & ub & _ & _ & PA & _).
  destruct (passes_same _ _ _ _ _ _ _ _ h h' v v' Z PA (nth_error_In _ _ Hi) (nth_error_In _ _ Hj) Pv Pv') as (D & -> & ->). split; [exact D|].
  split; [exact (pass_pos _ _ _ _ _ _ _ _ _ PA S0 Sl j h' Hj)|].
  apply (pass_decreasing _ _ _ _ _ _ _ _ _ PA S0 Sl (j - S i) S1 i h h' Hi). replace (i + S (j - S i))%nat with j by lia. exact Hj.
Qed.
Lemma run_scholtes nlp s s' out i j h h' v v' : o_mpcc O = ScholtesIneq -> sized C m s -> (0 < Q2R (o_sigma_0 O)) -> (0 < Q2R (o_slope O) < 1) -> solve nlp C s = (s', Ok out) ->
  (i < j)%nat -> nth_error (so_steps out) i = Some h -> nth_error (so_steps out) j = Some h' ->
  parameters C v = nc_p (hs_call h) -> parameters C v' = nc_p (hs_call h') -> solution_of C v -> feasible v' f -> eval v (cost f) <= eval v' (cost f).
Proof.
  intros Sc Z S0 Sl E Hij Hi Hj Pv Pv' S F. destruct (run_data nlp s s' out i j h h' v v' Z S0 Sl E Hij Hi Hj Pv Pv') as (D & _ & L).
  apply scholtes_mono; try assumption. lra.
Qed.
Lemma run_elastic nlp s s' out i j h h' v v' : elastic O = true -> sized C m s -> (0 < Q2R (o_sigma_0 O)) -> (0 < Q2R (o_slope O) < 1) -> solve nlp C s = (s', Ok out) ->
  (i < j)%nat -> nth_error (so_steps out) i = Some h -> nth_error (so_steps out) j = Some h' ->
  parameters C v = nc_p (hs_call h) -> parameters C v' = nc_p (hs_call h') -> solution_of C v -> solution_of C v' -> J v <= J v' /\ v' SElastic <= v SElastic.
Proof.
  intros El Z S0 Sl E Hij Hi Hj Pv Pv' S S'. destruct (run_data nlp s s' out i j h h' v v' Z S0 Sl E Hij Hi Hj Pv Pv') as (D & P & L).
  apply elastic_mono; assumption.
Qed.
End Con.
