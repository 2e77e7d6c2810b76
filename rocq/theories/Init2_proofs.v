(* Init2_proofs.v -- initialize, the parameter vector and the progress of the homotopy loop *)
From Coq Require Import Reals Qreals Lra Permutation.
From Verif Require Import Base Lib Sx Sx_proofs Utils Tableau Opts Model Ocp Problem Numeric Rk4 Results Solver Spec Fesd Spec2 Spec3 Spec4 Spec5
  FeMake_proofs FeZero_proofs Prob_proofs Body_proofs Model_proofs Con_proofs Index_proofs Index2_proofs Index3_proofs Nlp_proofs Feas_proofs Lam_proofs Accept_proofs
  Results_proofs Results2_proofs Results4_proofs Solve_proofs Solve2_proofs Vec_proofs Syms_proofs Init_proofs.

Lemma map_bindR_fresh ins vals y x l : ~ In y l -> map (bindR (y :: ins) (x :: vals)) l = map (bindR ins vals) l.
Proof.
  intros N. apply map_ext_in. intros a Ha. cbn [bindR]. destruct (sym_eqb a y) eqn:E; [|reflexivity]. apply sym_eqb_eq in E. subst. contradiction.
Qed.
Lemma bindR_back ins : NoDup ins -> forall vals, length vals = length ins -> map (bindR ins vals) ins = vals.
Proof.
  induction 1 as [|y ins N ND IH]; intros [|x vals] L; try discriminate; [reflexivity|]. cbn in L.
  cbn [map]. f_equal; [cbn; rewrite sym_eqb_refl; reflexivity|]. rewrite map_bindR_fresh by exact N. apply IH. lia.
Qed.
Lemma total_sumn l : total l = sumn l.
Proof. induction l as [|a l IH]; [reflexivity|]. unfold total, sumn in *. cbn. lia. Qed.
Lemma concat_map_len {A B} (f : A -> list B) l : length (concat (map f l)) = total (map (fun a => length (f a)) l).
Proof. induction l as [|a l IH]; [reflexivity|]. cbn. rewrite app_length, IH. reflexivity. Qed.

Section Con.
Variables (lr : Q -> Q -> Q -> nat) (cp : nat -> scheme -> list Q) (d : ipopt_dict)
  (o : opts) (m : model) (oc : option ocp) (C : constructed).
Hypothesis H : construct_problem lr cp d o m oc = Ok C.
Notation O := (the_opts C).
Notation P := (the_problem C).
Notation W := (w (the_nlp C)).
Notation E := (explicit_end C).
Notation PM := (pr_pm (cn_prob C)).

Lemma pm_facts : preprocess_model O m = Ok PM /\ pmodel_ok O m PM.
Proof.
  destruct (construct_ok _ _ _ _ _ _ _ H) as (o' & t & pm & po & P' & K). pose proof (co_o _ _ _ _ _ _ _ _ _ _ _ _ K) as Eo. rewrite Eo.
  rewrite (co_pm' _ _ _ _ _ _ _ _ _ _ _ _ K). split; [exact (co_pm _ _ _ _ _ _ _ _ _ _ _ _ K)|exact (co_mo _ _ _ _ _ _ _ _ _ _ _ _ K)].
Qed.
Lemma p_layout : p_p P = concat (map (fun c => map (SPst c) (seq 0 (m_npt m + m_npg m))) (seq 0 (o_N_stages O)))
  ++ [SSigma; STau] ++ lam0 O PM ++ map SX0 (seq 0 (m_nx m)).
Proof.
  destruct (con_use _ _ _ _ _ _ _ H) as (o' & t & pm & po & P' & st & lf & f1 & K & B & Eo & _).
  destruct (lsq_same _ _ _ (co_lsq _ _ _ _ _ _ _ _ _ _ _ _ K)) as (_ & _ & _ & _ & L5 & L6 & L7 & L8 & L9 & L10 & L11 & L12 & L13 & L14 & L15 & L16 & L17 & L).
  pose proof (p_syms _ _ _ _ _ _ _ _ B) as E1.
  pose proof (co_mo _ _ _ _ _ _ _ _ _ _ _ _ K) as MO. destruct (pm_dims _ _ _ MO) as (D1 & D2 & D3 & D4 & D5 & D6 & _).
  rewrite Eo, (co_pm' _ _ _ _ _ _ _ _ _ _ _ _ K).
  assert (EP : p_p P = p_p P') by (congruence || (repeat match goal with L : _ /\ _ |- _ => destruct L end; congruence)).
  rewrite EP, E1. unfold labx0. rewrite D1. do 2 f_equal. apply map_ext. intros c. unfold pst, pm_np. rewrite D5, D6. reflexivity.
Qed.

Lemma nsub_pm : pm_nsys PM = n_subsystems m. Proof. exact (mo_nsys _ _ _ (proj2 pm_facts)). Qed.
Lemma lab0_len f : length (lab0 O PM f) = upto (n_subsystems m) (dim2 O m f).
Proof.
  unfold lab0, upto. rewrite concat_map_len. rewrite nsub_pm. f_equal. apply map_ext_in. intros s Hs. apply in_seq in Hs.
  rewrite map_length, seq_length. apply (fsz_dim2 _ _ _ _ _ (proj2 pm_facts)). rewrite nsub_pm. lia.
Qed.
Lemma lam0_len : length (lam0 O PM) = match o_pss O with Stewart => upto (n_subsystems m) (n_modes m) | Step => upto (n_subsystems m) (fun s => 2 * n_switch m s) end.
Proof.
  unfold lam0. rewrite !app_length, !lab0_len. destruct (o_pss O) eqn:Ep.
  - rewrite (upto_zero _ (dim2 O m FLn)), (upto_zero _ (dim2 O m FLp)) by (intros; unfold dim2; rewrite Ep; reflexivity).
    rewrite (upto_ext _ (dim2 O m FLam) (n_modes m)) by (intros; unfold dim2; rewrite Ep; reflexivity). lia.
  - rewrite (upto_zero _ (dim2 O m FLam)) by (intros; unfold dim2; rewrite Ep; reflexivity).
    rewrite (upto_ext _ (dim2 O m FLn) (n_switch m)), (upto_ext _ (dim2 O m FLp) (n_switch m)) by (intros; unfold dim2; rewrite Ep; reflexivity).
    induction (n_subsystems m) as [|n IH]; [reflexivity|]. rewrite !upto_S. lia.
Qed.

(* lambda00 exists and has one entry per symbol *)
Lemma lam_ok s : well_sized m -> (o_pss O = Step -> gS_given m = false) -> sized C m s ->
  exists lam, compute_lambda00 PM (ss_x0 s) (ss_pval s) = Ok lam /\ length lam = length (lam0 O PM).
Proof.
  intros WS GS Z. destruct pm_facts as [HP MO].
  destruct (nth_error_lt (ss_pval s) 0) as [p0 Hp]. { rewrite (sz_pval _ _ _ Z). apply (stages_pos' _ _ _ _ _ _ _ H). }
  pose proof (sz_rows _ _ _ Z p0 (nth_error_In _ _ Hp)) as Lp.
  rewrite lam0_len. destruct (o_pss O) eqn:Ep.
  - destruct (stewart_lambda00 _ _ _ HP WS _ _ _ Ep (sz_x0 _ _ _ Z) Hp Lp) as (l & mn & E1 & E2 & _). eauto.
  - destruct (step_lambda00 _ _ _ HP WS _ _ _ Ep (GS eq_refl) (sz_x0 _ _ _ Z) Hp Lp) as (l & E1 & E2 & _). eauto.
Qed.

Lemma p_len s lam sg tau : sized C m s -> length lam = length (lam0 O PM) -> length (setup_p_val s lam sg tau) = length (p_p P).
Proof.
  intros Z L. rewrite p_layout. unfold setup_p_val. rewrite !app_length, map_length, seq_length, L, (sz_x0 _ _ _ Z). cbn [length]. f_equal.
  transitivity (o_N_stages O * (m_npt m + m_npg m)).
  - pose proof (sz_rows _ _ _ Z) as R. rewrite <- (sz_pval _ _ _ Z). clear - R. induction (ss_pval s) as [|r l IH]; [reflexivity|].
    cbn. rewrite app_length, (R r) by (left; reflexivity). f_equal. apply IH. intros r' Hr. apply R. right. exact Hr.
  - symmetry. rewrite concat_map_len. rewrite (map_ext _ (fun _ => m_npt m + m_npg m)) by (intros; rewrite map_length, seq_length; reflexivity).
    generalize (seq_length (o_N_stages O) 0). generalize (seq 0 (o_N_stages O)). generalize (o_N_stages O). induction n as [|n IH]; intros [|a l] Hl; try discriminate; [reflexivity|].
    cbn in *. unfold total in *. cbn. rewrite (IH l) by lia. lia.
Qed.

(* any values of variables and parameters are those at some point *)
Lemma point_exists v p : length v = length W -> length p = length (p_p P) -> exists rho, primal C rho = v /\ parameters C rho = p.
Proof.
  intros Lv Lp. pose proof (syms_distinct_con _ _ _ _ _ _ _ H) as N.
  exists (bindR (W ++ p_p P) (v ++ p)). pose proof (bindR_back _ N (v ++ p) ltac:(rewrite !app_length; lia)) as B. rewrite map_app in B.
  assert (A : forall (a b c e : list R), length a = length c -> a ++ b = c ++ e -> a = c /\ b = e).
  { induction a as [|x a IH]; intros b [|y c] e L Eq; try discriminate; [auto|]. cbn in *. injection Eq as -> Eq. injection L as L.
    destruct (IH _ _ _ L Eq) as [-> ->]. auto. }
  apply A in B; [exact B|]. rewrite map_length. congruence.
Qed.
Lemma comp_total v p : length v = length W -> length p = length (p_p P) ->
  exists rho, primal C rho = v /\ parameters C rho = p /\ comp_res_val (cn_prob C) v p = Ok (comp_residual C rho).
Proof.
  intros Lv Lp. destruct (point_exists v p Lv Lp) as (rho & A & B). exists rho. split; [exact A|]. split; [exact B|].
  rewrite <- A, <- B. apply (comp_value _ _ _ _ _ _ _ H).
Qed.

(* ---- initialize ---- *)
Lemma initialize_run s : o_init O <> Rk4Smoothened -> well_sized m -> (o_pss O = Step -> gS_given m = false) -> 0 < m_nx m -> sized C m s ->
  exists lam, compute_lambda00 PM (ss_x0 s) (ss_pval s) = Ok lam /\ length lam = length (lam0 O PM) /\
  initialize C s = (mkState (ss_x0 s) (ss_pval s) (first_guess C s) (ss_calls s), Ok lam).
Proof.
  intros I WS GS Hx Z. destruct (lam_ok s WS GS Z) as (lam & E1 & E2). exists lam. split; [exact E1|]. split; [exact E2|].
  unfold initialize. unfold sbind at 1. unfold sget at 1. unfold sbind at 1. unfold lift at 1. rewrite E1.
  unfold first_guess. fold O. change (pr_o (cn_prob C)) with O. change (pr (cn_prob C)) with P.
  pose proof (init_states _ _ _ _ _ _ _ H s Hx Z) as IS.
  destruct (o_init O); [| | |contradiction]; unfold sbind, sret.
  - rewrite IS. reflexivity.
  - rewrite IS. reflexivity.
  - destruct s; reflexivity.
Qed.
End Con.
