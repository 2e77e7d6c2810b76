(* Solve3_proofs.v -- outcome of one solve and guesses of repeated solves *)
From Coq Require Import Reals Qreals Lra.
From Verif Require Import Base Lib Sx Sx_proofs Utils Tableau Opts Model Ocp Problem Numeric Rk4 Results Solver Spec Fesd Spec2 Spec3 Spec4 Spec5
  FeMake_proofs FeZero_proofs Prob_proofs Body_proofs Model_proofs Con_proofs Index_proofs Index2_proofs Index3_proofs Nlp_proofs Feas_proofs Lam_proofs Accept_proofs
  Results_proofs Results2_proofs Results4_proofs Smooth2_proofs Solve_proofs Solve2_proofs Vec_proofs Syms_proofs Init_proofs Init2_proofs Start_proofs Progress_proofs
  Set_proofs Hist_proofs Field2_proofs Polish_proofs.

Lemma lastE_is {A} e (l : list A) a : lastE e l = Ok a -> last_is l a.
Proof.
  intros E. apply lastE_ok in E. destruct E as (l' & ->). split; [rewrite app_length; cbn; lia|].
  rewrite app_length. cbn [length]. rewrite nth_error_app2 by lia. replace (length l' + 1 - 1 - length l') with 0 by lia. reflexivity.
Qed.
Lemma accepted_iff st : check_ipopt_success st = true <-> accepted st.
Proof.
  unfold accepted. split.
  - destruct st; intros E; try discriminate; cbn; auto.
  - intros [<-|[<-|[<-|[<-|[]]]]]; reflexivity.
Qed.

Section Con.
Variables (lr : Q -> Q -> Q -> nat) (cp : nat -> scheme -> list Q) (d : ipopt_dict)
  (o : opts) (m : model) (oc : option ocp) (C : constructed).
Hypothesis H : construct_problem lr cp d o m oc = Ok C.
Notation O := (the_opts C).
Notation P := (the_problem C).
Notation W := (w (the_nlp C)).
Notation PM := (pr_pm (cn_prob C)).

Lemma stages_pos_con : 0 < o_N_stages O.
Proof. apply (stages_pos' _ _ _ _ _ _ _ H). Qed.

(* the last NLP call of a solve *)
Lemma solve_last nlp s s' out : solve nlp C s = (s', Ok out) ->
  ss_calls s' = ss_calls s + length (so_steps out) + (if o_do_polishing O then o_N_stages O else 0) /\
  ss_x0 s' = ss_x0 s /\ ss_pval s' = ss_pval s /\
  exists c r, nlp (ss_calls s' - 1) c = Ok r /\ so_w_sol out = nr_x r /\ (so_status out = SUCCESS <-> accepted (nr_status r)) /\
    (o_do_polishing O = false -> exists h, last_is (so_steps out) h /\ hs_call h = c /\ hs_ret h = r) /\
    (o_do_polishing O = true -> exists h q lam s1, last_is (so_steps out) h /\ initialize C s = (s1, Ok lam) /\ so_polish out = Some q /\ po_w q = so_w_sol out /\
       polishing nlp C s (ss_calls s + length (so_steps out)) lam (nr_x (hs_ret h)) q).
Proof.
  intros E. pose proof (max_iter_pos _ _ _ _ _ _ _ H) as Mp.
  apply solve_inv in E. destruct E as [(s1 & s2 & s3 & lam & w1 & lb & ub & h & I & SV & HH & LA & PO & EW & ES & _ & _ & _ & EI & _)].
  pose proof (keeps_out _ _ _ _ _ (initialize_keeps C) I) as (K1 & K2 & K3).
  pose proof (keeps_out _ _ _ _ _ (homotopy_keeps _ _ _ _ _ _ _ _) HH) as (J1 & J2 & _).
  pose proof (homotopy_loop _ _ _ _ _ _ _ _ _ _ _ HH) as LO. pose proof (lo_calls _ _ _ _ _ _ _ _ _ _ _ LO) as LC.
  pose proof (lo_some _ _ _ _ _ _ _ _ _ _ _ LO Mp) as LS.
  apply lastE_is in LA.
  assert (E3 : ss_calls s' = ss_calls s3 /\ ss_x0 s' = ss_x0 s3 /\ ss_pval s' = ss_pval s3).
  { destruct (o_init O); try (subst s'; auto; fail). destruct EI as (v & _ & ->). auto. }
  destruct E3 as (E3 & E4 & E5). rewrite E3, E4, E5.
  assert (ST : forall st, so_status out = (if check_ipopt_success st then SUCCESS else INFEASIBLE) -> (so_status out = SUCCESS <-> accepted st)).
  { intros st ->. rewrite <- accepted_iff. destruct (check_ipopt_success st); split; intros; congruence. }
  destruct (so_polish out) as [q|].
  - destruct PO as [Ed PO]. pose proof (keeps_out _ _ _ _ _ (polish_keeps _ _ _ _) PO) as (Q1 & Q2 & _).
    apply polish_ok in PO. destruct PO as [Q3 Q4]. rewrite Ed. split; [lia|]. split; [congruence|]. split; [congruence|].
    destruct Q4 as [(c & r & R1 & R2 & R3 & R)]. pose proof stages_pos_con as Np. exists c, r.
    split. { rewrite Q3. replace (ss_calls s2 + o_N_stages O - 1) with (ss_calls s2 + (o_N_stages O - 1)) by lia. exact R1. }
    split; [congruence|]. split; [rewrite <- R3; apply ST, ES|]. split; [discriminate|]. intros _.
    exists h, q, lam, s1. split; [exact LA|]. split; [exact I|]. split; [reflexivity|]. split; [symmetry; exact EW|].
    split. exists c, r. rewrite <- K3, <- LC. split; [exact R1|]. split; [exact R2|]. split; [exact R3|].
    rewrite J1, J2, K1, K2 in R. exact R.
  - destruct PO as [Ed ->]. rewrite Ed. split; [lia|]. split; [congruence|]. split; [congruence|]. exists (hs_call h), (hs_ret h).
    destruct LA as [La Lh]. pose proof (lo_each _ _ _ _ _ _ _ _ _ _ _ LO _ _ Lh) as (R1 & _).
    split. { rewrite LC. replace (ss_calls s1 + length (so_steps out) - 1) with (ss_calls s1 + (length (so_steps out) - 1)) by lia. exact R1. }
    split; [exact EW|]. split; [apply ST, ES|]. split; [|discriminate]. intros _. exists h. split; [split; assumption|]. auto.
Qed.

(* the guess a solve starts from *)
Lemma solve_start nlp s s' out : o_init O <> Rk4Smoothened -> well_sized m -> (o_pss O = Step -> gS_given m = false) -> 0 < m_nx m -> sized C m s ->
  solve nlp C s = (s', Ok out) -> exists lam, compute_lambda00 PM (ss_x0 s) (ss_pval s) = Ok lam /\
  starts_from C m lam (first_guess C s) out /\ nth_error (so_w_all out) 0 = Some (first_guess C s).
Proof.
  intros I WS GS Hx Z E. destruct (initialize_run _ _ _ _ _ _ _ H s I WS GS Hx Z) as (lam & El & Ll & Ei). exists lam. split; [exact El|].
  destruct (solve_passes _ _ _ _ _ _ _ _ _ _ _ H (max_iter_pos _ _ _ _ _ _ _ H) E) as (s1 & lam' & w1 & lb & ub & Ei' & Es & PA & Ew).
  rewrite Ei in Ei'. injection Ei' as <- <-. cbn [ss_w0] in *. split; [|rewrite Ew; reflexivity].
  destruct (start_ok _ _ _ _ _ _ _ H lam (first_guess C s)) as (w1' & lb' & ub' & Es' & L1 & _ & _ & G).
  { intros Ep. rewrite Ll, (lam0_len _ _ _ _ _ _ _ H), Ep. reflexivity. }
  { apply (first_guess_len m C). exact Z. }
  rewrite Es in Es'. injection Es' as <- <- <-.
  destruct (nth_error_lt (so_steps out) 0) as [h Hh]. { apply (pa_nonempty _ _ _ _ _ _ _ _ _ PA). }
  exists h. split; [exact Hh|]. rewrite (proj2 (pa_first _ _ _ _ _ _ _ _ _ PA h Hh)). split; [exact L1|]. cbv zeta in *.
  intros i y Hy. destruct (G i y Hy) as [G1 G2]. split; intros Q; [apply (proj1 (G1 Q))|apply (proj1 (G2 Q))].
Qed.

(* ALL_XCURRENT_WOPT_PREV: the solution becomes the next guess *)
Lemma solve_wopt nlp s s' out : o_init O = AllXcurrentWoptPrev -> answers C nlp -> sized C m s ->
  solve nlp C s = (s', Ok out) -> ss_w0 s' = so_w_sol out /\ length (so_w_sol out) = length W.
Proof.
  intros I A Z E. pose proof (solve_last nlp s s' out E) as (_ & _ & _ & c & r & Er & Ew & _).
  assert (L : length (so_w_sol out) = length W). { destruct (A (ss_calls s' - 1) c) as (r' & E' & L'). rewrite Er in E'. injection E' as <-. congruence. }
  split; [|exact L].
  pose proof (act_sized _ _ _ _ _ _ _ H nlp s ASolve Logic.I Z) as Z'. cbn [act] in Z'. rewrite E in Z'. cbn [fst] in Z'.
  apply solve_inv in E. destruct E as [(s1 & s2 & s3 & lam & w1 & lb & ub & h & _ & _ & _ & _ & _ & _ & _ & _ & _ & _ & EI & _)].
  rewrite I in EI. destruct EI as (v & Ev & ->). cbn [ss_w0] in *. pose proof (sz_w0 _ _ _ Z') as Lv. cbn [ss_w0] in Lv.
  unfold bcast in Ev. destruct (length (so_w_sol out) =? length (ss_w0 s3)) eqn:Eq; [congruence|]. apply Nat.eqb_neq in Eq.
  destruct (so_w_sol out) as [|x [|]]; try discriminate. injection Ev as <-. rewrite repeat_length in Lv. cbn [length] in *. congruence.
Qed.

Lemma quiet_w0 nlp a s : quiet a -> ss_w0 (act nlp C s a) = ss_w0 s.
Proof.
  intros Q. destruct a as [fv|]; [|destruct Q]. destruct fv; cbn in Q; try contradiction; cbn [act]; unfold set; cbv zeta; try reflexivity.
  - generalize (seq 0 (o_N_stages (pr_o (cn_prob C)))). intros l. revert s. induction l as [|i l IH]; intros s; cbn [sfor]; [reflexivity|].
    unfold sbind at 1 2 3, sget, lift. destruct (assign_cols _ _ _ _ _); cbn [put_pval]; [|reflexivity]. apply (eq_trans (IH _)). reflexivity.
  - generalize (seq 0 (o_N_stages (pr_o (cn_prob C)))). intros l. revert s. induction l as [|i l IH]; intros s; cbn [sfor]; [reflexivity|].
    unfold sbind at 1 2 3 4, sget, lift. destruct (nthE _ _ _); [|reflexivity]. destruct (assign_cols _ _ _ _ _); cbn [put_pval]; [|reflexivity]. apply (eq_trans (IH _)). reflexivity.
Qed.
Lemma quiet_w0s nlp l : (forall a, In a l -> quiet a) -> forall s, ss_w0 (fold_left (act nlp C) l s) = ss_w0 s.
Proof.
  induction l as [|a l IH]; intros Q s; cbn; [reflexivity|]. rewrite IH by (intros; apply Q; right; assumption). apply quiet_w0, Q. left. reflexivity.
Qed.
Lemma sets_quiet l : (forall a, In a l -> quiet_or_solve a) -> forall a, In a (sets_only l) -> quiet a.
Proof. intros Q a Ha. apply filter_In in Ha. destruct Ha as [Ha Hb]. destruct (Q a Ha) as [->|Qa]; [discriminate|exact Qa]. Qed.
Lemma quiet_sized nlp l : (forall a, In a l -> quiet a) -> (forall a, In a l -> right_shape C m a) -> forall s, sized C m s -> sized C m (fold_left (act nlp C) l s).
Proof.
  induction l as [|a l IH]; intros Q R s Z; cbn; [exact Z|]. apply IH; try (intros; (apply Q || apply R); right; assumption).
  apply (act_sized _ _ _ _ _ _ _ H); [apply R; left; reflexivity|exact Z].
Qed.

(* ---- repeated solves ---- *)
Lemma guess_w0_start nlp l s' out : o_init O = AllXcurrentW0Start -> well_sized m -> (o_pss O = Step -> gS_given m = false) -> 0 < m_nx m ->
  (forall a, In a l -> right_shape C m a) -> (forall a, In a l -> quiet_or_solve a) ->
  solve nlp C (history nlp C l) = (s', Ok out) ->
  exists lam, compute_lambda00 PM (ss_x0 (history nlp C l)) (ss_pval (history nlp C l)) = Ok lam /\
  starts_from C m lam (with_states C (reals (w0 (the_nlp C))) (ss_x0 (history nlp C l))) out.
Proof.
  intros I WS GS Hx R Q E. pose proof (history_sized _ _ _ _ _ _ _ H nlp l R) as Z.
  destruct (solve_start nlp _ s' out ltac:(rewrite I; discriminate) WS GS Hx Z E) as (lam & El & S & _). exists lam. split; [exact El|].
  unfold first_guess in S. rewrite I in S.
  replace (with_states C (reals (w0 (the_nlp C))) (ss_x0 (history nlp C l))) with (with_states C (ss_w0 (history nlp C l)) (ss_x0 (history nlp C l))); [exact S|].
  destruct (history_off _ _ _ _ _ _ _ H nlp l I Hx R) as (_ & _ & OFF).
  rewrite (off_with_eq C _ _ (ss_x0 (history nlp C l)) (sz_w0 _ _ _ Z) OFF). unfold history at 1. rewrite quiet_w0s by (apply sets_quiet, Q). reflexivity.
Qed.
Lemma guess_external nlp l1 v l2 s' out : o_init O = External -> well_sized m -> (o_pss O = Step -> gS_given m = false) -> 0 < m_nx m ->
  (forall a, In a (l1 ++ ASet (SetW v) :: l2) -> right_shape C m a) -> (forall a, In a l2 -> quiet_or_solve a) ->
  solve nlp C (history nlp C (l1 ++ ASet (SetW v) :: l2)) = (s', Ok out) ->
  exists lam, starts_from C m lam v out.
Proof.
  intros I WS GS Hx R Q E. set (l := l1 ++ ASet (SetW v) :: l2) in *. pose proof (history_sized _ _ _ _ _ _ _ H nlp l R) as Z.
  destruct (solve_start nlp _ s' out ltac:(rewrite I; discriminate) WS GS Hx Z E) as (lam & El & S & _). exists lam.
  unfold first_guess in S. rewrite I in S.
  replace v with (ss_w0 (history nlp C l)); [exact S|].
  destruct (history_ext _ _ _ _ _ _ _ H nlp l I R) as (_ & _ & ->). unfold l, history, sets_only. rewrite filter_app, fold_left_app. cbn [filter fold_left].
  rewrite quiet_w0s by (apply (sets_quiet l2), Q). cbn [act]. unfold set. cbv zeta. unfold sbind, put_w0. cbn [fst ss_w0].
  destruct (not_external (pr_o (cn_prob C))); reflexivity.
Qed.
Lemma guess_wopt_prev nlp s s1 out1 l s2 out2 : o_init O = AllXcurrentWoptPrev -> well_sized m -> (o_pss O = Step -> gS_given m = false) -> 0 < m_nx m ->
  answers C nlp -> sized C m s -> solve nlp C s = (s1, Ok out1) ->
  (forall a, In a l -> right_shape C m a) -> (forall a, In a l -> quiet a) ->
  solve nlp C (fold_left (act nlp C) l s1) = (s2, Ok out2) ->
  exists lam, starts_from C m lam (with_states C (so_w_sol out1) (ss_x0 (fold_left (act nlp C) l s1))) out2.
Proof.
  intros I WS GS Hx A Z E1 R Q E2. destruct (solve_wopt nlp s s1 out1 I A Z E1) as [EW _].
  assert (Z1 : sized C m s1). { pose proof (act_sized _ _ _ _ _ _ _ H nlp s ASolve Logic.I Z) as Z'. cbn [act] in Z'. rewrite E1 in Z'. exact Z'. }
  pose proof (quiet_sized nlp l Q R s1 Z1) as Z2.
  destruct (solve_start nlp _ s2 out2 ltac:(rewrite I; discriminate) WS GS Hx Z2 E2) as (lam & El & S & _). exists lam.
  unfold first_guess in S. rewrite I in S. rewrite (quiet_w0s nlp l Q), EW in S. exact S.
Qed.

(* SUCCESS says something about the residual only if the loop was not exhausted *)
Lemma success_residual nlp s s' out rho : solve nlp C s = (s', Ok out) -> o_do_polishing O = false ->
  length (so_steps out) < o_max_iter_homotopy O -> (forall h, In h (so_steps out) -> (Q2R (o_sigma_N O) < hs_sigma h)%R) ->
  primal C rho = so_w_sol out -> (forall h, last_is (so_steps out) h -> parameters C rho = nc_p (hs_call h)) ->
  (comp_residual C rho < Q2R (o_comp_tol O))%R.
Proof.
  intros E Ed Ln Sg Ep Eq. destruct (solve_passes _ _ _ _ _ _ _ _ _ _ _ H (max_iter_pos _ _ _ _ _ _ _ H) E) as (s1 & lam' & w1 & lb & ub & _ & _ & PA & _).
  destruct (solve_last nlp s s' out E) as (_ & _ & _ & c & r & _ & EW & _ & L & _). destruct (L Ed) as (h & Lh & <- & <-).
  destruct (pa_last _ _ _ _ _ _ _ _ _ PA h Lh Ln) as [K|K].
  - rewrite <- (pa_comp _ _ _ _ _ _ _ _ _ PA _ h rho (proj2 Lh)); [exact K|congruence|apply Eq, Lh].
  - destruct Lh as [_ Lh]. apply nth_error_In in Lh. specialize (Sg h Lh). lra.
Qed.
End Con.

(* an NLP solver that always gives the same answer *)
Definition constant_nlp (v : list R) (st : ret_status) : nat -> nlp_call -> res nlp_ret := fun _ _ => Ok (mkRet v 0 [] st 0 0).
Lemma constant_answers C v st : length v = length (w (the_nlp C)) -> answers C (constant_nlp v st).
Proof. intros L n c. eexists. split; [reflexivity|exact L]. Qed.
Lemma map_const {A B} (f : A -> B) l x : (forall a, In a l -> f a = x) -> map f l = repeat x (length l).
Proof. induction l as [|a l IH]; intros Hf; [reflexivity|]. cbn. rewrite Hf by (left; reflexivity). f_equal. apply IH. intros b Hb. apply Hf. right. exact Hb. Qed.
Lemma map_const_inv {A B} (f : A -> B) l x : map f l = repeat x (length l) -> forall a, In a l -> f a = x.
Proof. induction l as [|a l IH]; intros E b Hb; [destruct Hb|]. cbn in E. injection E as E1 E2. destruct Hb as [<-|Hb]; auto. Qed.
