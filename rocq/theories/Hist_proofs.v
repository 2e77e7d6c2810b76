(* Hist_proofs.v -- what a history of calls leaves in w0 *)
From Coq Require Import Reals Qreals Lra Permutation.
From Verif Require Import Base Lib Sx Sx_proofs Utils Tableau Opts Model Ocp Problem Numeric Rk4 Results Solver Spec Fesd Spec2 Spec3 Spec4 Spec5
  FeMake_proofs FeZero_proofs Prob_proofs Body_proofs Model_proofs Con_proofs Index_proofs Index2_proofs Index3_proofs Nlp_proofs Feas_proofs Lam_proofs Accept_proofs
  Results_proofs Results2_proofs Results4_proofs Solve_proofs Solve2_proofs Vec_proofs Syms_proofs Init_proofs Init2_proofs Start_proofs Set_proofs.

Section Congr.
Variable Q : list R -> list R -> Prop.
Hypothesis q_len : forall a b, Q a b -> length a = length b.
Hypothesis q_upd : forall a b i x a' b', Q a b -> updE EIndexError a i x = Ok a' -> updE EIndexError b i x = Ok b' -> Q a' b'.
Hypothesis q_refl : forall v, Q v v.

Definition rres (ra rb : res (list R)) : Prop :=
  match ra, rb with Ok a, Ok b => Q a b | Err e, Err e' => e = e' | _, _ => False end.
Lemma updE_err {A} e (l : list A) i x e' : updE e l i x = Err e' -> e' = e /\ length l <= i.
Proof. revert i. induction l as [|a l IH]; intros [|i] E; cbn in E; try discriminate; try (injection E as <-; cbn; split; [reflexivity|lia]).
  destruct (updE e l i x) eqn:E1; [discriminate|]. cbn in E. injection E as <-. destruct (IH i E1) as [E2 E3]. cbn. split; [exact E2|lia]. Qed.
Lemma upd_congr a b i x : Q a b -> rres (updE EIndexError a i x) (updE EIndexError b i x).
Proof.
  intros HQ. unfold rres. pose proof (q_len _ _ HQ) as L.
  destruct (updE EIndexError a i x) as [a'|e] eqn:E1; destruct (updE EIndexError b i x) as [b'|e'] eqn:E2.
  - eapply q_upd; eassumption.
  - apply updE_err in E2. apply updE_in in E1. lia.
  - apply updE_err in E1. apply updE_in in E2. lia.
  - apply updE_err in E1. apply updE_err in E2. destruct E1, E2. congruence.
Qed.
Lemma foldM_congr {A} (f : list R -> A -> res (list R)) l : (forall a b x, Q a b -> rres (f a x) (f b x)) ->
  forall a b, Q a b -> rres (foldM f l a) (foldM f l b).
Proof.
  intros F. induction l as [|x l IH]; intros a b HQ; [exact HQ|]. cbn [foldM]. specialize (F a b x HQ). unfold rres in F.
  destruct (f a x) as [a'|e]; destruct (f b x) as [b'|e']; cbn [bind]; try contradiction; [apply IH, F|exact F].
Qed.
Lemma write_congr ivs a b : Q a b -> rres (write a ivs) (write b ivs).
Proof. apply foldM_congr. intros a' b' [i x] HQ. apply upd_congr, HQ. Qed.
Lemma assign_congr idx v a b : Q a b -> rres (assign a idx v) (assign b idx v).
Proof. intros HQ. unfold assign. destruct (bcast (length idx) v) as [v'|e]; cbn [bind]; [apply write_congr, HQ|reflexivity]. Qed.
Lemma assign_rows_congr idx v a b : Q a b -> rres (assign_rows a idx v) (assign_rows b idx v).
Proof.
  intros HQ. unfold assign_rows. destruct (guard (all_len_eq idx) EValueError); cbn [bind]; [|reflexivity].
  destruct idx as [|r idx]; [destruct (bcast 0 v)|destruct (bcast (length r) v)]; cbn [bind]; try reflexivity; [exact HQ|].
  apply foldM_congr; [|exact HQ]. intros a' b' x. apply assign_congr.
Qed.

Definition srel (s s' : sstate) : Prop := ss_x0 s' = ss_x0 s /\ ss_pval s' = ss_pval s /\ Q (ss_w0 s) (ss_w0 s').
Definition simul {A} (x y : se sstate A) : Prop := forall s s', srel s s' -> srel (fst (x s)) (fst (y s')) /\ snd (x s) = snd (y s').
Lemma sim_bind {A B} (x y : se sstate A) (k k' : A -> se sstate B) : simul x y -> (forall a, simul (k a) (k' a)) -> simul (sbind x k) (sbind y k').
Proof.
  intros X K s s' R. unfold sbind. destruct (X s s' R) as [R1 E1]. destruct (x s) as [s1 r1]. destruct (y s') as [s1' r1']. cbn [fst snd] in *.
  subst r1'. destruct r1 as [a|e]; [apply K; exact R1|split; [exact R1|reflexivity]].
Qed.
Lemma sim_lift {A} (r : res A) : simul (lift r) (lift r). Proof. intros s s' R. split; [exact R|reflexivity]. Qed.
Lemma sim_ret {A} (r : A) : simul (sret r) (sret r). Proof. intros s s' R. split; [exact R|reflexivity]. Qed.
Lemma sim_raise {A} e : simul (raise (A := A) e) (raise e). Proof. intros s s' R. split; [exact R|reflexivity]. Qed.
Lemma sim_for {A} (f : A -> se sstate unit) l : (forall a, simul (f a) (f a)) -> simul (sfor f l) (sfor f l).
Proof. intros F. induction l as [|a l IH]; cbn [sfor]; [apply sim_ret|apply sim_bind; auto]. Qed.
Lemma sim_update f : (forall a b, Q a b -> rres (f a) (f b)) -> simul (update_w0 f) (update_w0 f).
Proof.
  intros F s s' (R1 & R2 & R3). rewrite !update_w0_run. specialize (F _ _ R3). unfold rres in F.
  destruct (f (ss_w0 s)); destruct (f (ss_w0 s')); try contradiction; cbn; (split; [repeat split; cbn; assumption|congruence]).
Qed.
Lemma sim_pval (g : list (list R) -> res (list (list R))) :
  simul (dos s <- sget; dos M <- lift (g (ss_pval s)); put_pval M) (dos s <- sget; dos M <- lift (g (ss_pval s)); put_pval M).
Proof.
  intros s s' (R1 & R2 & R3). unfold sbind, sget, lift, put_pval. rewrite R2. destruct (g (ss_pval s)); cbn; (split; [repeat split; cbn; congruence|reflexivity]).
Qed.
Ltac sm := repeat lazymatch goal with
  | |- simul (update_w0 _) _ => apply sim_update; let F := fresh in intros ? ? F; cbn;
      first [apply assign_congr, F|apply assign_rows_congr, F|apply foldM_congr; [|exact F]; intros ? ? ?; apply assign_congr]
  | |- simul (sbind (lift _) _) _ => apply sim_bind; [apply sim_lift|intros ?]
  | |- simul (sbind (sfor _ _) _) _ => apply sim_bind; [|intros ?]
  | |- simul (sfor _ _) _ => apply sim_for; intros ?
  | |- simul (lift _) _ => apply sim_lift
  | |- simul (sret _) _ => apply sim_ret
  | |- simul (raise _) _ => apply sim_raise
  end.
Lemma set_simul C fv : simul (set C fv) (set C fv).
Proof.
  unfold set. cbv zeta. destruct fv.
  - intros s s' (R1 & R2 & R3). cbn. split; [repeat split; cbn; assumption|reflexivity].
  - apply sim_bind; [destruct (_ =? _); [sm|destruct (_ =? _); sm]|intros _]. destruct (not_external _); sm.
  - sm.
  - sm.
  - sm. apply (sim_pval (fun M => assign_cols M a _ _ v)).
  - sm. intros s s' (R1 & R2 & R3). unfold sbind, sget, lift, put_pval. rewrite R2.
    destruct (nthE EIndexError v a) as [row|e]; [destruct (assign_cols (ss_pval s) a 0 (m_npt (pm_m (pr_pm (cn_prob C)))) row)|]; cbn;
      (split; [repeat split; cbn; congruence|reflexivity]).
  - destruct (_ =? _); sm.
  - apply sim_bind; [|intros _; destruct (not_external _); sm]. intros s s' (R1 & R2 & R3). cbn. split; [repeat split; cbn; try assumption; apply q_refl|reflexivity].
  - sm.
Qed.
End Congr.

Section Con.
Variables (lr : Q -> Q -> Q -> nat) (cp : nat -> scheme -> list Q) (d : ipopt_dict)
  (o : opts) (m : model) (oc : option ocp) (C : constructed).
Hypothesis H : construct_problem lr cp d o m oc = Ok C.
Notation O := (the_opts C).
Notation P := (the_problem C).
Notation W := (w (the_nlp C)).

(* vectors that differ in state guesses only *)
Definition off_states (a b : list R) : Prop := length a = length b /\
  forall i y, nth_error W i = Some y -> states_at [] y = None -> nth_error a i = nth_error b i.
Lemma states_none x0 y : states_at x0 y = None <-> states_at [] y = None.
Proof. unfold states_at. destruct y; try destruct f; split; intros; try discriminate; auto. Qed.
Lemma off_refl v : off_states v v. Proof. split; reflexivity. Qed.
Lemma off_trans a b c : off_states a b -> off_states b c -> off_states a c.
Proof. intros [A1 A2] [B1 B2]. split; [congruence|]. intros i y Hy Hs. rewrite (A2 i y Hy Hs). apply (B2 i y Hy Hs). Qed.
Lemma off_upd a b i x a' b' : off_states a b -> updE EIndexError a i x = Ok a' -> updE EIndexError b i x = Ok b' -> off_states a' b'.
Proof.
  intros [L A] E1 E2. split; [rewrite (updE_len _ _ _ _ _ E1), (updE_len _ _ _ _ _ E2); exact L|].
  intros k y Hy Hs. rewrite (updE_nth _ _ _ _ _ k E1), (updE_nth _ _ _ _ _ k E2). destruct (k =? i); [reflexivity|]. apply (A k y Hy Hs).
Qed.
Lemma off_with v x0 : length v = length W -> off_states v (with_states C v x0).
Proof.
  intros L. split; [unfold with_states; rewrite overwrite_len; exact L|]. intros i y Hy Hs.
  destruct (nth_error_lt v i) as [x Hx]; [rewrite L; eapply nth_error_Some_lt; eassumption|]. unfold with_states.
  rewrite (overwrite_nth _ _ _ _ _ _ Hy Hx), Hx. apply (states_none x0) in Hs. rewrite Hs. reflexivity.
Qed.
Lemma off_with_eq a b x0 : length a = length W -> off_states a b -> with_states C a x0 = with_states C b x0.
Proof.
  intros La [L A]. unfold with_states. apply list_eq_nth; [rewrite !overwrite_len by congruence; reflexivity|]. intros i z Hz.
  destruct (nth_error_lt W i) as [y Hy]. { apply nth_error_Some_lt in Hz. rewrite overwrite_len in Hz by exact La. exact Hz. }
  destruct (nth_error_lt a i) as [x Hx]; [rewrite La; eapply nth_error_Some_lt; eassumption|].
  destruct (nth_error_lt b i) as [x' Hx']; [rewrite <- L, La; eapply nth_error_Some_lt; eassumption|].
  rewrite (overwrite_nth _ _ _ _ _ _ Hy Hx) in Hz. rewrite (overwrite_nth _ _ _ _ _ _ Hy Hx').
  destruct (states_at x0 y) eqn:Es; [exact Hz|]. apply states_none in Es. specialize (A i y Hy Es). congruence.
Qed.

(* solve() with ALL_XCURRENT_W0_START, whatever its outcome *)
Lemma solve_tail nlp s : o_init O <> AllXcurrentWoptPrev -> forall s1 r, initialize C s = (s1, r) ->
  only_calls s1 (fst (solve nlp C s)).
Proof.
  intros NI s1 r Ei. unfold solve. cbv zeta. unfold sbind at 1. rewrite Ei. destruct r as [lam|e]; [|apply oc_refl].
  unfold sbind at 1. unfold sget at 1. unfold sbind at 1. unfold lift at 1. destruct (start_values _ _ lam (ss_w0 s1)) as [[[w1 lb] ub]|e]; [|apply oc_refl].
  cbv beta iota. unfold sbind at 1.
  destruct (homotopy nlp C lam lb ub _ _ w1 s1) as [s2 [steps|e]] eqn:Eh;
    pose proof (keeps_out _ _ _ _ _ (homotopy_keeps nlp C lam lb ub _ _ w1) Eh) as K2; [|exact K2].
  unfold sbind at 1. unfold lift at 1. destruct (lastE EUnboundLocal steps) as [h|e]; [|exact K2]. unfold sbind at 1.
  destruct ((if o_do_polishing (pr_o (cn_prob C)) then dos q <- polish_solution nlp C lam (nr_x (hs_ret h)); sret (Some q) else sret None) s2)
    as [s3 [pol|e]] eqn:Ep;
    (assert (K3 : only_calls s1 s3); [apply (oc_trans _ _ _ K2); revert Ep; destruct (o_do_polishing _); unfold sbind, sret;
      [destruct (polish_solution nlp C lam (nr_x (hs_ret h)) s2) as [s4 [q|e']] eqn:Eq;
        pose proof (keeps_out _ _ _ _ _ (polish_keeps nlp C lam (nr_x (hs_ret h))) Eq) as K4|]; intros Ep; injection Ep as <- _; try exact K4; apply oc_refl|]);
    [|exact K3].
  unfold sbind at 1. unfold sget at 1. unfold sbind at 1. unfold lift at 1. destruct (get_results _ _ _); [|exact K3].
  change (pr_o (cn_prob C)) with O. destruct (o_init O) eqn:I; try exact K3. contradiction.
Qed.

Lemma solve_off nlp s : o_init O = AllXcurrentW0Start -> 0 < m_nx m -> sized C m s ->
  ss_x0 (fst (solve nlp C s)) = ss_x0 s /\ ss_pval (fst (solve nlp C s)) = ss_pval s /\ off_states (ss_w0 s) (ss_w0 (fst (solve nlp C s))).
Proof.
  intros I Hx Z. destruct (initialize C s) as [s1 r] eqn:Ei.
  assert (R : ss_x0 s1 = ss_x0 s /\ ss_pval s1 = ss_pval s /\ off_states (ss_w0 s) (ss_w0 s1)).
  { unfold initialize in Ei. cbv zeta in Ei. change (pr_o (cn_prob C)) with O in Ei. change (pr (cn_prob C)) with P in Ei. rewrite I in Ei.
    unfold sbind at 1 in Ei. unfold sget at 1 in Ei. unfold sbind at 1 in Ei. unfold lift at 1 in Ei.
    destruct (compute_lambda00 _ _ _) as [lam|e]; [|injection Ei as <- _; repeat split].
    unfold sbind in Ei. rewrite (init_states _ _ _ _ _ _ _ H s Hx Z) in Ei. unfold sret in Ei. injection Ei as <- _. cbn.
    split; [reflexivity|]. split; [reflexivity|]. apply off_with, (sz_w0 _ _ _ Z). }
  assert (NI : o_init O <> AllXcurrentWoptPrev) by congruence.
  destruct (solve_tail nlp s NI _ _ Ei) as (T1 & T2 & T3). destruct R as (R1 & R2 & R3). rewrite T1, T2, T3. auto.
Qed.
Lemma solve_ext nlp s : o_init O = External -> ss_x0 (fst (solve nlp C s)) = ss_x0 s /\ ss_pval (fst (solve nlp C s)) = ss_pval s /\ ss_w0 (fst (solve nlp C s)) = ss_w0 s.
Proof.
  intros I. destruct (initialize C s) as [s1 r] eqn:Ei.
  assert (R : s1 = s).
  { unfold initialize in Ei. cbv zeta in Ei. change (pr_o (cn_prob C)) with O in Ei. rewrite I in Ei.
    unfold sbind at 1 in Ei. unfold sget at 1 in Ei. unfold sbind at 1 in Ei. unfold lift at 1 in Ei.
    destruct (compute_lambda00 _ _ _) as [lam|e]; injection Ei as <- _; reflexivity. }
  subst. assert (NI : o_init O <> AllXcurrentWoptPrev) by congruence.
  destruct (solve_tail nlp s NI _ _ Ei) as (T1 & T2 & T3). auto.
Qed.

(* the history against the same history without solves *)
Lemma fold_related nlp (R : sstate -> sstate -> Prop) :
  (forall s s' fv, R s s' -> R (act nlp C s (ASet fv)) (act nlp C s' (ASet fv))) ->
  (forall s s', sized C m s -> R s s' -> R (act nlp C s ASolve) s') ->
  forall l s s', (forall a, In a l -> right_shape C m a) -> sized C m s -> R s s' -> R (fold_left (act nlp C) l s) (fold_left (act nlp C) (sets_only l) s').
Proof.
  intros RS RV. induction l as [|a l IH]; intros s s' SH Z HR; [exact HR|]. destruct a as [fv|]; cbn [fold_left sets_only filter].
  - apply IH; [intros; apply SH; right; assumption|apply (act_sized _ _ _ _ _ _ _ H); [apply SH; left; reflexivity|exact Z]|apply RS, HR].
  - apply IH; [intros; apply SH; right; assumption|apply (act_sized _ _ _ _ _ _ _ H); [exact I|exact Z]|apply RV; assumption].
Qed.
Lemma history_off nlp l : o_init O = AllXcurrentW0Start -> 0 < m_nx m -> (forall a, In a l -> right_shape C m a) ->
  ss_x0 (history nlp C (sets_only l)) = ss_x0 (history nlp C l) /\ ss_pval (history nlp C (sets_only l)) = ss_pval (history nlp C l) /\
  off_states (ss_w0 (history nlp C l)) (ss_w0 (history nlp C (sets_only l))).
Proof.
  intros I Hx SH. unfold history. apply (fold_related nlp (srel off_states)); [| |exact SH|apply (initial_sized _ _ _ _ _ _ _ H)|repeat split].
  - intros s s' fv HR. apply (set_simul off_states (fun a b E => proj1 E) off_upd off_refl C fv s s' HR).
  - intros s s' Z (R1 & R2 & R3). cbn [act]. destruct (solve_off nlp s I Hx Z) as (E1 & E2 & E3). split; [congruence|]. split; [congruence|].
    apply (off_trans _ (ss_w0 s)); [|exact R3]. destruct E3 as [L A]. split; [congruence|]. intros i y Hy Hs. symmetry. apply (A i y Hy Hs).
Qed.
Lemma history_ext nlp l : o_init O = External -> (forall a, In a l -> right_shape C m a) ->
  ss_x0 (history nlp C (sets_only l)) = ss_x0 (history nlp C l) /\ ss_pval (history nlp C (sets_only l)) = ss_pval (history nlp C l) /\
  ss_w0 (history nlp C l) = ss_w0 (history nlp C (sets_only l)).
Proof.
  intros I SH. unfold history. apply (fold_related nlp (srel eq)); [| |exact SH|apply (initial_sized _ _ _ _ _ _ _ H)|repeat split].
  - intros s s' fv HR. refine (proj1 (set_simul eq _ _ _ C fv s s' HR)); [intros; subst; reflexivity|intros; subst; congruence|reflexivity].
  - intros s s' Z (R1 & R2 & R3). cbn [act]. destruct (solve_ext nlp s I) as (E1 & E2 & E3). repeat split; congruence.
Qed.
End Con.
