(* Set_proofs.v -- set() and histories of calls *)
From Coq Require Import Reals Qreals Lra Permutation.
From Verif Require Import Base Lib Sx Sx_proofs Utils Tableau Opts Model Ocp Problem Numeric Rk4 Results Solver Spec Fesd Spec2 Spec3 Spec4 Spec5
  FeMake_proofs FeZero_proofs Prob_proofs Body_proofs Model_proofs Con_proofs Index_proofs Index2_proofs Index3_proofs Nlp_proofs Feas_proofs Lam_proofs Accept_proofs
  Results_proofs Results2_proofs Results4_proofs Solve_proofs Solve2_proofs Vec_proofs Syms_proofs Init_proofs Init2_proofs Start_proofs.

(* ---- lengths ---- *)
Definition same_len (a b : sstate) : Prop := ss_x0 b = ss_x0 a /\ ss_pval b = ss_pval a /\ length (ss_w0 b) = length (ss_w0 a).
Lemma sl_refl s : same_len s s. Proof. repeat split. Qed.
Lemma sl_trans a b c : same_len a b -> same_len b c -> same_len a c.
Proof. intros (A1 & A2 & A3) (B1 & B2 & B3). repeat split; congruence. Qed.
Lemma update_len f : (forall w w', f w = Ok w' -> length w' = length w) -> keeps same_len (update_w0 f).
Proof.
  intros F s. rewrite update_w0_run. destruct (f (ss_w0 s)) eqn:E; cbn; [repeat split; cbn; eauto|apply sl_refl].
Qed.
Lemma foldM_len {A} (f : list R -> A -> res (list R)) l : (forall w a w', f w a = Ok w' -> length w' = length w) ->
  forall w w', foldM f l w = Ok w' -> length w' = length w.
Proof.
  intros F. induction l as [|a l IH]; intros w w' E; cbn in E; [injection E as <-; reflexivity|].
  apply bind_ok in E. destruct E as (w1 & E1 & E2). apply F in E1. apply IH in E2. congruence.
Qed.
Lemma assign_rows_len w idx v w' : assign_rows w idx v = Ok w' -> length w' = length w.
Proof.
  unfold assign_rows. intros E. apply bind_ok in E. destruct E as (_ & _ & E). destruct idx as [|r idx].
  - apply bind_ok in E. destruct E as (_ & _ & E). injection E as <-. reflexivity.
  - apply bind_ok in E. destruct E as (_ & _ & E). eapply foldM_len; [|exact E]. intros w1 a w2 F. cbn in F. eapply assign_len, F.
Qed.
Lemma assign_states_len w ind x0 w' : assign_states w ind x0 = Ok w' -> length w' = length w.
Proof.
  unfold assign_states. intros E. apply bind_ok in E. destruct E as (_ & _ & E). apply bind_ok in E. destruct E as (_ & _ & E). eapply assign_rows_len, E.
Qed.
Ltac kl := repeat lazymatch goal with
  | |- keeps _ (update_w0 _) => apply update_len; let F := fresh in intros ? ? F; cbn in F;
      first [eapply assign_len, F|eapply assign_rows_len, F|eapply assign_states_len, F|eapply bcast_len, F
       |eapply foldM_len; [|exact F]; let G := fresh in intros ? ? ? G; cbn in G; eapply assign_len, G]
  | |- keeps _ (sbind _ _) => apply (keeps_bind _ _ sl_trans); [|intros ?]
  | |- keeps _ (sfor _ _) => apply (keeps_for _ _ sl_refl sl_trans); intros ?
  | |- keeps _ (sret _) => apply (keeps_ret _ _ sl_refl)
  | |- keeps _ (lift _) => apply (keeps_lift _ _ sl_refl)
  | |- keeps _ (raise _) => apply (keeps_raise _ _ sl_refl)
  | |- keeps _ sget => apply (keeps_get _ _ sl_refl)
  end.
Lemma rk4_stage_len C sm i k x : keeps same_len (rk4_stage_guess C sm i k x).
Proof. unfold rk4_stage_guess. kl. Qed.
Lemma rk4_elements_len C sm grid n : forall i x, keeps same_len (rk4_elements C sm grid n i x).
Proof. induction n as [|n IH]; intros i x; cbn [rk4_elements]; kl; [apply rk4_stage_len|apply IH]. Qed.
Lemma initialize_len C : keeps same_len (initialize C).
Proof. unfold initialize. kl. destruct (o_init (pr_o (cn_prob C))); kl. apply rk4_elements_len. Qed.
Lemma calls_len {A} (m : se sstate A) : keeps only_calls m -> keeps same_len m.
Proof. intros K s. destruct (K s) as (A1 & A2 & A3). repeat split; congruence. Qed.
Lemma solve_len nlp C : keeps same_len (solve nlp C).
Proof.
  unfold solve. cbv zeta. kl; [apply initialize_len|]. destruct a1 as [[w1 lb] ub]. kl.
  - apply calls_len, homotopy_keeps.
  - destruct (o_do_polishing _); kl. apply calls_len, polish_keeps.
  - destruct (o_init _); kl.
Qed.

Section Con.
Variables (lr : Q -> Q -> Q -> nat) (cp : nat -> scheme -> list Q) (d : ipopt_dict)
  (o : opts) (m : model) (oc : option ocp) (C : constructed).
Hypothesis H : construct_problem lr cp d o m oc = Ok C.
Notation O := (the_opts C).
Notation P := (the_problem C).
Notation W := (w (the_nlp C)).
Notation E := (explicit_end C).
Notation PM := (pr_pm (cn_prob C)).

Lemma sized_len s s' : same_len s s' -> sized C m s -> sized C m s'.
Proof. intros (A1 & A2 & A3) [Z1 Z2 Z3 Z4]. split; [congruence|congruence|congruence|rewrite A2; exact Z4]. Qed.

Lemma initial_sized : sized C m (initial_state C).
Proof.
  destruct (con_use _ _ _ _ _ _ _ H) as (o' & t & pm & po & P' & st & lf & f1 & K & B & Eo & _).
  destruct (pm_facts _ _ _ _ _ _ _ H) as [_ MO]. destruct (pm_dims _ _ _ MO) as (D1 & D2 & D3 & D4 & D5 & D6 & D7).
  destruct (mo_m _ _ _ MO) as (ptv & _ & _ & Sh & Ep). unfold shape_is in Sh. apply andb_prop in Sh. destruct Sh as [Sh1 Sh2].
  apply Nat.eqb_eq in Sh1. rewrite forallb_forall in Sh2.
  split; unfold initial_state; cbn [ss_x0 ss_w0 ss_pval].
  - unfold reals. rewrite map_length, D7.
    destruct (bo_prim _ _ _ _ _ _ _ _ B) as (P0 & pp & pq & Hpk & _).
    destruct (z_x _ _ _ (pk_fe0 _ _ _ _ _ Hpk)) as (_ & L & _). rewrite <- (co_pm' _ _ _ _ _ _ _ _ _ _ _ _ K) in L. congruence.
  - unfold reals. rewrite map_length. destruct (lengths_con _ _ _ _ _ _ _ H) as [[(_ & _ & L3) _] _]. exact L3.
  - rewrite map_length, Ep, map_length. exact Sh1.
  - intros r Hr. apply in_map_iff in Hr. destruct Hr as (q & <- & Hq). unfold reals. rewrite map_length. rewrite Ep in Hq.
    apply in_map_iff in Hq. destruct Hq as (row & <- & Hrow). rewrite app_length. specialize (Sh2 _ Hrow). apply Nat.eqb_eq in Sh2.
    rewrite (mo_pg _ _ _ MO). lia.
Qed.

Lemma assign_cols_rows (M : list (list R)) i lo hi v M' n : (forall r, In r M -> length r = n) -> lo <= hi -> hi <= n -> assign_cols M i lo hi v = Ok M' ->
  length M' = length M /\ forall r, In r M' -> length r = n.
Proof.
  intros R L1 L2 A. unfold assign_cols in A. apply bind_ok in A. destruct A as (row & Hr & A). apply nthE_ok in Hr.
  apply bind_ok in A. destruct A as (v' & Hv & A). apply bcast_len in Hv. split; [eapply updE_len; exact A|].
  intros r Hin. apply In_nth_error in Hin. destruct Hin as [k Hk]. rewrite (updE_nth _ _ _ _ _ k A) in Hk. destruct (k =? i).
  - injection Hk as <-. pose proof (R row (nth_error_In _ _ Hr)) as Lr. rewrite !app_length, firstn_length, skipn_length. lia.
  - apply R. eapply nth_error_In, Hk.
Qed.
Definition keeps_sized (a b : sstate) : Prop := sized C m a -> sized C m b.
Lemma ks_refl s : keeps_sized s s. Proof. intros Z. exact Z. Qed.
Lemma ks_trans a b c : keeps_sized a b -> keeps_sized b c -> keeps_sized a c.
Proof. intros A B Z. auto. Qed.
Lemma ks_len {A} (x : se sstate A) : keeps same_len x -> keeps keeps_sized x.
Proof. intros K s Z. eapply sized_len; [apply K|exact Z]. Qed.
Lemma cols_sized lo hi i (f : sstate -> res (list R)) : lo <= hi -> hi <= m_npt m + m_npg m ->
  keeps keeps_sized (dos s <- sget; dos row <- lift (f s); dos M <- lift (assign_cols (ss_pval s) i lo hi row); put_pval M).
Proof.
  intros L1 L2 s Z. unfold sbind, sget, lift, put_pval. destruct (f s) as [row|e]; [|exact Z].
  destruct (assign_cols (ss_pval s) i lo hi row) as [M|e] eqn:EA; [|exact Z]. cbn.
  destruct (assign_cols_rows _ _ _ _ _ _ _ (sz_rows _ _ _ Z) L1 L2 EA) as [A1 A2].
  destruct Z as [Z1 Z2 Z3 Z4]. split; cbn; [exact Z1|exact Z2|congruence|exact A2].
Qed.
Lemma npt_pm : m_npt (pm_m PM) = m_npt m /\ m_npg (pm_m PM) = m_npg m.
Proof. destruct (pm_dims _ _ _ (proj2 (pm_facts _ _ _ _ _ _ _ H))) as (_ & _ & _ & _ & D5 & D6 & _). auto. Qed.
Lemma set_sized fv : right_shape C m (ASet fv) -> keeps keeps_sized (set C fv).
Proof.
  intros R. unfold set. cbv zeta. change (pr_o (cn_prob C)) with O. change (pr (cn_prob C)) with P.
  destruct npt_pm as [D5 D6].
  destruct fv; cbn in R.
  - intros s Z. destruct Z as [Z1 Z2 Z3 Z4]. split; cbn; assumption.
  - apply ks_len. kl; [destruct (_ =? _); [kl|destruct (_ =? _); kl]|]. destruct (not_external O); kl.
  - apply ks_len. kl.
  - apply ks_len. kl.
  - apply (keeps_for _ _ ks_refl ks_trans). intros i. rewrite D5, D6.
    exact (cols_sized (m_npt m) (m_npt m + m_npg m) i (fun _ => Ok v) ltac:(lia) ltac:(lia)).
  - apply (keeps_for _ _ ks_refl ks_trans). intros i. rewrite D5. apply (cols_sized 0 (m_npt m) i (fun _ => nthE EIndexError v i)); lia.
  - apply ks_len. destruct (_ =? _); kl.
  - intros s Z. unfold sbind, put_w0. destruct Z as [Z1 Z2 Z3 Z4]. destruct (not_external O); cbn; split; cbn; assumption.
  - apply ks_len. kl.
Qed.
Lemma act_sized nlp s a : right_shape C m a -> sized C m s -> sized C m (act nlp C s a).
Proof.
  intros R Z. destruct a as [fv|]; cbn [act].
  - apply (set_sized fv R s Z).
  - exact (ks_len _ (solve_len nlp C) s Z).
Qed.
Lemma history_sized nlp l : (forall a, In a l -> right_shape C m a) -> sized C m (history nlp C l).
Proof.
  intros R. unfold history. assert (G : forall s, sized C m s -> sized C m (fold_left (act nlp C) l s)); [|apply G, initial_sized].
  induction l as [|a l IH]; intros s Z; cbn; [exact Z|]. apply IH; [intros; apply R; right; assumption|]. apply act_sized; [apply R; left; reflexivity|exact Z].
Qed.
End Con.
