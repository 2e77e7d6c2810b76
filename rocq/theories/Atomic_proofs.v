(* Atomic_proofs.v -- what a call of set() that raises leaves behind *)
From Coq Require Import Reals Qreals Lra.
From Verif Require Import Base Lib Sx Sx_proofs Utils Tableau Opts Model Ocp Problem Numeric Rk4 Results Solver Spec Fesd Spec2 Spec4 Spec5
  Con_proofs Feas_proofs Accept_proofs Solve_proofs Vec_proofs Start_proofs Set_proofs Hist_proofs Field_proofs Field2_proofs Spec33.

Lemma sfor_app {S A} (f : A -> se S unit) l l' s : sfor f (l ++ l') s = match sfor f l s with (s', Ok _) => sfor f l' s' | (s', Err e) => (s', Err e) end.
Proof.
  revert s. induction l as [|a l IH]; intros s; [reflexivity|]. cbn [app sfor]. unfold sbind. destruct (f a s) as [s1 [u|e]]; [apply IH|reflexivity].
Qed.
Lemma update_atomic f s s' e : update_w0 f s = (s', Err e) -> s' = s.
Proof. unfold update_w0, sbind, sget, lift, put_w0. destruct (f (ss_w0 s)); intros E; [discriminate|]. injection E as <- _. reflexivity. Qed.
Lemma lift_atomic {A B} (r : res A) (k : A -> se sstate B) s s' e : (forall a, k a s = (s', Err e) -> s' = s) -> sbind (lift r) k s = (s', Err e) -> s' = s.
Proof. unfold sbind, lift. destruct r as [a|x]; intros Hk E; [exact (Hk a E)|]. injection E as <- _. reflexivity. Qed.

Section Con.
Variables (lr : Q -> Q -> Q -> nat) (cp : nat -> scheme -> list Q) (d : ipopt_dict)
  (o : opts) (m : model) (oc : option ocp) (C : constructed).
Hypothesis H : construct_problem lr cp d o m oc = Ok C.
Notation O := (the_opts C).

Lemma pglobal_atomic v s s' e : sized C m s -> set C (SetPGlobal v) s = (s', Err e) -> s' = s.
Proof.
  intros Z. unfold set. cbv zeta. change (pr_o (cn_prob C)) with O. destruct (npt_pm _ _ _ _ _ _ _ H) as [D5 D6]. rewrite D5, D6.
  rewrite <- (sz_pval _ _ _ Z). replace (m_npt m + m_npg m - m_npt m) with (m_npg m) by lia.
  destruct (bcast (m_npg m) v) as [v'|x] eqn:B.
  - assert (Lv : length v' = m_npg m).
    { unfold bcast in B. destruct (length v =? m_npg m) eqn:L; [injection B as <-; apply Nat.eqb_eq; exact L|]. destruct v as [|y [|]]; try discriminate. injection B as <-. apply repeat_length. }
    rewrite (rows_loop _ (fun _ => Ok v') (m_npt m) (m_npt m + m_npg m)) with (l := ss_pval s) (vs := repeat v' (length (ss_pval s))) (pre := []).
    + discriminate.
    + intros i s0. unfold sbind, sget, lift, put_pval, assign_cols. cbn [bind]. destruct (nthE EIndexError (ss_pval s0) i) as [row|]; cbn [bind]; [|reflexivity].
      replace (m_npt m + m_npg m - m_npt m) with (m_npg m) by lia. rewrite B. rewrite <- Lv at 1. rewrite bcast_same. cbn [bind]. destruct (updE EIndexError (ss_pval s0) i _); reflexivity.
    + reflexivity.
    + rewrite repeat_length. apply Nat.le_refl.
    + intros i u Hi _. apply nth_error_In, repeat_spec in Hi. subst. split; [reflexivity|]. rewrite Lv. lia.
  - destruct (ss_pval s) as [|row M] eqn:E; [cbn; discriminate|]. cbn [length seq sfor]. unfold sbind at 1. unfold sbind at 1, sget at 1. unfold sbind at 1, lift at 1, assign_cols at 1.
    rewrite E. cbn [nthE nth_error bind]. replace (m_npt m + m_npg m - m_npt m) with (m_npg m) by lia. rewrite B. cbn [bind]. intros X. injection X as <- _. reflexivity.
Qed.
Lemma set_atomic fv s s' e : sized C m s -> writes_once C fv -> set C fv s = (s', Err e) -> s' = s.
Proof.
  intros Z W. destruct fv as [v|v|v|v|v|v|v|v|]; cbn [writes_once] in W.
  - unfold set, put_x0. cbv zeta. discriminate.
  - destruct W as [W1 W2]. rewrite (set_x_other C v s W1 W2). intros E. injection E as <- _. reflexivity.
  - unfold set. cbv zeta. apply lift_atomic. intros _. apply lift_atomic. intros _. apply lift_atomic. intros rows. apply update_atomic.
  - unfold set. cbv zeta. apply lift_atomic. intros _. apply update_atomic.
  - exact (pglobal_atomic v s s' e Z).
  - destruct W.
  - unfold set. cbv zeta. change total with sumn in W. apply Nat.eqb_neq in W. change (pr_o (cn_prob C)) with O. rewrite W. unfold raise. intros E. injection E as <- _. reflexivity.
  - destruct W.
  - unfold set, raise. cbv zeta. intros E. injection E as <- _. reflexivity.
Qed.
(* too few rows: the first ones are written *)
Lemma time_var_short v s : sized C m s -> length v < o_N_stages O -> (forall r, In r v -> length r = m_npt m) ->
  set C (SetPTimeVar v) s = (mkState (ss_x0 s) (with_p_time_var m v (ss_pval s) ++ skipn (length v) (ss_pval s)) (ss_w0 s) (ss_calls s), Err EIndexError).
Proof.
  intros Z Lv Rv. unfold set. cbv zeta. change (pr_o (cn_prob C)) with O. destruct (npt_pm _ _ _ _ _ _ _ H) as [D5 D6]. rewrite D5.
  set (body := fun i : nat => _). assert (Hb : forall i s0, body i s0 = match (do* row <- nthE EIndexError v i; assign_cols (ss_pval s0) i 0 (m_npt m) row) with
      | Ok M => (mkState (ss_x0 s0) M (ss_w0 s0) (ss_calls s0), Ok tt) | Err e => (s0, Err e) end).
  { intros i s0. unfold body, sbind, sget, lift, put_pval. destruct (nthE EIndexError v i) as [row|e]; cbn [bind]; [|reflexivity].
    destruct (assign_cols (ss_pval s0) i 0 (m_npt m) row); reflexivity. }
  clearbody body. pose proof (sz_pval _ _ _ Z) as Lp. fold O in Lp. set (M := ss_pval s) in *.
  assert (G : forall vs l pre s0 k, ss_pval s0 = pre ++ l -> length vs < length l -> k = length l -> (forall i u, nth_error vs i = Some u -> nthE EIndexError v (length pre + i) = Ok u /\ length u = m_npt m) ->
    (forall i, length pre + length vs <= i -> nthE EIndexError v i = Err EIndexError) ->
    sfor body (seq (length pre) k) s0 = (mkState (ss_x0 s0) (pre ++ map (fun p => fst p ++ skipn (m_npt m) (snd p)) (combine vs l) ++ skipn (length vs) l) (ss_w0 s0) (ss_calls s0), Err EIndexError)).
  { clear - Hb. induction vs as [|u vs IH]; intros l pre s0 k E L Ek A B; (destruct l as [|r l]; [cbn in L; lia|]); subst k; cbn [length seq sfor]; unfold sbind; rewrite Hb.
    - rewrite (B (length pre)) by (cbn; lia). cbn [bind combine map app skipn]. rewrite <- E. destruct s0; reflexivity.
    - destruct (A 0 u eq_refl) as [G V]. rewrite Nat.add_0_r in G. rewrite G. cbn [bind]. unfold assign_cols. rewrite E.
      unfold nthE at 1. rewrite nth_error_app2, Nat.sub_diag by lia. cbn [nth_error bind]. rewrite Nat.sub_0_r, <- V, bcast_same. cbn [bind]. rewrite updE_mid. rewrite V. cbn [firstn app].
      replace (S (length pre)) with (length (pre ++ [u ++ skipn (m_npt m) r])) by (rewrite app_length; cbn; lia).
      rewrite (IH l (pre ++ [u ++ skipn (m_npt m) r])); cbn [ss_pval ss_x0 ss_w0 ss_calls].
      + cbn [combine map fst snd skipn]. rewrite <- !app_assoc. reflexivity.
      + rewrite <- app_assoc. reflexivity.
      + cbn in L. lia.
      + reflexivity.
      + intros i u' Hi. rewrite app_length. cbn [length]. replace (length pre + 1 + i) with (length pre + S i) by lia. apply A. exact Hi.
      + intros i Hi. apply B. rewrite app_length in Hi. cbn in *. lia. }
  specialize (G v M [] s (o_N_stages O) eq_refl). cbn [length app] in G. rewrite G; [reflexivity|lia|symmetry; exact Lp| |].
  - intros i u Hi. cbn [plus]. unfold nthE. rewrite Hi. split; [reflexivity|]. exact (Rv u (nth_error_In _ _ Hi)).
  - intros i Hi. cbn [plus] in Hi. unfold nthE. apply nth_error_None in Hi. rewrite Hi. reflexivity.
Qed.
End Con.
