(* Field2_proofs.v -- set('p_global'), set('p_time_var'), set('theta'), and what set() leaves alone *)
From Coq Require Import Reals Qreals Lra Permutation.
From Verif Require Import Base Lib Sx Sx_proofs Utils Tableau Opts Model Ocp Problem Numeric Rk4 Results Solver Spec Fesd Spec2 Spec4 Spec5
  Body_proofs Model_proofs Con_proofs Index_proofs Index2_proofs Index3_proofs Nlp_proofs Feas_proofs Lam_proofs Accept_proofs
  Results_proofs Results2_proofs Results4_proofs Solve_proofs Solve2_proofs Vec_proofs Syms_proofs Init_proofs Init2_proofs
  Start_proofs Progress_proofs Set_proofs Hist_proofs Field_proofs.

(* a loop that rewrites the rows one by one *)
Lemma updE_mid {A} e (pre : list A) a l x : updE e (pre ++ a :: l) (length pre) x = Ok (pre ++ x :: l).
Proof. induction pre as [|b pre IH]; [reflexivity|]. cbn. rewrite IH. reflexivity. Qed.
Lemma rows_loop (body : nat -> se sstate unit) (g : nat -> res (list R)) lo hi :
  (forall i s, body i s = match (do* row <- g i; assign_cols (ss_pval s) i lo hi row) with
      | Ok M => (mkState (ss_x0 s) M (ss_w0 s) (ss_calls s), Ok tt) | Err e => (s, Err e) end) ->
  forall l vs pre s, ss_pval s = pre ++ l -> length l <= length vs ->
    (forall i v, nth_error vs i = Some v -> i < length l -> g (length pre + i) = Ok v /\ length v = hi - lo) ->
    sfor body (seq (length pre) (length l)) s =
    (mkState (ss_x0 s) (pre ++ map (fun p => firstn lo (snd p) ++ fst p ++ skipn hi (snd p)) (combine vs l)) (ss_w0 s) (ss_calls s), Ok tt).
Proof.
  intros Hb. induction l as [|r l IH]; intros vs pre s E L A.
  - cbn. destruct vs; cbn; rewrite <- E; destruct s; reflexivity.
  - destruct vs as [|v vs]; [cbn in L; lia|]. cbn [length seq sfor]. unfold sbind. rewrite Hb.
    destruct (A 0 v eq_refl) as [G V]; [cbn; lia|]. rewrite Nat.add_0_r in G. rewrite G. cbn [bind]. unfold assign_cols. rewrite E.
    unfold nthE. rewrite nth_error_app2, Nat.sub_diag by lia. cbn [nth_error bind]. rewrite <- V, bcast_same. cbn [bind]. rewrite updE_mid.
    change (S (length pre)) with (1 + length pre). replace (1 + length pre) with (length (pre ++ [firstn lo r ++ v ++ skipn hi r])) by (rewrite app_length; cbn; lia).
    rewrite (IH vs (pre ++ [firstn lo r ++ v ++ skipn hi r])); cbn [ss_pval ss_x0 ss_w0 ss_calls].
    + cbn [combine map fst snd]. rewrite <- app_assoc. reflexivity.
    + rewrite <- app_assoc. reflexivity.
    + cbn in L. lia.
    + intros i u Hi Hl. specialize (A (S i) u Hi). rewrite app_length. cbn [length] in *. replace (length pre + 1 + i) with (length pre + S i) by lia. apply A. lia.
Qed.

Lemma assign_outside w idx v w' i : assign w idx v = Ok w' -> ~ In i idx -> nth_error w' i = nth_error w i.
Proof.
  unfold assign. intros F N. apply bind_ok in F. destruct F as (v' & _ & F). destruct (write_nth _ _ _ i F) as [[_ E]|(x & Hi & _)]; [exact E|].
  exfalso. apply N. apply in_combine_l in Hi. exact Hi.
Qed.
Lemma assign_rows_outside idx v i : ~ In i (concat idx) -> forall w w', assign_rows w idx v = Ok w' -> nth_error w' i = nth_error w i.
Proof.
  intros N w w' F. unfold assign_rows in F. apply bind_ok in F. destruct F as (_ & _ & F).
  assert (K : foldM (fun w r => assign w r v) idx w = Ok w' \/ w' = w).
  { destruct idx; apply bind_ok in F; destruct F as (u & _ & F); [right; congruence|left; exact F]. }
  clear F. destruct K as [F| ->]; [|reflexivity]. revert w F N. induction idx as [|r idx IH]; intros w F N; cbn in F; [injection F as <-; reflexivity|].
  apply bind_ok in F. destruct F as (w1 & F1 & F2). cbn in N. rewrite in_app_iff in N. rewrite (IH w1 F2) by tauto. apply (assign_outside _ _ _ _ _ F1). tauto.
Qed.

Section Con.
Variables (lr : Q -> Q -> Q -> nat) (cp : nat -> scheme -> list Q) (d : ipopt_dict)
  (o : opts) (m : model) (oc : option ocp) (C : constructed).
Hypothesis H : construct_problem lr cp d o m oc = Ok C.
Notation O := (the_opts C).
Notation P := (the_problem C).
Notation PM := (pr_pm (cn_prob C)).
Notation W := (w (the_nlp C)).
Notation E := (explicit_end C).

Lemma set_p_global_rows v s : sized C m s -> length v = m_npg m ->
  set C (SetPGlobal v) s = (mkState (ss_x0 s) (with_p_global m v (ss_pval s)) (ss_w0 s) (ss_calls s), Ok tt).
Proof.
  intros Z Lv. unfold set. cbv zeta. change (pr_o (cn_prob C)) with O. destruct (npt_pm _ _ _ _ _ _ _ H) as [D5 D6]. rewrite D5, D6.
  rewrite <- (sz_pval _ _ _ Z). change 0 with (length (@nil (list R))).
  rewrite (rows_loop _ (fun _ => Ok v) (m_npt m) (m_npt m + m_npg m)) with (l := ss_pval s) (vs := repeat v (length (ss_pval s))).
  - cbn [app]. do 2 f_equal. unfold with_p_global. pose proof (sz_rows _ _ _ Z) as R. revert R. generalize (ss_pval s) as M.
    induction M as [|r M IH]; intros R; [reflexivity|]. cbn [length repeat combine map fst snd]. rewrite IH by (intros; apply R; right; assumption).
    f_equal. rewrite (skipn_all2 r) by (rewrite (R r (or_introl eq_refl)); lia). rewrite app_nil_r. reflexivity.
  - intros i s'. unfold sbind, sget, lift, put_pval. cbn [bind]. destruct (assign_cols (ss_pval s') i (m_npt m) (m_npt m + m_npg m) v); reflexivity.
  - reflexivity.
  - rewrite repeat_length. lia.
  - intros i u Hi _. apply nth_error_In, repeat_spec in Hi. subst. split; [reflexivity|lia].
Qed.
Lemma set_p_time_var_rows v s : sized C m s -> length v = o_N_stages O -> (forall r, In r v -> length r = m_npt m) ->
  set C (SetPTimeVar v) s = (mkState (ss_x0 s) (with_p_time_var m v (ss_pval s)) (ss_w0 s) (ss_calls s), Ok tt).
Proof.
  intros Z Lv Rv. unfold set. cbv zeta. change (pr_o (cn_prob C)) with O. destruct (npt_pm _ _ _ _ _ _ _ H) as [D5 D6]. rewrite D5.
  rewrite <- (sz_pval _ _ _ Z). change 0 with (length (@nil (list R))) at 2.
  rewrite (rows_loop _ (nthE EIndexError v) 0 (m_npt m)) with (l := ss_pval s) (vs := v).
  - reflexivity.
  - intros i s'. unfold sbind, sget, lift, put_pval. destruct (nthE EIndexError v i) as [row|e]; cbn [bind]; [|reflexivity].
    destruct (assign_cols (ss_pval s') i 0 (m_npt m) row); reflexivity.
  - reflexivity.
  - rewrite (sz_pval _ _ _ Z). lia.
  - intros i u Hi _. cbn [length plus]. unfold nthE. rewrite Hi. split; [reflexivity|]. rewrite (Rv u (nth_error_In _ _ Hi)). lia.
Qed.

(* ---- theta ---- *)
Lemma theta_rows k l idxs : nth_error (concat (p_ind2 P FTheta)) k = Some l -> In idxs l ->
  exists c e j, k = flat_pos (o_Nfe_list O) c e /\ In (c, e) (elements O) /\ j < o_ns O /\ length idxs = n_subsystems m /\
    forall q, q < n_subsystems m -> exists idx, nth_error idxs q = Some idx /\ sel W idx = Ok (map (S2 FTheta c e j q) (seq 0 (dim2 O m FTheta q))).
Proof.
  intros Hl Hin. destruct (Forall2_nth_r _ _ _ _ _ (Forall2_in _ _ _ (nested2 _ _ _ _ _ _ _ H FTheta)) Hl) as (p & Hk & Hp & Hat).
  destruct (row2 _ _ _ _ _ _ _ H FTheta p l Hp Hat) as [La Hr]. apply In_nth_error in Hin. destruct Hin as [j Hj].
  assert (Lj : j < o_ns O) by (cbn in La; rewrite <- La; eapply nth_error_Some_lt; exact Hj).
  destruct (Hr j) as (r & E1 & E2 & E3); [exact Lj|]. rewrite Hj in E1. injection E1 as <-.
  exists (fst p), (snd p), j. split; [apply (elements_len _ _ _ _ _ _ _ H), Hk|]. split; [rewrite <- surjective_pairing; exact Hp|]. auto.
Qed.

Lemma set_theta_one v s : sized C m s -> o_pss O = Stewart -> n_subsystems m = 1 -> 0 < o_ns O ->
  length v = total (o_Nfe_list O) -> (forall r, In r v -> length r = n_modes m 0) ->
  set C (SetTheta v) s = (mkState (ss_x0 s) (ss_pval s) (overwrite W (ss_w0 s) (weight_rows O v)) (ss_calls s), Ok tt).
Proof.
  intros Z PS N1 _ Lv Rv. assert (DT : dim2 O m FTheta 0 = n_modes m 0) by (unfold dim2; rewrite PS; reflexivity).
  unfold set. cbv zeta. change (pr_o (cn_prob C)) with O. change (pr (cn_prob C)) with P. rewrite Lv. change total with sumn. rewrite Nat.eqb_refl.
  set (L := concat (p_ind2 P FTheta)).
  assert (LL : length L <= length v).
  { unfold L. rewrite <- (Forall2_length _ _ _ (nested2 _ _ _ _ _ _ _ H FTheta)). apply (elements_total _ _ _ _ _ _ _ H), Lv. }
  assert (ROW : forall k, k < length L -> length (nth k v []) = n_modes m 0).
  { intros k Hk. apply Rv, nth_In. lia. }
  assert (IX : forall k l idxs, nth_error L k = Some l -> In idxs l -> exists idx c e j, idxs = [idx] /\ k = flat_pos (o_Nfe_list O) c e /\
    sel W idx = Ok (map (S2 FTheta c e j 0) (seq 0 (n_modes m 0)))).
  { intros k l idxs Hl Hin. destruct (theta_rows k l idxs Hl Hin) as (c & e & j & Ek & _ & _ & L1 & Hq). rewrite N1 in *.
    destruct (Hq 0) as (idx & E0 & Sl); [lia|]. rewrite DT in Sl. destruct idxs as [|a [|b idxs]]; try discriminate. cbn in E0. injection E0 as ->.
    exists idx, c, e, j. auto. }
  rewrite (sfor_ext _ (fun p => sfor (fun idx => dos row <- lift (nthE EIndexError v (fst p)); update_w0 (fun w => assign w idx row)) (concat (snd p)))).
  2:{ intros [k l] Hk s'. apply enum_in in Hk. cbn [fst snd].
      rewrite <- (sfor_concat (fun idx => dos row <- lift (nthE EIndexError v k); update_w0 (fun w => assign w idx row))).
      apply sfor_ext. intros idxs Hin s2. destruct (IX k l idxs Hk Hin) as (idx & c & e & j & -> & Ek & Sl).
      destruct (nth_error_lt v k) as [r Hr]; [apply nth_error_Some_lt in Hk; lia|]. unfold sbind, lift, nthE. cbn [sfor]. unfold sbind. unfold nthE. rewrite Hr.
      rewrite !update_w0_run. unfold assign_rows. cbn [all_len_eq forallb]. unfold guard. cbn [bind].
      assert (Lr : length r = length idx). { apply sel_length in Sl. rewrite map_length, seq_length in Sl. rewrite <- Sl, <- (ROW k) by (eapply nth_error_Some_lt; exact Hk).
        rewrite (nth_error_nth _ _ _ Hr). reflexivity. }
      rewrite <- Lr, bcast_same. cbn [bind foldM]. destruct (assign (ss_w0 s2) idx r); reflexivity. }
  rewrite (sfor_map (fun p => (fst p, concat (snd p))) (fun p => sfor (fun idx => dos row <- lift (nthE EIndexError v (fst p)); update_w0 (fun w => assign w idx row)) (snd p))).
  rewrite <- enum_map. rewrite rows_sfor by (rewrite map_length; exact LL).
  apply (sfor_update (fun q w => assign w (snd q) (nth (fst q) v []))).
  rewrite <- (foldM_map (fun w b => assign w (fst b) (snd b)) (fun q => (snd q, nth (fst q) v []))).
  apply (blocks_write W (ss_w0 s) (tagged (map (@concat _) L)) (fun q => (snd q, nth (fst q) v [])) (fun q => match sel W (snd q) with Ok ys => ys | _ => [] end)); [apply (sz_w0 _ _ _ Z)| |].
  - intros [k idx] Hi. apply tagged_in in Hi. destruct Hi as (l & Hl & Hin). rewrite nth_error_map in Hl. destruct (nth_error L k) as [l0|] eqn:El; [|discriminate].
    injection Hl as <-. apply in_concat in Hin. destruct Hin as (idxs & Hx & Hin). destruct (IX k l0 idxs El Hx) as (idx' & c & e & j & -> & Ek & Sl).
    destruct Hin as [->|[]]. cbn [fst snd]. rewrite Sl. split; [reflexivity|].
    split; [rewrite ROW by (eapply nth_error_Some_lt; exact El); apply sel_length in Sl; rewrite map_length, seq_length in Sl; congruence|].
    intros i y x Hy Hx'. apply nth_error_map_seq in Hy. destruct Hy as [Hi ->]. cbn. rewrite <- Ek. f_equal. apply nth_error_nth. exact Hx'.
  - intros i y Hi HG. cbn [fst]. pose proof (sym_in_w _ _ _ _ _ _ _ _ H (nth_error_In _ _ Hi)) as R.
    destruct y as [| | | | | | | | | | | | | | | | | |f c e j q k| |]; try (exfalso; apply HG; reflexivity). destruct f; try (exfalso; apply HG; reflexivity).
    destruct q as [|q]; [|exfalso; apply HG; reflexivity]. unfold in_range in R. destruct R as (R1 & R2 & R3 & R4). rewrite DT in R4.
    apply In_nth_error in R1 as Hk. destruct Hk as [g Hg]. destruct (Forall2_nth _ _ _ _ _ (nested2 _ _ _ _ _ _ _ H FTheta) Hg) as (a & Ha & Hat).
    destruct (row2 _ _ _ _ _ _ _ H FTheta (c, e) a R1 Hat) as [_ Hr]. destruct (Hr j R2) as (r & E1 & E2 & E3). destruct (E3 0 R3) as (idx & E4 & Sl).
    exists (g, idx). split.
    + apply tagged_in. exists (concat a). split; [rewrite nth_error_map; fold L in Ha; rewrite Ha; reflexivity|]. apply in_concat. exists r. split; eapply nth_error_In; eassumption.
    + eapply (sel_pos _ _ _ _ _ _ _ H); [exact Sl| |exact Hi]. cbn [fst snd]. rewrite nth_error_map, DT, (nth_error_seq 0 _ k R4). reflexivity.
Qed.

Lemma set_theta_many v s : o_pss O = Stewart -> 2 <= n_subsystems m -> (forall q, q < n_subsystems m -> 0 < n_modes m q) ->
  length v = total (o_Nfe_list O) -> (forall r, In r v -> length r = upto (n_subsystems m) (n_modes m)) ->
  set C (SetTheta v) s = (s, Err EValueError).
Proof.
  intros PS N2 NM Lv Rv. unfold set. cbv zeta. change (pr_o (cn_prob C)) with O. change (pr (cn_prob C)) with P. rewrite Lv. change total with sumn. rewrite Nat.eqb_refl.
  set (L := concat (p_ind2 P FTheta)).
  pose proof (nested2 _ _ _ _ _ _ _ H FTheta) as N. fold L in N.
  assert (E0 : In (0, 0) (elements O)).
  { apply elements_in. pose proof (stages_pos' _ _ _ _ _ _ _ H) as S0. split; [exact S0|]. cbn. apply (nfe_of_nth _ _ _ _ _ _ _ H 0 S0). }
  destruct (nth_error L 0) as [l|] eqn:El.
  2:{ exfalso. apply nth_error_None in El. rewrite <- (Forall2_length _ _ _ N) in El. destruct (elements O); [destruct E0|cbn in El; lia]. }
  assert (Ht : exists L', L = l :: L') by (destruct L; [discriminate|cbn in El; injection El as <-; eauto]). destruct Ht as [L' EL].
  destruct (Forall2_nth_r _ _ _ _ _ (Forall2_in _ _ _ N) El) as (p & Hk & Hp & Hat).
  destruct (row2 _ _ _ _ _ _ _ H FTheta p l Hp Hat) as [La Hr]. cbv zeta in La. pose proof (points2_pos _ _ _ _ _ _ _ H FTheta (nfe_of O (fst p)) (snd p)) as PP.
  destruct l as [|idxs l]; [cbn [length] in La; lia|]. destruct (Hr 0 PP) as (r & R1 & R2 & R3). cbn in R1. injection R1 as <-.
  destruct (R3 0) as (idx & I1 & I2); [lia|].
  rewrite EL. unfold enum. cbn [length seq combine sfor fst snd]. unfold sbind.
  assert (LL : 0 < length v). { pose proof (elements_total _ _ _ _ _ _ _ H v Lv) as T. destruct (elements O); [destruct E0|cbn in T; lia]. }
  destruct (nth_error_lt v 0 LL) as [row Hrow]. unfold lift, nthE. rewrite Hrow. rewrite update_w0_run.
  assert (F : assign_rows (ss_w0 s) idxs row = Err EValueError).
  { unfold assign_rows. destruct (all_len_eq idxs); [|reflexivity]. unfold guard. cbn [bind]. destruct idxs as [|a idxs]; [discriminate|]. cbn in I1. injection I1 as ->.
    assert (Li : length idx = n_modes m 0). { apply sel_length in I2. rewrite map_length, seq_length in I2. unfold dim2 in I2. rewrite PS in I2. congruence. }
    assert (Lr : length row = upto (n_subsystems m) (n_modes m)) by (apply Rv; eapply nth_error_In; exact Hrow).
    assert (B : n_modes m 0 + n_modes m 1 <= length row).
    { rewrite Lr. destruct (n_subsystems m) as [|[|n]]; try lia. unfold upto, total. cbn. lia. }
    pose proof (NM 0 ltac:(lia)) as M0. pose proof (NM 1 ltac:(lia)) as M1.
    unfold bcast. replace (length row =? length idx) with false by (symmetry; apply Nat.eqb_neq; lia). destruct row as [|x [|y row]]; cbn [length] in B; try lia. reflexivity. }
  rewrite F. destruct s; reflexivity.
Qed.

(* ---- what is left alone ---- *)
Section Frame.
Variable fv : field_value.
Definition keep := untouched C m fv.
Lemma keep_refl s : keep s s. Proof. split; reflexivity. Qed.
Lemma keep_trans a b c : keep a b -> keep b c -> keep a c.
Proof.
  intros [A1 A2 A3 A4 A5] [B1 B2 B3 B4 B5]. split; [congruence| | | |].
  - intros N. rewrite B2, A2 by exact N. reflexivity.
  - intros i y Hi N. rewrite (B3 i y Hi N). apply (A3 i y Hi N).
  - intros N. rewrite B4, A4 by exact N. reflexivity.
  - intros N. rewrite B5, A5 by exact N. reflexivity.
Qed.
Lemma keep_w0 f : (forall w w', f w = Ok w' -> forall i y, nth_error W i = Some y -> ~ addressed fv y -> nth_error w' i = nth_error w i) ->
  keeps keep (update_w0 f).
Proof.
  intros A s. rewrite update_w0_run. destruct (f (ss_w0 s)) as [w'|e] eqn:F; [|apply keep_refl]. split; try reflexivity. cbn. intros i y Hi N. eapply A; eassumption.
Qed.
Lemma keep_assign idx row : (forall i, In i idx -> exists y, nth_error W i = Some y /\ addressed fv y) -> keeps keep (update_w0 (fun w => assign w idx row)).
Proof.
  intros A. apply keep_w0. intros w w' F i y Hi N. apply (assign_outside _ _ _ _ _ F). intros Hin. destruct (A i Hin) as (y' & Hy & Ha). congruence.
Qed.
Lemma sel_in idx (f : nat -> sym) n i : sel W idx = Ok (map f (seq 0 n)) -> In i idx -> exists k, nth_error W i = Some (f k).
Proof.
  intros S Hi. apply sel_ok in S. apply In_nth_error in Hi. destruct Hi as [k Hk]. destruct (Forall2_nth _ _ _ _ _ S Hk) as (y & Hy & Hw).
  apply nth_error_map_seq in Hy. destruct Hy as [_ ->]. eauto.
Qed.
Lemma keeps_for_in {A} (f : A -> se sstate unit) l : (forall a, In a l -> keeps keep (f a)) -> keeps keep (sfor f l).
Proof.
  induction l as [|a l IH]; intros K; cbn; [intros s; apply keep_refl|].
  apply (keeps_bind _ _ keep_trans); [apply K; left; reflexivity|]. intros _. apply IH. intros b Hb. apply K. right. exact Hb.
Qed.
End Frame.

Lemma map_upd {A B} (f : A -> B) e l i x l' : updE e l i x = Ok l' -> (forall a, nth_error l i = Some a -> f x = f a) -> map f l' = map f l.
Proof.
  intros U F. apply list_eq_nth; [rewrite !map_length; eapply updE_len; exact U|]. intros k y Hk. rewrite nth_error_map in *. rewrite (updE_nth _ _ _ _ _ k U) in Hk.
  destruct (k =? i) eqn:Ek; [|exact Hk]. apply Nat.eqb_eq in Ek. subst. destruct (nth_error l i) as [a|] eqn:Ea.
  - cbn in *. rewrite (F a eq_refl) in Hk. exact Hk.
  - exfalso. pose proof (updE_in _ _ _ _ _ U). apply nth_error_None in Ea. lia.
Qed.

Lemma set_keeps_rest fv s : sized C m s -> untouched C m fv s (fst (set C fv s)).
Proof.
  intros Z. pose proof assign_cols_rows as ACR. assert (B1 : m_npt m <= m_npt m + m_npg m) by lia. assert (B2 : m_npt m + m_npg m <= m_npt m + m_npg m) by lia.
  unfold set. cbv zeta. change (pr_o (cn_prob C)) with O. change (pr (cn_prob C)) with P. destruct (npt_pm _ _ _ _ _ _ _ H) as [D5 D6].
  destruct fv.
  - split; try reflexivity. intros N. exfalso. apply N. exact I.
  - revert s Z. cut (forall s, untouched C m (SetX v) s (fst ((dos _ <- (if length v =? o_N_stages O
                then sfor (fun p => sfor (fun sub => sfor (fun idx =>
                            dos row <- lift (nthE EIndexError v (fst p));
                            update_w0 (fun w => assign w idx row)) sub) (snd p))
                       (enum (p_ind1 P FX))
                else if length v =? sumn (o_Nfe_list O)
                then sfor (fun p => sfor (fun idx =>
                            dos row <- lift (nthE EIndexError v (fst p));
                            update_w0 (fun w => assign w idx row)) (snd p))
                       (enum (concat (p_ind1 P FX)))
                else raise EValueError);
      if not_external O then raise EWarning else sret tt) s))); [intros K s _; apply K|].
    assert (AS : forall a idx, In idx (concat (concat (p_ind1 P FX))) -> keeps (keep (SetX v)) (dos row <- lift (nthE EIndexError v a); update_w0 (fun w => assign w idx row))).
    { intros a idx Hi. apply (keeps_bind _ _ (keep_trans _)); [apply keeps_lift, keep_refl|]. intros row. apply keep_assign.
      destruct (state_rows _ _ _ _ _ _ _ H idx Hi) as (p & j & _ & _ & Sl). intros i Hin. destruct (sel_in _ _ _ _ Sl Hin) as [k Hk]. eexists. split; [exact Hk|exact I]. }
    intros s. refine (keeps_bind _ _ (keep_trans (SetX v)) _ _ _ _ s).
    + destruct (length v =? o_N_stages O); [|destruct (length v =? sumn (o_Nfe_list O)); [|apply keeps_raise, keep_refl]].
      * apply keeps_for_in. intros [c l] Hp. apply enum_in in Hp. apply keeps_for_in. intros sub Hs. apply keeps_for_in. intros idx Hi. apply AS.
        apply in_concat. exists sub. split; [|exact Hi]. apply in_concat. exists l. split; [eapply nth_error_In; exact Hp|exact Hs].
      * apply keeps_for_in. intros [c l] Hp. apply enum_in in Hp. apply keeps_for_in. intros idx Hi. apply AS.
        apply in_concat. exists l. split; [eapply nth_error_In; exact Hp|exact Hi].
    + intros _. destruct (not_external O); [apply keeps_raise, keep_refl|apply keeps_ret, keep_refl].
  - revert s Z. cut (keeps (keep (SetU v)) (dos _ <- lift (guard (negb (length (concat (p_ind_u P)) =? 0)) EIndexError);
      dos _ <- lift (guard (all_len_eq (p_ind_u P)) EValueError);
      dos rows <- lift (if length v =? length (p_ind_u P) then Ok v
                        else match v with [r] => Ok (repeat r (length (p_ind_u P))) | _ => Err EValueError end);
      update_w0 (fun w => foldM (fun w p => assign w (fst p) (snd p)) (combine (p_ind_u P) rows) w))); [intros K s _; apply K|].
    repeat (apply (keeps_bind _ _ (keep_trans _)); [apply keeps_lift, keep_refl|intros ?]). apply keep_w0.
    assert (IU : forall idx i, In idx (p_ind_u P) -> In i idx -> exists y, nth_error W i = Some y /\ addressed (SetU v) y).
    { intros idx i Hi Hin. destruct (idx_u_con _ _ _ _ _ _ _ H) as [L S]. apply In_nth_error in Hi. destruct Hi as [c Hc].
      destruct (S c) as (idx' & E1 & Sl & _); [apply nth_error_Some_lt in Hc; lia|]. rewrite Hc in E1. injection E1 as <-.
      destruct (sel_in _ _ _ _ Sl Hin) as [k Hk]. eexists. split; [exact Hk|exact I]. }
    intros w w' F i y Hi N. assert (CB : forall q, In q (combine (p_ind_u P) a1) -> In (fst q) (p_ind_u P)) by (intros [q1 q2] Hq; apply in_combine_l in Hq; exact Hq).
    revert w w' F CB. generalize (combine (p_ind_u P) a1) as qs. induction qs as [|q qs IH]; intros w w' F CB; cbn in F; [injection F as <-; reflexivity|].
    apply bind_ok in F. destruct F as (w1 & F1 & F2). rewrite (IH w1 w' F2) by (intros; apply CB; right; assumption).
    apply (assign_outside _ _ _ _ _ F1). intros Hin. destruct (IU _ _ (CB q (or_introl eq_refl)) Hin) as (y' & Hy & Ha). congruence.
  - revert s Z. cut (keeps (keep (SetVGlobal v)) (dos _ <- lift (guard (negb (length (concat (p_ind_vg P)) =? 0)) EIndexError);
      update_w0 (fun w => assign_rows w (p_ind_vg P) v))); [intros K s _; apply K|].
    apply (keeps_bind _ _ (keep_trans _)); [apply keeps_lift, keep_refl|intros _]. apply keep_w0. intros w w' F i y Hi N.
    apply (assign_rows_outside _ _ i) in F; [exact F|]. intros Hin. destruct (idx_vg_con _ _ _ _ _ _ _ H) as (idx & Ei & Sl & _). rewrite Ei in Hin. cbn in Hin. rewrite app_nil_r in Hin.
    destruct (sel_in _ _ _ _ Sl Hin) as [k Hk]. apply N. rewrite Hi in Hk. injection Hk as ->. exact I.
  - rewrite D5, D6. revert s Z. enough (K : keeps (fun s s' => sized C m s -> sized C m s' /\ keep (SetPGlobal v) s s') (sfor (fun i =>
        dos s <- sget;
        dos M <- lift (assign_cols (ss_pval s) i (m_npt m) (m_npt m + m_npg m) v);
        put_pval M) (seq 0 (o_N_stages O)))) by (intros s Z; apply (K s Z)).
    apply keeps_for; [intros s Z; split; [exact Z|apply keep_refl]| |].
    { intros a b c A B Z. destruct (A Z) as [A1 A2]. destruct (B A1) as [X1 X2]. split; [exact X1|]. eapply keep_trans; eassumption. }
    intros i s Z. unfold sbind, sget, lift, put_pval. destruct (assign_cols (ss_pval s) i (m_npt m) (m_npt m + m_npg m) v) as [M|e] eqn:F; [|split; [exact Z|apply keep_refl]]. cbn [fst].
    destruct (ACR _ _ _ _ _ _ _ (sz_rows _ _ _ Z) B1 B2 F) as [G1 G2]. split; [split; cbn; [apply Z|apply Z|rewrite G1; apply Z|exact G2]|].
    split; try reflexivity; cbn [ss_pval]; intros N; [|exfalso; apply N; exact I].
    unfold assign_cols in F. apply bind_ok in F. destruct F as (row & F1 & F). apply nthE_ok in F1. apply bind_ok in F. destruct F as (v' & F2 & F3).
    eapply map_upd; [exact F3|]. intros a Ha. rewrite F1 in Ha. injection Ha as <-. rewrite firstn_app, firstn_firstn, Nat.min_id.
    rewrite firstn_length_le by (rewrite (sz_rows _ _ _ Z row (nth_error_In _ _ F1)); lia). rewrite Nat.sub_diag. cbn. apply app_nil_r.
  - rewrite D5. revert s Z. enough (K : keeps (fun s s' => sized C m s -> sized C m s' /\ keep (SetPTimeVar v) s s') (sfor (fun i =>
        dos s <- sget;
        dos row <- lift (nthE EIndexError v i);
        dos M <- lift (assign_cols (ss_pval s) i 0 (m_npt m) row);
        put_pval M) (seq 0 (o_N_stages O)))) by (intros s Z; apply (K s Z)).
    apply keeps_for; [intros s Z; split; [exact Z|apply keep_refl]| |].
    { intros a b c A B Z. destruct (A Z) as [A1 A2]. destruct (B A1) as [X1 X2]. split; [exact X1|]. eapply keep_trans; eassumption. }
    intros i s Z. unfold sbind, sget, lift, put_pval. destruct (nthE EIndexError v i) as [row0|e]; [|split; [exact Z|apply keep_refl]].
    destruct (assign_cols (ss_pval s) i 0 (m_npt m) row0) as [M|e] eqn:F; [|split; [exact Z|apply keep_refl]]. cbn [fst].
    destruct (ACR _ _ _ _ _ _ _ (sz_rows _ _ _ Z) (Nat.le_0_l _) B1 F) as [G1 G2]. split; [split; cbn; [apply Z|apply Z|rewrite G1; apply Z|exact G2]|].
    split; try reflexivity; cbn [ss_pval]; intros N; [exfalso; apply N; exact I|].
    unfold assign_cols in F. apply bind_ok in F. destruct F as (row & F1 & F). apply nthE_ok in F1. apply bind_ok in F. destruct F as (v' & F2 & F3). apply bcast_len in F2.
    eapply map_upd; [exact F3|]. intros a Ha. rewrite F1 in Ha. injection Ha as <-. cbn [firstn app]. rewrite skipn_app, (skipn_all2 v') by lia.
    replace (m_npt m - length v') with 0 by lia. reflexivity.
  - revert s Z. cut (forall s, keep (SetTheta v) s (fst ((if length v =? sumn (o_Nfe_list O)
      then sfor (fun p => sfor (fun idx =>
                   dos row <- lift (nthE EIndexError v (fst p));
                   update_w0 (fun w => assign_rows w idx row)) (snd p))
              (enum (concat (p_ind2 P FTheta)))
      else raise EException) s))); [intros K s _; apply K|]. destruct (length v =? sumn (o_Nfe_list O)); [|intros s; apply keep_refl].
    refine (keeps_for_in (SetTheta v) _ _ _). intros [k l] Hk. apply enum_in in Hk. apply keeps_for_in. intros idxs Hin.
    apply (keeps_bind _ _ (keep_trans _)); [apply keeps_lift, keep_refl|intros row]. apply keep_w0. intros w w' F i y Hi N.
    apply (assign_rows_outside _ _ i) in F; [exact F|]. intros Hc. destruct (theta_rows k l idxs Hk Hin) as (c & e & j & _ & _ & _ & L1 & Hq).
    apply in_concat in Hc. destruct Hc as (idx & Hx & Hc). apply In_nth_error in Hx. destruct Hx as [q Hx].
    destruct (Hq q) as (idx' & E1 & Sl); [rewrite <- L1; eapply nth_error_Some_lt; exact Hx|]. rewrite Hx in E1. injection E1 as <-.
    destruct (sel_in _ _ _ _ Sl Hc) as [kk Hkk]. apply N. rewrite Hi in Hkk. injection Hkk as ->. exact I.
  - unfold sbind, put_w0. destruct (not_external O); (split; try reflexivity; intros i y Hi N; exfalso; apply N; destruct y; exact I).
  - split; reflexivity.
Qed.
End Con.
