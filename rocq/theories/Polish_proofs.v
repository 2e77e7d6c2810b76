(* Polish_proofs.v -- bounds and calls of polish_solution *)
From Coq Require Import Reals Qreals Lra Permutation.
From Verif Require Import Base Lib Sx Sx_proofs Utils Tableau Opts Model Ocp Problem Numeric Rk4 Results Solver Spec Fesd Spec2 Spec3 Spec4 Spec5
  FeMake_proofs FeZero_proofs Prob_proofs Body_proofs Model_proofs Con_proofs Index_proofs Index2_proofs Index3_proofs Nlp_proofs Feas_proofs Lam_proofs Accept_proofs
  Results_proofs Results2_proofs Results4_proofs Results5_proofs Solve_proofs Solve2_proofs Vec_proofs Syms_proofs Init_proofs Init2_proofs Start_proofs Progress_proofs.

Section Calls.
Variables (nlp : nat -> nlp_call -> res nlp_ret) (C : constructed) (lam : list R).
Notation O := (the_opts C).
Lemma polish_stage_ok lb ub v c s s' q : polish_stage nlp C lam lb ub v c s = (s', Ok q) -> ss_calls s' = S (ss_calls s) /\
  exists r, nlp (ss_calls s) (mkCall v lb ub (lbg (the_nlp C)) (ubg (the_nlp C)) (setup_p_val s lam 0 0)) = Ok r /\ po_w q = nr_x r /\ po_status q = nr_status r.
Proof.
  intros F. unfold polish_stage in F. cbv zeta in F. apply sbind_ok in F. destruct F as (s1 & nfe & F1 & F). apply lift_ok in F1. destruct F1 as [-> _].
  apply sbind_ok in F. destruct F as (s2 & u & F1 & F).
  assert (E2 : s2 = s).
  { assert (K : keeps (@eq sstate) (sfor (fun e => dos l1 <- lift (nthE EIndexError (p_ind2 (pr (cn_prob C)) FTheta) c);
        dos l2 <- lift (nthE EIndexError l1 e); lift (touch_theta v l2)) (seq 0 nfe))).
    { apply keeps_for; [reflexivity|intros; congruence|]. intros e. apply keeps_bind; [intros; congruence|apply keeps_lift; reflexivity|].
      intros l1. apply keeps_bind; [intros; congruence|apply keeps_lift; reflexivity|]. intros l2. apply keeps_lift; reflexivity. }
    symmetry. exact (keeps_out _ _ _ _ _ K F1). }
  subst s2. apply sbind_ok in F. destruct F as (s3 & s0 & F2 & F). apply sget_ok in F2. destruct F2 as [-> ->].
  apply sbind_ok in F. destruct F as (s4 & r & F2 & F). unfold call_nlp in F2. injection F2 as <- Er.
  apply sbind_ok in F. destruct F as (s5 & cr & F2 & F). apply lift_ok in F2. destruct F2 as [-> _]. apply sret_ok in F. destruct F as [-> ->].
  split; [reflexivity|]. exists r. split; [exact Er|]. split; reflexivity.
Qed.
Lemma polish_from_ok lb ub v l : forall s s' q, polish_from (polish_stage nlp C lam lb ub v) l s = (s', Ok q) -> ss_calls s' = ss_calls s + length l /\
  exists r, nlp (ss_calls s + (length l - 1)) (mkCall v lb ub (lbg (the_nlp C)) (ubg (the_nlp C)) (setup_p_val s lam 0 0)) = Ok r /\ po_w q = nr_x r /\ po_status q = nr_status r.
Proof.
  induction l as [|c l IH]; intros s s' q F; [discriminate|]. destruct l as [|c' l].
  - cbn [polish_from] in F. apply polish_stage_ok in F. destruct F as [A B]. cbn [length]. replace (ss_calls s + (1 - 1)) with (ss_calls s) by lia. split; [lia|exact B].
  - assert (F' : (dos _ <- polish_stage nlp C lam lb ub v c; polish_from (polish_stage nlp C lam lb ub v) (c' :: l)) s = (s', Ok q)) by exact F.
    apply sbind_ok in F'. destruct F' as (s1 & q1 & F1 & F2). pose proof (keeps_out _ _ _ _ _ (polish_stage_keeps nlp C lam lb ub v c) F1) as (K1 & K2 & _).
    apply polish_stage_ok in F1. destruct F1 as [A _]. destruct (IH s1 s' q F2) as [B (r & Er & Q)]. rewrite A in *.
    split; [cbn [length] in *; lia|]. exists r. split; [|exact Q]. cbn [length] in *.
    replace (ss_calls s + (S (S (length l)) - 1)) with (S (ss_calls s) + (S (length l) - 1)) by lia. unfold setup_p_val in *. rewrite K1, K2 in Er. exact Er.
Qed.
Lemma polish_ok v s s' q : polish_solution nlp C lam v s = (s', Ok q) -> ss_calls s' = ss_calls s + o_N_stages O /\ polishing nlp C s (ss_calls s) lam v q.
Proof.
  intros F. rewrite polish_unfold in F. apply sbind_ok in F. destruct F as (s1 & u & F1 & F). apply lift_ok in F1. destruct F1 as [-> _].
  apply sbind_ok in F. destruct F as (s2 & b & F1 & F). apply lift_ok in F1. destruct F1 as [-> Eb].
  apply polish_from_ok in F. rewrite seq_length in F. destruct F as [A (r & Er & Q1 & Q2)]. split; [exact A|]. split.
  exists (mkCall v (fst b) (snd b) (lbg (the_nlp C)) (ubg (the_nlp C)) (setup_p_val s lam 0 0)), r.
  split; [exact Er|]. split; [exact Q1|]. split; [exact Q2|]. cbn [nc_x0 nc_lbg nc_ubg nc_p nc_lbx nc_ubx]. do 4 (split; [reflexivity|]).
  rewrite <- surjective_pairing. exact Eb.
Qed.
End Calls.

Section Con.
Variables (lr : Q -> Q -> Q -> nat) (cp : nat -> scheme -> list Q) (d : ipopt_dict)
  (o : opts) (m : model) (oc : option ocp) (C : constructed).
Hypothesis H : construct_problem lr cp d o m oc = Ok C.
Notation O := (the_opts C).
Notation P := (the_problem C).
Notation W := (w (the_nlp C)).
Notation E := (explicit_end C).

Lemma in_flat1 f c e j i k : nth_error W i = Some (S1 f c e j k) -> In i (flat1_indices P f).
Proof.
  intros Hi. pose proof (sym_in_w _ _ _ _ _ _ _ _ H (nth_error_In _ _ Hi)) as (R1 & R2 & R3). unfold flat1_indices.
  apply In_nth_error in R1 as Hk. destruct Hk as [g Hg]. destruct (Forall2_nth _ _ _ _ _ (nested1 _ _ _ _ _ _ _ H f) Hg) as (a & Ha & Hat).
  destruct (row1 _ _ _ _ _ _ _ H f (c, e) a R1 Hat) as [_ Hr]. destruct (Hr j R2) as (idx & E1 & Sl). apply in_concat. exists idx.
  split; [apply in_concat; exists a; split; eapply nth_error_In; eassumption|].
  eapply (sel_pos _ _ _ _ _ _ _ H); [exact Sl| |exact Hi]. cbn [fst snd]. rewrite nth_error_map, (nth_error_seq 0 _ k R3). reflexivity.
Qed.
Lemma in_flat2 f c e j s i k : nth_error W i = Some (S2 f c e j s k) -> In i (flat2_indices P f).
Proof.
  intros Hi. pose proof (sym_in_w _ _ _ _ _ _ _ _ H (nth_error_In _ _ Hi)) as (R1 & R2 & R3 & R4). unfold flat2_indices.
  apply In_nth_error in R1 as Hk. destruct Hk as [g Hg]. destruct (Forall2_nth _ _ _ _ _ (nested2 _ _ _ _ _ _ _ H f) Hg) as (a & Ha & Hat).
  destruct (row2 _ _ _ _ _ _ _ H f (c, e) a R1 Hat) as [_ Hr]. destruct (Hr j R2) as (r & E1 & E2 & E3). destruct (E3 s R3) as (idx & E4 & Sl).
  apply in_concat. exists idx. split; [apply in_concat; exists r; split; [|eapply nth_error_In; exact E4]; apply in_concat; exists a; split; eapply nth_error_In; eassumption|].
  eapply (sel_pos _ _ _ _ _ _ _ H); [exact Sl| |exact Hi]. cbn [fst snd]. rewrite nth_error_map, (nth_error_seq 0 _ k R4). reflexivity.
Qed.
Lemma in_set i y : nth_error W i = Some y -> multiplier y -> In i (ind_set P).
Proof.
  intros Hi M. destruct y; try destruct M. apply in_flat2 in Hi. unfold ind_set. cbn [map concat]. rewrite !in_app_iff. destruct f; tauto.
Qed.
Lemma in_dont i y : nth_error W i = Some y -> ~ multiplier y -> ~ unknown_to_polish y -> In i (ind_dont_set P).
Proof.
  intros Hi M U. pose proof (sym_in_w _ _ _ _ _ _ _ _ H (nth_error_In _ _ Hi)) as R. unfold ind_dont_set. rewrite !in_app_iff.
  destruct y as [| | | | | |k| | | | | | |c k| | |c e|f c e j k| | |]; try (destruct R; fail); try (exfalso; apply U; exact I); try (exfalso; apply M; exact I).
  - destruct (idx_vg_con _ _ _ _ _ _ _ H) as (idx & Ei & Sl & _). rewrite Ei. cbn. rewrite app_nil_r. right. right. right. left.
    eapply (sel_pos _ _ _ _ _ _ _ H); [exact Sl| |exact Hi]. rewrite nth_error_map, (nth_error_seq 0 _ k R). reflexivity.
  - cbn in R. pose proof (idx_el_con _ _ _ _ _ _ _ H) as IE. rewrite R in IE. destruct IE as (i' & E1 & E2 & _). rewrite E1. cbn.
    assert (i = i'). { eapply NoDup_nth_error; [exact (W_NoDup _ _ _ _ _ _ _ H)|eapply nth_error_Some_lt; exact Hi|congruence]. } subst. tauto.
  - cbn in R. destruct R as [R1 R2]. destruct (idx_u_con _ _ _ _ _ _ _ H) as [L S]. destruct (S c R1) as (idx & E1 & Sl & _). right. left. apply in_concat. exists idx.
    split; [eapply nth_error_In; exact E1|]. eapply (sel_pos _ _ _ _ _ _ _ H); [exact Sl| |exact Hi]. rewrite nth_error_map, (nth_error_seq 0 _ k R2). reflexivity.
  - cbn in R. destruct R as [R1 R2]. pose proof (idx_h_con _ _ _ _ _ _ _ H) as IH. rewrite R1 in IH. destruct IH as [_ IH].
    destruct (IH c e _ (elements_fe _ _ _ _ _ _ _ H (c, e) R2)) as (i' & E1 & E2 & _). left.
    assert (i = i'). { eapply NoDup_nth_error; [exact (W_NoDup _ _ _ _ _ _ _ H)|eapply nth_error_Some_lt; exact Hi|congruence]. } subst. eapply nth_error_In; exact E1.
  - apply in_flat1 in Hi. destruct f; tauto.
Qed.
Lemma set_dont_disjoint i : In i (ind_set P) -> In i (ind_dont_set P) -> False.
Proof.
  destruct (partition_exact _ _ _ _ _ _ _ H) as [ND _].
  assert (PM : Permutation (published P) (ind_set P ++ ind_dont_set P ++ (concat (p_ind_sot P) ++ concat (ind_bool (pb P)) ++ flat3 (p_ind_bool P)))).
  { unfold published, ind_set, ind_dont_set. cbn [map concat]. rewrite !flat2_is, !flat1_is, !app_nil_r.
    generalize (concat (p_ind_el P)) (concat (p_ind_vg P)) (concat (p_ind_u P)) (concat (p_ind_sot P)) (p_ind_h P) (flat3 (p_ind1 P FX)) (flat3 (p_ind1 P FV)) (flat3 (p_ind1 P FZ))
      (flat3 (concat (p_ind2 P FTheta))) (flat3 (concat (p_ind2 P FLam))) (flat3 (concat (p_ind2 P FMu))) (flat3 (concat (p_ind2 P FAlpha)))
      (flat3 (concat (p_ind2 P FLn))) (flat3 (concat (p_ind2 P FLp))) (concat (ind_bool (pb P))) (flat3 (p_ind_bool P)).
    clear. intros el vg u so h x v z th la mu al ln lp b1 b2.
    apply (Permutation_count_occ Nat.eq_dec). intros i. rewrite !count_occ_app. lia. }
  apply (Permutation_NoDup PM) in ND. revert ND. clear. generalize (concat (p_ind_sot P) ++ concat (ind_bool (pb P)) ++ flat3 (p_ind_bool P)) as M.
  intros M. induction (ind_set P) as [|a L IH]; intros N A B; [destruct A|]. cbn in N. inversion N; subst. destruct A as [->|A]; [|auto].
  apply H1. apply in_or_app. right. apply in_or_app. left. exact B.
Qed.

Lemma fixed_in cond v i x : nth_error v i = Some x -> (In i (fixed_indices P cond v) <-> cond x = true /\ ~ In i (ind_dont_set P)).
Proof.
  intros Hx. unfold fixed_indices. rewrite in_map_iff. split.
  - intros ([k z] & <- & Hf). apply filter_In in Hf. destruct Hf as [Hf Hc]. apply enum_nth in Hf. cbn [fst snd] in *. rewrite Hx in Hf. injection Hf as <-.
    apply andb_prop in Hc. destruct Hc as [C1 C2]. split; [exact C1|]. intros Hi. apply mem_in in Hi. rewrite Hi in C2. discriminate.
  - intros [C1 C2]. exists (i, x). split; [reflexivity|]. apply filter_In. split; [apply enum_nth; exact Hx|]. cbn [fst snd]. rewrite C1.
    destruct (mem i (ind_dont_set P)) eqn:Em; [apply mem_in in Em; contradiction|reflexivity].
Qed.

Lemma polish_bounds_exact v lb ub : length v = length W -> polish_bounds O P v = Ok (lb, ub) ->
  forall i y x, nth_error W i = Some y -> nth_error v i = Some x -> ~ unknown_to_polish y ->
  let eps := (10 * Q2R (o_comp_tol O))%R in
  (multiplier y /\ (Rabs (x - 1) < eps)%R -> nth_error lb i = Some (Fin 1) /\ nth_error ub i = Some (Fin 1)) /\
  (multiplier y /\ ~ (Rabs (x - 1) < eps)%R /\ (x < eps)%R -> nth_error lb i = Some (Fin 0) /\ nth_error ub i = Some (Fin 0)) /\
  (~ multiplier y \/ (~ (Rabs (x - 1) < eps)%R /\ ~ (x < eps)%R) -> nth_error lb i = nth_error (lbw (the_nlp C)) i /\ nth_error ub i = nth_error (ubw (the_nlp C)) i).
Proof.
  intros Lv F i y x Hi Hx U eps. destruct (lengths_con _ _ _ _ _ _ _ H) as [[(L1 & L2 & _) _] _]. unfold polish_bounds in F.
  set (i0 := fixed_indices _ _ _) in F. set (i1 := fixed_indices _ _ _) in F.
  assert (B0 : forall i, In i i0 -> i < length W) by (intros k Hk; rewrite <- Lv; eapply fixed_bound; exact Hk).
  assert (B1 : forall i, In i i1 -> i < length W) by (intros k Hk; rewrite <- Lv; eapply fixed_bound; exact Hk).
  destruct (all_write (lbw (pb P)) i0 (Fin 0)) as (l0 & A1 & A2 & A3). { intros k Hk. specialize (B0 k Hk). unfold the_nlp in *. lia. }
  destruct (all_write (ubw (pb P)) i0 (Fin 0)) as (u0 & D1 & D2 & D3). { intros k Hk. specialize (B0 k Hk). unfold the_nlp in *. lia. }
  destruct (all_write l0 i1 (Fin 1)) as (l1 & G1 & G2 & G3). { intros k Hk. specialize (B1 k Hk). unfold the_nlp in *. lia. }
  destruct (all_write u0 i1 (Fin 1)) as (u1 & K1 & K2 & K3). { intros k Hk. specialize (B1 k Hk). unfold the_nlp in *. lia. }
  rewrite A1 in F. cbn [bind] in F. rewrite D1 in F. cbn [bind] in F. rewrite G1 in F. cbn [bind] in F. rewrite K1 in F. cbn [bind] in F. injection F as <- <-.
  assert (I0 : In i i0 <-> multiplier y /\ (x < eps)%R).
  { unfold i0. rewrite (fixed_in _ v i x Hx). rewrite Rltb_true. fold eps. split.
    - intros [X N]. split; [|exact X]. destruct y; try exact I; exfalso; apply N, (in_dont _ _ Hi); auto.
    - intros [M X]. split; [exact X|]. intros D. exact (set_dont_disjoint i (in_set _ _ Hi M) D). }
  assert (I1 : In i i1 <-> multiplier y /\ (Rabs (x - 1) < eps)%R).
  { unfold i1. rewrite (fixed_in _ v i x Hx). rewrite Rltb_true. fold eps. split.
    - intros [X N]. split; [|exact X]. destruct y; try exact I; exfalso; apply N, (in_dont _ _ Hi); auto.
    - intros [M X]. split; [exact X|]. intros D. exact (set_dont_disjoint i (in_set _ _ Hi M) D). }
  split; [|split].
  - intros M. apply I1 in M. split; [apply G3, M|apply K3, M].
  - intros (M & N & X). assert (Y0 : In i i0) by (apply I0; auto). assert (Y1 : ~ In i i1) by (rewrite I1; tauto).
    rewrite (proj2 (G3 i) Y1), (proj2 (K3 i) Y1). split; [apply A3, Y0|apply D3, Y0].
  - intros N. assert (Y0 : ~ In i i0) by (rewrite I0; tauto). assert (Y1 : ~ In i i1) by (rewrite I1; tauto).
    rewrite (proj2 (G3 i) Y1), (proj2 (K3 i) Y1). split; [apply A3, Y0|apply D3, Y0].
Qed.

(* ---- problems that polish_solution refuses ---- *)
Lemma sel_label idx (f : nat -> sym) n i : sel W idx = Ok (map f (seq 0 n)) -> In i idx -> exists k, nth_error W i = Some (f k).
Proof.
  intros S Hi. apply sel_ok in S. apply In_nth_error in Hi. destruct Hi as [k Hk]. destruct (Forall2_nth _ _ _ _ _ S Hk) as (y & Hy & Hw).
  apply nth_error_map_seq in Hy. destruct Hy as [_ ->]. eauto.
Qed.
Lemma flat1_label f i : In i (flat1_indices P f) -> exists c e j k, nth_error W i = Some (S1 f c e j k).
Proof.
  unfold flat1_indices. intros Hi. apply in_concat in Hi. destruct Hi as (idx & Hx & Hi). apply in_concat in Hx. destruct Hx as (a & Ha & Hx).
  apply In_nth_error in Ha. destruct Ha as [g Ha]. destruct (Forall2_nth_r _ _ _ _ _ (Forall2_in _ _ _ (nested1 _ _ _ _ _ _ _ H f)) Ha) as (p & _ & Hp & Hat).
  destruct (row1 _ _ _ _ _ _ _ H f p a Hp Hat) as [La Hr]. apply In_nth_error in Hx. destruct Hx as [j Hj].
  destruct (Hr j) as (idx' & E1 & Sl); [rewrite <- La; eapply nth_error_Some_lt; exact Hj|]. rewrite Hj in E1. injection E1 as <-.
  destruct (sel_label _ _ _ _ Sl Hi) as [k Hk]. eauto.
Qed.
Lemma flat2_label f i : In i (flat2_indices P f) -> exists c e j s k, nth_error W i = Some (S2 f c e j s k).
Proof.
  unfold flat2_indices. intros Hi. apply in_concat in Hi. destruct Hi as (idx & Hx & Hi). apply in_concat in Hx. destruct Hx as (r & Hr & Hx).
  apply in_concat in Hr. destruct Hr as (a & Ha & Hr).
  apply In_nth_error in Ha. destruct Ha as [g Ha]. destruct (Forall2_nth_r _ _ _ _ _ (Forall2_in _ _ _ (nested2 _ _ _ _ _ _ _ H f)) Ha) as (p & _ & Hp & Hat).
  destruct (row2 _ _ _ _ _ _ _ H f p a Hp Hat) as [La Hrow]. apply In_nth_error in Hr. destruct Hr as [j Hj].
  destruct (Hrow j) as (r' & E1 & E2 & E3); [rewrite <- La; eapply nth_error_Some_lt; exact Hj|]. rewrite Hj in E1. injection E1 as <-.
  apply In_nth_error in Hx. destruct Hx as [s Hs]. destruct (E3 s) as (idx' & E4 & Sl); [rewrite <- E2; eapply nth_error_Some_lt; exact Hs|].
  rewrite Hs in E4. injection E4 as <-. destruct (sel_label _ _ _ _ Sl Hi) as [k Hk]. do 5 eexists. exact Hk.
Qed.
Lemma known_label i : In i (ind_set P ++ ind_dont_set P) -> exists y, nth_error W i = Some y /\ ~ unknown_to_polish y.
Proof.
  unfold ind_set, ind_dont_set. cbn [map concat]. rewrite !in_app_iff. intros Hi.
  assert (A2 : forall f, In i (flat2_indices P f) -> exists y, nth_error W i = Some y /\ ~ unknown_to_polish y).
  { intros f Hf. apply flat2_label in Hf. destruct Hf as (c & e & j & s & k & Hk). eexists. split; [exact Hk|intros []]. }
  assert (A1 : forall f, In i (flat1_indices P f) -> exists y, nth_error W i = Some y /\ ~ unknown_to_polish y).
  { intros f Hf. apply flat1_label in Hf. destruct Hf as (c & e & j & k & Hk). eexists. split; [exact Hk|intros []]. }
  destruct Hi as [Hi|Hi].
  - repeat (destruct Hi as [Hi|Hi]; [eapply A2; exact Hi|]). destruct Hi.
  - destruct Hi as [Hi|[Hi|[Hi|[Hi|[Hi|[Hi|Hi]]]]]]; try (eapply A1; exact Hi).
    + pose proof (idx_h_con _ _ _ _ _ _ _ H) as IH. destruct (o_use_fesd O); [|rewrite IH in Hi; destruct Hi]. destruct IH as [L IH].
      apply In_nth_error in Hi. destruct Hi as [g Hg]. pose proof (nth_error_Some_lt _ _ _ Hg) as Lg. rewrite L in Lg.
      pose proof (flat_seq _ _ _ _ _ _ _ H (o_N_stages O) (le_n _)) as FS. fold (elements O) in FS.
      assert (Eg : nth_error (map (fun p => flat_pos (o_Nfe_list O) (fst p) (snd p)) (elements O)) g = Some g) by (rewrite FS; apply (nth_error_seq 0 _ g Lg)).
      rewrite nth_error_map in Eg. destruct (nth_error (elements O) g) as [p|] eqn:Ep; [|discriminate]. cbn in Eg. injection Eg as Eg.
      destruct (IH _ _ _ (elements_fe _ _ _ _ _ _ _ H p (nth_error_In _ _ Ep))) as (i' & E1 & E2 & _). rewrite Eg, Hg in E1. injection E1 as <-.
      eexists. split; [exact E2|intros []].
    + destruct (idx_u_con _ _ _ _ _ _ _ H) as [L S]. apply in_concat in Hi. destruct Hi as (idx & Hx & Hi). apply In_nth_error in Hx. destruct Hx as [c Hc].
      destruct (S c) as (idx' & E1 & Sl & _); [apply nth_error_Some_lt in Hc; lia|]. rewrite Hc in E1. injection E1 as <-.
      destruct (sel_label _ _ _ _ Sl Hi) as [k Hk]. eexists. split; [exact Hk|intros []].
    + destruct (idx_vg_con _ _ _ _ _ _ _ H) as (idx & Ei & Sl & _). rewrite Ei in Hi. cbn in Hi. rewrite app_nil_r in Hi.
      destruct (sel_label _ _ _ _ Sl Hi) as [k Hk]. eexists. split; [exact Hk|intros []].
    + pose proof (idx_el_con _ _ _ _ _ _ _ H) as IE. destruct (elastic O); [|rewrite IE in Hi; destruct Hi]. destruct IE as (i' & E1 & E2 & _).
      rewrite E1 in Hi. destruct Hi as [<-|[]]. eexists. split; [exact E2|intros []].
Qed.
Lemma polish_check_exact v : length v = length W -> (polish_check P v = true <-> forall y, In y W -> ~ unknown_to_polish y).
Proof.
  intros Lv. unfold polish_check. rewrite forallb_forall, Lv. split.
  - intros A y Hy U. apply In_nth_error in Hy. destruct Hy as [i Hi].
    assert (Hr : In i (seq 0 (length W))) by (apply in_seq; apply nth_error_Some_lt in Hi; lia). apply A, mem_in, known_label in Hr.
    destruct Hr as (y' & Hy' & N). rewrite Hi in Hy'. injection Hy' as <-. contradiction.
  - intros A i Hi. apply in_seq in Hi. destruct (nth_error_lt W i) as [y Hy]; [lia|]. apply mem_in, in_or_app.
    assert (D : multiplier y \/ ~ multiplier y) by (destruct y; [right; intros []..|left; exact I|right; intros []|right; intros []]).
    destruct D as [M|M]; [left; eapply in_set; eassumption|right; eapply in_dont; [exact Hy|exact M|apply A; eapply nth_error_In; exact Hy]].
Qed.
Lemma polish_refuses nlp lam v s : length v = length W -> (exists y, In y W /\ unknown_to_polish y) -> polish_solution nlp C lam v s = (s, Err EException).
Proof.
  intros Lv (y & Hy & U). rewrite polish_unfold. change (pr (cn_prob C)) with P.
  assert (F : polish_check P v = false); [|rewrite F; reflexivity].
  destruct (polish_check P v) eqn:Ec; [|reflexivity]. exfalso. apply (proj1 (polish_check_exact v Lv) Ec y Hy U).
Qed.
Lemma sot_in_w : o_sot O = SotLocal -> In (SSot 0) W.
Proof.
  intros So. pose proof (idx_sot_con _ _ _ _ _ _ _ H) as IS. rewrite So in IS. destruct IS as [_ IS].
  destruct (IS 0 (stages_pos' _ _ _ _ _ _ _ H)) as (i & _ & Hi & _). eapply nth_error_In; exact Hi.
Qed.
Lemma mu_in_w : o_pss O = Stewart -> 0 < n_subsystems m -> In (S2 FMu 0 0 0 0 0) W.
Proof.
  intros PS N. pose proof (first_element _ _ _ _ _ _ _ H) as FE.
  destruct (idx2_con _ _ _ _ _ _ _ H 0 0 _ FMu 0 0 (elements_fe _ _ _ _ _ _ _ H (0, 0) FE)) as (idx & _ & Sl & _); [apply (points2_pos _ _ _ _ _ _ _ H)|exact N|].
  unfold dim2 in Sl. rewrite PS in Sl. cbn [seq map] in Sl. apply sel_ok in Sl. inversion Sl; subst. eapply nth_error_In; eassumption.
Qed.
End Con.
