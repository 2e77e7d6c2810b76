(* Feas4_proofs.v -- the complementarity residual and the least-squares reformulation *)
From Coq Require Import Reals Qreals Lra Psatz Permutation.
From Verif Require Import Base Sx Utils Tableau Opts Model Ocp Problem Spec Cases Lib Sx_proofs Fo_proofs Fe_proofs FeMake_proofs FeSel_proofs FeZero_proofs Prob_proofs Coll_proofs
  Body_proofs Model_proofs Con_proofs Index3_proofs Fesd Sem_proofs Dcs_proofs Point_proofs Elem_proofs Nlp_proofs
  Opts_proofs Tableau_proofs Poly_proofs Spec2 Feas_proofs Feas2_proofs Feas3_proofs.

(* ---- neighbours in the flat list of elements ---- *)
Section Adj.
Context {A : Type}.
Definition prior (p0 : A) (L : list (list A)) (c e : nat) (q : A) : Prop :=
  match e, c with
  | S e', _ => exists st, nth_error L c = Some st /\ nth_error st e' = Some q
  | O, O => q = p0
  | O, S c' => exists st, nth_error L c' = Some st /\ nth_error st (length st - 1) = Some q
  end.

Lemma combine_shift (l M : list A) p0 :
  combine (l ++ M) (p0 :: l ++ M) = combine l (p0 :: l) ++ combine M (last l p0 :: M).
Proof.
  revert p0. induction l as [|a l IH]; intros p0; [reflexivity|].
  change ((a :: l) ++ M) with (a :: (l ++ M)). cbn [combine app]. f_equal. rewrite IH. do 2 f_equal.
  destruct l as [|b l]; [reflexivity|]. cbn [last]. clear. revert a b. induction l as [|c l IH]; intros a b; [reflexivity|]. cbn. apply IH.
Qed.

Lemma nth_error_last (l : list A) d : l <> [] -> nth_error l (length l - 1) = Some (last l d).
Proof.
  intros H. destruct l as [|a l] using rev_ind; [congruence|]. rewrite last_last, app_length, Nat.add_sub, nth_error_app2, Nat.sub_diag by lia. reflexivity.
Qed.

Lemma adj_iff p0 L x q : (forall l, In l L -> l <> []) ->
  (In (x, q) (combine (concat L) (p0 :: concat L)) <->
   exists c e st, nth_error L c = Some st /\ nth_error st e = Some x /\ prior p0 L c e q).
Proof.
  revert p0. induction L as [|l L IH]; intros p0 NE.
  - cbn. split; [tauto|]. intros (c & e & st & H & _). destruct c; discriminate.
  - cbn [concat]. rewrite combine_shift, in_app_iff. rewrite (IH (last l p0)) by (intros; apply NE; right; assumption).
    assert (Hl : l <> []) by (apply NE; left; reflexivity). split.
    + intros [H|(c & e & st & H1 & H2 & H3)].
      * apply In_nth_error in H. destruct H as (e & He). apply nth_error_combine_inv in He. destruct He as [He1 He2].
        exists 0, e, l. split; [reflexivity|]. split; [exact He1|]. destruct e; cbn in *; [congruence|]. eauto.
      * exists (S c), e, st. split; [exact H1|]. split; [exact H2|]. destruct e as [|e]; [|exact H3].
        cbn. destruct c as [|c]; cbn in H3.
        -- subst q. exists l. split; [reflexivity|]. apply nth_error_last, Hl.
        -- exact H3.
    + intros (c & e & st & H1 & H2 & H3). destruct c as [|c].
      * left. cbn in H1. injection H1 as <-. eapply nth_error_In with (n := e). apply nth_error_combine; [exact H2|].
        destruct e; cbn in *; [congruence|]. destruct H3 as (st & E & H3). injection E as <-. exact H3.
      * right. exists c, e, st. split; [exact H1|]. split; [exact H2|]. destruct e as [|e]; [|exact H3].
        cbn in H3. destruct H3 as (s & H3 & H4). destruct c as [|c]; cbn in *.
        -- injection H3 as <-. rewrite (nth_error_last _ p0 Hl) in H4. congruence.
        -- eauto.
Qed.
End Adj.

(* ---- maximum ---- *)
Lemma emax_from_max rho v acc : (eval rho acc <= eval rho (emax_from acc v))%R /\
  (forall e, In e v -> (eval rho e <= eval rho (emax_from acc v))%R) /\
  (exists e, In e (acc :: v) /\ eval rho (emax_from acc v) = eval rho e).
Proof.
  revert acc. induction v as [|a v IH]; intros acc; cbn [emax_from].
  - split; [lra|]. split; [intros e []|]. exists acc. split; [left|]; reflexivity.
  - destruct (IH (EBin BFmax acc a)) as (I1 & I2 & (e & I3 & I4)). cbn in I1.
    pose proof (Rmax_l (eval rho acc) (eval rho a)). pose proof (Rmax_r (eval rho acc) (eval rho a)).
    split; [lra|]. split; [intros x [<-|Hx]; [lra|auto]|].
    destruct I3 as [<-|I3].
    + cbn [eval eval_bin] in I4. rewrite I4. unfold Rmax. destruct (Rle_dec _ _); [exists a|exists acc]; cbn; auto.
    + exists e. cbn. auto.
Qed.
Lemma emax_max rho v J : emax v = Ok J ->
  (forall e, In e v -> (eval rho e <= eval rho J)%R) /\ exists e, In e v /\ eval rho J = eval rho e.
Proof.
  destruct v as [|a v]; [discriminate|]. cbn. intros E. injection E as <-. destruct (emax_from_max rho v a) as (I1 & I2 & I3).
  split; [intros e [<-|He]; auto|exact I3].
Qed.

Lemma hadamard_in rho a b r n : length a = n -> length b = n -> hadamard a b = Ok r ->
  (forall k, k < n -> exists e, In e r /\ eval rho e = (val rho a k * val rho b k)%R) /\
  (forall e, In e r -> exists k, k < n /\ eval rho e = (val rho a k * val rho b k)%R).
Proof.
  intros La Lb H. unfold hadamard in H. rewrite vbin_same in H by congruence. injection H as <-.
  assert (X : forall k, k < n -> nth_error (map (fun p => EBin BMul (fst p) (snd p)) (combine a b)) k = Some (EBin BMul (nth k a (ECst 0)) (nth k b (ECst 0)))).
  { intros k Hk. rewrite nth_error_map. rewrite (nth_error_combine _ _ _ (nth k a (ECst 0)) (nth k b (ECst 0))); [reflexivity| |]; apply nth_error_nth'; lia. }
  split.
  - intros k Hk. eexists. split; [eapply nth_error_In, X, Hk|reflexivity].
  - intros e He. apply In_nth_error in He. destruct He as (k & Hk). pose proof (nth_error_Some_lt _ _ _ Hk) as Hl.
    rewrite map_length, combine_length in Hl. exists k. split; [lia|]. rewrite (X k ltac:(lia)) in Hk. injection Hk as <-. reflexivity.
Qed.

Section Res.
Variables (o : opts) (t : tab) (m : model) (pm : pmodel) (oc : ocp) (po : pocp) (rho : env).
Hypothesis K : pmodel_ok o m pm.
Hypothesis KO : pocp_ok pm oc po.
Hypothesis Hns : 0 < o_ns o.
Notation ns := (o_ns o).
Notation nfes := (o_Nfe_list o).

Definition th c e j k := ent (theta_vec o m rho c e j) k.
Definition la c e j k := ent (lam_vec o m rho c e j) k.
Definition lpv c e k := ent (prev_lam o t m rho c e) k.

(* the entries of the complementarity vector of one element *)
Lemma compl_vector c e nfe fe q v : nth_error nfes c = Some nfe -> fe_ok o t pm po c e nfe fe ->
  is_elem o t pm po (prev_pos nfes c e) q -> get_complementarity_vector o fe q = Ok v ->
  forall r, (exists x, In x v /\ eval rho x = r) <->
    (exists j k, j < ns /\ k < n_pairs o m /\
      if o_use_fesd o then r = (th c e j k * lpv c e k)%R \/ exists jj, jj < ns /\ r = (th c e j k * la c e jj k)%R
      else r = (th c e j k * la c e j k)%R).
Proof.
  intros Hn Hf Hq H r. unfold get_complementarity_vector in H.
  destruct (pos_lam o t m pm po rho K Hns _ _ Hq) as (lp & El & Ll & Vl).
  assert (Hnb : forall j, j < ns -> j < nbd o t nfe e) by (intros j Hj; unfold nbd; lia).
  destruct (o_use_fesd o) eqn:Fe.
  - apply bind_ok in H. destruct H as (l & Hl & H). injection H as <-. split.
    + intros (x & Hx & <-). apply in_concat in Hx. destruct Hx as (y & Hy & Hx).
      destruct (mapM_In_inv _ _ _ _ Hl Hy) as (j & Hj & E). apply in_seq in Hj. assert (Hj' : j < ns) by lia.
      rewrite (ok_Theta _ _ _ _ _ _ _ _ _ Hf Hj') in E. cbn [bind] in E. rewrite El in E. cbn [bind] in E.
      apply bind_ok in E. destruct E as (v0 & Hv0 & E). apply bind_ok in E. destruct E as (vs & Hvs & E). injection E as <-.
      apply in_app_iff in Hx. destruct Hx as [Hx|Hx].
      * destruct (proj2 (hadamard_in rho _ _ _ _ (theta_expr_len o m pm rho K Hns c e j) Ll Hv0) _ Hx) as (k & Hk & E).
        rewrite (theta_val o m pm rho K Hns) in E. rewrite Vl in E. exists j, k. split; [lia|]. split; [exact Hk|]. left. exact E.
      * apply in_concat in Hx. destruct Hx as (z & Hz & Hx). destruct (mapM_In_inv _ _ _ _ Hvs Hz) as (jj & Hjj & E). apply in_seq in Hjj. assert (Hjj' : jj < ns) by lia.
        rewrite (ok_Lambda _ _ _ _ _ _ _ _ _ Hf (Hnb jj Hjj')) in E. cbn [bind] in E.
        destruct (proj2 (hadamard_in rho _ _ _ _ (theta_expr_len o m pm rho K Hns c e j) (lam_expr_len o m pm rho K Hns c e jj) E) _ Hx) as (k & Hk & E').
        rewrite (theta_val o m pm rho K Hns) in E'. rewrite (lam_val o m pm rho K Hns) in E'.
        exists j, k. split; [lia|]. split; [exact Hk|]. right. exists jj. split; [lia|exact E'].
    + intros (j & k & Hj & Hk & D).
      destruct (mapM_In _ _ _ j Hl ltac:(apply in_seq; lia)) as (y & Hy & E).
      rewrite (ok_Theta _ _ _ _ _ _ _ _ _ Hf Hj) in E. cbn [bind] in E. rewrite El in E. cbn [bind] in E.
      apply bind_ok in E. destruct E as (v0 & Hv0 & E). apply bind_ok in E. destruct E as (vs & Hvs & E). injection E as <-.
      destruct D as [->|(jj & Hjj & ->)].
      * destruct (proj1 (hadamard_in rho _ _ _ _ (theta_expr_len o m pm rho K Hns c e j) Ll Hv0) _ Hk) as (x & Hx & E).
        rewrite (theta_val o m pm rho K Hns) in E. rewrite Vl in E.
        exists x. split; [|exact E]. apply in_concat. exists (v0 ++ concat vs). split; [exact Hy|]. apply in_app_iff. left. exact Hx.
      * destruct (mapM_In _ _ _ jj Hvs ltac:(apply in_seq; lia)) as (z & Hz & E).
        rewrite (ok_Lambda _ _ _ _ _ _ _ _ _ Hf (Hnb jj Hjj)) in E. cbn [bind] in E.
        destruct (proj1 (hadamard_in rho _ _ _ _ (theta_expr_len o m pm rho K Hns c e j) (lam_expr_len o m pm rho K Hns c e jj) E) _ Hk) as (x & Hx & E').
        rewrite (theta_val o m pm rho K Hns) in E'. rewrite (lam_val o m pm rho K Hns) in E'.
        exists x. split; [|exact E']. apply in_concat. exists (v0 ++ concat vs). split; [exact Hy|]. apply in_app_iff. right.
        apply in_concat. eauto.
  - apply bind_ok in H. destruct H as (l & Hl & H). injection H as <-. split.
    + intros (x & Hx & <-). apply in_concat in Hx. destruct Hx as (y & Hy & Hx).
      destruct (mapM_In_inv _ _ _ _ Hl Hy) as (j & Hj & E). apply in_seq in Hj. assert (Hj' : j < ns) by lia.
      rewrite (ok_Theta _ _ _ _ _ _ _ _ _ Hf Hj') in E. cbn [bind] in E.
      rewrite (ok_Lambda _ _ _ _ _ _ _ _ _ Hf (Hnb j Hj')) in E. cbn [bind] in E.
      destruct (proj2 (hadamard_in rho _ _ _ _ (theta_expr_len o m pm rho K Hns c e j) (lam_expr_len o m pm rho K Hns c e j) E) _ Hx) as (k & Hk & E').
      rewrite (theta_val o m pm rho K Hns) in E'. rewrite (lam_val o m pm rho K Hns) in E'.
      exists j, k. split; [lia|]. split; [exact Hk|]. exact E'.
    + intros (j & k & Hj & Hk & ->).
      destruct (mapM_In _ _ _ j Hl ltac:(apply in_seq; lia)) as (y & Hy & E).
      rewrite (ok_Theta _ _ _ _ _ _ _ _ _ Hf Hj) in E. cbn [bind] in E.
      rewrite (ok_Lambda _ _ _ _ _ _ _ _ _ Hf (Hnb j Hj)) in E. cbn [bind] in E.
      destruct (proj1 (hadamard_in rho _ _ _ _ (theta_expr_len o m pm rho K Hns c e j) (lam_expr_len o m pm rho K Hns c e j) E) _ Hk) as (x & Hx & E').
      rewrite (theta_val o m pm rho K Hns) in E'. rewrite (lam_val o m pm rho K Hns) in E'.
      exists x. split; [|exact E']. apply in_concat. eauto.
Qed.
End Res.

Lemma residual_max lr cp d o m oc C rho : construct_problem lr cp d o m oc = Ok C ->
  pr_comp_res (cn_prob C) = mkCafun [w (the_nlp C); p_p (the_problem C)] [p_J_comp (the_problem C)] /\
  (forall r, product (the_opts C) (cn_tab C) m rho r -> (r <= comp_residual C rho)%R) /\
  product (the_opts C) (cn_tab C) m rho (comp_residual C rho).
Proof.
  intros H. destruct (con_use lr cp d o m oc C H) as (o' & t & pm & po & P & st & lf & f1 & KC & B & Eo & _).
  destruct (lsq_same _ _ _ (co_lsq _ _ _ _ _ _ _ _ _ _ _ _ KC)) as (L1 & _ & _ & _ & _ & L2 & _ & _ & _ & _ & _ & _ & _ & _ & _ & _ & _ & _ & L3 & _).
  split.
  { destruct (mkfun_ok _ _ _ (co_res _ _ _ _ _ _ _ _ _ _ _ _ KC)) as [-> _]. unfold the_nlp. rewrite L1, L2, L3. reflexivity. }
  assert (Hns : 0 < o_ns o') by (rewrite <- Eo; eapply Feas_proofs.ns_pos; eassumption).
  pose proof (co_mo _ _ _ _ _ _ _ _ _ _ _ _ KC) as KM.
  unfold comp_residual. rewrite Eo, L3, (co_t _ _ _ _ _ _ _ _ _ _ _ _ KC). clear L1 L2 L3 Eo.
  destruct (bo_rest _ _ _ _ _ _ _ _ B) as (P0 & f2 & cvs & xT & gT & fT1 & f3 & f6 & Pc & K0 & _ & _ & _ & Hcv & HJ & _).
  destruct (emax_max rho _ _ HJ) as [M1 M2].
  assert (NE : forall l, In l st -> l <> []).
  { intros l Hl. apply In_nth_error in Hl. destruct Hl as (c & Hc). pose proof (nth_error_Some_lt _ _ _ Hc) as Hlt.
    rewrite (stages_length _ _ _ _ _ _ _ _ B) in Hlt. destruct (stage_get o' t pm po P st lf f1 B c Hlt) as (ends & nfe & _ & Hp & Hs & Hle).
    rewrite Hc in Hs. injection Hs as <-. intros ->. cbn in Hle. lia. }
  assert (EL : forall c e l fe, nth_error st c = Some l -> nth_error l e = Some fe ->
     exists nfe, c < o_N_stages o' /\ nth_error (o_Nfe_list o') c = Some nfe /\ e < nfe /\ length l = nfe /\ fe_ok o' t pm po c e nfe fe).
  { intros c e l fe Hc He. pose proof (nth_error_Some_lt _ _ _ Hc) as Hlt.
    rewrite (stages_length _ _ _ _ _ _ _ _ B) in Hlt. destruct (stage_get o' t pm po P st lf f1 B c Hlt) as (ends & nfe & Hn & Hp & Hs & Hle).
    rewrite Hc in Hs. injection Hs as <-. pose proof (nth_error_Some_lt _ _ _ He) as He'. rewrite Hle in He'.
    destruct (get_elem _ _ _ _ _ _ _ _ B c nfe e Hlt Hn He') as (qq & q & s & fe' & EO & FO & _).
    destruct EO as (_ & _ & (l' & E1 & E2) & _). rewrite Hc in E1. injection E1 as <-. rewrite He in E2. injection E2 as <-. eauto 10. }
  assert (PR : forall c e q, c < o_N_stages o' -> prior (p_fe0 P0) st c e q -> (forall n, nth_error (o_Nfe_list o') c = Some n -> e < n) ->
     is_elem o' t pm po (prev_pos (o_Nfe_list o') c e) q).
  { intros c e q Hc Hp Hlt. destruct e as [|e]; [destruct c as [|c]|]; cbn [prior] in Hp; cbn [prev_pos is_elem].
    - subst q. apply (pk_fe0 _ _ _ _ _ K0).
    - destruct Hp as (l & H1 & H2). destruct (EL _ _ _ _ H1 H2) as (nfe & G1 & G2 & G3 & G4 & G5).
      rewrite (nth_error_nth _ _ _ G2). rewrite G4 in G5, G3. eauto.
    - destruct Hp as (l & H1 & H2). destruct (EL _ _ _ _ H1 H2) as (nfe & G1 & G2 & G3 & G4 & G5). eauto. }
  assert (FW : forall c e, c < o_N_stages o' -> e < nfe_of o' c -> exists nfe l fe q v, nth_error (o_Nfe_list o') c = Some nfe /\ nth_error st c = Some l /\ nth_error l e = Some fe /\
     fe_ok o' t pm po c e nfe fe /\ is_elem o' t pm po (prev_pos (o_Nfe_list o') c e) q /\ In v cvs /\ get_complementarity_vector o' fe q = Ok v).
  { intros c e Hc He. destruct (stage_get o' t pm po P st lf f1 B c Hc) as (l & nfe & Hn & Hp & Hs & Hle).
    unfold nfe_of in He. rewrite (nth_error_nth _ _ _ Hn) in He.
    destruct (nth_error l e) as [fe|] eqn:Hfe; [|apply nth_error_None in Hfe; lia].
    assert (Q : exists q, prior (p_fe0 P0) st c e q).
    { destruct e as [|e]; [destruct c as [|c]|]; cbn [prior].
      - eauto.
      - destruct (stage_get o' t pm po P st lf f1 B c ltac:(lia)) as (l' & n' & Hn' & Hp' & Hs' & Hle'). exists (nth (length l' - 1) l' (p_fe0 P0)), l'.
        split; [exact Hs'|]. apply nth_error_nth'. lia.
      - exists (nth e l (p_fe0 P0)), l. split; [exact Hs|]. apply nth_error_nth'. lia. }
    destruct Q as (q & Hq).
    assert (Hin : In (fe, q) (with_prev (p_fe0 P0) (all_fes st))) by (apply (adj_iff _ st _ _ NE); eauto 10).
    destruct (mapM_In _ _ _ _ Hcv Hin) as (v & Hv & Ev). cbn [fst snd] in Ev.
    destruct (EL _ _ _ _ Hs Hfe) as (nfe' & _ & Hn' & _ & _ & Hok). assert (nfe' = nfe) by congruence. subst nfe'.
    exists nfe, l, fe, q, v. repeat (split; [assumption|]). split; [|split; assumption].
    apply PR; [exact Hc|exact Hq|]. intros n Hn2. rewrite Hn in Hn2. injection Hn2 as <-. exact He. }
  split.
  - intros r Hr.
    assert (X : forall c e j k, c < o_N_stages o' -> e < nfe_of o' c -> j < o_ns o' -> k < n_pairs o' m ->
       (if o_use_fesd o' then r = (th o' m rho c e j k * lpv o' t m rho c e k)%R \/ exists jj, jj < o_ns o' /\ r = (th o' m rho c e j k * la o' m rho c e jj k)%R
        else r = (th o' m rho c e j k * la o' m rho c e j k)%R) -> (r <= eval rho (p_J_comp P))%R).
    { intros c e j k Hc He Hj Hk D. destruct (FW c e Hc He) as (nfe & l & fe & q & v & G1 & G2 & G3 & G4 & G5 & G6 & G7).
      destruct (proj2 (compl_vector o' t m pm po rho KM Hns c e nfe fe q v G1 G4 G5 G7 r)) as (x & Hx & <-); [exists j, k; auto|].
      apply M1. apply in_concat. eauto. }
    destruct Hr as [c e j k Hc He Hj Hk Hf|c e j jj k Hc He Hj Hjj Hk Hf|c e j k Hc He Hj Hk Hf];
      apply (X c e j k Hc He Hj Hk); rewrite Hf; [left; reflexivity|right; eauto|reflexivity].
  - destruct M2 as (x & Hx & ->). apply in_concat in Hx. destruct Hx as (v & Hv & Hx).
    destruct (mapM_In_inv _ _ _ _ Hcv Hv) as ([fe q] & Hin & Ev). cbn [fst snd] in Ev.
    apply (adj_iff _ st _ _ NE) in Hin. destruct Hin as (c & e & l & H1 & H2 & H3).
    destruct (EL _ _ _ _ H1 H2) as (nfe & G1 & G2 & G3 & G4 & G5).
    assert (Hq : is_elem o' t pm po (prev_pos (o_Nfe_list o') c e) q).
    { apply PR; [exact G1|exact H3|]. intros n Hn2. rewrite G2 in Hn2. injection Hn2 as <-. exact G3. }
    assert (He : e < nfe_of o' c) by (unfold nfe_of; rewrite (nth_error_nth _ _ _ G2); exact G3).
    destruct (proj1 (compl_vector o' t m pm po rho KM Hns c e nfe fe q v G2 G5 Hq Ev (eval rho x))) as (j & k & Hj & Hk & D); [eauto|].
    destruct (o_use_fesd o') eqn:Hf.
    + destruct D as [->|(jj & Hjj & ->)]; [eapply pr_left|eapply pr_cross]; assumption.
    + rewrite D. eapply pr_same; assumption.
Qed.

(* ---- C19 ---- *)
Lemma pm_constr o ch m : preprocess_model (with_constr o ch) m = preprocess_model o m.
Proof. reflexivity. Qed.
Lemma body_constr o ch t pm oc : problem_body (with_constr o ch) t pm oc = problem_body o t pm oc.
Proof. reflexivity. Qed.

Lemma lsq_fold gl c r : foldM (fun c p => do* _ <- guard (ext_is0 (snd p)) EException;
                                 Ok (EBin BAdd c (EUn USq (fst p)))) gl c = r ->
  (exists c', r = Ok c' /\ (forall p, In p gl -> ext_is0 (snd p) = true) /\
     forall rho, eval rho c' = (eval rho c + rsum (map (fun p => (eval rho (fst p)) ^ 2) gl))%R) \/
  (r = Err EException /\ exists p, In p gl /\ ext_is0 (snd p) = false).
Proof.
  revert c. induction gl as [|p gl IH]; intros c; cbn [foldM].
  - intros <-. left. exists c. split; [reflexivity|]. split; [intros p []|]. intros rho. cbn. lra.
  - destruct (ext_is0 (snd p)) eqn:E; cbn [guard bind].
    + intros H. apply IH in H. destruct H as [(c' & -> & H1 & H2)|(-> & q & H1 & H2)].
      * left. exists c'. split; [reflexivity|]. split; [intros q [<-|Hq]; auto|]. intros rho. rewrite H2. cbn [map]. rewrite rsum_cons. cbn. try unfold Rsqr. ring.
      * right. split; [reflexivity|]. exists q. split; [right; exact H1|exact H2].
    + intros <-. right. split; [reflexivity|]. exists p. split; [left; reflexivity|exact E].
Qed.
Lemma ext_is0_true l : ext_is0 l = true <-> exists q, l = Fin q /\ (q == 0)%Q.
Proof.
  destruct l; cbn; split; try discriminate; try (intros (q' & E & _); discriminate).
  - intros E. apply Qeq_bool_iff in E. eauto.
  - intros (q' & E & E'). injection E as ->. apply Qeq_bool_iff, E'.
Qed.

(* all lower bounds of the constraints are zero *)

Section Lsq.
Variables (lr : Q -> Q -> Q -> nat) (cp : nat -> scheme -> list Q) (d : ipopt_dict) (o : opts) (m : model) (oc : option ocp).
Notation exact_ := (construct_problem lr cp d (with_constr o Exact) m oc).
Notation lsq_ := (construct_problem lr cp d (with_constr o LeastSquares) m oc).

Lemma lsq_both :
  (exists e, exact_ = Err e /\ lsq_ = Err e) \/
  exists C1, exact_ = Ok C1 /\
    ((zero_lower (the_nlp C1) /\ exists C2, lsq_ = Ok C2 /\
        g (the_nlp C2) = [] /\ lbg (the_nlp C2) = [] /\ ubg (the_nlp C2) = [] /\
        w (the_nlp C2) = w (the_nlp C1) /\ lbw (the_nlp C2) = lbw (the_nlp C1) /\ ubw (the_nlp C2) = ubw (the_nlp C1) /\
        w0 (the_nlp C2) = w0 (the_nlp C1) /\
        forall rho, eval rho (cost (the_nlp C2)) =
          (eval rho (cost (the_nlp C1)) + rsum (map (fun e => (eval rho e) ^ 2) (g (the_nlp C1))))%R)
     \/ (~ zero_lower (the_nlp C1) /\ lsq_ = Err EException)).
Proof.
  unfold construct_problem.
  assert (PP : forall ch, preprocess lr cp d (with_constr o ch) =
     (do* r <- preprocess lr cp d (with_constr o Exact); let '(d', o', t) := r in Ok (d', with_constr o' ch, t))).
  { intros ch.
    set (O1 := set_iter_nfe o (if o_max_iter_homotopy o =? 0 then lr (o_comp_tol o) (o_sigma_0 o) (o_slope o) + 1 else o_max_iter_homotopy o)
                 (match o_Nfe_list o with [] => repeat (o_N_finite_elements o) (o_N_stages o) | l => l end)).
    set (d1 := match ip_tol d with None => set_tol_ipopt d (o_comp_tol o * (1 # 100))%Q | Some _ => d end).
    assert (X : forall h, preprocess lr cp d (with_constr o h) = do* t <- make_tab cp O1; Ok (d1, with_constr O1 h, t)) by reflexivity.
    rewrite !X. destruct (make_tab cp O1); reflexivity. }
  rewrite (PP LeastSquares).
  assert (PX : forall d' o' t, preprocess lr cp d (with_constr o Exact) = Ok (d', o', t) -> o' = with_constr o' Exact).
  { intros d' o' t E. rewrite (PP Exact) in E. apply bind_ok in E. destruct E as ([[d1 o1] t1] & _ & E). injection E as _ <- _. reflexivity. }
  destruct (preprocess lr cp d (with_constr o Exact)) as [[[d' o'] t]|e] eqn:E0; cbn [bind]; [|left; eauto].
  specialize (PX _ _ _ eq_refl). rewrite pm_constr.
  destruct (preprocess_model o' m) as [pm|e] eqn:E1; cbn [bind]; [|left; eauto].
  change (o_init (with_constr o' LeastSquares)) with (o_init o'). change (o_smoothing (with_constr o' LeastSquares)) with (o_smoothing o').
  remember (match o_init o' with Rk4Smoothened => do* s <- add_smooth_step_representation pm (o_smoothing o'); Ok (Some s) | _ => Ok None end) as sm. destruct sm as [s|e]; cbn [bind]; [|left; eauto]. clear E1.
  unfold nosnoc_problem. cbv zeta.
  destruct (preprocess_ocp pm (match oc with Some x => x | None => default_ocp end)) as [po|e] eqn:Eo; cbn [bind]; [|left; eauto].
  rewrite body_constr.
  destruct (problem_body o' t pm po) as [P|e] eqn:Eb; cbn [bind]; [|left; eauto].
  destruct (mkfun [w (pb P); p_p P] [cost (pb P)]) as [cf|e]; cbn [bind]; [|left; eauto].
  destruct (mkfun [w (pb P); p_p P] [p_J_comp P]) as [rf|e]; cbn [bind]; [|left; eauto].
  destruct (mkfun [w (pb P); p_p P] (g (pb P))) as [gf|e]; cbn [bind]; [|left; eauto].
  assert (W : wf_f (pb P)).
  { apply problem_body_ok in Eb. destruct Eb as (st & lf & f1 & B). eapply wf_P; exact B. }
  right. assert (L1 : lsq o' P = Ok P) by (rewrite PX; reflexivity). rewrite L1. cbn [bind]. eexists. split; [reflexivity|].
  unfold the_nlp, the_problem. cbn [cn_prob pr].
  unfold lsq. change (o_constr (with_constr o' LeastSquares)) with LeastSquares. cbv iota.
  destruct (lsq_fold (combine (g (pb P)) (lbg (pb P))) (cost (pb P)) _ eq_refl) as [(c' & Ec & Z & Ev)|(Ec & (x & l) & Hin & Hz)].
  - left. rewrite Ec. cbn [bind]. split.
    { intros l Hl. apply ext_is0_true. apply In_nth_error in Hl. destruct Hl as (k & Hk). destruct W as [_ [W1 W2]].
      pose proof (nth_error_Some_lt _ _ _ Hk) as Hlt. destruct (nth_error (g (pb P)) k) as [x|] eqn:Ex; [|apply nth_error_None in Ex; lia].
      apply (Z (x, l)). eapply nth_error_In with (n := k). apply nth_error_combine; assumption. }
    eexists. split; [reflexivity|]. cbn [cn_prob pr with_pb pb w lbw ubw w0 g lbg ubg cost]. do 7 (split; [reflexivity|]).
    intros rho. rewrite Ev. do 2 f_equal. destruct W as [_ [W1 W2]]. clear - W1. revert W1. generalize (lbg (pb P)). induction (g (pb P)) as [|x l IH]; intros [|y l'] W1; cbn in *; try lia; [reflexivity|].
    f_equal. apply IH. lia.
  - right. rewrite Ec. split; [|reflexivity]. intros G. apply in_combine_r in Hin. apply G, ext_is0_true in Hin. cbn in Hz. congruence.
Qed.
End Lsq.
