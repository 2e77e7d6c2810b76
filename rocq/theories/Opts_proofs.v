(* Opts_proofs.v -- proofs about nosnoc_opts.py and the checks of ocp.py *)
From Coq Require Import Reals Lra.
From Verif Require Import Base Lib Sx Sx_proofs Utils Tableau Opts Model Ocp Problem Spec Model_proofs Utils_proofs.

(* ---- validate ---- *)
Lemma pyty_eqb_eq a b : pyty_eqb a b = true <-> a = b.
Proof.
  destruct a, b; cbn; split; intros H; try discriminate; try reflexivity.
  - apply Nat.eqb_eq in H. congruence.
  - injection H as ->. apply Nat.eqb_refl.
Qed.
Lemma isinstance_spec v t : isinstance v t = true <-> instance_of v t.
Proof.
  unfold isinstance, instance_of. rewrite Bool.orb_true_iff, pyty_eqb_eq.
  split; (intros [H|H]; [left; exact H|right]).
  - destruct v, t; try discriminate; auto.
  - destruct H as [-> ->]. reflexivity.
Qed.
Lemma conforms_spec a v : conforms a v = true <-> fits a v.
Proof.
  destruct a as [ts|t]; cbn; [|apply isinstance_spec].
  rewrite existsb_exists. split; intros (t & Ht & H); exists t; split; auto; apply isinstance_spec; auto.
Qed.

Lemma lastE_err {A} e (l : list A) e' : lastE e l = Err e' -> e' = e.
Proof. unfold lastE. destruct (rev l); congruence. Qed.
Lemma nthE_err {A} e (l : list A) i e' : nthE e l i = Err e' -> e' = e.
Proof. unfold nthE. destruct (nth_error l i); cbn; congruence. Qed.
Lemma mapM_err {A B} (f : A -> res B) l e : mapM f l = Err e -> exists a, In a l /\ f a = Err e.
Proof.
  induction l as [|a l IH]; cbn; [discriminate|]. destruct (f a) as [b|e'] eqn:E; cbn.
  - destruct (mapM f l); cbn; [discriminate|]. intros H. destruct IH as (x & Hx & Hf); [exact H|]. exists x; auto.
  - intros H. injection H as ->. exists a; auto.
Qed.
Lemma bind_err {A B} (x : res A) (k : A -> res B) e :
  bind x k = Err e <-> x = Err e \/ exists a, x = Ok a /\ k a = Err e.
Proof.
  destruct x as [a|e']; cbn; split.
  - intros H; right; eauto.
  - intros [H|(a' & Ha & Hk)]; [discriminate|]. injection Ha as <-. exact Hk.
  - intros H; left; congruence.
  - intros [H|(a' & Ha & _)]; [congruence|discriminate].
Qed.

Lemma make_tab_no_type cp o : make_tab cp o <> Err ETypeError.
Proof.
  unfold make_tab. intros H. apply bind_err in H. destruct H as [H|(t & _ & H)].
  - destruct (o_repr o).
    + apply bind_err in H. destruct H as [H|(t & _ & H)]; [|discriminate].
      unfold generate_butcher_tableu_integral in H. apply bind_err in H. destruct H as [H|(t & _ & H)]; [|discriminate].
      apply mapM_err in H. destruct H as (j & _ & H). unfold lagrange_coeff in H.
      apply bind_err in H. destruct H as [H|(t & _ & H)]; [|discriminate]. apply nthE_err in H. discriminate.
    + apply bind_err in H. destruct H as [H|(t & _ & H)]; [|discriminate].
      unfold generate_butcher_tableu in H.
      repeat match type of H with context [match ?x with _ => _ end] => destruct x; try discriminate end; discriminate.
    + apply bind_err in H. destruct H as [H|(t & _ & H)]; [|discriminate].
      unfold generate_butcher_tableu in H.
      repeat match type of H with context [match ?x with _ => _ end] => destruct x; try discriminate end; discriminate.
  - apply bind_err in H. destruct H as [H|(tl & _ & H)]; [apply lastE_err in H|]; discriminate.
Qed.

Section Pre.
Variable lr : Q -> Q -> Q -> nat.
Variable cp : nat -> scheme -> list Q.

Lemma preprocess_no_type d o : preprocess lr cp d o <> Err ETypeError.
Proof.
  unfold preprocess. intros H. apply bind_err in H. destruct H as [H|(t & _ & H)]; [|discriminate].
  apply make_tab_no_type in H. exact H.
Qed.

Lemma combine_in_nth {A B} (a : list A) (b : list B) x y :
  In (x, y) (combine a b) <-> exists k, nth_error a k = Some x /\ nth_error b k = Some y.
Proof.
  revert b. induction a as [|u a IH]; intros b; cbn.
  - split; [intros []|]. intros ([|k] & H & _); discriminate.
  - destruct b as [|v b]; cbn.
    + split; [intros []|]. intros ([|k] & _ & H); discriminate.
    + rewrite IH. split.
      * intros [H|(k & H1 & H2)]; [injection H as <- <-; exists 0; auto|exists (S k); auto].
      * intros ([|k] & H1 & H2); cbn in *; [left; congruence|right; eauto].
Qed.

Lemma preprocess_checked_type d types o : length types = length opts_annotations ->
  (preprocess_checked lr cp d types o = Err ETypeError <->
   exists k a v, nth_error opts_annotations k = Some a /\ nth_error types k = Some v /\ ~ fits a v).
Proof.
  intros _. unfold preprocess_checked. rewrite bind_err.
  destruct (validate_spec (combine opts_annotations types)) as [_ V]. rewrite V. split.
  - intros [(a & v & Hin & Hc)|(u & _ & H)]; [|apply preprocess_no_type in H; destruct H].
    apply combine_in_nth in Hin. destruct Hin as (k & Ha & Hv). exists k, a, v. split; [assumption|]. split; [assumption|].
    rewrite <- conforms_spec, Hc. discriminate.
  - intros (k & a & v & Ha & Hv & Hn). left. exists a, v. split; [apply combine_in_nth; eauto|].
    rewrite <- conforms_spec in Hn. destruct (conforms a v); [destruct Hn; reflexivity|reflexivity].
Qed.

Lemma preprocess_checked_ok d types o : length types = length opts_annotations ->
  (forall k a v, nth_error opts_annotations k = Some a -> nth_error types k = Some v -> fits a v) ->
  preprocess_checked lr cp d types o = preprocess lr cp d o.
Proof.
  intros _ H. unfold preprocess_checked. destruct (validate_spec (combine opts_annotations types)) as [V _].
  rewrite (proj2 V); [reflexivity|]. intros a v Hin. apply combine_in_nth in Hin. destruct Hin as (k & Ha & Hv).
  apply conforms_spec. eauto.
Qed.

(* ---- idempotence ---- *)
Lemma preprocess_again d o d' o' t : preprocess lr cp d o = Ok (d', o', t) -> preprocess lr cp d' o' = Ok (d', o', t).
Proof.
  unfold preprocess. intros H. apply bind_ok in H. destruct H as (t0 & Ht & H).
  injection H as Hd Ho Htt. subst t0. subst o'.
  assert (Hd' : forall v, match ip_tol d' with None => set_tol_ipopt d' v | Some _ => d' end = d').
  { intros v. subst d'. destruct (ip_tol d) eqn:E; [rewrite E; reflexivity|reflexivity]. }
  revert Ht.
  assert (Hit : forall n, ((if o_max_iter_homotopy o =? 0 then n + 1 else o_max_iter_homotopy o) =? 0) = false).
  { intros n. destruct (o_max_iter_homotopy o =? 0) eqn:E; [|exact E]. apply Nat.eqb_neq. lia. }
  specialize (Hit (lr (o_comp_tol o) (o_sigma_0 o) (o_slope o))).
  set (it := if o_max_iter_homotopy o =? 0 then _ else _) in *.
  assert (Hn : match match o_Nfe_list o with [] => repeat (o_N_finite_elements o) (o_N_stages o) | l => l end
    with [] => repeat (o_N_finite_elements o) (o_N_stages o) | l => l end =
    match o_Nfe_list o with [] => repeat (o_N_finite_elements o) (o_N_stages o) | l => l end).
  { destruct (o_Nfe_list o) eqn:E; [|reflexivity]. destruct (repeat _ _); reflexivity. }
  set (nfe := match o_Nfe_list o with [] => _ | l => l end) in *.
  intros Ht. rewrite Hd'.
  change (o_max_iter_homotopy (set_iter_nfe o it nfe)) with it. rewrite Hit.
  change (o_Nfe_list (set_iter_nfe o it nfe)) with nfe.
  change (o_N_finite_elements (set_iter_nfe o it nfe)) with (o_N_finite_elements o).
  change (o_N_stages (set_iter_nfe o it nfe)) with (o_N_stages o).
  rewrite Hn. cbv zeta. change (set_iter_nfe (set_iter_nfe o it nfe) it nfe) with (set_iter_nfe o it nfe).
  rewrite Ht. reflexivity.
Qed.

Lemma preprocess_parts d o d' o' t : preprocess lr cp d o = Ok (d', o', t) ->
  o_max_iter_homotopy o' = (match o_max_iter_homotopy o with 0 => lr (o_comp_tol o) (o_sigma_0 o) (o_slope o) + 1 | n => n end) /\
  o_Nfe_list o' = (match o_Nfe_list o with [] => repeat (o_N_finite_elements o) (o_N_stages o) | l => l end) /\
  make_tab cp o = Ok t /\
  ip_tol d' = Some (match ip_tol d with Some v => v | None => (o_comp_tol o * (1 # 100))%Q end) /\ ip_max_iter d' = ip_max_iter d.
Proof.
  unfold preprocess. intros H. apply bind_ok in H. destruct H as (t0 & Ht & H).
  injection H as Hd Ho Htt. subst. cbn. repeat split.
  - destruct (o_max_iter_homotopy o); reflexivity.
  - exact Ht.
  - destruct (ip_tol d) eqn:E; cbn; congruence.
  - destruct (ip_tol d) eqn:E; reflexivity.
Qed.

End Pre.

(* ---- right boundary point ---- *)
Lemma Qabs_ltb_spec x y : Qabs_ltb x y = true <-> (x < y /\ - x < y)%Q.
Proof.
  unfold Qabs_ltb. rewrite Bool.andb_true_iff, !Bool.negb_true_iff.
  split; intros [H1 H2]; split.
  - apply Qnot_le_lt. intros H. apply Qle_bool_iff in H. congruence.
  - apply Qnot_le_lt. intros H. apply Qle_bool_iff in H. congruence.
  - destruct (Qle_bool y x) eqn:E; [|reflexivity]. apply Qle_bool_iff in E. apply Qlt_not_le in H1. tauto.
  - destruct (Qle_bool y (-x)) eqn:E; [|reflexivity]. apply Qle_bool_iff in E. apply Qlt_not_le in H2. tauto.
Qed.

Lemma tableau_rbe n s bt : generate_butcher_tableu n s = Ok bt ->
  exists tl, lastE EIndexError (bt_c bt) = Ok tl /\
    Qabs_ltb (tl - 1) (1 # 1000000000) = match s with RadauIIA => true | GaussLegendre => false end.
Proof.
  unfold generate_butcher_tableu. intros H.
  destruct s; do 10 (destruct n as [|n]; [first [discriminate|injection H as <-; eexists; split; [vm_compute; reflexivity|vm_compute; reflexivity]]|]);
  discriminate.
Qed.

Lemma integral_tau pts it : generate_butcher_tableu_integral pts = Ok it -> it_tau it = 0%Q :: pts.
Proof.
  unfold generate_butcher_tableu_integral. intros H. apply bind_ok in H. destruct H as (cs & _ & H).
  injection H as <-. reflexivity.
Qed.

Lemma make_tab_rbe cp o t :
  make_tab cp o = Ok t ->
  (o_repr o = Integral -> exists pts tl, cp (o_ns o) (o_scheme o) = pts ++ [tl] /\
      match o_scheme o with RadauIIA => (tl == 1)%Q | GaussLegendre => (tl <= 1 - (1 # 1000000000))%Q end) ->
  t_rbe t = match o_scheme o with RadauIIA => true | GaussLegendre => false end.
Proof.
  unfold make_tab. intros H Hc. apply bind_ok in H. destruct H as (t0 & H0 & H).
  apply bind_ok in H. destruct H as (tl & Htl & H). injection H as <-. cbn.
  destruct (o_repr o) eqn:Er.
  - apply bind_ok in H0. destruct H0 as (it & Hit & H0). injection H0 as <-. cbn in Htl.
    rewrite (integral_tau _ _ Hit) in Htl. destruct (Hc eq_refl) as (pts & t1 & E & Hs).
    rewrite E in Htl. change (0%Q :: pts ++ [t1]) with ((0%Q :: pts) ++ [t1]) in Htl.
    rewrite lastE_app in Htl. injection Htl as <-. destruct (o_scheme o).
    + apply Qabs_ltb_spec. rewrite Hs. split; reflexivity.
    + destruct (Qabs_ltb (t1 - 1) (1 # 1000000000)) eqn:E2; [|reflexivity].
      apply Qabs_ltb_spec in E2. destruct E2 as [_ E2]. exfalso. revert E2. apply Qle_not_lt.
      apply (Qplus_le_l _ _ t1). ring_simplify. apply (Qplus_le_l _ _ (- (1 # 1000000000))). 
      eapply Qle_trans; [|eapply Qle_trans; [exact Hs|]]; apply Qle_lteq; right; ring.
  - apply bind_ok in H0. destruct H0 as (bt & Hbt & H0). injection H0 as <-. cbn in Htl.
    destruct (tableau_rbe _ _ _ Hbt) as (tl' & E1 & E2). rewrite E1 in Htl. injection Htl as <-. exact E2.
  - apply bind_ok in H0. destruct H0 as (bt & Hbt & H0). injection H0 as <-. cbn in Htl.
    destruct (tableau_rbe _ _ _ Hbt) as (tl' & E1 & E2). rewrite E1 in Htl. injection Htl as <-. exact E2.
Qed.

Lemma tableau_unsupported n : n = 0 \/ 9 < n ->
  generate_butcher_tableu n RadauIIA = Err ENotImplemented /\ generate_butcher_tableu n GaussLegendre = Err EUnboundLocal.
Proof.
  intros [->|H]; [split; reflexivity|]. do 10 (destruct n as [|n]; [lia|]). split; reflexivity.
Qed.
Lemma tableau_supported n s : 1 <= n <= 9 -> exists bt, generate_butcher_tableu n s = Ok bt.
Proof. intros H. destruct s; do 10 (destruct n as [|n]; [first [lia|eexists; reflexivity]|]); lia. Qed.

(* ---- the OCP ---- *)
Lemma default_len_total {A} (x : option (list A)) n d : length_ok x n -> default_len x n d = Ok (given x n d).
Proof. unfold default_len, length_ok, given. destruct x; [intros ->; rewrite Nat.eqb_refl|]; reflexivity. Qed.
Lemma default_len_exc_total {A} (x : option (list A)) n d : length_ok x n -> default_len_exc x n d = Ok (given x n d).
Proof. unfold default_len_exc, length_ok, given. destruct x; [intros ->; rewrite Nat.eqb_refl|]; reflexivity. Qed.
Lemma default_len_inv {A} (x : option (list A)) n d l : default_len x n d = Ok l -> length_ok x n.
Proof. intros H. destruct (default_len_ok _ _ _ _ H) as [H1 H2]. unfold length_ok. destruct x; [congruence|exact I]. Qed.
Lemma default_len_exc_inv {A} (x : option (list A)) n d l : default_len_exc x n d = Ok l -> length_ok x n.
Proof. intros H. destruct (default_len_exc_ok _ _ _ _ H) as [H1 H2]. unfold length_ok. destruct x; [congruence|exact I]. Qed.

Lemma mkfun_over ins outs f : mkfun ins outs = Ok f -> forall e, In e outs -> over (concat ins) e.
Proof. intros H e He s Hs. apply mkfun_ok in H. destruct H as [_ H]. eauto. Qed.
Lemma over_mkfun ins outs : (forall e, In e outs -> over (concat ins) e) -> mkfun ins outs = Ok (mkCafun ins outs).
Proof. intros H. apply mkfun_intro. intros e s He Hs. exact (H e He s Hs). Qed.
Lemma over_incl vs ws e : incl vs ws -> over vs e -> over ws e.
Proof. intros H1 H2 s Hs. apply H1, H2, Hs. Qed.
Lemma mkcomp_over ins rows f : mkcomp ins rows = Ok f ->
  forall r e, In r rows -> e = fst r \/ e = snd r -> over (concat ins) e.
Proof.
  intros H r e Hr He. unfold mkcomp in H. apply bind_ok in H. destruct H as (a & Ha & H).
  apply bind_ok in H. destruct H as (b & Hb & _).
  destruct He as [->| ->]; [eapply (mkfun_over _ _ _ Ha)|eapply (mkfun_over _ _ _ Hb)]; apply in_map; assumption.
Qed.
Lemma over_mkcomp ins rows : (forall r e, In r rows -> e = fst r \/ e = snd r -> over (concat ins) e) ->
  exists f, mkcomp ins rows = Ok f.
Proof.
  intros H. unfold mkcomp. rewrite !over_mkfun.
  - eexists; reflexivity.
  - intros e He. apply in_map_iff in He. destruct He as (r & <- & Hr). eauto.
  - intros e He. apply in_map_iff in He. destruct He as (r & <- & Hr). eauto.
Qed.
Lemma depends_uses vs r : depends_on vs r = true <-> uses vs r.
Proof. apply depends_on_spec. Qed.
Lemma depends_false vs r : depends_on vs r = false <-> ~ uses vs r.
Proof. rewrite <- depends_uses. destruct (depends_on vs r); split; try congruence; intros H; destruct H; reflexivity. Qed.

Lemma concat2 {A} (a b : list A) : concat [a; b] = a ++ b. Proof. cbn. rewrite app_nil_r; reflexivity. Qed.
Lemma concat3 {A} (a b c : list A) : concat [a; b; c] = a ++ b ++ c. Proof. cbn. rewrite app_nil_r; reflexivity. Qed.
Lemma concat4 {A} (a b c d : list A) : concat [a; b; c; d] = a ++ b ++ c ++ d. Proof. cbn. rewrite app_nil_r; reflexivity. Qed.
Lemma concat5 {A} (a b c d e : list A) : concat [a; b; c; d; e] = a ++ b ++ c ++ d ++ e. Proof. cbn. rewrite app_nil_r; reflexivity. Qed.

Lemma mp_split m : mp m = mpt m ++ mpg m. Proof. reflexivity. Qed.

Lemma preprocess_ocp_iff pm oc : is_ok (preprocess_ocp pm oc) = true <-> ocp_fits pm oc.
Proof.
  split.
  - destruct (preprocess_ocp pm oc) as [p|] eqn:E; [intros _|discriminate].
    unfold preprocess_ocp in E. rewrite classify_spec in E.
    repeat (apply bind_ok in E; let H := fresh "H" in destruct E as (? & H & E)).
    constructor.
    + rewrite <- concat3. intros e [->|He]; [exact (mkfun_over _ _ _ H0 _ (or_introl eq_refl))|exact (mkfun_over _ _ _ H e He)].
    + rewrite <- concat4. intros e [->|He]; [exact (mkfun_over _ _ _ H1 _ (or_introl eq_refl))|exact (mkfun_over _ _ _ H2 e He)].
    + intros r e Hr He.
      destruct (depends_on (mx (pm_m pm) ++ mz (pm_m pm)) r) eqn:D1.
      * split; [rewrite <- concat5; eapply (mkcomp_over _ _ _ H5); [apply filter_In; split; eauto|exact He]|].
        intros Hn. apply depends_uses in D1. tauto.
      * enough (over (mu_ (pm_m pm) ++ mp (pm_m pm) ++ mvg (pm_m pm)) e) as Ho.
        { split; [|auto]. eapply over_incl; [|exact Ho]. intros s; rewrite !in_app_iff; tauto. }
        destruct (depends_on (mu_ (pm_m pm) ++ mpt (pm_m pm)) r) eqn:D2.
        -- rewrite <- concat3. eapply (mkcomp_over _ _ _ H4); [apply filter_In; split; [eauto|]|exact He].
           cbn beta. rewrite D1, D2. reflexivity.
        -- eapply over_incl; [|eapply (mkcomp_over _ _ _ H3); [apply filter_In; split; [eauto|]|exact He]].
           ++ rewrite concat2, mp_split. intros s; rewrite !in_app_iff; tauto.
           ++ cbn beta. rewrite D1, D2. reflexivity.
    + repeat match goal with
             | H : default_len _ _ _ = Ok _ |- _ => apply default_len_inv in H
             | H : default_len_exc _ _ _ = Ok _ |- _ => apply default_len_exc_inv in H end.
      tauto.
  - intros [Ht Hp Hc Hl]. unfold preprocess_ocp. rewrite classify_spec.
    rewrite <- concat3 in Ht. rewrite <- concat4 in Hp.
    rewrite (over_mkfun _ (oc_gT oc)) by (intros; apply Ht; auto). cbn [bind].
    rewrite (over_mkfun _ [oc_fT oc]) by (intros e [<-|[]]; apply Ht; auto). cbn [bind].
    rewrite (over_mkfun _ [oc_fq oc]) by (intros e [<-|[]]; apply Hp; auto). cbn [bind].
    rewrite (over_mkfun _ (oc_g_path oc)) by (intros; apply Hp; auto). cbn [bind].
    destruct (over_mkcomp [mpg (pm_m pm); mvg (pm_m pm)]
      (filter (fun r => negb (depends_on (mx (pm_m pm) ++ mz (pm_m pm)) r) && negb (depends_on (mu_ (pm_m pm) ++ mpt (pm_m pm)) r)) (oc_comp oc))) as [f1 E1].
    { intros r e Hr He s Hs. apply filter_In in Hr. destruct Hr as [Hr D]. apply Bool.andb_true_iff in D.
      rewrite !Bool.negb_true_iff in D. destruct D as [D1 D2].
      apply depends_false in D1. apply depends_false in D2.
      specialize (proj2 (Hc r e Hr He) D1 s Hs). rewrite concat2, mp_split, !in_app_iff. intros Hin.
      destruct Hin as [Hin|[[Hin|Hin]|Hin]]; auto; exfalso; apply D2; exists s; rewrite in_app_iff; split; auto;
        destruct He as [->| ->]; auto. }
    rewrite E1. cbn [bind].
    destruct (over_mkcomp [mu_ (pm_m pm); mp (pm_m pm); mvg (pm_m pm)]
      (filter (fun r => negb (depends_on (mx (pm_m pm) ++ mz (pm_m pm)) r) && depends_on (mu_ (pm_m pm) ++ mpt (pm_m pm)) r) (oc_comp oc))) as [f2 E2].
    { intros r e Hr He. rewrite concat3. apply filter_In in Hr. destruct Hr as [Hr D]. apply Bool.andb_true_iff in D.
      rewrite !Bool.negb_true_iff in D. destruct D as [D1 D2]. apply depends_false in D1. apply (Hc r e Hr He); assumption. }
    rewrite E2. cbn [bind].
    destruct (over_mkcomp [mx (pm_m pm); mu_ (pm_m pm); pm_zall pm; mp (pm_m pm); mvg (pm_m pm)]
      (filter (depends_on (mx (pm_m pm) ++ mz (pm_m pm))) (oc_comp oc))) as [f3 E3].
    { intros r e Hr He. rewrite concat5. apply filter_In in Hr. destruct Hr as [Hr D]. apply (Hc r e Hr He). }
    rewrite E3. cbn [bind].
    destruct Hl as (l1 & l2 & l3 & l4 & l5 & l6 & l7 & l8 & l9 & l10).
    rewrite !default_len_total, !default_len_exc_total by assumption. reflexivity.
Qed.

Lemma given_some {A} (x : option (list A)) n d : length_ok x n -> length_ok (Some (given x n d)) n.
Proof. unfold length_ok, given. destruct x; [auto|]. intros _. apply repeat_length. Qed.
Lemma given_idem {A} (x : option (list A)) n d n' d' : given (Some (given x n d)) n' d' = given x n d.
Proof. reflexivity. Qed.

Lemma default_len_written {A} (x : option (list A)) n d : default_len (Some (given x n d)) n d = default_len x n d.
Proof. unfold given. destruct x; [reflexivity|]. cbn. rewrite repeat_length, Nat.eqb_refl. reflexivity. Qed.
Lemma default_len_exc_written {A} (x : option (list A)) n d : default_len_exc (Some (given x n d)) n d = default_len_exc x n d.
Proof. unfold given. destruct x; [reflexivity|]. cbn. rewrite repeat_length, Nat.eqb_refl. reflexivity. Qed.

Lemma preprocess_ocp_written pm oc : preprocess_ocp pm (written_out (pm_m pm) oc) = preprocess_ocp pm oc.
Proof.
  unfold preprocess_ocp, written_out; cbn [oc_lbu oc_ubu oc_u_guess oc_lbx oc_ubx oc_fq oc_g_path oc_lbg oc_ubg oc_comp oc_fT oc_gT oc_lbv oc_ubv oc_v_guess].
  rewrite !default_len_written, !default_len_exc_written. reflexivity.
Qed.

(* the groups of path complementarities *)
Lemma ocp_groups pm oc p : preprocess_ocp pm oc = Ok p ->
  exists inst inct : expr * expr -> bool,
    (forall r, inst r = true <-> uses (mx (pm_m pm) ++ mz (pm_m pm)) r) /\
    (forall r, inct r = true <-> uses (mu_ (pm_m pm) ++ mpt (pm_m pm)) r) /\
    mkcomp [mx (pm_m pm); mu_ (pm_m pm); pm_zall pm; mp (pm_m pm); mvg (pm_m pm)] (filter inst (oc_comp oc)) = Ok (po_rk_comp p) /\
    mkcomp [mu_ (pm_m pm); mp (pm_m pm); mvg (pm_m pm)] (filter (fun r => negb (inst r) && inct r) (oc_comp oc)) = Ok (po_ctrl_comp p) /\
    mkcomp [mpg (pm_m pm); mvg (pm_m pm)] (filter (fun r => negb (inst r) && negb (inct r)) (oc_comp oc)) = Ok (po_global_comp p).
Proof.
  intros H. apply preprocess_ocp_ok in H. destruct (po_cl _ _ _ H) as (gc & cc & sc & Hc & H1 & H2 & H3).
  rewrite classify_spec in Hc. injection Hc as <- <- <-.
  eexists _, _. split; [intros r; apply depends_uses|]. split; [intros r; apply depends_uses|]. auto.
Qed.

(* ---- options changed after preprocess ---- *)
Section Change.
Variable lr : Q -> Q -> Q -> nat.
Variable cp : nat -> scheme -> list Q.

Lemma make_tab_reads o o' : o_repr o = o_repr o' -> o_ns o = o_ns o' -> o_scheme o = o_scheme o' -> make_tab cp o = make_tab cp o'.
Proof. intros E1 E2 E3. unfold make_tab. rewrite E1, E2, E3. reflexivity. Qed.

Lemma reassign_kept d o d1 o1 t1 n nfe ct s0 sl d2 o2 t2 :
  preprocess lr cp d o = Ok (d1, o1, t1) ->
  preprocess lr cp d1 (reassign o1 n nfe ct s0 sl) = Ok (d2, o2, t2) ->
  o_max_iter_homotopy o2 = o_max_iter_homotopy o1 /\
  (o_Nfe_list o1 <> [] -> o_Nfe_list o2 = o_Nfe_list o1) /\ ip_tol d2 = ip_tol d1.
Proof.
  intros H1 H2. destruct (preprocess_parts _ _ _ _ _ _ _ H1) as (A1 & B1 & _ & D1 & _).
  destruct (preprocess_parts _ _ _ _ _ _ _ H2) as (A2 & B2 & _ & D2 & _). cbn in A2, B2, D2.
  split; [|split].
  - rewrite A2. destruct (o_max_iter_homotopy o1) eqn:E; [|reflexivity].
    exfalso. destruct (o_max_iter_homotopy o); lia.
  - rewrite B2. destruct (o_Nfe_list o1); [congruence|reflexivity].
  - rewrite D2, D1. reflexivity.
Qed.

Lemma reassign_fresh d o d1 o1 t1 n nfe ct s0 sl :
  o_max_iter_homotopy o <> 0 -> o_Nfe_list o <> [] -> ip_tol d <> None ->
  preprocess lr cp d o = Ok (d1, o1, t1) ->
  preprocess lr cp d1 (reassign o1 n nfe ct s0 sl) = preprocess lr cp d (reassign o n nfe ct s0 sl).
Proof.
  intros Hi Hn Hd H. unfold preprocess in H. apply bind_ok in H. destruct H as (t & _ & H). injection H as <- <- _.
  destruct (ip_tol d) as [v|] eqn:Ed; [|congruence].
  destruct o as [? ? it ? ? ? ? ? ? ? ? ? ? ? ? nl]. cbn in Hi, Hn. cbn [o_max_iter_homotopy o_Nfe_list].
  destruct it as [|it]; [congruence|]. destruct nl; [congruence|]. reflexivity.
Qed.
End Change.

Lemma construct_written lr cp d o m oc :
  construct_problem lr cp d o m (Some (written_out m oc)) = construct_problem lr cp d o m (Some oc).
Proof.
  unfold construct_problem. destruct (preprocess lr cp d o) as [[[d' o'] t]|]; [|reflexivity]. cbn [bind].
  destruct (preprocess_model o' m) as [pm|] eqn:Em; [|reflexivity]. cbn [bind].
  destruct (match o_init o' with Rk4Smoothened => _ | _ => _ end) as [sm|]; [|reflexivity]. cbn [bind].
  assert (E : written_out m oc = written_out (pm_m pm) oc).
  { apply preprocess_model_ok in Em. destruct (mo_m _ _ _ Em) as (ptv & -> & _). reflexivity. }
  unfold nosnoc_problem. rewrite E, preprocess_ocp_written. reflexivity.
Qed.

(* ---- one shared dictionary ---- *)
Lemma ow_shared_tol w i v w' j : ow_set_tol w i v = Ok w' -> j < length (ow_objs w) -> ow_tol w' j = Some (Some v).
Proof.
  unfold ow_set_tol. intros H Hj. apply bind_ok in H. destruct H as (o & _ & H). injection H as <-.
  unfold ow_tol. cbn. destruct (nth_error_lt (ow_objs w) j Hj) as [x ->]. reflexivity.
Qed.
Lemma ow_shared_max_iter w i v w' j : ow_set_max_iter w i v = Ok w' -> j < length (ow_objs w) -> ow_max_iter w' j = Some v.
Proof.
  unfold ow_set_max_iter. intros H Hj. apply bind_ok in H. destruct H as (o & _ & H). injection H as <-.
  unfold ow_max_iter. cbn. destruct (nth_error_lt (ow_objs w) j Hj) as [x ->]. reflexivity.
Qed.
(* all other attributes belong to the object *)
Lemma ow_own lr cp w i w' : ow_preprocess lr cp w i = Ok w' ->
  forall j, j <> i -> nth_error (ow_objs w') j = nth_error (ow_objs w) j.
Proof.
  unfold ow_preprocess. intros H. apply bind_ok in H. destruct H as (o & _ & H).
  apply bind_ok in H. destruct H as ([[d o'] t] & _ & H). apply bind_ok in H. destruct H as (os & Hu & H). injection H as <-.
  intros j Hj. apply updE_ok in Hu. apply Hu. exact Hj.
Qed.

Lemma preprocess_accepts lr cp d o : is_ok (preprocess lr cp d o) = is_ok (make_tab cp o).
Proof.
  unfold preprocess. rewrite (make_tab_reads cp (set_iter_nfe o _ _) o) by reflexivity.
  destruct (make_tab cp o); reflexivity.
Qed.
