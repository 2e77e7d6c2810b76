(* Sx_proofs.v -- lemmas about expressions, ca.Function and vectors *)
From Coq Require Import Reals Qreals Lra.
From Verif Require Import Base Lib Sx Utils.

Lemma fam1_eqb_eq a b : fam1_eqb a b = true <-> a = b.
Proof. destruct a, b; cbn; split; congruence. Qed.
Lemma fam2_eqb_eq a b : fam2_eqb a b = true <-> a = b.
Proof. destruct a, b; cbn; split; congruence. Qed.

Lemma sym_eqb_eq a b : sym_eqb a b = true <-> a = b.
Proof.
  destruct a, b; cbn; try (split; congruence);
  rewrite ?andb_true_iff, ?Nat.eqb_eq, ?fam1_eqb_eq, ?fam2_eqb_eq; split; intros H;
  try (injection H; intros); intuition congruence.
Qed.
Lemma sym_eqb_refl a : sym_eqb a a = true.
Proof. apply sym_eqb_eq; reflexivity. Qed.

Lemma sym_eq_dec (a b : sym) : {a = b} + {a <> b}.
Proof.
  destruct (sym_eqb a b) eqn:E; [left; apply sym_eqb_eq; assumption|].
  right; intros H; apply sym_eqb_eq in H; congruence.
Qed.

Lemma mem_In s l : mem s l = true <-> In s l.
Proof.
  unfold mem; rewrite existsb_exists; split.
  - intros (x & Hx & He). apply sym_eqb_eq in He; subst; assumption.
  - intros H; exists s; split; [assumption|apply sym_eqb_refl].
Qed.

Lemma closed_in_spec ins e : closed_in ins e = true <-> (forall s, In s (fv e) -> In s ins).
Proof.
  unfold closed_in; rewrite forallb_forall; split; intros H s Hs; specialize (H s Hs); apply mem_In; assumption.
Qed.

Lemma mkfun_ok ins outs f :
  mkfun ins outs = Ok f ->
  f = mkCafun ins outs /\ (forall e s, In e outs -> In s (fv e) -> In s (concat ins)).
Proof.
  unfold mkfun; destruct (forallb _ outs) eqn:E; intros H; [|discriminate].
  injection H as <-; split; [reflexivity|]. intros e s He Hs.
  rewrite forallb_forall in E. specialize (E e He). rewrite closed_in_spec in E. auto.
Qed.

Lemma mkfun_intro ins outs :
  (forall e s, In e outs -> In s (fv e) -> In s (concat ins)) ->
  mkfun ins outs = Ok (mkCafun ins outs).
Proof.
  intros H; unfold mkfun. replace (forallb _ outs) with true; [reflexivity|].
  symmetry; apply forallb_forall; intros e He. apply closed_in_spec; intros s Hs; eauto.
Qed.

(* ---- evaluation ---- *)
Lemma eval_subst rho f e : eval rho (subst f e) = eval (fun s => eval rho (f s)) e.
Proof. induction e; cbn; congruence. Qed.

Lemma eval_ext rho rho' e :
  (forall s, In s (fv e) -> rho s = rho' s) -> eval rho e = eval rho' e.
Proof.
  induction e as [q|s|o a IH|o a IHa b IHb]; cbn; intros H; auto.
  - rewrite IH; auto.
  - rewrite IHa, IHb; auto; intros; apply H; apply in_or_app; auto.
Qed.

Lemma fv_subst f e s :
  In s (fv (subst f e)) -> exists s', In s' (fv e) /\ In s (fv (f s')).
Proof.
  induction e as [q|s0|o a IH|o a IHa b IHb]; cbn; intros H; [contradiction|eauto|eauto|].
  apply in_app_or in H; destruct H as [H|H]; [apply IHa in H|apply IHb in H];
  destruct H as (s' & H1 & H2); exists s'; split; auto; apply in_or_app; auto.
Qed.

Lemma assoc_eval rho (v : sym -> R) ins args s :
  Forall2 (fun i a => eval rho a = v i) ins args -> In s ins ->
  eval rho (assoc ins args s) = v s.
Proof.
  induction 1 as [|i a ins args Hia H IH]; intros Hs; [destruct Hs|]; cbn.
  destruct (sym_eqb s i) eqn:E.
  - apply sym_eqb_eq in E; subst; assumption.
  - destruct Hs as [->|Hs]; [rewrite sym_eqb_refl in E; discriminate|auto].
Qed.

Lemma assoc_in ins args s :
  length ins = length args -> In s ins -> In (assoc ins args s) args.
Proof.
  revert args; induction ins as [|i ins IH]; intros [|a args] Hl Hs; cbn in *; try discriminate; try tauto.
  destruct (sym_eqb s i) eqn:E; [left; reflexivity|].
  destruct Hs as [->|Hs]; [rewrite sym_eqb_refl in E; discriminate|]. right; apply IH; auto.
Qed.

Lemma nats_eqb_eq a b : nats_eqb a b = true <-> a = b.
Proof.
  revert b; induction a as [|x a IH]; intros [|y b]; cbn; split; intros H; try congruence; try discriminate.
  - apply andb_true_iff in H; destruct H as [H1 H2]. apply Nat.eqb_eq in H1; apply IH in H2; congruence.
  - injection H as -> ->. rewrite Nat.eqb_refl; cbn; apply IH; reflexivity.
Qed.

Lemma call_ok f args r :
  call f args = Ok r ->
  lens (cf_in f) = lens args /\
  r = map (subst (assoc (concat (cf_in f)) (concat args))) (cf_out f).
Proof.
  unfold call; destruct (nats_eqb _ _) eqn:E; intros H; [|discriminate].
  apply nats_eqb_eq in E. injection H as <-; auto.
Qed.

Lemma call_intro f args :
  lens (cf_in f) = lens args ->
  call f args = Ok (map (subst (assoc (concat (cf_in f)) (concat args))) (cf_out f)).
Proof.
  intros H; unfold call. replace (nats_eqb _ _) with true; [reflexivity|].
  symmetry; apply nats_eqb_eq; assumption.
Qed.

Lemma lens_concat {A B} (a : list (list A)) (b : list (list B)) :
  lens a = lens b -> length (concat a) = length (concat b).
Proof.
  revert b; induction a as [|x a IH]; intros [|y b] H; cbn in *; try discriminate; auto.
  injection H as H1 H2. rewrite !app_length, H1, (IH b); auto.
Qed.

(* calling a function evaluates its outputs under the argument values *)
Lemma call_eval ins outs f args r rho v :
  mkfun ins outs = Ok f -> call f args = Ok r ->
  Forall2 (Forall2 (fun s a => eval rho a = v s)) ins args ->
  Forall2 (fun e x => eval rho x = eval v e) outs r.
Proof.
  intros Hf Hc Hv. apply mkfun_ok in Hf; destruct Hf as [-> Hcl].
  apply call_ok in Hc; destruct Hc as [_ ->]; cbn.
  apply Forall2_map_r. apply Forall2_refl_in. intros e He.
  rewrite eval_subst. apply eval_ext. intros s Hs.
  apply assoc_eval with (v := v); [apply Forall2_concat; assumption | eapply Hcl; eauto].
Qed.

Lemma call_length f args r : call f args = Ok r -> length r = length (cf_out f).
Proof. intros H; apply call_ok in H; destruct H as [_ ->]; apply map_length. Qed.

(* the free symbols of a call result are those of the arguments *)
Lemma call_fv ins outs f args r e s :
  mkfun ins outs = Ok f -> call f args = Ok r -> In e r -> In s (fv e) ->
  exists a, In a (concat args) /\ In s (fv a).
Proof.
  intros Hf Hc He Hs. apply mkfun_ok in Hf; destruct Hf as [-> Hcl].
  apply call_ok in Hc; destruct Hc as [Hl ->]; cbn in *.
  apply in_map_iff in He; destruct He as (e0 & <- & He0).
  apply fv_subst in Hs; destruct Hs as (s' & Hs' & Hs).
  eexists; split; [|exact Hs]. apply assoc_in; [apply lens_concat; assumption|eauto].
Qed.

(* ---- vectors ---- *)
Lemma vbin_ok o a b r :
  length a = length b -> vbin o a b = Ok r -> r = map (fun p => EBin o (fst p) (snd p)) (combine a b).
Proof. intros H; unfold vbin; rewrite (proj2 (Nat.eqb_eq _ _) H); congruence. Qed.

Lemma vbin_same o a b :
  length a = length b -> vbin o a b = Ok (map (fun p => EBin o (fst p) (snd p)) (combine a b)).
Proof. intros H; unfold vbin; rewrite (proj2 (Nat.eqb_eq _ _) H); reflexivity. Qed.

Lemma vbin_length_same o a b r : length a = length b -> vbin o a b = Ok r -> length r = length a.
Proof.
  intros H Hr. rewrite (vbin_ok _ _ _ _ H Hr), map_length, combine_length, <- H. apply Nat.min_id.
Qed.

Lemma vbin_nth o a b r i x y :
  length a = length b -> vbin o a b = Ok r ->
  nth_error a i = Some x -> nth_error b i = Some y -> nth_error r i = Some (EBin o x y).
Proof.
  intros H Hr. rewrite (vbin_ok _ _ _ _ H Hr). clear Hr.
  revert b H i; induction a as [|u a IH]; intros [|v b] H i Hx Hy; try discriminate; cbn in *;
  destruct i; cbn in *; try discriminate; try congruence.
  eapply IH; eauto.
Qed.

Lemma vbin_scalar_r o a y : vbin o a [y] = Ok (map (fun x => EBin o x y) a).
Proof.
  unfold vbin. destruct a as [|x [|x' a]]; cbn; reflexivity.
Qed.
Lemma vbin_scalar_l o x b : vbin o [x] b = Ok (map (EBin o x) b).
Proof.
  unfold vbin. destruct b as [|y [|y' b]]; cbn; reflexivity.
Qed.

Lemma vbin_in o a b r e :
  vbin o a b = Ok r -> In e r -> exists x y, In x a /\ In y b /\ e = EBin o x y.
Proof.
  unfold vbin. destruct (length a =? length b).
  - intros H He; injection H as <-. apply in_map_iff in He; destruct He as ([x y] & <- & Hp).
    exists x, y; repeat split; [eapply in_combine_l|eapply in_combine_r]; eauto.
  - intros H He.
    assert (Hl : forall x, In e (map (EBin o x) b) -> exists y, In y b /\ e = EBin o x y).
    { intros x Hx; apply in_map_iff in Hx; destruct Hx as (y & <- & Hy); eauto. }
    assert (Hr : forall y, In e (map (fun x => EBin o x y) a) -> exists x, In x a /\ e = EBin o x y).
    { intros y Hx; apply in_map_iff in Hx; destruct Hx as (x & <- & Hy); eauto. }
    destruct a as [|x [|x' a]].
    + destruct b as [|y [|y' b]]; try discriminate. injection H as <-; destruct He.
    + injection H as <-. destruct (Hl x He) as (y & Hy & ->). exists x, y; auto using in_eq.
    + destruct b as [|y [|y' b]]; try discriminate. injection H as <-.
      destruct (Hr y He) as (x0 & Hx0 & ->). exists x0, y; auto using in_eq.
Qed.

Lemma vbin_fv o a b r e s :
  vbin o a b = Ok r -> In e r -> In s (fv e) -> exists x, (In x a \/ In x b) /\ In s (fv x).
Proof.
  intros H He Hs. destruct (vbin_in _ _ _ _ _ H He) as (x & y & Hx & Hy & ->). cbn in Hs.
  apply in_app_or in Hs; destruct Hs; eauto.
Qed.

(* ---- sums ---- *)
Fixpoint Rsum (l : list R) : R := match l with [] => 0%R | x :: l' => (x + Rsum l')%R end.

Lemma Rsum_app a b : Rsum (a ++ b) = (Rsum a + Rsum b)%R.
Proof. induction a; cbn; [lra|]. rewrite IHa; lra. Qed.

Lemma eval_esum_from rho acc v : eval rho (esum_from acc v) = (eval rho acc + Rsum (map (eval rho) v))%R.
Proof.
  revert acc; induction v as [|e v IH]; intros acc; cbn; [lra|]. rewrite IH; cbn; lra.
Qed.
Lemma eval_esum rho v : eval rho (esum v) = Rsum (map (eval rho) v).
Proof. unfold esum; rewrite eval_esum_from; cbn. unfold Q2R; cbn; lra. Qed.

Lemma Q2R_0 : Q2R 0 = 0%R.
Proof. unfold Q2R; cbn; lra. Qed.
Lemma Q2R_1 : Q2R 1 = 1%R.
Proof. unfold Q2R; cbn; lra. Qed.

Lemma fv_esum_from acc v s : In s (fv (esum_from acc v)) <-> In s (fv acc) \/ exists e, In e v /\ In s (fv e).
Proof.
  revert acc; induction v as [|e v IH]; intros acc; cbn.
  - split; [auto|intros [H|(e & [] & _)]; assumption].
  - rewrite IH; cbn. rewrite in_app_iff. split.
    + intros [[H|H]|(x & Hx & H)]; [auto|right; exists e; auto|right; exists x; auto].
    + intros [H|(x & [<-|Hx] & H)]; [auto|auto|right; exists x; auto].
Qed.

(* ---- exact rational evaluation agrees with real evaluation ---- *)
Lemma Qred_R q : Q2R (Qred q) = Q2R q.
Proof. apply Qeq_eqR, Qred_correct. Qed.

Lemma Q2R_le_bool x y : Qle_bool x y = true -> (Q2R x <= Q2R y)%R.
Proof. intros H; apply Qle_Rle, Qle_bool_iff; assumption. Qed.
Lemma Q2R_lt_bool x y : Qle_bool x y = false -> (Q2R y < Q2R x)%R.
Proof.
  intros H. apply Qlt_Rlt. apply Qnot_le_lt. intros Hc. apply Qle_bool_iff in Hc. congruence.
Qed.
Lemma Q2R_neq x y : Qeq_bool x y = false -> Q2R x <> Q2R y.
Proof. intros H Hc. apply eqR_Qeq in Hc. apply Qeq_bool_iff in Hc. congruence. Qed.
Lemma Q2R_eq x y : Qeq_bool x y = true -> Q2R x = Q2R y.
Proof. intros H. apply Qeq_eqR, Qeq_bool_iff; assumption. Qed.

Lemma Q2R_div' x y : Qeq_bool y 0 = false -> Q2R (x / y) = (Q2R x / Q2R y)%R.
Proof. intros H; apply Q2R_div. intros Hc. apply Qeq_bool_iff in Hc; congruence. Qed.
Lemma Q2R_inv' y : Qeq_bool y 0 = false -> Q2R (/ y) = (/ Q2R y)%R.
Proof. intros H; apply Q2R_inv. intros Hc. apply Qeq_bool_iff in Hc; congruence. Qed.

Lemma Some_inj {A} (a b : A) : Some a = Some b -> b = a.
Proof. congruence. Qed.

Lemma evalQ_sound rho e q :
  evalQ rho e = Some q -> eval (fun s => Q2R (rho s)) e = Q2R q.
Proof.
  revert q; induction e as [c|s|o a IH|o a IHa b IHb]; cbn [evalQ eval]; intros q H.
  - apply Some_inj in H; subst q; reflexivity.
  - apply Some_inj in H; subst q; reflexivity.
  - destruct (evalQ rho a) as [x|] eqn:E; [|discriminate]. rewrite (IH x eq_refl); clear IH.
    destruct o; cbn [evalQ_un eval_un] in *; try discriminate.
    + apply Some_inj in H; subst q. rewrite Qred_R, Q2R_opp; reflexivity.
    + unfold Rsign. destruct (Qle_bool x 0) eqn:E1; [destruct (Qle_bool 0 x) eqn:E2|]; apply Some_inj in H; subst q;
      repeat match goal with
      | H : Qle_bool _ _ = true |- _ => apply Q2R_le_bool in H
      | H : Qle_bool _ _ = false |- _ => apply Q2R_lt_bool in H end;
      rewrite ?Q2R_0, ?Q2R_1 in *;
      destruct (Rlt_dec 0 (Q2R x)), (Rlt_dec (Q2R x) 0); try lra; unfold Q2R; cbn; lra.
    + destruct (Qle_bool 0 x) eqn:E1; apply Some_inj in H; subst q.
      * apply Q2R_le_bool in E1; rewrite Q2R_0 in E1. apply Rabs_pos_eq; assumption.
      * apply Q2R_lt_bool in E1; rewrite Q2R_0 in E1. rewrite Qred_R, Q2R_opp. apply Rabs_left; assumption.
    + apply Some_inj in H; subst q. rewrite Qred_R, Q2R_mult; reflexivity.
    + destruct (Qeq_bool x 0) eqn:E1; [|discriminate]. apply Some_inj in H; subst q.
      apply Q2R_eq in E1. rewrite E1, Q2R_0. unfold tanh. unfold sinh. rewrite Ropp_0. unfold Rdiv. 
      replace (exp 0 - exp 0)%R with 0%R by lra. lra.
    + destruct (Qeq_bool x 0) eqn:E1; [discriminate|]. apply Some_inj in H; subst q.
      rewrite Qred_R, Q2R_inv' by assumption; reflexivity.
  - destruct (evalQ rho a) as [x|]; [|discriminate]. destruct (evalQ rho b) as [y|]; [|discriminate].
    rewrite (IHa x eq_refl), (IHb y eq_refl); clear IHa IHb.
    destruct o; cbn [evalQ_bin eval_bin] in *.
    + apply Some_inj in H; subst q; rewrite Qred_R, Q2R_plus; reflexivity.
    + apply Some_inj in H; subst q; rewrite Qred_R, Q2R_minus; reflexivity.
    + apply Some_inj in H; subst q; rewrite Qred_R, Q2R_mult; reflexivity.
    + destruct (Qeq_bool y 0) eqn:E1; [discriminate|]. apply Some_inj in H; subst q.
      rewrite Qred_R, Q2R_div' by assumption; reflexivity.
    + destruct (Qle_bool x y) eqn:E1; apply Some_inj in H; subst q.
      * apply Q2R_le_bool in E1. apply Rmin_left; assumption.
      * apply Q2R_lt_bool in E1. apply Rmin_right; lra.
    + destruct (Qle_bool x y) eqn:E1; apply Some_inj in H; subst q.
      * apply Q2R_le_bool in E1. apply Rmax_right; assumption.
      * apply Q2R_lt_bool in E1. apply Rmax_left; lra.
Qed.
