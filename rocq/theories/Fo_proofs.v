(* Fo_proofs.v -- how the formulation objects grow (add_variable, add_constraint,
   create_complementarity) *)
From Coq Require Import Reals Qreals Lra.
From Verif Require Import Base Lib Sx Sx_proofs Utils Tableau Opts Model Ocp Problem.

Definition wf_w (f : fobj) : Prop :=
  length (lbw f) = length (w f) /\ length (ubw f) = length (w f) /\ length (w0 f) = length (w f).
Definition wf_g (f : fobj) : Prop :=
  length (lbg f) = length (g f) /\ length (ubg f) = length (g f).
Definition wf_f (f : fobj) : Prop := wf_w f /\ wf_g f.

(* all constraints with their bounds; all variables with their bounds *)
Definition cons (f : fobj) : list (expr * (ext * ext)) := combine (g f) (combine (lbg f) (ubg f)).
Definition vbnds (f : fobj) : list (sym * (ext * ext)) := combine (w f) (combine (lbw f) (ubw f)).

Definition bool_ok (z : nat -> nat -> sym) (f : fobj) : Prop :=
  forall k idx, nth_error (ind_bool f) k = Some idx ->
    sel (w f) idx = Ok (map (z k) (seq 0 (length idx))).

(* what may happen to a formulation object while constraints are added *)
Record fo_le (o : opts) (z : nat -> nat -> sym) (f f' : fobj) : Prop := {
  le_w : exists s,
      w f' = w f ++ s /\
      lbw f' = lbw f ++ zerosx (length s) /\
      ubw f' = ubw f ++ repeat (Fin 1) (length s) /\
      w0 f' = w0 f ++ repeat (1#2)%Q (length s) /\
      exists ib, ind_bool f' = ind_bool f ++ ib /\ concat ib = seq (length (w f)) (length s) /\
                 (o_mpcc o <> MBoolean -> s = [] /\ ib = []) /\
                 (forall x, In x s -> exists k i, x = z k i);
  le_bool : bool_ok z f -> bool_ok z f';
  le_g : exists e l u,
      g f' = g f ++ e /\ lbg f' = lbg f ++ l /\ ubg f' = ubg f ++ u /\
      length l = length e /\ length u = length e
}.

Lemma fo_le_refl o z f : fo_le o z f f.
Proof.
  split.
  - exists []; cbn. rewrite !app_nil_r. repeat split; auto.
    exists []; cbn; rewrite app_nil_r; repeat split; auto. intros x [].
  - auto.
  - exists [], [], []; rewrite !app_nil_r; auto.
Qed.

Lemma repeat_app' {A} (x : A) n m : repeat x n ++ repeat x m = repeat x (n + m).
Proof. symmetry; apply repeat_app. Qed.

Lemma fo_le_trans o z f1 f2 f3 : fo_le o z f1 f2 -> fo_le o z f2 f3 -> fo_le o z f1 f3.
Proof.
  intros [(s & Hw & Hl & Hu & H0 & ib & Hb & Hc & Hn & Hz) B1 (e & l & u & G1 & G2 & G3 & G4 & G5)]
         [(s' & Hw' & Hl' & Hu' & H0' & ib' & Hb' & Hc' & Hn' & Hz') B2 (e' & l' & u' & G1' & G2' & G3' & G4' & G5')].
  split.
  - exists (s ++ s'). rewrite Hw', Hl', Hu', H0', Hw, Hl, Hu, H0, app_length, <- !app_assoc.
    unfold zerosx. rewrite !repeat_app'. repeat split; auto.
    exists (ib ++ ib'). rewrite Hb', Hb, <- app_assoc, concat_app, Hc, Hc', Hw, app_length, seq_app.
    split; [reflexivity|]. split; [reflexivity|]. split.
    + intros H; destruct (Hn H) as [-> ->], (Hn' H) as [-> ->]; auto.
    + intros x Hx; apply in_app_or in Hx; destruct Hx; auto.
  - auto.
  - exists (e ++ e'), (l ++ l'), (u ++ u'). rewrite G1', G2', G3', G1, G2, G3, <- !app_assoc, !app_length.
    repeat split; auto; lia.
Qed.

Lemma fo_le_wf o z f f' : fo_le o z f f' -> wf_f f -> wf_f f'.
Proof.
  intros [(s & Hw & Hl & Hu & H0 & _) _ (e & l & u & G1 & G2 & G3 & G4 & G5)] [(W1 & W2 & W3) (W4 & W5)].
  unfold wf_f, wf_w, wf_g. rewrite Hw, Hl, Hu, H0, G1, G2, G3, !app_length.
  unfold zerosx; rewrite !repeat_length. repeat split; lia.
Qed.

Lemma fo_le_cons o z f f' : fo_le o z f f' -> wf_f f -> exists c, cons f' = cons f ++ c.
Proof.
  intros [_ _ (e & l & u & G1 & G2 & G3 & G4 & G5)] [_ (W4 & W5)].
  unfold cons. rewrite G1, G2, G3. rewrite combine_app by lia. rewrite combine_app.
  - eexists; reflexivity.
  - rewrite combine_length; lia.
Qed.

Lemma fo_le_cons_in o z f f' x : fo_le o z f f' -> wf_f f -> In x (cons f) -> In x (cons f').
Proof.
  intros H W Hx. destruct (fo_le_cons _ _ _ _ H W) as [c ->]. apply in_or_app; auto.
Qed.

Lemma fo_le_vbnds_in o z f f' x : fo_le o z f f' -> wf_f f -> In x (vbnds f) -> In x (vbnds f').
Proof.
  intros [(s & Hw & Hl & Hu & H0 & _) _ _] [(W1 & W2 & W3) _] Hx.
  unfold vbnds in *. rewrite Hw, Hl, Hu. rewrite combine_app by lia. rewrite combine_app.
  - apply in_or_app; auto.
  - rewrite combine_length; lia.
Qed.

Lemma fo_le_sel o z f f' idx v : fo_le o z f f' -> sel (w f) idx = Ok v -> sel (w f') idx = Ok v.
Proof. intros [(s & Hw & _) _ _] H. rewrite Hw. apply sel_app_w; assumption. Qed.

(* ---- add_variable ---- *)
Lemma add_variable_ok f s lb ub init f' idx :
  add_variable f s lb ub init = Ok (f', idx) ->
  length lb = length s /\ length ub = length s /\ length init = length s /\
  idx = seq (length (w f)) (length s) /\
  f' = mkFobj (w f ++ s) (lbw f ++ lb) (ubw f ++ ub) (w0 f ++ init)
                  (g f) (lbg f) (ubg f) (cost f) (ind_comp f) (ind_bool f).
Proof.
  unfold add_variable.
  destruct ((length lb =? length s) && (length ub =? length s) && (length init =? length s)) eqn:E;
    cbn; intros H; [|discriminate].
  apply andb_true_iff in E; destruct E as [E E3]. apply andb_true_iff in E; destruct E as [E1 E2].
  apply Nat.eqb_eq in E1, E2, E3. injection H as <- <-. auto.
Qed.

Lemma add_variable_total f s lb ub init :
  length lb = length s -> length ub = length s -> length init = length s ->
  add_variable f s lb ub init =
    Ok (mkFobj (w f ++ s) (lbw f ++ lb) (ubw f ++ ub) (w0 f ++ init)
                  (g f) (lbg f) (ubg f) (cost f) (ind_comp f) (ind_bool f),
        seq (length (w f)) (length s)).
Proof. intros H1 H2 H3. unfold add_variable. rewrite H1, H2, H3, Nat.eqb_refl. reflexivity. Qed.

(* ---- add_constraint ---- *)
Definition bnd_or_zero (b : option (list ext)) (n : nat) : list ext :=
  match b with Some l => l | None => zerosx n end.

Lemma add_constraint_ok f e lb ub f' :
  add_constraint f e lb ub = Ok f' ->
  (e = [] /\ f' = f) \/
  (e <> [] /\ length (bnd_or_zero lb (length e)) = length e /\ length (bnd_or_zero ub (length e)) = length e /\
   f' = mkFobj (w f) (lbw f) (ubw f) (w0 f)
      (g f ++ e) (lbg f ++ bnd_or_zero lb (length e)) (ubg f ++ bnd_or_zero ub (length e))
      (cost f) (ind_comp f) (ind_bool f)).
Proof.
  unfold add_constraint. destruct e as [|x e]; cbn [length Nat.eqb].
  - intros H; injection H as <-; auto.
  - change (match lb with Some l => l | None => zerosx (S (length e)) end) with (bnd_or_zero lb (S (length e))).
    change (match ub with Some l => l | None => zerosx (S (length e)) end) with (bnd_or_zero ub (S (length e))).
    destruct (_ && _) eqn:E; cbn [negb]; intros H; [|discriminate].
    apply andb_true_iff in E; destruct E as [E1 E2]. apply Nat.eqb_eq in E1, E2.
    injection H as <-. right; repeat split; auto. discriminate.
Qed.

Lemma add_constraint_total f e lb ub :
  length (bnd_or_zero lb (length e)) = length e -> length (bnd_or_zero ub (length e)) = length e ->
  exists f', add_constraint f e lb ub = Ok f'.
Proof.
  intros H1 H2. unfold add_constraint. destruct (length e =? 0) eqn:E; [eauto|].
  fold (bnd_or_zero lb (length e)). fold (bnd_or_zero ub (length e)).
  rewrite H1, H2, Nat.eqb_refl. cbn. eauto.
Qed.

Lemma add_constraint_le o z f e lb ub f' : add_constraint f e lb ub = Ok f' -> fo_le o z f f'.
Proof.
  intros H; apply add_constraint_ok in H. destruct H as [[-> ->]|(_ & H1 & H2 & ->)]; [apply fo_le_refl|].
  split; cbn.
  - exists []; cbn; rewrite !app_nil_r; repeat split; auto.
    exists []; cbn; rewrite app_nil_r; repeat split; auto. intros x [].
  - auto.
  - do 3 eexists; repeat split; eauto.
Qed.

Lemma nth_error_combine {A B} (a : list A) (b : list B) i x y :
  nth_error a i = Some x -> nth_error b i = Some y -> nth_error (combine a b) i = Some (x, y).
Proof.
  revert b i; induction a as [|u a IH]; intros [|v b] [|i] Hx Hy; cbn in *; try discriminate; try congruence.
  apply IH; assumption.
Qed.
Lemma nth_error_combine_inv {A B} (a : list A) (b : list B) i x y :
  nth_error (combine a b) i = Some (x, y) -> nth_error a i = Some x /\ nth_error b i = Some y.
Proof.
  revert b i; induction a as [|u a IH]; intros [|v b] [|i] H; cbn in *; try discriminate.
  - injection H as <- <-; auto.
  - apply IH; assumption.
Qed.

(* the added constraints are there, with their bounds *)
Lemma add_constraint_in f e lb ub f' i x l u :
  add_constraint f e lb ub = Ok f' -> wf_f f ->
  nth_error e i = Some x ->
  nth_error (bnd_or_zero lb (length e)) i = Some l ->
  nth_error (bnd_or_zero ub (length e)) i = Some u ->
  In (x, (l, u)) (cons f').
Proof.
  intros H [_ [W1 W2]] Hx Hl Hu. apply add_constraint_ok in H.
  destruct H as [[-> ->]|(_ & H1 & H2 & ->)]; [destruct i; discriminate|].
  unfold cons; cbn. rewrite combine_app by lia. rewrite combine_app by (rewrite combine_length; lia).
  apply in_or_app; right. apply nth_error_In with (n := i).
  apply nth_error_combine; [assumption|]. apply nth_error_combine; assumption.
Qed.

Lemma add_constraint_eq_in f e f' x :
  add_constraint f e None None = Ok f' -> wf_f f -> In x e -> In (x, (Fin 0, Fin 0)) (cons f').
Proof.
  intros H W Hx. apply In_nth_error in Hx; destruct Hx as [i Hi].
  pose proof (nth_error_Some_lt _ _ _ Hi).
  eapply add_constraint_in; eauto; cbn; apply nth_error_repeat'; assumption.
Qed.

Lemma with_comp_cons f ic : cons (with_comp f ic) = cons f.
Proof. reflexivity. Qed.

Lemma add_constraint_comp_ok f e lb ub f' :
  add_constraint_comp f e lb ub = Ok f' ->
  exists f1 ic, add_constraint f e (Some lb) (Some ub) = Ok f1 /\ f' = with_comp f1 ic.
Proof.
  unfold add_constraint_comp; intros H; inv_ok. exists a.
  destruct (length e =? 0); injection H1 as <-; [exists (ind_comp a)|eexists]; split; eauto.
  destruct a; reflexivity.
Qed.

Lemma with_comp_le o z f f' ic : fo_le o z f f' -> fo_le o z f (with_comp f' ic).
Proof. intros [A B C]; split; auto. Qed.
Lemma add_cost_le o z f f' e : fo_le o z f f' -> fo_le o z f (add_cost f' e).
Proof. intros [A B C]; split; auto. Qed.

Lemma add_constraint_comp_le o z f e lb ub f' : add_constraint_comp f e lb ub = Ok f' -> fo_le o z f f'.
Proof.
  intros H; apply add_constraint_comp_ok in H; destruct H as (f1 & ic & H & ->).
  apply with_comp_le. eapply add_constraint_le; eauto.
Qed.

Lemma add_constraint_comp_in f e lb ub f' i x l u :
  add_constraint_comp f e lb ub = Ok f' -> wf_f f ->
  nth_error e i = Some x -> nth_error lb i = Some l -> nth_error ub i = Some u ->
  In (x, (l, u)) (cons f').
Proof.
  intros H W Hx Hl Hu. apply add_constraint_comp_ok in H; destruct H as (f1 & ic & H & ->).
  rewrite with_comp_cons. eapply add_constraint_in; eauto.
Qed.

(* ---- create_complementarity ---- *)
Lemma create_complementarity_le o z f x y f' :
  create_complementarity o z f x y = Ok f' -> fo_le o z f f'.
Proof.
  unfold create_complementarity. destruct (o_mpcc o) eqn:Em; intros H;
    try (inv_ok; eapply add_constraint_comp_le; eassumption).
  - destruct x as [|x1 [|x2 x]]; try discriminate. inv_ok; eapply add_constraint_comp_le; eassumption.
  - apply bind_ok in H. destruct H as ([f1 idx] & Hv & H).
    apply add_variable_ok in Hv. destruct Hv as (L1 & L2 & L3 & Hidx & Hf1).
    inv_ok. eapply fo_le_trans; [|eapply add_constraint_comp_le; eassumption].
    subst f1 idx. rewrite map_length, seq_length in *. split; cbn.
    + exists (map (z (length (ind_bool f))) (seq 0 (length y))). rewrite map_length, seq_length.
      repeat split; auto. eexists; split; [reflexivity|]. cbn. rewrite app_nil_r.
      repeat split; auto; try congruence.
      intros s Hs; apply in_map_iff in Hs; destruct Hs as (i & <- & _); eauto.
    + intros HB k idx Hk.
      destruct (Nat.eq_dec k (length (ind_bool f))) as [->|Hne].
      * cbn in Hk. rewrite nth_error_app2, Nat.sub_diag in Hk by lia. cbn in Hk. injection Hk as <-.
        rewrite seq_length. 
        pose proof (sel_seq (w f) (map (z (length (ind_bool f))) (seq 0 (length y))) []) as HS.
        rewrite map_length, seq_length, app_nil_r in HS. exact HS.
      * pose proof (nth_error_Some_lt _ _ _ Hk) as HL. cbn in HL. rewrite app_length in HL; cbn in HL.
        cbn in Hk. rewrite nth_error_app1 in Hk by lia. cbn. apply sel_app_w. apply HB; assumption.
    + exists [], [], []; rewrite !app_nil_r; auto.
Qed.

(* ---- feasibility of bounds ---- *)
Definition in_bnds (l u : ext) (v : R) : Prop :=
  match l with NInf => True | Fin q => (Q2R q <= v)%R | PInf => False end /\
  match u with PInf => True | Fin q => (v <= Q2R q)%R | NInf => False end.

Definition sat_cons (rho : env) (f : fobj) : Prop :=
  forall e l u, In (e, (l, u)) (cons f) -> in_bnds l u (eval rho e).
Definition sat_vars (rho : env) (f : fobj) : Prop :=
  forall s l u, In (s, (l, u)) (vbnds f) -> in_bnds l u (rho s).

Lemma sat_cons_le rho o z f f' : fo_le o z f f' -> wf_f f -> sat_cons rho f' -> sat_cons rho f.
Proof. intros H W S e l u Hin. apply S. eapply fo_le_cons_in; eauto. Qed.
Lemma sat_vars_le rho o z f f' : fo_le o z f f' -> wf_f f -> sat_vars rho f' -> sat_vars rho f.
Proof. intros H W S e l u Hin. apply S. eapply fo_le_vbnds_in; eauto. Qed.

Lemma in_bnds_eq0 v : in_bnds (Fin 0) (Fin 0) v -> v = 0%R.
Proof. unfold in_bnds. rewrite Q2R_0. lra. Qed.
