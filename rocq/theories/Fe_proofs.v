(* Fe_proofs.v -- structure of finite elements: slots, labels, bounds, index partition *)
From Coq Require Import Reals Qreals Lra.
From Verif Require Import Base Lib Sx Sx_proofs Utils Tableau Opts Model Ocp Problem Fo_proofs.

Lemma slot_eq_dec (a b : slot) : {a = b} + {a <> b}.
Proof. repeat decide equality. Qed.

Definition lookup (fe : felem) (sl : slot) : option (list nat) :=
  match sl with
  | SlotH => Some (ind_h fe)
  | Slot1 f st => nth_error (ind1 fe f) st
  | Slot2 f st sys => match nth_error (ind2 fe f) st with Some row => nth_error row sys | None => None end
  end.

Definition fams1 : list fam1 := [FX; FV; FZ].
Definition fams2 : list fam2 := [FTheta; FLam; FMu; FAlpha; FLn; FLp].

(* every index held by an element, family by family *)
Definition all_idx (fe : felem) : list nat :=
  ind_h fe ++ concat (map (fun f => concat (ind1 fe f)) fams1)
  ++ concat (map (fun f => concat (concat (ind2 fe f))) fams2)
  ++ concat (ind_bool (fo fe)).

Arguments all_idx : simpl never.
Arguments fams1 : simpl never.
Arguments fams2 : simpl never.

Definition same_shape (fe fe' : felem) : Prop :=
  (forall f, length (ind1 fe' f) = length (ind1 fe f)) /\
  (forall f, map (@length _) (ind2 fe' f) = map (@length _) (ind2 fe f)).

Record add_decl_post (fe : felem) (d : decl) (fe' : felem) : Prop := {
  ad_lb : length (dc_lb d) = length (dc_syms d);
  ad_ub : length (dc_ub d) = length (dc_syms d);
  ad_in : length (dc_init d) = length (dc_syms d);
  ad_w : w (fo fe') = w (fo fe) ++ dc_syms d;
  ad_lbw : lbw (fo fe') = lbw (fo fe) ++ dc_lb d;
  ad_ubw : ubw (fo fe') = ubw (fo fe) ++ dc_ub d;
  ad_w0 : w0 (fo fe') = w0 (fo fe) ++ dc_init d;
  ad_rest : g (fo fe') = g (fo fe) /\ lbg (fo fe') = lbg (fo fe) /\ ubg (fo fe') = ubg (fo fe) /\
            cost (fo fe') = cost (fo fe) /\ ind_comp (fo fe') = ind_comp (fo fe) /\
            ind_bool (fo fe') = ind_bool (fo fe) /\
            fe_ctrl fe' = fe_ctrl fe /\ fe_idx fe' = fe_idx fe /\ fe_h fe' = fe_h fe;
  ad_shape : same_shape fe fe';
  ad_slot : lookup fe' (dc_slot d) = Some (seq (length (w (fo fe))) (length (dc_syms d)));
  ad_other : forall sl, sl <> dc_slot d -> lookup fe' sl = lookup fe sl;
  ad_perm : lookup fe (dc_slot d) = Some [] ->
            Permutation (all_idx fe') (all_idx fe ++ seq (length (w (fo fe))) (length (dc_syms d)))
}.

Lemma fam1_eqb_refl f : fam1_eqb f f = true. Proof. apply fam1_eqb_eq; reflexivity. Qed.
Lemma fam2_eqb_refl f : fam2_eqb f f = true. Proof. apply fam2_eqb_eq; reflexivity. Qed.

Lemma map_updE_length {A} e (l : list (list A)) i a l' r :
  updE e l i a = Ok l' -> nth_error l i = Some r -> length a = length r ->
  map (@length _) l' = map (@length _) l.
Proof.
  intros H Hr Ha. destruct (updE_split _ _ _ _ _ H) as (l1 & x & l2 & -> & -> & Hl).
  rewrite nth_error_app2, Hl, Nat.sub_diag in Hr by lia. cbn in Hr. injection Hr as ->.
  rewrite !map_app; cbn; congruence.
Qed.

Ltac perm_solve :=
  repeat rewrite <- app_assoc; 
  match goal with |- Permutation ?a ?b => idtac end.

Lemma perm_concat_ins {A} (f : fam1 -> list A) (fam : fam1) (f' : fam1 -> list A) idx :
  (forall x, x <> fam -> f' x = f x) -> Permutation (f' fam) (f fam ++ idx) ->
  Permutation (concat (map f' fams1)) (concat (map f fams1) ++ idx).
Proof.
  intros Ho Hp. unfold fams1; cbn [map concat]. rewrite !app_nil_r.
  assert (C : forall x, Permutation (f' x) (if fam1_eqb fam x then f x ++ idx else f x)).
  { intros x. destruct (fam1_eqb fam x) eqn:E.
    - apply fam1_eqb_eq in E; subst; assumption.
    - rewrite Ho; [reflexivity|]. intros ->. rewrite fam1_eqb_refl in E; discriminate. }
  rewrite (C FX), (C FV), (C FZ). destruct fam; cbn [fam1_eqb];
  rewrite <- ?app_assoc; repeat (apply Permutation_app_head);
  try reflexivity; rewrite ?(app_assoc _ _ idx); 
  try (rewrite Permutation_app_comm; rewrite <- ?app_assoc; reflexivity);
  try (rewrite (Permutation_app_comm idx); rewrite <- ?app_assoc; reflexivity).
Qed.

Lemma perm_move {A} (a b c : list A) : Permutation ((a ++ c) ++ b) (a ++ b ++ c).
Proof. rewrite <- app_assoc. apply Permutation_app_head, Permutation_app_comm. Qed.

Lemma perm_concat_ins2 {A} (f f' : fam2 -> list A) (fam : fam2) idx :
  (forall x, x <> fam -> f' x = f x) -> Permutation (f' fam) (f fam ++ idx) ->
  Permutation (concat (map f' fams2)) (concat (map f fams2) ++ idx).
Proof.
  intros Ho Hp.
  assert (G : forall l, NoDup l -> In fam l -> Permutation (concat (map f' l)) (concat (map f l) ++ idx)).
  { induction l as [|x l IH]; intros HN Hin; [destruct Hin|]. inversion HN; subst.
    cbn [map concat]. destruct Hin as [->|Hin].
    - rewrite Hp. replace (map f' l) with (map f l).
      + rewrite <- app_assoc. rewrite <- app_assoc. apply Permutation_app_head, Permutation_app_comm.
      + apply map_ext_in. intros y Hy; symmetry; apply Ho. congruence.
    - rewrite Ho by congruence. rewrite <- app_assoc. apply Permutation_app_head. apply IH; assumption. }
  apply G.
  - unfold fams2. repeat constructor; cbn; intuition congruence.
  - unfold fams2; destruct fam; cbn; tauto.
Qed.

Lemma perm_concat_upd {A} e (l : list (list A)) i a l' :
  updE e l i a = Ok l' -> nth_error l i = Some [] -> Permutation (concat l') (concat l ++ a).
Proof.
  intros H Hr. destruct (updE_split _ _ _ _ _ H) as (l1 & x & l2 & -> & -> & Hl).
  rewrite nth_error_app2, Hl, Nat.sub_diag in Hr by lia. cbn in Hr. injection Hr as ->.
  rewrite !concat_app; cbn. rewrite <- app_assoc. apply Permutation_app_head, Permutation_app_comm.
Qed.

Lemma add_decl_spec fe d fe' : add_decl fe d = Ok fe' -> add_decl_post fe d fe'.
Proof.
  unfold add_decl; intros H. apply bind_ok in H; destruct H as ([f' idx] & Hv & H).
  apply add_variable_ok in Hv; destruct Hv as (L1 & L2 & L3 & Hi & Hf).
  destruct (dc_slot d) as [|fam st|fam st sys] eqn:Es.
  - injection H as <-. subst f' idx. split; cbn; try rewrite Es; auto.
    + repeat split.
    + split; reflexivity.
    + intros [|f s|f s y] Hne; cbn; congruence.
    + intros H0; injection H0 as H0. unfold all_idx; cbn [fo ind1 ind2 ind_h ind_bool]. rewrite H0; cbn.
      apply Permutation_app_comm.
  - apply bind_ok in H; destruct H as (l & Hl & H). injection H as <-. subst f' idx.
    destruct (updE_ok _ _ _ _ _ Hl) as (U1 & U2 & U3 & U4).
    split; cbn; try rewrite Es; auto.
    + repeat split.
    + split; [|reflexivity]. intros f; cbn. unfold set1. destruct (fam1_eqb fam f) eqn:E; [|reflexivity].
      apply fam1_eqb_eq in E; subst; assumption.
    + cbn. unfold set1; rewrite fam1_eqb_refl. assumption.
    + intros [|f s|f s y] Hne; cbn; try reflexivity. unfold set1.
      destruct (fam1_eqb fam f) eqn:E; [|reflexivity]. apply fam1_eqb_eq in E; subst.
      apply U4. congruence.
    + cbn. intros H0. unfold all_idx; cbn [fo ind1 ind2 ind_h ind_bool].
      rewrite (perm_concat_ins (fun f => concat (ind1 fe f)) fam
                 (fun f => concat (set1 (ind1 fe) fam l f)) (seq (length (w (fo fe))) (length (dc_syms d)))).
      * rewrite <- !app_assoc. apply Permutation_app_head. apply Permutation_app_head.
        set (F2 := concat (map _ fams2)). rewrite (app_assoc F2). apply Permutation_app_comm.
      * intros x Hx. unfold set1. destruct (fam1_eqb fam x) eqn:E; [|reflexivity].
        apply fam1_eqb_eq in E; congruence.
      * unfold set1; rewrite fam1_eqb_refl. eapply perm_concat_upd; eauto.
  - apply bind_ok in H; destruct H as (row & Hrow & H). apply nthE_ok in Hrow.
    apply bind_ok in H; destruct H as (row' & Hrow' & H).
    apply bind_ok in H; destruct H as (l & Hl & H). injection H as <-. subst f' idx.
    destruct (updE_ok _ _ _ _ _ Hl) as (U1 & U2 & U3 & U4).
    destruct (updE_ok _ _ _ _ _ Hrow') as (V1 & V2 & V3 & V4).
    split; cbn; try rewrite Es; auto.
    + repeat split.
    + split; [reflexivity|]. intros f; cbn. unfold set2. destruct (fam2_eqb fam f) eqn:E; [|reflexivity].
      apply fam2_eqb_eq in E; subst. eapply map_updE_length; eauto.
    + cbn. unfold set2; rewrite fam2_eqb_refl, U3, V3. reflexivity.
    + intros [|f s|f s y] Hne; cbn; try reflexivity. unfold set2.
      destruct (fam2_eqb fam f) eqn:E; [|reflexivity]. apply fam2_eqb_eq in E; subst f.
      destruct (Nat.eq_dec s st) as [->|Hs]; [|rewrite U4; auto].
      rewrite U3, Hrow. apply V4; congruence.
    + cbn. rewrite Hrow. intros H0. unfold all_idx; cbn [fo ind1 ind2 ind_h ind_bool].
      rewrite (perm_concat_ins2 (fun f => concat (concat (ind2 fe f)))
                 (fun f => concat (concat (set2 (ind2 fe) fam l f))) fam
                 (seq (length (w (fo fe))) (length (dc_syms d)))).
      * rewrite <- !app_assoc. do 3 apply Permutation_app_head. apply Permutation_app_comm.
      * intros x Hx. unfold set2. destruct (fam2_eqb fam x) eqn:E; [|reflexivity].
        apply fam2_eqb_eq in E; congruence.
      * unfold set2; rewrite fam2_eqb_refl.
        destruct (updE_split _ _ _ _ _ Hl) as (l1 & x & l2 & El & -> & Hlen).
        rewrite El in Hrow |- *. rewrite nth_error_app2, Hlen, Nat.sub_diag in Hrow by lia.
        cbn in Hrow. injection Hrow as ->.
        rewrite !concat_app; cbn. rewrite !concat_app.
        pose proof (perm_concat_upd _ _ _ _ _ Hrow' H0) as HP.
        rewrite HP. rewrite <- !app_assoc. do 2 apply Permutation_app_head. apply Permutation_app_comm.
Qed.

(* the effect of a list of declarations *)
Record decls_post (ds : list decl) (fe fe' : felem) : Prop := {
  dp_w : w (fo fe') = w (fo fe) ++ concat (map dc_syms ds);
  dp_lbw : lbw (fo fe') = lbw (fo fe) ++ concat (map dc_lb ds);
  dp_ubw : ubw (fo fe') = ubw (fo fe) ++ concat (map dc_ub ds);
  dp_w0 : w0 (fo fe') = w0 (fo fe) ++ concat (map dc_init ds);
  dp_lens : forall d, In d ds -> length (dc_lb d) = length (dc_syms d) /\
              length (dc_ub d) = length (dc_syms d) /\ length (dc_init d) = length (dc_syms d);
  dp_rest : g (fo fe') = g (fo fe) /\ lbg (fo fe') = lbg (fo fe) /\ ubg (fo fe') = ubg (fo fe) /\
            cost (fo fe') = cost (fo fe) /\ ind_comp (fo fe') = ind_comp (fo fe) /\
            ind_bool (fo fe') = ind_bool (fo fe) /\
            fe_ctrl fe' = fe_ctrl fe /\ fe_idx fe' = fe_idx fe /\ fe_h fe' = fe_h fe;
  dp_shape : same_shape fe fe';
  dp_other : forall sl, ~ In sl (map dc_slot ds) -> lookup fe' sl = lookup fe sl;
  dp_slot : wf_w (fo fe) -> NoDup (map dc_slot ds) ->
    forall d, In d ds -> exists idx, lookup fe' (dc_slot d) = Some idx /\
      sel (w (fo fe')) idx = Ok (dc_syms d) /\ sel (lbw (fo fe')) idx = Ok (dc_lb d) /\
      sel (ubw (fo fe')) idx = Ok (dc_ub d) /\ sel (w0 (fo fe')) idx = Ok (dc_init d);
  dp_perm : NoDup (map dc_slot ds) -> (forall d, In d ds -> lookup fe (dc_slot d) = Some []) ->
    Permutation (all_idx fe') (all_idx fe ++ seq (length (w (fo fe))) (length (concat (map dc_syms ds))))
}.

Lemma foldM_add_decl ds fe fe' : foldM add_decl ds fe = Ok fe' -> decls_post ds fe fe'.
Proof.
  revert fe; induction ds as [|d ds IH]; intros fe H; cbn [foldM] in H.
  - injection H as <-. split; cbn; rewrite ?app_nil_r; auto; try tauto.
    split; reflexivity.
  - apply bind_ok in H; destruct H as (fe1 & H1 & H). apply add_decl_spec in H1.
    pose proof (IH _ H) as P. clear IH H.
    destruct H1 as [A1 A2 A3 A4 A5 A6 A7 A8 A9 A10 A11 A12].
    destruct P as [B1 B2 B3 B4 B5 B6 B7 B8 B9 B10].
    split; cbn [map concat].
    + rewrite B1, A4, app_assoc; reflexivity.
    + rewrite B2, A5, app_assoc; reflexivity.
    + rewrite B3, A6, app_assoc; reflexivity.
    + rewrite B4, A7, app_assoc; reflexivity.
    + intros d' [<-|Hd]; auto.
    + destruct A8 as (? & ? & ? & ? & ? & ? & ? & ? & ?), B6 as (? & ? & ? & ? & ? & ? & ? & ? & ?).
      repeat split; congruence.
    + destruct A9, B7; split; intros; congruence.
    + intros sl Hsl. rewrite B8; [apply A11|]; intros Hc; apply Hsl; [left; congruence|right; auto].
    + intros Hw HN d' Hd'. inversion HN; subst.
      assert (Hw1 : wf_w (fo fe1)).
      { destruct Hw as (W1 & W2 & W3). unfold wf_w. rewrite A4, A5, A6, A7, !app_length. lia. }
      destruct Hd' as [<-|Hd']; [|apply B9; auto].
      exists (seq (length (w (fo fe))) (length (dc_syms d))).
      rewrite B8, A10 by assumption.
      rewrite B1, B2, B3, B4, A4, A5, A6, A7.
      destruct Hw as (W1 & W2 & W3).
      repeat split.
      * rewrite <- app_assoc. apply sel_seq.
      * rewrite <- W1, <- A1, <- app_assoc. apply sel_seq.
      * rewrite <- W2, <- A2, <- app_assoc. apply sel_seq.
      * rewrite <- W3, <- A3, <- app_assoc. apply sel_seq.
    + intros HN He. inversion HN; subst. rewrite B10; auto.
      * rewrite A12 by (apply He; left; reflexivity).
        rewrite A4, app_length, app_length, seq_app, <- app_assoc. reflexivity.
      * intros d' Hd'. rewrite A11; [apply He; right; assumption|].
        intros Hc. apply H1. rewrite <- Hc. apply in_map; assumption.
Qed.

Lemma add_decl_total fe d :
  length (dc_lb d) = length (dc_syms d) -> length (dc_ub d) = length (dc_syms d) ->
  length (dc_init d) = length (dc_syms d) -> lookup fe (dc_slot d) <> None ->
  exists fe', add_decl fe d = Ok fe'.
Proof.
  intros H1 H2 H3 H4. unfold add_decl. rewrite add_variable_total by assumption. cbn.
  destruct (dc_slot d) as [|fam st|fam st sys]; cbn in *; [eauto| |].
  - destruct (updE_total EIndexError (ind1 fe fam) st (seq (length (w (fo fe))) (length (dc_syms d)))) as [l Hl].
    { apply nth_error_Some; assumption. }
    rewrite Hl; cbn; eauto.
  - destruct (nth_error (ind2 fe fam) st) as [row|] eqn:Er; [|congruence].
    rewrite (nthE_Some _ _ _ _ Er); cbn.
    destruct (updE_total EIndexError row sys (seq (length (w (fo fe))) (length (dc_syms d)))) as [row' Hr].
    { apply nth_error_Some; assumption. }
    rewrite Hr; cbn.
    destruct (updE_total EIndexError (ind2 fe fam) st row') as [l Hl].
    { apply nth_error_Some; congruence. }
    rewrite Hl; cbn; eauto.
Qed.

Lemma foldM_add_decl_total ds fe :
  (forall d, In d ds -> length (dc_lb d) = length (dc_syms d) /\ length (dc_ub d) = length (dc_syms d) /\
     length (dc_init d) = length (dc_syms d) /\ lookup fe (dc_slot d) <> None) ->
  exists fe', foldM add_decl ds fe = Ok fe'.
Proof.
  revert fe; induction ds as [|d ds IH]; intros fe H; cbn; [eauto|].
  destruct (H d (or_introl eq_refl)) as (H1 & H2 & H3 & H4).
  destruct (add_decl_total fe d H1 H2 H3 H4) as [fe1 Hfe1]. rewrite Hfe1; cbn.
  apply IH. intros d' Hd'. destruct (H d' (or_intror Hd')) as (G1 & G2 & G3 & G4).
  repeat split; auto. apply add_decl_spec in Hfe1.
  destruct (slot_eq_dec (dc_slot d') (dc_slot d)) as [E|E].
  - rewrite E, (ad_slot _ _ _ Hfe1). discriminate.
  - rewrite (ad_other _ _ _ Hfe1) by assumption. assumption.
Qed.
