(* FeSel_proofs.v -- what the accessors of an element return *)
From Coq Require Import Reals Qreals Lra.
From Verif Require Import Base Lib Sx Sx_proofs Utils Tableau Opts Model Ocp Problem Fo_proofs Fe_proofs FeMake_proofs.

Definition lab1 (o : opts) (pm : pmodel) (c e : nat) (f : fam1) (j : nat) : list sym :=
  map (S1 f c e j) (seq 0 (sz1 o pm f)).
Definition lab2s (o : opts) (pm : pmodel) (c e : nat) (f : fam2) (j s : nat) : list sym :=
  map (S2 f c e j s) (seq 0 (fsz o pm f s)).
Definition lab2 (o : opts) (pm : pmodel) (c e : nat) (f : fam2) (j : nat) : list sym :=
  concat (map (lab2s o pm c e f j) (seq 0 (pm_nsys pm))).

Lemma vars_app a b : vars (a ++ b) = vars a ++ vars b.
Proof. apply map_app. Qed.
Lemma vars_length l : length (vars l) = length l.
Proof. apply map_length. Qed.

Section Sel.
Variables (o : opts) (t : tab) (pm : pmodel) (oc : pocp) (c e nfe : nat).
Notation ok := (fe_ok o t pm oc c e nfe).

Lemma ok_row fe f j : ok fe -> j < n2 o t nfe e f ->
  exists row, nth_error (ind2 fe f) j = Some row /\ length row = pm_nsys pm /\
    Forall2 (fun idx s => sel (w (fo fe)) idx = Ok s) row (map (lab2s o pm c e f j) (seq 0 (pm_nsys pm))).
Proof.
  intros K Hj. pose proof (ok_len2 _ _ _ _ _ _ _ _ K f) as Hl.
  assert (Hlen : length (ind2 fe f) = n2 o t nfe e f).
  { apply (f_equal (@length _)) in Hl. rewrite map_length, repeat_length in Hl. exact Hl. }
  destruct (nth_error_lt (ind2 fe f) j) as [row Hrow]; [lia|].
  assert (Hr : length row = pm_nsys pm).
  { assert (E : nth_error (map (@length _) (ind2 fe f)) j = Some (length row)) by (apply map_nth_error; assumption).
    rewrite Hl in E. rewrite nth_error_repeat' in E by assumption. congruence. }
  exists row; split; [assumption|split; [assumption|]].
  assert (G : forall s idx, nth_error row s = Some idx -> sel (w (fo fe)) idx = Ok (lab2s o pm c e f j s)).
  { intros s idx Hs. pose proof (nth_error_Some_lt _ _ _ Hs) as Hlt.
    destruct (ok_2 _ _ _ _ _ _ _ _ K f j s Hj) as (idx' & H1 & H2 & _); [lia|].
    cbn in H1. rewrite Hrow, Hs in H1. injection H1 as <-. exact H2. }
  clear - G Hr. rewrite <- Hr. apply Forall2_map_r.
  assert (H : forall l a, (forall s idx, nth_error l s = Some idx -> sel (w (fo fe)) idx = Ok (lab2s o pm c e f j (a + s))) ->
     Forall2 (fun idx s => sel (w (fo fe)) idx = Ok (lab2s o pm c e f j s)) l (seq a (length l))).
  { induction l as [|x l IH]; intros a Ha; cbn; constructor.
    - specialize (Ha 0 x eq_refl). rewrite Nat.add_0_r in Ha. exact Ha.
    - apply IH. intros s idx Hs. specialize (Ha (S s) idx Hs). rewrite Nat.add_succ_r in Ha. exact Ha. }
  apply H. cbn. exact G.
Qed.

Lemma ok_fam_sel fe f j : ok fe -> j < n2 o t nfe e f ->
  fam_sel fe f (At j) = Ok (vars (lab2 o pm c e f j)).
Proof.
  intros K Hj. destruct (ok_row fe f j K Hj) as (row & Hrow & _ & HF).
  unfold fam_sel, stg. rewrite (nthE_Some _ _ _ _ Hrow). cbn. unfold fe_sel.
  rewrite (sel_concat _ _ _ HF). reflexivity.
Qed.

Lemma ok_len2' fe f : ok fe -> length (ind2 fe f) = n2 o t nfe e f.
Proof.
  intros K. pose proof (ok_len2 _ _ _ _ _ _ _ _ K f) as Hl.
  apply (f_equal (@length _)) in Hl. rewrite map_length, repeat_length in Hl. exact Hl.
Qed.

Lemma fam_sel_last fe f k : length (ind2 fe f) = S k -> fam_sel fe f Last = fam_sel fe f (At k).
Proof. intros H. unfold fam_sel, stg. rewrite (lastE_last _ _ _ H). reflexivity. Qed.

Lemma fam_sel_err fe f j : length (ind2 fe f) <= j -> fam_sel fe f (At j) = Err EIndexError.
Proof.
  intros H. unfold fam_sel, stg, nthE. rewrite (proj2 (nth_error_None _ _) H). reflexivity.
Qed.

Definition lab_z (j : nat) : list sym :=
  lab2 o pm c e FTheta j ++ lab2 o pm c e FLam j ++ lab2 o pm c e FMu j ++ lab2 o pm c e FAlpha j
  ++ lab2 o pm c e FLn j ++ lab2 o pm c e FLp j ++ lab1 o pm c e FZ j.
Definition lab_lam (j : nat) : list sym :=
  lab2 o pm c e FLam j ++ lab2 o pm c e FLn j ++ lab2 o pm c e FLp j.
Definition ex_theta (j : nat) : list expr :=
  vars (lab2 o pm c e FTheta j) ++ vars (lab2 o pm c e FAlpha j)
  ++ map (fun a => EBin BSub (ECst 1) (EVar a)) (lab2 o pm c e FAlpha j).

Lemma ok_sel1 fe f j : ok fe -> j < n1 o t f ->
  exists idx, nth_error (ind1 fe f) j = Some idx /\ fe_sel fe idx = Ok (vars (lab1 o pm c e f j)).
Proof.
  intros K Hj. destruct (ok_1 _ _ _ _ _ _ _ _ K f j Hj) as (idx & H1 & H2 & _). exists idx.
  split; [exact H1|]. unfold fe_sel. rewrite H2. reflexivity.
Qed.

Lemma n2_ge f j : j < o_ns o -> j < n2 o t nfe e f.
Proof. destruct f; cbn; unfold nbd; lia. Qed.

Lemma ok_rk_stage_z fe j : ok fe -> j < o_ns o -> rk_stage_z fe (At j) = Ok (vars (lab_z j)).
Proof.
  intros K Hj. unfold rk_stage_z. rewrite !ok_fam_sel by (auto using n2_ge). cbn [bind].
  destruct (ok_sel1 fe FZ j K Hj) as (idx & H1 & H2). unfold stg. rewrite (nthE_Some _ _ _ _ H1). cbn [bind].
  rewrite H2. cbn [bind]. unfold lab_z. rewrite !vars_app. reflexivity.
Qed.

Lemma ok_Lambda fe j : ok fe -> j < nbd o t nfe e -> Lambda fe (At j) = Ok (vars (lab_lam j)).
Proof.
  intros K Hj. unfold Lambda. rewrite !ok_fam_sel by auto. cbn [bind]. unfold lab_lam. rewrite !vars_app. reflexivity.
Qed.

Lemma ok_Lambda_last fe : ok fe -> 0 < nbd o t nfe e ->
  Lambda fe Last = Ok (vars (lab_lam (nbd o t nfe e - 1))).
Proof.
  intros K Hj. unfold Lambda.
  rewrite !(fam_sel_last fe _ (nbd o t nfe e - 1)) by (rewrite (ok_len2' fe _ K); cbn; lia).
  change (Lambda fe (At (nbd o t nfe e - 1)) = Ok (vars (lab_lam (nbd o t nfe e - 1)))).
  apply ok_Lambda; [assumption|lia].
Qed.

Lemma ok_Theta fe j : ok fe -> j < o_ns o -> Theta fe (At j) = Ok (ex_theta j).
Proof.
  intros K Hj. unfold Theta. rewrite !ok_fam_sel by (auto using n2_ge). cbn [bind].
  unfold ex_theta, vars. rewrite map_map. reflexivity.
Qed.

Lemma ok_rk_stage_z_last fe : ok fe -> 0 < o_ns o ->
  rk_stage_z fe Last = Ok (vars (
    lab2 o pm c e FTheta (o_ns o - 1) ++ lab2 o pm c e FLam (nbd o t nfe e - 1)
    ++ lab2 o pm c e FMu (nbd o t nfe e - 1) ++ lab2 o pm c e FAlpha (o_ns o - 1)
    ++ lab2 o pm c e FLn (nbd o t nfe e - 1) ++ lab2 o pm c e FLp (nbd o t nfe e - 1)
    ++ lab1 o pm c e FZ (o_ns o - 1))).
Proof.
  intros K Hn. unfold rk_stage_z. assert (Hb : 0 < nbd o t nfe e) by (unfold nbd; lia).
  rewrite (fam_sel_last fe FTheta (o_ns o - 1)) by (rewrite (ok_len2' fe _ K); cbn; lia).
  rewrite (fam_sel_last fe FAlpha (o_ns o - 1)) by (rewrite (ok_len2' fe _ K); cbn; lia).
  rewrite (fam_sel_last fe FLam (nbd o t nfe e - 1)) by (rewrite (ok_len2' fe _ K); cbn; lia).
  rewrite (fam_sel_last fe FMu (nbd o t nfe e - 1)) by (rewrite (ok_len2' fe _ K); cbn; lia).
  rewrite (fam_sel_last fe FLn (nbd o t nfe e - 1)) by (rewrite (ok_len2' fe _ K); cbn; lia).
  rewrite (fam_sel_last fe FLp (nbd o t nfe e - 1)) by (rewrite (ok_len2' fe _ K); cbn; lia).
  rewrite !ok_fam_sel by (auto; cbn; lia). cbn [bind].
  unfold stg. rewrite (lastE_last _ _ (o_ns o - 1)) by (rewrite (ok_len1 _ _ _ _ _ _ _ _ K); cbn; lia).
  destruct (ok_sel1 fe FZ (o_ns o - 1) K) as (idx & H1 & H2); [cbn; lia|].
  rewrite (nthE_Some _ _ _ _ H1). cbn [bind]. rewrite H2. cbn [bind]. rewrite !vars_app. reflexivity.
Qed.

Definition xend_slot : nat := nx_slots o t - 1.

Lemma ok_x_last fe : ok fe -> 0 < nx_slots o t ->
  x_last fe = Ok (vars (lab1 o pm c e FX xend_slot)).
Proof.
  intros K Hn. unfold x_last, xend_slot.
  rewrite (lastE_last _ _ (nx_slots o t - 1)) by (rewrite (ok_len1 _ _ _ _ _ _ _ _ K); cbn; lia).
  destruct (ok_sel1 fe FX (nx_slots o t - 1) K) as (idx & H1 & H2); [cbn; lia|].
  rewrite (nthE_Some _ _ _ _ H1). exact H2.
Qed.

Lemma x_last_pos fe r : ok fe -> x_last fe = Ok r -> 0 < nx_slots o t.
Proof.
  intros K H. unfold x_last in H. inv_ok. apply lastE_ok in H0. destruct H0 as [l' H0].
  pose proof (ok_len1 _ _ _ _ _ _ _ _ K FX) as Hl. rewrite H0, app_length in Hl. cbn in Hl. lia.
Qed.

Lemma ok_Xf_lifted fe : ok fe -> o_repr o <> Differential ->
  forall prev, X_fe o t fe prev = Ok (map (fun j => vars (lab1 o pm c e FX j)) (seq 0 (nx_slots o t))).
Proof.
  intros K Hd prev.
  assert (H : mapM (fe_sel fe) (ind1 fe FX) = Ok (map (fun j => vars (lab1 o pm c e FX j)) (seq 0 (nx_slots o t)))).
  { apply mapM_Forall2. pose proof (ok_len1 _ _ _ _ _ _ _ _ K FX) as Hl. cbn in Hl.
    apply Forall2_map_r. rewrite <- Hl.
    assert (G : forall l a, (forall j idx, nth_error l j = Some idx -> fe_sel fe idx = Ok (vars (lab1 o pm c e FX (a + j)))) ->
      Forall2 (fun idx j => fe_sel fe idx = Ok (vars (lab1 o pm c e FX j))) l (seq a (length l))).
    { induction l as [|x l IH]; intros a Ha; cbn; constructor.
      - specialize (Ha 0 x eq_refl). rewrite Nat.add_0_r in Ha. exact Ha.
      - apply IH. intros j idx Hj. specialize (Ha (S j) idx Hj). rewrite Nat.add_succ_r in Ha. exact Ha. }
    apply G. intros j idx Hj. pose proof (nth_error_Some_lt _ _ _ Hj).
    destruct (ok_sel1 fe FX j K) as (idx' & H1 & H2); [cbn; lia|]. cbn in *. congruence. }
  unfold X_fe. destruct (o_repr o); [exact H|congruence|exact H].
Qed.

End Sel.

(* accessors do not see appended variables *)
Lemma fe_sel_le o fe fe' idx v : fe_le o fe fe' -> fe_sel fe idx = Ok v -> fe_sel fe' idx = Ok v.
Proof.
  intros (F & _) H. unfold fe_sel in *. inv_ok. rewrite (fo_le_sel _ _ _ _ _ _ F H0). cbn. congruence.
Qed.

(* ---- monotonicity of the three processing steps ---- *)
Section Mono.
Variables (o : opts) (t : tab) (pm : pmodel) (oc : pocp).

Lemma fe_add_constraint_le fe e lb ub f' :
  add_constraint (fo fe) e lb ub = Ok f' -> fe_le o fe (with_fo fe f').
Proof. intros H. apply with_fo_le. eapply add_constraint_le; eauto. Qed.

Lemma fe_comp_le fe x y fe' : fe_comp o fe x y = Ok fe' -> fe_le o fe fe'.
Proof.
  unfold fe_comp; intros H; inv_ok; subst. apply with_fo_le. eapply create_complementarity_le; eauto.
Qed.

Lemma fs_stage_le prev Uk sot Xf fe X j fe' X' :
  fs_stage o t pm oc prev Uk sot Xf (fe, X) j = Ok (fe', X') -> fe_le o fe fe'.
Proof.
  unfold fs_stage. intros H. destruct (o_repr o); inv_ok; subst.
  all: injection H as <- <- || idtac.
  all: apply with_fo_le, add_cost_le; eapply fo_le_trans; eapply add_constraint_le; eassumption.
Qed.

Lemma fs_stages_le prev Uk sot Xf l fe X fe' X' :
  foldM (fs_stage o t pm oc prev Uk sot Xf) l (fe, X) = Ok (fe', X') -> fe_le o fe fe'.
Proof.
  intros H.
  apply (foldM_le (fs_stage o t pm oc prev Uk sot Xf) (fun a b => fe_le o (fst a) (fst b))
    (fun a => fe_le_refl o (fst a)) (fun a b c => fe_le_trans o (fst a) (fst b) (fst c)) l) in H; [exact H|].
  intros [a1 a2] j [b1 b2] _ Hs. eapply fs_stage_le; eauto.
Qed.

Lemma lift_constraints_le fe prev fe' : lift_constraints o t fe prev = Ok fe' -> fe_le o fe fe'.
Proof.
  unfold lift_constraints. apply (foldM_le _ (fe_le o) (fe_le_refl o) (fe_le_trans o)).
  intros s a s' _ H; inv_ok; subst. eapply fe_add_constraint_le; eauto.
Qed.

Definition gpath (Xf : list (list expr)) (Uk P : list expr) (fe : felem) (j : nat) : res felem :=
  do* x <- nthE EIndexError Xf j;
  do* gq <- call (po_g_path_fun oc) [x; Uk; P; vgv pm];
  do* f' <- add_constraint (fo fe) gq (Some (po_lbg oc)) (Some (po_ubg oc));
  Ok (with_fo fe f').

Lemma gpath_le Xf Uk P fe j fe' : gpath Xf Uk P fe j = Ok fe' -> fe_le o fe fe'.
Proof. unfold gpath; intros H; inv_ok; subst. eapply fe_add_constraint_le; eauto. Qed.

(* forward_simulation cut into its consecutive parts *)
Record fs_parts (nfe : nat) (prev : felem) (Uk : list expr) (sot : expr) (fe fe' : felem) : Prop := {
  fp_ex : exists Xf xp fe0 X0 fe1 X1 fe2 fe3 fe4,
    let P := vars (pst pm (fe_ctrl fe)) in
    X_fe o t fe prev = Ok Xf /\ x_last prev = Ok xp /\
    match o_repr o with
    | Integral => fe0 = fe /\ exists d0, nth_error (t_D t) 0 = Some d0 /\ X0 = vscale (ECst d0) xp
    | Differential => fe0 = fe /\ X0 = xp
    | DifferentialLiftX => lift_constraints o t fe prev = Ok fe0 /\ X0 = xp
    end /\ fe_le o fe fe0 /\
    foldM (fs_stage o t pm oc prev Uk sot Xf) (seq 0 (o_ns o)) (fe0, X0) = Ok (fe1, X1) /\
    fe_le o fe0 fe1 /\
    (if has_xend o t
     then exists xe e f', x_last fe1 = Ok xe /\ vbin BSub X1 xe = Ok e /\
          add_constraint (fo fe1) e None None = Ok f' /\ fe2 = with_fo fe1 f'
     else fe2 = fe1) /\ fe_le o fe1 fe2 /\
    (if (fe_idx fe =? nfe - 1) || o_g_path_at_fe o
     then gpath Xf Uk P fe2 (o_ns o + (if t_rbe t then 0 else 1) - 1) = Ok fe3
     else fe3 = fe2) /\ fe_le o fe2 fe3 /\
    (if o_g_path_at_stg o
     then foldM (gpath Xf Uk P) (seq 0 (o_ns o - (if t_rbe t then 1 else 0))) fe3 = Ok fe4
     else fe4 = fe3) /\ fe_le o fe3 fe4 /\
    (if negb (t_rbe t) && o_use_fesd o
     then exists xe z gs f', x_last fe4 = Ok xe /\ rk_stage_z fe4 Last = Ok z /\
          call (pm_gsw_fun pm) [xe; z; Uk; P] = Ok gs /\
          add_constraint (fo fe4) gs None None = Ok f' /\ fe' = with_fo fe4 f'
     else fe' = fe4) /\ fe_le o fe4 fe'
}.

Lemma forward_simulation_parts nfe prev Uk sot fe fe' :
  forward_simulation o t pm oc nfe prev Uk sot fe = Ok fe' -> fs_parts nfe prev Uk sot fe fe'.
Proof.
  unfold forward_simulation. intros H. split.
  apply bind_ok in H; destruct H as (Xf & HX & H).
  apply bind_ok in H; destruct H as (xp & Hxp & H).
  apply bind_ok in H; destruct H as ([fe0 X0] & Hi & H).
  apply bind_ok in H; destruct H as ([fe1 X1] & Hs & H).
  apply bind_ok in H; destruct H as (fe2 & H2 & H).
  apply bind_ok in H; destruct H as (fe3 & H3 & H).
  apply bind_ok in H; destruct H as (fe4 & H4 & H).
  exists Xf, xp, fe0, X0, fe1, X1, fe2, fe3, fe4. cbn zeta.
  split; [assumption|]. split; [assumption|].
  split; [|split; [|split; [exact Hs|split; [eapply fs_stages_le; exact Hs|]]]].
  - destruct (o_repr o); inv_ok; subst.
    + apply nthE_ok in H0. eauto.
    + auto.
    + auto.
  - destruct (o_repr o); inv_ok; subst; try apply fe_le_refl. eapply lift_constraints_le; eauto.
  - split; [|split; [|split; [|split; [|split; [|split; [|split]]]]]].
    + destruct (has_xend o t); inv_ok; subst; [|congruence]. do 3 eexists; eauto.
    + destruct (has_xend o t); inv_ok; subst; [|apply fe_le_refl]. eapply fe_add_constraint_le; eauto.
    + destruct (_ || _); [exact H3|inv_ok; congruence].
    + destruct (_ || _); [eapply gpath_le; exact H3|inv_ok; subst; apply fe_le_refl].
    + destruct (o_g_path_at_stg o); [exact H4|inv_ok; congruence].
    + destruct (o_g_path_at_stg o); [|inv_ok; subst; apply fe_le_refl].
      apply (foldM_le (gpath Xf Uk (vars (pst pm (fe_ctrl fe)))) (fe_le o) (fe_le_refl o) (fe_le_trans o)) in H4; [exact H4|].
      intros s a s' _ Hg; eapply gpath_le; eauto.
    + destruct (_ && _); inv_ok; subst; [|congruence]. do 4 eexists; eauto.
    + destruct (_ && _); inv_ok; subst; [|apply fe_le_refl]. eapply fe_add_constraint_le; eauto.
Qed.

Lemma forward_simulation_le nfe prev Uk sot fe fe' :
  forward_simulation o t pm oc nfe prev Uk sot fe = Ok fe' -> fe_le o fe fe'.
Proof.
  intros H; apply forward_simulation_parts in H.
  destruct H as [(Xf & xp & fe0 & X0 & fe1 & X1 & fe2 & fe3 & fe4 & _ & _ & _ & L0 & _ & L1 & _ & L2 & _ & L3 & _ & L4 & _ & L5)].
  repeat (eapply fe_le_trans; [eassumption|]). apply fe_le_refl.
Qed.

Lemma create_complementarity_constraints_le prev Uk fe fe' :
  create_complementarity_constraints o t pm oc prev Uk fe = Ok fe' -> fe_le o fe fe'.
Proof.
  unfold create_complementarity_constraints. intros H.
  apply bind_ok in H; destruct H as (Xf & HX & H).
  apply bind_ok in H; destruct H as (fe1 & H1 & H).
  apply bind_ok in H; destruct H as (fe2 & H2 & H).
  assert (L1 : fe_le o fe fe1).
  { revert H1. apply (foldM_le _ (fe_le o) (fe_le_refl o) (fe_le_trans o)).
    intros s a s' _ Hs; inv_ok. eapply fe_comp_le; eauto. }
  assert (L2 : fe_le o fe1 fe2).
  { destruct (_ =? _); inv_ok; subst; [eapply fe_comp_le; eauto|apply fe_le_refl]. }
  eapply fe_le_trans; [eassumption|]. eapply fe_le_trans; [eassumption|].
  destruct (negb (o_use_fesd o)); [|destruct (o_cross o)]; revert H;
  apply (foldM_le _ (fe_le o) (fe_le_refl o) (fe_le_trans o)); intros s a s' _ Hs; inv_ok.
  - eapply fe_comp_le; eauto.
  - eapply fe_le_trans; [eapply fe_comp_le; eassumption|].
    match goal with H : foldM _ _ _ = Ok s' |- _ => revert H end.
    apply (foldM_le _ (fe_le o) (fe_le_refl o) (fe_le_trans o)).
    intros s1 b s2 _ Hs2; inv_ok. eapply fe_comp_le; eauto.
  - eapply fe_comp_le; eauto.
Qed.

Lemma fe_add_cost_le fe e : fe_le o fe (with_fo fe (add_cost (fo fe) e)).
Proof. apply with_fo_le, add_cost_le, fo_le_refl. Qed.

Lemma step_equilibration_le nfe pprev prev fe fe' :
  step_equilibration o nfe pprev prev fe = Ok fe' -> fe_le o fe fe'.
Proof.
  unfold step_equilibration. intros H.
  destruct (negb (o_use_fesd o)); [inv_ok; subst; apply fe_le_refl|].
  destruct (o_step_eq o); [inv_ok; subst; apply fe_add_cost_le|..];
  (destruct (fe_idx fe =? 0); [inv_ok; subst; apply fe_le_refl|]);
  inv_ok; subst; try apply fe_add_cost_le; try (eapply fe_comp_le; eassumption).
  eapply fe_add_constraint_le; eauto.
Qed.
End Mono.
