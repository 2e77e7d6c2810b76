(* Body_proofs.v -- the constructed problem: elements, constraints, bounds, cost *)
From Coq Require Import Reals Qreals Lra.
From Verif Require Import Base Lib Sx Sx_proofs Utils Tableau Opts Model Ocp Problem Fo_proofs Fe_proofs
  FeMake_proofs FeSel_proofs FeZero_proofs Prob_proofs Coll_proofs.

(* ---- cost bookkeeping ---- *)
Section Cost.
Variables (o : opts) (t : tab) (pm : pmodel) (oc : pocp).

Lemma add_constraint_cost f e lb ub f' : add_constraint f e lb ub = Ok f' -> cost f' = cost f.
Proof. intros H. apply add_constraint_ok in H. destruct H as [[_ ->]|(_ & _ & _ & ->)]; reflexivity. Qed.

Definition fcost (rho : env) (fe : felem) : R := eval rho (cost (fo fe)).

Lemma process_fold_cost nfe Uk sot l : forall f pp p done ic f' pp' p' done' ic',
  foldM (process_fe o t pm oc nfe Uk sot) l (f, pp, p, done, ic) = Ok (f', pp', p', done', ic') ->
  exists ds, done' = done ++ ds /\
  forall rho, eval rho (cost f') = (eval rho (cost f) + Rsum (map (fcost rho) ds))%R.
Proof.
  induction l as [|s l IH]; intros f pp p done ic f' pp' p' done' ic' H; cbn [foldM] in H.
  - injection H as <- <- <- <- <-. exists []. rewrite app_nil_r. split; [reflexivity|]. intros; cbn; lra.
  - apply bind_ok in H. destruct H as (r1 & H1 & H). unfold process_fe in H1.
    apply bind_ok in H1; destruct H1 as (fe1 & F1 & H1).
    apply bind_ok in H1; destruct H1 as (fe2 & F2 & H1).
    apply bind_ok in H1; destruct H1 as (fe3 & F3 & H1).
    apply bind_ok in H1; destruct H1 as (f2 & F4 & H1). injection H1 as <-.
    apply IH in H. destruct H as (ds & -> & Hc). exists (fe3 :: ds). rewrite <- app_assoc. split; [reflexivity|].
    intros rho. rewrite Hc. apply add_constraint_cost in F4. rewrite F4. cbn. unfold fcost at 2. lra.
Qed.

Lemma process_stages_cost P l : forall f pp p done ics f' pp' p' done' ics',
  foldM (process_stage o t pm oc P) l (f, pp, p, done, ics) = Ok (f', pp', p', done', ics') ->
  exists es, done' = done ++ es /\
  forall rho, eval rho (cost f') = (eval rho (cost f) + Rsum (map (fcost rho) (concat es)))%R.
Proof.
  induction l as [|[c st] l IH]; intros f pp p done ics f' pp' p' done' ics' H; cbn [foldM] in H.
  - injection H as <- <- <- <- <-. exists []. rewrite app_nil_r. split; [reflexivity|]. intros; cbn; lra.
  - apply bind_ok in H. destruct H as (r1 & H1 & H). unfold process_stage in H1.
    apply bind_ok in H1; destruct H1 as (iu & E1 & H1).
    apply bind_ok in H1; destruct H1 as (Us & E2 & H1).
    apply bind_ok in H1; destruct H1 as (sot & E3 & H1).
    apply bind_ok in H1; destruct H1 as (nfe & E4 & H1).
    apply bind_ok in H1; destruct H1 as ([[[[f1 pp1] p1] fes] ic] & E5 & H1).
    apply bind_ok in H1; destruct H1 as (f2 & E6 & H1).
    apply bind_ok in H1; destruct H1 as (f3 & E7 & H1). injection H1 as <-.
    apply IH in H. destruct H as (es & -> & Hc). exists (fes :: es). rewrite <- app_assoc. split; [reflexivity|].
    apply process_fold_cost in E5. destruct E5 as (ds & -> & Hc1). cbn [app].
    assert (C2 : cost f2 = cost f1).
    { destruct (_ && _); [eapply add_constraint_cost; eauto|congruence]. }
    assert (C3 : cost f3 = cost f2).
    { destruct (o_time_freezing o && o_equidistant o).
      - inv_ok. eapply add_constraint_cost; eauto.
      - congruence. }
    intros rho. rewrite Hc, C3, C2, Hc1. cbn. rewrite map_app, Rsum_app. lra.
Qed.
End Cost.

Lemma add_constraint_comp_cost f e lb ub f' : add_constraint_comp f e lb ub = Ok f' -> cost f' = cost f.
Proof.
  intros H. apply add_constraint_comp_ok in H. destruct H as (f1 & ic & H & ->).
  cbn. eapply add_constraint_cost; eauto.
Qed.

Lemma create_complementarity_cost o z f x y f' : create_complementarity o z f x y = Ok f' -> cost f' = cost f.
Proof.
  unfold create_complementarity. intros H. destruct (o_mpcc o);
  try (inv_ok; eapply add_constraint_comp_cost; eassumption).
  - destruct x as [|x1 [|x2 x]]; try discriminate. inv_ok. eapply add_constraint_comp_cost; eassumption.
  - apply bind_ok in H. destruct H as ([f1 idx] & Hv & H). apply add_variable_ok in Hv.
    destruct Hv as (_ & _ & _ & _ & ->). inv_ok. match goal with H : add_constraint_comp _ _ _ _ = Ok _ |- _ => apply add_constraint_comp_cost in H; exact H end.
Qed.

(* ---- neighbours ---- *)
Definition prev_pos (nfes : list nat) (c e : nat) : option (nat * nat) :=
  match e, c with
  | S e', _ => Some (c, e')
  | O, O => None
  | O, S c' => Some (c', nth c' nfes 0 - 1)
  end.

Section Body.
Variables (o : opts) (t : tab) (pm : pmodel) (oc : pocp).
Notation nfes := (o_Nfe_list o).

Definition is_elem (pos : option (nat * nat)) (q : felem) : Prop :=
  match pos with
  | None => fe0_ok o pm q
  | Some (c, e) => exists nfe, nth_error nfes c = Some nfe /\ e < nfe /\ fe_ok o t pm oc c e nfe q
  end.

(* an element of the constructed problem *)
Definition elem_of (stages : list (list felem)) (c e nfe : nat) (qq q s fe : felem) : Prop :=
  fe_make o t pm oc c e nfe = Ok s /\
  fsteps o t pm oc nfe (vars (ulab pm c)) (sotex o c) qq q s fe /\
  (exists st, nth_error stages c = Some st /\ nth_error st e = Some fe) /\
  is_elem (prev_pos nfes c e) q /\
  match prev_pos nfes c e with
  | Some (c', e') => exists st, nth_error stages c' = Some st /\ nth_error st e' = Some q
  | None => True end /\
  (e <> 0 -> is_elem (prev_pos nfes c (e - 1)) qq).

Record body_ok (P : prob) (stages : list (list felem)) (lastfe : felem) (f1 : fobj) : Prop := {
  bo_N : 0 < o_N_stages o;
  bo_prim : exists P0 pp pq,
      primal_ok o t pm oc P0 /\ le_g_only o (pb P0) f1 /\ wf_f f1 /\
      schain o t pm oc P0 0 (p_fe0 P0) (p_fe0 P0) (p_stages P0) stages lastfe f1 /\
      foldM (process_stage o t pm oc P0) (combine (seq 0 (length (p_stages P0))) (p_stages P0))
             (pb P0, p_fe0 P0, p_fe0 P0, [], []) = Ok (f1, pp, lastfe, stages, pq) /\
      p_p P = p_p P0 /\ p_fe0 P = p_fe0 P0 /\ p_ind_u P = p_ind_u P0 /\ p_ind_sot P = p_ind_sot P0 /\
      p_ind_vg P = p_ind_vg P0 /\ p_ind_el P = p_ind_el P0 /\ p_stages P = stages;
  bo_rest : exists P0 f2 cvs xT gT fT1 f3 f6 Pc,
      primal_ok o t pm oc P0 /\ p_p P = p_p P0 /\ p_fe0 P = p_fe0 P0 /\
      global_compl o pm oc P0 f1 = Ok f2 /\
      mapM (fun q => get_complementarity_vector o (fst q) (snd q))
                  (with_prev (p_fe0 P0) (all_fes stages)) = Ok cvs /\
      emax (concat cvs) = Ok (p_J_comp P) /\
      x_last lastfe = Ok xT /\
      call (po_gT_fun oc) [xT; vars (pst pm (o_N_stages o - 1)); vgv pm] = Ok gT /\
      add_constraint f2 gT None None = Ok f3 /\
      call (po_fT_fun oc) [xT; vars (pst pm (o_N_stages o - 1)); vgv pm] = Ok [fT1] /\
      cost f6 = (let c4 := EBin BAdd (cost f3) fT1 in
                 if is_elastic (o_mpcc o)
                 then if o_obj_direct o
                      then EBin BAdd c4 (EBin BMul (EBin BDiv (ECst 1) (EVar SSigma)) (EVar SElastic))
                      else EBin BAdd (EBin BMul (EVar SSigma) c4) (EVar SElastic)
                 else c4) /\
      le_g_only o f3 f6 /\
      ((1 <? o_N_stages o) && o_use_fesd o && negb (o_equidistant o) = true ->
        In (EBin BSub (esum (map fe_h (concat stages))) (ECst (o_terminal_time o)), (Fin 0, Fin 0)) (cons f6)) /\
      pb Pc = f6 /\ collected Pc stages P /\
      (forall f, p_ind1 Pc f = []) /\ (forall f, p_ind2 Pc f = []) /\ p_ind_x_cont Pc = [] /\
      p_ind_bool Pc = [] /\ p_ind_h Pc = [];
  bo_end : exists P0 f2 xT gT f3 f5 f6,
      primal_ok o t pm oc P0 /\ global_compl o pm oc P0 f1 = Ok f2 /\ x_last lastfe = Ok xT /\
      call (po_gT_fun oc) [xT; vars (pst pm (o_N_stages o - 1)); vgv pm] = Ok gT /\
      add_constraint f2 gT None None = Ok f3 /\
      g f5 = g f3 /\ lbg f5 = lbg f3 /\ ubg f5 = ubg f3 /\ wf_f f5 /\
      (if (1 <? o_N_stages o) && o_use_fesd o && negb (o_equidistant o)
       then add_constraint f5 [EBin BSub (esum (map fe_h (concat stages))) (ECst (o_terminal_time o))] None None
       else Ok f5) = Ok f6 /\
      g (pb P) = g f6 /\ lbg (pb P) = lbg f6 /\ ubg (pb P) = ubg f6;
  bo_comp : exists P0 pp,
      primal_ok o t pm oc P0 /\
      foldM (process_stage o t pm oc P0) (combine (seq 0 (length (p_stages P0))) (p_stages P0))
             (pb P0, p_fe0 P0, p_fe0 P0, [], []) = Ok (f1, pp, lastfe, stages, p_ind_comp P)
}.

Lemma stage_created_wf c fes s : stage_created o t pm oc c fes -> In s fes -> wf_f (fo s).
Proof.
  intros (nfe & _ & _ & H) Hs. destruct (mapM_In_inv _ _ _ _ H Hs) as (e & _ & He).
  apply fe_make_ok in He. apply (ok_wf _ _ _ _ _ _ _ _ He).
Qed.

Lemma problem_body_ok P : problem_body o t pm oc = Ok P ->
  exists stages lastfe f1, body_ok P stages lastfe f1.
Proof.
  unfold problem_body. intros H.
  apply bind_ok in H; destruct H as (u & Hn & H). apply guard_ok in Hn.
  apply bind_ok in H; destruct H as (P0 & HP0 & H).
  apply bind_ok in H; destruct H as ([[[[f1 pp] lastfe] stages] ics] & Hf & H).
  apply bind_ok in H; destruct H as (f2 & Hf2 & H).
  apply bind_ok in H; destruct H as (cvs & Hcv & H).
  apply bind_ok in H; destruct H as (J & HJ & H).
  apply bind_ok in H; destruct H as (xT & HxT & H).
  apply bind_ok in H; destruct H as (gT & HgT & H).
  apply bind_ok in H; destruct H as (f3 & Hf3 & H).
  apply bind_ok in H; destruct H as (fT & HfT & H).
  apply bind_ok in H; destruct H as (fT1 & HfT1 & H). apply head1_ok in HfT1. subst fT.
  apply bind_ok in H; destruct H as (f6 & Hf6 & H).
  unfold collect_finite_elements in H. apply collect_stages in H. cbn [p_stages] in H.
  pose proof (create_primal_ok _ _ _ _ _ HP0) as K.
  assert (Hn' : 0 < o_N_stages o) by (destruct (o_N_stages o); [discriminate|lia]).
  exists stages, lastfe, f1. pose proof (cl_rest _ _ _ H) as (R1 & R2 & R3 & R4 & R5 & R6 & R7 & R8 & R9).
  cbn [p_p p_ind_comp p_ind_u p_ind_sot p_ind_vg p_ind_el p_stages p_fe0 p_J_comp] in *.
  assert (Hf' := Hf).
  apply process_stages in Hf'; [|exact K|apply (pk_wf _ _ _ _ _ K)|rewrite (pk_stages _ _ _ _ _ K); lia|].
  2:{ intros st s Hst Hs. apply In_nth_error in Hst. destruct Hst as [c Hc].
      pose proof (nth_error_Some_lt _ _ _ Hc) as Hlt. rewrite (pk_stages _ _ _ _ _ K) in Hlt.
      destruct (pk_stage _ _ _ _ _ K c Hlt) as (fes & E & Hcr). rewrite Hc in E. injection E as <-.
      eapply stage_created_wf; eauto. }
  destruct Hf' as (f1' & pp' & p' & es & ics' & E & Sc & L & W). injection E as <- <- <- -> <-.
  cbn [app] in *.
  split.
  - exact Hn'.
  - exists P0, pp, ics. split; [exact K|]. split; [exact L|]. split; [exact W|]. split; [exact Sc|]. split; [exact Hf|]. auto 12.
  - exists P0, f2, cvs, xT, gT, fT1, f3, f6.
    exists (mkProb f6 (p_p P0) (p_ind1 P0) (p_ind_x_cont P0) (p_ind2 P0) (p_ind_bool P0) ics (p_ind_h P0)
            (p_ind_u P0) (p_ind_sot P0) (p_ind_vg P0) (p_ind_el P0) es (p_fe0 P0) J).
    destruct (pk_empty _ _ _ _ _ K) as (M1 & M2 & M3 & M4 & M5 & M6).
    set (f5 := if is_elastic (o_mpcc o) then _ else _) in Hf6.
    assert (L5 : le_g_only o f3 f5).
    { unfold f5. destruct (is_elastic (o_mpcc o)); [destruct (o_obj_direct o)|].
      - eapply le_g_only_trans; apply add_cost_gonly.
      - split; [|cbn; auto 10]. split; cbn.
        + exists []; cbn; rewrite !app_nil_r; repeat split; auto.
          exists []; cbn; rewrite app_nil_r; repeat split; auto. intros x [].
        + auto.
        + exists [], [], []; rewrite !app_nil_r; auto.
      - apply add_cost_gonly. }
    assert (L6 : le_g_only o f5 f6).
    { destruct (_ && _); [eapply add_constraint_gonly; eauto|]. injection Hf6 as <-. apply le_g_only_refl. }
    assert (W5 : wf_f f5).
    { eapply fo_le_wf; [exact (proj1 L5)|]. apply (add_constraint_le o SBoolG) in Hf3.
      eapply fo_le_wf; [exact Hf3|]. unfold global_compl in Hf2. inv_ok.
      eapply fo_le_wf; [eapply create_complementarity_le; eassumption|]. exact W. }
    split; [exact K|]. split; [assumption|]. split; [assumption|]. split; [assumption|].
    split; [assumption|]. split; [rewrite R9; assumption|]. split; [assumption|]. split; [assumption|].
    split; [assumption|]. split; [assumption|].
    split.
    { transitivity (cost f5).
      - destruct (_ && _); [eapply add_constraint_cost; eauto|]. injection Hf6 as <-. reflexivity.
      - unfold f5. destruct (is_elastic (o_mpcc o)); [destruct (o_obj_direct o)|]; reflexivity. }
    split; [eapply le_g_only_trans; eauto|].
    split.
    { intros Hq. destruct (_ && negb (o_equidistant o)); [|discriminate].
      eapply add_constraint_eq_in; [exact Hf6|exact W5|]. left; reflexivity. }
    split; [reflexivity|]. split; [exact H|]. cbn. auto 10.
  - set (f5 := if is_elastic (o_mpcc o) then _ else _) in Hf6.
    exists P0, f2, xT, gT, f3, f5, f6.
    assert (G5 : g f5 = g f3 /\ lbg f5 = lbg f3 /\ ubg f5 = ubg f3 /\ w f5 = w f3 /\ lbw f5 = lbw f3 /\ ubw f5 = ubw f3 /\ w0 f5 = w0 f3).
    { unfold f5. destruct (is_elastic (o_mpcc o)); [destruct (o_obj_direct o)|]; repeat split; reflexivity. }
    destruct G5 as (Q1 & Q2 & Q3 & Q4 & Q5 & Q6 & Q7).
    assert (W5 : wf_f f5).
    { assert (W3 : wf_f f3).
      { apply (add_constraint_le o SBoolG) in Hf3.
        eapply fo_le_wf; [exact Hf3|]. unfold global_compl in Hf2. inv_ok.
        eapply fo_le_wf; [eapply create_complementarity_le; eassumption|]. exact W. }
      destruct W3 as [W3 W4]. split; [unfold wf_w in *; rewrite Q4, Q5, Q6, Q7; exact W3|unfold wf_g in *; rewrite Q1, Q2, Q3; exact W4]. }
    pose proof (cl_f _ _ _ H) as (_ & _ & _ & _ & A5 & A6 & A7 & _). cbn [pb] in A5, A6, A7.
    split; [exact K|]. split; [exact Hf2|]. split; [exact HxT|]. split; [exact HgT|]. split; [exact Hf3|].
    split; [exact Q1|]. split; [exact Q2|]. split; [exact Q3|]. split; [exact W5|]. split; [exact Hf6|]. auto.
  - exists P0, pp. split; [exact K|]. rewrite R2. exact Hf.
Qed.

(* ---- consequences ---- *)
Section Facts.
Variables (P : prob) (stages : list (list felem)) (lastfe : felem) (f1 : fobj).
Hypothesis B : body_ok P stages lastfe f1.

Lemma stages_length : length stages = o_N_stages o.
Proof.
  destruct (bo_prim _ _ _ _ B) as (P0 & pp & pq & K & _ & _ & Sc & _).
  rewrite (schain_length _ _ _ _ _ _ _ _ _ _ _ _ Sc). apply (pk_stages _ _ _ _ _ K).
Qed.

Lemma get_stage c : c < o_N_stages o ->
  exists P0 nfe starts ends qq q pp' p',
    primal_ok o t pm oc P0 /\ p_fe0 P = p_fe0 P0 /\
    nth_error nfes c = Some nfe /\ 0 < nfe /\ nth_error stages c = Some ends /\ length ends = nfe /\
    (forall e, e < nfe -> exists s, nth_error starts e = Some s /\ fe_make o t pm oc c e nfe = Ok s) /\
    pchain o t pm oc nfe (vars (ulab pm c)) (sotex o c) qq q starts ends pp' p' /\
    (forall fe, In fe ends -> cons_in fe f1) /\ stage_extra o pm P0 c ends f1 /\
    match c with
    | 0 => q = p_fe0 P
    | S c' => exists prev, nth_error stages c' = Some prev /\ (forall n, length prev = S n -> nth_error prev n = Some q)
    end.
Proof.
  intros Hc. destruct (bo_prim _ _ _ _ B) as (P0 & pp & pq & K & L & W & Sc & _ & _ & Ef & _).
  destruct (pk_stage _ _ _ _ _ K c Hc) as (starts & Hst & nfe & Hnfe & Hpos & Hm).
  destruct (schain_nth _ _ _ _ _ _ _ _ _ _ _ _ Sc c starts Hst)
    as (nfe' & ends & q & qq & pp' & p' & H1 & H2 & H3 & H4 & H5 & H6). cbn in H2, H3, H5.
  rewrite Hnfe in H2. injection H2 as <-.
  exists P0, nfe, starts, ends, qq, q, pp', p'.
  split; [exact K|]. split; [exact Ef|]. split; [exact Hnfe|]. split; [exact Hpos|]. split; [exact H1|].
  split; [|split; [|split; [exact H3|split; [exact H4|split; [exact H5|]]]]].
  - rewrite (pchain_length _ _ _ _ _ _ _ _ _ _ _ _ _ H3). rewrite (mapM_length _ _ _ Hm), seq_length. reflexivity.
  - intros e He. assert (Hse : nth_error (seq 0 nfe) e = Some e) by (rewrite nth_error_seq by assumption; reflexivity).
    destruct (mapM_nth _ _ _ _ _ Hm Hse) as (s & Hs1 & Hs2). eauto.
  - destruct c; [destruct H6; congruence|exact H6].
Qed.

Lemma elem_fe_ok c e nfe s fe qq q :
  fe_make o t pm oc c e nfe = Ok s -> fsteps o t pm oc nfe (vars (ulab pm c)) (sotex o c) qq q s fe ->
  fe_ok o t pm oc c e nfe fe.
Proof. intros H1 H2. eapply fe_ok_le; [apply fe_make_ok; exact H1|]. eapply fsteps_le; eauto. Qed.

Lemma get_fe_ok c e nfe st fe : nth_error stages c = Some st -> nth_error st e = Some fe ->
  nth_error nfes c = Some nfe -> fe_ok o t pm oc c e nfe fe /\ e < nfe.
Proof.
  intros Hst Hfe Hn. pose proof (nth_error_Some_lt _ _ _ Hst) as Hc. rewrite stages_length in Hc.
  destruct (get_stage c Hc) as (P0 & nfe' & starts & ends & qq & q & pp' & p' & K & Ef & H1 & H2 & H3 & H4 & H5 & H6 & _).
  rewrite Hst in H3. injection H3 as <-. rewrite Hn in H1. injection H1 as <-.
  pose proof (nth_error_Some_lt _ _ _ Hfe) as He. rewrite H4 in He. split; [|assumption].
  destruct (H5 e He) as (s & Hs & Hmk).
  destruct (pchain_nth _ _ _ _ _ _ _ _ _ _ _ _ _ H6 e s Hs) as (fe' & q' & qq' & E1 & E2 & E3 & E4).
  rewrite Hfe in E1. injection E1 as <-. eapply elem_fe_ok; eauto.
Qed.

Lemma fe0_is : fe0_ok o pm (p_fe0 P).
Proof.
  destruct (bo_prim _ _ _ _ B) as (P0 & pp & pq & K & _ & _ & _ & _ & _ & Ef & _).
  rewrite Ef. apply (pk_fe0 _ _ _ _ _ K).
Qed.

Lemma get_elem c nfe e : c < o_N_stages o -> nth_error nfes c = Some nfe -> e < nfe ->
  exists qq q s fe, elem_of stages c e nfe qq q s fe /\ fe_ok o t pm oc c e nfe fe /\ cons_in fe f1.
Proof.
  intros Hc Hn He.
  destruct (get_stage c Hc) as (P0 & nfe' & starts & ends & qq & q & pp' & p' & K & Ef & H1 & H2 & H3 & H4 & H5 & H6 & H7 & H8 & H9).
  rewrite Hn in H1. injection H1 as <-.
  destruct (H5 e He) as (s & Hs & Hmk).
  destruct (pchain_nth _ _ _ _ _ _ _ _ _ _ _ _ _ H6 e s Hs) as (fe & q' & qq' & E1 & E2 & E3 & E4).
  assert (Q : is_elem (prev_pos nfes c 0) q /\
     match prev_pos nfes c 0 with
     | Some (c', e') => exists st, nth_error stages c' = Some st /\ nth_error st e' = Some q
     | None => True end).
  { destruct c as [|c']; cbn.
    - subst q. split; [apply fe0_is|exact I].
    - destruct H9 as (prev & Hp & Hq).
      assert (Hc' : c' < o_N_stages o) by lia.
      destruct (get_stage c' Hc') as (_ & nfe1 & _ & ends1 & _ & _ & _ & _ & _ & _ & G1 & G2 & G3 & G4 & _).
      rewrite Hp in G3. injection G3 as <-.
      assert (En : nth c' nfes 0 = nfe1) by (apply nth_error_nth; assumption).
      assert (Hq' : nth_error prev (nth c' nfes 0 - 1) = Some q) by (apply Hq; lia).
      destruct (get_fe_ok c' (nth c' nfes 0 - 1) nfe1 prev q Hp Hq' G1) as [G5 G6].
      split; [exists nfe1; auto|eauto]. }
  assert (Ke : forall e' x, nth_error ends e' = Some x -> is_elem (Some (c, e')) x).
  { intros e' x Hx. destruct (get_fe_ok c e' nfe ends x H3 Hx Hn) as [G5 G6]. exists nfe; auto. }
  exists qq', q', s, fe. split; [|split; [eapply elem_fe_ok; eauto|apply H7; eapply nth_error_In; eauto]].
  split; [assumption|]. split; [assumption|]. split; [eauto|]. split; [|split].
  - destruct e as [|e]; cbn in E2; [injection E2 as <-; apply Q|].
    change (prev_pos nfes c (S e)) with (Some (c, e)). auto.
  - destruct e as [|e]; cbn in E2; [injection E2 as <-; apply Q|].
    cbn. eauto.
  - intros Hne. destruct e as [|e]; [congruence|]. cbn. rewrite Nat.sub_0_r. cbn in E3.
    destruct e as [|e]; cbn in E3.
    + injection E3 as <-. apply Q.
    + change (prev_pos nfes c (S e)) with (Some (c, e)). auto.
Qed.

(* everything a processed element contains is in the final problem *)
Lemma f1_in_P : (forall x, In x (cons f1) -> In x (cons (pb P))).
Proof.
  destruct (bo_prim _ _ _ _ B) as (_ & _ & _ & _ & _ & W & _).
  destruct (bo_rest _ _ _ _ B) as (P0 & f2 & cvs & xT & gT & fT1 & f3 & f6 & Pc & K & _ & _ & G2 & _ & _ & _ & _ & G3 & _ & _ & L6 & _ & EP & Cl & _).
  intros x Hx.
  assert (L12 : fo_le o SBoolG f1 f2) by (unfold global_compl in G2; inv_ok; eapply create_complementarity_le; eauto).
  assert (L23 : fo_le o SBoolG f2 f3) by (eapply add_constraint_le; eauto).
  pose proof (fo_le_trans _ _ _ _ _ L12 (fo_le_trans _ _ _ _ _ L23 (proj1 L6))) as L.
  assert (In x (cons f6)) by (eapply fo_le_cons_in; eauto).
  pose proof (cl_f _ _ _ Cl) as (_ & _ & _ & _ & A5 & A6 & A7 & _). unfold cons. rewrite A5, A6, A7, EP. exact H.
Qed.

Lemma wf_f6 : exists f6, wf_f f6 /\ fo_le o SBoolG f1 f6 /\ wapp f6 (concat stages) (pb P) /\ Forall lens_ok (concat stages).
Proof.
  destruct (bo_prim _ _ _ _ B) as (_ & _ & _ & _ & _ & W & _).
  destruct (bo_rest _ _ _ _ B) as (P0 & f2 & cvs & xT & gT & fT1 & f3 & f6 & Pc & K & _ & _ & G2 & _ & _ & _ & _ & G3 & _ & _ & L6 & _ & EP & Cl & _).
  assert (L12 : fo_le o SBoolG f1 f2) by (unfold global_compl in G2; inv_ok; eapply create_complementarity_le; eauto).
  assert (L23 : fo_le o SBoolG f2 f3) by (eapply add_constraint_le; eauto).
  pose proof (fo_le_trans _ _ _ _ _ L12 (fo_le_trans _ _ _ _ _ L23 (proj1 L6))) as L.
  exists f6. split; [eapply fo_le_wf; eauto|]. split; [exact L|].
  rewrite <- EP. split; [apply (cl_f _ _ _ Cl)|apply (cl_lens _ _ _ Cl)].
Qed.

Lemma wf_P : wf_f (pb P).
Proof.
  destruct wf_f6 as (f6 & [(W1 & W2 & W3) [W4 W5]] & _ & (A1 & A2 & A3 & A4 & A5 & A6 & A7 & _) & F).
  split; unfold wf_w, wf_g.
  - rewrite A1, A2, A3, A4, !app_length. clear - W1 W2 W3 F.
    assert (H : forall l, Forall lens_ok l ->
      length (concat (map (fun fe => lbw (fo fe)) l)) = length (concat (map (fun fe => w (fo fe)) l)) /\
      length (concat (map (fun fe => ubw (fo fe)) l)) = length (concat (map (fun fe => w (fo fe)) l)) /\
      length (concat (map (fun fe => w0 (fo fe)) l)) = length (concat (map (fun fe => w (fo fe)) l))).
    { induction 1 as [|x l (H1 & H2 & H3) F' IH]; cbn; [auto|]. rewrite !app_length.
      destruct IH as (I1 & I2 & I3). lia. }
    destruct (H _ F) as (I1 & I2 & I3). lia.
  - rewrite A5, A6, A7. auto.
Qed.

Lemma vbnds_in_P x : (In x (vbnds f1) -> In x (vbnds (pb P))) /\
  (forall fe, In fe (concat stages) -> In x (vbnds (fo fe)) -> In x (vbnds (pb P))).
Proof.
  destruct (bo_prim _ _ _ _ B) as (_ & _ & _ & _ & _ & W & _).
  destruct wf_f6 as (f6 & [W6 _] & L & (A1 & A2 & A3 & _) & F).
  assert (E : vbnds (pb P) = vbnds f6 ++ concat (map (fun fe => vbnds (fo fe)) (concat stages))).
  { unfold vbnds. rewrite A1, A2, A3. destruct W6 as (W1 & W2 & W3).
    rewrite combine_app by lia. rewrite combine_app by (rewrite combine_length; lia). f_equal.
    clear - F. induction F as [|y l (H1 & H2 & H3) F IH]; cbn; [reflexivity|].
    rewrite combine_app by lia. rewrite combine_app by (rewrite combine_length; lia). rewrite IH. reflexivity. }
  rewrite E. split.
  - intros H. apply in_or_app; left. eapply fo_le_vbnds_in; eauto.
  - intros fe Hfe Hx. apply in_or_app; right. apply in_concat. eexists; split; [|exact Hx].
    apply in_map_iff; eauto.
Qed.

Lemma elem_in_concat c e qq q s fe nfe : elem_of stages c e nfe qq q s fe -> In fe (concat stages).
Proof.
  intros (_ & _ & (st & H1 & H2) & _). apply in_concat. exists st.
  split; eapply nth_error_In; eauto.
Qed.

End Facts.
End Body.
