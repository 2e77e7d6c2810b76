(* Prob_proofs.v -- structure of the whole problem: creation, processing, collection *)
From Coq Require Import Reals Qreals Lra.
From Verif Require Import Base Lib Sx Sx_proofs Utils Tableau Opts Model Ocp Problem Fo_proofs Fe_proofs
  FeMake_proofs FeSel_proofs FeZero_proofs.

Definition selb (f : fobj) (idx : list nat) (s : list sym) (l u : list ext) : Prop :=
  sel (w f) idx = Ok s /\ sel (lbw f) idx = Ok l /\ sel (ubw f) idx = Ok u.

Definition ulab (pm : pmodel) (c : nat) : list sym := map (SU c) (seq 0 (m_nu (pm_m pm))).
Definition sotlab (o : opts) (c : nat) : list sym :=
  match o_sot o with SotLocal => [SSot c] | _ => [] end.
Definition sotguess (o : opts) : list Q := match o_sot o with SotLocal => [1%Q] | _ => [] end.
Definition elguess (o : opts) : list Q := if is_elastic (o_mpcc o) then [o_s_elastic_0 o] else [].
Definition ellab (o : opts) : list sym := if is_elastic (o_mpcc o) then [SElastic] else [].

Definition no_g (f : fobj) : Prop :=
  g f = [] /\ lbg f = [] /\ ubg f = [] /\ cost f = ECst 0 /\ ind_comp f = [] /\ ind_bool f = [].

Lemma add_variable_selb f s lb ub i f' idx :
  wf_w f -> add_variable f s lb ub i = Ok (f', idx) ->
  selb f' idx s lb ub /\ wf_w f' /\ w f' = w f ++ s /\ idx = seq (length (w f)) (length s) /\
  (forall ix a b c, selb f ix a b c -> selb f' ix a b c) /\ (no_g f -> no_g f') /\
  w0 f' = w0 f ++ i.
Proof.
  intros (W1 & W2 & W3) H. apply add_variable_ok in H. destruct H as (L1 & L2 & L3 & -> & ->).
  unfold selb, wf_w, no_g; cbn. rewrite !app_length. repeat split; try lia; try tauto.
  - pose proof (sel_seq (w f) s []) as H. rewrite app_nil_r in H. exact H.
  - pose proof (sel_seq (lbw f) lb []) as H. rewrite app_nil_r, W1, L1 in H. exact H.
  - pose proof (sel_seq (ubw f) ub []) as H. rewrite app_nil_r, W2, L2 in H. exact H.
  - apply sel_app_w; tauto.
  - apply sel_app_w; tauto.
  - apply sel_app_w; tauto.
Qed.

Section Prob.
Variables (o : opts) (t : tab) (pm : pmodel) (oc : pocp).

Definition stage_created (c : nat) (fes : list felem) : Prop :=
  exists nfe, nth_error (o_Nfe_list o) c = Some nfe /\ 0 < nfe /\
    mapM (fun e => fe_make o t pm oc c e nfe) (seq 0 nfe) = Ok fes.

Record prim_inv (base : fobj) (k : nat) (f : fobj) (iu isot : list (list nat)) (stages : list (list felem)) : Prop := {
  pi_wf : wf_w f;
  pi_nog : no_g f;
  pi_base : forall ix a b c, selb base ix a b c -> selb f ix a b c;
  pi_w : w f = w base ++ concat (map (fun c => ulab pm c ++ sotlab o c) (seq 0 k));
  pi_w0 : w0 f = w0 base ++ concat (map (fun _ => po_u_guess oc ++ sotguess o) (seq 0 k));
  pi_iu : length iu = k;
  pi_u : forall c, c < k -> exists idx, nth_error iu c = Some idx /\ selb f idx (ulab pm c) (po_lbu oc) (po_ubu oc);
  pi_sot : match o_sot o with
           | SotLocal => length isot = k /\ forall c, c < k -> exists idx, nth_error isot c = Some idx /\
                selb f idx [SSot c] [Fin (o_sot_min o)] [Fin (o_sot_max o)]
           | _ => isot = [] end;
  pi_perm : Permutation (seq 0 (length (w base)) ++ concat iu ++ concat isot) (seq 0 (length (w f)));
  pi_stages : length stages = k;
  pi_stage : forall c, c < k -> exists fes, nth_error stages c = Some fes /\ stage_created c fes
}.

Lemma nth_error_snoc {A} (l : list A) a : nth_error (l ++ [a]) (length l) = Some a.
Proof. rewrite nth_error_app2, Nat.sub_diag by lia. reflexivity. Qed.

Lemma prim_step base k f iu isot stages r :
  prim_inv base k f iu isot stages ->
  create_control_stage o t pm oc (f, iu, isot, stages) k = Ok r ->
  exists f' iu' isot' stages', r = (f', iu', isot', stages') /\ prim_inv base (S k) f' iu' isot' stages'.
Proof.
  intros [P1 P2 P3 P4 P4' P5 P6 P7 P8 P9 P10] H. unfold create_control_stage in H.
  apply bind_ok in H; destruct H as ([f1 idx] & H1 & H).
  apply bind_ok in H; destruct H as ([f2 isot'] & H2 & H).
  apply bind_ok in H; destruct H as (nfe & H3 & H).
  apply bind_ok in H; destruct H as (fes & H4 & H).
  apply bind_ok in H; destruct H as (lf & H5 & H). injection H as <-.
  destruct (add_variable_selb _ _ _ _ _ _ _ P1 H1) as (A1 & A2 & A3 & A4 & A5 & A6 & A6').
  assert (B : exists s2, w f2 = w f1 ++ sotlab o k /\ wf_w f2 /\ (forall ix a b c, selb f1 ix a b c -> selb f2 ix a b c)
       /\ (no_g f1 -> no_g f2) /\ isot' = isot ++ s2 /\ concat s2 = seq (length (w f1)) (length (sotlab o k)) /\
       w0 f2 = w0 f1 ++ sotguess o /\
       match o_sot o with
       | SotLocal => exists ix, s2 = [ix] /\ selb f2 ix [SSot k] [Fin (o_sot_min o)] [Fin (o_sot_max o)]
       | _ => s2 = [] end).
  { unfold sotlab, sotguess. destruct (o_sot o).
    - injection H2 as <- <-. exists []. rewrite !app_nil_r. split; [reflexivity|]. split; [exact A2|]. split; [auto|]. split; [auto|]. split; [reflexivity|]. split; [reflexivity|]. split; [reflexivity|reflexivity].
    - apply bind_ok in H2. destruct H2 as ([f2' ix] & Hv & H2). cbn in H2. injection H2 as <- <-.
      destruct (add_variable_selb _ _ _ _ _ _ _ A2 Hv) as (C1 & C2 & C3 & C4 & C5 & C6 & C6').
      exists [ix]. split; [exact C3|]. split; [exact C2|]. split; [exact C5|]. split; [exact C6|].
      split; [reflexivity|]. split; [cbn; rewrite app_nil_r; exact C4|]. split; [exact C6'|]. exists ix; auto.
    - injection H2 as <- <-. exists []. rewrite !app_nil_r. split; [reflexivity|]. split; [exact A2|]. split; [auto|]. split; [auto|]. split; [reflexivity|]. split; [reflexivity|]. split; [reflexivity|reflexivity]. }
  destruct B as (s2 & B1 & B2 & B3 & B4 & B5 & B6 & B6' & B7).
  exists f2, (iu ++ [idx]), isot', (stages ++ [fes]). split; [reflexivity|].
  split.
  - exact B2.
  - auto.
  - intros; auto.
  - rewrite B1, A3, P4. rewrite seq_S, map_app, concat_app. cbn. rewrite app_nil_r, <- !app_assoc. reflexivity.
  - rewrite B6', A6', P4'. rewrite seq_S, map_app, concat_app. cbn. rewrite app_nil_r, <- !app_assoc. reflexivity.
  - rewrite app_length; cbn; lia.
  - intros c Hc. destruct (Nat.eq_dec c k) as [->|Hne].
    + exists idx. rewrite <- P5 at 1. rewrite nth_error_snoc. split; [reflexivity|]. apply B3, A1.
    + destruct (P6 c) as (ix & Hix & Hs); [lia|]. exists ix. rewrite nth_error_app1 by lia. split; auto.
  - destruct (o_sot o).
    + subst; reflexivity.
    + destruct B7 as (ix & -> & Hix). destruct P7 as [P7 P7']. subst isot'. split; [rewrite app_length; cbn; lia|].
      intros c Hc. destruct (Nat.eq_dec c k) as [->|Hne].
      * exists ix. rewrite <- P7 at 1. rewrite nth_error_snoc. auto.
      * destruct (P7' c) as (ix' & Hix' & Hs); [lia|]. exists ix'. rewrite nth_error_app1 by lia. split; auto.
    + subst; reflexivity.
  - rewrite B5, !concat_app, B6. cbn. rewrite app_nil_r. rewrite B1, A3, A4 , !app_length, !seq_app, <- !app_assoc. cbn.
    rewrite (app_assoc (seq 0 (length (w f)))). rewrite <- P8. rewrite <- !app_assoc.
    apply Permutation_app_head. apply Permutation_app_head.
    rewrite !app_assoc. apply Permutation_app_tail. apply Permutation_app_comm.
  - rewrite app_length; cbn; lia.
  - intros c Hc. destruct (Nat.eq_dec c k) as [->|Hne].
    + exists fes. rewrite <- P9 at 1. rewrite nth_error_snoc. split; [reflexivity|].
      exists nfe. apply nthE_ok in H3. split; [exact H3|]. split; [|exact H4].
      apply mapM_length in H4. rewrite seq_length in H4. destruct nfe; [|lia].
      destruct fes; [discriminate H5|discriminate H4].
    + destruct (P10 c) as (fs & Hfs & Hs); [lia|]. exists fs. rewrite nth_error_app1 by lia. auto.
Qed.

Lemma prim_fold base n : forall k f iu isot stages r,
  prim_inv base k f iu isot stages ->
  foldM (create_control_stage o t pm oc) (seq k n) (f, iu, isot, stages) = Ok r ->
  exists f' iu' isot' stages', r = (f', iu', isot', stages') /\ prim_inv base (k + n) f' iu' isot' stages'.
Proof.
  induction n as [|n IH]; intros k f iu isot stages r HI H; cbn in H.
  - injection H as <-. rewrite Nat.add_0_r. eauto 10.
  - apply bind_ok in H. destruct H as (r1 & H1 & H).
    destruct (prim_step _ _ _ _ _ _ _ HI H1) as (f' & iu' & isot' & st' & -> & HI').
    rewrite <- Nat.add_succ_comm. eapply IH; eauto.
Qed.

Record primal_ok (P : prob) : Prop := {
  pk_wf : wf_f (pb P);
  pk_nog : no_g (pb P);
  pk_w : w (pb P) = ellab o ++ mvg (pm_m pm) ++ concat (map (fun c => ulab pm c ++ sotlab o c) (seq 0 (o_N_stages o)));
  pk_w0 : w0 (pb P) = elguess o ++ po_v_guess oc ++ concat (map (fun _ => po_u_guess oc ++ sotguess o) (seq 0 (o_N_stages o)));
  pk_el : if is_elastic (o_mpcc o)
          then exists idx, p_ind_el P = [idx] /\ selb (pb P) idx [SElastic] [Fin (o_s_elastic_min o)] [Fin (o_s_elastic_max o)]
          else p_ind_el P = [];
  pk_vg : exists idx, p_ind_vg P = [idx] /\ selb (pb P) idx (mvg (pm_m pm)) (po_lbv oc) (po_ubv oc);
  pk_iu : length (p_ind_u P) = o_N_stages o;
  pk_u : forall c, c < o_N_stages o -> exists idx, nth_error (p_ind_u P) c = Some idx /\
           selb (pb P) idx (ulab pm c) (po_lbu oc) (po_ubu oc);
  pk_sot : match o_sot o with
           | SotLocal => length (p_ind_sot P) = o_N_stages o /\ forall c, c < o_N_stages o ->
               exists idx, nth_error (p_ind_sot P) c = Some idx /\
                selb (pb P) idx [SSot c] [Fin (o_sot_min o)] [Fin (o_sot_max o)]
           | _ => p_ind_sot P = [] end;
  pk_notglobal : o_sot o <> SotGlobal;
  pk_perm : Permutation (concat (p_ind_el P) ++ concat (p_ind_vg P) ++ concat (p_ind_u P) ++ concat (p_ind_sot P))
                        (seq 0 (length (w (pb P))));
  pk_stages : length (p_stages P) = o_N_stages o;
  pk_stage : forall c, c < o_N_stages o -> exists fes, nth_error (p_stages P) c = Some fes /\ stage_created c fes;
  pk_fe0 : fe0_ok o pm (p_fe0 P);
  pk_fe0' : fe_zero o pm = Ok (p_fe0 P);
  pk_p : p_p P = concat (map (pst pm) (seq 0 (o_N_stages o))) ++ [SSigma; STau] ++ lam0 o pm ++ labx0 pm;
  pk_empty : (forall f, p_ind1 P f = []) /\ (forall f, p_ind2 P f = []) /\ p_ind_x_cont P = [] /\
             p_ind_bool P = [] /\ p_ind_comp P = [] /\ p_ind_h P = []
}.

Lemma create_primal_ok P : create_primal o t pm oc = Ok P -> primal_ok P.
Proof.
  unfold create_primal. intros H.
  apply bind_ok in H; destruct H as ([f0 iel] & H0 & H).
  apply bind_ok in H; destruct H as (fe0 & Hfe0 & H).
  apply bind_ok in H; destruct H as (ix & Hix & H).
  apply bind_ok in H; destruct H as (x0 & Hx0 & H).
  apply bind_ok in H; destruct H as (l00 & Hl00 & H).
  apply bind_ok in H; destruct H as ([f1 ivg] & H1 & H).
  apply bind_ok in H; destruct H as (u & Hg & H).
  apply bind_ok in H; destruct H as ([[[f2 iu] isot] stages] & H2 & H). injection H as <-.
  pose proof (fe_zero_ok _ _ _ Hfe0) as Z.
  assert (E : wf_w f0 /\ no_g f0 /\ w f0 = ellab o /\ w0 f0 = elguess o /\
     concat (if is_elastic (o_mpcc o) then [iel] else []) = seq 0 (length (w f0)) /\
     (is_elastic (o_mpcc o) = true -> selb f0 iel [SElastic] [Fin (o_s_elastic_min o)] [Fin (o_s_elastic_max o)])).
  { unfold ellab, elguess. destruct (is_elastic (o_mpcc o)).
    - assert (W : wf_w fobj_empty) by (repeat split).
      destruct (add_variable_selb _ _ _ _ _ _ _ W H0) as (A1 & A2 & A3 & A4 & A5 & A6 & A7).
      split; [exact A2|]. split; [apply A6; repeat split|]. split; [exact A3|]. split; [exact A7|]. split; [|auto].
      rewrite A3, A4. reflexivity.
    - injection H0 as <- <-. split; [repeat split|]. split; [repeat split|]. split; [reflexivity|]. split; [reflexivity|]. split; [reflexivity|discriminate]. }
  destruct E as (E1 & E2 & E3 & E3' & E4 & E5).
  destruct (add_variable_selb _ _ _ _ _ _ _ E1 H1) as (A1 & A2 & A3 & A4 & A5 & A6 & A7).
  assert (I0 : prim_inv f1 0 f1 [] [] []).
  { split; auto; try (intros; lia).
    - cbn. rewrite app_nil_r; reflexivity.
    - cbn. rewrite app_nil_r; reflexivity.
    - destruct (o_sot o); auto. split; [reflexivity|intros; lia].
    - cbn. rewrite app_nil_r. reflexivity. }
  destruct (prim_fold _ _ _ _ _ _ _ _ I0 H2) as (f' & iu' & isot' & st' & Er & HI). injection Er as <- <- <- <-.
  cbn in HI. destruct HI as [P1 P2 P3 P4 P4' P5 P6 P7 P8 P9 P10].
  assert (Ng : o_sot o <> SotGlobal) by (intros E; rewrite E in Hg; discriminate).
  split; cbn; auto.
  - split; [exact P1|]. destruct P2 as (G1 & G2 & G3 & _). split; rewrite G1, ?G2, ?G3; reflexivity.
  - rewrite P4, A3, E3, <- app_assoc. reflexivity.
  - rewrite P4', A7, E3', <- app_assoc. reflexivity.
  - destruct (is_elastic (o_mpcc o)) eqn:Ee; [|reflexivity]. exists iel; auto.
  - exists ivg; auto.
  - rewrite app_nil_r. rewrite <- P8. rewrite E4, A3, A4, app_length, seq_app. cbn.
    rewrite <- app_assoc. reflexivity.
  - destruct Z as [Z1 Z2 Z3 Z4 Z5]. rewrite Z5 in Hl00. injection Hl00 as <-.
    destruct Z1 as (_ & _ & ix' & Z1 & Z1'). apply nthE_ok in Hix. rewrite Z1 in Hix. injection Hix as ->.
    rewrite Z1' in Hx0. injection Hx0 as <-. rewrite <- app_assoc. reflexivity.
  - repeat split.
Qed.

(* ---- processing ---- *)
Definition fsteps (nfe : nat) (Uk : list expr) (sot : expr) (pp p s fe : felem) : Prop :=
  exists fe1 fe2, forward_simulation o t pm oc nfe p Uk sot s = Ok fe1 /\
    create_complementarity_constraints o t pm oc p Uk fe1 = Ok fe2 /\
    step_equilibration o nfe pp p fe2 = Ok fe.

Lemma fsteps_le nfe Uk sot pp p s fe : fsteps nfe Uk sot pp p s fe -> fe_le o s fe.
Proof.
  intros (fe1 & fe2 & H1 & H2 & H3). eapply fe_le_trans; [eapply forward_simulation_le; eauto|].
  eapply fe_le_trans; [eapply create_complementarity_constraints_le; eauto|].
  eapply step_equilibration_le; eauto.
Qed.

Inductive pchain (nfe : nat) (Uk : list expr) (sot : expr) :
  felem -> felem -> list felem -> list felem -> felem -> felem -> Prop :=
| pc_nil pp p : pchain nfe Uk sot pp p [] [] pp p
| pc_cons pp p s fe l ds pp' p' :
    fsteps nfe Uk sot pp p s fe -> pchain nfe Uk sot p fe l ds pp' p' ->
    pchain nfe Uk sot pp p (s :: l) (fe :: ds) pp' p'.

Lemma pchain_length nfe Uk sot pp p l ds pp' p' :
  pchain nfe Uk sot pp p l ds pp' p' -> length ds = length l.
Proof. induction 1; cbn; congruence. Qed.

Lemma pchain_nth nfe Uk sot pp p l ds pp' p' :
  pchain nfe Uk sot pp p l ds pp' p' -> forall k s, nth_error l k = Some s ->
  exists fe q qq, nth_error ds k = Some fe /\ nth_error (p :: ds) k = Some q /\
    nth_error (pp :: p :: ds) k = Some qq /\ fsteps nfe Uk sot qq q s fe.
Proof.
  induction 1 as [|pp p s fe l ds pp' p' Hf H IH]; intros k x Hk; [destruct k; discriminate|].
  destruct k as [|k]; cbn in *.
  - injection Hk as <-. eauto 10.
  - destruct (IH k x Hk) as (fe' & q & qq & H1 & H2 & H3 & H4). exists fe', q, qq. auto.
Qed.

Lemma pchain_last nfe Uk sot pp p l ds pp' p' :
  pchain nfe Uk sot pp p l ds pp' p' -> nth_error (p :: ds) (length ds) = Some p'.
Proof. induction 1; cbn in *; auto. Qed.

(* relation between problem objects while elements are processed *)
Definition le_g_only (f f' : fobj) : Prop :=
  fo_le o SBoolG f f' /\ w f' = w f /\ lbw f' = lbw f /\ ubw f' = ubw f /\ w0 f' = w0 f /\ ind_bool f' = ind_bool f.
Lemma le_g_only_refl f : le_g_only f f.
Proof. split; [apply fo_le_refl|auto]. Qed.
Lemma le_g_only_trans a b c : le_g_only a b -> le_g_only b c -> le_g_only a c.
Proof.
  intros (A & A1 & A2 & A3 & A4 & A5) (B & B1 & B2 & B3 & B4 & B5).
  split; [eapply fo_le_trans; eauto|repeat split; congruence].
Qed.
Lemma add_constraint_gonly f e lb ub f' : add_constraint f e lb ub = Ok f' -> le_g_only f f'.
Proof.
  intros H. split; [eapply add_constraint_le; eauto|].
  apply add_constraint_ok in H. destruct H as [[_ ->]|(_ & _ & _ & ->)]; auto 10.
Qed.
Lemma add_cost_gonly f e : le_g_only f (add_cost f e).
Proof. split; [apply add_cost_le, fo_le_refl|cbn; auto 10]. Qed.

Lemma add_fe_cons f fe f' : wf_f f -> wf_f (fo fe) ->
  add_constraint f (g (fo fe)) (Some (lbg (fo fe))) (Some (ubg (fo fe))) = Ok f' ->
  forall x, In x (cons (fo fe)) -> In x (cons f').
Proof.
  intros W Wf H [e [l u]] Hin. unfold cons in Hin. apply In_nth_error in Hin. destruct Hin as [i Hi].
  apply nth_error_combine_inv in Hi. destruct Hi as [H1 H2]. apply nth_error_combine_inv in H2.
  destruct H2 as [H2 H3]. eapply add_constraint_in; eauto.
Qed.

(* one element of the problem after processing: [f] is the problem object at the end *)
Definition cons_in (fe : felem) (f : fobj) : Prop := forall x, In x (cons (fo fe)) -> In x (cons f).

Lemma cons_in_le fe f f' : wf_f f -> cons_in fe f -> le_g_only f f' -> cons_in fe f'.
Proof. intros W H (L & _) x Hx. eapply fo_le_cons_in; eauto. Qed.

Lemma process_fold nfe Uk sot l : forall f pp p done ic r,
  wf_f f -> (forall s, In s l -> wf_f (fo s)) ->
  foldM (process_fe o t pm oc nfe Uk sot) l (f, pp, p, done, ic) = Ok r ->
  exists f' pp' p' ds ic', r = (f', pp', p', done ++ ds, ic') /\
    pchain nfe Uk sot pp p l ds pp' p' /\ le_g_only f f' /\ wf_f f' /\
    (forall fe, In fe ds -> cons_in fe f').
Proof.
  induction l as [|s l IH]; intros f pp p done ic r W Ws H; cbn [foldM] in H.
  - injection H as <-. exists f, pp, p, [], ic. rewrite app_nil_r.
    split; [reflexivity|]. split; [constructor|]. split; [apply le_g_only_refl|]. split; [assumption|]. intros fe [].
  - apply bind_ok in H. destruct H as (r1 & H1 & H). unfold process_fe in H1.
    apply bind_ok in H1; destruct H1 as (fe1 & F1 & H1).
    apply bind_ok in H1; destruct H1 as (fe2 & F2 & H1).
    apply bind_ok in H1; destruct H1 as (fe3 & F3 & H1).
    apply bind_ok in H1; destruct H1 as (f2 & F4 & H1). injection H1 as <-.
    assert (St : fsteps nfe Uk sot pp p s fe3) by (exists fe1, fe2; auto).
    assert (L2 : le_g_only f f2).
    { eapply le_g_only_trans; [apply add_cost_gonly|]. eapply add_constraint_gonly; eauto. }
    assert (W2 : wf_f f2) by (destruct L2 as [L2 _]; eapply fo_le_wf; eauto).
    apply IH in H; auto; [|intros; apply Ws; right; assumption].
    destruct H as (f' & pp' & p' & ds & ic' & -> & C & L & W' & Hc).
    exists f', pp', p', (fe3 :: ds), ic'. rewrite <- app_assoc. split; [reflexivity|].
    split; [econstructor; eauto|]. split; [eapply le_g_only_trans; eauto|]. split; [assumption|].
    intros fe [<-|Hfe]; [|auto]. eapply cons_in_le; [exact W2| |exact L].
    intros x Hx. eapply add_fe_cons; [| |exact F4|exact Hx].
    + eapply fo_le_wf; [|exact W]. apply (add_cost_le o SBoolG), fo_le_refl.
    + pose proof (fsteps_le _ _ _ _ _ _ _ St) as [L3 _]. eapply fo_le_wf; [exact L3|]. apply Ws; left; reflexivity.
Qed.

Definition sotex (c : nat) : expr := match o_sot o with SotLocal => EVar (SSot c) | _ => ECst 1 end.

(* the additional constraints of a control stage *)
Definition stage_extra (P : prob) (c : nat) (fes : list felem) (f : fobj) : Prop :=
  (o_use_fesd o && o_equidistant o = true ->
     In (EBin BSub (esum (map fe_h fes)) (ECst (o_terminal_time o / Qnat (o_N_stages o))%Q), (Fin 0, Fin 0)) (cons f)) /\
  (o_time_freezing o && o_equidistant o = true ->
     exists tf x0 t0 lf xe te, pm_t_fun pm = Some tf /\ x_last (p_fe0 P) = Ok x0 /\ call tf [x0] = Ok [t0] /\
       lastE EIndexError fes = Ok lf /\ x_last lf = Ok xe /\ call tf [xe] = Ok [te] /\
       In (EBin BSub te (EBin BAdd (ECst (o_terminal_time o / Qnat (o_N_stages o) * Qnat (c + 1))%Q) t0),
           (Fin (- o_tf_tol o)%Q, Fin (o_tf_tol o))) (cons f)).

Lemma head1_ok l e : head1 l = Ok e -> l = [e].
Proof. destruct l as [|x [|y l]]; cbn; intros H; try discriminate. congruence. Qed.

Lemma process_stage_ok P c starts f pp p done ics r :
  primal_ok P -> c < o_N_stages o -> wf_f f -> (forall s, In s starts -> wf_f (fo s)) ->
  process_stage o t pm oc P (f, pp, p, done, ics) (c, starts) = Ok r ->
  exists nfe f' pp' p' fes ic, r = (f', pp', p', done ++ [fes], ics ++ [ic]) /\
    nth_error (o_Nfe_list o) c = Some nfe /\
    pchain nfe (vars (ulab pm c)) (sotex c) pp p starts fes pp' p' /\ le_g_only f f' /\ wf_f f' /\
    (forall fe, In fe fes -> cons_in fe f') /\ stage_extra P c fes f'.
Proof.
  intros HP Hc W Ws H. unfold process_stage in H.
  apply bind_ok in H; destruct H as (iu & H1 & H). apply nthE_ok in H1.
  apply bind_ok in H; destruct H as (Us & H2 & H).
  apply bind_ok in H; destruct H as (sot & H3 & H).
  apply bind_ok in H; destruct H as (nfe & H4 & H). apply nthE_ok in H4.
  apply bind_ok in H; destruct H as ([[[[f1 pp'] p'] fes] ic] & H5 & H).
  apply bind_ok in H; destruct H as (f2 & H6 & H).
  apply bind_ok in H; destruct H as (f3 & H7 & H). injection H as <-.
  destruct (pk_u _ HP c Hc) as (iu' & E1 & (E2 & _)). rewrite E1 in H1. injection H1 as ->.
  rewrite E2 in H2. injection H2 as <-.
  assert (Es : sot = sotex c).
  { unfold sotex. pose proof (pk_sot _ HP) as S. pose proof (pk_notglobal _ HP) as Ng.
    destruct (o_sot o); [injection H3; auto| |congruence].
    destruct S as [_ S]. destruct (S c Hc) as (i & S1 & (S2 & _)).
    rewrite (nthE_Some _ _ _ _ S1) in H3. cbn in H3. rewrite S2 in H3. cbn in H3. congruence. }
  subst sot.
  destruct (process_fold _ _ _ _ _ _ _ _ _ _ W Ws H5) as (f1' & pp1 & p1 & ds & ic1 & Er & C & L & W1 & Hin).
  injection Er as <- <- <- -> <-. cbn in H5.
  assert (L2 : le_g_only f1 f2).
  { destruct (o_use_fesd o && o_equidistant o); [eapply add_constraint_gonly; eauto|].
    injection H6 as <-. apply le_g_only_refl. }
  assert (W2 : wf_f f2) by (destruct L2 as [L2 _]; eapply fo_le_wf; eauto).
  assert (L3 : le_g_only f2 f3).
  { destruct (o_time_freezing o && o_equidistant o).
    - inv_ok. eapply add_constraint_gonly; eauto.
    - injection H7 as <-. apply le_g_only_refl. }
  assert (W3 : wf_f f3) by (destruct L3 as [L3 _]; eapply fo_le_wf; eauto).
  exists nfe, f3, pp', p', ds, ic. cbn [app].
  split; [reflexivity|]. split; [assumption|]. split; [assumption|].
  split; [eapply le_g_only_trans; [exact L|]; eapply le_g_only_trans; eauto|].
  split; [assumption|]. split.
  - intros fe Hfe. eapply cons_in_le; [exact W2| |exact L3]. eapply cons_in_le; [exact W1| |exact L2]. auto.
  - split.
    + intros Hq. destruct (o_use_fesd o && o_equidistant o); [|discriminate].
      eapply fo_le_cons_in; [exact (proj1 L3)|exact W2|].
      eapply add_constraint_eq_in; [exact H6|exact W1|]. left; reflexivity.
    + intros Hq. destruct (o_time_freezing o && o_equidistant o); [|discriminate].
      apply bind_ok in H7; destruct H7 as (tf & T1 & H7). 
      apply bind_ok in H7; destruct H7 as (x0 & T2 & H7). 
      apply bind_ok in H7; destruct H7 as (t0 & T3 & H7). 
      apply bind_ok in H7; destruct H7 as (lf & T4 & H7). 
      apply bind_ok in H7; destruct H7 as (xe & T5 & H7). 
      apply bind_ok in H7; destruct H7 as (te & T6 & H7). 
      apply bind_ok in H7; destruct H7 as (t0' & T7 & H7). 
      apply bind_ok in H7; destruct H7 as (te' & T8 & H7). 
      apply head1_ok in T7, T8. subst t0 te.
      exists tf, x0, t0', lf, xe, te'. repeat split; auto.
      * destruct (pm_t_fun pm); cbn in T1; congruence.
      * eapply add_constraint_in with (i := 0); [exact H7|exact W2|reflexivity|reflexivity|reflexivity].
Qed.

(* all stages *)
Inductive schain (P : prob) : nat -> felem -> felem -> list (list felem) -> list (list felem) -> felem -> fobj -> Prop :=
| sc_nil c pp p f : schain P c pp p [] [] p f
| sc_cons c nfe pp p starts ends ss es pp' p' pl f :
    nth_error (o_Nfe_list o) c = Some nfe ->
    pchain nfe (vars (ulab pm c)) (sotex c) pp p starts ends pp' p' ->
    (forall fe, In fe ends -> cons_in fe f) -> stage_extra P c ends f ->
    schain P (S c) pp' p' ss es pl f ->
    schain P c pp p (starts :: ss) (ends :: es) pl f.

Lemma stage_extra_le P c fes f f' : wf_f f -> le_g_only f f' -> stage_extra P c fes f -> stage_extra P c fes f'.
Proof.
  intros W [L _] [A B]. split.
  - intros H. eapply fo_le_cons_in; eauto.
  - intros H. destruct (B H) as (tf & x0 & t0 & lf & xe & te & H1 & H2 & H3 & H4 & H5 & H6 & H7).
    exists tf, x0, t0, lf, xe, te. repeat split; auto. eapply fo_le_cons_in; eauto.
Qed.

Lemma schain_le P c pp p ss es pl f f' : wf_f f -> le_g_only f f' ->
  schain P c pp p ss es pl f -> schain P c pp p ss es pl f'.
Proof.
  intros W L H. induction H; [constructor|]. econstructor; eauto.
  - intros fe Hfe. eapply cons_in_le; eauto.
  - eapply stage_extra_le; eauto.
Qed.

Lemma process_stages P : primal_ok P -> forall ss c f pp p done ics r,
  wf_f f -> c + length ss <= o_N_stages o -> (forall st s, In st ss -> In s st -> wf_f (fo s)) ->
  foldM (process_stage o t pm oc P) (combine (seq c (length ss)) ss) (f, pp, p, done, ics) = Ok r ->
  exists f' pp' p' es ics', r = (f', pp', p', done ++ es, ics') /\
    schain P c pp p ss es p' f' /\ le_g_only f f' /\ wf_f f'.
Proof.
  intros HP. induction ss as [|st ss IH]; intros c f pp p done ics r W Hc Ws H; cbn [foldM length seq combine] in H.
  - injection H as <-. exists f, pp, p, [], ics. rewrite app_nil_r. split; [reflexivity|]. split; [constructor|].
    split; [apply le_g_only_refl|exact W].
  - apply bind_ok in H. destruct H as (r1 & H1 & H). cbn in Hc.
    apply process_stage_ok in H1; auto; [|lia|intros; eapply Ws; [left; reflexivity|assumption]].
    destruct H1 as (nfe & f1 & pp1 & p1 & fes & ic & -> & Hn & C & L1 & W1 & Hin & Hex).
    apply IH in H; auto; [|lia|intros; eapply Ws; [right; eassumption|assumption]].
    destruct H as (f' & pp' & p' & es & ics' & -> & Sc & L & W').
    exists f', pp', p', (fes :: es), ics'. rewrite <- app_assoc. split; [reflexivity|].
    split; [|split; [eapply le_g_only_trans; eauto|assumption]].
    econstructor; eauto.
    + intros fe Hfe. eapply cons_in_le; [exact W1|auto|exact L].
    + exact (stage_extra_le P c fes f1 f' W1 L Hex).
Qed.

Lemma schain_length P c pp p ss es pl f : schain P c pp p ss es pl f -> length es = length ss.
Proof. induction 1; cbn; congruence. Qed.

Lemma schain_nth P c pp p ss es pl f : schain P c pp p ss es pl f ->
  forall k st, nth_error ss k = Some st ->
  exists nfe ends q qq pp' p', nth_error es k = Some ends /\ nth_error (o_Nfe_list o) (c + k) = Some nfe /\
    pchain nfe (vars (ulab pm (c + k))) (sotex (c + k)) qq q st ends pp' p' /\
    (forall fe, In fe ends -> cons_in fe f) /\ stage_extra P (c + k) ends f /\
    match k with
    | 0 => q = p /\ qq = pp
    | S k' => exists prev, nth_error es k' = Some prev /\
         (forall n, length prev = S n -> nth_error prev n = Some q)
    end.
Proof.
  induction 1 as [|c nfe pp p starts ends ss es pp' p' pl f Hn C Hin Hex H IH]; intros k st Hk; [destruct k; discriminate|].
  destruct k as [|k]; cbn in Hk.
  - injection Hk as <-. rewrite Nat.add_0_r. exists nfe, ends, p, pp, pp', p'. cbn. repeat split; auto; apply Hex.
  - destruct (IH k st Hk) as (nfe' & ends' & q & qq & pp1 & p1 & H1 & H2 & H3 & H4 & H5 & H6).
    rewrite Nat.add_succ_r. cbn in *. exists nfe', ends', q, qq, pp1, p1. repeat split; auto; try apply H5.
    destruct k as [|k].
    + destruct H6 as [-> ->]. exists ends; split; [reflexivity|]. intros n Hl. apply pchain_last in C.
      rewrite Hl in C. cbn in C. exact C.
    + exact H6.
Qed.

Lemma schain_final P c pp p ss es pl f : schain P c pp p ss es pl f ->
  (es = [] -> pl = p) /\
  (forall k ends n, length es = S k -> nth_error es k = Some ends -> length ends = S n -> nth_error ends n = Some pl).
Proof.
  induction 1 as [|c nfe pp p starts ends ss es pp' p' pl f Hn C Hin Hex H [IH1 IH2]].
  - split; [auto|]. intros k ends n Hl; discriminate.
  - split; [discriminate|]. intros k e n Hl He Hle. cbn in Hl. destruct k as [|k].
    + cbn in He. injection He as <-. assert (es = []) by (destruct es; [auto|discriminate]).
      rewrite (IH1 H0). apply pchain_last in C. rewrite Hle in C. exact C.
    + cbn in He. eapply IH2; eauto.
Qed.

End Prob.
