(* IndComp_proofs.v -- problem.ind_comp lists the complementarity rows *)
From Coq Require Import Reals Qreals Lra Sorted.
From Verif Require Import Base Lib Sx Sx_proofs Utils Tableau Opts Model Ocp Problem Spec Fesd Spec13 Fo_proofs Fe_proofs
  FeMake_proofs FeSel_proofs FeZero_proofs Prob_proofs Coll_proofs Body_proofs Model_proofs Con_proofs Index3_proofs
  Sem_proofs Dcs_proofs Point_proofs Elem_proofs Nlp_proofs.

(* ---- strictly increasing lists ---- *)
Notation incr := (StronglySorted lt).
Lemma incr_app a b : incr a -> incr b -> (forall x y, In x a -> In y b -> x < y) -> incr (a ++ b).
Proof.
  induction a as [|x a IH]; intros Ha Hb H; cbn; [exact Hb|]. inversion Ha; subst. constructor.
  - apply IH; [assumption|assumption|]. intros; apply H; [right|]; assumption.
  - apply Forall_forall. intros y Hy. apply in_app_or in Hy. destruct Hy as [Hy|Hy].
    + rewrite Forall_forall in *. auto.
    + apply H; [left; reflexivity|exact Hy].
Qed.
Lemma incr_seq n : forall a, incr (seq a n).
Proof.
  induction n as [|n IH]; intros a; cbn; constructor; [apply IH|]. apply Forall_forall. intros x Hx. apply in_seq in Hx. lia.
Qed.
Lemma incr_shift n l : incr l -> incr (map (fun i => i + n) l).
Proof.
  induction 1; cbn; constructor; [assumption|]. rewrite Forall_forall in *. intros x Hx. apply in_map_iff in Hx.
  destruct Hx as (y & <- & Hy). specialize (H0 y Hy). lia.
Qed.
Lemma concat_shift n l : concat (map (map (fun i => i + n)) l) = map (fun i => i + n) (concat l).
Proof. symmetry. apply concat_map. Qed.

(* ---- the rows added by create_complementarity, on their own ---- *)
Definition blank (f : fobj) : fobj := mkFobj (w f) (lbw f) (ubw f) (w0 f) [] [] [] (cost f) [] (ind_bool f).
Definition adds (f f' fb : fobj) : Prop :=
  g f' = g f ++ g fb /\ lbg f' = lbg f ++ lbg fb /\ ubg f' = ubg f ++ ubg fb /\
  concat (ind_comp f') = concat (ind_comp f) ++ seq (length (g f)) (length (g fb)).

Lemma add_comp_blank f e lb ub f' : add_constraint_comp f e lb ub = Ok f' ->
  exists fb, add_constraint_comp (blank f) e lb ub = Ok fb /\ adds f f' fb.
Proof.
  unfold add_constraint_comp, add_constraint, adds. intros H. apply bind_ok in H. destruct H as (f1 & H1 & H).
  destruct (length e =? 0) eqn:E0.
  - injection H1 as <-. injection H as <-. cbn [bind]. exists (blank f). split; [reflexivity|]. cbn. rewrite !app_nil_r. auto.
  - destruct (negb _) eqn:E1; [discriminate|]. injection H1 as <-. injection H as <-. cbn [bind].
    eexists. split; [reflexivity|]. cbn. rewrite concat_app. cbn. rewrite app_nil_r. auto.
Qed.
Lemma cc_blank o z f x y f' : create_complementarity o z f x y = Ok f' ->
  exists fb, create_complementarity o z (blank f) x y = Ok fb /\ adds f f' fb.
Proof.
  unfold create_complementarity. intros H. destruct (o_mpcc o) eqn:Em.
  all: try (lazymatch type of Em with _ = MBoolean => fail | _ => idtac end;
    repeat match type of H with
    | bind _ _ = Ok _ => let a := fresh "a" in let Ha := fresh "Ha" in apply bind_ok in H; destruct H as (a & Ha & H);
        rewrite Ha; cbn [bind]
    | match ?x with _ => _ end = Ok _ => destruct x; try discriminate
    end; apply add_comp_blank in H; exact H).
  cbn [blank ind_bool]. cbv zeta in *. apply bind_ok in H. destruct H as ([f1 idx] & Ha & H).
  unfold add_variable in *. cbn [blank w lbw ubw w0 g lbg ubg cost ind_comp ind_bool] in *.
  destruct (negb _) eqn:E1; [discriminate|]. injection Ha as <- <-. cbn [bind].
  repeat match type of H with
    | bind _ _ = Ok _ => let a := fresh "a" in let Ha := fresh "Ha" in apply bind_ok in H; destruct H as (a & Ha & H);
        rewrite Ha; cbn [bind]
    end.
  apply add_comp_blank in H. exact H.
Qed.

Section Comp.
Variables (o : opts) (rho : env).
Notation "A <~> B" := (iffm o A B) (at level 95, no associativity).

Definition J (fe : felem) : Prop := incr (concat (ind_comp (fo fe))) /\ forall i, In i (concat (ind_comp (fo fe))) -> i < length (g (fo fe)).
Definition T (fe : felem) : Prop := rows_hold rho (fo fe) (concat (ind_comp (fo fe))).

Lemma blank_wf f : wf_f f -> wf_f (blank f).
Proof. intros [A _]. split; [exact A|split; reflexivity]. Qed.

(* rows that are there stay there *)
Lemma rows_grow f f' C : wf_f f -> (forall i, In i C -> i < length (g f)) ->
  (exists a b d, g f' = g f ++ a /\ lbg f' = lbg f ++ b /\ ubg f' = ubg f ++ d) -> (rows_hold rho f' C <-> rows_hold rho f C).
Proof.
  intros [_ [Wl Wu]] HC (a & b & d & E1 & E2 & E3). unfold rows_hold. rewrite E1, E2, E3.
  split; intros G i e l u Hi; specialize (HC i Hi); specialize (G i e l u Hi);
    rewrite !nth_error_app1 in *; auto; lia.
Qed.
Lemma rows_adds f f' fb : wf_f f -> wf_f fb -> adds f f' fb ->
  (forall i, In i (concat (ind_comp f)) -> i < length (g f)) ->
  (rows_hold rho f' (concat (ind_comp f')) <-> rows_hold rho f (concat (ind_comp f)) /\ constraints_ok rho fb).
Proof.
  intros W Wb (E1 & E2 & E3 & E4) HC. rewrite E4.
  assert (A : rows_hold rho f' (concat (ind_comp f)) <-> rows_hold rho f (concat (ind_comp f))) by (apply rows_grow; eauto 7).
  assert (B : rows_hold rho f' (seq (length (g f)) (length (g fb))) <-> constraints_ok rho fb).
  { destruct W as [_ [Wl Wu]]. unfold rows_hold, constraints_ok. rewrite E1, E2, E3. split.
    - intros G j e l u Hj Hl Hu. pose proof (nth_error_Some_lt _ _ _ Hj).
      apply (G (length (g f) + j) e l u); [apply in_seq; lia|..]; rewrite nth_error_app2 by lia.
      + replace (length (g f) + j - length (g f)) with j by lia. exact Hj.
      + replace (length (g f) + j - length (lbg f)) with j by lia. exact Hl.
      + replace (length (g f) + j - length (ubg f)) with j by lia. exact Hu.
    - intros G i e l u Hi Hj Hl Hu. apply in_seq in Hi. rewrite nth_error_app2 in Hj, Hl, Hu by lia.
      rewrite ?Wl, ?Wu in *. apply (G _ _ _ _ Hj); congruence || assumption. }
  rewrite <- A, <- B. unfold rows_hold. split.
  - intros G. split; intros i e l u Hi; apply G; apply in_or_app; auto.
  - intros [G1 G2] i e l u Hi. apply in_app_or in Hi. destruct Hi as [Hi|Hi]; [apply G1|apply G2]; exact Hi.
Qed.
Lemma J_adds fe f' fb : J fe -> adds (fo fe) f' fb -> J (with_fo fe f').
Proof.
  intros [A B] (E1 & E2 & E3 & E4). split; cbn [fo with_fo]; rewrite E4.
  - apply incr_app; [exact A|apply incr_seq|]. intros x y Hx Hy. apply in_seq in Hy. specialize (B x Hx). lia.
  - intros i Hi. rewrite E1, app_length. apply in_app_or in Hi. destruct Hi as [Hi|Hi]; [specialize (B i Hi); lia|apply in_seq in Hi; lia].
Qed.

Lemma HT (ok : felem -> Prop) (Hok : forall fe, ok fe -> wf_f (fo fe)) fe x y fe' n : ok fe -> J fe -> fe_comp o fe x y = Ok fe' ->
  length y = n -> Forall (fun v => length v = n) x ->
  J fe' /\ (T fe' <~> T fe /\ forall k, k < n -> relaxed o rho (map (fun v => val rho v k) x) (val rho y k)).
Proof.
  intros Hf Hj H Ly Lx. unfold fe_comp in H. apply bind_ok in H. destruct H as (f' & Hf' & H). injection H as <-.
  destruct (cc_blank _ _ _ _ _ _ Hf') as (fb & Hb & Ha). split; [eapply J_adds; eauto|].
  pose proof (Hok _ Hf) as W. destruct (cc_sat rho o _ _ _ _ _ n Hb (blank_wf _ W) Ly Lx) as [Wb S].
  unfold T. cbn [fo with_fo]. rewrite (rows_adds (fo fe) f' fb W Wb Ha (proj2 Hj)), (feasible_cons rho fb Wb), S.
  assert (E : sat_cons rho (blank (fo fe)) <-> True).
  { split; [auto|]. intros _ e l u []. }
  rewrite E. split; [tauto|]. intros _. tauto.
Qed.
Lemma HC fe x : J fe -> J (with_fo fe (add_cost (fo fe) x)) /\ (T (with_fo fe (add_cost (fo fe) x)) <-> T fe).
Proof. intros Hj. split; [exact Hj|reflexivity]. Qed.
Lemma HE fe x lb ub f' : wf_f (fo fe) -> J fe -> add_constraint (fo fe) x lb ub = Ok f' -> J (with_fo fe f') /\ (T (with_fo fe f') <-> T fe).
Proof.
  intros W [A B] H. apply add_constraint_ok in H. destruct H as [[-> ->]|(_ & _ & _ & ->)].
  - unfold J, T. cbn. split; [split; [exact A|exact B]|reflexivity].
  - unfold J, T. cbn [fo with_fo g ind_comp]. split.
    + split; [exact A|]. intros i Hi. rewrite app_length. specialize (B i Hi). lia.
    + apply rows_grow; [exact W|exact B|]. cbn. eauto 7.
Qed.
End Comp.

(* forward_simulation adds no complementarity rows *)
Definition same_ic (a b : felem) : Prop := ind_comp (fo b) = ind_comp (fo a).
Lemma same_ic_refl a : same_ic a a.
Proof. reflexivity. Qed.
Lemma same_ic_trans a b c : same_ic a b -> same_ic b c -> same_ic a c.
Proof. unfold same_ic. congruence. Qed.
Lemma add_same f e lb ub f' : add_constraint f e lb ub = Ok f' -> ind_comp f' = ind_comp f.
Proof. intros H. apply add_constraint_ok in H. destruct H as [[-> ->]|(_ & _ & _ & ->)]; reflexivity. Qed.
Lemma fs_same o t pm oc nfe prev Uk sot fe fe' :
  forward_simulation o t pm oc nfe prev Uk sot fe = Ok fe' -> same_ic fe fe'.
Proof.
  intros H. destruct (forward_simulation_parts _ _ _ _ _ _ _ _ _ _ H) as
    [(Xf & xp & fe0 & X0 & fe1 & X1 & fe2 & fe3 & fe4 & _ & _ & H0 & _ & H1 & _ & H2 & _ & H3 & _ & H4 & _ & H5 & _)]. clear H.
  assert (S0 : same_ic fe fe0).
  { destruct (o_repr o); [destruct H0 as [-> _]; reflexivity|destruct H0 as [-> _]; reflexivity|]. destruct H0 as [H0 _]. revert H0.
    unfold lift_constraints. apply (foldM_le _ same_ic same_ic_refl same_ic_trans).
    intros s a s' _ Hs; inv_ok; subst. unfold same_ic. cbn. eapply add_same; eauto. }
  assert (S1 : same_ic fe0 fe1).
  { apply (foldM_le (fs_stage o t pm oc prev Uk sot Xf) (fun a b => same_ic (fst a) (fst b))
      (fun a => same_ic_refl (fst a)) (fun a b c => same_ic_trans (fst a) (fst b) (fst c))) in H1; [exact H1|].
    intros [a1 a2] j [b1 b2] _ Hs. cbn [fst]. unfold fs_stage in Hs. destruct (o_repr o); inv_ok; subst.
    all: match goal with H : _ = (_, _) |- _ => injection H as <- <- | _ => idtac end.
    all: unfold same_ic; cbn [fo with_fo add_cost ind_comp].
    all: repeat match goal with H : add_constraint _ _ _ _ = Ok _ |- _ => apply add_same in H end; congruence. }
  assert (S2 : same_ic fe1 fe2).
  { destruct (has_xend o t); [|subst; reflexivity]. destruct H2 as (xe & e & f' & _ & _ & Hf & ->). exact (add_same _ _ _ _ _ Hf). }
  assert (GP : forall Q a j b, gpath pm oc Xf Uk Q a j = Ok b -> same_ic a b).
  { unfold gpath. intros Q a j b Hg. inv_ok; subst. unfold same_ic. cbn. eapply add_same; eauto. }
  assert (S3 : same_ic fe2 fe3).
  { destruct (_ || _); [eapply GP; eauto|subst; reflexivity]. }
  assert (S4 : same_ic fe3 fe4).
  { destruct (o_g_path_at_stg o); [|subst; reflexivity]. revert H4. apply (foldM_le _ same_ic same_ic_refl same_ic_trans).
    intros s a s' _ Hs. eapply GP; eauto. }
  assert (S5 : same_ic fe4 fe').
  { destruct (_ && _); [|subst; reflexivity]. destruct H5 as (xe & z & gs & f' & _ & _ & _ & Hf & ->). exact (add_same _ _ _ _ _ Hf). }
  unfold same_ic in *. congruence.
Qed.

(* ---- where the rows of an element end up ---- *)
Definition placed (f' : fobj) (l : list (list nat)) (fe : felem) : Prop :=
  exists n, l = map (map (fun i => i + n)) (ind_comp (fo fe)) /\ n + length (g (fo fe)) <= length (g f') /\
    forall i, i < length (g (fo fe)) -> nth_error (g f') (i + n) = nth_error (g (fo fe)) i /\
      nth_error (lbg f') (i + n) = nth_error (lbg (fo fe)) i /\ nth_error (ubg f') (i + n) = nth_error (ubg (fo fe)) i.
Definition grows (f f' : fobj) : Prop :=
  exists a b d, g f' = g f ++ a /\ lbg f' = lbg f ++ b /\ ubg f' = ubg f ++ d /\ length b = length a /\ length d = length a.
Lemma grows_refl f : grows f f.
Proof. exists [], [], []. rewrite !app_nil_r. auto. Qed.
Lemma grows_trans a b c : grows a b -> grows b c -> grows a c.
Proof.
  intros (x1 & x2 & x3 & E1 & E2 & E3 & L1 & L2) (y1 & y2 & y3 & F1 & F2 & F3 & M1 & M2). exists (x1 ++ y1), (x2 ++ y2), (x3 ++ y3).
  rewrite F1, F2, F3, E1, E2, E3, <- !app_assoc, !app_length. repeat split; lia.
Qed.
Definition wg (f : fobj) : Prop := length (lbg f) = length (g f) /\ length (ubg f) = length (g f).
Lemma grows_wg f f' : grows f f' -> wg f -> wg f'.
Proof. intros (a & b & d & E1 & E2 & E3 & L1 & L2) [A B]. split; rewrite ?E1, ?E2, ?E3, !app_length; lia. Qed.
Lemma placed_grows f f' l fe : wg f -> grows f f' -> placed f l fe -> placed f' l fe.
Proof.
  intros [A B] (a & b & d & E1 & E2 & E3 & _ & _) (n & E & L & G). exists n. split; [exact E|].
  split; [rewrite E1, app_length; lia|]. intros i Hi. destruct (G i Hi) as (G1 & G2 & G3).
  rewrite E1, E2, E3, !nth_error_app1 by lia. auto.
Qed.
Lemma add_grows f e lb ub f' : add_constraint f e lb ub = Ok f' -> grows f f'.
Proof.
  intros H. apply add_constraint_ok in H. destruct H as [[-> ->]|(_ & L1 & L2 & ->)]; [apply grows_refl|].
  exists e, (bnd_or_zero lb (length e)), (bnd_or_zero ub (length e)). cbn. auto.
Qed.

Section Loops.
Variables (o : opts) (t : tab) (pm : pmodel) (oc : pocp).
Definition between (a b : nat) (l : list nat) : Prop := forall i, In i l -> a <= i < b.
Definition kJ (a b : felem) : Prop := J a -> J b.
Lemma kJ_refl a : kJ a a.
Proof. intros H; exact H. Qed.
Lemma kJ_trans a b c : kJ a b -> kJ b c -> kJ a c.
Proof. unfold kJ. auto. Qed.
Lemma fe_comp_J fe x y fe' : fe_comp o fe x y = Ok fe' -> kJ fe fe'.
Proof.
  intros H Hj. unfold fe_comp in H. apply bind_ok in H. destruct H as (f' & Hf' & H). injection H as <-.
  destruct (cc_blank _ _ _ _ _ _ Hf') as (fb & _ & Ha). eapply J_adds; eauto.
Qed.
Lemma ccc_J prev Uk fe fe' : create_complementarity_constraints o t pm oc prev Uk fe = Ok fe' -> kJ fe fe'.
Proof.
  unfold create_complementarity_constraints. intros H.
  apply bind_ok in H; destruct H as (Xf & HX & H).
  apply bind_ok in H; destruct H as (fe1 & H1 & H).
  apply bind_ok in H; destruct H as (fe2 & H2 & H).
  assert (L1 : kJ fe fe1).
  { revert H1. apply (foldM_le _ kJ kJ_refl kJ_trans). intros s a s' _ Hs; inv_ok. eapply fe_comp_J; eauto. }
  assert (L2 : kJ fe1 fe2).
  { destruct (_ =? _); inv_ok; subst; [eapply fe_comp_J; eauto|apply kJ_refl]. }
  eapply kJ_trans; [eassumption|]. eapply kJ_trans; [eassumption|].
  destruct (negb (o_use_fesd o)); [|destruct (o_cross o)]; revert H;
  apply (foldM_le _ kJ kJ_refl kJ_trans); intros s a s' _ Hs; inv_ok.
  - eapply fe_comp_J; eauto.
  - eapply kJ_trans; [eapply fe_comp_J; eassumption|].
    match goal with H : foldM _ _ _ = Ok s' |- _ => revert H end.
    apply (foldM_le _ kJ kJ_refl kJ_trans). intros s1 b s2 _ Hs2; inv_ok. eapply fe_comp_J; eauto.
  - eapply fe_comp_J; eauto.
Qed.
Lemma add_J fe x lb ub f' : add_constraint (fo fe) x lb ub = Ok f' -> kJ fe (with_fo fe f').
Proof.
  intros H [A B]. apply add_constraint_ok in H. destruct H as [[-> ->]|(_ & _ & _ & ->)]; unfold J; cbn; split; auto.
  intros i Hi. rewrite app_length. specialize (B i Hi). lia.
Qed.
Lemma step_J nfe pprev prev fe fe' : step_equilibration o nfe pprev prev fe = Ok fe' -> kJ fe fe'.
Proof.
  unfold step_equilibration. intros H.
  assert (AC : forall e, kJ fe (with_fo fe (add_cost (fo fe) e))) by (intros e Hj; exact Hj).
  destruct (negb (o_use_fesd o)); [inv_ok; subst; apply kJ_refl|].
  destruct (o_step_eq o); [inv_ok; subst; apply AC|..];
  (destruct (fe_idx fe =? 0); [inv_ok; subst; apply kJ_refl|]);
  inv_ok; subst; try apply AC; try (eapply fe_comp_J; eassumption).
  eapply add_J; eauto.
Qed.
Lemma fs_J nfe prev Uk sot fe fe' : ind_comp (fo fe) = [] -> forward_simulation o t pm oc nfe prev Uk sot fe = Ok fe' -> J fe'.
Proof.
  intros E H. apply fs_same in H. unfold same_ic in H. unfold J. rewrite H, E. cbn. split; [constructor|intros i []].
Qed.
Lemma fsteps_good nfe Uk sot pp p s fe : ind_comp (fo s) = [] -> wf_f (fo s) -> fsteps o t pm oc nfe Uk sot pp p s fe -> wg (fo fe) /\ J fe.
Proof.
  intros E W ST. split.
  - pose proof (fsteps_le _ _ _ _ _ _ _ _ _ _ _ ST) as [L3 _]. exact (proj2 (fo_le_wf _ _ _ _ L3 W)).
  - destruct ST as (fe1 & fe2 & F1 & F2 & F3). apply (step_J _ _ _ _ _ F3), (ccc_J _ _ _ _ F2). exact (fs_J _ _ _ _ _ _ E F1).
Qed.

Lemma process_fe_ic nfe Uk sot f pp p done ic s r :
  wg f -> process_fe o t pm oc nfe Uk sot (f, pp, p, done, ic) s = Ok r ->
  ind_comp (fo s) = [] -> wf_f (fo s) ->
  exists f' fe l, r = (f', p, fe, done ++ [fe], ic ++ [l]) /\ fsteps o t pm oc nfe Uk sot pp p s fe /\ grows f f' /\
    placed f' l fe /\ incr (concat l) /\ between (length (g f)) (length (g f')) (concat l).
Proof.
  intros W H Ei Ws. unfold process_fe in H.
  apply bind_ok in H; destruct H as (fe1 & F1 & H).
  apply bind_ok in H; destruct H as (fe2 & F2 & H).
  apply bind_ok in H; destruct H as (fe3 & F3 & H).
  apply bind_ok in H; destruct H as (f2 & F4 & H). injection H as <-.
  assert (ST : fsteps o t pm oc nfe Uk sot pp p s fe3) by (exists fe1, fe2; auto).
  destruct (fsteps_good _ _ _ _ _ _ _ Ei Ws ST) as [[A1 A2] [B1 B2]].
  exists f2, fe3. eexists. split; [reflexivity|]. split; [exact ST|].
  assert (GR : grows f f2) by exact (add_grows _ _ _ _ _ F4). split; [exact GR|].
  change (length (g (add_cost f (cost (fo fe3))))) with (length (g f)).
  assert (EG : g f2 = g f ++ g (fo fe3) /\ lbg f2 = lbg f ++ lbg (fo fe3) /\ ubg f2 = ubg f ++ ubg (fo fe3)).
  { apply add_constraint_ok in F4. destruct F4 as [[E ->]|(_ & _ & _ & ->)]; [|cbn; auto].
    rewrite E in *. cbn in *. rewrite (proj1 (length_zero_iff_nil _) A1), (proj1 (length_zero_iff_nil _) A2), !app_nil_r. auto. }
  destruct EG as (E1 & E2 & E3). destruct W as [W1 W2].
  split; [|split].
  - exists (length (g f)). split; [reflexivity|]. split; [rewrite E1, app_length; lia|]. intros i Hi.
    rewrite E1, E2, E3, !nth_error_app2 by lia. rewrite W1, W2, !Nat.add_sub. auto.
  - rewrite concat_shift. apply incr_shift. exact B1.
  - rewrite concat_shift. intros i Hi. apply in_map_iff in Hi. destruct Hi as (k & <- & Hk). specialize (B2 k Hk).
    rewrite E1, app_length. lia.
Qed.
Lemma incr_join a b x y z : incr a -> incr b -> between x y a -> between y z b -> x <= y -> y <= z -> incr (a ++ b) /\ between x z (a ++ b).
Proof.
  intros A B C D H1 H2. split; [apply incr_app; auto|].
  - intros i j Hi Hj. specialize (C i Hi). specialize (D j Hj). lia.
  - intros i Hi. apply in_app_or in Hi. destruct Hi as [Hi|Hi]; [specialize (C i Hi)|specialize (D i Hi)]; lia.
Qed.
Lemma grows_len f f' : grows f f' -> length (g f) <= length (g f').
Proof. intros (a & b & d & E1 & _). rewrite E1, app_length. lia. Qed.

Definition fresh_fe (s : felem) : Prop := ind_comp (fo s) = [] /\ wf_f (fo s).
Lemma process_fold_ic nfe Uk sot l : forall f pp p done ic f' pp' p' done' ic',
  wg f -> (forall s, In s l -> fresh_fe s) ->
  foldM (process_fe o t pm oc nfe Uk sot) l (f, pp, p, done, ic) = Ok (f', pp', p', done', ic') ->
  exists ds is, done' = done ++ ds /\ ic' = ic ++ is /\ grows f f' /\ Forall2 (placed f') is ds /\
    incr (concat (concat is)) /\ between (length (g f)) (length (g f')) (concat (concat is)).
Proof.
  induction l as [|s l IH]; intros f pp p done ic f' pp' p' done' ic' W Ws H; cbn [foldM] in H.
  - injection H as <- <- <- <- <-. exists [], []. rewrite !app_nil_r. split; [reflexivity|]. split; [reflexivity|].
    split; [apply grows_refl|]. split; [constructor|]. cbn. split; [constructor|intros i []].
  - apply bind_ok in H. destruct H as (r1 & H1 & H). destruct (Ws s (or_introl eq_refl)) as [F1 F2].
    destruct (process_fe_ic _ _ _ _ _ _ _ _ _ _ W H1 F1 F2) as (f1 & fe & li & -> & _ & G1 & P1 & I1 & B1).
    pose proof (grows_wg _ _ G1 W) as W1.
    apply IH in H; [|exact W1|intros; apply Ws; right; assumption].
    destruct H as (ds & is & -> & -> & G2 & P2 & I2 & B2). exists (fe :: ds), (li :: is). rewrite <- !app_assoc.
    split; [reflexivity|]. split; [reflexivity|]. split; [eapply grows_trans; eauto|].
    split; [constructor; [eapply placed_grows; eauto|exact P2]|].
    cbn [concat]. rewrite concat_app. exact (incr_join _ _ _ _ _ I1 I2 B1 B2 (grows_len _ _ G1) (grows_len _ _ G2)).
Qed.

Lemma process_stages_ic P0 l : forall f pp p done ics f' pp' p' done' ics',
  wg f -> (forall c st s, In (c, st) l -> In s st -> fresh_fe s) ->
  foldM (process_stage o t pm oc P0) l (f, pp, p, done, ics) = Ok (f', pp', p', done', ics') ->
  exists es is, done' = done ++ es /\ ics' = ics ++ is /\ grows f f' /\ Forall2 (Forall2 (placed f')) is es /\
    incr (concat (concat (concat is))) /\ between (length (g f)) (length (g f')) (concat (concat (concat is))).
Proof.
  induction l as [|[c st] l IH]; intros f pp p done ics f' pp' p' done' ics' W Ws H; cbn [foldM] in H.
  - injection H as <- <- <- <- <-. exists [], []. rewrite !app_nil_r. split; [reflexivity|]. split; [reflexivity|].
    split; [apply grows_refl|]. split; [constructor|]. cbn. split; [constructor|intros i []].
  - apply bind_ok in H. destruct H as (r1 & H1 & H). unfold process_stage in H1.
    apply bind_ok in H1; destruct H1 as (iu & E1 & H1).
    apply bind_ok in H1; destruct H1 as (Us & E2 & H1).
    apply bind_ok in H1; destruct H1 as (sot & E3 & H1).
    apply bind_ok in H1; destruct H1 as (nfe & E4 & H1).
    apply bind_ok in H1; destruct H1 as ([[[[f1 pp1] p1] fes] ic] & E5 & H1).
    apply bind_ok in H1; destruct H1 as (f2 & E6 & H1).
    apply bind_ok in H1; destruct H1 as (f3 & E7 & H1). injection H1 as <-.
    destruct (process_fold_ic _ _ _ _ _ _ _ _ _ _ _ _ _ _ W (fun s Hs => Ws c st s (or_introl eq_refl) Hs) E5) as (ds & is & -> & -> & G1 & P1 & I1 & B1).
    cbn [app] in *.
    assert (G2 : grows f1 f2) by (destruct (_ && _); [eapply add_grows; eauto|injection E6 as <-; apply grows_refl]).
    assert (G3 : grows f2 f3).
    { destruct (o_time_freezing o && _); [|injection E7 as <-; apply grows_refl]. inv_ok. eapply add_grows; eauto. }
    pose proof (grows_wg _ _ G1 W) as W1. pose proof (grows_wg _ _ G2 W1) as W2. pose proof (grows_wg _ _ G3 W2) as W3.
    apply IH in H; [|exact W3|intros; eapply Ws; [right; eassumption|eassumption]].
    destruct H as (es & is' & -> & -> & G4 & P4 & I4 & B4). exists (ds :: es), (is :: is'). rewrite <- !app_assoc.
    split; [reflexivity|]. split; [reflexivity|].
    assert (G14 : grows f1 f') by (eapply grows_trans; [exact G2|eapply grows_trans; [exact G3|exact G4]]).
    split; [eapply grows_trans; eauto|].
    split; [constructor; [|exact P4]|].
    + eapply Forall2_impl; [|exact P1]. intros a b Hab. exact (placed_grows _ _ _ _ W1 G14 Hab).
    + cbn [concat]. rewrite !concat_app.
      assert (G13 : grows f f3) by (eapply grows_trans; [exact G1|eapply grows_trans; [exact G2|exact G3]]).
      refine (incr_join _ _ _ _ _ I1 I4 _ B4 (grows_len _ _ G13) (grows_len _ _ G4)).
      intros i Hi. specialize (B1 i Hi). pose proof (grows_len _ _ (grows_trans _ _ _ G2 G3)). lia.
Qed.
End Loops.

Section Sem.
Variables (o : opts) (t : tab) (m : model) (pm : pmodel) (oc : ocp) (po : pocp) (rho : env).
Hypothesis K : pmodel_ok o m pm.
Hypothesis KO : pocp_ok pm oc po.
Hypothesis WS : well_sized m.
Notation nfes := (o_Nfe_list o).
Notation N := (o_N_stages o).
Notation "A <~> B" := (iffm o A B) (at level 95, no associativity).
Variables (P : prob) (stages : list (list felem)) (lastfe : felem) (f1 : fobj).
Hypothesis B : body_ok o t pm po P stages lastfe f1.

Lemma elem_comp c e nfe fe ends : c < N -> nth_error nfes c = Some nfe -> nth_error stages c = Some ends -> nth_error ends e = Some fe ->
  J fe /\ (T rho fe <~> element_comp o t m oc rho c e).
Proof.
  intros Hc Hn Hs He. destruct (get_fe_ok _ _ _ _ _ _ _ _ B c e nfe ends fe Hs He Hn) as [_ Hlt].
  destruct (get_elem _ _ _ _ _ _ _ _ B c nfe e Hc Hn Hlt) as (qq & q & s & fe' & (E1 & E2 & (st & E3 & E4) & E5 & _ & E6) & _ & _).
  assert (fe' = fe) by congruence. subst fe'.
  pose proof (fe_make_ok _ _ _ _ _ _ _ _ E1) as Os. destruct (fe_make_rest _ _ _ _ _ _ _ _ E1) as (_ & _ & _ & _ & G5 & _).
  destruct E2 as (fe1 & fe2 & F1 & F2 & F3).
  assert (O1 : fe_ok o t pm po c e nfe fe1) by (eapply fe_ok_le; [exact Os|eapply forward_simulation_le; exact F1]).
  assert (O2 : fe_ok o t pm po c e nfe fe2) by (eapply fe_ok_le; [exact O1|eapply create_complementarity_constraints_le; exact F2]).
  pose proof (fs_J _ _ _ _ _ _ _ _ _ _ G5 F1) as J1.
  assert (T1 : T rho fe1).
  { unfold T. apply fs_same in F1. unfold same_ic in F1. rewrite F1, G5. intros i x l u []. }
  pose proof (ns_pos o t pm po P stages lastfe f1 B) as NS.
  assert (HT' := HT o rho (fe_ok o t pm po c e nfe) (fun fe H => ok_wf _ _ _ _ _ _ _ _ H)).
  destruct (complementarity_gen o t m pm oc po rho K KO WS NS c e nfe q Hn Hlt E5 J (T rho) HT' fe1 fe2 (conj O1 J1) F2) as (S2 & _ & [_ J2]).
  destruct (step_equilibration_gen o t m pm po rho K NS c e nfe q Hn Hlt E5 qq E6 J (T rho) HT' (HC rho)
     (fun fe x f' H => HE rho fe x None None f' (ok_wf _ _ _ _ _ _ _ _ H)) fe2 fe O2 J2 F3) as [J3 S3].
  split; [exact J3|]. rewrite S3, S2. unfold element_comp. split; [tauto|]. intros _. tauto.
Qed.

Lemma body_ic : exists is, p_ind_comp P = is /\ grows f1 (pb P) /\ Forall2 (Forall2 (placed f1)) is stages /\
  incr (concat (concat (concat is))) /\ (forall i, In i (concat (concat (concat is))) -> i < length (g f1)) /\ wg f1.
Proof.
  destruct (bo_comp _ _ _ _ _ _ _ _ B) as (P0 & pp & KP & H).
  assert (W0 : wg (pb P0)) by exact (proj2 (pk_wf _ _ _ _ _ KP)).
  assert (FR : forall c st s, In (c, st) (combine (seq 0 (length (p_stages P0))) (p_stages P0)) -> In s st -> fresh_fe s).
  { intros c st s Hin Hs. apply In_nth_error in Hin. destruct Hin as [k Hk]. apply nth_error_combine_inv in Hk. destruct Hk as [_ Hk].
    pose proof (nth_error_Some_lt _ _ _ Hk) as L. rewrite (pk_stages _ _ _ _ _ KP) in L.
    destruct (pk_stage _ _ _ _ _ KP k L) as (fes & Ef & Hcr). assert (fes = st) by congruence. subst fes.
    destruct Hcr as (nfe & _ & _ & Hm). destruct (mapM_In_inv _ _ _ _ Hm Hs) as (e & _ & He).
    split; [apply (fe_make_rest _ _ _ _ _ _ _ _ He)|]. apply fe_make_ok in He. apply (ok_wf _ _ _ _ _ _ _ _ He). }
  destruct (process_stages_ic o t pm po P0 _ _ _ _ _ _ _ _ _ _ _ W0 FR H) as (es & is & E1 & E2 & G & F & I & Bt).
  cbn [app] in E1, E2. subst es. exists is. split; [exact E2|].
  split; [|split; [exact F|split; [exact I|split; [intros i Hi; apply (Bt i Hi)|eapply grows_wg; eauto]]]].
  destruct (wf_f6 _ _ _ _ _ _ _ _ B) as (f6 & _ & L & (_ & _ & _ & _ & A5 & A6 & A7 & _) & _).
  destruct L as [_ _ (x & l & u & D1 & D2 & D3 & D4 & D5)]. exists x, l, u. rewrite A5, A6, A7. auto.
Qed.

Lemma placed_rows f l fe : wg (fo fe) -> J fe -> placed f l fe -> (rows_hold rho f (concat l) <-> T rho fe).
Proof.
  intros [W1 W2] [_ Hj] (n & -> & _ & G). rewrite concat_shift. unfold T, rows_hold. split.
  - intros A i x lo u Hi Hx Hl Hu. destruct (G i (Hj i Hi)) as (G1 & G2 & G3). apply (A (i + n)); try congruence.
    apply in_map_iff. eauto.
  - intros A i x lo u Hi Hx Hl Hu. apply in_map_iff in Hi. destruct Hi as (k & <- & Hk). destruct (G k (Hj k Hk)) as (G1 & G2 & G3).
    apply (A k x lo u Hk); congruence.
Qed.

Lemma body_ind_comp : length (p_ind_comp P) = N /\
  incr (concat (concat (concat (p_ind_comp P)))) /\
  (forall i, In i (concat (concat (concat (p_ind_comp P)))) -> i < length (g (pb P))) /\
  forall c nfe, nth_error nfes c = Some nfe -> c < N -> exists ls, nth_error (p_ind_comp P) c = Some ls /\ length ls = nfe /\
    forall e l, nth_error ls e = Some l -> (rows_hold rho (pb P) (concat l) <~> element_comp o t m oc rho c e).
Proof.
  destruct body_ic as (is & -> & G & F & I & Bt & W).
  pose proof (stages_length _ _ _ _ _ _ _ _ B) as SL. pose proof (Forall2_length _ _ _ F) as FL.
  split; [congruence|]. split; [exact I|].
  split; [intros i Hi; pose proof (grows_len _ _ G); specialize (Bt i Hi); lia|].
  intros c nfe Hn Hc. destruct (stage_get _ _ _ _ _ _ _ _ B c Hc) as (ends & nfe' & Hn' & _ & Hs & Le).
  assert (Ln : length ends = nfe) by congruence. clear Le Hn' nfe'.
  destruct (nth_error is c) as [ls|] eqn:El; [|apply nth_error_None in El; lia].
  exists ls. split; [reflexivity|]. destruct (Forall2_nth _ _ _ _ _ F El) as (ends' & Hs' & F2).
  assert (ends' = ends) by congruence. subst ends'. split; [rewrite (Forall2_length _ _ _ F2); exact Ln|].
  intros e l Hl. destruct (Forall2_nth _ _ _ _ _ F2 Hl) as (fe & He & Pl).
  destruct (elem_comp c e nfe fe ends Hc Hn Hs He) as [Jf S]. rewrite <- S.
  destruct (get_fe_ok _ _ _ _ _ _ _ _ B c e nfe ends fe Hs He Hn) as [Of _].
  rewrite (placed_rows _ _ _ (proj2 (ok_wf _ _ _ _ _ _ _ _ Of)) Jf (placed_grows _ _ _ _ W G Pl)). apply iff_iffm. reflexivity.
Qed.
End Sem.

(* ---- from construct_problem ---- *)
Section Con.
Variables (lr : Q -> Q -> Q -> nat) (cp : nat -> scheme -> list Q) (d : ipopt_dict) (o : opts) (m : model)
  (oc : option ocp) (C : constructed).
Hypothesis H : construct_problem lr cp d o m oc = Ok C.
Hypothesis Ex : o_constr o = Exact.
Hypothesis WS : well_sized m.

Theorem con_ind_comp rho : length (p_ind_comp (the_problem C)) = o_N_stages (the_opts C) /\
  incr (concat (concat (concat (p_ind_comp (the_problem C))))) /\
  (forall i, In i (concat (concat (concat (p_ind_comp (the_problem C))))) -> i < length (g (the_nlp C))) /\
  forall c nfe, nth_error (o_Nfe_list (the_opts C)) c = Some nfe -> c < o_N_stages (the_opts C) ->
    exists ls, nth_error (p_ind_comp (the_problem C)) c = Some ls /\ length ls = nfe /\
    forall e l, nth_error ls e = Some l ->
      iffm o (rows_hold rho (the_nlp C) (concat l)) (element_comp (the_opts C) (cn_tab C) m (the_ocp oc) rho c e).
Proof.
  destruct (con_use lr cp d o m oc C H) as (o' & t & pm & po & P & st & lf & f1 & KC & B & Eo & _ & _).
  destruct (lsq_same _ _ _ (co_lsq _ _ _ _ _ _ _ _ _ _ _ _ KC)) as (_ & _ & _ & _ & _ & _ & _ & _ & _ & _ & _ & _ & _ & _ & _ & _ & _ & _ & _ & L).
  destruct (kept_mpcc lr cp d o m oc C H) as [E1 E2]. unfold the_nlp. rewrite Eo in *. rewrite (L ltac:(congruence)).
  rewrite (co_t _ _ _ _ _ _ _ _ _ _ _ _ KC).
  destruct (body_ind_comp o' t m pm (the_ocp oc) po rho (co_mo _ _ _ _ _ _ _ _ _ _ _ _ KC) (co_po _ _ _ _ _ _ _ _ _ _ _ _ KC) WS P st lf f1 B) as (A1 & A2 & A3 & A4).
  split; [exact A1|]. split; [exact A2|]. split; [exact A3|]. intros c nfe Hn Hc.
  destruct (A4 c nfe Hn Hc) as (ls & D1 & D2 & D3). exists ls. split; [exact D1|]. split; [exact D2|].
  intros e l Hl. destruct (D3 e l Hl) as [X Y]. split; [exact X|]. intros HB. apply Y. congruence.
Qed.
End Con.

Section Con2.
Variables (lr : Q -> Q -> Q -> nat) (cp : nat -> scheme -> list Q) (d : ipopt_dict) (o : opts) (m : model)
  (oc : option ocp) (C : constructed).
Hypothesis H : construct_problem lr cp d o m oc = Ok C.
Hypothesis Ex : o_constr o = Exact.
Hypothesis WS : well_sized m.
Notation ic := (p_ind_comp (the_problem C)).

Lemma con_ind_comp_places : length ic = o_N_stages (the_opts C) /\
  (forall c nfe, nth_error (o_Nfe_list (the_opts C)) c = Some nfe -> c < o_N_stages (the_opts C) ->
     exists ls, nth_error ic c = Some ls /\ length ls = nfe) /\
  incr (concat (concat (concat ic))) /\ (forall i, In i (concat (concat (concat ic))) -> i < length (g (the_nlp C))).
Proof.
  destruct (con_ind_comp lr cp d o m oc C H Ex WS (fun _ => 0%R)) as (A1 & A2 & A3 & A4).
  split; [exact A1|]. split; [|split; [exact A2|exact A3]].
  intros c nfe Hn Hc. destruct (A4 c nfe Hn Hc) as (ls & B1 & B2 & _). eauto.
Qed.
Lemma con_ind_comp_both rho c e l : c < o_N_stages (the_opts C) -> at2 ic c e = Some l ->
  iffm o (rows_hold rho (the_nlp C) (concat l)) (element_comp (the_opts C) (cn_tab C) m (the_ocp oc) rho c e).
Proof.
  intros Hc Hl. destruct (con_ind_comp lr cp d o m oc C H Ex WS rho) as (A1 & _ & _ & A4).
  destruct (con_use lr cp d o m oc C H) as (o' & t & pm & po & P & st & lf & f1 & KC & B & Eo & _ & _).
  rewrite Eo in *. destruct (stage_nfe _ _ _ _ _ _ _ _ B c Hc) as (nfe & Hn & _).
  destruct (A4 c nfe Hn Hc) as (ls & B1 & _ & B3). unfold at2 in Hl. rewrite B1 in Hl. exact (B3 e l Hl).
Qed.
Lemma con_ind_comp_rows : o_mpcc o <> MBoolean -> forall rho c e l, c < o_N_stages (the_opts C) -> at2 ic c e = Some l ->
  (rows_hold rho (the_nlp C) (concat l) <-> element_comp (the_opts C) (cn_tab C) m (the_ocp oc) rho c e).
Proof. intros HB rho c e l Hc Hl. destruct (con_ind_comp_both rho c e l Hc Hl) as [A B]. split; [exact A|exact (B HB)]. Qed.
Lemma con_ind_comp_rows_bool rho c e l : c < o_N_stages (the_opts C) -> at2 ic c e = Some l ->
  rows_hold rho (the_nlp C) (concat l) -> element_comp (the_opts C) (cn_tab C) m (the_ocp oc) rho c e.
Proof. intros Hc Hl. apply (con_ind_comp_both rho c e l Hc Hl). Qed.
End Con2.
