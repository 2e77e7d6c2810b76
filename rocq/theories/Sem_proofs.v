(* Sem_proofs.v -- what added constraints mean for a point *)
From Coq Require Import Reals Qreals Lra Morphisms.
From Verif Require Import Base Lib Sx Sx_proofs Utils Tableau Opts Model Ocp Problem Spec Fesd Fo_proofs Fe_proofs
  FeMake_proofs FeSel_proofs.

(* ---- values of vectors ---- *)
Definition isvec (rho : env) (n : nat) (x : nat -> R) (a : list expr) : Prop :=
  Forall2 (fun i e => eval rho e = x i) (seq 0 n) a.

Lemma isvec_length rho n x a : isvec rho n x a -> length a = n.
Proof. intros H. apply Forall2_length in H. rewrite seq_length in H. auto. Qed.

Lemma Forall2_nth_iff {A B} (P : A -> B -> Prop) l1 : forall l2,
  Forall2 P l1 l2 <-> length l1 = length l2 /\
  forall k a b, nth_error l1 k = Some a -> nth_error l2 k = Some b -> P a b.
Proof.
  induction l1 as [|a l1 IH]; intros [|b l2]; split.
  - intros _; split; auto. intros [|k]; discriminate.
  - constructor.
  - intros H; inversion H.
  - intros [H _]; discriminate.
  - intros H; inversion H.
  - intros [H _]; discriminate.
  - intros H; inversion H; subst. apply IH in H5. destruct H5 as [L K]. split; [cbn; lia|].
    intros [|k] x y; cbn; intros; [congruence|eauto].
  - intros [L K]. constructor; [apply (K 0); reflexivity|]. apply IH. split; [cbn in L; lia|].
    intros k x y Hx Hy. apply (K (S k)); assumption.
Qed.

Lemma isvec_iff rho n x a : isvec rho n x a <-> length a = n /\
  forall i e, nth_error a i = Some e -> eval rho e = x i.
Proof.
  unfold isvec. rewrite Forall2_nth_iff, seq_length. split; intros [L K]; split; auto.
  - intros i e He. apply (K i); auto. pose proof (nth_error_Some_lt _ _ _ He).
    rewrite nth_error_seq by lia. reflexivity.
  - intros k i e Hi He. pose proof (nth_error_Some_lt _ _ _ Hi) as Hk. rewrite seq_length in Hk.
    rewrite nth_error_seq in Hi by lia. injection Hi as <-. apply K; assumption.
Qed.

Lemma isvec_nth rho n x a i : isvec rho n x a -> i < n ->
  exists e, nth_error a i = Some e /\ eval rho e = x i.
Proof.
  intros H Hi. apply isvec_iff in H; destruct H as [L K].
  destruct (nth_error_lt a i ltac:(lia)) as [e He]. eauto.
Qed.

Lemma isvec_ext rho n x y a : (forall i, i < n -> x i = y i) -> isvec rho n x a -> isvec rho n y a.
Proof.
  intros E H. apply isvec_iff in H; destruct H as [L K]. apply isvec_iff; split; auto.
  intros i e He. rewrite (K i e He). apply E. pose proof (nth_error_Some_lt _ _ _ He); lia.
Qed.

Lemma isvec_vars rho n (f : nat -> sym) : isvec rho n (fun i => rho (f i)) (vars (map f (seq 0 n))).
Proof.
  unfold isvec, vars. rewrite map_map, Forall2_map_r. apply Forall2_refl_in. reflexivity.
Qed.

Lemma isvec_vbin rho n o x y a b r :
  isvec rho n x a -> isvec rho n y b -> vbin o a b = Ok r -> isvec rho n (fun i => eval_bin o (x i) (y i)) r.
Proof.
  intros Ha Hb H. apply isvec_iff in Ha; destruct Ha as [La Ka]. apply isvec_iff in Hb; destruct Hb as [Lb Kb].
  assert (LL : length a = length b) by lia.
  apply isvec_iff. rewrite (vbin_length_same _ _ _ _ LL H). split; auto.
  intros i e He.
  pose proof (nth_error_Some_lt _ _ _ He) as Hi. rewrite (vbin_length_same _ _ _ _ LL H) in Hi.
  destruct (nth_error_lt a i ltac:(lia)) as [ea Hea]. destruct (nth_error_lt b i ltac:(lia)) as [eb Heb].
  rewrite (vbin_nth _ _ _ _ _ _ _ LL H Hea Heb) in He. injection He as <-.
  cbn. rewrite (Ka _ _ Hea), (Kb _ _ Heb). reflexivity.
Qed.

Lemma isvec_vscale rho n k x a : isvec rho n x a -> isvec rho n (fun i => (eval rho k * x i)%R) (vscale k a).
Proof.
  intros Ha. apply isvec_iff in Ha; destruct Ha as [La Ka]. apply isvec_iff. unfold vscale.
  rewrite map_length. split; auto. intros i e He. rewrite nth_error_map in He.
  destruct (nth_error a i) as [ea|] eqn:Ea; [|discriminate]. injection He as <-. cbn. rewrite (Ka _ _ Ea). reflexivity.
Qed.

Lemma rsum_app a b : rsum (a ++ b) = (rsum a + rsum b)%R.
Proof. unfold rsum. induction a as [|x a IH]; cbn [app fold_right]; [|rewrite IH]; lra. Qed.
Lemma Rsum_rsum l : Rsum l = rsum l.
Proof. unfold rsum. induction l as [|a l IH]; cbn; [|rewrite IH]; reflexivity. Qed.
Lemma rsum_nil : rsum [] = 0%R. Proof. reflexivity. Qed.
Lemma rsum_cons x l : rsum (x :: l) = (x + rsum l)%R. Proof. reflexivity. Qed.

Lemma foldM_isvec {A} rho n (f : list expr -> A -> res (list expr)) (T : A -> nat -> R) l :
  (forall a acc acc' y, In a l -> isvec rho n y acc -> f acc a = Ok acc' -> isvec rho n (fun i => (y i + T a i)%R) acc') ->
  forall x0 init r, isvec rho n x0 init -> foldM f l init = Ok r ->
  isvec rho n (fun i => (x0 i + rsum (map (fun a => T a i) l))%R) r.
Proof.
  induction l as [|a l IH]; intros Hf x0 init r H0 H; cbn [foldM] in H.
  - injection H as <-. eapply isvec_ext; [|exact H0]. intros; cbn [map]; rewrite rsum_nil; lra.
  - apply bind_ok in H. destruct H as (acc & Ha & H).
    assert (H1 : isvec rho n (fun i => (x0 i + T a i)%R) acc) by (eapply Hf; eauto; left; reflexivity).
    eapply isvec_ext; [|eapply IH; [|exact H1|exact H]].
    + intros i Hi; cbn [map]; rewrite rsum_cons; lra.
    + intros; eapply Hf; eauto; right; assumption.
Qed.

Lemma isvec_all0 rho n x a : isvec rho n x a -> ((forall e, In e a -> eval rho e = 0%R) <-> forall i, i < n -> x i = 0%R).
Proof.
  intros H. split.
  - intros K i Hi. destruct (isvec_nth _ _ _ _ i H Hi) as (e & He & <-). apply K. eapply nth_error_In; eauto.
  - intros K e He. apply In_nth_error in He. destruct He as [i Hi]. apply isvec_iff in H. destruct H as [L Kx].
    rewrite (Kx _ _ Hi). apply K. rewrite <- L. eapply nth_error_Some_lt; eauto.
Qed.

(* ---- constraints ---- *)
Section Sat.
Variable rho : env.

Lemma add_constraint_cons f e lb ub f' : wf_f f -> add_constraint f e lb ub = Ok f' ->
  cons f' = cons f ++ combine e (combine (bnd_or_zero lb (length e)) (bnd_or_zero ub (length e))).
Proof.
  intros [_ [W1 W2]] H. apply add_constraint_ok in H. destruct H as [[-> ->]|(_ & H1 & H2 & ->)].
  - cbn. rewrite app_nil_r. reflexivity.
  - unfold cons; cbn. rewrite combine_app by lia. rewrite combine_app by (rewrite combine_length; lia). reflexivity.
Qed.

Lemma add_constraint_wf f e lb ub f' : wf_f f -> add_constraint f e lb ub = Ok f' -> wf_f f'.
Proof.
  intros W H. destruct W as [W1 [W2 W3]]. apply add_constraint_ok in H.
  destruct H as [[_ ->]|(_ & L1 & L2 & ->)]; [split; [|split]; assumption|].
  split; [exact W1|]. split; cbn; rewrite !app_length; lia.
Qed.

Lemma add_constraint_sat f e lb ub f' : wf_f f -> add_constraint f e lb ub = Ok f' ->
  (sat_cons rho f' <-> sat_cons rho f /\
   forall i x l u, nth_error e i = Some x -> nth_error (bnd_or_zero lb (length e)) i = Some l ->
     nth_error (bnd_or_zero ub (length e)) i = Some u -> in_bnds l u (eval rho x)).
Proof.
  intros W H. pose proof (add_constraint_cons _ _ _ _ _ W H) as HC. unfold sat_cons. rewrite HC. split.
  - intros S. split; [intros; apply S; apply in_or_app; auto|].
    intros i x l u Hx Hl Hu. apply S. apply in_or_app; right. apply nth_error_In with (n := i).
    apply nth_error_combine; [assumption|]. apply nth_error_combine; assumption.
  - intros [S1 S2] x l u Hin. apply in_app_or in Hin. destruct Hin as [Hin|Hin]; [auto|].
    apply In_nth_error in Hin. destruct Hin as [i Hi].
    apply nth_error_combine_inv in Hi. destruct Hi as [Hx Hi]. apply nth_error_combine_inv in Hi. destruct Hi as [Hl Hu].
    eauto.
Qed.

Lemma in_bnds_0 v : in_bnds (Fin 0) (Fin 0) v <-> v = 0%R.
Proof. unfold in_bnds. rewrite Q2R_0. split; intros; lra. Qed.

Lemma add_constraint_eq_sat f e f' : wf_f f -> add_constraint f e None None = Ok f' ->
  (sat_cons rho f' <-> sat_cons rho f /\ forall x, In x e -> eval rho x = 0%R).
Proof.
  intros W H. rewrite (add_constraint_sat _ _ _ _ _ W H). cbn.
  split; intros [S1 S2]; (split; [exact S1|]).
  - intros x Hx. apply In_nth_error in Hx. destruct Hx as [i Hi].
    pose proof (nth_error_Some_lt _ _ _ Hi). apply in_bnds_0.
    apply (S2 i x); auto; apply nth_error_repeat'; assumption.
  - intros i x l u Hx Hl Hu. pose proof (nth_error_Some_lt _ _ _ Hx).
    unfold zerosx in *. rewrite nth_error_repeat' in Hl, Hu by assumption. injection Hl as <-. injection Hu as <-.
    apply in_bnds_0. apply S2. eapply nth_error_In; eauto.
Qed.

Lemma add_constraint_vec_sat f e f' n x : wf_f f -> isvec rho n x e -> add_constraint f e None None = Ok f' ->
  (sat_cons rho f' <-> sat_cons rho f /\ forall i, i < n -> x i = 0%R).
Proof.
  intros W HI H. rewrite (add_constraint_eq_sat _ _ _ W H), (isvec_all0 _ _ _ _ HI). reflexivity.
Qed.

Lemma add_comp_sat f e lb ub f' : wf_f f -> add_constraint_comp f e lb ub = Ok f' ->
  wf_f f' /\
  (sat_cons rho f' <-> sat_cons rho f /\
   forall i x l u, nth_error e i = Some x -> nth_error lb i = Some l -> nth_error ub i = Some u -> in_bnds l u (eval rho x)).
Proof.
  intros W H. apply add_constraint_comp_ok in H. destruct H as (f1 & ic & H & ->). split.
  - exact (add_constraint_wf _ _ _ _ _ W H).
  - exact (add_constraint_sat _ _ _ _ _ W H).
Qed.

Definition val (v : list expr) (k : nat) : R := eval rho (nth k v (ECst 0)).
Lemma nth_error_val v k e : nth_error v k = Some e -> eval rho e = val v k.
Proof. intros H. unfold val. rewrite (nth_error_nth v k _ H). reflexivity. Qed.
Lemma isvec_val n v : length v = n -> isvec rho n (val v) v.
Proof. intros L. apply isvec_iff. split; auto. intros; apply nth_error_val; assumption. Qed.

Lemma sum_list_val x n r : Forall (fun v => length v = n) x -> casadi_sum_list x = Ok r ->
  isvec rho n (fun k => rsum (map (fun v => val v k) x)) r.
Proof.
  destruct x as [|v vs]; [discriminate|]. intros HF H. inversion HF as [|? ? Hv Hvs]; subst. cbn in H.
  eapply isvec_ext; [|eapply (foldM_isvec rho _ (vbin BAdd) (fun w k => val w k) vs);
     [|apply (isvec_val (length v) v eq_refl)|exact H]].
  - intros; cbn [map]; rewrite rsum_cons; lra.
  - intros a acc acc' y Ha Hy Hv. rewrite Forall_forall in Hvs. 
    exact (isvec_vbin _ _ BAdd _ _ _ _ _ Hy (isvec_val _ a (Hvs a Ha)) Hv).
Qed.

Lemma vbin_scalar_isvec op n x a y : isvec rho n x a -> 
  forall r, vbin op a [y] = Ok r -> isvec rho n (fun i => eval_bin op (x i) (eval rho y)) r.
Proof.
  intros H r. rewrite vbin_scalar_r. intros E; injection E as <-.
  apply isvec_iff in H; destruct H as [L K]. apply isvec_iff. rewrite map_length; split; auto.
  intros i e He. rewrite nth_error_map in He. destruct (nth_error a i) eqn:Ea; [|discriminate]. injection He as <-.
  cbn. rewrite (K _ _ Ea). reflexivity.
Qed.
Lemma isvec_repeat n e : isvec rho n (fun _ => eval rho e) (repeat e n).
Proof.
  apply isvec_iff. rewrite repeat_length; split; auto. intros i x Hx.
  apply nth_error_In in Hx. apply repeat_spec in Hx. subst; reflexivity.
Qed.

Lemma comp_const_sat f e n l u x f' : wf_f f -> isvec rho n x e -> add_constraint_comp f e (repeat l n) (repeat u n) = Ok f' ->
  wf_f f' /\ (sat_cons rho f' <-> sat_cons rho f /\ forall i, i < n -> in_bnds l u (x i)).
Proof.
  intros W HI H. destruct (add_comp_sat _ _ _ _ _ W H) as [W' S]. split; auto. rewrite S.
  apply isvec_iff in HI. destruct HI as [L K]. split; intros [S1 S2]; (split; [exact S1|]).
  - intros i Hi. destruct (nth_error_lt e i ltac:(lia)) as [y Hy]. rewrite <- (K _ _ Hy).
    eapply S2; eauto; apply nth_error_repeat'; lia.
  - intros i y l' u' Hy Hl Hu. pose proof (nth_error_Some_lt _ _ _ Hy).
    rewrite nth_error_repeat' in Hl, Hu by lia. injection Hl as <-. injection Hu as <-.
    rewrite (K _ _ Hy). apply S2. lia.
Qed.

Lemma fb_eval x y s : eval rho (fb x y s) = fischer (eval rho x) (eval rho y) (eval rho s).
Proof. reflexivity. Qed.

Lemma fb_row_val x y sg n j r : Forall (fun v => length v = n) x -> fb_row x y sg j = Ok r ->
  eval rho r = rsum (map (fun v => fischer (val v j) (val y j) (eval rho sg)) x).
Proof.
  intros _ H. unfold fb_row in H. apply bind_ok in H. destruct H as (yj & Hy & H).
  apply nthE_ok in Hy.
  assert (G : forall l acc, foldM (fun acc xi => do* xij <- nthE ECasadi xi j; Ok (EBin BAdd acc (fb xij yj sg))) l acc = Ok r ->
     eval rho r = (eval rho acc + rsum (map (fun v => fischer (val v j) (val y j) (eval rho sg)) l))%R).
  { clear H. induction l as [|a l IH]; intros acc H; cbn [foldM] in H.
    - injection H as <-. cbn; lra.
    - apply bind_ok in H. destruct H as (b & Hb & H). apply bind_ok in Hb. destruct Hb as (xij & Hx & Hb).
      injection Hb as <-. rewrite (IH _ H). cbn [eval eval_bin map rsum fold_right]. apply nthE_ok in Hx.
      rewrite fb_eval, (nth_error_val _ _ _ Hx), (nth_error_val _ _ _ Hy). unfold rsum. lra. }
  rewrite (G _ _ H). cbn. rewrite Q2R_0. lra.
Qed.

Lemma mapM_seq_isvec n (f : nat -> res expr) (x : nat -> R) r :
  (forall j e, j < n -> f j = Ok e -> eval rho e = x j) -> mapM f (seq 0 n) = Ok r -> isvec rho n x r.
Proof.
  intros Hf H. apply mapM_Forall2 in H. apply Forall2_nth_iff in H. destruct H as [L K]. rewrite seq_length in L.
  apply isvec_iff. split; auto. intros i e He. pose proof (nth_error_Some_lt _ _ _ He).
  apply Hf; [lia|]. eapply K; eauto. rewrite nth_error_seq by lia. reflexivity.
Qed.

Lemma add_comp_app_sat f e1 e2 l1 l2 u1 u2 f' :
  wf_f f -> length l1 = length e1 -> length u1 = length e1 -> length l2 = length e2 -> length u2 = length e2 ->
  add_constraint_comp f (e1 ++ e2) (l1 ++ l2) (u1 ++ u2) = Ok f' ->
  wf_f f' /\ (sat_cons rho f' <-> sat_cons rho f /\
    (forall i x l u, nth_error e1 i = Some x -> nth_error l1 i = Some l -> nth_error u1 i = Some u -> in_bnds l u (eval rho x)) /\
    (forall i x l u, nth_error e2 i = Some x -> nth_error l2 i = Some l -> nth_error u2 i = Some u -> in_bnds l u (eval rho x))).
Proof.
  intros W L1 L2 L3 L4 H. destruct (add_comp_sat _ _ _ _ _ W H) as [W' S]. split; auto. rewrite S.
  split.
  - intros [S1 S2]. split; [exact S1|]. split; intros i x l u Hx Hl Hu.
    + apply (S2 i x l u); rewrite nth_error_app1; auto;
        match goal with H : nth_error ?l i = Some _ |- i < length ?l => eapply nth_error_Some_lt; eauto end.
    + apply (S2 (length e1 + i) x l u).
      * rewrite nth_error_app2 by lia. replace (length e1 + i - length e1) with i by lia; auto.
      * rewrite nth_error_app2 by lia. replace (length e1 + i - length l1) with i by lia; auto.
      * rewrite nth_error_app2 by lia. replace (length e1 + i - length u1) with i by lia; auto.
  - intros (S1 & S2 & S3). split; auto. intros i x l u Hx Hl Hu.
    destruct (Nat.lt_ge_cases i (length e1)).
    + rewrite nth_error_app1 in Hx, Hl, Hu by lia. eauto.
    + rewrite nth_error_app2 in Hx, Hl, Hu by lia. rewrite L1 in Hl. rewrite L2 in Hu. eauto.
Qed.

Lemma zero_vec_sat f e n x f' : wf_f f -> isvec rho n x e ->
  add_constraint_comp f e (zerosx (length e)) (zerosx (length e)) = Ok f' ->
  wf_f f' /\ (sat_cons rho f' <-> sat_cons rho f /\ forall i, i < n -> x i = 0%R).
Proof.
  intros W HI H. rewrite (isvec_length _ _ _ _ HI) in H.
  destruct (comp_const_sat f e n (Fin 0) (Fin 0) x f' W HI H) as [W' S]. split; auto. rewrite S.
  split; intros [A B]; (split; [exact A|]); intros i Hi; apply in_bnds_0; auto.
Qed.

Lemma isvec_nonneg n x e : isvec rho n x e -> ((forall a, In a e -> (0 <= eval rho a)%R) <-> forall i, i < n -> (0 <= x i)%R).
Proof.
  intros HI. apply isvec_iff in HI. destruct HI as [L K]. split.
  - intros G i Hi. destruct (nth_error_lt e i ltac:(lia)) as [a Ha]. rewrite <- (K _ _ Ha). apply G. eapply nth_error_In; eauto.
  - intros G a Ha. apply In_nth_error in Ha. destruct Ha as [i Hi]. rewrite (K _ _ Hi). apply G. rewrite <- L. eapply nth_error_Some_lt; eauto.
Qed.
Lemma cc_bool o z f x y f' n :
  create_complementarity o z f x y = Ok f' -> o_mpcc o = MBoolean -> wf_f f ->
  length y = n -> Forall (fun v => length v = n) x ->
  wf_f f' /\
  (sat_cons rho f' <-> sat_cons rho f /\
     forall k, k < n -> big_m_rows (rho (z (length (ind_bool f)) k)) (rsum (map (fun v => val v k) x)) (val y k)).
Proof.
  intros H EM W Hy Hx. unfold create_complementarity in H. rewrite EM in H. rewrite Hy in H.
  apply bind_ok in H. destruct H as ([f1 idx] & Hv & H). apply add_variable_ok in Hv. destruct Hv as (_ & _ & _ & _ & Hf1).
  apply bind_ok in H. destruct H as (sx & Hs & H). apply bind_ok in H. destruct H as (omz & Ho & H).
  apply bind_ok in H. destruct H as (g1 & H1 & H). apply bind_ok in H. destruct H as (g2 & H2 & H).
  apply bind_ok in H. destruct H as (g3 & H3 & H). apply bind_ok in H. destruct H as (g4 & H4 & H).
  set (zk := z (length (ind_bool f))) in *.
  pose proof (sum_list_val _ _ _ Hx Hs) as Is. pose proof (isvec_val n y Hy) as Iy.
  pose proof (isvec_vscale rho n (ECst bigM) _ _ (isvec_vars rho n zk)) as Iz.
  assert (Io : isvec rho n (fun i => (1 - rho (zk i))%R) omz).
  { rewrite vbin_scalar_l in Ho. injection Ho as <-. pose proof (isvec_vars rho n zk) as G. apply isvec_iff in G. destruct G as [L G].
    apply isvec_iff. rewrite map_length. split; [exact L|]. intros i e He. rewrite nth_error_map in He.
    destruct (nth_error (vars (map zk (seq 0 n))) i) eqn:Ee; [|discriminate]. injection He as <-. cbn. rewrite (G _ _ Ee), Q2R_1. reflexivity. }
  pose proof (isvec_vscale rho n (ECst bigM) _ _ Io) as I1z.
  pose proof (isvec_vbin _ _ _ _ _ _ _ _ Iz Iy H1) as J1. pose proof (isvec_vbin _ _ _ _ _ _ _ _ Iy Iz H2) as J2.
  pose proof (isvec_vbin _ _ _ _ _ _ _ _ I1z Is H3) as J3. pose proof (isvec_vbin _ _ _ _ _ _ _ _ Is I1z H4) as J4.
  assert (W1 : wf_f (with_bool f1 (ind_bool f1 ++ [idx]))).
  { subst f1. destruct W as [(w1 & w2 & w3) W]. split; [|exact W]. unfold wf_w, zerosx. cbn. rewrite !app_length, map_length, seq_length, !repeat_length, w1, w2, w3. auto. }
  destruct (add_comp_sat _ _ _ _ _ W1 H) as [W' S]. split; [exact W'|]. rewrite S. clear S.
  assert (E0 : sat_cons rho (with_bool f1 (ind_bool f1 ++ [idx])) <-> sat_cons rho f) by (subst f1; reflexivity).
  rewrite E0. apply and_iff_compat_l. clear E0.
  set (gc := g1 ++ g2 ++ g3 ++ g4) in *.
  assert (E : (forall i x l u, nth_error gc i = Some x -> nth_error (zerosx (length gc)) i = Some l ->
       nth_error (pinfs (length gc)) i = Some u -> in_bnds l u (eval rho x)) <-> (forall e, In e gc -> (0 <= eval rho e)%R)).
  { unfold zerosx, pinfs. split.
    - intros K e He. apply In_nth_error in He. destruct He as [i Hi]. pose proof (nth_error_Some_lt _ _ _ Hi) as HL.
      specialize (K i e (Fin 0) PInf Hi (nth_error_repeat' _ _ _ HL) (nth_error_repeat' _ _ _ HL)). destruct K as [K _]. rewrite Q2R_0 in K. exact K.
    - intros K i e l u He Hl Hu. pose proof (nth_error_Some_lt _ _ _ He) as HL.
      rewrite nth_error_repeat' in Hl, Hu by exact HL. injection Hl as <-. injection Hu as <-.
      split; [|exact I]. rewrite Q2R_0. apply K. eapply nth_error_In; eauto. }
  rewrite E. clear E. unfold gc.
  assert (E : (forall e, In e (g1 ++ g2 ++ g3 ++ g4) -> (0 <= eval rho e)%R) <->
     (forall e, In e g1 -> (0 <= eval rho e)%R) /\ (forall e, In e g2 -> (0 <= eval rho e)%R) /\
     (forall e, In e g3 -> (0 <= eval rho e)%R) /\ (forall e, In e g4 -> (0 <= eval rho e)%R)).
  { split.
    - intros K. repeat split; intros e He; apply K; rewrite !in_app_iff; tauto.
    - intros (K0 & K1 & K2 & K3) e He. rewrite !in_app_iff in He. destruct He as [|[|[|]]]; auto. }
  rewrite E, (isvec_nonneg _ _ _ J1), (isvec_nonneg _ _ _ J2), (isvec_nonneg _ _ _ J3), (isvec_nonneg _ _ _ J4). clear E.
  assert (EB : Q2R bigM = 100000%R) by (unfold bigM, Q2R; cbn; lra).
  cbn [eval_bin eval]. rewrite EB. unfold big_m_rows. split.
  - intros (A & B & D & F) k Hk. specialize (A k Hk). specialize (B k Hk). specialize (D k Hk). specialize (F k Hk). cbv beta in *.
    split; apply Rabs_le; lra.
  - intros G. repeat split; intros i Hi; destruct (G i Hi) as [G1 G2]; revert G1 G2; unfold Rabs; destruct (Rcase_abs _); destruct (Rcase_abs _); lra.
Qed.

(* equivalence, except for the relaxation BOOLEAN, where only one direction is meant *)
Definition iffm (o : opts) (A B : Prop) : Prop := (A -> B) /\ (o_mpcc o <> MBoolean -> B -> A).
Lemma iff_iffm o A B : (A <-> B) -> iffm o A B.
Proof. unfold iffm. tauto. Qed.
Lemma and_iffm_compat_l o A B C : (B <-> C) -> iffm o (A /\ B) (A /\ C).
Proof. unfold iffm. tauto. Qed.
#[export] Instance iffm_pre o : PreOrder (iffm o).
Proof. split; [intros A|intros A B C]; unfold iffm; tauto. Qed.
#[export] Instance iff_sub o : subrelation iff (iffm o).
Proof. intros A B. apply iff_iffm. Qed.
#[export] Instance iffm_and o : Proper (iffm o ==> iffm o ==> iffm o) and.
Proof. intros A A' HA B B' HB. unfold iffm in *. tauto. Qed.
#[export] Instance iffm_iff o : Proper (iff ==> iff ==> iff) (iffm o).
Proof. intros A A' HA B B' HB. unfold iffm. tauto. Qed.

(* the meaning of create_complementarity *)
Lemma cc_sat o z f x y f' n :
  create_complementarity o z f x y = Ok f' -> wf_f f ->
  length y = n -> Forall (fun v => length v = n) x ->
  wf_f f' /\
  iffm o (sat_cons rho f') (sat_cons rho f /\
     forall k, k < n -> relaxed o rho (map (fun v => val v k) x) (val y k)).
Proof.
  intros H W Hy Hx.
  assert (BC : o_mpcc o = MBoolean \/ o_mpcc o <> MBoolean) by (destruct (o_mpcc o); [right|right|right|right|right|right|right|left]; congruence).
  destruct BC as [EM|HB].
  { destruct (cc_bool _ _ _ _ _ _ _ H EM W Hy Hx) as [W' S]. split; [exact W'|]. split; [|congruence]. rewrite S.
    intros [A B]. split; [exact A|]. intros k Hk. destruct (B k Hk). unfold relaxed. rewrite EM. lra. }
  unfold create_complementarity in H. unfold relaxed.
  match goal with |- _ /\ iffm o ?A ?B => enough (G : wf_f f' /\ (A <-> B)) by (split; [apply G|apply iff_iffm; apply G]) end.
  destruct (o_mpcc o) eqn:Em; try congruence.
  - (* ScholtesEq / order of constructors *)
    apply bind_ok in H. destruct H as (sx & Hs & H). apply bind_ok in H. destruct H as (p & Hp & H).
    apply bind_ok in H. destruct H as (gc & Hg & H).
    pose proof (sum_list_val _ _ _ Hx Hs) as I1. pose proof (isvec_vbin _ _ _ _ _ _ _ _ I1 (isvec_val n y Hy) Hp) as I2.
    pose proof (vbin_scalar_isvec BSub _ _ _ _ I2 _ Hg) as I3. cbv beta in I3.
    pose proof (isvec_length _ _ _ _ I3) as L3. rewrite L3 in H.
    first [ destruct (comp_const_sat _ _ _ NInf (Fin 0) _ _ W I3 H) as [W' S]
          | destruct (comp_const_sat _ _ _ (Fin 0) (Fin 0) _ _ W I3 H) as [W' S] ];
    (split; [exact W'|]); rewrite S; split; intros [A B]; (split; [exact A|]); intros k Hk; specialize (B k Hk);
      revert B; unfold in_bnds; cbn [eval_bin eval]; rewrite ?Q2R_0; intros; lra.
  - apply bind_ok in H. destruct H as (sx & Hs & H). apply bind_ok in H. destruct H as (p & Hp & H).
    apply bind_ok in H. destruct H as (gc & Hg & H).
    pose proof (sum_list_val _ _ _ Hx Hs) as I1. pose proof (isvec_vbin _ _ _ _ _ _ _ _ I1 (isvec_val n y Hy) Hp) as I2.
    pose proof (vbin_scalar_isvec BSub _ _ _ _ I2 _ Hg) as I3. cbv beta in I3.
    pose proof (isvec_length _ _ _ _ I3) as L3. rewrite L3 in H.
    first [ destruct (comp_const_sat _ _ _ NInf (Fin 0) _ _ W I3 H) as [W' S]
          | destruct (comp_const_sat _ _ _ (Fin 0) (Fin 0) _ _ W I3 H) as [W' S] ];
    (split; [exact W'|]); rewrite S; split; intros [A B]; (split; [exact A|]); intros k Hk; specialize (B k Hk);
      revert B; unfold in_bnds; cbn [eval_bin eval]; rewrite ?Q2R_0; intros; lra.
  - (* FischerBurmeister *)
    apply bind_ok in H. destruct H as (gc & Hg & H).
    pose proof (mapM_seq_isvec _ _ _ _ (fun j e _ => fb_row_val x y _ n j e Hx) Hg) as I1.
    rewrite Hy in I1. destruct (zero_vec_sat _ _ _ _ _ W I1 H) as [W' S]. split; [exact W'|]. rewrite S.
    split; intros [A B]; (split; [exact A|]); intros k Hk; specialize (B k Hk); rewrite map_map in *; exact B.
  - (* IpAug *)
    destruct x as [|x1 [|x2 x]]; try discriminate.
    apply bind_ok in H. destruct H as (a0 & H0 & H). apply bind_ok in H. destruct H as (a1 & H1 & H).
    apply bind_ok in H. destruct H as (a2 & H2 & H). apply bind_ok in H. destruct H as (a3 & H3 & H).
    pose proof (mapM_seq_isvec _ _ _ _ (fun j e _ => fb_row_val _ y _ n j e Hx) H0) as I0.
    assert (I1 : isvec rho (length y) (fun j => (Q2R (o_fb1 o) * (val x1 j - rho SSigma) * sqrt (rho STau))%R) a1).
    { eapply mapM_seq_isvec; [|exact H1]. intros j e _ E. apply bind_ok in E. destruct E as (xj & Ex & E). injection E as <-.
      cbn. apply nthE_ok in Ex. rewrite (nth_error_val _ _ _ Ex). reflexivity. }
    assert (I2 : isvec rho (length y) (fun j => (Q2R (o_fb1 o) * (val y j - rho SSigma) * sqrt (rho STau))%R) a2).
    { eapply mapM_seq_isvec; [|exact H2]. intros j e _ E. apply bind_ok in E. destruct E as (xj & Ex & E). injection E as <-.
      cbn. apply nthE_ok in Ex. rewrite (nth_error_val _ _ _ Ex). reflexivity. }
    assert (I3 : isvec rho (length y) (fun j => (Q2R (o_fb2 o) * (fischer (val x1 j) (val y j) (rho SSigma)) *
         sqrt (1 + (val x1 j - val y j) * (val x1 j - val y j)))%R) a3).
    { eapply mapM_seq_isvec; [|exact H3]. intros j e Hj E. apply bind_ok in E. destruct E as (gj & Eg & E).
      apply bind_ok in E. destruct E as (xj & Ex & E). apply bind_ok in E. destruct E as (yj & Ey & E). injection E as <-.
      cbn. apply nthE_ok in Ex, Ey, Eg. rewrite (nth_error_val _ _ _ Ex), (nth_error_val _ _ _ Ey).
      apply isvec_iff in I0. destruct I0 as [_ K0]. rewrite (K0 _ _ Eg). cbn. rewrite Q2R_1, Rplus_0_r. reflexivity. }
    rewrite !app_length in H. unfold zerosx in H.
    pose proof (isvec_length _ _ _ _ I0) as L0. pose proof (isvec_length _ _ _ _ I1) as L1.
    pose proof (isvec_length _ _ _ _ I2) as L2. pose proof (isvec_length _ _ _ _ I3) as L3.
    destruct (add_comp_sat _ _ _ _ _ W H) as [W' S]. split; [exact W'|]. rewrite S. clear S H.
    assert (E : (forall i x l u, nth_error (a0 ++ a1 ++ a2 ++ a3) i = Some x ->
       nth_error (repeat (Fin 0) (length a0 + (length a1 + (length a2 + length a3)))) i = Some l ->
       nth_error (repeat (Fin 0) (length a0 + (length a1 + (length a2 + length a3)))) i = Some u -> in_bnds l u (eval rho x))
       <-> (forall e, In e (a0 ++ a1 ++ a2 ++ a3) -> eval rho e = 0%R)).
    { split.
      - intros K e He. apply In_nth_error in He. destruct He as [i Hi]. pose proof (nth_error_Some_lt _ _ _ Hi) as HL.
        rewrite !app_length in HL. apply in_bnds_0. eapply K; eauto; apply nth_error_repeat'; assumption.
      - intros K i e l u He Hl Hu. pose proof (nth_error_Some_lt _ _ _ He) as HL. rewrite !app_length in HL.
        rewrite nth_error_repeat' in Hl, Hu by assumption. injection Hl as <-. injection Hu as <-.
        apply in_bnds_0. apply K. eapply nth_error_In; eauto. }
    rewrite E. clear E.
    assert (E : (forall e, In e (a0 ++ a1 ++ a2 ++ a3) -> eval rho e = 0%R) <->
       (forall e, In e a0 -> eval rho e = 0%R) /\ (forall e, In e a1 -> eval rho e = 0%R) /\
       (forall e, In e a2 -> eval rho e = 0%R) /\ (forall e, In e a3 -> eval rho e = 0%R)).
    { split.
      - intros K. repeat split; intros e He; apply K; rewrite !in_app_iff; tauto.
      - intros (K0 & K1 & K2 & K3) e He. rewrite !in_app_iff in He. destruct He as [|[|[|]]]; auto. }
    rewrite E, (isvec_all0 _ _ _ _ I0), (isvec_all0 _ _ _ _ I1), (isvec_all0 _ _ _ _ I2), (isvec_all0 _ _ _ _ I3).
    rewrite Hy. cbn [map rsum fold_right]. split.
    + intros (A & B0 & B1 & B2 & B3). split; [exact A|]. intros k Hk. specialize (B0 k Hk). cbn in B0.
      rewrite Rplus_0_r in *. repeat split; auto.
    + intros (A & B). split; [exact A|]. repeat split; intros k Hk; destruct (B k Hk) as (B0 & B1 & B2 & B3);
        rewrite ?Rplus_0_r in *; cbn; auto.
  - apply bind_ok in H. destruct H as (sx & Hs & H). apply bind_ok in H. destruct H as (p & Hp & H).
    apply bind_ok in H. destruct H as (gc & Hg & H).
    pose proof (sum_list_val _ _ _ Hx Hs) as I1. pose proof (isvec_vbin _ _ _ _ _ _ _ _ I1 (isvec_val n y Hy) Hp) as I2.
    rewrite Hy in *. pose proof (isvec_vbin _ _ _ _ _ _ _ _ I2 (isvec_repeat n (EVar SElastic)) Hg) as I3. cbv beta in I3.
    pose proof (isvec_length _ _ _ _ I3) as L3. rewrite L3 in H.
    first [ destruct (comp_const_sat _ _ _ NInf (Fin 0) _ _ W I3 H) as [W' S]
          | destruct (comp_const_sat _ _ _ (Fin 0) (Fin 0) _ _ W I3 H) as [W' S] ];
    (split; [exact W'|]); rewrite S; split; intros [A B]; (split; [exact A|]); intros k Hk; specialize (B k Hk);
      revert B; unfold in_bnds; cbn [eval_bin eval]; rewrite ?Q2R_0; intros; lra.
  - apply bind_ok in H. destruct H as (sx & Hs & H). apply bind_ok in H. destruct H as (p & Hp & H).
    apply bind_ok in H. destruct H as (gc & Hg & H).
    pose proof (sum_list_val _ _ _ Hx Hs) as I1. pose proof (isvec_vbin _ _ _ _ _ _ _ _ I1 (isvec_val n y Hy) Hp) as I2.
    rewrite Hy in *. pose proof (isvec_vbin _ _ _ _ _ _ _ _ I2 (isvec_repeat n (EVar SElastic)) Hg) as I3. cbv beta in I3.
    pose proof (isvec_length _ _ _ _ I3) as L3. rewrite L3 in H.
    first [ destruct (comp_const_sat _ _ _ NInf (Fin 0) _ _ W I3 H) as [W' S]
          | destruct (comp_const_sat _ _ _ (Fin 0) (Fin 0) _ _ W I3 H) as [W' S] ];
    (split; [exact W'|]); rewrite S; split; intros [A B]; (split; [exact A|]); intros k Hk; specialize (B k Hk);
      revert B; unfold in_bnds; cbn [eval_bin eval]; rewrite ?Q2R_0; intros; lra.
  - apply bind_ok in H. destruct H as (sx & Hs & H). apply bind_ok in H. destruct H as (p & Hp & H).
    apply bind_ok in H. destruct H as (g1 & Hg & H). apply bind_ok in H. destruct H as (g2 & Hg2 & H).
    pose proof (sum_list_val _ _ _ Hx Hs) as I1. pose proof (isvec_vbin _ _ _ _ _ _ _ _ I1 (isvec_val n y Hy) Hp) as I2.
    rewrite Hy in *. pose proof (isvec_vbin _ _ _ _ _ _ _ _ I2 (isvec_repeat n (EVar SElastic)) Hg) as I3. cbv beta in I3.
    pose proof (isvec_vbin _ _ _ _ _ _ _ _ I2 (isvec_repeat n (EVar SElastic)) Hg2) as I4. cbv beta in I4.
    pose proof (isvec_length _ _ _ _ I3) as L3. pose proof (isvec_length _ _ _ _ I4) as L4.
    destruct (add_comp_app_sat f g1 g2 (ninfs n) (zerosx n) (zerosx n) (pinfs n) f' W ltac:(unfold ninfs; rewrite repeat_length; lia)
       ltac:(unfold zerosx; rewrite repeat_length; lia) ltac:(unfold zerosx; rewrite repeat_length; lia)
       ltac:(unfold pinfs; rewrite repeat_length; lia) H) as [W' S].
    split; [exact W'|]. rewrite S. apply isvec_iff in I3, I4. destruct I3 as [_ K3]. destruct I4 as [_ K4].
    split.
    + intros (A & B & D). split; [exact A|]. intros k Hk.
      destruct (nth_error_lt g1 k ltac:(lia)) as [e1 He1]. destruct (nth_error_lt g2 k ltac:(lia)) as [e2 He2].
      specialize (B k e1 NInf (Fin 0) He1 ltac:(apply nth_error_repeat'; lia) ltac:(apply nth_error_repeat'; lia)).
      specialize (D k e2 (Fin 0) PInf He2 ltac:(apply nth_error_repeat'; lia) ltac:(apply nth_error_repeat'; lia)).
      rewrite (K3 _ _ He1) in B. rewrite (K4 _ _ He2) in D. revert B D. unfold in_bnds. cbn [eval_bin eval].
      rewrite Q2R_0. intros. lra.
    + intros (A & B). split; [exact A|]. split; intros i e l u He Hl Hu; pose proof (nth_error_Some_lt _ _ _ He);
        unfold ninfs, pinfs, zerosx in *; rewrite nth_error_repeat' in Hl, Hu by lia; injection Hl as <-; injection Hu as <-;
        specialize (B i ltac:(lia)).
      * rewrite (K3 _ _ He). unfold in_bnds. cbn [eval_bin eval]. rewrite Q2R_0. lra.
      * rewrite (K4 _ _ He). unfold in_bnds. cbn [eval_bin eval]. rewrite Q2R_0. lra.
Qed.
End Sat.
