(* Feas_proofs.v -- consequences of feasibility for a constructed problem *)
From Coq Require Import Reals Qreals Lra Psatz Permutation.
From Verif Require Import Base Sx Utils Tableau Opts Model Ocp Problem Spec Cases Lib Sx_proofs Fe_proofs Prob_proofs Coll_proofs
  Body_proofs Model_proofs Con_proofs Index3_proofs Fesd Sem_proofs Dcs_proofs Point_proofs Elem_proofs Nlp_proofs
  Opts_proofs Tableau_proofs Poly_proofs Spec2.

Lemma rupto_nonneg n f : (forall k, k < n -> (0 <= f k)%R) -> (0 <= rupto n f)%R.
Proof.
  induction n as [|n IH]; intros H; [rewrite rupto_0; lra|]. rewrite <- Nat.add_1_r, rupto_S.
  specialize (IH ltac:(intros; apply H; lia)). specialize (H n ltac:(lia)). lra.
Qed.
Lemma rupto_zero n f : (forall k, k < n -> (0 <= f k)%R) -> rupto n f = 0%R -> forall k, k < n -> f k = 0%R.
Proof.
  induction n as [|n IH]; intros H E k Hk; [lia|]. rewrite <- Nat.add_1_r, rupto_S in E.
  pose proof (rupto_nonneg n f ltac:(intros; apply H; lia)) as G. pose proof (H n ltac:(lia)) as Hn.
  assert (E1 : rupto n f = 0%R) by lra. assert (E2 : f n = 0%R) by lra.
  destruct (Nat.eq_dec k n) as [->|]; [exact E2|]. apply IH; try assumption; [intros; apply H; lia|lia].
Qed.
Lemma rsum_nonneg l : (forall x, In x l -> 0 <= x)%R -> (0 <= rsum l)%R.
Proof. induction l as [|x l IH]; intros H; [rewrite rsum_nil; lra|]. rewrite rsum_cons.
  specialize (IH ltac:(intros; apply H; right; assumption)). specialize (H x (or_introl eq_refl)). lra. Qed.
Lemma rsum_zero l : (forall x, In x l -> 0 <= x)%R -> (rsum l <= 0)%R -> forall x, In x l -> x = 0%R.
Proof.
  induction l as [|x l IH]; intros H E y Hy; [destruct Hy|]. rewrite rsum_cons in E.
  pose proof (rsum_nonneg l ltac:(intros; apply H; right; assumption)) as G. pose proof (H x (or_introl eq_refl)) as Hx.
  destruct Hy as [<-|Hy]; [lra|]. apply IH; try assumption; [intros; apply H; right; assumption|lra].
Qed.

(* a selected block of variables respects its bounds *)
Lemma sel_within rho f idx ss ls us : bounds_ok rho f -> sel (w f) idx = Ok ss -> sel (lbw f) idx = Ok ls -> sel (ubw f) idx = Ok us ->
  forall k s l u, nth_error ss k = Some s -> nth_error ls k = Some l -> nth_error us k = Some u -> within l u (rho s).
Proof.
  intros B H1 H2 H3 k s l u K1 K2 K3. apply Lib.sel_ok in H1. apply Lib.sel_ok in H2. apply Lib.sel_ok in H3.
  destruct (Forall2_nth_r _ _ _ _ _ H1 K1) as (i & Hi & E1). destruct (Forall2_nth _ _ _ _ _ H2 Hi) as (l' & Hl & E2).
  destruct (Forall2_nth _ _ _ _ _ H3 Hi) as (u' & Hu & E3).
  assert (l' = l) by congruence. assert (u' = u) by congruence. subst. eapply B; eauto.
Qed.

Lemma nth_error_map_seq {A} (f : nat -> A) n i : i < n -> nth_error (map f (seq 0 n)) i = Some (f i).
Proof. intros H. rewrite nth_error_map, nth_error_seq by lia. reflexivity. Qed.
Lemma nth_error_repeat' {A} (a : A) n i : i < n -> nth_error (repeat a n) i = Some a.
Proof. revert i; induction n as [|n IH]; intros i H; [lia|]. destruct i; [reflexivity|]. cbn. apply IH. lia. Qed.

(* ---- positions in the stacked vectors ---- *)
Lemma total_app a b : total (a ++ b) = total a + total b.
Proof. unfold total. induction a as [|x a IH]; cbn; [reflexivity|]. rewrite IH. lia. Qed.
Lemma upto_S n d : upto (S n) d = upto n d + d n.
Proof. unfold upto. rewrite seq_S, map_app, total_app. cbn. lia. Qed.
Lemma over_len m f d : length (over_systems m f d) = upto (n_subsystems m) d.
Proof.
  unfold over_systems. generalize (n_subsystems m) as n. induction n as [|n IH]; [reflexivity|].
  rewrite upto_S, seq_S, map_app, concat_app, app_length, IH. cbn. rewrite app_nil_r, map_length, seq_length. reflexivity.
Qed.
Lemma upto_mono d a b : a <= b -> upto a d <= upto b d.
Proof. induction 1; [lia|]. rewrite upto_S. lia. Qed.
Lemma over_at m f d s i : s < n_subsystems m -> i < d s -> nth_error (over_systems m f d) (upto s d + i) = Some (f s i).
Proof.
  unfold over_systems. generalize (n_subsystems m) as n. induction n as [|n IH]; intros Hs Hi; [lia|].
  rewrite seq_S, map_app, concat_app.
  assert (L : length (concat (map (fun s0 => map (f s0) (seq 0 (d s0))) (seq 0 n))) = upto n d).
  { clear. induction n as [|n IH]; [reflexivity|]. rewrite upto_S, seq_S, map_app, concat_app, app_length, IH. cbn.
    rewrite app_nil_r, map_length, seq_length. reflexivity. }
  destruct (Nat.eq_dec s n) as [->|].
  - rewrite nth_error_app2 by lia. rewrite L. replace (upto n d + i - upto n d) with i by lia. cbn. rewrite app_nil_r.
    apply nth_error_map_seq. exact Hi.
  - rewrite nth_error_app1; [apply IH; lia|]. rewrite L. pose proof (upto_mono d (S s) n ltac:(lia)) as G. rewrite upto_S in G. lia.
Qed.
Lemma over_pos m d k : k < upto (n_subsystems m) d -> exists s i, s < n_subsystems m /\ i < d s /\ k = upto s d + i.
Proof.
  generalize (n_subsystems m) as n. induction n as [|n IH]; intros H; [cbn in H; lia|]. rewrite upto_S in H.
  destruct (Nat.lt_ge_cases k (upto n d)) as [G|G].
  - destruct (IH G) as (s & i & A & B & C). exists s, i. repeat split; [lia|assumption|assumption].
  - exists n, (k - upto n d). repeat split; lia.
Qed.
Lemma upto_zero n d : (forall s, d s = 0) -> upto n d = 0.
Proof. intros H. induction n as [|n IH]; [reflexivity|]. rewrite upto_S, IH, H. reflexivity. Qed.
Lemma over_zero m f d : (forall s, d s = 0) -> over_systems m f d = [].
Proof. intros H. apply length_zero_iff_nil. rewrite over_len. apply upto_zero, H. Qed.

Section Vec.
Variables (o : opts) (t : tab) (m : model) (rho : env).
Notation dm := (dim2 o m).

Lemma dim2_stewart : o_pss o = Stewart -> (forall s, dm FTheta s = n_modes m s) /\ (forall s, dm FLam s = n_modes m s) /\
  (forall s, dm FAlpha s = 0) /\ (forall s, dm FLn s = 0) /\ (forall s, dm FLp s = 0).
Proof. intros E. unfold dim2. rewrite E. repeat split. Qed.
Lemma dim2_step : o_pss o = Step -> (forall s, dm FAlpha s = n_switch m s) /\ (forall s, dm FLn s = n_switch m s) /\
  (forall s, dm FLp s = n_switch m s) /\ (forall s, dm FLam s = 0) /\ (forall s, dm FTheta s = 0).
Proof. intros E. unfold dim2. rewrite E. repeat split. Qed.

Definition pos (s k : nat) : nat := upto s (dm (match o_pss o with Stewart => FTheta | Step => FAlpha end)) + k.

Lemma upto_ext n d d' : (forall s, d s = d' s) -> upto n d = upto n d'.
Proof. intros H. unfold upto. f_equal. apply map_ext. intros a. apply H. Qed.

Lemma stewart_vecs : o_pss o = Stewart ->
  (forall c e j, lam_vec o m rho c e j = values o m rho FLam c e j) /\ (forall c e j, theta_vec o m rho c e j = values o m rho FTheta c e j) /\
  lam00 o m rho = over_systems m (fun s i => rho (SL00 FLam s i)) (dm FLam) /\
  n_pairs o m = upto (n_subsystems m) (n_modes m).
Proof.
  intros E. destruct (dim2_stewart E) as (D1 & D2 & D3 & D4 & D5). unfold lam_vec, theta_vec, lam00, n_pairs, values.
  rewrite (upto_zero _ _ D4), (upto_zero _ _ D5), (upto_ext _ _ _ D2).
  repeat split; intros; cbn [map concat]; rewrite ?(over_zero m _ _ D3), ?(over_zero m _ _ D4), ?(over_zero m _ _ D5), ?app_nil_r; cbn [map]; rewrite ?app_nil_r; try reflexivity. lia.
Qed.
Lemma step_vecs : o_pss o = Step ->
  (forall c e j, lam_vec o m rho c e j = values o m rho FLn c e j ++ values o m rho FLp c e j) /\
  (forall c e j, theta_vec o m rho c e j = values o m rho FAlpha c e j ++ map (fun a => (1 - a)%R) (values o m rho FAlpha c e j)) /\
  n_pairs o m = upto (n_subsystems m) (n_switch m) + upto (n_subsystems m) (n_switch m).
Proof.
  intros E. destruct (dim2_step E) as (D1 & D2 & D3 & D4 & D5). unfold lam_vec, theta_vec, lam00, n_pairs, values.
  rewrite (upto_zero _ _ D4), (upto_ext _ _ _ D2), (upto_ext _ _ _ D3).
  repeat split; intros; rewrite ?(over_zero m _ _ D4), ?(over_zero m _ _ D5), ?app_nil_r; try reflexivity.
Qed.
End Vec.

Section Feas.
Variables (lr : Q -> Q -> Q -> nat) (cp : nat -> scheme -> list Q) (d : ipopt_dict) (o : opts) (m : model)
  (oc : option ocp) (C : constructed).
Hypothesis H : construct_problem lr cp d o m oc = Ok C.
Hypothesis Ex : o_constr o = Exact.
Hypothesis WS : well_sized m.
Variable rho : env.
Hypothesis BO : bounds_ok rho (the_nlp C).
Hypothesis CO : constraints_ok rho (the_nlp C).
Notation O := (the_opts C).
Notation t := (cn_tab C).
Notation oc' := (the_ocp oc).

Lemma cons_all : nlp_constraints O t m oc' rho.
Proof. apply (nlp_sound lr cp d o m oc C H Ex WS rho). exact CO. Qed.
Lemma fe_nfe c e nfe : is_fe O c e nfe -> nfe_of O c = nfe /\ c < o_N_stages O /\ e < nfe_of O c.
Proof. intros (A & B & D). unfold nfe_of. rewrite (nth_error_nth _ _ _ B). auto. Qed.
Lemma elem_all c e nfe : is_fe O c e nfe -> element_ok O t m oc' rho c e.
Proof. intros I. destruct (fe_nfe _ _ _ I) as (_ & A & B). apply cons_all; assumption. Qed.

Lemma alg_within c e nfe f j s i : is_fe O c e nfe -> j < points2 O (t_rbe t) nfe e f -> s < n_subsystems m -> i < dim2 O m f s ->
  within (match f with FMu => NInf | _ => lb_dual O end) (match f with FAlpha => Fin 1 | _ => PInf end) (rho (S2 f c e j s i)).
Proof.
  intros I Hj Hs Hi. destruct (idx2_con lr cp d o m oc C H c e nfe f j s I Hj Hs) as (idx & _ & A1 & A2 & A3).
  eapply (sel_within rho _ _ _ _ _ BO A1 A2 A3 i); [apply nth_error_map_seq; exact Hi|apply nth_error_repeat'; exact Hi|apply nth_error_repeat'; exact Hi].
Qed.
Lemma alg_nonneg c e nfe f j s i : product_mode O -> f <> FMu -> is_fe O c e nfe -> j < points2 O (t_rbe t) nfe e f ->
  s < n_subsystems m -> i < dim2 O m f s -> (0 <= rho (S2 f c e j s i))%R.
Proof.
  intros PM Hf I Hj Hs Hi. pose proof (alg_within c e nfe f j s i I Hj Hs Hi) as W.
  assert (EL : match f with FMu => NInf | _ => lb_dual O end = Fin 0).
  { unfold lb_dual, product_mode in *. destruct (o_mpcc O); try contradiction; destruct f; congruence. }
  rewrite EL in W. destruct W as [W _]. rewrite Q2R_0 in W. exact W.
Qed.
Lemma alpha_le1 c e nfe j s i : is_fe O c e nfe -> j < o_ns O -> s < n_subsystems m -> i < dim2 O m FAlpha s -> (rho (S2 FAlpha c e j s i) <= 1)%R.
Proof. intros I Hj Hs Hi. destruct (alg_within c e nfe FAlpha j s i I Hj Hs Hi) as [_ W]. rewrite Q2R_1 in W. exact W. Qed.

Lemma step_within c e nfe : is_fe O c e nfe -> o_use_fesd O = true -> within (step_lower O nfe) (step_upper O nfe) (rho (SH c e)).
Proof.
  intros I Hf. pose proof (idx_h_con lr cp d o m oc C H) as G. rewrite Hf in G. destruct G as (_ & G).
  destruct (G c e nfe I) as (i & _ & A1 & A2 & A3). eapply BO; eauto.
Qed.

Lemma prev_fe c e nfe c' e' : is_fe O c e nfe -> before O c e = Some (c', e') -> exists nfe', is_fe O c' e' nfe'.
Proof.
  intros (A & B & D) E. unfold before in E. destruct e as [|e1].
  - destruct c as [|c1]; [discriminate|]. injection E as <- <-.
    destruct (shapes_con lr cp d o m oc C H) as (S1 & _). destruct (S1 c1 ltac:(lia)) as (n1 & Hn & Hp).
    exists n1. split; [lia|]. split; [exact Hn|]. unfold nfe_of. rewrite (nth_error_nth _ _ _ Hn). lia.
  - injection E as <- <-. exists nfe. split; [exact A|]. split; [exact B|lia].
Qed.

Lemma n_mult_val c e nfe : is_fe O c e nfe -> n_mult O t c e = points2 O (t_rbe t) nfe e FLam.
Proof. intros I. unfold n_mult. destruct (fe_nfe _ _ _ I) as (-> & _). reflexivity. Qed.
Lemma n_mult_ge c e : o_ns O <= n_mult O t c e.
Proof. unfold n_mult, points2. lia. Qed.
Lemma ns_pos : 0 < o_ns O.
Proof.
  destruct (con_use lr cp d o m oc C H) as (o' & t' & pm & po & P & st & lf & f1 & KC & B & Eo & _ & _). rewrite Eo.
  eapply (Nlp_proofs.ns_pos o'); eauto.
Qed.
Lemma t_made : make_tab cp O = Ok t.
Proof.
  destruct (con_use lr cp d o m oc C H) as (o' & t' & pm & po & P & st & lf & f1 & KC & B & Eo & _ & _). rewrite Eo.
  rewrite (co_t _ _ _ _ _ _ _ _ _ _ _ _ KC). exact (co_mt _ _ _ _ _ _ _ _ _ _ _ _ KC).
Qed.

(* ---- C12 ---- *)
Lemma convex c e nfe j s : is_fe O c e nfe -> j < o_ns O -> s < n_subsystems m -> o_pss O = Stewart -> product_mode O ->
  (forall k, k < n_modes m s -> (0 <= rho (S2 FTheta c e j s k))%R) /\ rupto (n_modes m s) (fun k => rho (S2 FTheta c e j s k)) = 1%R.
Proof.
  intros I Hj Hs Ep PM. split.
  - intros k Hk. apply (alg_nonneg c e nfe); try assumption; [discriminate|]. rewrite (proj1 (dim2_stewart O m Ep)). exact Hk.
  - destruct (elem_all c e nfe I) as (G & _). destruct (G j Hj) as (_ & G2 & _). exact (G2 Ep s Hs).
Qed.

(* ---- C13 ---- *)
Lemma relaxed_zero xs y : zero_relaxation O rho -> (forall x, In x xs -> (0 <= x)%R) -> (0 <= y)%R ->
  relaxed O rho xs y -> (0 < y -> forall x, In x xs -> x = 0)%R /\ ((exists x, In x xs /\ 0 < x) -> y = 0)%R.
Proof.
  intros Z X Y R.
  assert (P : (rsum xs * y <= 0)%R) by (unfold relaxed, zero_relaxation in *; destruct (o_mpcc O); try contradiction; lra).
  pose proof (rsum_nonneg xs X) as G. split.
  - intros Yp. apply rsum_zero; [exact X|]. destruct (Rle_lt_or_eq_dec _ _ G) as [G'|<-]; [|lra].
    pose proof (Rmult_lt_0_compat _ _ G' Yp). lra.
  - intros (x & Hx & Xp). destruct (Rle_lt_or_eq_dec _ _ Y) as [Yp|<-]; [|reflexivity].
    destruct (Rle_lt_or_eq_dec _ _ G) as [G'|E].
    + pose proof (Rmult_lt_0_compat _ _ G' Yp). lra.
    + assert (x = 0%R) by (apply (rsum_zero xs X); [lra|exact Hx]). lra.
Qed.

Lemma values_nonneg f c e nfe j : product_mode O -> f <> FMu -> is_fe O c e nfe -> j < points2 O (t_rbe t) nfe e f ->
  forall x, In x (values O m rho f c e j) -> (0 <= x)%R.
Proof.
  intros PM Hf I Hj x Hx. unfold values, over_systems in Hx. apply in_concat in Hx. destruct Hx as (l & Hl & Hx).
  apply in_map_iff in Hl. destruct Hl as (s & <- & Hs). apply in_seq in Hs. apply in_map_iff in Hx. destruct Hx as (i & <- & Hi). apply in_seq in Hi.
  apply (alg_nonneg c e nfe); try assumption; lia.
Qed.
Lemma ent_nonneg l k : (forall x, In x l -> (0 <= x)%R) -> (0 <= ent l k)%R.
Proof. intros G. unfold ent. destruct (Nat.lt_ge_cases k (length l)) as [L|L]; [apply G, nth_In, L|rewrite nth_overflow by exact L; lra]. Qed.
Lemma lam_nonneg c e nfe j k : product_mode O -> is_fe O c e nfe -> j < n_mult O t c e -> (0 <= ent (lam_vec O m rho c e j) k)%R.
Proof.
  intros PM I Hj. apply ent_nonneg. intros x Hx. rewrite (n_mult_val c e nfe I) in Hj. unfold lam_vec in Hx. rewrite !in_app_iff in Hx.
  destruct Hx as [Hx|[Hx|Hx]]; (eapply values_nonneg; [exact PM| |exact I| |exact Hx]); try discriminate; exact Hj.
Qed.
Lemma theta_nonneg c e nfe j k : product_mode O -> is_fe O c e nfe -> j < o_ns O -> (0 <= ent (theta_vec O m rho c e j) k)%R.
Proof.
  intros PM I Hj. apply ent_nonneg. intros x Hx. unfold theta_vec in Hx. rewrite !in_app_iff in Hx.
  destruct Hx as [Hx|[Hx|Hx]]; [eapply values_nonneg; [exact PM| |exact I| |exact Hx]; [discriminate|exact Hj]..|].
  apply in_map_iff in Hx. destruct Hx as (a & <- & Hx). unfold values, over_systems in Hx. apply in_concat in Hx. destruct Hx as (l & Hl & Hx).
  apply in_map_iff in Hl. destruct Hl as (s & <- & Hs). apply in_seq in Hs. apply in_map_iff in Hx. destruct Hx as (i & <- & Hi). apply in_seq in Hi.
  pose proof (alpha_le1 c e nfe j s i I Hj ltac:(lia) ltac:(lia)). lra.
Qed.
Definition lam00_nonneg : Prop := forall f s i, (0 <= rho (SL00 f s i))%R.
Lemma prev_nonneg c e nfe k : product_mode O -> lam00_nonneg -> is_fe O c e nfe -> (0 <= ent (prev_lam O t m rho c e) k)%R.
Proof.
  intros PM L0 I. unfold prev_lam. destruct (before O c e) as [[c' e']|] eqn:E; cbn [last_lam].
  - destruct (prev_fe _ _ _ _ _ I E) as (nfe' & I'). apply (lam_nonneg c' e' nfe'); try assumption.
    pose proof (n_mult_ge c' e'). pose proof ns_pos. lia.
  - apply ent_nonneg. unfold lam00. intros x Hx. apply in_concat in Hx. destruct Hx as (l & Hl & Hx).
    assert (G : exists f, l = over_systems m (fun s i => rho (SL00 f s i)) (dim2 O m f)) by (cbn in Hl; destruct Hl as [<-|[<-|[<-|[]]]]; eexists; reflexivity).
    destruct G as [f ->]. unfold over_systems in Hx. apply in_concat in Hx. destruct Hx as (l' & Hl' & Hx).
    apply in_map_iff in Hl'. destruct Hl' as (s & <- & _). apply in_map_iff in Hx. destruct Hx as (i & <- & _). apply L0.
Qed.

Lemma zr_product : zero_relaxation O rho -> product_mode O.
Proof. unfold zero_relaxation, product_mode. destruct (o_mpcc O); tauto. Qed.

Lemma exclusive c e nfe j k : zero_relaxation O rho -> lam00_nonneg -> o_use_fesd O = true -> is_fe O c e nfe -> j < o_ns O -> k < n_pairs O m ->
  (0 < ent (theta_vec O m rho c e j) k)%R ->
  (forall jj, jj < (match o_cross O with SumLambdas => n_mult O t c e | _ => o_ns O end) -> ent (lam_vec O m rho c e jj) k = 0%R) /\
  ent (prev_lam O t m rho c e) k = 0%R.
Proof.
  intros Z L0 Hf I Hj Hk Hth. pose proof (zr_product Z) as PM.
  destruct (elem_all c e nfe I) as (_ & _ & _ & _ & _ & _ & X & _). specialize (X j k Hj Hk). cbv zeta in X. rewrite Hf in X.
  destruct (o_cross O).
  - destruct X as [X1 X2]. split.
    + intros jj Hjj. pose proof (n_mult_ge c e).
      apply (relaxed_zero [ent (theta_vec O m rho c e j) k]); [exact Z|intros x [<-|[]]; lra| |exact (X2 jj Hjj)|].
      * apply (lam_nonneg c e nfe); try assumption. lia.
      * eexists. split; [left; reflexivity|exact Hth].
    + apply (relaxed_zero [ent (theta_vec O m rho c e j) k]); [exact Z|intros x [<-|[]]; lra| |exact X1|].
      * apply (prev_nonneg c e nfe); assumption.
      * eexists. split; [left; reflexivity|exact Hth].
  - assert (NN : forall x, In x (map (fun jj => ent (lam_vec O m rho c e jj) k) (seq 0 (n_mult O t c e)) ++ [ent (prev_lam O t m rho c e) k]) -> (0 <= x)%R).
    { intros x Hx. rewrite in_app_iff in Hx. destruct Hx as [Hx|[<-|[]]].
      - apply in_map_iff in Hx. destruct Hx as (jj & <- & Hjj). apply in_seq in Hjj. apply (lam_nonneg c e nfe); try assumption. lia.
      - apply (prev_nonneg c e nfe); assumption. }
    destruct (relaxed_zero _ _ Z NN (Rlt_le _ _ Hth) X) as [G _]. specialize (G Hth). split.
    + intros jj Hjj. apply G. apply in_or_app. left. apply in_map_iff. exists jj. split; [reflexivity|apply in_seq; lia].
    + apply G. apply in_or_app. right. left. reflexivity.
Qed.

(* the same, in the variables of the two reformulations *)
Lemma ent_over f dd s i : s < n_subsystems m -> i < dd s -> ent (over_systems m f dd) (upto s dd + i) = f s i.
Proof. intros A B. unfold ent. rewrite (nth_error_nth _ _ _ (over_at m f dd s i A B)). reflexivity. Qed.
Lemma upto_lt dd s i : s < n_subsystems m -> i < dd s -> upto s dd + i < upto (n_subsystems m) dd.
Proof. intros A B. pose proof (upto_mono dd (S s) (n_subsystems m) ltac:(lia)) as G. rewrite upto_S in G. lia. Qed.

Lemma st_lam c e j s k : o_pss O = Stewart -> s < n_subsystems m -> k < n_modes m s ->
  ent (lam_vec O m rho c e j) (upto s (n_modes m) + k) = rho (S2 FLam c e j s k).
Proof.
  intros E Hs Hk. destruct (stewart_vecs O m rho E) as (-> & _). unfold values.
  destruct (dim2_stewart O m E) as (_ & D & _). rewrite <- (upto_ext _ (dim2 O m FLam) (n_modes m) D).
  apply (ent_over (fun s i => rho (S2 FLam c e j s i))); [exact Hs|rewrite D; exact Hk].
Qed.
Lemma st_theta c e j s k : o_pss O = Stewart -> s < n_subsystems m -> k < n_modes m s ->
  ent (theta_vec O m rho c e j) (upto s (n_modes m) + k) = rho (S2 FTheta c e j s k).
Proof.
  intros E Hs Hk. destruct (stewart_vecs O m rho E) as (_ & -> & _). unfold values.
  destruct (dim2_stewart O m E) as (D & _). rewrite <- (upto_ext _ (dim2 O m FTheta) (n_modes m) D).
  apply (ent_over (fun s i => rho (S2 FTheta c e j s i))); [exact Hs|rewrite D; exact Hk].
Qed.
Lemma st_pairs s k : o_pss O = Stewart -> s < n_subsystems m -> k < n_modes m s -> upto s (n_modes m) + k < n_pairs O m.
Proof. intros E Hs Hk. destruct (stewart_vecs O m rho E) as (_ & _ & _ & ->). apply upto_lt; assumption. Qed.

Lemma stewart_exclusive c e nfe j s k : zero_relaxation O rho -> lam00_nonneg -> o_use_fesd O = true -> o_pss O = Stewart ->
  is_fe O c e nfe -> j < o_ns O -> s < n_subsystems m -> k < n_modes m s -> (0 < rho (S2 FTheta c e j s k))%R ->
  (forall jj, jj < (match o_cross O with SumLambdas => n_mult O t c e | _ => o_ns O end) -> rho (S2 FLam c e jj s k) = 0%R) /\
  match before O c e with
  | Some (c', e') => rho (S2 FLam c' e' (n_mult O t c' e' - 1) s k) = 0%R
  | None => rho (SL00 FLam s k) = 0%R
  end.
Proof.
  intros Z L0 Hf Ep I Hj Hs Hk Hth.
  destruct (exclusive c e nfe j (upto s (n_modes m) + k) Z L0 Hf I Hj (st_pairs s k Ep Hs Hk) ltac:(rewrite st_theta by assumption; exact Hth)) as [A B].
  split.
  - intros jj Hjj. rewrite <- (st_lam c e jj s k Ep Hs Hk). apply A, Hjj.
  - unfold prev_lam in B. destruct (before O c e) as [[c' e']|]; cbn [last_lam] in B.
    + rewrite st_lam in B by assumption. exact B.
    + destruct (stewart_vecs O m rho Ep) as (_ & _ & E & _). rewrite E in B.
      destruct (dim2_stewart O m Ep) as (_ & D & _). rewrite <- (upto_ext _ (dim2 O m FLam) (n_modes m) D) in B.
      rewrite (ent_over (fun s i => rho (SL00 FLam s i))) in B; [exact B|exact Hs|rewrite D; exact Hk].
Qed.

(* Step: alpha > 0 forces lambda_n = 0, alpha < 1 forces lambda_p = 0 *)
Lemma sp_half f1 f2 dd n : n = upto (n_subsystems m) dd -> forall s k, s < n_subsystems m -> k < dd s ->
  ent (over_systems m f1 dd ++ f2) (upto s dd + k) = f1 s k.
Proof.
  intros En s k Hs Hk. unfold ent. rewrite app_nth1; [apply (ent_over f1 dd s k Hs Hk)|]. rewrite over_len. apply upto_lt; assumption.
Qed.
Lemma sp_half2 f1 l2 dd s k : s < n_subsystems m -> k < dd s ->
  ent (over_systems m f1 dd ++ l2) (upto (n_subsystems m) dd + (upto s dd + k)) = ent l2 (upto s dd + k).
Proof. intros Hs Hk. unfold ent. rewrite app_nth2; rewrite over_len; [f_equal; lia|lia]. Qed.

Lemma step_exclusive c e nfe j s k : zero_relaxation O rho -> lam00_nonneg -> o_use_fesd O = true -> o_pss O = Step ->
  is_fe O c e nfe -> j < o_ns O -> s < n_subsystems m -> k < n_switch m s ->
  let jmax := match o_cross O with SumLambdas => n_mult O t c e | _ => o_ns O end in
  ((0 < rho (S2 FAlpha c e j s k))%R ->
     (forall jj, jj < jmax -> rho (S2 FLn c e jj s k) = 0%R) /\
     forall c' e', before O c e = Some (c', e') -> rho (S2 FLn c' e' (n_mult O t c' e' - 1) s k) = 0%R) /\
  ((rho (S2 FAlpha c e j s k) < 1)%R ->
     (forall jj, jj < jmax -> rho (S2 FLp c e jj s k) = 0%R) /\
     forall c' e', before O c e = Some (c', e') -> rho (S2 FLp c' e' (n_mult O t c' e' - 1) s k) = 0%R).
Proof.
  intros Z L0 Hf Ep I Hj Hs Hk jmax.
  destruct (step_vecs O m rho Ep) as (VL & VT & NP). destruct (dim2_step O m Ep) as (D1 & D2 & D3 & _ & _).
  assert (Ha : k < dim2 O m FAlpha s) by (rewrite D1; exact Hk). assert (Hn : k < dim2 O m FLn s) by (rewrite D2; exact Hk).
  assert (Hp : k < dim2 O m FLp s) by (rewrite D3; exact Hk).
  set (q := upto s (n_switch m) + k).
  assert (Qa : q = upto s (dim2 O m FAlpha) + k) by (unfold q; rewrite (upto_ext _ _ _ D1); reflexivity).
  assert (Qn : q = upto s (dim2 O m FLn) + k) by (unfold q; rewrite (upto_ext _ _ _ D2); reflexivity).
  assert (Qp : q = upto s (dim2 O m FLp) + k) by (unfold q; rewrite (upto_ext _ _ _ D3); reflexivity).
  set (N := upto (n_subsystems m) (n_switch m)).
  assert (Na : N = upto (n_subsystems m) (dim2 O m FAlpha)) by (unfold N; rewrite (upto_ext _ _ _ D1); reflexivity).
  assert (Nn : N = upto (n_subsystems m) (dim2 O m FLn)) by (unfold N; rewrite (upto_ext _ _ _ D2); reflexivity).
  assert (Hq : q < N) by (apply upto_lt; assumption).
  assert (L1 : forall c e j, ent (lam_vec O m rho c e j) q = rho (S2 FLn c e j s k)).
  { intros. rewrite VL. unfold values at 1. rewrite Qn. apply (sp_half (fun s i => rho (S2 FLn c0 e0 j0 s i)) _ _ _ eq_refl); assumption. }
  assert (L2 : forall c e j, ent (lam_vec O m rho c e j) (N + q) = rho (S2 FLp c e j s k)).
  { intros. rewrite VL. unfold values at 1. rewrite Nn, Qn. rewrite sp_half2 by assumption. rewrite <- Qn, Qp. unfold values.
    apply (ent_over (fun s i => rho (S2 FLp c0 e0 j0 s i))); assumption. }
  assert (T1 : ent (theta_vec O m rho c e j) q = rho (S2 FAlpha c e j s k)).
  { rewrite VT. unfold values at 1. rewrite Qa. apply (sp_half (fun s i => rho (S2 FAlpha c e j s i)) _ _ _ eq_refl); assumption. }
  assert (T2 : ent (theta_vec O m rho c e j) (N + q) = (1 - rho (S2 FAlpha c e j s k))%R).
  { rewrite VT. unfold values at 1. rewrite Na, Qa. rewrite sp_half2 by assumption. unfold ent.
    assert (G : nth_error (map (fun a => (1 - a)%R) (values O m rho FAlpha c e j)) (upto s (dim2 O m FAlpha) + k) = Some (1 - rho (S2 FAlpha c e j s k))%R).
    { rewrite nth_error_map. unfold values. rewrite (over_at m (fun s i => rho (S2 FAlpha c e j s i)) _ s k Hs Ha). reflexivity. }
    rewrite (nth_error_nth _ _ _ G). reflexivity. }
  split; intros Hth.
  - destruct (exclusive c e nfe j q Z L0 Hf I Hj ltac:(rewrite NP; fold N; lia) ltac:(rewrite T1; exact Hth)) as [A B]. split.
    + intros jj Hjj. rewrite <- L1. apply A, Hjj.
    + intros c' e' Eb. unfold prev_lam in B. rewrite Eb in B. cbn [last_lam] in B. rewrite L1 in B. exact B.
  - destruct (exclusive c e nfe j (N + q) Z L0 Hf I Hj ltac:(rewrite NP; fold N; lia) ltac:(rewrite T2; lra)) as [A B]. split.
    + intros jj Hjj. rewrite <- L2. apply A, Hjj.
    + intros c' e' Eb. unfold prev_lam in B. rewrite Eb in B. cbn [last_lam] in B. rewrite L2 in B. exact B.
Qed.

(* ---- the state and multipliers at the end of an element ---- *)
Definition bpoint (c e : nat) : env := at_point m rho c e (o_ns O - 1) (end_slots O t c e) (final_state O t rho c e).
Lemma n_mult_explicit c e : t_rbe t = true -> n_mult O t c e = o_ns O.
Proof. intros E. unfold n_mult, points2. rewrite E. cbn [negb]. rewrite andb_false_r. cbn. lia. Qed.
Lemma boundary_switching c e nfe : o_use_fesd O = true -> is_fe O c e nfe -> switching_ok O m (bpoint c e).
Proof.
  intros Hf I. destruct (elem_all c e nfe I) as (A & _ & _ & _ & Bd & _). unfold bpoint, final_state. destruct (t_rbe t) eqn:E.
  - destruct (A (o_ns O - 1) ltac:(pose proof ns_pos; lia)) as (S1 & _). unfold stage_point in S1.
    replace (end_slots O t c e) with (fun _ : fam2 => o_ns O - 1); [exact S1|].
    apply FunctionalExtensionality.functional_extensionality. intros f. unfold end_slots. rewrite (n_mult_explicit c e E). destruct f; reflexivity.
  - exact (Bd E Hf).
Qed.

Lemma stewart_boundary c e nfe c' e' s k k' j j' : zero_relaxation O rho -> lam00_nonneg -> o_use_fesd O = true -> o_pss O = Stewart ->
  (o_cross O = SumLambdas \/ t_rbe t = true) ->
  is_fe O c e nfe -> before O c e = Some (c', e') -> j < o_ns O -> j' < o_ns O -> s < n_subsystems m -> k < n_modes m s -> k' < n_modes m s ->
  (0 < rho (S2 FTheta c' e' j' s k))%R -> (0 < rho (S2 FTheta c e j s k'))%R ->
  region_value m (bpoint c' e') s k = region_value m (bpoint c' e') s k'.
Proof.
  intros Z L0 Hf Ep Hc I Eb Hj Hj' Hs Hk Hk' T1 T2. destruct (prev_fe _ _ _ _ _ I Eb) as (nfe' & I').
  destruct (stewart_exclusive c' e' nfe' j' s k Z L0 Hf Ep I' Hj' Hs Hk T1) as [A _].
  destruct (stewart_exclusive c e nfe j s k' Z L0 Hf Ep I Hj Hs Hk' T2) as [_ B]. rewrite Eb in B.
  assert (A1 : rho (S2 FLam c' e' (n_mult O t c' e' - 1) s k) = 0%R).
  { pose proof ns_pos. pose proof (n_mult_ge c' e'). apply A. destruct Hc as [->|Hc]; [lia|]. rewrite (n_mult_explicit c' e' Hc).
    destruct (o_cross O); lia. }
  pose proof (boundary_switching c' e' nfe' Hf I') as Sw.
  assert (G : forall q, q < n_modes m s -> (region_value m (bpoint c' e') s q - rho (S2 FLam c' e' (n_mult O t c' e' - 1) s q) + bpoint c' e' (MF FMu s 0) = 0)%R).
  { intros q Hq. specialize (Sw s q Hs). unfold n_switching, switching_residual in Sw. rewrite Ep in Sw. exact (Sw Hq). }
  pose proof (G k Hk) as Gk. pose proof (G k' Hk') as Gk'. rewrite A1 in Gk. rewrite B in Gk'. lra.
Qed.

Lemma step_boundary c e nfe c' e' s k j j' : zero_relaxation O rho -> lam00_nonneg -> o_use_fesd O = true -> o_pss O = Step ->
  (o_cross O = SumLambdas \/ t_rbe t = true) ->
  is_fe O c e nfe -> before O c e = Some (c', e') -> j < o_ns O -> j' < o_ns O -> s < n_subsystems m -> k < n_switch m s ->
  (0 < rho (S2 FAlpha c' e' j' s k) /\ rho (S2 FAlpha c e j s k) < 1)%R \/ (rho (S2 FAlpha c' e' j' s k) < 1 /\ 0 < rho (S2 FAlpha c e j s k))%R ->
  switch_value m (bpoint c' e') s k = 0%R.
Proof.
  intros Z L0 Hf Ep Hc I Eb Hj Hj' Hs Hk T. destruct (prev_fe _ _ _ _ _ I Eb) as (nfe' & I').
  destruct (step_exclusive c' e' nfe' j' s k Z L0 Hf Ep I' Hj' Hs Hk) as [A1 A2].
  destruct (step_exclusive c e nfe j s k Z L0 Hf Ep I Hj Hs Hk) as [B1 B2].
  pose proof (boundary_switching c' e' nfe' Hf I' s k Hs) as Sw. unfold n_switching, switching_residual in Sw. rewrite Ep in Sw. specialize (Sw Hk).
  assert (EP : bpoint c' e' (MF FLp s k) = rho (S2 FLp c' e' (n_mult O t c' e' - 1) s k)) by reflexivity.
  assert (EN : bpoint c' e' (MF FLn s k) = rho (S2 FLn c' e' (n_mult O t c' e' - 1) s k)) by reflexivity.
  rewrite EP, EN in Sw.
  assert (J : n_mult O t c' e' - 1 < match o_cross O with SumLambdas => n_mult O t c' e' | _ => o_ns O end).
  { pose proof ns_pos. pose proof (n_mult_ge c' e'). destruct Hc as [->|Hc]; [lia|]. rewrite (n_mult_explicit c' e' Hc). destruct (o_cross O); lia. }
  destruct T as [[T1 T2]|[T1 T2]].
  - destruct (A1 T1) as [X _]. destruct (B2 T2) as [_ Y]. rewrite (X _ J) in Sw. rewrite (Y _ _ Eb) in Sw. lra.
  - destruct (A2 T1) as [X _]. destruct (B1 T2) as [_ Y]. rewrite (X _ J) in Sw. rewrite (Y _ _ Eb) in Sw. lra.
Qed.

(* ---- C15 ---- *)
Lemma last_element_coupled c e nfe : o_use_fesd O = true -> t_rbe t = false -> is_fe O c e nfe -> e + 1 = nfe ->
  forall s k, s < n_subsystems m -> k < n_switching O m s ->
  match o_pss O with
  | Stewart => region_value m (end_point O t m rho c e) s k = region_value m (stage_point O t m rho c e (o_ns O - 1)) s k
  | Step => switch_value m (end_point O t m rho c e) s k = switch_value m (stage_point O t m rho c e (o_ns O - 1)) s k
  end.
Proof.
  intros Hf Hr I He s k Hs Hk. destruct (elem_all c e nfe I) as (A & _ & _ & _ & Bd & _).
  destruct (A (o_ns O - 1) ltac:(pose proof ns_pos; lia)) as (S1 & _). specialize (S1 s k Hs Hk). specialize (Bd Hr Hf s k Hs Hk).
  assert (EM : n_mult O t c e = o_ns O).
  { rewrite (n_mult_val c e nfe I). unfold points2. replace (e + 1 <? nfe) with false by (symmetry; apply Nat.ltb_ge; lia). rewrite andb_false_r. lia. }
  unfold switching_residual in *. destruct (o_pss O).
  - assert (E1 : end_point O t m rho c e (MF FLam s k) = stage_point O t m rho c e (o_ns O - 1) (MF FLam s k)) by (unfold end_point, stage_point, at_point, end_slots; rewrite EM; reflexivity).
    assert (E2 : end_point O t m rho c e (MF FMu s 0) = stage_point O t m rho c e (o_ns O - 1) (MF FMu s 0)) by (unfold end_point, stage_point, at_point, end_slots; rewrite EM; reflexivity).
    rewrite E1, E2 in Bd. lra.
  - assert (E1 : end_point O t m rho c e (MF FLp s k) = stage_point O t m rho c e (o_ns O - 1) (MF FLp s k)) by (unfold end_point, stage_point, at_point, end_slots; rewrite EM; reflexivity).
    assert (E2 : end_point O t m rho c e (MF FLn s k) = stage_point O t m rho c e (o_ns O - 1) (MF FLn s k)) by (unfold end_point, stage_point, at_point, end_slots; rewrite EM; reflexivity).
    rewrite E1, E2 in Bd. lra.
Qed.

Lemma own_boundary_multipliers c e nfe : o_use_fesd O = true -> t_rbe t = false -> is_fe O c e nfe -> e + 1 < nfe -> n_mult O t c e = o_ns O + 1.
Proof.
  intros Hf Hr I He. rewrite (n_mult_val c e nfe I). unfold points2. rewrite Hf, Hr.
  replace (e + 1 <? nfe) with true by (symmetry; apply Nat.ltb_lt; lia). reflexivity.
Qed.
End Feas.
