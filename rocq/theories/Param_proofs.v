(* Param_proofs.v -- the numeric parameter vector of an NLP call against the parameters of the problem *)
From Coq Require Import Reals Qreals Lra.
From Verif Require Import Base Lib Sx Sx_proofs Utils Tableau Opts Model Ocp Problem Numeric Rk4 Results Solver Spec Fesd Spec2 Spec3 Spec4 Spec5
  FeMake_proofs FeZero_proofs Prob_proofs Body_proofs Model_proofs Con_proofs Index_proofs Index2_proofs Index3_proofs Nlp_proofs Feas_proofs Lam_proofs Accept_proofs
  Results_proofs Results2_proofs Results4_proofs Smooth2_proofs Solve_proofs Solve2_proofs Vec_proofs Syms_proofs Init_proofs Init2_proofs.

Lemma Forall2_of_nth {A B} (P : A -> B -> Prop) (a : list A) : forall b, length a = length b ->
  (forall i x, nth_error a i = Some x -> exists y, nth_error b i = Some y /\ P x y) -> Forall2 P a b.
Proof.
  induction a as [|x a IH]; intros [|y b] L Hn; try discriminate; [constructor|]. constructor.
  - destruct (Hn 0 x eq_refl) as (y' & E & Q). injection E as <-. exact Q.
  - apply IH; [cbn in L; lia|]. intros i z Hi. exact (Hn (S i) z Hi).
Qed.
Lemma Forall2_map_seq {A B} (P : A -> B -> Prop) (f : nat -> A) n b : length b = n ->
  (forall i, i < n -> exists y, nth_error b i = Some y /\ P (f i) y) -> Forall2 P (map f (seq 0 n)) b.
Proof.
  intros L Hn. apply Forall2_of_nth; [rewrite map_length, seq_length; lia|]. intros i x Hi.
  apply nth_error_map_seq in Hi. destruct Hi as [Hi ->]. apply Hn. exact Hi.
Qed.
Lemma nth_error_skipn {A} (l : list A) : forall n k, nth_error (skipn n l) k = nth_error l (n + k).
Proof. induction l as [|x l IH]; intros [|n] k; cbn; try reflexivity; [destruct k; reflexivity|apply IH]. Qed.
Lemma nth_error_firstn_lt {A} (l : list A) : forall n k, k < n -> nth_error (firstn n l) k = nth_error l k.
Proof. induction l as [|x l IH]; intros [|n] [|k] Hk; cbn; try reflexivity; try lia. apply IH. lia. Qed.
Lemma Forall2_blocks {A B} (P : A -> B -> Prop) (g : nat -> nat -> A) (d : nat -> nat) n : forall l, length l = upto n d ->
  (forall s k, s < n -> k < d s -> exists y, nth_error l (offset d s k) = Some y /\ P (g s k) y) ->
  Forall2 P (concat (map (fun s => map (g s) (seq 0 (d s))) (seq 0 n))) l.
Proof.
  induction n as [|n IH]; intros l L Hn; [destruct l; [constructor|discriminate]|].
  rewrite upto_S in L. rewrite seq_S, map_app, concat_app. cbn [map concat Nat.add]. rewrite app_nil_r.
  rewrite <- (firstn_skipn (upto n d) l). apply Forall2_app.
  - apply IH; [rewrite firstn_length; lia|]. intros s k Hs Hk. destruct (Hn s k ltac:(lia) Hk) as (y & E & Q). exists y. split; [|exact Q].
    rewrite <- E. apply nth_error_firstn_lt. unfold offset. pose proof (upto_mono d (S s) n ltac:(lia)) as G. rewrite upto_S in G. lia.
  - apply Forall2_map_seq; [rewrite skipn_length; lia|]. intros k Hk. destruct (Hn n k ltac:(lia) Hk) as (y & E & Q). exists y. split; [|exact Q].
    rewrite <- E. unfold offset. apply nth_error_skipn.
Qed.

Section Con.
Variables (lr : Q -> Q -> Q -> nat) (cp : nat -> scheme -> list Q) (d : ipopt_dict)
  (o : opts) (m : model) (oc : option ocp) (C : constructed).
Hypothesis H : construct_problem lr cp d o m oc = Ok C.
Notation O := (the_opts C).
Notation P := (the_problem C).
Notation W := (w (the_nlp C)).
Notation PM := (pr_pm (cn_prob C)).

Lemma dim_pm f s : s < n_subsystems m -> fsz O PM f s = dim2 O m f s.
Proof. intros Hs. apply (fsz_dim2 _ _ _ _ _ (proj2 (pm_facts _ _ _ _ _ _ _ H))). rewrite (nsub_pm _ _ _ _ _ _ _ H). exact Hs. Qed.
Lemma lab0_dim f : lab0 O PM f = concat (map (fun s => map (SL00 f s) (seq 0 (dim2 O m f s))) (seq 0 (n_subsystems m))).
Proof.
  unfold lab0. rewrite (nsub_pm _ _ _ _ _ _ _ H). f_equal. apply map_ext_in. intros s Hs. apply in_seq in Hs. rewrite dim_pm by lia. reflexivity.
Qed.
Lemma lab0_nil f : (forall s, dim2 O m f s = 0) -> lab0 O PM f = [].
Proof. intros Z. apply length_zero_iff_nil. rewrite (lab0_len _ _ _ _ _ _ _ H). apply upto_zero, Z. Qed.

Section At.
Variables (s : sstate) (sg tau : R) (lam : list R).
Hypothesis Z : sized C m s.
Hypothesis EL : compute_lambda00 PM (ss_x0 s) (ss_pval s) = Ok lam.
Hypothesis WS : well_sized m.
Notation B := (belongs C m s sg tau).

Lemma row0 : exists p0, nth_error (ss_pval s) 0 = Some p0 /\ nth 0 (ss_pval s) [] = p0 /\ length p0 = m_npt m + m_npg m.
Proof.
  destruct (nth_error_lt (ss_pval s) 0) as [p0 Hp]. { rewrite (sz_pval _ _ _ Z). apply (stages_pos' _ _ _ _ _ _ _ H). }
  exists p0. split; [exact Hp|]. split; [apply nth_error_nth, Hp|]. exact (sz_rows _ _ _ Z p0 (nth_error_In _ _ Hp)).
Qed.
Lemma stages_belong : Forall2 B (concat (map (fun c => map (SPst c) (seq 0 (m_npt m + m_npg m))) (seq 0 (o_N_stages O)))) (concat (ss_pval s)).
Proof.
  pose proof (sz_rows _ _ _ Z) as R. apply (Forall2_blocks B (fun c => SPst c) (fun _ => m_npt m + m_npg m)).
  - rewrite <- (sz_pval _ _ _ Z). clear - R. unfold upto. generalize (seq_length (length (ss_pval s)) 0). generalize (seq 0 (length (ss_pval s))).
    induction (ss_pval s) as [|r l IH]; intros [|a q] Lq; try discriminate; [reflexivity|]. cbn [map total fold_right concat].
    unfold total in *. cbn [fold_right]. rewrite app_length, (R r) by (left; reflexivity). f_equal. apply IH; [intros r' Hr; apply R; right; exact Hr|cbn in Lq; lia].
  - intros c k Hc Hk. rewrite <- (sz_pval _ _ _ Z) in Hc. destruct (nth_error_lt _ _ Hc) as [r Hr].
    pose proof (R r (nth_error_In _ _ Hr)) as Lr. destruct (nth_error_lt r k ltac:(lia)) as [x Hx]. exists x.
    rewrite (nth_concat_offset (fun _ => m_npt m + m_npg m) _ c k r (fun s' r' Hr' => R r' (nth_error_In _ _ Hr')) Hr Hk).
    split; [exact Hx|]. exists r. auto.
Qed.
Lemma x0_belong : Forall2 B (map SX0 (seq 0 (m_nx m))) (ss_x0 s).
Proof.
  apply Forall2_map_seq; [exact (sz_x0 _ _ _ Z)|]. intros i Hi. rewrite <- (sz_x0 _ _ _ Z) in Hi. destruct (nth_error_lt _ _ Hi) as [x Hx].
  exists x. split; [exact Hx|exact Hx].
Qed.
Lemma stewart_belong : o_pss O = Stewart -> Forall2 B (lam0 O PM) lam.
Proof.
  intros Ep. destruct row0 as (p0 & Hp & En & Lp). destruct (pm_facts _ _ _ _ _ _ _ H) as [HP MO].
  destruct (stewart_lambda00 _ _ _ HP WS _ _ _ Ep (sz_x0 _ _ _ Z) Hp Lp) as (l & mn & E1 & E2 & E3 & _).
  assert (l = lam) by congruence. subst l. clear E1.
  unfold lam0. rewrite (lab0_nil FLn), (lab0_nil FLp), !app_nil_r by (intros; unfold dim2; rewrite Ep; reflexivity).
  rewrite lab0_dim. rewrite (map_ext_in _ (fun q => map (SL00 FLam q) (seq 0 (n_modes m q)))) by (intros; unfold dim2; rewrite Ep; reflexivity).
  apply (Forall2_blocks B (SL00 FLam) (n_modes m)); [exact E2|]. intros q k Hq Hk. destruct (E3 q Hq) as [LE N]. specialize (N k Hk).
  eexists. split; [exact N|]. cbn [belongs]. rewrite En. exists (mn q). auto.
Qed.
Lemma parts ln lp c : (0 <= ln)%R -> (0 <= lp)%R -> (lp - ln = c)%R -> (lp * ln = 0)%R -> ln = Rmax 0 (- c) /\ lp = Rmax 0 c.
Proof.
  intros A1 A2 A3 A4. apply Rmult_integral in A4. unfold Rmax. destruct A4 as [A4|A4]; subst; repeat destruct (Rle_dec _ _); split; lra.
Qed.
Lemma step_belong : o_pss O = Step -> gS_given m = false -> n_subsystems m = 1 -> Forall2 B (lam0 O PM) lam.
Proof.
  intros Ep Eg E1s. destruct row0 as (p0 & Hp & En & Lp). destruct (pm_facts _ _ _ _ _ _ _ H) as [HP MO].
  destruct (step_lambda00 _ _ _ HP WS _ _ _ Ep Eg (sz_x0 _ _ _ Z) Hp Lp) as (l & E1 & E2 & E3 & _).
  assert (l = lam) by congruence. subst l. clear E1.
  unfold lam0. rewrite (lab0_nil FLam) by (intros; unfold dim2; rewrite Ep; reflexivity). cbn [app].
  rewrite !lab0_dim, E1s. cbn [seq map concat]. rewrite !app_nil_r.
  replace (dim2 O m FLn 0) with (n_switch m 0) by (unfold dim2; rewrite Ep; reflexivity).
  replace (dim2 O m FLp 0) with (n_switch m 0) by (unfold dim2; rewrite Ep; reflexivity).
  rewrite E1s, upto_S in E2. change (upto 0 _) with 0 in E2. cbn [Nat.add] in E2.
  rewrite <- (firstn_skipn (n_switch m 0) lam). apply Forall2_app; apply Forall2_map_seq.
  - rewrite firstn_length. lia.
  - intros k Hk. destruct (E3 0 k ltac:(lia) Hk) as (ln & lp & N1 & N2 & P1 & P2 & P3 & P4). unfold offset in N1, N2. change (upto 0 _) with 0 in *. cbn [Nat.add] in *.
    exists ln. split; [rewrite nth_error_firstn_lt by lia; exact N1|]. cbn [belongs]. rewrite En. exact (proj1 (parts _ _ _ P1 P2 P3 P4)).
  - rewrite skipn_length. lia.
  - intros k Hk. destruct (E3 0 k ltac:(lia) Hk) as (ln & lp & N1 & N2 & P1 & P2 & P3 & P4). unfold offset in N1, N2. change (upto 0 _) with 0 in *. cbn [Nat.add] in *.
    exists lp. split; [rewrite nth_error_skipn; exact N2|]. cbn [belongs]. rewrite En. exact (proj2 (parts _ _ _ P1 P2 P3 P4)).
Qed.

Lemma params_belong : o_pss O = Stewart \/ (gS_given m = false /\ n_subsystems m = 1) ->
  Forall2 B (p_p P) (concat (ss_pval s) ++ [sg; tau] ++ lam ++ ss_x0 s).
Proof.
  intros Hc. rewrite (p_layout _ _ _ _ _ _ _ H). apply Forall2_app; [exact stages_belong|].
  apply Forall2_app; [constructor; [reflexivity|constructor; [reflexivity|constructor]]|].
  apply Forall2_app; [|exact x0_belong]. destruct (o_pss O) eqn:Ep.
  - apply stewart_belong, Ep.
  - destruct Hc as [Hc|[H1 H2]]; [discriminate|]. apply step_belong; assumption.
Qed.

(* two subsystems with one switching function each, Step: the third symbol group is permuted *)
Lemma step_two_wrong : o_pss O = Step -> gS_given m = false -> n_subsystems m = 2 -> n_switch m 0 = 1 -> n_switch m 1 = 1 ->
  let v0 := initial_point m (ss_x0 s) (reals (pm_z0 PM)) (nth 0 (ss_pval s) []) in
  Rmax 0 (switch_value m v0 0 0) <> Rmax 0 (- switch_value m v0 1 0) ->
  ~ Forall2 B (p_p P) (concat (ss_pval s) ++ [sg; tau] ++ lam ++ ss_x0 s).
Proof.
  intros Ep Eg E2s S0 S1 v0 NE F. destruct row0 as (p0 & Hp & En & Lp). destruct (pm_facts _ _ _ _ _ _ _ H) as [HP MO].
  destruct (step_lambda00 _ _ _ HP WS _ _ _ Ep Eg (sz_x0 _ _ _ Z) Hp Lp) as (l & E1 & E2 & E3 & _).
  assert (l = lam) by congruence. subst l. clear E1.
  rewrite (p_layout _ _ _ _ _ _ _ H) in F.
  apply Forall2_app_inv_l in F. destruct F as (a1 & a2 & F1 & F2 & Eq).
  pose proof (Forall2_length _ _ _ F1) as L1. pose proof (Forall2_length _ _ _ stages_belong) as L2.
  assert (A : forall (a b c e : list R), length a = length c -> a ++ b = c ++ e -> a = c /\ b = e).
  { induction a as [|x a IH]; intros b [|y c] e L Eq'; try discriminate; [auto|]. cbn in *. injection Eq' as -> Eq'. injection L as L.
    destruct (IH _ _ _ L Eq') as [-> ->]. auto. }
  apply A in Eq; [|congruence]. destruct Eq as [_ <-]. clear F1 L1 L2.
  apply Forall2_app_inv_l in F2. destruct F2 as (b1 & b2 & F3 & F4 & Eq).
  pose proof (Forall2_length _ _ _ F3) as L1. apply A in Eq; [|cbn in *; congruence]. destruct Eq as [_ <-]. clear F3 L1.
  unfold lam0 in F4. rewrite (lab0_nil FLam) in F4 by (intros; unfold dim2; rewrite Ep; reflexivity). cbn [app] in F4.
  rewrite !lab0_dim, E2s in F4. cbn [seq map concat] in F4.
  replace (dim2 O m FLn 0) with 1 in F4 by (unfold dim2; rewrite Ep; congruence).
  replace (dim2 O m FLn 1) with 1 in F4 by (unfold dim2; rewrite Ep; congruence).
  cbn [seq map app] in F4.
  destruct (E3 0 0 ltac:(lia) ltac:(lia)) as (ln & lp & N1 & N2 & P1 & P2 & P3 & P4). unfold offset in N2. change (upto 0 _) with 0 in N2.
  rewrite S0 in N2. cbn [Nat.add] in N2.
  destruct lam as [|y0 [|y1 lam']]; try discriminate. cbn in N2. injection N2 as ->.
  inversion F4 as [|? ? ? ? _ F5]; subst. inversion F5 as [|? ? ? ? G _]; subst. cbn [belongs] in G. fold v0 in G.
  pose proof (proj2 (parts _ _ _ P1 P2 P3 P4)) as Q. fold v0 in Q. congruence.
Qed.
End At.
End Con.
