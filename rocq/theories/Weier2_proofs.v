(* Weier2_proofs.v -- with bounded states, controls and global variables all feasible points are bounded *)
From Coq Require Import Reals Qreals Lra Lia Classical.
From Verif Require Import Base Lib Sx Sx_proofs Utils Tableau Opts Model Ocp Problem Spec Index3_proofs Fesd Dcs_proofs Elem_proofs Spec2 Spec3 Feas_proofs Feas2_proofs Feas6_proofs Fix_proofs Spec4 Results_proofs Init2_proofs FeZero_proofs
  Spec9 Filippov3_proofs Spec10 Exact_proofs Spec11 Syms_proofs Bounds_proofs Spec21 Conv2_proofs Spec24 Relax_proofs Spec30 Homot_proofs Homot2_proofs Homot3_proofs Homot4_proofs Spec35 Weier_proofs.
Local Open Scope R_scope.

Lemma finite_within l u x : finite l -> finite u -> within l u x -> exists a b, l = Fin a /\ u = Fin b /\ Rabs x <= Rabs (Q2R a) + Rabs (Q2R b).
Proof.
  intros [a ->] [b ->] [W1 W2]. cbn in W1, W2. exists a, b. split; [reflexivity|]. split; [reflexivity|].
  pose proof (Rle_abs (Q2R b)). pose proof (Rle_abs (- Q2R a)). rewrite Rabs_Ropp in H0. pose proof (Rabs_pos (Q2R a)). pose proof (Rabs_pos (Q2R b)). apply Rabs_le. lra.
Qed.

(* functions that are bounded on the points with P *)
Section Bounded.
Variable P : env -> Prop.
Definition bf (f : env -> R) : Prop := exists B, forall v, P v -> Rabs (f v) <= B.
Lemma bf_const c : bf (fun _ => c). Proof. exists (Rabs c). intros v _. apply Rle_refl. Qed.
Lemma bf_plus f h : bf f -> bf h -> bf (fun v => f v + h v).
Proof. intros [A HA] [B HB]. exists (A + B). intros v Hv. eapply Rle_trans; [apply Rabs_triang|]. specialize (HA v Hv). specialize (HB v Hv). lra. Qed.
Lemma bf_scal c f : bf f -> bf (fun v => c * f v).
Proof. intros [A HA]. exists (Rabs c * A). intros v Hv. rewrite Rabs_mult. apply Rmult_le_compat_l; [apply Rabs_pos|apply HA, Hv]. Qed.
Lemma bf_opp f : bf f -> bf (fun v => - f v).
Proof. intros [A HA]. exists A. intros v Hv. rewrite Rabs_Ropp. apply HA, Hv. Qed.
Lemma bf_list {X} (l : list X) (f : X -> env -> R) : (forall x, In x l -> bf (f x)) -> exists B, 0 <= B /\ forall v x, P v -> In x l -> Rabs (f x v) <= B.
Proof.
  induction l as [|x l IH]; intros A; [exists 0; split; [lra|intros v x _ []]|].
  destruct (A x (or_introl eq_refl)) as [B1 H1]. destruct (IH (fun y Hy => A y (or_intror Hy))) as (B2 & P2 & H2). exists (Rmax B1 B2).
  split; [eapply Rle_trans; [exact P2|apply Rmax_r]|]. intros v y Hv [<-|Hy]; [eapply Rle_trans; [apply H1, Hv|apply Rmax_l]|eapply Rle_trans; [apply H2; assumption|apply Rmax_r]].
Qed.
Lemma bf_rsum {X} (l : list X) (f : X -> env -> R) : (forall x, In x l -> bf (f x)) -> bf (fun v => rsum (map (fun x => f x v) l)).
Proof.
  induction l as [|x l IH]; intros A; [exact (bf_const 0)|]. cbn [map]. apply (bf_plus (f x)); [apply A; left; reflexivity|apply IH; intros y Hy; apply A; right; exact Hy].
Qed.
Lemma bf_mult f h : bf f -> bf h -> bf (fun v => f v * h v).
Proof. intros [A HA] [B HB]. exists (A * B). intros v Hv. rewrite Rabs_mult. apply Rmult_le_compat; try apply Rabs_pos; [apply HA, Hv|apply HB, Hv]. Qed.
Lemma bf_rprod {X} (l : list X) (f : X -> env -> R) : (forall x, In x l -> bf (f x)) -> bf (fun v => rprod (map (fun x => f x v) l)).
Proof.
  induction l as [|x l IH]; intros A; [exact (bf_const 1)|]. cbn [map]. apply (bf_mult (f x)); [apply A; left; reflexivity|apply IH; intros y Hy; apply A; right; exact Hy].
Qed.
Lemma bf_ext f h : (forall v, P v -> f v = h v) -> bf h -> bf f.
Proof. intros E [A HA]. exists A. intros v Hv. rewrite (E v Hv). apply HA, Hv. Qed.
Lemma bf_eval (V : env -> env) e : (forall v, regular v e) -> (forall y, In y (fv e) -> bf (fun v => V v y)) -> bf (fun v => eval (V v) e).
Proof.
  intros Rg A. destruct (bf_list (fv e) (fun y v => V v y) A) as (B & _ & HB). destruct (eval_bounded e B Rg) as [G HG].
  exists G. intros v Hv. apply HG. intros y Hy. exact (HB v y Hv Hy).
Qed.
End Bounded.

Lemma abs_le_inv x a : Rabs x <= a -> - a <= x <= a.
Proof. intros H. pose proof (Rle_abs x). pose proof (Rle_abs (- x)). rewrite Rabs_Ropp in *. lra. Qed.
Lemma rupto_ge n f k : (forall i, (i < n)%nat -> 0 <= f i) -> (k < n)%nat -> f k <= rupto n f.
Proof.
  induction n as [|n IH]; intros A Hk; [lia|]. rewrite rupto_succ. pose proof (A n ltac:(lia)) as An. destruct (Nat.eq_dec k n) as [->|N].
  - pose proof (rupto_nonneg n f (fun i Hi => A i (Nat.lt_lt_succ_r _ _ Hi))). lra.
  - specialize (IH (fun i Hi => A i (Nat.lt_lt_succ_r _ _ Hi)) ltac:(lia)). lra.
Qed.
(* a convex combination has a large weight *)
Lemma large_weight n (th : nat -> R) : rupto n th = 1 -> exists k, (k < n)%nat /\ 1 <= INR n * th k.
Proof.
  intros S. apply NNPP. intros N. assert (A : forall k, (k < n)%nat -> INR n * th k < 1) by (intros k Hk; apply Rnot_le_lt; intros L; apply N; exists k; split; assumption).
  assert (n0 : (0 < n)%nat) by (destruct n; [cbn in S; lra|lia]).
  assert (G : forall q, (q <= n)%nat -> (0 < q)%nat -> INR n * rupto q th < INR q).
  { induction q as [|q IH]; [lia|]. intros Hq _. rewrite rupto_succ, S_INR. specialize (A q ltac:(lia)). destruct q as [|q]; [cbn; cbn in A; unfold rupto, rsum; cbn; lra|]. specialize (IH ltac:(lia) ltac:(lia)). lra. }
  specialize (G n ltac:(lia) n0). rewrite S in G. lra.
Qed.

Section Con.
Variables (lr : Q -> Q -> Q -> nat) (cp : nat -> scheme -> list Q) (d : ipopt_dict) (o : opts) (m : model) (oc : option ocp) (C : constructed).
Hypothesis FP : fesd_problem lr cp d o m oc C.
Notation O := (the_opts C).
Notation t := (cn_tab C).
Notation oc' := (the_ocp oc).
Hypothesis PM : product_mode O.
Hypothesis RI : stages_bounded O m.
Hypothesis FB : finite_bounds O m oc'.
Hypothesis CS : continuous_switching m.
Variables (data : env) (sbar : R).
Definition pts (v : env) : Prop := feasible v (the_nlp C) /\ same_data C v data /\ v SSigma <= sbar /\ initial_nonneg v.
Notation bd := (bf pts).

Lemma not_bool : o_mpcc O <> MBoolean. Proof. unfold product_mode in PM. destruct (o_mpcc O); congruence || contradiction. Qed.
Lemma vb v : pts v -> var_bounds O (explicit_end C) m oc' v.
Proof. intros (F & _). apply (bounds_iff _ _ _ _ _ _ _ (proj1 FP) v not_bool). exact (proj1 F). Qed.
Lemma bd_within l u y : finite l -> finite u -> (forall v, pts v -> within l u (v y)) -> bd (fun v => v y).
Proof.
  intros Fl Fu W. destruct Fl as [a Ea], Fu as [b Eb]. exists (Rabs (Q2R a) + Rabs (Q2R b)). intros v Hv.
  destruct (finite_within l u (v y) (ex_intro _ a Ea) (ex_intro _ b Eb) (W v Hv)) as (a' & b' & E1 & E2 & Z). rewrite Ea in E1. rewrite Eb in E2. injection E1 as <-. injection E2 as <-. exact Z.
Qed.
Lemma bd_x c e j i : is_element O c e -> (j < points1 O (explicit_end C) FX)%nat -> (i < m_nx m)%nat -> bd (fun v => v (S1 FX c e j i)).
Proof. intros He Hj Hi. destruct (fb_x _ _ _ FB i Hi) as [F1 F2]. apply (bd_within _ _ _ F1 F2). intros v Hv. destruct (vb v Hv) as (_ & _ & _ & W). destruct (W c e He) as (_ & W1 & _). apply W1; [exact Hj|exact Hi]. Qed.
Lemma bd_z c e j i : is_element O c e -> (j < o_ns O)%nat -> (i < m_nz m)%nat -> bd (fun v => v (S1 FZ c e j i)).
Proof. intros He Hj Hi. destruct (fb_z _ _ _ FB i Hi) as [F1 F2]. apply (bd_within _ _ _ F1 F2). intros v Hv. destruct (vb v Hv) as (_ & _ & _ & W). destruct (W c e He) as (_ & W1 & _). apply W1; [exact Hj|exact Hi]. Qed.
Lemma bd_u c i : (c < o_N_stages O)%nat -> (i < m_nu m)%nat -> bd (fun v => v (SU c i)).
Proof. intros Hc Hi. destruct (fb_u _ _ _ FB i Hi) as [F1 F2]. apply (bd_within _ _ _ F1 F2). intros v Hv. destruct (vb v Hv) as (_ & _ & W & _). apply (proj1 (W c Hc)), Hi. Qed.
Lemma bd_v i : (i < m_nvg m)%nat -> bd (fun v => v (SVg i)).
Proof. intros Hi. destruct (fb_v _ _ _ FB i Hi) as [F1 F2]. apply (bd_within _ _ _ F1 F2). intros v Hv. destruct (vb v Hv) as (_ & W & _). apply W, Hi. Qed.
Lemma bd_sot c : o_sot O = SotLocal -> (c < o_N_stages O)%nat -> bd (fun v => v (SSot c)).
Proof. intros E Hc. apply (bd_within (Fin (o_sot_min O)) (Fin (o_sot_max O))); [eexists; reflexivity|eexists; reflexivity|]. intros v Hv. destruct (vb v Hv) as (_ & _ & W & _). apply (proj2 (W c Hc)), E. Qed.
Lemma bd_h c e : o_use_fesd O = true -> is_element O c e -> bd (fun v => v (SH c e)).
Proof.
  intros E He. destruct (fb_h _ _ _ FB) as [q Eq]. apply (bd_within (step_lower O (nfe_of O c)) (step_upper O (nfe_of O c))); [unfold step_lower; rewrite Eq; eexists; reflexivity|unfold step_upper; rewrite Eq; eexists; reflexivity|].
  intros v Hv. destruct (vb v Hv) as (_ & _ & _ & W). apply (proj1 (W c e He)), E.
Qed.
Lemma bd_el : elastic O = true -> bd (fun v => v SElastic).
Proof. intros E. apply (bd_within (Fin (o_s_elastic_min O)) (Fin (o_s_elastic_max O))); [eexists; reflexivity|eexists; reflexivity|]. intros v Hv. destruct (vb v Hv) as (W & _). apply W, E. Qed.
Lemma bd_p c i : (c < o_N_stages O)%nat -> (i < m_npt m + m_npg m)%nat -> bd (fun v => v (SPst c i)).
Proof.
  intros Hc Hi. exists (Rabs (data (SPst c i))). intros v (_ & D & _). rewrite (D (SPst c i)); [apply Rle_refl| |discriminate|discriminate].
  rewrite (p_layout _ _ _ _ _ _ _ (proj1 FP)). apply in_or_app. left. apply in_concat. exists (map (SPst c) (seq 0 (m_npt m + m_npg m))). split.
  - apply in_map_iff. exists c. split; [reflexivity|apply in_seq; lia].
  - apply in_map, in_seq. lia.
Qed.
(* relaxation parameter *)
Lemma relaxation_bounded : exists K, 0 <= K /\ forall v, pts v -> relaxed_by O m v K.
Proof.
  destruct (elastic O) eqn:El.
  - destruct (bd_el El) as [B HB]. exists (Rmax 0 B). split; [apply Rmax_l|]. intros v Hv c e j k He Hj Hk. destruct Hv as (F & D & S & N) eqn:EV.
    eapply Rle_trans; [exact (relaxed_by_parameter _ _ _ _ _ _ _ v FP F PM N c e j k He Hj Hk)|]. specialize (HB v Hv). pose proof (Rle_abs (v SElastic)). pose proof (Rmax_r 0 B).
    unfold relaxation, elastic in *. destruct (o_mpcc O); try discriminate; lra.
  - exists (Rmax 0 sbar). split; [apply Rmax_l|]. intros v (F & D & S & N) c e j k He Hj Hk.
    eapply Rle_trans; [exact (relaxed_by_parameter _ _ _ _ _ _ _ v FP F PM N c e j k He Hj Hk)|]. pose proof (Rmax_r 0 sbar).
    unfold relaxation, elastic, product_mode in *. destruct (o_mpcc O); try discriminate; try contradiction; lra.
Qed.

(* the end multipliers of an element belong to the weights of the next element *)
Lemma next_element c e : is_element O c e -> (e + 1 < nfe_of O c)%nat -> is_element O c (e + 1).
Proof. intros [Hc He] Hn. split; [exact Hc|exact Hn]. Qed.
Lemma relaxed_prev v c e k : pts v -> o_use_fesd O = true -> is_element O c e -> (e + 1 < nfe_of O c)%nat -> (k < n_pairs O m)%nat ->
  ent (theta_vec O m v c (e + 1) 0) k * ent (lam_vec O m v c e (n_mult O t c e - 1)) k <= relaxation O v.
Proof.
  intros (F & _ & _ & N0) Uf He Hn Hk. destruct F as [F1 F2]. destruct FP as (H & E & W). pose proof (next_element c e He Hn) as He'. pose proof (element_fe _ _ _ _ _ _ _ FP c _ He') as I.
  destruct (elem_all _ _ _ _ _ _ _ H E W v F2 c _ _ I) as (_ & _ & _ & _ & _ & _ & X & _). pose proof (ns_pos lr cp d o m oc C H) as Np. specialize (X 0%nat k Np Hk). cbv zeta in X. rewrite Uf in X.
  assert (Pv : prev_lam O t m v c (e + 1) = lam_vec O m v c e (n_mult O t c e - 1)) by (unfold prev_lam; rewrite Nat.add_1_r; reflexivity).
  rewrite Pv in X. pose proof (theta_nonneg _ _ _ _ _ _ _ H v F1 c _ _ 0%nat k PM I Np) as T0.
  destruct (o_cross O).
  - destruct X as [X _]. pose proof (relaxed_sum C v PM _ _ X) as G. unfold rsum in G. cbn [fold_right] in G. rewrite Rplus_0_r in G. exact G.
  - pose proof (relaxed_sum C v PM _ _ X) as G. rewrite Rmult_comm. eapply Rle_trans; [|exact G]. apply Rmult_le_compat_r; [exact T0|]. apply rsum_ge.
    + intros x Hx. rewrite in_app_iff in Hx. destruct Hx as [Hx|[<-|[]]].
      * apply in_map_iff in Hx. destruct Hx as (jj & <- & Hjj). apply in_seq in Hjj. exact (lam_nonneg _ _ _ _ _ _ _ H v F1 c _ _ jj k PM I ltac:(lia)).
      * rewrite <- Pv. exact (prev_nonneg _ _ _ _ _ _ _ H v F1 c _ _ k PM N0 I).
    + apply in_or_app. right. left. reflexivity.
Qed.
Lemma relaxation_le : exists K, 0 <= K /\ forall v, pts v -> relaxation O v <= K.
Proof.
  destruct (elastic O) eqn:El.
  - destruct (bd_el El) as [B HB]. exists (Rmax 0 B). split; [apply Rmax_l|]. intros v Hv. specialize (HB v Hv). pose proof (Rle_abs (v SElastic)). pose proof (Rmax_r 0 B).
    unfold relaxation, elastic in *. destruct (o_mpcc O); try discriminate; lra.
  - exists (Rmax 0 sbar). split; [apply Rmax_l|]. intros v (F & D & S & N). pose proof (Rmax_r 0 sbar).
    unfold relaxation, elastic, product_mode in *. destruct (o_mpcc O); try discriminate; try contradiction; lra.
Qed.

Notation H := (proj1 FP).
Notation Ex := (proj1 (proj2 FP)).
Notation WS := (proj2 (proj2 FP)).
Lemma ns_points : (o_ns O <= points1 O (explicit_end C) FX)%nat.
Proof. unfold points1. unfold stages_bounded in RI. destruct (o_repr O); [|contradiction|]; destruct (explicit_end C); lia. Qed.
Lemma points_pos : (0 < points1 O (explicit_end C) FX)%nat.
Proof. pose proof (ns_pos lr cp d o m oc C H). pose proof ns_points. lia. Qed.

(* switching functions at points whose symbols are bounded *)
Section Point.
Variable pp : env -> env.
Hypothesis bd_sym : forall y, model_sym m y -> bd (fun v => pp v y).
Lemma bd_expr s q : In q (user_gS m s) \/ In q (user_c m s) -> bd (fun v => eval (pp v) q).
Proof. intros Hq. destruct (CS s q Hq) as [U Rg]. apply (bf_eval pts (fun v => pp v) q Rg). intros y Hy. apply bd_sym, U, Hy. Qed.
Lemma bd_nth s l k : (forall q, In q l -> In q (user_gS m s) \/ In q (user_c m s)) -> bd (fun v => eval (pp v) (nth k l (ECst 0))).
Proof. intros A. destruct (nth_in_or_default k l (ECst 0)) as [Hi| ->]; [apply (bd_expr s), A, Hi|exact (bf_const pts (Q2R 0))]. Qed.
Lemma bd_region s k : bd (fun v => region_value m (pp v) s k).
Proof.
  unfold region_value. destruct (gS_given m); [apply (bd_nth s); intros q Hq; left; exact Hq|].
  apply bf_opp. apply (bf_rsum pts (combine (nth k (user_S m s) []) (user_c m s)) (fun p v => Q2R (fst p) * eval (pp v) (snd p))).
  intros [a q] Hq. apply in_combine_r in Hq. cbn [fst snd]. apply bf_scal, (bd_expr s). right. exact Hq.
Qed.
Lemma bd_switch s k : bd (fun v => switch_value m (pp v) s k).
Proof. unfold switch_value. apply (bd_nth s). intros q Hq. right. exact Hq. Qed.
End Point.
Lemma bd_stage c e j y : is_element O c e -> (j < o_ns O)%nat -> model_sym m y -> bd (fun v => stage_point O t m v c e j y).
Proof.
  intros He Hj My. pose proof (proj1 He) as Hc. destruct y; cbn [model_sym] in My; try contradiction; unfold stage_point; cbn [at_point].
  - apply (bf_ext pts _ (fun v => v (S1 FX c e j i))); [intros v _; unfold stage_state; unfold stages_bounded in RI; destruct (o_repr O); [reflexivity|contradiction|reflexivity]|]. apply bd_x; [exact He|pose proof ns_points; lia|exact My].
  - apply bd_u; assumption.
  - apply bd_z; assumption.
  - apply bd_p; [exact Hc|lia].
  - apply bd_p; [exact Hc|lia].
  - apply bd_v, My.
Qed.
Lemma bd_end c e y : is_element O c e -> model_sym m y -> bd (fun v => end_point O t m v c e y).
Proof.
  intros He My. pose proof (proj1 He) as Hc. pose proof (ns_pos lr cp d o m oc C H) as Np. pose proof points_pos as Pp.
  destruct y; cbn [model_sym] in My; try contradiction; unfold end_point; cbn [at_point].
  - unfold end_state. apply bd_x; [exact He| |exact My]. fold (explicit_end C). lia.
  - apply bd_u; assumption.
  - apply bd_z; [exact He|lia|exact My].
  - apply bd_p; [exact Hc|lia].
  - apply bd_p; [exact Hc|lia].
  - apply bd_v, My.
Qed.

(* Stewart: multipliers whose products with convex weights are at most K *)
Lemma stewart_core n (reg lam th : nat -> R) mu G K : 0 <= K -> 0 <= G -> (forall k, (k < n)%nat -> reg k - lam k + mu = 0) -> (forall k, (k < n)%nat -> 0 <= lam k) -> (forall k, (k < n)%nat -> Rabs (reg k) <= G) ->
  (forall k, (k < n)%nat -> 0 <= th k) -> rupto n th = 1 -> (forall k, (k < n)%nat -> th k * lam k <= K) -> Rabs mu <= 1 + INR n * K + 2 * G /\ forall k, (k < n)%nat -> Rabs (lam k) <= 1 + INR n * K + 2 * G.
Proof.
  intros K0 G0 Q L0 GB T0 T1 P. pose proof (pos_INR n) as N0. assert (NK : 0 <= INR n * K) by (apply Rmult_le_pos; assumption).
  destruct (large_weight _ _ T1) as (k & Hk & LW).
  assert (LK : lam k <= INR n * K).
  { assert (A1 : 1 * lam k <= INR n * th k * lam k) by (apply Rmult_le_compat_r; [apply L0, Hk|exact LW]).
    assert (A2 : INR n * (th k * lam k) <= INR n * K) by (apply Rmult_le_compat_l; [exact N0|apply P, Hk]). lra. }
  pose proof (Q k Hk) as Qk. pose proof (L0 k Hk) as Lk. pose proof (abs_le_inv _ _ (GB k Hk)) as Gk. split; [apply Rabs_le; lra|].
  intros q Hq. pose proof (Q q Hq) as Qq. pose proof (L0 q Hq). pose proof (abs_le_inv _ _ (GB q Hq)). apply Rabs_le; lra.
Qed.
(* Step *)
Lemma step_core sw ln lp al G K : 0 <= K -> 0 <= al -> al <= 1 -> 0 <= ln -> 0 <= lp -> sw - lp + ln = 0 -> Rabs sw <= G -> al * ln <= K -> (1 - al) * lp <= K ->
  Rabs ln <= 1 + 2 * K + Rabs G /\ Rabs lp <= 1 + 2 * K + Rabs G.
Proof.
  intros K0 A0 A1 P2 P1 Sw HG B1 B2. apply abs_le_inv in HG. pose proof (Rle_abs G) as GA. pose proof (Rabs_pos G) as GP.
  destruct (Rle_lt_dec (/ 2) al) as [X|X].
  - assert (Y : / 2 * ln <= al * ln) by (apply Rmult_le_compat_r; assumption). split; apply Rabs_le; lra.
  - assert (Y : / 2 * lp <= (1 - al) * lp) by (apply Rmult_le_compat_r; [assumption|lra]). split; apply Rabs_le; lra.
Qed.

Section Stewart.
Hypothesis Ep : o_pss O = Stewart.
Variables (c e s : nat).
Hypothesis He : is_element O c e.
Hypothesis Hs : (s < n_subsystems m)%nat.
Lemma lam_pos v j k : pts v -> (j < n_mult O t c e)%nat -> (k < n_modes m s)%nat -> 0 <= v (S2 FLam c e j s k).
Proof.
  intros ((F1 & F2) & _) Hj Hk. pose proof (element_fe _ _ _ _ _ _ _ FP c e He) as I.
  apply (alg_nonneg _ _ _ _ _ _ _ H v F1 c e (nfe_of O c)); [exact PM|discriminate|exact I|exact Hj|exact Hs|]. rewrite (proj1 (proj2 (dim2_stewart O m Ep))). exact Hk.
Qed.
Lemma stewart_theta j : (j < o_ns O)%nat -> forall k, (k < n_modes m s)%nat -> bd (fun v => v (S2 FTheta c e j s k)).
Proof.
  intros Hj k Hk. exists 1. intros v ((F1 & F2) & _). pose proof (element_fe _ _ _ _ _ _ _ FP c e He) as I.
  destruct (convex _ _ _ _ _ _ _ H Ex WS v F1 F2 c e _ j s I Hj Hs Ep PM) as [T0 T1]. pose proof (T0 k Hk). pose proof (rupto_ge _ (fun k => v (S2 FTheta c e j s k)) k T0 Hk) as TG. cbv beta in TG. rewrite T1 in TG. apply Rabs_le. lra.
Qed.
Lemma stewart_stage j : (j < o_ns O)%nat -> exists B, forall v, pts v -> Rabs (v (S2 FMu c e j s 0)) <= B /\ forall k, (k < n_modes m s)%nat -> Rabs (v (S2 FLam c e j s k)) <= B.
Proof.
  intros Hj. destruct relaxation_bounded as (K & K0 & RB). destruct (bf_list pts (seq 0 (n_modes m s)) (fun k v => region_value m (stage_point O t m v c e j) s k)) as (G & G0 & HG).
  { intros k _. apply bd_region. intros y. apply bd_stage; assumption. }
  exists (1 + INR (n_modes m s) * K + 2 * G). intros v Hv. pose proof Hv as ((F1 & F2) & _). pose proof (element_fe _ _ _ _ _ _ _ FP c e He) as I.
  destruct (convex _ _ _ _ _ _ _ H Ex WS v F1 F2 c e _ j s I Hj Hs Ep PM) as [T0 T1].
  apply (stewart_core _ (fun k => region_value m (stage_point O t m v c e j) s k) (fun k => v (S2 FLam c e j s k)) (fun k => v (S2 FTheta c e j s k))); try assumption.
  - intros k Hk. pose proof (stage_switching _ _ _ _ _ _ _ H Ex WS v F2 c e _ I j Hj s k Hs) as Sw. unfold n_switching, switching_residual in Sw. rewrite Ep in Sw. exact (Sw Hk).
  - intros k Hk. apply lam_pos; [exact Hv|pose proof (n_mult_ge C c e); lia|exact Hk].
  - intros k Hk. apply HG; [exact Hv|apply in_seq; lia].
  - intros k Hk. pose proof (RB v Hv c e j _ He Hj (st_pairs m C v s k Ep Hs Hk)) as P. rewrite (st_lam m C v c e j s k Ep Hs Hk), (st_theta m C v c e j s k Ep Hs Hk) in P. exact P.
Qed.
Lemma stewart_end : o_use_fesd O = true -> explicit_end C = false -> (e + 1 < nfe_of O c)%nat ->
  exists B, forall v, pts v -> Rabs (v (S2 FMu c e (n_mult O t c e - 1) s 0)) <= B /\ forall k, (k < n_modes m s)%nat -> Rabs (v (S2 FLam c e (n_mult O t c e - 1) s k)) <= B.
Proof.
  intros Uf Xe Hn. pose proof (ns_pos lr cp d o m oc C H) as Np. destruct relaxation_le as (K & K0 & RB). destruct (bf_list pts (seq 0 (n_modes m s)) (fun k v => region_value m (end_point O t m v c e) s k)) as (G & G0 & HG).
  { intros k _. apply bd_region. intros y. apply bd_end; assumption. }
  exists (1 + INR (n_modes m s) * K + 2 * G). intros v Hv. pose proof Hv as ((F1 & F2) & _). pose proof (element_fe _ _ _ _ _ _ _ FP c e He) as I. pose proof (element_fe _ _ _ _ _ _ _ FP c _ (next_element c e He Hn)) as I'.
  destruct (convex _ _ _ _ _ _ _ H Ex WS v F1 F2 c _ _ 0%nat s I' Np Hs Ep PM) as [T0 T1].
  apply (stewart_core _ (fun k => region_value m (end_point O t m v c e) s k) (fun k => v (S2 FLam c e (n_mult O t c e - 1) s k)) (fun k => v (S2 FTheta c (e + 1) 0 s k))); try assumption.
  - intros k Hk. destruct (switching_equations _ _ _ _ _ _ _ v c e _ FP F2 I) as [_ Sw]. specialize (proj1 (Sw Xe Uf) s k Hs) as Sk. unfold n_switching, switching_residual in Sk. rewrite Ep in Sk. exact (Sk Hk).
  - intros k Hk. apply lam_pos; [exact Hv|pose proof (n_mult_ge C c e); lia|exact Hk].
  - intros k Hk. apply HG; [exact Hv|apply in_seq; lia].
  - intros k Hk. pose proof (relaxed_prev v c e _ Hv Uf He Hn (st_pairs m C v s k Ep Hs Hk)) as P. rewrite (st_lam m C v c e _ s k Ep Hs Hk), (st_theta m C v c _ 0 s k Ep Hs Hk) in P.
    eapply Rle_trans; [exact P|apply RB, Hv].
Qed.
End Stewart.

Section Step.
Hypothesis Ep : o_pss O = Step.
Lemma step_ents_all v s k : (s < n_subsystems m)%nat -> (k < n_switch m s)%nat -> exists q q', (q < n_pairs O m)%nat /\ (q' < n_pairs O m)%nat /\ forall c e j,
  ent (lam_vec O m v c e j) q = v (S2 FLn c e j s k) /\ ent (lam_vec O m v c e j) q' = v (S2 FLp c e j s k) /\
  ent (theta_vec O m v c e j) q = v (S2 FAlpha c e j s k) /\ ent (theta_vec O m v c e j) q' = 1 - v (S2 FAlpha c e j s k).
Proof.
  intros Hs Hk. destruct (step_vecs O m v Ep) as (VL & VT & NP). destruct (dim2_step O m Ep) as (D1 & D2 & D3 & _ & _).
  assert (Ha : (k < dim2 O m FAlpha s)%nat) by (rewrite D1; exact Hk). assert (Hn : (k < dim2 O m FLn s)%nat) by (rewrite D2; exact Hk).
  assert (Hp : (k < dim2 O m FLp s)%nat) by (rewrite D3; exact Hk).
  set (q := (upto s (n_switch m) + k)%nat).
  assert (Qa : q = (upto s (dim2 O m FAlpha) + k)%nat) by (unfold q; rewrite (upto_ext _ _ _ D1); reflexivity).
  assert (Qn : q = (upto s (dim2 O m FLn) + k)%nat) by (unfold q; rewrite (upto_ext _ _ _ D2); reflexivity).
  assert (Qp : q = (upto s (dim2 O m FLp) + k)%nat) by (unfold q; rewrite (upto_ext _ _ _ D3); reflexivity).
  set (N := upto (n_subsystems m) (n_switch m)).
  assert (Na : N = upto (n_subsystems m) (dim2 O m FAlpha)) by (unfold N; rewrite (upto_ext _ _ _ D1); reflexivity).
  assert (Nn : N = upto (n_subsystems m) (dim2 O m FLn)) by (unfold N; rewrite (upto_ext _ _ _ D2); reflexivity).
  assert (Hq : (q < N)%nat) by (apply upto_lt; assumption).
  exists q, (N + q)%nat. rewrite NP. fold N. split; [lia|]. split; [lia|]. intros c e j. split; [|split; [|split]].
  - rewrite VL. unfold values at 1. rewrite Qn. apply (sp_half m (fun s i => v (S2 FLn c e j s i)) _ _ _ eq_refl); assumption.
  - rewrite VL. unfold values at 1. rewrite Nn, Qn. rewrite sp_half2 by assumption. rewrite <- Qn, Qp. unfold values.
    apply (ent_over m (fun s i => v (S2 FLp c e j s i))); assumption.
  - rewrite VT. unfold values at 1. rewrite Qa. apply (sp_half m (fun s i => v (S2 FAlpha c e j s i)) _ _ _ eq_refl); assumption.
  - rewrite VT. unfold values at 1. rewrite Na, Qa. rewrite sp_half2 by assumption. unfold ent.
    assert (G : nth_error (map (fun a => 1 - a) (values O m v FAlpha c e j)) (upto s (dim2 O m FAlpha) + k)%nat = Some (1 - v (S2 FAlpha c e j s k))).
    { rewrite nth_error_map. unfold values. rewrite (over_at m (fun s i => v (S2 FAlpha c e j s i)) _ s k Hs Ha). reflexivity. }
    rewrite (nth_error_nth _ _ _ G). reflexivity.
Qed.
Variables (c e s k : nat).
Hypothesis He : is_element O c e.
Hypothesis Hs : (s < n_subsystems m)%nat.
Hypothesis Hk : (k < n_switch m s)%nat.
Lemma alpha_unit v c' e' j : pts v -> is_element O c' e' -> (j < o_ns O)%nat -> 0 <= v (S2 FAlpha c' e' j s k) <= 1.
Proof.
  intros ((F1 & F2) & _) He' Hj. pose proof (element_fe _ _ _ _ _ _ _ FP c' e' He') as I. destruct (dim2_step O m Ep) as (D1 & D2 & D3 & _). split.
  - apply (alg_nonneg _ _ _ _ _ _ _ H v F1 c' e' (nfe_of O c')); [exact PM|discriminate|exact I|exact Hj|exact Hs|rewrite D1; exact Hk].
  - apply (alpha_le1 _ _ _ _ _ _ _ H v F1 c' e' (nfe_of O c')); [exact I|exact Hj|exact Hs|rewrite D1; exact Hk].
Qed.
Lemma mult_pos v j : pts v -> (j < n_mult O t c e)%nat -> 0 <= v (S2 FLn c e j s k) /\ 0 <= v (S2 FLp c e j s k).
Proof.
  intros ((F1 & F2) & _) Hj. pose proof (element_fe _ _ _ _ _ _ _ FP c e He) as I. destruct (dim2_step O m Ep) as (D1 & D2 & D3 & _). split.
  - apply (alg_nonneg _ _ _ _ _ _ _ H v F1 c e (nfe_of O c)); [exact PM|discriminate|exact I|exact Hj|exact Hs|rewrite D2; exact Hk].
  - apply (alg_nonneg _ _ _ _ _ _ _ H v F1 c e (nfe_of O c)); [exact PM|discriminate|exact I|exact Hj|exact Hs|rewrite D3; exact Hk].
Qed.
Lemma step_stage_bd j : (j < o_ns O)%nat -> exists B, forall v, pts v -> Rabs (v (S2 FLn c e j s k)) <= B /\ Rabs (v (S2 FLp c e j s k)) <= B.
Proof.
  intros Hj. destruct relaxation_bounded as (K & K0 & RB). destruct (bd_switch _ (fun y => bd_stage c e j y He Hj) s k) as [G HG].
  exists (1 + 2 * K + Rabs G). intros v Hv. pose proof Hv as ((F1 & F2) & _). pose proof (element_fe _ _ _ _ _ _ _ FP c e He) as I.
  destruct (alpha_unit v c e j Hv He Hj) as [A0 A1]. destruct (mult_pos v j Hv) as [P1 P2]; [pose proof (n_mult_ge C c e); lia|].
  destruct (step_ents_all v s k Hs Hk) as (q & q' & Q1 & Q2 & EE). destruct (EE c e j) as (E1 & E2 & E3 & E4).
  pose proof (RB v Hv c e j q He Hj Q1) as B1. pose proof (RB v Hv c e j q' He Hj Q2) as B2. rewrite E1, E3 in B1. rewrite E2, E4 in B2.
  apply (step_core (switch_value m (stage_point O t m v c e j) s k) _ _ (v (S2 FAlpha c e j s k))); try assumption; [|apply HG, Hv].
  pose proof (stage_switching _ _ _ _ _ _ _ H Ex WS v F2 c e _ I j Hj s k Hs) as Sw. unfold n_switching, switching_residual in Sw. rewrite Ep in Sw. exact (Sw Hk).
Qed.
Lemma step_end_bd : o_use_fesd O = true -> explicit_end C = false -> (e + 1 < nfe_of O c)%nat ->
  exists B, forall v, pts v -> Rabs (v (S2 FLn c e (n_mult O t c e - 1) s k)) <= B /\ Rabs (v (S2 FLp c e (n_mult O t c e - 1) s k)) <= B.
Proof.
  intros Uf Xe Hn. pose proof (ns_pos lr cp d o m oc C H) as Np. destruct relaxation_le as (K & K0 & RB). destruct (bd_switch _ (fun y => bd_end c e y He) s k) as [G HG].
  exists (1 + 2 * K + Rabs G). intros v Hv. pose proof Hv as ((F1 & F2) & _). pose proof (element_fe _ _ _ _ _ _ _ FP c e He) as I. pose proof (next_element c e He Hn) as He'.
  destruct (alpha_unit v c _ 0%nat Hv He' Np) as [A0 A1]. destruct (mult_pos v (n_mult O t c e - 1)%nat Hv) as [P1 P2]; [pose proof (n_mult_ge C c e); lia|].
  destruct (step_ents_all v s k Hs Hk) as (q & q' & Q1 & Q2 & EE). destruct (EE c e (n_mult O t c e - 1)%nat) as (E1 & E2 & _). destruct (EE c (e + 1)%nat 0%nat) as (_ & _ & E3 & E4).
  pose proof (relaxed_prev v c e q Hv Uf He Hn Q1) as B1. pose proof (relaxed_prev v c e q' Hv Uf He Hn Q2) as B2. rewrite E1, E3 in B1. rewrite E2, E4 in B2. specialize (RB v Hv).
  apply (step_core (switch_value m (end_point O t m v c e) s k) _ _ (v (S2 FAlpha c (e + 1) 0 s k))); try assumption; [|apply HG, Hv|lra|lra].
  destruct (switching_equations _ _ _ _ _ _ _ v c e _ FP F2 I) as [_ Sw]. specialize (proj1 (Sw Xe Uf) s k Hs) as Sk. unfold n_switching, switching_residual in Sk. rewrite Ep in Sk. exact (Sk Hk).
Qed.
End Step.

(* slopes *)
Lemma bd_weight c e j s k : is_element O c e -> (j < o_ns O)%nat -> (s < n_subsystems m)%nat -> (k < n_modes m s)%nat -> (o_pss O = Step -> rows_fit m) -> bd (fun v => weight O m (stage_point O t m v c e j) s k).
Proof.
  intros He Hj Hs Hk RF. unfold weight. destruct (o_pss O) eqn:Ep; [apply stewart_theta; assumption|]. unfold step_weight. apply bf_rprod. intros [r q] Hr. cbn [fst snd].
  destruct (Qeq_bool q 0); [exact (bf_const pts 1)|]. apply in_combine_l in Hr. apply in_seq in Hr. rewrite (RF eq_refl s k Hs Hk) in Hr.
  apply bf_plus; [exact (bf_const pts ((1 - Q2R q) / 2))|]. apply bf_scal. exists 1. intros v Hv. pose proof (alpha_unit Ep s r Hs ltac:(lia) v c e j Hv He Hj) as A. change (stage_point O t m v c e j (MF FAlpha s r)) with (v (S2 FAlpha c e j s r)). apply Rabs_le. lra.
Qed.
Lemma bd_rhs c e j i : is_element O c e -> (j < o_ns O)%nat -> continuous_fields m -> (o_pss O = Step -> rows_fit m) -> bd (fun v => rhs O m (stage_point O t m v c e j) i).
Proof.
  intros He Hj [NF CF] RF. unfold rhs. destruct (m_F m) as [F|] eqn:EF; [|congruence]. unfold rupto at 1. apply (bf_rsum pts). intros s Hs. apply in_seq in Hs. unfold rupto. apply (bf_rsum pts). intros k Hk. apply in_seq in Hk.
  apply bf_mult; [|apply bd_weight; try assumption; lia]. unfold mode_field. destruct (CF s k i) as [U Rg]. apply (bf_eval pts (fun v => stage_point O t m v c e j) _ Rg). intros y Hy. apply bd_stage; [assumption|assumption|apply U, Hy].
Qed.
Lemma bd_slope c e j i : is_element O c e -> (j < o_ns O)%nat -> (i < match o_repr O with Integral => 0 | _ => m_nx m end)%nat -> bd (fun v => v (S1 FV c e j i)).
Proof.
  intros He Hj Hi. pose proof RI as R'. unfold stages_bounded in R'. destruct (o_repr O) eqn:Er; [lia|contradiction|]. destruct R' as [CF RF].
  apply (bf_ext pts _ (fun v => speed O v c * rhs O m (stage_point O t m v c e j) i)).
  - intros v ((F1 & F2) & _). pose proof (element_fe _ _ _ _ _ _ _ FP c e He) as I. destruct (elem_all _ _ _ _ _ _ _ H Ex WS v F2 c e _ I) as (_ & Co & _). specialize (Co j i Hj Hi). cbv zeta in Co. rewrite Er in Co. exact (proj1 Co).
  - apply bf_mult; [|apply bd_rhs; assumption]. unfold speed. destruct (o_sot O) eqn:Es; try exact (bf_const pts 1). apply bd_sot; [exact Es|apply He].
Qed.
Lemma bd_S1 f c e j i : is_element O c e -> (j < points1 O (explicit_end C) f)%nat -> (i < dim1 O m f)%nat -> bd (fun v => v (S1 f c e j i)).
Proof.
  intros He Hj Hi. destruct f; cbn [dim1] in Hi.
  - apply bd_x; assumption.
  - apply bd_slope; assumption.
  - apply bd_z; assumption.
Qed.
Lemma bd_S2 f c e j s i : is_element O c e -> (j < points2 O (explicit_end C) (nfe_of O c) e f)%nat -> (s < n_subsystems m)%nat -> (i < dim2 O m f s)%nat -> bd (fun v => v (S2 f c e j s i)).
Proof.
  intros He Hj Hs Hi. assert (Cs : (j < o_ns O)%nat \/ (f <> FTheta /\ f <> FAlpha /\ o_use_fesd O = true /\ explicit_end C = false /\ (e + 1 < nfe_of O c)%nat /\ j = (n_mult O t c e - 1)%nat)).
  { destruct (le_lt_dec (o_ns O) j) as [X|X]; [right|left; exact X]. unfold n_mult. fold (explicit_end C). unfold points2 in *.
    destruct f; try (exfalso; lia); (split; [discriminate|]; split; [discriminate|]); (destruct (o_use_fesd O); [|exfalso; cbn in Hj; lia]); (destruct (explicit_end C); [exfalso; cbn in Hj; lia|]);
      cbn [andb negb] in *; (destruct (e + 1 <? nfe_of O c)%nat eqn:Y; [apply Nat.ltb_lt in Y|exfalso; lia]); repeat split; try assumption; lia. }
  destruct (o_pss O) eqn:Ep.
  - destruct (dim2_stewart O m Ep) as (D1 & D2 & D3 & D4 & D5). destruct f; try (exfalso; unfold dim2 in Hi; rewrite Ep in Hi; lia).
    + destruct Cs as [X|(X & _)]; [|congruence]. apply stewart_theta; try assumption. unfold dim2 in Hi. rewrite Ep in Hi. exact Hi.
    + assert (Hi' : (i < n_modes m s)%nat) by (unfold dim2 in Hi; rewrite Ep in Hi; exact Hi). destruct Cs as [X|(_ & _ & Uf & Xe & Hn & ->)].
      * destruct (stewart_stage Ep c e s He Hs j X) as [B HB]. exists B. intros v Hv. apply (proj2 (HB v Hv)), Hi'.
      * destruct (stewart_end Ep c e s He Hs Uf Xe Hn) as [B HB]. exists B. intros v Hv. apply (proj2 (HB v Hv)), Hi'.
    + assert (Hi' : i = 0%nat) by (unfold dim2 in Hi; rewrite Ep in Hi; lia). subst i. destruct Cs as [X|(_ & _ & Uf & Xe & Hn & ->)].
      * destruct (stewart_stage Ep c e s He Hs j X) as [B HB]. exists B. intros v Hv. apply (proj1 (HB v Hv)).
      * destruct (stewart_end Ep c e s He Hs Uf Xe Hn) as [B HB]. exists B. intros v Hv. apply (proj1 (HB v Hv)).
  - assert (Hi' : (i < n_switch m s)%nat /\ (f = FAlpha \/ f = FLn \/ f = FLp)) by (unfold dim2 in Hi; rewrite Ep in Hi; destruct f; try lia; (split; [exact Hi|auto])). destruct Hi' as [Hi' Hf].
    destruct Hf as [->|Hf].
    + destruct Cs as [X|(_ & X & _)]; [|congruence]. exists 1. intros v Hv. pose proof (alpha_unit Ep s i Hs Hi' v c e j Hv He X). apply Rabs_le. lra.
    + destruct Cs as [X|(_ & _ & Uf & Xe & Hn & ->)].
      * destruct (step_stage_bd Ep c e s i He Hs Hi' j X) as [B HB]. exists B. intros v Hv. destruct Hf as [->| ->]; apply (HB v Hv).
      * destruct (step_end_bd Ep c e s i He Hs Hi' Uf Xe Hn) as [B HB]. exists B. intros v Hv. destruct Hf as [->| ->]; apply (HB v Hv).
Qed.
Lemma bd_w y : In y (w (the_nlp C)) -> bd (fun v => v y).
Proof.
  intros Hy. pose proof (sym_in_w _ _ _ _ _ _ _ y (proj1 FP) Hy) as Ry. pose proof (no_bool_syms _ _ _ _ _ _ _ (proj1 FP) y not_bool Hy) as Nb.
  assert (EI : forall c e, In (c, e) (elements O) -> is_element O c e) by (intros c e Hc; apply elements_in in Hc; exact Hc).
  destruct y; cbn [in_range] in Ry; try contradiction.
  all: first [apply bd_S1; [apply EI|..]; apply Ry | apply bd_S2; [apply EI|..]; apply Ry | apply bd_h; [|apply EI]; apply Ry | apply bd_u; apply Ry | apply bd_sot; apply Ry | apply bd_v; apply Ry | apply bd_el; apply Ry].
Qed.
Lemma all_bounded : exists B, 0 <= B /\ forall v, pts v -> forall y, In y (w (the_nlp C)) -> Rabs (v y) <= B.
Proof.
  destruct (bf_list pts (w (the_nlp C)) (fun y v => v y) bd_w) as (B & B0 & HB). exists B. split; [exact B0|]. intros v Hv y Hy. exact (HB v y Hv Hy).
Qed.
(* only the values of the parameters matter for the multipliers of the initial state *)
Lemma points_bounded : initial_nonneg data -> exists B, forall v, feasible v (the_nlp C) -> same_data C v data -> v SSigma <= sbar -> forall y, In y (w (the_nlp C)) -> Rabs (v y) <= B.
Proof.
  intros N0. destruct all_bounded as (B & _ & HB). exists B. intros v F D S y Hy.
  set (v' := fun z => match z with SL00 _ _ _ => data z | _ => v z end).
  assert (Ew : forall z, In z (w (the_nlp C)) -> v' z = v z).
  { intros z Hz. pose proof (sym_in_w _ _ _ _ _ _ _ z (proj1 FP) Hz) as Rz. destruct z; cbn [in_range] in Rz; try contradiction; reflexivity. }
  assert (Ep : forall z, In z (p_p (the_problem C)) -> v' z = v z).
  { intros z Hz. destruct z; try reflexivity. cbn [v']. symmetry. apply D; [exact Hz|discriminate|discriminate]. }
  rewrite <- (Ew y Hy). apply HB; [|exact Hy]. split; [|split; [|split]].
  - apply (feasible_ext _ _ _ _ _ _ _ (proj1 FP) v v'); [|exact F]. intros z Hz. apply in_app_or in Hz. destruct Hz as [Hz|Hz]; [apply Ew, Hz|apply Ep, Hz].
  - intros z Hz X1 X2. rewrite (Ep z Hz). apply D; assumption.
  - exact S.
  - intros f s i. apply N0.
Qed.
End Con.

Lemma bounded_solution lr cp d o m oc C data : fesd_problem lr cp d o m oc C -> product_mode (the_opts C) -> stages_bounded (the_opts C) m -> finite_bounds (the_opts C) m (the_ocp oc) ->
  continuous_switching m -> (forall v, bounds_ok v (the_nlp C) -> (forall e, In e (g (the_nlp C)) -> regular v e) /\ regular v (cost (the_nlp C))) ->
  feasible data (the_nlp C) -> initial_nonneg data -> exists rho, solution_of C rho /\ params_of C rho data.
Proof.
  intros FP PM RI FB CS Rg F N. destruct (points_bounded lr cp d o m oc C FP PM RI FB CS data (data SSigma) N) as [B HB].
  destruct (has_solution lr cp d o m oc C (proj1 FP) data B F) as (rho & S & P & _); [|exact Rg|exists rho; split; assumption].
  intros v Fv Pv _ y Hy. apply (HB v Fv); [intros z Hz _ _; exact (Pv z Hz)| |exact Hy]. rewrite (Pv SSigma); [apply Rle_refl|]. exact (sigma_in _ _ _ _ _ _ _ (proj1 FP)).
Qed.
(* the homotopy *)
Lemma bounded_homotopy lr cp d o m oc C data : fesd_problem lr cp d o m oc C -> o_mpcc (the_opts C) = ScholtesIneq -> stages_bounded (the_opts C) m -> finite_bounds (the_opts C) m (the_ocp oc) ->
  continuous_switching m -> free_of_relaxation m (the_ocp oc) ->
  (forall v, bounds_ok v (the_nlp C) -> (forall e, In e (g (the_nlp C)) -> regular v e) /\ regular v (cost (the_nlp C))) ->
  feasible data (the_nlp C) -> data SSigma = 0 -> initial_nonneg data ->
  (forall sigma tau, 0 <= sigma -> exists rho, solution_of C rho /\ params_of C rho (with_relaxation data sigma tau)) /\
  forall r b, (forall k, solution_of C (r k)) -> (forall k, same_data C (r k) data) -> (forall k, 0 <= r k SSigma) -> Un_cv (fun k => r k SSigma) 0 -> (forall k, Rabs (r k STau) <= b) ->
  exists phi rho, picks phi /\ converge_in (w (the_nlp C) ++ p_p (the_problem C)) (fun k => r (phi k)) rho /\ rho SSigma = 0 /\ same_data C rho data /\ solution_of C rho.
Proof.
  intros FP Sc RI FB CS FR Rg F S0 N. assert (PM : product_mode (the_opts C)) by (unfold product_mode; rewrite Sc; exact Logic.I). split.
  - intros sg tau Hs. apply (bounded_solution lr cp d o m oc C); try assumption.
    apply (proj1 (larger_sigma lr cp d o m oc C data sg tau FP Sc FR ltac:(lra) F)).
  - intros r b S D P Z T. destruct (Z 1 ltac:(lra)) as [K HK].
    assert (SB : exists sb, forall k, r k SSigma <= sb).
    { assert (A : forall n, exists sb, forall k, (k < n)%nat -> r k SSigma <= sb).
      { induction n as [|n [sb IH]]; [exists 0; intros k Hk; lia|]. exists (Rmax sb (r n SSigma)). intros k Hk. destruct (Nat.eq_dec k n) as [->|E]; [apply Rmax_r|eapply Rle_trans; [apply IH; lia|apply Rmax_l]]. }
      destruct (A K) as [sb Hsb]. exists (Rmax sb 1). intros k. destruct (le_lt_dec K k) as [X|X]; [|eapply Rle_trans; [apply Hsb, X|apply Rmax_l]].
      specialize (HK k X). unfold R_dist in HK. apply Rabs_def2 in HK. pose proof (Rmax_r sb 1). lra. }
    destruct SB as [sb SB]. destruct (points_bounded lr cp d o m oc C FP PM RI FB CS data sb N) as [B HB].
    assert (PB : exists B', forall y, In y (p_p (the_problem C)) -> Rabs (data y) <= B').
    { induction (p_p (the_problem C)) as [|y l IH]; [exists 0; intros y []|]. destruct IH as [B' IH]. exists (Rmax (Rabs (data y)) B').
      intros z [<-|Hz]; [apply Rmax_l|]. eapply Rle_trans; [apply IH, Hz|apply Rmax_r]. }
    destruct PB as [B' PB]. apply (solution_cluster lr cp d o m oc C r data (Rmax (Rmax B B') (Rmax sb b)) FP Sc FR S D P Z); [|exact Rg].
    intros k y Hy. pose proof (Rmax_l (Rmax B B') (Rmax sb b)). pose proof (Rmax_r (Rmax B B') (Rmax sb b)). pose proof (Rmax_l B B'). pose proof (Rmax_r B B'). pose proof (Rmax_l sb b). pose proof (Rmax_r sb b).
    apply in_app_or in Hy. destruct Hy as [Hy|Hy]; [specialize (HB (r k) (proj1 (S k)) (D k) (SB k) y Hy); lra|].
    destruct (sym_eq_dec y SSigma) as [->|N1]; [rewrite Rabs_right by (apply Rle_ge, P); specialize (SB k); lra|].
    destruct (sym_eq_dec y STau) as [->|N2]; [specialize (T k); lra|]. rewrite (D k y Hy N1 N2). specialize (PB y Hy). lra.
Qed.
