(* ExistBase_proofs.v -- points of the problem that sample a polynomial solution: everything but complementarity *)
From Coq Require Import Reals Qreals Lra Psatz.
From Verif Require Import Base Sx Utils Tableau Opts Model Ocp Problem Spec Lib Sx_proofs Body_proofs Con_proofs Index3_proofs Fesd
  Sem_proofs Dcs_proofs Point_proofs Elem_proofs Nlp_proofs Tableau_proofs Poly_proofs Spec2 Feas_proofs Feas2_proofs Spec3 Spec4 Results_proofs Spec9 Filippov_proofs Filippov2_proofs Filippov3_proofs
  Spec10 Spec11 Spec36 Syms_proofs Bounds_proofs.

(* ---- values read by expressions ---- *)
Lemma nth_uses_only (Q : sym -> Prop) l k : (forall e, In e l -> uses_only Q e) -> uses_only Q (nth k l (ECst 0)).
Proof. intros A. destruct (nth_in_or_default k l (ECst 0)) as [Hi| ->]; [apply A, Hi|]. intros s []. Qed.
Definition plain_agree (m : model) (v w : env) : Prop := forall y, plain_sym m y -> v y = w y.
Definition switch_agree (m : model) (v w : env) : Prop := forall y, switching_sym m y -> v y = w y.
Lemma plain_eval m e v w : uses_only (plain_sym m) e -> plain_agree m v w -> eval v e = eval w e.
Proof. intros U A. apply eval_ext. intros y Hy. apply A, U, Hy. Qed.
Lemma plain_switch m v w : plain_agree m v w -> switch_agree m v w.
Proof. intros A y Hy. apply A. destruct y; try contradiction; exact Hy. Qed.

(* ---- quadrature of derivatives ---- *)
Section Quadrature.
Local Open Scope R_scope.
Variables (w : nat -> R) (ns n : nat) (tau : nat -> R) (T : R).
Hypothesis E : forall k, (k < n)%nat -> rupto ns (fun r => w r * tau r ^ k) = T ^ S k / INR (S k).
Lemma quad_shift a : forall k, (k + length a <= n)%nat ->
  rupto ns (fun r => w r * (INR (S k) * tau r ^ k * peval a (tau r) + tau r ^ S k * peval (pder a) (tau r))) = T ^ S k * peval a T.
Proof.
  induction a as [|c a IH]; intros k Hk.
  - cbn [peval pder]. rewrite (rupto_ext _ _ (fun _ => 0)) by (intros; ring). rewrite (rupto_all0 _ _ (fun _ => eq_refl)). ring.
  - cbn [length] in Hk. specialize (IH (S k) ltac:(lia)). specialize (E k ltac:(lia)).
    rewrite (rupto_ext _ _ (fun r => c * INR (S k) * (w r * tau r ^ k) +
       w r * (INR (S (S k)) * tau r ^ S k * peval a (tau r) + tau r ^ S (S k) * peval (pder a) (tau r)))).
    + rewrite rupto_plus, rupto_scale, E, IH. cbn [peval pow]. field. apply not_0_INR. lia.
    + intros r _. rewrite pder_cons. cbn [peval]. rewrite (S_INR (S k)). cbn [pow]. ring.
Qed.
Lemma quad_der a : (length a <= S n)%nat -> rupto ns (fun r => w r * peval (pder a) (tau r)) = peval a T - peval a 0.
Proof.
  destruct a as [|c a]; intros L; [cbn [peval pder]; rewrite (rupto_ext _ _ (fun _ => 0)) by (intros; ring); rewrite (rupto_all0 _ _ (fun _ => eq_refl)); ring|].
  cbn [length] in L. pose proof (quad_shift a 0%nat ltac:(lia)) as Q. cbn [peval].
  rewrite (rupto_ext _ _ (fun r => w r * (INR 1 * tau r ^ 0 * peval a (tau r) + tau r ^ 1 * peval (pder a) (tau r)))).
  - rewrite Q. ring.
  - intros r _. rewrite pder_cons. cbn. ring.
Qed.
End Quadrature.

(* the points tau at which the collocation equations of the tables t are exact for degree n *)
Definition nodes_exact (cp : nat -> scheme -> list Q) (O : opts) (t : tab) (n : nat) (tau : nat -> R) : Prop := match o_repr O with
  | Integral => points_ok cp O /\ (n <= o_ns O)%nat /\ forall j q, nth_error (cp (o_ns O) (o_scheme O)) j = Some q -> Q2R q = tau j
  | _ => forall k, (k < n)%nat ->
      (forall j, (j < o_ns O)%nat -> rupto (o_ns O) (fun r => entryQ (t_A t) j r * tau r ^ k)%R = (tau j ^ S k / INR (S k))%R) /\
      rupto (o_ns O) (fun r => entry1 (t_b t) r * tau r ^ k)%R = (1 ^ S k / INR (S k))%R
  end.
Definition sampling (O : opts) (t : tab) (tau : nat -> R) : Prop :=
  t_rbe t = true /\ (forall j, (j < o_ns O)%nat -> (0 <= tau j <= 1)%R) /\ tau (o_ns O - 1)%nat = 1%R.

(* the values of the state variables: with the DIFFERENTIAL representation only the end point has one *)
Definition sampled (O : opts) (p : nat -> nat -> nat -> list R) (tau : nat -> R) (c e j i : nat) : R :=
  match o_repr O with Differential => state p c e 1 i | _ => state p c e (tau j) i end.

Section Base.
Variables (lr : Q -> Q -> Q -> nat) (cp : nat -> scheme -> list Q) (d : ipopt_dict) (o : opts) (m : model)
  (oc : option ocp) (C : constructed).
Hypothesis H : construct_problem lr cp d o m oc = Ok C.
Hypothesis Ex : o_constr o = Exact.
Hypothesis WS : well_sized m.
Notation O := (the_opts C).
Notation t := (cn_tab C).
Notation oc' := (the_ocp oc).
Variables (rho rho' : env) (p : nat -> nat -> nat -> list R) (W : nat -> nat -> R -> nat -> nat -> R) (n : nat) (tau : nat -> R).
Hypothesis NE : nodes_exact cp O t n tau.
Hypothesis SA : sampling O t tau.
Hypothesis Tf : o_time_freezing O = false.
Hypothesis ZR : zero_relaxation O rho.
Hypothesis PM : plain_model m.
Hypothesis PC : plain_ocp m oc'.
Hypothesis GO : grid_ok O m oc' rho.
Hypothesis PS : forall c e, is_element O c e ->
  (forall i, i < m_nx m -> length (p c e i) <= S n /\
     state p c e 0 i = match before O c e with Some (c', e') => state p c' e' 1 i | None => rho (SX0 i) end) /\
  (forall j, j < o_ns O -> forall i, i < m_nx m -> derivable_pt_lim (fun z => state p c e z i) (tau j)
       (step_len O rho c e * velocity O m rho c (state p c e (tau j)) (W c e (tau j)) i)%R).
Hypothesis AD : admissible_at O m oc' rho p tau.
(* the point rho' samples the solution *)
Hypothesis DA : same_data rho rho'.
Hypothesis VX : forall c e j i, rho' (S1 FX c e j i) = sampled O p tau c e j i.
Hypothesis VV : forall c e j i, rho' (S1 FV c e j i) = velocity O m rho c (state p c e (tau j)) (W c e (tau j)) i.
Hypothesis WT : forall c e j s k, weight O m (stage_point O t m rho' c e j) s k = W c e (tau j) s k.

Lemma rbe : t_rbe t = true. Proof. exact (proj1 SA). Qed.
Lemma tau_in j : j < o_ns O -> (0 <= tau j <= 1)%R. Proof. exact (proj1 (proj2 SA) j). Qed.
Lemma tau_last : tau (o_ns O - 1) = 1%R. Proof. exact (proj2 (proj2 SA)). Qed.
Lemma ns0 : 0 < o_ns O. Proof. exact (Feas_proofs.ns_pos _ _ _ _ _ _ _ H). Qed.
Lemma step_same c e : step_len O rho' c e = step_len O rho c e.
Proof. unfold step_len. rewrite (DA (SH c e)). reflexivity. Qed.
Lemma speed_same c : speed O rho' c = speed O rho c.
Proof. unfold speed. rewrite (DA (SSot c)). reflexivity. Qed.
Lemma end_at c e i : end_state O t rho' c e i = state p c e 1 i.
Proof. unfold end_state, points1. rewrite rbe, VX. unfold sampled. destruct (o_repr O); rewrite ?tau_last; reflexivity. Qed.
Lemma start_at c e i : is_element O c e -> i < m_nx m -> start_state O t rho' c e i = state p c e 0 i.
Proof.
  intros Ie Hi. destruct (PS c e Ie) as (A & _). rewrite (proj2 (A i Hi)). unfold start_state, state_at.
  destruct (before O c e) as [[c' e']|]; [apply end_at|exact (DA (SX0 i))].
Qed.
(* h times the slope is the derivative of the polynomial *)
Lemma slope_at c e j i : is_element O c e -> j < o_ns O -> i < m_nx m ->
  (step_len O rho' c e * rho' (S1 FV c e j i) = peval (pder (p c e i)) (tau j))%R.
Proof.
  intros Ie Hj Hi. rewrite step_same, VV. destruct (PS c e Ie) as (_ & B).
  apply (uniqueness_limite (peval (p c e i)) (tau j)); [exact (B j Hj i Hi)|apply peval_deriv].
Qed.
Lemma sum_slopes c e i (w : nat -> R) T : is_element O c e -> i < m_nx m ->
  (forall k, k < n -> rupto (o_ns O) (fun r => w r * tau r ^ k)%R = (T ^ S k / INR (S k))%R) ->
  (start_state O t rho' c e i + step_len O rho' c e * rupto (o_ns O) (fun r => w r * rho' (S1 FV c e r i)) = state p c e T i)%R.
Proof.
  intros Ie Hi Ew. rewrite start_at by assumption. rewrite <- rupto_scale.
  rewrite (rupto_ext _ _ (fun r => w r * peval (pder (p c e i)) (tau r))%R).
  - rewrite (quad_der w (o_ns O) n tau T Ew) by (apply (PS c e Ie), Hi). unfold state. ring.
  - intros r Hr. rewrite <- slope_at by assumption. ring.
Qed.
Lemma stage_state_at c e j i : is_element O c e -> j < o_ns O -> i < m_nx m -> stage_state O t rho' c e j i = state p c e (tau j) i.
Proof.
  intros Ie Hj Hi. unfold stage_state, slope. pose proof NE as G. unfold nodes_exact in G. destruct (o_repr O) eqn:Er; try (rewrite VX; unfold sampled; rewrite Er; reflexivity).
  apply sum_slopes; try assumption. intros k Hk. apply G; assumption.
Qed.
Lemma plain_same c x : plain_agree m (plain_point m rho' c x) (plain_point m rho c x).
Proof. intros y Hy. destruct y; try contradiction; try reflexivity; first [exact (DA (SU _ _))|exact (DA (SPst _ _))|exact (DA (SVg _))]. Qed.
Lemma plain_ext c x x' : (forall i, i < m_nx m -> x i = x' i) -> plain_agree m (plain_point m rho c x) (plain_point m rho c x').
Proof. intros A y Hy. destruct y; try contradiction; cbn; auto. Qed.
Lemma stage_agree c e j : is_element O c e -> j < o_ns O -> plain_agree m (stage_point O t m rho' c e j) (at_state m rho p c e (tau j)).
Proof.
  intros Ie Hj y Hy. unfold stage_point, at_state, plain_point, at_point. destruct y; try contradiction.
  - apply stage_state_at; assumption.
  - exact (DA (SU _ _)).
  - exact (DA (SPst _ _)).
  - exact (DA (SPst _ _)).
  - exact (DA (SVg _)).
Qed.
Notation FU := (proj1 (proj2 (proj2 (proj2 PM)))).

(* ---- continuity of the switching functions at the grid points ---- *)
Lemma joint_agree c e c' e' : same_globals m rho -> is_element O c e -> before O c e = Some (c', e') -> switch_agree m (at_state m rho p c e 0) (at_state m rho p c' e' 1).
Proof.
  intros SG Ie B y Hy. destruct (PS c e Ie) as (A & _). destruct y; try contradiction; cbn in *.
  - destruct (A i Hy) as [_ E]. rewrite B in E. exact E.
  - apply SG.
  - reflexivity.
Qed.
Lemma start_agree c e : same_globals m rho -> is_element O c e -> before O c e = None -> switch_agree m (at_state m rho p c e 0) (plain_point m rho 0 (fun i => rho (SX0 i))).
Proof.
  intros SG Ie B y Hy. destruct (PS c e Ie) as (A & _). destruct y; try contradiction; cbn in *.
  - destruct (A i Hy) as [_ E]. rewrite B in E. exact E.
  - apply SG.
  - reflexivity.
Qed.
Lemma mults c e : n_mult O t c e = o_ns O.
Proof. unfold n_mult, points2. rewrite rbe. rewrite Bool.andb_false_r. cbn [andb]. lia. Qed.
Lemma relaxed_of xs y : (rsum xs * y = 0)%R -> relaxed O rho' xs y.
Proof. intros E. unfold relaxed, zero_relaxation in *. destruct (o_mpcc O); try contradiction; rewrite ?(DA SSigma), ?(DA SElastic); lra. Qed.
Lemma rsum0 l : (forall x, In x l -> x = 0%R) -> rsum l = 0%R.
Proof. induction l as [|x l IH]; intros A; [apply rsum_nil|]. rewrite rsum_cons, IH by (intros; apply A; right; assumption). rewrite (A x (or_introl eq_refl)). lra. Qed.
Lemma rprod0 l : In 0%R l -> rprod l = 0%R.
Proof. induction l as [|x l IH]; intros I; [destruct I|]. unfold rprod in *. cbn [fold_right]. destruct I as [->|I]; [ring|]. rewrite IH by exact I. ring. Qed.
Lemma delta_same c e : delta_h O rho' c e = delta_h O rho c e.
Proof. unfold delta_h. rewrite !step_same. reflexivity. Qed.
Lemma lb_zero : lb_dual O = Fin 0.
Proof. unfold lb_dual, zero_relaxation in *. destruct (o_mpcc O); try contradiction; reflexivity. Qed.

(* ---- collocation, path constraints ---- *)
Lemma rhs_at c e j i : is_element O c e -> j < o_ns O -> rhs O m (stage_point O t m rho' c e j) i = mixed_field m (at_state m rho p c e (tau j)) (W c e (tau j)) i.
Proof.
  intros Ie Hj. unfold rhs. destruct (m_F m) eqn:EF; [|destruct (proj1 PM); exact EF]. apply rupto_ext. intros s _. apply rupto_ext. intros k _.
  rewrite WT. f_equal. apply (plain_eval m); [apply FU|apply stage_agree; assumption].
Qed.
Lemma coll c e : is_element O c e -> collocation O t m rho' c e /\ continuity O t m rho' c e.
Proof.
  intros Ie. destruct (PS c e Ie) as (A & B). pose proof NE as G. unfold nodes_exact in G.
  assert (RV : forall j i, j < o_ns O -> (speed O rho' c * rhs O m (stage_point O t m rho' c e j) i)%R = velocity O m rho c (state p c e (tau j)) (W c e (tau j)) i).
  { intros j i Hj. rewrite speed_same, rhs_at by assumption. reflexivity. }
  destruct (o_repr O) eqn:Er.
  - destruct G as (PO & Hn & Tn). apply (polynomial_solves cp O t m rho' (t_made _ _ _ _ _ _ _ H) ns0 c e (p c e) PO Er).
    + intros i Hi. destruct (A i Hi). lia.
    + intros i Hi. apply start_at; assumption.
    + intros i j tj Hi Hj. rewrite VX. unfold sampled. rewrite Er, (Tn _ _ Hj). reflexivity.
    + intros R. rewrite rbe in R. discriminate.
    + intros i j tj Hi Hj. pose proof (proj1 (PO Er)) as Lp. assert (Lj : j < o_ns O) by (rewrite <- Lp; apply nth_error_Some; rewrite Hj; discriminate).
      rewrite (Tn _ _ Hj), RV, step_same by exact Lj. exact (B j Lj i Hi).
  - split.
    + intros j i Hj Hi. cbv zeta. rewrite Er, RV by exact Hj. unfold slope. apply VV.
    + intros _ i Hi. rewrite Er, end_at. symmetry. apply (sum_slopes c e i (entry1 (t_b t))); try assumption. intros k Hk. apply G, Hk.
  - split.
    + intros j i Hj Hi. cbv zeta. rewrite Er, RV by exact Hj. unfold slope. split; [apply VV|]. rewrite VX. unfold sampled. rewrite Er. symmetry. apply sum_slopes; try assumption. intros k Hk. apply G; assumption.
    + intros _ i Hi. rewrite Er, end_at. symmetry. apply (sum_slopes c e i (entry1 (t_b t))); try assumption. intros k Hk. apply G, Hk.
Qed.
Lemma path c e : is_element O c e -> path_ok O t m oc' rho' c e.
Proof.
  intros Ie. destruct AD as [Ad _]. assert (G : forall j, j < o_ns O -> path_holds m oc' rho' c (stage_state O t rho' c e j)).
  { intros j Hj i Hi. destruct (Ad c e Ie j Hj) as [_ P]. specialize (P i Hi).
    rewrite (plain_eval m _ _ (plain_point m rho c (state p c e (tau j)))); [exact P|apply nth_uses_only; intros x Hx; apply PC; left; exact Hx|].
    intros y Hy. rewrite (plain_same c _ y Hy). apply plain_ext; [|exact Hy]. intros i' Hi'. apply stage_state_at; assumption. }
  pose proof ns0. split; [|intros _ j Hj; apply G; lia]. intros _. unfold final_state. rewrite rbe. apply G. lia.
Qed.

Hypothesis AL : forall c e, is_element O c e -> stage_algebra O t m rho' c e.
Hypothesis CR : forall c e, is_element O c e -> cross_ok O t m rho' c e.
Hypothesis ST : forall c e, is_element O c e -> step_constraint O t m rho' c e.
Hypothesis BD : forall c e f j s i, is_element O c e -> j < o_ns O -> s < n_subsystems m -> i < dim2 O m f s ->
  within (lower2 O f) (upper2 f) (rho' (S2 f c e j s i)).
Lemma elem c e : is_element O c e -> element_ok O t m oc' rho' c e.
Proof.
  intros Ie. destruct (coll c e Ie). repeat apply conj.
  - exact (AL c e Ie).
  - assumption.
  - assumption.
  - apply (path c e Ie).
  - apply (path c e Ie).
  - intros R. rewrite rbe in R. discriminate.
  - intros r Hr. rewrite (proj2 PC) in Hr. destruct Hr.
  - intros _ r Hr. rewrite (proj2 PC) in Hr. destruct Hr.
  - exact (CR c e Ie).
  - exact (ST c e Ie).
Qed.
Lemma stage_same c : stage_length O rho' c = stage_length O rho c.
Proof. apply rupto_ext. intros. apply step_same. Qed.
Lemma whole_con : nlp_constraints O t m oc' rho'.
Proof.
  destruct GO as (_ & _ & _ & _ & Gs). split; [intros c e Hc He; apply elem; split; assumption|]. split; [|split; [|split]].
  - intros c Hc. split; [|intros X; rewrite Tf in X; discriminate]. intros _ Q. rewrite Q in Gs. rewrite stage_same. exact (Gs c Hc).
  - intros _ _ Q. rewrite Q in Gs. rewrite (rupto_ext _ _ (stage_length O rho)) by (intros; apply stage_same). exact Gs.
  - intros x Hx. destruct AD as [_ A]. rewrite (plain_eval m _ _ (at_state m rho p (last_stage O) (last_elem O (last_stage O)) 1)); [exact (A x Hx)|apply PC; right; exact Hx|].
    intros y Hy. unfold terminal_point. rewrite (plain_same _ _ y Hy). apply plain_ext; [|exact Hy]. intros i _. apply end_at.
  - intros r Hr. rewrite (proj2 PC) in Hr. destruct Hr.
Qed.
Lemma whole_bounds : var_bounds O (explicit_end C) m oc' rho'.
Proof.
  assert (XE : explicit_end C = true) by exact rbe. pose proof ns0 as N0.
  destruct GO as (G1 & G2 & G3 & G4 & _). split; [rewrite (DA SElastic); exact G1|]. split; [intros i; rewrite (DA (SVg i)); apply G2|].
  split; [intros c Hc; destruct (G3 c Hc) as [A B]; split; [intros i; rewrite (DA (SU c i)); apply A|rewrite (DA (SSot c)); exact B]|].
  intros c e Ie. split; [intros _; rewrite (DA (SH c e)); exact (G4 c e Ie)|]. split.
  - intros f j i Hj Hi. destruct f; cbn [dim1] in Hi.
    + rewrite VX. unfold sampled. unfold points1 in Hj. rewrite XE in Hj. destruct (o_repr O); rewrite <- ?tau_last; apply (proj1 AD c e Ie); try exact Hi; lia.
    + split; exact I.
    + rewrite (proj1 (proj2 PM)) in Hi. lia.
  - intros f j s i Hj Hs Hi. apply BD; try assumption. unfold points2 in Hj. rewrite XE, Bool.andb_false_r in Hj. cbn [andb] in Hj. destruct f; lia.
Qed.
Lemma base_feasible : feasible rho' (the_nlp C).
Proof.
  assert (NB : o_mpcc O <> MBoolean) by (intros E; unfold zero_relaxation in ZR; rewrite E in ZR; exact ZR). split.
  - apply (bounds_iff _ _ _ _ _ _ _ H rho' NB). exact whole_bounds.
  - apply (nlp_exact _ _ _ _ _ _ _ H Ex WS rho'); [|exact whole_con].
    intros E. apply NB. rewrite (options_kept _ _ _ _ _ _ _ H). exact E.
Qed.
End Base.

(* what holds on whole elements holds at the collocation points *)
Lemma admissible_nodes O t m oc rho p tau : sampling O t tau -> admissible O m oc rho p -> admissible_at O m oc rho p tau.
Proof. intros (_ & B & _) [A T]. split; [|exact T]. intros c e Ie j Hj. apply (A c e Ie), B, Hj. Qed.
Lemma polynomial_nodes O t m rho p th n tau : sampling O t tau -> polynomial_solution O m rho p th n -> collocation_solution O m rho p th tau n.
Proof.
  intros (_ & B & _) PS c e Ie. destruct (PS c e Ie) as (X & Y & Z). split; [exact X|]. split; [intros j Hj; apply Y, B, Hj|].
  intros s k j Hs Hk Hj P. split; [apply (Z s k (tau j)); try assumption; [apply B, Hj|lra]|].
  intros j' Hj'. apply (Z s k (tau j)); try assumption; apply B; assumption.
Qed.
Lemma equilibrated_nodes O t m rho p th tau : sampling O t tau -> equilibrated O m rho p th -> equilibrated_at O m rho p th tau.
Proof.
  intros (_ & B & _). unfold equilibrated, equilibrated_at. assert (G : forall c e s k, (forall z, (0 <= z <= 1)%R -> smallest m (at_state m rho p c e z) s k) -> smallest_on O m rho p tau c e s k).
  { intros c e s k A. split; [apply A; lra|]. intros j Hj. apply A, B, Hj. }
  destruct (o_step_eq O); try exact (fun X => X); intros E c e Ie He; (destruct (E c e Ie He) as [Z|(s & k & Hs & Hk & E1 & E2)]; [left; exact Z|right; exists s, k;
    split; [exact Hs|]; split; [exact Hk|]; split; [destruct E1 as [E1|E1]; [left|right]; intros j Hj; apply E1, B, Hj|destruct E2 as [E2|E2]; [left|right]; apply G, E2]]).
Qed.

(* ---- Radau points sample exactly up to exact_degree ---- *)
Lemma radau_nodes cp O t : make_tab cp O = Ok t -> 0 < o_ns O -> o_scheme O = RadauIIA -> points_ok cp O -> points_inside cp O ->
  exists tau, nodes_exact cp O t (exact_degree O) tau /\ sampling O t tau /\
    (o_repr O = Integral -> forall j q, nth_error (cp (o_ns O) (o_scheme O)) j = Some q -> Q2R q = tau j).
Proof.
  intros MT N0 Sc PO PI. assert (RB : t_rbe t = true) by (rewrite (tab_scheme cp O t MT PO), Sc; reflexivity).
  destruct (o_repr O) eqn:Er.
  { exists (fun j => Q2R (nth j (cp (o_ns O) (o_scheme O)) 0%Q)). assert (G : forall j q, nth_error (cp (o_ns O) (o_scheme O)) j = Some q -> Q2R q = Q2R (nth j (cp (o_ns O) (o_scheme O)) 0%Q))
      by (intros j q E; rewrite (nth_error_nth _ _ _ E); reflexivity).
    split; [unfold nodes_exact, exact_degree; rewrite Er; auto|]. split; [|intros _; exact G]. split; [exact RB|].
    destruct (PO Er) as (Lp & _ & pts & tl & E & Htl). split.
    - intros j Hj. assert (Hi : In (nth j (cp (o_ns O) (o_scheme O)) 0%Q) (cp (o_ns O) (o_scheme O))) by (apply nth_In; lia).
      apply PI in Hi. destruct Hi as [A B]. apply Qle_Rle in A, B. rewrite Q2R_0 in A. rewrite Q2R_1 in B. lra.
    - rewrite E in *. rewrite app_length in Lp. cbn [length] in Lp.
      rewrite app_nth2 by lia. replace (o_ns O - 1 - length pts) with 0 by lia. cbn [nth]. rewrite Sc in Htl. apply Qeq_eqR in Htl. rewrite Htl. apply Q2R_1. }
  all: assert (NI : o_repr O <> Integral) by (rewrite Er; discriminate); destruct (tab_differential cp O t MT NI) as (bt & Hb & EA & Eb); rewrite Sc in Hb;
    destruct (o_ns O) as [|[|[|ns]]] eqn:En; [lia| | |];
    [ (* one stage *) exists (fun _ => 1%R); cbn in Hb; injection Hb as <-;
      split; [unfold nodes_exact, exact_degree; rewrite Er, En; cbn [Nat.leb]; intros k Hk; assert (k = 0) by lia; subst k; rewrite EA, Eb; split;
        [intros j Hj; assert (j = 0) by lia; subst j|]; unfold rupto; cbn; unfold entryQ, entry1; cbn; unfold Q2R; cbn; lra|]
    | (* two stages *) exists (fun j => match j with 0 => Q2R (nth 0 (nth 0 TableauData.radau_A_2 []) 0%Q + nth 1 (nth 0 TableauData.radau_A_2 []) 0%Q) | _ => 1%R end); cbn in Hb; injection Hb as <-;
      split; [unfold nodes_exact, exact_degree; rewrite Er, En; cbn [Nat.leb]; intros k Hk; assert (k = 0) by lia; subst k; rewrite EA, Eb; split;
        [intros j Hj; destruct j as [|[|j]]; [| |lia]|]; unfold rupto; cbn; unfold entryQ, entry1; cbn; unfold Q2R; cbn; lra|]
    | (* more: constants only *) exists (fun _ => 1%R); split; [unfold nodes_exact, exact_degree; rewrite Er, En; cbn [Nat.leb]; intros k Hk; lia|]].
  all: split; [|intros X; discriminate X]; split; [exact RB|]; rewrite En; split; [|reflexivity].
  all: intros j Hj; try lra; destruct j as [|j]; try lra; cbn; unfold Q2R; cbn; lra.
Qed.
