(* Exist_proofs.v -- polynomial solutions that switch on the grid only are feasible points *)
From Coq Require Import Reals Qreals Lra Psatz.
From Verif Require Import Base Sx Utils Tableau Opts Model Ocp Problem Spec Lib Sx_proofs Body_proofs Con_proofs Index3_proofs Fesd
  Sem_proofs Dcs_proofs Point_proofs Elem_proofs Nlp_proofs Tableau_proofs Poly_proofs Spec2 Feas_proofs Feas2_proofs Spec3 Spec4 Results_proofs Spec9 Filippov_proofs Filippov2_proofs Filippov3_proofs
  Spec10 Spec11 Spec36 Syms_proofs Bounds_proofs ExistBase_proofs.

(* ---- smallest of n numbers ---- *)
Fixpoint rmin (n : nat) (f : nat -> R) : R := match n with O => 0%R | S O => f 0 | S n' => Rmin (rmin n' f) (f n') end.
Lemma rmin_SS n f : rmin (S (S n)) f = Rmin (rmin (S n) f) (f (S n)). Proof. reflexivity. Qed.
Lemma rmin_le n f k : k < n -> (rmin n f <= f k)%R.
Proof.
  induction n as [|n IH]; intros Hk; [lia|]. destruct n as [|n]; [assert (k = 0) by lia; subst; cbn; lra|].
  rewrite rmin_SS. destruct (Nat.eq_dec k (S n)) as [->|]; [apply Rmin_r|]. eapply Rle_trans; [apply Rmin_l|apply IH; lia].
Qed.
Lemma rmin_in n f : 0 < n -> exists k, k < n /\ rmin n f = f k.
Proof.
  induction n as [|n IH]; intros Hn; [lia|]. destruct n as [|n]; [exists 0; split; [lia|reflexivity]|].
  rewrite rmin_SS. destruct (IH ltac:(lia)) as (k & Hk & E). unfold Rmin. destruct (Rle_dec _ _); [exists k; split; [lia|exact E]|exists (S n); split; [lia|reflexivity]].
Qed.
Lemma rmin_at n f k : k < n -> (forall k', k' < n -> (f k <= f k')%R) -> rmin n f = f k.
Proof. intros Hk A. destruct (rmin_in n f ltac:(lia)) as (k' & Hk' & E). pose proof (rmin_le n f k Hk). pose proof (A k' Hk'). lra. Qed.
Lemma rmin_ext n f g : (forall k, f k = g k) -> rmin n f = rmin n g.
Proof. intros A. induction n as [|n IH]; [reflexivity|]. destruct n as [|n]; [apply A|]. rewrite !rmin_SS, IH, A. reflexivity. Qed.

Lemma region_agree m v w s k : (forall s e, In e (user_gS m s) \/ In e (user_c m s) -> uses_only (switching_sym m) e) -> switch_agree m v w ->
  region_value m v s k = region_value m w s k.
Proof.
  intros U A. assert (X : forall e, In e (user_gS m s) \/ In e (user_c m s) -> eval v e = eval w e)
    by (intros e He; apply eval_ext; intros y Hy; apply A, (U s e He), Hy).
  unfold region_value. destruct (gS_given m).
  - destruct (nth_in_or_default k (user_gS m s) (ECst 0)) as [Hi| ->]; [apply X; left; exact Hi|reflexivity].
  - f_equal. f_equal. apply map_ext_in. intros [q e] Hq. apply in_combine_r in Hq. cbn [fst snd]. rewrite (X e); [reflexivity|right; exact Hq].
Qed.
Lemma smallest_agree m v w s k : (forall s e, In e (user_gS m s) \/ In e (user_c m s) -> uses_only (switching_sym m) e) -> switch_agree m v w ->
  smallest m v s k -> smallest m w s k.
Proof. intros U A S k' Hk'. rewrite <- !(region_agree m v w) by assumption. apply S, Hk'. Qed.

Section Exist.
Variables (lr : Q -> Q -> Q -> nat) (cp : nat -> scheme -> list Q) (d : ipopt_dict) (o : opts) (m : model)
  (oc : option ocp) (C : constructed).
Hypothesis H : construct_problem lr cp d o m oc = Ok C.
Hypothesis Ex : o_constr o = Exact.
Hypothesis WS : well_sized m.
Notation O := (the_opts C).
Notation t := (cn_tab C).
Notation oc' := (the_ocp oc).
Variables (rho : env) (p : nat -> nat -> nat -> list R) (th : nat -> nat -> R -> nat -> nat -> R) (n : nat) (tau : nat -> R).
Hypothesis NE : nodes_exact cp O t n tau.
Hypothesis SA : sampling O t tau.
Hypothesis Ep : o_pss O = Stewart.
Hypothesis Hf : o_use_fesd O = true.
Hypothesis Tf : o_time_freezing O = false.
Hypothesis ZR : zero_relaxation O rho.
Hypothesis PM : plain_model m.
Hypothesis PC : plain_ocp m oc'.
Hypothesis SG : same_globals m rho.
Hypothesis EI : exact_initial m rho.
Hypothesis GO : grid_ok O m oc' rho.
Hypothesis PS : collocation_solution O m rho p th tau n.
Hypothesis AD : admissible_at O m oc' rho p tau.
Hypothesis EQ : equilibrated_at O m rho p th tau.

Definition gv (c e : nat) (z : R) (s k : nat) : R := region_value m (at_state m rho p c e z) s k.
Definition lamv (c e : nat) (z : R) (s k : nat) : R := (gv c e z s k - rmin (n_modes m s) (gv c e z s))%R.
Definition rho' : env := fun y => match y with
  | S1 FX c e j i => sampled O p tau c e j i
  | S1 FV c e j i => velocity O m rho c (state p c e (tau j)) (th c e (tau j)) i
  | S2 FTheta c e j s k => th c e (tau j) s k
  | S2 FLam c e j s k => lamv c e (tau j) s k
  | S2 FMu c e j s k => (- rmin (n_modes m s) (gv c e (tau j) s))%R
  | _ => rho y
  end.
Lemma data : same_data rho rho'.
Proof. intros y. destruct y; try exact I; reflexivity. Qed.
Lemma PS0 : forall c e, is_element O c e ->
  (forall i, i < m_nx m -> length (p c e i) <= S n /\
     state p c e 0 i = match before O c e with Some (c', e') => state p c' e' 1 i | None => rho (SX0 i) end) /\
  (forall j, j < o_ns O -> forall i, i < m_nx m -> derivable_pt_lim (fun z => state p c e z i) (tau j)
       (step_len O rho c e * velocity O m rho c (state p c e (tau j)) (th c e (tau j)) i)%R).
Proof. intros c e Ie. destruct (PS c e Ie) as (A & B & _). split; [exact A|]. intros j Hj. apply B, Hj. Qed.
Notation tau_in := (tau_in C tau SA).
Notation tau_last := (tau_last C tau SA).
Notation mults := (mults C tau SA).
Notation relaxed_of := (relaxed_of C rho rho' ZR data).
Notation SU := (proj2 (proj2 (proj2 (proj2 PM)))).
Lemma stage_at c e j : is_element O c e -> j < o_ns O -> plain_agree m (stage_point O t m rho' c e j) (at_state m rho p c e (tau j)).
Proof. exact (stage_agree cp m C rho rho' p th n tau NE SA PS0 data (fun _ _ _ _ => eq_refl) (fun _ _ _ _ => eq_refl) c e j). Qed.

(* ---- weights, multipliers ---- *)
Lemma lamv_nonneg c e z s k : k < n_modes m s -> (0 <= lamv c e z s k)%R.
Proof. intros Hk. unfold lamv. pose proof (rmin_le (n_modes m s) (gv c e z s) k Hk). lra. Qed.
Lemma lamv_zero c e z s k : k < n_modes m s -> smallest m (at_state m rho p c e z) s k -> lamv c e z s k = 0%R.
Proof. intros Hk S. unfold lamv. rewrite (rmin_at _ (gv c e z s) k Hk); [lra|]. exact S. Qed.

(* ---- complementarity vectors ---- *)
Lemma th_at c e j s i : s < n_subsystems m -> i < n_modes m s -> ent (theta_vec O m rho' c e j) (upto s (n_modes m) + i) = th c e (tau j) s i.
Proof.
  intros Hs Hi. destruct (stewart_vecs O m rho' Ep) as (_ & -> & _). unfold ent, values.
  assert (D : forall q, dim2 O m FTheta q = n_modes m q) by (intros; unfold dim2; rewrite Ep; reflexivity).
  rewrite <- (upto_ext s _ _ D). erewrite nth_error_nth; [|apply over_at; [exact Hs|rewrite D; exact Hi]]. reflexivity.
Qed.
Lemma lam_at c e j s i : s < n_subsystems m -> i < n_modes m s -> ent (lam_vec O m rho' c e j) (upto s (n_modes m) + i) = lamv c e (tau j) s i.
Proof.
  intros Hs Hi. destruct (stewart_vecs O m rho' Ep) as (-> & _). unfold ent, values.
  assert (D : forall q, dim2 O m FLam q = n_modes m q) by (intros; unfold dim2; rewrite Ep; reflexivity).
  rewrite <- (upto_ext s _ _ D). erewrite nth_error_nth; [|apply over_at; [exact Hs|rewrite D; exact Hi]]. reflexivity.
Qed.
Lemma prev_zero c e s k : is_element O c e -> s < n_subsystems m -> k < n_modes m s -> smallest m (at_state m rho p c e 0) s k ->
  ent (prev_lam O t m rho' c e) (upto s (n_modes m) + k) = 0%R.
Proof.
  intros Ie Hs Hk S. unfold prev_lam, last_lam. destruct (before O c e) as [[c' e']|] eqn:B.
  - rewrite mults, lam_at by assumption; rewrite tau_last. apply lamv_zero; [exact Hk|]. eapply smallest_agree; [exact SU| |exact S]. eapply (joint_agree m C rho p th n tau PS0); eassumption.
  - destruct (stewart_vecs O m rho' Ep) as (_ & _ & -> & _). unfold ent.
    assert (D : forall q, dim2 O m FLam q = n_modes m q) by (intros; unfold dim2; rewrite Ep; reflexivity).
    rewrite <- (upto_ext s _ _ D). erewrite nth_error_nth; [|apply over_at; [exact Hs|rewrite D; exact Hk]]. cbn [rho'].
    rewrite (EI s k k Hs Hk); [ring| |exact Hk]. eapply smallest_agree; [exact SU| |exact S]. apply (start_agree m C rho p th n tau PS0); assumption.
Qed.
Lemma cross c e : is_element O c e -> cross_ok O t m rho' c e.
Proof.
  intros Ie j k Hj Hk. cbv zeta. rewrite Hf. destruct (stewart_vecs O m rho' Ep) as (_ & _ & _ & N). rewrite N in Hk.
  apply over_pos in Hk. destruct Hk as (s & i & Hs & Hi & ->). rewrite th_at by assumption. destruct (PS c e Ie) as (_ & A & B).
  destruct (A j Hj) as [Cw _]. destruct (Cw s Hs) as [W0 _]. specialize (W0 i Hi).
  destruct (Rle_lt_or_eq_dec _ _ W0) as [Hp|Hz].
  - destruct (B s i j Hs Hi Hj Hp) as [S0 S].
    assert (P0 : ent (prev_lam O t m rho' c e) (upto s (n_modes m) + i) = 0%R) by (apply prev_zero; assumption).
    assert (L0 : forall jj, jj < o_ns O -> ent (lam_vec O m rho' c e jj) (upto s (n_modes m) + i) = 0%R) by (intros jj Hjj; rewrite lam_at by assumption; apply lamv_zero; [exact Hi|apply S, Hjj]).
    destruct (o_cross O).
    + split; [|intros jj Hjj]; apply relaxed_of; rewrite rsum_cons, rsum_nil; [rewrite P0|rewrite (L0 jj Hjj)]; ring.
    + apply relaxed_of. rewrite rsum0; [ring|]. intros x Hx. apply in_app_iff in Hx. destruct Hx as [Hx|[<-|[]]]; [|exact P0].
      apply in_map_iff in Hx. destruct Hx as (jj & <- & Hjj). apply in_seq in Hjj. rewrite mults in Hjj. apply L0. lia.
  - rewrite <- Hz. destruct (o_cross O).
    + split; [|intros jj _]; apply relaxed_of; rewrite rsum_cons, rsum_nil; ring.
    + apply relaxed_of. ring.
Qed.

Lemma sum_lam_zero c e s k : is_element O c e -> s < n_subsystems m -> k < n_modes m s ->
  smallest_on O m rho p tau c e s k -> sum_lam O t m rho' c e (upto s (n_modes m) + k) = 0%R.
Proof.
  intros Ie Hs Hk [S0 S]. unfold sum_lam. rewrite prev_zero by assumption.
  rewrite (rupto_ext _ _ (fun _ => 0%R)), (rupto_all0 _ _ (fun _ => eq_refl)); [ring|].
  intros jj Hjj. rewrite mults in Hjj. rewrite lam_at by assumption. apply lamv_zero; [exact Hk|apply S, Hjj].
Qed.
Lemma sum_th_zero c e s k : s < n_subsystems m -> k < n_modes m s ->
  (forall j, j < o_ns O -> th c e (tau j) s k = 0%R) -> sum_theta O m rho' c e (upto s (n_modes m) + k) = 0%R.
Proof.
  intros Hs Hk A. unfold sum_theta. rewrite (rupto_ext _ _ (fun _ => 0%R)), (rupto_all0 _ _ (fun _ => eq_refl)); [reflexivity|].
  intros j Hj. rewrite th_at by assumption. apply A, Hj.
Qed.
Lemma nu_dh c e : match o_step_eq O with Direct | DirectComplementarity => True | _ => False end -> is_element O c e -> 0 < e ->
  (nu O t m rho' c e * delta_h O rho' c e = 0)%R.
Proof.
  intros St Ie He. assert (E : delta_h O rho c e = 0%R \/ exists s k, s < n_subsystems m /\ k < n_modes m s /\
        ((forall j, j < o_ns O -> th c (e - 1)%nat (tau j) s k = 0%R) \/ (forall j, j < o_ns O -> th c e (tau j) s k = 0%R)) /\
        (smallest_on O m rho p tau c (e - 1) s k \/ smallest_on O m rho p tau c e s k))
    by (unfold equilibrated_at in EQ; destruct (o_step_eq O); try contradiction; apply EQ; assumption).
  destruct E as [E|(s & k & Hs & Hk & E1 & E2)]; [rewrite (delta_same C rho rho' data), E; ring|].
  assert (I1 : is_element O c (e - 1)) by (destruct Ie; split; [assumption|lia]).
  destruct (stewart_vecs O m rho' Ep) as (_ & _ & _ & N).
  unfold nu. rewrite rprod0; [ring|]. apply in_map_iff. exists (upto s (n_modes m) + k). split.
  - destruct E1 as [E1|E1]; [rewrite (sum_th_zero c (e - 1)) by assumption|rewrite (sum_th_zero c e) by assumption];
    destruct E2 as [E2|E2]; [rewrite (sum_lam_zero c (e - 1)) by assumption|rewrite (sum_lam_zero c e) by assumption|rewrite (sum_lam_zero c (e - 1)) by assumption|rewrite (sum_lam_zero c e) by assumption]; ring.
  - apply in_seq. rewrite N. pose proof (upto_mono (n_modes m) (S s) (n_subsystems m) ltac:(lia)) as G. rewrite upto_S in G. lia.
Qed.
Lemma step_c c e : is_element O c e -> step_constraint O t m rho' c e.
Proof.
  intros Ie _ He. pose proof (nu_dh c e) as N. destruct (o_step_eq O); try exact I.
  all: try (apply N; [exact I|assumption|assumption]).
  all: apply relaxed_of; rewrite rsum_cons, rsum_nil; try ring.
  all: rewrite Rplus_0_r; apply N; [exact I|assumption|assumption].
Qed.

Lemma algebra c e : is_element O c e -> stage_algebra O t m rho' c e.
Proof.
  intros Ie j Hj. destruct (PS c e Ie) as (_ & A & _). destruct (A j Hj) as [Cw _]. split; [|split].
  - intros s k Hs Hk. unfold switching_residual, n_switching in *. rewrite Ep in *.
    rewrite (region_agree m _ (at_state m rho p c e (tau j)) s k SU) by (apply plain_switch, stage_at; assumption).
    unfold stage_point, at_point. cbn [rho']. unfold lamv, gv. ring.
  - intros _ s Hs. destruct (Cw s Hs) as [_ W]. exact W.
  - intros x Hx. rewrite (proj1 (proj2 (proj2 PM))) in Hx. destruct Hx.
Qed.
Lemma bounds2 c e f j s i : is_element O c e -> j < o_ns O -> s < n_subsystems m -> i < dim2 O m f s ->
  within (lower2 O f) (upper2 f) (rho' (S2 f c e j s i)).
Proof.
  intros Ie Hj Hs Hi. unfold dim2 in Hi. rewrite Ep in Hi. destruct f; cbn [rho' lower2 upper2]; try lia; rewrite ?(lb_zero C rho ZR).
  - destruct (PS c e Ie) as (_ & A & _). destruct (A j Hj) as [Cw _]. destruct (Cw s Hs) as [W _].
    split; [rewrite Q2R_0; apply W, Hi|exact I].
  - split; [rewrite Q2R_0; apply lamv_nonneg, Hi|exact I].
  - split; exact I.
Qed.
Lemma collocation_feasible : exists r, feasible r (the_nlp C) /\ same_data rho r /\
  (forall c e i, end_state O t r c e i = state p c e 1 i) /\
  (forall c e j i, is_element O c e -> j < o_ns O -> i < m_nx m -> stage_state O t r c e j i = state p c e (tau j) i) /\
  (forall c e j s k, r (S2 FTheta c e j s k) = th c e (tau j) s k).
Proof.
  exists rho'. split; [|split; [exact data|split; [|split]]].
  - eapply (base_feasible lr cp d o m oc C H Ex WS rho rho' p th n tau NE SA Tf ZR PM PC GO PS0 AD data); try reflexivity.
    + intros. unfold weight. rewrite Ep. reflexivity.
    + exact algebra.
    + exact cross.
    + exact step_c.
    + exact bounds2.
  - exact (end_at C rho' p tau SA (fun _ _ _ _ => eq_refl)).
  - intros c e j i Ie Hj Hi. apply (stage_state_at cp m C rho rho' p th n tau NE SA PS0 data (fun _ _ _ _ => eq_refl) (fun _ _ _ _ => eq_refl)); assumption.
  - reflexivity.
Qed.
End Exist.
Lemma exists_feasible lr cp d o m oc C : construct_problem lr cp d o m oc = Ok C -> o_constr o = Exact -> well_sized m ->
  forall rho p th n tau, nodes_exact cp (the_opts C) (cn_tab C) n tau -> sampling (the_opts C) (cn_tab C) tau -> o_pss (the_opts C) = Stewart ->
  o_use_fesd (the_opts C) = true -> o_time_freezing (the_opts C) = false -> zero_relaxation (the_opts C) rho -> plain_model m -> plain_ocp m (the_ocp oc) ->
  same_globals m rho -> exact_initial m rho -> grid_ok (the_opts C) m (the_ocp oc) rho -> polynomial_solution (the_opts C) m rho p th n ->
  admissible (the_opts C) m (the_ocp oc) rho p -> equilibrated (the_opts C) m rho p th ->
  exists r, feasible r (the_nlp C) /\ same_data rho r /\
  (forall c e i, end_state (the_opts C) (cn_tab C) r c e i = state p c e 1 i) /\
  (forall c e j i, is_element (the_opts C) c e -> j < o_ns (the_opts C) -> i < m_nx m -> stage_state (the_opts C) (cn_tab C) r c e j i = state p c e (tau j) i) /\
  (forall c e j s k, r (S2 FTheta c e j s k) = th c e (tau j) s k).
Proof.
  intros H Ex WS rho p th n tau NE SA Ep Hf Tf ZR PM PC SG EI GO PS AD EQ. apply (collocation_feasible lr cp d o m oc C H Ex WS rho p th n tau); try assumption.
  - exact (polynomial_nodes _ _ _ _ _ _ _ _ SA PS).
  - exact (admissible_nodes _ _ _ _ _ _ _ SA AD).
  - exact (equilibrated_nodes _ _ _ _ _ _ _ SA EQ).
Qed.
