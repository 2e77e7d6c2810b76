(* ExistStep_proofs.v -- polynomial solutions of the Step reformulation that switch on the grid only are feasible points *)
From Coq Require Import Reals Qreals Lra Psatz.
From Verif Require Import Base Sx Utils Tableau Opts Model Ocp Problem Spec Lib Sx_proofs Body_proofs Con_proofs Index3_proofs Fesd
  Sem_proofs Dcs_proofs Point_proofs Elem_proofs Nlp_proofs Tableau_proofs Poly_proofs Spec2 Feas_proofs Feas2_proofs Spec3 Spec4 Results_proofs Spec9 Filippov_proofs Filippov2_proofs Filippov3_proofs
  Spec10 Spec11 Spec14 Syms_proofs Bounds_proofs ExistBase_proofs.

Lemma switch_agrees m v w s r : (forall s e, In e (user_gS m s) \/ In e (user_c m s) -> uses_only (switching_sym m) e) -> switch_agree m v w ->
  switch_value m v s r = switch_value m w s r.
Proof.
  intros U A. unfold switch_value. destruct (nth_in_or_default r (user_c m s) (ECst 0)) as [Hi| ->]; [|reflexivity].
  apply eval_ext. intros y Hy. apply A, (U s _ (or_intror Hi)), Hy.
Qed.

Section ExistStep.
Variables (lr : Q -> Q -> Q -> nat) (cp : nat -> scheme -> list Q) (d : ipopt_dict) (o : opts) (m : model)
  (oc : option ocp) (C : constructed).
Hypothesis H : construct_problem lr cp d o m oc = Ok C.
Hypothesis Ex : o_constr o = Exact.
Hypothesis WS : well_sized m.
Notation O := (the_opts C).
Notation t := (cn_tab C).
Notation oc' := (the_ocp oc).
Variables (rho : env) (p : nat -> nat -> nat -> list R) (al : nat -> nat -> R -> nat -> nat -> R) (n : nat) (tau : nat -> R).
Hypothesis NE : nodes_exact cp O t n tau.
Hypothesis SA : sampling O t tau.
Hypothesis Ep : o_pss O = Step.
Hypothesis Hf : o_use_fesd O = true.
Hypothesis Tf : o_time_freezing O = false.
Hypothesis ZR : zero_relaxation O rho.
Hypothesis PM : plain_model m.
Hypothesis PC : plain_ocp m oc'.
Hypothesis SG : same_globals m rho.
Hypothesis EI : step_exact_initial m rho.
Hypothesis GO : grid_ok O m oc' rho.
Hypothesis PS : step_polynomial_solution O m rho p al n.
Hypothesis AD : admissible O m oc' rho p.
Hypothesis EQ : step_equilibrated O m rho p al.
Notation th := (fun c e z => step_weights m (al c e z)).

Definition sw (c e : nat) (z : R) (s r : nat) : R := switch_at m rho p c e z s r.
(* the two kinds of pairs: (lambda_n, alpha) and (lambda_p, 1 - alpha) *)
Definition wt (b : bool) (c e : nat) (z : R) (s r : nat) : R := if b then al c e z s r else (1 - al c e z s r)%R.
Definition ml (b : bool) (c e : nat) (z : R) (s r : nat) : R := Rmax 0 (if b then - sw c e z s r else sw c e z s r)%R.
Definition rho' : env := fun y => match y with
  | S1 FX c e j i => sampled O p tau c e j i
  | S1 FV c e j i => velocity O m rho c (state p c e (tau j)) (step_weights m (al c e (tau j))) i
  | S2 FAlpha c e j s r => al c e (tau j) s r
  | S2 FLn c e j s r => ml true c e (tau j) s r
  | S2 FLp c e j s r => ml false c e (tau j) s r
  | _ => rho y
  end.
Lemma data : same_data rho rho'.
Proof. intros y. destruct y; try exact I; reflexivity. Qed.
Lemma PS0 : forall c e, is_element O c e ->
  (forall i, i < m_nx m -> length (p c e i) <= S n /\
     state p c e 0 i = match before O c e with Some (c', e') => state p c' e' 1 i | None => rho (SX0 i) end) /\
  (forall j, j < o_ns O -> forall i, i < m_nx m -> derivable_pt_lim (fun z => state p c e z i) (tau j)
       (step_len O rho c e * velocity O m rho c (state p c e (tau j)) (th c e (tau j)) i)%R).
Proof. intros c e Ie. destruct (PS c e Ie) as (A & B & _). split; [exact A|]. intros j Hj. apply B. exact (proj1 (proj2 SA) j Hj). Qed.
Notation tau_in := (tau_in C tau SA).
Notation tau_last := (tau_last C tau SA).
Notation mults := (mults C tau SA).
Notation relaxed_of := (relaxed_of C rho rho' ZR data).
Notation SU := (proj2 (proj2 (proj2 (proj2 PM)))).
Lemma stage_at c e j : is_element O c e -> j < o_ns O -> plain_agree m (stage_point O t m rho' c e j) (at_state m rho p c e (tau j)).
Proof. exact (stage_agree cp m C rho rho' p th n tau NE SA PS0 data (fun _ _ _ _ => eq_refl) (fun _ _ _ _ => eq_refl) c e j). Qed.

(* ---- weights, multipliers ---- *)
Definition favours (b : bool) (x : R) : Prop := if b then (0 <= x)%R else (x <= 0)%R.
Lemma ml_nonneg b c e z s r : (0 <= ml b c e z s r)%R.
Proof. unfold ml. apply Rmax_l. Qed.
Lemma ml_zero b c e z s r : favours b (sw c e z s r) -> ml b c e z s r = 0%R.
Proof. unfold favours, ml. destruct b; intros A; apply Rmax_left; lra. Qed.
Lemma wt_nonneg b c e z s r : is_element O c e -> (0 <= z <= 1)%R -> s < n_subsystems m -> r < n_switch m s -> (0 <= wt b c e z s r)%R.
Proof. intros Ie Hz Hs Hr. destruct (PS c e Ie) as (_ & A & _). destruct (A z Hz) as [B _]. specialize (B s r Hs Hr). unfold wt. destruct b; lra. Qed.
Lemma wt_favours b c e z z' s r : is_element O c e -> (0 <= z <= 1)%R -> (0 <= z' <= 1)%R -> s < n_subsystems m -> r < n_switch m s -> (0 < wt b c e z s r)%R ->
  favours b (sw c e z' s r).
Proof. intros Ie Hz Hz' Hs Hr P. destruct (PS c e Ie) as (_ & _ & B). destruct (B s r z z' Hs Hr Hz Hz') as [B1 B2]. unfold favours, sw, wt in *. destruct b; [apply B1, P|apply B2; lra]. Qed.
(* ---- complementarity vectors ---- *)
Definition N : nat := upto (n_subsystems m) (n_switch m).
Definition pos (b : bool) (s r : nat) : nat := (if b then 0 else N) + (upto s (n_switch m) + r).
Lemma pos_lt b s r : s < n_subsystems m -> r < n_switch m s -> pos b s r < n_pairs O m.
Proof.
  intros Hs Hr. destruct (step_vecs O m rho' Ep) as (_ & _ & ->). fold N. unfold pos. pose proof (upto_lt m (n_switch m) s r Hs Hr) as G. fold N in G. destruct b; lia.
Qed.
Lemma pos_all k : k < n_pairs O m -> exists b s r, s < n_subsystems m /\ r < n_switch m s /\ k = pos b s r.
Proof.
  destruct (step_vecs O m rho' Ep) as (_ & _ & ->). fold N. intros Hk. destruct (Nat.lt_ge_cases k N) as [G|G].
  - destruct (over_pos m (n_switch m) k G) as (s & r & Hs & Hr & E). exists true, s, r. unfold pos. auto.
  - destruct (over_pos m (n_switch m) (k - N)) as (s & r & Hs & Hr & E); [fold N; lia|]. exists false, s, r. unfold pos. split; [exact Hs|]. split; [exact Hr|lia].
Qed.
Lemma two_at f1 f2 d1 d2 b s r : (forall s, d1 s = n_switch m s) -> (forall s, d2 s = n_switch m s) -> s < n_subsystems m -> r < n_switch m s ->
  ent (over_systems m f1 d1 ++ over_systems m f2 d2) (pos b s r) = if b then f1 s r else f2 s r.
Proof.
  intros D1 D2 Hs Hr. unfold pos. destruct b; cbn [Nat.add].
  - rewrite <- (upto_ext s _ _ D1). apply (sp_half m f1 _ _ _ eq_refl); [exact Hs|rewrite D1; exact Hr].
  - unfold N. rewrite <- (upto_ext s _ _ D1), <- (upto_ext (n_subsystems m) _ _ D1), sp_half2 by (try exact Hs; rewrite D1; exact Hr).
    rewrite (upto_ext s _ _ D1), <- (upto_ext s _ _ D2). apply ent_over; [exact Hs|rewrite D2; exact Hr].
Qed.
Lemma over_map (g : R -> R) f dd : map g (over_systems m f dd) = over_systems m (fun s i => g (f s i)) dd.
Proof. unfold over_systems. rewrite concat_map, map_map. f_equal. apply map_ext. intros s. rewrite map_map. reflexivity. Qed.
Lemma th_at c e j b s r : s < n_subsystems m -> r < n_switch m s -> ent (theta_vec O m rho' c e j) (pos b s r) = wt b c e (tau j) s r.
Proof.
  intros Hs Hr. destruct (step_vecs O m rho' Ep) as (_ & -> & _). destruct (dim2_step O m Ep) as (D1 & _). unfold values. rewrite over_map.
  rewrite two_at by assumption. destruct b; reflexivity.
Qed.
Lemma lam_at c e j b s r : s < n_subsystems m -> r < n_switch m s -> ent (lam_vec O m rho' c e j) (pos b s r) = ml b c e (tau j) s r.
Proof.
  intros Hs Hr. destruct (step_vecs O m rho' Ep) as (-> & _). destruct (dim2_step O m Ep) as (_ & D2 & D3 & _). unfold values.
  rewrite two_at by assumption. destruct b; reflexivity.
Qed.
Lemma prev_zero c e b s r : is_element O c e -> s < n_subsystems m -> r < n_switch m s -> favours b (sw c e 0 s r) ->
  ent (prev_lam O t m rho' c e) (pos b s r) = 0%R.
Proof.
  intros Ie Hs Hr S. unfold prev_lam, last_lam. destruct (before O c e) as [[c' e']|] eqn:B.
  - rewrite mults, lam_at by assumption; rewrite tau_last. apply ml_zero. unfold sw, switch_at. rewrite <- (switch_agrees m (at_state m rho p c e 0) _ s r SU); [exact S|]. eapply (joint_agree m C rho p th n tau PS0); eassumption.
  - destruct (dim2_step O m Ep) as (_ & D2 & D3 & D4 & _). unfold lam00. cbn [map concat]. rewrite (over_zero m _ (dim2 O m FLam) D4), app_nil_r. cbn [app].
    rewrite two_at by assumption. cbn [rho']. destruct (EI s r Hs Hr) as [E1 E2].
    unfold sw, switch_at in S. rewrite (switch_agrees m _ (plain_point m rho 0 (fun i => rho (SX0 i))) s r SU) in S by (apply (start_agree m C rho p th n tau PS0); assumption).
    unfold favours in S. destruct b; [rewrite E2|rewrite E1]; apply Rmax_left; lra.
Qed.
Lemma cross c e : is_element O c e -> cross_ok O t m rho' c e.
Proof.
  intros Ie j k Hj Hk. cbv zeta. rewrite Hf. apply pos_all in Hk. destruct Hk as (b & s & r & Hs & Hr & ->). rewrite th_at by assumption.
  pose proof (wt_nonneg b c e (tau j) s r Ie (tau_in j Hj) Hs Hr) as W0.
  destruct (Rle_lt_or_eq_dec _ _ W0) as [Hp|Hz].
  - assert (S : forall z, (0 <= z <= 1)%R -> favours b (sw c e z s r)) by (intros z Hz; apply (wt_favours b c e (tau j) z); try assumption; apply tau_in, Hj).
    assert (P0 : ent (prev_lam O t m rho' c e) (pos b s r) = 0%R) by (apply prev_zero; try assumption; apply S; lra).
    assert (L0 : forall jj, jj < o_ns O -> ent (lam_vec O m rho' c e jj) (pos b s r) = 0%R) by (intros jj Hjj; rewrite lam_at by assumption; apply ml_zero, S, tau_in, Hjj).
    destruct (o_cross O).
    + split; [|intros jj Hjj]; apply relaxed_of; rewrite rsum_cons, rsum_nil; [rewrite P0|rewrite (L0 jj Hjj)]; ring.
    + apply relaxed_of. rewrite rsum0; [ring|]. intros x Hx. apply in_app_iff in Hx. destruct Hx as [Hx|[<-|[]]]; [|exact P0].
      apply in_map_iff in Hx. destruct Hx as (jj & <- & Hjj). apply in_seq in Hjj. rewrite mults in Hjj. apply L0. lia.
  - rewrite <- Hz. destruct (o_cross O).
    + split; [|intros jj _]; apply relaxed_of; rewrite rsum_cons, rsum_nil; ring.
    + apply relaxed_of. ring.
Qed.
Lemma sum_lam_zero c e b s r : is_element O c e -> s < n_subsystems m -> r < n_switch m s ->
  (forall z, (0 <= z <= 1)%R -> favours b (sw c e z s r)) -> sum_lam O t m rho' c e (pos b s r) = 0%R.
Proof.
  intros Ie Hs Hr S. unfold sum_lam. rewrite prev_zero by (try assumption; apply S; lra).
  rewrite (rupto_ext _ _ (fun _ => 0%R)), (rupto_all0 _ _ (fun _ => eq_refl)); [ring|].
  intros jj Hjj. rewrite mults in Hjj. rewrite lam_at by assumption. apply ml_zero, S, tau_in, Hjj.
Qed.
Lemma sum_th_zero c e b s r : s < n_subsystems m -> r < n_switch m s ->
  (forall z, (0 <= z <= 1)%R -> wt b c e z s r = 0%R) -> sum_theta O m rho' c e (pos b s r) = 0%R.
Proof.
  intros Hs Hr A. unfold sum_theta. rewrite (rupto_ext _ _ (fun _ => 0%R)), (rupto_all0 _ _ (fun _ => eq_refl)); [reflexivity|].
  intros j Hj. rewrite th_at by assumption. apply A, tau_in, Hj.
Qed.
Lemma nu_dh c e : match o_step_eq O with Direct | DirectComplementarity => True | _ => False end -> is_element O c e -> 0 < e ->
  (nu O t m rho' c e * delta_h O rho' c e = 0)%R.
Proof.
  intros St Ie He. assert (E : delta_h O rho c e = 0%R \/ exists s r, s < n_subsystems m /\ r < n_switch m s /\
        ((one_side (fun e tau => al c e tau s r = 0%R) e /\ one_side (fun e tau => (0 <= switch_at m rho p c e tau s r)%R) e) \/
         (one_side (fun e tau => al c e tau s r = 1%R) e /\ one_side (fun e tau => (switch_at m rho p c e tau s r <= 0)%R) e)))
    by (unfold step_equilibrated in EQ; destruct (o_step_eq O); try contradiction; apply EQ; assumption).
  destruct E as [E|(s & r & Hs & Hr & E)]; [rewrite (delta_same C rho rho' data), E; ring|].
  assert (E' : exists b, one_side (fun e tau => wt b c e tau s r = 0%R) e /\ one_side (fun e tau => favours b (sw c e tau s r)) e).
  { destruct E as [[E1 E2]|[E1 E2]]; [exists true; split; assumption|exists false]. split; [|exact E2].
    destruct E1 as [E1|E1]; [left|right]; intros z Hz; unfold wt; rewrite (E1 z Hz); ring. }
  destruct E' as (b & E1 & E2). assert (I1 : is_element O c (e - 1)) by (destruct Ie; split; [assumption|lia]).
  unfold nu. rewrite rprod0; [ring|]. apply in_map_iff. exists (pos b s r). split.
  - destruct E1 as [E1|E1]; [rewrite (sum_th_zero c (e - 1)) by assumption|rewrite (sum_th_zero c e) by assumption];
    destruct E2 as [E2|E2]; [rewrite (sum_lam_zero c (e - 1)) by assumption|rewrite (sum_lam_zero c e) by assumption|rewrite (sum_lam_zero c (e - 1)) by assumption|rewrite (sum_lam_zero c e) by assumption]; ring.
  - apply in_seq. pose proof (pos_lt b s r Hs Hr). lia.
Qed.
Lemma step_c c e : is_element O c e -> step_constraint O t m rho' c e.
Proof.
  intros Ie _ He. pose proof (nu_dh c e) as N. destruct (o_step_eq O); try exact I.
  all: try (apply N; [exact I|assumption|assumption]).
  all: apply relaxed_of; rewrite rsum_cons, rsum_nil; try ring.
  all: rewrite Rplus_0_r; apply N; [exact I|assumption|assumption].
Qed.

Lemma algebra c e : is_element O c e -> stage_algebra O t m rho' c e.
Proof.
  intros Ie j Hj. split; [|split].
  - intros s k Hs Hk. unfold switching_residual, n_switching in *. rewrite Ep in *.
    rewrite (switch_agrees m _ (at_state m rho p c e (tau j)) s k SU) by (apply plain_switch, stage_at; assumption).
    unfold stage_point, at_point. cbn [rho']. unfold ml, sw, switch_at. set (x := switch_value m (at_state m rho p c e (tau j)) s k).
    unfold Rmax. destruct (Rle_dec 0 x), (Rle_dec 0 (- x)); lra.
  - intros E. rewrite Ep in E. discriminate.
  - intros x Hx. rewrite (proj1 (proj2 (proj2 PM))) in Hx. destruct Hx.
Qed.
Lemma bounds2 c e f j s i : is_element O c e -> j < o_ns O -> s < n_subsystems m -> i < dim2 O m f s ->
  within (lower2 O f) (upper2 f) (rho' (S2 f c e j s i)).
Proof.
  intros Ie Hj Hs Hi. unfold dim2 in Hi. rewrite Ep in Hi. destruct f; cbn [rho' lower2 upper2]; try lia; rewrite ?(lb_zero C rho ZR).
  - destruct (PS c e Ie) as (_ & A & _). destruct (A (tau j) (tau_in j Hj)) as [Cw _]. destruct (Cw s i Hs Hi) as [W0 W1].
    split; [rewrite Q2R_0; exact W0|rewrite Q2R_1; exact W1].
  - split; [rewrite Q2R_0; apply ml_nonneg|exact I].
  - split; [rewrite Q2R_0; apply ml_nonneg|exact I].
Qed.
Lemma exists_feasible_step : exists r, feasible r (the_nlp C) /\ same_data rho r /\
  (forall c e i, end_state O t r c e i = state p c e 1 i) /\
  (forall c e j i, is_element O c e -> j < o_ns O -> i < m_nx m -> stage_state O t r c e j i = state p c e (tau j) i) /\
  (forall c e j s k, r (S2 FAlpha c e j s k) = al c e (tau j) s k).
Proof.
  exists rho'. split; [|split; [exact data|split; [|split]]].
  - eapply (base_feasible lr cp d o m oc C H Ex WS rho rho' p th n tau NE SA Tf ZR PM PC GO PS0 (admissible_nodes _ _ _ _ _ _ _ SA AD) data); try reflexivity.
    + intros. unfold weight. rewrite Ep. reflexivity.
    + exact algebra.
    + exact cross.
    + exact step_c.
    + exact bounds2.
  - exact (end_at C rho' p tau SA (fun _ _ _ _ => eq_refl)).
  - intros c e j i Ie Hj Hi. apply (stage_state_at cp m C rho rho' p th n tau NE SA PS0 data (fun _ _ _ _ => eq_refl) (fun _ _ _ _ => eq_refl)); assumption.
  - reflexivity.
Qed.
End ExistStep.
