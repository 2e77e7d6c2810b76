(* Picard6_proofs.v -- the feasible point of an initial value problem that stays in one mode is unique in all variables *)
From Coq Require Import Reals Lra Qreals.
From Verif Require Import Base Lib Sx Sx_proofs Utils Tableau Opts Model Ocp Problem Spec Fesd Dcs_proofs Elem_proofs Spec2 Spec3 Spec9 Spec10 Spec11 Spec21 Spec36 Spec37
  Syms_proofs Results_proofs Feas_proofs Feas2_proofs Filippov3_proofs Exact_proofs ExistBase_proofs Conv_proofs Conv2_proofs Picard_proofs Picard2_proofs Picard3_proofs.
Local Open Scope R_scope.

Section Unique.
Variables (lr : Q -> Q -> Q -> nat) (cp : nat -> scheme -> list Q) (d : ipopt_dict) (o : opts) (m : model) (oc : option ocp) (C : constructed) (rho : env).
Notation O := (the_opts C).
Notation t := (cn_tab C).
Notation pts := (cp (o_ns O) (o_scheme O)).
Variables (mode : nat -> nat) (r L M Lam : R).
Hypothesis FP : fesd_problem lr cp d o m oc C.
Hypothesis PO : points_ok cp O.
Hypothesis PI : points_inside cp O.
Hypothesis Sc : o_scheme O = RadauIIA.
Hypothesis Er : o_repr O = Integral.
Hypothesis Ep : o_pss O = Stewart.
Hypothesis ZR : zero_relaxation O rho.
Hypothesis PM : plain_model m.
Hypothesis RB : row_bound pts Lam.
Hypothesis MP : mode_problem O m rho mode r L M.
Hypothesis SS : short_steps O rho Lam r L M.
Hypothesis IN : initial_nonneg rho.
Hypothesis MS : mode_strict O m rho mode r.
Section Point.
Variable rs : env.
Hypothesis F : feasible rs (the_nlp C).
Hypothesis SD : same_data rho rs.
Hypothesis Cl : forall c e j, is_element O c e -> (j < o_ns O)%nat -> close_to_start m rho r (stage_state O t rs c e j).
Lemma theta_here c e j s k : is_element O c e -> (j < o_ns O)%nat -> (s < n_subsystems m)%nat -> (k < n_modes m s)%nat -> rs (S2 FTheta c e j s k) = pure mode s k.
Proof.
  intros Ie Hj Hs Hk. pose proof (weight_here lr cp d o m oc C rho mode r L M FP Ep ZR PM MP IN MS rs F SD Cl c e j s k Ie Hj Hs Hk) as W. unfold weight in W. rewrite Ep in W. exact W.
Qed.
(* the multipliers are the region values relative to the one of the mode *)
Lemma lam_here c e j s k : is_element O c e -> (j < o_ns O)%nat -> (s < n_subsystems m)%nat -> (k < n_modes m s)%nat ->
  rs (S2 FLam c e j s k) = region_value m (plain_point m rho c (stage_state O t rs c e j)) s k - region_value m (plain_point m rho c (stage_state O t rs c e j)) s (mode s) /\
  rs (S2 FMu c e j s 0) = - region_value m (plain_point m rho c (stage_state O t rs c e j)) s (mode s).
Proof.
  intros Ie Hj Hs Hk. pose proof FP as (H & Ex & WS). destruct F as [FB FC]. pose proof (element_fe _ _ _ _ _ _ _ FP c e Ie) as Fe. pose proof (proj1 MP s Hs) as Hm.
  pose proof (theta_here c e j s (mode s) Ie Hj Hs Hm) as T. unfold pure in T. rewrite Nat.eqb_refl in T.
  assert (Z : rs (S2 FLam c e j s (mode s)) = 0).
  { rewrite <- (st_lam m C rs c e j s (mode s) Ep Hs Hm).
    apply (same_stage lr cp d o m oc C H Ex WS rs FB FC (zero_here C rho ZR rs SD) (initial_here rho IN rs SD) c e _ Fe j _ Hj (st_pairs m C rs s (mode s) Ep Hs Hm)).
    rewrite (st_theta m C rs c e j s (mode s) Ep Hs Hm), T. lra. }
  pose proof (stage_switching lr cp d o m oc C H Ex WS rs FC c e _ Fe j Hj) as Sw.
  assert (PA : plain_agree m (stage_point O t m rs c e j) (plain_point m rho c (stage_state O t rs c e j)))
    by (intros y Hy; rewrite (stage_plain m O t rs c e j y Hy); apply (plain_here m rho rs SD); exact Hy).
  assert (G : forall q, (q < n_modes m s)%nat -> region_value m (plain_point m rho c (stage_state O t rs c e j)) s q - rs (S2 FLam c e j s q) + rs (S2 FMu c e j s 0) = 0).
  { intros q Hq. specialize (Sw s q Hs). unfold n_switching, switching_residual in Sw. rewrite Ep in Sw. specialize (Sw Hq). rewrite (region_plain m (PF m PM) _ _ s q PA) in Sw. exact Sw. }
  pose proof (G k Hk). pose proof (G (mode s) Hm). split; lra.
Qed.
End Point.
Lemma point_unique r1 r2 : feasible r1 (the_nlp C) -> same_data rho r1 -> feasible r2 (the_nlp C) -> same_data rho r2 ->
  (forall c e j, is_element O c e -> (j < o_ns O)%nat -> close_to_start m rho r (stage_state O t r1 c e j)) ->
  (forall c e j, is_element O c e -> (j < o_ns O)%nat -> close_to_start m rho r (stage_state O t r2 c e j)) ->
  forall y, In y (w (the_nlp C)) -> r1 y = r2 y.
Proof.
  intros F1 S1' F2 S2' C1 C2 y Hy. pose proof FP as (H & _). apply (sym_in_w _ _ _ _ _ _ _ _ H) in Hy.
  assert (Eq : forall y, match y with S1 _ _ _ _ _ | S2 _ _ _ _ _ _ => True | _ => r1 y = r2 y end) by (intros z; specialize (S1' z); specialize (S2' z); destruct z; try exact Logic.I; congruence).
  pose proof (stage_unique lr cp d o m oc C rho mode r L M Lam FP PO PI Sc Er Ep ZR PM RB MP SS IN MS r1 r2 F1 S1' F2 S2' C1 C2) as St.
  destruct (times lr cp d o m oc C FP PO PI Sc Er) as (tau & _ & (Rb & _) & _).
  assert (Ag : forall c e j, is_element O c e -> (j < o_ns O)%nat -> plain_agree m (plain_point m rho c (stage_state O t r1 c e j)) (plain_point m rho c (stage_state O t r2 c e j))).
  { intros c e j Ie Hj z Hz. destruct z; try contradiction; try reflexivity. apply (St c e j _ Ie Hj Hz). }
  specialize (Eq y). destruct y; try exact Eq; cbn [in_range] in Hy.
  - destruct Hy as (He & Hj & Hi). apply elements_in in He. cbn [fst snd] in He. destruct f; cbn [points1 dim1] in *; try (rewrite Er in *); [| lia |destruct PM as (_ & N & _); rewrite N in Hi; lia].
    unfold explicit_end in Hj. rewrite Rb in Hj. specialize (St _ _ _ _ He Hj Hi). unfold stage_state in St. rewrite Er in St. exact St.
  - destruct Hy as (He & Hj & Hs & Hi). apply elements_in in He. change (is_element O ctrl fe) in He. unfold dim2 in Hi. rewrite Ep in Hi.
    assert (Hj' : (slot < o_ns O)%nat) by (unfold points2, explicit_end in Hj; rewrite Rb in Hj; rewrite Bool.andb_false_r in Hj; cbn in Hj; destruct f; lia).
    destruct f; try lia.
    + rewrite (theta_here r1 F1 S1' C1), (theta_here r2 F2 S2' C2) by assumption. reflexivity.
    + rewrite (proj1 (lam_here r1 F1 S1' C1 _ _ _ _ _ He Hj' Hs Hi)), (proj1 (lam_here r2 F2 S2' C2 _ _ _ _ _ He Hj' Hs Hi)).
      rewrite !(region_plain m (PF m PM) _ _ _ _ (Ag _ _ _ He Hj')). reflexivity.
    + assert (i = 0%nat) by lia. subst i. pose proof (proj1 MP _ Hs) as Hm.
      rewrite (proj2 (lam_here r1 F1 S1' C1 _ _ _ _ _ He Hj' Hs Hm)), (proj2 (lam_here r2 F2 S2' C2 _ _ _ _ _ He Hj' Hs Hm)).
      rewrite !(region_plain m (PF m PM) _ _ _ _ (Ag _ _ _ He Hj')). reflexivity.
Qed.
End Unique.
