(* Picard3_proofs.v -- existence and uniqueness of the states of initial value problems that stay in one mode *)
From Coq Require Import Reals Lra Qreals.
From Verif Require Import Base Lib Sx Sx_proofs Utils Tableau Opts Model Ocp Problem Spec Tableau_proofs Poly_proofs Fesd Dcs_proofs Elem_proofs Mode_proofs Spec2 Spec3 Spec9 Spec10 Spec11 Spec21 Spec36 Spec37
  Feas_proofs Feas2_proofs Filippov3_proofs Exact_proofs ExistBase_proofs Exist_proofs Conv_proofs Conv2_proofs Hord1_proofs Picard_proofs Picard2_proofs.
Local Open Scope R_scope.

Section Statements.
Variables (lr : Q -> Q -> Q -> nat) (cp : nat -> scheme -> list Q) (d : ipopt_dict) (o : opts) (m : model) (oc : option ocp) (C : constructed) (rho : env).
Notation O := (the_opts C).
Notation t := (cn_tab C).
Notation pts := (cp (o_ns O) (o_scheme O)).
Variables (mode : nat -> nat) (r L M Lam : R).
Hypothesis FP : fesd_problem lr cp d o m oc C.
Hypothesis PO : points_ok cp O.
Hypothesis PI : points_inside cp O.
Hypothesis Sc : o_scheme O = RadauIIA.
Hypothesis Er : o_repr O = Integral.
Hypothesis Ep : o_pss O = Stewart.
Hypothesis ZR : zero_relaxation O rho.
Hypothesis PM : plain_model m.
Hypothesis RB : row_bound pts Lam.
Hypothesis MP : mode_problem O m rho mode r L M.
Hypothesis SS : short_steps O rho Lam r L M.

Lemma points_len : length pts = o_ns O. Proof. apply (PO Er). Qed.
Lemma points_distinct : distinct pts. Proof. destruct (PO Er) as (_ & D & _). exact (distinct_tail _ _ D). Qed.
Lemma stages_pos : (0 < o_ns O)%nat. Proof. destruct FP as (H & _). exact (Feas_proofs.ns_pos _ _ _ _ _ _ _ H). Qed.
Lemma elements_pos c : (c < o_N_stages O)%nat -> (0 < nfe_of O c)%nat. Proof. intros Hc. apply (nfe_pos_con _ _ _ _ _ _ _ FP c Hc). Qed.
Lemma times : exists tau, nodes_exact cp O t (o_ns O) tau /\ sampling O t tau /\ forall j, (j < o_ns O)%nat -> tau j = Q2R (nth j pts 0%Q).
Proof.
  destruct FP as (H & _). destruct (radau_nodes cp O t (t_made _ _ _ _ _ _ _ H) stages_pos Sc PO PI) as (tau & NE & SA & G). exists tau.
  unfold exact_degree in NE. rewrite Er in NE. split; [exact NE|]. split; [exact SA|]. intros j Hj. symmetry. apply (G Er). apply nth_error_nth'. rewrite points_len. exact Hj.
Qed.
Lemma mode_feasible : o_use_fesd O = true -> o_time_freezing O = false -> plain_ocp m (the_ocp oc) -> same_globals m rho -> exact_initial m rho -> grid_ok O m (the_ocp oc) rho ->
  ball_admissible O m (the_ocp oc) rho r -> even_steps O rho ->
  exists rs, feasible rs (the_nlp C) /\ same_data rho rs /\
    (forall c e j, is_element O c e -> (j < o_ns O)%nat -> close_to_start m rho r (stage_state O t rs c e j)) /\
    (forall c e j s k, rs (S2 FTheta c e j s k) = pure mode s k).
Proof.
  intros Hf Tf PC SG EI GO BA EV. destruct times as (tau & NE & SA & Et). destruct RB as (Lam0 & a & Ia & Ra).
  destruct (all_good O m rho mode r L M Lam pts a tau points_len points_distinct Et (proj2 (proj2 SA)) stages_pos elements_pos Ia Ra Lam0 MP SS) as (p & G).
  destruct FP as (H & Ex & WS).
  destruct (collocation_feasible lr cp d o m oc C H Ex WS rho p (fun _ _ _ => pure mode) (o_ns O) tau NE SA Ep Hf Tf ZR PM PC SG EI GO) as (rs & F & SD & _ & St & Th).
  - exact (solved O m rho mode r L M Lam pts tau points_len stages_pos MP p G).
  - exact (ball_kept O m (the_ocp oc) rho mode r M Lam tau p BA G).
  - exact (evened O m rho tau p _ EV).
  - exists rs. split; [exact F|]. split; [exact SD|]. split; [|exact Th].
    intros c e j Ie Hj i Hi. rewrite St by assumption. destruct (G c e Ie) as (_ & _ & D & _). apply (D j Hj i Hi).
Qed.

(* ---- uniqueness ---- *)
Lemma element_ind (Pr : nat -> nat -> Prop) : (forall c e, is_element O c e -> (forall c' e', before O c e = Some (c', e') -> Pr c' e') -> Pr c e) ->
  forall c e, is_element O c e -> Pr c e.
Proof.
  intros St. induction c as [c IHc] using (well_founded_induction lt_wf). induction e as [|e IHe]; intros Ie; apply St; try exact Ie; unfold before.
  - destruct c as [|c]; intros c' e' E; [discriminate E|]. injection E as <- <-. apply IHc; [lia|]. destruct Ie as [Hc _]. pose proof (elements_pos c ltac:(lia)). split; lia.
  - intros c' e' E. injection E as <- <-. apply IHe. destruct Ie. split; [assumption|lia].
Qed.
Hypothesis IN : initial_nonneg rho.
Hypothesis MS : mode_strict O m rho mode r.
Section Point.
Variable rs : env.
Hypothesis F : feasible rs (the_nlp C).
Hypothesis SD : same_data rho rs.
Hypothesis Cl : forall c e j, is_element O c e -> (j < o_ns O)%nat -> close_to_start m rho r (stage_state O t rs c e j).
Lemma zero_here : zero_relaxation O rs.
Proof. unfold zero_relaxation in *. destruct (o_mpcc O); try exact ZR; rewrite ?(SD SSigma), ?(SD SElastic); exact ZR. Qed.
Lemma initial_here : initial_nonneg rs.
Proof. intros f s k. rewrite (SD (SL00 f s k)). apply IN. Qed.
Lemma plain_here c x : plain_agree m (plain_point m rs c x) (plain_point m rho c x).
Proof. intros y Hy. destruct y; try contradiction; try reflexivity; first [exact (SD (SU _ _))|exact (SD (SPst _ _))|exact (SD (SVg _))]. Qed.
Lemma PF : plain_fields m.
Proof.
  destruct PM as (A & _ & _ & B & D). split; [exact A|]. split; [exact B|]. intros s e He y Hy. specialize (D s e He y Hy). destruct y; try contradiction; exact D.
Qed.
Lemma weight_here c e j s k : is_element O c e -> (j < o_ns O)%nat -> (s < n_subsystems m)%nat -> (k < n_modes m s)%nat ->
  weight O m (stage_point O t m rs c e j) s k = pure mode s k.
Proof.
  intros Ie Hj Hs Hk. destruct FP as (H & Ex & WS). destruct F as [FB FC]. pose proof (element_fe _ _ _ _ _ _ _ FP c e Ie) as Fe.
  pose proof (stewart_weights lr cp d o m oc C H Ex WS rs FB FC zero_here c e _ Fe Ep j Hj s Hs) as [W0 W1].
  set (w := weight O m (stage_point O t m rs c e j) s) in *.
  assert (Z : forall k, (k < n_modes m s)%nat -> k <> mode s -> w k = 0).
  { intros k' Hk' Ne. destruct (W0 k' Hk') as [P|P]; [exfalso|symmetry; exact P].
    pose proof (stewart_stage lr cp d o m oc C H Ex WS rs FB FC zero_here initial_here c e _ Fe Ep j s k' Hj Hs Hk' P) as S.
    destruct MP as (Mo & _). specialize (S (mode s) (Mo s Hs)).
    assert (PA : plain_agree m (stage_point O t m rs c e j) (plain_point m rho c (stage_state O t rs c e j)))
      by (intros y Hy; rewrite (stage_plain m O t rs c e j y Hy); apply plain_here; exact Hy).
    rewrite (region_plain m PF _ _ s k' PA), (region_plain m PF _ _ s (mode s) PA) in S.
    pose proof (MS c _ s k' (proj1 Ie) (Cl c e j Ie Hj) Hs Hk' Ne). lra. }
  unfold pure. destruct (k =? mode s)%nat eqn:E; [apply Nat.eqb_eq in E; subst k|apply Z; [exact Hk|apply Nat.eqb_neq, E]].
  rewrite <- W1. assert (G : forall n, (n <= n_modes m s)%nat -> rupto n w = if (mode s <? n)%nat then w (mode s) else 0).
  { induction n as [|n IHn]; intros Hn; [rewrite rupto_0; reflexivity|]. rewrite rupto_succ, IHn by lia.
    destruct (Nat.eq_dec n (mode s)) as [->|Ne].
    - rewrite Nat.ltb_irrefl. replace (mode s <? S (mode s))%nat with true by (symmetry; apply Nat.ltb_lt; lia). ring.
    - rewrite (Z n) by (try lia; assumption). destruct (mode s <? n)%nat eqn:E1, (mode s <? S n)%nat eqn:E3; rewrite ?Nat.ltb_lt, ?Nat.ltb_ge in *; try lia; ring. }
  rewrite G by lia. apply Nat.ltb_lt in Hk. rewrite Hk. reflexivity.
Qed.
Lemma rhs_here c e j i : is_element O c e -> (j < o_ns O)%nat ->
  speed O rs c * rhs O m (stage_point O t m rs c e j) i = velocity O m rho c (stage_state O t rs c e j) (pure mode) i.
Proof.
  intros Ie Hj. rewrite (rhs_plain m PF). unfold velocity. f_equal; [unfold speed; rewrite (SD (SSot c)); reflexivity|].
  rewrite (mixed_plain m PF _ (plain_point m rho c (stage_state O t rs c e j))) by apply plain_here.
  unfold mixed_field. apply rupto_ext. intros s Hs. apply rupto_ext. intros k Hk. rewrite weight_here by assumption. reflexivity.
Qed.
Lemma end_here c e i : end_state O t rs c e i = stage_state O t rs c e (o_ns O - 1) i.
Proof.
  destruct times as (tau & _ & (R & _) & _). unfold end_state, stage_state, points1. rewrite R, Er. reflexivity.
Qed.
Lemma stages_here a : integrates pts a -> forall c e j i, is_element O c e -> (j < o_ns O)%nat -> (i < m_nx m)%nat ->
  stage_state O t rs c e j i = stagev (o_ns O) a (start_state O t rs c e) (step_len O rho c e) (fun q i => velocity O m rho c (stage_state O t rs c e q) (pure mode) i) j i.
Proof.
  intros Ia c e j i Ie Hj Hi. destruct FP as (H & Ex & WS). destruct F as [FB FC]. pose proof (element_fe _ _ _ _ _ _ _ FP c e Ie) as Fe.
  destruct (method_rows cp (o_scheme O) (o_ns O)) as (A & b & MR).
  destruct (MR O t m rs c e (conj Er (conj eq_refl eq_refl)) (t_made _ _ _ _ _ _ _ H) PO stages_pos) as [Pq St].
  destruct (elem_all lr cp d o m oc C H Ex WS rs FC c e _ Fe) as (_ & Co & Cn & _).
  destruct (St Co Cn i Hi) as [Sj _]. specialize (Sj j Hj).
  assert (EA : forall q, (q < o_ns O)%nat -> A j q = a j q).
  { intros q Hq. destruct (hermite pts (o_ns O) points_distinct points_len) as (P & HP).
    destruct (HP 0 (fun k => if (k =? q)%nat then 1 else 0)) as (HL & _ & HD). set (U := P 0 (fun k => if (k =? q)%nat then 1 else 0)) in *.
    assert (Pick : forall w, rupto (o_ns O) (fun k => w k * peval (pder U) (Q2R (nth k pts 0%Q))) = w q).
    { intros w. rewrite (rupto_ext _ _ (fun k => if (k =? q)%nat then w q else 0)) by (intros k Hk; rewrite (HD k Hk); destruct (k =? q)%nat eqn:E; [apply Nat.eqb_eq in E; subst; ring|ring]).
      assert (G : forall n, rupto n (fun k => if (k =? q)%nat then w q else 0) = if (q <? n)%nat then w q else 0).
      { induction n as [|n IHn]; [rewrite rupto_0; reflexivity|]. rewrite rupto_succ, IHn.
        destruct (q <? n)%nat eqn:E1, (n =? q)%nat eqn:E2, (q <? S n)%nat eqn:E3; rewrite ?Nat.ltb_lt, ?Nat.ltb_ge, ?Nat.eqb_eq, ?Nat.eqb_neq in *; try lia; lra. }
      rewrite G. apply Nat.ltb_lt in Hq. rewrite Hq. reflexivity. }
    destruct (Pq U HL) as [PA _]. specialize (PA j Hj). rewrite (Pick (A j)) in PA.
    pose proof (quad_der (a j) (o_ns O) (o_ns O) (fun k => Q2R (nth k pts 0%Q)) (Q2R (nth j pts 0%Q))) as QD.
    specialize (QD ltac:(intros k Hk; pose proof (Ia j k) as E; rewrite points_len in E; apply E; assumption) U HL). cbv beta in QD. rewrite (Pick (a j)) in QD. lra. }
  unfold stagev. assert (SL : step_len O rs c e = step_len O rho c e) by (unfold step_len; rewrite (SD (SH c e)); reflexivity). rewrite SL in Sj.
  rewrite (rupto_ext _ _ (fun q => a j q * velocity O m rho c (stage_state O t rs c e q) (pure mode) i)) in Sj by (intros q Hq; rewrite (EA q Hq), rhs_here by assumption; reflexivity).
  lra.
Qed.
End Point.
Lemma stage_unique r1 r2 : feasible r1 (the_nlp C) -> same_data rho r1 -> feasible r2 (the_nlp C) -> same_data rho r2 ->
  (forall c e j, is_element O c e -> (j < o_ns O)%nat -> close_to_start m rho r (stage_state O t r1 c e j)) ->
  (forall c e j, is_element O c e -> (j < o_ns O)%nat -> close_to_start m rho r (stage_state O t r2 c e j)) ->
  forall c e j i, is_element O c e -> (j < o_ns O)%nat -> (i < m_nx m)%nat -> stage_state O t r1 c e j i = stage_state O t r2 c e j i.
Proof.
  intros F1 S1 F2 S2 C1 C2. destruct RB as (Lam0 & a & Ia & Ra). pose proof MP as (Mo & L0 & M0 & MH & FB & FL). pose proof SS as (SN & Sh & Tot).
  assert (LM : 0 <= Lam * M) by (apply Rmult_le_pos; assumption).
  assert (Ra' : forall j, (j < o_ns O)%nat -> rupto (o_ns O) (fun q => Rabs (a j q)) <= Lam) by (intros j Hj; pose proof (Ra j) as G; rewrite points_len in G; apply G, Hj).
  enough (G : forall c e, is_element O c e -> (forall j i, (j < o_ns O)%nat -> (i < m_nx m)%nat -> stage_state O t r1 c e j i = stage_state O t r2 c e j i) /\
    forall j i, (j < o_ns O)%nat -> (i < m_nx m)%nat -> Rabs (stage_state O t r1 c e j i - rho (SX0 i)) <= Lam * M * (grid_time O rho c e + step_len O rho c e))
    by (intros c e j i Ie Hj Hi; apply (G c e Ie); assumption).
  apply (element_ind (fun c e => _)). intros c e Ie IH. pose proof stages_pos as N0. set (h := step_len O rho c e) in *.
  assert (H0 : 0 <= h) by (apply SN; exact Ie). assert (Hc : (c < o_N_stages O)%nat) by (destruct Ie; assumption).
  assert (ST : forall i, (i < m_nx m)%nat -> start_state O t r1 c e i = start_state O t r2 c e i /\ Rabs (start_state O t r1 c e i - rho (SX0 i)) <= Lam * M * grid_time O rho c e).
  { intros i Hi. unfold start_state, state_at. destruct (before O c e) as [[c' e']|] eqn:B.
    - destruct (IH c' e' eq_refl) as [E Bd]. destruct (before_element O rho pts points_len stages_pos elements_pos c e c' e' Ie B) as [_ T].
      rewrite !end_here. split; [apply E; [lia|exact Hi]|]. rewrite <- T. apply Bd; [lia|exact Hi].
    - rewrite (S1 (SX0 i)), (S2 (SX0 i)). split; [reflexivity|]. unfold Rminus. rewrite Rplus_opp_r, Rabs_R0.
      pose proof (element_in_stage O rho SN c e Ie) as [T1 _]. pose proof (stage_in_horizon O rho SN c Hc) as [T2 _]. apply Rmult_le_pos; [exact LM|lra]. }
  pose proof (element_in_stage O rho SN c e Ie) as [_ T1]. pose proof (stage_in_horizon O rho SN c Hc) as [_ T2].
  assert (TT : Lam * M * (grid_time O rho c e + h) <= r) by (eapply Rle_trans; [|exact Tot]; apply Rmult_le_compat_l; [exact LM|unfold h; lra]).
  set (x := start_state O t r1 c e). set (Fv := fun y i => velocity O m rho c y (pure mode) i).
  set (V1 := fun q i => Fv (stage_state O t r1 c e q) i). set (V2 := fun q i => Fv (stage_state O t r2 c e q) i).
  assert (B1 : bounded_by (o_ns O) (m_nx m) M V1) by (intros j i Hj Hi; apply FB; [exact Hc|apply C1; assumption|exact Hi]).
  assert (B2 : bounded_by (o_ns O) (m_nx m) M V2) by (intros j i Hj Hi; apply FB; [exact Hc|apply C2; assumption|exact Hi]).
  assert (E1 : forall j i, (j < o_ns O)%nat -> (i < m_nx m)%nat -> stage_state O t r1 c e j i = stagev (o_ns O) a x h V1 j i) by (intros j i Hj Hi; apply (stages_here r1 F1 S1 C1 a Ia); assumption).
  assert (E2 : forall j i, (j < o_ns O)%nat -> (i < m_nx m)%nat -> stage_state O t r2 c e j i = stagev (o_ns O) a x h V2 j i).
  { intros j i Hj Hi. rewrite (stages_here r2 F2 S2 C2 a Ia) by assumption. unfold stagev, x. rewrite (proj1 (ST i Hi)). reflexivity. }
  assert (Near : forall i, (i < m_nx m)%nat -> Rabs (x i - rho (SX0 i)) + h * (Lam * M) <= r) by (intros i Hi; destruct (ST i Hi) as [_ X]; unfold x; lra).
  assert (Ext : forall y y' i, close_to_start m rho r y -> close_to_start m rho r y' -> (forall i, (i < m_nx m)%nat -> y i = y' i) -> (i < m_nx m)%nat -> Fv y i = Fv y' i).
  { intros y y' i By By' E Hi. assert (X : Rabs (Fv y i - Fv y' i) <= L * 0) by (apply FL; try assumption; intros i' Hi'; rewrite (E i' Hi'); unfold Rminus; rewrite Rplus_opp_r, Rabs_R0; lra).
    rewrite Rmult_0_r in X. destruct (Req_dec (Fv y i - Fv y' i) 0) as [Z|Z]; [lra|]. pose proof (Rabs_pos_lt _ Z). lra. }
  assert (Fx : forall V s, (forall j i, (j < o_ns O)%nat -> (i < m_nx m)%nat -> s j i = stagev (o_ns O) a x h V j i) -> (forall j, (j < o_ns O)%nat -> close_to_start m rho r (s j)) ->
    forall j i, (j < o_ns O)%nat -> (i < m_nx m)%nat -> Fv (s j) i = Fv (stagev (o_ns O) a x h V j) i).
  { intros V s E B j i Hj Hi. apply Ext; [apply B, Hj| |intros i' Hi'; apply E; assumption|exact Hi]. intros i' Hi'. rewrite <- (E j i' Hj Hi'). apply B; assumption. }
  assert (EV : forall j i, (j < o_ns O)%nat -> (i < m_nx m)%nat -> V1 j i = V2 j i).
  { apply (fixed_unique (o_ns O) (m_nx m) a Fv x (fun i => rho (SX0 i)) h r L M Lam); try assumption.
    - intros y y' dl By By' D i Hi. apply FL; assumption.
    - apply Sh. exact Ie.
    - intros j i Hj Hi. apply (Fx V1 (fun j => stage_state O t r1 c e j)); try assumption. intros j' Hj'. apply C1; assumption.
    - intros j i Hj Hi. apply (Fx V2 (fun j => stage_state O t r2 c e j)); try assumption. intros j' Hj'. apply C2; assumption. }
  split.
  - intros j i Hj Hi. rewrite (E1 j i Hj Hi), (E2 j i Hj Hi). unfold stagev. f_equal. f_equal. apply rupto_ext. intros q Hq. rewrite (EV q i Hq Hi). reflexivity.
  - intros j i Hj Hi. rewrite (E1 j i Hj Hi). pose proof (stage_near (o_ns O) (m_nx m) a x (fun i => rho (SX0 i)) h M Lam H0 Ra' V1 j i Hj Hi (fun q Hq => B1 q i Hq Hi)) as G. cbv beta in G.
    destruct (ST i Hi) as [_ X]. fold x in X. lra.
Qed.
End Statements.
