(* Hord3_proofs.v -- the order of the discrete solutions that follow the pieces of a solution *)
From Coq Require Import Reals Qreals Lra Psatz.
From Verif Require Import Base Sx Utils Tableau Opts Model Ocp Problem Spec Cases Lib Sx_proofs Fe_proofs Prob_proofs Coll_proofs
  Body_proofs Model_proofs Con_proofs Index3_proofs Fesd Sem_proofs Dcs_proofs Point_proofs Elem_proofs Nlp_proofs
  Opts_proofs Tableau_proofs Poly_proofs Spec2 Feas_proofs Feas2_proofs Spec3 Numeric Mode_proofs Smooth_proofs Spec9 Spec10 Filippov_proofs
  Filippov2_proofs Filippov3_proofs Exact_proofs Exact2_proofs Spec11 ExistBase_proofs Spec20 Soft_proofs Spec21 Conv_proofs Conv2_proofs Conv3_proofs Conv4_proofs Spec28 Hord1_proofs Hord2_proofs.
Local Open Scope R_scope.

Lemma mixed_same m v th th' i : (forall s k, (s < n_subsystems m)%nat -> (k < n_modes m s)%nat -> th s k = th' s k) -> mixed_field m v th i = mixed_field m v th' i.
Proof. intros H. unfold mixed_field. apply rupto_ext. intros s Hs. apply rupto_ext. intros k Hk. rewrite (H s k Hs Hk). reflexivity. Qed.
Lemma curve_lipschitz o m rho D n Lf M B p : regular_piece o m rho D n Lf M B p -> forall a b i, pc_lo p <= a <= pc_hi p -> pc_lo p <= b <= pc_hi p -> (i < m_nx m)%nat ->
  Rabs (pc_curve p a i - pc_curve p b i) <= M * Rabs (a - b).
Proof.
  intros ((So & _) & _ & Bd).
  assert (G : forall a b i, pc_lo p <= a <= pc_hi p -> pc_lo p <= b <= pc_hi p -> a <= b -> (i < m_nx m)%nat -> Rabs (pc_curve p b i - pc_curve p a i) <= M * (b - a)).
  { intros a b i Ha Hb Hab Hi. apply (mvt_bound (fun z => pc_curve p z i) (fun z => flow o m rho p (pc_curve p z) i) a b M Hab).
    - intros x Hx. apply (So x ltac:(lra)), Hi.
    - intros x Hx. apply Bd; [apply (So x ltac:(lra))|exact Hi]. }
  intros a b i Ha Hb Hi. destruct (Rle_dec a b) as [H|H].
  - rewrite Rabs_minus_sym, (Rabs_left1 (a - b)) by lra. specialize (G a b i Ha Hb H Hi). lra.
  - rewrite (Rabs_pos_eq (a - b)) by lra. apply G; try assumption. lra.
Qed.

Section Con.
Variables (lr : Q -> Q -> Q -> nat) (cp : nat -> scheme -> list Q) (d : ipopt_dict) (o : opts) (m : model)
  (oc : option ocp) (C : constructed) (rho : env).
Hypothesis FP : fesd_problem lr cp d o m oc C.
Hypothesis FE : feasible rho (the_nlp C).
Notation O := (the_opts C).
Notation t := (cn_tab C).
Hypothesis PO : points_ok cp O.
Hypothesis PI : points_inside cp O.
Hypothesis PF : plain_fields m.
Variables (sc : scheme) (n : nat).
Hypothesis Me : method Integral sc n O.
Variables (A : nat -> nat -> R) (b : nat -> R) (K : R).
Hypothesis Rows : forall o t m rho c e, method Integral sc n o -> make_tab cp o = Ok t -> points_ok cp o ->
  (0 < n)%nat ->
  (forall q, (length q <= S n)%nat ->
     (forall j, (j < n)%nat -> peval q (Q2R (nth j (cp n sc) 0%Q)) - peval q 0 = rupto n (fun k => A j k * peval (pder q) (Q2R (nth k (cp n sc) 0%Q)))) /\
     peval q 1 - peval q 0 = rupto n (fun k => b k * peval (pder q) (Q2R (nth k (cp n sc) 0%Q)))) /\
  (collocation o t m rho c e -> continuity o t m rho c e -> forall i, (i < m_nx m)%nat ->
     (forall j, (j < n)%nat -> stage_state o t rho c e j i - start_state o t rho c e i =
        step_len o rho c e * rupto n (fun k => A j k * (speed o rho c * rhs o m (stage_point o t m rho c e k) i))) /\
     end_state o t rho c e i - start_state o t rho c e i =
        step_len o rho c e * rupto n (fun k => b k * (speed o rho c * rhs o m (stage_point o t m rho c e k) i))).
Hypothesis K0 : 0 <= K.
Hypothesis HA : forall j, (j < n)%nat -> rupto n (fun k => Rabs (A j k)) <= K.
Hypothesis Hb : rupto n (fun k => Rabs (b k)) <= K.
Variables (D : (nat -> R) -> Prop) (Lf M B : R).
Hypothesis L0 : 0 <= Lf. Hypothesis M0 : 0 <= M. Hypothesis B0 : 0 <= B.

Lemma ns_is : o_ns O = n. Proof. destruct Me as (_ & _ & E). exact E. Qed.
Lemma n_positive : (0 < n)%nat. Proof. rewrite <- ns_is. destruct FP as (H & _). exact (Feas_proofs.ns_pos _ _ _ _ _ _ _ H). Qed.

Lemma one_element p c e E : is_element O c e -> regular_piece O m rho D n Lf M B p -> in_piece O t m rho D p c e -> 0 <= step_len O rho c e ->
  K * Lf * step_len O rho c e <= / 2 -> 0 <= E ->
  (forall i, (i < m_nx m)%nat -> Rabs (start_state O t rho c e i - pc_curve p (grid_time O rho c e) i) <= E) ->
  forall i, (i < m_nx m)%nat -> Rabs (end_state O t rho c e i - pc_curve p (grid_time O rho c e + step_len O rho c e) i) <=
    (1 + 2 * K * Lf * step_len O rho c e) * E + 2 * ((1 + K) * B * (step_len O rho c e * step_len O rho c e ^ n)).
Proof.
  intros He ((So & Sm) & Li & _) (Ec & Lo & Hi' & St) h0 Hs E0 HE.
  set (h := step_len O rho c e) in *. set (gt := grid_time O rho c e) in *. pose proof n_positive as n0. destruct Me as (E1 & E2 & E3).
  pose proof FP as (H & E' & W). pose proof FE as [F1 F2].
  destruct (elem_all _ _ _ _ _ _ _ H E' W rho F2 c e _ (element_fe _ _ _ _ _ _ _ FP c e He)) as (_ & Co & Cn & _).
  destruct (Rows O t m rho c e Me (t_made _ _ _ _ _ _ _ H) PO n0) as [PA RW]. specialize (RW Co Cn).
  set (tau := fun j => Q2R (nth j (cp n sc) 0%Q)).
  assert (Lp : length (cp n sc) = n) by (destruct (PO E1) as (Lp & _); rewrite E2, E3 in Lp; exact Lp).
  assert (Htau : forall j, (j < n)%nat -> 0 <= tau j <= 1).
  { intros j Hj. assert (I : In (nth j (cp n sc) 0%Q) (cp (o_ns O) (o_scheme O))) by (rewrite E2, E3; apply nth_In; lia).
    destruct (PI _ I) as [P Q]. apply Qle_Rle in P, Q. rewrite RMicromega.Q2R_0 in P. rewrite RMicromega.Q2R_1 in Q. split; assumption. }
  set (F := fun k i => speed O rho c * rhs O m (stage_point O t m rho c e k) i).
  assert (FF : forall k i, (k < n)%nat -> F k i = flow O m rho p (stage_state O t rho c e k) i).
  { intros k i Hk. unfold F, flow, velocity. rewrite (rhs_plain m PF), <- Ec. f_equal. apply mixed_same. apply (St k ltac:(lia)). }
  assert (dom : forall s, 0 <= s <= h -> pc_lo p <= gt + s <= pc_hi p) by (intros s Hs'; lra).
  assert (hs : forall k, (k < n)%nat -> 0 <= h * tau k <= h) by (intros k Hk; specialize (Htau k Hk); split; [apply Rmult_le_pos; lra|nra]).
  set (G := fun k i => flow O m rho p (pc_curve p (gt + h * tau k)) i).
  assert (Df : forall i, (i < m_nx m)%nat ->
    (forall j, (j < n)%nat -> Rabs (pc_curve p (gt + h * tau j) i - pc_curve p gt i - h * rupto n (fun k => A j k * G k i)) <= (1 + K) * B * (h * h ^ n)) /\
    Rabs (pc_curve p (gt + h) i - pc_curve p gt i - h * rupto n (fun k => b k * G k i)) <= (1 + K) * B * (h * h ^ n)).
  { intros i Hi. destruct (taylor n B (pc_lo p) (pc_hi p) (fun z => pc_curve p z i) gt (fun z => flow O m rho p (pc_curve p z) i) (Sm i Hi)) as (q & Lq & Tq); [lra| |].
    { intros x Hx. apply (So x Hx), Hi. }
    apply (defect n A b tau K n0 HA Hb Htau PA B h (pc_curve p gt i) (fun s => pc_curve p (gt + s) i) (fun s => flow O m rho p (pc_curve p (gt + s)) i) q B0 h0 Lq).
    - rewrite Rplus_0_r. reflexivity.
    - intros s Hs'. apply Tq; [apply Hs'|]. apply (dom s Hs'). }
  apply (element_error n (m_nx m) A b K n0 K0 HA Hb Lf E h ((1 + K) * B * (h * h ^ n)) (start_state O t rho c e) (end_state O t rho c e)
    (pc_curve p gt) (pc_curve p (gt + h)) (stage_state O t rho c e) (fun j => pc_curve p (gt + h * tau j)) F G L0 E0 h0); try assumption.
  - repeat apply Rmult_le_pos; try lra; try apply pow_le; lra.
  - intros j i Hj Hi. apply (RW i Hi), Hj.
  - intros i Hi. apply (RW i Hi).
  - intros j i Hj Hi. apply (Df i Hi), Hj.
  - intros i Hi. apply (Df i Hi).
  - intros j dd Hj Hd i Hi. rewrite (FF j i Hj). unfold G. apply (Li _ _ dd); [apply (St j ltac:(lia))|apply (So _ (dom _ (hs j Hj)))|exact Hd|exact Hi].
Qed.

Variables (h Lpsi kappa : R) (P : nat -> piece) (last : nat) (ph : nat -> nat -> nat) (Y : R -> nat -> R).
Hypothesis Hh : steps_upto O rho h.
Hypothesis Hs : K * Lf * h <= / 2.
Hypothesis Lp0 : 0 <= Lpsi. Hypothesis kp : 0 < kappa.
Hypothesis Reg : forall r, (r <= last)%nat -> regular_piece O m rho D n Lf M B (P r).
Hypothesis Fo : follows O t m rho D Lpsi kappa P last ph.
Hypothesis CY : consists_of O m rho Y P last.

Notation N := (upto (o_N_stages O) (nfe_of O)).
Notation wk := (walk O).
Lemma NP c : (c < o_N_stages O)%nat -> (0 < nfe_of O c)%nat. Proof. intros Hc. apply (nfe_pos_con _ _ _ _ _ _ _ FP c Hc). Qed.
Lemma NS0 : (0 < o_N_stages O)%nat. Proof. exact (N_pos _ _ _ _ _ _ _ FP). Qed.
Definition tk (k : nat) : R := ts O rho k.
Definition xk (k : nat) : nat -> R := match k with 0%nat => fun i => rho (SX0 i) | S k' => end_state O t rho (fst (wk k')) (snd (wk k')) end.
Definition pk (k : nat) : nat := ph (fst (wk k)) (snd (wk k)).
Definition ga : R := Lpsi / kappa.
Definition gG : R := 1 + 2 * M * ga.
Lemma Nel k : (k < N)%nat -> is_element O (fst (wk k)) (snd (wk k)). Proof. exact (walk_element O NP k). Qed.
Lemma xk_start k : (k < N)%nat -> forall i, xk k i = start_state O t rho (fst (wk k)) (snd (wk k)) i.
Proof.
  intros Hk i. destruct k as [|k]; [reflexivity|]. unfold start_state. rewrite (walk_before O NP k ltac:(lia)). cbn [xk state_at]. destruct (wk k); reflexivity.
Qed.
Lemma ga0 : 0 <= ga. Proof. unfold ga. apply Rmult_le_pos; [exact Lp0|]. left. apply Rinv_0_lt_compat, kp. Qed.
Lemma gG1 : 1 <= gG. Proof. unfold gG. pose proof ga0. assert (0 <= 2 * M * ga) by (apply Rmult_le_pos; [lra|assumption]). lra. Qed.
Lemma tk_next k : (k < N)%nat -> tk (S k) = tk k + step_len O rho (fst (wk k)) (snd (wk k)). Proof. intros Hk. apply ts_next; [exact NP|exact Hk]. Qed.
Lemma tk_mono k : (k < N)%nat -> tk k <= tk (S k). Proof. intros Hk. rewrite (tk_next k Hk). pose proof (Hh _ _ (Nel k Hk)). lra. Qed.
Lemma pk0 : (0 < N)%nat -> pk 0 = 0%nat. Proof. intros Hk. destruct (proj1 Fo _ _ (Nel 0 Hk)) as (_ & _ & _ & Q). exact Q. Qed.
Lemma N0' : (0 < N)%nat. Proof. exact (Conv2_proofs.n_pos O NP NS0). Qed.
Lemma pk_last k : (k < N)%nat -> (pk k <= last)%nat. Proof. intros Hk. apply (proj1 Fo _ _ (Nel k Hk)). Qed.
Lemma start_ok i : (i < m_nx m)%nat -> xk 0 i = pc_curve (P 0%nat) 0 i.
Proof.
  intros Hi. cbn [xk]. destruct CY as (S0 & Y0 & _ & Pc). rewrite <- (Y0 i Hi). destruct (Pc 0%nat (Nat.le_0_l _)) as (P1 & _ & _ & P2). rewrite <- (P2 0 i); [reflexivity| |exact Hi].
  rewrite S0 in *. lra.
Qed.
Lemma element_ok k E : (k < N)%nat -> 0 <= E -> (forall i, (i < m_nx m)%nat -> Rabs (xk k i - pc_curve (P (pk k)) (tk k) i) <= E) ->
  forall i, (i < m_nx m)%nat -> Rabs (xk (S k) i - pc_curve (P (pk k)) (tk (S k)) i) <= (1 + 2 * K * Lf * (tk (S k) - tk k)) * E + 2 * (1 + K) * B * (tk (S k) - tk k) * h ^ n.
Proof.
  intros Hk E0 HE i Hi. rewrite (tk_next k Hk). replace (tk k + step_len O rho (fst (wk k)) (snd (wk k)) - tk k) with (step_len O rho (fst (wk k)) (snd (wk k))) by ring.
  destruct (proj1 Fo _ _ (Nel k Hk)) as (Pl & IP & _). destruct (Hh _ _ (Nel k Hk)) as [h0 h1]. set (hk := step_len O rho (fst (wk k)) (snd (wk k))) in *.
  assert (KL : 0 <= K * Lf) by (apply Rmult_le_pos; assumption).
  pose proof (one_element (P (pk k)) _ _ E (Nel k Hk) (Reg _ Pl) IP h0) as Q. fold hk in Q. cbn [xk]. eapply Rle_trans; [apply Q; try assumption|].
  - assert (K * Lf * hk <= K * Lf * h) by (apply Rmult_le_compat_l; assumption). lra.
  - intros i' Hi'. rewrite <- (xk_start k Hk). exact (HE i' Hi').
  - apply Rplus_le_compat_l. assert (Pw : hk ^ n <= h ^ n) by (apply pow_incr; lra).
    assert (Z : 0 <= 2 * (1 + K) * B * hk) by (repeat apply Rmult_le_pos; lra). apply (Rmult_le_compat_l _ _ _ Z) in Pw. lra.
Qed.
Lemma switch_ok k : (S k < N)%nat -> pk (S k) = pk k \/ (pk (S k) = S (pk k) /\ forall E, 0 <= E -> (forall i, (i < m_nx m)%nat -> Rabs (xk (S k) i - pc_curve (P (pk k)) (tk (S k)) i) <= E) ->
  Rabs (tk (S k) - pc_start (P (pk (S k)))) <= ga * E /\ forall i, (i < m_nx m)%nat -> Rabs (xk (S k) i - pc_curve (P (pk (S k))) (tk (S k)) i) <= gG * E).
Proof.
  intros Hk. destruct (proj1 Fo _ _ (Nel (S k) Hk)) as (Pl & IP & _ & Q). destruct (proj1 Fo _ _ (Nel k ltac:(lia))) as (Pl' & IP' & De & _). rewrite (walk_before O NP k ltac:(lia)) in Q.
  fold (pk (S k)) in Q, Pl, IP. destruct (wk k) as [c' e'] eqn:Ew. assert (Ep : ph c' e' = pk k) by (unfold pk; rewrite Ew; reflexivity). cbn [fst snd] in *. rewrite Ep in *.
  destruct Q as [Q|[Q Go]]; [left; exact Q|]. right. split; [exact Q|]. intros E E0 HE.
  destruct CY as (_ & _ & J & _). destruct (J (pk k) ltac:(lia)) as (J1 & J2 & J3). rewrite <- Q in J1, J2, J3.
  assert (Dp : pc_lo (P (pk k)) <= tk (S k) <= pc_hi (P (pk k))).
  { rewrite (tk_next k ltac:(lia)). unfold tk, ts. rewrite Ew. cbn [fst snd]. destruct IP' as (_ & A1 & A2 & _). pose proof (Hh c' e' ltac:(pose proof (Nel k ltac:(lia)) as W; rewrite Ew in W; exact W)). lra. }
  assert (Dq : pc_lo (P (pk (S k))) <= tk (S k) <= pc_hi (P (pk (S k)))).
  { destruct IP as (_ & A1 & A2 & _). pose proof (Hh _ _ (Nel (S k) Hk)). change (tk (S k)) with (grid_time O rho (fst (wk (S k))) (snd (wk (S k)))). lra. }
  assert (Tm : Rabs (tk (S k) - pc_start (P (pk (S k)))) <= ga * E).
  { destruct Go as [Go|[[Cr Li] Z]].
    - change (tk (S k)) with (grid_time O rho (fst (wk (S k))) (snd (wk (S k)))). rewrite Go. replace (pc_start (P (pk (S k))) - pc_start (P (pk (S k)))) with 0 by ring.
      rewrite Rabs_R0. apply Rmult_le_pos; [exact ga0|exact E0].
    - specialize (Cr (tk (S k)) Dp).
      assert (Z' : pc_switch (P (pk (S k))) (xk (S k)) = 0).
      { rewrite <- Z. f_equal. unfold start_state. rewrite (walk_before O NP k ltac:(lia)), Ew. cbn [xk state_at]. rewrite Ew. cbn [fst snd]. reflexivity. }
      assert (Dx : D (xk (S k))) by (cbn [xk]; rewrite Ew; exact De).
      pose proof (Li (pc_curve (P (pk k)) (tk (S k))) (xk (S k)) E ltac:(apply (proj1 (proj1 (Reg _ Pl'))), Dp) Dx ltac:(intros i Hi; rewrite Rabs_minus_sym; apply HE, Hi)) as L.
      rewrite Z', Rminus_0_r in L. apply (Rmult_le_reg_l kappa); [exact kp|]. eapply Rle_trans; [exact Cr|]. eapply Rle_trans; [exact L|]. unfold ga. right. field. lra. }
  split; [exact Tm|]. intros i Hi.
  pose proof (curve_lipschitz _ _ _ _ _ _ _ _ _ (Reg _ Pl') (tk (S k)) (pc_start (P (pk (S k)))) i Dp J1 Hi) as Q1.
  pose proof (curve_lipschitz _ _ _ _ _ _ _ _ _ (Reg _ Pl) (tk (S k)) (pc_start (P (pk (S k)))) i Dq J2 Hi) as Q2. rewrite (J3 i Hi) in Q1.
  apply (Rmult_le_compat_l M _ _ M0) in Tm. specialize (HE i Hi). unfold gG.
  set (z := pc_curve (P (pk (S k))) (pc_start (P (pk (S k)))) i) in *.
  replace (xk (S k) i - pc_curve (P (pk (S k))) (tk (S k)) i) with ((xk (S k) i - pc_curve (P (pk k)) (tk (S k)) i) + (pc_curve (P (pk k)) (tk (S k)) i - z) + (z - pc_curve (P (pk (S k))) (tk (S k)) i)) by ring.
  eapply Rle_trans; [apply Rabs_triang|]. rewrite (Rabs_minus_sym z). eapply Rle_trans; [apply Rplus_le_compat_r, Rabs_triang|]. lra.
Qed.

(* Y is Lipschitz *)
Lemma Y_lip : forall r, (r <= last)%nat -> forall r' z z' i, (r <= r' <= last)%nat -> pc_start (P r) <= z <= piece_end O rho P last r -> pc_start (P r') <= z' <= piece_end O rho P last r' ->
  z <= z' -> (i < m_nx m)%nat -> Rabs (Y z' i - Y z i) <= M * (z' - z).
Proof.
  destruct CY as (_ & _ & J & Pc). intros r Hr r' z z' i [Hl Hr']. revert z'. induction Hl as [|r' Hl IH]; intros z' Hz Hz' Hzz Hi.
  - destruct (Pc r Hr) as (A1 & A2 & A3 & A4). rewrite (A4 z i Hz Hi), (A4 z' i Hz' Hi).
    pose proof (curve_lipschitz _ _ _ _ _ _ _ _ _ (Reg r Hr) z' z i ltac:(lra) ltac:(lra) Hi) as Q. rewrite (Rabs_pos_eq (z' - z)) in Q by lra. exact Q.
  - specialize (IH ltac:(lia)). destruct (Pc r' ltac:(lia)) as (B1 & _). destruct (Pc (S r') Hr') as (A1 & A2 & A3 & A4).
    assert (Eq : piece_end O rho P last r' = pc_start (P (S r'))) by (unfold piece_end; replace (r' =? last)%nat with false by (symmetry; apply Nat.eqb_neq; lia); reflexivity).
    rewrite Eq in *. set (zs := pc_start (P (S r'))) in *. destruct (Rle_dec z zs) as [Hzs|Hzs].
    + specialize (IH zs Hz ltac:(lra) Hzs Hi).
      rewrite (A4 z' i Hz' Hi). rewrite (A4 zs i ltac:(lra) Hi) in IH.
      pose proof (curve_lipschitz _ _ _ _ _ _ _ _ _ (Reg (S r') Hr') z' zs i ltac:(lra) ltac:(lra) Hi) as Q. rewrite (Rabs_pos_eq (z' - zs)) in Q by lra.
      replace (pc_curve (P (S r')) z' i - Y z i) with ((pc_curve (P (S r')) z' i - pc_curve (P (S r')) zs i) + (pc_curve (P (S r')) zs i - Y z i)) by ring.
      eapply Rle_trans; [apply Rabs_triang|]. lra.
    + exfalso. apply Hzs. clear - Hz Hl Pc Hr Hr' Eq B1. subst zs.
      assert (G : forall r1, (r <= r1)%nat -> (S r1 <= last)%nat -> piece_end O rho P last r <= pc_start (P (S r1))).
      { induction 1 as [|r1 Hr1 IHr]; intros H1.
        - unfold piece_end. replace (r =? last)%nat with false by (symmetry; apply Nat.eqb_neq; lia). lra.
        - specialize (IHr ltac:(lia)). destruct (Pc (S r1) ltac:(lia)) as (Q & _). unfold piece_end in Q at 1. replace (S r1 =? last)%nat with false in Q by (symmetry; apply Nat.eqb_neq; lia). lra. }
      specialize (G r' Hl Hr'). lra.
Qed.
Lemma locate_piece z : 0 <= z <= end_time O rho -> exists r, (r <= last)%nat /\ pc_start (P r) <= z <= piece_end O rho P last r.
Proof.
  intros Hz. destruct CY as (S0 & _ & _ & Pc).
  assert (G : forall k, (k <= last)%nat -> (exists r, (r <= k)%nat /\ (r < k)%nat /\ pc_start (P r) <= z <= piece_end O rho P last r) \/ pc_start (P k) <= z).
  { induction k as [|k IH]; intros Hk; [right; lra|]. destruct (IH ltac:(lia)) as [(r & A1 & A2 & A3)|Q]; [left; exists r; repeat split; try lia; apply A3|].
    destruct (Rle_dec (pc_start (P (S k))) z) as [Hl|Hl]; [right; exact Hl|]. left. exists k. split; [lia|]. split; [lia|]. unfold piece_end.
    replace (k =? last)%nat with false by (symmetry; apply Nat.eqb_neq; lia). lra. }
  destruct (G last (le_n _)) as [(r & A1 & _ & A2)|Q]; [exists r; split; assumption|]. exists last. split; [lia|]. unfold piece_end. rewrite Nat.eqb_refl. lra.
Qed.
Lemma Y_lipschitz z z' i : 0 <= z <= end_time O rho -> 0 <= z' <= end_time O rho -> (i < m_nx m)%nat -> Rabs (Y z i - Y z' i) <= M * Rabs (z - z').
Proof.
  assert (G : forall z z', 0 <= z <= end_time O rho -> 0 <= z' <= end_time O rho -> (i < m_nx m)%nat -> z <= z' -> Rabs (Y z' i - Y z i) <= M * (z' - z)).
  { intros a a' Ha Ha' Hi Hl. destruct (locate_piece a Ha) as (r & R1 & R2). destruct (locate_piece a' Ha') as (r' & R1' & R2').
    destruct (Nat.le_gt_cases r r') as [Hr|Hr]; [apply (Y_lip r R1 r'); try assumption; lia|].
    (* then both are the same time *)
    assert (a = a') as ->; [|replace (Y a' i - Y a' i) with 0 by ring; rewrite Rabs_R0; lra].
    assert (Q : piece_end O rho P last r' <= pc_start (P r)); [|lra]. clear - CY Hr R1. destruct CY as (_ & _ & _ & Pc). induction Hr as [|r Hr IH].
    - unfold piece_end. replace (r' =? last)%nat with false by (symmetry; apply Nat.eqb_neq; lia). lra.
    - specialize (IH ltac:(lia)). destruct (Pc r ltac:(lia)) as (Q & _). unfold piece_end in Q at 1. replace (r =? last)%nat with false in Q by (symmetry; apply Nat.eqb_neq; lia). lra. }
  intros Hz Hz' Hi. destruct (Rle_dec z z') as [H|H].
  - rewrite Rabs_minus_sym, (Rabs_left1 (z - z')) by lra. specialize (G z z' Hz Hz' Hi H). lra.
  - rewrite (Rabs_pos_eq (z - z')) by lra. apply G; try assumption. lra.
Qed.

Definition bound_at : R := gG ^ last * exp (2 * K * Lf * end_time O rho) * (2 * (1 + K) * B * end_time O rho * h ^ n).
Lemma level_bound k : (k < N)%nat -> level (2 * K * Lf) (2 * (1 + K) * B) gG (h ^ n) (pk k) (tk (S k)) <= bound_at.
Proof.
  intros Hk. assert (h0 : 0 <= h) by (pose proof (Hh _ _ (Nel k Hk)); lra).
  change bound_at with (level (2 * K * Lf) (2 * (1 + K) * B) gG (h ^ n) last (end_time O rho)).
  assert (TE : tk (S k) <= end_time O rho).
  { rewrite <- (ts_end O rho NP). apply (tt_le N tk tk_mono (S k) N); lia. }
  apply level_mono; [repeat apply Rmult_le_pos; lra|repeat apply Rmult_le_pos; lra|apply pow_le, h0|exact gG1|apply pk_last, Hk|].
  split; [|exact TE]. pose proof (times N tk (ts_0 O rho) tk_mono (S k) ltac:(lia)). assumption.
Qed.
Lemma bound_nonneg : 0 <= bound_at.
Proof.
  eapply Rle_trans; [|apply (level_bound 0 N0')]. assert (h0 : 0 <= h) by (pose proof (Hh _ _ (Nel 0 N0')); lra).
  apply level_nonneg; [repeat apply Rmult_le_pos; lra|apply pow_le, h0|exact gG1|]. apply (times N tk (ts_0 O rho) tk_mono 1). pose proof N0'. lia.
Qed.

Lemma discrete_order :
  (forall c e i, is_element O c e -> (i < m_nx m)%nat -> Rabs (end_state O t rho c e i - Y (grid_time O rho c e + step_len O rho c e) i) <= gG * bound_at) /\
  (forall c e, is_element O c e -> (0 < ph c e)%nat -> (forall c' e', before O c e = Some (c', e') -> ph c' e' <> ph c e) -> Rabs (grid_time O rho c e - pc_start (P (ph c e))) <= ga * bound_at).
Proof.
  assert (h0 : 0 <= h) by (pose proof (Hh _ _ (Nel 0 N0')); lra).
  assert (a0 : 0 <= 2 * K * Lf) by (repeat apply Rmult_le_pos; lra). assert (b0 : 0 <= 2 * (1 + K) * B) by (repeat apply Rmult_le_pos; lra).
  pose proof (pow_le h n h0) as hn0. pose proof (pk0 N0') as P0. pose proof ga0 as g0. pose proof gG1 as G1. pose proof bound_nonneg as BN.
  assert (EL : forall k E, (k < N)%nat -> 0 <= E -> (forall i, (i < m_nx m)%nat -> Rabs (xk k i - pc_curve (P (pk k)) (tk k) i) <= E) ->
    forall i, (i < m_nx m)%nat -> Rabs (xk (S k) i - pc_curve (P (pk k)) (tk (S k)) i) <= (1 + 2 * K * Lf * (tk (S k) - tk k)) * E + 2 * (1 + K) * B * (tk (S k) - tk k) * h ^ n) by exact element_ok.
  pose proof (switch_errors N (m_nx m) tk pk xk (fun r => pc_curve (P r)) (fun r => pc_start (P r)) (2 * K * Lf) (2 * (1 + K) * B) ga gG (h ^ n) a0 b0 hn0 G1 (ts_0 O rho) tk_mono P0 start_ok EL switch_ok) as SE.
  assert (SB : forall k, (S k < N)%nat -> ga * level (2 * K * Lf) (2 * (1 + K) * B) gG (h ^ n) (pk k) (tk (S k)) <= ga * bound_at).
  { intros k Hk. apply Rmult_le_compat_l; [exact g0|]. apply level_bound. lia. }
  split.
  - intros c e i He Hi. destruct (element_walk O NP c e He) as (k & Hk & Ek).
    pose proof (end_errors N (m_nx m) tk pk xk (fun r => pc_curve (P r)) (fun r => pc_start (P r)) (2 * K * Lf) (2 * (1 + K) * B) ga gG (h ^ n) a0 b0 hn0 G1 (ts_0 O rho) tk_mono P0 start_ok EL switch_ok k Hk i Hi) as EE.
    pose proof (level_bound k Hk) as LB. cbn [xk] in EE. rewrite Ek in EE. cbn [fst snd] in EE.
    assert (Tn : tk (S k) = grid_time O rho c e + step_len O rho c e) by (rewrite (tk_next k Hk); unfold tk, ts; rewrite Ek; reflexivity).
    rewrite <- Tn. set (z := tk (S k)) in *. set (r := pk k) in *. assert (Hr : (r <= last)%nat) by apply pk_last, Hk.
    assert (z0 : 0 <= z) by (apply (times N tk (ts_0 O rho) tk_mono (S k)); lia).
    assert (zT : z <= end_time O rho) by (rewrite <- (ts_end O rho NP); apply (tt_le N tk tk_mono (S k) N); lia).
    destruct (proj1 Fo _ _ (Nel k Hk)) as (_ & (_ & Dl & Dh & _) & _). fold (pk k) in Dl, Dh. fold r in Dl, Dh. pose proof (Hh _ _ (Nel k Hk)) as Hhk. rewrite Ek in Dl, Dh, Hhk. cbn [fst snd] in Dl, Dh, Hhk.
    assert (Dz : pc_lo (P r) <= z <= pc_hi (P r)) by lra.
    pose proof CY as (S0 & _ & J & Pc). destruct (Pc r Hr) as (B1 & B2 & B3 & B4).
    (* distance of the piece from Y *)
    assert (Far : forall zs, 0 <= zs <= end_time O rho -> pc_lo (P r) <= zs <= pc_hi (P r) -> Y zs i = pc_curve (P r) zs i -> Rabs (z - zs) <= ga * bound_at ->
      Rabs (pc_curve (P r) z i - Y z i) <= 2 * M * ga * bound_at).
    { intros zs Hzs Dzs Ez Hd. pose proof (Y_lipschitz zs z i Hzs ltac:(lra) Hi) as Q1. rewrite Ez, (Rabs_minus_sym zs z) in Q1.
      pose proof (curve_lipschitz _ _ _ _ _ _ _ _ _ (Reg r Hr) z zs i Dz Dzs Hi) as Q2. apply (Rmult_le_compat_l M _ _ M0) in Hd.
      replace (pc_curve (P r) z i - Y z i) with ((pc_curve (P r) z i - pc_curve (P r) zs i) + (pc_curve (P r) zs i - Y z i)) by ring.
      eapply Rle_trans; [apply Rabs_triang|]. lra. }
    assert (NN : 0 <= 2 * M * ga * bound_at) by (apply Rmult_le_pos; [apply Rmult_le_pos; [lra|exact g0]|exact BN]).
    assert (DY : Rabs (pc_curve (P r) z i - Y z i) <= 2 * M * ga * bound_at).
    { destruct (Rle_dec (pc_start (P r)) z) as [H1|H1]; [destruct (Rle_dec z (piece_end O rho P last r)) as [H2|H2]|].
      - rewrite (B4 z i (conj H1 H2) Hi). replace (pc_curve (P r) z i - pc_curve (P r) z i) with 0 by ring. rewrite Rabs_R0. exact NN.
      - (* late *)
        assert (Hl : (r < last)%nat).
        { destruct (Nat.eq_dec r last) as [E|]; [|lia]. exfalso. apply H2. unfold piece_end. rewrite E, Nat.eqb_refl. exact zT. }
        assert (Ep : piece_end O rho P last r = pc_start (P (S r))) by (unfold piece_end; replace (r =? last)%nat with false by (symmetry; apply Nat.eqb_neq; lia); reflexivity).
        apply (Far (piece_end O rho P last r)).
        + assert (Q : 0 <= pc_start (P r)); [|clear - Q B1 H2 zT; lra]. clear - Pc S0 Hr. induction r as [|r IH]; [lra|]. specialize (IH ltac:(lia)). destruct (Pc r ltac:(lia)) as (Q & _). unfold piece_end in Q.
          replace (r =? last)%nat with false in Q by (symmetry; apply Nat.eqb_neq; lia). lra.
        + lra.
        + apply B4; [lra|exact Hi].
        + destruct (proj2 Fo) as (cl & el & Hel & Epl). destruct (element_walk O NP cl el Hel) as (kl & Hkl & Ekl).
          assert (Epk : pk kl = last) by (unfold pk; rewrite Ekl; exact Epl).
          destruct (Nat.le_gt_cases k kl) as [Hkk|Hkk].
          * destruct (next_piece N (m_nx m) tk pk xk (fun r => pc_curve (P r)) (fun r => pc_start (P r)) (2 * K * Lf) (2 * (1 + K) * B) ga gG (h ^ n) a0 b0 hn0 G1 (ts_0 O rho) tk_mono P0 start_ok EL switch_ok (ga * bound_at) SB k kl Hkk Hkl) as [_ [Q|Q]].
            { fold r in Q. rewrite Epk in Q. lia. }
            fold r in Q. fold z in Q. rewrite Ep in *. rewrite Rabs_pos_eq by lra. lra.
          * destruct (next_piece N (m_nx m) tk pk xk (fun r => pc_curve (P r)) (fun r => pc_start (P r)) (2 * K * Lf) (2 * (1 + K) * B) ga gG (h ^ n) a0 b0 hn0 G1 (ts_0 O rho) tk_mono P0 start_ok EL switch_ok (ga * bound_at) SB kl k ltac:(lia) Hk) as [Q _].
            fold r in Q. rewrite Epk in Q. lia.
      - (* early *)
        destruct (not_early N (m_nx m) tk pk xk (fun r => pc_curve (P r)) (fun r => pc_start (P r)) (2 * K * Lf) (2 * (1 + K) * B) ga gG (h ^ n) a0 b0 hn0 G1 (ts_0 O rho) tk_mono P0 start_ok EL switch_ok (ga * bound_at) SB k Hk) as [Q|Q].
        { fold r in Q. rewrite Q in H1. lra. }
        fold r in Q. pose proof (tk_mono k Hk) as Q'. fold z in Q'. apply (Far (pc_start (P r))).
        + split; [lra|]. eapply Rle_trans; [exact B1|]. clear - Pc Hr. assert (G : forall q, (r + q <= last)%nat -> piece_end O rho P last r <= piece_end O rho P last (r + q)).
          { induction q as [|q IH]; intros Hq; [rewrite Nat.add_0_r; lra|]. specialize (IH ltac:(lia)). destruct (Pc (r + S q)%nat Hq) as (Q & _).
            unfold piece_end in IH at 2. replace (r + q =? last)%nat with false in IH by (symmetry; apply Nat.eqb_neq; lia). replace (r + S q)%nat with (S (r + q)) in * by lia. lra. }
          specialize (G (last - r)%nat ltac:(lia)). replace (r + (last - r))%nat with last in G by lia. unfold piece_end in G at 2. rewrite Nat.eqb_refl in G. exact G.
        + split; [exact B2|lra].
        + apply B4; [lra|exact Hi].
        + rewrite Rabs_left1 by lra. lra. }
    unfold gG. replace (end_state O t rho c e i - Y z i) with ((end_state O t rho c e i - pc_curve (P r) z i) + (pc_curve (P r) z i - Y z i)) by ring.
    eapply Rle_trans; [apply Rabs_triang|]. lra.
  - intros c e He Hp Hn. destruct (element_walk O NP c e He) as (k & Hk & Ek). destruct k as [|k]; [exfalso; unfold pk in P0; rewrite Ek in P0; cbn [fst snd] in P0; lia|].
    pose proof (walk_before O NP k ltac:(lia)) as WB. rewrite Ek in WB. cbn [fst snd] in WB. destruct (wk k) as [c' e'] eqn:Ew. specialize (Hn c' e' WB).
    destruct (switch_ok k Hk) as [Es|[Es _]]; [exfalso; apply Hn; unfold pk in Es; rewrite Ek, Ew in Es; cbn [fst snd] in Es; congruence|].
    specialize (SE k Hk Es). specialize (SB k Hk).
    assert (E1 : tk (S k) = grid_time O rho c e) by (unfold tk, ts; rewrite Ek; reflexivity). assert (E2 : pk (S k) = ph c e) by (unfold pk; rewrite Ek; reflexivity).
    rewrite <- E1, <- E2. eapply Rle_trans; [exact SE|exact SB].
Qed.
End Con.
