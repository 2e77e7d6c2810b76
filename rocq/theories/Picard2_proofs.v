(* Picard2_proofs.v -- feasible points of initial value problems that stay in one mode *)
From Coq Require Import Reals Lra Qreals.
From Verif Require Import Base Lib Sx Sx_proofs Utils Tableau Opts Model Ocp Problem Spec Tableau_proofs Poly_proofs Fesd Dcs_proofs Elem_proofs Mode_proofs Spec2 Spec3 Spec9 Spec10 Spec11 Spec36 Spec37
  Feas_proofs Feas2_proofs Filippov3_proofs Exact_proofs ExistBase_proofs Exist_proofs Picard_proofs.
Local Open Scope R_scope.

Section Elements.
Variables (o : opts) (m : model) (oc : ocp) (rho : env) (mode : nat -> nat) (r L M Lam : R) (pts : list Q) (a : nat -> nat -> R) (tau : nat -> R).
Notation ns := (o_ns o).
Notation x0 := (fun i => rho (SX0 i)).
Notation vel c x i := (velocity o m rho c x (pure mode) i).
Hypothesis Ln : length pts = ns.
Hypothesis Dp : distinct pts.
Hypothesis Et : forall j, (j < ns)%nat -> tau j = Q2R (nth j pts 0%Q).
Hypothesis Tl : tau (ns - 1)%nat = 1.
Hypothesis Ns : (0 < ns)%nat.
Hypothesis NP : forall c, (c < o_N_stages o)%nat -> (0 < nfe_of o c)%nat.
Hypothesis Ia : integrates pts a.
Hypothesis Ra : forall j, (j < length pts)%nat -> rupto (length pts) (fun q => Rabs (a j q)) <= Lam.
Hypothesis Lam0 : 0 <= Lam.
Hypothesis MP : mode_problem o m rho mode r L M.
Hypothesis SS : short_steps o rho Lam r L M.

Lemma moments j k : (j < ns)%nat -> (k < ns)%nat -> rupto ns (fun q => a j q * tau q ^ k) = tau j ^ S k / INR (S k).
Proof.
  intros Hj Hk. rewrite (Et j Hj). pose proof (Ia j k ltac:(lia) ltac:(lia)) as E. rewrite Ln in E. rewrite <- E. apply rupto_ext. intros q Hq. rewrite (Et q Hq). reflexivity.
Qed.
(* one element *)
Lemma one_element c e x : is_element o c e -> (forall i, (i < m_nx m)%nat -> Rabs (x i - rho (SX0 i)) <= Lam * M * grid_time o rho c e) ->
  exists P : nat -> list R, (forall i, (i < m_nx m)%nat -> (length (P i) <= S ns)%nat /\ peval (P i) 0 = x i) /\
    close_to_start m rho r x /\ (forall j, (j < ns)%nat -> close_to_start m rho r (fun i => peval (P i) (tau j))) /\
    (forall i, (i < m_nx m)%nat -> Rabs (peval (P i) 1 - rho (SX0 i)) <= Lam * M * (grid_time o rho c e + step_len o rho c e)) /\
    forall j i, (j < ns)%nat -> (i < m_nx m)%nat -> derivable_pt_lim (peval (P i)) (tau j) (step_len o rho c e * vel c (fun i => peval (P i) (tau j)) i).
Proof.
  intros Ie Nx. destruct MP as (_ & L0 & M0 & _ & FB & FL). destruct SS as (SN & Sh & Tot).
  set (h := step_len o rho c e) in *. assert (H0 : 0 <= h) by (apply SN; exact Ie). assert (Hc : (c < o_N_stages o)%nat) by (destruct Ie; assumption).
  pose proof (element_in_stage o rho SN c e Ie) as [_ T1]. pose proof (stage_in_horizon o rho SN c Hc) as [_ T2].
  assert (LM : 0 <= Lam * M) by (apply Rmult_le_pos; assumption).
  assert (TT : Lam * M * (grid_time o rho c e + h) <= r) by (eapply Rle_trans; [|exact Tot]; apply Rmult_le_compat_l; [exact LM|unfold h; lra]).
  assert (Hh : 0 <= Lam * M * h) by (apply Rmult_le_pos; assumption).
  assert (Near : forall i, (i < m_nx m)%nat -> Rabs (x i - rho (SX0 i)) + h * (Lam * M) <= r) by (intros i Hi; specialize (Nx i Hi); lra).
  assert (Ra' : forall j, (j < ns)%nat -> rupto ns (fun q => Rabs (a j q)) <= Lam) by (intros j Hj; pose proof (Ra j ltac:(lia)) as G; rewrite Ln in G; exact G).
  destruct (fixed_point ns (m_nx m) a (fun y i => vel c y i) x x0 h r L M Lam H0 L0 M0 Ra' Lam0) as (V & BV & FV).
  { intros y i By Hi. apply FB; assumption. }
  { intros y y' dl By By' D i Hi. apply FL; assumption. }
  { exact Near. }
  { apply Sh. exact Ie. }
  destruct (hermite pts ns Dp Ln) as (Q & HQ). exists (fun i => Q (x i) (fun j => h * V j i)).
  assert (Val : forall j i, (j < ns)%nat -> peval (Q (x i) (fun j => h * V j i)) (tau j) = stagev ns a x h V j i).
  { intros j i Hj. destruct (HQ (x i) (fun j => h * V j i)) as (A & B & D). pose proof (quad_der (a j) ns ns tau (tau j) (fun k Hk => moments j k Hj Hk) _ A) as G.
    unfold stagev. rewrite (rupto_ext _ _ (fun q => h * (a j q * V q i))) in G.
    - rewrite rupto_scale, B in G. lra.
    - intros q Hq. rewrite (Et q Hq), (D q Hq). ring. }
  assert (SB : forall j i, (j < ns)%nat -> (i < m_nx m)%nat -> Rabs (stagev ns a x h V j i - rho (SX0 i)) <= Lam * M * (grid_time o rho c e + h)).
  { intros j i Hj Hi. pose proof (stage_near ns (m_nx m) a x x0 h M Lam H0 Ra' V j i Hj Hi (fun q Hq => BV q i Hq Hi)) as G. cbv beta in G. specialize (Nx i Hi). lra. }
  split; [|split; [|split; [|split]]].
  - intros i Hi. destruct (HQ (x i) (fun j => h * V j i)) as (A & B & _). split; assumption.
  - intros i Hi. specialize (Nx i Hi). lra.
  - intros j Hj i Hi. rewrite Val by exact Hj. eapply Rle_trans; [apply SB; assumption|exact TT].
  - intros i Hi. rewrite <- Tl, Val by lia. apply SB; [lia|exact Hi].
  - intros j i Hj Hi. destruct (HQ (x i) (fun j => h * V j i)) as (A & B & D).
    replace (h * vel c (fun i => peval (Q (x i) (fun j => h * V j i)) (tau j)) i) with (peval (pder (Q (x i) (fun j => h * V j i))) (tau j)); [apply peval_deriv|].
    rewrite (Et j Hj), (D j Hj), <- (Et j Hj). f_equal. rewrite (FV j i Hj Hi).
    assert (E : Rabs (vel c (stagev ns a x h V j) i - vel c (fun i => peval (Q (x i) (fun j => h * V j i)) (tau j)) i) <= L * 0).
    { assert (CS : close_to_start m rho r (stagev ns a x h V j)) by (intros i' Hi'; eapply Rle_trans; [apply SB; assumption|exact TT]).
      apply FL; try assumption.
      - intros i' Hi'. rewrite Val by exact Hj. apply CS, Hi'.
      - intros i' Hi'. rewrite Val by exact Hj. unfold Rminus. rewrite Rplus_opp_r, Rabs_R0. lra. }
    rewrite Rmult_0_r in E. destruct (Req_dec (vel c (stagev ns a x h V j) i - vel c (fun i => peval (Q (x i) (fun j => h * V j i)) (tau j)) i) 0) as [Z|Z]; [lra|]. pose proof (Rabs_pos_lt _ Z). lra.
Qed.

(* ---- element after element ---- *)
Definition start_of (p : nat -> nat -> nat -> list R) (c e i : nat) : R := match before o c e with Some (c', e') => state p c' e' 1 i | None => rho (SX0 i) end.
Definition good (p : nat -> nat -> nat -> list R) (c e : nat) : Prop :=
  (forall i, (i < m_nx m)%nat -> (length (p c e i) <= S ns)%nat /\ state p c e 0 i = start_of p c e i) /\
  close_to_start m rho r (start_of p c e) /\ (forall j, (j < ns)%nat -> close_to_start m rho r (state p c e (tau j))) /\
  (forall i, (i < m_nx m)%nat -> Rabs (state p c e 1 i - rho (SX0 i)) <= Lam * M * (grid_time o rho c e + step_len o rho c e)) /\
  forall j i, (j < ns)%nat -> (i < m_nx m)%nat -> derivable_pt_lim (fun z => state p c e z i) (tau j) (step_len o rho c e * vel c (state p c e (tau j)) i).
Definition earlier (c' e' c e : nat) : Prop := (c' < c)%nat \/ (c' = c /\ (e' < e)%nat).
Lemma before_earlier c e c' e' : before o c e = Some (c', e') -> earlier c' e' c e.
Proof. unfold before, earlier. destruct e as [|e]; [destruct c as [|c]; [discriminate|]|]; intros E; injection E as <- <-; lia. Qed.
Lemma before_element c e c' e' : is_element o c e -> before o c e = Some (c', e') -> is_element o c' e' /\ grid_time o rho c' e' + step_len o rho c' e' = grid_time o rho c e.
Proof.
  intros [Hc He]. unfold before, is_element, grid_time. destruct e as [|e]; [destruct c as [|c]; [discriminate|]|]; intros E; injection E as <- <-.
  - pose proof (NP c ltac:(lia)) as N. split; [lia|]. rewrite rupto_succ, rupto_0. change (stage_length o rho c) with (rupto (nfe_of o c) (step_len o rho c)).
    assert (E : rupto (nfe_of o c) (step_len o rho c) = rupto (nfe_of o c - 1) (step_len o rho c) + step_len o rho c (nfe_of o c - 1)%nat)
      by (replace (nfe_of o c) with (S (nfe_of o c - 1)) at 1 by lia; apply rupto_succ). rewrite E. ring.
  - split; [lia|]. rewrite rupto_succ. ring.
Qed.
Lemma good_ext p p' c e : p' c e = p c e -> (forall c' e', before o c e = Some (c', e') -> p' c' e' = p c' e') -> good p c e -> good p' c e.
Proof.
  intros E B. unfold good, start_of, state. rewrite E. destruct (before o c e) as [[c' e']|]; [rewrite (B c' e' eq_refl)|]; exact (fun X => X).
Qed.
Lemma extend p c e : is_element o c e -> (forall c' e', is_element o c' e' -> earlier c' e' c e -> good p c' e') ->
  exists p', good p' c e /\ forall c' e', is_element o c' e' -> earlier c' e' c e -> good p' c' e'.
Proof.
  intros Ie A. destruct (one_element c e (start_of p c e) Ie) as (P & P1 & P2 & P3 & P4 & P5).
  { intros i Hi. unfold start_of. destruct (before o c e) as [[c' e']|] eqn:B.
    - destruct (before_element c e c' e' Ie B) as [I' T]. destruct (A c' e' I' (before_earlier _ _ _ _ B)) as (_ & _ & _ & G & _). specialize (G i Hi). rewrite T in G. exact G.
    - unfold Rminus. rewrite Rplus_opp_r, Rabs_R0. destruct MP as (_ & _ & M0 & _). destruct SS as (SN & _).
      pose proof (element_in_stage o rho SN c e Ie) as [T1 _]. pose proof (stage_in_horizon o rho SN c (proj1 Ie)) as [T2 _].
      apply Rmult_le_pos; [apply Rmult_le_pos; assumption|lra]. }
  set (p' := fun c' e' => if ((c' =? c) && (e' =? e))%nat then P else p c' e').
  assert (New : p' c e = P) by (unfold p'; rewrite !Nat.eqb_refl; reflexivity).
  assert (Old : forall c' e', earlier c' e' c e -> p' c' e' = p c' e').
  { intros c' e' E. unfold p'. replace ((c' =? c) && (e' =? e))%nat with false; [reflexivity|]. symmetry. apply Bool.andb_false_iff. rewrite !Nat.eqb_neq. destruct E as [E|[-> E]]; lia. }
  assert (St : start_of p' c e = start_of p c e).
  { unfold start_of, state. destruct (before o c e) as [[c' e']|] eqn:B; [|reflexivity]. rewrite (Old c' e' (before_earlier _ _ _ _ B)). reflexivity. }
  exists p'. split.
  - unfold good. rewrite St. unfold state. rewrite New. repeat split; try assumption; apply P1; assumption.
  - intros c' e' I' E. apply (good_ext p); [apply Old, E| |apply A; assumption].
    intros c2 e2 B. apply Old. apply before_earlier in B. destruct B as [B|[-> B]], E as [E|[-> E]]; unfold earlier; lia.
Qed.
Lemma all_before c : (c <= o_N_stages o)%nat -> exists p, forall c' e', is_element o c' e' -> (c' < c)%nat -> good p c' e'.
Proof.
  induction c as [|c IH]; intros Hc; [exists (fun _ _ _ => []); intros; lia|]. destruct (IH ltac:(lia)) as (p & A).
  assert (G : forall e, (e <= nfe_of o c)%nat -> exists p, forall c' e', is_element o c' e' -> earlier c' e' c e -> good p c' e').
  { induction e as [|e IHe]; intros He; [exists p; intros c' e' I' [E|[_ E]]; [apply A; assumption|lia]|].
    destruct (IHe ltac:(lia)) as (p1 & A1). destruct (extend p1 c e (conj (Nat.lt_le_trans _ _ _ (Nat.lt_succ_diag_r c) Hc) He) A1) as (p2 & G2 & A2).
    exists p2. intros c' e' I' [E|[-> E]]; [apply A2; [exact I'|left; exact E]|]. destruct (Nat.eq_dec e' e) as [->|Ne]; [exact G2|apply A2; [exact I'|right; split; [reflexivity|lia]]]. }
  destruct (G (nfe_of o c) (le_n _)) as (p1 & A1). exists p1. intros c' e' I' Lc. apply A1; [exact I'|].
  destruct (Nat.eq_dec c' c) as [->|Ne]; [right; split; [reflexivity|apply I']|left; lia].
Qed.
Lemma all_good : exists p, forall c e, is_element o c e -> good p c e.
Proof. destruct (all_before (o_N_stages o) (le_n _)) as (p & A). exists p. intros c e Ie. apply A; [exact Ie|apply Ie]. Qed.

Lemma pure_convex : convex_weights m (pure mode).
Proof.
  intros s Hs. split; [intros k _; unfold pure; destruct (k =? mode s)%nat; lra|]. destruct MP as (Mo & _). specialize (Mo s Hs).
  rewrite (rupto_ext _ _ (fun k => if (k =? mode s)%nat then 1 else 0)) by reflexivity.
  assert (G : forall n, rupto n (fun k => if (k =? mode s)%nat then 1 else 0) = if (mode s <? n)%nat then 1 else 0).
  { induction n as [|n IH]; [rewrite rupto_0; reflexivity|]. rewrite rupto_succ, IH.
    destruct (mode s <? n)%nat eqn:E1, (n =? mode s)%nat eqn:E2, (mode s <? S n)%nat eqn:E3; rewrite ?Nat.ltb_lt, ?Nat.ltb_ge, ?Nat.eqb_eq, ?Nat.eqb_neq in *; try lia; lra. }
  rewrite G. apply Nat.ltb_lt in Mo. rewrite Mo. reflexivity.
Qed.
Lemma solved p : (forall c e, is_element o c e -> good p c e) -> collocation_solution o m rho p (fun _ _ _ => pure mode) tau ns.
Proof.
  intros G c e Ie. destruct (G c e Ie) as (A & B & D & _ & E). split; [exact A|]. split.
  - intros j Hj. split; [exact pure_convex|]. intros i Hi. apply E; assumption.
  - intros s k j Hs Hk Hj P. assert (k = mode s) by (unfold pure in P; destruct (k =? mode s)%nat eqn:X; [apply Nat.eqb_eq, X|lra]). subst k.
    destruct MP as (_ & _ & _ & MH & _). split.
    + apply MH; [apply Ie| |exact Hs]. intros i Hi. destruct (A i Hi) as [_ S0]. rewrite S0. apply B, Hi.
    + intros j' Hj'. apply MH; [apply Ie|apply D, Hj'|exact Hs].
Qed.
Lemma ball_kept p : ball_admissible o m oc rho r -> (forall c e, is_element o c e -> good p c e) -> admissible_at o m oc rho p tau.
Proof.
  intros [T A] G. split; [|intros x Hx; rewrite T in Hx; destruct Hx]. intros c e Ie j Hj. apply A; [apply Ie|]. destruct (G c e Ie) as (_ & _ & D & _). apply D, Hj.
Qed.
Lemma evened p th : even_steps o rho -> equilibrated_at o m rho p th tau.
Proof. unfold even_steps, equilibrated_at. destruct (o_step_eq o); try exact (fun X => X); intros A c e Ie He; left; apply A; assumption. Qed.
End Elements.

(* ---- every list of distinct points has a Butcher matrix ---- *)
Lemma der_padd p q x : peval (pder (padd p q)) x = peval (pder p) x + peval (pder q) x.
Proof.
  apply (uniqueness_limite (peval (padd p q)) x); [apply peval_deriv|].
  apply (derivable_pt_lim_ext (peval p + peval q)%F); [intros z; rewrite peval_padd; reflexivity|]. apply derivable_pt_lim_plus; apply peval_deriv.
Qed.
Lemma der_pscale k p x : peval (pder (pscale k p)) x = k * peval (pder p) x.
Proof.
  apply (uniqueness_limite (peval (pscale k p)) x); [apply peval_deriv|].
  apply (derivable_pt_lim_ext (mult_real_fct k (peval p))); [intros z; rewrite peval_pscale; reflexivity|]. apply derivable_pt_lim_scal; apply peval_deriv.
Qed.
Fixpoint psum (n : nat) (w : nat -> R) (P : nat -> list R) : list R := match n with O => [] | S n => padd (psum n w P) (pscale (w n) (P n)) end.
Lemma psum_val n w P x : peval (psum n w P) x = rupto n (fun q => w q * peval (P q) x) /\ peval (pder (psum n w P)) x = rupto n (fun q => w q * peval (pder (P q)) x).
Proof.
  induction n as [|n [A B]]; [rewrite !rupto_0; cbn; split; reflexivity|]. cbn [psum]. rewrite !rupto_succ, peval_padd, der_padd, peval_pscale, der_pscale, A, B. split; reflexivity.
Qed.
Lemma psum_length n w P l : (forall q, (q < n)%nat -> (length (P q) <= l)%nat) -> (length (psum n w P) <= l)%nat.
Proof.
  induction n as [|n IH]; intros A; [cbn; lia|]. cbn [psum]. rewrite length_padd. unfold pscale. rewrite map_length. pose proof (A n ltac:(lia)). specialize (IH ltac:(intros; apply A; lia)). lia.
Qed.
Fixpoint monom (k : nat) : list R := match k with O => [1] | S k => 0 :: monom k end.
Lemma monom_val k x : peval (monom k) x = x ^ k. Proof. induction k as [|k IH]; cbn; [ring|]. rewrite IH. ring. Qed.
Lemma monom_length k : length (monom k) = S k. Proof. induction k as [|k IH]; cbn; [reflexivity|]. rewrite IH. reflexivity. Qed.
Lemma monom_der k x : peval (pder (monom (S k))) x = INR (S k) * x ^ k.
Proof.
  apply (uniqueness_limite (peval (monom (S k))) x); [apply peval_deriv|].
  apply (derivable_pt_lim_ext (fun z => z ^ S k)); [intros z; rewrite monom_val; reflexivity|]. apply (derivable_pt_lim_pow x (S k)).
Qed.
Lemma butcher_exists pts : distinct pts -> exists Lam, row_bound pts Lam.
Proof.
  intros Dp. set (ns := length pts). destruct (hermite pts ns Dp eq_refl) as (P & HP).
  set (tau := fun j => Q2R (nth j pts 0%Q)). set (U := fun q => P 0 (fun j => if (j =? q)%nat then 1 else 0)). set (a := fun j q => peval (U q) (tau j)).
  assert (Ia : integrates pts a).
  { intros j k Hj Hk. fold ns in Hj, Hk |- *. set (D := padd (psum ns (fun q => tau q ^ k) U) (pscale (- / INR (S k)) (monom (S k)))).
    assert (IN : INR (S k) <> 0) by (apply not_0_INR; lia).
    assert (Z : forall x, peval (pder D) x = 0).
    { apply (roots_zero ns _ (map Q2R pts)).
      - eapply Nat.le_trans; [apply length_pder|]. unfold D. rewrite length_padd. unfold pscale. rewrite map_length, monom_length.
        pose proof (psum_length ns (fun q => tau q ^ k) U (S ns) (fun q _ => proj1 (HP 0 _))). lia.
      - apply map_length.
      - apply tau_NoDup, Dp.
      - intros x Hx. apply in_map_iff in Hx. destruct Hx as (t & <- & Ht). apply (In_nth _ _ 0%Q) in Ht. destruct Ht as (i & Hi & <-). fold ns in Hi.
        unfold D. rewrite der_padd, der_pscale, monom_der. destruct (psum_val ns (fun q => tau q ^ k) U (Q2R (nth i pts 0%Q))) as [_ ->].
        rewrite (rupto_ext _ _ (fun q => if (q =? i)%nat then tau i ^ k else 0)).
        + assert (G : forall n, rupto n (fun q => if (q =? i)%nat then tau i ^ k else 0) = if (i <? n)%nat then tau i ^ k else 0).
          { induction n as [|n IH]; [rewrite rupto_0; reflexivity|]. rewrite rupto_succ, IH.
            destruct (i <? n)%nat eqn:E1, (n =? i)%nat eqn:E2, (i <? S n)%nat eqn:E3; rewrite ?Nat.ltb_lt, ?Nat.ltb_ge, ?Nat.eqb_eq, ?Nat.eqb_neq in *; try lia; lra. }
          rewrite G. apply Nat.ltb_lt in Hi. rewrite Hi. unfold tau. field. exact IN.
        + intros q Hq. unfold U. destruct (HP 0 (fun j => if (j =? q)%nat then 1 else 0)) as (_ & _ & V). rewrite (V i Hi).
          rewrite (Nat.eqb_sym i q). destruct (q =? i)%nat eqn:E; [apply Nat.eqb_eq in E; subst q; ring|ring]. }
    pose proof (peval_zero_der D Z (tau j) 0) as E. unfold D in E. rewrite !peval_padd, !peval_pscale, !monom_val in E.
    rewrite (proj1 (psum_val ns (fun q => tau q ^ k) U (tau j))), (proj1 (psum_val ns (fun q => tau q ^ k) U 0)) in E.
    rewrite (rupto_ext ns (fun q => tau q ^ k * peval (U q) 0) (fun _ => 0)), (rupto_all0 _ _ (fun _ => eq_refl)) in E.
    - rewrite (rupto_ext _ _ (fun q => tau q ^ k * peval (U q) (tau j))) by (intros; unfold a, tau; ring). rewrite pow_i in E by lia.
      change (Q2R (nth j pts 0%Q)) with (tau j). unfold Rdiv. lra.
    - intros q Hq. destruct (HP 0 (fun j => if (j =? q)%nat then 1 else 0)) as (_ & V & _). fold (U q) in V. rewrite V. ring. }
  set (B := rupto ns (fun j => rupto ns (fun q => Rabs (a j q)))).
  assert (N0 : forall j, 0 <= rupto ns (fun q => Rabs (a j q))) by (intros j; apply rupto_nonneg; intros; apply Rabs_pos).
  exists B. split; [apply rupto_nonneg; intros; apply N0|]. exists a. split; [exact Ia|]. intros j Hj. fold ns in Hj |- *. unfold B.
  assert (G : forall n, (j < n)%nat -> rupto ns (fun q => Rabs (a j q)) <= rupto n (fun j => rupto ns (fun q => Rabs (a j q)))).
  { induction n as [|n IH]; intros Hn; [lia|]. rewrite rupto_succ. destruct (Nat.eq_dec j n) as [->|Ne].
    - assert (0 <= rupto n (fun j => rupto ns (fun q => Rabs (a j q)))) by (apply rupto_nonneg; intros; apply N0). lra.
    - specialize (IH ltac:(lia)). specialize (N0 n). lra. }
  apply G, Hj.
Qed.
