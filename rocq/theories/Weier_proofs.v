(* Weier_proofs.v -- cluster points of bounded sets of points, and the NLP has a solution when its feasible points are bounded (no choice is used) *)
From Coq Require Import Reals Qreals Lra Lia Classical.
From Verif Require Import Base Lib Sx Sx_proofs Utils Tableau Opts Model Ocp Problem Spec Fesd Spec2 Spec3 Fix_proofs Spec11 Spec30 Spec35 Homot_proofs.
Local Open Scope R_scope.

Definition close_in (l : list sym) (eps : R) (v rho : env) : Prop := forall y, In y l -> Rabs (v y - rho y) < eps.

(* ---- continuity of the evaluation ---- *)
Lemma at_pt f a : continuity_pt f a -> forall eps, 0 < eps -> exists delta, 0 < delta /\ forall x, Rabs (x - a) < delta -> Rabs (f x - f a) < eps.
Proof.
  intros H eps He. destruct (H eps He) as (dl & Hd & A). exists dl. split; [exact Hd|]. intros x Hx.
  destruct (Req_dec x a) as [->|N]; [replace (f a - f a) with 0 by ring; rewrite Rabs_R0; exact He|].
  apply (A x). split; [split; [exact Logic.I|intros E; apply N; symmetry; exact E]|exact Hx].
Qed.
Lemma two_mult a b eps : 0 < eps -> exists delta, 0 < delta /\ forall x z, Rabs (x - a) < delta -> Rabs (z - b) < delta -> Rabs (x * z - a * b) < eps.
Proof.
  intros He. set (K := 1 + Rabs a + Rabs b). assert (K0 : 0 < K) by (unfold K; pose proof (Rabs_pos a); pose proof (Rabs_pos b); lra).
  assert (Q : 0 < eps / K) by (apply Rdiv_lt_0_compat; assumption).
  exists (Rmin 1 (eps / K)). split; [apply Rmin_pos; lra|]. intros x z Hx Hz.
  assert (X1 : Rabs (x - a) < 1) by (eapply Rlt_le_trans; [exact Hx|apply Rmin_l]). assert (X2 : Rabs (x - a) < eps / K) by (eapply Rlt_le_trans; [exact Hx|apply Rmin_r]).
  assert (Z2 : Rabs (z - b) < eps / K) by (eapply Rlt_le_trans; [exact Hz|apply Rmin_r]).
  replace (x * z - a * b) with ((x - a) * (z - b) + (a * (z - b) + (x - a) * b)) by ring.
  eapply Rle_lt_trans; [apply Rabs_triang|]. eapply Rle_lt_trans; [apply Rplus_le_compat_l, Rabs_triang|]. rewrite !Rabs_mult.
  pose proof (Rabs_pos (x - a)). pose proof (Rabs_pos (z - b)). pose proof (Rabs_pos a). pose proof (Rabs_pos b).
  assert (U : Rabs (x - a) * Rabs (z - b) <= 1 * Rabs (z - b)) by (apply Rmult_le_compat_r; lra).
  assert (V : Rabs a * Rabs (z - b) <= Rabs a * (eps / K)) by (apply Rmult_le_compat_l; lra).
  assert (W : Rabs (x - a) * Rabs b <= eps / K * Rabs b) by (apply Rmult_le_compat_r; lra).
  replace eps with (eps / K * K) by (field; lra). unfold K at 2. lra.
Qed.
Lemma eval_near rho e : regular rho e -> forall eps, 0 < eps -> exists delta, 0 < delta /\ forall v, close_in (fv e) delta v rho -> Rabs (eval v e - eval rho e) < eps.
Proof.
  induction e as [q|y|u a IH|b x IHx z IHz]; intros G eps He; cbn [eval regular fv] in *.
  - exists 1. split; [lra|]. intros v _. replace (Q2R q - Q2R q) with 0 by ring. rewrite Rabs_R0. exact He.
  - exists eps. split; [exact He|]. intros v A. apply A. left. reflexivity.
  - destruct G as [G1 G2]. destruct (at_pt _ _ (unop_pt u (eval rho a) G2) eps He) as (d1 & D1 & A1). destruct (IH G1 d1 D1) as (d2 & D2 & A2).
    exists d2. split; [exact D2|]. intros v A. apply A1, A2, A.
  - destruct G as (G1 & G2 & G3).
    assert (T : exists delta, 0 < delta /\ forall x' z', Rabs (x' - eval rho x) < delta -> Rabs (z' - eval rho z) < delta -> Rabs (eval_bin b x' z' - eval_bin b (eval rho x) (eval rho z)) < eps).
    { set (a := eval rho x). set (c := eval rho z) in *. destruct b; cbn [eval_bin].
      - exists (eps / 2). split; [lra|]. intros x' z' Hx Hz. apply Rabs_def2 in Hx. apply Rabs_def2 in Hz. apply Rabs_def1; lra.
      - exists (eps / 2). split; [lra|]. intros x' z' Hx Hz. apply Rabs_def2 in Hx. apply Rabs_def2 in Hz. apply Rabs_def1; lra.
      - apply two_mult, He.
      - destruct (two_mult a (/ c) eps He) as (d1 & D1 & A1). destruct (at_pt _ _ (inv_pt c G3) d1 D1) as (d2 & D2 & A2).
        exists (Rmin d1 d2). split; [apply Rmin_pos; assumption|]. intros x' z' Hx Hz. unfold Rdiv. apply A1.
        + eapply Rlt_le_trans; [exact Hx|apply Rmin_l].
        + apply A2. eapply Rlt_le_trans; [exact Hz|apply Rmin_r].
      - exists eps. split; [exact He|]. intros x' z' Hx Hz. apply Rabs_def2 in Hx. apply Rabs_def2 in Hz. unfold Rmin. apply Rabs_def1; destruct (Rle_dec x' z'), (Rle_dec a c); lra.
      - exists eps. split; [exact He|]. intros x' z' Hx Hz. apply Rabs_def2 in Hx. apply Rabs_def2 in Hz. unfold Rmax. apply Rabs_def1; destruct (Rle_dec x' z'), (Rle_dec a c); lra. }
    destruct T as (d0 & D0 & A0). destruct (IHx G1 d0 D0) as (d1 & D1 & A1). destruct (IHz G2 d0 D0) as (d2 & D2 & A2).
    exists (Rmin d1 d2). split; [apply Rmin_pos; assumption|]. intros v A. apply A0.
    + apply A1. intros y Hy. eapply Rlt_le_trans; [apply A, in_or_app; left; exact Hy|apply Rmin_l].
    + apply A2. intros y Hy. eapply Rlt_le_trans; [apply A, in_or_app; right; exact Hy|apply Rmin_r].
Qed.

(* ---- cluster points: the limits inferior, one symbol after the other ---- *)
Lemma cluster (F : R -> env -> Prop) (ys : list sym) B : (forall e e' v, 0 < e <= e' -> F e v -> F e' v) -> (forall e, 0 < e -> exists v, F e v) ->
  (forall e v y, 0 < e -> F e v -> In y ys -> Rabs (v y) <= B) ->
  exists rho, forall e, 0 < e -> exists v, F e v /\ close_in ys e v rho.
Proof.
  intros Mo Ne. revert F Mo Ne. induction ys as [|y ys IH]; intros F Mo Ne Bd.
  - exists (fun _ => 0). intros e He. destruct (Ne e He) as [v Hv]. exists v. split; [exact Hv|intros y []].
  - set (E := fun a => exists e, 0 < e /\ forall v, F e v -> a <= v y).
    assert (BE : bound E).
    { exists B. intros a (e & He & A). destruct (Ne e He) as [v Hv]. specialize (A v Hv). specialize (Bd e v y He Hv (or_introl eq_refl)). pose proof (Rle_abs (v y)). lra. }
    assert (NE : exists a, E a).
    { exists (- B). exists 1. split; [lra|]. intros v Hv. specialize (Bd 1 v y ltac:(lra) Hv (or_introl eq_refl)). pose proof (Rle_abs (- v y)). rewrite Rabs_Ropp in H. lra. }
    destruct (completeness E BE NE) as (x & Ub & Lu).
    assert (Near : forall e, 0 < e -> exists v, F e v /\ Rabs (v y - x) < e).
    { intros e He.
      assert (Lo : exists a, E a /\ x - e < a).
      { apply NNPP. intros N. assert (U : is_upper_bound E (x - e)) by (intros a Ha; apply Rnot_lt_le; intros L; apply N; exists a; split; assumption). specialize (Lu _ U). lra. }
      destruct Lo as (a & (e0 & He0 & A) & La). assert (Hm : 0 < Rmin e e0) by (apply Rmin_pos; assumption).
      assert (Up : exists v, F (Rmin e e0) v /\ v y < x + e).
      { apply NNPP. intros N. assert (Q : E (x + e)) by (exists (Rmin e e0); split; [exact Hm|]; intros v Hv; apply Rnot_lt_le; intros L; apply N; exists v; split; assumption). specialize (Ub _ Q). lra. }
      destruct Up as (v & Hv & Lv). exists v. split; [apply (Mo (Rmin e e0)); [split; [exact Hm|apply Rmin_l]|exact Hv]|].
      assert (A' : a <= v y) by (apply A, (Mo (Rmin e e0)); [split; [exact Hm|apply Rmin_r]|exact Hv]). apply Rabs_def1; lra. }
    destruct (IH (fun e v => F e v /\ Rabs (v y - x) < e)) as (rho & R).
    + intros e e' v He [A1 A2]. split; [exact (Mo e e' v He A1)|lra].
    + exact Near.
    + intros e v z He [A1 _] Hz. apply (Bd e v z He A1). right. exact Hz.
    + exists (fun z => if sym_eq_dec z y then x else rho z). intros e He. destruct (R e He) as (v & [A1 A2] & A3). exists v. split; [exact A1|].
      intros z Hz. destruct (sym_eq_dec z y) as [->|N]; [exact A2|]. destruct Hz as [->|Hz]; [congruence|apply A3, Hz].
Qed.
Lemma close_le l a b v rho : a <= b -> close_in l a v rho -> close_in l b v rho.
Proof. intros L A y Hy. eapply Rlt_le_trans; [apply A, Hy|exact L]. Qed.

(* regular expressions are bounded on boxes *)
Lemma eval_bounded e B : (forall v, regular v e) -> exists G, forall v, (forall y, In y (fv e) -> Rabs (v y) <= B) -> Rabs (eval v e) <= G.
Proof.
  intros Rg. apply NNPP. intros N.
  destruct (cluster (fun d v => (forall y, In y (fv e) -> Rabs (v y) <= B) /\ / d < Rabs (eval v e)) (fv e) B) as (rho & R).
  - intros d d' v Hd [A1 A2]. split; [exact A1|]. eapply Rle_lt_trans; [|exact A2]. apply Rinv_le_contravar; lra.
  - intros d Hd. apply NNPP. intros M. apply N. exists (/ d). intros v A. apply Rnot_lt_le. intros L. apply M. exists v. split; assumption.
  - intros d v y _ [A _] Hy. exact (A y Hy).
  - destruct (eval_near rho e (Rg rho) 1 ltac:(lra)) as (dl & Hd & A). set (M := Rabs (eval rho e) + 1). assert (M0 : 0 < M) by (unfold M; pose proof (Rabs_pos (eval rho e)); lra).
    assert (D : 0 < Rmin dl (/ M)) by (apply Rmin_pos; [exact Hd|apply Rinv_0_lt_compat, M0]).
    destruct (R _ D) as (v & [_ A2] & A3). specialize (A v (close_le _ _ _ _ _ (Rmin_l _ _) A3)).
    assert (M <= / Rmin dl (/ M)) by (rewrite <- (Rinv_inv M) at 1; apply Rinv_le_contravar; [exact D|apply Rmin_r]).
    pose proof (Rabs_triang (eval v e - eval rho e) (eval rho e)) as T. replace (eval v e - eval rho e + eval rho e) with (eval v e) in T by ring. unfold M in *. lra.
Qed.

Lemma within_near l u a : (forall eps, 0 < eps -> exists x, within l u x /\ Rabs (x - a) < eps) -> within l u a.
Proof.
  intros W. destruct (W 1 ltac:(lra)) as (x1 & [W1 W2] & _). split.
  - destruct l as [|q|]; [exact Logic.I| |destruct W1]. cbn. apply Rnot_lt_le. intros L. destruct (W (Q2R q - a) ltac:(lra)) as (x & [X1 _] & X2). cbn in X1. apply Rabs_def2 in X2. lra.
  - destruct u as [|q|]; [destruct W2| |exact Logic.I]. cbn. apply Rnot_lt_le. intros L. destruct (W (a - Q2R q) ltac:(lra)) as (x & [_ X1] & X2). cbn in X1. apply Rabs_def2 in X2. lra.
Qed.

Section Con.
Variables (lr : Q -> Q -> Q -> nat) (cp : nat -> scheme -> list Q) (d : ipopt_dict) (o : opts) (m : model) (oc : option ocp) (C : constructed).
Notation f := (the_nlp C).
Notation syms := (w (the_nlp C) ++ p_p (the_problem C)).
Hypothesis H : construct_problem lr cp d o m oc = Ok C.



Lemma cost_known y : In y (fv (cost f)) -> In y syms.
Proof. destruct (nlp_known _ _ _ _ _ _ _ H) as (K & _ & _). exact (K y). Qed.
Lemma near_feasible rho : (forall eps, 0 < eps -> exists v, feasible v f /\ close_in syms eps v rho) -> (bounds_ok rho f -> forall e, In e (g f) -> regular rho e) -> feasible rho f.
Proof.
  intros A G. destruct (nlp_known _ _ _ _ _ _ _ H) as (_ & _ & K).
  assert (Bo : bounds_ok rho f).
  { intros i y l u H1 H2 H3. apply within_near. intros eps He. destruct (A eps He) as (v & F & N). exists (v y). split; [exact (proj1 F i y l u H1 H2 H3)|]. apply N, in_or_app. left. eapply nth_error_In, H1. }
  split; [exact Bo|]. intros j e l u H1 H2 H3. pose proof (nth_error_In _ _ H1) as He. apply within_near. intros eps Hp.
  destruct (eval_near rho e (G Bo e He) eps Hp) as (dl & Hd & D). destruct (A dl Hd) as (v & F & N). exists (eval v e).
  split; [exact (proj2 F j e l u H1 H2 H3)|]. apply D. intros y Hy. apply N, (K e He y Hy).
Qed.
Lemma has_solution data B : feasible data f ->
  (forall v, feasible v f -> params_of C v data -> eval v (cost f) <= eval data (cost f) -> forall y, In y (w f) -> Rabs (v y) <= B) ->
  (forall v, bounds_ok v f -> (forall e, In e (g f) -> regular v e) /\ regular v (cost f)) ->
  exists rho, solution_of C rho /\ params_of C rho data /\ forall y, In y (w f) -> Rabs (rho y) <= B.
Proof.
  intros F0 Bd Rg.
  (* parameters are bounded as well *)
  assert (PB : exists B', forall y, In y (p_p (the_problem C)) -> Rabs (data y) <= B').
  { induction (p_p (the_problem C)) as [|y l IH]; [exists 0; intros y []|]. destruct IH as [B' IH]. exists (Rmax (Rabs (data y)) B').
    intros z [<-|Hz]; [apply Rmax_l|]. eapply Rle_trans; [apply IH, Hz|apply Rmax_r]. }
  destruct PB as [B' PB]. set (ok := fun v => feasible v f /\ params_of C v data /\ eval v (cost f) <= eval data (cost f)).
  assert (Ok0 : ok data) by (split; [exact F0|split; [intros y _; reflexivity|lra]]).
  assert (OB : forall v y, ok v -> In y syms -> Rabs (v y) <= Rmax B B').
  { intros v y (F & P & Lc) Hy. apply in_app_or in Hy. destruct Hy as [Hy|Hy]; [eapply Rle_trans; [exact (Bd v F P Lc y Hy)|apply Rmax_l]|].
    rewrite (P y Hy). eapply Rle_trans; [exact (PB y Hy)|apply Rmax_r]. }
  (* feasible limits *)
  assert (Lim : forall rho, (forall eps, 0 < eps -> exists v, ok v /\ close_in syms eps v rho) -> feasible rho f /\ params_of C rho data).
  { intros rho A. split.
    - apply near_feasible; [|intros Bo; exact (proj1 (Rg rho Bo))]. intros eps He. destruct (A eps He) as (v & [F _] & N). exists v. split; assumption.
    - intros y Hy. apply NNPP. intros N. assert (D : 0 < Rabs (rho y - data y)) by (apply Rabs_pos_lt; intros E; apply N; lra).
      destruct (A _ D) as (v & (_ & P & _) & K). specialize (K y (in_or_app _ _ _ (or_intror Hy))). rewrite (P y Hy) in K. rewrite Rabs_minus_sym in K. lra. }
  (* the objective is bounded below: otherwise at a cluster point it would be below every number *)
  set (E := fun a => exists v, ok v /\ a = - eval v (cost f)).
  assert (BE : bound E).
  { apply NNPP. intros N. destruct (cluster (fun e v => ok v /\ eval v (cost f) < - / e) syms (Rmax B B')) as (rho & R).
    - intros e e' v He [A1 A2]. split; [exact A1|]. eapply Rlt_le_trans; [exact A2|]. apply Ropp_le_contravar, Rinv_le_contravar; lra.
    - intros e He. apply NNPP. intros M. apply N. exists (/ e). intros a (v & Hv & ->). apply Rnot_lt_le. intros L. apply M. exists v. split; [exact Hv|lra].
    - intros e v y _ [A _] Hy. exact (OB v y A Hy).
    - destruct (Lim rho) as [F P]; [intros eps He; destruct (R eps He) as (v & [A1 _] & A2); exists v; split; assumption|].
      destruct (eval_near rho _ (proj2 (Rg rho (proj1 F))) 1 ltac:(lra)) as (dl & Hd & A). set (M := Rabs (eval rho (cost f)) + 1).
      assert (M0 : 0 < M) by (unfold M; pose proof (Rabs_pos (eval rho (cost f))); lra).
      assert (D : 0 < Rmin dl (/ M)) by (apply Rmin_pos; [exact Hd|apply Rinv_0_lt_compat, M0]).
      destruct (R _ D) as (v & [_ A2] & A3). specialize (A v (fun y Hy => close_le _ _ _ _ _ (Rmin_l _ _) A3 y (cost_known y Hy))).
      assert (M <= / Rmin dl (/ M)) by (rewrite <- (Rinv_inv M) at 1; apply Rinv_le_contravar; [exact D|apply Rmin_r]).
      apply Rabs_def2 in A. pose proof (Rle_abs (- eval rho (cost f))) as T. rewrite Rabs_Ropp in T. unfold M in *. lra. }
  destruct (completeness E BE (ex_intro _ _ (ex_intro _ data (conj Ok0 eq_refl)))) as (ms & Ub & Lu).
  assert (Lo : forall v, ok v -> - ms <= eval v (cost f)) by (intros v Hv; specialize (Ub (- eval v (cost f)) (ex_intro _ v (conj Hv eq_refl))); lra).
  destruct (cluster (fun e v => ok v /\ eval v (cost f) < - ms + e) syms (Rmax B B')) as (rho & R).
  - intros e e' v He [A1 A2]. split; [exact A1|lra].
  - intros e He. apply NNPP. intros N. assert (U : is_upper_bound E (ms - e)) by (intros a (v & Hv & ->); apply Rnot_lt_le; intros L; apply N; exists v; split; [exact Hv|lra]). specialize (Lu _ U). lra.
  - intros e v y _ [A _] Hy. exact (OB v y A Hy).
  - destruct (Lim rho) as [F P]; [intros eps He; destruct (R eps He) as (v & [A1 _] & A2); exists v; split; assumption|].
    assert (Le : eval rho (cost f) <= - ms).
    { apply Rnot_lt_le. intros L. set (e := (eval rho (cost f) + ms) / 2). assert (He : 0 < e) by (unfold e; lra).
      destruct (eval_near rho _ (proj2 (Rg rho (proj1 F))) e He) as (dl & Hd & A). destruct (R (Rmin dl e) ltac:(apply Rmin_pos; assumption)) as (v & [_ A2] & A3).
      specialize (A v (fun y Hy => close_le _ _ _ _ _ (Rmin_l _ _) A3 y (cost_known y Hy))). apply Rabs_def2 in A. pose proof (Rmin_r dl e). unfold e in *. lra. }
    exists rho. assert (Lr : eval rho (cost f) <= eval data (cost f)) by (specialize (Lo data Ok0); lra). split; [split; [exact F|]|split; [exact P|exact (Bd rho F P Lr)]].
    intros rho' F' P'. destruct (Rle_lt_dec (eval rho' (cost f)) (eval data (cost f))) as [X|X]; [|lra].
    assert (K : ok rho') by (split; [exact F'|split; [intros y Hy; rewrite (P' y Hy); apply P, Hy|exact X]]). specialize (Lo rho' K). lra.
Qed.
End Con.
