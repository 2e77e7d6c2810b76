(* Init_proofs.v -- initialize and the start of the homotopy loop on a constructed problem *)
From Coq Require Import Reals Qreals Lra Permutation.
From Verif Require Import Base Lib Sx Sx_proofs Utils Tableau Opts Model Ocp Problem Numeric Rk4 Results Solver Spec Fesd Spec2 Spec4 Spec5
  Body_proofs Model_proofs Con_proofs Index_proofs Index2_proofs Index3_proofs Nlp_proofs Feas_proofs Lam_proofs Accept_proofs
  Results_proofs Results2_proofs Results4_proofs Solve_proofs Solve2_proofs Vec_proofs Syms_proofs.

Lemma foldM_ext_in {S A} (f g : S -> A -> res S) l : (forall a, In a l -> forall s, f s a = g s a) -> forall s, foldM f l s = foldM g l s.
Proof.
  intros E. induction l as [|a l IH]; intros s; [reflexivity|]. cbn. rewrite E by (left; reflexivity). destruct (g s a); [|reflexivity].
  cbn. apply IH. intros b Hb. apply E. right. exact Hb.
Qed.
Lemma foldM_map {S A B} (f : S -> B -> res S) (g : A -> B) l : forall s, foldM f (map g l) s = foldM (fun s a => f s (g a)) l s.
Proof. induction l as [|a l IH]; intros s; [reflexivity|]. cbn. destruct (f s (g a)); [apply IH|reflexivity]. Qed.
Lemma foldM_concat {S A} (f : S -> A -> res S) ll : forall s, foldM (fun s l => foldM f l s) ll s = foldM f (concat ll) s.
Proof.
  induction ll as [|l ll IH]; intros s; [reflexivity|]. cbn. rewrite foldM_app. destruct (foldM f l s); [apply IH|reflexivity].
Qed.

Section Con.
Variables (lr : Q -> Q -> Q -> nat) (cp : nat -> scheme -> list Q) (d : ipopt_dict)
  (o : opts) (m : model) (oc : option ocp) (C : constructed).
Hypothesis H : construct_problem lr cp d o m oc = Ok C.
Notation O := (the_opts C).
Notation P := (the_problem C).
Notation W := (w (the_nlp C)).
Notation E := (explicit_end C).

Lemma stages_pos' : 0 < o_N_stages O.
Proof.
  destruct (con_use _ _ _ _ _ _ _ H) as (o' & t & pm & po & P' & st & lf & f1 & K & B & Eo & _). rewrite Eo. exact (bo_N _ _ _ _ _ _ _ _ B).
Qed.
Lemma max_iter_pos : 0 < o_max_iter_homotopy O.
Proof.
  destruct (construct_ok _ _ _ _ _ _ _ H) as (o' & t & pm & po & P' & K). rewrite (co_o _ _ _ _ _ _ _ _ _ _ _ _ K), (co_o' _ _ _ _ _ _ _ _ _ _ _ _ K).
  cbn. destruct (o_max_iter_homotopy o) as [|n]; cbn; lia.
Qed.

(* the index lists of the states *)
Lemma state_rows idx : In idx (concat (concat (p_ind1 P FX))) ->
  exists p j, In p (elements O) /\ j < points1 O E FX /\ sel W idx = Ok (map (S1 FX (fst p) (snd p) j) (seq 0 (m_nx m))).
Proof.
  intros Hi. apply in_concat in Hi. destruct Hi as (a & Ha & Hi).
  apply In_nth_error in Ha. destruct Ha as [k Ha].
  destruct (Forall2_nth_r _ _ _ _ _ (Forall2_in _ _ _ (nested1 _ _ _ _ _ _ _ H FX)) Ha) as (p & _ & Hp & Hat).
  destruct (row1 _ _ _ _ _ _ _ H FX p a Hp Hat) as [La Hr]. apply In_nth_error in Hi. destruct Hi as [j Hj].
  pose proof (nth_error_Some_lt _ _ _ Hj) as Hlt. rewrite La in Hlt. destruct (Hr j Hlt) as (idx' & E1 & S). rewrite Hj in E1. injection E1 as <-.
  exists p, j. auto.
Qed.
Lemma state_row p j : In p (elements O) -> j < points1 O E FX -> exists idx, In idx (concat (concat (p_ind1 P FX))) /\
  sel W idx = Ok (map (S1 FX (fst p) (snd p) j) (seq 0 (m_nx m))).
Proof.
  intros Hp Hj. apply In_nth_error in Hp as Hp'. destruct Hp' as [k Hk].
  destruct (Forall2_nth _ _ _ _ _ (nested1 _ _ _ _ _ _ _ H FX) Hk) as (a & Ha & Hat).
  destruct (row1 _ _ _ _ _ _ _ H FX p a Hp Hat) as [La Hr]. destruct (Hr j Hj) as (idx & E1 & S).
  exists idx. split; [|exact S]. apply in_concat. exists a. split; eapply nth_error_In; eassumption.
Qed.
Lemma W_NoDup : NoDup W.
Proof. pose proof (syms_distinct_con _ _ _ _ _ _ _ H) as N. apply NoDup_left in N. exact N. Qed.
Lemma sel_pos idx ys k y i : sel W idx = Ok ys -> nth_error ys k = Some y -> nth_error W i = Some y -> In i idx.
Proof.
  intros S Hk Hi. apply sel_ok in S. destruct (Forall2_nth_r _ _ _ _ _ S Hk) as (i' & Hi' & Hw).
  assert (i = i'). { eapply NoDup_nth_error; [exact W_NoDup| |congruence]. eapply nth_error_Some_lt; eassumption. } subst. eapply nth_error_In; eassumption.
Qed.

Lemma nth_error_map_seq {A} (f : nat -> A) n k y : nth_error (map f (seq 0 n)) k = Some y -> k < n /\ y = f k.
Proof.
  intros Hk. pose proof (nth_error_Some_lt _ _ _ Hk) as L. rewrite map_length, seq_length in L. split; [exact L|].
  rewrite nth_error_map, (nth_error_seq 0 n k L) in Hk. cbn in Hk. congruence.
Qed.

(* states of all blocks written from x0 *)
Lemma write_states v x0 : length v = length W -> length x0 = m_nx m ->
  foldM (fun w idx => assign w idx x0) (concat (concat (p_ind1 P FX))) v = Ok (with_states C v x0).
Proof.
  intros Lv Lx. rewrite <- (foldM_map (fun w b => assign w (fst b) (snd b)) (fun idx => (idx, x0))).
  unfold with_states.
  apply (blocks_write W v (concat (concat (p_ind1 P FX))) (fun idx => (idx, x0)) (fun idx => match sel W idx with Ok ys => ys | _ => [] end)); [exact Lv| |].
  - intros idx Hi. destruct (state_rows idx Hi) as (p & j & Hp & Hj & S). cbn [fst snd]. rewrite S. split; [reflexivity|].
    split; [apply sel_length in S; rewrite map_length, seq_length in S; congruence|].
    intros k y x Hy Hx. apply nth_error_map_seq in Hy. destruct Hy as [Hk ->]. cbn. f_equal. apply nth_error_nth with (d := 0%R) in Hx. exact Hx.
  - intros i y Hi HG. cbn [fst]. pose proof (sym_in_w _ _ _ _ _ _ _ _ H (nth_error_In _ _ Hi)) as R.
    destruct y as [| | | | | | | | | | | | | | | | |f c e j k| | |]; try (exfalso; apply HG; reflexivity). destruct f; try (exfalso; apply HG; reflexivity).
    cbn in R. destruct R as (R1 & R2 & R3). destruct (state_row (c, e) j R1 R2) as (idx & Hin & S). exists idx. split; [exact Hin|].
    eapply sel_pos; [exact S| |exact Hi]. rewrite nth_error_map, (nth_error_seq 0 _ k R3). reflexivity.
Qed.

(* one control stage *)
Lemma assign_states_rows w r x0 n : (forall a, In a r -> length a = n) -> (forall idx, In idx (concat r) -> length idx = length x0) ->
  0 < length (concat (concat r)) -> assign_states w r x0 = foldM (fun w idx => assign w idx x0) (concat r) w.
Proof.
  intros A1 A2 A3. unfold assign_states. rewrite (all_len_eq_intro n) by exact A1. cbn [guard bind].
  destruct (length (concat (concat r))) eqn:El; [lia|]. cbn [Nat.eqb negb guard bind]. unfold assign_rows.
  rewrite (all_len_eq_intro (length x0)) by exact A2. cbn [guard bind]. destruct (concat r) as [|a l] eqn:Er; [cbn in El; discriminate|].
  rewrite (A2 a) by (left; reflexivity). rewrite bcast_same. reflexivity.
Qed.

Lemma init_states s : 0 < m_nx m -> sized C m s ->
  sfor (fun ind => update_w0 (fun w => assign_states w ind (ss_x0 s))) (p_ind1 P FX) s =
  (mkState (ss_x0 s) (ss_pval s) (with_states C (ss_w0 s) (ss_x0 s)) (ss_calls s), Ok tt).
Proof.
  intros Hx Z. apply (sfor_update (fun ind w => assign_states w ind (ss_x0 s))).
  destruct (proj1 (proj2 (shapes_con _ _ _ _ _ _ _ H)) FX) as [L S].
  assert (RW : forall r, In r (p_ind1 P FX) -> 0 < length r /\ forall a, In a r -> length a = points1 O E FX).
  { intros r Hr. apply In_nth_error in Hr. destruct Hr as [c Hc]. pose proof (nth_error_Some_lt _ _ _ Hc) as Hlt. rewrite L in Hlt.
    destruct (S c Hlt) as (r' & Hr' & Hn & Ha). rewrite Hc in Hr'. injection Hr' as <-.
    split.
    - destruct (proj1 (shapes_con _ _ _ _ _ _ _ H) c Hlt) as (nfe & Hn' & Hp). rewrite Hn in Hn'. injection Hn' as <-. exact Hp.
    - intros a Hin. apply In_nth_error in Hin. destruct Hin as [e He]. destruct (Ha e) as (rr & E1 & E2); [eapply nth_error_Some_lt; eassumption|].
      rewrite He in E1. injection E1 as <-. exact E2. }
  assert (IL : forall r idx, In r (p_ind1 P FX) -> In idx (concat r) -> length idx = length (ss_x0 s)).
  { intros r idx Hr Hi. destruct (state_rows idx) as (p & j & _ & _ & Sl).
    { apply in_concat in Hi. destruct Hi as (a & Ha & Hi). apply in_concat. exists a. split; [apply in_concat; eauto|exact Hi]. }
    apply sel_length in Sl. rewrite map_length, seq_length in Sl. rewrite (sz_x0 _ _ _ Z). congruence. }
  rewrite (foldM_ext_in _ (fun w r => foldM (fun w idx => assign w idx (ss_x0 s)) (concat r) w)).
  - rewrite <- (foldM_map (fun w l => foldM (fun w idx => assign w idx (ss_x0 s)) l w) (@concat (list nat))).
    rewrite foldM_concat. rewrite concat_map_concat. apply write_states; [apply (sz_w0 _ _ _ Z)|apply (sz_x0 _ _ _ Z)].
  - intros r Hr w. destruct (RW r Hr) as [R1 R2]. apply (assign_states_rows w r (ss_x0 s) (points1 O E FX)); [exact R2|intros; eapply IL; eassumption|].
    pose proof (points1_pos _ _ _ _ _ _ _ H FX) as PP.
    destruct r as [|a r]; [cbn in R1; lia|]. pose proof (R2 a (or_introl eq_refl)) as La. destruct a as [|idx a]; [cbn [length] in La; lia|].
    specialize (IL ((idx :: a) :: r) idx Hr (or_introl eq_refl)). rewrite (sz_x0 _ _ _ Z) in IL. cbn [concat app]. rewrite app_length. lia.
Qed.
End Con.
