(* Start_proofs.v -- fix_active_set_fe0 *)
From Coq Require Import Reals Qreals Lra Permutation.
From Verif Require Import Base Lib Sx Sx_proofs Utils Tableau Opts Model Ocp Problem Numeric Rk4 Results Solver Spec Fesd Spec2 Spec3 Spec4 Spec5
  FeMake_proofs FeZero_proofs Prob_proofs Body_proofs Model_proofs Con_proofs Index_proofs Index2_proofs Index3_proofs Nlp_proofs Feas_proofs Lam_proofs Accept_proofs
  Results_proofs Results2_proofs Results4_proofs Solve_proofs Solve2_proofs Vec_proofs Syms_proofs Init_proofs Init2_proofs Smooth2_proofs.

Lemma enum_nth {A} (l : list A) p : In p (enum l) <-> nth_error l (fst p) = Some (snd p).
Proof.
  unfold enum. destruct p as [i x]. cbn. split; intros Hi.
  - apply combine_in_nth in Hi. destruct Hi as (k & A1 & A2). pose proof (nth_error_Some_lt _ _ _ A2) as L. rewrite (nth_error_seq 0 (length l) k L) in A1.
    cbn in A1. congruence.
  - pose proof (nth_error_Some_lt _ _ _ Hi) as L. eapply nth_error_In. eapply (nth_combine _ _ i); [apply (nth_error_seq 0 (length l) i L)|exact Hi].
Qed.
Lemma active_in o lam p : In p (active_lambda o lam) <-> p < length lam /\ (10 * Q2R (o_comp_tol o) < nth p lam 0)%R.
Proof.
  unfold active_lambda. rewrite in_map_iff. split.
  - intros ([i x] & <- & Hf). apply filter_In in Hf. destruct Hf as [Hi Hc]. apply enum_nth in Hi. cbn in *. split; [eapply nth_error_Some_lt; eassumption|].
    rewrite (nth_error_nth _ _ _ Hi). apply Rltb_true in Hc. exact Hc.
  - intros [L Hc]. destruct (nth_error_lt lam p L) as [x Hx]. exists (p, x). split; [reflexivity|]. apply filter_In. split; [apply enum_nth; exact Hx|].
    apply Rltb_true. cbn. rewrite (nth_error_nth _ _ _ Hx) in Hc. exact Hc.
Qed.
Lemma all_write {A} (v : list A) z c : (forall i, In i z -> i < length v) -> exists v', assign_all v z c = Ok v' /\ length v' = length v /\
  forall i, (In i z -> nth_error v' i = Some c) /\ (~ In i z -> nth_error v' i = nth_error v i).
Proof.
  intros B. unfold assign_all. destruct (write_total (map (fun i => (i, c)) z) v) as [v' Ev].
  { intros iv Hi. apply in_map_iff in Hi. destruct Hi as (i & <- & Hi). apply B, Hi. }
  exists v'. split; [exact Ev|]. split; [eapply write_len; eassumption|]. intros i.
  destruct (write_nth _ _ _ i Ev) as [[N F]|(x & I & F)].
  - rewrite map_map, map_id in N. split; [intros; contradiction|intros; exact F].
  - apply in_map_iff in I. destruct I as (k & Ek & Hk). injection Ek as -> <-. split; [intros; exact F|intros; contradiction].
Qed.

Section Con.
Variables (lr : Q -> Q -> Q -> nat) (cp : nat -> scheme -> list Q) (d : ipopt_dict)
  (o : opts) (m : model) (oc : option ocp) (C : constructed).
Hypothesis H : construct_problem lr cp d o m oc = Ok C.
Notation O := (the_opts C).
Notation P := (the_problem C).
Notation W := (w (the_nlp C)).
Notation E := (explicit_end C).

Lemma first_element : In (0, 0) (elements O).
Proof. apply elements_in. cbn. split; [apply (stages_pos' _ _ _ _ _ _ _ H)|]. apply (nfe_of_nth _ _ _ _ _ _ _ H). apply (stages_pos' _ _ _ _ _ _ _ H). Qed.


(* the indices set to zero *)
Lemma zero_ok lam : o_pss O = Stewart -> length lam = upto (n_subsystems m) (n_modes m) ->
  exists z, zero_indices O P lam = Ok z /\ forall i, In i z <-> exists y, nth_error W i = Some y /\ excluded C m lam y.
Proof.
  intros Ep Ll. pose proof first_element as F0.
  destruct (Forall2_nth _ _ _ 0 (0, 0) (nested2 _ _ _ _ _ _ _ H FTheta)) as (a & _ & Hat).
  { pose proof F0 as F1. unfold elements in *. destruct (o_N_stages O) as [|n] eqn:En; [pose proof (stages_pos' _ _ _ _ _ _ _ H); lia|].
    cbn [seq map concat] in *. pose proof (proj2 (nfe_of_nth _ _ _ _ _ _ _ H 0 (stages_pos' _ _ _ _ _ _ _ H))) as Hp.
    destruct (nfe_of O 0) as [|k] eqn:Ek; [lia|]. reflexivity. }
  cbn [fst snd] in Hat. destruct (row2 _ _ _ _ _ _ _ H FTheta (0, 0) a F0 Hat) as [La Hr]. cbn [fst snd] in La, Hr.
  assert (LA : length a = o_ns O) by exact La. clear La.
  assert (PT : points2 O E (nfe_of O 0) 0 FTheta = o_ns O) by reflexivity. rewrite PT in Hr.
  assert (D : forall s, dim2 O m FTheta s = n_modes m s) by (intros; unfold dim2; rewrite Ep; reflexivity).
  unfold at2 in Hat. destruct (nth_error (p_ind2 P FTheta) 0) as [l1|] eqn:E1; [|discriminate].
  unfold zero_indices. change (pr_o (cn_prob C)) with O. unfold nthE at 1. rewrite E1. cbn [bind]. unfold nthE at 1. rewrite Hat. cbn [bind].
  (* one row *)
  assert (ROW : forall j r, nth_error a j = Some r -> length (concat r) = upto (n_subsystems m) (n_modes m) /\
    forall s k, s < n_subsystems m -> k < n_modes m s -> exists i, nth_error (concat r) (offset (n_modes m) s k) = Some i /\
      nth_error W i = Some (S2 FTheta 0 0 j s k)).
  { intros j r Hj. pose proof (nth_error_Some_lt _ _ _ Hj) as Lj. rewrite LA in Lj. destruct (Hr j Lj) as (r' & Hj' & Lr & Hs).
    rewrite Hj in Hj'. injection Hj' as <-.
    assert (LEN : forall s th, nth_error r s = Some th -> length th = n_modes m s).
    { intros s th Hth. destruct (Hs s) as (idx & Hi & Sl). { rewrite <- Lr. eapply nth_error_Some_lt; eassumption. }
      rewrite Hth in Hi. injection Hi as <-. apply sel_length in Sl. rewrite map_length, seq_length, D in Sl. congruence. }
    split.
    - rewrite <- Lr. clear - LEN. unfold upto. revert LEN. generalize (n_modes m). induction r as [|th r IH]; intros dd LEN; [reflexivity|].
      cbn [concat length seq map]. rewrite app_length. rewrite (LEN 0 th eq_refl). unfold total. cbn [fold_right]. f_equal.
      rewrite <- seq_shift, map_map. apply (IH (fun s => dd (S s))). intros s th' Hs. exact (LEN (S s) th' Hs).
    - intros s k Hs' Hk. destruct (Hs s Hs') as (idx & Hi & Sl). rewrite (nth_concat_offset _ _ _ _ _ LEN Hi Hk).
      pose proof Sl as Sl'. apply sel_ok in Sl. destruct (Forall2_nth_r _ _ _ k (S2 FTheta 0 0 j s k) Sl) as (i & Hi' & Hw).
      { cbn [fst snd]. rewrite D. rewrite nth_error_map, (nth_error_seq 0 _ k Hk). reflexivity. }
      exists i. split; [exact Hi'|exact Hw]. }
  (* the rows of all RK stages *)
  destruct (mapM_ex (fun i => do* st <- nthE EIndexError a i; mapM (nthE EIndexError (concat st)) (active_lambda O lam)) (seq 0 (o_ns O))) as [r Er].
  { intros j Hj. apply in_seq in Hj. destruct (nth_error_lt a j) as [st Hst]; [lia|]. unfold nthE at 1. rewrite Hst. cbn [bind].
    apply mapM_ex. intros p Hp. apply active_in in Hp. destruct Hp as [Hp _]. destruct (ROW j st Hst) as [Lc _].
    destruct (nth_error_lt (concat st) p) as [x Hx]; [lia|]. unfold nthE. rewrite Hx. eauto. }
  rewrite Er. cbn [bind]. exists (concat r). split; [reflexivity|]. apply mapM_Forall2 in Er. intros i. split.
  - intros Hi. apply in_concat in Hi. destruct Hi as (l & Hl & Hi). apply In_nth_error in Hl. destruct Hl as [kk Hl].
    destruct (Forall2_nth_r _ _ _ _ _ Er Hl) as (j & Hj & Ej). apply bind_ok in Ej. destruct Ej as (st & Est & Em). apply nthE_ok in Est.
    destruct (ROW j st Est) as [Lc Hc]. apply mapM_Forall2 in Em. apply In_nth_error in Hi. destruct Hi as [q Hi].
    destruct (Forall2_nth_r _ _ _ _ _ Em Hi) as (p & Hp & Ei). apply nth_error_In in Hp. apply active_in in Hp. destruct Hp as [Lp Gp]. apply nthE_ok in Ei.
    rewrite Ll in Lp. destruct (over_pos m _ _ Lp) as (s & k & Hs & Hk & ->). destruct (Hc s k Hs Hk) as (i' & Ei' & Hw).
    unfold offset in Ei'. rewrite Ei in Ei'. injection Ei' as <-. exists (S2 FTheta 0 0 j s k). split; [exact Hw|]. exists j, s, k. auto.
  - intros (y & Hw & j & s & k & -> & Hs & Hk & G).
    pose proof (sym_in_w _ _ _ _ _ _ _ _ H (nth_error_In _ _ Hw)) as R. cbn in R. destruct R as (_ & Hj & _).
    destruct (nth_error_lt a j) as [st Hst]; [lia|]. destruct (ROW j st Hst) as [Lc Hc]. destruct (Hc s k Hs Hk) as (i' & Ei & Hw').
    assert (i' = i). { eapply NoDup_nth_error; [exact (W_NoDup _ _ _ _ _ _ _ H)|eapply nth_error_Some_lt; eassumption|congruence]. } subst i'.
    assert (Hp : In (offset (n_modes m) s k) (active_lambda O lam)).
    { apply active_in. split; [|exact G]. rewrite Ll. apply upto_lt; assumption. }
    destruct (Forall2_nth _ _ _ j j Er) as (l & Hl & Ej). { apply (nth_error_seq 0). lia. }
    apply bind_ok in Ej. destruct Ej as (st' & Est & Em). apply nthE_ok in Est. rewrite Hst in Est. injection Est as <-.
    apply mapM_Forall2 in Em. apply In_nth_error in Hp. destruct Hp as [q Hp]. destruct (Forall2_nth _ _ _ _ _ Em Hp) as (x & Hx & Ex).
    apply nthE_ok in Ex. rewrite Ei in Ex. injection Ex as <-. apply in_concat. exists l. split; eapply nth_error_In; eassumption.
Qed.

Lemma start_ok lam v : (o_pss O = Stewart -> length lam = upto (n_subsystems m) (n_modes m)) -> length v = length W ->
  exists w1 lb ub, start_values O P lam v = Ok (w1, lb, ub) /\ length w1 = length W /\ length lb = length W /\ length ub = length W /\
  let fix_it := o_fix_active_set_fe0 O = true /\ o_pss O = Stewart in
  forall i y, nth_error W i = Some y ->
    (fix_it /\ excluded C m lam y -> nth_error w1 i = Some 0%R /\ nth_error lb i = Some (Fin 0) /\ nth_error ub i = Some (Fin 0)) /\
    (~ (fix_it /\ excluded C m lam y) -> nth_error w1 i = nth_error v i /\ nth_error lb i = nth_error (lbw (the_nlp C)) i /\ nth_error ub i = nth_error (ubw (the_nlp C)) i).
Proof.
  intros Ll Lv. destruct (lengths_con _ _ _ _ _ _ _ H) as [[(L1 & L2 & _) _] _]. unfold start_values.
  destruct (o_fix_active_set_fe0 O && match o_pss O with Stewart => true | Step => false end) eqn:EF.
  - apply andb_prop in EF. destruct EF as [E1 E2]. assert (Ep : o_pss O = Stewart) by (destruct (o_pss O); [reflexivity|discriminate]).
    destruct (zero_ok lam Ep (Ll Ep)) as (z & Ez & Hz). rewrite Ez. cbn [bind].
    assert (BD : forall i, In i z -> i < length W). { intros i Hi. apply Hz in Hi. destruct Hi as (y & Hy & _). eapply nth_error_Some_lt; eassumption. }
    destruct (all_write v z 0%R) as (w1 & A1 & A2 & A3). { intros i Hi. rewrite Lv. auto. }
    destruct (all_write (lbw (the_nlp C)) z (Fin 0)) as (lb & B1 & B2 & B3). { intros i Hi. rewrite L1. auto. }
    destruct (all_write (ubw (the_nlp C)) z (Fin 0)) as (ub & C1 & C2 & C3). { intros i Hi. rewrite L2. auto. }
    exists w1, lb, ub. rewrite A1. cbn [bind]. unfold the_nlp in B1, C1. rewrite B1. cbn [bind]. rewrite C1. cbn [bind].
    split; [reflexivity|]. split; [congruence|]. split; [congruence|]. split; [congruence|]. cbv zeta. intros i y Hy.
    assert (IN : In i z <-> excluded C m lam y).
    { rewrite Hz. split; [intros (y' & Hy' & Hx); rewrite Hy in Hy'; injection Hy' as <-; exact Hx|intros Hx; exists y; auto]. }
    split.
    + intros [_ Hx]. apply IN in Hx. split; [apply A3, Hx|]. split; [apply B3, Hx|apply C3, Hx].
    + intros N. assert (~ In i z). { intros Hi. apply N. split; [auto|]. apply IN, Hi. }
      split; [apply A3, H0|]. split; [apply B3, H0|apply C3, H0].
  - exists v, (lbw (the_nlp C)), (ubw (the_nlp C)). split; [reflexivity|]. split; [exact Lv|]. split; [exact L1|]. split; [exact L2|].
    cbv zeta. intros i y Hy. split; [|auto]. intros [[F1 F2] _]. rewrite F1, F2 in EF. discriminate.
Qed.
End Con.
