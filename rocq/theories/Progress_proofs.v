(* Progress_proofs.v -- solve() runs to the end when the NLP solver answers *)
From Coq Require Import Reals Qreals Lra Permutation.
From Verif Require Import Base Lib Sx Sx_proofs Utils Tableau Opts Model Ocp Problem Numeric Rk4 Results Solver Spec Fesd Spec2 Spec3 Spec4 Spec5
  FeMake_proofs FeZero_proofs Prob_proofs Body_proofs Model_proofs Con_proofs Index_proofs Index2_proofs Index3_proofs Nlp_proofs Feas_proofs Lam_proofs Accept_proofs
  Results_proofs Results2_proofs Results4_proofs Results5_proofs Solve_proofs Solve2_proofs Vec_proofs Syms_proofs Init_proofs Init2_proofs Start_proofs.

(* ---- the relaxation parameter ---- *)
Lemma next_sigma_pos o s : (0 < Q2R (o_slope o))%R -> (0 < s)%R -> (0 < next_sigma o s)%R.
Proof.
  intros Hs S. unfold next_sigma. destruct (o_rule o).
  - apply Rmult_lt_0_compat; assumption.
  - eapply Rlt_le_trans; [|apply Rmax_r]. apply Rmin_glb_lt; [apply Rmult_lt_0_compat; assumption|apply exp_pos].
Qed.

Lemma mem_in i l : mem i l = true <-> In i l.
Proof.
  unfold mem. rewrite existsb_exists. split; [intros (x & Hx & Ex); apply Nat.eqb_eq in Ex; subst; exact Hx|intros Hx; exists i; split; [exact Hx|apply Nat.eqb_refl]].
Qed.
Lemma flat2_is P f : flat2_indices P f = flat3 (concat (p_ind2 P f)).
Proof. reflexivity. Qed.
Lemma flat1_is P f : flat1_indices P f = flat3 (p_ind1 P f).
Proof. reflexivity. Qed.

Section Con.
Variables (lr : Q -> Q -> Q -> nat) (cp : nat -> scheme -> list Q) (d : ipopt_dict)
  (o : opts) (m : model) (oc : option ocp) (C : constructed).
Hypothesis H : construct_problem lr cp d o m oc = Ok C.
Notation O := (the_opts C).
Notation P := (the_problem C).
Notation W := (w (the_nlp C)).
Notation E := (explicit_end C).
Notation PM := (pr_pm (cn_prob C)).

(* ---- the check of polish_solution ---- *)
Lemma handled i : In i (ind_set P ++ ind_dont_set P) <-> i < length W /\ ~ In i (concat (p_ind_sot P) ++ concat (ind_bool (pb P)) ++ flat3 (p_ind_bool P)).
Proof.
  destruct (partition_exact _ _ _ _ _ _ _ H) as [ND IN].
  set (L := ind_set P ++ ind_dont_set P). set (M := concat (p_ind_sot P) ++ concat (ind_bool (pb P)) ++ flat3 (p_ind_bool P)).
  assert (PM : Permutation (published P) (L ++ M)).
  { unfold published, L, M, ind_set, ind_dont_set. cbn [map concat]. rewrite !flat2_is, !flat1_is, !app_nil_r.
    generalize (concat (p_ind_el P)) (concat (p_ind_vg P)) (concat (p_ind_u P)) (concat (p_ind_sot P)) (p_ind_h P) (flat3 (p_ind1 P FX)) (flat3 (p_ind1 P FV)) (flat3 (p_ind1 P FZ))
      (flat3 (concat (p_ind2 P FTheta))) (flat3 (concat (p_ind2 P FLam))) (flat3 (concat (p_ind2 P FMu))) (flat3 (concat (p_ind2 P FAlpha)))
      (flat3 (concat (p_ind2 P FLn))) (flat3 (concat (p_ind2 P FLp))) (concat (ind_bool (pb P))) (flat3 (p_ind_bool P)).
    clear. intros el vg u so h x v z th la mu al ln lp b1 b2.
    apply (Permutation_count_occ Nat.eq_dec). intros i. rewrite !count_occ_app. lia. }
  rewrite <- IN. split.
  - intros Hi. split; [eapply Permutation_in; [symmetry; exact PM|apply in_or_app; left; exact Hi]|].
    intros Hm. pose proof (Permutation_NoDup PM ND) as N2. clear - N2 Hi Hm. induction L as [|a L IH]; [destruct Hi|]. cbn in N2. inversion N2; subst.
    destruct Hi as [->|Hi]; [apply H1, in_or_app; right; exact Hm|auto].
  - intros [Hi N]. apply (Permutation_in _ PM) in Hi. apply in_app_or in Hi. destruct Hi; [assumption|contradiction].
Qed.

Lemma polish_check_iff v : length v = length W ->
  (polish_check P v = true <-> concat (p_ind_sot P) = [] /\ concat (ind_bool (pb P)) = [] /\ flat3 (p_ind_bool P) = []).
Proof.
  intros Lv. unfold polish_check. rewrite forallb_forall. set (M := concat (p_ind_sot P) ++ concat (ind_bool (pb P)) ++ flat3 (p_ind_bool P)).
  assert (PB : forall i, In i M -> i < length W).
  { intros i Hi. apply (partition_exact _ _ _ _ _ _ _ H). unfold published, M in *. rewrite !in_app_iff in *. tauto. }
  split.
  - intros A. assert (N : M = []).
    { destruct M as [|i M'] eqn:EM; [reflexivity|]. exfalso. assert (Hi : In i (i :: M')) by (left; reflexivity).
      specialize (A i). rewrite Lv in A. specialize (A ltac:(apply in_seq; specialize (PB i Hi); lia)). apply mem_in, handled in A.
      destruct A as [_ A]. apply A. fold M. rewrite EM. exact Hi. }
    unfold M in N. apply app_eq_nil in N. destruct N as [N1 N]. apply app_eq_nil in N. destruct N as [N2 N3]. auto.
  - intros (N1 & N2 & N3) i Hi. apply in_seq in Hi. apply mem_in, handled. split; [lia|]. unfold M. rewrite N1, N2, N3. intros [].
Qed.
Lemma polish_check_ok v : length v = length W -> o_sot O = SotNone -> o_mpcc O <> MBoolean -> polish_check P v = true.
Proof.
  intros Lv So Mb. apply (polish_check_iff v Lv). pose proof (idx_sot_con _ _ _ _ _ _ _ H) as IS. rewrite So in IS. rewrite IS.
  destruct (no_bool _ _ _ _ _ _ _ H Mb) as [B1 B2]. split; [reflexivity|]. split; apply length_zero_iff_nil; assumption.
Qed.

(* ---- the homotopy loop ---- *)
Lemma homotopy_total nlp lam lb ub : answers C nlp -> (0 < Q2R (o_slope O))%R -> length lam = length (lam0 O PM) -> forall n sg w0 s,
  (0 < sg)%R -> sized C m s -> exists s' l, homotopy nlp C lam lb ub n sg w0 s = (s', Ok l) /\ sized C m s' /\
    forall h, In h l -> length (nr_x (hs_ret h)) = length W.
Proof.
  intros A Sl Ll. induction n as [|n IH]; intros sg w0 s Hsg Z; cbn [homotopy].
  { exists s, []. split; [reflexivity|]. split; [exact Z|]. intros h []. }
  unfold sbind at 1. unfold sget at 1. unfold sbind at 1. unfold lift at 1. rewrite py_pow_pos by exact Hsg. cbv zeta.
  set (c := mkCall _ _ _ _ _ _). destruct (A (ss_calls s) c) as (r & Er & Lr).
  unfold sbind at 1. unfold call_nlp at 1. rewrite Er. unfold sbind at 1. unfold lift at 1.
  destruct (comp_total _ _ _ _ _ _ _ H (nr_x r) (setup_p_val s lam sg (Rmin (Rpower sg (Q2R (3 # 2))) sg)) Lr) as (rho & _ & _ & Ec).
  { apply (p_len _ _ _ _ _ _ _ H); assumption. }
  rewrite Ec. set (st := mkStep _ _ _ _ _). set (s1 := mkState _ _ _ _).
  assert (Z1 : sized C m s1). { destruct Z as [A1 A2 A3 A4]. split; assumption. }
  assert (ONE : exists s' l, sret [st] s1 = (s', Ok l) /\ sized C m s' /\ forall h, In h l -> length (nr_x (hs_ret h)) = length W).
  { exists s1, [st]. split; [reflexivity|]. split; [exact Z1|]. intros h [<-|[]]. exact Lr. }
  destruct (Rltb _ _); [exact ONE|]. destruct (Rleb _ _); [exact ONE|].
  unfold sbind at 1. unfold lift at 1. change (pr_o (cn_prob C)) with O. rewrite update_pos by exact Hsg.
  destruct (IH (next_sigma O sg) (nr_x r) s1 (next_sigma_pos O sg Sl Hsg) Z1) as (s' & l & E1 & Z' & Hl).
  unfold sbind. rewrite E1. exists s', (st :: l). split; [reflexivity|]. split; [exact Z'|]. intros h [<-|Hh]; [exact Lr|apply Hl, Hh].
Qed.

(* ---- polishing ---- *)
Lemma theta_touch v c e : extractable O m -> length v = length W -> In (c, e) (elements O) ->
  exists l1 l2, nth_error (p_ind2 P FTheta) c = Some l1 /\ nth_error l1 e = Some l2 /\ touch_theta v l2 = Ok tt.
Proof.
  intros (_ & U & _) Lv He. destruct (elements_fe _ _ _ _ _ _ _ H _ He) as (F1 & F2 & F3). cbn [fst snd] in *.
  destruct (proj2 (proj2 (shapes_con _ _ _ _ _ _ _ H)) FTheta) as [L S]. destruct (S c F1) as (l1 & E1 & E2 & _).
  rewrite F2 in E2. injection E2 as E2. destruct (nth_error_lt l1 e) as [l2 E3]; [lia|]. exists l1, l2. split; [exact E1|]. split; [exact E3|].
  assert (Hat : at2 (p_ind2 P FTheta) c e = Some l2) by (unfold at2; rewrite E1; exact E3).
  destruct (row2 _ _ _ _ _ _ _ H FTheta (c, e) l2 He Hat) as [La Hr]. cbn [fst snd] in La, Hr.
  assert (R1 : forall r, In r l2 -> length r = n_subsystems m).
  { intros r Hin. apply In_nth_error in Hin. destruct Hin as [j Hj]. destruct (Hr j) as (r' & Hj' & Lr & _); [rewrite <- La; eapply nth_error_Some_lt; eassumption|].
    rewrite Hj in Hj'. injection Hj' as <-. exact Lr. }
  assert (R2 : forall idx, In idx (concat l2) -> exists j s, s < n_subsystems m /\ sel W idx = Ok (map (S2 FTheta c e j s) (seq 0 (dim2 O m FTheta s)))).
  { intros idx Hin. apply in_concat in Hin. destruct Hin as (r & Hin & Hi). pose proof (R1 r Hin) as Lr. apply In_nth_error in Hin. destruct Hin as [j Hj].
    destruct (Hr j) as (r' & Hj' & _ & Hs); [rewrite <- La; eapply nth_error_Some_lt; eassumption|]. rewrite Hj in Hj'. injection Hj' as <-.
    apply In_nth_error in Hi. destruct Hi as [s Hi]. pose proof (nth_error_Some_lt _ _ _ Hi) as Ls. rewrite Lr in Ls. destruct (Hs s Ls) as (idx' & Hi' & Sl).
    rewrite Hi in Hi'. injection Hi' as <-. exists j, s. split; [exact Ls|exact Sl]. }
  assert (R3 : exists n, forall s, s < n_subsystems m -> dim2 O m FTheta s = n).
  { unfold dim2. destruct (o_pss O) eqn:Ep; [|exists 0; reflexivity]. exists (n_modes m 0). intros s Hs. apply (U eq_refl); [exact Hs|]. lia. }
  destruct R3 as [n Hn]. unfold touch_theta. rewrite (all_len_eq_intro (n_subsystems m) l2 R1).
  rewrite (all_len_eq_intro n). 2: { intros idx Hi. destruct (R2 idx Hi) as (j & s & Hs & Sl). apply sel_length in Sl. rewrite map_length, seq_length, Hn in Sl by exact Hs. congruence. }
  cbn [andb guard bind]. destruct (mapM_ex (gather v) (concat l2)) as [r Er]; [|rewrite Er; reflexivity].
  intros idx Hi. destruct (R2 idx Hi) as (j & s & Hs & Sl). apply sel_ok in Sl. unfold gather. apply mapM_ex. intros i Hin.
  apply In_nth_error in Hin. destruct Hin as [k Hk]. destruct (Forall2_nth _ _ _ _ _ Sl Hk) as (y & _ & Hy). unfold nthE.
  destruct (nth_error_lt v i) as [x Hx]; [rewrite Lv; eapply nth_error_Some_lt; eassumption|]. rewrite Hx. eauto.
Qed.

Lemma polish_stage_total nlp lam lb ub v c s : extractable O m -> answers C nlp -> length lam = length (lam0 O PM) -> length v = length W ->
  sized C m s -> c < o_N_stages O -> exists s' q, polish_stage nlp C lam lb ub v c s = (s', Ok q) /\ sized C m s' /\
    length (po_w q) = length W /\ ss_calls s' = S (ss_calls s) /\
    (exists r, nlp (ss_calls s) (mkCall v lb ub (lbg (the_nlp C)) (ubg (the_nlp C)) (setup_p_val s lam 0 0)) = Ok r /\ po_w q = nr_x r /\ po_status q = nr_status r).
Proof.
  intros X A Ll Lv Z Hc. destruct (nfe_of_nth _ _ _ _ _ _ _ H c Hc) as [En Hn]. unfold polish_stage.
  unfold sbind at 1. unfold lift at 1, nthE at 1. change (pr_o (cn_prob C)) with O. rewrite En.
  assert (T : forall l, (forall e, In e l -> In (c, e) (elements O)) -> sfor (fun e => dos l1 <- lift (nthE EIndexError (p_ind2 P FTheta) c);
                          dos l2 <- lift (nthE EIndexError l1 e); lift (touch_theta v l2)) l s = (s, Ok tt)).
  { induction l as [|e l IH]; intros Hl; [reflexivity|]. cbn [sfor]. destruct (theta_touch v c e X Lv) as (l1 & l2 & E1 & E2 & E3); [apply Hl; left; reflexivity|].
    unfold sbind at 1. unfold sbind at 1. unfold lift at 1, nthE at 1. rewrite E1. unfold sbind at 1. unfold lift at 1, nthE at 1. rewrite E2. unfold lift at 1. rewrite E3.
    apply IH. intros e' He'. apply Hl. right. exact He'. }
  change (pr (cn_prob C)) with P. unfold sbind at 1. rewrite T.
  2: { intros e He. apply in_seq in He. apply elements_in. cbn. split; [exact Hc|lia]. }
  unfold sbind at 1. unfold sget at 1. cbv zeta. set (cl := mkCall _ _ _ _ _ _). destruct (A (ss_calls s) cl) as (r & Er & Lr).
  unfold sbind at 1. unfold call_nlp at 1. rewrite Er. unfold sbind at 1. unfold lift at 1.
  destruct (comp_total _ _ _ _ _ _ _ H (nr_x r) (setup_p_val s lam 0 0) Lr) as (rho & _ & _ & Ec). { apply (p_len _ _ _ _ _ _ _ H); assumption. }
  rewrite Ec. unfold sret. do 2 eexists. split; [reflexivity|]. split; [destruct Z as [A1 A2 A3 A4]; split; assumption|]. split; [exact Lr|]. split; [reflexivity|].
  exists r. split; [reflexivity|]. split; reflexivity.
Qed.
Lemma fixed_bound cond v i : In i (fixed_indices P cond v) -> i < length v.
Proof.
  unfold fixed_indices. intros Hi. apply in_map_iff in Hi. destruct Hi as ([k x] & <- & Hf). apply filter_In in Hf. destruct Hf as [Hf _].
  apply enum_nth in Hf. eapply nth_error_Some_lt; eassumption.
Qed.
Lemma polish_bounds_total v : length v = length W -> exists b, polish_bounds O P v = Ok b.
Proof.
  intros Lv. destruct (lengths_con _ _ _ _ _ _ _ H) as [[(L1 & L2 & _) _] _]. unfold polish_bounds.
  set (i0 := fixed_indices _ _ _). set (i1 := fixed_indices _ _ _).
  assert (B0 : forall i, In i i0 -> i < length W) by (intros i Hi; rewrite <- Lv; eapply fixed_bound; exact Hi).
  assert (B1 : forall i, In i i1 -> i < length W) by (intros i Hi; rewrite <- Lv; eapply fixed_bound; exact Hi).
  destruct (all_write (lbw (pb P)) i0 (Fin 0)) as (l0 & A1 & A2 & _). { intros i Hi. specialize (B0 i Hi). unfold the_nlp in *. lia. }
  destruct (all_write (ubw (pb P)) i0 (Fin 0)) as (u0 & A3 & A4 & _). { intros i Hi. specialize (B0 i Hi). unfold the_nlp in *. lia. }
  destruct (all_write l0 i1 (Fin 1)) as (l1 & A5 & _). { intros i Hi. specialize (B1 i Hi). unfold the_nlp in *. lia. }
  destruct (all_write u0 i1 (Fin 1)) as (u1 & A6 & _). { intros i Hi. specialize (B1 i Hi). unfold the_nlp in *. lia. }
  rewrite A1. cbn [bind]. rewrite A3. cbn [bind]. rewrite A5. cbn [bind]. rewrite A6. cbn [bind]. eauto.
Qed.
Lemma polish_from_total nlp lam b v : extractable O m -> answers C nlp -> length lam = length (lam0 O PM) -> length v = length W ->
  forall l s, (forall c, In c l -> c < o_N_stages O) -> 0 < length l -> sized C m s ->
  exists s' q, polish_from (polish_stage nlp C lam (fst b) (snd b) v) l s = (s', Ok q) /\ sized C m s' /\ length (po_w q) = length W /\ ss_calls s' = ss_calls s + length l.
Proof.
  intros X A Ll Lv. induction l as [|c l IH]; intros s Hl Hp Z; [cbn in Hp; lia|].
  destruct (polish_stage_total nlp lam (fst b) (snd b) v c s X A Ll Lv Z ltac:(apply Hl; left; reflexivity)) as (s1 & q & E1 & Z1 & L1 & N1 & _).
  destruct l as [|c' l].
  - cbn [polish_from]. exists s1, q. split; [exact E1|]. split; [exact Z1|]. split; [exact L1|]. cbn [length]. lia.
  - destruct (IH s1 (fun c Hc => Hl c (or_intror Hc)) ltac:(cbn; lia) Z1) as (s' & q' & E2 & Z2 & L2 & N2).
    exists s', q'. split; [|split; [exact Z2|split; [exact L2|cbn [length] in *; lia]]]. cbn [polish_from] in *. unfold sbind. rewrite E1. exact E2.
Qed.
Lemma polish_total nlp lam v s : extractable O m -> answers C nlp -> length lam = length (lam0 O PM) -> length v = length W ->
  o_sot O = SotNone -> o_mpcc O <> MBoolean -> sized C m s ->
  exists s' q, polish_solution nlp C lam v s = (s', Ok q) /\ sized C m s' /\ length (po_w q) = length W /\ ss_calls s' = ss_calls s + o_N_stages O.
Proof.
  intros X A Ll Lv So Mb Z. rewrite polish_unfold. unfold sbind at 1. unfold lift at 1.
  change (pr (cn_prob C)) with P. change (pr_o (cn_prob C)) with O.
  rewrite (polish_check_ok v Lv So Mb). cbn [guard].
  destruct (polish_bounds_total v Lv) as [b Eb]. unfold sbind at 1. unfold lift at 1. rewrite Eb.
  destruct (polish_from_total nlp lam b v X A Ll Lv (seq 0 (o_N_stages O)) s) as (s' & q & E1 & E2 & E3 & E4).
  - intros c Hc. apply in_seq in Hc. lia.
  - rewrite seq_length. apply (stages_pos' _ _ _ _ _ _ _ H).
  - exact Z.
  - rewrite seq_length in E4. exists s', q. auto.
Qed.

(* ---- solve ---- *)
Lemma first_guess_len s : sized C m s -> length (first_guess C s) = length W.
Proof.
  intros Z. unfold first_guess, with_states. destruct (o_init O); try (rewrite overwrite_len; [reflexivity|]); exact (sz_w0 _ _ _ Z).
Qed.
Lemma lastE_in {A} e (l : list A) : 0 < length l -> exists h, lastE e l = Ok h /\ In h l.
Proof.
  intros L. unfold lastE. destruct (rev l) as [|h r] eqn:E1.
  - apply (f_equal (@length A)) in E1. rewrite rev_length in E1. cbn in E1. lia.
  - exists h. split; [reflexivity|]. apply in_rev. rewrite E1. left. reflexivity.
Qed.
Definition may_polish : Prop := o_do_polishing O = true -> o_sot O = SotNone /\ o_mpcc O <> MBoolean.

Lemma solve_total nlp s : o_init O <> Rk4Smoothened -> well_sized m -> (o_pss O = Step -> gS_given m = false) -> extractable O m ->
  (0 < Q2R (o_sigma_0 O))%R -> (0 < Q2R (o_slope O))%R -> may_polish -> sized C m s -> answers C nlp ->
  exists s' out, solve nlp C s = (s', Ok out) /\ sized C m s'.
Proof.
  intros I WS GS X S0 Sl MP Z A. pose proof X as (Hx & _).
  destruct (initialize_run _ _ _ _ _ _ _ H s I WS GS Hx Z) as (lam & _ & Ll & Ei).
  set (s1 := mkState (ss_x0 s) (ss_pval s) (first_guess C s) (ss_calls s)) in *.
  assert (Z1 : sized C m s1). { pose proof (first_guess_len s Z) as Lg. destruct Z as [A1 A2 A3 A4]. split; assumption. }
  destruct (start_ok _ _ _ _ _ _ _ H lam (first_guess C s)) as (w1 & lb & ub & Es & L1 & _).
  { intros Ep. rewrite Ll, (lam0_len _ _ _ _ _ _ _ H), Ep. reflexivity. }
  { apply first_guess_len, Z. }
  destruct (homotopy_total nlp lam lb ub A Sl Ll (o_max_iter_homotopy O) (Q2R (o_sigma_0 O)) w1 s1 S0 Z1) as (s2 & l & Eh & Z2 & Hl).
  pose proof (homotopy_loop _ _ _ _ _ _ _ _ _ _ _ Eh) as LO. pose proof (lo_some _ _ _ _ _ _ _ _ _ _ _ LO (max_iter_pos _ _ _ _ _ _ _ H)) as Np.
  destruct (lastE_in EUnboundLocal l Np) as (h & El & Hh). specialize (Hl h Hh).
  assert (PO : exists s3 pol, (if o_do_polishing O then dos q <- polish_solution nlp C lam (nr_x (hs_ret h)); sret (Some q) else sret None) s2 = (s3, Ok pol) /\
     sized C m s3 /\ length (match pol with Some q => po_w q | None => nr_x (hs_ret h) end) = length W).
  { destruct (o_do_polishing O) eqn:Ed.
    - destruct (MP Ed) as [So Mb]. destruct (polish_total nlp lam (nr_x (hs_ret h)) s2 X A Ll Hl So Mb Z2) as (s3 & q & Eq & Z3 & Lq & _).
      exists s3, (Some q). unfold sbind. rewrite Eq. auto.
    - exists s2, None. auto. }
  destruct PO as (s3 & pol & Ep & Z3 & Lw).
  destruct (results_consistent _ _ _ _ _ _ _ _ (ss_x0 s3) H X Lw) as (rs & Er & _).
  unfold solve. cbv zeta. change (pr_o (cn_prob C)) with O. change (pr (cn_prob C)) with P.
  unfold sbind at 1. rewrite Ei. unfold sbind at 1. unfold sget at 1. unfold sbind at 1. unfold lift at 1. cbn [ss_w0 s1]. unfold s1 at 1. cbn [ss_w0]. rewrite Es.
  unfold sbind at 1. fold s1. rewrite Eh. unfold sbind at 1. unfold lift at 1. rewrite El.
  unfold sbind at 1. rewrite Ep. unfold sbind at 1. unfold sget at 1. unfold sbind at 1. unfold lift at 1. rewrite Er.
  unfold sbind at 1. destruct (o_init O).
  - unfold sret at 1. do 2 eexists. split; [reflexivity|exact Z3].
  - rewrite update_w0_run. rewrite (sz_w0 _ _ _ Z3). rewrite <- Lw, bcast_same. do 2 eexists. split; [reflexivity|].
    destruct Z3 as [A1 A2 A3 A4]. split; assumption.
  - unfold sret at 1. do 2 eexists. split; [reflexivity|exact Z3].
  - unfold sret at 1. do 2 eexists. split; [reflexivity|exact Z3].
Qed.
End Con.
