(* Solve4_proofs.v -- the facts about solve() and set() in the form in which Props_Solver.v states them *)
From Coq Require Import Reals Qreals Lra.
From Verif Require Import Base Lib Sx Utils Tableau Opts Model Ocp Problem Numeric Rk4 Results Solver Spec Fesd Spec2 Spec3 Spec4 Spec5
  Con_proofs Index3_proofs Solve_proofs Solve2_proofs Init_proofs Init2_proofs Start_proofs Progress_proofs
  Set_proofs Hist_proofs Field_proofs Field2_proofs Sigma_proofs Polish_proofs Param_proofs Fix_proofs Solve3_proofs.
Local Open Scope nat_scope.

Section Con.
Variables (lr : Q -> Q -> Q -> nat) (cp : nat -> scheme -> list Q) (d : ipopt_dict)
  (o : opts) (m : model) (oc : option ocp) (C : constructed).
Hypothesis H : construct_problem lr cp d o m oc = Ok C.
Notation O := (the_opts C).
Notation P := (the_problem C).
Notation PM := (pr_pm (cn_prob C)).
Notation W := (w (the_nlp C)).

Lemma blocks_len s : sized C m s -> length (concat (ss_pval s)) = length (concat (map (fun c => map (SPst c) (seq 0 (m_npt m + m_npg m))) (seq 0 (o_N_stages O)))).
Proof.
  intros Z. pose proof (sz_rows _ _ _ Z) as R. rewrite <- (sz_pval _ _ _ Z). clear Z. generalize 0 at 2.
  induction (ss_pval s) as [|r l IH]; intros n; [reflexivity|]. cbn. rewrite !app_length, map_length, seq_length, (R r) by (left; reflexivity). f_equal.
  apply IH. intros r' Hr. apply R. right. exact Hr.
Qed.
(* sigma and tau stand where the symbols sigma and tau stand *)
Lemma sigma_place s : sized C m s -> nth_error (p_p P) (length (concat (ss_pval s))) = Some SSigma /\
  nth_error (p_p P) (S (length (concat (ss_pval s)))) = Some STau.
Proof.
  intros Z. rewrite (p_layout _ _ _ _ _ _ _ H), (blocks_len s Z). set (a := concat _). split.
  - rewrite nth_error_app2 by lia. rewrite Nat.sub_diag. reflexivity.
  - rewrite nth_error_app2 by lia. replace (S (length a) - length a) with 1 by lia. reflexivity.
Qed.

Lemma solve_sigma nlp s s' out : solve nlp C s = (s', Ok out) -> sized C m s -> (0 < Q2R (o_sigma_0 O))%R -> (0 < Q2R (o_slope O) < 1)%R ->
  (forall k h, nth_error (so_steps out) k = Some h ->
     (exists i, nth_error (p_p P) i = Some SSigma /\ nth_error (nc_p (hs_call h)) i = Some (hs_sigma h)) /\
     hs_sigma h = sigma_at O k /\ (0 < hs_sigma h)%R /\ (o_rule O = Linear -> hs_sigma h = Q2R (o_sigma_0 O) * Q2R (o_slope O) ^ k)%R) /\
  (forall i j h h', i < j -> nth_error (so_steps out) i = Some h -> nth_error (so_steps out) j = Some h' -> (hs_sigma h' < hs_sigma h)%R) /\
  (o_rule O = Superlinear -> forall k h h', nth_error (so_steps out) k = Some h -> nth_error (so_steps out) (S k) = Some h' ->
     (Q2R (o_sigma_N O) <= hs_sigma h')%R /\ ((Q2R (o_sigma_N O) < hs_sigma h')%R -> (hs_sigma h' <= Q2R (o_slope O) * hs_sigma h)%R)).
Proof.
  intros E Z S0 Sl. destruct (solve_passes _ _ _ _ _ _ _ _ _ _ _ H (max_iter_pos _ _ _ _ _ _ _ H) E) as (s1 & lam & w1 & lb & ub & _ & _ & PA & _).
  split; [|split].
  - intros k h Hk. split; [|split; [|split]].
    + exists (length (concat (ss_pval s))). split; [apply sigma_place, Z|]. destruct (pa_call _ _ _ _ _ _ _ _ _ PA _ _ Hk) as (_ & _ & _ & _ & _ & ->).
      rewrite nth_error_app2 by lia. rewrite Nat.sub_diag. reflexivity.
    + apply (pass_sigma _ _ _ _ _ _ _ _ _ PA S0 (proj1 Sl)). exact Hk.
    + eapply (pass_pos _ _ _ _ _ _ _ _ _ PA S0 (proj1 Sl)). exact Hk.
    + intros L. rewrite <- (sigma_linear _ _ L). apply (pass_sigma _ _ _ _ _ _ _ _ _ PA S0 (proj1 Sl)). exact Hk.
  - intros i j h h' Hij Hi Hj. apply (pass_decreasing _ _ _ _ _ _ _ _ _ PA S0 (proj1 Sl) (j - S i) (proj2 Sl) i h h' Hi). replace (i + S (j - S i)) with j by lia. exact Hj.
  - intros L k h h' Hk Hk'. split.
    + eapply (pass_super _ _ _ _ _ _ _ _ _ PA S0 (proj1 Sl)); eassumption.
    + intros A. eapply (pass_rate _ _ _ _ _ _ _ _ _ PA S0 (proj1 Sl)); eassumption.
Qed.

Lemma solve_count nlp s s' out : solve nlp C s = (s', Ok out) ->
  1 <= length (so_steps out) <= o_max_iter_homotopy O /\
  ss_calls s' = ss_calls s + length (so_steps out) + (if o_do_polishing O then o_N_stages O else 0) /\
  (forall k h, nth_error (so_steps out) k = Some h -> nlp (ss_calls s + k) (hs_call h) = Ok (hs_ret h)) /\
  (forall k h, nth_error (so_steps out) k = Some h -> S k < length (so_steps out) -> ~ stops O h) /\
  (forall h, last_is (so_steps out) h -> length (so_steps out) < o_max_iter_homotopy O -> stops O h) /\
  (forall k h rho, nth_error (so_steps out) k = Some h -> primal C rho = nr_x (hs_ret h) -> parameters C rho = nc_p (hs_call h) -> hs_comp h = comp_residual C rho) /\
  length (so_w_all out) = length (so_steps out) + 1.
Proof.
  intros E. destruct (solve_passes _ _ _ _ _ _ _ _ _ _ _ H (max_iter_pos _ _ _ _ _ _ _ H) E) as (s1 & lam & w1 & lb & ub & _ & _ & PA & WA).
  destruct (solve_last _ _ _ _ _ _ _ H nlp s s' out E) as (NC & _).
  split; [split; [apply (pa_nonempty _ _ _ _ _ _ _ _ _ PA)|apply (pa_bounded _ _ _ _ _ _ _ _ _ PA)]|]. split; [exact NC|].
  split; [intros k h Hk; apply (pa_call _ _ _ _ _ _ _ _ _ PA _ _ Hk)|].
  split. { intros k h Hk L. destruct (nth_error (so_steps out) (S k)) as [h'|] eqn:E'; [|apply nth_error_None in E'; lia].
    apply (pa_next _ _ _ _ _ _ _ _ _ PA _ _ _ Hk E'). }
  split; [apply (pa_last _ _ _ _ _ _ _ _ _ PA)|]. split; [apply (pa_comp _ _ _ _ _ _ _ _ _ PA)|].
  rewrite WA. cbn [length]. rewrite map_length. lia.
Qed.

Lemma solve_status nlp s s' out : solve nlp C s = (s', Ok out) -> 
  exists c r, nlp (ss_calls s' - 1) c = Ok r /\ (so_status out = SUCCESS <-> accepted (nr_status r)).
Proof. intros E. destruct (solve_last _ _ _ _ _ _ _ H nlp s s' out E) as (_ & _ & _ & c & r & A1 & _ & A3 & _). eauto. Qed.

(* parameters of the next solve *)
Lemma next_parameters nlp s s' out : solve nlp C s = (s', Ok out) -> forall h, In h (so_steps out) ->
  exists rest, nc_p (hs_call h) = concat (ss_pval s) ++ rest.
Proof.
  intros E h Hh. destruct (solve_passes _ _ _ _ _ _ _ _ _ _ _ H (max_iter_pos _ _ _ _ _ _ _ H) E) as (s1 & lam & w1 & lb & ub & _ & _ & PA & _).
  apply In_nth_error in Hh. destruct Hh as [k Hk]. destruct (pa_call _ _ _ _ _ _ _ _ _ PA _ _ Hk) as (_ & _ & _ & _ & _ & ->). eauto.
Qed.
Lemma last_state nlp l a : history nlp C (l ++ [a]) = act nlp C (history nlp C l) a.
Proof. unfold history. rewrite fold_left_app. reflexivity. Qed.
Lemma global_solved nlp l v s' out : (forall a, In a l -> right_shape C m a) -> length v = m_npg m ->
  solve nlp C (history nlp C (l ++ [ASet (SetPGlobal v)])) = (s', Ok out) ->
  forall h, In h (so_steps out) -> exists rest, nc_p (hs_call h) = concat (with_p_global m v (ss_pval (history nlp C l))) ++ rest.
Proof.
  intros R L E h Hh. pose proof (history_sized _ _ _ _ _ _ _ H nlp l R) as Z. rewrite last_state in E. cbn [act] in E.
  rewrite (set_p_global_rows _ _ _ _ _ _ _ H v _ Z L) in E. cbn [fst] in E. exact (next_parameters nlp _ s' out E h Hh).
Qed.
Lemma time_var_solved nlp l v s' out : (forall a, In a l -> right_shape C m a) -> length v = o_N_stages O -> (forall r, In r v -> length r = m_npt m) ->
  solve nlp C (history nlp C (l ++ [ASet (SetPTimeVar v)])) = (s', Ok out) ->
  forall h, In h (so_steps out) -> exists rest, nc_p (hs_call h) = concat (with_p_time_var m v (ss_pval (history nlp C l))) ++ rest.
Proof.
  intros R L Lr E h Hh. pose proof (history_sized _ _ _ _ _ _ _ H nlp l R) as Z. rewrite last_state in E. cbn [act] in E.
  rewrite (set_p_time_var_rows _ _ _ _ _ _ _ H v _ Z L Lr) in E. cbn [fst] in E. exact (next_parameters nlp _ s' out E h Hh).
Qed.

(* polishing: bounds of the NLP *)
Lemma polish_pins nlp lam v s s' q : length v = length W -> polish_solution nlp C lam v s = (s', Ok q) ->
  exists c r, nlp (ss_calls s' - 1) c = Ok r /\ po_w q = nr_x r /\ nc_x0 c = v /\
  forall i y x, nth_error W i = Some y -> nth_error v i = Some x ->
    let eps := (10 * Q2R (o_comp_tol O))%R in
    (multiplier y /\ (Rabs (x - 1) < eps)%R -> nth_error (nc_lbx c) i = Some (Fin 1) /\ nth_error (nc_ubx c) i = Some (Fin 1)) /\
    (multiplier y /\ ~ (Rabs (x - 1) < eps)%R /\ (x < eps)%R -> nth_error (nc_lbx c) i = Some (Fin 0) /\ nth_error (nc_ubx c) i = Some (Fin 0)) /\
    (~ multiplier y \/ (~ (Rabs (x - 1) < eps)%R /\ ~ (x < eps)%R) ->
       nth_error (nc_lbx c) i = nth_error (lbw (the_nlp C)) i /\ nth_error (nc_ubx c) i = nth_error (ubw (the_nlp C)) i).
Proof.
  intros Lv E. pose proof (stages_pos_con _ _ _ _ _ _ _ H) as SP.
  assert (U : forall y, In y W -> ~ unknown_to_polish y).
  { apply (polish_check_exact _ _ _ _ _ _ _ H v Lv). destruct (polish_check P v) eqn:K; [reflexivity|exfalso].
    rewrite polish_unfold in E. unfold sbind at 1 in E. unfold lift at 1 in E. change (pr (cn_prob C)) with P in E. rewrite K in E. discriminate E. }
  destruct (polish_ok _ _ _ _ _ _ _ E) as (NC & [(c & r & B1 & B2 & _ & B4 & _ & _ & _ & B5)]).
  exists c, r. split. { rewrite NC. replace (ss_calls s + o_N_stages O - 1) with (ss_calls s + (o_N_stages O - 1)) by lia. exact B1. }
  split; [exact B2|]. split; [exact B4|]. intros i y x Hi Hx. apply (polish_bounds_exact _ _ _ _ _ _ _ H v _ _ Lv B5 i y x Hi Hx). apply U. eapply nth_error_In. exact Hi.
Qed.

(* whatever the initialization strategy *)
Lemma init_lam s s1 lam : initialize C s = (s1, Ok lam) -> compute_lambda00 PM (ss_x0 s) (ss_pval s) = Ok lam.
Proof.
  intros E. unfold initialize in E. cbv zeta in E. apply sbind_ok in E. destruct E as (s2 & a & E1 & E). apply sget_ok in E1. destruct E1 as [<- <-].
  apply sbind_ok in E. destruct E as (s3 & l & E1 & E). apply lift_ok in E1. destruct E1 as [-> E1].
  apply sbind_ok in E. destruct E as (s4 & u & _ & E). apply sret_ok in E. destruct E as [_ <-]. exact E1.
Qed.
Lemma init_len s s1 lam : sized C m s -> initialize C s = (s1, Ok lam) -> length (ss_w0 s1) = length W.
Proof. intros Z E. pose proof (keeps_out _ _ _ _ _ (initialize_len C) E) as (_ & _ & L). rewrite L. apply Z. Qed.
Lemma lam_len s lam : well_sized m -> (o_pss O = Step -> gS_given m = false) -> sized C m s -> compute_lambda00 PM (ss_x0 s) (ss_pval s) = Ok lam -> length lam = length (FeZero_proofs.lam0 O PM).
Proof. intros WS GS Z EL. destruct (lam_ok _ _ _ _ _ _ _ H s WS GS Z) as (lam' & EL' & Ll). congruence. Qed.
Lemma any_start nlp s s' out : solve nlp C s = (s', Ok out) -> well_sized m -> (o_pss O = Step -> gS_given m = false) -> sized C m s ->
  exists s1 lam, initialize C s = (s1, Ok lam) /\ compute_lambda00 PM (ss_x0 s) (ss_pval s) = Ok lam /\ starts_from C m lam (ss_w0 s1) out /\
  so_w_all out = ss_w0 s1 :: map (fun h => nr_x (hs_ret h)) (so_steps out).
Proof.
  intros E WS GS Z. destruct (solve_passes _ _ _ _ _ _ _ _ _ _ _ H (max_iter_pos _ _ _ _ _ _ _ H) E) as (s1 & lam & w1 & lb & ub & Ei & Es & PA & Ew).
  exists s1, lam. split; [exact Ei|]. pose proof (init_lam _ _ _ Ei) as EL. split; [exact EL|]. split; [|exact Ew].
  destruct (start_ok _ _ _ _ _ _ _ H lam (ss_w0 s1)) as (w1' & lb' & ub' & Es' & L1 & _ & _ & G).
  { intros Ep. rewrite (lam_len s lam WS GS Z EL), (lam0_len _ _ _ _ _ _ _ H), Ep. reflexivity. }
  { exact (init_len _ _ _ Z Ei). }
  rewrite Es in Es'. injection Es' as <- <- <-.
  destruct (nth_error_lt (so_steps out) 0) as [h Hh]. { apply (pa_nonempty _ _ _ _ _ _ _ _ _ PA). }
  exists h. split; [exact Hh|]. rewrite (proj2 (pa_first _ _ _ _ _ _ _ _ _ PA h Hh)). split; [exact L1|]. cbv zeta in *.
  intros i y Hy. destruct (G i y Hy) as [G1 G2]. split; intros Q; [apply (proj1 (G1 Q))|apply (proj1 (G2 Q))].
Qed.

(* fix_active_set_fe0: bounds of every pass *)
Lemma pass_bounds nlp s s' out : solve nlp C s = (s', Ok out) -> well_sized m -> (o_pss O = Step -> gS_given m = false) -> sized C m s ->
  exists lam, compute_lambda00 PM (ss_x0 s) (ss_pval s) = Ok lam /\ forall h, In h (so_steps out) ->
  let fix_it := o_fix_active_set_fe0 O = true /\ o_pss O = Stewart in
  nc_p (hs_call h) = concat (ss_pval s) ++ [hs_sigma h; hs_tau h] ++ lam ++ ss_x0 s /\
  length (nc_lbx (hs_call h)) = length W /\ length (nc_ubx (hs_call h)) = length W /\
  forall i y, nth_error W i = Some y ->
    (fix_it /\ excluded C m lam y -> nth_error (nc_lbx (hs_call h)) i = Some (Fin 0) /\ nth_error (nc_ubx (hs_call h)) i = Some (Fin 0)) /\
    (~ (fix_it /\ excluded C m lam y) -> nth_error (nc_lbx (hs_call h)) i = nth_error (lbw (the_nlp C)) i /\ nth_error (nc_ubx (hs_call h)) i = nth_error (ubw (the_nlp C)) i).
Proof.
  intros E WS GS Z. destruct (solve_passes _ _ _ _ _ _ _ _ _ _ _ H (max_iter_pos _ _ _ _ _ _ _ H) E) as (s1 & lam & w1 & lb & ub & Ei & SV & PA & WA).
  pose proof (init_lam _ _ _ Ei) as EL. exists lam. split; [exact EL|]. intros h Hh fix_it. apply In_nth_error in Hh. destruct Hh as [k Hk].
  destruct (pa_call _ _ _ _ _ _ _ _ _ PA _ _ Hk) as (_ & -> & -> & _ & _ & ->). split; [reflexivity|].
  destruct (start_ok _ _ _ _ _ _ _ H lam (ss_w0 s1)) as (w1' & lb' & ub' & F & _ & L1 & L2 & B).
  { intros Ep. rewrite (lam_len s lam WS GS Z EL), (lam0_len _ _ _ _ _ _ _ H), Ep. reflexivity. }
  { exact (init_len _ _ _ Z Ei). }
  rewrite SV in F. injection F as <- <- <-. split; [exact L1|]. split; [exact L2|]. intros i y Hi. destruct (B i y Hi) as [B1 B2]. split.
  - intros X. destruct (B1 X) as (_ & X1 & X2). auto.
  - intros X. destruct (B2 X) as (_ & X1 & X2). auto.
Qed.

(* the parameters of every pass *)
Lemma pass_parameters nlp s s' out : solve nlp C s = (s', Ok out) -> well_sized m -> sized C m s ->
  o_pss O = Stewart \/ (gS_given m = false /\ n_subsystems m = 1) ->
  forall h, In h (so_steps out) -> Forall2 (belongs C m s (hs_sigma h) (hs_tau h)) (p_p P) (nc_p (hs_call h)).
Proof.
  intros E WS Z HS h Hh. assert (GS : o_pss O = Step -> gS_given m = false) by (intros PS; destruct HS as [HS|[HS _]]; [congruence|exact HS]).
  destruct (pass_bounds nlp s s' out E WS GS Z) as (lam & EL & B). destruct (B h Hh) as (-> & _).
  apply (params_belong _ _ _ _ _ _ _ H); assumption.
Qed.
Lemma solve_chain nlp s s' out : solve nlp C s = (s', Ok out) -> well_sized m -> (o_pss O = Step -> gS_given m = false) -> sized C m s ->
  (exists s1 lam, initialize C s = (s1, Ok lam) /\ compute_lambda00 PM (ss_x0 s) (ss_pval s) = Ok lam /\ starts_from C m lam (ss_w0 s1) out /\
     so_w_all out = ss_w0 s1 :: map (fun h => nr_x (hs_ret h)) (so_steps out)) /\
  (forall k h h', nth_error (so_steps out) k = Some h -> nth_error (so_steps out) (S k) = Some h' -> nc_x0 (hs_call h') = nr_x (hs_ret h)) /\
  exists c r, nlp (ss_calls s' - 1) c = Ok r /\ so_w_sol out = nr_x r /\
    (o_do_polishing O = false -> exists h, last_is (so_steps out) h /\ hs_call h = c /\ hs_ret h = r) /\
    (o_do_polishing O = true -> exists h, last_is (so_steps out) h /\ nc_x0 c = nr_x (hs_ret h)).
Proof.
  intros E WS GS Z. split; [exact (any_start nlp s s' out E WS GS Z)|].
  destruct (solve_passes _ _ _ _ _ _ _ _ _ _ _ H (max_iter_pos _ _ _ _ _ _ _ H) E) as (s1 & lam & w1 & lb & ub & Ei & _ & PA & WA).
  split; [intros k h h' A B; apply (pa_next _ _ _ _ _ _ _ _ _ PA _ _ _ A B)|].
  destruct (solve_last _ _ _ _ _ _ _ H nlp s s' out E) as (NC & _ & _ & c & r & A1 & A2 & A3 & A4 & A5).
  destruct (o_do_polishing O) eqn:EP.
  - destruct (A5 eq_refl) as (h & q & lam2 & s2 & L1 & L2 & L3 & L4 & L5). destruct L5 as [(c' & r' & B1 & B2 & B3 & B4 & _)].
    exists c', r'. split. { rewrite NC. pose proof (stages_pos_con _ _ _ _ _ _ _ H) as SP. replace (ss_calls s + length (so_steps out) + o_N_stages O - 1) with (ss_calls s + length (so_steps out) + (o_N_stages O - 1)) by lia. exact B1. }
    split; [congruence|]. split; [discriminate|]. intros _. exists h. auto.
  - exists c, r. split; [exact A1|]. split; [exact A2|]. split; [exact A4|discriminate].
Qed.
End Con.
