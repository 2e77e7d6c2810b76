(* Fresh2_proofs.v -- with ALL_XCURRENT_WOPT_PREV a second solve may end otherwise than the first *)
From Coq Require Import Reals Qreals Lra.
From Verif Require Import Base Lib Sx Utils Tableau Opts Model Ocp Problem Numeric Rk4 Results Solver Spec Cases Fesd Spec2 Spec3 Spec4 Spec5
  Vec_proofs Init_proofs Set_proofs Hist_proofs Solve3_proofs Witness Witness3 Spec41.

(* two solves whose guesses differ at an entry that is no state *)
Lemma differs lr cp d o m oc C nlp v i y q s1 out1 s2 out2 : construct_problem lr cp d o m oc = Ok C ->
  o_init (the_opts C) = AllXcurrentWoptPrev -> well_sized m -> (o_pss (the_opts C) = Step -> gS_given m = false) -> 0 < m_nx m ->
  answers C nlp -> (forall n c r, nlp n c = Ok r -> nr_x r = v) ->
  nth_error (w (the_nlp C)) i = Some y -> nth_error (w0 (the_nlp C)) i = Some q -> (forall x0, states_at x0 y = None) -> nth_error v i <> Some (Q2R q) ->
  solve nlp C (initial_state C) = (s1, Ok out1) -> solve nlp C s1 = (s2, Ok out2) -> out1 <> out2.
Proof.
  intros H Io WS GS Hx A V Hy Hq Hn D E1 E2 <-. pose proof (initial_sized _ _ _ _ _ _ _ H) as Z0.
  assert (I : o_init (the_opts C) <> Rk4Smoothened) by (rewrite Io; discriminate).
  assert (Z1 : sized C m s1). { pose proof (act_sized _ _ _ _ _ _ _ H nlp _ ASolve Logic.I Z0) as Z'. cbn [act] in Z'. rewrite E1 in Z'. exact Z'. }
  destruct (solve_start _ _ _ _ _ _ _ H _ _ _ _ I WS GS Hx Z0 E1) as (_ & _ & _ & F1).
  destruct (solve_start _ _ _ _ _ _ _ H _ _ _ _ I WS GS Hx Z1 E2) as (_ & _ & _ & F2).
  destruct (solve_wopt _ _ _ _ _ _ _ H _ _ _ _ Io A Z0 E1) as [EW Lv].
  destruct (solve_last _ _ _ _ _ _ _ H _ _ _ _ E1) as (_ & _ & _ & c & r & Er & Es & _).
  rewrite (V _ _ _ Er) in Es. rewrite Es in EW, Lv.
  rewrite F1 in F2. injection F2 as F2. unfold first_guess in F2. rewrite Io, EW in F2. unfold with_states in F2.
  assert (G1 : nth_error (ss_w0 (initial_state C)) i = Some (Q2R q)) by (change (nth_error (map Q2R (w0 (the_nlp C))) i = Some (Q2R q)); rewrite nth_error_map, Hq; reflexivity).
  destruct (nth_error_lt v i) as [x Hv]; [rewrite Lv; eapply nth_error_Some_lt; exact Hy|].
  apply (f_equal (fun l => nth_error l i)) in F2.
  rewrite (overwrite_nth _ _ _ _ _ _ Hy G1), (overwrite_nth _ _ _ _ _ _ Hy Hv), !Hn in F2. apply D. congruence.
Qed.

Definition sevens (C : constructed) : nat -> nlp_call -> res nlp_ret := constant_nlp (repeat 7%R (length (w (the_nlp C)))) RSSolveSucceeded.
Lemma sevens_memoryless C : memoryless (sevens C). Proof. intros n n' c. reflexivity. Qed.
Lemma sevens_answers C : answers C (sevens C). Proof. apply constant_answers, repeat_length. Qed.
Lemma sevens_x C n c r : sevens C n c = Ok r -> nr_x r = repeat 7%R (length (w (the_nlp C))). Proof. unfold sevens, constant_nlp. intros E. injection E as <-. reflexivity. Qed.
Lemma entryP i : exists q, nth_error (w (the_nlp (CF i))) 0 = Some (SH 0 0) /\ nth_error (w0 (the_nlp (CF i))) 0 = Some q /\ (q == 1 # 2)%Q.
Proof. exists (1 # 2)%Q. destruct i; vm_compute; auto. Qed.
Lemma half_seven : Q2R (1 # 2) <> 7%R. Proof. unfold Q2R. cbn. lra. Qed.

Lemma wopt_prev_refuted : exists nlp C s1 out1 s2 out2, build (optsF AllXcurrentWoptPrev) model3 None = Ok C /\ memoryless nlp /\ answers C nlp /\
  solve nlp C (initial_state C) = (s1, Ok out1) /\ solve nlp C s1 = (s2, Ok out2) /\ out1 <> out2.
Proof.
  set (i := AllXcurrentWoptPrev). assert (NR : i <> Rk4Smoothened) by discriminate. pose proof (initF i) as Io. pose proof (proj1 (problemF i)) as H.
  pose proof (proj1 (proj2 (flagsF i))) as Ps. pose proof (runsF i (sevens (CF i))) as Run. pose proof (entryP i) as En. pose proof (builtF i) as B.
  revert NR Io H Ps Run En B. generalize (CF i). intros C NR Io H Ps Run (q & Hy & Hq & H0) B. pose proof (initial_sized _ _ _ _ _ _ _ H) as Z0.
  destruct (Run _ NR Z0 (sevens_answers C)) as (s1 & out1 & E1 & Z1). destruct (Run _ NR Z1 (sevens_answers C)) as (s2 & out2 & E2 & Z2).
  exists (sevens C), C, s1, out1, s2, out2. split; [exact B|]. split; [apply sevens_memoryless|]. split; [apply sevens_answers|]. split; [exact E1|]. split; [exact E2|].
  assert (GS : o_pss (the_opts C) = Step -> gS_given model3 = false) by (rewrite Ps; discriminate).
  assert (Hx : 0 < m_nx model3) by (vm_compute; auto with arith).
  apply (differs _ _ _ _ _ _ C (sevens C) _ 0 (SH 0 0) q s1 out1 s2 out2 H Io sized3 GS Hx (sevens_answers C) (sevens_x C) Hy Hq (fun _ => eq_refl)); [|exact E1|exact E2].
  rewrite nth_error_repeat by (eapply nth_error_Some_lt; exact Hy). intros E. injection E as E. apply Qeq_eqR in H0. apply half_seven. congruence.
Qed.

Lemma fresh_case v st : length v = length (w (the_nlp (CF AllXcurrentW0Start))) -> memoryless (constant_nlp v st) /\
  (forall a, In a [ASolve; ASet (SetX0 [(-2)%R]); ASolve] -> right_shape (CF AllXcurrentW0Start) model3 a) /\
  exists s' out, solve (constant_nlp v st) (CF AllXcurrentW0Start) (history (constant_nlp v st) (CF AllXcurrentW0Start) [ASolve; ASet (SetX0 [(-2)%R]); ASolve]) = (s', Ok out).
Proof.
  intros L. assert (R : forall a, In a [ASolve; ASet (SetX0 [(-2)%R]); ASolve] -> right_shape (CF AllXcurrentW0Start) model3 a)
    by (intros a [<-|[<-|[<-|[]]]]; exact Logic.I || reflexivity).
  split; [intros n n' c; reflexivity|]. split; [exact R|].
  destruct (runsF AllXcurrentW0Start (constant_nlp v st) _ ltac:(discriminate) (history_sized _ _ _ _ _ _ _ (proj1 (problemF _)) (constant_nlp v st) _ R) (constant_answers _ _ _ L)) as (s' & out & E & _).
  exists s', out. exact E.
Qed.
