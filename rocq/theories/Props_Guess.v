(* Props_Guess.v -- C78: the initial guess of the NLP *)
From Verif Require Import Base Sx Utils Tableau Opts Model Ocp Problem Spec Cases Fesd Spec2 Spec12 Guess_proofs.

(* ---- C78 ---- *)
Theorem C78_initial_guess lr cp d o m oc C : construct_problem lr cp d o m oc = Ok C ->
  length (w0 (the_nlp C)) = length (w (the_nlp C)) /\
  forall i y, nth_error (w (the_nlp C)) i = Some y ->
    nth_error (w0 (the_nlp C)) i = Some (initial_guess (the_opts C) m (the_ocp oc) y).
Proof. exact (con_guess lr cp d o m oc C). Qed.
Print Assumptions C78_initial_guess.

(* the guess respects the bounds of every variable if the user's own guesses do *)
Theorem C78_guess_inside lr cp d o m oc C : construct_problem lr cp d o m oc = Ok C -> o_mpcc (the_opts C) <> MBoolean ->
  guesses_inside (the_opts C) m (the_ocp oc) ->
  forall i l u q, nth_error (lbw (the_nlp C)) i = Some l -> nth_error (ubw (the_nlp C)) i = Some u ->
    nth_error (w0 (the_nlp C)) i = Some q -> qwithin l u q.
Proof. exact (con_guess_inside lr cp d o m oc C). Qed.
Print Assumptions C78_guess_inside.

(* two stages with 1 and 2 elements, two states, a control, a global variable, speed of time *)
Example C78_case : build optsA model1 (Some ocp1) = Ok CA /\ o_mpcc (the_opts CA) <> MBoolean /\
  guesses_inside (the_opts CA) model1 ocp1 /\
  firstn 7 (combine (w (the_nlp CA)) (w0 (the_nlp CA))) =
    [(SVg 0, 1%Q); (SU 0 0, 0%Q); (SSot 0, 1%Q); (SU 1 0, 0%Q); (SSot 1, 1%Q); (SH 0 0, (1#2)%Q); (S1 FX 0 0 0 0, (-1)%Q)].
Proof.
  split; [exact builtA|]. split; [intros E; vm_compute in E; discriminate E|]. split; [|vm_compute; reflexivity].
  unfold guesses_inside.
  assert (E1 : o_terminal_time (the_opts CA) = 1%Q) by (vm_compute; reflexivity).
  assert (E2 : o_sigma_0 (the_opts CA) = 1%Q) by (vm_compute; reflexivity).
  assert (E3 : o_gamma_h (the_opts CA) = Fin 1) by (vm_compute; reflexivity).
  assert (E4 : o_sot_min (the_opts CA) = 1%Q) by (vm_compute; reflexivity).
  assert (E5 : o_sot_max (the_opts CA) = 25%Q) by (vm_compute; reflexivity).
  assert (E6 : elastic (the_opts CA) = false) by (vm_compute; reflexivity).
  rewrite E1, E2, E3, E4, E5, E6. generalize (the_opts CA). intros O.
  split; [discriminate|]. split; [discriminate|]. split; [discriminate|]. split; [split; discriminate|]. split; [discriminate|].
  split; [|split; [|split]]; intros i Hi; cbn in Hi; try lia.
  - destruct i as [|[|i]]; [cbn; split; [discriminate|exact Logic.I]|split; exact Logic.I|lia].
  - destruct i as [|i]; [cbn; split; discriminate|lia].
  - destruct i as [|i]; [cbn; split; discriminate|lia].
Qed.
