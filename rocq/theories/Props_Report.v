(* Props_Report.v -- what solve() and the plots report: objective (C83), CPU times and iterations (C84),
   plot_timings (C85), plot_iterates (C86), colours of a trajectory (C87). Vocabulary: Spec16.v. *)
From Coq Require Import Reals Qreals Lra.
From Verif Require Import Base Lib Sx Utils Tableau Opts Model Ocp Problem Numeric Rk4 Results Solver Looper Plot Spec Cases Fesd Spec2 Spec3 Spec4 Spec5 Spec6 Spec16
  Witness Results5_proofs Solve3_proofs Witness3 Witness4 Report_proofs Plot_proofs Witness9.
Local Open Scope nat_scope.

(* ---- C83 ---- *)
(* without polishing cost_val is the absolute value of the objective at the solution.
   Missing: negative objectives and polishing, where it is another number (below) *)
Theorem C83_cost_partial lr cp d o m oc C nlp s s' out h rho : construct_problem lr cp d o m oc = Ok C -> solve nlp C s = (s', Ok out) ->
  reports_objective C nlp -> o_do_polishing (the_opts C) = false -> last_is (so_steps out) h ->
  primal C rho = so_w_sol out -> parameters C rho = nc_p (hs_call h) ->
  so_cost out = Rabs (eval rho (cost (the_nlp C))) /\ ((0 <= eval rho (cost (the_nlp C)))%R -> so_cost out = eval rho (cost (the_nlp C))).
Proof. exact (cost_at_solution lr cp d o m oc C nlp s s' out h rho). Qed.
Print Assumptions C83_cost_partial.
(* cost -3 is reported as 3 *)
Theorem C83_sign_refuted : exists o m oc C nlp s' out h rho, is_problem o m oc C /\ answers C nlp /\ reports_objective C nlp /\
  o_do_polishing (the_opts C) = false /\ solve nlp C (initial_state C) = (s', Ok out) /\ last_is (so_steps out) h /\
  primal C rho = so_w_sol out /\ parameters C rho = nc_p (hs_call h) /\ eval rho (cost (the_nlp C)) = (-3)%R /\ so_cost out = 3%R.
Proof.
  destruct sign_lost as (s' & out & h & rho & E). exists (optsE false), model3, (Some ocpE), (CE false), nlp_neg, s', out, h, rho.
  exact (conj (problemE false) (conj neg_answers (conj neg_reports (conj (proj1 (proj2 (flagsE false))) E)))).
Qed.
Print Assumptions C83_sign_refuted.
(* after polishing the reported cost is that of the point before polishing *)
Theorem C83_polished_refuted : exists o m oc C nlp s' out c r rho, is_problem o m oc C /\ answers C nlp /\ reports_objective C nlp /\
  solve nlp C (initial_state C) = (s', Ok out) /\ nlp (ss_calls s' - 1) c = Ok r /\ so_w_sol out = nr_x r /\
  primal C rho = so_w_sol out /\ parameters C rho = nc_p c /\ eval rho (cost (the_nlp C)) = 2%R /\ so_cost out = 1%R.
Proof.
  destruct polish_cost_lost as (s' & out & c & r & rho & E). exists (optsE true), model3, (Some ocpE), (CE true), nlp_two, s', out, c, r, rho.
  exact (conj (problemE true) (conj two_answers (conj two_reports E))).
Qed.
Print Assumptions C83_polished_refuted.

(* ---- C84 ---- *)
(* the entries of cpu_time_nlp and nlp_iter. [rs] are the polishing solves: one per control stage, all with the
   same arguments [c]; only the last one is recorded. Missing: the others (below) *)
Theorem C84_statistics_partial lr cp d o m oc C nlp s s' out : construct_problem lr cp d o m oc = Ok C -> solve nlp C s = (s', Ok out) ->
  let n := o_max_iter_homotopy (the_opts C) in exists c rs,
  length rs = (if o_do_polishing (the_opts C) then o_N_stages (the_opts C) else 0) /\ ss_calls s' = ss_calls s + length (so_steps out) + length rs /\
  (forall k r, nth_error rs k = Some r -> nlp (ss_calls s + length (so_steps out) + k) c = Ok r) /\
  length (so_cpu out) = n + (if o_do_polishing (the_opts C) then 1 else 0) /\ length (so_iter out) = n + (if o_do_polishing (the_opts C) then 1 else 0) /\
  (forall k h, nth_error (so_steps out) k = Some h ->
     nth_error (so_cpu out) k = Some (Some (nr_cpu (hs_ret h))) /\ nth_error (so_iter out) k = Some (Some (nr_iter (hs_ret h)))) /\
  (forall k, length (so_steps out) <= k -> k < n -> nth_error (so_cpu out) k = Some None /\ nth_error (so_iter out) k = Some None) /\
  (forall r, last_is rs r -> nth_error (so_cpu out) n = Some (Some (nr_cpu r)) /\ nth_error (so_iter out) n = Some (Some (nr_iter r)) /\ so_w_sol out = nr_x r) /\
  (forall r, last_is rs r -> rsum (map or_zero (so_cpu out)) = (rsum (map (fun h => nr_cpu (hs_ret h)) (so_steps out)) + nr_cpu r)%R) /\
  (rs = [] -> rsum (map or_zero (so_cpu out)) = rsum (map (fun h => nr_cpu (hs_ret h)) (so_steps out))).
Proof. intros H. exact (solve_stats lr cp d o m oc C H nlp s s' out). Qed.
Print Assumptions C84_statistics_partial.
(* with an NLP solver that takes one second per solve, N_stages - 1 seconds are missing *)
Theorem C84_missing lr cp d o m oc C nlp s s' out : construct_problem lr cp d o m oc = Ok C -> solve nlp C s = (s', Ok out) ->
  (forall n c r, nlp n c = Ok r -> nr_cpu r = 1%R) -> o_do_polishing (the_opts C) = true ->
  rsum (map or_zero (so_cpu out)) = (INR (ss_calls s' - ss_calls s) - INR (o_N_stages (the_opts C) - 1))%R.
Proof. intros H E A P. exact (missing_time lr cp d o m oc C H nlp s s' out A E P). Qed.
Print Assumptions C84_missing.
Theorem C84_refuted : exists o m oc C nlp s' out, is_problem o m oc C /\ answers C nlp /\ (forall n c r, nlp n c = Ok r -> nr_cpu r = 1%R) /\
  solve nlp C (initial_state C) = (s', Ok out) /\ rsum (map or_zero (so_cpu out)) = (INR (ss_calls s') - 1)%R.
Proof.
  destruct time_lost as (s' & out & E). exists optsD2, model3, (Some ocpE), CD2, nlp_second, s', out.
  exact (conj problemD2 (conj second_answers (conj second_takes_one E))).
Qed.
Print Assumptions C84_refuted.

(* ---- C85 ---- *)
(* bar i of step k has the height of entry i and starts at the sum of the entries before; the line is at the
   mean of the sums of the steps *)
Theorem C85_plot_timings rows cols M : table rows cols M -> exists tp, plot_timings cols M = Ok tp /\ length (tp_bars tp) = cols /\
  (forall i, i < cols -> exists row, nth_error (tp_bars tp) i = Some row /\ length row = rows /\
     forall k, k < rows -> nth_error row k = Some (cell M k i, rupto i (cell M k))) /\
  tp_mean tp = if rows =? 0 then None else Some (rupto rows (fun k => rupto cols (cell M k)) / INR rows)%R.
Proof. exact (timings_ok rows cols M). Qed.
Print Assumptions C85_plot_timings.
Example C85_plot_case : table 2 2 [[1; 2]; [3; 4]]%R /\ plot_timings 2 [[1; 2]; [3; 4]]%R =
  Ok (mkTimingPlot [[(1, 0); (3, 0)]; [(2, 0 + 1); (4, 0 + 3)]] (Some ((1 + (2 + 0) + (3 + (4 + 0) + 0)) / INR 2)))%R.
Proof. split; [|reflexivity]. split; [reflexivity|]. intros r [<-|[<-|[]]]; reflexivity. Qed.
(* the table of the simulation looper: the entries of a step sum up to the CPU time of all NLP solves of that
   step, those of steps that were not performed are zero *)
Theorem C85_looper_times lr cp d o m oc C nlp x0 Nsim pv pc wi L stop s s' L' r : construct_problem lr cp d o m oc = Ok C ->
  returns C nlp -> extractable (the_opts C) m -> looper_init (cn_prob C) x0 Nsim pv pc wi = Ok L ->
  length x0 = m_nx m -> tables C m L -> sized C m s -> run nlp C stop L s = (s', L', r) ->
  let cols := o_max_iter_homotopy (the_opts C) + (if o_do_polishing (the_opts C) then 1 else 0) in
  exists tr, simulation nlp C m 0 L s tr L' /\ table Nsim cols (looper_cpu_nlp L') /\
  (forall k si out, nth_error tr k = Some (si, out) -> exists tp, solve nlp C si = (tp, Ok out) /\
     let all := rupto cols (cell (looper_cpu_nlp L') k) in let passes := rsum (map (fun h => nr_cpu (hs_ret h)) (so_steps out)) in
     (o_do_polishing (the_opts C) = false -> all = passes) /\
     (o_do_polishing (the_opts C) = true -> exists c r, nlp (ss_calls tp - 1) c = Ok r /\ so_w_sol out = nr_x r /\ all = (passes + nr_cpu r)%R)) /\
  (forall k j, length tr <= k -> cell (looper_cpu_nlp L') k j = 0%R).
Proof. intros H. exact (looper_bars lr cp d o m oc C H nlp x0 Nsim pv pc wi L stop s s' L' r). Qed.
Print Assumptions C85_looper_times.
Example C85_looper_case i nlp stop : answers (CP i) nlp -> exists L s' L',
  is_problem (optsP i) modelP None (CP i) /\ extractable (the_opts (CP i)) modelP /\ sized (CP i) modelP (initial_state (CP i)) /\
  looper_init (cn_prob (CP i)) [(-1)%R] 2 (Some [[3%R]; [5%R]]) 1 None = Ok L /\ length [(-1)%R] = m_nx modelP /\ tables (CP i) modelP L /\
  run nlp (CP i) stop L (initial_state (CP i)) = (s', L', Ok true).
Proof.
  intros A. destruct (two_steps i nlp stop A) as (L & s' & L' & E). exists L, s', L'.
  exact (conj (problemP i) (conj (extractP i) (conj (initialP i) E))).
Qed.

(* ---- C86 ---- *)
(* Missing: a figure for a nonempty list of iterates; there never is one (below) *)
Theorem C86_refused_partial lr cp d o m oc C x0 l n : construct_problem lr cp d o m oc = Ok C ->
  (o_pss (the_opts C) = Step -> plot_iterates (cn_prob C) x0 l n = Err ENotImplemented) /\
  (o_pss (the_opts C) = Stewart -> plot_iterates (cn_prob C) x0 [] n = Ok 0).
Proof. intros H. exact (conj (iterates_step C x0 l n) (iterates_empty C x0 n)). Qed.
Print Assumptions C86_refused_partial.
(* every nonempty list of iterates of any Stewart problem: KeyError, get_results has no mu_list *)
Theorem C86_always_raises lr cp d o m oc C x0 v l n : construct_problem lr cp d o m oc = Ok C -> o_pss (the_opts C) = Stewart ->
  (extractable (the_opts C) m -> length v = length (w (the_nlp C)) -> plot_iterates (cn_prob C) x0 (v :: l) n = Err EKeyError) /\
  (forall k, plot_iterates (cn_prob C) x0 (v :: l) n <> Ok k).
Proof.
  intros H Ep. split; [intros X Lv; exact (iterates_key lr cp d o m oc C H x0 v l n Ep X Lv)|].
  intros k. rewrite (iterates_fail C x0 v l n Ep). discriminate.
Qed.
Print Assumptions C86_always_raises.
Theorem C86_refuted : exists o m oc C, is_problem o m oc C /\ o_pss (the_opts C) = Stewart /\ extractable (the_opts C) m /\
  forall x0 v n, length v = length (w (the_nlp C)) -> plot_iterates (cn_prob C) x0 [v] n = Err EKeyError.
Proof.
  exists (optsE true), model3, (Some ocpE), (CE true). split; [exact (problemE true)|]. split; [exact (proj1 (flagsE true))|]. split; [exact (extractE true)|].
  intros x0 v n Lv. exact (iterates_key _ _ _ _ _ _ _ (proj1 (problemE true)) x0 v [] n (proj1 (flagsE true)) (extractE true) Lv).
Qed.
Print Assumptions C86_refuted.

(* ---- C87 ---- *)
(* colour of segment i: its start time between the earliest (0) and the latest time (1).
   Missing: trajectories at one time only, which raise (below), and lists of times that are too short *)
Theorem C87_colors_partial n t : n - 1 <= length t -> (exists a b, In a t /\ In b t /\ a <> b) ->
  exists lo hi l, In lo t /\ In hi t /\ (forall x, In x t -> (lo <= x <= hi)%R) /\ segment_colors n t = Ok l /\ length l = n - 1 /\
  forall i c x, nth_error l i = Some c -> nth_error t i = Some x -> c = ((x - lo) / (hi - lo))%R /\ (0 <= c <= 1)%R.
Proof. exact (colors_ok n t). Qed.
Print Assumptions C87_colors_partial.
Example C87_case : 4 - 1 <= length [0; 1; 3]%R /\ exists a b, In a [0; 1; 3]%R /\ In b [0; 1; 3]%R /\ a <> b.
Proof. split; [auto|]. exists 0%R, 1%R. repeat split; [left; reflexivity|right; left; reflexivity|lra]. Qed.
(* what is raised otherwise *)
Theorem C87_errors n t : (t = [] -> segment_colors n t = Err EValueError) /\ (n < 2 -> t <> [] -> segment_colors n t = Ok []) /\
  (length t < n - 1 -> (exists a b, In a t /\ In b t /\ a <> b) -> segment_colors n t = Err EIndexError).
Proof. split; [intros ->; exact (colors_none n)|]. split; [exact (colors_point n t)|exact (colors_short n t)]. Qed.
Print Assumptions C87_errors.
Theorem C87_one_time a n k : 2 <= n -> 0 < k -> segment_colors n (repeat a k) = Err EZeroDivision.
Proof. intros Hn Hk. exact (colors_same a n Hn k Hk). Qed.
Print Assumptions C87_one_time.
Theorem C87_refuted : exists n t, n = length t /\ 2 <= n /\ segment_colors n t = Err EZeroDivision.
Proof. exists 2, (repeat 0%R 2). split; [reflexivity|]. split; [auto|]. apply colors_same; auto. Qed.
Print Assumptions C87_refuted.
