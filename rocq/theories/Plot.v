(* Plot.v -- what plot_utils.py computes before it hands numbers to matplotlib, and the CPU times in
   NosnocSimLooper.get_results. Drawing itself, labels and colour maps are not modelled. *)
From Coq Require Import Reals Qreals.
From Verif Require Import Base Sx Utils Opts Model Ocp Problem Numeric Results Solver Looper.
Local Open Scope nat_scope.

(* helpers.py:105 np.nan_to_num(self.cpu_nlp); None is nan *)
Definition nan_to_num (a : option R) : R := match a with Some x => x | None => 0%R end.
Definition looper_cpu_nlp (L : looper) : list (list R) := map (map nan_to_num) (lp_cpu_nlp L).

(* ---- plot_timings, plot_utils.py:27-59 ---- *)
(* bars of one homotopy iteration: (height, bottom) for every simulation step *)
Record timing_plot := mkTimingPlot {
  tp_bars : list (list (R * R));
  tp_mean : option R                 (* None is nan, the mean over no steps *)
}.
(* y += y_iter *)
Definition vadd (a b : list R) : list R := map (fun p => (fst p + snd p)%R) (combine a b).
(* timings[:, i] *)
Definition timings_col (M : list (list R)) (i : nat) : res (list R) := mapM (fun r => nthE EIndexError r i) M.
(* lines 38-41; i, i+1, ... : n of them *)
Fixpoint bars_from (M : list (list R)) (n i : nat) (y : list R) : res (list (list (R * R))) :=
  match n with
  | 0 => Ok []
  | S n' =>
      do* c <- timings_col M i;
      do* r <- bars_from M n' (S i) (vadd y c);
      Ok (combine c y :: r)
  end.
(* [timings] is an array with [nlp_iter] columns *)
Definition plot_timings (nlp_iter : nat) (timings : list (list R)) : res timing_plot :=
  let Nsim := length timings in
  do* b <- bars_from timings nlp_iter 0 (repeat 0%R Nsim);
  Ok (mkTimingPlot b
        (if Nsim =? 0 then None else Some (Rsum (map Rsum timings) / INR Nsim)%R)).

(* ---- plot_iterates, plot_utils.py:62-129 ---- *)
(* the names in the dictionary built by get_results_from_primal_vector, solver.py:472-539 *)
Inductive rkey :=
| KXOut | KXList | KXAllList | KUList | KSot | KThetaList | KLambdaList | KMuList | KAlphaList
| KLambdaNList | KLambdaPList | KZList | KTimeSteps | KXTraj | KUTraj | KTGrid | KTGridU | KVGlobal | KSwitchTimes.
Definition rkey_eqb (a b : rkey) : bool :=
  match a, b with
  | KXOut, KXOut | KXList, KXList | KXAllList, KXAllList | KUList, KUList | KSot, KSot
  | KThetaList, KThetaList | KLambdaList, KLambdaList | KMuList, KMuList | KAlphaList, KAlphaList
  | KLambdaNList, KLambdaNList | KLambdaPList, KLambdaPList | KZList, KZList | KTimeSteps, KTimeSteps
  | KXTraj, KXTraj | KUTraj, KUTraj | KTGrid, KTGrid | KTGridU, KTGridU | KVGlobal, KVGlobal
  | KSwitchTimes, KSwitchTimes => true
  | _, _ => false
  end.
(* line 489, the assignment of mu_list, is commented out *)
Definition result_keys (rs : results) : list rkey :=
  [KXOut; KXList; KXAllList; KUList] ++ match rs_sot rs with Some _ => [KSot] | None => [] end ++
  [KThetaList; KLambdaList; KAlphaList; KLambdaNList; KLambdaPList; KZList; KTimeSteps; KXTraj; KUTraj;
   KTGrid; KTGridU; KVGlobal; KSwitchTimes].
(* results[k] *)
Definition look_up (rs : results) (k : rkey) : res unit := guard (existsb (rkey_eqb k) (result_keys rs)) EKeyError.

(* lines 82-122: the number of iterates drawn; title_list[it] *)
Fixpoint draw_iterates (Pr : problem) (x0 : list R) (titles : nat) (it : nat) (iterates : list (list R)) : res nat :=
  match iterates with
  | [] => Ok it
  | w :: r =>
      do* rs <- get_results Pr x0 w;
      do* _ <- look_up rs KLambdaList;
      do* _ <- look_up rs KThetaList;
      do* _ <- look_up rs KMuList;
      do* _ <- guard (it <? titles) EIndexError;
      do* _ <- look_up rs KXAllList;
      draw_iterates Pr x0 titles (S it) r
  end.
(* [title_list] by its length; an empty list is replaced by one title per iterate *)
Definition plot_iterates (Pr : problem) (x0 : list R) (iterates : list (list R)) (titles : nat) : res nat :=
  let titles' := if titles =? 0 then length iterates else titles in
  do* _ <- guard (match o_pss (pr_o Pr) with Stewart => true | Step => false end) ENotImplemented;
  draw_iterates Pr x0 titles' 0 iterates.

(* ---- _plot_color_hack_3d, plot_utils.py:180-188 ---- *)
(* min(t), max(t) *)
Definition py_min (t : list R) : res R := match t with [] => Err EValueError | a :: r => Ok (fold_left Rmin r a) end.
Definition py_max (t : list R) : res R := match t with [] => Err EValueError | a :: r => Ok (fold_left Rmax r a) end.
(* the colour of every segment as a number for the colour map; n = np.size(x). Times are Python floats (for a
   numpy array a division by zero gives nan instead of the exception) *)
Definition segment_colors (n : nat) (t : list R) : res (list R) :=
  do* t_min <- py_min t;
  do* t_max <- py_max t;
  let dt := (t_max - t_min)%R in
  mapM (fun i => do* ti <- nthE EIndexError t i;
                 do* _ <- guard (if Req_EM_T dt 0 then false else true) EZeroDivision;
                 Ok ((ti - t_min) / dt)%R) (seq 0 (n - 1)).
