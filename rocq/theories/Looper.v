(* Looper.v -- NosnocSimLooper, nosnoc/helpers.py:8-120 *)
From Coq Require Import Reals Qreals.
From Verif Require Import Base Sx Utils Opts Model Ocp Problem Numeric Results Solver.
Local Open Scope nat_scope.

Record looper := mkLooper {
  lp_Nsim : nat;
  lp_p_values : option (list (list R));
  lp_w_init : option (list (list R));
  lp_xcurrent : list R;
  lp_X_sim : list (list R);
  lp_time_steps : list R;
  lp_theta_sim : list (list (list (list R)));
  lp_lambda_sim : list (list (list (list R)));
  lp_alpha_sim : list (list (list R));
  lp_z_sim : list (list (list R));
  lp_sot : list (list (list R));
  lp_w_sim : list (list R);
  lp_w_all : list (list (list R));
  lp_cost_vals : list R;
  lp_status : list status;
  lp_switch_times : list R;
  lp_cpu_nlp : list (list (option R))      (* Nsim rows; None is nan *)
}.

(* helpers.py:10-55. An array of rows of equal length has shape (number of rows, their length); an
   array without rows has some number k of columns, given here by [pcols]. *)
Definition looper_init (Pr : problem) (x0 : list R) (Nsim : nat) (p_values : option (list (list R)))
    (pcols : nat) (w_init : option (list (list R))) : res looper :=
  do* _ <- guard (is_sim_problem Pr) EException;
  do* _ <- match p_values with
           | Some M => guard ((length M =? Nsim) && (pcols =? m_npg (pm_m (pr_pm Pr)))) EValueError
           | None => Ok tt
           end;
  Ok (mkLooper Nsim p_values w_init x0 [x0] [] [] [] [] [] [] [] [] [] [] []
        (repeat (repeat (Some 0%R) (o_max_iter_homotopy (pr_o Pr) + (if o_do_polishing (pr_o Pr) then 1 else 0))) Nsim)).

Definition Rsum (l : list R) : R := fold_right Rplus 0%R l.

(* lines 75-93: results of step i appended; one row of cpu_nlp is overwritten *)
Definition collect (L : looper) (o : opts) (i : nat) (out : solve_out) : res looper :=
  let rs := so_results out in
  let sw := map (fun t => (t + Rsum (lp_time_steps L))%R) (rs_switch_times rs) in
  do* xc <- lastE EIndexError (lp_X_sim L ++ rs_x_list rs);
  do* cpu <- updE EIndexError (lp_cpu_nlp L) i (so_cpu out);
  do* sot <- match o_sot o with
             | SotNone => Ok (lp_sot L)
             | _ => do* s <- opt_res EAttributeError (rs_sot rs); Ok (lp_sot L ++ [s])
             end;
  Ok (mkLooper (lp_Nsim L) (lp_p_values L) (lp_w_init L) xc
        (lp_X_sim L ++ rs_x_list rs)
        (lp_time_steps L ++ rs_time_steps rs)
        (lp_theta_sim L ++ [rs_theta_list rs])
        (lp_lambda_sim L ++ [rs_lambda_list rs])
        (lp_alpha_sim L ++ [rs_alpha_list rs])
        (lp_z_sim L ++ [rs_z_list rs])
        sot
        (lp_w_sim L ++ [so_w_sol out])
        (lp_w_all L ++ [so_w_all out])
        (lp_cost_vals L ++ [so_cost out])
        (lp_status L ++ [so_status out])
        (lp_switch_times L ++ sw)
        cpu).

(* Status is a plain Enum (nosnoc_types.py:119): a member never equals a string *)
Inductive pystr := StrInfeasibleProblemDetected.
Definition status_eq_str (s : status) (t : pystr) : bool := false.

Section Run.
Variable nlp : nat -> nlp_call -> res nlp_ret.

(* lines 60-73: inputs of step i and the solve *)
Definition step_inputs (C : constructed) (L : looper) (i : nat) : se sstate solve_out :=
  dos _ <- set C (SetX0 (lp_xcurrent L));
  dos _ <- match lp_w_init L with
           | Some W => dos w <- lift (nthE EIndexError W i); set C (SetW w)
           | None => sret tt
           end;
  dos _ <- match lp_p_values L with
           | Some M => dos row <- lift (nthE EIndexError M i); set C (SetPGlobal row)
           | None => sret tt
           end;
  solve nlp C.

(* run, lines 57-99: steps i, i+1, ... [n] of them. The looper survives an exception. *)
Fixpoint run_from (C : constructed) (stop_on_failure : bool) (n i : nat) (L : looper) (s : sstate)
  : sstate * looper * res bool :=
  match n with
  | 0 => (s, L, Ok true)
  | S n' =>
      match step_inputs C L i s with
      | (s', Err e) => (s', L, Err e)
      | (s', Ok out) =>
          match collect L (pr_o (cn_prob C)) i out with
          | Err e => (s', L, Err e)
          | Ok L' =>
              if stop_on_failure && status_eq_str (so_status out) StrInfeasibleProblemDetected
              then (s', L', Ok false)
              else run_from C stop_on_failure n' (S i) L' s'
          end
      end
  end.
Definition run (C : constructed) (stop_on_failure : bool) (L : looper) (s : sstate)
  : sstate * looper * res bool := run_from C stop_on_failure (lp_Nsim L) 0 L s.
End Run.

(* lines 101-120: time grid of the results *)
Definition looper_t_grid (L : looper) : list R := 0%R :: cumsum 0 (lp_time_steps L).
