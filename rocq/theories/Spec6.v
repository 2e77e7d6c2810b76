(* Spec6.v -- vocabulary for the statements about the simulation looper and RK4.
   Nothing here is used by the model. *)
From Coq Require Import Reals Qreals.
From Verif Require Import Base Sx Utils Tableau Opts Model Ocp Problem Numeric Rk4 Results Solver Looper Spec Fesd Spec2 Spec3 Spec4 Spec5.
Local Open Scope nat_scope.

(* vectors returned by the NLP solver have the right length; it may raise *)
Definition returns (C : constructed) (nlp : nat -> nlp_call -> res nlp_ret) : Prop :=
  forall n c r, nlp n c = Ok r -> length (nr_x r) = length (w (the_nlp C)).
(* the tables given to the looper have rows of the right length *)
Record tables (C : constructed) (m : model) (L : looper) : Prop := {
  tb_p : forall M r, lp_p_values L = Some M -> In r M -> length r = m_npg m;
  tb_w : forall M r, lp_w_init L = Some M -> In r M -> length r = length (w (the_nlp C)) }.

(* switch times of the steps, shifted by the length of the steps before *)
Fixpoint shifted (before : list R) (outs : list solve_out) : list R :=
  match outs with
  | [] => []
  | out :: r => map (fun t => (t + rsum before)%R) (rs_switch_times (so_results out)) ++ shifted (before ++ rs_time_steps (so_results out)) r
  end.

(* steps i, i+1, ... of a simulation that started from the looper L and the solver state s: the states
   in which solve() was called, with the outcomes *)
Record simulation (nlp : nat -> nlp_call -> res nlp_ret) (C : constructed) (m : model) (i : nat)
    (L : looper) (s : sstate) (tr : list (sstate * solve_out)) (L' : looper) : Prop := {
  sm_solve : forall k si out, nth_error tr k = Some (si, out) -> sized C m si /\ exists t, solve nlp C si = (t, Ok out);
  sm_first : forall si out, nth_error tr 0 = Some (si, out) -> ss_x0 si = lp_xcurrent L /\ ss_calls si = ss_calls s;
  sm_next : forall k si out sj out' t, nth_error tr k = Some (si, out) -> nth_error tr (S k) = Some (sj, out') -> solve nlp C si = (t, Ok out) ->
    last_is (rs_x_list (so_results out)) (ss_x0 sj) /\ rs_x_out (so_results out) = ss_x0 sj /\ ss_calls sj = ss_calls t;
  sm_p : forall k si out, nth_error tr k = Some (si, out) ->
    match lp_p_values L with
    | Some M => exists row, nth_error M (i + k) = Some row /\ ss_pval si = with_p_global m row (ss_pval s)
    | None => ss_pval si = ss_pval s
    end;
  sm_w : forall k si out M, nth_error tr k = Some (si, out) -> lp_w_init L = Some M -> nth_error M (i + k) = Some (ss_w0 si);
  sm_lengths : forall k si out, nth_error tr k = Some (si, out) -> length (rs_x_list (so_results out)) = length (rs_time_steps (so_results out));
  sm_X : lp_X_sim L' = lp_X_sim L ++ concat (map (fun q => rs_x_list (so_results (snd q))) tr);
  sm_steps : lp_time_steps L' = lp_time_steps L ++ concat (map (fun q => rs_time_steps (so_results (snd q))) tr);
  sm_theta : lp_theta_sim L' = lp_theta_sim L ++ map (fun q => rs_theta_list (so_results (snd q))) tr;
  sm_lambda : lp_lambda_sim L' = lp_lambda_sim L ++ map (fun q => rs_lambda_list (so_results (snd q))) tr;
  sm_alpha : lp_alpha_sim L' = lp_alpha_sim L ++ map (fun q => rs_alpha_list (so_results (snd q))) tr;
  sm_z : lp_z_sim L' = lp_z_sim L ++ map (fun q => rs_z_list (so_results (snd q))) tr;
  sm_w_sim : lp_w_sim L' = lp_w_sim L ++ map (fun q => so_w_sol (snd q)) tr;
  sm_w_all : lp_w_all L' = lp_w_all L ++ map (fun q => so_w_all (snd q)) tr;
  sm_cost : lp_cost_vals L' = lp_cost_vals L ++ map (fun q => so_cost (snd q)) tr;
  sm_status : lp_status L' = lp_status L ++ map (fun q => so_status (snd q)) tr;
  sm_switch : lp_switch_times L' = lp_switch_times L ++ shifted (lp_time_steps L) (map snd tr);
  sm_cpu : forall k si out, nth_error tr k = Some (si, out) -> nth_error (lp_cpu_nlp L') (i + k) = Some (so_cpu out);
  sm_cpu_rest : forall j, j < i \/ i + length tr <= j -> nth_error (lp_cpu_nlp L') j = nth_error (lp_cpu_nlp L) j
}.

(* ---- RK4 ---- *)
(* x + c y *)
Definition axpy (x : list R) (c : R) (y : list R) : list R := map (fun p => (fst p + c * snd p)%R) (combine x y).
(* y follows x by one step of the classical method: weights 1/6 1/3 1/3 1/6, nodes 0 1/2 1/2 1 *)
Definition classical (f : list R -> res (list R)) (h : R) (x y : list R) : Prop := exists k1 k2 k3 k4,
  f x = Ok k1 /\ f (axpy x (h / 2) k1) = Ok k2 /\ f (axpy x (h / 2) k2) = Ok k3 /\ f (axpy x h k3) = Ok k4 /\
  length k1 = length x /\ length k2 = length x /\ length k3 = length x /\ length k4 = length x /\ length y = length x /\
  forall i, i < length x -> nth i y 0%R = (nth i x 0 + h * (nth i k1 0 / 6 + nth i k2 0 / 3 + nth i k3 0 / 3 + nth i k4 0 / 6))%R.
(* the state y is reached from x by RK4 steps of the given lengths *)
Inductive reached (f : list R -> res (list R)) (x : list R) : list R -> list R -> Prop :=
| reached_start : reached f x [] x
| reached_step hs y h z : reached f x hs y -> classical f h y z -> reached f x (hs ++ [h]) z.
Definition linear (n : nat) (A : list R -> list R) : Prop :=
  (forall x, length x = n -> length (A x) = n) /\
  forall x y c, length x = n -> length y = n -> A (axpy x c y) = axpy (A x) c (A y).
(* the entry of w0 for symbol y *)
Definition guess (C : constructed) (s : sstate) (y : sym) (v : R) : Prop :=
  exists p, nth_error (w (the_nlp C)) p = Some y /\ nth_error (ss_w0 s) p = Some v.
(* the guess of the state at slot k of element i of the first control stage *)
Definition state_guess (C : constructed) (m : model) (s : sstate) (i k : nat) (x : list R) : Prop :=
  length x = m_nx m /\ forall j v, nth_error x j = Some v -> guess C s (S1 FX 0 i k j) v.
(* step lengths from one point to the next when the points are h times the given ones *)
Fixpoint increments (h : R) (t : R) (times : list R) : list R :=
  match times with [] => [] | u :: r => (h * (u - t))%R :: increments h u r end.
(* the stability polynomial of order 4 *)
Definition stability (z : R) : R := (1 + z + z ^ 2 / 2 + z ^ 3 / 6 + z ^ 4 / 24)%R.
