(* Spec5.v -- vocabulary for the statements about set(), solve() and the simulation looper.
   Nothing here is used by the model. *)
From Coq Require Import Reals Qreals.
From Verif Require Import Base Sx Utils Tableau Opts Model Ocp Problem Numeric Rk4 Results Solver Spec Fesd Spec2 Spec3 Spec4.
Local Open Scope nat_scope.

(* values of the parameters of the problem at a point *)
Definition parameters (C : constructed) (rho : env) : list R := map rho (p_p (the_problem C)).

(* the relaxation parameter following s > 0 *)
Definition next_sigma (o : opts) (s : R) : R :=
  match o_rule o with
  | Linear => (Q2R (o_slope o) * s)%R
  | Superlinear => Rmax (Q2R (o_sigma_N o)) (Rmin (Q2R (o_slope o) * s) (Rpower s (Q2R (o_exponent o))))
  end.
(* the relaxation parameter of pass k *)
Fixpoint sigma_at (o : opts) (k : nat) : R :=
  match k with 0 => Q2R (o_sigma_0 o) | S k' => next_sigma o (sigma_at o k') end.

(* the loop stops after a pass *)
Definition stops (o : opts) (h : hstep) : Prop :=
  (hs_comp h < Q2R (o_comp_tol o))%R \/ (hs_sigma h <= Q2R (o_sigma_N o))%R.

(* the passes of one homotopy loop: every pass is one call of the NLP solver, numbered from n on;
   lam00, lb, ub, first: lambda00, bounds and guess at the start of the loop *)
Record passes (nlp : nat -> nlp_call -> res nlp_ret) (C : constructed) (s : sstate) (n : nat)
    (lam00 : list R) (lb ub : list ext) (first : list R) (l : list hstep) : Prop := {
  pa_nonempty : 1 <= length l;
  pa_bounded : length l <= o_max_iter_homotopy (the_opts C);
  pa_call : forall k h, nth_error l k = Some h ->
    nlp (n + k) (hs_call h) = Ok (hs_ret h) /\
    nc_lbx (hs_call h) = lb /\ nc_ubx (hs_call h) = ub /\
    nc_lbg (hs_call h) = lbg (the_nlp C) /\ nc_ubg (hs_call h) = ubg (the_nlp C) /\
    nc_p (hs_call h) = concat (ss_pval s) ++ [hs_sigma h; hs_tau h] ++ lam00 ++ ss_x0 s;
  pa_comp : forall k h rho, nth_error l k = Some h -> primal C rho = nr_x (hs_ret h) -> parameters C rho = nc_p (hs_call h) ->
    hs_comp h = comp_residual C rho;
  pa_first : forall h, nth_error l 0 = Some h -> hs_sigma h = Q2R (o_sigma_0 (the_opts C)) /\ nc_x0 (hs_call h) = first;
  pa_next : forall k h h', nth_error l k = Some h -> nth_error l (S k) = Some h' ->
    ~ stops (the_opts C) h /\ nc_x0 (hs_call h') = nr_x (hs_ret h) /\
    ((0 < hs_sigma h)%R -> hs_sigma h' = next_sigma (the_opts C) (hs_sigma h));
  pa_last : forall h, last_is l h -> length l < o_max_iter_homotopy (the_opts C) -> stops (the_opts C) h;
  pa_tau : forall h, In h l -> (0 < hs_sigma h)%R -> hs_tau h = Rmin (Rpower (hs_sigma h) (3 / 2)) (hs_sigma h)
}.

(* the vector v, aligned with the symbols W, with the entries of some symbols replaced *)
Definition overwrite {A} (W : list sym) (v : list A) (G : sym -> option A) : list A :=
  map (fun p => match G (fst p) with Some x => x | None => snd p end) (combine W v).
(* all state guesses replaced by x0 *)
Definition states_at (x0 : list R) (y : sym) : option R :=
  match y with S1 FX _ _ _ i => Some (nth i x0 0%R) | _ => None end.
Definition with_states (C : constructed) (v x0 : list R) : list R := overwrite (w (the_nlp C)) v (states_at x0).

(* shapes of the arrays of a solver object *)
Record sized (C : constructed) (m : model) (s : sstate) : Prop := {
  sz_x0 : length (ss_x0 s) = m_nx m;
  sz_w0 : length (ss_w0 s) = length (w (the_nlp C));
  sz_pval : length (ss_pval s) = o_N_stages (the_opts C);
  sz_rows : forall r, In r (ss_pval s) -> length r = m_npt m + m_npg m }.

(* the guess that initialize leaves in w0 (RK4_SMOOTHENED excluded) *)
Definition first_guess (C : constructed) (s : sstate) : list R :=
  match o_init (the_opts C) with External => ss_w0 s | _ => with_states C (ss_w0 s) (ss_x0 s) end.
(* an NLP solver that always returns a vector of the right length *)
Definition answers (C : constructed) (nlp : nat -> nlp_call -> res nlp_ret) : Prop :=
  forall n c, exists r, nlp n c = Ok r /\ length (nr_x r) = length (w (the_nlp C)).

(* the weights of the first finite element of regions that lambda00 excludes *)
Definition excluded (C : constructed) (m : model) (lam00 : list R) (y : sym) : Prop :=
  exists j s k, y = S2 FTheta 0 0 j s k /\ s < n_subsystems m /\ k < n_modes m s /\
    (10 * Q2R (o_comp_tol (the_opts C)) < nth (offset (n_modes m) s k) lam00 0)%R.

(* ---- histories of calls ---- *)
(* arguments of the shape documented for set(); for the other fields wrong shapes raise or are broadcast *)
Definition right_shape (C : constructed) (m : model) (a : action) : Prop :=
  match a with
  | ASet (SetX0 v) => length v = m_nx m
  | ASet (SetW v) => length v = length (w (the_nlp C))
  | _ => True
  end.
(* the same history without the solves *)
Definition sets_only (l : list action) : list action :=
  filter (fun a => match a with ASet _ => true | ASolve => false end) l.

(* ---- guesses written by set() ---- *)
(* one row per control stage *)
Definition stage_rows (v : list (list R)) (y : sym) : option R :=
  match y with S1 FX c _ _ i => Some (nth i (nth c v []) 0%R) | _ => None end.
(* one row per finite element *)
Definition element_rows (o : opts) (v : list (list R)) (y : sym) : option R :=
  match y with S1 FX c e _ i => Some (nth i (nth (flat_pos (o_Nfe_list o) c e) v []) 0%R) | _ => None end.
Definition control_rows (v : list (list R)) (y : sym) : option R :=
  match y with SU c i => Some (nth i (nth c v []) 0%R) | _ => None end.
Definition global_row (v : list R) (y : sym) : option R :=
  match y with SVg i => Some (nth i v 0%R) | _ => None end.
Definition weight_rows (o : opts) (v : list (list R)) (y : sym) : option R :=
  match y with S2 FTheta c e _ 0 i => Some (nth i (nth (flat_pos (o_Nfe_list o) c e) v []) 0%R) | _ => None end.
(* the stage parameters after set('p_global', v), set('p_time_var', v) *)
Definition with_p_global (m : model) (v : list R) (M : list (list R)) : list (list R) :=
  map (fun r => firstn (m_npt m) r ++ v) M.
Definition with_p_time_var (m : model) (v M : list (list R)) : list (list R) :=
  map (fun p => fst p ++ skipn (m_npt m) (snd p)) (combine v M).
(* what a call of set() may touch: guesses of these symbols *)
Definition addressed (fv : field_value) (y : sym) : Prop :=
  match fv, y with
  | SetX _, S1 FX _ _ _ _ | SetU _, SU _ _ | SetVGlobal _, SVg _ | SetTheta _, S2 FTheta _ _ _ _ _ | SetW _, _ => True
  | _, _ => False
  end.
Definition sets_x0 (fv : field_value) : Prop := match fv with SetX0 _ => True | _ => False end.
Definition sets_p_global (fv : field_value) : Prop := match fv with SetPGlobal _ => True | _ => False end.
Definition sets_p_time_var (fv : field_value) : Prop := match fv with SetPTimeVar _ => True | _ => False end.
(* what is left alone by a call, whatever its outcome *)
Record untouched (C : constructed) (m : model) (fv : field_value) (s s' : sstate) : Prop := {
  un_calls : ss_calls s' = ss_calls s;
  un_x0 : ~ sets_x0 fv -> ss_x0 s' = ss_x0 s;
  un_w0 : forall i y, nth_error (w (the_nlp C)) i = Some y -> ~ addressed fv y -> nth_error (ss_w0 s') i = nth_error (ss_w0 s) i;
  un_time : ~ sets_p_time_var fv -> map (firstn (m_npt m)) (ss_pval s') = map (firstn (m_npt m)) (ss_pval s);
  un_global : ~ sets_p_global fv -> map (skipn (m_npt m)) (ss_pval s') = map (skipn (m_npt m)) (ss_pval s)
}.

(* ---- number of passes of the loop ---- *)
(* what int(np.round(np.abs(np.log(comp_tol / sigma_0) / np.log(slope)))) is, for exact logarithms *)
Definition rounds (lr : Q -> Q -> Q -> nat) : Prop := forall tol s0 sl : Q,
  (0 < Q2R tol)%R -> (0 < Q2R s0)%R -> (0 < Q2R sl < 1)%R ->
  (Rabs (INR (lr tol s0 sl) - Rabs (ln (Q2R tol / Q2R s0) / ln (Q2R sl))) <= 1 / 2)%R.

(* ---- polishing ---- *)
Definition multiplier (y : sym) : Prop := match y with S2 _ _ _ _ _ _ => True | _ => False end.
(* variables that polish_solution does not know: speed of time, booleans *)
Definition unknown_to_polish (y : sym) : Prop := match y with SSot _ | SBool _ _ _ _ | SBoolG _ _ => True | _ => False end.
(* the polished point: N_stages calls with sigma = tau = 0 from the same guess; the last one counts *)
Record polishing (nlp : nat -> nlp_call -> res nlp_ret) (C : constructed) (s : sstate) (n : nat)
    (lam00 guess : list R) (q : polished) : Prop := {
  pl_call : exists c r, nlp (n + (o_N_stages (the_opts C) - 1)) c = Ok r /\ po_w q = nr_x r /\ po_status q = nr_status r /\
    nc_x0 c = guess /\ nc_lbg c = lbg (the_nlp C) /\ nc_ubg c = ubg (the_nlp C) /\
    nc_p c = concat (ss_pval s) ++ [0%R; 0%R] ++ lam00 ++ ss_x0 s /\
    polish_bounds (the_opts C) (the_problem C) guess = Ok (nc_lbx c, nc_ubx c) }.

(* ---- the parameter vector of the NLP ---- *)
(* x is the value that belongs to the parameter y of the problem: the stage parameters and x0 that set()
   stored, sigma and tau of the pass, and lambda at the initial point *)
Definition belongs (C : constructed) (m : model) (s : sstate) (sg tau : R) (y : sym) (x : R) : Prop :=
  let v0 := initial_point m (ss_x0 s) (reals (pm_z0 (pr_pm (cn_prob C)))) (nth 0 (ss_pval s) []) in
  match y with
  | SPst c i => exists r, nth_error (ss_pval s) c = Some r /\ nth_error r i = Some x
  | SSigma => x = sg
  | STau => x = tau
  | SX0 i => nth_error (ss_x0 s) i = Some x
  | SL00 FLam q k => exists mn, least (n_modes m q) (region_value m v0 q) mn /\ x = (region_value m v0 q k - mn)%R
  | SL00 FLn q k => x = Rmax 0 (- switch_value m v0 q k)
  | SL00 FLp q k => x = Rmax 0 (switch_value m v0 q k)
  | _ => False
  end.

(* ---- outcome of a solve ---- *)
(* IPOPT return statuses that count as success *)
Definition accepted (st : ret_status) : Prop :=
  In st [RSSolveSucceeded; RSSolvedToAcceptableLevel; RSFeasiblePointFound; RSSearchDirectionBecomesTooSmall].
(* the first NLP call starts from v, except for weights fixed to zero by fix_active_set_fe0 *)
Definition starts_from (C : constructed) (m : model) (lam00 : list R) (v : list R) (out : solve_out) : Prop :=
  exists h, nth_error (so_steps out) 0 = Some h /\ length (nc_x0 (hs_call h)) = length (w (the_nlp C)) /\
  let fix_it := o_fix_active_set_fe0 (the_opts C) = true /\ o_pss (the_opts C) = Stewart in
  forall i y, nth_error (w (the_nlp C)) i = Some y ->
    (fix_it /\ excluded C m lam00 y -> nth_error (nc_x0 (hs_call h)) i = Some 0%R) /\
    (~ (fix_it /\ excluded C m lam00 y) -> nth_error (nc_x0 (hs_call h)) i = nth_error v i).
(* calls of set() that write no guess *)
Definition quiet (a : action) : Prop :=
  match a with ASet (SetX0 _) | ASet (SetPGlobal _) | ASet (SetPTimeVar _) | ASet SetUnknown => True | _ => False end.
Definition quiet_or_solve (a : action) : Prop := a = ASolve \/ quiet a.
