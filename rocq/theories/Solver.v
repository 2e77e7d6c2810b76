(* Solver.v -- NosnocSolverBase and NosnocSolver, nosnoc/solver.py:39-469.
   The state is what set() and solve() change: model.x0, model.p_val_ctrl_stages, problem.w0, and
   the number of NLP solves done so far. The NLP solver (CasADi's nlpsol with IPOPT) is an arbitrary
   function of that number and of the arguments of the call, so that every behaviour of a stateful
   solver is covered; it may raise. Numbers are reals (no rounding, no nan); printing is left out.
   Arrays handed to set() are copied: the aliasing of the user's array by set('w'), set('x0') is not
   modelled. opts and model are not changed by the user between calls except through set(). *)
From Coq Require Import Reals Qreals.
From Verif Require Import Base Sx Utils Tableau Opts Model Ocp Problem Numeric Rk4 Results.
Local Open Scope nat_scope.

(* ---- statements with state and exceptions: the state survives an exception ---- *)
Definition se (S A : Type) := S -> S * res A.
Definition sret {S A} (a : A) : se S A := fun s => (s, Ok a).
Definition sbind {S A B} (m : se S A) (k : A -> se S B) : se S B := fun s =>
  match m s with (s', Ok a) => k a s' | (s', Err e) => (s', Err e) end.
Definition lift {S A} (m : res A) : se S A := fun s => (s, m).
Definition raise {S A} (e : exn) : se S A := fun s => (s, Err e).
Definition sget {S} : se S S := fun s => (s, Ok s).
Notation "'dos' x <- m ; k" := (sbind m (fun x => k))
  (at level 200, x pattern, m at level 100, k at level 200, right associativity).
(* for a in l: f(a) *)
Fixpoint sfor {S A} (f : A -> se S unit) (l : list A) : se S unit :=
  match l with [] => sret tt | a :: l' => dos _ <- f a; sfor f l' end.

Record sstate := mkState {
  ss_x0 : list R;              (* model.x0 *)
  ss_pval : list (list R);     (* model.p_val_ctrl_stages *)
  ss_w0 : list R;              (* problem.w0 *)
  ss_calls : nat }.
Definition put_x0 (v : list R) : se sstate unit := fun s =>
  (mkState v (ss_pval s) (ss_w0 s) (ss_calls s), Ok tt).
Definition put_pval (v : list (list R)) : se sstate unit := fun s =>
  (mkState (ss_x0 s) v (ss_w0 s) (ss_calls s), Ok tt).
Definition put_w0 (v : list R) : se sstate unit := fun s =>
  (mkState (ss_x0 s) (ss_pval s) v (ss_calls s), Ok tt).

(* ---- numpy assignments ---- *)
(* value of an array assignment with n places: same length, or one entry for all *)
Definition bcast (n : nat) (v : list R) : res (list R) :=
  if length v =? n then Ok v
  else match v with [x] => Ok (repeat x n) | _ => Err EValueError end.
Definition write {A} (w : list A) (ivs : list (nat * A)) : res (list A) :=
  foldM (fun w iv => updE EIndexError w (fst iv) (snd iv)) ivs w.
(* w[idx] = v *)
Definition assign (w : list R) (idx : list nat) (v : list R) : res (list R) :=
  do* v' <- bcast (length idx) v;
  write w (combine idx v').
(* w[idx] = c for a number c *)
Definition assign_all {A} (w : list A) (idx : list nat) (c : A) : res (list A) :=
  write w (map (fun i => (i, c)) idx).
(* w[idx] = v for a list of index lists and a single row v: every row of the index array receives v *)
Definition assign_rows (w : list R) (idx : list (list nat)) (v : list R) : res (list R) :=
  do* _ <- guard (all_len_eq idx) EValueError;
  match idx with
  | [] => do* _ <- bcast 0 v; Ok w
  | r :: _ => do* _ <- bcast (length r) v; foldM (fun w r => assign w r v) idx w
  end.
Definition update_w0 (f : list R -> res (list R)) : se sstate unit :=
  dos s <- sget;
  dos w <- lift (f (ss_w0 s));
  put_w0 w.

(* ---- set, solver.py:49-116 ---- *)
Inductive field_value :=
| SetX0 (v : list R) | SetX (v : list (list R)) | SetU (v : list (list R)) | SetVGlobal (v : list R)
| SetPGlobal (v : list R) | SetPTimeVar (v : list (list R)) | SetTheta (v : list (list R))
| SetW (v : list R) | SetUnknown.

(* pairs (i, x) for i, x in enumerate(l) *)
Definition enum {A} (l : list A) : list (nat * A) := combine (seq 0 (length l)) l.
(* p_val_ctrl_stages[i, lo:hi] = v *)
Definition assign_cols (M : list (list R)) (i lo hi : nat) (v : list R) : res (list (list R)) :=
  do* row <- nthE EIndexError M i;
  do* v' <- bcast (hi - lo) v;
  updE EIndexError M i (firstn lo row ++ v' ++ skipn hi row).

Definition not_external (o : opts) : bool := match o_init o with External => false | _ => true end.

Definition set (C : constructed) (fv : field_value) : se sstate unit :=
  let Pr := cn_prob C in
  let o := pr_o Pr in
  let P := pr Pr in
  let m := pm_m (pr_pm Pr) in
  match fv with
  | SetX0 v => put_x0 v
  | SetX v =>
      dos _ <- (if length v =? o_N_stages o
                then sfor (fun p => sfor (fun sub => sfor (fun idx =>
                            dos row <- lift (nthE EIndexError v (fst p));
                            update_w0 (fun w => assign w idx row)) sub) (snd p))
                       (enum (p_ind1 P FX))
                else if length v =? sumn (o_Nfe_list o)
                then sfor (fun p => sfor (fun idx =>
                            dos row <- lift (nthE EIndexError v (fst p));
                            update_w0 (fun w => assign w idx row)) (snd p))
                       (enum (concat (p_ind1 P FX)))
                else raise EValueError);
      if not_external o then raise EWarning else sret tt
  | SetU v =>
      dos _ <- lift (guard (negb (length (concat (p_ind_u P)) =? 0)) EIndexError);
      dos _ <- lift (guard (all_len_eq (p_ind_u P)) EValueError);
      dos rows <- lift (if length v =? length (p_ind_u P) then Ok v
                        else match v with [r] => Ok (repeat r (length (p_ind_u P))) | _ => Err EValueError end);
      update_w0 (fun w => foldM (fun w p => assign w (fst p) (snd p)) (combine (p_ind_u P) rows) w)
  | SetVGlobal v =>
      dos _ <- lift (guard (negb (length (concat (p_ind_vg P)) =? 0)) EIndexError);
      update_w0 (fun w => assign_rows w (p_ind_vg P) v)
  | SetPGlobal v =>
      sfor (fun i =>
        dos s <- sget;
        dos M <- lift (assign_cols (ss_pval s) i (m_npt m) (m_npt m + m_npg m) v);
        put_pval M) (seq 0 (o_N_stages o))
  | SetPTimeVar v =>
      sfor (fun i =>
        dos s <- sget;
        dos row <- lift (nthE EIndexError v i);
        dos M <- lift (assign_cols (ss_pval s) i 0 (m_npt m) row);
        put_pval M) (seq 0 (o_N_stages o))
  | SetTheta v =>
      if length v =? sumn (o_Nfe_list o)
      then sfor (fun p => sfor (fun idx =>
                   dos row <- lift (nthE EIndexError v (fst p));
                   update_w0 (fun w => assign_rows w idx row)) (snd p))
              (enum (concat (p_ind2 P FTheta)))
      else raise EException
  | SetW v =>
      dos _ <- put_w0 v;
      if not_external o then raise EWarning else sret tt
  | SetUnknown => raise ENotImplemented
  end.

(* ---- initialize, solver.py:122-185 ---- *)
(* prob.w0[np.array(ind)] = x0 for ind = ind_x[ctrl] *)
Definition assign_states (w : list R) (ind : list (list (list nat))) (x0 : list R) : res (list R) :=
  do* _ <- guard (all_len_eq ind) EValueError;
  do* _ <- guard (negb (length (concat (concat ind)) =? 0)) EIndexError;
  assign_rows w (concat ind) x0.

(* lines 142-145: differences of the first n_s IRK time points *)
Definition irk_time_grid (ns : nat) (times : list Q) : res (list Q) :=
  do* t0 <- nthE EIndexError times 0;
  do* ds <- mapM (fun k => do* a <- nthE EIndexError times k;
                           do* b <- nthE EIndexError times (k - 1);
                           Ok (a - b)%Q) (seq 1 (ns - 1));
  Ok (t0 :: ds).
(* M[range(lo, hi)] of a CasADi vector *)
Definition dm_range (v : list R) (lo hi : nat) : res (list R) :=
  mapM (nthE ECasadi v) (seq lo (hi - lo)).
Definition nest4 {A} (l : list (list (list (list A)))) (a b c d : nat) : res A :=
  do* l1 <- nthE EIndexError l a; do* l2 <- nthE EIndexError l1 b;
  do* l3 <- nthE EIndexError l2 c; nthE EIndexError l3 d.
Definition nest3 {A} (l : list (list (list A))) (a b c : nat) : res A :=
  do* l1 <- nthE EIndexError l a; do* l2 <- nthE EIndexError l1 b; nthE EIndexError l2 c.

(* lines 155-172 for RK stage k of element i *)
Definition rk4_stage_guess (C : constructed) (sm : smooth_funs) (i k : nat) (x_ki : list R) : se sstate unit :=
  let Pr := cn_prob C in
  let P := pr Pr in
  let pm := pr_pm Pr in
  dos ix <- lift (nest3 (p_ind1 P FX) 0 i k);
  dos _ <- update_w0 (fun w => assign w ix x_ki);
  dos s <- sget;
  dos p0 <- lift (nthE EIndexError (ss_pval s) 0);
  dos lam <- lift (numcall (pm_lam00_fun pm) [x_ki; []; p0]);
  dos mu <- lift (numcall (sm_mu sm) [x_ki; p0]);
  dos th <- lift (numcall (sm_theta sm) [x_ki; p0]);
  sfor (fun s =>
    let lo := sumn (firstn s (pm_nf pm)) in
    let hi := sumn (firstn (S s) (pm_nf pm)) in
    dos it <- lift (nest4 (p_ind2 P FTheta) 0 i k s);
    dos ths <- lift (dm_range th lo hi);
    dos _ <- update_w0 (fun w => assign w it ths);
    dos il <- lift (nest4 (p_ind2 P FLam) 0 i k s);
    dos lams <- lift (dm_range lam lo hi);
    dos _ <- update_w0 (fun w => assign w il lams);
    dos im <- lift (nest4 (p_ind2 P FMu) 0 i k s);
    dos mus <- lift (dm_range mu s (s + 1));
    update_w0 (fun w => assign w im mus)) (seq 0 (pm_nsys pm)).

(* lines 147-182 for the elements from i on, starting at state x *)
Fixpoint rk4_elements (C : constructed) (sm : smooth_funs) (grid : list R) (n i : nat) (x : list R)
  : se sstate unit :=
  match n with
  | 0 => sret tt
  | S n' =>
      let o := pr_o (cn_prob C) in
      let P := pr (cn_prob C) in
      dos X <- lift (rk4_on_timegrid (fun y => numcall (sm_fx sm) [y]) x grid);
      dos xl <- lift (lastE EIndexError X);
      dos _ <- sfor (fun k => dos x_ki <- lift (nthE EIndexError X (k + 1));
                              rk4_stage_guess C sm i k x_ki) (seq 0 (o_ns o));
      dos tl <- lift (lastE EIndexError (t_times (cn_tab C)));
      dos _ <- lift (guard (Qeq_bool tl 1) ENotImplemented);
      dos l1 <- lift (nthE EIndexError (p_ind1 P FX) 0);
      dos l2 <- lift (nthE EIndexError l1 i);
      dos ix <- lift (lastE EIndexError l2);
      dos x_ki <- lift (nthE EUnboundLocal X (o_ns o));
      dos _ <- update_w0 (fun w => assign w ix x_ki);
      rk4_elements C sm grid n' (S i) xl
  end.

(* returns lambda00 *)
Definition initialize (C : constructed) : se sstate (list R) :=
  let Pr := cn_prob C in
  let o := pr_o Pr in
  let P := pr Pr in
  dos s <- sget;
  dos lam00 <- lift (compute_lambda00 (pr_pm Pr) (ss_x0 s) (ss_pval s));
  dos _ <- match o_init o with
           | AllXcurrentW0Start | AllXcurrentWoptPrev =>
               sfor (fun ind => update_w0 (fun w => assign_states w ind (ss_x0 s))) (p_ind1 P FX)
           | External => sret tt
           | Rk4Smoothened =>
               dos sm <- lift (opt_res EAttributeError (cn_smooth C));
               dos _ <- lift (guard (negb (o_N_stages o * o_N_finite_elements o =? 0)) EZeroDivision);
               let dt_fe := (Q2R (o_terminal_time o) / INR (o_N_stages o * o_N_finite_elements o))%R in
               dos grid <- lift (irk_time_grid (o_ns o) (t_times (cn_tab C)));
               rk4_elements C sm (map (fun q => dt_fe * Q2R q)%R grid) (o_N_finite_elements o) 0 (ss_x0 s)
           end;
  sret lam00.

(* ---- homotopy, solver.py:193-213, 309-418 ---- *)
(* x ** e for floats. A negative x gives a complex number, which min() then rejects (TypeError). *)
Definition py_pow (x : R) (e : Q) : res R :=
  if Rltb 0 x then Ok (Rpower x (Q2R e))
  else if Rltb x 0 then Err ETypeError
  else if Qeq_bool e 0 then Ok 1%R
  else if Qle_bool e 0 then Err EZeroDivision
  else Ok 0%R.

Definition homotopy_sigma_update (o : opts) (sigma : R) : res R :=
  match o_rule o with
  | Linear => Ok (Q2R (o_slope o) * sigma)%R
  | Superlinear =>
      do* p <- py_pow sigma (o_exponent o);
      Ok (Rmax (Q2R (o_sigma_N o)) (Rmin (Q2R (o_slope o) * sigma) p))
  end.

(* solver.py:208-213 setup_p_val *)
Definition setup_p_val (s : sstate) (lam00 : list R) (sigma tau : R) : list R :=
  concat (ss_pval s) ++ [sigma; tau] ++ lam00 ++ ss_x0 s.

Record nlp_call := mkCall {
  nc_x0 : list R; nc_lbx : list ext; nc_ubx : list ext; nc_lbg : list ext; nc_ubg : list ext;
  nc_p : list R }.
Record nlp_ret := mkRet {
  nr_x : list R; nr_f : R; nr_g : list R; nr_status : ret_status; nr_iter : nat; nr_cpu : R }.
(* one pass of the homotopy loop *)
Record hstep := mkStep { hs_sigma : R; hs_tau : R; hs_call : nlp_call; hs_ret : nlp_ret; hs_comp : R }.

Section Nlp.
Variable nlp : nat -> nlp_call -> res nlp_ret.

Definition call_nlp (c : nlp_call) : se sstate nlp_ret := fun s =>
  (mkState (ss_x0 s) (ss_pval s) (ss_w0 s) (S (ss_calls s)), nlp (ss_calls s) c).

(* prob.comp_res(w_opt, p_val).full()[0][0] *)
Definition comp_res_val (Pr : problem) (w p : list R) : res R :=
  do* r <- numcall (pr_comp_res Pr) [w; p];
  nthE EIndexError r 0.

(* solver.py:362-418: at most [n] passes *)
Fixpoint homotopy (C : constructed) (lam00 : list R) (lbw_ ubw_ : list ext) (n : nat) (sigma : R) (w0_ : list R)
  : se sstate (list hstep) :=
  match n with
  | 0 => sret []
  | S n' =>
      let Pr := cn_prob C in
      let o := pr_o Pr in
      let f := pb (pr Pr) in
      dos s <- sget;
      dos t <- lift (py_pow sigma (3 # 2));
      let tau := Rmin t sigma in
      let p := setup_p_val s lam00 sigma tau in
      let c := mkCall w0_ lbw_ ubw_ (lbg f) (ubg f) p in
      dos r <- call_nlp c;
      dos cr <- lift (comp_res_val Pr (nr_x r) p);
      let st := mkStep sigma tau c r cr in
      if Rltb cr (Q2R (o_comp_tol o)) then sret [st]
      else if Rleb sigma (Q2R (o_sigma_N o)) then sret [st]
      else
        dos sigma' <- lift (homotopy_sigma_update o sigma);
        dos rest <- homotopy C lam00 lbw_ ubw_ n' sigma' (nr_x r);
        sret (st :: rest)
  end.

(* ---- polish_solution, solver.py:216-270 ---- *)
Definition flat2_indices (P : prob) (f : fam2) : list nat := concat (concat (concat (concat (p_ind2 P f)))).
Definition flat1_indices (P : prob) (f : fam1) : list nat := concat (concat (concat (p_ind1 P f))).
(* lines 222-225 *)
Definition ind_set (P : prob) : list nat :=
  concat (map (flat2_indices P) [FLam; FLn; FLp; FAlpha; FTheta; FMu]).
Definition ind_dont_set (P : prob) : list nat :=
  p_ind_h P ++ concat (p_ind_u P) ++ flat1_indices P FX ++ concat (p_ind_vg P)
  ++ flat1_indices P FV ++ flat1_indices P FZ ++ concat (p_ind_el P).
Definition mem (i : nat) (l : list nat) : bool := existsb (Nat.eqb i) l.
(* lines 232-238: positions fixed because of a condition on the value *)
Definition fixed_indices (P : prob) (cond : R -> bool) (w : list R) : list nat :=
  map fst (filter (fun p => cond (snd p) && negb (mem (fst p) (ind_dont_set P))) (enum w)).
(* line 254: w_guess[prob.ind_theta[i_ctrl][i_fe][:]], evaluated and dropped *)
Definition touch_theta (w : list R) (ind : list (list (list nat))) : res unit :=
  do* _ <- guard (all_len_eq ind && all_len_eq (concat ind)) EValueError;
  do* _ <- mapM (gather w) (concat ind);
  Ok tt.

Record polished := mkPolished { po_w : list R; po_cpu : R; po_iter : nat; po_status : ret_status }.

(* lines 252-268 for one control stage *)
Definition polish_stage (C : constructed) (lam00 : list R) (lb ub : list ext) (w_guess : list R) (c : nat)
  : se sstate polished :=
  let Pr := cn_prob C in
  let P := pr Pr in
  let f := pb P in
  dos nfe <- lift (nthE EIndexError (o_Nfe_list (pr_o Pr)) c);
  dos _ <- sfor (fun e => dos l1 <- lift (nthE EIndexError (p_ind2 P FTheta) c);
                          dos l2 <- lift (nthE EIndexError l1 e);
                          lift (touch_theta w_guess l2)) (seq 0 nfe);
  dos s <- sget;
  let p := setup_p_val s lam00 0 0 in
  dos r <- call_nlp (mkCall w_guess lb ub (lbg f) (ubg f) p);
  dos _ <- lift (comp_res_val Pr (nr_x r) p);
  sret (mkPolished (nr_x r) (nr_cpu r) (nr_iter r) (nr_status r)).

(* bounds handed to the NLP solver, lines 232-245 *)
Definition polish_bounds (o : opts) (P : prob) (w_guess : list R) : res (list ext * list ext) :=
  let eps := (10 * Q2R (o_comp_tol o))%R in
  let i0 := fixed_indices P (fun x => Rltb x eps) w_guess in
  let i1 := fixed_indices P (fun x => Rltb (Rabs (x - 1)) eps) w_guess in
  do* l0 <- assign_all (lbw (pb P)) i0 (Fin 0);
  do* u0 <- assign_all (ubw (pb P)) i0 (Fin 0);
  do* l1 <- assign_all l0 i1 (Fin 1);
  do* u1 <- assign_all u0 i1 (Fin 1);
  Ok (l1, u1).
Definition polish_check (P : prob) (w_guess : list R) : bool :=
  forallb (fun i => mem i (ind_set P ++ ind_dont_set P)) (seq 0 (length w_guess)).

Definition polish_solution (C : constructed) (lam00 w_guess : list R) : se sstate polished :=
  let Pr := cn_prob C in
  let o := pr_o Pr in
  let P := pr Pr in
  dos _ <- lift (guard (polish_check P w_guess) EException);
  dos b <- lift (polish_bounds o P w_guess);
  let run := polish_stage C lam00 (fst b) (snd b) w_guess in
  (fix go (l : list nat) : se sstate polished :=
     match l with
     | [] => raise EUnboundLocal
     | [c] => run c
     | c :: l' => dos _ <- run c; go l'
     end) (seq 0 (o_N_stages o)).

(* ---- solve, solver.py:309-469 ---- *)
(* lines 336-371: first guess and bounds *)
Definition active_lambda (o : opts) (lam00 : list R) : list nat :=
  map fst (filter (fun p => Rltb (10 * Q2R (o_comp_tol o)) (snd p)) (enum lam00)).
Definition zero_indices (o : opts) (P : prob) (lam00 : list R) : res (list nat) :=
  do* l1 <- nthE EIndexError (p_ind2 P FTheta) 0;
  do* fe1 <- nthE EIndexError l1 0;
  do* r <- mapM (fun i => do* st <- nthE EIndexError fe1 i;
                          mapM (nthE EIndexError (concat st)) (active_lambda o lam00)) (seq 0 (o_ns o));
  Ok (concat r).
Definition start_values (o : opts) (P : prob) (lam00 w0_ : list R) : res (list R * list ext * list ext) :=
  if o_fix_active_set_fe0 o && match o_pss o with Stewart => true | Step => false end
  then
    do* z <- zero_indices o P lam00;
    do* w1 <- assign_all w0_ z 0%R;
    do* l1 <- assign_all (lbw (pb P)) z (Fin 0);
    do* u1 <- assign_all (ubw (pb P)) z (Fin 0);
    Ok (w1, l1, u1)
  else Ok (w0_, lbw (pb P), ubw (pb P)).

Record solve_out := mkOut {
  so_results : results;
  so_cpu : list (option R);
  so_iter : list (option nat);
  so_w_all : list (list R);
  so_w_sol : list R;
  so_cost : R;
  so_status : status;
  so_steps : list hstep;             (* not returned by the code: the passes of the loop *)
  so_polish : option polished        (* not returned by the code *)
}.

(* a list of [n] None with the first entries replaced *)
Definition pad {A} (n : nat) (l : list A) : list (option A) :=
  map Some l ++ repeat None (n - length l).

Definition solve (C : constructed) : se sstate solve_out :=
  let Pr := cn_prob C in
  let o := pr_o Pr in
  let P := pr Pr in
  dos lam00 <- initialize C;
  dos s <- sget;
  dos st <- lift (start_values o P lam00 (ss_w0 s));
  let '(w1, lb, ub) := st in
  dos steps <- homotopy C lam00 lb ub (o_max_iter_homotopy o) (Q2R (o_sigma_0 o)) w1;
  dos last <- lift (lastE EUnboundLocal steps);
  dos pol <- (if o_do_polishing o
              then dos q <- polish_solution C lam00 (nr_x (hs_ret last)); sret (Some q)
              else sret None);
  let w_opt := match pol with Some q => po_w q | None => nr_x (hs_ret last) end in
  let stat := match pol with Some q => po_status q | None => nr_status (hs_ret last) end in
  dos s2 <- sget;
  dos rs <- lift (get_results Pr (ss_x0 s2) w_opt);
  dos _ <- match o_init o with
           | AllXcurrentWoptPrev => update_w0 (fun w => bcast (length w) w_opt)
           | _ => sret tt
           end;
  let n := o_max_iter_homotopy o in
  sret (mkOut rs
    (pad n (map (fun h => nr_cpu (hs_ret h)) steps) ++ match pol with Some q => [Some (po_cpu q)] | None => [] end)
    (pad n (map (fun h => nr_iter (hs_ret h)) steps) ++ match pol with Some q => [Some (po_iter q)] | None => [] end)
    (ss_w0 s :: map (fun h => nr_x (hs_ret h)) steps)
    w_opt
    (Rabs (nr_f (hs_ret last)))
    (if check_ipopt_success stat then SUCCESS else INFEASIBLE)
    steps pol).

End Nlp.

(* the solver object after NosnocSolver(opts, model, ocp) *)
Definition initial_state (C : constructed) : sstate :=
  let Pr := cn_prob C in
  mkState (reals (m_x0 (pm_m (pr_pm Pr)))) (map reals (pm_pval (pr_pm Pr))) (reals (w0 (pb (pr Pr)))) 0.

(* a history of calls on one solver object; an exception of one call is caught by the caller *)
Inductive action := ASet (fv : field_value) | ASolve.
Definition act (nlp : nat -> nlp_call -> res nlp_ret) (C : constructed) (s : sstate) (a : action) : sstate :=
  match a with
  | ASet fv => fst (set C fv s)
  | ASolve => fst (solve nlp C s)
  end.
Definition history (nlp : nat -> nlp_call -> res nlp_ret) (C : constructed) (l : list action) : sstate :=
  fold_left (act nlp C) l (initial_state C).
