(* Results.v -- get_results_from_primal_vector (nosnoc/solver.py:472-539) and the numpy indexing it
   uses. Vectors hold real numbers (no rounding, no nan). numpy >= 1.24: an index list whose rows
   have different lengths raises ValueError. Arrays are lists; a 2-d array is a list of rows. *)
From Coq Require Import Reals Qreals.
From Verif Require Import Base Sx Utils Opts Model Ocp Problem.
Local Open Scope nat_scope.

(* v[l] for a flat index list *)
Definition gather {A} (v : list A) (idx : list nat) : res (list A) := mapM (nthE EIndexError v) idx.
(* v[l] for a list of index lists: an array with one row per index list *)
Definition gather2 {A} (v : list A) (idx : list (list nat)) : res (list (list A)) :=
  do* _ <- guard (all_len_eq idx) EValueError;
  mapM (gather v) idx.
(* v[np.array(l)]: np.array([]) holds floats, which are no indices *)
Definition gather_arr {A} (v : list A) (idx : list nat) : res (list A) :=
  do* _ <- guard (negb (length idx =? 0)) EIndexError;
  gather v idx.

(* np.cumsum, starting from s *)
Fixpoint cumsum (s : R) (l : list R) : list R :=
  match l with [] => [] | a :: l' => (s + a)%R :: cumsum (s + a)%R l' end.
Fixpoint ncumsum (s : nat) (l : list nat) : list nat :=
  match l with [] => [] | a :: l' => s + a :: ncumsum (s + a) l' end.

(* a - b for arrays of one axis: equal lengths, or one of them has a single entry *)
Definition np_sub (a b : list R) : res (list R) :=
  if length a =? length b then Ok (map (fun p => (fst p - snd p)%R) (combine a b))
  else match a, b with
       | [x], _ => Ok (map (fun y => (x - y)%R) b)
       | _, [y] => Ok (map (fun x => (x - y)%R) a)
       | _, _ => Err EValueError
       end.
Definition Rltb (a b : R) : bool := if Rlt_dec a b then true else false.
Definition Rleb (a b : R) : bool := if Rle_dec a b then true else false.

(* any(np.abs(a - b) > 0.1) *)
Definition changed (a b : list R) : res bool :=
  do* d <- np_sub a b;
  Ok (existsb (fun x => Rltb (1 / 10) (Rabs x)) d).

(* lines 519-533: indices i with a change from entry i to entry i+1 *)
Fixpoint switch_indices (i : nat) (prev : list R) (l : list (list R)) : res (list nat) :=
  match l with
  | [] => Ok []
  | a :: l' =>
      do* ch <- changed a prev;
      do* r <- switch_indices (S i) a l';
      Ok (if ch then i :: r else r)
  end.
Definition all_switches (l : list (list R)) : res (list nat) :=
  match l with
  | [] => Err EIndexError
  | a :: l' => switch_indices 0 a l'
  end.

Record results := mkResults {
  rs_x_out : list R;
  rs_x_list : list (list R);
  rs_x_all_list : list (list R);
  rs_u_list : list (list R);                  (* also u_traj *)
  rs_sot : option (list (list R));
  rs_theta_list : list (list (list R));       (* per element: one row per subsystem *)
  rs_lambda_list : list (list (list R));
  rs_alpha_list : list (list R);
  rs_lambda_n_list : list (list R);
  rs_lambda_p_list : list (list R);
  rs_z_list : list (list R);
  rs_time_steps : list R;
  rs_x_traj : list (list R);
  rs_t_grid : list R;
  rs_t_grid_u : list R;
  rs_v_global : list (list R);
  rs_switch_times : list R
}.

(* lines 503-509; only called with a constructed problem, so that N_stages <> 0 and Nfe <> 0 *)
Definition time_steps_of (o : opts) (P : prob) (w_opt : list R) : res (list R) :=
  if o_use_fesd o then gather w_opt (p_ind_h P)
  else
    do* _ <- guard (negb (o_N_stages o =? 0)) EZeroDivision;
    let t_stages := (Q2R (o_terminal_time o) / INR (o_N_stages o))%R in
    do* r <- mapM (fun nfe => do* _ <- guard (negb (nfe =? 0)) EZeroDivision;
                              Ok (repeat (t_stages / INR nfe)%R nfe)) (o_Nfe_list o);
    Ok (concat r).

(* solver.py:472-539; x0 is prob.model.x0 *)
Definition get_results (Pr : problem) (x0 : list R) (w_opt : list R) : res results :=
  let o := pr_o Pr in
  let P := pr Pr in
  do* l1 <- lastE EIndexError (p_ind1 P FX);
  do* l2 <- lastE EIndexError l1;
  do* l3 <- lastE EIndexError l2;
  do* x_out <- gather w_opt l3;
  do* x_list <- mapM (gather w_opt) (concat (p_ind_x_cont P));
  do* x_all <- mapM (gather_arr w_opt) (concat (concat (p_ind1 P FX)));
  do* u_list <- mapM (gather w_opt) (p_ind_u P);
  do* sot <- match o_sot o with
             | SotNone => Ok None
             | _ => do* s <- mapM (gather w_opt) (p_ind_sot P); Ok (Some s)
             end;
  do* i_theta <- get_cont_algebraic_indices (p_ind2 P FTheta);
  do* theta <- mapM (gather2 w_opt) i_theta;
  do* i_lam <- get_cont_algebraic_indices (p_ind2 P FLam);
  do* lam <- mapM (gather2 w_opt) i_lam;
  do* i_al <- get_cont_algebraic_indices (p_ind2 P FAlpha);
  do* alpha <- mapM (fun i => gather w_opt (concat i)) i_al;
  do* i_ln <- get_cont_algebraic_indices (p_ind2 P FLn);
  do* ln <- mapM (fun i => gather w_opt (concat i)) i_ln;
  do* i_lp <- get_cont_algebraic_indices (p_ind2 P FLp);
  do* lp <- mapM (fun i => gather w_opt (concat i)) i_lp;
  do* i_z <- get_cont_algebraic_indices (p_ind1 P FZ);
  do* z <- mapM (gather w_opt) i_z;
  do* time_steps <- time_steps_of o P w_opt;
  let t_grid := 0%R :: cumsum 0 time_steps in
  let u_grid := 0 :: ncumsum 0 (o_Nfe_list o) in
  do* t_grid_u <- mapM (nthE EIndexError t_grid) u_grid;
  do* vg <- gather2 w_opt (p_ind_vg P);
  do* sw <- match o_pss o with
            | Step => all_switches alpha
            | Stewart => all_switches (map (@concat R) theta)
            end;
  do* switch_times <- mapM (nthE EIndexError time_steps) sw;
  Ok (mkResults x_out x_list (x0 :: x_all) u_list sot theta lam alpha ln lp z time_steps
        (x0 :: x_list) t_grid t_grid_u vg switch_times).
