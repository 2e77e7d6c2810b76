(* Extras.v -- parts of the package beside the main path: create_function_calculate_vector_field
   (nosnoc/solver.py:271-294), rootfinder_for_initial_z (nosnoc/model.py:209-212, 412-419) and the
   parameter vector of NosnocProblem.dump (nosnoc/problem.py:899-919). *)
From Coq Require Import Reals Qreals String.
From Verif Require Import Base Sx Utils Opts Model Ocp Problem Numeric.
Local Open Scope nat_scope.
Local Open Scope list_scope.

(* ---- solver.py:271-294 ---- *)
(* The fresh symbols of lines 277-279: g, mu, theta. They are named like the stage variables of the
   first subsystem, with MF FLam for g. *)
Definition vf_g (n : nat) : list expr := vars (mfam FLam 0 n).
Definition vf_mu : expr := EVar (MF FMu 0 0).
Definition vf_theta (n : nat) : list expr := vars (mfam FTheta 0 n).
(* lines 280, 284: row of the root system; sigma is a number *)
Definition vf_row (sigma : Q) (g theta : expr) : expr :=
  let lam := EBin BSub g (EBin BMul vf_mu (ECst 1)) in
  EBin BSub
    (EUn USqrt (EBin BAdd (EBin BSub (EBin BMul lam lam) (EBin BMul theta theta)) (ECst (sigma * sigma)%Q)))
    (EBin BAdd lam theta).
(* lines 283-286 *)
Definition vf_system (n : nat) (sigma : Q) : list expr :=
  map (fun p => vf_row sigma (fst p) (snd p)) (combine (vf_g n) (vf_theta n)) ++
  [EBin BSub (esum (vf_theta n)) (ECst 1)].

(* the result of create_function_calculate_vector_field: the root system and the function g_Stewart_fun *)
Record vfield := mkVfield { vf_n : nat; vf_eqs : list expr; vf_gfun : cafun }.
Definition create_vector_field (o : opts) (pm : pmodel) (sigma : Q) : res vfield :=
  match o_pss o with
  | Step => Err ENotImplemented
  | Stewart =>
      do* f <- opt_res EAttributeError (pm_gS_fun pm);
      let n := length (cf_out f) in
      Ok (mkVfield n (vf_system n sigma) f)
  end.
(* model.py:311-328: the ca.Function attributes of a preprocessed model, by name (the smoothed functions
   of lines 407-410 have other names too) *)
Definition model_functions (pm : pmodel) : list (string * cafun) :=
  [("f_x_fun"%string, pm_fx_fun pm); ("g_z_switching_fun"%string, pm_gsw_fun pm); ("g_z_all_fun"%string, pm_gz_fun pm);
   ("lambda00_fun"%string, pm_lam00_fun pm); ("std_compl_res_fun"%string, pm_compl_fun pm)] ++
  match pm_t_fun pm with Some f => [("t_fun"%string, f)] | None => [] end ++
  match pm_mu00_fun pm with Some f => [("mu00_stewart_fun"%string, f)] | None => [] end ++
  match pm_gS_fun pm with Some f => [("g_Stewart_fun"%string, f)] | None => [] end.
Fixpoint attribute (l : list (string * cafun)) (name : string) : res cafun :=
  match l with
  | [] => Err EAttributeError
  | (k, f) :: l' => if String.eqb k name then Ok f else attribute l' name
  end.
(* fun(x, u, z), lines 288-292; root is the rootfinder theta_fun started at 0 (it may raise). F_fun is
   taken to return the matrix F row by row. *)
Definition call_vector_field (root : list expr -> list R -> res (list R)) (pm : pmodel) (vf : vfield)
    (p v x u z : list R) : res (list R) :=
  do* gS <- attribute (model_functions pm) "g_Stewart_fun"%string;
  do* g <- numcall gS [x; z; p];
  do* r <- root (vf_eqs vf) g;
  let theta := removelast r in
  do* Ff <- attribute (model_functions pm) "F_fun"%string;
  do* F <- numcall Ff [x; u; p; v];
  Ok (map (fun i => fold_right Rplus 0%R (map (fun q => (fst q * snd q)%R)
        (combine (skipn (i * length theta) F) theta))) (seq 0 (length F / length theta))).

(* ---- model.py:209-212 and 412-419: rootfinder_for_initial_z = True ---- *)
(* ca.rootfinder needs as many residuals as unknowns. In the code the function is created in the middle
   of preprocess_model, so that another error may come first. *)
Definition z0_function (m : model) : res cafun :=
  do* f <- mkfun [mz m; mx m ++ mp m] (m_gz m);
  do* _ <- guard (length (m_gz m) =? m_nz m) ECasadi;
  Ok f.
Definition preprocess_model_root (o : opts) (m : model) : res (pmodel * cafun) :=
  do* pm <- preprocess_model o m;
  do* f <- z0_function m;
  Ok (pm, f).
(* line 416: the rootfinder is started at z0 with the parameters (x0, p0) *)
Definition compute_lambda00_root (root : cafun -> list R -> list R -> res (list R)) (pm : pmodel) (f : cafun)
    (x0 : list R) (pval : list (list R)) : res (list R) :=
  do* p0 <- nthE EIndexError pval 0;
  do* z0 <- root f (reals (pm_z0 pm)) (x0 ++ p0);
  lambda00_at pm z0 x0 pval.

(* ---- problem.py:899-919 dump: data["p0"]; rootfinder_for_initial_z = False ---- *)
Definition dump_p0 (pm : pmodel) (x0 : list R) (pval : list (list R)) : res (list R) :=
  do* lam <- compute_lambda00 pm x0 pval;
  Ok (concat pval ++ [0%R; 0%R] ++ lam ++ x0).
