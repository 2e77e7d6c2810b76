(* Ocp.v -- nosnoc/ocp.py (NosnocOcp) *)
From Verif Require Import Base Sx Utils Opts Model.

(* NosnocOcp constructor arguments, ocp.py:27-60. g_path_comp is given by its rows (a_i, b_i),
   so the width-2 check of line 73 is static. *)
Record ocp := mkOcp {
  oc_lbu : option (list ext); oc_ubu : option (list ext); oc_u_guess : option (list Q);
  oc_lbx : option (list ext); oc_ubx : option (list ext);
  oc_fq : expr;
  oc_g_path : list expr; oc_lbg : option (list ext); oc_ubg : option (list ext);
  oc_comp : list (expr * expr);
  oc_fT : expr;
  oc_gT : list expr;
  oc_lbv : option (list ext); oc_ubv : option (list ext); oc_v_guess : option (list Q)
}.

(* NosnocOcp() *)
Definition default_ocp : ocp :=
  mkOcp None None None None None (ECst 0) [] None None [] (ECst 0) [] None None None.

(* a function with an n x 2 output is kept as one function per column *)
Definition compfun := (cafun * cafun)%type.
Definition mkcomp (ins : list (list sym)) (rows : list (expr * expr)) : res compfun :=
  do* a <- mkfun ins (map fst rows);
  do* b <- mkfun ins (map snd rows);
  Ok (a, b).
Definition callcomp (f : compfun) (args : list (list expr)) : res (list expr * list expr) :=
  do* a <- call (fst f) args;
  do* b <- call (snd f) args;
  Ok (a, b).

(* any(ca.which_depends(expr, vars)): modelled as occurrence of a symbol in the expression *)
Definition depends_on (vs : list sym) (row : expr * expr) : bool :=
  existsb (fun s => mem s vs) (fv (fst row) ++ fv (snd row)).

(* ocp.py:80-94; accumulators in the order global, ctrl, stage *)
Fixpoint classify (rk ctrl : list sym) (rows : list (expr * expr))
  : list (expr * expr) * list (expr * expr) * list (expr * expr) :=
  match rows with
  | [] => ([], [], [])
  | r :: rows' =>
      let '(g, c, s) := classify rk ctrl rows' in
      if depends_on rk r then (g, c, r :: s)
      else if depends_on ctrl r then (g, r :: c, s)
      else (r :: g, c, s)
  end.

(* preprocessed OCP *)
Record pocp := mkPocp {
  po_gT_fun : cafun; po_fT_fun : cafun; po_fq_fun : cafun; po_g_path_fun : cafun;
  po_global_comp : compfun; po_ctrl_comp : compfun; po_rk_comp : compfun;
  po_lbg : list ext; po_ubg : list ext;
  po_lbx : list ext; po_ubx : list ext;
  po_lbu : list ext; po_ubu : list ext; po_u_guess : list Q;
  po_lbv : list ext; po_ubv : list ext; po_v_guess : list Q
}.

(* ocp.py:139-152: shape checks that raise Exception instead of ValueError *)
Definition default_len_exc {A} (o : option (list A)) (n : nat) (d : A) : res (list A) :=
  match o with
  | None => Ok (repeat d n)
  | Some l => if length l =? n then Ok l else Err EException
  end.

(* ocp.py:62-152 preprocess_ocp *)
Definition preprocess_ocp (pm : pmodel) (oc : ocp) : res pocp :=
  let m := pm_m pm in
  do* gTf <- mkfun [mx m; mp m; mvg m] (oc_gT oc);
  do* fTf <- mkfun [mx m; mp m; mvg m] [oc_fT oc];
  do* fqf <- mkfun [mx m; mu_ m; mp m; mvg m] [oc_fq oc];
  do* gpf <- mkfun [mx m; mu_ m; mp m; mvg m] (oc_g_path oc);
  let '(gc, cc, sc) := classify (mx m ++ mz m) (mu_ m ++ mpt m) (oc_comp oc) in
  do* gcf <- mkcomp [mpg m; mvg m] gc;
  do* ccf <- mkcomp [mu_ m; mp m; mvg m] cc;
  do* scf <- mkcomp [mx m; mu_ m; pm_zall pm; mp m; mvg m] sc;
  let ng := length (oc_g_path oc) in
  do* lbg <- default_len (oc_lbg oc) ng (Fin 0);
  do* ubg <- default_len (oc_ubg oc) ng (Fin 0);
  do* lbx <- default_len (oc_lbx oc) (m_nx m) NInf;
  do* ubx <- default_len (oc_ubx oc) (m_nx m) PInf;
  do* lbu <- default_len (oc_lbu oc) (m_nu m) NInf;
  do* ubu <- default_len (oc_ubu oc) (m_nu m) PInf;
  do* ug <- default_len (oc_u_guess oc) (m_nu m) 0%Q;
  do* lbv <- default_len_exc (oc_lbv oc) (m_nvg m) NInf;
  do* ubv <- default_len_exc (oc_ubv oc) (m_nvg m) PInf;
  do* vg <- default_len_exc (oc_v_guess oc) (m_nvg m) 0%Q;
  Ok (mkPocp gTf fTf fqf gpf gcf ccf scf lbg ubg lbx ubx lbu ubu ug lbv ubv vg).
