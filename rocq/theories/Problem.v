(* Problem.v -- nosnoc/problem.py *)
From Verif Require Import Base Sx Utils Tableau Opts Model Ocp.

(* ------------------------------------------------------------------ *)
(* NosnocFormulationObject, problem.py:15-175                          *)
(* ------------------------------------------------------------------ *)

(* problem.py:18-37; ind_comp / ind_bool are declared by the subclasses (270-271, 741, 751) *)
Record fobj := mkFobj {
  w : list sym; lbw : list ext; ubw : list ext; w0 : list Q;
  g : list expr; lbg : list ext; ubg : list ext;
  cost : expr;
  ind_comp : list (list nat);
  ind_bool : list (list nat)
}.
Definition fobj_empty : fobj := mkFobj [] [] [] [] [] [] [] (ECst 0) [] [].

(* problem.py:42-62 add_variable up to the index bookkeeping; the new indices are returned
   and stored by the caller (lines 63-69). *)
Definition add_variable (f : fobj) (s : list sym) (lb ub : list ext) (init : list Q)
  : res (fobj * list nat) :=
  let n := length s in
  let nw := length (w f) in
  if negb ((length lb =? n) && (length ub =? n) && (length init =? n)) then Err EException
  else Ok (mkFobj (w f ++ s) (lbw f ++ lb) (ubw f ++ ub) (w0 f ++ init)
                  (g f) (lbg f) (ubg f) (cost f) (ind_comp f) (ind_bool f),
           seq nw n).

(* problem.py:72-92 add_constraint without index *)
Definition add_constraint (f : fobj) (e : list expr) (lb ub : option (list ext)) : res fobj :=
  let n := length e in
  if n =? 0 then Ok f
  else
    let lb' := match lb with Some l => l | None => zerosx n end in
    let ub' := match ub with Some l => l | None => zerosx n end in
    if negb ((length lb' =? n) && (length ub' =? n)) then Err EException
    else Ok (mkFobj (w f) (lbw f) (ubw f) (w0 f)
                    (g f ++ e) (lbg f ++ lb') (ubg f ++ ub') (cost f) (ind_comp f) (ind_bool f)).

Definition with_comp (f : fobj) (ic : list (list nat)) : fobj :=
  mkFobj (w f) (lbw f) (ubw f) (w0 f) (g f) (lbg f) (ubg f) (cost f) ic (ind_bool f).
Definition with_bool (f : fobj) (ib : list (list nat)) : fobj :=
  mkFobj (w f) (lbw f) (ubw f) (w0 f) (g f) (lbg f) (ubg f) (cost f) (ind_comp f) ib.
Definition add_cost (f : fobj) (e : expr) : fobj :=
  mkFobj (w f) (lbw f) (ubw f) (w0 f) (g f) (lbg f) (ubg f) (EBin BAdd (cost f) e)
         (ind_comp f) (ind_bool f).

(* problem.py:72-92 with index=self.ind_comp (lines 83-86) *)
Definition add_constraint_comp (f : fobj) (e : list expr) (lb ub : list ext) : res fobj :=
  do* f' <- add_constraint f e (Some lb) (Some ub);
  if length e =? 0 then Ok f'
  else Ok (with_comp f' (ind_comp f ++ [seq (length (g f)) (length e)])).

Definition is_elastic (m : mpcc_mode) : bool :=
  match m with ElasticEq | ElasticIneq | ElasticTwoSided => true | _ => false end.

(* problem.py:125, 133: x + y - sqrt(x**2 + y**2 + sigma**2) *)
Definition fb (x y sigma : expr) : expr :=
  EBin BSub (EBin BAdd x y)
    (EUn USqrt (EBin BAdd (EBin BAdd (EUn USq x) (EUn USq y)) (EUn USq sigma))).

(* sum over x_i in x of fb(x_i[j], y[j]), starting from zero *)
Definition fb_row (x : list (list expr)) (y : list expr) (sigma : expr) (j : nat) : res expr :=
  do* yj <- nthE ECasadi y j;
  foldM (fun acc xi => do* xij <- nthE ECasadi xi j; Ok (EBin BAdd acc (fb xij yj sigma)))
        x (ECst 0).

Definition bigM : Q := 100000.

(* problem.py:94-175 create_complementarity. [zsym k] are the fresh symbols of line 146 for
   the k-th boolean vector of this object. s_elastic = None is only used with modes that do not
   read it. *)
Definition create_complementarity (o : opts) (zsym : nat -> nat -> sym) (f : fobj)
    (x : list (list expr)) (y : list expr) : res fobj :=
  let n := length y in
  let sigma := EVar SSigma in
  let tau := EVar STau in
  let s_el := EVar SElastic in
  match o_mpcc o with
  | ScholtesEq | ScholtesIneq =>
      do* sx <- casadi_sum_list x;
      do* p <- vbin BMul sx y;
      do* gc <- vbin BSub p [sigma];
      let nc := length gc in
      match o_mpcc o with
      | ScholtesIneq => add_constraint_comp f gc (ninfs nc) (zerosx nc)
      | _ => add_constraint_comp f gc (zerosx nc) (zerosx nc)
      end
  | ElasticEq | ElasticIneq =>
      do* sx <- casadi_sum_list x;
      do* p <- vbin BMul sx y;
      do* gc <- vbin BSub p (repeat s_el n);
      let nc := length gc in
      match o_mpcc o with
      | ElasticIneq => add_constraint_comp f gc (ninfs nc) (zerosx nc)
      | _ => add_constraint_comp f gc (zerosx nc) (zerosx nc)
      end
  | ElasticTwoSided =>
      do* sx <- casadi_sum_list x;
      do* p <- vbin BMul sx y;
      do* g1 <- vbin BSub p (repeat s_el n);
      do* g2 <- vbin BAdd p (repeat s_el n);
      add_constraint_comp f (g1 ++ g2) (ninfs n ++ zerosx n) (zerosx n ++ pinfs n)
  | FischerBurmeister =>
      do* gc <- mapM (fb_row x y sigma) (seq 0 n);
      let nc := length gc in
      add_constraint_comp f gc (zerosx nc) (zerosx nc)
  | FischerBurmeisterIpAug =>
      match x with
      | [x1] =>
          do* a0 <- mapM (fb_row x y sigma) (seq 0 n);
          do* a1 <- mapM (fun j => do* xj <- nthE ECasadi x1 j;
                       Ok (EBin BMul (EBin BMul (ECst (o_fb1 o)) (EBin BSub xj sigma)) (EUn USqrt tau)))
                     (seq 0 n);
          do* a2 <- mapM (fun j => do* yj <- nthE ECasadi y j;
                       Ok (EBin BMul (EBin BMul (ECst (o_fb1 o)) (EBin BSub yj sigma)) (EUn USqrt tau)))
                     (seq 0 n);
          do* a3 <- mapM (fun j => do* gj <- nthE ECasadi a0 j;
                       do* xj <- nthE ECasadi x1 j;
                       do* yj <- nthE ECasadi y j;
                       Ok (EBin BMul (EBin BMul (ECst (o_fb2 o)) gj)
                             (EUn USqrt (EBin BAdd (ECst 1) (EUn USq (EBin BSub xj yj))))))
                     (seq 0 n);
          let gc := a0 ++ a1 ++ a2 ++ a3 in
          let nc := length gc in
          add_constraint_comp f gc (zerosx nc) (zerosx nc)
      | _ => Err EException
      end
  | MBoolean =>
      let k := length (ind_bool f) in
      let z := map (zsym k) (seq 0 n) in
      do* r <- add_variable f z (zerosx n) (repeat (Fin 1) n) (repeat (1#2)%Q n);
      let '(f1, idx) := r in
      let f2 := with_bool f1 (ind_bool f1 ++ [idx]) in
      do* sx <- casadi_sum_list x;
      let Mz := vscale (ECst bigM) (vars z) in
      do* omz <- vbin BSub [ECst 1] (vars z);
      let M1z := vscale (ECst bigM) omz in
      do* g1 <- vbin BSub Mz y;
      do* g2 <- vbin BAdd y Mz;
      do* g3 <- vbin BSub M1z sx;
      do* g4 <- vbin BAdd sx M1z;
      let gc := g1 ++ g2 ++ g3 ++ g4 in
      let nc := length gc in
      add_constraint_comp f2 gc (zerosx nc) (pinfs nc)
  end.

(* ------------------------------------------------------------------ *)
(* Finite elements                                                     *)
(* ------------------------------------------------------------------ *)

(* FiniteElementZero and FiniteElement objects (186-391); for fe0 the unused families are empty *)
Record felem := mkFelem {
  fo : fobj;
  fe_ctrl : nat;
  fe_idx : nat;
  ind1 : fam1 -> list (list nat);                (* ind_x, ind_v, ind_z *)
  ind2 : fam2 -> list (list (list nat));         (* ind_theta, ... [stage][sys] *)
  ind_h : list nat;
  fe_h : expr
}.
Definition with_fo (fe : felem) (f : fobj) : felem :=
  mkFelem f (fe_ctrl fe) (fe_idx fe) (ind1 fe) (ind2 fe) (ind_h fe) (fe_h fe).

Definition set1 (m : fam1 -> list (list nat)) (f : fam1) (v : list (list nat)) :=
  fun f' => if fam1_eqb f f' then v else m f'.
Definition set2 (m : fam2 -> list (list (list nat))) (f : fam2) (v : list (list (list nat))) :=
  fun f' => if fam2_eqb f f' then v else m f'.

(* where add_variable stores the new indices: index[stage] = .., index[stage][sys] = ..
   (lines 65-69), or self.ind_h = [nw] (line 394) *)
Inductive slot := SlotH | Slot1 (f : fam1) (stage : nat) | Slot2 (f : fam2) (stage sys : nat).

(* one call add_variable(symbolic, index, lb, ub, initial, stage, sys) *)
Record decl := mkDecl {
  dc_slot : slot; dc_syms : list sym; dc_lb : list ext; dc_ub : list ext; dc_init : list Q }.

Definition add_decl (fe : felem) (d : decl) : res felem :=
  do* r <- add_variable (fo fe) (dc_syms d) (dc_lb d) (dc_ub d) (dc_init d);
  let '(f', idx) := r in
  match dc_slot d with
  | SlotH => Ok (mkFelem f' (fe_ctrl fe) (fe_idx fe) (ind1 fe) (ind2 fe) idx (fe_h fe))
  | Slot1 fam st =>
      do* l <- updE EIndexError (ind1 fe fam) st idx;
      Ok (mkFelem f' (fe_ctrl fe) (fe_idx fe) (set1 (ind1 fe) fam l) (ind2 fe) (ind_h fe) (fe_h fe))
  | Slot2 fam st sys =>
      do* row <- nthE EIndexError (ind2 fe fam) st;
      do* row' <- updE EIndexError row sys idx;
      do* l <- updE EIndexError (ind2 fe fam) st row';
      Ok (mkFelem f' (fe_ctrl fe) (fe_idx fe) (ind1 fe) (set2 (ind2 fe) fam l) (ind_h fe) (fe_h fe))
  end.

Definition empty_rows {A} (n : nat) : list (list A) := repeat [] n.
Definition empty_rows2 {A} (n k : nat) : list (list (list A)) := repeat (repeat [] k) n.

(* sizes of one family in one subsystem: theta, lam: n_f; mu: 1; alpha, lambda_n, lambda_p: n_c *)
Definition fam_size (pm : pmodel) (f : fam2) (sys : nat) : res nat :=
  match f with
  | FMu => Ok 1
  | FTheta | FLam => nthE EIndexError (pm_nf pm) sys
  | FAlpha | FLn | FLp => nthE EIndexError (pm_nc pm) sys
  end.

(* problem.py:188-219 FiniteElementZero *)
Definition fe0_decls (o : opts) (pm : pmodel) : res (list decl) :=
  let m := pm_m pm in
  let dx := mkDecl (Slot1 FX 0) (map SX0 (seq 0 (m_nx m)))
                   (map Fin (m_x0 m)) (map Fin (m_x0 m)) (m_x0 m) in
  let d2 fam sys n := mkDecl (Slot2 fam 0 sys) (map (SL00 fam sys) (seq 0 n))
                             (ninfs n) (pinfs n) (repeat 1%Q n) in
  do* ls <- match o_pss o with
            | Stewart => mapM (fun sys => do* n <- fam_size pm FLam sys; Ok [d2 FLam sys n])
                              (seq 0 (pm_nsys pm))
            | Step => mapM (fun sys => do* n <- fam_size pm FLn sys;
                                       Ok [d2 FLn sys n; d2 FLp sys n])
                           (seq 0 (pm_nsys pm))
            end;
  Ok (dx :: concat ls).

Definition fe0_init (pm : pmodel) : felem :=
  mkFelem fobj_empty 0 0
    (fun f => match f with FX => empty_rows 1 | _ => [] end)
    (fun f => match f with FLam | FLn | FLp => empty_rows2 1 (pm_nsys pm) | _ => [] end)
    [] (ECst 0).

Definition fe_zero (o : opts) (pm : pmodel) : res felem :=
  do* ds <- fe0_decls o pm;
  foldM add_decl ds (fe0_init pm).

(* problem.py:248-250 *)
Definition create_rbp (o : opts) (t : tab) (nfe fe : nat) : bool :=
  o_use_fesd o && negb (t_rbe t) && (fe <? nfe - 1).

(* problem.py:253-259 *)
Definition nx_slots (o : opts) (t : tab) : nat :=
  match o_repr o with
  | Differential => 1
  | _ => if t_rbe t then o_ns o else o_ns o + 1
  end.

(* problem.py:284-287 *)
Definition dual_floor (o : opts) : ext :=
  match o_mpcc o with
  | ScholtesEq | ScholtesIneq | ElasticIneq | ElasticEq => Fin 0
  | _ => NInf
  end.

(* problem.py:278-279: (1 + gamma_h) * h0, (1 - gamma_h) * h0 for h0 > 0 (h0 <= 0 with an
   infinite gamma_h is not modelled) *)
Definition h_ub (gm : ext) (h0 : Q) : ext :=
  match gm with Fin q => Fin ((1 + q) * h0)%Q | PInf => PInf | NInf => NInf end.
Definition h_lb (gm : ext) (h0 : Q) : ext :=
  match gm with Fin q => Fin ((1 - q) * h0)%Q | PInf => NInf | NInf => PInf end.

Definition has_v (o : opts) : bool :=
  match o_repr o with Differential | DifferentialLiftX => true | Integral => false end.
Definition has_xstage (o : opts) : bool :=
  match o_repr o with Integral | DifferentialLiftX => true | Differential => false end.
Definition has_xend (o : opts) (t : tab) : bool :=   (* problem.py:387-388 *)
  negb (t_rbe t) || match o_repr o with Differential => true | _ => false end.

(* bounds and initial value of one family: 306-348, 360-385 *)
Definition fam_decl (o : opts) (pm : pmodel) (c e st : nat) (fam : fam2) (sys : nat) : res decl :=
  do* n <- fam_size pm fam sys;
  let syms := map (S2 fam c e st sys) (seq 0 n) in
  match fam with
  | FTheta | FLam =>
      do* _ <- guard (negb (n =? 0)) EZeroDivision;
      Ok (mkDecl (Slot2 fam st sys) syms (repeat (dual_floor o) n) (pinfs n)
            (repeat (o_sigma_0 o / inject_Z (Z.of_nat n))%Q n))
  | FMu => Ok (mkDecl (Slot2 fam st sys) syms (ninfs n) (pinfs n) (repeat 1%Q n))
  | FAlpha => Ok (mkDecl (Slot2 fam st sys) syms (repeat (dual_floor o) n) (repeat (Fin 1) n)
                    (repeat (1#2)%Q n))
  | FLn | FLp => Ok (mkDecl (Slot2 fam st sys) syms (repeat (dual_floor o) n) (pinfs n)
                       (repeat (1#2)%Q n))
  end.
Definition fam_decls (o : opts) (pm : pmodel) (c e st : nat) (fam : fam2) : res (list decl) :=
  mapM (fam_decl o pm c e st fam) (seq 0 (pm_nsys pm)).

Definition stage_fams (o : opts) : list fam2 :=        (* 303-348 *)
  match o_pss o with Stewart => [FTheta; FLam; FMu] | Step => [FAlpha; FLn; FLp] end.
Definition boundary_fams (o : opts) : list fam2 :=     (* 357-385 *)
  match o_pss o with Stewart => [FLam; FMu] | Step => [FLn; FLp] end.

(* problem.py:290-353: the add_variable calls of RK stage ii *)
Definition stage_decls (o : opts) (pm : pmodel) (oc : pocp) (c e ii : nat) : res (list decl) :=
  let m := pm_m pm in
  let nx := m_nx m in
  let dv := if has_v o
            then [mkDecl (Slot1 FV ii) (map (S1 FV c e ii) (seq 0 nx)) (ninfs nx) (pinfs nx)
                         (repeat 0%Q nx)] else [] in
  let dx := if has_xstage o
            then [mkDecl (Slot1 FX ii) (map (S1 FX c e ii) (seq 0 nx)) (po_lbx oc) (po_ubx oc)
                         (m_x0 m)] else [] in
  do* da <- mapM (fam_decls o pm c e ii) (stage_fams o);
  let dz := [mkDecl (Slot1 FZ ii) (map (S1 FZ c e ii) (seq 0 (m_nz m)))
                    (pm_lbz pm) (pm_ubz pm) (pm_z0 pm)] in
  Ok (dv ++ dx ++ concat da ++ dz).

Definition Qnat (n : nat) : Q := inject_Z (Z.of_nat n).

(* problem.py:273-275 *)
Definition h_nominal (o : opts) (nfe : nat) : Q :=
  (o_terminal_time o / Qnat (o_N_stages o) / Qnat nfe)%Q.

(* problem.py:273-391: all add_variable calls of FiniteElement.__init__ in order *)
Definition fe_decls (o : opts) (t : tab) (pm : pmodel) (oc : pocp) (c e nfe : nat)
  : res (list decl) :=
  let m := pm_m pm in
  let h0 := h_nominal o nfe in
  let dh := if o_use_fesd o
            then [mkDecl SlotH [SH c e] [h_lb (o_gamma_h o) h0] [h_ub (o_gamma_h o) h0] [h0]]
            else [] in
  do* ds <- mapM (stage_decls o pm oc c e) (seq 0 (o_ns o));
  do* db <- (if create_rbp o t nfe e
             then mapM (fam_decls o pm c e (o_ns o)) (boundary_fams o) else Ok []);
  let xend := nx_slots o t - 1 in                                       (* stage = -1 *)
  let dx := if has_xend o t
            then [mkDecl (Slot1 FX xend) (map (S1 FX c e xend) (seq 0 (m_nx m)))
                         (po_lbx oc) (po_ubx oc) (m_x0 m)] else [] in
  Ok (dh ++ concat ds ++ concat db ++ dx).

(* problem.py:252-271, 276-282 *)
Definition fe_init (o : opts) (t : tab) (pm : pmodel) (c e nfe : nat) : felem :=
  let ns := o_ns o in
  let nb := ns + (if create_rbp o t nfe e then 1 else 0) in
  mkFelem fobj_empty c e
    (fun f => match f with FX => empty_rows (nx_slots o t) | FV | FZ => empty_rows ns end)
    (fun f => match f with
              | FTheta | FAlpha => empty_rows2 ns (pm_nsys pm)
              | _ => empty_rows2 nb (pm_nsys pm)
              end)
    []
    (if o_use_fesd o then EVar (SH c e) else ECst (h_nominal o nfe)).

(* problem.py:224-391 FiniteElement.__init__; [nfe] is opts.Nfe_list[ctrl_idx] *)
Definition fe_make (o : opts) (t : tab) (pm : pmodel) (oc : pocp) (c e nfe : nat) : res felem :=
  do* ds <- fe_decls o t pm oc c e nfe;
  foldM add_decl ds (fe_init o t pm c e nfe).

(* a stage argument: an int >= 0 or -1 *)
Inductive stsel := At (i : nat) | Last.
Definition stg {A} (l : list A) (s : stsel) : res A :=
  match s with At i => nthE EIndexError l i | Last => lastE EIndexError l end.

Definition fe_sel (fe : felem) (idx : list nat) : res (list expr) :=
  do* s <- sel (w (fo fe)) idx; Ok (vars s).
Definition fam_sel (fe : felem) (fam : fam2) (s : stsel) : res (list expr) :=
  do* row <- stg (ind2 fe fam) s; fe_sel fe (concat row).

(* problem.py:402-407 rk_stage_z *)
Definition rk_stage_z (fe : felem) (s : stsel) : res (list expr) :=
  do* th <- fam_sel fe FTheta s;
  do* la <- fam_sel fe FLam s;
  do* mu <- fam_sel fe FMu s;
  do* al <- fam_sel fe FAlpha s;
  do* ln <- fam_sel fe FLn s;
  do* lp <- fam_sel fe FLp s;
  do* zi <- stg (ind1 fe FZ) s;
  do* z <- fe_sel fe zi;
  Ok (th ++ la ++ mu ++ al ++ ln ++ lp ++ z).

(* problem.py:180-183 Lambda(stage) *)
Definition Lambda (fe : felem) (s : stsel) : res (list expr) :=
  do* la <- fam_sel fe FLam s;
  do* ln <- fam_sel fe FLn s;
  do* lp <- fam_sel fe FLp s;
  Ok (la ++ ln ++ lp).
(* problem.py:180-183 Lambda() with both slices, used on fe0 (line 638) *)
Definition Lambda_all (fe : felem) : res (list sym) :=
  do* la <- sel (w (fo fe)) (concat (concat (ind2 fe FLam)));
  do* ln <- sel (w (fo fe)) (concat (concat (ind2 fe FLn)));
  do* lp <- sel (w (fo fe)) (concat (concat (ind2 fe FLp)));
  Ok (la ++ ln ++ lp).

(* problem.py:409-414 Theta(stage) *)
Definition Theta (fe : felem) (s : stsel) : res (list expr) :=
  do* th <- fam_sel fe FTheta s;
  do* al <- fam_sel fe FAlpha s;
  Ok (th ++ al ++ map (fun a => EBin BSub (ECst 1) a) al).

(* problem.py:416-420 *)
Definition sum_Theta (fe : felem) : res (list expr) :=
  do* l <- mapM (fun ii => Theta fe (At ii)) (seq 0 (length (ind2 fe FTheta)));
  casadi_sum_list l.

(* problem.py:422-425 *)
Definition get_Lambdas_incl_last_prev_fe (fe prev : felem) : res (list (list expr)) :=
  do* l <- mapM (fun ii => Lambda fe (At ii)) (seq 0 (length (ind2 fe FLam)));
  do* p <- Lambda prev Last;
  Ok (l ++ [p]).

(* problem.py:427-430; the previous element of [fe] must be passed explicitly *)
Definition sum_Lambda (fe prev : felem) : res (list expr) :=
  do* l <- get_Lambdas_incl_last_prev_fe fe prev;
  casadi_sum_list l.

(* self.w[self.ind_x[-1]] *)
Definition x_last (fe : felem) : res (list expr) :=
  do* i <- lastE EIndexError (ind1 fe FX); fe_sel fe i.

(* lines 440-442, 463-465: prev x_end + sum_r h*A[j,r]*V_r *)
Definition x_temp (o : opts) (t : tab) (fe prev : felem) (j : nat) : res (list expr) :=
  do* x0 <- x_last prev;
  do* Aj <- nthE EIndexError (t_A t) j;
  foldM (fun acc r =>
           do* a <- nthE EIndexError Aj r;
           do* vi <- nthE EIndexError (ind1 fe FV) r;
           do* v <- fe_sel fe vi;
           vbin BAdd acc (vscale (EBin BMul (fe_h fe) (ECst a)) v)) (seq 0 (o_ns o)) x0.

(* problem.py:432-448 X_fe *)
Definition X_fe (o : opts) (t : tab) (fe prev : felem) : res (list (list expr)) :=
  match o_repr o with
  | Integral | DifferentialLiftX => mapM (fe_sel fe) (ind1 fe FX)
  | Differential =>
      do* l <- mapM (x_temp o t fe prev) (seq 0 (o_ns o));
      do* xe <- x_last fe;
      Ok (l ++ [xe])
  end.

Definition pst (pm : pmodel) (c : nat) : list sym := map (SPst c) (seq 0 (pm_np pm)). (* model.py:202 *)
Definition vgv (pm : pmodel) : list expr := vars (mvg (pm_m pm)).

Definition head1 (l : list expr) : res expr :=
  match l with [e] => Ok e | _ => Err ECasadi end.

(* state of the loop 469-487: the element, Xk_end *)
Definition fs_stage (o : opts) (t : tab) (pm : pmodel) (oc : pocp) (prev : felem)
    (Uk : list expr) (sot : expr) (Xf : list (list expr)) (acc : felem * list expr) (j : nat)
  : res (felem * list expr) :=
  let '(fe, Xk_end) := acc in
  let P := vars (pst pm (fe_ctrl fe)) in
  do* xj <- nthE EIndexError Xf j;
  do* zj <- rk_stage_z fe (At j);
  do* f0 <- call (pm_fx_fun pm) [xj; zj; Uk; P; vgv pm];
  let fj := vscale sot f0 in
  do* q0 <- call (po_fq_fun oc) [xj; Uk; P; vgv pm];
  do* q1 <- head1 q0;
  let qj := EBin BMul sot q1 in
  do* gj <- call (pm_gz_fun pm) [xj; zj; Uk; P];
  do* f1 <- add_constraint (fo fe) gj None None;
  match o_repr o with
  | Integral =>
      do* C0 <- nthE EIndexError (t_C t) 0;
      do* c0j <- nthE EIndexError C0 (j + 1);
      do* xp <- x_last prev;
      do* xc <- foldM (fun a r =>
                  do* Cr <- nthE EIndexError (t_C t) (r + 1);
                  do* c <- nthE EIndexError Cr (j + 1);
                  do* xr <- nthE EIndexError Xf r;
                  vbin BAdd a (vscale (ECst c) xr)) (seq 0 (o_ns o)) (vscale (ECst c0j) xp);
      do* dj <- nthE EIndexError (t_D t) (j + 1);
      do* Xk' <- vbin BAdd Xk_end (vscale (ECst dj) xj);
      do* cc <- vbin BSub (vscale (fe_h fe) fj) xc;
      do* f2 <- add_constraint f1 cc None None;
      do* bj <- nthE EIndexError (t_B t) (j + 1);
      Ok (with_fo fe (add_cost f2 (EBin BMul (EBin BMul (ECst bj) (fe_h fe)) qj)), Xk')
  | _ =>
      do* bj <- nthE EIndexError (t_b t) j;
      do* vi <- nthE EIndexError (ind1 fe FV) j;
      do* v <- fe_sel fe vi;
      do* Xk' <- vbin BAdd Xk_end (vscale (EBin BMul (fe_h fe) (ECst bj)) v);
      do* cc <- vbin BSub fj v;
      do* f2 <- add_constraint f1 cc None None;
      Ok (with_fo fe (add_cost f2 (EBin BMul (EBin BMul (ECst bj) (fe_h fe)) qj)), Xk')
  end.

(* lines 462-467: lifting constraints *)
Definition lift_constraints (o : opts) (t : tab) (fe prev : felem) : res felem :=
  foldM (fun fe j =>
           do* xt <- x_temp o t fe prev j;
           do* xi <- nthE EIndexError (ind1 fe FX) j;
           do* x <- fe_sel fe xi;
           do* e <- vbin BSub x xt;
           do* f' <- add_constraint (fo fe) e None None;
           Ok (with_fo fe f')) (seq 0 (o_ns o)) fe.

(* problem.py:450-512 forward_simulation; [nfe] is opts.Nfe_list[ctrl_idx] *)
Definition forward_simulation (o : opts) (t : tab) (pm : pmodel) (oc : pocp) (nfe : nat)
    (prev : felem) (Uk : list expr) (sot : expr) (fe : felem) : res felem :=
  let P := vars (pst pm (fe_ctrl fe)) in
  do* Xf <- X_fe o t fe prev;
  do* xp <- x_last prev;
  do* init <- match o_repr o with
              | Integral => do* d0 <- nthE EIndexError (t_D t) 0; Ok (fe, vscale (ECst d0) xp)
              | Differential => Ok (fe, xp)
              | DifferentialLiftX => do* fe' <- lift_constraints o t fe prev; Ok (fe', xp)
              end;
  do* r <- foldM (fs_stage o t pm oc prev Uk sot Xf) (seq 0 (o_ns o)) init;
  let '(fe1, Xk_end) := r in
  (* continuity, 490-492 *)
  do* fe2 <- (if has_xend o t
              then do* xe <- x_last fe1;
                   do* e <- vbin BSub Xk_end xe;
                   do* f' <- add_constraint (fo fe1) e None None;
                   Ok (with_fo fe1 f')
              else Ok fe1);
  (* generic path constraints, 495-505 *)
  let gpath fe j :=
      do* x <- nthE EIndexError Xf j;
      do* gq <- call (po_g_path_fun oc) [x; Uk; P; vgv pm];
      do* f' <- add_constraint (fo fe) gq (Some (po_lbg oc)) (Some (po_ubg oc));
      Ok (with_fo fe f') in
  do* fe3 <- (if (fe_idx fe =? nfe - 1) || o_g_path_at_fe o
              then gpath fe2 (o_ns o + (if t_rbe t then 0 else 1) - 1)
              else Ok fe2);
  do* fe4 <- (if o_g_path_at_stg o
              then foldM gpath (seq 0 (o_ns o - (if t_rbe t then 1 else 0))) fe3
              else Ok fe3);
  (* boundary point, 508-510 *)
  if negb (t_rbe t) && o_use_fesd o
  then do* xe <- x_last fe4;
       do* z <- rk_stage_z fe4 Last;
       do* gs <- call (pm_gsw_fun pm) [xe; z; Uk; P];
       do* f' <- add_constraint (fo fe4) gs None None;
       Ok (with_fo fe4 f')
  else Ok fe4.

Definition hadamard (a b : list expr) : res (list expr) := vbin BMul a b.

(* problem.py:514-531 get_complementarity_vector *)
Definition get_complementarity_vector (o : opts) (fe prev : felem) : res (list expr) :=
  if o_use_fesd o
  then do* l <- mapM (fun j =>
              do* th <- Theta fe (At j);
              do* lp <- Lambda prev Last;
              do* v0 <- hadamard th lp;
              do* vs <- mapM (fun jj => do* la <- Lambda fe (At jj); hadamard th la)
                             (seq 0 (o_ns o));
              Ok (v0 ++ concat vs)) (seq 0 (o_ns o));
       Ok (concat l)
  else do* l <- mapM (fun j => do* th <- Theta fe (At j);
                               do* la <- Lambda fe (At j); hadamard th la) (seq 0 (o_ns o));
       Ok (concat l).

Definition fe_comp (o : opts) (fe : felem) (x : list (list expr)) (y : list expr) : res felem :=
  do* f' <- create_complementarity o (SBool (fe_ctrl fe) (fe_idx fe)) (fo fe) x y;
  Ok (with_fo fe f').

(* problem.py:533-564 create_complementarity_constraints. Note line 541 compares with
   opts.N_finite_elements, not with the Nfe_list entry of the control stage. *)
Definition create_complementarity_constraints (o : opts) (t : tab) (pm : pmodel) (oc : pocp)
    (prev : felem) (Uk : list expr) (fe : felem) : res felem :=
  let P := vars (pst pm (fe_ctrl fe)) in
  do* Xf <- X_fe o t fe prev;
  do* fe1 <- foldM (fun fe j =>
                do* z <- rk_stage_z fe (At j);
                do* x <- nthE EIndexError Xf j;
                do* ab <- callcomp (po_rk_comp oc) [x; Uk; z; P; vgv pm];
                fe_comp o fe [fst ab] (snd ab)) (seq 0 (o_ns o)) fe;
  do* fe2 <- (if S (fe_idx fe) =? o_N_finite_elements o
              then do* ab <- callcomp (po_ctrl_comp oc) [Uk; P; vgv pm];
                   fe_comp o fe1 [fst ab] (snd ab)
              else Ok fe1);
  if negb (o_use_fesd o)
  then foldM (fun fe j => do* la <- Lambda fe (At j);
                          do* th <- Theta fe (At j);
                          fe_comp o fe [la] th) (seq 0 (o_ns o)) fe2
  else match o_cross o with
       | ComplementAll =>
           foldM (fun fe j =>
                    do* th <- Theta fe (At j);
                    do* lp <- Lambda prev Last;
                    do* fe' <- fe_comp o fe [th] lp;
                    foldM (fun fe jj => do* th <- Theta fe (At j);
                                        do* la <- Lambda fe (At jj);
                                        fe_comp o fe [th] la) (seq 0 (o_ns o)) fe')
                 (seq 0 (o_ns o)) fe2
       | SumLambdas =>
           foldM (fun fe j =>
                    do* ls <- get_Lambdas_incl_last_prev_fe fe prev;
                    do* th <- Theta fe (At j);
                    fe_comp o fe ls th) (seq 0 (o_ns o)) fe2
       end.

(* lines 588-592; [pprev] is the element before [prev] (prev_fe.prev_fe), used by
   prev_fe.sum_Lambda() *)
Definition nu_k (fe prev pprev : felem) : res expr :=
  do* sl1 <- sum_Lambda prev pprev;
  do* sl2 <- sum_Lambda fe prev;
  do* a <- hadamard sl1 sl2;
  do* st1 <- sum_Theta prev;
  do* st2 <- sum_Theta fe;
  do* b <- hadamard st1 st2;
  do* eta <- vbin BAdd a b;
  Ok (fold_left (fun acc e => EBin BMul acc e) eta (ECst 1)).

(* problem.py:566-606 step_equilibration *)
Definition step_equilibration (o : opts) (nfe : nat) (pprev prev : felem) (fe : felem) : res felem :=
  if negb (o_use_fesd o) then Ok fe
  else match o_step_eq o with
  | HeuristicMean =>
      let h_fe := (o_terminal_time o / (Qnat (o_N_stages o) * Qnat nfe))%Q in
      Ok (with_fo fe (add_cost (fo fe)
            (EBin BMul (ECst (o_rho_h o)) (EUn USq (EBin BSub (fe_h fe) (ECst h_fe))))))
  | mode =>
      if fe_idx fe =? 0 then Ok fe
      else
        let dh := EBin BSub (fe_h fe) (fe_h prev) in
        match mode with
        | HeuristicDelta =>
            Ok (with_fo fe (add_cost (fo fe) (EBin BMul (ECst (o_rho_h o)) (EUn USq dh))))
        | _ =>
            do* nu <- nu_k fe prev pprev;
            match mode with
            | L2RelaxedScaled =>
                Ok (with_fo fe (add_cost (fo fe)
                  (EBin BMul (EBin BMul (ECst (o_rho_h o))
                     (EUn UTanh (EBin BDiv nu (ECst (o_step_eq_sigma o))))) (EUn USq dh))))
            | L2Relaxed =>
                Ok (with_fo fe (add_cost (fo fe)
                  (EBin BMul (EBin BMul (ECst (o_rho_h o)) nu) (EUn USq dh))))
            | Direct =>
                do* f' <- add_constraint (fo fe) [EBin BMul nu dh] None None;
                Ok (with_fo fe f')
            | DirectComplementarity => fe_comp o fe [[nu]] [dh]
            | _ => fe_comp o fe [[ECst 0]] [dh]
            end
        end
  end.

(* ------------------------------------------------------------------ *)
(* NosnocProblem, problem.py:609-863                                   *)
(* ------------------------------------------------------------------ *)

Record prob := mkProb {
  pb : fobj;
  p_p : list sym;
  p_ind1 : fam1 -> list (list (list (list nat)));          (* ind_x.. [ctrl][fe][slot] *)
  p_ind_x_cont : list (list (list nat));                   (* [ctrl][fe] *)
  p_ind2 : fam2 -> list (list (list (list (list nat))));   (* [ctrl][fe][stage][sys] *)
  p_ind_bool : list (list (list (list nat)));              (* [ctrl][fe]; global ones are in pb *)
  p_ind_comp : list (list (list (list nat)));
  p_ind_h : list nat;
  p_ind_u : list (list nat);
  p_ind_sot : list (list nat);
  p_ind_vg : list (list nat);
  p_ind_el : list (list nat);
  p_stages : list (list felem);
  p_fe0 : felem;
  p_J_comp : expr
}.

Definition with_pb (P : prob) (f : fobj) : prob :=
  mkProb f (p_p P) (p_ind1 P) (p_ind_x_cont P) (p_ind2 P) (p_ind_bool P) (p_ind_comp P) (p_ind_h P)
    (p_ind_u P) (p_ind_sot P) (p_ind_vg P) (p_ind_el P) (p_stages P) (p_fe0 P) (p_J_comp P).

(* lines 621-632: the finite elements of one control stage *)
Definition make_stage_fes (o : opts) (t : tab) (pm : pmodel) (oc : pocp) (c nfe : nat)
  : res (list felem) :=
  mapM (fun e => fe_make o t pm oc c e nfe) (seq 0 nfe).

(* problem.py:611-632 __create_control_stage *)
Definition create_control_stage (o : opts) (t : tab) (pm : pmodel) (oc : pocp)
    (acc : fobj * list (list nat) * list (list nat) * list (list felem)) (c : nat)
  : res (fobj * list (list nat) * list (list nat) * list (list felem)) :=
  let '(f, iu, isot, stages) := acc in
  do* r1 <- add_variable f (map (SU c) (seq 0 (m_nu (pm_m pm)))) (po_lbu oc) (po_ubu oc) (po_u_guess oc);
  let '(f1, idx) := r1 in
  do* r2 <- match o_sot o with
            | SotLocal =>
                do* r <- add_variable f1 [SSot c] [Fin (o_sot_min o)] [Fin (o_sot_max o)] [1%Q];
                Ok (fst r, isot ++ [snd r])
            | _ => Ok (f1, isot)
            end;
  let '(f2, isot') := r2 in
  do* nfe <- nthE EIndexError (o_Nfe_list o) c;
  do* fes <- make_stage_fes o t pm oc c nfe;
  do* _ <- lastE EIndexError fes;                                   (* stage[-1], line 658 *)
  Ok (f2, iu ++ [idx], isot', stages ++ [fes]).

(* lines 756-769 and problem.py:634-658 __create_primal_variables *)
Definition create_primal (o : opts) (t : tab) (pm : pmodel) (oc : pocp) : res prob :=
  do* r0 <- (if is_elastic (o_mpcc o)
             then add_variable fobj_empty [SElastic] [Fin (o_s_elastic_min o)]
                    [Fin (o_s_elastic_max o)] [o_s_elastic_0 o]
             else Ok (fobj_empty, []));
  let '(f0, iel) := r0 in
  let iel' := if is_elastic (o_mpcc o) then [iel] else [] in
  let p0 := concat (map (pst pm) (seq 0 (o_N_stages o))) ++ [SSigma; STau] in
  do* fe0 <- fe_zero o pm;
  do* ix <- nthE EIndexError (ind1 fe0 FX) 0;
  do* x0 <- sel (w (fo fe0)) ix;
  do* l00 <- Lambda_all fe0;
  do* r1 <- add_variable f0 (mvg (pm_m pm)) (po_lbv oc) (po_ubv oc) (po_v_guess oc);
  let '(f1, ivg) := r1 in
  (* line 651: self.add_variables does not exist *)
  do* _ <- match o_sot o with SotGlobal => Err EAttributeError | _ => Ok tt end;
  do* r2 <- foldM (create_control_stage o t pm oc) (seq 0 (o_N_stages o)) (f1, [], [], []);
  let '(f2, iu, isot, stages) := r2 in
  Ok (mkProb f2 (p0 ++ l00 ++ x0) (fun _ => []) [] (fun _ => []) [] [] [] iu isot [ivg] iel'
        stages fe0 (ECst 0)).

(* body of the loop 785-798 for one element; acc: problem, element before prev, prev, done *)
Definition process_fe (o : opts) (t : tab) (pm : pmodel) (oc : pocp) (nfe : nat)
    (Uk : list expr) (sot : expr)
    (acc : fobj * felem * felem * list felem * list (list (list nat))) (fe : felem)
  : res (fobj * felem * felem * list felem * list (list (list nat))) :=
  let '(f, pprev, prev, done, ic) := acc in
  do* fe1 <- forward_simulation o t pm oc nfe prev Uk sot fe;
  do* fe2 <- create_complementarity_constraints o t pm oc prev Uk fe1;
  do* fe3 <- step_equilibration o nfe pprev prev fe2;
  let f1 := add_cost f (cost (fo fe3)) in
  (* add_fe_constraints, 699-704 *)
  let g_len := length (g f1) in
  do* f2 <- add_constraint f1 (g (fo fe3)) (Some (lbg (fo fe3))) (Some (ubg (fo fe3)));
  Ok (f2, prev, fe3, done ++ [fe3], ic ++ [map (map (fun i => i + g_len)) (ind_comp (fo fe3))]).

(* sum([e0, e1, ...]) = 0 + e0 + e1 + ... *)
Definition pysum (l : list expr) : expr := esum l.

(* body of the loop 776-809 for one control stage *)
Definition process_stage (o : opts) (t : tab) (pm : pmodel) (oc : pocp) (P : prob)
    (acc : fobj * felem * felem * list (list felem) * list (list (list (list nat))))
    (cs : nat * list felem)
  : res (fobj * felem * felem * list (list felem) * list (list (list (list nat)))) :=
  let '(c, stage) := cs in
  let '(f, pprev, prev, done, ics) := acc in
  do* iu <- nthE EIndexError (p_ind_u P) c;
  do* Us <- sel (w (pb P)) iu;
  do* sot <- match o_sot o with
             | SotGlobal => do* i <- nthE EIndexError (p_ind_sot P) 0;
                            do* s <- sel (w (pb P)) i; head1 (vars s)
             | SotLocal => do* i <- nthE EIndexError (p_ind_sot P) c;
                           do* s <- sel (w (pb P)) i; head1 (vars s)
             | SotNone => Ok (ECst 1)
             end;
  do* nfe <- nthE EIndexError (o_Nfe_list o) c;
  do* r <- foldM (process_fe o t pm oc nfe (vars Us) sot) stage (f, pprev, prev, [], []);
  let '(f1, pprev', prev', fes, ic) := r in
  do* f2 <- (if o_use_fesd o && o_equidistant o
             then add_constraint f1
                    [EBin BSub (pysum (map fe_h fes))
                       (ECst (o_terminal_time o / Qnat (o_N_stages o))%Q)] None None
             else Ok f1);
  do* f3 <- (if o_time_freezing o && o_equidistant o
             then do* tf <- opt_res EAttributeError (pm_t_fun pm);
                  do* x0 <- x_last (p_fe0 P);
                  do* t0 <- call tf [x0];
                  do* lf <- lastE EIndexError fes;
                  do* xe <- x_last lf;
                  do* te <- call tf [xe];
                  do* t0' <- head1 t0;
                  do* te' <- head1 te;
                  let t_now := EBin BAdd
                     (ECst (o_terminal_time o / Qnat (o_N_stages o) * Qnat (c + 1))%Q) t0' in
                  add_constraint f2 [EBin BSub te' t_now]
                    (Some [Fin (- o_tf_tol o)%Q]) (Some [Fin (o_tf_tol o)])
             else Ok f2);
  Ok (f3, pprev', prev', done ++ [fes], ics ++ [ic]).

(* problem.py:706-712 create_global_compl_constraints; p_global = self.p[n_pt : n_pt + n_pg] *)
Definition global_compl (o : opts) (pm : pmodel) (oc : pocp) (P : prob) (f : fobj) : res fobj :=
  let m := pm_m pm in
  do* pg <- sel (p_p P) (seq (m_npt m) (m_npg m));
  do* ab <- callcomp (po_global_comp oc) [vars pg; vgv pm];
  create_complementarity o SBoolG f [fst ab] (snd ab).

(* prev_fe of every element: the elements in order, shifted by one *)
Definition all_fes (stages : list (list felem)) : list felem := concat stages.
Definition with_prev (fe0 : felem) (fes : list felem) : list (felem * felem) :=
  combine fes (fe0 :: fes).

(* problem.py:666-697 __collect_final_element / _add_primal_vector for all elements *)
Definition incr1 (n : nat) (l : list (list nat)) := map (map (fun i => i + n)) l.
Definition incr2 (n : nat) (l : list (list (list nat))) := map (incr1 n) l.

Record coll := mkColl {
  co_f : fobj; co_h : list nat;
  co_1 : fam1 -> list (list (list nat));               (* [fe][slot] of the current stage *)
  co_xc : list (list nat);
  co_2 : fam2 -> list (list (list (list nat)));
  co_b : list (list (list nat)) }.

Definition collect_fe (a : coll) (fe : felem) : res coll :=
  let f := co_f a in
  let n := length (w f) in
  let e := fo fe in
  if negb ((length (lbw e) =? length (w e)) && (length (ubw e) =? length (w e))
           && (length (w0 e) =? length (w e))) then Err EException
  else
    do* xl <- lastE EIndexError (ind1 fe FX);
    Ok (mkColl
          (mkFobj (w f ++ w e) (lbw f ++ lbw e) (ubw f ++ ubw e) (w0 f ++ w0 e)
                  (g f) (lbg f) (ubg f) (cost f) (ind_comp f) (ind_bool f))
          (co_h a ++ map (fun i => i + n) (ind_h fe))
          (fun fam => co_1 a fam ++ [incr1 n (ind1 fe fam)])
          (co_xc a ++ [map (fun i => i + n) xl])
          (fun fam => co_2 a fam ++ [incr2 n (ind2 fe fam)])
          (co_b a ++ [incr1 n (ind_bool e)])).

Definition collect_stage (P : prob) (stage : list felem) : res prob :=
  do* a <- foldM collect_fe stage
             (mkColl (pb P) (p_ind_h P) (fun _ => []) [] (fun _ => []) []);
  Ok (mkProb (co_f a) (p_p P)
        (fun fam => p_ind1 P fam ++ [co_1 a fam])
        (p_ind_x_cont P ++ [co_xc a])
        (fun fam => p_ind2 P fam ++ [co_2 a fam])
        (p_ind_bool P ++ [co_b a])
        (p_ind_comp P) (co_h a) (p_ind_u P) (p_ind_sot P) (p_ind_vg P) (p_ind_el P)
        (p_stages P) (p_fe0 P) (p_J_comp P)).

Definition collect_finite_elements (P : prob) : res prob := foldM collect_stage (p_stages P) P.

(* problem.py:714-842: everything before the CasADi functions are created *)
Definition problem_body (o : opts) (t : tab) (pm : pmodel) (oc : pocp) : res prob :=
  do* _ <- guard (negb (o_N_stages o =? 0)) EZeroDivision;
  do* P <- create_primal o t pm oc;
  do* r <- foldM (process_stage o t pm oc P)
             (combine (seq 0 (length (p_stages P))) (p_stages P))
             (pb P, p_fe0 P, p_fe0 P, [], []);
  let '(f1, _, last_fe, stages, ics) := r in
  do* f2 <- global_compl o pm oc P f1;
  do* cvs <- mapM (fun q => get_complementarity_vector o (fst q) (snd q))
                  (with_prev (p_fe0 P) (all_fes stages));
  do* J <- emax (concat cvs);
  (* terminal constraint and cost, 823-827 *)
  do* xT <- x_last last_fe;
  let PT := vars (pst pm (o_N_stages o - 1)) in
  do* gT <- call (po_gT_fun oc) [xT; PT; vgv pm];
  do* f3 <- add_constraint f2 gT None None;
  do* fT <- call (po_fT_fun oc) [xT; PT; vgv pm];
  do* fT1 <- head1 fT;
  let f4 := add_cost f3 fT1 in
  (* elastic costs, 830-834 *)
  let f5 := if is_elastic (o_mpcc o)
            then if o_obj_direct o
                 then add_cost f4 (EBin BMul (EBin BDiv (ECst 1) (EVar SSigma)) (EVar SElastic))
                 else mkFobj (w f4) (lbw f4) (ubw f4) (w0 f4) (g f4) (lbg f4) (ubg f4)
                        (EBin BAdd (EBin BMul (EVar SSigma) (cost f4)) (EVar SElastic))
                        (ind_comp f4) (ind_bool f4)
            else f4 in
  (* terminal numerical time, 837-839 *)
  do* f6 <- (if (1 <? o_N_stages o) && o_use_fesd o && negb (o_equidistant o)
             then add_constraint f5
                    [EBin BSub (pysum (map fe_h (all_fes stages))) (ECst (o_terminal_time o))] None None
             else Ok f5);
  collect_finite_elements
    (mkProb f6 (p_p P) (p_ind1 P) (p_ind_x_cont P) (p_ind2 P) (p_ind_bool P) ics (p_ind_h P)
       (p_ind_u P) (p_ind_sot P) (p_ind_vg P) (p_ind_el P) stages (p_fe0 P) J).

(* problem.py:844-863: functions, LEAST_SQUARES reformulation *)
Record problem := mkProblem {
  pr_o : opts;
  pr_pm : pmodel;
  pr : prob;
  pr_cost_fun : cafun; pr_comp_res : cafun; pr_g_fun : cafun;
  pr_w0_original : list Q;
  pr_ocp_trivial : bool
}.

Definition ext_is0 (e : ext) : bool := match e with Fin q => Qeq_bool q 0 | _ => false end.

Definition lsq (o : opts) (P : prob) : res prob :=
  match o_constr o with
  | Exact => Ok P
  | LeastSquares =>
      let f := pb P in
      do* c <- foldM (fun c p => do* _ <- guard (ext_is0 (snd p)) EException;
                                 Ok (EBin BAdd c (EUn USq (fst p))))
                     (combine (g f) (lbg f)) (cost f);
      Ok (with_pb P (mkFobj (w f) (lbw f) (ubw f) (w0 f) [] [] [] c (ind_comp f) (ind_bool f)))
  end.

(* NosnocProblem.__init__, problem.py:714-863; [oc] = None is the trivial OCP *)
Definition nosnoc_problem (o : opts) (t : tab) (pm : pmodel) (oc : option ocp) : res problem :=
  let trivial := match oc with None => true | Some _ => false end in
  let oc1 := match oc with None => default_ocp | Some x => x end in
  do* poc <- preprocess_ocp pm oc1;
  do* P <- problem_body o t pm poc;
  do* cf <- mkfun [w (pb P); p_p P] [cost (pb P)];
  do* rf <- mkfun [w (pb P); p_p P] [p_J_comp P];
  do* gf <- mkfun [w (pb P); p_p P] (g (pb P));
  do* P' <- lsq o P;
  Ok (mkProblem o pm P' cf rf gf (w0 (pb P)) trivial).

(* solver.py:17-25 construct_problem. The shared ipopt dict is threaded through. *)
Section Construct.
Variable log_round : Q -> Q -> Q -> nat.
Variable cpoints : nat -> scheme -> list Q.

Record constructed := mkCon {
  cn_dict : ipopt_dict; cn_tab : tab; cn_smooth : option smooth_funs; cn_prob : problem }.

Definition construct_problem (d : ipopt_dict) (o : opts) (m : model) (oc : option ocp)
  : res constructed :=
  do* r <- preprocess log_round cpoints d o;
  let '(d', o', t) := r in
  do* pm <- preprocess_model o' m;
  do* sm <- match o_init o' with
            | Rk4Smoothened => do* s <- add_smooth_step_representation pm (o_smoothing o'); Ok (Some s)
            | _ => Ok None
            end;
  do* P <- nosnoc_problem o' t pm oc;
  Ok (mkCon d' t sm P).
End Construct.

(* problem.py:890-897 is_sim_problem *)
Definition is_sim_problem (P : problem) : bool :=
  (m_nu (pm_m (pr_pm P)) =? 0) && (o_N_stages (pr_o P) =? 1) && pr_ocp_trivial P.

(* problem.py:865-888 print: number of reported errors *)
Definition ext_ltb (a b : ext) : bool :=
  match a, b with
  | NInf, NInf => false | NInf, _ => true
  | Fin _, NInf => false | Fin x, Fin y => negb (Qle_bool y x) | Fin _, PInf => true
  | PInf, _ => false
  end.
Fixpoint print_errors (l u : list ext) (w0 : list Q) : nat :=
  match l, u, w0 with
  | lo :: l', up :: u', x :: w0' =>
      (if ext_ltb up lo then 1
       else if ext_ltb (Fin x) lo || ext_ltb up up then 1      (* line 878: ubw > ubw *)
       else 0) + print_errors l' u' w0'
  | _, _, _ => 0
  end.
