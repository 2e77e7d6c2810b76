(* Model.v -- nosnoc/model.py (NosnocModel) and nosnoc/dims.py *)
From Verif Require Import Base Sx Utils Opts.

(* A CasADi matrix given by its columns, all of length fm_rows. *)
Record fmat := mkFmat { fm_rows : nat; fm_cols : list (list expr) }.

(* NosnocModel constructor arguments, model.py:57-112. Symbol vectors are given by their
   sizes (x = MX 0.., u = MU 0.., z = MZ 0.., p_time_var = MPt 0.., p_global = MPg 0..,
   v_global = SVg 0..; alpha given as a list of sizes, its symbols are MF FAlpha sys i).
   Simplifications: isinstance(.., list) checks are static; S entries are 2-D arrays given by
   rows; the experimental argument theta is not modelled (None). *)
Record model := mkModel {
  m_nx : nat;
  m_x0 : list Q;
  m_F : option (list fmat);
  m_c : option (list (list expr));
  m_S : option (list (list (list Q)));
  m_gS : option (list (list expr));
  m_nu : nat;
  m_nz : nat;
  m_z0 : option (list Q);
  m_lbz : option (list ext);
  m_ubz : option (list ext);
  m_alpha : option (list nat);
  m_fx : option (list (list expr));
  m_gz : list expr;
  m_npt : nat;
  m_npg : nat;
  m_ptv_val : option (list (list Q));
  m_pg_val : list Q;
  m_nvg : nat;
  m_tvar : option expr
}.

Definition isSome {A} (o : option A) : bool := match o with Some _ => true | None => false end.

(* model.py:90-95: the checks of the constructor *)
Definition model_init (m : model) : res model :=
  do* _ <- guard (xorb (isSome (m_F m)) (isSome (m_fx m) && isSome (m_alpha m))) EValueError;
  do* _ <- (if isSome (m_F m)
            then guard (xorb (isSome (m_c m) && isSome (m_S m)) (isSome (m_gS m))) EValueError
            else Ok tt);
  Ok m.

(* symbol vectors *)
Definition mx (m : model) : list sym := map MX (seq 0 (m_nx m)).
Definition mu_ (m : model) : list sym := map MU (seq 0 (m_nu m)).
Definition mz (m : model) : list sym := map MZ (seq 0 (m_nz m)).
Definition mvg (m : model) : list sym := map SVg (seq 0 (m_nvg m)).
Definition mpt (m : model) : list sym := map MPt (seq 0 (m_npt m)).
Definition mpg (m : model) : list sym := map MPg (seq 0 (m_npg m)).
Definition mp (m : model) : list sym := mpt m ++ mpg m.            (* model.py:201 *)
Definition mfam (f : fam2) (sys n : nat) : list sym := map (MF f sys) (seq 0 n).
Definition mfams (f : fam2) (sizes : list nat) : list (list sym) :=
  map (fun p => mfam f (fst p) (snd p)) (combine (seq 0 (length sizes)) sizes).

(* truthiness of self.g_Stewart (a list) *)
Definition gS_truthy (m : model) : bool :=
  match m_gS m with Some (_ :: _) => true | _ => false end.

(* F @ v, S @ c *)
Fixpoint mv_acc (acc : list expr) (cols : list (list expr)) (v : list expr) : list expr :=
  match cols, v with
  | c :: cols', e :: v' =>
      mv_acc (map (fun p => EBin BAdd (fst p) (snd p))
                (combine acc (map (fun x => EBin BMul x e) c))) cols' v'
  | _, _ => acc
  end.
Definition matvec (F : fmat) (v : list expr) : res (list expr) :=
  if length (fm_cols F) =? length v
  then Ok (mv_acc (repeat (ECst 0) (fm_rows F)) (fm_cols F) v) else Err ECasadi.

Definition neg_S_c (S : list (list Q)) (c : list expr) : res (list expr) :=
  mapM (fun row => edot (map (fun s => ECst (- s)%Q) row) c) S.

(* np.array(ncols) of a 2-D array: len(S[0,:]) *)
Definition ncols {A} (S : list (list A)) : res nat :=
  match S with [] => Err EIndexError | r :: _ => Ok (length r) end.

(* model.py:246-251: upsilon_ij = prod over k with S_jk != 0 of (0.5*(1-S_jk) + S_jk*alpha_k) *)
Definition upsilon_term (s : Q) (a : expr) : expr :=
  EBin BAdd (ECst ((1#2) * (1 - s))%Q) (EBin BMul (ECst s) a).
Definition upsilon_row (row : list Q) (alpha : list expr) (nc : nat) : res expr :=
  foldM (fun acc k =>
           do* s <- nthE EIndexError row k;
           if Qeq_bool s 0 then Ok acc
           else (do* a <- nthE ECasadi alpha k; Ok (EBin BMul acc (upsilon_term s a))))
        (seq 0 nc) (ECst 1).
(* model.py:244-252 *)
Definition upsilon_col (S : list (list Q)) (alpha : list expr) : res (list expr) :=
  do* nc <- ncols S;
  mapM (fun row => upsilon_row row alpha nc) S.
(* model.py:253 horzcat needs equal numbers of rows *)
Definition all_len_eq {A} (l : list (list A)) : bool :=
  match l with [] => true | v :: vs => forallb (fun w => length w =? length v) vs end.

(* model.py:184-197 parameter checks; numpy shape of a list of rows *)
Definition shape_is {A} (M : list (list A)) (r c : nat) : bool :=
  (length M =? r) && forallb (fun row => length row =? c) M.

(* Everything preprocess_model adds to the model, model.py:120-328. *)
Record pmodel := mkPmodel {
  pm_m : model;                 (* with z0, lbz, ubz, p_time_var_val filled in *)
  pm_nsys : nat;
  pm_nc : list nat;             (* dims.n_c_sys *)
  pm_nf : list nat;             (* dims.n_f_sys *)
  pm_z0 : list Q; pm_lbz : list ext; pm_ubz : list ext;
  pm_pval : list (list Q);      (* p_val_ctrl_stages *)
  pm_zall : list sym;
  pm_fx_fun : cafun;
  pm_gsw_fun : cafun;
  pm_gz_fun : cafun;
  pm_t_fun : option cafun;
  pm_lam00_fun : cafun;
  pm_compl_fun : cafun;
  pm_mu00_fun : option cafun;
  pm_gS_fun : option cafun
}.
Definition pm_np (p : pmodel) : nat := m_npt (pm_m p) + m_npg (pm_m p).

Definition set_filled (m : model) (z0 : list Q) (lbz ubz : list ext) (ptv : list (list Q)) : model := {|
  m_nx := m_nx m; m_x0 := m_x0 m; m_F := m_F m; m_c := m_c m; m_S := m_S m; m_gS := m_gS m;
  m_nu := m_nu m; m_nz := m_nz m; m_z0 := Some z0; m_lbz := Some lbz; m_ubz := Some ubz;
  m_alpha := m_alpha m; m_fx := m_fx m; m_gz := m_gz m; m_npt := m_npt m; m_npg := m_npg m;
  m_ptv_val := Some ptv; m_pg_val := m_pg_val m; m_nvg := m_nvg m; m_tvar := m_tvar m |}.

(* model.py:127-138 defaults with length checks *)
Definition default_len {A} (o : option (list A)) (n : nat) (d : A) : res (list A) :=
  match o with
  | None => Ok (repeat d n)
  | Some l => if length l =? n then Ok l else Err EValueError
  end.

Definition fmat_ok (F : fmat) : bool := forallb (fun c => length c =? fm_rows F) (fm_cols F).

(* model.py:140-143 *)
Definition get_nc (m : model) (nsys : nat) : res (list nat) :=
  if gS_truthy m then Ok [0]
  else do* c <- opt_res ETypeError (m_c m);
       mapM (fun i => do* ci <- nthE EIndexError c i; Ok (length ci)) (seq 0 nsys).

(* model.py:146-180; returns n_f_sys *)
Definition sanity_checks (o : opts) (m : model) (nsys : nat) : res (list nat) :=
  match m_F m with
  | Some F =>
      let nf := map (fun f => length (fm_cols f)) F in
      do* _ <- guard (forallb fmat_ok F) ECasadi;        (* not representable in CasADi *)
      do* _ <- guard (negb (existsb (fun n => n =? 1) nf)) EWarning;
      do* _ <- (if gS_truthy m then
                  do* _ <- guard (match o_pss o with Stewart => true | Step => false end) EValueError;
                  foldM (fun _ p => let '(i, g) := p in
                           do* n <- nthE EIndexError nf i;
                           guard (length g =? n) EValueError)
                        (match m_gS m with Some g => combine (seq 0 (length g)) g | None => [] end) tt
                else
                  do* c <- opt_res EValueError (m_c m);
                  do* Sm <- opt_res EValueError (m_S m);
                  do* _ <- guard (length c =? length Sm) EValueError;
                  foldM (fun _ p => guard (fst p =? length (snd p)) EValueError)
                        (combine nf Sm) tt);
      Ok nf
  | None =>
      do* _ <- guard (match o_pss o with Stewart => false | Step => true end) EValueError;
      do* fx <- opt_res ETypeError (m_fx m);
      do* c <- opt_res EValueError (m_c m);
      do* a <- opt_res ETypeError (m_alpha m);
      do* _ <- guard (length (concat c) =? sumn a) EValueError;
      Ok (repeat 1 nsys)
  end.

(* model.py:277-303, Stewart branch: per subsystem f_x, g_switching, g_convex, compl_res, lambda00 *)
Record dcs := mkDcs {
  d_fx : list expr; d_gsw : list expr; d_gcv : list expr; d_res : expr; d_l00 : list expr }.

Definition stewart_step (F : list fmat) (gSl : list (list expr)) (nf : list nat)
    (a : dcs) (ii : nat) : res dcs :=
  do* Fi <- nthE EIndexError F ii;
  do* n <- nthE EIndexError nf ii;
  do* gi <- nthE EIndexError gSl ii;
  let th := vars (mfam FTheta ii n) in
  let la := vars (mfam FLam ii n) in
  let mu := vars (mfam FMu ii 1) in
  do* ft <- matvec Fi th;
  do* fx <- vbin BAdd (d_fx a) ft;
  do* g1 <- vbin BSub gi la;
  do* g2 <- vbin BAdd g1 mu;
  do* dt <- edot la th;
  do* mn <- emin gi;
  do* l00 <- vbin BSub gi [mn];
  Ok (mkDcs fx (d_gsw a ++ g2) (d_gcv a ++ [EBin BSub (esum th) (ECst 1)])
            (EBin BAdd (d_res a) (EUn UFabs dt)) (d_l00 a ++ l00)).

(* model.py:287-300, Step branch; [ups] is None for general inclusions *)
Definition step_step (F : option (list fmat)) (ups : list (list expr)) (c : list (list expr))
    (alpha : list (list sym)) (nc : list nat) (a : dcs) (ii : nat) : res dcs :=
  do* fx <- match F with
            | Some F => do* Fi <- nthE EIndexError F ii;
                        do* u <- nthE ECasadi ups ii;
                        do* ft <- matvec Fi u;
                        vbin BAdd (d_fx a) ft
            | None => Ok (d_fx a)
            end;
  do* al <- nthE EIndexError alpha ii;
  do* ci <- nthE EIndexError c ii;
  do* n <- nthE EIndexError nc ii;
  let ln := vars (mfam FLn ii n) in
  let lp := vars (mfam FLp ii n) in
  do* g1 <- vbin BSub ci lp;
  do* g2 <- vbin BAdd g1 ln;
  do* r1 <- edot ln (vars al);
  do* oma <- vbin BSub (repeat (ECst 1) n) (vars al);
  do* r2 <- edot lp oma;
  Ok (mkDcs fx (d_gsw a ++ g2) (d_gcv a)
            (EBin BAdd (EBin BAdd (d_res a) r1) r2)
            (d_l00 a ++ map (fun e => EUn UNeg (EBin BFmin e (ECst 0))) ci
                     ++ map (fun e => EBin BFmax e (ECst 0)) ci)).

(* model.py:224-228 g_Stewart_list *)
Definition gS_list (m : model) (nsys : nat) : res (list (list expr)) :=
  if gS_truthy m then opt_res ETypeError (m_gS m)
  else do* Sm <- opt_res ETypeError (m_S m);
       do* c <- opt_res ETypeError (m_c m);
       mapM (fun i => do* Si <- nthE EIndexError Sm i; do* ci <- nthE EIndexError c i; neg_S_c Si ci)
            (seq 0 nsys).

(* model.py:239-253 *)
Definition get_upsilon (m : model) (alpha : list (list sym)) (nsys : nat) : res (list (list expr)) :=
  do* Sm <- opt_res ETypeError (m_S m);
  do* ups <- mapM (fun i => do* Si <- nthE EIndexError Sm i;
                            do* ai <- nthE EIndexError alpha i;
                            upsilon_col Si (vars ai)) (seq 0 nsys);
  do* _ <- guard (all_len_eq ups) ECasadi;
  Ok ups.

(* model.py:120-328 preprocess_model. An empty list F = [] (no subsystem) is rejected here;
   rootfinder_for_initial_z = True is modelled in Extras.v. *)
Definition preprocess_model (o : opts) (m : model) : res pmodel :=
  do* nsys <- match m_F m with
              | Some F => Ok (length F)
              | None => do* fx <- opt_res ETypeError (m_fx m); Ok (length fx)
              end;
  do* _ <- guard (negb (nsys =? 0)) ECasadi;
  do* z0 <- default_len (m_z0 m) (m_nz m) 0%Q;
  do* lbz <- default_len (m_lbz m) (m_nz m) NInf;
  do* ubz <- default_len (m_ubz m) (m_nz m) PInf;
  do* nc <- get_nc m nsys;
  do* nf <- sanity_checks o m nsys;
  do* _ <- guard (length (m_pg_val m) =? m_npg m) EException;
  let ptv := match m_ptv_val m with
             | None => repeat (repeat 0%Q (m_npt m)) (o_N_stages o)
             | Some v => v
             end in
  do* _ <- guard (shape_is ptv (o_N_stages o) (m_npt m)) EException;
  let pval := map (fun row => row ++ m_pg_val m) ptv in
  let m' := set_filled m z0 lbz ubz ptv in
  do* gSl <- match o_pss o with Stewart => gS_list m nsys | Step => Ok [] end;
  (* create_stage_vars, 330-360; given alpha replaces the created one, 234-235 *)
  let th := match o_pss o with Stewart => mfams FTheta nf | Step => [] end in
  let la := match o_pss o with Stewart => mfams FLam nf | Step => [] end in
  let mu := match o_pss o with Stewart => mfams FMu (repeat 1 nsys) | Step => [] end in
  let al := match m_alpha m with
            | Some sizes => mfams FAlpha sizes
            | None => match o_pss o with Stewart => [] | Step => mfams FAlpha nc end
            end in
  let ln := match o_pss o with Stewart => [] | Step => mfams FLn nc end in
  let lp := match o_pss o with Stewart => [] | Step => mfams FLp nc end in
  do* ups <- match o_pss o, m_F m with
             | Step, Some _ => get_upsilon m al nsys
             | _, _ => Ok []
             end;
  let z := concat th ++ concat la ++ concat mu ++ concat al ++ concat ln ++ concat lp ++ mz m in
  do* fx0 <- match m_F m with
             | Some _ => Ok (repeat (ECst 0) (m_nx m))
             | None =>
                 do* fx <- opt_res ETypeError (m_fx m);
                 (* z[0:sum(n_c_sys)] = alpha: the prefix already is alpha; sizes must agree *)
                 do* _ <- guard (length (concat al) =? sumn nc) ECasadi;
                 Ok (concat fx)
             end;
  let d0 := mkDcs fx0 [] [] (ECst 0) [] in
  do* d <- match o_pss o with
           | Stewart => do* F <- opt_res ETypeError (m_F m);
                        foldM (stewart_step F gSl nf) (seq 0 nsys) d0
           | Step => do* c <- opt_res ETypeError (m_c m);
                     foldM (step_step (m_F m) ups c al nc) (seq 0 nsys) d0
           end;
  let gz := d_gsw d ++ d_gcv d ++ m_gz m in
  do* fxf <- mkfun [mx m; z; mu_ m; mp m; mvg m] (d_fx d);
  do* gswf <- mkfun [mx m; z; mu_ m; mp m] (d_gsw d);
  do* gzf <- mkfun [mx m; z; mu_ m; mp m] gz;
  do* tf <- match m_tvar m with
            | Some t => do* f <- mkfun [mx m] [t]; Ok (Some f)
            | None => if o_time_freezing o then Err EValueError else Ok None
            end;
  do* l00f <- mkfun [mx m; mz m; mp m] (d_l00 d);
  do* cf <- mkfun [z; mp m] [d_res d];
  do* mu00f <- match o_pss o with
               | Stewart => do* mins <- mapM emin gSl;
                            do* f <- mkfun [mx m; mz m; mp m] mins; Ok (Some f)
               | Step => Ok None
               end;
  do* gSf <- match o_pss o with
             | Stewart => do* f <- mkfun [mx m; mz m; mp m] (concat gSl); Ok (Some f)
             | Step => Ok None
             end;
  Ok (mkPmodel m' nsys nc nf z0 lbz ubz pval z fxf gswf gzf tf l00f cf mu00f gSf).

(* ---- add_smooth_step_representation, model.py:362-410 ---- *)

(* line 376: (tanh(1/s * y) + 1)/2 *)
Definition smooth_step (s : Q) (y : expr) : expr :=
  EBin BDiv (EBin BAdd (EUn UTanh (EBin BMul (ECst (/ s)%Q) y)) (ECst 1)) (ECst 2).
(* lines 388-391 *)
Definition smooth_min (s : Q) (v : list expr) : expr :=
  let w e := EUn UExp (EBin BMul (ECst (- / s)%Q) e) in
  EBin BDiv (esum (map (fun e => EBin BMul e (w e)) v)) (esum (map w v)).

Definition Qabs_ (q : Q) : Q := if Qle_bool 0 q then q else (- q)%Q.
Definition Qsum (l : list Q) : Q := fold_left Qplus l 0%Q.

(* lines 397-401. The factor 2**(n_c - n_Ri) is taken at the integer part of n_Ri (S entries
   are -1, 0, 1 in every use). *)
Definition theta_smooth_entry (nc : nat) (row : list Q) (alpha : list expr) : res expr :=
  let nRi := Qround.Qfloor (Qsum (map Qabs_ row)) in
  foldM (fun acc j =>
           do* s <- nthE EIndexError row j;
           do* a <- nthE ECasadi alpha j;
           Ok (EBin BMul acc (EBin BAdd (ECst ((1 - s) / 2)%Q) (EBin BMul (ECst s) a))))
        (seq 0 nc) (ECst (Qpower 2 (Z.of_nat nc - nRi))).

Record smooth_funs := mkSmooth {
  sm_fx : cafun; sm_theta : cafun; sm_mu : cafun; sm_lambda : cafun }.

Definition add_smooth_step_representation (pm : pmodel) (s : Q) : res smooth_funs :=
  let m := pm_m pm in
  do* _ <- guard (negb (gS_truthy m)) ENotImplemented;
  do* _ <- guard (negb (Qle_bool s 0)) EValueError;
  do* gSl <- gS_list m (pm_nsys pm);
  do* c <- opt_res ETypeError (m_c m);
  do* Sm <- opt_res ETypeError (m_S m);
  do* F <- opt_res ETypeError (m_F m);
  do* thl <- mapM (fun ii =>
               do* ci <- nthE EIndexError c ii;
               do* Si <- nthE EIndexError Sm ii;
               do* nci <- nthE EIndexError (pm_nc pm) ii;
               mapM (fun row => theta_smooth_entry nci row (map (smooth_step s) ci)) Si)
             (seq 0 (pm_nsys pm));
  do* fx <- foldM (fun acc ii =>
               do* Fi <- nthE EIndexError F ii;
               do* th <- nthE EIndexError thl ii;
               do* ft <- matvec Fi th;
               vbin BAdd acc ft) (seq 0 (pm_nsys pm)) (repeat (ECst 0) (m_nx m));
  do* lam <- mapM (fun g => vbin BSub g [smooth_min s g]) gSl;
  do* f1 <- mkfun [mx m] fx;
  do* f2 <- mkfun [mx m; mp m] (concat thl);
  do* f3 <- mkfun [mx m; mp m] (map (fun g => EUn UNeg (smooth_min s g)) gSl);
  do* f4 <- mkfun [mx m; mp m] (concat lam);
  Ok (mkSmooth f1 f2 f3 f4).
