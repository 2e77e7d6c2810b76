(* AutoModel.v -- nosnoc/auto_model.py (NosnocAutoModel).
   The code inspects the nodes of scalar SX expressions and creates new ones. CasADi may simplify every
   node it creates: the parameter simp is applied to each new node, and the theorems quantify over it
   (the identity is one instance). alpha_i = ca.SX.sym(..) is the symbol MF FAlpha 0 i.
   Not modelled: SX nodes with more than two dependencies; the argument p, which reformulate() drops. *)
From Verif Require Import Base Sx Utils Opts Model.

Record auto := mkAuto {
  am_c : list expr; am_alpha : list sym;
  am_F : list fmat; am_S : list (list (list Q)) }.
Definition auto_init : auto := mkAuto [] [] [] [].          (* auto_model.py:42-51 *)

Section Auto.
Variable simp : expr -> expr.
Definition un (o : unop) (e : expr) : expr := simp (EUn o e).
Definition bin (o : binop) (a b : expr) : expr := simp (EBin o a b).

(* auto_model.py:210-218 _find_matching_expr_nonlin: always a fresh symbol *)
Definition find_matching (a : auto) : sym := MF FAlpha 0 (length (am_alpha a)).
Definition add_switch (a : auto) (c : expr) : auto * expr :=
  let al := find_matching a in
  (mkAuto (am_c a ++ [c]) (am_alpha a ++ [al]) (am_F a) (am_S a), EVar al).

(* auto_model.py:159-208 _rebuild_nonlin *)
Fixpoint rebuild_nonlin (a : auto) (e : expr) : auto * expr :=
  match e with
  | ECst _ | EVar _ => (a, e)
  | EUn USign d =>
      let '(a', al) := add_switch a d in
      (a', bin BSub (bin BMul (ECst 2) al) (ECst 1))
  | EUn o d => let '(a', d') := rebuild_nonlin a d in (a', un o d')
  | EBin BFmax d0 d1 =>
      let '(a', al) := add_switch a (bin BSub d0 d1) in
      (a', bin BAdd (bin BMul al d0) (bin BMul (bin BSub (ECst 1) al) d1))
  | EBin BFmin d0 d1 =>
      let '(a', al) := add_switch a (bin BSub d0 d1) in
      (a', bin BAdd (bin BMul (bin BSub (ECst 1) al) d0) (bin BMul al d1))
  | EBin o d0 d1 =>
      let '(a1, l) := rebuild_nonlin a d0 in
      let '(a2, r) := rebuild_nonlin a1 d1 in
      (a2, bin o l r)
  end.

(* auto_model.py:118-121 _reformulate_nonlin *)
Fixpoint reformulate_nonlin (a : auto) (fs : list expr) : auto * list expr :=
  match fs with
  | [] => (a, [])
  | e :: fs' =>
      let '(a1, e') := rebuild_nonlin a e in
      let '(a2, es) := reformulate_nonlin a1 fs' in (a2, e' :: es)
  end.

(* auto_model.py:245-262 _check_smooth *)
Fixpoint check_smooth (e : expr) : bool :=
  match e with
  | ECst _ | EVar _ => true
  | EUn USign _ => false
  | EUn _ d => check_smooth d
  | EBin BFmax _ _ | EBin BFmin _ _ => false
  | EBin _ d0 d1 => check_smooth d0 && check_smooth d1
  end.

Definition is_op3 (e : expr) : bool :=
  match e with EUn USign _ | EBin BFmax _ _ | EBin BFmin _ _ => true | _ => false end.

(* auto_model.py:220-243 _check_additive; None (other unary nodes) counts as False *)
Fixpoint check_additive (e : expr) : bool :=
  match e with
  | EUn UNeg d => check_additive d
  | EUn USign _ => true
  | EBin BFmin _ _ | EBin BFmax _ _ => true
  | EBin BMul d0 d1 =>
      if is_op3 d0 then check_smooth d1
      else if is_op3 d1 then check_smooth d0 else false
  | _ => false
  end.

(* auto_model.py:264-278 _find_nonlinear_components *)
Fixpoint find_components (e : expr) : list expr :=
  match e with
  | EUn UNeg d => map (un UNeg) (find_components d)
  | EBin BAdd d0 d1 => find_components d0 ++ find_components d1
  | EBin BSub d0 d1 => find_components d0 ++ map (un UNeg) (find_components d1)
  | _ => [e]
  end.

(* auto_model.py:123-131 _detect_additive *)
Definition detect_additive (fs : list expr) : bool :=
  existsb (fun f => existsb check_additive (find_components f)) fs.

(* auto_model.py:134-157 _rebuild_additive_component. The fmin branch returns five values: unpacking
   them (lines 90, 144, 153, 154) raises ValueError. *)
Definition component := (list expr * option expr * option (list (list Q)))%type.
Definition S_pm : list (list Q) := [[1%Q]; [(-1)%Q]].
Definition orelse {A} (a b : option A) : option A := match a with Some _ => a | None => b end.
Fixpoint rebuild_additive (e : expr) : res component :=
  match e with
  | ECst _ | EVar _ => Ok ([e], None, None)
  | EUn USign d => Ok ([ECst 1; ECst (-1)], Some d, Some S_pm)
  | EUn o d =>
      do* r <- rebuild_additive d;
      let '(ch, c, sw) := r in Ok (map (un o) ch, c, sw)
  | EBin BFmax d0 d1 => Ok ([d0; d1], Some (bin BSub d0 d1), Some S_pm)
  | EBin BFmin d0 d1 => Err EValueError
  | EBin o d0 d1 =>
      do* l <- rebuild_additive d0;
      do* r <- rebuild_additive d1;
      let '(lch, lc, lS) := l in
      let '(rch, rc, rS) := r in
      Ok (map (fun p => bin o (fst p) (snd p)) (list_prod lch rch), orelse lc rc, orelse lS rS)
  end.

(* equality of c.str(): printing is taken to be injective *)
Definition q_eqb (a b : Q) : bool := Z.eqb (Qnum a) (Qnum b) && Pos.eqb (Qden a) (Qden b).
Definition unop_n (o : unop) : nat :=
  match o with UNeg => 0 | USign => 1 | UFabs => 2 | USqrt => 3 | USq => 4 | UExp => 5 | ULog => 6
             | USin => 7 | UCos => 8 | UTan => 9 | UTanh => 10 | UInv => 11 end.
Definition binop_n (o : binop) : nat :=
  match o with BAdd => 0 | BSub => 1 | BMul => 2 | BDiv => 3 | BFmin => 4 | BFmax => 5 end.
Fixpoint expr_eqb (a b : expr) : bool :=
  match a, b with
  | ECst p, ECst q => q_eqb p q
  | EVar x, EVar y => sym_eqb x y
  | EUn o a', EUn o' b' => (unop_n o =? unop_n o') && expr_eqb a' b'
  | EBin o a1 a2, EBin o' b1 b2 => (binop_n o =? binop_n o') && expr_eqb a1 b1 && expr_eqb a2 b2
  | _, _ => false
  end.

(* utils.py:57-61 casadi_sum_list on scalars *)
Definition sum_scalars (l : list expr) : res expr :=
  match l with [] => Err EIndexError | e :: l' => Ok (fold_left (bin BAdd) l' e) end.

(* lines 85-92: one entry of a row: the two expressions, c and the identity of the node c.
   f, c and S of line 90; f[0], f[1] are read in lines 106-107; c.str() of None raises *)
Record entry := mkEntry { en_f0 : expr; en_f1 : expr; en_c : expr; en_S : list (list Q); en_id : nat }.
Definition to_entry (id : nat) (e : expr) : res entry :=
  do* r <- rebuild_additive e;
  let '(ch, c, sw) := r in
  do* c' <- opt_res EAttributeError c;
  do* sw' <- opt_res EAttributeError sw;
  do* f0 <- nthE EIndexError ch 0;
  do* f1 <- nthE EIndexError ch 1;
  Ok (mkEntry f0 f1 c' sw' id).

(* ids: the node identity (hash) of the c of component j of row i; a dict with SX keys merges two
   keys iff they are the same node *)
Variable ids : nat -> nat -> nat.
(* the iteration order of the Python set all_c is unspecified *)
Variable order : list expr -> list expr.

Definition row_entries (i : nat) (nonsmooth : list expr) : res (list entry) :=
  mapM (fun p => to_entry (ids i (fst p)) (snd p)) (combine (seq 0 (length nonsmooth)) nonsmooth).

Fixpoint nodup_e (l : list expr) : list expr :=
  match l with
  | [] => []
  | e :: l' => if existsb (expr_eqb e) l' then nodup_e l' else e :: nodup_e l'
  end.

(* lines 102-108: the pair of expressions of a row for the switching function c *)
Definition f_pair (row : list entry) (c : expr) : expr * expr :=
  fold_left (fun acc en => (bin BAdd (fst acc) (en_f0 en), bin BAdd (snd acc) (en_f1 en)))
    (filter (fun en => expr_eqb (en_c en) c) row) (ECst 0, ECst 0).

(* line 105: cS_map[c] = S, keyed by the node; a later assignment to the same key keeps its place *)
Fixpoint dict_set (d : list (nat * (expr * list (list Q)))) (k : nat) (v : expr * list (list Q)) :=
  match d with
  | [] => [(k, v)]
  | (k', v') :: d' => if k =? k' then (k', (fst v', snd v)) :: d' else (k', v') :: dict_set d' k v
  end.
Definition cS_map (rows : list (list entry)) (all_c : list expr) : list (nat * (expr * list (list Q))) :=
  fold_left (fun d row =>
    fold_left (fun d c =>
      fold_left (fun d en => dict_set d (en_id en) (en_c en, en_S en))
        (filter (fun en => expr_eqb (en_c en) c) row) d) all_c d) rows [].

Definition add_col (f : list expr) (col : list expr) : list expr :=
  map (fun p => bin BAdd (fst p) (snd p)) (combine col f).

(* auto_model.py:65-116 _reformulate_linear *)
Definition reformulate_linear (a : auto) (fs : list expr) : res auto :=
  let comps := map find_components fs in
  let nsm := map (filter (fun e => negb (check_smooth e))) comps in
  let sm := map (filter check_smooth) comps in
  do* f_common <- mapM sum_scalars sm;
  do* rows <- mapM (fun p => row_entries (fst p) (snd p)) (combine (seq 0 (length nsm)) nsm);
  let all_c := order (nodup_e (map en_c (concat rows))) in
  let cS := map snd (cS_map rows all_c) in
  let Fs := map (fun v => let ps := map (fun row => f_pair row (fst v)) rows in
                          mkFmat (length fs) [map fst ps; map snd ps]) cS in
  match am_F a ++ Fs with
  | [] => Err EIndexError
  | F0 :: Frest =>
      Ok (mkAuto (am_c a ++ map fst cS) (am_alpha a)
            (mkFmat (fm_rows F0) (map (add_col f_common) (fm_cols F0)) :: Frest)
            (am_S a ++ map snd cS))
  end.

(* auto_model.py:53-63 reformulate *)
Definition new_model (nx nu : nat) (x0 : list Q) (F : option (list fmat)) (c : list expr)
    (S : option (list (list (list Q)))) (al : option (list nat)) (fx : option (list (list expr))) : model := {|
  m_nx := nx; m_x0 := x0; m_F := F; m_c := Some (map (fun e => [e]) c); m_S := S; m_gS := None;
  m_nu := nu; m_nz := 0; m_z0 := None; m_lbz := None; m_ubz := None; m_alpha := al; m_fx := fx;
  m_gz := []; m_npt := 0; m_npg := 0; m_ptv_val := None; m_pg_val := []; m_nvg := 0; m_tvar := None |}.
Definition reformulate (nx nu : nat) (x0 : list Q) (a : auto) (fs : list expr) : auto * res model :=
  if detect_additive fs then
    let '(a', f) := reformulate_nonlin a fs in
    (a', model_init (new_model nx nu x0 None (am_c a') None (Some [length (am_alpha a')]) (Some [f])))
  else
    match reformulate_linear a fs with
    | Ok a' => (a', model_init (new_model nx nu x0 (Some (am_F a')) (am_c a') (Some (am_S a')) None None))
    | Err e => (a, Err e)
    end.
End Auto.
