(* Sx.v -- the part of CasADi's SX that nosnoc uses: labelled symbols,
   expression trees, evaluation, substitution, ca.Function.
   CasADi itself is not part of /repo; this file is a model of its documented
   behaviour and belongs to the trusted base (DESIGN.md). Construction-time
   simplifications of CasADi are not modelled. *)
From Coq Require Import Reals Qreals.
From Verif Require Import Base.

(* Families of stage variables, nosnoc/problem.py:253-267. *)
Inductive fam1 := FX | FV | FZ.                       (* ind_x, ind_v, ind_z *)
Inductive fam2 := FTheta | FLam | FMu | FAlpha | FLn | FLp.
                      (* ind_theta, ind_lam, ind_mu, ind_alpha, ind_lambda_n, ind_lambda_p *)

(* Every ca.SX.sym(...) call of the code creates fresh symbols; a symbol is
   identified here by the place that creates it and the component number.
   MX..MPg, MF: user model symbols (model.py:57-112, create_stage_vars 330-360);
   SVg: model.v_global; SPst: p_ctrl_stages (model.py:202);
   SSigma, STau, SElastic: problem.py:754-758; SX0, SL00: FiniteElementZero 199-219;
   SU, SSot: problem.py:613-619; SSotG: 650; SH: 277; S1, S2: 290-391;
   SBool: create_complementarity 146 (k-th call in that object). *)
Inductive sym :=
| MX (i : nat) | MU (i : nat) | MZ (i : nat) | MPt (i : nat) | MPg (i : nat)
| MF (f : fam2) (sys i : nat)
| SVg (i : nat)
| SPst (stage i : nat)
| SSigma | STau | SElastic
| SX0 (i : nat) | SL00 (f : fam2) (sys i : nat)
| SU (ctrl i : nat) | SSot (ctrl : nat) | SSotG
| SH (ctrl fe : nat)
| S1 (f : fam1) (ctrl fe slot i : nat)
| S2 (f : fam2) (ctrl fe slot sys i : nat)
| SBool (ctrl fe k i : nat) | SBoolG (k i : nat).

Definition fam1_eqb (a b : fam1) : bool :=
  match a, b with FX, FX | FV, FV | FZ, FZ => true | _, _ => false end.
Definition fam2_eqb (a b : fam2) : bool :=
  match a, b with
  | FTheta, FTheta | FLam, FLam | FMu, FMu | FAlpha, FAlpha | FLn, FLn | FLp, FLp => true
  | _, _ => false end.

Definition sym_eqb (a b : sym) : bool :=
  match a, b with
  | MX i, MX j | MU i, MU j | MZ i, MZ j | MPt i, MPt j | MPg i, MPg j
  | SVg i, SVg j | SX0 i, SX0 j | SSot i, SSot j => i =? j
  | MF f s i, MF f' s' i' => fam2_eqb f f' && (s =? s') && (i =? i')
  | SL00 f s i, SL00 f' s' i' => fam2_eqb f f' && (s =? s') && (i =? i')
  | SPst s i, SPst s' i' => (s =? s') && (i =? i')
  | SU s i, SU s' i' => (s =? s') && (i =? i')
  | SH s i, SH s' i' => (s =? s') && (i =? i')
  | SBoolG s i, SBoolG s' i' => (s =? s') && (i =? i')
  | SSigma, SSigma | STau, STau | SElastic, SElastic | SSotG, SSotG => true
  | S1 f c e s i, S1 f' c' e' s' i' =>
      fam1_eqb f f' && (c =? c') && (e =? e') && (s =? s') && (i =? i')
  | S2 f c e s y i, S2 f' c' e' s' y' i' =>
      fam2_eqb f f' && (c =? c') && (e =? e') && (s =? s') && (y =? y') && (i =? i')
  | SBool c e k i, SBool c' e' k' i' =>
      (c =? c') && (e =? e') && (k =? k') && (i =? i')
  | _, _ => false
  end.

Inductive unop := UNeg | USign | UFabs | USqrt | USq | UExp | ULog | USin | UCos | UTan | UTanh | UInv.
Inductive binop := BAdd | BSub | BMul | BDiv | BFmin | BFmax.

Inductive expr :=
| ECst (q : Q)
| EVar (s : sym)
| EUn (o : unop) (e : expr)
| EBin (o : binop) (a b : expr).

(* ---- evaluation over the reals ---- *)
Definition env := sym -> R.

Definition Rsign (x : R) : R :=
  if Rlt_dec 0 x then 1%R else if Rlt_dec x 0 then (-1)%R else 0%R.

Definition eval_un (o : unop) (x : R) : R :=
  match o with
  | UNeg => (- x)%R
  | USign => Rsign x
  | UFabs => Rabs x
  | USqrt => sqrt x
  | USq => (x * x)%R
  | UExp => exp x
  | ULog => ln x
  | USin => sin x
  | UCos => cos x
  | UTan => tan x
  | UTanh => tanh x
  | UInv => (/ x)%R
  end.

Definition eval_bin (o : binop) (x y : R) : R :=
  match o with
  | BAdd => (x + y)%R
  | BSub => (x - y)%R
  | BMul => (x * y)%R
  | BDiv => (x / y)%R
  | BFmin => Rmin x y
  | BFmax => Rmax x y
  end.

Fixpoint eval (rho : env) (e : expr) : R :=
  match e with
  | ECst q => Q2R q
  | EVar s => rho s
  | EUn o a => eval_un o (eval rho a)
  | EBin o a b => eval_bin o (eval rho a) (eval rho b)
  end.

(* exact rational evaluation, None where a transcendental or a division by zero occurs *)
Definition evalQ_un (o : unop) (x : Q) : option Q :=
  match o with
  | UNeg => Some (Qred (- x))
  | USign => Some (if Qle_bool x 0 then (if Qle_bool 0 x then 0 else (-1)%Q) else 1)%Q
  | UFabs => Some (if Qle_bool 0 x then x else Qred (- x))
  | USq => Some (Qred (x * x))
  | UTanh => if Qeq_bool x 0 then Some 0%Q else None
  | UInv => if Qeq_bool x 0 then None else Some (Qred (/ x))
  | _ => None
  end.

Definition evalQ_bin (o : binop) (x y : Q) : option Q :=
  match o with
  | BAdd => Some (Qred (x + y))
  | BSub => Some (Qred (x - y))
  | BMul => Some (Qred (x * y))
  | BDiv => if Qeq_bool y 0 then None else Some (Qred (x / y))
  | BFmin => Some (if Qle_bool x y then x else y)
  | BFmax => Some (if Qle_bool x y then y else x)
  end.

Fixpoint evalQ (rho : sym -> Q) (e : expr) : option Q :=
  match e with
  | ECst q => Some q
  | EVar s => Some (rho s)
  | EUn o a => match evalQ rho a with Some x => evalQ_un o x | None => None end
  | EBin o a b =>
      match evalQ rho a, evalQ rho b with
      | Some x, Some y => evalQ_bin o x y
      | _, _ => None
      end
  end.

(* ---- free symbols, substitution ---- *)
Fixpoint fv (e : expr) : list sym :=
  match e with
  | ECst _ => []
  | EVar s => [s]
  | EUn _ a => fv a
  | EBin _ a b => fv a ++ fv b
  end.

Fixpoint subst (f : sym -> expr) (e : expr) : expr :=
  match e with
  | ECst q => ECst q
  | EVar s => f s
  | EUn o a => EUn o (subst f a)
  | EBin o a b => EBin o (subst f a) (subst f b)
  end.

Definition mem (s : sym) (l : list sym) : bool := existsb (sym_eqb s) l.

(* ---- ca.Function('name', [v1, ..., vk], [out]) ---- *)
Record cafun := mkCafun { cf_in : list (list sym); cf_out : list expr }.

(* creation fails if an output has a symbol that is not an input *)
Definition closed_in (ins : list sym) (e : expr) : bool := forallb (fun s => mem s ins) (fv e).

Definition mkfun (ins : list (list sym)) (outs : list expr) : res cafun :=
  if forallb (closed_in (concat ins)) outs then Ok (mkCafun ins outs) else Err ECasadi.

Fixpoint assoc (ins : list sym) (args : list expr) (s : sym) : expr :=
  match ins, args with
  | i :: ins', a :: args' => if sym_eqb s i then a else assoc ins' args' s
  | _, _ => EVar s
  end.

Definition lens {A} (l : list (list A)) : list nat := map (@length A) l.

Fixpoint nats_eqb (a b : list nat) : bool :=
  match a, b with
  | [], [] => true
  | x :: a', y :: b' => (x =? y) && nats_eqb a' b'
  | _, _ => false
  end.

(* call; the scalar-expansion of arguments that CasADi also allows is never
   used by nosnoc and is an error here *)
Definition call (f : cafun) (args : list (list expr)) : res (list expr) :=
  if nats_eqb (lens (cf_in f)) (lens args)
  then Ok (map (subst (assoc (concat (cf_in f)) (concat args))) (cf_out f))
  else Err ECasadi.

(* ---- column vectors of expressions ---- *)
Definition vars (l : list sym) : list expr := map EVar l.

(* elementwise binary operation with CasADi's scalar expansion *)
Definition vbin (o : binop) (a b : list expr) : res (list expr) :=
  if length a =? length b then Ok (map (fun p => EBin o (fst p) (snd p)) (combine a b))
  else match a, b with
       | [x], _ => Ok (map (EBin o x) b)
       | _, [y] => Ok (map (fun x => EBin o x y) a)
       | _, _ => Err ECasadi
       end.

Definition vscale (e : expr) (v : list expr) : list expr := map (EBin BMul e) v.

(* ca.sum1 of a column, as 0 + v0 + v1 + ... *)
Fixpoint esum_from (acc : expr) (v : list expr) : expr :=
  match v with [] => acc | e :: v' => esum_from (EBin BAdd acc e) v' end.
Definition esum (v : list expr) : expr := esum_from (ECst 0) v.

(* dot product a.T @ b *)
Definition edot (a b : list expr) : res expr :=
  if length a =? length b
  then Ok (esum (map (fun p => EBin BMul (fst p) (snd p)) (combine a b)))
  else Err ECasadi.

(* ca.mmin / ca.mmax of a nonempty vector *)
Fixpoint emin_from (acc : expr) (v : list expr) : expr :=
  match v with [] => acc | e :: v' => emin_from (EBin BFmin acc e) v' end.
Fixpoint emax_from (acc : expr) (v : list expr) : expr :=
  match v with [] => acc | e :: v' => emax_from (EBin BFmax acc e) v' end.
Definition emin (v : list expr) : res expr :=
  match v with [] => Err ECasadi | e :: v' => Ok (emin_from e v') end.
Definition emax (v : list expr) : res expr :=
  match v with [] => Err ECasadi | e :: v' => Ok (emax_from e v') end.
