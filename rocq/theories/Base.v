(* Base.v -- exceptions as values and Python-style list helpers shared by all
   model files. Nothing here models a nosnoc function by itself; each helper
   names the Python construct it stands for. *)
From Coq Require Export List Arith ZArith QArith Qreduction Lia Bool.
Export ListNotations.
#[global] Close Scope Q_scope.
#[global] Open Scope nat_scope.

(* Python exceptions that the modelled code can raise. [ECasadi] is the
   RuntimeError CasADi raises (dimension mismatch, free symbols, bad index). *)
Inductive exn :=
| EValueError | EException | EIndexError | ETypeError | EAttributeError
| ENotImplemented | EUnboundLocal | EZeroDivision | EWarning | ECasadi | EKeyError.

Definition exn_eqb (a b : exn) : bool :=
  match a, b with
  | EValueError, EValueError | EException, EException | EIndexError, EIndexError
  | ETypeError, ETypeError | EAttributeError, EAttributeError
  | ENotImplemented, ENotImplemented | EUnboundLocal, EUnboundLocal
  | EZeroDivision, EZeroDivision | EWarning, EWarning | ECasadi, ECasadi
  | EKeyError, EKeyError => true
  | _, _ => false
  end.

Inductive res (A : Type) := Ok (a : A) | Err (e : exn).
Arguments Ok {A} a.
Arguments Err {A} e.

Definition bind {A B} (m : res A) (k : A -> res B) : res B :=
  match m with Ok a => k a | Err e => Err e end.

Notation "'do*' x <- m ; k" := (bind m (fun x => k))
  (at level 200, x pattern, m at level 100, k at level 200, right associativity).

(* [if not b: raise e] *)
Definition guard (b : bool) (e : exn) : res unit := if b then Ok tt else Err e.

Definition is_ok {A} (m : res A) : bool := match m with Ok _ => true | Err _ => false end.

(* [[f(a) for a in l]] with exceptions *)
Fixpoint mapM {A B} (f : A -> res B) (l : list A) : res (list B) :=
  match l with
  | [] => Ok []
  | a :: l' => do* b <- f a; do* bs <- mapM f l'; Ok (b :: bs)
  end.

(* [for a in l: s = f(s, a)] with exceptions *)
Fixpoint foldM {S A} (f : S -> A -> res S) (l : list A) (s : S) : res S :=
  match l with
  | [] => Ok s
  | a :: l' => do* s' <- f s a; foldM f l' s'
  end.

(* [l[i]] for 0 <= i, IndexError (or CasADi's error) when out of range *)
Definition nthE {A} (e : exn) (l : list A) (i : nat) : res A :=
  match nth_error l i with Some a => Ok a | None => Err e end.

(* [l[-1]] *)
Definition lastE {A} (e : exn) (l : list A) : res A :=
  match rev l with a :: _ => Ok a | [] => Err e end.

(* [l[i] = a] *)
Fixpoint updE {A} (e : exn) (l : list A) (i : nat) (a : A) : res (list A) :=
  match l, i with
  | [], _ => Err e
  | _ :: l', O => Ok (a :: l')
  | x :: l', S i' => do* r <- updE e l' i' a; Ok (x :: r)
  end.

(* [w[idx]] for an index list *)
Definition sel {A} (w : list A) (idx : list nat) : res (list A) :=
  mapM (nthE ECasadi w) idx.

Definition opt_res {A} (e : exn) (o : option A) : res A :=
  match o with Some a => Ok a | None => Err e end.

Fixpoint sumn (l : list nat) : nat := match l with [] => 0 | a :: l' => a + sumn l' end.

(* numpy floats of bound vectors: -inf, finite (exact rational), +inf *)
Inductive ext := NInf | Fin (q : Q) | PInf.

Definition zerosx (n : nat) : list ext := repeat (Fin 0) n.
Definition ninfs (n : nat) : list ext := repeat NInf n.
Definition pinfs (n : nat) : list ext := repeat PInf n.

(* ---- inversion of monadic results (used by proofs only) ---- *)
Lemma bind_ok {A B} (m : res A) (k : A -> res B) b :
  bind m k = Ok b <-> exists a, m = Ok a /\ k a = Ok b.
Proof.
  destruct m as [a|e]; simpl; split.
  - intros H; exists a; auto.
  - intros (a' & H1 & H2); congruence.
  - discriminate.
  - intros (a' & H1 & _); discriminate.
Qed.

Lemma guard_ok b e u : guard b e = Ok u -> b = true.
Proof. destruct b; simpl; congruence. Qed.

Ltac inv_ok :=
  repeat match goal with
  | H : bind _ _ = Ok _ |- _ =>
      let a := fresh "a" in let H1 := fresh "H" in let H2 := fresh "H" in
      apply bind_ok in H; destruct H as (a & H1 & H2)
  | H : Ok _ = Ok _ |- _ => injection H as H
  | H : Err _ = Ok _ |- _ => discriminate H
  | H : guard _ _ = Ok _ |- _ => apply guard_ok in H
  end.
