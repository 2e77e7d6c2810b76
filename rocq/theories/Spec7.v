(* Spec7.v -- vocabulary for print() and NosnocAutoModel *)
From Coq Require Import Reals Qreals.
From Verif Require Import Base Sx Model Spec Fesd Spec3 Spec4.
Local Open Scope nat_scope.

(* ---- bounds and guesses (C66) ---- *)
Definition ext_lt (a b : ext) : Prop :=
  match a, b with
  | NInf, Fin _ | NInf, PInf | Fin _, PInf => True
  | Fin x, Fin y => (x < y)%Q
  | _, _ => False
  end.
Definition crossed (l u : list ext) (i : nat) : Prop :=
  exists lo up, nth_error l i = Some lo /\ nth_error u i = Some up /\ ext_lt up lo.
Definition too_low (l : list ext) (g : list Q) (i : nat) : Prop :=
  exists lo x, nth_error l i = Some lo /\ nth_error g i = Some x /\ ext_lt (Fin x) lo.
Definition too_high (u : list ext) (g : list Q) (i : nat) : Prop :=
  exists up x, nth_error u i = Some up /\ nth_error g i = Some x /\ ext_lt up (Fin x).

(* ---- expressions ---- *)
Inductive subterm (t : expr) : expr -> Prop :=
| sub_self : subterm t t
| sub_arg o e : subterm t e -> subterm t (EUn o e)
| sub_left o a b : subterm t a -> subterm t (EBin o a b)
| sub_right o a b : subterm t b -> subterm t (EBin o a b).
(* sign, max and min *)
Definition switching (e : expr) : Prop :=
  exists a b, e = EUn USign a \/ e = EBin BFmax a b \/ e = EBin BFmin a b.
Definition smooth (e : expr) : Prop := forall t, subterm t e -> ~ switching t.
(* the switching nodes that are not below another one, from left to right *)
Fixpoint outer (e : expr) : list expr :=
  match e with
  | ECst _ | EVar _ => []
  | EUn USign _ | EBin BFmax _ _ | EBin BFmin _ _ => [e]
  | EUn _ a => outer a
  | EBin _ a b => outer a ++ outer b
  end.
(* the number whose sign decides a switching node *)
Definition decider (rho : env) (n : expr) : R :=
  match n with
  | EUn USign a => eval rho a
  | EBin _ a b => (eval rho a - eval rho b)%R
  | _ => 0%R
  end.
(* c is a switching function for the node n *)
Definition switch_for (n c : expr) : Prop :=
  (forall rho, eval rho c = decider rho n) /\ (forall y, In y (fv c) -> In y (fv n)).
(* the switching function the code creates for it *)
Definition switch_of (simp : expr -> expr) (n : expr) : expr :=
  match n with EUn _ a => a | EBin _ a b => simp (EBin BSub a b) | _ => ECst 0 end.
Definition is_min (n : expr) : bool := match n with EBin BFmin _ _ => true | _ => false end.
(* no switching node below another one *)
Definition unnested (e : expr) : Prop := forall t a b, subterm t e ->
  (t = EUn USign a -> smooth a) /\ (t = EBin BFmax a b \/ t = EBin BFmin a b -> smooth a /\ smooth b).
(* a sum, a difference, or the negation of one *)
Fixpoint sum_like (e : expr) : Prop :=
  match e with
  | EBin BAdd _ _ | EBin BSub _ _ => True
  | EUn UNeg a => sum_like a
  | _ => False
  end.

(* what is asked of the simplifications CasADi makes when it creates a node *)
Record harmless (simp : expr -> expr) : Prop := {
  hl_value : forall rho e, eval rho (simp e) = eval rho e;
  hl_symbols : forall e y, In y (fv (simp e)) -> In y (fv e);
  hl_smooth : forall e, smooth e -> smooth (simp e);
  hl_negation : forall e, ~ sum_like e -> ~ sum_like (simp (EUn UNeg e)) }.

(* column number k of a switching system with one switching function c (S has one column) *)
Definition chosen (rho : env) (c : expr) (S : list (list Q)) (k : nat) : Prop :=
  exists q, nth_error S k = Some [q] /\ (0 < Q2R q * eval rho c)%R.
Definition entry_value (rho : env) (F : fmat) (i k : nat) : R :=
  match nth_error (fm_cols F) k with
  | Some col => match nth_error col i with Some e => eval rho e | None => 0%R end
  | None => 0%R
  end.
(* the right-hand side of row i when subsystem s is in its mode ks[s] *)
Definition row_value (rho : env) (Fs : list fmat) (ks : list nat) (i : nat) : R :=
  rsum (map (fun p => entry_value rho (fst p) i (snd p)) (combine Fs ks)).
(* the symbols of an ODE x' = f(x, u) *)
Definition ode_sym (nx nu : nat) (y : sym) : Prop := match y with MX i => i < nx | MU i => i < nu | _ => False end.
