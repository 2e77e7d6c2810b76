(* Utils.v -- nosnoc/utils.py *)
From Verif Require Import Base Sx.

(* A Python value that is an int, a list, or anything else. *)
Inductive tree :=
| Leaf (n : nat)            (* int; negative ints do not occur in index lists *)
| Other (k : nat)           (* any non-int, non-list object *)
| Node (l : list tree).

(* utils.py:83-87 flatten *)
Fixpoint flatten (t : tree) : list tree :=
  match t with
  | Node l => flat_map flatten l
  | _ => [t]
  end.

(* utils.py:96-105 increment_indices; argument is the list L *)
Fixpoint incr_tree (inc : nat) (t : tree) : res tree :=
  match t with
  | Leaf n => Ok (Leaf (n + inc))
  | Other _ => Err EValueError
  | Node l =>
      do* l' <- (fix go (l : list tree) : res (list tree) :=
                  match l with
                  | [] => Ok []
                  | e :: l' => do* e' <- incr_tree inc e; do* r <- go l'; Ok (e' :: r)
                  end) l;
      Ok (Node l')
  end.
Definition increment_indices (L : list tree) (inc : nat) : res (list tree) :=
  mapM (incr_tree inc) L.

Definition is_list (t : tree) : bool := match t with Node _ => true | _ => false end.

(* utils.py:75 sum(L, []): every element must be a list, otherwise TypeError *)
Fixpoint sum_lists (L : list tree) : res (list tree) :=
  match L with
  | [] => Ok []
  | Node l :: L' => do* r <- sum_lists L'; Ok (l ++ r)
  | _ :: _ => Err ETypeError
  end.

(* utils.py:71-79 flatten_layer; recursing into a non-list raises TypeError *)
Fixpoint flatten_layer (layer : nat) (L : list tree) : res (list tree) :=
  match layer with
  | 0 => if existsb is_list L then sum_lists L else Ok L
  | S k => mapM (fun l => match l with
                          | Node l' => do* r <- flatten_layer k l'; Ok (Node r)
                          | _ => Err ETypeError
                          end) L
  end.

(* utils.py:90-93 flatten_outer_layers *)
Fixpoint flatten_outer_layers (n : nat) (L : list tree) : res (list tree) :=
  match n with
  | 0 => Ok L
  | S k => do* L' <- flatten_layer 0 L; flatten_outer_layers k L'
  end.

(* utils.py:112-113 get_cont_algebraic_indices, on typed nested lists *)
Definition get_cont_algebraic_indices {A} (ind : list (list (list A))) : res (list A) :=
  mapM (lastE EIndexError) (concat ind).

(* utils.py:50-54 casadi_vertcat_list: result = ca.vertcat(result, el) for each element *)
Definition casadi_vertcat_list {A} (x : list (list A)) : list A :=
  fold_left (fun result el => result ++ el) x [].

(* utils.py:57-61 casadi_sum_list; input[0] of an empty list raises IndexError *)
Definition casadi_sum_list (x : list (list expr)) : res (list expr) :=
  match x with
  | [] => Err EIndexError
  | v :: vs => foldM (vbin BAdd) vs v
  end.

(* utils.py:64-68 check_ipopt_success. The IPOPT return strings that matter;
   [RSOther n] is any other string. *)
Inductive ret_status :=
| RSSolveSucceeded | RSSolvedToAcceptableLevel | RSFeasiblePointFound
| RSSearchDirectionBecomesTooSmall | RSInfeasibleProblemDetected | RSOther (n : nat).
Definition check_ipopt_success (s : ret_status) : bool :=
  match s with
  | RSSolveSucceeded | RSSolvedToAcceptableLevel | RSFeasiblePointFound
  | RSSearchDirectionBecomesTooSmall => true
  | _ => false
  end.

(* utils.py:13-30 validate. Python types of option values and annotations used by
   NosnocOpts (nosnoc_opts.py:21-118); enum classes are numbered. *)
Inductive pyty := TInt | TFloat | TBool | TList | TEnum (k : nat) | TStr | TNone.
Inductive annot := AUnion (ts : list pyty) | AType (t : pyty).
Definition pyty_eqb (a b : pyty) : bool :=
  match a, b with
  | TInt, TInt | TFloat, TFloat | TBool, TBool | TList, TList | TStr, TStr | TNone, TNone => true
  | TEnum i, TEnum j => i =? j
  | _, _ => false
  end.
(* isinstance: bool is a subclass of int *)
Definition isinstance (v t : pyty) : bool :=
  pyty_eqb v t || match v, t with TBool, TInt => true | _, _ => false end.
Definition conforms (a : annot) (v : pyty) : bool :=
  match a with
  | AUnion ts => existsb (isinstance v) ts
  | AType t => isinstance v t
  end.
Fixpoint validate (attrs : list (annot * pyty)) : res unit :=
  match attrs with
  | [] => Ok tt
  | (a, v) :: r => if conforms a v then validate r else Err ETypeError
  end.
