(* Numeric.v -- numeric evaluation of CasADi functions and NosnocModel.compute_lambda00.
   Numbers are real numbers: rounding of floating point arithmetic is not modelled. *)
From Coq Require Import Reals Qreals.
From Verif Require Import Base Sx Utils Opts Model.

(* values of the input symbols of a function *)
Fixpoint bindR (ins : list sym) (vals : list R) : env := fun s =>
  match ins, vals with
  | i :: ins', x :: vals' => if sym_eqb s i then x else bindR ins' vals' s
  | _, _ => 0%R
  end.
(* CasADi's treatment of an argument where a column vector of length n is expected: an empty
   argument stands for zeros, a scalar is repeated *)
Definition fit (n : nat) (a : list R) : res (list R) :=
  if length a =? n then Ok a
  else match a with
       | [] => Ok (repeat 0%R n)
       | [x] => Ok (repeat x n)
       | _ => Err ECasadi
       end.
(* f(v1, ..., vk) with numeric arguments *)
Definition numcall (f : cafun) (args : list (list R)) : res (list R) :=
  do* _ <- guard (length (cf_in f) =? length args) ECasadi;
  do* vals <- mapM (fun p => fit (length (fst p)) (snd p)) (combine (cf_in f) args);
  Ok (map (eval (bindR (concat (cf_in f)) (concat vals))) (cf_out f)).

Definition reals (l : list Q) : list R := map Q2R l.

(* model.py:419: lambda00_fun(x0, z, p0), p0 being the parameters of the first stage (line 414). x0 and
   p_val_ctrl_stages are attributes of the model that NosnocSolver.set changes. *)
Definition lambda00_at (pm : pmodel) (z : list R) (x0 : list R) (pval : list (list R)) : res (list R) :=
  do* p0 <- nthE EIndexError pval 0;
  numcall (pm_lam00_fun pm) [x0; z; p0].
(* model.py:412-419 compute_lambda00 without rootfinder_for_initial_z (see Extras.v for the other case) *)
Definition compute_lambda00 (pm : pmodel) (x0 : list R) (pval : list (list R)) : res (list R) :=
  lambda00_at pm (reals (pm_z0 pm)) x0 pval.
