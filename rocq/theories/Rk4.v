(* Rk4.v -- rk4 and rk4_on_timegrid, nosnoc/rk_utils.py:7-46. f is a CasADi function or any
   callable on vectors; numbers are reals. *)
From Coq Require Import Reals.
From Verif Require Import Base.

(* numpy / CasADi column arithmetic; different lengths raise *)
Definition vaddR (a b : list R) : res (list R) :=
  do* _ <- guard (length a =? length b) ECasadi;
  Ok (map (fun p => (fst p + snd p)%R) (combine a b)).
Definition vscaleR (c : R) (a : list R) : list R := map (fun x => (c * x)%R) a.

(* lines 22-26 and 39-43: one step of length dt *)
Definition rk4_step (f : list R -> res (list R)) (dt : R) (x : list R) : res (list R) :=
  do* k1 <- f x;
  do* x1 <- vaddR x (vscaleR (dt * / 2) k1);
  do* k2 <- f x1;
  do* x2 <- vaddR x (vscaleR (dt * / 2) k2);
  do* k3 <- f x2;
  do* x3 <- vaddR x (vscaleR dt k3);
  do* k4 <- f x3;
  do* s1 <- vaddR k1 (vscaleR 2 k2);
  do* s2 <- vaddR s1 (vscaleR 2 k3);
  do* s3 <- vaddR s2 k4;
  vaddR x (vscaleR (dt / 6) s3).

(* states after each of the steps, the initial one first *)
Fixpoint rk4_on_timegrid (f : list R -> res (list R)) (x0 : list R) (t_grid : list R)
  : res (list (list R)) :=
  match t_grid with
  | [] => Ok [x0]
  | dt :: r =>
      do* x1 <- rk4_step f dt x0;
      do* xs <- rk4_on_timegrid f x1 r;
      Ok (x0 :: xs)
  end.

(* lines 7-29: n_steps equal steps up to tf; returns states and times (np.linspace) *)
Definition rk4 (f : list R -> res (list R)) (x0 : list R) (tf : R) (n_steps : nat)
  : res (list (list R) * list R) :=
  do* _ <- guard (negb (n_steps =? 0)) EZeroDivision;
  let dt := (tf / INR n_steps)%R in
  do* xs <- rk4_on_timegrid f x0 (repeat dt n_steps);
  Ok (xs, map (fun i => (INR i * dt)%R) (seq 0 (n_steps + 1))).
