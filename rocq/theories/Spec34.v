(* Spec34.v -- vocabulary: simulations that go through the smooth pieces of a solution *)
From Coq Require Import Reals Qreals.
From Verif Require Import Base Sx Utils Tableau Opts Model Ocp Problem Numeric Rk4 Results Solver Looper Spec Fesd Spec2 Spec3 Spec4 Spec5 Spec6 Spec9 Spec10 Spec11 Spec19 Spec21 Spec28.
Local Open Scope R_scope.

(* the piece p in the time that has passed since t0 *)
Definition counted_from (t0 : R) (p : piece) : piece :=
  mkPiece (pc_stage p) (pc_weights p) (fun z => pc_curve p (t0 + z)) (pc_lo p - t0) (pc_hi p - t0) (pc_start p - t0) (pc_switch p).

Section Run.
Variables (o : opts) (t : tab) (m : model) (rho : nat -> env) (tr : list (sstate * solve_out)) (D : (nat -> R) -> Prop).
(* element e of step s of the simulation; the element before it, which may be the last one of the step before *)
Definition run_element (s e : nat) : Prop := (s < length tr)%nat /\ (e < nfe_of o 0)%nat.
Definition run_before (s e : nat) : option (nat * nat) :=
  match e, s with S e', _ => Some (s, e') | 0%nat, S s' => Some (s', (nfe_of o 0 - 1)%nat) | 0%nat, 0%nat => None end.
Definition run_time (s e : nat) : R := elapsed tr s + grid_time o (rho s) 0 e.
(* piece r in the time of step s *)
Definition piece_in (P : nat -> piece) (s r : nat) : piece := counted_from (elapsed tr s) (P r).

(* the simulation goes through the pieces P 0, ..., P last one after the other, ph s e being the one of element e of step s; a piece may go on
   over many steps *)
Definition run_follows (Lpsi kappa : R) (P : nat -> piece) (last : nat) (ph : nat -> nat -> nat) : Prop :=
  (forall s e, run_element s e -> (ph s e <= last)%nat /\ in_piece o t m (rho s) D (piece_in P s (ph s e)) 0 e /\
    D (start_state o t (rho s) 0 e) /\ D (end_state o t (rho s) 0 e) /\
    match run_before s e with
    | None => ph s e = 0%nat
    | Some (s', e') => ph s e = ph s' e' \/
        (ph s e = S (ph s' e') /\ goes_over o t m (rho s) D Lpsi kappa (piece_in P s (ph s' e')) (piece_in P s (ph s e)) 0 e)
    end) /\
  exists s e, run_element s e /\ ph s e = last.
(* with the parameters of the steps that use them, the pieces are regular *)
Definition run_regular (n : nat) (Lf M B : R) (P : nat -> piece) (ph : nat -> nat -> nat) : Prop :=
  forall s e, run_element s e -> regular_piece o m (rho s) D n Lf M B (piece_in P s (ph s e)).

(* Y consists of the pieces *)
Definition run_piece_end (P : nat -> piece) (last r : nat) : R := if (r =? last)%nat then elapsed tr (length tr) else pc_start (P (S r)).
Definition run_consists (x0 : list R) (Y : R -> nat -> R) (P : nat -> piece) (last : nat) : Prop :=
  pc_start (P 0%nat) = 0 /\ (forall i, (i < m_nx m)%nat -> Y 0 i = nth i x0 0) /\ (forall r, (r < last)%nat -> joined m (P r) (P (S r))) /\
  forall r, (r <= last)%nat -> pc_start (P r) <= run_piece_end P last r /\ pc_lo (P r) <= pc_start (P r) /\ run_piece_end P last r <= pc_hi (P r) /\
    forall tm i, pc_start (P r) <= tm <= run_piece_end P last r -> (i < m_nx m)%nat -> Y tm i = pc_curve (P r) tm i.
(* the modes that it uses are active for the parameters of the steps that it passes through, and it moves with their velocities *)
Definition run_lawful (act : env -> nat -> nat -> Prop) (P : nat -> piece) (last : nat) : Prop := forall s r tm, (s < length tr)%nat -> (r <= last)%nat ->
  elapsed tr s < tm < elapsed tr (S s) -> pc_start (P r) < tm < run_piece_end P last r ->
  active_weights m act (plain_point m (rho s) 0 (pc_curve (P r) tm)) (pc_weights (P r) (pc_curve (P r) tm)) /\
  forall i, (i < m_nx m)%nat -> derivable_pt_lim (fun z => pc_curve (P r) z i) tm (velocity o m (rho s) 0 (pc_curve (P r) tm) (pc_weights (P r) (pc_curve (P r) tm)) i).
End Run.
