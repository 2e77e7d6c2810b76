(* Spec28.v -- vocabulary of the theorem on the order of FESD: solutions that consist of smooth pieces, discrete solutions that follow them *)
From Coq Require Import Reals Qreals.
From Verif Require Import Base Sx Utils Tableau Opts Model Ocp Problem Spec Fesd Spec2 Spec3 Spec9 Spec10 Spec11 Spec21.
Local Open Scope R_scope.

(* f has n + 1 derivatives on [a, b], the last of them at most B *)
Definition smooth (n : nat) (B a b : R) (f : R -> R) : Prop := exists d : nat -> R -> R,
  (forall x, d 0%nat x = f x) /\ (forall k x, (k <= n)%nat -> a <= x <= b -> derivable_pt_lim (d k) x (d (S k) x)) /\
  forall x, a <= x <= b -> Rabs (d (S n) x) <= B.

(* one piece of a solution of the switched system: control stage, weights of the modes as a function of the state, the curve, the times
   lo to hi on which the curve is defined, the time at which the solution enters the piece, the function of the state that is zero then *)
Record piece := mkPiece { pc_stage : nat; pc_weights : (nat -> R) -> nat -> nat -> R; pc_curve : R -> nat -> R;
  pc_lo : R; pc_hi : R; pc_start : R; pc_switch : (nat -> R) -> R }.

Section Pieces.
Variables (o : opts) (t : tab) (m : model) (rho : env).
Variable D : (nat -> R) -> Prop.

Definition near_by (x y : nat -> R) (dd : R) : Prop := forall i, (i < m_nx m)%nat -> Rabs (x i - y i) <= dd.
Definition flow (p : piece) (x : nat -> R) (i : nat) : R := velocity o m rho (pc_stage p) x (pc_weights p x) i.
(* the curve moves with the velocities of the weights, stays in D and is smooth *)
Definition piece_solves (n : nat) (B : R) (p : piece) : Prop :=
  (forall tm, pc_lo p <= tm <= pc_hi p -> D (pc_curve p tm) /\
     forall i, (i < m_nx m)%nat -> derivable_pt_lim (fun z => pc_curve p z i) tm (flow p (pc_curve p tm) i)) /\
  forall i, (i < m_nx m)%nat -> smooth n B (pc_lo p) (pc_hi p) (fun z => pc_curve p z i).
Definition piece_lipschitz (Lf : R) (p : piece) : Prop := forall x y dd, D x -> D y -> near_by x y dd -> near_by (flow p x) (flow p y) (Lf * dd).
Definition piece_bounded (M : R) (p : piece) : Prop := forall x i, D x -> (i < m_nx m)%nat -> Rabs (flow p x i) <= M.
Definition regular_piece (n : nat) (Lf M B : R) (p : piece) : Prop := piece_solves n B p /\ piece_lipschitz Lf p /\ piece_bounded M p.
(* q continues p *)
Definition joined (p q : piece) : Prop := pc_lo p <= pc_start q <= pc_hi p /\ pc_lo q <= pc_start q <= pc_hi q /\
  forall i, (i < m_nx m)%nat -> pc_curve p (pc_start q) i = pc_curve q (pc_start q) i.
(* p crosses the surface to q with a speed of at least kappa *)
Definition crosses (Lpsi kappa : R) (p q : piece) : Prop :=
  (forall tm, pc_lo p <= tm <= pc_hi p -> kappa * Rabs (tm - pc_start q) <= Rabs (pc_switch q (pc_curve p tm))) /\
  forall x y dd, D x -> D y -> near_by x y dd -> Rabs (pc_switch q x - pc_switch q y) <= Lpsi * dd.

(* element (c, e) of the discrete solution uses the weights of piece p in all of its stages *)
Definition in_piece (p : piece) (c e : nat) : Prop :=
  c = pc_stage p /\ pc_lo p <= grid_time o rho c e /\ grid_time o rho c e + step_len o rho c e <= pc_hi p /\
  forall j, (j < o_ns o)%nat -> D (stage_state o t rho c e j) /\
    forall s k, (s < n_subsystems m)%nat -> (k < n_modes m s)%nat -> weight o m (stage_point o t m rho c e j) s k = pc_weights p (stage_state o t rho c e j) s k.
(* the discrete solution goes from p to q at the start of element (c, e): at the right time (say, at the end of a control stage), or when it
   reaches the surface *)
Definition goes_over (Lpsi kappa : R) (p q : piece) (c e : nat) : Prop :=
  grid_time o rho c e = pc_start q \/ (crosses Lpsi kappa p q /\ pc_switch q (start_state o t rho c e) = 0).
(* it goes through the pieces P 0, ..., P last one after the other, ph c e being the one of element (c, e) *)
Definition follows (Lpsi kappa : R) (P : nat -> piece) (last : nat) (ph : nat -> nat -> nat) : Prop :=
  (forall c e, is_element o c e -> (ph c e <= last)%nat /\ in_piece (P (ph c e)) c e /\ D (end_state o t rho c e) /\
    match before o c e with
    | None => ph c e = 0%nat
    | Some (c', e') => ph c e = ph c' e' \/ (ph c e = S (ph c' e') /\ goes_over Lpsi kappa (P (ph c' e')) (P (ph c e)) c e)
    end) /\
  exists c e, is_element o c e /\ ph c e = last.

(* Y consists of the pieces *)
Definition piece_end (P : nat -> piece) (last r : nat) : R := if (r =? last)%nat then end_time o rho else pc_start (P (S r)).
Definition consists_of (Y : R -> nat -> R) (P : nat -> piece) (last : nat) : Prop :=
  pc_start (P 0%nat) = 0 /\ (forall i, (i < m_nx m)%nat -> Y 0 i = rho (SX0 i)) /\ (forall r, (r < last)%nat -> joined (P r) (P (S r))) /\
  forall r, (r <= last)%nat -> pc_start (P r) <= piece_end P last r /\ pc_lo (P r) <= pc_start (P r) /\ piece_end P last r <= pc_hi (P r) /\
    forall tm i, pc_start (P r) <= tm <= piece_end P last r -> (i < m_nx m)%nat -> Y tm i = pc_curve (P r) tm i.
(* the modes that it uses are active, the controls those of the control stage *)
Definition lawful (act : env -> nat -> nat -> Prop) (P : nat -> piece) (last : nat) : Prop := forall r, (r <= last)%nat -> (pc_stage (P r) < o_N_stages o)%nat /\
  grid_time o rho (pc_stage (P r)) 0 <= pc_start (P r) /\ piece_end P last r <= grid_time o rho (pc_stage (P r)) 0 + stage_length o rho (pc_stage (P r)) /\
  forall tm, pc_start (P r) < tm < piece_end P last r ->
    active_weights m act (plain_point m rho (pc_stage (P r)) (pc_curve (P r) tm)) (pc_weights (P r) (pc_curve (P r) tm)).
End Pieces.

(* a plane in the space of the states; the speed of mode k across it *)
Definition plane (m : model) (a : nat -> R) (a0 : R) (x : nat -> R) : Prop := a0 + rupto (m_nx m) (fun i => a i * x i) = 0.
Definition normal_speed (m : model) (rho : env) (a : nat -> R) (c : nat) (x : nat -> R) (k : nat) : R :=
  rupto (m_nx m) (fun i => a i * mode_field m (plain_point m rho c x) 0 k i).
