(* Spec4.v -- vocabulary for the statements about results, the solver loop and the simulation
   looper. Nothing here is used by the model. *)
From Coq Require Import Reals Qreals.
From Verif Require Import Base Sx Utils Tableau Opts Model Ocp Problem Spec Fesd Spec2.
Local Open Scope nat_scope.

(* the finite elements (control stage, number in the stage) in order of time *)
Definition elements (o : opts) : list (nat * nat) :=
  concat (map (fun c => map (pair c) (seq 0 (nfe_of o c))) (seq 0 (o_N_stages o))).
(* values of the n symbols f 0, f 1, ... *)
Definition vals (rho : env) (f : nat -> sym) (n : nat) : list R := map (fun i => rho (f i)) (seq 0 n).
(* the primal vector of a point *)
Definition primal (C : constructed) (rho : env) : list R := map rho (w (the_nlp C)).

(* values published for element p = (c, e): state, user algebraic variable and multipliers / weights
   of the last point that carries them *)
Definition end_states (o : opts) (ex : bool) (m : model) (rho : env) (p : nat * nat) : list R :=
  vals rho (S1 FX (fst p) (snd p) (points1 o ex FX - 1)) (m_nx m).
Definition end_z (o : opts) (m : model) (rho : env) (p : nat * nat) : list R :=
  vals rho (S1 FZ (fst p) (snd p) (o_ns o - 1)) (m_nz m).
Definition end_family (o : opts) (ex : bool) (m : model) (rho : env) (f : fam2) (p : nat * nat) : list (list R) :=
  map (fun s => vals rho (S2 f (fst p) (snd p) (points2 o ex (nfe_of o (fst p)) (snd p) f - 1) s) (dim2 o m f s))
    (seq 0 (n_subsystems m)).
Definition all_states (o : opts) (ex : bool) (m : model) (rho : env) (p : nat * nat) : list (list R) :=
  map (fun j => vals rho (S1 FX (fst p) (snd p) j) (m_nx m)) (seq 0 (points1 o ex FX)).
Definition step_lengths (o : opts) (rho : env) : list R := map (fun p => step_len o rho (fst p) (snd p)) (elements o).
(* sum of the first k entries *)
Definition partial_sum (l : list R) (k : nat) : R := rsum (firstn k l).

(* some entry differs by more than 0.1 *)
Definition jump (a b : list R) : Prop := exists k x y, nth_error a k = Some x /\ nth_error b k = Some y /\ (1 / 10 < Rabs (y - x))%R.
Fixpoint increasing (l : list nat) : Prop :=
  match l with a :: ((b :: _) as r) => a < b /\ increasing r | _ => True end.
(* the weights (Step: step variables) used to detect switches, one list per element *)
Definition mode_values (o : opts) (ex : bool) (m : model) (rho : env) : list (list R) :=
  map (fun p => concat (end_family o ex m rho (match o_pss o with Stewart => FTheta | Step => FAlpha end) p)) (elements o).
(* all subsystems have the same number of modes *)
Definition uniform_modes (m : model) : Prop := forall s s', s < n_subsystems m -> s' < n_subsystems m -> n_modes m s = n_modes m s'.
(* one entry of Nfe_list per control stage *)
Definition one_nfe_per_stage (o : opts) : Prop := length (o_Nfe_list o) = o_N_stages o.

(* the last finite element *)
Definition final_element (o : opts) : nat * nat := (o_N_stages o - 1, nfe_of o (o_N_stages o - 1) - 1).
(* j is the number of an element after which the weights jump *)
Definition jump_after (modes : list (list R)) (j : nat) : Prop :=
  exists a b, nth_error modes j = Some a /\ nth_error modes (S j) = Some b /\ jump a b.

(* problems whose results can be read off: at least one state, one entry of Nfe_list per stage and,
   for Stewart, subsystems of equal size *)
Definition extractable (o : opts) (m : model) : Prop :=
  0 < m_nx m /\ (o_pss o = Stewart -> uniform_modes m) /\ one_nfe_per_stage o.
Definition first_is {A} (l : list A) (a : A) : Prop := nth_error l 0 = Some a.
Definition last_is {A} (l : list A) (a : A) : Prop := 0 < length l /\ nth_error l (length l - 1) = Some a.
Definition ext_upto (x : ext) (q : Q) : Prop := match x with NInf => True | Fin y => (y <= q)%Q | PInf => False end.
Definition ext_below (x : ext) (q : Q) : Prop := match x with NInf => True | Fin y => (y < q)%Q | PInf => False end.
(* the vector v read at the positions idx *)
Definition pick (v : list R) (idx : list nat) (out : list R) : Prop := Forall2 (fun i x => nth_error v i = Some x) idx out.
