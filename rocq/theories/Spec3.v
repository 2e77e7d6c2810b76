(* Spec3.v -- vocabulary of the theorem statements about the reformulation of the
   discontinuous ODE (nosnoc/model.py). *)
From Coq Require Import Reals Qreals.
From Verif Require Import Base Sx Utils Tableau Opts Model Ocp Problem Spec Fesd Numeric.
Local Open Scope R_scope.

(* v solves the algebraic equations / gives the right-hand side of the reformulated model *)
Definition algebra_holds (pm : pmodel) (v : env) : Prop :=
  forall e, In e (cf_out (pm_gz_fun pm)) -> eval v e = 0.
Definition dynamics_are (pm : pmodel) (v : env) (f : nat -> R) : Prop :=
  length (cf_out (pm_fx_fun pm)) = m_nx (pm_m pm) /\
  forall i e, nth_error (cf_out (pm_fx_fun pm)) i = Some e -> eval v e = f i.

Definition stewart_complementary (m : model) (v : env) : Prop :=
  forall s k, (s < n_subsystems m)%nat -> (k < n_modes m s)%nat ->
    0 <= v (MF FTheta s k) /\ 0 <= v (MF FLam s k) /\ v (MF FTheta s k) * v (MF FLam s k) = 0.
Definition step_complementary (m : model) (v : env) : Prop :=
  forall s k, (s < n_subsystems m)%nat -> (k < n_switch m s)%nat ->
    0 <= v (MF FAlpha s k) <= 1 /\ 0 <= v (MF FLn s k) /\ 0 <= v (MF FLp s k) /\
    v (MF FLn s k) * v (MF FAlpha s k) = 0 /\ v (MF FLp s k) * (1 - v (MF FAlpha s k)) = 0.

(* entry (i, k) of the sign matrix of subsystem s *)
Definition sign (m : model) (s i k : nat) : Q := nth k (nth i (user_S m s) []) 0%Q.
Definition sign_matrix (m : model) : Prop :=
  forall s i k, (sign m s i k == -1)%Q \/ (sign m s i k == 0)%Q \/ (sign m s i k == 1)%Q.
(* the sign matrix has one column per switching function *)
Definition rows_fit (m : model) : Prop :=
  forall s i, (s < n_subsystems m)%nat -> (i < n_modes m s)%nat -> length (nth i (user_S m s) []) = n_switch m s.
(* x lies in region R_i of subsystem s *)
Definition in_region (m : model) (v : env) (s i : nat) : Prop :=
  forall k, (k < n_switch m s)%nat -> ~ (sign m s i k == 0)%Q -> 0 < Q2R (sign m s i k) * switch_value m v s k.
(* R_i and R_j are separated by a switching function *)
Definition separated (m : model) (s i j : nat) : Prop :=
  exists k, (k < n_switch m s)%nat /\ (sign m s i k * sign m s j k < 0)%Q.
Definition same_row (m : model) (s i j : nat) : Prop :=
  forall k, (k < n_switch m s)%nat -> (sign m s i k == sign m s j k)%Q.
(* every switching function takes part in the definition of R_i *)
Definition full_row (m : model) (s i : nat) : Prop :=
  forall k, (k < n_switch m s)%nat -> ~ (sign m s i k == 0)%Q.

(* the model's symbols at the initial state *)
Definition initial_point (m : model) (x0 z0 p0 : list R) : env := fun s =>
  match s with
  | MX i => nth i x0 0
  | MZ i => nth i z0 0
  | MPt i => nth i (firstn (m_npt m) p0) 0
  | MPg i => nth (m_npt m + i) p0 0
  | _ => 0
  end.
Definition least (n : nat) (f : nat -> R) (mn : R) : Prop :=
  (forall k, (k < n)%nat -> mn <= f k) /\ exists k, (k < n)%nat /\ f k = mn.
(* position of entry (s, k) in a vector of all subsystems *)
Definition offset (d : nat -> nat) (s k : nat) : nat := (upto s d + k)%nat.

(* the same point with given multipliers; the weights, controls and parameters v may be anything *)
Definition with_lambda (v : env) (lam mu : nat -> nat -> R) : env := fun s =>
  match s with
  | MF FLam i k => lam i k
  | MF FMu i k => mu i k
  | _ => v s
  end.
Definition with_step_lambda (v : env) (ln lp : nat -> nat -> R) : env := fun s =>
  match s with
  | MF FLn i k => ln i k
  | MF FLp i k => lp i k
  | _ => v s
  end.

(* row i of the sign matrix of subsystem s admits the signs sg of the switching functions *)
Definition admits (m : model) (s i : nat) (sg : nat -> bool) : Prop :=
  forall k, (k < n_switch m s)%nat -> (sign m s i k == 0)%Q \/ (sign m s i k == if sg k then 1 else -1)%Q.
(* the regions cover every combination of signs exactly once *)
Definition complete (m : model) (s : nat) : Prop :=
  forall sg, exists i, (i < n_modes m s)%nat /\ admits m s i sg /\
    forall j, (j < n_modes m s)%nat -> admits m s j sg -> j = i.
Definition smoothed (sp y : R) : R := (tanh (y / sp) + 1) / 2.

(* ---- which models are accepted ---- *)
Local Close Scope R_scope.
Definition uses_only (P : sym -> Prop) (e : expr) : Prop := forall s, In s (fv e) -> P s.
Definition state_sym (m : model) (s : sym) : Prop :=
  match s with
  | MX i => i < m_nx m
  | MZ i => i < m_nz m
  | MPt i => i < m_npt m
  | MPg i => i < m_npg m
  | _ => False
  end.
Definition control_sym (m : model) (s : sym) : Prop := match s with MU i => i < m_nu m | _ => False end.
Definition global_sym (m : model) (s : sym) : Prop := match s with SVg i => i < m_nvg m | _ => False end.
Definition alpha_sym (m : model) (s : sym) : Prop :=
  match s with
  | MF FAlpha k i => exists sizes n, m_alpha m = Some sizes /\ nth_error sizes k = Some n /\ i < n
  | _ => False
  end.
(* the user's functions use the symbols they may use *)
Record closed_model (m : model) : Prop := {
  cl_F : forall F f col e, m_F m = Some F -> In f F -> In col (fm_cols f) -> In e col ->
    uses_only (fun s => state_sym m s \/ control_sym m s \/ global_sym m s) e;
  cl_fx : forall fx v e, m_fx m = Some fx -> In v fx -> In e v ->
    uses_only (fun s => state_sym m s \/ control_sym m s \/ global_sym m s \/ alpha_sym m s) e;
  cl_c : forall c v e, m_c m = Some c -> In v c -> In e v -> uses_only (state_sym m) e;
  cl_gS : forall g v e, m_gS m = Some g -> In v g -> In e v -> uses_only (state_sym m) e;
  cl_gz : forall e, In e (m_gz m) -> uses_only (fun s => state_sym m s \/ control_sym m s) e;
  cl_t : forall e, m_tvar m = Some e -> uses_only (fun s => exists i, s = MX i /\ i < m_nx m) e
}.

Definition optional_length {A} (x : option (list A)) (n : nat) : Prop := forall l, x = Some l -> length l = n.

Definition filippov_ok (o : opts) (m : model) (F : list fmat) : Prop :=
  (forall f, In f F -> (forall col, In col (fm_cols f) -> length col = fm_rows f) /\ 2 <= length (fm_cols f)) /\
  if gS_given m
  then o_pss o = Stewart /\ exists g, m_gS m = Some g /\ length g = length F /\
         forall s, s < length F -> length (nth s g []) = n_modes m s
  else exists c Sl, m_c m = Some c /\ m_S m = Some Sl /\ length c = length Sl /\ length F <= length c /\
         (forall s, s < length F -> length (nth s Sl []) = n_modes m s) /\
         match o_pss o with
         | Stewart => rows_fit m
         | Step => (forall s, s < length F -> n_modes m s = n_modes m 0) /\
                   (forall sizes, m_alpha m = Some sizes -> forall s, s < length F -> nth_error sizes s = Some (n_switch m s)) /\
                   (forall s i k, s < length F -> ~ (sign m s i k == 0)%Q -> k < n_switch m s)
         end.
Definition inclusion_ok (o : opts) (m : model) : Prop :=
  o_pss o = Step /\ exists fx c sizes, m_fx m = Some fx /\ m_c m = Some c /\ m_alpha m = Some sizes /\
    length fx <= length c /\ length (concat c) = total sizes /\ total sizes = upto (length fx) (n_switch m) /\
    forall s, s < length fx -> nth_error sizes s = Some (n_switch m s).

Record acceptable (o : opts) (m : model) : Prop := {
  ac_nsys : 0 < n_subsystems m;
  ac_z0 : optional_length (m_z0 m) (m_nz m);
  ac_lbz : optional_length (m_lbz m) (m_nz m);
  ac_ubz : optional_length (m_ubz m) (m_nz m);
  ac_pg : length (m_pg_val m) = m_npg m;
  ac_ptv : forall M, m_ptv_val m = Some M -> length M = o_N_stages o /\ forall r, In r M -> length r = m_npt m;
  ac_t : o_time_freezing o = true -> m_tvar m <> None;
  ac_modes : match m_F m with Some F => filippov_ok o m F | None => inclusion_ok o m end
}.

(* F, c and S describe the same subsystems with matching sizes *)
Definition consistent_sizes (m : model) : Prop := forall F c Sl, m_F m = Some F -> m_c m = Some c -> m_S m = Some Sl ->
  length c = length F /\ length Sl = length F /\ (forall f, In f F -> fm_rows f = m_nx m) /\
  forall s i row, nth_error (nth s Sl []) i = Some row -> length row = length (nth s c []).
