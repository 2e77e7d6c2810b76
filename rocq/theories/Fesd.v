(* Fesd.v -- the nonlinear program nosnoc documents, written out as equations between real
   numbers. Vocabulary of the theorem statements only: nothing here is used by the model and
   nothing here looks at how the model builds its constraint lists. *)
From Coq Require Import Reals Qreals.
From Verif Require Import Base Sx Utils Tableau Opts Model Ocp Problem Spec.
Local Open Scope R_scope.

Definition rsum (l : list R) : R := fold_right Rplus 0 l.
Definition rprod (l : list R) : R := fold_right Rmult 1 l.
Definition rupto (n : nat) (f : nat -> R) : R := rsum (map f (seq 0 n)).
Definition entryQ (M : list (list Q)) (i j : nat) : R := Q2R (nth j (nth i M []) 0%Q).
Definition entry1 (l : list Q) (i : nat) : R := Q2R (nth i l 0%Q).

(* ---- right-hand side and switching equations of the model at a point (values of the model's
   own symbols) ---- *)
Section AtPoint.
Variables (o : opts) (m : model) (v : env).

Definition user_F (s : nat) : list (list expr) :=
  match m_F m with Some F => match nth_error F s with Some f => fm_cols f | None => [] end | None => [] end.
Definition user_S (s : nat) : list (list Q) := match m_S m with Some Sm => nth s Sm [] | None => [] end.
Definition user_c (s : nat) : list expr := match m_c m with Some c => nth s c [] | None => [] end.
Definition user_gS (s : nat) : list expr := match m_gS m with Some c => nth s c [] | None => [] end.
Definition user_fx : list expr := match m_fx m with Some fx => concat fx | None => [] end.

(* g_k: the user's g_Stewart, or -S c *)
Definition region_value (s k : nat) : R :=
  if gS_given m then eval v (nth k (user_gS s) (ECst 0))
  else - rsum (map (fun p => Q2R (fst p) * eval v (snd p)) (combine (nth k (user_S s) []) (user_c s))).
Definition switch_value (s k : nat) : R := eval v (nth k (user_c s) (ECst 0)).
(* weight of mode k: theta_k, or the product of step-function factors *)
Definition step_weight (row : list Q) (alpha : nat -> R) : R :=
  rprod (map (fun p => if Qeq_bool (snd p) 0 then 1
                       else (1 - Q2R (snd p)) / 2 + Q2R (snd p) * alpha (fst p))
             (combine (seq 0 (length row)) row)).
Definition weight (s k : nat) : R :=
  match o_pss o with
  | Stewart => v (MF FTheta s k)
  | Step => step_weight (nth k (user_S s) []) (fun r => v (MF FAlpha s r))
  end.
Definition mode_field (s k i : nat) : R := eval v (nth i (nth k (user_F s) []) (ECst 0)).
Definition rhs (i : nat) : R :=
  match m_F m with
  | Some _ => rupto (n_subsystems m) (fun s => rupto (n_modes m s) (fun k => mode_field s k i * weight s k))
  | None => eval v (nth i user_fx (ECst 0))
  end.

Definition switching_residual (s k : nat) : R :=
  match o_pss o with
  | Stewart => region_value s k - v (MF FLam s k) + v (MF FMu s 0%nat)
  | Step => switch_value s k - v (MF FLp s k) + v (MF FLn s k)
  end.
Definition n_switching (s : nat) : nat :=
  match o_pss o with Stewart => n_modes m s | Step => n_switch m s end.
Definition switching_ok : Prop :=
  forall s k, (s < n_subsystems m)%nat -> (k < n_switching s)%nat -> switching_residual s k = 0.
Definition convex_ok : Prop :=
  o_pss o = Stewart -> forall s, (s < n_subsystems m)%nat ->
    rupto (n_modes m s) (fun k => v (MF FTheta s k)) = 1.
Definition user_ok : Prop := forall e, In e (m_gz m) -> eval v e = 0.
End AtPoint.

(* the shapes that CasADi leaves unchecked: F has nx rows (f_x has nx entries), S is a matrix *)
Record well_sized (m : model) : Prop := {
  ws_F : forall F, m_F m = Some F -> forall f, In f F -> fm_rows f = m_nx m;
  ws_fx : m_F m = None -> forall fx, m_fx m = Some fx -> length (concat fx) = m_nx m;
  ws_S : forall Sl, m_S m = Some Sl -> forall Sm, In Sm Sl -> forall r r', In r Sm -> In r' Sm -> length r = length r'
}.

(* ---- relaxed complementarity of (x_1 + ... + x_m) and y ---- *)
Definition fischer (x y sigma : R) : R := x + y - sqrt (x * x + y * y + sigma * sigma).
Definition relaxed (o : opts) (rho : env) (xs : list R) (y : R) : Prop :=
  match o_mpcc o with
  | ScholtesIneq => rsum xs * y <= rho SSigma
  | ScholtesEq => rsum xs * y = rho SSigma
  | ElasticIneq => rsum xs * y <= rho SElastic
  | ElasticEq => rsum xs * y = rho SElastic
  | ElasticTwoSided => - rho SElastic <= rsum xs * y <= rho SElastic
  | FischerBurmeister => rsum (map (fun x => fischer x y (rho SSigma)) xs) = 0
  | FischerBurmeisterIpAug =>
      let x := rsum xs in
      fischer x y (rho SSigma) = 0 /\
      Q2R (o_fb1 o) * (x - rho SSigma) * sqrt (rho STau) = 0 /\
      Q2R (o_fb1 o) * (y - rho SSigma) * sqrt (rho STau) = 0 /\
      Q2R (o_fb2 o) * fischer x y (rho SSigma) * sqrt (1 + (x - y) * (x - y)) = 0
  | MBoolean => Rabs (rsum xs) + Rabs y <= 100000   (* what big_m_rows leaves when b is eliminated *)
  end.
(* BOOLEAN: the rows for a variable b (bounds [0, 1]) and a pair (s, y), s the sum of the x_i *)
Definition big_m_rows (b s y : R) : Prop := Rabs y <= 100000 * b /\ Rabs s <= 100000 * (1 - b).

(* ---- the discretized problem ---- *)
Section Fesd.
Variables (o : opts) (t : tab) (m : model) (oc : ocp) (rho : env).
Notation ns := (o_ns o).
Notation nx := (m_nx m).

Definition nfe_of (c : nat) : nat := nth c (o_Nfe_list o) 0%nat.
Definition step_len (c e : nat) : R :=
  if o_use_fesd o then rho (SH c e) else Q2R (nominal_step o (nfe_of c)).
Definition speed (c : nat) : R := match o_sot o with SotLocal => rho (SSot c) | _ => 1 end.

(* element before (c, e); None: the initial point *)
Definition before (c e : nat) : option (nat * nat) :=
  match e, c with
  | S e', _ => Some (c, e')
  | O, O => None
  | O, S c' => Some (c', (nfe_of c' - 1)%nat)
  end.
Definition end_state (c e i : nat) : R := rho (S1 FX c e (points1 o (t_rbe t) FX - 1) i).
Definition state_at (p : option (nat * nat)) (i : nat) : R :=
  match p with Some (c, e) => end_state c e i | None => rho (SX0 i) end.
Definition start_state (c e i : nat) : R := state_at (before c e) i.
Definition slope (c e j i : nat) : R := rho (S1 FV c e j i).
Definition stage_state (c e j i : nat) : R :=
  match o_repr o with
  | Differential => start_state c e i + step_len c e * rupto ns (fun r => entryQ (t_A t) j r * slope c e r i)
  | _ => rho (S1 FX c e j i)
  end.

(* the model's symbols at a point of element (c, e) *)
Definition at_point (c e jz : nat) (jf : fam2 -> nat) (x : nat -> R) : env := fun s =>
  match s with
  | MX i => x i
  | MU i => rho (SU c i)
  | MZ i => rho (S1 FZ c e jz i)
  | MPt i => rho (SPst c i)
  | MPg i => rho (SPst c (m_npt m + i))
  | MF f sys i => rho (S2 f c e (jf f) sys i)
  | _ => rho s
  end.
Definition stage_point (c e j : nat) : env := at_point c e j (fun _ => j) (stage_state c e j).
(* number of points of (c, e) that carry multipliers *)
Definition n_mult (c e : nat) : nat := points2 o (t_rbe t) (nfe_of c) e FLam.
(* the end point of an element, with the last multipliers stored in it *)
Definition end_slots (c e : nat) (f : fam2) : nat :=
  match f with FTheta | FAlpha => ns - 1 | _ => n_mult c e - 1 end.
Definition end_point (c e : nat) : env := at_point c e (ns - 1) (end_slots c e) (end_state c e).
(* points where only states, controls and parameters matter *)
Definition plain_point (c : nat) (x : nat -> R) : env := at_point c 0 0 (fun _ => 0%nat) x.

(* (1) algebraic equations at the RK stages *)
Definition stage_algebra (c e : nat) : Prop := forall j, (j < ns)%nat ->
  switching_ok o m (stage_point c e j) /\ convex_ok o m (stage_point c e j) /\ user_ok m (stage_point c e j).
(* (2) collocation *)
Definition collocation (c e : nat) : Prop := forall j i, (j < ns)%nat -> (i < nx)%nat ->
  let f := speed c * rhs o m (stage_point c e j) i in
  match o_repr o with
  | Integral => step_len c e * f =
      entryQ (t_C t) 0 (j + 1)%nat * start_state c e i
      + rupto ns (fun r => entryQ (t_C t) (r + 1)%nat (j + 1)%nat * rho (S1 FX c e r i))
  | Differential => slope c e j i = f
  | DifferentialLiftX => slope c e j i = f /\
      rho (S1 FX c e j i) = start_state c e i + step_len c e * rupto ns (fun r => entryQ (t_A t) j r * slope c e r i)
  end.
(* (3) end-point state *)
Definition continuity (c e : nat) : Prop :=
  (t_rbe t = false \/ o_repr o = Differential) -> forall i, (i < nx)%nat ->
  end_state c e i =
  match o_repr o with
  | Integral => entry1 (t_D t) 0 * start_state c e i
      + rupto ns (fun j => entry1 (t_D t) (j + 1)%nat * rho (S1 FX c e j i))
  | _ => start_state c e i + step_len c e * rupto ns (fun j => entry1 (t_b t) j * slope c e j i)
  end.
(* (4) path constraints *)
Definition path_holds (c : nat) (x : nat -> R) : Prop := forall i, (i < length (oc_g_path oc))%nat ->
  within (nth i (given (oc_lbg oc) (length (oc_g_path oc)) (Fin 0)) (Fin 0))
         (nth i (given (oc_ubg oc) (length (oc_g_path oc)) (Fin 0)) (Fin 0))
         (eval (plain_point c x) (nth i (oc_g_path oc) (ECst 0))).
(* the state at the end of the element: for schemes that end in a stage, that stage *)
Definition final_state (c e : nat) : nat -> R :=
  if t_rbe t then stage_state c e (ns - 1) else end_state c e.
Definition path_ok (c e : nat) : Prop :=
  ((e + 1)%nat = nfe_of c \/ o_g_path_at_fe o = true -> path_holds c (final_state c e)) /\
  (o_g_path_at_stg o = true -> forall j, (j < ns - (if t_rbe t then 1 else 0))%nat -> path_holds c (stage_state c e j)).
(* (5) switching equations at the end point *)
Definition boundary_ok (c e : nat) : Prop :=
  t_rbe t = false -> o_use_fesd o = true -> switching_ok o m (end_point c e).

(* (6) complementarity *)
Definition over_systems (f : nat -> nat -> R) (d : nat -> nat) : list R :=
  concat (map (fun s => map (f s) (seq 0 (d s))) (seq 0 (n_subsystems m))).
Definition values (f : fam2) (c e j : nat) : list R := over_systems (fun s i => rho (S2 f c e j s i)) (dim2 o m f).
Definition lam_vec (c e j : nat) : list R := values FLam c e j ++ values FLn c e j ++ values FLp c e j.
Definition theta_vec (c e j : nat) : list R :=
  values FTheta c e j ++ values FAlpha c e j ++ map (fun a => 1 - a) (values FAlpha c e j).
Definition lam00 : list R :=
  concat (map (fun f => over_systems (fun s i => rho (SL00 f s i)) (dim2 o m f)) [FLam; FLn; FLp]).
Definition last_lam (p : option (nat * nat)) : list R :=
  match p with Some (c, e) => lam_vec c e (n_mult c e - 1) | None => lam00 end.
Definition prev_lam (c e : nat) : list R := last_lam (before c e).
Definition ent (l : list R) (k : nat) : R := nth k l 0.
Definition n_pairs : nat :=
  (upto (n_subsystems m) (dim2 o m FLam) + upto (n_subsystems m) (dim2 o m FLn) + upto (n_subsystems m) (dim2 o m FLp))%nat.

Definition cross_ok (c e : nat) : Prop := forall j k, (j < ns)%nat -> (k < n_pairs)%nat ->
  let th := ent (theta_vec c e j) k in
  let lam jj := ent (lam_vec c e jj) k in
  let lp := ent (prev_lam c e) k in
  if o_use_fesd o
  then match o_cross o with
       | ComplementAll => relaxed o rho [th] lp /\ forall jj, (jj < ns)%nat -> relaxed o rho [th] (lam jj)
       | SumLambdas => relaxed o rho (map lam (seq 0 (n_mult c e)) ++ [lp]) th
       end
  else relaxed o rho [lam j] th.
(* user's path complementarities *)
Definition row_ok (v : env) (r : expr * expr) : Prop := relaxed o rho [eval v (fst r)] (eval v (snd r)).
Definition stage_row (r : expr * expr) : Prop := uses (mx m ++ mz m) r.
Definition control_row (r : expr * expr) : Prop := ~ stage_row r /\ uses (mu_ m ++ mpt m) r.
Definition global_row (r : expr * expr) : Prop := ~ stage_row r /\ ~ uses (mu_ m ++ mpt m) r.
Definition path_comp_ok (c e : nat) : Prop :=
  (forall r, In r (oc_comp oc) -> stage_row r -> forall j, (j < ns)%nat -> row_ok (stage_point c e j) r) /\
  ((e + 1)%nat = o_N_finite_elements o -> forall r, In r (oc_comp oc) -> control_row r ->
     row_ok (plain_point c (fun _ => 0)) r).

(* (7) step equilibration *)
Definition sum_lam (c e k : nat) : R :=
  rupto (n_mult c e) (fun jj => ent (lam_vec c e jj) k) + ent (prev_lam c e) k.
Definition sum_theta (c e k : nat) : R := rupto ns (fun j => ent (theta_vec c e j) k).
Definition nu (c e : nat) : R :=
  rprod (map (fun k => sum_lam c (e - 1)%nat k * sum_lam c e k + sum_theta c (e - 1)%nat k * sum_theta c e k) (seq 0 n_pairs)).
Definition delta_h (c e : nat) : R := step_len c e - step_len c (e - 1)%nat.
Definition step_constraint (c e : nat) : Prop :=
  o_use_fesd o = true -> (0 < e)%nat ->
  match o_step_eq o with
  | Direct => nu c e * delta_h c e = 0
  | DirectComplementarity => relaxed o rho [nu c e] (delta_h c e)
  | HeuristicDeltaHComp => relaxed o rho [0] (delta_h c e)
  | _ => True
  end.
Definition step_cost (c e : nat) : R :=
  if o_use_fesd o then
    let d := delta_h c e in
    match o_step_eq o with
    | HeuristicMean => Q2R (o_rho_h o) * (step_len c e - Q2R (nominal_step o (nfe_of c))) ^ 2
    | HeuristicDelta => if (e =? 0)%nat then 0 else Q2R (o_rho_h o) * d ^ 2
    | L2Relaxed => if (e =? 0)%nat then 0 else Q2R (o_rho_h o) * nu c e * d ^ 2
    | L2RelaxedScaled => if (e =? 0)%nat then 0
        else Q2R (o_rho_h o) * tanh (nu c e / Q2R (o_step_eq_sigma o)) * d ^ 2
    | _ => 0
    end
  else 0.

Definition element_ok (c e : nat) : Prop :=
  stage_algebra c e /\ collocation c e /\ continuity c e /\ path_ok c e /\ boundary_ok c e /\
  path_comp_ok c e /\ cross_ok c e /\ step_constraint c e.

(* ---- control stages and the whole horizon ---- *)
Definition stage_length (c : nat) : R := rupto (nfe_of c) (step_len c).
Definition last_elem (c : nat) : nat := (nfe_of c - 1)%nat.
Definition T : R := Q2R (o_terminal_time o).
Definition stages_ok : Prop := forall c, (c < o_N_stages o)%nat ->
  (o_use_fesd o = true -> o_equidistant o = true -> stage_length c = T / INR (o_N_stages o)) /\
  (o_time_freezing o = true -> o_equidistant o = true -> forall tv, m_tvar m = Some tv ->
     Rabs (eval (plain_point c (end_state c (last_elem c))) tv
           - (INR (c + 1) * (T / INR (o_N_stages o)) + eval (plain_point c (fun i => rho (SX0 i))) tv))
     <= Q2R (o_tf_tol o)).
Definition horizon_ok : Prop :=
  (1 < o_N_stages o)%nat -> o_use_fesd o = true -> o_equidistant o = false ->
  rupto (o_N_stages o) stage_length = T.
Definition last_stage : nat := (o_N_stages o - 1)%nat.
Definition terminal_point : env := plain_point last_stage (end_state last_stage (last_elem last_stage)).
Definition terminal_ok : Prop := forall e, In e (oc_gT oc) -> eval terminal_point e = 0.
Definition global_comp_ok : Prop := forall r, In r (oc_comp oc) -> global_row r ->
  row_ok (plain_point 0 (fun _ => 0)) r.

Definition nlp_constraints : Prop :=
  (forall c e, (c < o_N_stages o)%nat -> (e < nfe_of c)%nat -> element_ok c e) /\
  stages_ok /\ horizon_ok /\ terminal_ok /\ global_comp_ok.

(* ---- cost ---- *)
Definition quad_weight (j : nat) : R :=
  match o_repr o with Integral => entry1 (t_B t) (j + 1)%nat | _ => entry1 (t_b t) j end.
Definition stage_cost (c e : nat) : R :=
  rupto ns (fun j => quad_weight j * step_len c e * (speed c * eval (stage_point c e j) (oc_fq oc))).
Definition running_cost : R :=
  rupto (o_N_stages o) (fun c => rupto (nfe_of c) (fun e => stage_cost c e + step_cost c e)).
Definition plain_cost : R := running_cost + eval terminal_point (oc_fT oc).
Definition nlp_cost : R :=
  if elastic o
  then if o_obj_direct o then plain_cost + rho SElastic / rho SSigma else rho SSigma * plain_cost + rho SElastic
  else plain_cost.
End Fesd.
