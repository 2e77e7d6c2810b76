(* Spec.v -- vocabulary of the theorem statements. Nothing here is used by the model; it
   reads the published attributes of the constructed objects and says what they should be. *)
From Coq Require Import Reals Qreals.
From Verif Require Import Base Sx Utils Tableau Opts Model Ocp Problem.

(* ---- what is published by a successful construction ---- *)
Definition the_problem (C : constructed) : prob := pr (cn_prob C).
Definition the_opts (C : constructed) : opts := pr_o (cn_prob C).          (* after preprocess() *)
Definition the_nlp (C : constructed) : fobj := pb (the_problem C).         (* w, lbw, ..., g, cost *)
Definition explicit_end (C : constructed) : bool := t_rbe (cn_tab C).      (* right_boundary_point_explicit *)

(* l[c][e], l[c][e][j], l[c][e][j][s] *)
Definition at2 {A} (l : list (list A)) (c e : nat) : option A :=
  match nth_error l c with Some r => nth_error r e | None => None end.
Definition at3 {A} (l : list (list (list A))) (c e j : nat) : option A :=
  match at2 l c e with Some r => nth_error r j | None => None end.
Definition at4 {A} (l : list (list (list (list A)))) (c e j s : nat) : option A :=
  match at3 l c e j with Some r => nth_error r s | None => None end.

(* ---- sizes, from the user's model and options ---- *)
Definition n_subsystems (m : model) : nat :=
  match m_F m with Some F => length F | None => match m_fx m with Some fx => length fx | None => 0 end end.
(* number of modes of subsystem s: columns of F[s] *)
Definition n_modes (m : model) (s : nat) : nat :=
  match m_F m with Some F => match nth_error F s with Some f => length (fm_cols f) | None => 0 end | None => 1 end.
(* the user gave region functions g_Stewart *)
Definition gS_given (m : model) : bool := match m_gS m with Some (_ :: _) => true | _ => false end.
(* the multipliers are nonnegative by their bounds in the modes that relax products; the others leave
   that to the complementarity function *)
Definition lb_dual (o : opts) : ext :=
  match o_mpcc o with
  | ScholtesIneq | ScholtesEq | ElasticIneq | ElasticEq => Fin 0
  | FischerBurmeister | FischerBurmeisterIpAug | ElasticTwoSided | MBoolean => NInf
  end.
(* number of switching functions of subsystem s (c is not read when g_Stewart is given) *)
Definition n_switch (m : model) (s : nat) : nat :=
  if gS_given m then 0 else
  match m_c m with Some c => match nth_error c s with Some v => length v | None => 0 end | None => 0 end.

(* components of a state / v / user-algebraic vector *)
Definition dim1 (o : opts) (m : model) (f : fam1) : nat :=
  match f with
  | FX => m_nx m
  | FV => match o_repr o with Integral => 0 | _ => m_nx m end
  | FZ => m_nz m
  end.
(* components of theta, lambda, mu (Stewart) and alpha, lambda_n, lambda_p (Step) of subsystem s *)
Definition dim2 (o : opts) (m : model) (f : fam2) (s : nat) : nat :=
  match o_pss o, f with
  | Stewart, (FTheta | FLam) => n_modes m s
  | Stewart, FMu => 1
  | Step, (FAlpha | FLn | FLp) => n_switch m s
  | _, _ => 0
  end.
(* number of points of a finite element carrying each variable *)
Definition points1 (o : opts) (explicit : bool) (f : fam1) : nat :=
  match f with
  | FX => match o_repr o with Differential => 1 | _ => if explicit then o_ns o else o_ns o + 1 end
  | _ => o_ns o
  end.
Definition points2 (o : opts) (explicit : bool) (nfe e : nat) (f : fam2) : nat :=
  match f with
  | FTheta | FAlpha => o_ns o
  | _ => o_ns o + (if o_use_fesd o && negb explicit && (e + 1 <? nfe) then 1 else 0)
  end.

(* element number e of control stage c *)
Definition is_fe (o : opts) (c e nfe : nat) : Prop :=
  c < o_N_stages o /\ nth_error (o_Nfe_list o) c = Some nfe /\ e < nfe.

Definition elastic (o : opts) : bool :=
  match o_mpcc o with ElasticEq | ElasticIneq | ElasticTwoSided => true | _ => false end.

(* every index list of the problem, flattened (ind_x_cont repeats entries of ind_x) *)
Definition flat3 {A} (l : list (list (list (list A)))) : list A := concat (concat (concat l)).
Definition published (P : prob) : list nat :=
  concat (p_ind_el P) ++ concat (p_ind_vg P) ++ concat (p_ind_u P) ++ concat (p_ind_sot P)
  ++ p_ind_h P
  ++ flat3 (p_ind1 P FX) ++ flat3 (p_ind1 P FV) ++ flat3 (p_ind1 P FZ)
  ++ flat3 (concat (p_ind2 P FTheta)) ++ flat3 (concat (p_ind2 P FLam)) ++ flat3 (concat (p_ind2 P FMu))
  ++ flat3 (concat (p_ind2 P FAlpha)) ++ flat3 (concat (p_ind2 P FLn)) ++ flat3 (concat (p_ind2 P FLp))
  ++ concat (ind_bool (pb P)) ++ flat3 (p_ind_bool P).

(* ---- feasibility of a point for an NLP ---- *)
Definition within (l u : ext) (v : R) : Prop :=
  match l with NInf => True | Fin q => (Q2R q <= v)%R | PInf => False end /\
  match u with PInf => True | Fin q => (v <= Q2R q)%R | NInf => False end.

Definition bounds_ok (rho : env) (f : fobj) : Prop :=
  forall i s l u, nth_error (w f) i = Some s -> nth_error (lbw f) i = Some l -> nth_error (ubw f) i = Some u ->
    within l u (rho s).
Definition constraints_ok (rho : env) (f : fobj) : Prop :=
  forall j e l u, nth_error (g f) j = Some e -> nth_error (lbg f) j = Some l -> nth_error (ubg f) j = Some u ->
    within l u (eval rho e).
Definition feasible (rho : env) (f : fobj) : Prop := bounds_ok rho f /\ constraints_ok rho f.

(* ---- number of variables ---- *)
Definition total (l : list nat) : nat := fold_right Nat.add 0 l.
Definition upto (n : nat) (f : nat -> nat) : nat := total (map f (seq 0 n)).
Definition element_size (o : opts) (m : model) (explicit : bool) (nfe e : nat) : nat :=
  (if o_use_fesd o then 1 else 0)
  + total (map (fun f => points1 o explicit f * dim1 o m f) [FX; FV; FZ])
  + total (map (fun f => points2 o explicit nfe e f * upto (n_subsystems m) (dim2 o m f))
            [FTheta; FLam; FMu; FAlpha; FLn; FLp]).
Definition problem_size (o : opts) (m : model) (explicit : bool) : nat :=
  (if elastic o then 1 else 0) + m_nvg m
  + o_N_stages o * (m_nu m + match o_sot o with SotLocal => 1 | _ => 0 end)
  + upto (o_N_stages o) (fun c => let nfe := nth c (o_Nfe_list o) 0 in upto nfe (element_size o m explicit nfe)).

(* position of element (c, e) in the flat list of all elements *)
Definition flat_pos (nfes : list nat) (c e : nat) : nat := total (firstn c nfes) + e.

(* bounds of a step size: [(1-gamma_h) h0, (1+gamma_h) h0], h0 = T / N_stages / Nfe *)
Definition nominal_step (o : opts) (nfe : nat) : Q :=
  (o_terminal_time o / inject_Z (Z.of_nat (o_N_stages o)) / inject_Z (Z.of_nat nfe))%Q.
Definition step_lower (o : opts) (nfe : nat) : ext :=
  match o_gamma_h o with Fin q => Fin ((1 - q) * nominal_step o nfe)%Q | PInf => NInf | NInf => PInf end.
Definition step_upper (o : opts) (nfe : nat) : ext :=
  match o_gamma_h o with Fin q => Fin ((1 + q) * nominal_step o nfe)%Q | PInf => PInf | NInf => NInf end.

Definition given {A} (x : option (list A)) (n : nat) (d : A) : list A :=
  match x with Some v => v | None => repeat d n end.
(* without an OCP there are no bounds, guesses, constraints or costs *)
Definition no_ocp : ocp := mkOcp None None None None None (ECst 0) [] None None [] (ECst 0) [] None None None.
Definition the_ocp (oc : option ocp) : ocp := match oc with Some x => x | None => no_ocp end.

(* ---- nested lists ---- *)
(* the leaves of a nested list, left to right *)
Inductive leaves : tree -> list tree -> Prop :=
| lv_leaf n : leaves (Leaf n) [Leaf n]
| lv_other k : leaves (Other k) [Other k]
| lv_nil : leaves (Node []) []
| lv_cons t l a b : leaves t a -> leaves (Node l) b -> leaves (Node (t :: l)) (a ++ b).
(* the object at a path of child numbers *)
Fixpoint sub (t : tree) (p : list nat) : option tree :=
  match p with
  | [] => Some t
  | i :: p' => match t with
               | Node l => match nth_error l i with Some s => sub s p' | None => None end
               | _ => None end
  end.
(* L' is L with the lists at depth k spliced into their parent (a list without sublists is flat) *)
Fixpoint layer_removed (k : nat) (L L' : list tree) : Prop :=
  match k with
  | 0 => (exists ls, L = map Node ls /\ L' = concat ls) \/ ((forall t, In t L -> forall l, t <> Node l) /\ L' = L)
  | S k' => Forall2 (fun t t' => exists l l', t = Node l /\ t' = Node l' /\ layer_removed k' l l') L L'
  end.

(* ---- Python types ---- *)
(* v is an instance of class t: same class, or a bool where an int is asked for *)
Definition instance_of (v t : pyty) : Prop := v = t \/ (v = TBool /\ t = TInt).
Definition fits (a : annot) (v : pyty) : Prop :=
  match a with AType t => instance_of v t | AUnion ts => exists t, In t ts /\ instance_of v t end.

(* ---- the OCP ---- *)
Definition uses (vs : list sym) (r : expr * expr) : Prop :=
  exists s, In s vs /\ (In s (fv (fst r)) \/ In s (fv (snd r))).
(* the expression is written in the given symbols only *)
Definition over (vs : list sym) (e : expr) : Prop := forall s, In s (fv e) -> In s vs.
Definition length_ok {A} (x : option (list A)) (n : nat) : Prop :=
  match x with Some l => length l = n | None => True end.
(* an OCP that fits a (preprocessed) model *)
Record ocp_fits (pm : pmodel) (oc : ocp) : Prop := {
  of_terminal : forall e, e = oc_fT oc \/ In e (oc_gT oc) ->
    over (mx (pm_m pm) ++ mp (pm_m pm) ++ mvg (pm_m pm)) e;
  of_path : forall e, e = oc_fq oc \/ In e (oc_g_path oc) ->
    over (mx (pm_m pm) ++ mu_ (pm_m pm) ++ mp (pm_m pm) ++ mvg (pm_m pm)) e;
  of_comp : forall r e, In r (oc_comp oc) -> e = fst r \/ e = snd r ->
    over (mx (pm_m pm) ++ mu_ (pm_m pm) ++ pm_zall pm ++ mp (pm_m pm) ++ mvg (pm_m pm)) e /\
    (* rows without x and z are evaluated per control stage, or once *)
    (~ uses (mx (pm_m pm) ++ mz (pm_m pm)) r -> over (mu_ (pm_m pm) ++ mp (pm_m pm) ++ mvg (pm_m pm)) e);
  of_lengths : length_ok (oc_lbg oc) (length (oc_g_path oc)) /\ length_ok (oc_ubg oc) (length (oc_g_path oc)) /\
    length_ok (oc_lbx oc) (m_nx (pm_m pm)) /\ length_ok (oc_ubx oc) (m_nx (pm_m pm)) /\
    length_ok (oc_lbu oc) (m_nu (pm_m pm)) /\ length_ok (oc_ubu oc) (m_nu (pm_m pm)) /\
    length_ok (oc_u_guess oc) (m_nu (pm_m pm)) /\
    length_ok (oc_lbv oc) (m_nvg (pm_m pm)) /\ length_ok (oc_ubv oc) (m_nvg (pm_m pm)) /\
    length_ok (oc_v_guess oc) (m_nvg (pm_m pm))
}.
(* the OCP with every absent bound and guess written out *)
Definition written_out (m : model) (oc : ocp) : ocp := {|
  oc_lbu := Some (given (oc_lbu oc) (m_nu m) NInf); oc_ubu := Some (given (oc_ubu oc) (m_nu m) PInf);
  oc_u_guess := Some (given (oc_u_guess oc) (m_nu m) 0%Q);
  oc_lbx := Some (given (oc_lbx oc) (m_nx m) NInf); oc_ubx := Some (given (oc_ubx oc) (m_nx m) PInf);
  oc_fq := oc_fq oc; oc_g_path := oc_g_path oc;
  oc_lbg := Some (given (oc_lbg oc) (length (oc_g_path oc)) (Fin 0));
  oc_ubg := Some (given (oc_ubg oc) (length (oc_g_path oc)) (Fin 0));
  oc_comp := oc_comp oc; oc_fT := oc_fT oc; oc_gT := oc_gT oc;
  oc_lbv := Some (given (oc_lbv oc) (m_nvg m) NInf); oc_ubv := Some (given (oc_ubv oc) (m_nvg m) PInf);
  oc_v_guess := Some (given (oc_v_guess oc) (m_nvg m) 0%Q) |}.

(* ---- Butcher tableaux ---- *)
Definition qsum (l : list Q) : Q := fold_right Qplus 0%Q l.
Definition close (tol x y : Q) : Prop := (x - y <= tol)%Q /\ (y - x <= tol)%Q.
(* sum_i b_i c_i^p *)
Definition moment (b c : list Q) (p : nat) : Q :=
  qsum (map (fun bc => fst bc * Qpower (snd bc) (Z.of_nat p))%Q (combine b c)).
Definition tolerance : Q := 1 # 100000000000.    (* 1e-11 *)
(* real polynomials, constant coefficient first *)
Fixpoint peval (a : list R) (x : R) : R :=
  match a with [] => 0%R | c :: a' => (c + x * peval a' x)%R end.
Definition abs_sum (a : list R) : R := fold_right (fun c s => (Rabs c + s)%R) 0%R a.
Definition quad (b c : list Q) (f : R -> R) : R :=
  fold_right (fun bc s => (Q2R (fst bc) * f (Q2R (snd bc)) + s)%R) 0%R (combine b c).
(* sum_j q_j v_j *)
Fixpoint dotR (q : list Q) (v : list R) : R :=
  match q, v with x :: q', y :: v' => (Q2R x * y + dotR q' v')%R | _, _ => 0%R end.
(* column i of a matrix given by rows *)
Definition column (M : list (list Q)) (i : nat) : list Q := map (fun row => nth i row 0%Q) M.
Definition distinct (pts : list Q) : Prop :=
  forall i j x y, nth_error pts i = Some x -> nth_error pts j = Some y -> (x == y)%Q -> i = j.

(* ---- options ---- *)
(* the options object with N_stages, N_finite_elements, comp_tol, sigma_0, homotopy_update_slope reassigned *)
Definition reassign (o : opts) (n nfe : nat) (ct s0 sl : Q) : opts := {|
  o_terminal_time := o_terminal_time o; o_use_fesd := o_use_fesd o; o_max_iter_homotopy := o_max_iter_homotopy o;
  o_init := o_init o; o_repr := o_repr o; o_ns := o_ns o; o_scheme := o_scheme o;
  o_cross := o_cross o; o_mpcc := o_mpcc o; o_constr := o_constr o; o_pss := o_pss o;
  o_gamma_h := o_gamma_h o; o_smoothing := o_smoothing o; o_fix_active_set_fe0 := o_fix_active_set_fe0 o;
  o_N_finite_elements := nfe; o_Nfe_list := o_Nfe_list o; o_comp_tol := ct;
  o_sigma_0 := s0; o_sigma_N := o_sigma_N o; o_slope := sl;
  o_exponent := o_exponent o; o_rule := o_rule o; o_step_eq := o_step_eq o;
  o_step_eq_sigma := o_step_eq_sigma o; o_rho_h := o_rho_h o; o_fb1 := o_fb1 o; o_fb2 := o_fb2 o;
  o_do_polishing := o_do_polishing o; o_N_stages := n; o_equidistant := o_equidistant o;
  o_g_path_at_fe := o_g_path_at_fe o; o_g_path_at_stg := o_g_path_at_stg o;
  o_s_elastic_0 := o_s_elastic_0 o; o_s_elastic_max := o_s_elastic_max o;
  o_s_elastic_min := o_s_elastic_min o; o_obj_direct := o_obj_direct o;
  o_time_freezing := o_time_freezing o; o_tf_tol := o_tf_tol o; o_sot := o_sot o;
  o_sot_min := o_sot_min o; o_sot_max := o_sot_max o |}.
