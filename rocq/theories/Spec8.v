(* Spec8.v -- which models, OCPs and options construct_problem has to accept. *)
From Coq Require Import Reals Qreals.
From Verif Require Import Base Sx Utils Tableau Opts Model Ocp Problem Spec Fesd Numeric Spec3.

Definition x_sym (m : model) (s : sym) : Prop := match s with MX i => i < m_nx m | _ => False end.
Definition z_sym (m : model) (s : sym) : Prop := match s with MZ i => i < m_nz m | _ => False end.
Definition p_sym (m : model) (s : sym) : Prop :=
  match s with MPt i => i < m_npt m | MPg i => i < m_npg m | _ => False end.

(* costs and constraints are written in the symbols of the model, bounds have the right lengths *)
Record consistent_ocp (m : model) (oc : ocp) : Prop := {
  cs_terminal : forall e, e = oc_fT oc \/ In e (oc_gT oc) ->
    uses_only (fun s => x_sym m s \/ p_sym m s \/ global_sym m s) e;
  cs_path : forall e, e = oc_fq oc \/ In e (oc_g_path oc) ->
    uses_only (fun s => x_sym m s \/ control_sym m s \/ p_sym m s \/ global_sym m s) e;
  cs_comp : forall a b e, In (a, b) (oc_comp oc) -> e = a \/ e = b ->
    uses_only (fun s => x_sym m s \/ control_sym m s \/ z_sym m s \/ p_sym m s \/ global_sym m s) e;
  cs_lbg : optional_length (oc_lbg oc) (length (oc_g_path oc));
  cs_ubg : optional_length (oc_ubg oc) (length (oc_g_path oc));
  cs_lbx : optional_length (oc_lbx oc) (m_nx m);
  cs_ubx : optional_length (oc_ubx oc) (m_nx m);
  cs_lbu : optional_length (oc_lbu oc) (m_nu m);
  cs_ubu : optional_length (oc_ubu oc) (m_nu m);
  cs_ug : optional_length (oc_u_guess oc) (m_nu m);
  cs_lbv : optional_length (oc_lbv oc) (m_nvg m);
  cs_ubv : optional_length (oc_ubv oc) (m_nvg m);
  cs_vg : optional_length (oc_v_guess oc) (m_nvg m)
}.

(* an integration scheme exists; cp are CasADi's collocation points *)
Definition scheme_available (cp : nat -> scheme -> list Q) (o : opts) : Prop :=
  match o_repr o with
  | Integral => 0 < o_ns o /\ length (cp (o_ns o) (o_scheme o)) = o_ns o /\ distinct (0%Q :: cp (o_ns o) (o_scheme o))
  | _ => 1 <= o_ns o <= 9
  end.
(* at least one stage, and at least one finite element on every stage *)
Definition grid_given (o : opts) : Prop :=
  0 < o_N_stages o /\
  match o_Nfe_list o with
  | [] => 0 < o_N_finite_elements o
  | l => forall c, c < o_N_stages o -> exists n, nth_error l c = Some n /\ 0 < n
  end.

(* a model given by F, c and S (or g_Stewart), or by f_x, c and alpha, with matching sizes *)
Record consistent_model (o : opts) (m : model) : Prop := {
  cm_sized : well_sized m;
  cm_closed : closed_model m;
  cm_ok : acceptable o m;
  cm_x0 : length (m_x0 m) = m_nx m;
  (* Step: some switching function; a given alpha has one entry per switching function *)
  cm_switch : o_pss o = Step -> 0 < upto (n_subsystems m) (n_switch m);
  cm_alpha : forall sizes, m_alpha m = Some sizes ->
    total sizes = match o_pss o with Stewart => 0 | Step => upto (n_subsystems m) (n_switch m) end
}.

(* the smoothed right-hand side is a function of x only *)
Record smoothable (o : opts) (m : model) : Prop := {
  sb_pos : (0 < o_smoothing o)%Q;
  sb_gS : gS_given m = false;
  sb_F : m_F m <> None;
  sb_rows : rows_fit m;
  sb_cols : forall F f col e, m_F m = Some F -> In f F -> In col (fm_cols f) -> In e col -> uses_only (x_sym m) e;
  sb_c : forall c v e, m_c m = Some c -> In v c -> In e v -> uses_only (x_sym m) e
}.

(* the combinations of options that raise for every model; see the refutations in Props_Total.v *)
Record supported (o : opts) : Prop := {
  su_sot : o_sot o <> SotGlobal;
  su_aug : o_mpcc o = FischerBurmeisterIpAug -> o_use_fesd o = true -> o_cross o = ComplementAll;
  su_constr : o_constr o = Exact
}.
