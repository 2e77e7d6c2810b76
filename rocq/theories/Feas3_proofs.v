(* Feas3_proofs.v -- comparison of problems that differ in one option; refutations *)
From Coq Require Import Reals Qreals Lra Psatz Permutation.
From Verif Require Import Base Sx Utils Tableau Opts Model Ocp Problem Spec Cases Lib Sx_proofs Fe_proofs Prob_proofs Coll_proofs
  Body_proofs Model_proofs Con_proofs Index3_proofs Fesd Sem_proofs Dcs_proofs Point_proofs Elem_proofs Nlp_proofs
  Opts_proofs Tableau_proofs Poly_proofs Spec2 Feas_proofs Feas2_proofs.

Lemma opts_eq lr cp d o m oc C : construct_problem lr cp d o m oc = Ok C ->
  the_opts C = set_iter_nfe o (if o_max_iter_homotopy o =? 0
            then lr (o_comp_tol o) (o_sigma_0 o) (o_slope o) + 1 else o_max_iter_homotopy o)
            (match o_Nfe_list o with [] => repeat (o_N_finite_elements o) (o_N_stages o) | l => l end).
Proof.
  intros H. destruct (con_use lr cp d o m oc C H) as (o' & t' & pm & po & P & st & lf & f1 & KC & B & Eo & _). rewrite Eo.
  exact (co_o' _ _ _ _ _ _ _ _ _ _ _ _ KC).
Qed.

(* ---- C14 ---- *)
Section Cross.
Variables (o : opts) (t : tab) (m : model) (oc : ocp) (rho : env).
Notation o1 := (with_cross o SumLambdas).
Notation o2 := (with_cross o ComplementAll).
Hypothesis Z : zero_relaxation o rho.
Hypothesis R : t_rbe t = true \/ o_use_fesd o = false.

Lemma relaxed_sym_zero xs y : (forall x, In x xs -> (0 <= x)%R) -> (0 <= y)%R ->
  (relaxed o rho xs y <-> (rsum xs * y = 0)%R).
Proof.
  intros X Y. pose proof (rsum_nonneg xs X) as G. pose proof (Rmult_le_pos _ _ G Y).
  unfold relaxed, zero_relaxation in *. destruct (o_mpcc o); try contradiction; rewrite Z; split; intros; lra.
Qed.

Lemma cross_iff c e : (forall j k, j < o_ns o -> (0 <= ent (theta_vec o m rho c e j) k)%R) ->
  (forall j k, j < o_ns o -> (0 <= ent (lam_vec o m rho c e j) k)%R) ->
  (forall k, (0 <= ent (prev_lam o t m rho c e) k)%R) ->
  (cross_ok o1 t m rho c e <-> cross_ok o2 t m rho c e).
Proof.
  intros T L P. unfold cross_ok.
  change (o_ns o1) with (o_ns o). change (o_ns o2) with (o_ns o). change (n_pairs o1 m) with (n_pairs o m). change (n_pairs o2 m) with (n_pairs o m).
  change (o_use_fesd o1) with (o_use_fesd o). change (o_use_fesd o2) with (o_use_fesd o).
  change (theta_vec o1) with (theta_vec o). change (theta_vec o2) with (theta_vec o). change (lam_vec o1) with (lam_vec o). change (lam_vec o2) with (lam_vec o).
  change (prev_lam o1) with (prev_lam o). change (prev_lam o2) with (prev_lam o). change (o_cross o1) with SumLambdas. change (o_cross o2) with ComplementAll.
  change (relaxed o1) with (relaxed o). change (relaxed o2) with (relaxed o). change (n_mult o1) with (n_mult o).
  destruct (o_use_fesd o) eqn:Hf; [|reflexivity]. destruct R as [R'|R']; [|discriminate].
  assert (EM : n_mult o t c e = o_ns o) by (unfold n_mult, points2; rewrite R'; cbn [negb]; rewrite andb_false_r; cbn; lia).
  rewrite EM.
  assert (K : forall j k, j < o_ns o -> k < n_pairs o m ->
    (relaxed o rho (map (fun jj => ent (lam_vec o m rho c e jj) k) (seq 0 (o_ns o)) ++ [ent (prev_lam o t m rho c e) k]) (ent (theta_vec o m rho c e j) k) <->
     relaxed o rho [ent (theta_vec o m rho c e j) k] (ent (prev_lam o t m rho c e) k) /\
     forall jj, jj < o_ns o -> relaxed o rho [ent (theta_vec o m rho c e j) k] (ent (lam_vec o m rho c e jj) k))).
  { intros j k Hj Hk. specialize (T j k Hj). specialize (P k).
    assert (NN : forall x, In x (map (fun jj => ent (lam_vec o m rho c e jj) k) (seq 0 (o_ns o)) ++ [ent (prev_lam o t m rho c e) k]) -> (0 <= x)%R).
    { intros x Hx. rewrite in_app_iff in Hx. destruct Hx as [Hx|[<-|[]]]; [|exact P]. apply in_map_iff in Hx. destruct Hx as (jj & <- & Hjj). apply in_seq in Hjj. apply L. lia. }
    rewrite (relaxed_sym_zero _ _ NN T). rewrite (relaxed_sym_zero [_] _ ltac:(intros x [<-|[]]; exact T) P).
    assert (E2 : (forall jj, jj < o_ns o -> relaxed o rho [ent (theta_vec o m rho c e j) k] (ent (lam_vec o m rho c e jj) k)) <->
                 (forall jj, jj < o_ns o -> (ent (theta_vec o m rho c e j) k * ent (lam_vec o m rho c e jj) k = 0)%R)).
    { split; intros G jj Hjj; specialize (G jj Hjj).
      - rewrite (relaxed_sym_zero [_] _ ltac:(intros x [<-|[]]; exact T) (L jj k Hjj)) in G. rewrite rsum_cons, rsum_nil in G. lra.
      - rewrite (relaxed_sym_zero [_] _ ltac:(intros x [<-|[]]; exact T) (L jj k Hjj)). rewrite rsum_cons, rsum_nil. lra. }
    rewrite E2, rsum_app, !rsum_cons, !rsum_nil.
    fold (rupto (o_ns o) (fun jj => ent (lam_vec o m rho c e jj) k)).
    pose proof (rupto_nonneg (o_ns o) (fun jj => ent (lam_vec o m rho c e jj) k) ltac:(intros; apply L; assumption)) as G.
    set (th := ent (theta_vec o m rho c e j) k) in *. set (pl := ent (prev_lam o t m rho c e) k) in *.
    split.
    - intros E0. pose proof (Rmult_le_pos _ _ G T). pose proof (Rmult_le_pos _ _ P T).
      assert (A1 : (rupto (o_ns o) (fun jj => ent (lam_vec o m rho c e jj) k) * th = 0)%R) by lra. split; [lra|].
      intros jj Hjj. rewrite Rmult_comm, <- (rupto_scale th) in A1.
      rewrite (rupto_zero _ _ ltac:(intros q Hq; apply Rmult_le_pos; [exact T|apply L, Hq]) A1 jj Hjj). reflexivity.
    - intros [E0 E1]. rewrite Rplus_0_r, Rmult_plus_distr_r. rewrite (Rmult_comm (rupto _ _)), <- rupto_scale.
      rewrite (rupto_ext _ _ (fun _ => 0%R)) by (intros q Hq; apply E1, Hq). rewrite rupto_all0 by reflexivity. lra. }
  split; intros G j k Hj Hk; specialize (G j k Hj Hk); cbv zeta in *; apply (K j k Hj Hk); exact G.
Qed.

Lemma constraints_iff : (forall c e, c < o_N_stages o -> e < nfe_of o c ->
     (forall j k, j < o_ns o -> (0 <= ent (theta_vec o m rho c e j) k)%R) /\
     (forall j k, j < o_ns o -> (0 <= ent (lam_vec o m rho c e j) k)%R) /\ (forall k, (0 <= ent (prev_lam o t m rho c e) k)%R)) ->
  (nlp_constraints o1 t m oc rho <-> nlp_constraints o2 t m oc rho).
Proof.
  intros NN. unfold nlp_constraints.
  assert (E : forall c e, c < o_N_stages o -> e < nfe_of o c -> (element_ok o1 t m oc rho c e <-> element_ok o2 t m oc rho c e)).
  { intros c e Hc He. destruct (NN c e Hc He) as (N1 & N2 & N3). pose proof (cross_iff c e N1 N2 N3) as X. unfold element_ok. rewrite X. reflexivity. }
  assert (E' : (forall c e, c < o_N_stages o1 -> e < nfe_of o1 c -> element_ok o1 t m oc rho c e) <->
               (forall c e, c < o_N_stages o2 -> e < nfe_of o2 c -> element_ok o2 t m oc rho c e)).
  { split; intros G c e Hc He; apply (E c e Hc He), (G c e Hc He). }
  rewrite E'. reflexivity.
Qed.
End Cross.

Lemma cross_modes lr cp d o m oc C1 C2 rho :
  construct_problem lr cp d (with_cross o SumLambdas) m oc = Ok C1 ->
  construct_problem lr cp d (with_cross o ComplementAll) m oc = Ok C2 ->
  o_constr o = Exact -> well_sized m -> points_ok cp o -> o_scheme o = RadauIIA \/ o_use_fesd o = false ->
  zero_relaxation o rho -> (forall f s i, (0 <= rho (SL00 f s i))%R) -> bounds_ok rho (the_nlp C1) ->
  (constraints_ok rho (the_nlp C1) <-> constraints_ok rho (the_nlp C2)).
Proof.
  intros H1 H2 Ex WS PO Sc Z L0 BO.
  assert (HB : o_mpcc o <> MBoolean) by (unfold zero_relaxation in Z; destruct (o_mpcc o); try contradiction; discriminate).
  rewrite (nlp_exact _ _ _ _ _ _ _ H1 Ex WS rho HB), (nlp_exact _ _ _ _ _ _ _ H2 Ex WS rho HB).
  pose proof (opts_eq _ _ _ _ _ _ _ H1) as E1. pose proof (opts_eq _ _ _ _ _ _ _ H2) as E2.
  assert (E21 : the_opts C2 = with_cross (the_opts C1) ComplementAll) by (rewrite E1, E2; reflexivity).
  assert (E11 : the_opts C1 = with_cross (the_opts C1) SumLambdas) by (rewrite E1; reflexivity).
  assert (ET : cn_tab C2 = cn_tab C1).
  { pose proof (t_made _ _ _ _ _ _ _ H1) as M1. pose proof (t_made _ _ _ _ _ _ _ H2) as M2. rewrite E21 in M2.
    change (make_tab cp (with_cross (the_opts C1) ComplementAll)) with (make_tab cp (the_opts C1)) in M2. congruence. }
  rewrite E21, ET. rewrite E11 at 1.
  assert (ZC : zero_relaxation (the_opts C1) rho) by (rewrite E1; exact Z).
  apply constraints_iff.
  - exact ZC.
  - destruct Sc as [Sc|Sc]; [left|right; rewrite E1; exact Sc].
    rewrite (tab_scheme cp (the_opts C1) (cn_tab C1) (t_made _ _ _ _ _ _ _ H1)); [rewrite E1; cbn; rewrite Sc; reflexivity|].
    rewrite E1. exact PO.
  - intros c e Hc He. destruct (shapes_con _ _ _ _ _ _ _ H1) as (Sh & _). destruct (Sh c Hc) as (nfe & Hn & _).
    assert (I : is_fe (the_opts C1) c e nfe) by (repeat split; [exact Hc|exact Hn|unfold nfe_of in He; rewrite (nth_error_nth _ _ _ Hn) in He; exact He]).
    pose proof (zr_product C1 rho ZC) as PM. repeat split.
    + intros j k Hj. eapply (theta_nonneg lr cp d); eauto.
    + intros j k Hj. eapply (lam_nonneg lr cp d); eauto. pose proof (n_mult_ge C1 c e). lia.
    + intros k. eapply (prev_nonneg lr cp d); eauto.
Qed.

(* ---- C20 ---- *)
Lemma scaled_cost lr cp d o m oc C1 C2 rho :
  construct_problem lr cp d (with_scaling o true) m oc = Ok C1 ->
  construct_problem lr cp d (with_scaling o false) m oc = Ok C2 ->
  o_constr o = Exact -> well_sized m -> elastic o = true -> (0 < rho SSigma)%R ->
  eval rho (cost (the_nlp C2)) = (rho SSigma * eval rho (cost (the_nlp C1)))%R /\
  (constraints_ok rho (the_nlp C1) <-> constraints_ok rho (the_nlp C2)).
Proof.
  intros H1 H2 Ex WS El Sg.
  assert (HB : o_mpcc o <> MBoolean) by (unfold elastic in El; destruct (o_mpcc o); discriminate).
  rewrite (nlp_exact _ _ _ _ _ _ _ H1 Ex WS rho HB), (nlp_exact _ _ _ _ _ _ _ H2 Ex WS rho HB).
  rewrite (cost_exact _ _ _ _ _ _ _ H1 Ex WS rho), (cost_exact _ _ _ _ _ _ _ H2 Ex WS rho).
  pose proof (opts_eq _ _ _ _ _ _ _ H1) as E1. pose proof (opts_eq _ _ _ _ _ _ _ H2) as E2.
  assert (E21 : the_opts C2 = with_scaling (the_opts C1) false) by (rewrite E1, E2; reflexivity).
  assert (E11 : the_opts C1 = with_scaling (the_opts C1) true) by (rewrite E1; reflexivity).
  assert (ET : cn_tab C2 = cn_tab C1).
  { pose proof (t_made _ _ _ _ _ _ _ H1) as M1. pose proof (t_made _ _ _ _ _ _ _ H2) as M2. rewrite E21 in M2.
    change (make_tab cp (with_scaling (the_opts C1) false)) with (make_tab cp (the_opts C1)) in M2. congruence. }
  assert (EL : elastic (the_opts C1) = true) by (rewrite E1; exact El).
  rewrite E21, ET. split; [|reflexivity].
  unfold nlp_cost. change (elastic (with_scaling (the_opts C1) false)) with (elastic (the_opts C1)). rewrite EL.
  assert (Ed : o_obj_direct (the_opts C1) = true) by (rewrite E1; reflexivity). rewrite Ed. cbn [with_scaling o_obj_direct].
  change (plain_cost (with_scaling (the_opts C1) false)) with (plain_cost (the_opts C1)). field. lra.
Qed.
