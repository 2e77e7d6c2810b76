(* Fix_proofs.v -- the symbols of a constructed NLP, and fix_active_set_fe0 against the feasible points *)
From Coq Require Import Reals Qreals Lra.
From Verif Require Import Base Lib Sx Sx_proofs Utils Tableau Opts Model Ocp Problem Numeric Rk4 Results Solver Spec Fesd Spec2 Spec3 Spec4 Spec5
  FeMake_proofs FeZero_proofs Prob_proofs Body_proofs Model_proofs Con_proofs Index_proofs Index2_proofs Index3_proofs Nlp_proofs Feas_proofs Lam_proofs Accept_proofs
  Results_proofs Results2_proofs Results4_proofs Smooth2_proofs Solve_proofs Solve2_proofs Vec_proofs Syms_proofs Init_proofs Init2_proofs Start_proofs Param_proofs.

Lemma least_unique n f a b : least n f a -> least n f b -> a = b.
Proof. intros [A1 (k & Hk & A2)] [B1 (j & Hj & B2)]. pose proof (A1 j Hj). pose proof (B1 k Hk). lra. Qed.
Lemma Forall2_map_l {A B} (P : A -> B -> Prop) (f : A -> B) l : Forall2 P l (map f l) -> forall x, In x l -> P x (f x).
Proof. induction l as [|a l IH]; intros F x Hx; [destruct Hx|]. cbn in F. inversion F; subst. destruct Hx as [->|Hx]; auto. Qed.

Section Con.
Variables (lr : Q -> Q -> Q -> nat) (cp : nat -> scheme -> list Q) (d : ipopt_dict)
  (o : opts) (m : model) (oc : option ocp) (C : constructed).
Hypothesis H : construct_problem lr cp d o m oc = Ok C.
Notation O := (the_opts C).
Notation P := (the_problem C).
Notation W := (w (the_nlp C)).
Notation PM := (pr_pm (cn_prob C)).

Definition known (e : expr) : Prop := forall y, In y (fv e) -> In y (W ++ p_p P).
Lemma sumsq_known l c c' : foldM (fun c p => do* _ <- guard (ext_is0 (snd p)) EException; Ok (EBin BAdd c (EUn USq (fst p)))) l c = Ok c' ->
  (forall p, In p l -> known (fst p)) -> known c -> known c'.
Proof.
  revert c. induction l as [|p l IH]; intros c E A B; cbn in E; [injection E as <-; exact B|].
  destruct (guard (ext_is0 (snd p)) EException); cbn in E; [|discriminate].
  apply IH in E; [exact E|intros q Hq; apply A; right; exact Hq|]. intros y Hy. cbn in Hy. apply in_app_iff in Hy. destruct Hy as [Hy|Hy]; [apply B, Hy|].
  apply (A p (or_introl eq_refl)), Hy.
Qed.
Lemma nlp_known : known (cost (the_nlp C)) /\ known (p_J_comp P) /\ forall e, In e (g (the_nlp C)) -> known e.
Proof.
  destruct (construct_ok _ _ _ _ _ _ _ H) as (o' & t & pm & po & P' & K).
  pose proof (co_lsq _ _ _ _ _ _ _ _ _ _ _ _ K) as L. pose proof (lsq_same _ _ _ L) as L'.
  assert (EW : W = w (pb P')) by (unfold the_nlp; apply L'). assert (EP : p_p P = p_p P') by apply L'. assert (EJ : p_J_comp P = p_J_comp P') by apply L'.
  destruct (mkfun_ok _ _ _ (co_cost _ _ _ _ _ _ _ _ _ _ _ _ K)) as [_ K1].
  destruct (mkfun_ok _ _ _ (co_res _ _ _ _ _ _ _ _ _ _ _ _ K)) as [_ K2].
  destruct (mkfun_ok _ _ _ (co_g _ _ _ _ _ _ _ _ _ _ _ _ K)) as [_ K3]. cbn [concat] in *. rewrite app_nil_r in *.
  assert (Q1 : known (cost (pb P'))) by (intros y Hy; rewrite EW, EP; eapply K1; [left; reflexivity|exact Hy]).
  assert (Q3 : forall e, In e (g (pb P')) -> known e) by (intros e He y Hy; rewrite EW, EP; eapply K3; eassumption).
  assert (Q2 : known (p_J_comp P)) by (intros y Hy; rewrite EW, EP; eapply K2; [left; symmetry; exact EJ|exact Hy]).
  split; [|split; [exact Q2|]]; clear L'; unfold lsq in L; destruct (o_constr o') eqn:Ec.
  - injection L as L. unfold the_nlp. rewrite <- L. exact Q1.
  - apply bind_ok in L. destruct L as (c & Hc & L). injection L as L. unfold the_nlp. rewrite <- L. cbn [cost pb with_pb].
    apply sumsq_known in Hc; [exact Hc| |exact Q1]. intros p Hp. apply Q3. destruct p as [x y]. apply in_combine_l in Hp. exact Hp.
  - injection L as L. unfold the_nlp. rewrite <- L. exact Q3.
  - apply bind_ok in L. destruct L as (c & Hc & L). injection L as L. unfold the_nlp. rewrite <- L. cbn [g pb with_pb]. intros e [].
Qed.
Lemma feasible_ext rho rho' : (forall y, In y (W ++ p_p P) -> rho' y = rho y) -> feasible rho (the_nlp C) -> feasible rho' (the_nlp C).
Proof.
  intros A [F1 F2]. destruct nlp_known as (_ & _ & K). split.
  - intros i s l u H1 H2 H3. rewrite A by (apply in_or_app; left; eapply nth_error_In; eassumption). eapply F1; eassumption.
  - intros i s l u H1 H2 H3. rewrite (eval_ext _ rho) by (intros y Hy; apply A; eapply K; [eapply nth_error_In; eassumption|exact Hy]). eapply F2; eassumption.
Qed.

Hypothesis Ex : o_constr o = Exact.
Hypothesis WS : well_sized m.

Lemma zero_product rho : zero_relaxation O rho -> product_mode O.
Proof. unfold zero_relaxation, product_mode. destruct (o_mpcc O); intros; auto. Qed.

Definition clean (rho : env) : env := fun y => match y with SL00 _ _ _ => if existsb (sym_eqb y) (p_p P) then rho y else 0%R | _ => rho y end.
Lemma clean_same rho y : In y (W ++ p_p P) -> clean rho y = rho y.
Proof.
  intros Hy. destruct y as [ | | | | | | | | | | | | f q k | | | | | | | | ]; try reflexivity. unfold clean.
  destruct (existsb _ _) eqn:Eb; [reflexivity|]. exfalso. apply in_app_iff in Hy. destruct Hy as [Hy|Hy].
  - apply (sym_in_w _ _ _ _ _ _ _ _ H) in Hy. exact Hy.
  - assert (existsb (sym_eqb (SL00 f q k)) (p_p P) = true); [|congruence]. apply existsb_exists. eexists. split; [exact Hy|apply sym_eqb_refl].
Qed.

Section At.
Variables (s : sstate) (sg tau : R) (lam : list R) (rho : env).
Hypothesis Z : sized C m s.
Hypothesis EL : compute_lambda00 PM (ss_x0 s) (ss_pval s) = Ok lam.
Hypothesis EP : parameters C rho = concat (ss_pval s) ++ [sg; tau] ++ lam ++ ss_x0 s.
Hypothesis Ep : o_pss O = Stewart.

Lemma stewart_param y : In y (p_p P) -> belongs C m s sg tau y (rho y).
Proof.
  apply (Forall2_map_l (belongs C m s sg tau) rho). change (map rho (p_p P)) with (parameters C rho). rewrite EP.
  apply (params_belong _ _ _ _ _ _ _ H); try assumption. left. exact Ep.
Qed.
Lemma lam_in q k : q < n_subsystems m -> k < n_modes m q -> In (SL00 FLam q k) (p_p P).
Proof.
  intros Hq Hk. rewrite (p_layout _ _ _ _ _ _ _ H). rewrite !in_app_iff. right. right. left. unfold lam0. apply in_or_app. left.
  rewrite (lab0_dim _ _ _ _ _ _ _ H). apply in_concat. eexists. split; [apply in_map_iff; exists q; split; [reflexivity|apply in_seq; lia]|].
  apply in_map. apply in_seq. unfold dim2. rewrite Ep. lia.
Qed.
(* the parameter that stands for an entry of lambda00 *)
Lemma lam_value q k : q < n_subsystems m -> k < n_modes m q -> nth (offset (n_modes m) q k) lam 0%R = rho (SL00 FLam q k).
Proof.
  intros Hq Hk. destruct (row0 _ _ _ _ _ _ _ H s Z) as (p0 & Hp & En & Lp). destruct (pm_facts _ _ _ _ _ _ _ H) as [HP MO].
  destruct (stewart_lambda00 _ _ _ HP WS _ _ _ Ep (sz_x0 _ _ _ Z) Hp Lp) as (l & mn & E1 & E2 & E3 & _).
  assert (l = lam) by congruence. subst l. destruct (E3 q Hq) as [LE N]. rewrite (nth_error_nth _ _ _ (N k Hk)).
  destruct (stewart_param _ (lam_in q k Hq Hk)) as (mn' & LE' & ->). rewrite En in *. f_equal. f_equal. eapply least_unique; eassumption.
Qed.
Lemma clean_nonneg : initial_nonneg (clean rho).
Proof.
  intros f q k. unfold clean. destruct (existsb _ _) eqn:Eb; [|lra]. apply existsb_exists in Eb. destruct Eb as (y & Hy & E). apply sym_eqb_eq in E. subst y.
  pose proof (stewart_param _ Hy) as B. destruct f; cbn [belongs] in B; try contradiction.
  - destruct B as (mn & [L1 L2] & ->). 
    assert (Hk : k < n_modes m q); [|pose proof (L1 k Hk); lra].
    rewrite (p_layout _ _ _ _ _ _ _ H) in Hy. rewrite !in_app_iff in Hy. destruct Hy as [Hy|[Hy|[Hy|Hy]]].
    + apply in_concat in Hy. destruct Hy as (l & Hl & Hy). apply in_map_iff in Hl. destruct Hl as (c & <- & _). apply in_map_iff in Hy. destruct Hy as (i & Ei & _). discriminate.
    + destruct Hy as [Hy|[Hy|[]]]; discriminate.
    + unfold lam0 in Hy. rewrite !(lab0_dim _ _ _ _ _ _ _ H) in Hy. rewrite !in_app_iff in Hy.
      destruct Hy as [Hy|[Hy|Hy]]; apply in_concat in Hy; destruct Hy as (l & Hl & Hy); apply in_map_iff in Hl; destruct Hl as (c & <- & _);
        apply in_map_iff in Hy; destruct Hy as (i & Ei & Hi); try discriminate. injection Ei as -> ->. apply in_seq in Hi. unfold dim2 in Hi. rewrite Ep in Hi. lia.
    + apply in_map_iff in Hy. destruct Hy as (i & Ei & _). discriminate.
  - rewrite B. apply Rmax_l.
  - rewrite B. apply Rmax_l.
Qed.

(* with zero relaxation every feasible point has the value 0 at the fixed variables *)
Lemma fixing_sound y : feasible rho (the_nlp C) -> zero_relaxation O rho -> o_use_fesd O = true -> (0 <= Q2R (o_comp_tol O))%R ->
  In y W -> excluded C m lam y -> rho y = 0%R.
Proof.
  intros F ZR UF TP Hy (j & q & k & -> & Hq & Hk & Hl).
  assert (F' : feasible (clean rho) (the_nlp C)). { eapply feasible_ext; [|exact F]. intros y Hy'. apply clean_same, Hy'. }
  assert (ZR' : zero_relaxation O (clean rho)) by exact ZR.
  pose proof (sym_in_w _ _ _ _ _ _ _ _ H Hy) as R. cbn [in_range] in R. destruct R as (R1 & R2 & _). apply elements_in in R1. cbn [fst snd] in R1. destruct R1 as [R1 R3].
  assert (I : is_fe O 0 0 (nfe_of O 0)).
  { split; [exact R1|]. split; [|exact R3]. unfold nfe_of in *. destruct (o_Nfe_list O) as [|n l]; [cbn in R3; lia|]. reflexivity. }
  assert (Hj : j < o_ns O). { unfold points2 in R2. exact R2. }
  rewrite (lam_value q k Hq Hk) in Hl.
  pose proof (alg_nonneg _ _ _ _ _ _ _ H rho (proj1 F) 0 0 (nfe_of O 0) FTheta j q k (zero_product _ ZR) ltac:(discriminate) I ltac:(unfold points2; exact Hj) Hq) as NN.
  assert (Hd : k < dim2 O m FTheta q) by (unfold dim2; rewrite Ep; exact Hk). specialize (NN Hd).
  destruct (Rle_lt_or_eq_dec _ _ NN) as [LT|EQ]; [|symmetry; exact EQ]. exfalso.
  destruct (stewart_exclusive _ _ _ _ _ _ _ H Ex WS (clean rho) (proj1 F') (proj2 F') 0 0 (nfe_of O 0) j q k ZR' clean_nonneg UF Ep I Hj Hq Hk) as [_ B].
  { exact LT. }
  cbn [before] in B. rewrite clean_same in B by (apply in_or_app; right; apply lam_in; assumption). lra.
Qed.
End At.
End Con.
