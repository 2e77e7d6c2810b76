(* Filippov_proofs.v -- feasible points of piecewise constant, affinely switched systems are
   Filippov solutions *)
From Coq Require Import Reals Qreals Lra Psatz Permutation.
From Verif Require Import Base Sx Utils Tableau Opts Model Ocp Problem Spec Cases Lib Sx_proofs Fe_proofs Prob_proofs Coll_proofs
  Body_proofs Model_proofs Con_proofs Index3_proofs Fesd Sem_proofs Dcs_proofs Point_proofs Elem_proofs Nlp_proofs
  Opts_proofs Tableau_proofs Poly_proofs Spec2 Feas_proofs Feas2_proofs Spec3 Numeric Mode_proofs Smooth_proofs Spec9.

(* ---- quadrature ---- *)
Lemma tables_nonneg n s bt : generate_butcher_tableu n s = Ok bt -> forallb (fun q => Qle_bool 0 q) (bt_b bt) = true.
Proof.
  unfold generate_butcher_tableu. intros H.
  destruct s; do 10 (destruct n as [|n]; [first [discriminate|injection H as <-; vm_compute; reflexivity]|]); discriminate.
Qed.
Lemma quad_exact b c ord a : forall k,
  (forall p, p < ord -> (moment b c p == 1 / inject_Z (Z.of_nat (S p)))%Q) -> k + length a <= ord ->
  quad b c (fun x => x ^ k * peval a x)%R = pint k a.
Proof.
  induction a as [|a0 a IH]; intros k Hm Hl; cbn [peval pint].
  - rewrite (quad_ext _ _ _ (fun x => 0 * x)%R) by (intros; ring). rewrite quad_scale. ring.
  - rewrite (quad_ext _ _ _ (fun x => a0 * x ^ k + x ^ (S k) * peval a x)%R) by (intros; cbn [pow]; ring).
    cbn [length] in Hl. rewrite quad_plus, quad_scale, quad_pow, (IH (S k) Hm ltac:(lia)).
    assert (Hk := Hm k ltac:(lia)). apply Qeq_eqR in Hk. rewrite Hk.
    assert (E : Q2R (1 / inject_Z (Z.of_nat (S k))) = (1 / INR (S k))%R).
    { rewrite Q2R_div'; [|apply Bool.not_true_is_false; intros Hq; apply Qeq_bool_eq in Hq; unfold Qeq in Hq; cbn in Hq; lia].
      rewrite Q2R_1. f_equal. rewrite INR_IZR_INZ. unfold Q2R, inject_Z; cbn [Qnum Qden]. unfold Rdiv. rewrite Rinv_1. ring. }
    rewrite E. unfold Rdiv. ring.
Qed.
Lemma peval_ftc a : (peval a 1 - peval a 0)%R = pint 0 (pder a).
Proof.
  set (F := fun x => (peval a x - pprim 0 (pder a) x)%R).
  assert (D2 : forall x, derivable_pt_lim F x 0%R).
  { intros x. replace 0%R with (peval (pder a) x - x ^ 0 * peval (pder a) x)%R by (cbn [pow]; ring).
    apply (derivable_pt_lim_minus (peval a) (pprim 0 (pder a))); [apply peval_deriv|apply pprim_deriv]. }
  assert (pF : derivable F) by (intros z; exists 0%R; apply D2).
  assert (CF : constant F).
  { apply (null_derivative_1 F pF). intros z. apply (uniqueness_limite F z); [apply derive_pt_eq_1 with (pr := pF z); reflexivity|apply D2]. }
  assert (E := CF 1%R 0%R). unfold F in E. rewrite pprim_1, pprim_0 in E. lra.
Qed.
Lemma quad_rupto b : forall c f, length b = length c ->
  quad b c f = rupto (length b) (fun j => (Q2R (nth j b 0%Q) * f (Q2R (nth j c 0%Q)))%R).
Proof.
  unfold quad. induction b as [|x b IH]; intros [|y c] f L; cbn in L; try lia; cbn [combine fold_right length].
  - rewrite rupto_0. reflexivity.
  - rewrite rupto_cons. cbn [nth fst snd]. f_equal. apply IH. lia.
Qed.
Lemma integral_weights pts it v be : distinct (0%Q :: pts) -> generate_butcher_tableu_integral pts = Ok it ->
  length v = S (length pts) -> length be = length pts ->
  (forall p, p < length pts -> (moment be pts p == 1 / inject_Z (Z.of_nat (S p)))%Q) ->
  (dotR (it_D it) v - nth 0 v 0 = rupto (length pts) (fun j => Q2R (nth j be 0%Q) * dotR (column (it_C it) (S j)) v))%R /\
  forall i t, nth_error (it_tau it) i = Some t -> (t == 1)%Q -> nth i v 0%R = dotR (it_D it) v.
Proof.
  intros Hd Hit Lv Lb Hm. destruct (it_parts pts it Hit) as (cs & Hcs & Lc & _ & EC & ED & Et).
  rewrite EC, ED, Et, it_dot_D. set (tau := 0%Q :: pts) in *. set (a := pcomb cs v).
  assert (La : length a <= length tau) by (apply pcomb_length; exact (cs_all tau Hd cs Hcs)).
  assert (V : forall i t, nth_error tau i = Some t -> nth i v 0%R = lcomb cs v (Q2R t)).
  { intros i t Hi. destruct (lcomb_at tau Hd cs Hcs v i t) as (y & Hy & E); [exact Lv|exact Hi|].
    rewrite E. apply nth_error_nth with (d := 0%R) in Hy. exact Hy. }
  assert (V0 := V 0 0%Q eq_refl). rewrite Q2R_0 in V0. rewrite V0. split.
  - rewrite <- !pcomb_eval. fold a. rewrite peval_ftc.
    rewrite <- (quad_exact be pts (length pts) (pder a) 0 Hm).
    + rewrite (quad_ext _ _ _ (peval (pder a))) by (intros; cbn [pow]; ring).
      rewrite (quad_rupto be pts _ Lb), Lb. apply rupto_ext. intros j Hj. f_equal.
      destruct (nth_error pts j) as [tj|] eqn:Ej; [|apply nth_error_None in Ej; lia].
      rewrite (nth_error_nth _ _ 0%Q Ej).
      apply (lcomb_ext_deriv (peval a) (lcomb cs v) (Q2R tj)); [intros; apply pcomb_eval|apply peval_deriv|].
      unfold tau. rewrite (it_dot_C pts cs v (S j) tj) by exact Ej. apply (lcomb_deriv cs polyder). intros c. apply polyder_hval.
    + assert (H := length_pder a). unfold tau in La. cbn [length] in La. lia.
  - intros i t Hi E1. rewrite (V i t Hi). apply Qeq_eqR in E1. rewrite E1, Q2R_1. reflexivity.
Qed.

Section Elt.
Variables (cp : nat -> scheme -> list Q) (o : opts) (t : tab) (m : model) (rho : env).
Hypothesis MT : make_tab cp o = Ok t.
Hypothesis NS : 0 < o_ns o.
Notation ns := (o_ns o).
Lemma weights c e : points_ok cp o -> weights_nonneg cp o -> collocation o t m rho c e -> continuity o t m rho c e ->
  exists be : nat -> R, (forall j, j < ns -> (0 <= be j)%R) /\ (Rabs (rupto ns be - 1) <= weight_error o)%R /\
  forall i, i < m_nx m -> (end_state o t rho c e i - start_state o t rho c e i =
    step_len o rho c e * rupto ns (fun j => be j * (speed o rho c * rhs o m (stage_point o t m rho c e j) i)))%R.
Proof.
  intros PO WN Co Cn. unfold weight_error. assert (DR : o_repr o = Integral \/ o_repr o <> Integral) by (destruct (o_repr o); auto; right; discriminate).
  destruct DR as [Er|Er].
  - destruct (PO Er) as (Lp & Dp & pts & tl & Ep & Htl). destruct (WN Er) as (be & Lb & Hb & Hm). rewrite Er.
    destruct (tab_integral cp o t MT Er) as (it & Hit & _ & EC & ED).
    exists (fun j => Q2R (nth j be 0%Q)). split; [|split].
    + intros j Hj. rewrite <- Q2R_0. apply Qle_Rle, Hb, nth_In. lia.
    + assert (E := quad_rupto be (cp ns (o_scheme o)) (fun _ => 1%R) ltac:(lia)). rewrite Lb in E.
      assert (E2 := quad_exact be (cp ns (o_scheme o)) ns [1%R] 0 Hm ltac:(cbn; lia)).
      rewrite (quad_ext _ _ _ (fun _ => 1%R)) in E2 by (intros; cbn [pow peval]; ring). rewrite E2 in E. cbn [pint INR] in E.
      rewrite (rupto_ext _ _ (fun j => (Q2R (nth j be 0%Q) * 1)%R)) by (intros; ring). rewrite <- E.
      replace (1 / 1 + 0 - 1)%R with 0%R by lra. rewrite Rabs_R0. lra.
    + intros i Hi.
      set (v := start_state o t rho c e i :: map (fun r => rho (S1 FX c e r i)) (seq 0 ns)).
      assert (Lv : length v = S (length (cp ns (o_scheme o)))) by (unfold v; cbn; rewrite map_length, seq_length, Lp; reflexivity).
      destruct (integral_weights _ it v be Dp Hit Lv ltac:(lia) ltac:(rewrite Lp; exact Hm)) as [G1 G2].
      assert (V0 : nth 0 v 0%R = start_state o t rho c e i) by reflexivity. rewrite V0, Lp in G1.
      assert (G3 : end_state o t rho c e i = dotR (it_D it) v).
      { destruct (t_rbe t) eqn:R.
        - unfold end_state, points1. rewrite Er, R.
          assert (Sc : o_scheme o = RadauIIA) by (pose proof (tab_scheme cp o t MT PO) as TS; rewrite R in TS; destruct (o_scheme o); [reflexivity|discriminate]).
          assert (Ht : nth_error (it_tau it) ns = Some tl).
          { destruct (it_parts _ it Hit) as (_ & _ & _ & _ & _ & _ & Et). rewrite Et.
            assert (L2 : ns = S (length pts)). { rewrite Ep in Lp. rewrite app_length in Lp. cbn in Lp. lia. }
            rewrite Ep. rewrite L2 at 1. cbn [nth_error]. rewrite nth_error_app2 by lia. rewrite Nat.sub_diag. reflexivity. }
          rewrite Sc in Htl. rewrite <- (G2 ns tl Ht Htl).
          unfold v. destruct ns as [|n] eqn:En; [lia|]. cbn [nth]. rewrite (nth_error_nth _ _ _ (nth_error_map_seq (fun r => rho (S1 FX c e r i)) (S n) n ltac:(lia))).
          f_equal. f_equal. lia.
        - specialize (Cn (or_introl R) i Hi). rewrite Er in Cn. rewrite Cn, ED. unfold v. rewrite dot_row. reflexivity. }
      rewrite G3, G1, <- rupto_scale. apply rupto_ext. intros j Hj.
      specialize (Co j i Hj Hi). cbv zeta in Co. rewrite Er in Co. rewrite EC, <- (Nat.add_1_r j) in *.
      unfold v. rewrite dot_column, <- Co. ring.
  - exists (fun j => entry1 (t_b t) j). split; [|split].
    + intros j Hj. destruct (tab_differential cp o t MT Er) as (bt & Hb & _ & Eb). rewrite Eb. unfold entry1.
      pose proof (tables_nonneg _ _ _ Hb) as P. rewrite forallb_forall in P.
      destruct (Nat.lt_ge_cases j (length (bt_b bt))) as [Hl|Hl].
      * rewrite <- Q2R_0. apply Qle_Rle, Qle_bool_iff, P, nth_In, Hl.
      * rewrite nth_overflow by lia. rewrite Q2R_0. lra.
    + pose proof (b_sum cp o t MT Er) as B. destruct (o_repr o); [congruence| |]; exact B.
    + intros i Hi. rewrite (end_differential cp o t m rho MT NS c e i Co Cn Er Hi).
      match goal with |- (?a + ?b - ?a = _)%R => replace (a + b - a)%R with b by ring end.
      f_equal. apply rupto_ext. intros j Hj. f_equal.
      specialize (Co j i Hj Hi). cbv zeta in Co. destruct (o_repr o); [congruence|exact Co|exact (proj1 Co)].
Qed.
End Elt.

(* ---- averaged weights ---- *)
Lemma rupto_swap n k (f : nat -> nat -> R) : rupto n (fun a => rupto k (f a)) = rupto k (fun b => rupto n (fun a => f a b)).
Proof.
  induction n as [|n IH]; [rewrite rupto_0; symmetry; apply rupto_all0; intros; apply rupto_0|].
  rewrite <- Nat.add_1_r, rupto_S, IH, <- rupto_plus. apply rupto_ext. intros b _. rewrite rupto_S. reflexivity.
Qed.
Section Average.
Variables (m : model) (ns : nat) (be : nat -> R) (W : nat -> nat -> nat -> R).
Hypothesis Bpos : forall j, j < ns -> (0 <= be j)%R.
Hypothesis Bsum : (0 < rupto ns be)%R.
Hypothesis Wc : forall j, j < ns -> convex_weights m (W j).
Definition average (s k : nat) : R := (rupto ns (fun j => be j * W j s k) / rupto ns be)%R.

Lemma average_convex : convex_weights m average.
Proof.
  intros s Hs. split.
  - intros k Hk. unfold average. apply Rmult_le_pos; [|left; apply Rinv_0_lt_compat; exact Bsum].
    apply rupto_nonneg. intros j Hj. apply Rmult_le_pos; [apply Bpos, Hj|apply (proj1 (Wc j Hj s Hs)), Hk].
  - unfold average. rewrite (rupto_ext _ _ (fun k => (/ rupto ns be * rupto ns (fun j => be j * W j s k))%R)) by (intros; unfold Rdiv; ring).
    rewrite rupto_scale, rupto_swap. rewrite (rupto_ext ns (fun b => rupto (n_modes m s) (fun a => (be b * W b s a)%R)) be).
    + field. lra.
    + intros j Hj. rewrite rupto_scale, (proj2 (Wc j Hj s Hs)). ring.
Qed.
Lemma average_field v i : (rupto ns be * mixed_field m v average i = rupto ns (fun j => be j * mixed_field m v (W j) i))%R.
Proof.
  unfold mixed_field. rewrite <- rupto_scale. symmetry.
  transitivity (rupto ns (fun j => rupto (n_subsystems m) (fun s => (be j * rupto (n_modes m s) (fun k => mode_field m v s k i * W j s k))%R)));
    [apply rupto_ext; intros; symmetry; apply rupto_scale|].
  rewrite rupto_swap. apply rupto_ext. intros s _. rewrite <- rupto_scale.
  transitivity (rupto ns (fun j => rupto (n_modes m s) (fun k => (be j * (mode_field m v s k i * W j s k))%R)));
    [apply rupto_ext; intros; symmetry; apply rupto_scale|].
  rewrite rupto_swap. apply rupto_ext. intros k _. unfold average.
  transitivity (rupto ns (fun a => (mode_field m v s k i * (be a * W a s k))%R)); [apply rupto_ext; intros; ring|].
  rewrite rupto_scale. field. lra.
Qed.
Lemma average_support s k : s < n_subsystems m -> k < n_modes m s -> (0 < average s k)%R -> exists j, j < ns /\ (0 < W j s k)%R.
Proof.
  intros Hs Hk Hp. destruct (List.Exists_dec (fun j => (0 < W j s k)%R) (seq 0 ns)) as [E|E]; [intros x; apply Rlt_dec| |].
  - apply Exists_exists in E. destruct E as (j & Hj & E). apply in_seq in Hj. exists j. split; [lia|exact E].
  - exfalso. unfold average in Hp.
    rewrite (rupto_ext ns (fun j => (be j * W j s k)%R) (fun _ => 0%R)), (rupto_all0 ns (fun _ => 0%R) (fun _ => eq_refl)) in Hp; [unfold Rdiv in Hp; lra|].
    intros j Hj. assert (W j s k = 0%R); [|rewrite H; ring].
    pose proof (proj1 (Wc j Hj s Hs) k Hk). apply Rle_antisym; [|exact H]. apply Rnot_lt_le. intros Hn. apply E.
    apply Exists_exists. exists j. split; [apply in_seq; lia|exact Hn].
Qed.
End Average.

(* ---- affine switching functions ---- *)
Definition agree (m : model) (v w : env) : Prop :=
  (forall i, i < m_nx m -> v (MX i) = w (MX i)) /\ forall i, v (MPg i) = w (MPg i).
Definition mixed (v w z : env) (tau : R) : Prop :=
  (forall i, z (MX i) = ((1 - tau) * v (MX i) + tau * w (MX i))%R) /\
  (forall i, v (MPg i) = z (MPg i)) /\ (forall i, w (MPg i) = z (MPg i)).
Lemma affine_ext m e v w : affine m e -> agree m v w -> eval v e = eval w e.
Proof.
  intros [U _] [A B]. apply eval_ext. intros s Hs. specialize (U s Hs). destruct s; try contradiction; auto.
Qed.
Lemma affine_mix m e v w z tau : affine m e -> mixed v w z tau -> eval z e = ((1 - tau) * eval v e + tau * eval w e)%R.
Proof. intros [_ U] (A & B & D). apply U; assumption. Qed.
Section Affine.
Variable m : model.
Hypothesis AS : affine_switching m.
Lemma nth_affine l k : (forall e, In e l -> affine m e) -> affine m (nth k l (ECst 0)).
Proof.
  intros H. destruct (nth_in_or_default k l (ECst 0)) as [Hi| ->]; [apply H, Hi|]. split.
  - intros s [].
  - intros. cbn [eval]. lra.
Qed.
Lemma switch_affine s k : affine m (nth k (user_c m s) (ECst 0)).
Proof. apply nth_affine. intros e He. apply (AS s e). right. exact He. Qed.
Lemma switch_ext v w s k : agree m v w -> switch_value m v s k = switch_value m w s k.
Proof. intros A. apply (affine_ext m); [apply switch_affine|exact A]. Qed.
Lemma switch_mix v w z tau s k : mixed v w z tau -> (switch_value m z s k = (1 - tau) * switch_value m v s k + tau * switch_value m w s k)%R.
Proof. intros A. apply (affine_mix m); [apply switch_affine|exact A]. Qed.
Lemma region_ext v w s k : agree m v w -> region_value m v s k = region_value m w s k.
Proof.
  intros A. unfold region_value. destruct (gS_given m).
  - apply (affine_ext m); [|exact A]. apply nth_affine. intros e He. apply (AS s e). left. exact He.
  - f_equal. f_equal. apply map_ext_in. intros [q e] Hq. apply in_combine_r in Hq. cbn [fst snd]. f_equal.
    apply (affine_ext m); [apply (AS s e); right; exact Hq|exact A].
Qed.
Lemma region_mix v w z tau s k : mixed v w z tau -> (region_value m z s k = (1 - tau) * region_value m v s k + tau * region_value m w s k)%R.
Proof.
  intros A. unfold region_value. destruct (gS_given m).
  - apply (affine_mix m); [|exact A]. apply nth_affine. intros e He. apply (AS s e). left. exact He.
  - assert (G : forall l, (forall q e, In (q, e) l -> affine m e) ->
      (rsum (map (fun p => Q2R (fst p) * eval z (snd p)) l) =
       (1 - tau) * rsum (map (fun p => Q2R (fst p) * eval v (snd p)) l) + tau * rsum (map (fun p => Q2R (fst p) * eval w (snd p)) l))%R).
    { induction l as [|[q e] l IH]; intros Hl; cbn [map fst snd]; [rewrite !rsum_nil; lra|]. rewrite !rsum_cons.
      rewrite IH by (intros; eapply Hl; right; eassumption).
      rewrite (affine_mix m e v w z tau) by (solve [apply (Hl q e); left; reflexivity|exact A]). ring. }
    rewrite G; [ring|]. intros q e He. apply in_combine_r in He. apply (AS s e). right. exact He.
Qed.
End Affine.

Section Feas.
Variables (lr : Q -> Q -> Q -> nat) (cp : nat -> scheme -> list Q) (d : ipopt_dict) (o : opts) (m : model)
  (oc : option ocp) (C : constructed).
Hypothesis H : construct_problem lr cp d o m oc = Ok C.
Hypothesis Ex : o_constr o = Exact.
Hypothesis WS : well_sized m.
Variable rho : env.
Hypothesis BO : bounds_ok rho (the_nlp C).
Hypothesis CO : constraints_ok rho (the_nlp C).
Notation O := (the_opts C).
Notation t := (cn_tab C).
Hypothesis PO : points_ok cp O.
Hypothesis WN : weights_nonneg cp O.
Hypothesis ZR : zero_relaxation O rho.
Hypothesis L0 : initial_nonneg rho.
Hypothesis Hf : o_use_fesd O = true.
Hypothesis XC : o_cross O = SumLambdas \/ t_rbe t = true.
Hypothesis FN : m_F m <> None.
Hypothesis PC : piecewise_constant m.
Hypothesis AS : affine_switching m.
Hypothesis SGl : same_globals m rho.
Hypothesis IM : initial_multipliers O m rho.
Variables (c e nfe : nat).
Hypothesis I : is_fe O c e nfe.

Let W (j s k : nat) : R := weight O m (stage_point O t m rho c e j) s k.
Lemma weight_error_small : (weight_error O < 1)%R.
Proof. unfold weight_error. destruct (o_repr O); unfold Q2R, tolerance; cbn [Qnum Qden]; lra. Qed.
Lemma rhs_mixed j i tau : rhs O m (stage_point O t m rho c e j) i = mixed_field m (on_segment O t m rho c e tau) (W j) i.
Proof.
  unfold rhs. destruct (m_F m) eqn:EF; [|congruence]. unfold mixed_field. apply rupto_ext. intros s _. apply rupto_ext. intros k _.
  f_equal. unfold mode_field. apply eval_ext. intros y Hy. specialize (PC s k i y Hy). destruct y; try contradiction; reflexivity.
Qed.
Lemma element_core (act : env -> nat -> nat -> Prop) : (forall j, j < o_ns O -> convex_weights m (W j)) ->
  (forall j s k tau, j < o_ns O -> s < n_subsystems m -> k < n_modes m s -> (0 < W j s k)%R -> (0 <= tau <= 1)%R ->
     act (on_segment O t m rho c e tau) s k) ->
  exists kappa, (Rabs (kappa - 1) <= weight_error O)%R /\ filippov_element O t m rho act c e kappa.
Proof.
  intros Wc Ws. destruct (elem_all _ _ _ _ _ _ _ H Ex WS rho CO c e nfe I) as (_ & Co & Cn & _).
  destruct (weights cp O t m rho (t_made _ _ _ _ _ _ _ H) (ns_pos _ _ _ _ _ _ _ H) c e PO WN Co Cn) as (be & B1 & B2 & B3).
  assert (B4 : (0 < rupto (o_ns O) be)%R) by (pose proof weight_error_small; unfold Rabs in B2; destruct (Rcase_abs _) in B2; lra).
  exists (rupto (o_ns O) be). split; [exact B2|]. exists (average (o_ns O) be W). split; [|split].
  - apply average_convex; assumption.
  - intros i tau Hi. rewrite (B3 i Hi). f_equal.
    match goal with |- _ = (?a * (?b * ?x))%R => replace (a * (b * x))%R with (b * (a * x))%R by ring end.
    rewrite (average_field m (o_ns O) be W B4), <- rupto_scale. apply rupto_ext. intros j Hj. rewrite (rhs_mixed j i tau). ring.
  - intros tau s k Ht Hs Hk Hp. destruct (average_support m (o_ns O) be W Wc s k Hs Hk Hp) as (j & Hj & HW).
    apply (Ws j); assumption.
Qed.

(* ---- the two end points ---- *)
Lemma final_end c' e' nfe' i : is_fe O c' e' nfe' -> i < m_nx m -> final_state O t rho c' e' i = end_state O t rho c' e' i.
Proof.
  intros I' Hi. unfold final_state. destruct (t_rbe t) eqn:R; [|reflexivity].
  destruct (elem_all _ _ _ _ _ _ _ H Ex WS rho CO c' e' nfe' I') as (_ & Co & Cn & _).
  exact (end_is_last_stage cp O t m rho (t_made _ _ _ _ _ _ _ H) c' e' i Co Cn R Hi).
Qed.
Let PE := plain_point m rho c (end_state O t rho c e).
Let PS := plain_point m rho c (start_state O t rho c e).
Lemma end_agrees : agree m (bpoint m C rho c e) PE.
Proof. split; [|reflexivity]. intros i Hi. exact (final_end c e nfe i I Hi). Qed.
Lemma start_agrees c' e' : before O c e = Some (c', e') -> agree m (bpoint m C rho c' e') PS.
Proof.
  intros Eb. destruct (prev_fe _ _ _ _ _ _ _ H c e nfe c' e' I Eb) as [nfe' I']. split.
  - intros i Hi. unfold PS, bpoint, plain_point, at_point, start_state. rewrite Eb. cbn [state_at]. exact (final_end c' e' nfe' i I' Hi).
  - intros i. apply SGl.
Qed.
Lemma start_initial : before O c e = None -> agree m (plain_point m rho 0 (fun i => rho (SX0 i))) PS.
Proof.
  intros Eb. split.
  - intros i _. unfold PS, plain_point, at_point, start_state. rewrite Eb. reflexivity.
  - intros i. apply SGl.
Qed.
Lemma segment_mixed tau : mixed PS PE (on_segment O t m rho c e tau) tau.
Proof. split; [|split]; intros i; reflexivity. Qed.
Lemma own_slot : n_mult O t c e - 1 < match o_cross O with SumLambdas => n_mult O t c e | _ => o_ns O end.
Proof.
  pose proof (n_mult_ge C c e) as G. pose proof (ns_pos _ _ _ _ _ _ _ H) as P.
  destruct XC as [E|E]; [rewrite E; lia|]. pose proof (n_mult_explicit C c e E). destruct (o_cross O); lia.
Qed.
Lemma slot_points c' e' nfe' f : is_fe O c' e' nfe' -> f <> FTheta -> f <> FAlpha -> n_mult O t c' e' - 1 < points2 O (t_rbe t) nfe' e' f.
Proof.
  intros I' F1 F2. pose proof (n_mult_ge C c' e'). pose proof (ns_pos _ _ _ _ _ _ _ H). pose proof (n_mult_val C c' e' nfe' I') as E.
  assert (points2 O (t_rbe t) nfe' e' f = points2 O (t_rbe t) nfe' e' FLam) by (destruct f; try congruence; reflexivity). lia.
Qed.
Lemma mix_le tau a b a' b' : (0 <= tau <= 1)%R -> (a <= a')%R -> (b <= b')%R -> ((1 - tau) * a + tau * b <= (1 - tau) * a' + tau * b')%R.
Proof. intros [T1 T2] Ha Hb. apply Rplus_le_compat; apply Rmult_le_compat_l; lra. Qed.

Section Stewart.
Hypothesis Ep : o_pss O = Stewart.
Lemma W_theta j s k : W j s k = rho (S2 FTheta c e j s k).
Proof. unfold W, weight. rewrite Ep. reflexivity. Qed.
Lemma lam_of c' e' nfe' : is_fe O c' e' nfe' -> exists mu : nat -> R, forall s k, s < n_subsystems m -> k < n_modes m s ->
  (rho (S2 FLam c' e' (n_mult O t c' e' - 1) s k) = region_value m (bpoint m C rho c' e') s k + mu s)%R /\
  (0 <= rho (S2 FLam c' e' (n_mult O t c' e' - 1) s k))%R.
Proof.
  intros I'. exists (fun s => bpoint m C rho c' e' (MF FMu s 0)). intros s k Hs Hk.
  pose proof (boundary_switching _ _ _ _ _ _ _ H Ex WS rho CO c' e' nfe' Hf I' s k Hs) as B. unfold n_switching, switching_residual in B. rewrite Ep in B.
  specialize (B Hk). split.
  - change (rho (S2 FLam c' e' (n_mult O t c' e' - 1) s k)) with (bpoint m C rho c' e' (MF FLam s k)). lra.
  - apply (alg_nonneg _ _ _ _ _ _ _ H rho BO c' e' nfe'); [exact (zr_product _ _ ZR)|discriminate|exact I'| |exact Hs|].
    + apply slot_points; [exact I'|discriminate|discriminate].
    + rewrite (proj1 (proj2 (dim2_stewart O m Ep))). exact Hk.
Qed.
Lemma stewart_segment j s k tau : j < o_ns O -> s < n_subsystems m -> k < n_modes m s -> (0 < W j s k)%R -> (0 <= tau <= 1)%R ->
  smallest m (on_segment O t m rho c e tau) s k.
Proof.
  intros Hj Hs Hk Hw Ht k' Hk'. rewrite W_theta in Hw.
  destruct (stewart_exclusive _ _ _ _ _ _ _ H Ex WS rho BO CO c e nfe j s k ZR L0 Hf Ep I Hj Hs Hk Hw) as [A B].
  rewrite (region_mix m AS PS PE _ tau s k (segment_mixed tau)), (region_mix m AS PS PE _ tau s k' (segment_mixed tau)).
  apply mix_le; [exact Ht| |].
  - destruct (before O c e) as [[c' e']|] eqn:Eb.
    + destruct (prev_fe _ _ _ _ _ _ _ H c e nfe c' e' I Eb) as [nfe' I']. destruct (lam_of c' e' nfe' I') as (mu & L).
      rewrite <- (region_ext m AS _ PS s k (start_agrees c' e' Eb)), <- (region_ext m AS _ PS s k' (start_agrees c' e' Eb)).
      destruct (L s k Hs Hk) as [L1 _]. destruct (L s k' Hs Hk') as [L2 L3]. lra.
    + unfold initial_multipliers in IM. rewrite Ep in IM. destruct IM as (mu & L).
      rewrite <- (region_ext m AS _ PS s k (start_initial Eb)), <- (region_ext m AS _ PS s k' (start_initial Eb)).
      pose proof (L s k Hs Hk) as L1. pose proof (L s k' Hs Hk') as L2. pose proof (L0 FLam s k'). cbv zeta in *. lra.
  - destruct (lam_of c e nfe I) as (mu & L). rewrite <- (region_ext m AS _ PE s k end_agrees), <- (region_ext m AS _ PE s k' end_agrees).
    destruct (L s k Hs Hk) as [L1 _]. destruct (L s k' Hs Hk') as [L2 L3]. specialize (A _ own_slot). lra.
Qed.
Lemma stewart_element : exists kappa, (Rabs (kappa - 1) <= weight_error O)%R /\ filippov_element O t m rho (smallest m) c e kappa.
Proof.
  apply element_core.
  - intros j Hj s Hs. destruct (convex _ _ _ _ _ _ _ H Ex WS rho BO CO c e nfe j s I Hj Hs Ep (zr_product _ _ ZR)) as [A B]. split.
    + intros k Hk. rewrite W_theta. apply A, Hk.
    + rewrite (rupto_ext _ _ (fun k => rho (S2 FTheta c e j s k))) by (intros; apply W_theta). exact B.
  - intros. eapply stewart_segment; eassumption.
Qed.
End Stewart.

Section Step.
Hypothesis Ep : o_pss O = Step.
Hypothesis SM : sign_matrix m.
Hypothesis RF : rows_fit m.
Hypothesis CM : forall s, s < n_subsystems m -> complete m s.
Let al (j s k : nat) : R := rho (S2 FAlpha c e j s k).

Lemma al_range j s k : j < o_ns O -> s < n_subsystems m -> k < n_switch m s -> (0 <= al j s k <= 1)%R.
Proof.
  intros Hj Hs Hk. destruct (dim2_step O m Ep) as (D1 & _). split.
  - apply (alg_nonneg _ _ _ _ _ _ _ H rho BO c e nfe); [exact (zr_product _ _ ZR)|discriminate|exact I|exact Hj|exact Hs|rewrite D1; exact Hk].
  - apply (alpha_le1 _ _ _ _ _ _ _ H rho BO c e nfe); [exact I|exact Hj|exact Hs|rewrite D1; exact Hk].
Qed.
Lemma W_fac j s k : s < n_subsystems m -> k < n_modes m s ->
  W j s k = rprod (map (fun r => fac (sign m s k r) (al j s r)) (seq 0 (n_switch m s))).
Proof. intros Hs Hk. exact (step_weight_factors O m (stage_point O t m rho c e j) Ep s k (RF s k Hs Hk)). Qed.
Lemma fac_nonneg q a : is_sign q -> (0 <= a <= 1)%R -> (0 <= fac q a)%R.
Proof.
  intros Hq Ha. unfold fac. destruct (Qeq_bool q 0) eqn:E; [lra|]. destruct Hq as [Hq|[Hq|Hq]].
  - rewrite (Qeq_eqR _ _ Hq). replace (Q2R (-1)) with (-1)%R by (unfold Q2R; cbn; lra). lra.
  - apply Qeq_bool_iff in Hq. congruence.
  - rewrite (Qeq_eqR _ _ Hq), Q2R_1. lra.
Qed.
Lemma rprod_nonneg (f : nat -> R) l : (forall k, In k l -> (0 <= f k)%R) -> (0 <= rprod (map f l))%R.
Proof. induction l as [|x l IH]; intros Hl; cbn [map rprod fold_right]; [lra|]. apply Rmult_le_pos; [apply Hl; left; reflexivity|apply IH; intros; apply Hl; right; assumption]. Qed.
Lemma step_convex j : j < o_ns O -> convex_weights m (W j).
Proof.
  intros Hj s Hs. split.
  - intros k Hk. rewrite (W_fac j s k Hs Hk). apply rprod_nonneg. intros r Hr. apply in_seq in Hr. apply fac_nonneg; [apply SM|apply al_range; [exact Hj|exact Hs|lia]].
  - rewrite (rupto_ext _ _ (fun k => rprod (map (fun r => fac (sign m s k r) (al j s r)) (seq 0 (n_switch m s))))) by (intros; apply W_fac; assumption).
    apply unity; [intros i k; apply SM|exact (CM s Hs)].
Qed.
Lemma step_support j s k r : j < o_ns O -> s < n_subsystems m -> k < n_modes m s -> (0 < W j s k)%R -> r < n_switch m s ->
  ((sign m s k r == 1)%Q -> (0 < al j s r)%R) /\ ((sign m s k r == -1)%Q -> (al j s r < 1)%R).
Proof.
  intros Hj Hs Hk Hw Hr. rewrite (W_fac j s k Hs Hk) in Hw. pose proof (al_range j s r Hj Hs Hr) as Ha.
  assert (G : fac (sign m s k r) (al j s r) <> 0%R).
  { intros E. rewrite (rprod_zero _ _ r) in Hw; [lra|apply in_seq; lia|exact E]. }
  unfold fac in G. split; intros E; rewrite (Qeq_eqR _ _ E) in G; destruct (Qeq_bool (sign m s k r) 0) eqn:Z.
  - apply Qeq_bool_iff in Z. rewrite Z in E. discriminate.
  - rewrite Q2R_1 in G. lra.
  - apply Qeq_bool_iff in Z. rewrite Z in E. discriminate.
  - replace (Q2R (-1)) with (-1)%R in G by (unfold Q2R; cbn; lra). lra.
Qed.
Lemma step_initial j s k : before O c e = None -> j < o_ns O -> s < n_subsystems m -> k < n_switch m s ->
  ((0 < al j s k)%R -> rho (SL00 FLn s k) = 0%R) /\ ((al j s k < 1)%R -> rho (SL00 FLp s k) = 0%R).
Proof.
  intros Eb Hj Hs Hk. destruct (step_vecs O m rho Ep) as (_ & VT & NP). destruct (dim2_step O m Ep) as (D1 & D2 & D3 & D4 & _).
  assert (Ha : k < dim2 O m FAlpha s) by (rewrite D1; exact Hk). assert (Hn : k < dim2 O m FLn s) by (rewrite D2; exact Hk).
  assert (Hp : k < dim2 O m FLp s) by (rewrite D3; exact Hk).
  set (q := upto s (n_switch m) + k).
  assert (Qa : q = upto s (dim2 O m FAlpha) + k) by (unfold q; rewrite (upto_ext _ _ _ D1); reflexivity).
  assert (Qn : q = upto s (dim2 O m FLn) + k) by (unfold q; rewrite (upto_ext _ _ _ D2); reflexivity).
  assert (Qp : q = upto s (dim2 O m FLp) + k) by (unfold q; rewrite (upto_ext _ _ _ D3); reflexivity).
  set (N := upto (n_subsystems m) (n_switch m)).
  assert (Na : N = upto (n_subsystems m) (dim2 O m FAlpha)) by (unfold N; rewrite (upto_ext _ _ _ D1); reflexivity).
  assert (Nn : N = upto (n_subsystems m) (dim2 O m FLn)) by (unfold N; rewrite (upto_ext _ _ _ D2); reflexivity).
  assert (Hq : q < N) by (apply upto_lt; assumption).
  assert (VL : lam00 O m rho = over_systems m (fun s i => rho (SL00 FLn s i)) (dim2 O m FLn) ++ over_systems m (fun s i => rho (SL00 FLp s i)) (dim2 O m FLp)).
  { unfold lam00. cbn [map concat]. rewrite (over_zero m _ (dim2 O m FLam) D4), app_nil_r. reflexivity. }
  assert (L1 : ent (lam00 O m rho) q = rho (SL00 FLn s k)).
  { rewrite VL, Qn. apply (sp_half m (fun s i => rho (SL00 FLn s i)) _ _ _ eq_refl); assumption. }
  assert (L2 : ent (lam00 O m rho) (N + q) = rho (SL00 FLp s k)).
  { rewrite VL, Nn, Qn, sp_half2 by assumption. rewrite <- Qn, Qp. apply (ent_over m (fun s i => rho (SL00 FLp s i))); assumption. }
  assert (T1 : ent (theta_vec O m rho c e j) q = al j s k).
  { rewrite VT. unfold values at 1. rewrite Qa. apply (sp_half m (fun s i => rho (S2 FAlpha c e j s i)) _ _ _ eq_refl); assumption. }
  assert (T2 : ent (theta_vec O m rho c e j) (N + q) = (1 - al j s k)%R).
  { rewrite VT. unfold values at 1. rewrite Na, Qa. rewrite sp_half2 by assumption. unfold ent.
    assert (G : nth_error (map (fun a => (1 - a)%R) (values O m rho FAlpha c e j)) (upto s (dim2 O m FAlpha) + k) = Some (1 - rho (S2 FAlpha c e j s k))%R).
    { rewrite nth_error_map. unfold values. rewrite (over_at m (fun s i => rho (S2 FAlpha c e j s i)) _ s k Hs Ha). reflexivity. }
    rewrite (nth_error_nth _ _ _ G). reflexivity. }
  split; intros Hth.
  - destruct (exclusive _ _ _ _ _ _ _ H Ex WS rho BO CO c e nfe j q ZR L0 Hf I Hj ltac:(rewrite NP; fold N; lia) ltac:(rewrite T1; exact Hth)) as [_ B].
    unfold prev_lam in B. rewrite Eb in B. cbn [last_lam] in B. rewrite L1 in B. exact B.
  - destruct (exclusive _ _ _ _ _ _ _ H Ex WS rho BO CO c e nfe j (N + q) ZR L0 Hf I Hj ltac:(rewrite NP; fold N; lia) ltac:(rewrite T2; lra)) as [_ B].
    unfold prev_lam in B. rewrite Eb in B. cbn [last_lam] in B. rewrite L2 in B. exact B.
Qed.
Lemma switch_of c' e' nfe' s k : is_fe O c' e' nfe' -> s < n_subsystems m -> k < n_switch m s ->
  (switch_value m (bpoint m C rho c' e') s k = rho (S2 FLp c' e' (n_mult O t c' e' - 1) s k) - rho (S2 FLn c' e' (n_mult O t c' e' - 1) s k))%R /\
  (0 <= rho (S2 FLp c' e' (n_mult O t c' e' - 1) s k))%R /\ (0 <= rho (S2 FLn c' e' (n_mult O t c' e' - 1) s k))%R.
Proof.
  intros I' Hs Hk. destruct (dim2_step O m Ep) as (D1 & D2 & D3 & _).
  pose proof (boundary_switching _ _ _ _ _ _ _ H Ex WS rho CO c' e' nfe' Hf I' s k Hs) as B. unfold n_switching, switching_residual in B. rewrite Ep in B.
  specialize (B Hk). split; [|split].
  - change (rho (S2 FLp c' e' (n_mult O t c' e' - 1) s k)) with (bpoint m C rho c' e' (MF FLp s k)).
    change (rho (S2 FLn c' e' (n_mult O t c' e' - 1) s k)) with (bpoint m C rho c' e' (MF FLn s k)). lra.
  - apply (alg_nonneg _ _ _ _ _ _ _ H rho BO c' e' nfe'); [exact (zr_product _ _ ZR)|discriminate|exact I'| |exact Hs|rewrite D3; exact Hk].
    apply slot_points; [exact I'|discriminate|discriminate].
  - apply (alg_nonneg _ _ _ _ _ _ _ H rho BO c' e' nfe'); [exact (zr_product _ _ ZR)|discriminate|exact I'| |exact Hs|rewrite D2; exact Hk].
    apply slot_points; [exact I'|discriminate|discriminate].
Qed.
Lemma step_signs j s k : j < o_ns O -> s < n_subsystems m -> k < n_switch m s ->
  ((0 < al j s k)%R -> (0 <= switch_value m PS s k /\ 0 <= switch_value m PE s k)%R) /\
  ((al j s k < 1)%R -> (switch_value m PS s k <= 0 /\ switch_value m PE s k <= 0)%R).
Proof.
  intros Hj Hs Hk.
  destruct (step_exclusive _ _ _ _ _ _ _ H Ex WS rho BO CO c e nfe j s k ZR L0 Hf Ep I Hj Hs Hk) as [XA XB].
  fold (al j s k) in XA, XB.
  rewrite <- (switch_ext m AS _ PE s k end_agrees). destruct (switch_of c e nfe s k I Hs Hk) as (E1 & E2 & E3). rewrite E1.
  destruct (before O c e) as [[c' e']|] eqn:Eb.
  - rewrite <- (switch_ext m AS _ PS s k (start_agrees c' e' Eb)).
    destruct (prev_fe _ _ _ _ _ _ _ H c e nfe c' e' I Eb) as [nfe' I'].
    destruct (switch_of c' e' nfe' s k I' Hs Hk) as (F1 & F2 & F3). rewrite F1.
    split; intros Ha; [destruct (XA Ha) as [G1 G2]|destruct (XB Ha) as [G1 G2]]; rewrite (G1 _ own_slot), (G2 c' e' eq_refl); lra.
  - rewrite <- (switch_ext m AS _ PS s k (start_initial Eb)). unfold initial_multipliers in IM. rewrite Ep in IM.
    rewrite <- (IM s k Hs Hk). pose proof (L0 FLp s k). pose proof (L0 FLn s k). destruct (step_initial j s k Eb Hj Hs Hk) as [YA YB].
    split; intros Ha; [destruct (XA Ha) as [G1 _]; rewrite (YA Ha)|destruct (XB Ha) as [G1 _]; rewrite (YB Ha)]; rewrite (G1 _ own_slot); lra.
Qed.
Lemma step_segment j s k tau : j < o_ns O -> s < n_subsystems m -> k < n_modes m s -> (0 < W j s k)%R -> (0 <= tau <= 1)%R ->
  in_closed_region m (on_segment O t m rho c e tau) s k.
Proof.
  intros Hj Hs Hk Hw Ht r Hr. rewrite (switch_mix m AS PS PE _ tau s r (segment_mixed tau)).
  destruct (step_support j s k r Hj Hs Hk Hw Hr) as [S1' S2']. destruct (step_signs j s r Hj Hs Hr) as [G1 G2].
  destruct (SM s k r) as [E|[E|E]]; rewrite (Qeq_eqR _ _ E).
  - destruct (G2 (S2' E)) as [P1 P2]. pose proof (mix_le tau _ _ 0 0 Ht P1 P2). replace (Q2R (-1)) with (-1)%R by (unfold Q2R; cbn; lra). lra.
  - rewrite Q2R_0. lra.
  - destruct (G1 (S1' E)) as [P1 P2]. pose proof (mix_le tau 0 0 _ _ Ht P1 P2). rewrite Q2R_1. lra.
Qed.
Lemma step_element : exists kappa, (Rabs (kappa - 1) <= weight_error O)%R /\ filippov_element O t m rho (in_closed_region m) c e kappa.
Proof. apply element_core; [exact step_convex|]. intros. eapply step_segment; eassumption. Qed.
End Step.

End Feas.

(* as a function of time *)
Lemma element_solution' (o : opts) (t : tab) (m : model) (rho : env) c e act kappa : (0 < step_len o rho c e)%R -> filippov_element o t m rho act c e kappa -> filippov_solution o t m rho act c e kappa.
Proof.
  intros Hh (th & A & B & D). exists th. split; [exact A|]. intros t0 tm Ht.
  set (h := step_len o rho c e) in *. set (tau := ((tm - t0) / h)%R).
  assert (T : (0 <= tau <= 1)%R).
  { unfold tau. split; [apply Rmult_le_pos; [lra|left; apply Rinv_0_lt_compat; exact Hh]|].
    apply Rmult_le_reg_r with h; [exact Hh|]. unfold Rdiv. rewrite Rmult_assoc, Rinv_l by lra. lra. }
  split.
  - intros i Hi. specialize (B i tau Hi). unfold along, trajectory. fold h. fold tau. change (plain_point m rho c (segment o t rho c e tau)) with (on_segment o t m rho c e tau).
    set (v := (kappa * (speed o rho c * mixed_field m (on_segment o t m rho c e tau) th i))%R) in *.
    apply derivable_pt_lim_ext with (f := fun x => (start_state o t rho c e i + v * (x - t0))%R).
    + intros x. unfold segment. replace (end_state o t rho c e i) with (start_state o t rho c e i + h * v)%R by lra. field. lra.
    + apply (eq_ind (0 + v * (1 - 0))%R (fun y => derivable_pt_lim (fun x => (start_state o t rho c e i + v * (x - t0))%R) tm y)); [|ring].
      apply (derivable_pt_lim_plus (fun _ => start_state o t rho c e i) (fun x => (v * (x - t0))%R)).
      * apply derivable_pt_lim_const.
      * apply (derivable_pt_lim_scal (fun x => (x - t0)%R)). apply (derivable_pt_lim_minus (fun x => x) (fun _ => t0)); [apply derivable_pt_lim_id|apply derivable_pt_lim_const].
  - intros s k Hs Hk Hp. apply (D tau); assumption.
Qed.
