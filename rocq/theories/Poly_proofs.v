(* Poly_proofs.v -- polynomials and generate_butcher_tableu_integral *)
From Coq Require Import Reals Lra Qreals.
From Verif Require Import Base Lib Sx Sx_proofs Utils Tableau Opts Model Ocp Problem Spec Tableau_proofs.
#[local] Open Scope R_scope.

(* ---- real polynomials, constant coefficient first ---- *)
Lemma peval_app a b x : peval (a ++ b) x = peval a x + x ^ length a * peval b x.
Proof. induction a as [|c a IH]; cbn; [ring|]. rewrite IH. ring. Qed.
Fixpoint padd (a b : list R) : list R :=
  match a, b with [], _ => b | _, [] => a | x :: a', y :: b' => (x + y) :: padd a' b' end.
Lemma peval_padd a : forall b x, peval (padd a b) x = peval a x + peval b x.
Proof. induction a as [|c a IH]; intros [|d b] x; cbn; try ring. rewrite IH. ring. Qed.
Lemma length_padd a : forall b, length (padd a b) = Nat.max (length a) (length b).
Proof. induction a as [|c a IH]; intros [|d b]; cbn; try reflexivity. rewrite IH. reflexivity. Qed.
Definition pscale (k : R) (a : list R) : list R := map (fun c => k * c) a.
Lemma peval_pscale k a x : peval (pscale k a) x = k * peval a x.
Proof. induction a as [|c a IH]; cbn; [ring|]. unfold pscale in IH. rewrite IH. ring. Qed.
(* division by x - r *)
Lemma pdiv_root a r : exists q, length q = pred (length a) /\ forall x, peval a x = (x - r) * peval q x + peval a r.
Proof.
  induction a as [|c a (q & Hl & Hq)].
  - exists []. split; [reflexivity|]. intros x. cbn. ring.
  - destruct a as [|c' a].
    + exists []. split; [reflexivity|]. intros x. cbn. ring.
    + exists (peval (c' :: a) r :: q). split; [cbn in *; lia|]. intros x.
      cbn [peval]. cbn [peval] in Hq. specialize (Hq x). 
      change (c + x * peval (c' :: a) x = (x - r) * (peval (c' :: a) r + x * peval q x) + (c + r * peval (c' :: a) r)).
      cbn [peval]. rewrite Hq. ring.
Qed.
Lemma roots_zero n : forall a (rs : list R), (length a <= n)%nat -> length rs = n -> NoDup rs ->
  (forall r, In r rs -> peval a r = 0) -> forall x, peval a x = 0.
Proof.
  induction n as [|n IH]; intros a rs Ha Hr Hd Hz x.
  - destruct a; [reflexivity|cbn in Ha; lia].
  - destruct rs as [|r rs]; [discriminate|]. destruct (pdiv_root a r) as (q & Hl & Hq).
    assert (H0 := Hz r (or_introl eq_refl)).
    rewrite Hq, H0, (IH q rs); [ring|lia|cbn in Hr; lia|inversion Hd; assumption|].
    intros s Hs. assert (Hs0 := Hz s (or_intror Hs)). rewrite Hq, H0 in Hs0.
    inversion Hd as [|? ? Hn _]; subst. assert (s - r <> 0) by (intros E; apply Hn; replace r with s by lra; assumption).
    apply (Rmult_eq_reg_l (s - r)); [lra|assumption].
Qed.
(* derivative *)
Fixpoint pder (a : list R) : list R :=
  match a with [] => [] | c :: a' => match a' with [] => [] | _ => padd a' (0 :: pder a') end end.
Lemma pder_cons c a x : peval (pder (c :: a)) x = peval a x + x * peval (pder a) x.
Proof. destruct a as [|d a]; [cbn; ring|]. cbn [pder]. rewrite peval_padd. cbn [peval]. ring. Qed.
Lemma length_pder a : (length (pder a) <= pred (length a))%nat.
Proof.
  induction a as [|c a IH]; [cbn; lia|]. destruct a as [|d a]; [cbn; lia|].
  change (pder (c :: d :: a)) with (padd (d :: a) (0 :: pder (d :: a))). rewrite length_padd.
  change (length (0 :: pder (d :: a))) with (S (length (pder (d :: a)))). cbn [length pred] in *. lia.
Qed.
Lemma peval_deriv a x : derivable_pt_lim (peval a) x (peval (pder a) x).
Proof.
  revert x. induction a as [|c a IH]; intros x; [apply (derivable_pt_lim_const 0)|].
  rewrite pder_cons. replace (peval a x + x * peval (pder a) x) with (0 + (1 * peval a x + x * peval (pder a) x)) by ring.
  apply (derivable_pt_lim_plus (fun _ => c) (fun x => x * peval a x)); [apply (derivable_pt_lim_const c)|].
  apply (derivable_pt_lim_mult (fun x => x) (peval a)); [apply derivable_pt_lim_id|apply IH].
Qed.
Lemma peval_zero_der a : (forall x, peval (pder a) x = 0) -> forall x y, peval a x = peval a y.
Proof.
  intros H x y.
  assert (D : forall z, derivable_pt_lim (peval a) z 0) by (intros z; rewrite <- (H z); apply peval_deriv).
  assert (pr : derivable (peval a)) by (intros z; exists 0; apply D).
  assert (C : constant (peval a)).
  { apply (null_derivative_1 (peval a) pr). intros z. apply (uniqueness_limite (peval a) z); [apply derive_pt_eq_1 with (pr := pr z); reflexivity|apply D]. }
  apply C.
Qed.

(* ---- numpy polynomials: rational, highest coefficient first ---- *)
Fixpoint hval (p : list Q) (x : R) : R :=
  match p with [] => 0 | c :: p' => Q2R c * x ^ length p' + hval p' x end.
Lemma hval_cons c p x : hval (c :: p) x = Q2R c * x ^ length p + hval p x.
Proof. reflexivity. Qed.
Lemma hval_peval p x : hval p x = peval (map Q2R (rev p)) x.
Proof.
  induction p as [|c p IH]; [reflexivity|]. cbn [hval rev]. rewrite map_app, peval_app, IH, map_length, rev_length.
  cbn. ring.
Qed.
Lemma polyval_hval p q : Q2R (polyval p q) = hval p (Q2R q).
Proof.
  unfold polyval. enough (forall acc, Q2R (fold_left (fun acc c => Qred (acc * q + c)) p acc) = Q2R acc * Q2R q ^ length p + hval p (Q2R q)) as H.
  { rewrite H, Q2R_0. ring. }
  induction p as [|c p IH]; intros acc; cbn [fold_left hval length]; [cbn; ring|].
  rewrite IH, Qred_R, Q2R_plus, Q2R_mult. cbn [pow]. ring.
Qed.
Lemma hval_zipadd u v x : (length u <= length v)%nat ->
  hval (zipadd u v) x = x ^ (length v - length u) * hval u x + hval v x /\ length (zipadd u v) = length v.
Proof.
  revert v. induction u as [|a u IH]; intros v Hl; [cbn; split; [ring|reflexivity]|].
  destruct v as [|b v]; [cbn in Hl; lia|]. cbn [zipadd hval length] in *. destruct (IH v) as [E El]; [lia|].
  rewrite E, El, Qred_R, Q2R_plus. split; [|reflexivity]. cbn [Nat.sub].
  assert (Ep : x ^ length v = x ^ (length v - length u) * x ^ length u) by (rewrite <- pow_add; f_equal; lia).
  rewrite Ep. ring.
Qed.
Lemma hval_map_mult k b x : hval (map (fun y => Qred (k * y)) b) x = Q2R k * hval b x.
Proof.
  induction b as [|c b IH]; cbn [map hval]; [ring|]. rewrite IH, map_length, Qred_R, Q2R_mult. ring.
Qed.
Lemma hval_convolve a : forall b x, b <> [] -> a <> [] ->
  hval (convolve a b) x = hval a x * hval b x /\ S (length (convolve a b)) = (length a + length b)%nat.
Proof.
  induction a as [|c a IH]; intros b x Hb Ha; [congruence|]. cbn [convolve hval].
  destruct a as [|c' a].
  - cbn [convolve]. assert (0 < length b)%nat by (destruct b; [congruence|cbn; lia]).
    assert (E : zipadd (map (fun y => Qred (c * y)) b) [0%Q] = zipadd (map (fun y => Qred (c * y)) b) [0%Q]) by reflexivity.
    destruct b as [|b0 b]; [congruence|]. cbn [map zipadd hval length].
    assert (Ez : forall l, zipadd l [] = l) by (intros [|? ?]; reflexivity).
    rewrite Ez, hval_map_mult, map_length, !Qred_R, Q2R_plus, Qred_R, Q2R_mult, Q2R_0. cbn [pow hval]. split; [ring|lia].
  - destruct (IH b x Hb) as [E El]; [discriminate|].
    destruct (hval_zipadd (map (fun y => Qred (c * y)) b) (0%Q :: convolve (c' :: a) b) x) as [Ez Ezl].
    { rewrite map_length. cbn [length] in *. lia. }
    rewrite Ez, Ezl, hval_map_mult, map_length. cbn [hval length] in *. rewrite E, Q2R_0.
    replace (S (length (convolve (c' :: a) b)) - length b)%nat with (S (length a)) by lia.
    split; [cbn [hval]; ring|lia].
Qed.
Lemma hval_scale_div k p x : Q2R k <> 0 -> hval (map (fun c => Qred (c / k)) p) x = hval p x / Q2R k.
Proof.
  intros Hk. assert (Hq : Qeq_bool k 0 = false).
  { destruct (Qeq_bool k 0) eqn:E; [|reflexivity]. apply Q2R_eq in E. rewrite Q2R_0 in E. congruence. }
  induction p as [|c p IH]; cbn [map hval]; [unfold Rdiv; ring|].
  rewrite IH, map_length, Qred_R, Q2R_div' by assumption. unfold Rdiv. ring.
Qed.
Lemma polyder_hval p : forall x, derivable_pt_lim (hval p) x (hval (polyder p) x).
Proof.
  induction p as [|c p IH]; intros x; [apply (derivable_pt_lim_const 0)|].
  destruct p as [|d p].
  - cbn [polyder hval]. apply (derivable_pt_lim_ext (fun _ => Q2R c)); [intros; cbn; ring|]. apply (derivable_pt_lim_const (Q2R c)).
  - assert (Ll : forall q, length (polyder q) = pred (length q)).
    { induction q as [|u q IHq]; [reflexivity|]. destruct q; [reflexivity|]. cbn in *. rewrite IHq. reflexivity. }
    assert (Ed : polyder (c :: d :: p) = Qred (c * inject_Z (Z.of_nat (length (d :: p)))) :: polyder (d :: p)) by reflexivity.
    rewrite Ed, hval_cons.
    rewrite Qred_R, Q2R_mult, Ll.
    apply (derivable_pt_lim_plus (fun x => Q2R c * x ^ length (d :: p)) (hval (d :: p))); [|apply IH].
    assert (E : Q2R (inject_Z (Z.of_nat (length (d :: p)))) = INR (length (d :: p))).
    { rewrite INR_IZR_INZ. unfold Q2R, inject_Z. cbn [Qnum Qden]. rewrite Rinv_1. ring. }
    rewrite E, Rmult_assoc. apply (derivable_pt_lim_scal (fun x => x ^ length (d :: p))). apply derivable_pt_lim_pow.
Qed.
Lemma length_polyint_aux p : length (polyint_aux p) = length p.
Proof. induction p as [|c p IH]; cbn; [reflexivity|]. rewrite IH. reflexivity. Qed.
Lemma hval_snoc0 p x : hval (p ++ [0%Q]) x = x * hval p x.
Proof.
  induction p as [|c p IH]; cbn [app hval length]; [rewrite Q2R_0; cbn; ring|].
  rewrite IH, app_length. cbn [length]. rewrite Nat.add_1_r. cbn [pow]. ring.
Qed.
Lemma polyint_hval p : forall x, derivable_pt_lim (hval (polyint p)) x (hval p x).
Proof.
  unfold polyint. induction p as [|c p IH]; intros x.
  - cbn [polyint_aux app hval]. apply (derivable_pt_lim_ext (fun _ => 0)); [intros; cbn; rewrite Q2R_0; ring|]. apply (derivable_pt_lim_const 0).
  - change (polyint_aux (c :: p) ++ [0%Q]) with (Qred (c / inject_Z (Z.of_nat (length (c :: p)))) :: (polyint_aux p ++ [0%Q])).
    assert (Hn : Qeq_bool (inject_Z (Z.of_nat (length (c :: p)))) 0 = false).
    { apply Bool.not_true_is_false. intros H. apply Qeq_bool_eq in H. unfold Qeq in H. cbn in H. lia. }
    assert (E : Q2R (inject_Z (Z.of_nat (length (c :: p)))) = INR (length (c :: p))).
    { rewrite INR_IZR_INZ. unfold Q2R, inject_Z. cbn [Qnum Qden]. rewrite Rinv_1. ring. }
    assert (Hp : INR (length (c :: p)) <> 0) by (apply not_0_INR; cbn; lia).
    apply (derivable_pt_lim_ext (fun x => (Q2R c / INR (length (c :: p))) * x ^ length (c :: p) + hval (polyint_aux p ++ [0%Q]) x)).
    { intros t. cbn [hval]. rewrite Qred_R, Q2R_div', E, app_length, length_polyint_aux by assumption. cbn [length]. rewrite Nat.add_1_r. reflexivity. }
    cbn [hval]. replace (Q2R c * x ^ length p) with (Q2R c / INR (length (c :: p)) * (INR (length (c :: p)) * x ^ pred (length (c :: p))))
      by (cbn [length pred]; cbn [length] in Hp; field; assumption).
    apply (derivable_pt_lim_plus (fun x => (Q2R c / INR (length (c :: p))) * x ^ length (c :: p))); [|apply IH].
    apply (derivable_pt_lim_scal (fun x => x ^ length (c :: p))). apply derivable_pt_lim_pow.
Qed.
Lemma polyint_0 p : hval (polyint p) 0 = 0.
Proof. unfold polyint. rewrite hval_snoc0. ring. Qed.

(* ---- Lagrange basis ---- *)
Section Lagrange.
Variable tau : list Q.
Hypothesis Hd : distinct tau.

Lemma tau_neq i j x y : nth_error tau i = Some x -> nth_error tau j = Some y -> i <> j -> Q2R x - Q2R y <> 0.
Proof. intros Hi Hj Hn E. apply Hn. eapply Hd; eauto. apply eqR_Qeq. lra. Qed.

Definition lag_fold (j : nat) (tj : Q) (l : list (nat * Q)) (c0 : list Q) : list Q :=
  fold_left (fun coeff (rt : nat * Q) =>
        let (r, tr) := rt in
        if (r =? j)%nat then coeff
        else map (fun c => Qred (c / (tj - tr))) (convolve coeff [1%Q; Qred (- tr)])) l c0.

Lemma lag_fold_spec j tj l : nth_error tau j = Some tj ->
  (forall r tr, In (r, tr) l -> nth_error tau r = Some tr) -> forall c0, c0 <> [] ->
  lag_fold j tj l c0 <> [] /\
  length (lag_fold j tj l c0) = (length c0 + length (filter (fun rt => negb (fst rt =? j)%nat) l))%nat /\
  forall x, hval (lag_fold j tj l c0) x =
    hval c0 x * fold_right (fun rt s => (x - Q2R (snd rt)) / (Q2R tj - Q2R (snd rt)) * s) 1 (filter (fun rt => negb (fst rt =? j)%nat) l).
Proof.
  intros Hj. induction l as [|[r tr] l IH]; intros Hl c0 H0.
  - cbn. split; [assumption|]. split; [lia|]. intros x. ring.
  - unfold lag_fold. cbn [fold_left filter fst snd]. destruct (r =? j)%nat eqn:E; cbn [negb].
    + apply IH; [intros; apply Hl; right; assumption|assumption].
    + apply Nat.eqb_neq in E. assert (Hr : nth_error tau r = Some tr) by (apply Hl; left; reflexivity).
      assert (Hne : Q2R (tj - tr) <> 0) by (rewrite Q2R_minus; eapply tau_neq; eauto).
      fold (lag_fold j tj l (map (fun c => Qred (c / (tj - tr))) (convolve c0 [1%Q; Qred (- tr)]))).
      assert (Hc : forall x, hval (convolve c0 [1%Q; Qred (- tr)]) x = hval c0 x * (x - Q2R tr) /\
                S (length (convolve c0 [1%Q; Qred (- tr)])) = (length c0 + 2)%nat).
      { intros x. destruct (hval_convolve c0 [1%Q; Qred (- tr)] x) as [E1 E2]; [discriminate|assumption|].
        rewrite E1. cbn [hval length pow] in *. rewrite Qred_R, Q2R_opp, Q2R_1. split; [ring|exact E2]. }
      destruct (IH ltac:(intros; apply Hl; right; assumption) (map (fun c => Qred (c / (tj - tr))) (convolve c0 [1%Q; Qred (- tr)]))) as (A & B & C).
      { destruct (Hc 0) as [_ L]. destruct (convolve c0 [1%Q; Qred (- tr)]); [cbn in L; destruct c0; [congruence|cbn in L; lia]|discriminate]. }
      split; [exact A|]. rewrite B, map_length. split; [destruct (Hc 0); cbn [length]; lia|].
      intros x. rewrite C, hval_scale_div by assumption. rewrite (proj1 (Hc x)), Q2R_minus. cbn [fold_right snd]. unfold Rdiv. ring.
Qed.

Lemma prod_zero (l : list (nat * Q)) x tj r tr : In (r, tr) l -> x = Q2R tr ->
  fold_right (fun rt s => (x - Q2R (snd rt)) / (Q2R tj - Q2R (snd rt)) * s) 1 l = 0.
Proof.
  intros Hin ->. induction l as [|[a b] l IH]; [destruct Hin|]. cbn [fold_right snd]. destruct Hin as [H|H].
  - injection H as -> ->. replace (Q2R tr - Q2R tr) with 0 by ring. unfold Rdiv. ring.
  - rewrite (IH H). ring.
Qed.
Lemma prod_one (l : list (nat * Q)) tj : (forall r tr, In (r, tr) l -> Q2R tj - Q2R tr <> 0) ->
  fold_right (fun rt s => (Q2R tj - Q2R (snd rt)) / (Q2R tj - Q2R (snd rt)) * s) 1 l = 1.
Proof.
  induction l as [|[a b] l IH]; intros H; [reflexivity|]. cbn [fold_right snd]. rewrite IH by (intros; eapply H; right; eauto).
  field. apply (H a b). left; reflexivity.
Qed.

Lemma seq_combine_nth {A} (l : list A) r x k : In (r, x) (combine (seq k (length l)) l) <-> (k <= r)%nat /\ nth_error l (r - k) = Some x.
Proof.
  revert k. induction l as [|a l IH]; intros k; cbn.
  - split; [intros []|]. intros [_ H]. destruct (r - k)%nat; discriminate.
  - rewrite IH. split.
    + intros [H|[H1 H2]]; [injection H as <- <-; rewrite Nat.sub_diag; auto|].
      split; [lia|]. replace (r - k)%nat with (S (r - S k)) by lia. exact H2.
    + intros [H1 H2]. destruct (Nat.eq_dec r k) as [->|Hn].
      * rewrite Nat.sub_diag in H2. left. cbn in H2. congruence.
      * right. split; [lia|]. replace (r - k)%nat with (S (r - S k)) in H2 by lia. exact H2.
Qed.
Lemma filter_length_one {A} (l : list A) j k : (k <= j < k + length l)%nat ->
  S (length (filter (fun rt : nat * A => negb (fst rt =? j)%nat) (combine (seq k (length l)) l))) = length l.
Proof.
  revert k. induction l as [|a l IH]; intros k H; [cbn in H; lia|]. cbn [length seq combine filter fst].
  destruct (k =? j)%nat eqn:E; cbn [negb].
  - apply Nat.eqb_eq in E. subst. f_equal.
    assert (forall k, (j < k)%nat -> length (filter (fun rt : nat * A => negb (fst rt =? j)%nat) (combine (seq k (length l)) l)) = length l) as G.
    { clear. induction l as [|a l IH]; intros k Hk; [reflexivity|]. cbn. replace (k =? j)%nat with false by (symmetry; apply Nat.eqb_neq; lia).
      cbn. rewrite IH by lia. reflexivity. }
    apply G. lia.
  - apply Nat.eqb_neq in E. cbn [length]. f_equal. apply IH. cbn in H. lia.
Qed.

Lemma lagrange_ok j : (j < length tau)%nat -> exists c, lagrange_coeff tau j = Ok c /\ length c = length tau /\
  forall i t, nth_error tau i = Some t -> hval c (Q2R t) = if (i =? j)%nat then 1 else 0.
Proof.
  intros Hj. destruct (nth_error_lt tau j Hj) as [tj Etj]. unfold lagrange_coeff. rewrite (nthE_Some _ _ _ _ Etj). cbn [bind].
  fold (lag_fold j tj (combine (seq 0 (length tau)) tau) [1%Q]).
  destruct (lag_fold_spec j tj (combine (seq 0 (length tau)) tau) Etj) with (c0 := [1%Q]) as (_ & L & V).
  - intros r tr H. apply seq_combine_nth in H. rewrite Nat.sub_0_r in H. tauto.
  - discriminate.
  - eexists. split; [reflexivity|]. split.
    + rewrite L. cbn [length Nat.add]. apply filter_length_one. lia.
    + intros i t Hi. rewrite V. cbn [hval length pow]. rewrite Q2R_1. destruct (i =? j)%nat eqn:E.
      * apply Nat.eqb_eq in E. subst i. replace t with tj by congruence. rewrite prod_one; [ring|].
        intros r tr H. apply filter_In in H. destruct H as [H1 H2]. cbn in H2. apply Bool.negb_true_iff, Nat.eqb_neq in H2.
        apply seq_combine_nth in H1. rewrite Nat.sub_0_r in H1. eapply tau_neq; [exact Etj|apply H1|auto].
      * rewrite (prod_zero _ _ tj i t); [ring| |reflexivity]. apply filter_In. split; [apply seq_combine_nth; rewrite Nat.sub_0_r; split; [lia|assumption]|].
        cbn. rewrite E. reflexivity.
Qed.

(* linear combinations of the basis *)
Definition lcomb (cs : list (list Q)) (v : list R) (x : R) : R :=
  fold_right (fun cv s => hval (fst cv) x * snd cv + s) 0 (combine cs v).
Fixpoint pcomb (cs : list (list Q)) (v : list R) : list R :=
  match cs, v with c :: cs', y :: v' => padd (pscale y (map Q2R (rev c))) (pcomb cs' v') | _, _ => [] end.
Lemma pcomb_eval cs : forall v x, peval (pcomb cs v) x = lcomb cs v x.
Proof.
  unfold lcomb. induction cs as [|c cs IH]; intros [|y v] x; cbn; try reflexivity.
  rewrite peval_padd, peval_pscale, IH, <- hval_peval. ring.
Qed.
Lemma pcomb_length cs n : (forall c, In c cs -> length c = n) -> forall v, (length (pcomb cs v) <= n)%nat.
Proof.
  induction cs as [|c cs IH]; intros Hl [|y v]; cbn; try lia.
  rewrite length_padd. unfold pscale. rewrite !map_length, rev_length, (Hl c (or_introl eq_refl)).
  specialize (IH (fun c Hc => Hl c (or_intror Hc)) v). lia.
Qed.

Lemma lcomb_dot cs (F : list Q -> Q) v x : (forall c, Q2R (F c) = hval c x) -> dotR (map F cs) v = lcomb cs v x.
Proof.
  intros HF. unfold lcomb. revert v. induction cs as [|c l IH]; intros [|y v]; cbn; try reflexivity. rewrite IH, HF. reflexivity.
Qed.
Lemma lcomb_deriv cs (F : list Q -> list Q) v x : (forall c, derivable_pt_lim (hval c) x (hval (F c) x)) ->
  derivable_pt_lim (lcomb cs v) x (lcomb (map F cs) v x).
Proof.
  intros HF. unfold lcomb. revert v. induction cs as [|c l IH]; intros [|y v]; cbn; try apply (derivable_pt_lim_const 0).
  apply (derivable_pt_lim_plus (fun x => hval c x * y) (fun x => fold_right (fun cv s => hval (fst cv) x * snd cv + s) 0 (combine l v))); [|apply IH].
  apply (derivable_pt_lim_ext (fun x => y * hval c x)); [intros; ring|]. rewrite Rmult_comm.
  apply (derivable_pt_lim_scal (hval c)). apply HF.
Qed.

Variable cs : list (list Q).
Hypothesis Hcs : mapM (lagrange_coeff tau) (seq 0 (length tau)) = Ok cs.

Lemma cs_nth j : (j < length tau)%nat -> exists c, nth_error cs j = Some c /\ length c = length tau /\
  forall i t, nth_error tau i = Some t -> hval c (Q2R t) = if (i =? j)%nat then 1 else 0.
Proof.
  intros Hj. destruct (lagrange_ok j Hj) as (c & Hc & L & V).
  destruct (mapM_nth _ _ _ j j Hcs) as (b & Hb & E); [apply nth_error_seq; assumption|].
  replace b with c in * by congruence. eauto.
Qed.
Lemma cs_length : length cs = length tau.
Proof. rewrite (mapM_length _ _ _ Hcs), seq_length. reflexivity. Qed.
Lemma cs_all c : In c cs -> length c = length tau.
Proof.
  intros H. apply In_nth_error in H. destruct H as [j Hj]. assert (j < length tau)%nat by (rewrite <- cs_length; eapply nth_error_Some_lt; eauto).
  destruct (cs_nth j) as (c' & Hc & L & _); [assumption|]. congruence.
Qed.
Lemma lcomb_at v i t : length v = length tau -> nth_error tau i = Some t -> exists y, nth_error v i = Some y /\ lcomb cs v (Q2R t) = y.
Proof.
  intros Hv Hi. assert (Hlt := nth_error_Some_lt _ _ _ Hi). destruct (nth_error_lt v i) as [y Hy]; [lia|]. exists y. split; [assumption|].
  enough (G : forall k cs' v', length cs' = length v' -> (forall j c, nth_error cs' j = Some c -> hval c (Q2R t) = if (i =? k + j)%nat then 1 else 0) ->
     lcomb cs' v' (Q2R t) = if (k <=? i)%nat then nth (i - k) v' 0 else 0).
  { specialize (G 0%nat cs v). rewrite G.
    - cbn [Nat.leb]. rewrite Nat.sub_0_r. apply nth_error_nth with (d := 0) in Hy. exact Hy.
    - rewrite cs_length. auto.
    - intros j c Hc. assert (j < length tau)%nat by (rewrite <- cs_length; eapply nth_error_Some_lt; eauto).
      destruct (cs_nth j) as (c' & Hc' & _ & V); [assumption|]. replace c with c' by congruence. apply V. assumption. }
  unfold lcomb. intros k cs'. revert k. induction cs' as [|c cs' IH]; intros k [|y' v'] L V; try discriminate.
  - cbn. destruct (k <=? i)%nat; [destruct (i - k)%nat; reflexivity|reflexivity].
  - cbn [combine fold_right fst snd]. rewrite (V 0%nat c eq_refl), Nat.add_0_r.
    rewrite (IH (S k) v'); [|cbn in L; lia|intros j c' Hc'; rewrite (V (S j) c' Hc'); replace (k + S j)%nat with (S k + j)%nat by lia; reflexivity].
    destruct (Nat.lt_trichotomy i k) as [H|[H|H]].
    + replace (i =? k)%nat with false by (symmetry; apply Nat.eqb_neq; lia). replace (S k <=? i)%nat with false by (symmetry; apply Nat.leb_gt; lia).
      replace (k <=? i)%nat with false by (symmetry; apply Nat.leb_gt; lia). ring.
    + subst. rewrite Nat.eqb_refl, Nat.leb_refl, Nat.sub_diag. replace (S k <=? k)%nat with false by (symmetry; apply Nat.leb_gt; lia). cbn. ring.
    + replace (i =? k)%nat with false by (symmetry; apply Nat.eqb_neq; lia). replace (S k <=? i)%nat with true by (symmetry; apply Nat.leb_le; lia).
      replace (k <=? i)%nat with true by (symmetry; apply Nat.leb_le; lia). replace (i - k)%nat with (S (i - S k)) by lia. cbn [nth]. ring.
Qed.
Lemma tau_NoDup : NoDup (map Q2R tau).
Proof.
  apply NoDup_nth_error. intros i j Hi E. rewrite map_length in Hi. rewrite !nth_error_map in E.
  destruct (nth_error_lt tau i Hi) as [x Hx]. rewrite Hx in E. cbn in E.
  destruct (nth_error tau j) as [y|] eqn:Hy; [|discriminate]. injection E as E.
  eapply Hd; eauto. apply eqR_Qeq. exact E.
Qed.
(* interpolation reproduces polynomials of degree < number of points *)
Lemma interp a x : (length a <= length tau)%nat -> lcomb cs (map (fun t => peval a (Q2R t)) tau) x = peval a x.
Proof.
  intros Hl. set (v := map (fun t => peval a (Q2R t)) tau).
  assert (Z : peval (padd (pcomb cs v) (pscale (-1) a)) x = 0).
  { apply (roots_zero (length tau) _ (map Q2R tau)).
    - rewrite length_padd. unfold pscale. rewrite map_length. assert (H := pcomb_length cs (length tau) cs_all v). lia.
    - apply map_length.
    - apply tau_NoDup.
    - intros r Hr. apply in_map_iff in Hr. destruct Hr as (t & <- & Ht). apply In_nth_error in Ht. destruct Ht as [i Hi].
      rewrite peval_padd, peval_pscale, pcomb_eval. destruct (lcomb_at v i t) as (y & Hy & E); [unfold v; apply map_length|assumption|].
      rewrite E. unfold v in Hy. rewrite nth_error_map, Hi in Hy. injection Hy as <-. ring. }
  rewrite peval_padd, peval_pscale, pcomb_eval in Z. lra.
Qed.
End Lagrange.

(* ---- generate_butcher_tableu_integral ---- *)
Section Integral.
Variable pts : list Q.
Hypothesis Hd : distinct (0%Q :: pts).
Variable it : integral_tab.
Hypothesis Hit : generate_butcher_tableu_integral pts = Ok it.
Let tau := 0%Q :: pts.

Lemma it_parts : exists cs, mapM (lagrange_coeff tau) (seq 0 (length tau)) = Ok cs /\ length cs = length tau /\
  it_B it = map (fun coeff => polyval (polyint coeff) 1) cs /\
  it_C it = map (fun coeff => map (polyval (polyder coeff)) tau) cs /\
  it_D it = map (fun coeff => polyval coeff 1) cs /\ it_tau it = tau.
Proof.
  unfold generate_butcher_tableu_integral in Hit. apply bind_ok in Hit. destruct Hit as (cs & Hcs & E). injection E as <-.
  exists cs. split; [exact Hcs|]. split; [eapply cs_length; eauto|]. repeat split.
Qed.

Lemma it_dot_D cs v : dotR (map (fun coeff => polyval coeff 1) cs) v = lcomb cs v 1.
Proof. apply lcomb_dot. intros c. rewrite polyval_hval, Q2R_1. reflexivity. Qed.
Lemma it_dot_B cs v : dotR (map (fun coeff => polyval (polyint coeff) 1) cs) v = lcomb (map polyint cs) v 1.
Proof.
  unfold lcomb. revert v. induction cs as [|c cs IH]; intros [|y v]; cbn; try reflexivity.
  rewrite IH, polyval_hval, Q2R_1. reflexivity.
Qed.
Lemma it_dot_C cs v i t : nth_error tau i = Some t ->
  dotR (column (map (fun coeff => map (polyval (polyder coeff)) tau) cs) i) v = lcomb (map polyder cs) v (Q2R t).
Proof.
  intros Hi. unfold lcomb, column. revert v. induction cs as [|c cs IH]; intros [|y v]; cbn [map dotR combine fold_right fst snd]; try reflexivity.
  rewrite IH. f_equal. f_equal.
  erewrite (nth_error_nth (map (polyval (polyder c)) tau) i 0%Q); [|rewrite nth_error_map, Hi; reflexivity].
  rewrite polyval_hval. reflexivity.
Qed.
Lemma lcomb_ext_deriv (f h : R -> R) x a b : (forall z, f z = h z) -> derivable_pt_lim f x a -> derivable_pt_lim h x b -> a = b.
Proof.
  intros E Ha Hb. apply (uniqueness_limite h x); [|exact Hb]. apply (derivable_pt_lim_ext f); assumption.
Qed.

Lemma integral_D a : (length a <= S (length pts))%nat ->
  dotR (it_D it) (map (fun t => peval a (Q2R t)) (it_tau it)) = peval a 1.
Proof.
  intros Hl. destruct it_parts as (cs & Hcs & Lc & _ & _ & -> & ->). rewrite it_dot_D. apply (interp tau Hd cs Hcs). exact Hl.
Qed.
Lemma integral_C a i t : (length a <= S (length pts))%nat -> nth_error (it_tau it) i = Some t ->
  derivable_pt_lim (peval a) (Q2R t) (dotR (column (it_C it) i) (map (fun t => peval a (Q2R t)) (it_tau it))).
Proof.
  intros Hl Hi. destruct it_parts as (cs & Hcs & Lc & _ & -> & _ & E). rewrite E in *. rewrite (it_dot_C cs _ i t Hi).
  apply (derivable_pt_lim_ext (lcomb cs (map (fun t => peval a (Q2R t)) tau))); [intros z; apply (interp tau Hd cs Hcs); exact Hl|].
  apply (lcomb_deriv cs polyder). intros c. apply polyder_hval.
Qed.
Lemma integral_B a (pr : Riemann_integrable (peval a) 0 1) : (length a <= S (length pts))%nat ->
  dotR (it_B it) (map (fun t => peval a (Q2R t)) (it_tau it)) = RiemannInt pr.
Proof.
  intros Hl. destruct it_parts as (cs & Hcs & Lc & -> & _ & _ & ->). rewrite it_dot_B, RiemannInt_peval.
  set (v := map (fun t => peval a (Q2R t)) tau).
  (* both are primitives of the same function vanishing at 0 *)
  assert (D1 : forall x, derivable_pt_lim (lcomb (map polyint cs) v) x (lcomb cs v x)).
  { intros x. clearbody v. clear. unfold lcomb. revert v. induction cs as [|c l IH]; intros [|y v]; cbn; try apply (derivable_pt_lim_const 0).
    apply (derivable_pt_lim_plus (fun x => hval (polyint c) x * y) (fun x => fold_right (fun cv s => hval (fst cv) x * snd cv + s) 0 (combine (map polyint l) v))); [|apply IH].
    apply (derivable_pt_lim_ext (fun x => y * hval (polyint c) x)); [intros; ring|]. rewrite Rmult_comm.
    apply (derivable_pt_lim_scal (hval (polyint c))). apply polyint_hval. }
  assert (D2 : forall x, derivable_pt_lim (fun x => lcomb (map polyint cs) v x - pprim 0 a x) x 0).
  { intros x. replace 0 with (lcomb cs v x - x ^ 0 * peval a x) by (unfold v; rewrite (interp tau Hd cs Hcs) by exact Hl; cbn; ring).
    apply (derivable_pt_lim_minus (lcomb (map polyint cs) v) (pprim 0 a)); [apply D1|apply pprim_deriv]. }
  set (F := fun x => lcomb (map polyint cs) v x - pprim 0 a x) in D2.
  assert (pF : derivable F) by (intros z; exists 0; apply D2).
  assert (CF : constant F).
  { apply (null_derivative_1 F pF). intros z. apply (uniqueness_limite F z); [apply derive_pt_eq_1 with (pr := pF z); reflexivity|apply D2]. }
  assert (E := CF 1 0). unfold F in E. rewrite pprim_1, pprim_0 in E.
  assert (Z : lcomb (map polyint cs) v 0 = 0).
  { clearbody v. clear. unfold lcomb. revert v. induction cs as [|c l IH]; intros [|y v]; cbn; try reflexivity. rewrite IH, polyint_0. ring. }
  lra.
Qed.

(* values with constant slope on the collocation points lie on a line *)
Lemma integral_slope v d : pts <> [] -> length v = S (length pts) ->
  (forall i, (1 <= i <= length pts)%nat -> dotR (column (it_C it) i) v = d) ->
  dotR (it_D it) v = nth 0 v 0 + d /\
  forall i t, nth_error (it_tau it) i = Some t -> nth i v 0 = nth 0 v 0 + Q2R t * d.
Proof.
  intros Hp Lv Hc. destruct it_parts as (cs & Hcs & Lc & _ & EC & ED & Et). rewrite EC in Hc. rewrite ED, Et, it_dot_D.
  set (a := pcomb cs v).
  assert (La : (length a <= length tau)%nat) by (apply pcomb_length; exact (cs_all tau Hd cs Hcs)).
  assert (Pd : forall x, peval (padd (pder a) [- d]) x = 0).
  { apply (roots_zero (length pts) _ (map Q2R pts)).
    - rewrite length_padd. assert (H := length_pder a). cbn [length] in *.
      assert (length tau = S (length pts)) by reflexivity. destruct pts; [congruence|]. cbn [length] in *. lia.
    - apply map_length.
    - assert (N := tau_NoDup tau Hd). inversion N; assumption.
    - intros r Hr. apply in_map_iff in Hr. destruct Hr as (t & <- & Ht). apply In_nth_error in Ht. destruct Ht as [i Hi].
      rewrite peval_padd. cbn [peval]. 
      assert (Hlt := nth_error_Some_lt _ _ _ Hi).
      rewrite (lcomb_ext_deriv (peval a) (lcomb cs v) (Q2R t) (peval (pder a) (Q2R t)) d); [ring|intros; apply pcomb_eval|apply peval_deriv|].
      rewrite <- (Hc (S i)) by lia. rewrite (it_dot_C cs v (S i) t) by exact Hi.
      apply (lcomb_deriv cs polyder). intros c. apply polyder_hval. }
  assert (D2 : forall x, derivable_pt_lim (fun x => peval a x - d * x) x 0).
  { intros x. specialize (Pd x). rewrite peval_padd in Pd. cbn [peval] in Pd.
    replace 0 with (peval (pder a) x - d * 1) by lra.
    apply (derivable_pt_lim_minus (peval a) (fun x => d * x)); [apply peval_deriv|].
    apply (derivable_pt_lim_scal (fun x => x)). apply derivable_pt_lim_id. }
  set (F := fun x => peval a x - d * x) in D2.
  assert (pF : derivable F) by (intros z; exists 0; apply D2).
  assert (CF : constant F).
  { apply (null_derivative_1 F pF). intros z. apply (uniqueness_limite F z); [apply derive_pt_eq_1 with (pr := pF z); reflexivity|apply D2]. }
  assert (Lin : forall x, lcomb cs v x = lcomb cs v 0 + x * d).
  { intros x. assert (E := CF x 0). unfold F, a in E. rewrite !pcomb_eval in E. lra. }
  assert (V : forall i t, nth_error tau i = Some t -> nth i v 0 = lcomb cs v (Q2R t)).
  { intros i t Hi. destruct (lcomb_at tau Hd cs Hcs v i t) as (y & Hy & E); [exact Lv|exact Hi|].
    rewrite E. apply nth_error_nth with (d := 0) in Hy. exact Hy. }
  assert (V0 := V 0%nat 0%Q eq_refl). rewrite Q2R_0 in V0. rewrite V0. split.
  - rewrite Lin. ring.
  - intros i t Hi. rewrite (V i t Hi). apply Lin.
Qed.
End Integral.
Lemma integral_total pts : distinct (0%Q :: pts) -> exists it, generate_butcher_tableu_integral pts = Ok it.
Proof.
  intros Hd. unfold generate_butcher_tableu_integral.
  assert (exists cs, mapM (lagrange_coeff (0%Q :: pts)) (seq 0 (length (0%Q :: pts))) = Ok cs) as [cs ->]; [|eexists; reflexivity].
  assert (forall j, In j (seq 0 (length (0%Q :: pts))) -> exists c, lagrange_coeff (0%Q :: pts) j = Ok c) as H.
  { intros j Hj. apply in_seq in Hj. destruct (lagrange_ok _ Hd j) as (c & Hc & _); [lia|]. eauto. }
  induction (seq 0 (length (0%Q :: pts))) as [|j l IH]; [eexists; reflexivity|].
  destruct (H j (or_introl eq_refl)) as [c Hc]. destruct IH as [cs E]; [intros; apply H; right; assumption|].
  exists (c :: cs). cbn [mapM]. rewrite Hc. cbn [bind]. rewrite E. reflexivity.
Qed.
