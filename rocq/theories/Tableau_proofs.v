(* Tableau_proofs.v -- proofs about the tables of rk_utils.py *)
From Coq Require Import Reals Lra Qreals Qpower.
From Verif Require Import Base Lib Sx Sx_proofs Utils Tableau Opts Model Ocp Problem Spec.

Definition conditions (n : nat) (s : scheme) (bt : butcher) : Prop :=
  bt_order bt = match s with RadauIIA => 2 * n - 1 | GaussLegendre => 2 * n end /\
  length (bt_A bt) = n /\ length (bt_b bt) = n /\ length (bt_c bt) = n /\
  (forall i row, nth_error (bt_A bt) i = Some row -> length row = n) /\
  (forall i row c, nth_error (bt_A bt) i = Some row -> nth_error (bt_c bt) i = Some c -> close tolerance (qsum row) c) /\
  (forall k, 1 <= k <= bt_order bt -> close tolerance (moment (bt_b bt) (bt_c bt) (k - 1)) (1 / inject_Z (Z.of_nat k))%Q) /\
  (forall i row c k, nth_error (bt_A bt) i = Some row -> nth_error (bt_c bt) i = Some c -> 1 <= k <= n ->
     close tolerance (moment row (bt_c bt) (k - 1)) (Qpower c (Z.of_nat k) / inject_Z (Z.of_nat k))%Q) /\
  (s = RadauIIA -> nth_error (bt_A bt) (n - 1) = Some (bt_b bt) /\ nth_error (bt_c bt) (n - 1) = Some 1%Q).

(* the same conditions as integer inequalities, on a common denominator *)
Definition base : positive := 100000000000000000.
Definition fine (q : Q) : bool := (Zpos base mod Zpos (Qden q) =? 0)%Z.
Definition numz (q : Q) : Z := (Qnum q * (Zpos base / Zpos (Qden q)))%Z.
Fixpoint stepz (v c : list Z) : list Z :=
  match v, c with x :: v', y :: c' => (x * y)%Z :: stepz v' c' | _, _ => [] end.
Fixpoint sumz (l : list Z) : Z := match l with [] => 0%Z | x :: r => (x + sumz r)%Z end.
Fixpoint conds (n : nat) (k : positive) (v c : list Z) (Dp : positive) (target tc : Z) : bool :=
  match n with
  | 0 => true
  | S n' => (Z.abs (Zpos k * sumz v - target) * 100000000000 <=? Zpos (k * Dp))%Z &&
            conds n' (Pos.succ k) (stepz v c) c (Dp * base) (target * tc) tc
  end.
Lemma numz_eq q : fine q = true -> (inject_Z (numz q) == q * inject_Z (Zpos base))%Q.
Proof.
  unfold fine, numz. intros E. apply Z.eqb_eq in E.
  assert (Zpos base = Zpos (Qden q) * (Zpos base / Zpos (Qden q)))%Z as Hb by (apply Z_div_exact_full_2; [discriminate|exact E]).
  destruct q as [a d]. cbn [Qnum Qden] in *. unfold Qeq, inject_Z, Qmult. cbn [Qnum Qden]. rewrite Pos.mul_1_r, Z.mul_1_r.
  set (t := (Zpos base / Zpos d)%Z) in *. clearbody t. rewrite Hb. ring.
Qed.
Fixpoint relz (p : nat) (D : positive) (v : list Z) (b c : list Q) : Prop :=
  match v, b, c with
  | x :: v', y :: b', z :: c' => (inject_Z x == y * Qpower z (Z.of_nat p) * inject_Z (Zpos D))%Q /\ relz p D v' b' c'
  | [], [], [] => True
  | _, _, _ => False
  end.
Fixpoint relc (v : list Z) (c : list Q) : Prop :=
  match v, c with
  | x :: v', z :: c' => (inject_Z x == z * inject_Z (Zpos base))%Q /\ relc v' c'
  | [], [] => True
  | _, _ => False
  end.
Lemma Qpower_S z p : (Qpower z (Z.of_nat (S p)) == Qpower z (Z.of_nat p) * z)%Q.
Proof.
  destruct p as [|p]; [cbn; ring|]. rewrite !Nat2Z.inj_succ.
  change (Z.succ (Z.succ (Z.of_nat p))) with (Z.of_nat p + 1 + 1)%Z. unfold Z.succ.
  destruct (Z.of_nat p + 1)%Z as [|e|e] eqn:E; try lia.
  change (Z.pos e + 1)%Z with (Z.pos (e + 1)). cbn [Qpower]. apply Qpower_plus_positive.
Qed.
Lemma relz_step p D v b c cz : relz p D v b c -> relc cz c -> relz (S p) (D * base) (stepz v cz) b c.
Proof.
  revert b c cz. induction v as [|x v IH]; intros [|y b] [|z c] [|w cz]; cbn [relz relc stepz]; try tauto.
  intros [Hx Hv] [Hw Hc]. split; [|apply IH; assumption].
  rewrite inject_Z_mult, Hx, Hw, Qpower_S, Pos2Z.inj_mul, inject_Z_mult. ring.
Qed.
Lemma relz_sum p D v b c : relz p D v b c -> (inject_Z (sumz v) == moment b c p * inject_Z (Zpos D))%Q.
Proof.
  revert b c. induction v as [|x v IH]; intros [|y b] [|z c]; cbn [relz sumz]; try tauto.
  - intros _. unfold moment. cbn. ring.
  - intros [Hx Hv]. rewrite inject_Z_plus, Hx, (IH _ _ Hv). unfold moment. cbn [combine map qsum fold_right fst snd].
    change (fold_right Qplus 0%Q) with qsum. ring.
Qed.
Lemma cond_close k D (M X : Q) (m t : Z) :
  (inject_Z m == M * inject_Z (Zpos D))%Q -> (inject_Z t == X * inject_Z (Zpos D))%Q ->
  (Z.abs (Zpos k * m - t) * 100000000000 <=? Zpos (k * D))%Z = true ->
  close tolerance M (X / inject_Z (Zpos k)).
Proof.
  intros Hm Ht H. apply Z.leb_le in H.
  assert ((Zpos k * m - t) * 100000000000 <= Zpos (k * D) /\ (t - Zpos k * m) * 100000000000 <= Zpos (k * D))%Z as [H1 H2] by lia.
  rewrite Zle_Qle in H1, H2. rewrite Pos2Z.inj_mul in H1, H2.
  unfold Z.sub in H1, H2. rewrite !inject_Z_mult, !inject_Z_plus, !inject_Z_opp, inject_Z_mult, Hm, Ht in H1, H2.
  assert (0 < inject_Z (Zpos k) * inject_Z (Zpos D) * inject_Z 100000000000)%Q as Hp
    by (rewrite <- !inject_Z_mult; change 0%Q with (inject_Z 0); rewrite <- Zlt_Qlt; reflexivity).
  assert (~ inject_Z (Zpos k) == 0)%Q as Hk by (intros E; discriminate).
  assert (inject_Z 100000000000 * tolerance == 1)%Q as Htol by reflexivity.
  split; apply (Qmult_le_r _ _ _ Hp).
  - setoid_replace (tolerance * (inject_Z (Zpos k) * inject_Z (Zpos D) * inject_Z 100000000000))%Q
      with (inject_Z (Zpos k) * inject_Z (Zpos D) * (inject_Z 100000000000 * tolerance))%Q by ring.
    rewrite Htol, Qmult_1_r.
    setoid_replace ((M - X / inject_Z (Zpos k)) * (inject_Z (Zpos k) * inject_Z (Zpos D) * inject_Z 100000000000))%Q
      with ((inject_Z (Zpos k) * (M * inject_Z (Zpos D)) + - (X * inject_Z (Zpos D))) * inject_Z 100000000000)%Q by (field; exact Hk).
    exact H1.
  - setoid_replace (tolerance * (inject_Z (Zpos k) * inject_Z (Zpos D) * inject_Z 100000000000))%Q
      with (inject_Z (Zpos k) * inject_Z (Zpos D) * (inject_Z 100000000000 * tolerance))%Q by ring.
    rewrite Htol, Qmult_1_r.
    setoid_replace ((X / inject_Z (Zpos k) - M) * (inject_Z (Zpos k) * inject_Z (Zpos D) * inject_Z 100000000000))%Q
      with ((X * inject_Z (Zpos D) + - (inject_Z (Zpos k) * (M * inject_Z (Zpos D)))) * inject_Z 100000000000)%Q by (field; exact Hk).
    exact H2.
Qed.
Lemma conds_spec n : forall k v cz D t tc b c p X x,
  conds n k v cz D t tc = true -> relz p D v b c -> relc cz c ->
  (inject_Z t == X * inject_Z (Zpos D))%Q -> (inject_Z tc == x * inject_Z (Zpos base))%Q ->
  forall j, j < n -> close tolerance (moment b c (p + j)) (X * Qpower x (Z.of_nat j) / inject_Z (Zpos k + Z.of_nat j)).
Proof.
  induction n as [|n IH]; intros k v cz D t tc b c p X x H Hv Hc Ht Htc j Hj; [lia|].
  cbn [conds] in H. apply Bool.andb_true_iff in H as [H0 H].
  destruct j as [|j].
  - rewrite Nat.add_0_r, Z.add_0_r. eapply cond_close; [apply relz_sum; exact Hv| |exact H0]. rewrite Ht. cbn. ring.
  - assert (inject_Z (t * tc) == (X * x) * inject_Z (Zpos (D * base)))%Q as Ht'
      by (rewrite inject_Z_mult, Ht, Htc, Pos2Z.inj_mul, inject_Z_mult; ring).
    specialize (IH _ _ _ _ _ _ b c (S p) (X * x)%Q x H (relz_step _ _ _ _ _ _ Hv Hc) Hc Ht' Htc j ltac:(lia)).
    replace (p + S j) with (S p + j) by lia.
    replace (Zpos k + Z.of_nat (S j))%Z with (Zpos (Pos.succ k) + Z.of_nat j)%Z by lia.
    unfold close in *. rewrite Qpower_S.
    setoid_replace (X * (Qpower x (Z.of_nat j) * x))%Q with (X * x * Qpower x (Z.of_nat j))%Q by ring. exact IH.
Qed.
Lemma relz_0 b c : forallb fine b = true -> length b = length c -> relz 0 base (map numz b) b c.
Proof.
  revert c. induction b as [|y b IH]; intros [|z c] H L; cbn in *; try discriminate; [exact I|].
  apply Bool.andb_true_iff in H as [H1 H2]. split; [|apply IH; [assumption|lia]]. rewrite (numz_eq _ H1). ring.
Qed.
Lemma relc_0 c : forallb fine c = true -> relc (map numz c) c.
Proof.
  induction c as [|z c IH]; intros H; cbn in *; [exact I|].
  apply Bool.andb_true_iff in H as [H1 H2]. split; [exact (numz_eq _ H1)|auto].
Qed.

Definition check (n : nat) (bt : butcher) : bool :=
  let cz := map numz (bt_c bt) in
  (length (bt_A bt) =? n) && (length (bt_b bt) =? n) && (length (bt_c bt) =? n) &&
  forallb (fun row => length row =? n) (bt_A bt) &&
  forallb fine (bt_c bt) && forallb fine (bt_b bt) && forallb (forallb fine) (bt_A bt) &&
  conds (bt_order bt) 1 (map numz (bt_b bt)) cz base (Zpos base) (Zpos base) &&
  forallb (fun rc => conds n 1 (map numz (fst rc)) cz base (numz (snd rc)) (numz (snd rc))) (combine (bt_A bt) (bt_c bt)).

Lemma nth_combine {A B} (a : list A) (b : list B) i x y :
  nth_error a i = Some x -> nth_error b i = Some y -> In (x, y) (combine a b).
Proof.
  revert b i; induction a as [|u a IH]; intros b i Ha Hb; [destruct i; discriminate|].
  destruct b as [|v b]; [destruct i; discriminate|]. destruct i as [|i]; cbn in *; [left; congruence|right; eauto].
Qed.
Lemma moment_0 b c : length b = length c -> (moment b c 0 == qsum b)%Q.
Proof.
  unfold moment. revert c. induction b as [|y b IH]; intros [|z c] L; cbn in *; try discriminate; [reflexivity|].
  fold (qsum (map (fun bc : Q * Q => fst bc * Qpower (snd bc) 0)%Q (combine b c))). fold (qsum b).
  cbn in IH. rewrite (IH c) by lia. ring.
Qed.

Lemma check_conditions n s bt : check n bt = true -> 0 < n ->
  bt_order bt = match s with RadauIIA => 2 * n - 1 | GaussLegendre => 2 * n end ->
  (s = RadauIIA -> nth_error (bt_A bt) (n - 1) = Some (bt_b bt) /\ nth_error (bt_c bt) (n - 1) = Some 1%Q) ->
  conditions n s bt.
Proof.
  unfold check. cbv zeta. intros H Hn Ho Hs.
  apply Bool.andb_true_iff in H as [H Hrows]. apply Bool.andb_true_iff in H as [H Hord].
  apply Bool.andb_true_iff in H as [H HfA]. apply Bool.andb_true_iff in H as [H Hfb]. apply Bool.andb_true_iff in H as [H Hfc].
  apply Bool.andb_true_iff in H as [H Hlr]. apply Bool.andb_true_iff in H as [H Hlc]. apply Bool.andb_true_iff in H as [HlA Hlb].
  apply Nat.eqb_eq in HlA. apply Nat.eqb_eq in Hlb. apply Nat.eqb_eq in Hlc.
  rewrite forallb_forall in Hlr, HfA, Hrows.
  assert (forall i row c k, nth_error (bt_A bt) i = Some row -> nth_error (bt_c bt) i = Some c -> 1 <= k <= n ->
     close tolerance (moment row (bt_c bt) (k - 1)) (Qpower c (Z.of_nat k) / inject_Z (Z.of_nat k))%Q) as Hst.
  { intros i row c k Hr Hi Hk. pose proof (Hrows _ (nth_combine _ _ _ _ _ Hr Hi)) as Hc. cbn [fst snd] in Hc.
    assert (forallb fine row = true) as Hfr by (apply HfA; eapply nth_error_In; eauto).
    assert (length row = n) as Hlr1 by (apply Nat.eqb_eq, Hlr; eapply nth_error_In; eauto).
    assert (fine c = true) as Hfc1 by (rewrite forallb_forall in Hfc; apply Hfc; eapply nth_error_In; eauto).
    pose proof (conds_spec _ _ _ _ _ _ _ row (bt_c bt) 0 c c Hc (relz_0 row (bt_c bt) Hfr ltac:(lia)) (relc_0 _ Hfc)
      (numz_eq _ Hfc1) (numz_eq _ Hfc1) (k - 1) ltac:(lia)) as Hx.
    cbn [Nat.add] in Hx. destruct k as [|k]; [lia|]. replace (S k - 1) with k in * by lia.
    unfold close in *. rewrite Qpower_S. replace (Z.of_nat (S k)) with (1 + Z.of_nat k)%Z by lia.
    rewrite (Qmult_comm _ c). exact Hx. }
  unfold conditions. split; [exact Ho|]. split; [exact HlA|]. split; [exact Hlb|]. split; [exact Hlc|].
  split; [intros i row Hr; apply Nat.eqb_eq, Hlr; eapply nth_error_In; eauto|].
  split; [|split; [|split; [exact Hst|exact Hs]]].
  - intros i row c Hr Hi. specialize (Hst i row c 1 Hr Hi ltac:(lia)). cbn [Nat.sub Z.of_nat] in Hst.
    assert (length row = n) as Hlr1 by (apply Nat.eqb_eq, Hlr; eapply nth_error_In; eauto).
    unfold close in *. rewrite moment_0 in Hst by lia. cbn in Hst.
    setoid_replace (c / inject_Z 1)%Q with c in Hst by (field; discriminate). exact Hst.
  - intros k Hk. pose proof (conds_spec _ _ _ _ _ _ _ (bt_b bt) (bt_c bt) 0 1%Q 1%Q Hord (relz_0 (bt_b bt) (bt_c bt) Hfb ltac:(lia)) (relc_0 _ Hfc)
      (Qeq_sym _ _ (Qmult_1_l _)) (Qeq_sym _ _ (Qmult_1_l _)) (k - 1) ltac:(lia)) as Hx.
    cbn [Nat.add] in Hx. replace (Z.of_nat k) with (1 + Z.of_nat (k - 1))%Z by lia.
    unfold close in *. rewrite Qpower_1, Qmult_1_r in Hx. exact Hx.
Qed.

Lemma tables_ok n s bt : generate_butcher_tableu n s = Ok bt -> 1 <= n <= 9 /\ conditions n s bt.
Proof.
  unfold generate_butcher_tableu. intros H.
  destruct s; do 10 (destruct n as [|n];
    [first [discriminate|split; [lia|]; injection H as <-; apply check_conditions;
      [vm_compute; reflexivity|lia|reflexivity|first [discriminate|intros _; split; reflexivity]]]|]);
  discriminate.
Qed.

(* ---- quadrature of polynomials ---- *)
Lemma quad_plus b c f h : quad b c (fun x => f x + h x)%R = (quad b c f + quad b c h)%R.
Proof. unfold quad. induction (combine b c) as [|[u v] l IH]; cbn [fold_right]; [ring|]. rewrite IH. ring. Qed.
Lemma quad_scale b c k f : quad b c (fun x => k * f x)%R = (k * quad b c f)%R.
Proof. unfold quad. induction (combine b c) as [|[u v] l IH]; cbn [fold_right]; [ring|]. rewrite IH. ring. Qed.
Lemma quad_ext b c f h : (forall x, f x = h x) -> quad b c f = quad b c h.
Proof. intros E. unfold quad. induction (combine b c) as [|[u v] l IH]; cbn [fold_right]; [reflexivity|]. rewrite IH, E. reflexivity. Qed.
Lemma Q2R_power q p : Q2R (Qpower q (Z.of_nat p)) = (Q2R q ^ p)%R.
Proof.
  induction p as [|p IH]; [exact Q2R_1|].
  replace (Q2R (Qpower q (Z.of_nat (S p)))) with (Q2R (q * Qpower q (Z.of_nat p))).
  - rewrite Q2R_mult, IH. reflexivity.
  - apply Qeq_eqR. destruct p as [|p]; [cbn; rewrite Qmult_1_r; reflexivity|].
    change (Z.of_nat (S (S p))) with (Zpos (Pos.of_succ_nat (S p))). change (Z.of_nat (S p)) with (Zpos (Pos.of_succ_nat p)).
    change (Pos.of_succ_nat (S p)) with (Pos.succ (Pos.of_succ_nat p)).
    cbn [Qpower]. rewrite <- Pos.add_1_l, Qpower_plus_positive. reflexivity.
Qed.
Lemma quad_pow b c p : quad b c (fun x => x ^ p)%R = Q2R (moment b c p).
Proof.
  unfold quad, moment, qsum. induction (combine b c) as [|[u v] l IH]; cbn [fold_right map fst snd].
  - rewrite Q2R_0. reflexivity.
  - rewrite Q2R_plus, Q2R_mult, Q2R_power, IH. reflexivity.
Qed.
Fixpoint pint (k : nat) (a : list R) : R :=   (* sum_j a_j / (k+j+1) *)
  match a with [] => 0%R | c :: a' => (c / INR (S k) + pint (S k) a')%R end.
Lemma close_R tol x y : close tol x y -> (Rabs (Q2R x - Q2R y) <= Q2R tol)%R.
Proof.
  intros [H1 H2]. apply Qle_Rle in H1. apply Qle_Rle in H2. rewrite Q2R_minus in H1, H2. apply Rabs_le. lra.
Qed.
Lemma quad_poly b c ord a : forall k,
  (forall p, 1 <= p <= ord -> close tolerance (moment b c (p - 1)) (1 / inject_Z (Z.of_nat p))%Q) ->
  k + length a <= ord ->
  (Rabs (quad b c (fun x => x ^ k * peval a x) - pint k a) <= Q2R tolerance * abs_sum a)%R.
Proof.
  induction a as [|a0 a IH]; intros k Hm Hl; cbn [peval pint abs_sum fold_right].
  - rewrite (quad_ext _ _ _ (fun x => 0 * x)%R) by (intros; ring). rewrite quad_scale, Rmult_0_l, Rmult_0_r, Rminus_0_r, Rabs_R0. lra.
  - rewrite (quad_ext _ _ _ (fun x => a0 * x ^ k + x ^ (S k) * peval a x)%R) by (intros; cbn [pow]; ring).
    rewrite quad_plus, quad_scale, quad_pow.
    assert (Hk : close tolerance (moment b c k) (1 / inject_Z (Z.of_nat (S k)))%Q).
    { replace k with (S k - 1) at 1 by lia. apply Hm. cbn in Hl. lia. }
    apply close_R in Hk.
    assert (E : Q2R (1 / inject_Z (Z.of_nat (S k))) = (1 / INR (S k))%R).
    { rewrite Q2R_div'; [|apply Bool.not_true_is_false; intros Hq; apply Qeq_bool_eq in Hq; unfold Qeq in Hq; cbn in Hq; lia].
      rewrite Q2R_1. f_equal. rewrite INR_IZR_INZ. unfold Q2R, inject_Z; cbn [Qnum Qden]. unfold Rdiv. rewrite Rinv_1. ring. }
    rewrite E in Hk.
    assert (Hr := IH (S k) Hm ltac:(cbn in Hl; lia)).
    match goal with |- (Rabs ?X <= _)%R =>
      replace X with (a0 * (Q2R (moment b c k) - 1 / INR (S k)) + (quad b c (fun x => x ^ S k * peval a x) - pint (S k) a))%R
        by (unfold Rdiv; ring) end.
    eapply Rle_trans; [apply Rabs_triang|]. rewrite Rabs_mult.
    assert (Rabs a0 * Rabs (Q2R (moment b c k) - 1 / INR (S k)) <= Rabs a0 * Q2R tolerance)%R
      by (apply Rmult_le_compat_l; [apply Rabs_pos|exact Hk]).
    fold (abs_sum a). lra.
Qed.

(* the integral of a polynomial *)
Fixpoint pprim (k : nat) (a : list R) (x : R) : R :=   (* sum_j a_j x^(k+j+1)/(k+j+1) *)
  match a with [] => 0%R | c :: a' => (c * (x ^ S k / INR (S k)) + pprim (S k) a' x)%R end.
Lemma pprim_deriv a : forall k x, derivable_pt_lim (pprim k a) x (x ^ k * peval a x)%R.
Proof.
  induction a as [|c a IH]; intros k x.
  - rewrite Rmult_0_r. apply (derivable_pt_lim_const 0%R).
  - replace (x ^ k * peval (c :: a) x)%R with (c * (INR (S k) * x ^ pred (S k) * / INR (S k)) + x ^ S k * peval a x)%R.
    + apply (derivable_pt_lim_plus (fun x => c * (x ^ S k / INR (S k)))%R (pprim (S k) a)); [|apply IH].
      apply (derivable_pt_lim_scal (fun x => x ^ S k / INR (S k))%R c).
      assert (D : derivable_pt_lim (fun y => / INR (S k) * y ^ S k)%R x (/ INR (S k) * (INR (S k) * x ^ pred (S k)))%R)
        by (apply (derivable_pt_lim_scal (fun y => y ^ S k)%R), derivable_pt_lim_pow).
      intros eps He. destruct (D eps He) as [dl Hd]. exists dl. intros h Hh Hb.
      specialize (Hd h Hh Hb). unfold Rdiv in *.
      replace (((x + h) ^ S k * / INR (S k) - x ^ S k * / INR (S k)) * / h - INR (S k) * x ^ pred (S k) * / INR (S k))%R
        with ((/ INR (S k) * (x + h) ^ S k - / INR (S k) * x ^ S k) * / h - / INR (S k) * (INR (S k) * x ^ pred (S k)))%R by ring.
      exact Hd.
    + cbn [peval pred pow]. assert (INR (S k) <> 0%R) by (apply not_0_INR; lia). field. assumption.
Qed.
Lemma pprim_1 a : forall k, pprim k a 1%R = pint k a.
Proof. induction a as [|c a IH]; intros k; cbn [pprim pint]; [reflexivity|]. rewrite IH, pow1. unfold Rdiv. ring. Qed.
Lemma pprim_0 a : forall k, pprim k a 0%R = 0%R.
Proof. induction a as [|c a IH]; intros k; cbn [pprim]; [reflexivity|]. rewrite IH, pow_i by lia. unfold Rdiv. ring. Qed.
Lemma peval_continuity a : continuity (peval a).
Proof.
  induction a as [|c a IH]; [apply (continuity_const (fun _ => 0%R)); intros x y; reflexivity|].
  apply (continuity_plus (fun _ => c) (fun x => x * peval a x)%R).
  - apply (continuity_const (fun _ => c)); intros x y; reflexivity.
  - apply (continuity_mult (fun x => x) (peval a)); [|exact IH]. apply derivable_continuous, derivable_id.
Qed.
Lemma pprim_derivable a : derivable (pprim 0 a).
Proof. intros x. exists (x ^ 0 * peval a x)%R. apply pprim_deriv. Defined.
Lemma derive_peval a x : derive (pprim 0 a) (pprim_derivable a) x = peval a x.
Proof. unfold derive, pprim_derivable. cbn. ring. Qed.
Lemma pprim_C1 a : continuity (derive (pprim 0 a) (pprim_derivable a)).
Proof.
  intros x eps He. destruct (peval_continuity a x eps He) as (alp & Ha & H). exists alp. split; [exact Ha|].
  intros y Hy. specialize (H y Hy). unfold dist, R_met in *. rewrite !derive_peval. exact H.
Qed.
Lemma RiemannInt_peval a (pr : Riemann_integrable (peval a) 0 1) : RiemannInt pr = pint 0 a.
Proof.
  pose (F := @mkC1 (pprim 0 a) (pprim_derivable a) (pprim_C1 a)).
  assert (pr2 : Riemann_integrable (derive F (diff0 F)) 0 1).
  { apply continuity_implies_RiemannInt; [lra|]. intros x _. apply pprim_C1. }
  transitivity (F 1 - F 0)%R; [|unfold F; cbn [c1]; rewrite pprim_1, pprim_0; ring].
  rewrite <- (FTC_Riemann F pr2).
  apply RiemannInt_P18; [lra|]. intros x _. symmetry. apply derive_peval.
Qed.

Lemma quad_integral n s bt a (pr : Riemann_integrable (peval a) 0 1) :
  generate_butcher_tableu n s = Ok bt -> length a <= bt_order bt ->
  (Rabs (quad (bt_b bt) (bt_c bt) (peval a) - RiemannInt pr) <= Q2R tolerance * abs_sum a)%R.
Proof.
  intros H Hl. destruct (tables_ok _ _ _ H) as (_ & Hc). destruct Hc as (_ & _ & _ & _ & _ & _ & Hm & _).
  rewrite RiemannInt_peval, (quad_ext _ _ _ (fun x => x ^ 0 * peval a x)%R) by (intros; cbn; ring).
  apply (quad_poly _ _ (bt_order bt)); [exact Hm|lia].
Qed.
