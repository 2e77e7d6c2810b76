(* Sim2_proofs.v -- gluing the trajectories of consecutive steps *)
From Coq Require Import Reals Qreals Lra.
From Verif Require Import Base Lib Sx Spec Fesd Spec2 Spec4 Sem_proofs Feas_proofs.
Local Open Scope R_scope.

Lemma psum_app_l a b j : (j <= length a)%nat -> partial_sum (a ++ b) j = partial_sum a j.
Proof. intros H. unfold partial_sum. rewrite firstn_app. replace (j - length a)%nat with 0%nat by lia. cbn [firstn]. rewrite app_nil_r. reflexivity. Qed.
Lemma psum_app_r a b j : partial_sum (a ++ b) (length a + j) = rsum a + partial_sum b j.
Proof. unfold partial_sum. rewrite firstn_app_2, rsum_app. reflexivity. Qed.
Lemma psum_all a : partial_sum a (length a) = rsum a.
Proof. unfold partial_sum. rewrite firstn_all. reflexivity. Qed.
Lemma psum_0 a : partial_sum a 0 = 0.
Proof. reflexivity. Qed.

Notation piece := (list R * list (list R))%type.
Definition lengths (l : list piece) : list R := concat (map fst l).
Definition stops (l : list piece) : list (list R) := concat (map snd l).
Definition grid_of (hs : list R) : list R := map (partial_sum hs) (seq 0 (S (length hs))).
Lemma grid_of_in hs j : (j <= length hs)%nat -> In (partial_sum hs j) (grid_of hs).
Proof. intros H. apply in_map, in_seq. lia. Qed.

Lemma shift_deriv f T z l : derivable_pt_lim f (z - T) l -> derivable_pt_lim (fun y => f (y - T)) z l.
Proof.
  intros D. assert (G : derivable_pt_lim (fun y => y - T) z 1).
  { replace 1 with (1 - 0) by lra. apply derivable_pt_lim_minus; [apply derivable_pt_lim_id|apply derivable_pt_lim_const]. }
  pose proof (derivable_pt_lim_comp (fun y => y - T) f z 1 l G D) as K. rewrite Rmult_1_r in K. exact K.
Qed.

Section Glue.
Variable n : nat.
(* D k x v: in step k the velocity v is allowed in the state x *)
Definition piece_curve (D : (nat -> R) -> (nat -> R) -> Prop) (x0 : nat -> R) (p : piece) (X : R -> nat -> R) : Prop :=
  (exists K, forall i a b, (i < n)%nat -> 0 <= a <= rsum (fst p) -> 0 <= b <= rsum (fst p) -> Rabs (X a i - X b i) <= K * Rabs (a - b)) /\
  (forall i, (i < n)%nat -> X 0 i = x0 i) /\
  (forall j x i, nth_error (snd p) j = Some x -> (i < n)%nat -> X (partial_sum (fst p) (S j)) i = nth i x 0) /\
  forall tm, 0 <= tm <= rsum (fst p) -> ~ In tm (grid_of (fst p)) ->
    exists v, D (X tm) v /\ forall i, (i < n)%nat -> derivable_pt_lim (fun z => X z i) tm (v i).
Definition piece_ok (D : (nat -> R) -> (nat -> R) -> Prop) (x0 : nat -> R) (p : piece) : Prop :=
  length (snd p) = length (fst p) /\ (0 < length (fst p))%nat /\ (forall h, In h (fst p) -> 0 <= h) /\ exists X, piece_curve D x0 p X.

Definition start_of (l : list piece) (x0 : nat -> R) (k : nat) : nat -> R :=
  match k with O => x0 | S j => match nth_error l j with Some p => fun i => nth i (last (snd p) []) 0 | None => x0 end end.

Lemma glue_pieces : forall (l : list piece) (D : nat -> (nat -> R) -> (nat -> R) -> Prop) (x0 : nat -> R),
  (forall k p, nth_error l k = Some p -> piece_ok (D k) (start_of l x0 k) p) ->
  exists X,
  (exists K, forall i a b, (i < n)%nat -> 0 <= a <= rsum (lengths l) -> 0 <= b <= rsum (lengths l) -> Rabs (X a i - X b i) <= K * Rabs (a - b)) /\
  (forall i, (i < n)%nat -> X 0 i = x0 i) /\
  (forall j x i, nth_error (stops l) j = Some x -> (i < n)%nat -> X (partial_sum (lengths l) (S j)) i = nth i x 0) /\
  forall tm, 0 <= tm <= rsum (lengths l) -> ~ In tm (grid_of (lengths l)) ->
    exists k v, (k < length l)%nat /\ rsum (lengths (firstn k l)) < tm < rsum (lengths (firstn (S k) l)) /\ D k (X tm) v /\
      forall i, (i < n)%nat -> derivable_pt_lim (fun z => X z i) tm (v i).
Proof.
  induction l as [|p l IH]; intros D x0 OK.
  - exists (fun _ => x0). cbn [lengths stops map concat]. unfold rsum. cbn [fold_right]. split; [exists 0; intros; rewrite Rminus_diag_eq by reflexivity; rewrite Rabs_R0; lra|].
    split; [reflexivity|]. split; [intros [|j] x i E; discriminate|]. intros tm Ht N. exfalso. apply N. left. rewrite psum_0. lra.
  - destruct (OK 0%nat p eq_refl) as (L1 & L2 & L3 & X0 & (K0 & Lip0) & S0 & P0 & D0). cbn [start_of] in S0.
    destruct p as [hs xs]. cbn [fst snd] in *.
    assert (Hne : exists xs' xl, xs = xs' ++ [xl]).
    { destruct xs as [|a xs]; [cbn in L1; lia|]. exists (removelast (a :: xs)), (last (a :: xs) []). apply app_removelast_last. discriminate. }
    destruct Hne as (xs' & xl & Exs).
    assert (XL : last xs [] = xl) by (rewrite Exs; apply last_last).
    assert (XE : forall i, (i < n)%nat -> X0 (rsum hs) i = nth i xl 0).
    { intros i Hi. rewrite <- psum_all. assert (Ls : length hs = S (length xs')) by (rewrite <- L1, Exs, app_length; cbn; lia). rewrite Ls.
      apply (P0 (length xs') xl i); [rewrite Exs, nth_error_app2, Nat.sub_diag by lia; reflexivity|exact Hi]. }
    destruct (IH (fun k => D (S k)) (fun i => nth i xl 0)) as (X1 & (K1 & Lip1) & S1 & P1 & D1).
    { intros k q Hq. specialize (OK (S k) q Hq). assert (Lk : (k < length l)%nat) by (apply nth_error_Some; congruence). destruct k as [|k]; cbn [start_of nth_error snd] in *; [rewrite XL in OK; exact OK|].
      destruct (nth_error l k) eqn:En; [exact OK|]. exfalso. apply nth_error_None in En. lia. }
    set (T := rsum hs) in *. assert (T0 : 0 <= T) by (apply rsum_nonneg; exact L3).
    assert (EL : lengths ((hs, xs) :: l) = hs ++ lengths l) by reflexivity. assert (ES : stops ((hs, xs) :: l) = xs ++ stops l) by reflexivity. rewrite EL, ES.
    assert (RS : rsum (hs ++ lengths l) = T + rsum (lengths l)) by apply rsum_app.
    exists (fun z i => if Rle_dec z T then X0 z i else X1 (z - T) i). split; [|split; [|split]].
    + exists (Rmax (Rmax K0 K1) 0). intros i a b Hi Ha Hb. rewrite RS in *. set (K := Rmax (Rmax K0 K1) 0).
      assert (k0 : K0 <= K) by (unfold K; eapply Rle_trans; [apply Rmax_l|apply Rmax_l]).
      assert (k1 : K1 <= K) by (unfold K; eapply Rle_trans; [apply Rmax_r|apply Rmax_l]).
      assert (B0 : forall a b, 0 <= a <= T -> 0 <= b <= T -> Rabs (X0 a i - X0 b i) <= K * Rabs (a - b)).
      { intros u v Hu Hv. eapply Rle_trans; [apply (Lip0 i u v Hi Hu Hv)|]. apply Rmult_le_compat_r; [apply Rabs_pos|exact k0]. }
      assert (B1 : forall a b, T <= a <= T + rsum (lengths l) -> T <= b <= T + rsum (lengths l) -> Rabs (X1 (a - T) i - X1 (b - T) i) <= K * Rabs (a - b)).
      { intros u v Hu Hv. eapply Rle_trans; [apply (Lip1 i (u - T) (v - T) Hi); lra|]. replace (u - T - (v - T)) with (u - v) by lra. apply Rmult_le_compat_r; [apply Rabs_pos|exact k1]. }
      assert (Z1 : X1 (T - T) i = X0 T i) by (rewrite Rminus_diag_eq by reflexivity; rewrite S1, XE by exact Hi; reflexivity).
      assert (Cr : forall a b, 0 <= a <= T -> T < b <= T + rsum (lengths l) -> Rabs (X0 a i - X1 (b - T) i) <= K * Rabs (a - b)).
      { intros u v Hu Hv. pose proof (B0 u T Hu ltac:(lra)) as G0. pose proof (B1 T v ltac:(lra) ltac:(lra)) as G1. rewrite Z1 in G1.
        replace (X0 u i - X1 (v - T) i) with ((X0 u i - X0 T i) + (X0 T i - X1 (v - T) i)) by lra. eapply Rle_trans; [apply Rabs_triang|].
        rewrite (Rabs_left1 (u - T)) in G0 by lra. rewrite (Rabs_left1 (T - v)) in G1 by lra. rewrite (Rabs_left1 (u - v)) by lra. lra. }
      destruct (Rle_dec a T) as [Ga|Ga], (Rle_dec b T) as [Gb|Gb].
      * apply B0; lra.
      * apply Cr; lra.
      * rewrite Rabs_minus_sym, (Rabs_minus_sym a b). apply Cr; lra.
      * apply B1; lra.
    + intros i Hi. destruct (Rle_dec 0 T); [apply S0, Hi|lra].
    + intros j x i Hj Hi. destruct (le_lt_dec (length xs) j) as [Gj|Gj].
      * rewrite nth_error_app2 in Hj by exact Gj. replace (S j) with (length hs + S (j - length xs))%nat by lia. rewrite psum_app_r. fold T.
        pose proof (P1 (j - length xs)%nat x i Hj Hi) as G. destruct (Rle_dec _ T) as [Gt|Gt].
        -- (* a step of length zero *)
           assert (Z : partial_sum (lengths l) (S (j - length xs)) = 0).
           { assert (Nn : 0 <= partial_sum (lengths l) (S (j - length xs))); [|lra]. apply rsum_nonneg. intros h Hh. 
             assert (Hl : In h (lengths l)) by (rewrite <- (firstn_skipn (S (j - length xs)) (lengths l)); apply in_or_app; left; exact Hh).
             apply in_concat in Hl. destruct Hl as (hh & H1 & H2). apply in_map_iff in H1. destruct H1 as (q & <- & Hq). apply In_nth_error in Hq. destruct Hq as [k Hk].
             destruct (OK (S k) q Hk) as (_ & _ & NN & _). exact (NN h H2). }
           rewrite Z in *. rewrite Rplus_0_r. rewrite XE by exact Hi. rewrite S1 in G by exact Hi. exact G.
        -- replace (T + partial_sum (lengths l) (S (j - length xs)) - T) with (partial_sum (lengths l) (S (j - length xs))) by lra. exact G.
      * rewrite nth_error_app1 in Hj by exact Gj. rewrite psum_app_l by lia. destruct (Rle_dec _ T) as [Gt|Gt]; [exact (P0 j x i Hj Hi)|].
        exfalso. apply Gt. assert (ET : T = partial_sum hs (S j) + rsum (skipn (S j) hs)) by (unfold T, partial_sum; rewrite <- rsum_app, firstn_skipn; reflexivity).
        assert (0 <= rsum (skipn (S j) hs)); [|lra].
        apply rsum_nonneg. intros h Hh. apply L3. rewrite <- (firstn_skipn (S j) hs). apply in_or_app. right. exact Hh.
    + intros tm Ht N. rewrite RS in Ht. destruct (Rtotal_order tm T) as [G|[G|G]].
      * destruct (D0 tm ltac:(lra)) as (v & Dv & Pv).
        { intros I. apply N. unfold grid_of in *. apply in_map_iff in I. destruct I as (j & <- & Hj). apply in_seq in Hj. apply in_map_iff. exists j.
          split; [apply psum_app_l; lia|]. apply in_seq. rewrite app_length. lia. }
        exists 0%nat, v. split; [cbn; lia|]. split.
        { cbn [firstn]. change (lengths []) with (@nil R). change (lengths [(hs, xs)]) with (hs ++ []). rewrite app_nil_r. fold T. change (rsum []) with 0.
          split; [|exact G]. destruct (Rle_lt_or_eq_dec 0 tm (proj1 Ht)) as [Gt|<-]; [exact Gt|]. exfalso. apply N. left. reflexivity. }
        destruct (Rle_dec tm T) as [Gt|Gt]; [|lra]. split; [exact Dv|]. intros i Hi.
        apply (derivable_pt_lim_locally_ext (fun z => X0 z i) _ tm (tm - 1) T); [lra| |apply Pv, Hi]. intros y Hy. destruct (Rle_dec y T); [reflexivity|lra].
      * exfalso. apply N. rewrite G. unfold T. rewrite <- psum_all, <- (psum_app_l hs (lengths l)) by lia. apply grid_of_in. rewrite app_length. lia.
      * destruct (D1 (tm - T) ltac:(lra)) as (k & v & Hk & Hb & Dv & Pv).
        { intros I. apply N. unfold grid_of in I. apply in_map_iff in I. destruct I as (j & Ej & Hj). apply in_seq in Hj.
          replace tm with (partial_sum (hs ++ lengths l) (length hs + j)) by (rewrite psum_app_r; fold T; lra). apply grid_of_in. rewrite app_length. lia. }
        exists (S k), v. split; [cbn; lia|]. split.
        { change (firstn (S k) ((hs, xs) :: l)) with ((hs, xs) :: firstn k l). change (firstn (S (S k)) ((hs, xs) :: l)) with ((hs, xs) :: firstn (S k) l).
          change (lengths ((hs, xs) :: firstn k l)) with (hs ++ lengths (firstn k l)). change (lengths ((hs, xs) :: firstn (S k) l)) with (hs ++ lengths (firstn (S k) l)).
          rewrite !rsum_app. fold T. lra. }
        destruct (Rle_dec tm T) as [Gt|Gt]; [lra|]. split; [exact Dv|]. intros i Hi.
        apply (derivable_pt_lim_locally_ext (fun z => X1 (z - T) i) _ tm T (tm + 1)); [lra| |apply (shift_deriv (fun z => X1 z i)), Pv, Hi].
        intros y Hy. destruct (Rle_dec y T); [lra|reflexivity].
Qed.

(* a curve that passes through the stops of every step passes through all of them *)
Lemma pass_pieces : forall (l : list piece) (Y : R -> nat -> R), (forall p, In p l -> length (snd p) = length (fst p)) ->
  (forall k p j x i, nth_error l k = Some p -> nth_error (snd p) j = Some x -> (i < n)%nat -> nth i x 0 = Y (rsum (lengths (firstn k l)) + partial_sum (fst p) (S j)) i) ->
  forall j x i, nth_error (stops l) j = Some x -> (i < n)%nat -> nth i x 0 = Y (partial_sum (lengths l) (S j)) i.
Proof.
  induction l as [|p l IH]; intros Y LN A j x i Hj Hi; [destruct j; discriminate|]. destruct p as [hs xs].
  change (stops ((hs, xs) :: l)) with (xs ++ stops l) in Hj. change (lengths ((hs, xs) :: l)) with (hs ++ lengths l).
  pose proof (LN (hs, xs) (or_introl eq_refl)) as L1. cbn [fst snd] in L1.
  destruct (le_lt_dec (length xs) j) as [Gj|Gj].
  - rewrite nth_error_app2 in Hj by exact Gj. replace (S j) with (length hs + S (j - length xs))%nat by lia. rewrite psum_app_r.
    apply (IH (fun z => Y (rsum hs + z)) ltac:(intros q Hq; apply LN; right; exact Hq)); [|exact Hj|exact Hi].
    intros k q j' x' i' Hq Hj' Hi'. rewrite (A (S k) q j' x' i' Hq Hj' Hi').
    change (lengths (firstn (S k) ((hs, xs) :: l))) with (hs ++ lengths (firstn k l)). rewrite rsum_app. f_equal. lra.
  - rewrite nth_error_app1 in Hj by exact Gj. rewrite psum_app_l by lia. rewrite (A 0%nat (hs, xs) j x i eq_refl Hj Hi). cbn [firstn fst]. change (rsum (lengths [])) with 0. f_equal. lra.
Qed.
End Glue.
