(* Vec_proofs.v -- array assignments *)
From Coq Require Import Reals Qreals Lra.
From Verif Require Import Base Lib Sx Sx_proofs Utils Tableau Opts Model Ocp Problem Numeric Rk4 Results Solver Spec Fesd Spec2 Spec4 Spec5
  Results_proofs Solve_proofs.

Lemma updE_len {A} e (l : list A) i a l' : updE e l i a = Ok l' -> length l' = length l.
Proof. revert i l'. induction l as [|x l IH]; intros [|i] l' E; cbn in E; try discriminate.
  - injection E as <-. reflexivity.
  - apply bind_ok in E. destruct E as (r & E & E'). injection E' as <-. cbn. f_equal. eauto.
Qed.
Lemma updE_nth {A} e (l : list A) i a l' j : updE e l i a = Ok l' -> nth_error l' j = if j =? i then Some a else nth_error l j.
Proof. revert i l' j. induction l as [|x l IH]; intros [|i] l' j E; cbn in E; try discriminate.
  - injection E as <-. destruct j; reflexivity.
  - apply bind_ok in E. destruct E as (r & E & E'). injection E' as <-. destruct j as [|j]; [reflexivity|]. cbn. apply IH, E.
Qed.
Lemma updE_in {A} e (l : list A) i a l' : updE e l i a = Ok l' -> i < length l.
Proof. revert i l'. induction l as [|x l IH]; intros [|i] l' E; cbn in E; try discriminate; cbn; [lia|].
  apply bind_ok in E. destruct E as (r & E & E'). apply IH in E. lia. Qed.

Lemma write_app {A} (w : list A) a b : write w (a ++ b) = (do* w1 <- write w a; write w1 b).
Proof. unfold write. apply foldM_app. Qed.
Lemma write_len {A} ivs : forall (w w' : list A), write w ivs = Ok w' -> length w' = length w.
Proof.
  induction ivs as [|iv ivs IH]; intros w w' E; cbn in E; [injection E as <-; reflexivity|].
  apply bind_ok in E. destruct E as (w1 & E1 & E2). apply updE_len in E1. apply IH in E2. congruence.
Qed.
Lemma write_total {A} ivs : forall (w : list A), (forall iv, In iv ivs -> fst iv < length w) -> exists w', write w ivs = Ok w'.
Proof.
  induction ivs as [|iv ivs IH]; intros w Hb; [exists w; reflexivity|]. cbn.
  destruct (updE_total EIndexError w (fst iv) (snd iv)) as [w1 E]; [apply Hb; left; reflexivity|]. rewrite E. cbn [bind].
  apply IH. intros iv' Hi. rewrite (updE_len _ _ _ _ _ E). apply Hb. right. exact Hi.
Qed.
Lemma write_bound {A} ivs : forall (w w' : list A), write w ivs = Ok w' -> forall iv, In iv ivs -> fst iv < length w.
Proof.
  induction ivs as [|a ivs IH]; intros w w' E iv Hi; [destruct Hi|]. cbn in E. apply bind_ok in E. destruct E as (w1 & E1 & E2).
  destruct Hi as [->|Hi]; [eapply updE_in; eassumption|]. rewrite <- (updE_len _ _ _ _ _ E1). eapply IH; eassumption.
Qed.
(* every entry is the old one or one that was written there *)
Lemma write_nth {A} ivs : forall (w w' : list A) i, write w ivs = Ok w' ->
  (~ In i (map fst ivs) /\ nth_error w' i = nth_error w i) \/ (exists x, In (i, x) ivs /\ nth_error w' i = Some x).
Proof.
  induction ivs as [|[k a] ivs IH]; intros w w' i E; cbn in E.
  - injection E as <-. left. split; [intros []|reflexivity].
  - apply bind_ok in E. destruct E as (w1 & E1 & E2). cbn in E1. destruct (IH w1 w' i E2) as [[N F]|(x & I & F)].
    + rewrite (updE_nth _ _ _ _ _ i E1) in F. destruct (i =? k) eqn:Ek.
      * apply Nat.eqb_eq in Ek. subst. right. exists a. split; [left; reflexivity|exact F].
      * apply Nat.eqb_neq in Ek. left. split; [|exact F]. cbn. intros [->|I]; [congruence|contradiction].
    + right. exists x. split; [right; exact I|exact F].
Qed.

Lemma overwrite_len {A} W (v : list A) G : length v = length W -> length (overwrite W v G) = length W.
Proof. intros L. unfold overwrite. rewrite map_length, combine_length. lia. Qed.
Lemma nth_combine {A B} (a : list A) (b : list B) i x y : nth_error a i = Some x -> nth_error b i = Some y -> nth_error (combine a b) i = Some (x, y).
Proof. revert b i. induction a as [|u a IH]; intros [|v b] [|i]; cbn; try discriminate; [congruence|apply IH]. Qed.
Lemma overwrite_nth {A} W (v : list A) G i y x : nth_error W i = Some y -> nth_error v i = Some x ->
  nth_error (overwrite W v G) i = Some (match G y with Some z => z | None => x end).
Proof. intros E1 E2. unfold overwrite. rewrite nth_error_map, (nth_combine _ _ _ _ _ E1 E2). reflexivity. Qed.
Lemma list_eq_nth {A} (a b : list A) : length a = length b -> (forall i x, nth_error a i = Some x -> nth_error b i = Some x) -> a = b.
Proof.
  revert b. induction a as [|x a IH]; intros [|y b] L E; try discriminate; [reflexivity|].
  f_equal; [specialize (E 0 x eq_refl); cbn in E; congruence|]. apply IH; [cbn in L; lia|]. intros i z Hz. exact (E (S i) z Hz).
Qed.
Lemma write_overwrite {T} W (v : list T) ivs v' G : length v = length W -> write v ivs = Ok v' ->
  (forall i x, In (i, x) ivs -> exists y, nth_error W i = Some y /\ G y = Some x) ->
  (forall i y, nth_error W i = Some y -> G y <> None -> In i (map fst ivs)) -> v' = overwrite W v G.
Proof.
  intros L E A B. pose proof (write_len _ _ _ E) as L'. apply list_eq_nth; [rewrite overwrite_len; congruence|].
  intros i x Hx. destruct (nth_error_lt W i) as [y Hy]. { apply nth_error_Some_lt in Hx. lia. }
  destruct (nth_error_lt v i) as [u Hu]. { apply nth_error_Some_lt in Hx. lia. }
  rewrite (overwrite_nth _ _ _ _ _ _ Hy Hu). destruct (write_nth _ _ _ i E) as [[N F]|(z & I & F)].
  - rewrite Hx, Hu in F. injection F as ->. destruct (G y) eqn:EG; [|reflexivity]. exfalso. apply N. eapply B; [exact Hy|congruence].
  - rewrite Hx in F. injection F as ->. destruct (A i z I) as (y' & Hy' & HG). rewrite Hy in Hy'. injection Hy' as <-. rewrite HG. reflexivity.
Qed.
Lemma overwrite_twice {A} W (v : list A) G1 G2 : length v = length W ->
  overwrite W (overwrite W v G1) G2 = overwrite W v (fun y => match G2 y with Some x => Some x | None => G1 y end).
Proof.
  unfold overwrite. revert v. induction W as [|y W IH]; intros [|x v] L; try discriminate; [reflexivity|]. cbn. f_equal.
  - destruct (G2 y); reflexivity.
  - apply IH. cbn in L. lia.
Qed.
Lemma overwrite_ext {A} W (v : list A) G1 G2 : (forall y, In y W -> G1 y = G2 y) -> overwrite W v G1 = overwrite W v G2.
Proof. intros E. unfold overwrite. apply map_ext_in. intros p Hp. rewrite E; [reflexivity|]. destruct p as [a b]. apply in_combine_l in Hp. exact Hp. Qed.

(* ---- assign ---- *)
Lemma bcast_same v : bcast (length v) v = Ok v.
Proof. unfold bcast. rewrite Nat.eqb_refl. reflexivity. Qed.
Lemma bcast_len n v v' : bcast n v = Ok v' -> length v' = n.
Proof.
  unfold bcast. destruct (length v =? n) eqn:E; [intros F; injection F as <-; apply Nat.eqb_eq, E|].
  destruct v as [|x [|y v]]; try discriminate. intros F. injection F as <-. apply repeat_length.
Qed.
Lemma assign_same w idx v : length v = length idx -> assign w idx v = write w (combine idx v).
Proof. intros L. unfold assign. rewrite <- L, bcast_same. reflexivity. Qed.
Lemma assign_len w idx v w' : assign w idx v = Ok w' -> length w' = length w.
Proof. unfold assign. intros E. apply bind_ok in E. destruct E as (v' & _ & E). eapply write_len; eassumption. Qed.
(* blocks (idx, v) written one after the other *)
Lemma assign_blocks bs : (forall b, In b bs -> length (snd b) = length (fst b)) -> forall w,
  foldM (fun w b => assign w (fst b) (snd b)) bs w = write w (concat (map (fun b => combine (fst b) (snd b)) bs)).
Proof.
  induction bs as [|b bs IH]; intros L w; [reflexivity|]. cbn [foldM map concat]. rewrite write_app.
  rewrite assign_same by (apply L; left; reflexivity). destruct (write w (combine (fst b) (snd b))); cbn [bind]; [|reflexivity].
  apply IH. intros b' Hb. apply L. right. exact Hb.
Qed.
Lemma in_fst_combine {A B} (a : list A) (b : list B) x : length a = length b -> In x a -> In x (map fst (combine a b)).
Proof. revert b. induction a as [|u a IH]; intros [|v b] L H; cbn in *; try discriminate; [destruct H|]. destruct H as [->|H]; [left; reflexivity|right; apply IH; [lia|exact H]]. Qed.
Lemma combine_in_nth {A B} (a : list A) (b : list B) x y : In (x, y) (combine a b) -> exists k, nth_error a k = Some x /\ nth_error b k = Some y.
Proof.
  revert b. induction a as [|u a IH]; intros [|v b] H; cbn in H; try (destruct H; fail). destruct H as [H|H].
  - injection H as -> ->. exists 0. auto.
  - destruct (IH b H) as (k & A1 & A2). exists (S k). auto.
Qed.
(* labelled blocks: block b writes the symbols ys b *)
Lemma blocks_write {T} (W : list sym) (v : list R) (l : list T) (bk : T -> list nat * list R) (ys : T -> list sym) G :
  length v = length W ->
  (forall t, In t l -> sel W (fst (bk t)) = Ok (ys t) /\ length (snd (bk t)) = length (fst (bk t)) /\
     forall k y x, nth_error (ys t) k = Some y -> nth_error (snd (bk t)) k = Some x -> G y = Some x) ->
  (forall i y, nth_error W i = Some y -> G y <> None -> exists t, In t l /\ In i (fst (bk t))) ->
  foldM (fun w b => assign w (fst b) (snd b)) (map bk l) v = Ok (overwrite W v G).
Proof.
  intros L A B.
  assert (LB : forall b, In b (map bk l) -> length (snd b) = length (fst b)).
  { intros b Hb. apply in_map_iff in Hb. destruct Hb as (t & <- & Ht). apply A. exact Ht. }
  rewrite (assign_blocks _ LB). rewrite map_map.
  set (ivs := concat (map (fun t => combine (fst (bk t)) (snd (bk t))) l)).
  assert (IV : forall i x, In (i, x) ivs -> exists y, nth_error W i = Some y /\ G y = Some x).
  { intros i x Hi. apply in_concat in Hi. destruct Hi as (c & Hc & Hi). apply in_map_iff in Hc. destruct Hc as (t & <- & Ht).
    destruct (A t Ht) as (S & Lb & HG). apply combine_in_nth in Hi. destruct Hi as (k & E1 & E2).
    apply sel_ok in S. destruct (Forall2_nth _ _ _ _ _ S E1) as (y & Hy & Hw). exists y. split; [exact Hw|]. eapply HG; eassumption. }
  destruct (write_total ivs v) as [v' E].
  { intros [i x] Hi. destruct (IV i x Hi) as (y & Hy & _). cbn. rewrite L. eapply nth_error_Some_lt; eassumption. }
  rewrite E. f_equal. eapply write_overwrite; [exact L|exact E|exact IV|].
  intros i y Hy HG. destruct (B i y Hy HG) as (t & Ht & Hi). unfold ivs. rewrite concat_map, map_map. apply in_concat.
  exists (map fst (combine (fst (bk t)) (snd (bk t)))). split; [apply in_map_iff; exists t; auto|].
  apply in_fst_combine; [symmetry; apply A, Ht|exact Hi].
Qed.

(* ---- loops of updates of w0 ---- *)
Lemma update_w0_run f s : update_w0 f s = match f (ss_w0 s) with Ok w => (mkState (ss_x0 s) (ss_pval s) w (ss_calls s), Ok tt) | Err e => (s, Err e) end.
Proof. unfold update_w0, sbind, sget, lift. destruct (f (ss_w0 s)); reflexivity. Qed.
Lemma sfor_update {A} (f : A -> list R -> res (list R)) l : forall s w, foldM (fun w a => f a w) l (ss_w0 s) = Ok w ->
  sfor (fun a => update_w0 (f a)) l s = (mkState (ss_x0 s) (ss_pval s) w (ss_calls s), Ok tt).
Proof.
  induction l as [|a l IH]; intros s w E; cbn [foldM] in E; cbn [sfor].
  - injection E as <-. destruct s; reflexivity.
  - apply bind_ok in E. destruct E as (w1 & E1 & E2). unfold sbind. rewrite update_w0_run, E1.
    rewrite (IH (mkState (ss_x0 s) (ss_pval s) w1 (ss_calls s)) w); [reflexivity|exact E2].
Qed.
Lemma sfor_ext {S A} (f g : A -> se S unit) l : (forall a, In a l -> forall s, f a s = g a s) -> forall s, sfor f l s = sfor g l s.
Proof.
  intros E. induction l as [|a l IH]; intros s; [reflexivity|]. cbn [sfor]. unfold sbind. rewrite E by (left; reflexivity).
  destruct (g a s) as [s1 [x|e]]; [|reflexivity]. apply IH. intros b Hb. apply E. right. exact Hb.
Qed.
Lemma sfor_concat {S A} (f : A -> se S unit) ll : forall s, sfor (fun l => sfor f l) ll s = sfor f (concat ll) s.
Proof.
  induction ll as [|l ll IH]; intros s; [reflexivity|]. cbn [sfor concat]. unfold sbind.
  assert (E : forall l1 l2 s, sfor f (l1 ++ l2) s = match sfor f l1 s with (s1, Ok _) => sfor f l2 s1 | (s1, Err e) => (s1, Err e) end).
  { clear. induction l1 as [|a l1 IH]; intros l2 s; [reflexivity|]. cbn [app sfor]. unfold sbind. destruct (f a s) as [s1 [x|e]]; [apply IH|reflexivity]. }
  rewrite E. destruct (sfor f l s) as [s1 [x|e]]; [apply IH|reflexivity].
Qed.
Lemma sfor_map {S A B} (g : A -> B) (f : B -> se S unit) l s : sfor (fun a => f (g a)) l s = sfor f (map g l) s.
Proof. revert s. induction l as [|a l IH]; intros s; [reflexivity|]. cbn [sfor map]. unfold sbind. destruct (f (g a) s) as [s1 [x|e]]; [apply IH|reflexivity]. Qed.
