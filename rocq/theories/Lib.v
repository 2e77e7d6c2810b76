(* Lib.v -- lemmas about the list and exception helpers of Base.v (proof support only) *)
From Verif Require Import Base.
From Coq Require Export Permutation.

Lemma bind_Ok {A B} (a : A) (k : A -> res B) : bind (Ok a) k = k a.
Proof. reflexivity. Qed.

Lemma Forall2_length {A B} (R : A -> B -> Prop) l1 l2 : Forall2 R l1 l2 -> length l1 = length l2.
Proof. induction 1; cbn; congruence. Qed.

Lemma Forall2_impl {A B} (R R' : A -> B -> Prop) l1 l2 :
  (forall a b, R a b -> R' a b) -> Forall2 R l1 l2 -> Forall2 R' l1 l2.
Proof. induction 2; constructor; auto. Qed.

(* ---- mapM ---- *)
Lemma mapM_Forall2 {A B} (f : A -> res B) l r :
  mapM f l = Ok r <-> Forall2 (fun a b => f a = Ok b) l r.
Proof.
  revert r; induction l as [|a l IH]; intros r; cbn [mapM].
  - split; [intros H; injection H as <-; constructor | intros H; inversion H; reflexivity].
  - split.
    + intros H; inv_ok; subst. constructor; [assumption | apply IH; assumption].
    + intros H; inversion H; subst. rewrite H2. cbn. apply IH in H4. rewrite H4. reflexivity.
Qed.

Lemma mapM_length {A B} (f : A -> res B) l r : mapM f l = Ok r -> length r = length l.
Proof. intros H; apply mapM_Forall2 in H; symmetry; eapply Forall2_length; eassumption. Qed.

Lemma mapM_ext {A B} (f h : A -> res B) l :
  (forall a, In a l -> f a = h a) -> mapM f l = mapM h l.
Proof.
  induction l as [|a l IH]; intros H; cbn; [reflexivity|].
  rewrite (H a) by (left; reflexivity). destruct (h a); cbn; [|reflexivity].
  rewrite IH; [reflexivity | intros; apply H; right; assumption].
Qed.

Lemma mapM_Ok_map {A B} (f : A -> res B) (h : A -> B) l :
  (forall a, In a l -> f a = Ok (h a)) -> mapM f l = Ok (map h l).
Proof.
  induction l as [|a l IH]; intros H; cbn; [reflexivity|].
  rewrite (H a) by (left; reflexivity); cbn.
  rewrite IH; [reflexivity | intros; apply H; right; assumption].
Qed.

Lemma mapM_app {A B} (f : A -> res B) l1 l2 :
  mapM f (l1 ++ l2) = (do* a <- mapM f l1; do* b <- mapM f l2; Ok (a ++ b)).
Proof.
  induction l1 as [|x l1 IH]; cbn.
  - destruct (mapM f l2); reflexivity.
  - destruct (f x); cbn; [|reflexivity]. rewrite IH.
    destruct (mapM f l1); cbn; [|reflexivity]. destruct (mapM f l2); reflexivity.
Qed.

Lemma mapM_nth {A B} (f : A -> res B) l r k a :
  mapM f l = Ok r -> nth_error l k = Some a -> exists b, nth_error r k = Some b /\ f a = Ok b.
Proof.
  intros H; apply mapM_Forall2 in H. revert k; induction H as [|x y l r Hxy H IH]; intros k Hk.
  - destruct k; discriminate.
  - destruct k; cbn in *; [injection Hk as <-; eauto | eauto].
Qed.

Lemma mapM_In {A B} (f : A -> res B) l r a :
  mapM f l = Ok r -> In a l -> exists b, In b r /\ f a = Ok b.
Proof.
  intros H Ha; apply In_nth_error in Ha; destruct Ha as [k Hk].
  destruct (mapM_nth _ _ _ _ _ H Hk) as (b & Hb & Hf). exists b; split; [eapply nth_error_In; eauto|auto].
Qed.

Lemma mapM_In_inv {A B} (f : A -> res B) l r b :
  mapM f l = Ok r -> In b r -> exists a, In a l /\ f a = Ok b.
Proof.
  intros H; apply mapM_Forall2 in H. induction H as [|x y l r Hxy H IH]; intros Hb; [destruct Hb|].
  destruct Hb as [<-|Hb]; [exists x; split; [left|]; auto|].
  destruct (IH Hb) as (a & Ha & Hf); exists a; split; [right|]; auto.
Qed.

(* ---- foldM ---- *)
Lemma foldM_app {S A} (f : S -> A -> res S) l1 l2 s :
  foldM f (l1 ++ l2) s = (do* s' <- foldM f l1 s; foldM f l2 s').
Proof.
  revert s; induction l1 as [|a l1 IH]; intros s; cbn; [reflexivity|].
  destruct (f s a); cbn; [apply IH | reflexivity].
Qed.

Lemma foldM_inv {S A} (f : S -> A -> res S) (I : S -> Prop) l :
  (forall s a s', In a l -> I s -> f s a = Ok s' -> I s') ->
  forall s s', I s -> foldM f l s = Ok s' -> I s'.
Proof.
  induction l as [|a l IH]; cbn; intros Hstep s s' HI H.
  - injection H as <-; assumption.
  - inv_ok. eapply IH; [| |eassumption].
    + intros; eapply Hstep; eauto.
    + eapply Hstep; [left; reflexivity| |]; eauto.
Qed.

Lemma foldM_visit {S A} (f : S -> A -> res S) (le : S -> S -> Prop)
  (le_refl : forall s, le s s) (le_trans : forall a b c, le a b -> le b c -> le a c) l :
  (forall s a s', In a l -> f s a = Ok s' -> le s s') ->
  forall s s' k a, foldM f l s = Ok s' -> nth_error l k = Some a ->
  exists s1 s2, foldM f (firstn k l) s = Ok s1 /\ le s s1 /\ f s1 a = Ok s2 /\ le s2 s'.
Proof.
  induction l as [|x l IH]; cbn; intros Hs s s' k a H Hk.
  - destruct k; discriminate.
  - inv_ok. rename a0 into s1. destruct k as [|k]; cbn in *.
    + injection Hk as ->. exists s, s1; repeat split; auto.
      assert (Hinv : foldM f l s1 = Ok s' -> le s1 s').
      { intros Hf. eapply (foldM_inv f (fun s2 => le s1 s2) l); [|apply le_refl|exact Hf].
        intros s2 b s3 Hb Hle Hf'. eapply le_trans; [exact Hle|]. eapply Hs; [right; exact Hb|exact Hf']. }
      apply Hinv; assumption.
    + destruct (IH (fun s a s' Ha => Hs s a s' (or_intror Ha)) s1 s' k a H1 Hk) as (s2 & s3 & Hf & H2 & H3 & H4).
      exists s2, s3. rewrite H0; cbn. repeat split; auto.
      eapply le_trans; [|exact H2]. eapply Hs; [left; reflexivity|eassumption].
Qed.

Lemma foldM_le {S A} (f : S -> A -> res S) (le : S -> S -> Prop)
  (le_refl : forall s, le s s) (le_trans : forall a b c, le a b -> le b c -> le a c) l :
  (forall s a s', In a l -> f s a = Ok s' -> le s s') ->
  forall s s', foldM f l s = Ok s' -> le s s'.
Proof.
  intros Hs s s' H. eapply (foldM_inv f (fun s2 => le s s2) l); [|apply le_refl|exact H].
  intros s2 b s3 Hb Hle Hf. eapply le_trans; [exact Hle|]. eapply Hs; eauto.
Qed.

(* ---- nthE, lastE, updE, sel ---- *)
Lemma nthE_ok {A} e (l : list A) i a : nthE e l i = Ok a <-> nth_error l i = Some a.
Proof. unfold nthE; destruct (nth_error l i); split; intros H; congruence. Qed.

Lemma nthE_Some {A} e (l : list A) i a : nth_error l i = Some a -> nthE e l i = Ok a.
Proof. intros H; unfold nthE; rewrite H; reflexivity. Qed.

Lemma lastE_app {A} e (l : list A) a : lastE e (l ++ [a]) = Ok a.
Proof. unfold lastE; rewrite rev_app_distr; reflexivity. Qed.

Lemma lastE_ok {A} e (l : list A) a : lastE e l = Ok a -> exists l', l = l' ++ [a].
Proof.
  unfold lastE; destruct (rev l) as [|x r] eqn:E; intros H; [discriminate|].
  injection H as <-. exists (rev r). rewrite <- (rev_involutive l), E. reflexivity.
Qed.

Lemma lastE_nth {A} e (l : list A) a :
  lastE e l = Ok a <-> nth_error l (length l - 1) = Some a.
Proof.
  destruct l as [|x l] using rev_ind; [cbn; split; discriminate|].
  rewrite lastE_app, app_length; cbn.
  replace (length l + 1 - 1) with (length l) by lia.
  rewrite nth_error_app2, Nat.sub_diag by lia; cbn; split; congruence.
Qed.

Lemma lastE_last {A} e (l : list A) k : length l = S k -> lastE e l = nthE e l k.
Proof.
  intros H. destruct (lastE e l) as [a|x] eqn:E.
  - apply lastE_nth in E. rewrite H in E. cbn in E. rewrite Nat.sub_0_r in E.
    symmetry; apply nthE_Some; assumption.
  - unfold lastE in E. destruct (rev l) eqn:Er; [|discriminate].
    apply (f_equal (@length A)) in Er. rewrite rev_length in Er. cbn in Er. lia.
Qed.

Lemma updE_ok {A} e (l : list A) i a l' :
  updE e l i a = Ok l' ->
  i < length l /\ length l' = length l /\ nth_error l' i = Some a /\
  (forall j, j <> i -> nth_error l' j = nth_error l j).
Proof.
  revert i l'; induction l as [|x l IH]; intros i l' H; cbn in H; [discriminate|].
  destruct i as [|i].
  - injection H as <-; cbn; repeat split; try lia. intros [|j] Hj; [lia|reflexivity].
  - inv_ok; subst. apply IH in H0. destruct H0 as (H1 & H2 & H3 & H4). cbn.
    repeat split; try lia; auto. intros [|j] Hj; cbn; [reflexivity|]. apply H4; lia.
Qed.

Lemma updE_total {A} e (l : list A) i a : i < length l -> exists l', updE e l i a = Ok l'.
Proof.
  revert i; induction l as [|x l IH]; intros i H; cbn in H; [lia|].
  destruct i as [|i]; cbn; [eauto|]. destruct (IH i) as [l' Hl]; [lia|]. rewrite Hl; cbn; eauto.
Qed.

Lemma updE_split {A} e (l : list A) i a l' :
  updE e l i a = Ok l' ->
  exists l1 x l2, l = l1 ++ x :: l2 /\ l' = l1 ++ a :: l2 /\ length l1 = i.
Proof.
  revert i l'; induction l as [|x l IH]; intros i l' H; cbn in H; [discriminate|].
  destruct i as [|i].
  - injection H as <-. exists [], x, l; auto.
  - inv_ok; subst. apply IH in H0. destruct H0 as (l1 & y & l2 & -> & -> & <-).
    exists (x :: l1), y, l2; auto.
Qed.

Lemma sel_ok {A} (w : list A) idx v :
  sel w idx = Ok v <-> Forall2 (fun i a => nth_error w i = Some a) idx v.
Proof.
  unfold sel. rewrite mapM_Forall2.
  split; intros H; eapply Forall2_impl; try eassumption; intros; apply nthE_ok with (e := ECasadi); assumption.
Qed.

Lemma sel_app_w {A} (w w2 : list A) idx v : sel w idx = Ok v -> sel (w ++ w2) idx = Ok v.
Proof.
  rewrite !sel_ok. intros H; eapply Forall2_impl; [|exact H]; cbn; intros i a Hi.
  rewrite nth_error_app1; [assumption|]. apply nth_error_Some; congruence.
Qed.

Lemma sel_app_idx {A} (w : list A) i1 i2 v1 v2 :
  sel w i1 = Ok v1 -> sel w i2 = Ok v2 -> sel w (i1 ++ i2) = Ok (v1 ++ v2).
Proof. rewrite !sel_ok. apply Forall2_app. Qed.

Lemma sel_concat {A} (w : list A) (idx : list (list nat)) (vs : list (list A)) :
  Forall2 (fun i v => sel w i = Ok v) idx vs -> sel w (concat idx) = Ok (concat vs).
Proof.
  induction 1 as [|i v idx vs Hi H IH]; cbn; [reflexivity|]. apply sel_app_idx; assumption.
Qed.

Lemma sel_seq {A} (w1 s w2 : list A) : sel (w1 ++ s ++ w2) (seq (length w1) (length s)) = Ok s.
Proof.
  apply sel_ok. revert w1; induction s as [|a s IH]; intros w1; cbn; constructor.
  - rewrite nth_error_app2, Nat.sub_diag by lia; reflexivity.
  - specialize (IH (w1 ++ [a])). rewrite app_length in IH; cbn in IH.
    rewrite Nat.add_1_r in IH. rewrite <- app_assoc in IH. exact IH.
Qed.

Lemma sel_length {A} (w : list A) idx v : sel w idx = Ok v -> length v = length idx.
Proof. apply mapM_length. Qed.

Lemma sel_shift {A} (w0 w : list A) idx v :
  sel w idx = Ok v -> sel (w0 ++ w) (map (fun i => i + length w0) idx) = Ok v.
Proof.
  rewrite !sel_ok. intros H; induction H as [|i a idx v Hi H IH]; cbn; constructor; auto.
  rewrite nth_error_app2 by lia. replace (i + length w0 - length w0) with i by lia. assumption.
Qed.

Lemma sel_bound {A} (w : list A) idx v i : sel w idx = Ok v -> In i idx -> i < length w.
Proof.
  rewrite sel_ok. induction 1 as [|j a idx v Hj H IH]; intros Hi; [destruct Hi|].
  destruct Hi as [<-|Hi]; [apply nth_error_Some; congruence | auto].
Qed.

Lemma map_shift_seq a b n : map (fun i => i + b) (seq a n) = seq (a + b) n.
Proof.
  revert a; induction n as [|n IH]; intros a; cbn; [reflexivity|]. f_equal. apply (IH (S a)).
Qed.

(* ---- Forall2 ---- *)
Lemma Forall2_nth {A B} (R : A -> B -> Prop) l1 l2 k a :
  Forall2 R l1 l2 -> nth_error l1 k = Some a -> exists b, nth_error l2 k = Some b /\ R a b.
Proof.
  intros H; revert k; induction H as [|x y l1 l2 Hxy H IH]; intros k Hk; [destruct k; discriminate|].
  destruct k; cbn in *; [injection Hk as <-; eauto|eauto].
Qed.

Lemma Forall2_nth_r {A B} (R : A -> B -> Prop) l1 l2 k b :
  Forall2 R l1 l2 -> nth_error l2 k = Some b -> exists a, nth_error l1 k = Some a /\ R a b.
Proof.
  intros H; revert k; induction H as [|x y l1 l2 Hxy H IH]; intros k Hk; [destruct k; discriminate|].
  destruct k; cbn in *; [injection Hk as <-; eauto|eauto].
Qed.

Lemma Forall2_concat {A B} (R : A -> B -> Prop) l1 l2 :
  Forall2 (Forall2 R) l1 l2 -> Forall2 R (concat l1) (concat l2).
Proof. induction 1; cbn; [constructor|apply Forall2_app; assumption]. Qed.

Lemma Forall2_map_l {A B C} (R : B -> C -> Prop) (f : A -> B) l1 l2 :
  Forall2 R (map f l1) l2 <-> Forall2 (fun a c => R (f a) c) l1 l2.
Proof.
  split.
  - revert l2; induction l1 as [|a l1 IH]; intros l2 H; inversion H; subst; constructor; auto.
  - induction 1; cbn; constructor; auto.
Qed.

Lemma Forall2_map_r {A B C} (R : A -> C -> Prop) (f : B -> C) l1 l2 :
  Forall2 R l1 (map f l2) <-> Forall2 (fun a b => R a (f b)) l1 l2.
Proof.
  split.
  - revert l1; induction l2 as [|a l2 IH]; intros l1 H; inversion H; subst; constructor; auto.
  - induction 1; cbn; constructor; auto.
Qed.

Lemma Forall2_refl_in {A} (R : A -> A -> Prop) l : (forall a, In a l -> R a a) -> Forall2 R l l.
Proof.
  induction l as [|a l IH]; intros H; constructor; [apply H; left; reflexivity|].
  apply IH; intros; apply H; right; assumption.
Qed.

Lemma nth_error_seq a n k : k < n -> nth_error (seq a n) k = Some (a + k).
Proof.
  revert a k; induction n as [|n IH]; intros a k H; [lia|]. destruct k; cbn; [f_equal; lia|].
  rewrite IH by lia. f_equal; lia.
Qed.

Lemma nth_error_nth_lt {A} (l : list A) k d : k < length l -> nth_error l k = Some (nth k l d).
Proof.
  revert k; induction l as [|a l IH]; intros k H; cbn in H; [lia|].
  destruct k; cbn; [reflexivity|apply IH; lia].
Qed.

Lemma nth_error_lt {A} (l : list A) k : k < length l -> exists a, nth_error l k = Some a.
Proof.
  intros H. destruct (nth_error l k) eqn:E; [eauto|]. apply nth_error_None in E; lia.
Qed.

Lemma nth_error_Some_lt {A} (l : list A) k a : nth_error l k = Some a -> k < length l.
Proof. intros H; apply nth_error_Some; congruence. Qed.

Lemma nth_error_repeat' {A} (x : A) n k : k < n -> nth_error (repeat x n) k = Some x.
Proof. revert k; induction n; intros k H; [lia|]; destruct k; cbn; [reflexivity|apply IHn; lia]. Qed.

Lemma length_concat_map {A B} (f : A -> list B) l :
  length (concat (map f l)) = sumn (map (fun a => length (f a)) l).
Proof. induction l; cbn; [reflexivity|]. rewrite app_length, IHl. reflexivity. Qed.

Lemma length_concat {A} (l : list (list A)) : length (concat l) = sumn (map (@length A) l).
Proof. induction l; cbn; [reflexivity|]. rewrite app_length, IHl. reflexivity. Qed.

Lemma NoDup_app {A} (l1 l2 : list A) :
  NoDup l1 -> NoDup l2 -> (forall x, In x l1 -> ~ In x l2) -> NoDup (l1 ++ l2).
Proof.
  induction 1 as [|a l1 Ha H IH]; intros H2 Hd; cbn; [assumption|].
  constructor.
  - rewrite in_app_iff. intros [Hc|Hc]; [auto|]. exact (Hd a (or_introl eq_refl) Hc).
  - apply IH; [assumption|]. intros x Hx; apply Hd; right; assumption.
Qed.

(* concatenation of blocks tagged by distinct keys *)
Lemma NoDup_concat_key {K A} (key : A -> option K) (ks : list K) (ls : list (list A)) :
  Forall2 (fun k l => NoDup l /\ (forall a, In a l -> key a = Some k)) ks ls ->
  NoDup ks -> NoDup (concat ls).
Proof.
  induction 1 as [|k l ks ls [Hn Hk] H IH]; intros HN; cbn; [constructor|].
  inversion HN; subst. apply NoDup_app; auto.
  intros x Hx Hc. apply in_concat in Hc. destruct Hc as (l' & Hl' & Hx').
  apply Hk in Hx. apply In_nth_error in Hl'. destruct Hl' as [n Hn'].
  destruct (Forall2_nth_r _ _ _ _ _ H Hn') as (k' & Hk' & _ & Hkey).
  apply Hkey in Hx'. rewrite Hx in Hx'. injection Hx' as <-.
  apply H2. eapply nth_error_In; eauto.
Qed.

Lemma combine_app {A B} (a1 a2 : list A) (b1 b2 : list B) :
  length a1 = length b1 -> combine (a1 ++ a2) (b1 ++ b2) = combine a1 b1 ++ combine a2 b2.
Proof.
  revert b1; induction a1 as [|x a1 IH]; intros [|y b1] H; cbn in *; try discriminate; [reflexivity|].
  f_equal. apply IH; lia.
Qed.
