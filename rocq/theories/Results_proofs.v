(* Results_proofs.v -- values and shapes of get_results_from_primal_vector *)
From Coq Require Import Reals Qreals Lra Permutation.
From Verif Require Import Base Lib Sx Sx_proofs Utils Tableau Opts Model Ocp Problem Spec Fesd Spec2
  Fo_proofs Fe_proofs FeMake_proofs FeSel_proofs FeZero_proofs Prob_proofs Coll_proofs Body_proofs Model_proofs
  Con_proofs Index_proofs Index2_proofs Index3_proofs Accept_proofs Results Spec4.

(* ---- generic ---- *)
Lemma offss_lens sts : forall n c ofs st, nth_error (offss n sts) c = Some ofs -> nth_error sts c = Some st -> length ofs = length st.
Proof.
  induction sts as [|s sts IH]; intros n c ofs st Ho Hs; [destruct c; discriminate|].
  destruct c as [|c]; cbn in *; [injection Ho as <-; injection Hs as <-; apply offs_length|]. exact (IH _ _ _ _ Ho Hs).
Qed.

Lemma elems_gen {A} (nfe : nat -> nat) (l : list (list A)) : forall n k, length l = n ->
  (forall c r, nth_error l c = Some r -> length r = nfe (k + c)) ->
  Forall2 (fun p a => k <= fst p /\ at2 l (fst p - k) (snd p) = Some a)
    (concat (map (fun c => map (pair c) (seq 0 (nfe c))) (seq k n))) (concat l).
Proof.
  induction l as [|r l IH]; intros n k Hn Hl; cbn in Hn; subst n; cbn [seq map concat]; [constructor|].
  apply Forall2_app.
  - pose proof (Hl 0 r eq_refl) as L. rewrite Nat.add_0_r in L. rewrite <- L.
    assert (G : forall (s : list A) pre, r = pre ++ s -> Forall2 (fun p a => k <= fst p /\ at2 (r :: l) (fst p - k) (snd p) = Some a) (map (pair k) (seq (length pre) (length s))) s).
    { induction s as [|a s IHs]; intros pre E; cbn; constructor.
      - cbn. split; [lia|]. rewrite Nat.sub_diag. unfold at2. cbn. rewrite E, nth_error_app2 by lia. rewrite Nat.sub_diag. reflexivity.
      - specialize (IHs (pre ++ [a])). rewrite app_length in IHs. cbn in IHs. rewrite Nat.add_1_r in IHs. apply IHs.
        rewrite <- app_assoc. exact E. }
    exact (G r [] eq_refl).
  - eapply Forall2_impl; [|exact (IH (length l) (S k) eq_refl (fun c r' H => eq_trans (Hl (S c) r' H) (f_equal nfe (eq_sym (Nat.add_succ_comm k c)))))].
    cbn. intros p a [H1 H2]. split; [lia|]. replace (fst p - k) with (S (fst p - S k)) by lia. exact H2.
Qed.

Lemma mapM_F2 {A B D} (R : D -> A -> Prop) (f : A -> res B) (h : D -> B) es l : Forall2 R es l ->
  (forall p a, In p es -> R p a -> f a = Ok (h p)) -> mapM f l = Ok (map h es).
Proof.
  induction 1 as [|p a es l H1 H2 IH]; intros Hf; [reflexivity|]. cbn. rewrite (Hf p a (or_introl eq_refl) H1). cbn.
  rewrite IH; [reflexivity|]. intros p' a' Hin. apply Hf. right. assumption.
Qed.

Lemma Forall2_in {A B} (R : A -> B -> Prop) l l' : Forall2 R l l' -> Forall2 (fun a b => In a l /\ R a b) l l'.
Proof.
  intros F. assert (G : forall k, (forall a, In a l -> In a k) -> Forall2 (fun a b => In a k /\ R a b) l l'); [|apply G; auto].
  intros k. induction F as [|a b l l' H1 H2 IH]; intros Hk; constructor; [split; [apply Hk; left; reflexivity|assumption]|].
  apply IH. intros x Hx. apply Hk. right. assumption.
Qed.

Lemma elements_in o p : In p (elements o) <-> fst p < o_N_stages o /\ snd p < nfe_of o (fst p).
Proof.
  unfold elements. rewrite in_concat. split.
  - intros (l & Hl & Hp). apply in_map_iff in Hl. destruct Hl as (c & <- & Hc). apply in_map_iff in Hp. destruct Hp as (e & <- & He).
    apply in_seq in Hc, He. cbn. lia.
  - intros [H1 H2]. exists (map (pair (fst p)) (seq 0 (nfe_of o (fst p)))). split.
    + apply in_map_iff. exists (fst p). split; [reflexivity|]. apply in_seq. lia.
    + apply in_map_iff. exists (snd p). split; [destruct p; reflexivity|]. apply in_seq. lia.
Qed.

Lemma elements_length o : length (o_Nfe_list o) >= o_N_stages o -> length (elements o) = total (firstn (o_N_stages o) (o_Nfe_list o)).
Proof.
  intros L. unfold elements. rewrite length_concat, map_map.
  assert (E : map (fun c => length (map (pair c) (seq 0 (nfe_of o c)))) (seq 0 (o_N_stages o)) = firstn (o_N_stages o) (o_Nfe_list o)).
  { apply nth_error_ext. intros i. rewrite nth_error_map. destruct (Nat.lt_ge_cases i (o_N_stages o)) as [Hi|Hi].
    - rewrite nth_error_seq by lia. cbn. rewrite map_length, seq_length. unfold nfe_of.
      destruct (nth_error_lt (o_Nfe_list o) i ltac:(lia)) as [x Hx]. rewrite (nth_error_nth _ _ _ Hx).
      symmetry. clear - Hx Hi. revert Hx Hi. generalize (o_N_stages o). revert i. generalize (o_Nfe_list o).
      induction l as [|a l IH]; intros i n Hx Hi; [destruct i; discriminate|]. destruct n; [lia|]. destruct i; cbn in *; [assumption|]. apply IH; [assumption|lia].
    - rewrite (proj2 (nth_error_None (seq 0 _) i)) by (rewrite seq_length; lia). cbn. symmetry. apply nth_error_None.
      rewrite firstn_length. lia. }
  rewrite E. reflexivity.
Qed.

Lemma gather_sel {A} (rho : sym -> A) (w : list sym) idx v : sel w idx = Ok v -> gather (map rho w) idx = Ok (map rho v).
Proof.
  intros H. apply sel_ok in H. induction H as [|i s idx v Hi _ IH]; [reflexivity|].
  unfold gather in *. cbn [mapM map]. unfold nthE at 1. rewrite nth_error_map, Hi. cbn [option_map bind]. rewrite IH. reflexivity.
Qed.

Lemma all_len_eq_intro {A} n (l : list (list A)) : (forall r, In r l -> length r = n) -> all_len_eq l = true.
Proof.
  destruct l as [|r l]; intros H; [reflexivity|]. cbn. apply forallb_forall. intros r' Hr'. apply Nat.eqb_eq.
  rewrite (H r), (H r'); [reflexivity|right|left]; auto.
Qed.

Lemma mapM_ok_map {A B} (f : A -> res B) (h : A -> B) l : (forall a, In a l -> f a = Ok (h a)) -> mapM f l = Ok (map h l).
Proof. intros Hf. induction l as [|a l IH]; [reflexivity|]. cbn. rewrite (Hf a (or_introl eq_refl)). cbn. rewrite IH; [reflexivity|]. intros; apply Hf; right; assumption. Qed.

(* rows of a nested index list by position *)
Lemma rows_of {A} (l : list (list A)) (F : nat -> list A) n : length l = n -> (forall s, s < n -> nth_error l s = Some (F s)) -> l = map F (seq 0 n).
Proof.
  intros L H. apply nth_error_ext. intros i. rewrite nth_error_map. destruct (Nat.lt_ge_cases i n) as [Hi|Hi].
  - rewrite nth_error_seq, H by lia. reflexivity.
  - rewrite !(proj2 (nth_error_None _ i)); [reflexivity| |lia]. rewrite seq_length. lia.
Qed.

(* ---- sums ---- *)
Lemma cumsum_length s l : length (cumsum s l) = length l.
Proof. revert s. induction l; intros s; cbn; [reflexivity|]. f_equal. apply IHl. Qed.
Lemma cumsum_nth l : forall s k, k < length l -> nth_error (cumsum s l) k = Some (s + rsum (firstn (S k) l))%R.
Proof.
  induction l as [|a l IH]; intros s k Hk; cbn in Hk; [lia|]. destruct k as [|k]; cbn [cumsum nth_error].
  - cbn. f_equal. lra.
  - rewrite IH by lia. f_equal. change (firstn (S (S k)) (a :: l)) with (a :: firstn (S k) l). unfold rsum. cbn [fold_right]. lra.
Qed.
Lemma grid_nth l k : k <= length l -> nth_error (0%R :: cumsum 0 l) k = Some (partial_sum l k).
Proof.
  intros Hk. destruct k as [|k]; [reflexivity|]. cbn [nth_error]. rewrite cumsum_nth by lia. unfold partial_sum. f_equal. lra.
Qed.
Lemma grid_map l : 0%R :: cumsum 0 l = map (partial_sum l) (seq 0 (length l + 1)).
Proof.
  apply nth_error_ext. intros i. rewrite nth_error_map. destruct (Nat.le_gt_cases i (length l)) as [Hi|Hi].
  - rewrite grid_nth, nth_error_seq by lia. reflexivity.
  - rewrite !(proj2 (nth_error_None _ i)); [reflexivity| |]. + rewrite seq_length. lia. + cbn. rewrite cumsum_length. lia.
Qed.
Lemma ncumsum_map l : forall s, ncumsum s l = map (fun c => s + total (firstn (S c) l)) (seq 0 (length l)).
Proof.
  induction l as [|a l IH]; intros s; [reflexivity|]. cbn [ncumsum length seq map]. f_equal; [cbn; lia|].
  rewrite IH, <- seq_shift, map_map. apply map_ext. intros c. cbn [firstn]. unfold total. cbn [fold_right]. lia.
Qed.
Lemma u_grid_map l : 0 :: ncumsum 0 l = map (fun c => total (firstn c l)) (seq 0 (length l + 1)).
Proof.
  rewrite Nat.add_1_r. cbn [seq map]. f_equal. rewrite ncumsum_map, <- seq_shift, map_map. apply map_ext. intros c. reflexivity.
Qed.
Lemma total_firstn_le l : forall k, total (firstn k l) <= total l.
Proof. induction l as [|a l IH]; intros [|k]; cbn; try lia. specialize (IH k). unfold total in *. lia. Qed.

(* ---- switches ---- *)
Lemma np_sub_same a b : length a = length b -> np_sub a b = Ok (map (fun p => (fst p - snd p)%R) (combine a b)).
Proof. intros E. unfold np_sub. rewrite E, Nat.eqb_refl. reflexivity. Qed.
Lemma Rltb_true a b : Rltb a b = true <-> (a < b)%R.
Proof. unfold Rltb. destruct (Rlt_dec a b); split; congruence. Qed.
Lemma Rleb_true a b : Rleb a b = true <-> (a <= b)%R.
Proof. unfold Rleb. destruct (Rle_dec a b); split; congruence. Qed.
Lemma changed_jump a b : length a = length b -> exists ch, changed a b = Ok ch /\ (ch = true <-> jump b a).
Proof.
  intros E. unfold changed. rewrite np_sub_same by assumption. cbn [bind]. eexists. split; [reflexivity|].
  rewrite existsb_exists. unfold jump. split.
  - intros (x & Hx & Hr). apply in_map_iff in Hx. destruct Hx as ((p & q) & <- & Hpq). apply In_nth_error in Hpq. destruct Hpq as [k Hk].
    apply Rltb_true in Hr. cbn in Hr. apply nth_error_combine_inv in Hk. destruct Hk as [K1 K2]. exists k, q, p. auto.
  - intros (k & x & y & Hx & Hy & Hr). exists (y - x)%R. split; [|apply Rltb_true; assumption].
    apply in_map_iff. exists (y, x). split; [reflexivity|]. apply nth_error_In with k. apply nth_error_combine; assumption.
Qed.

Lemma increasing_cons i r : increasing r -> (forall j, In j r -> i < j) -> increasing (i :: r).
Proof. destruct r as [|b r]; intros H1 H2; cbn; [exact I|]. split; [apply H2; left; reflexivity|exact H1]. Qed.

Lemma switch_indices_ok n l : forall i prev, length prev = n -> (forall a, In a l -> length a = n) ->
  exists r, switch_indices i prev l = Ok r /\ increasing r /\
   forall j, In j r <-> i <= j /\ exists a b, nth_error (prev :: l) (j - i) = Some a /\ nth_error (prev :: l) (S (j - i)) = Some b /\ jump a b.
Proof.
  induction l as [|a l IH]; intros i prev Hp Hl.
  - exists []. split; [reflexivity|]. split; [exact I|]. intros j. split; [intros []|]. intros (_ & x & y & _ & Hy & _). cbn in Hy. destruct (j - i); discriminate.
  - cbn [switch_indices]. destruct (changed_jump a prev) as (ch & Ec & Hch); [rewrite Hp; apply Hl; left; reflexivity|]. rewrite Ec. cbn [bind].
    destruct (IH (S i) a) as (r & Er & Ir & Hr); [apply Hl; left; reflexivity|intros b Hb; apply Hl; right; assumption|].
    rewrite Er. cbn [bind]. eexists. split; [reflexivity|].
    assert (Hr' : forall j, In j r <-> S i <= j /\ exists x y, nth_error (prev :: a :: l) (j - i) = Some x /\ nth_error (prev :: a :: l) (S (j - i)) = Some y /\ jump x y).
    { intros j. rewrite Hr. split; intros (Hj & x & y & Hx & Hy & J); (split; [exact Hj|]); exists x, y; replace (j - i) with (S (j - S i)) in * by lia; cbn [nth_error] in *; auto. }
    assert (H0 : forall j, In j r -> i < j) by (intros j Hj; apply Hr in Hj; lia).
    split; [destruct ch; [apply increasing_cons; assumption|assumption]|].
    intros j. split.
    + intros Hj. assert (Hj' : (j = i /\ ch = true) \/ In j r).
      { destruct ch; [destruct Hj as [<-|Hj]|]; auto. }
      destruct Hj' as [[-> E]|Hj'].
      * split; [lia|]. rewrite Nat.sub_diag. exists prev, a. split; [reflexivity|]. split; [reflexivity|]. apply Hch. assumption.
      * apply Hr' in Hj'. destruct Hj' as (Hj1 & Hj2). split; [lia|exact Hj2].
    + intros (Hj & x & y & Hx & Hy & J). destruct (Nat.eq_dec j i) as [->|Hne].
      * rewrite Nat.sub_diag in *. cbn in Hx, Hy. injection Hx as <-. injection Hy as <-. apply Hch in J. rewrite J. left. reflexivity.
      * assert (In j r) by (apply Hr'; split; [lia|]; exists x, y; auto). destruct ch; [right|]; assumption.
Qed.

Lemma all_switches_ok n l : l <> [] -> (forall a, In a l -> length a = n) ->
  exists r, all_switches l = Ok r /\ increasing r /\
   forall j, In j r <-> exists a b, nth_error l j = Some a /\ nth_error l (S j) = Some b /\ jump a b.
Proof.
  destruct l as [|a l]; intros Hne Hl; [congruence|]. cbn [all_switches].
  destruct (switch_indices_ok n l 0 a) as (r & Er & Ir & Hr); [apply Hl; left; reflexivity|intros b Hb; apply Hl; right; assumption|].
  exists r. split; [assumption|]. split; [assumption|]. intros j. rewrite Hr, Nat.sub_0_r. split; [intros [_ H]; exact H|intros H; split; [lia|exact H]].
Qed.
