(* Utils_proofs.v -- proofs about utils.py, the OCP classification and input checks *)
From Coq Require Import Reals Lra.
From Verif Require Import Base Lib Sx Sx_proofs Utils Opts Model Ocp Spec Model_proofs.

Section TreeInd.
Variable P : tree -> Prop.
Hypothesis HL : forall n, P (Leaf n).
Hypothesis HO : forall k, P (Other k).
Hypothesis HN : forall l, Forall P l -> P (Node l).
Fixpoint tree_ind' (t : tree) : P t :=
  match t with
  | Leaf n => HL n
  | Other k => HO k
  | Node l => HN l ((fix go (l : list tree) : Forall P l :=
                       match l with [] => Forall_nil _ | t :: r => Forall_cons _ (tree_ind' t) (go r) end) l)
  end.
End TreeInd.

(* ---- flatten ---- *)
Lemma flatten_leaves t r : leaves t r <-> flatten t = r.
Proof.
  split.
  - induction 1 as [n|k| |t l a b Ht IHt Hl IHl]; cbn in *; try reflexivity. subst. reflexivity.
  - revert r. induction t as [n|k|l IH] using tree_ind'; intros r <-; cbn; try constructor.
    induction IH as [|t l Ht Hl IHl]; cbn; [constructor|]. constructor; [apply Ht; reflexivity|exact IHl].
Qed.

(* ---- increment_indices ---- *)
Lemma incr_node inc l : incr_tree inc (Node l) = (do* l' <- mapM (incr_tree inc) l; Ok (Node l')).
Proof.
  cbn [incr_tree]. f_equal.
  induction l as [|t l IH]; cbn; [reflexivity|]. destruct (incr_tree inc t); cbn; [|reflexivity].
  rewrite IH. reflexivity.
Qed.

Definition incr_rel (inc : nat) (a b : option tree) : Prop :=
  match a, b with
  | Some (Leaf n), Some (Leaf n') => n' = n + inc
  | Some (Node l), Some (Node l') => length l' = length l
  | None, None => True
  | _, _ => False
  end.

Lemma incr_sub inc t : forall t', incr_tree inc t = Ok t' -> forall p, incr_rel inc (sub t p) (sub t' p).
Proof.
  induction t as [n|k|l IH] using tree_ind'; intros t' H p.
  - injection H as <-. destruct p; cbn; auto.
  - discriminate.
  - rewrite incr_node in H. apply bind_ok in H. destruct H as (l' & Hl & Ht). injection Ht as <-.
    destruct p as [|i p]; cbn; [eapply mapM_length; eauto|].
    apply mapM_Forall2 in Hl. revert i. induction Hl as [|a b l l' Hab Hl IHl]; intros i; [destruct i; exact I|].
    inversion IH as [|? ? Ha IHr]; subst. destruct i as [|i]; cbn; [apply Ha; assumption|apply IHl; assumption].
Qed.

Lemma increment_sub inc L L' : increment_indices L inc = Ok L' ->
  forall p, incr_rel inc (sub (Node L) p) (sub (Node L') p).
Proof.
  intros H p. apply incr_sub. rewrite incr_node. unfold increment_indices in H. rewrite H. reflexivity.
Qed.

Lemma incr_err inc t : (exists e, incr_tree inc t = Err e) <-> exists p k, sub t p = Some (Other k).
Proof.
  induction t as [n|k|l IH] using tree_ind'.
  - split; [intros [e H]; discriminate|]. intros (p & k & H). destruct p; cbn in H; discriminate.
  - split; [intros _; exists [], k; reflexivity|]. eexists; reflexivity.
  - rewrite incr_node. split.
    + intros [e H]. enough (exists i t, nth_error l i = Some t /\ exists e, incr_tree inc t = Err e) as (i & t & Hi & He).
      { assert (In t l) as Hin by (eapply nth_error_In; eauto).
        rewrite Forall_forall in IH. apply (IH t Hin) in He. destruct He as (p & k & Hp).
        exists (i :: p), k. cbn. rewrite Hi. exact Hp. }
      clear IH. induction l as [|t l IHl]; cbn in H; [discriminate|].
      destruct (incr_tree inc t) as [t'|e'] eqn:Et.
      * cbn in H. destruct (mapM (incr_tree inc) l) as [l'|e'] eqn:El; cbn in H; [discriminate|].
        destruct IHl as (i & t0 & Hi & He); [cbn; exact H|]. exists (S i), t0; auto.
      * exists 0, t. split; [reflexivity|eauto].
    + intros (p & k & Hp). destruct p as [|i p]; cbn in Hp; [discriminate|].
      destruct (nth_error l i) as [t|] eqn:Hi; [|discriminate].
      assert (exists e, incr_tree inc t = Err e) as [e He].
      { rewrite Forall_forall in IH. apply IH; [eapply nth_error_In; eauto|eauto]. }
      destruct (mapM (incr_tree inc) l) as [l'|e'] eqn:El; cbn; [|eauto].
      destruct (mapM_nth _ _ _ _ _ El Hi) as (b & _ & Hb). congruence.
Qed.

Lemma incr_err_kind inc t e : incr_tree inc t = Err e -> e = EValueError.
Proof.
  revert e. induction t as [n|k|l IH] using tree_ind'; intros e H; [discriminate| |].
  - cbn in H. congruence.
  - rewrite incr_node in H. induction IH as [|t l Ht IHl IHr]; cbn in H; [discriminate|].
    destruct (incr_tree inc t) as [t'|e'] eqn:Et; cbn in H; [|injection H as <-; apply Ht; reflexivity].
    apply IHr. destruct (mapM (incr_tree inc) l); cbn in *; [discriminate|exact H].
Qed.

Lemma increment_err inc L :
  increment_indices L inc = Err EValueError <-> exists p k, sub (Node L) p = Some (Other k).
Proof.
  rewrite <- (incr_err inc (Node L)), incr_node. unfold increment_indices.
  destruct (mapM (incr_tree inc) L) as [l|e] eqn:E; cbn.
  - split; [discriminate|intros [e H]; discriminate].
  - assert (e = EValueError) as -> by (apply (incr_err_kind inc (Node L)); rewrite incr_node, E; reflexivity).
    split; eauto.
Qed.

(* ---- flatten_layer ---- *)
Lemma sum_lists_ok L L' : sum_lists L = Ok L' <-> exists ls, L = map Node ls /\ L' = concat ls.
Proof.
  split.
  - revert L'; induction L as [|t L IH]; cbn; intros L' H.
    + injection H as <-. exists []; auto.
    + destruct t as [| |l]; try discriminate. apply bind_ok in H. destruct H as (r & Hr & H).
      injection H as <-. destruct (IH _ Hr) as (ls & -> & ->). exists (l :: ls); auto.
  - intros (ls & -> & ->). induction ls as [|l ls IH]; cbn; [reflexivity|]. rewrite IH. reflexivity.
Qed.

Lemma flatten_layer_ok k : forall L L', flatten_layer k L = Ok L' <-> layer_removed k L L'.
Proof.
  induction k as [|k IH]; intros L L'; cbn.
  - destruct (existsb is_list L) eqn:E.
    + rewrite sum_lists_ok. split; [auto|]. intros [H|[H _]]; [exact H|].
      apply existsb_exists in E. destruct E as (t & Ht & Hl). specialize (H t Ht).
      destruct t; cbn in Hl; try discriminate. destruct (H l); reflexivity.
    + split.
      * intros H; injection H as <-. right. split; [|reflexivity]. intros t Ht l ->.
        assert (existsb is_list L = true) by (apply existsb_exists; exists (Node l); auto). congruence.
      * intros [(ls & -> & ->)|[_ ->]]; [|reflexivity]. destruct ls; [reflexivity|cbn in E; discriminate].
  - rewrite mapM_Forall2. split; intros H; eapply Forall2_impl; try exact H; cbn; intros a b Hab.
    + destruct a as [| |l]; try discriminate. apply bind_ok in Hab. destruct Hab as (r & Hr & Hb).
      injection Hb as <-. exists l, r. split; [reflexivity|]. split; [reflexivity|]. apply IH; assumption.
    + destruct Hab as (l & r & -> & -> & Hr). apply IH in Hr. rewrite Hr. reflexivity.
Qed.

Lemma flat_map_app' {A B} (f : A -> list B) a b : flat_map f (a ++ b) = flat_map f a ++ flat_map f b.
Proof. induction a as [|x a IH]; cbn; [reflexivity|]. rewrite IH, app_assoc. reflexivity. Qed.

Lemma layer_leaves k : forall L L', layer_removed k L L' -> flatten (Node L') = flatten (Node L).
Proof.
  induction k as [|k IH]; intros L L'; cbn.
  - intros [(ls & -> & ->)|[_ ->]]; [|reflexivity].
    induction ls as [|l ls IHl]; cbn; [reflexivity|]. rewrite flat_map_app', IHl. reflexivity.
  - induction 1 as [|a b l r Hab H IHr]; cbn; [reflexivity|].
    destruct Hab as (x & y & -> & -> & Hxy). rewrite IHr. apply IH in Hxy. cbn in Hxy.
    cbn. rewrite Hxy. reflexivity.
Qed.

Lemma vertcat_concat {A} (x : list (list A)) : casadi_vertcat_list x = concat x.
Proof.
  unfold casadi_vertcat_list. enough (forall acc, fold_left (fun r el => r ++ el) x acc = acc ++ concat x) as H by apply H.
  induction x as [|v x IH]; intros acc; cbn; [rewrite app_nil_r; reflexivity|]. rewrite IH, app_assoc. reflexivity.
Qed.

(* ---- casadi_sum_list ---- *)
Definition colsum (rho : env) (x : list (list expr)) (j : nat) : R :=
  fold_right (fun v s => (match nth_error v j with Some e => eval rho e | None => 0 end + s)%R) 0%R x.

Lemma sum_list_fold rho n vs : forall v r, length v = n -> (forall u, In u vs -> length u = n) ->
  foldM (vbin BAdd) vs v = Ok r ->
  length r = n /\ forall j e, nth_error r j = Some e ->
    exists e0, nth_error v j = Some e0 /\ eval rho e = (eval rho e0 + colsum rho vs j)%R.
Proof.
  induction vs as [|u vs IH]; cbn [foldM]; intros v r Hv Hl H.
  - injection H as <-. split; [assumption|]. intros j e He. exists e. split; [assumption|]. unfold colsum; cbn [fold_right]. lra.
  - apply bind_ok in H. destruct H as (a & Ha & H).
    assert (Hu : length u = n) by (apply Hl; left; reflexivity).
    assert (La : length a = n) by (rewrite <- Hv; eapply vbin_length_same; [|exact Ha]; congruence).
    destruct (IH a r La (fun x Hx => Hl x (or_intror Hx)) H) as (Lr & Hr). split; [assumption|].
    intros j e He. destruct (Hr j e He) as (e1 & He1 & Ev).
    assert (j < n) by (rewrite <- La; eapply nth_error_Some_lt; eauto).
    destruct (nth_error_lt v j) as [e0 He0]; [lia|]. destruct (nth_error_lt u j) as [e2 He2]; [lia|].
    exists e0. split; [assumption|].
    rewrite (vbin_nth BAdd v u a j e0 e2) in He1; try assumption; [|congruence].
    injection He1 as <-. rewrite Ev. unfold colsum; cbn [fold_right eval eval_bin]. rewrite He2. lra.
Qed.

Lemma sum_list_total n vs : forall v, length v = n -> (forall u, In u vs -> length u = n) ->
  exists r, foldM (vbin BAdd) vs v = Ok r.
Proof.
  induction vs as [|u vs IH]; intros v Hv Hl; cbn; [eauto|].
  assert (length v = length u) by (rewrite (Hl u (or_introl eq_refl)); assumption).
  rewrite (vbin_same BAdd v u) by assumption. cbn [bind]. apply IH.
  - rewrite map_length, combine_length. lia.
  - intros w Hw; apply Hl; right; assumption.
Qed.

Lemma sum_list_spec n x : x <> [] -> (forall v, In v x -> length v = n) ->
  exists r, casadi_sum_list x = Ok r /\ length r = n /\
    forall rho j e, nth_error r j = Some e -> eval rho e = colsum rho x j.
Proof.
  destruct x as [|v vs]; [congruence|]. intros _ Hl.
  destruct (sum_list_total n vs v) as [r Hr]; [apply Hl; left; reflexivity|intros; apply Hl; right; assumption|].
  exists r. split; [exact Hr|].
  split; [eapply (sum_list_fold (fun _ => 0%R) n vs v r); auto; [apply Hl; left; reflexivity|intros; apply Hl; right; assumption]|].
  intros rho j e He.
  destruct (sum_list_fold rho n vs v r) as (_ & Hj); auto; [apply Hl; left; reflexivity|intros; apply Hl; right; assumption|].
  destruct (Hj j e He) as (e0 & He0 & ->). unfold colsum; cbn [fold_right]. rewrite He0. reflexivity.
Qed.

(* ---- validate ---- *)
Lemma validate_spec attrs :
  (validate attrs = Ok tt <-> forall a v, In (a, v) attrs -> conforms a v = true) /\
  (validate attrs = Err ETypeError <-> exists a v, In (a, v) attrs /\ conforms a v = false).
Proof.
  induction attrs as [|[a v] r [IH1 IH2]]; cbn.
  - split; split; try discriminate; try reflexivity; [intros _ ? ? []|intros (? & ? & [] & _)].
  - destruct (conforms a v) eqn:E; split.
    + rewrite IH1. split; intros H x y; [intros [Hxy|Hxy]; [injection Hxy as <- <-; assumption|auto]|auto].
    + rewrite IH2. split; intros (x & y & H & Hc); exists x, y; split; auto.
      destruct H as [H|H]; [|assumption]. injection H as <- <-. congruence.
    + split; [discriminate|]. intros H. rewrite (H a v (or_introl eq_refl)) in E; discriminate.
    + split; [intros _; exists a, v; auto|reflexivity].
Qed.

(* ---- classify ---- *)
Lemma classify_spec rk ctrl rows :
  classify rk ctrl rows =
    (filter (fun r => negb (depends_on rk r) && negb (depends_on ctrl r)) rows,
     filter (fun r => negb (depends_on rk r) && depends_on ctrl r) rows,
     filter (depends_on rk) rows).
Proof.
  induction rows as [|r rows IH]; cbn [classify filter]; [reflexivity|]. rewrite IH.
  destruct (depends_on rk r), (depends_on ctrl r); reflexivity.
Qed.

Lemma depends_on_spec vs r : depends_on vs r = true <-> exists s, In s vs /\ (In s (fv (fst r)) \/ In s (fv (snd r))).
Proof.
  unfold depends_on. rewrite existsb_exists. split.
  - intros (s & Hs & Hm). apply mem_In in Hm. apply in_app_iff in Hs. exists s; auto.
  - intros (s & Hs & Hf). exists s. split; [apply in_app_iff; assumption|apply mem_In; assumption].
Qed.

Lemma layer_keeps k L L' r : flatten_layer k L = Ok L' -> (leaves (Node L') r <-> leaves (Node L) r).
Proof.
  intros H. apply flatten_layer_ok in H. apply layer_leaves in H. rewrite !flatten_leaves, H. reflexivity.
Qed.
Lemma outer_keeps n : forall L L' r, flatten_outer_layers n L = Ok L' -> (leaves (Node L') r <-> leaves (Node L) r).
Proof.
  induction n as [|n IH]; intros L L' r H; cbn [flatten_outer_layers] in H; [injection H as <-; reflexivity|].
  apply bind_ok in H. destruct H as (L1 & H1 & H). rewrite (IH _ _ _ H). apply (layer_keeps 0). exact H1.
Qed.
