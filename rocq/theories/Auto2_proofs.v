(* Auto2_proofs.v -- the additive reformulation of AutoModel.v *)
From Coq Require Import Reals Qreals Lra Permutation.
From Verif Require Import Base Lib Sx Utils Opts Model AutoModel Spec Fesd Spec3 Spec4 Spec7 Sem_proofs Sx_proofs Fo_proofs Accept_proofs Auto_proofs.
Local Open Scope nat_scope.

Lemma q_eqb_eq a b : q_eqb a b = true <-> a = b.
Proof.
  unfold q_eqb. rewrite andb_true_iff, Z.eqb_eq, Pos.eqb_eq. destruct a, b; cbn. split; [intros [-> ->]; reflexivity|intros E; injection E; auto].
Qed.
Lemma expr_eqb_eq a : forall b, expr_eqb a b = true <-> a = b.
Proof.
  induction a as [p|x|o a IH|o a1 IH1 a2 IH2]; intros [q|y|o' b|o' b1 b2]; cbn [expr_eqb]; try (split; discriminate).
  - rewrite q_eqb_eq. split; [intros ->; reflexivity|intros E; now injection E].
  - rewrite sym_eqb_eq. split; [intros ->; reflexivity|intros E; now injection E].
  - rewrite andb_true_iff, IH, Nat.eqb_eq. split; [intros [H ->]; f_equal; destruct o, o'; cbn in H; congruence|intros E; injection E as -> ->; auto].
  - rewrite !andb_true_iff, IH1, IH2, Nat.eqb_eq. split; [intros [[H ->] ->]; f_equal; destruct o, o'; cbn in H; congruence|intros E; injection E as -> -> ->; auto].
Qed.

(* ---- sums ---- *)
Lemma sum_pick (x : expr) (v : R) cs : NoDup cs -> In x cs -> rsum (map (fun c => if expr_eqb x c then v else 0%R) cs) = v.
Proof.
  intros ND Hx. induction ND as [|c cs Hc ND IH]; [destruct Hx|]. cbn [map]. rewrite rsum_cons. destruct (expr_eqb x c) eqn:E.
  - apply expr_eqb_eq in E. subst c. assert (Z : rsum (map (fun c => if expr_eqb x c then v else 0%R) cs) = 0%R).
    { clear -Hc. induction cs as [|c cs IH]; [reflexivity|]. cbn [map]. rewrite rsum_cons. destruct (expr_eqb x c) eqn:E.
      - apply expr_eqb_eq in E. subst c. destruct Hc. now left. - rewrite IH; [lra|]. intros Hx. apply Hc. now right. }
    rewrite Z. lra.
  - destruct Hx as [->|Hx]; [|rewrite (IH Hx); lra]. assert (expr_eqb x x = true) by now apply expr_eqb_eq. congruence.
Qed.
Lemma sum_plus {A} (f g : A -> R) l : rsum (map (fun a => (f a + g a)%R) l) = (rsum (map f l) + rsum (map g l))%R.
Proof. induction l as [|a l IH]; cbn [map]; [rewrite rsum_nil; lra|]. rewrite !rsum_cons, IH. lra. Qed.
Lemma sum_zero {A} (l : list A) : rsum (map (fun _ => 0%R) l) = 0%R.
Proof. induction l as [|a l IH]; cbn [map]; [reflexivity|]. rewrite rsum_cons, IH. lra. Qed.
Lemma sum_groups (g : entry -> R) row cs : NoDup cs -> (forall en, In en row -> In (en_c en) cs) ->
  rsum (map (fun c => rsum (map g (filter (fun en => expr_eqb (en_c en) c) row))) cs) = rsum (map g row).
Proof.
  intros ND. induction row as [|en row IH]; intros Hin.
  - exact (sum_zero cs).
  - cbn [map]. rewrite rsum_cons, <- (IH (fun e He => Hin e (or_intror He))), <- (sum_pick (en_c en) (g en) cs ND (Hin en (or_introl eq_refl))) at 1.
    rewrite <- sum_plus. f_equal. apply map_ext. intros c. cbn [filter]. destruct (expr_eqb (en_c en) c); cbn [map]; rewrite ?rsum_cons; lra.
Qed.
Lemma sum_split {A} (p : A -> bool) (f : A -> R) l : (rsum (map f (filter p l)) + rsum (map f (filter (fun a => negb (p a)) l)))%R = rsum (map f l).
Proof. induction l as [|a l IH]; cbn [filter map]; [cbn; lra|]. destruct (p a); cbn [negb map]; rewrite !rsum_cons; lra. Qed.

(* ---- the dictionary of switching functions ---- *)
Definition dset d en := dict_set d (en_id en) (en_c en, en_S en).
Lemma dict_set_keys k v d : forall k', In k' (map fst (dict_set d k v)) <-> In k' (map fst d) \/ k' = k.
Proof.
  induction d as [|[k0 v0] d IH]; intros k'; cbn [dict_set].
  - cbn. intuition.
  - destruct (k =? k0) eqn:E; [apply Nat.eqb_eq in E; subst; cbn; intuition|]. cbn [map fst In]. rewrite IH. tauto.
Qed.
Lemma dict_set_nodup k v d : NoDup (map fst d) -> NoDup (map fst (dict_set d k v)).
Proof.
  induction d as [|[k0 v0] d IH]; cbn [dict_set]; intros ND; [repeat constructor; intros []|]. inversion ND; subst. destruct (k =? k0) eqn:E; [exact ND|].
  cbn [map fst]. constructor; [|auto]. rewrite dict_set_keys. intros [Hk| ->]; [contradiction|]. now rewrite Nat.eqb_refl in E.
Qed.
Lemma dict_set_prop (P : nat -> expr -> list (list Q) -> Prop) k c sw d : P k c sw -> (forall k' c' s', In (k', (c', s')) d -> P k' c' s') ->
  (forall c' s', P k c' s' -> P k c' sw) -> forall k' c' s', In (k', (c', s')) (dict_set d k (c, sw)) -> P k' c' s'.
Proof.
  intros H0 Hd Hr. induction d as [|[k0 [c0 s0]] d IH]; intros k' c' s'; cbn [dict_set].
  - intros [E|[]]. injection E as <- <- <-. exact H0.
  - destruct (k =? k0) eqn:E.
    + apply Nat.eqb_eq in E. subst k0. intros [E|Hin]; [|apply Hd; now right]. injection E as <- <- <-. apply (Hr _ s0). apply Hd. now left.
    + intros [E'|Hin]; [injection E' as <- <- <-; apply Hd; now left|]. apply IH; [|exact Hin]. intros k2 c2 s2 H2. apply Hd. now right.
Qed.
Lemma fold_nested {A B C} (f : C -> B -> C) (h : A -> list B) l : forall d, fold_left (fun d a => fold_left f (h a) d) l d = fold_left f (concat (map h l)) d.
Proof. induction l as [|a l IH]; intros d; [reflexivity|]. cbn [fold_left map concat]. now rewrite fold_left_app, IH. Qed.
Definition flat rows all_c : list entry := concat (map (fun row => concat (map (fun c => filter (fun en => expr_eqb (en_c en) c) row) all_c)) rows).
Lemma cS_flat rows all_c : cS_map rows all_c = fold_left dset (flat rows all_c) [].
Proof.
  unfold cS_map, flat. rewrite <- fold_nested. generalize (@nil (nat * (expr * list (list Q)))). induction rows as [|row rows IH]; intros d; [reflexivity|].
  cbn [fold_left]. rewrite IH. f_equal. unfold dset. now rewrite fold_nested.
Qed.
Lemma flat_in rows all_c en : In en (flat rows all_c) <-> In en (concat rows) /\ In (en_c en) all_c.
Proof.
  unfold flat. rewrite !in_concat. split.
  - intros (l & Hl & Hen). apply in_map_iff in Hl. destruct Hl as (row & <- & Hr). apply in_concat in Hen. destruct Hen as (l & Hl & Hen).
    apply in_map_iff in Hl. destruct Hl as (c & <- & Hc). apply filter_In in Hen. destruct Hen as [Hen He]. apply expr_eqb_eq in He. subst c. split; [exists row; auto|exact Hc].
  - intros ((row & Hr & Hen) & Hc). exists (concat (map (fun c => filter (fun en => expr_eqb (en_c en) c) row) all_c)). split; [apply in_map_iff; exists row; auto|].
    apply in_concat. exists (filter (fun e => expr_eqb (en_c e) (en_c en)) row). split; [apply in_map_iff; exists (en_c en); auto|]. apply filter_In. split; [exact Hen|now apply expr_eqb_eq].
Qed.
Lemma nodup_e_in l x : In x (nodup_e l) <-> In x l.
Proof.
  induction l as [|e l IH]; [reflexivity|]. cbn [nodup_e]. destruct (existsb (expr_eqb e) l) eqn:E; cbn [In]; rewrite IH; [|reflexivity].
  apply existsb_exists in E. destruct E as (y & Hy & E). apply expr_eqb_eq in E. subst y. split; [auto|intros [<-|?]; auto].
Qed.
Lemma dict_of L : (forall en en', In en L -> In en' L -> (en_id en = en_id en' <-> en_c en = en_c en')) -> forall l, incl l L -> (forall en, In en L -> en_S en = S_pm) ->
  let d := fold_left dset l [] in
  NoDup (map fst d) /\ (forall k, In k (map fst d) <-> exists en, In en l /\ en_id en = k) /\
  (forall k c s, In (k, (c, s)) d -> s = S_pm /\ exists en, In en L /\ en_id en = k /\ en_c en = c).
Proof.
  intros Hid l. induction l as [|en l IH] using rev_ind; intros Hl HS.
  - cbn. repeat split; try constructor; try (intros; contradiction). intros (en & [] & _).
  - cbn. rewrite fold_left_app. cbn [fold_left]. destruct (IH (fun e He => Hl e (in_or_app _ _ _ (or_introl He))) HS) as (ND & HK & HP). set (d := fold_left dset l []) in *.
    assert (Hen : In en L) by (apply Hl, in_or_app; right; now left). unfold dset. split; [|split].
    + apply dict_set_nodup. exact ND.
    + intros k. rewrite dict_set_keys, HK. split.
      * intros [(e & He & Ek)|Ek]; [exists e; split; [apply in_or_app; now left|exact Ek]|exists en; split; [apply in_or_app; right; now left|now symmetry]].
      * intros (e & He & Ek). apply in_app_or in He. destruct He as [He|[<-|[]]]; [left; exists e; auto|right; now symmetry].
    + apply (dict_set_prop (fun k c s => s = S_pm /\ exists en, In en L /\ en_id en = k /\ en_c en = c)); [split; [exact (HS en Hen)|exists en; auto]|exact HP|].
      intros c' s' [_ He]. split; [exact (HS en Hen)|exact He].
Qed.
Lemma nodup_snd {A B} (d : list (A * B)) (P : A -> B -> Prop) : NoDup (map fst d) -> (forall k v, In (k, v) d -> P k v) ->
  (forall k k' v, P k v -> P k' v -> k = k') -> NoDup (map snd d).
Proof.
  intros ND HP HI. induction d as [|[k v] d IH]; cbn [map fst snd] in *; [constructor|]. inversion ND; subst. constructor; [|apply IH; [assumption|]; intros; apply HP; now right].
  intros Hv. apply in_map_iff in Hv. destruct Hv as ([k' v'] & E & Hin). cbn in E. subst v'. apply H1. rewrite (HI k k' v); [apply (in_map fst) in Hin; exact Hin|apply HP; now left|apply HP; now right].
Qed.

Section Simp.
Variable simp : expr -> expr.
Hypothesis HL : harmless simp.

(* the switching function of a node *)
Notation switch_of := (Spec7.switch_of simp).
Lemma switch_of_value n rho : switching n -> eval rho (switch_of n) = decider rho n.
Proof. intros (a & b & [->|[->| ->]]); cbn; [reflexivity|apply (eval_bin' simp HL)|apply (eval_bin' simp HL)]. Qed.

Lemma rebuild_additive_ok e :
  (outer e = [] -> exists x, rebuild_additive simp e = Ok ([x], None, None) /\ forall rho, eval rho x = eval rho e) /\
  (forall n, outer e = [n] ->
     (is_min n = true -> rebuild_additive simp e = Err EValueError) /\
     (is_min n = false -> exists f0 f1, rebuild_additive simp e = Ok ([f0; f1], Some (switch_of n), Some S_pm) /\ forall rho,
        ((0 < decider rho n)%R -> eval rho f0 = eval rho e) /\ ((decider rho n < 0)%R -> eval rho f1 = eval rho e))).
Proof.
  assert (Q1 : Q2R 1 = 1%R) by (unfold Q2R; cbn; lra).
  assert (Qm : Q2R (-1) = (-1)%R) by (unfold Q2R; cbn; lra).
  induction e as [q|y|o d [IH0 IH1]|o a [IHa0 IHa1] b [IHb0 IHb1]].
  - split; [intros _; exists (ECst q); split; reflexivity|intros n Hn; discriminate].
  - split; [intros _; exists (EVar y); split; reflexivity|intros n Hn; discriminate].
  - assert (G : o <> USign -> outer (EUn o d) = outer d /\ rebuild_additive simp (EUn o d) = (do* r <- rebuild_additive simp d; let '(ch, c, sw) := r in Ok (map (un simp o) ch, c, sw)))
      by (intros No; destruct o; try congruence; split; reflexivity).
    destruct (Bool.bool_dec (match o with USign => true | _ => false end) true) as [Eo|Eo].
    + destruct o; try discriminate. split; [discriminate|]. intros n Hn. injection Hn as <-. split; [discriminate|]. intros _. exists (ECst 1), (ECst (-1)). split; [reflexivity|].
      intros rho. cbn [eval decider eval_un]. rewrite Q1, Qm. unfold Rsign. destruct (Rlt_dec 0 (eval rho d)), (Rlt_dec (eval rho d) 0); lra.
    + destruct G as [-> ->]; [intros ->; now apply Eo|]. split.
      * intros Ho. destruct (IH0 Ho) as (x & -> & Hx). exists (un simp o x). split; [reflexivity|]. intros rho. rewrite (eval_un' simp HL), Hx. reflexivity.
      * intros n Hn. destruct (IH1 n Hn) as [A B]. split; [intros M; rewrite (A M); reflexivity|]. intros M. destruct (B M) as (f0 & f1 & -> & Hf).
        exists (un simp o f0), (un simp o f1). split; [reflexivity|]. intros rho. rewrite !(eval_un' simp HL). destruct (Hf rho) as [F0 F1]. cbn [eval]. split; intros Hd; [rewrite (F0 Hd)|rewrite (F1 Hd)]; reflexivity.
  - assert (G : o <> BFmax -> o <> BFmin -> outer (EBin o a b) = outer a ++ outer b /\ rebuild_additive simp (EBin o a b) =
      (do* l <- rebuild_additive simp a; do* r <- rebuild_additive simp b; let '(lch, lc, lS) := l in let '(rch, rc, rS) := r in
       Ok (map (fun p => bin simp o (fst p) (snd p)) (list_prod lch rch), orelse lc rc, orelse lS rS))) by (intros N1 N2; destruct o; try congruence; split; reflexivity).
    destruct (Bool.bool_dec (match o with BFmax | BFmin => true | _ => false end) true) as [Eo|Eo].
    + destruct o; try discriminate; (split; [discriminate|]); intros n Hn; injection Hn as <-; (split; [first [discriminate|reflexivity]|]); [discriminate|]. intros _.
      exists a, b. split; [reflexivity|]. intros rho. cbn [eval decider eval_bin]. unfold Rmax. destruct (Rle_dec (eval rho a) (eval rho b)); split; intros; lra.
    + destruct G as [-> ->]; [intros ->; now apply Eo|intros ->; now apply Eo|]. split.
      * intros Ho. apply app_eq_nil in Ho. destruct Ho as [Ha Hb]. destruct (IHa0 Ha) as (x & -> & Hx), (IHb0 Hb) as (y & -> & Hy). exists (bin simp o x y).
        split; [reflexivity|]. intros rho. rewrite (eval_bin' simp HL), Hx, Hy. reflexivity.
      * intros n Hn. apply app_eq_unit in Hn. destruct Hn as [[Ha Hb]|[Ha Hb]].
        -- destruct (IHa0 Ha) as (x & -> & Hx). destruct (IHb1 n Hb) as [A B]. split; [intros M; cbn [bind]; rewrite (A M); reflexivity|]. intros M. destruct (B M) as (f0 & f1 & -> & Hf).
           exists (bin simp o x f0), (bin simp o x f1). split; [reflexivity|]. intros rho. rewrite !(eval_bin' simp HL), Hx. destruct (Hf rho) as [F0 F1]. cbn [eval]. split; intros Hd; [rewrite (F0 Hd)|rewrite (F1 Hd)]; reflexivity.
        -- destruct (IHb0 Hb) as (x & -> & Hx). destruct (IHa1 n Ha) as [A B]. split; [intros M; rewrite (A M); reflexivity|]. intros M. destruct (B M) as (f0 & f1 & -> & Hf).
           exists (bin simp o f0 x), (bin simp o f1 x). split; [reflexivity|]. intros rho. rewrite !(eval_bin' simp HL), Hx. destruct (Hf rho) as [F0 F1]. cbn [eval]. split; intros Hd; [rewrite (F0 Hd)|rewrite (F1 Hd)]; reflexivity.
Qed.

Lemma un_fv o e y : In y (fv (un simp o e)) -> In y (fv e).
Proof. intros H. exact (hl_symbols _ HL _ _ H). Qed.
Lemma bin_fv o a b y : In y (fv (bin simp o a b)) -> In y (fv a) \/ In y (fv b).
Proof. intros H. apply (hl_symbols _ HL) in H. apply in_app_or. exact H. Qed.
Lemma components_fv e : forall c y, In c (find_components simp e) -> In y (fv c) -> In y (fv e).
Proof.
  assert (L : forall e c y, In c [e] -> In y (fv c) -> In y (fv e)) by (intros e' c y [<-|[]] Hy; exact Hy).
  assert (NG : forall l e', (forall c y, In c l -> In y (fv c) -> In y (fv e')) -> forall c y, In c (map (un simp UNeg) l) -> In y (fv c) -> In y (fv e')).
  { intros l e' Hl c y Hc Hy. apply in_map_iff in Hc. destruct Hc as (x & <- & Hx). apply un_fv in Hy. exact (Hl x y Hx Hy). }
  induction e as [q|x|o d IH|o d0 IH0 d1 IH1]; intros c y; try apply L.
  - destruct o; try apply L. cbn [find_components fv]. now apply NG.
  - destruct o; try apply L; cbn [find_components fv]; intros Hc Hy; apply in_or_app; apply in_app_or in Hc; destruct Hc as [Hc|Hc]; try (left; exact (IH0 c y Hc Hy)); right; [exact (IH1 c y Hc Hy)|exact (NG _ _ IH1 c y Hc Hy)].
Qed.
Lemma rebuild_additive_fv e : forall ch c sw, rebuild_additive simp e = Ok (ch, c, sw) -> forall x y, In x ch -> In y (fv x) -> In y (fv e).
Proof.
  induction e as [q|z|o d IH|o a IHa b IHb]; intros ch c sw E x y Hx Hy.
  - injection E as <- <- <-. destruct Hx as [<-|[]]. exact Hy.
  - injection E as <- <- <-. destruct Hx as [<-|[]]. exact Hy.
  - destruct (Bool.bool_dec (match o with USign => true | _ => false end) true) as [Eo|Eo].
    + destruct o; try discriminate. injection E as <- <- <-. destruct Hx as [<-|[<-|[]]]; destruct Hy.
    + assert (E' : (do* r <- rebuild_additive simp d; let '(ch, c, sw) := r in Ok (map (un simp o) ch, c, sw)) = Ok (ch, c, sw)) by (destruct o; try exact E; now destruct Eo). clear E.
      destruct (rebuild_additive simp d) as [[[ch0 c0] s0]|]; [|discriminate]. injection E' as <- <- <-. apply in_map_iff in Hx. destruct Hx as (x0 & <- & Hx). apply un_fv in Hy. exact (IH _ _ _ eq_refl x0 y Hx Hy).
  - destruct (Bool.bool_dec (match o with BFmax | BFmin => true | _ => false end) true) as [Eo|Eo].
    + destruct o; try discriminate. injection E as <- <- <-. cbn. apply in_or_app. destruct Hx as [<-|[<-|[]]]; auto.
    + assert (E' : (do* l <- rebuild_additive simp a; do* r <- rebuild_additive simp b; let '(lch, lc, lS) := l in let '(rch, rc, rS) := r in
        Ok (map (fun p => bin simp o (fst p) (snd p)) (list_prod lch rch), orelse lc rc, orelse lS rS)) = Ok (ch, c, sw)) by (destruct o; try exact E; now destruct Eo). clear E.
      destruct (rebuild_additive simp a) as [[[l0 lc] ls]|]; [|discriminate]. destruct (rebuild_additive simp b) as [[[r0 rc] rs]|]; [|discriminate]. cbn [bind] in E'. injection E' as <- <- <-.
      apply in_map_iff in Hx. destruct Hx as ([u v] & <- & Hx). apply in_prod_iff in Hx. destruct Hx as [Hu Hv]. cbn [fst snd] in Hy. cbn [fv]. apply in_or_app.
      apply bin_fv in Hy. destruct Hy as [Hy|Hy]; [left; exact (IHa _ _ _ eq_refl u y Hu Hy)|right; exact (IHb _ _ _ eq_refl v y Hv Hy)].
Qed.
Definition nonsmooth_parts (f : expr) : list expr := filter (fun e => negb (check_smooth e)) (find_components simp f).
Definition smooth_parts (f : expr) : list expr := filter check_smooth (find_components simp f).

Variable ids : nat -> nat -> nat.
Variable order : list expr -> list expr.
Hypothesis OP : forall l, Permutation (order l) l.

Record entry_of (i j : nat) (e : expr) (en : entry) : Prop := {
  eo_node : exists n, outer e = [n] /\ en_c en = switch_of n;
  eo_id : en_id en = ids i j;
  eo_S : en_S en = S_pm;
  eo_fv : forall y, In y (fv (en_f0 en)) \/ In y (fv (en_f1 en)) -> In y (fv e);
  eo_pos : forall rho, (0 < eval rho (en_c en))%R -> eval rho (en_f0 en) = eval rho e;
  eo_neg : forall rho, (eval rho (en_c en) < 0)%R -> eval rho (en_f1 en) = eval rho e }.

Lemma to_entry_ok i j e n : outer e = [n] -> is_min n = false -> exists en, to_entry simp (ids i j) e = Ok en /\ entry_of i j e en.
Proof.
  intros Hn Hm. destruct (proj2 (proj2 (rebuild_additive_ok e) n Hn) Hm) as (f0 & f1 & E & Hf).
  exists (mkEntry f0 f1 (switch_of n) S_pm (ids i j)). split; [unfold to_entry; rewrite E; reflexivity|].
  assert (SW : switching n) by (apply (outer_switching e); rewrite Hn; now left).
  split; cbn; try reflexivity; [exists n; auto| | |]; try (intros rho; rewrite (switch_of_value n rho SW); apply Hf).
  intros y [Hy|Hy]; eapply (rebuild_additive_fv e _ _ _ E); try exact Hy; cbn; auto.
Qed.

Lemma mapM_index {A B} (P : nat -> A -> B -> Prop) (f : nat * A -> res B) l : (forall i a, nth_error l i = Some a -> exists b, f (i, a) = Ok b /\ P i a b) ->
  exists r, mapM f (combine (seq 0 (length l)) l) = Ok r /\ length r = length l /\ forall i a, nth_error l i = Some a -> exists b, nth_error r i = Some b /\ P i a b.
Proof.
  intros H. destruct (mapM_ex f (combine (seq 0 (length l)) l)) as [r Hr].
  { intros [i a] Hin. apply In_nth_error in Hin. destruct Hin as [k Hk]. apply nth_error_combine_inv in Hk. destruct Hk as [H1 H2].
    assert (i = k) by (pose proof H1 as H3; rewrite nth_error_seq in H3; [cbn in H3; congruence|apply nth_error_Some; congruence]). subst i. destruct (H k a H2) as (b & -> & _). eauto. }
  exists r. split; [exact Hr|]. pose proof (mapM_length _ _ _ Hr) as L. rewrite combine_length, seq_length, Nat.min_id in L. split; [exact L|].
  intros i a Ha. destruct (H i a Ha) as (b & Eb & Pb). exists b. split; [|exact Pb]. assert (Hc : nth_error (combine (seq 0 (length l)) l) i = Some (i, a)).
  { apply nth_error_combine; [|exact Ha]. rewrite nth_error_seq; [reflexivity|]. apply nth_error_Some. congruence. }
  destruct (mapM_nth _ _ _ _ _ Hr Hc) as (b' & Hb' & Eb'). congruence.
Qed.

Variable fs : list expr.
Hypothesis ONE : forall f e, In f fs -> In e (find_components simp f) -> ~ smooth e -> exists n, outer e = [n] /\ is_min n = false.

Definition rows_of (rows : list (list entry)) : Prop := length rows = length fs /\ forall i f, nth_error fs i = Some f -> exists row, nth_error rows i = Some row /\
  length row = length (nonsmooth_parts f) /\ forall j e, nth_error (nonsmooth_parts f) j = Some e -> exists en, nth_error row j = Some en /\ entry_of i j e en.
Lemma rows_ok : let nsm := map (filter (fun e => negb (check_smooth e))) (map (find_components simp) fs) in
  exists rows, mapM (fun p => row_entries simp ids (fst p) (snd p)) (combine (seq 0 (length nsm)) nsm) = Ok rows /\ rows_of rows.
Proof.
  intros nsm. destruct (mapM_index (fun i l row => length row = length l /\ forall j e, nth_error l j = Some e -> exists en, nth_error row j = Some en /\ entry_of i j e en)
    (fun p => row_entries simp ids (fst p) (snd p)) nsm) as (rows & Hr & L & HR).
  - intros i l Hl. unfold nsm in Hl. rewrite map_map in Hl. rewrite nth_error_map in Hl. destruct (nth_error fs i) as [f|] eqn:Ef; [|discriminate]. cbn in Hl. injection Hl as <-.
    cbn [fst snd]. unfold row_entries. set (l := filter _ _). destruct (mapM_index (fun j e en => entry_of i j e en) (fun p => to_entry simp (ids i (fst p)) (snd p)) l) as (row & Hrow & Lr & Hen).
    + intros j e He. apply nth_error_In in He. apply filter_In in He. destruct He as [He Hs]. apply negb_true_iff in Hs.
      destruct (ONE f e (nth_error_In _ _ Ef) He) as (n & Hn & Hm); [rewrite <- check_smooth_ok, Hs; discriminate|]. exact (to_entry_ok i j e n Hn Hm).
    + exists row. auto.
  - exists rows. split; [exact Hr|]. unfold nsm in L. rewrite !map_length in L. split; [exact L|]. intros i f Hf.
    destruct (HR i (nonsmooth_parts f)) as (row & Hrow & Lr & Hen); [unfold nsm; rewrite map_map, nth_error_map, Hf; reflexivity|]. exists row. auto.
Qed.

Definition switch_at (i j : nat) (n : expr) : Prop := exists f e, nth_error fs i = Some f /\ nth_error (nonsmooth_parts f) j = Some e /\ outer e = [n].
Hypothesis SAME : forall i j n i' j' n', switch_at i j n -> switch_at i' j' n' -> (ids i j = ids i' j' <-> switch_of n = switch_of n').

Lemma row_entry rows i f row en : rows_of rows -> nth_error fs i = Some f -> nth_error rows i = Some row -> In en row ->
  exists j e n, nth_error (nonsmooth_parts f) j = Some e /\ entry_of i j e en /\ switch_at i j n /\ en_c en = switch_of n.
Proof.
  intros [_ HR] Hf Hr Hen. destruct (HR i f Hf) as (row' & Hr' & L & He). assert (row' = row) by congruence. subst row'. apply In_nth_error in Hen. destruct Hen as [j Hj].
  destruct (nth_error (nonsmooth_parts f) j) as [e|] eqn:Ee; [|apply nth_error_None in Ee; assert (nth_error row j <> None) by congruence; rewrite nth_error_Some in H; lia].
  destruct (He j e Ee) as (en' & Hj' & EO). assert (en' = en) by congruence. subst en'. destruct (eo_node _ _ _ _ EO) as (n & Hn & Hc). exists j, e, n. repeat split; try assumption; try apply EO. exists f, e. auto.
Qed.
Lemma rows_entry rows en : rows_of rows -> In en (concat rows) -> exists i f row, nth_error fs i = Some f /\ nth_error rows i = Some row /\ In en row.
Proof.
  intros RO Hen. apply in_concat in Hen. destruct Hen as (row & Hr & Hen). apply In_nth_error in Hr. destruct Hr as [i Hi].
  destruct (nth_error fs i) as [f|] eqn:Ef; [exists i, f, row; auto|]. apply nth_error_None in Ef. assert (nth_error rows i <> None) by congruence. rewrite nth_error_Some in H. destruct RO as [L _]. lia.
Qed.

Lemma keys_ok rows : rows_of rows -> let d := cS_map rows (order (nodup_e (map en_c (concat rows)))) in
  NoDup (map fst (map snd d)) /\ (forall c s, In (c, s) (map snd d) -> s = S_pm /\ exists i j n, switch_at i j n /\ c = switch_of n) /\
  forall en, In en (concat rows) -> In (en_c en) (map fst (map snd d)).
Proof.
  intros RO d. assert (HID : forall en en', In en (concat rows) -> In en' (concat rows) -> (en_id en = en_id en' <-> en_c en = en_c en')).
  { intros en en' H1 H2. destruct (rows_entry _ _ RO H1) as (i & f & row & Hf & Hr & Hen), (rows_entry _ _ RO H2) as (i' & f' & row' & Hf' & Hr' & Hen').
    destruct (row_entry _ _ _ _ _ RO Hf Hr Hen) as (j & e & n & He & EO & SA & ->), (row_entry _ _ _ _ _ RO Hf' Hr' Hen') as (j' & e' & n' & He' & EO' & SA' & ->).
    rewrite (eo_id _ _ _ _ EO), (eo_id _ _ _ _ EO'). exact (SAME i j n i' j' n' SA SA'). }
  assert (HSs : forall en, In en (concat rows) -> en_S en = S_pm).
  { intros en H1. destruct (rows_entry _ _ RO H1) as (i & f & row & Hf & Hr & Hen). destruct (row_entry _ _ _ _ _ RO Hf Hr Hen) as (j & e & n & He & EO & _). apply (eo_S _ _ _ _ EO). }
  set (all_c := order (nodup_e (map en_c (concat rows)))) in *.
  assert (AC : forall en, In en (concat rows) -> In (en_c en) all_c) by (intros en Hen; apply (Permutation_in _ (Permutation_sym (OP _))), nodup_e_in, in_map; exact Hen).
  assert (FI : forall en, In en (flat rows all_c) <-> In en (concat rows)) by (intros en; rewrite flat_in; split; [tauto|intros Hen; auto]).
  destruct (dict_of (concat rows) HID (flat rows all_c) (fun en Hen => proj1 (FI en) Hen) HSs) as (ND & HK & HP). rewrite <- cS_flat in ND, HK, HP. fold d in ND, HK, HP.
  split; [|split].
  - rewrite map_map. replace (map (fun x => fst (snd x)) d) with (map snd (map (fun x => (fst x, fst (snd x))) d)) by now rewrite map_map.
    apply (nodup_snd _ (fun k c => exists en, In en (concat rows) /\ en_id en = k /\ en_c en = c)).
    + rewrite map_map. cbn [fst]. exact ND.
    + intros k c Hk. apply in_map_iff in Hk. destruct Hk as ([k0 [c0 s0]] & E & Hin). cbn in E. injection E as <- <-. apply (HP _ _ _ Hin).
    + intros k k' c (en & H1 & <- & <-) (en' & H2 & <- & Ec). apply HID; auto.
  - intros c s Hc. apply in_map_iff in Hc. destruct Hc as ([k v] & Ev & Hin). cbn in Ev. subst v. destruct (HP _ _ _ Hin) as [Hs (en & H1 & _ & Hc)]. split; [exact Hs|].
    destruct (rows_entry _ _ RO H1) as (i & f & row & Hf & Hr & Hen). destruct (row_entry _ _ _ _ _ RO Hf Hr Hen) as (j & e & n & He & EO & SA & Ec). exists i, j, n. split; [exact SA|congruence].
  - intros en Hen. assert (Hk : In (en_id en) (map fst d)) by (apply HK; exists en; split; [now apply FI|reflexivity]). apply in_map_iff in Hk. destruct Hk as ([k [c s]] & Ek & Hin). cbn in Ek. subst k.
    destruct (HP _ _ _ Hin) as [_ (en' & H1 & Eid & Ec)]. assert (en_c en = c) by (rewrite <- Ec; symmetry; apply HID; auto). subst c. rewrite map_map. apply in_map_iff. exists (en_id en, (en_c en, s)). rewrite H. auto.
Qed.

(* ---- values ---- *)
Definition val (rho : env) (en : entry) : R := if Rlt_dec 0 (eval rho (en_c en)) then eval rho (en_f0 en) else eval rho (en_f1 en).
Lemma f_pair_value rho l : forall a b, let r := fold_left (fun acc en => (bin simp BAdd (fst acc) (en_f0 en), bin simp BAdd (snd acc) (en_f1 en))) l (a, b) in
  eval rho (fst r) = (eval rho a + rsum (map (fun en => eval rho (en_f0 en)) l))%R /\ eval rho (snd r) = (eval rho b + rsum (map (fun en => eval rho (en_f1 en)) l))%R.
Proof.
  induction l as [|en l IH]; intros a b; cbn [fold_left map fst snd]; [rewrite !rsum_nil; cbn [fst snd]; split; lra|]. rewrite !rsum_cons.
  destruct (IH (bin simp BAdd a (en_f0 en)) (bin simp BAdd b (en_f1 en))) as [-> ->]. rewrite !(eval_bin' simp HL). cbn [eval_bin]. split; lra.
Qed.
Lemma pair_val rho row c k : chosen rho c S_pm k -> exists e, nth_error [fst (f_pair simp row c); snd (f_pair simp row c)] k = Some e /\ k < 2 /\
  eval rho e = rsum (map (val rho) (filter (fun en => expr_eqb (en_c en) c) row)).
Proof.
  intros (q & Hq & Hp). assert (Q0 : Q2R 0 = 0%R) by (unfold Q2R; cbn; lra). destruct (f_pair_value rho (filter (fun en => expr_eqb (en_c en) c) row) (ECst 0) (ECst 0)) as [E0 E1].
  fold (f_pair simp row c) in E0, E1. cbn [eval] in E0, E1. rewrite Q0 in E0, E1.
  assert (Hall : forall en, In en (filter (fun en => expr_eqb (en_c en) c) row) -> en_c en = c) by (intros en Hen; apply filter_In in Hen; now apply expr_eqb_eq).
  destruct k as [|[|k]]; cbn in Hq; [| |destruct k; discriminate]; injection Hq as <-.
  - assert (P : (0 < eval rho c)%R) by (replace (Q2R 1) with 1%R in Hp by (unfold Q2R; cbn; lra); lra). exists (fst (f_pair simp row c)). split; [reflexivity|split; [lia|]]. rewrite E0, Rplus_0_l.
    f_equal. apply map_ext_in. intros en Hen. unfold val. rewrite (Hall en Hen). destruct (Rlt_dec 0 (eval rho c)); [reflexivity|contradiction].
  - assert (P : (eval rho c < 0)%R) by (replace (Q2R (-1)) with (-1)%R in Hp by (unfold Q2R; cbn; lra); lra). exists (snd (f_pair simp row c)). split; [reflexivity|split; [lia|]]. rewrite E1, Rplus_0_l.
    f_equal. apply map_ext_in. intros en Hen. unfold val. rewrite (Hall en Hen). destruct (Rlt_dec 0 (eval rho c)); [lra|reflexivity].
Qed.
Definition mat (rows : list (list entry)) (v : expr * list (list Q)) : fmat :=
  let ps := map (fun row => f_pair simp row (fst v)) rows in mkFmat (length fs) [map fst ps; map snd ps].
Lemma mat_entry rows v i row k rho : nth_error rows i = Some row -> chosen rho (fst v) S_pm k ->
  entry_value rho (mat rows v) i k = rsum (map (val rho) (filter (fun en => expr_eqb (en_c en) (fst v)) row)).
Proof.
  intros Hr Hc. destruct (pair_val rho row (fst v) k Hc) as (e & He & Hk & Ev). unfold entry_value, mat. cbn [fm_cols].
  destruct k as [|[|k]]; [| |lia]; cbn in He |- *; injection He as <-; rewrite map_map, nth_error_map, Hr; exact Ev.
Qed.
Lemma rows_value rows i row rho : nth_error rows i = Some row -> forall vs ks, length ks = length vs ->
  (forall s c sw k, nth_error vs s = Some (c, sw) -> nth_error ks s = Some k -> chosen rho c S_pm k) ->
  row_value rho (map (mat rows) vs) ks i = rsum (map (fun c => rsum (map (val rho) (filter (fun en => expr_eqb (en_c en) c) row))) (map fst vs)).
Proof.
  intros Hr vs. unfold row_value. induction vs as [|v vs IH]; intros [|k ks] L Hc; try discriminate; [reflexivity|]. cbn [map combine fst snd]. rewrite !rsum_cons. f_equal.
  - apply mat_entry; [exact Hr|]. destruct v as [c sw]. exact (Hc 0 c sw k eq_refl eq_refl).
  - apply IH; [now injection L|]. intros s c sw k' H1 H2. exact (Hc (S s) c sw k' H1 H2).
Qed.
Lemma row_vals rows i f row rho : rows_of rows -> nth_error fs i = Some f -> nth_error rows i = Some row -> (forall en, In en row -> eval rho (en_c en) <> 0%R) ->
  rsum (map (val rho) row) = rsum (map (eval rho) (nonsmooth_parts f)).
Proof.
  intros RO Hf Hr Hn. f_equal. destruct RO as [_ HR]. destruct (HR i f Hf) as (row' & Hr' & L & He). assert (row' = row) by congruence. subst row'.
  apply nth_ext with (d := 0%R) (d' := 0%R); [now rewrite !map_length|]. rewrite map_length. intros j Hj. destruct (nth_error (nonsmooth_parts f) j) as [e|] eqn:Ee; [|apply nth_error_None in Ee; lia].
  destruct (He j e Ee) as (en & Hen & EO). erewrite !nth_error_nth; [|rewrite nth_error_map, Ee; reflexivity|rewrite nth_error_map, Hen; reflexivity].
  pose proof (Hn en (nth_error_In _ _ Hen)) as Nz. unfold val. destruct (Rlt_dec 0 (eval rho (en_c en))) as [P|P]; [exact (eo_pos _ _ _ _ EO rho P)|apply (eo_neg _ _ _ _ EO rho); lra].
Qed.
Lemma f_pair_fv l y : forall a b, let r := fold_left (fun acc en => (bin simp BAdd (fst acc) (en_f0 en), bin simp BAdd (snd acc) (en_f1 en))) l (a, b) in
  In y (fv (fst r)) \/ In y (fv (snd r)) -> In y (fv a) \/ In y (fv b) \/ exists en, In en l /\ (In y (fv (en_f0 en)) \/ In y (fv (en_f1 en))).
Proof.
  induction l as [|en l IH]; intros a b; cbn [fold_left fst snd]; [tauto|]. intros Hy. destruct (IH _ _ Hy) as [H|[H|(en' & Hen & H)]].
  - apply bin_fv in H. destruct H as [H|H]; [now left|right; right; exists en; split; [now left|now left]].
  - apply bin_fv in H. destruct H as [H|H]; [right; now left|right; right; exists en; split; [now left|now right]].
  - right. right. exists en'. split; [now right|exact H].
Qed.
Lemma mat_fv rows v col e y : rows_of rows -> In col (fm_cols (mat rows v)) -> In e col -> In y (fv e) -> exists f, In f fs /\ In y (fv f).
Proof.
  intros RO Hc He Hy. assert (G : exists row, In row rows /\ (In y (fv (fst (f_pair simp row (fst v)))) \/ In y (fv (snd (f_pair simp row (fst v)))))).
  { destruct Hc as [<-|[<-|[]]]; rewrite map_map in He; apply in_map_iff in He; destruct He as (row & <- & Hr); exists row; auto. }
  destruct G as (row & Hr & G). apply f_pair_fv in G. destruct G as [[]|[[]|(en & Hen & G)]]. apply filter_In in Hen. destruct Hen as [Hen _]. apply In_nth_error in Hr. destruct Hr as [i Hi].
  destruct (nth_error fs i) as [f|] eqn:Ef; [|apply nth_error_None in Ef; assert (nth_error rows i <> None) by congruence; rewrite nth_error_Some in H; destruct RO; lia].
  destruct (row_entry _ _ _ _ _ RO Ef Hi Hen) as (j & e' & n & He' & EO & _). exists f. split; [exact (nth_error_In _ _ Ef)|]. apply nth_error_In in He'. apply filter_In in He'.
  apply (components_fv f e' y (proj1 He')). exact (eo_fv _ _ _ _ EO y G).
Qed.
Lemma fold_fv l y : forall e, In y (fv (fold_left (bin simp BAdd) l e)) -> exists x, In x (e :: l) /\ In y (fv x).
Proof.
  induction l as [|x l IH]; intros e Hy; [exists e; split; [now left|exact Hy]|]. cbn [fold_left] in Hy. destruct (IH _ Hy) as (x' & [<-|Hx] & H).
  - apply bin_fv in H. destruct H as [H|H]; [exists e|exists x]; cbn; auto.
  - exists x'. cbn. auto.
Qed.
Lemma fold_add rho l : forall e, eval rho (fold_left (bin simp BAdd) l e) = (eval rho e + rsum (map (eval rho) l))%R.
Proof. induction l as [|x l IH]; intros e; cbn [fold_left map]; [rewrite rsum_nil; lra|]. rewrite IH, (eval_bin' simp HL), rsum_cons. cbn [eval_bin]. lra. Qed.

Hypothesis SMOOTH : forall f, In f fs -> exists e, In e (find_components simp f) /\ smooth e.
Hypothesis SOME : exists f e, In f fs /\ In e (find_components simp f) /\ ~ smooth e.
Lemma common_ok : exists fc, mapM (sum_scalars simp) (map (filter check_smooth) (map (find_components simp) fs)) = Ok fc /\ length fc = length fs /\
  forall i f, nth_error fs i = Some f -> exists e, nth_error fc i = Some e /\ (forall rho, eval rho e = rsum (map (eval rho) (smooth_parts f))) /\ forall y, In y (fv e) -> In y (fv f).
Proof.
  rewrite map_map. assert (G : forall l, incl l fs -> exists fc, mapM (sum_scalars simp) (map (fun f => filter check_smooth (find_components simp f)) l) = Ok fc /\ length fc = length l /\
    forall i f, nth_error l i = Some f -> exists e, nth_error fc i = Some e /\ (forall rho, eval rho e = rsum (map (eval rho) (smooth_parts f))) /\ forall y, In y (fv e) -> In y (fv f)).
  { induction l as [|f l IH]; intros Hl; [exists []; repeat split; intros [|i] f; discriminate|]. destruct (IH (fun x Hx => Hl x (or_intror Hx))) as (fc & E & L & Hv).
    destruct (SMOOTH f (Hl f (or_introl eq_refl))) as (e0 & He0 & Hs0). cbn [map mapM]. fold (smooth_parts f).
    assert (Hin : In e0 (smooth_parts f)) by (apply filter_In; split; [exact He0|now apply check_smooth_ok]).
    destruct (smooth_parts f) as [|x xs] eqn:Ep; [destruct Hin|]. exists (fold_left (bin simp BAdd) xs x :: fc). cbn [sum_scalars bind]. rewrite E. cbn [bind length]. rewrite L. repeat split.
    intros [|i] f' Hf'; [|exact (Hv i f' Hf')]. injection Hf' as <-. exists (fold_left (bin simp BAdd) xs x). split; [reflexivity|]. split; [intros rho; rewrite fold_add, Ep; cbn [map]; now rewrite rsum_cons|].
    intros y Hy. apply fold_fv in Hy. destruct Hy as (x' & Hx' & Hy). rewrite <- Ep in Hx'. apply filter_In in Hx'. exact (components_fv f x' y (proj1 Hx') Hy). }
  exact (G fs (incl_refl fs)).
Qed.
Lemma add_col_nth fc col i e x : nth_error col i = Some x -> nth_error fc i = Some e -> nth_error (add_col simp fc col) i = Some (bin simp BAdd x e).
Proof. intros Hx He. unfold add_col. rewrite nth_error_map, (nth_error_combine col fc i x e Hx He). reflexivity. Qed.

Theorem linear_ok : exists a', reformulate_linear simp ids order auto_init fs = Ok a' /\
  length (am_F a') = length (am_c a') /\ length (am_S a') = length (am_c a') /\ am_c a' <> [] /\ NoDup (am_c a') /\ am_alpha a' = [] /\
  (forall F, In F (am_F a') -> fm_rows F = length fs /\ length (fm_cols F) = 2 /\ forall col, In col (fm_cols F) -> length col = length fs) /\
  (forall s, In s (am_S a') -> s = S_pm) /\
  (forall F col e y, In F (am_F a') -> In col (fm_cols F) -> In e col -> In y (fv e) -> exists f, In f fs /\ In y (fv f)) /\
  (forall c, In c (am_c a') -> exists i j n, switch_at i j n /\ c = switch_of n) /\
  forall rho ks, length ks = length (am_c a') -> (forall s c sw k, nth_error (am_c a') s = Some c -> nth_error (am_S a') s = Some sw -> nth_error ks s = Some k -> chosen rho c sw k) ->
    forall i f, nth_error fs i = Some f -> row_value rho (am_F a') ks i = eval rho f.
Proof.
  destruct common_ok as (fc & Efc & Lfc & Vfc). destruct rows_ok as (rows & Er & RO). destruct (keys_ok rows RO) as (ND & HC & HA).
  unfold reformulate_linear. rewrite Efc. cbn [bind]. rewrite Er. cbn [bind]. set (cS := map snd (cS_map rows (order (nodup_e (map en_c (concat rows)))))) in *.
  change (map (fun v => let ps := map (fun row => f_pair simp row (fst v)) rows in mkFmat (length fs) [map fst ps; map snd ps]) cS) with (map (mat rows) cS).
  assert (NE : cS <> []).
  { destruct SOME as (f & e & Hf & He & Hns). apply In_nth_error in Hf. destruct Hf as [i Hf]. destruct RO as [LR HR]. destruct (HR i f Hf) as (row & Hr & Lr & Hen).
    assert (Hp : In e (nonsmooth_parts f)) by (apply filter_In; split; [exact He|]; apply negb_true_iff; destruct (check_smooth e) eqn:Ec; [apply check_smooth_ok in Ec; contradiction|reflexivity]).
    apply In_nth_error in Hp. destruct Hp as [j Hj]. destruct (Hen j e Hj) as (en & Hn & _). pose proof (HA en) as Ha. intros E. rewrite E in Ha. apply Ha.
    apply in_concat. exists row. split; [exact (nth_error_In _ _ Hr)|exact (nth_error_In _ _ Hn)]. }
  cbn [auto_init am_F am_c am_S am_alpha app]. destruct cS as [|v0 cS'] eqn:EcS; [congruence|]. cbn [map]. eexists. split; [reflexivity|]. cbn [am_F am_c am_S am_alpha].
  rewrite <- EcS in HC, ND, HA. 
  assert (LM : forall v col, In col (fm_cols (mat rows v)) -> length col = length fs).
  { intros v col. unfold mat. cbn [fm_cols]. intros [<-|[<-|[]]]; rewrite !map_length; apply RO. }
  repeat split.
  - cbn [length]. now rewrite !map_length.
  - cbn [length]. now rewrite !map_length.
  - discriminate.
  - rewrite EcS in ND. exact ND.
  - destruct H as [<-|H]; [reflexivity|]. apply in_map_iff in H. destruct H as (v & <- & _). reflexivity.
  - destruct H as [<-|H]; [reflexivity|]. apply in_map_iff in H. destruct H as (v & <- & _). reflexivity.
  - destruct H as [<-|H]; [|apply in_map_iff in H; destruct H as (v & <- & _); apply LM].
    cbn [fm_cols]. intros col Hc. apply in_map_iff in Hc. destruct Hc as (col0 & <- & Hc). unfold add_col. rewrite map_length, combine_length, Lfc, (LM v0 col0 Hc), Nat.min_id. reflexivity.
  - intros s Hs. change (snd v0 :: map snd cS') with (map snd (v0 :: cS')) in Hs. rewrite <- EcS in Hs. apply in_map_iff in Hs. destruct Hs as ([c s'] & <- & Hin). exact (proj1 (HC c s' Hin)).
  - intros F col e y HF Hc He Hy. destruct HF as [<-|HF]; [|apply in_map_iff in HF; destruct HF as (v & <- & _); exact (mat_fv rows v col e y RO Hc He Hy)].
    cbn [fm_cols] in Hc. apply in_map_iff in Hc. destruct Hc as (col0 & <- & Hc). unfold add_col in He. apply in_map_iff in He. destruct He as ([u v] & <- & Huv). cbn [fst snd] in Hy.
    pose proof (in_combine_l _ _ _ _ Huv) as Hu. pose proof (in_combine_r _ _ _ _ Huv) as Hv. apply bin_fv in Hy. destruct Hy as [Hy|Hy]; [exact (mat_fv rows v0 col0 u y RO Hc Hu Hy)|].
    apply In_nth_error in Hv. destruct Hv as [i Hi]. destruct (nth_error fs i) as [f|] eqn:Ef; [|apply nth_error_None in Ef; assert (nth_error fc i <> None) by congruence; rewrite nth_error_Some in H; lia].
    destruct (Vfc i f Ef) as (e' & He' & _ & Hfv). assert (e' = v) by congruence. subst e'. exists f. split; [exact (nth_error_In _ _ Ef)|exact (Hfv y Hy)].
  - intros c Hc. change (fst v0 :: map fst cS') with (map fst (v0 :: cS')) in Hc. rewrite <- EcS in Hc. apply in_map_iff in Hc. destruct Hc as ([c' s'] & <- & Hin). exact (proj2 (HC c' s' Hin)).
  - intros rho ks Lk Hch i f Hf.
    assert (CH : forall s c sw k, nth_error (v0 :: cS') s = Some (c, sw) -> nth_error ks s = Some k -> chosen rho c S_pm k).
    { intros s c sw k Hv Hk. assert (sw = S_pm) by (apply (HC c sw); rewrite EcS; exact (nth_error_In _ _ Hv)). subst sw.
      apply (Hch s c S_pm k); [| |exact Hk].
      - change (fst v0 :: map fst cS') with (map fst (v0 :: cS')). rewrite nth_error_map, Hv. reflexivity.
      - change (snd v0 :: map snd cS') with (map snd (v0 :: cS')). rewrite nth_error_map, Hv. reflexivity. }
    destruct (proj2 RO i f Hf) as (row & Hr & Lr & Hen). destruct (Vfc i f Hf) as (ec & Hec & Vec & _).
    destruct ks as [|k ks]; [discriminate|]. cbn [length] in Lk. rewrite map_length in Lk.
    assert (K0 : k < 2 /\ exists x col, nth_error (fm_cols (mat rows v0)) k = Some col /\ nth_error col i = Some x).
    { destruct (pair_val rho row (fst v0) k) as (e & He & Hk & _); [destruct v0 as [c0 s0]; exact (CH 0 c0 s0 k eq_refl eq_refl)|]. split; [exact Hk|].
      destruct k as [|[|k]]; [| |lia]; unfold mat; cbn [fm_cols nth_error]; do 2 eexists; (split; [reflexivity|]); rewrite map_map, nth_error_map, Hr; reflexivity. }
    destruct K0 as (_ & x & col & Hcol & Hx).
    assert (S1 : row_value rho (mkFmat (fm_rows (mat rows v0)) (map (add_col simp fc) (fm_cols (mat rows v0))) :: map (mat rows) cS') (k :: ks) i =
      (row_value rho (map (mat rows) (v0 :: cS')) (k :: ks) i + eval rho ec)%R).
    { unfold row_value. cbn [map combine fst snd]. rewrite !rsum_cons. unfold entry_value at 1 3. cbn [fm_cols]. rewrite nth_error_map, Hcol. cbn [option_map].
      rewrite (add_col_nth fc col i ec x Hx Hec), Hx, (eval_bin' simp HL). cbn [eval_bin]. lra. }
    etransitivity; [exact S1|]. rewrite (rows_value rows i row rho Hr (v0 :: cS') (k :: ks)); [|cbn [length]; congruence|exact CH]. rewrite <- EcS.
    assert (HIn : forall en, In en row -> In (en_c en) (map fst cS)) by (intros en He; apply HA; apply in_concat; exists row; split; [exact (nth_error_In _ _ Hr)|exact He]).
    rewrite (sum_groups (val rho) row (map fst cS) ND HIn), (row_vals rows i f row rho RO Hf Hr).
    + rewrite Vec, <- (components_sum simp HL rho f), <- (sum_split check_smooth (eval rho) (find_components simp f)). unfold nonsmooth_parts, smooth_parts. lra.
    + intros en He Hz. pose proof (HIn en He) as Hi. rewrite EcS in Hi. apply in_map_iff in Hi. destruct Hi as ([c s0] & Ec & Hi). cbn in Ec. subst c. apply In_nth_error in Hi. destruct Hi as [s Hs].
      assert (Hks : exists k', nth_error (k :: ks) s = Some k').
      { destruct (nth_error (k :: ks) s) as [k'|] eqn:E; [eauto|]. apply nth_error_None in E. assert (nth_error (v0 :: cS') s <> None) by congruence. rewrite nth_error_Some in H. cbn [length] in *. lia. }
      destruct Hks as (k' & Hk'). destruct (CH s _ _ k' Hs Hk') as (q & _ & Hp). rewrite Hz in Hp. lra.
Qed.
End Simp.
