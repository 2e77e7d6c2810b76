(* Auto_proofs.v -- lemmas about AutoModel.v *)
From Coq Require Import Reals Qreals Lra Permutation.
From Verif Require Import Base Lib Sx Utils Opts Model AutoModel Spec Fesd Spec3 Spec4 Spec7 Sem_proofs.
Local Open Scope nat_scope.

(* ---- smoothness ---- *)
Lemma smooth_leaf e : match e with ECst _ | EVar _ => True | _ => False end -> smooth e.
Proof. intros Hl t Ht (a & b & Hs). destruct e; try contradiction; inversion Ht; subst; destruct Hs as [?|[?|?]]; discriminate. Qed.
Lemma smooth_un o a : o <> USign -> smooth a -> smooth (EUn o a).
Proof.
  intros Ho Ha t Ht Hs. inversion Ht; subst; [|exact (Ha _ H0 Hs)].
  destruct Hs as (x & y & [E|[E|E]]); try discriminate. injection E as -> _. congruence.
Qed.
Lemma smooth_un_inv o a : smooth (EUn o a) -> smooth a.
Proof. intros Ha t Ht. apply Ha. constructor. exact Ht. Qed.
Lemma smooth_bin o a b : o <> BFmax -> o <> BFmin -> smooth a -> smooth b -> smooth (EBin o a b).
Proof.
  intros N1 N2 Ha Hb t Ht Hs. inversion Ht; subst; [|exact (Ha _ H0 Hs)|exact (Hb _ H0 Hs)].
  destruct Hs as (x & y & [E|[E|E]]); try discriminate; injection E as -> _; congruence.
Qed.
Lemma smooth_bin_inv o a b : smooth (EBin o a b) -> smooth a /\ smooth b.
Proof. intros Ha. split; intros t Ht; apply Ha; [apply sub_left|apply sub_right]; exact Ht. Qed.
Lemma not_smooth e : switching e -> ~ smooth e.
Proof. intros Hs Hn. exact (Hn e (sub_self e) Hs). Qed.

Lemma check_smooth_ok e : check_smooth e = true <-> smooth e.
Proof.
  induction e as [q|y|o a IH|o a IHa b IHb].
  - split; [intros _; apply smooth_leaf; exact I|reflexivity].
  - split; [intros _; apply smooth_leaf; exact I|reflexivity].
  - destruct o; cbn [check_smooth];
      try (rewrite IH; split; [intros Ha; apply smooth_un; [discriminate|exact Ha]|apply smooth_un_inv]).
    split; [discriminate|]. intros Ha. destruct (not_smooth (EUn USign a)); [exists a, a; auto|exact Ha].
  - destruct o; cbn [check_smooth];
      try (rewrite andb_true_iff, IHa, IHb; split; [intros [Ha Hb]; apply smooth_bin; [discriminate|discriminate|exact Ha|exact Hb]|apply smooth_bin_inv]).
    + split; [discriminate|]. intros Ha. destruct (not_smooth (EBin BFmin a b)); [exists a, b; auto|exact Ha].
    + split; [discriminate|]. intros Ha. destruct (not_smooth (EBin BFmax a b)); [exists a, b; auto|exact Ha].
Qed.
Lemma outer_smooth e : outer e = [] <-> smooth e.
Proof.
  rewrite <- check_smooth_ok. induction e as [q|y|o a IH|o a IHa b IHb]; try (split; reflexivity).
  - destruct o; cbn; try exact IH. split; discriminate.
  - destruct o; cbn; try (split; discriminate); rewrite andb_true_iff, <- IHa, <- IHb; split;
      [apply app_eq_nil| |apply app_eq_nil| |apply app_eq_nil| |apply app_eq_nil|]; intros [-> ->]; reflexivity.
Qed.
Lemma outer_switching e n : In n (outer e) -> switching n.
Proof.
  induction e as [q|y|o a IH|o a IHa b IHb]; cbn; try tauto.
  - destruct o; try exact IH. intros [<-|[]]. exists a, a; auto.
  - destruct o; try (intros Hn; apply in_app_or in Hn; tauto); intros [<-|[]]; exists a, b; auto.
Qed.

(* ---- the reformulation with step functions ---- *)
Section Simp.
Variable simp : expr -> expr.
Hypothesis HL : harmless simp.

Definition alphas (n k : nat) : list sym := map (MF FAlpha 0) (seq n k).
(* the multipliers are the step functions of the switching functions *)
Definition stepped (rho : env) (cs : list expr) (als : list sym) : Prop := forall k c y, nth_error cs k = Some c -> nth_error als k = Some y ->
  (0 < eval rho c /\ rho y = 1)%R \/ (eval rho c < 0 /\ rho y = 0)%R.
Lemma stepped_app rho c1 c2 a1 a2 : length c1 = length a1 -> stepped rho (c1 ++ c2) (a1 ++ a2) -> stepped rho c1 a1 /\ stepped rho c2 a2.
Proof.
  intros L Hs. split; intros k c y Hc Hy.
  - apply (Hs k). + rewrite nth_error_app1; [exact Hc|]. apply nth_error_Some. congruence. + rewrite nth_error_app1; [exact Hy|]. apply nth_error_Some. congruence.
  - apply (Hs (length c1 + k)). + rewrite nth_error_app2 by lia. replace (length c1 + k - length c1) with k by lia. exact Hc.
    + rewrite nth_error_app2 by lia. replace (length c1 + k - length a1) with k by lia. exact Hy.
Qed.

Record rebuilt (a : auto) (es : list expr) (a' : auto) (rs : list expr) : Prop := {
  rb_c : exists cs, am_c a' = am_c a ++ cs /\ am_alpha a' = am_alpha a ++ alphas (length (am_alpha a)) (length cs) /\
    Forall2 switch_for (concat (map outer es)) cs /\
    Forall2 (fun e r => forall rho, stepped rho cs (alphas (length (am_alpha a)) (length cs)) -> eval rho r = eval rho e) es rs;
  rb_keep : am_F a' = am_F a /\ am_S a' = am_S a }.

Lemma alphas_len n k : length (alphas n k) = k.
Proof. unfold alphas. rewrite map_length, seq_length. reflexivity. Qed.
Lemma alphas_app n k l : alphas n (k + l) = alphas n k ++ alphas (n + k) l.
Proof. unfold alphas. rewrite seq_app, map_app. reflexivity. Qed.

Lemma rebuilt_app a e1 a1 r1 e2 a2 r2 : rebuilt a e1 a1 r1 -> rebuilt a1 e2 a2 r2 -> rebuilt a (e1 ++ e2) a2 (r1 ++ r2).
Proof.
  intros [(c1 & C1 & A1 & D1 & E1) (K1 & K1')] [(c2 & C2 & A2 & D2 & E2) (K2 & K2')]. split; [|split; congruence].
  assert (L1 : length (am_alpha a1) = length (am_alpha a) + length c1) by (rewrite A1, app_length, alphas_len; reflexivity).
  exists (c1 ++ c2). rewrite app_length, alphas_app. rewrite L1 in A2, E2. repeat split.
  - rewrite C2, C1, app_assoc. reflexivity.
  - rewrite A2, A1, app_assoc. reflexivity.
  - rewrite map_app, concat_app. apply Forall2_app; assumption.

  - apply Forall2_app.
    + eapply Forall2_impl; [|exact E1]. intros e r He rho Hs. apply He. apply (stepped_app rho c1 c2) in Hs; [apply Hs|now rewrite alphas_len].
    + eapply Forall2_impl; [|exact E2]. intros e r He rho Hs. apply He. apply (stepped_app rho c1 c2) in Hs; [apply Hs|now rewrite alphas_len].
Qed.
Lemma eval_un' rho o e : eval rho (un simp o e) = eval_un o (eval rho e).
Proof. unfold un. now rewrite (hl_value _ HL). Qed.
Lemma eval_bin' rho o a b : eval rho (bin simp o a b) = eval_bin o (eval rho a) (eval rho b).
Proof. unfold bin. now rewrite (hl_value _ HL). Qed.

Lemma rebuilt_un a d a' d' o : o <> USign -> rebuilt a [d] a' [d'] -> rebuilt a [EUn o d] a' [un simp o d'].
Proof.
  intros No [(cs & C1 & A1 & D1 & E1) K]. split; [|exact K]. exists cs. repeat split; try assumption.
  - destruct o; try exact D1. congruence.

  - inversion E1; subst. constructor; [|constructor]. intros rho Hs. rewrite eval_un', (H2 rho Hs). reflexivity.
Qed.
Lemma rebuilt_bin a d0 d1 a' l r o : o <> BFmax -> o <> BFmin -> rebuilt a [d0; d1] a' [l; r] -> rebuilt a [EBin o d0 d1] a' [bin simp o l r].
Proof.
  intros N1 N2 [(cs & C1 & A1 & D1 & E1) K]. split; [|exact K]. exists cs. repeat split; try assumption.
  - cbn in D1 |- *. rewrite app_nil_r in D1. destruct o; cbn; rewrite ?app_nil_r; try exact D1; congruence.

  - inversion E1 as [|? ? ? ? X1 X2]; subst. inversion X2 as [|? ? ? ? X3 _]; subst. constructor; [|constructor]. intros rho Hs. rewrite eval_bin', (X1 rho Hs), (X3 rho Hs). reflexivity.
Qed.
Lemma rebuilt_leaf a e : outer e = [] -> rebuilt a [e] a [e].
Proof.
  intros Ho. split; [|split; reflexivity]. exists []. cbn. rewrite Ho, !app_nil_r. repeat split; try constructor; [reflexivity|constructor].
Qed.
Lemma rebuilt_switch a e c r : outer e = [e] -> (forall rho, eval rho c = decider rho e) -> (forall y, In y (fv c) -> In y (fv e)) ->
  (forall rho, (0 < decider rho e /\ rho (find_matching a) = 1)%R \/ (decider rho e < 0 /\ rho (find_matching a) = 0)%R -> eval rho r = eval rho e) ->
  rebuilt a [e] (fst (add_switch a c)) [r].
Proof.
  intros Ho Hd Hv He. split; [|split; reflexivity]. exists [c]. cbn. rewrite Ho. repeat split.
  - constructor; [split; [exact Hd|exact Hv]|constructor].
  - constructor; [|constructor]. intros rho Hs. apply He. rewrite <- Hd. exact (Hs 0 c _ eq_refl eq_refl).
Qed.

Lemma rebuild_nonlin_ok e : forall a, rebuilt a [e] (fst (rebuild_nonlin simp a e)) [snd (rebuild_nonlin simp a e)].
Proof.
  assert (FB : forall d0 d1 y, In y (fv (bin simp BSub d0 d1)) -> In y (fv d0 ++ fv d1)) by (intros d0 d1 y Hy; exact (hl_symbols _ HL _ _ Hy)).
  assert (Q2 : Q2R 2 = 2%R) by (unfold Q2R; cbn; lra).
  assert (Q1 : Q2R 1 = 1%R) by (unfold Q2R; cbn; lra).
  induction e as [q|y|o d IH|o d0 IH0 d1 IH1]; intros a.
  - now apply rebuilt_leaf.
  - now apply rebuilt_leaf.
  - assert (G : o <> USign -> rebuilt a [EUn o d] (fst (rebuild_nonlin simp a d)) [un simp o (snd (rebuild_nonlin simp a d))]) by (intros No; apply rebuilt_un; [exact No|apply IH]).
    destruct o; try (cbn [rebuild_nonlin]; destruct (rebuild_nonlin simp a d); apply G; discriminate).
    apply (rebuilt_switch a (EUn USign d)); try reflexivity; [auto|]. intros rho Hd. cbn [rebuild_nonlin add_switch snd]. rewrite !eval_bin'. cbn [eval eval_bin eval_un]. cbn [decider] in Hd. rewrite Q2, Q1.
    unfold Rsign. destruct Hd as [[Hd ->]|[Hd ->]]; destruct (Rlt_dec 0 (eval rho d)), (Rlt_dec (eval rho d) 0); lra.
  - assert (G : o <> BFmax -> o <> BFmin -> rebuilt a [EBin o d0 d1] (fst (rebuild_nonlin simp (fst (rebuild_nonlin simp a d0)) d1))
        [bin simp o (snd (rebuild_nonlin simp a d0)) (snd (rebuild_nonlin simp (fst (rebuild_nonlin simp a d0)) d1))]).
    { intros N1 N2. apply rebuilt_bin; [exact N1|exact N2|]. apply (rebuilt_app a [d0] _ [_] [d1] _ [_] (IH0 a) (IH1 _)). }
    destruct o; try (cbn [rebuild_nonlin]; destruct (rebuild_nonlin simp a d0) as [a1 l]; cbn [fst snd] in *; destruct (rebuild_nonlin simp a1 d1); apply G; discriminate).
    + apply (rebuilt_switch a (EBin BFmin d0 d1)); try reflexivity; [intros rho; apply eval_bin'|apply FB|].
      intros rho Hd. cbn [rebuild_nonlin add_switch snd]. rewrite !eval_bin'. cbn [eval eval_bin eval_un]. cbn [decider] in Hd. rewrite Q1. unfold Rmin.
      destruct Hd as [[Hd ->]|[Hd ->]]; destruct (Rle_dec (eval rho d0) (eval rho d1)); lra.
    + apply (rebuilt_switch a (EBin BFmax d0 d1)); try reflexivity; [intros rho; apply eval_bin'|apply FB|].
      intros rho Hd. cbn [rebuild_nonlin add_switch snd]. rewrite !eval_bin'. cbn [eval eval_bin eval_un]. cbn [decider] in Hd. rewrite Q1. unfold Rmax.
      destruct Hd as [[Hd ->]|[Hd ->]]; destruct (Rle_dec (eval rho d0) (eval rho d1)); lra.
Qed.
Lemma reformulate_nonlin_ok fs : forall a, rebuilt a fs (fst (reformulate_nonlin simp a fs)) (snd (reformulate_nonlin simp a fs)).
Proof.
  induction fs as [|e fs IH]; intros a.
  - split; [|split; reflexivity]. exists []. cbn. rewrite !app_nil_r. repeat split; try constructor.
  - cbn [reformulate_nonlin]. pose proof (rebuild_nonlin_ok e a) as H1. destruct (rebuild_nonlin simp a e) as [a1 r]. cbn [fst snd] in H1.
    pose proof (IH a1) as H2. destruct (reformulate_nonlin simp a1 fs) as [a2 rs]. exact (rebuilt_app a [e] a1 [r] fs a2 rs H1 H2).
Qed.

(* what remains of the switching nodes *)
Lemma smooth_simp_bin o a b : o <> BFmax -> o <> BFmin -> smooth a -> smooth b -> smooth (bin simp o a b).
Proof. intros. apply (hl_smooth _ HL). now apply smooth_bin. Qed.
Lemma unnested_un o a : unnested (EUn o a) -> unnested a.
Proof. intros H t x y Ht. apply H. now constructor. Qed.
Lemma unnested_bin o a b : unnested (EBin o a b) -> unnested a /\ unnested b.
Proof. intros H. split; intros t x y Ht; apply H; [now apply sub_left|now apply sub_right]. Qed.
Lemma rebuild_smooth e : forall a, unnested e -> smooth (snd (rebuild_nonlin simp a e)).
Proof.
  assert (SV : forall y, smooth (EVar y)) by (intros; apply smooth_leaf; exact I).
  assert (SC : forall q, smooth (ECst q)) by (intros; apply smooth_leaf; exact I).
  induction e as [q|y|o d IH|o d0 IH0 d1 IH1]; intros a U; [apply SC|apply SV| |].
  - pose proof (IH a (unnested_un _ _ U)) as G.
    destruct o; try (cbn [rebuild_nonlin]; destruct (rebuild_nonlin simp a d); apply (hl_smooth _ HL); apply smooth_un; [discriminate|exact G]).
    repeat (apply smooth_simp_bin; try discriminate; auto).
  - destruct (unnested_bin _ _ _ U) as [U0 U1]. pose proof (IH0 a U0) as G0.
    destruct o; try (cbn [rebuild_nonlin]; destruct (rebuild_nonlin simp a d0) as [a1 l]; pose proof (IH1 a1 U1) as G1; destruct (rebuild_nonlin simp a1 d1); apply smooth_simp_bin; [discriminate|discriminate|exact G0|exact G1]).
    + destruct (proj2 (U _ d0 d1 (sub_self _)) (or_intror eq_refl)) as [S0 S1]. repeat (apply smooth_simp_bin; try discriminate; auto).
    + destruct (proj2 (U _ d0 d1 (sub_self _)) (or_introl eq_refl)) as [S0 S1]. repeat (apply smooth_simp_bin; try discriminate; auto).
Qed.
Lemma reformulate_smooth fs : forall a, (forall e, In e fs -> unnested e) -> forall r, In r (snd (reformulate_nonlin simp a fs)) -> smooth r.
Proof.
  induction fs as [|e fs IH]; intros a U r; [intros []|]. cbn [reformulate_nonlin]. pose proof (rebuild_smooth e a (U e (or_introl eq_refl))) as G.
  destruct (rebuild_nonlin simp a e) as [a1 r1]. pose proof (IH a1 (fun e He => U e (or_intror He))) as G2. destruct (reformulate_nonlin simp a1 fs) as [a2 rs].
  intros [<-|Hr]; [exact G|exact (G2 r Hr)].
Qed.

(* ---- splitting a sum ---- *)
Lemma sum_neg rho l : rsum (map (eval rho) (map (un simp UNeg) l)) = (- rsum (map (eval rho) l))%R.
Proof. induction l as [|x l IH]; cbn [map]; [rewrite rsum_nil; lra|]. rewrite !rsum_cons, IH, eval_un'. cbn [eval_un]. lra. Qed.
Lemma components_sum rho e : rsum (map (eval rho) (find_components simp e)) = eval rho e.
Proof.
  assert (L : forall e, rsum (map (eval rho) [e]) = eval rho e) by (intros x; cbn [map]; rewrite rsum_cons, rsum_nil; lra).
  induction e as [q|y|o d IH|o d0 IH0 d1 IH1]; try apply L.
  - destruct o; try apply L. cbn [find_components]. rewrite sum_neg, IH. reflexivity.
  - destruct o; try apply L; cbn [find_components]; rewrite map_app, rsum_app, IH0, ?sum_neg, IH1; cbn [eval eval_bin]; lra.
Qed.
Lemma components_not_sums e c : In c (find_components simp e) -> ~ sum_like c.
Proof.
  revert c. assert (L : forall e c, ~ sum_like e -> In c [e] -> ~ sum_like c) by (intros e' c N [<-|[]]; exact N).
  assert (NG : forall l, (forall c, In c l -> ~ sum_like c) -> forall c, In c (map (un simp UNeg) l) -> ~ sum_like c).
  { intros l Hl c Hc. apply in_map_iff in Hc. destruct Hc as (x & <- & Hx). apply (hl_negation _ HL). exact (Hl x Hx). }
  induction e as [q|y|o d IH|o d0 IH0 d1 IH1]; intros c; try (apply L; cbn; tauto).
  - destruct o; try (apply L; cbn; tauto). cbn [find_components]. apply NG. exact IH.
  - destruct o; try (apply L; cbn; tauto); cbn [find_components]; intros Hc; apply in_app_or in Hc; destruct Hc as [Hc|Hc]; auto. revert Hc. apply NG. exact IH1.
Qed.
End Simp.

Lemma harmless_id : harmless (fun e => e).
Proof. split; auto. Qed.
Lemma forall2_len {A B} (P : A -> B -> Prop) l l' : Forall2 P l l' -> length l = length l'.
Proof. induction 1; cbn; congruence. Qed.
Lemma forall2_right {A B} (P : A -> B -> Prop) l l' : Forall2 P l l' -> forall b, In b l' -> exists a, In a l /\ P a b.
Proof. induction 1 as [|a b l l' H _ IH]; intros x; [intros []|]. intros [<-|Hx]; [exists a; split; [now left|exact H]|]. destruct (IH x Hx) as (a' & Ha & HP). exists a'. split; [now right|exact HP]. Qed.
