(* Auto4_proofs.v -- the form of the model returned by reformulate(), and when it takes which path *)
From Coq Require Import Reals Qreals Lra Permutation.
From Verif Require Import Base Lib Sx Utils Tableau Opts Model Ocp Problem Spec Cases Fesd Spec2 Spec3 Spec4 Spec7 Spec18 AutoModel
  Auto_proofs Auto2_proofs Auto3_proofs Witness6.
Local Open Scope nat_scope.

Lemma is_op3_ok e : is_op3 e = true <-> switching e.
Proof.
  split.
  - destruct e as [| |[]|[]]; cbn; try discriminate; intros _; [exists e, (ECst 0)|exists e1, e2|exists e1, e2]; auto.
  - intros (a & b & [->|[->| ->]]); reflexivity.
Qed.
Lemma switching_not_smooth n : switching n -> ~ smooth n.
Proof. intros S K. exact (K n (sub_self n) S). Qed.
Lemma check_additive_ok e : check_additive e = true <-> additive e.
Proof.
  split.
  - induction e as [| |o e IH|o a IHa b IHb]; cbn; try discriminate.
    + destruct o; try discriminate.
      * intros H. destruct (IH H) as (t & n & U & S). exists t, n. split; [now constructor|exact S].
      * intros _. exists (EUn USign e), (EUn USign e). split; [constructor|]. split; [exists e, e; auto|now left].
    + destruct o; try discriminate.
      * destruct (is_op3 a) eqn:Ea; [|destruct (is_op3 b) eqn:Eb; [|discriminate]]; intros H; apply check_smooth_ok in H.
        -- exists (EBin BMul a b), a. split; [constructor|]. split; [now apply is_op3_ok|]. right. exists b. auto.
        -- exists (EBin BMul a b), b. split; [constructor|]. split; [now apply is_op3_ok|]. right. exists a. auto.
      * intros _. exists (EBin BFmin a b), (EBin BFmin a b). split; [constructor|]. split; [exists a, b; auto|now left].
      * intros _. exists (EBin BFmax a b), (EBin BFmax a b). split; [constructor|]. split; [exists a, b; auto|now left].
  - intros (t & n & U & S & K). induction U; [|assumption].
    destruct K as [->|(s & Sm & [->| ->])].
    + destruct S as (a & b & [->|[->| ->]]); reflexivity.
    + cbn. rewrite (proj2 (is_op3_ok n) S). now apply check_smooth_ok.
    + cbn. destruct (is_op3 s) eqn:E; [apply is_op3_ok in E; exfalso; exact (switching_not_smooth s E Sm)|]. rewrite (proj2 (is_op3_ok n) S). now apply check_smooth_ok.
Qed.
Lemma detect_additive_ok simp fs : detect_additive simp fs = true <-> exists f e, In f fs /\ In e (find_components simp f) /\ additive e.
Proof.
  unfold detect_additive. rewrite existsb_exists. split.
  - intros (f & Hf & H). apply existsb_exists in H. destruct H as (e & He & H). exists f, e. split; [exact Hf|]. split; [exact He|]. now apply check_additive_ok.
  - intros (f & e & Hf & He & H). exists f. split; [exact Hf|]. apply existsb_exists. exists e. split; [exact He|]. now apply check_additive_ok.
Qed.
Lemma path_taken simp ids order nx nu x0 a fs a' m : reformulate simp ids order nx nu x0 a fs = (a', Ok m) ->
  plain_ode nx nu x0 m /\
  ((exists f e, In f fs /\ In e (find_components simp f) /\ additive e) -> m_F m = None /\ m_S m = None /\ m_fx m <> None /\ m_alpha m <> None) /\
  (~ (exists f e, In f fs /\ In e (find_components simp f) /\ additive e) -> m_F m <> None /\ m_S m <> None /\ m_fx m = None /\ m_alpha m = None).
Proof.
  unfold reformulate. rewrite <- detect_additive_ok. intros E. destruct (detect_additive simp fs) eqn:D.
  - destruct (reformulate_nonlin simp a fs) as [a1 f]. injection E as _ <-. split; [repeat split|]. split; [intros _; repeat split; discriminate|]. intros N. exfalso. apply N. reflexivity.
  - destruct (reformulate_linear simp ids order a fs) as [a1|]; [|discriminate]. injection E as _ <-. split; [repeat split|]. split; [discriminate|]. intros _. repeat split; discriminate.
Qed.

Section Simp.
Variables (simp : expr -> expr).
Hypothesis HL : harmless simp.
Variables (ids : nat -> nat -> nat) (order : list expr -> list expr) (nx nu : nat) (x0 : list Q) (fs : list expr).

Lemma step_model_form : detect_additive simp fs = true -> exists a' m cs rs,
  reformulate simp ids order nx nu x0 auto_init fs = (a', Ok m) /\ plain_ode nx nu x0 m /\
  m_F m = None /\ m_S m = None /\ m_c m = Some (map (fun c => [c]) cs) /\ m_alpha m = Some [length cs] /\ m_fx m = Some [rs] /\
  Forall2 switch_for (concat (map outer fs)) cs /\
  (forall rho, (forall k c, nth_error cs k = Some c -> (0 < eval rho c /\ rho (MF FAlpha 0 k) = 1)%R \/ (eval rho c < 0 /\ rho (MF FAlpha 0 k) = 0)%R) ->
     map (eval rho) rs = map (eval rho) fs) /\
  length rs = length fs /\
  (forall r y, In r rs -> In y (fv r) -> (exists e, In e fs /\ In y (fv e)) \/ exists k, y = MF FAlpha 0 k /\ k < length cs) /\
  ((forall e, In e fs -> unnested e) -> forall r, In r rs -> smooth r).
Proof.
  intros D. destruct (step_model simp HL ids order nx nu x0 fs D) as (a' & cs & rs & E & R). exists a'. eexists. exists cs, rs. split; [exact E|]. split; [repeat split|].
  do 5 (split; [reflexivity|]). exact R.
Qed.
Lemma filippov_model_form : (forall l, Permutation (order l) l) -> detect_additive simp fs = false ->
  (forall f e, In f fs -> In e (find_components simp f) -> ~ smooth e -> exists n, outer e = [n] /\ is_min n = false) ->
  (forall i j n i' j' n', switch_at simp fs i j n -> switch_at simp fs i' j' n' -> (ids i j = ids i' j' <-> switch_of simp n = switch_of simp n')) ->
  (forall f, In f fs -> exists e, In e (find_components simp f) /\ smooth e) ->
  (exists f e, In f fs /\ In e (find_components simp f) /\ ~ smooth e) ->
  exists a' m Fl cs Sl, reformulate simp ids order nx nu x0 auto_init fs = (a', Ok m) /\ plain_ode nx nu x0 m /\
  m_F m = Some Fl /\ m_S m = Some Sl /\ m_c m = Some (map (fun c => [c]) cs) /\ m_alpha m = None /\ m_fx m = None /\
  length Fl = length cs /\ length Sl = length cs /\ NoDup cs /\ (forall Sm, In Sm Sl -> Sm = [[1%Q]; [(-1)%Q]]) /\
  (forall c, In c cs -> exists f e n, In f fs /\ In e (find_components simp f) /\ outer e = [n] /\ switch_for n c) /\
  (forall rho ks, length ks = length cs -> (forall s c sw k, nth_error cs s = Some c -> nth_error Sl s = Some sw -> nth_error ks s = Some k -> chosen rho c sw k) ->
    forall i f, nth_error fs i = Some f -> row_value rho Fl ks i = eval rho f) /\
  (length fs = nx -> (forall e, In e fs -> uses_only (ode_sym nx nu) e) -> (forall c, In c cs -> uses_only (fun y => exists i, y = MX i /\ i < nx) c) ->
   forall o, (exists pm, preprocess_model o m = Ok pm) <-> o_time_freezing o = false).
Proof.
  intros OP D ONE SAME SM SO. destruct (linear_ok simp HL ids order OP fs ONE SAME SM SO) as (a1 & E1 & _ & _ & _ & _ & _ & _ & HS & _).
  destruct (filippov_model simp HL ids order nx nu x0 fs OP D ONE SAME SM SO) as (a' & Fl & cs & Sl & E & L1 & L2 & ND & R).
  assert (HSl : forall Sm, In Sm Sl -> Sm = [[1%Q]; [(-1)%Q]]).
  { unfold reformulate in E. rewrite D, E1 in E. injection E as _ _ _ <-. exact HS. }
  exists a'. eexists. exists Fl, cs, Sl. split; [exact E|]. split; [repeat split|]. do 5 (split; [reflexivity|]). do 3 (split; [assumption|]). split; [exact HSl|exact R].
Qed.
End Simp.

(* x' = -sign x *)
Definition fsRelay : list expr := [EUn UNeg (EUn USign X0)].
Lemma relay_lost : exists a' m, reformulate keep no_ids same_order 1 0 [0%Q] auto_init fsRelay = (a', Ok m) /\ m_F m = None /\ forall o pm, o_pss o = Stewart -> preprocess_model o m <> Ok pm.
Proof.
  eexists _, _. split; [vm_compute; reflexivity|]. split; [reflexivity|]. intros o pm Ep H.
  match type of H with preprocess_model o ?m = _ => assert (A : exists pm, preprocess_model o m = Ok pm) by (exists pm; exact H) end.
  apply (step_accepted keep no_ids same_order 1 0 [0%Q] fsRelay _ _ o harmless_id eq_refl eq_refl eq_refl) in A.
  - destruct A as [A _]. congruence.
  - intros e [<-|[]] y Hy. cbn in Hy. destruct Hy as [<-|[]]. cbn. lia.
  - intros e n y [<-|[]] Hn Hy. cbn in Hn. destruct Hn as [<-|[]]. cbn in Hy. destruct Hy as [<-|[]]. exists 0. auto.
Qed.
Lemma relay_additive f e : In f fsRelay -> In e (find_components keep f) -> additive e.
Proof. intros [<-|[]] He. cbn in He. destruct He as [<-|[]]. apply check_additive_ok. reflexivity. Qed.
