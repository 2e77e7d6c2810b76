(* Witness6.v -- concrete right-hand sides for NosnocAutoModel, a guess outside its bounds, a reused model *)
From Coq Require Import Reals Qreals Lra.
From Verif Require Import Base Lib Sx Sx_proofs Utils Tableau Opts Model Ocp Problem Spec Cases Fesd Spec2 Spec3 Spec4 Spec7 AutoModel
  Sem_proofs Model_proofs Witness Auto_proofs Auto2_proofs Auto3_proofs Reuse_proofs.
Local Open Scope nat_scope.

(* ---- a guess above its upper bound ---- *)
Definition ocpG : ocp := {|
  oc_lbu := Some [Fin (-2)]; oc_ubu := Some [Fin 2]; oc_u_guess := Some [5%Q];
  oc_lbx := Some [Fin (-10); NInf]; oc_ubx := None;
  oc_fq := EUn USq (EVar (MU 0));
  oc_g_path := [EBin BAdd (cx 0) (EVar (MU 0))]; oc_lbg := Some [NInf]; oc_ubg := Some [Fin 7];
  oc_comp := [(cx 0, cx 1); (EVar (MU 0), EVar (SVg 0))];
  oc_fT := EUn USq (cx 1); oc_gT := [EBin BSub (cx 0) (cq 1)];
  oc_lbv := Some [Fin 0]; oc_ubv := Some [Fin 4]; oc_v_guess := Some [1%Q] |}.
Lemma caseG_ok : is_ok (build optsA model1 (Some ocpG)) = true. Proof. vm_compute. reflexivity. Qed.
Definition CG : constructed := get _ caseG_ok.
Lemma builtG : build optsA model1 (Some ocpG) = Ok CG. Proof. apply get_ok. Qed.
Lemma madeG : construct_problem case_log_round case_cpoints ipopt_init optsA model1 (Some ocpG) = Ok CG.
Proof. exact (made _ _ _ _ builtG). Qed.
Fixpoint first_high (u : list ext) (g : list Q) (i : nat) : option nat :=
  match u, g with
  | up :: u', x :: g' => if ext_ltb up (Fin x) then Some i else first_high u' g' (S i)
  | _, _ => None
  end.
Lemma first_high_ok u : forall g i k, first_high u g i = Some k -> exists j, k = i + j /\ too_high u g j.
Proof.
  induction u as [|up u IH]; intros [|x g] i k H; try discriminate. cbn [first_high] in H. destruct (ext_ltb up (Fin x)) eqn:E.
  - injection H as <-. exists 0. split; [lia|]. exists up, x. split; [reflexivity|]. split; [reflexivity|]. apply ext_ltb_iff. exact E.
  - destruct (IH g (S i) k H) as (j & -> & a & b & E1 & E2 & E3). exists (S j). split; [lia|]. exists a, b. auto.
Qed.
Lemma too_highG : exists i, too_high (ubw (the_nlp CG)) (w0 (the_nlp CG)) i.
Proof.
  assert (E : exists k, first_high (ubw (the_nlp CG)) (w0 (the_nlp CG)) 0 = Some k) by (vm_compute; eexists; reflexivity).
  destruct E as [k E]. destruct (first_high_ok _ _ _ _ E) as (j & _ & H). exists j. exact H.
Qed.
Lemma silentG : print_errors (lbw (the_nlp CG)) (ubw (the_nlp CG)) (w0 (the_nlp CG)) = 0.
Proof. vm_compute. reflexivity. Qed.

(* ---- a model used twice ---- *)
Definition opts2 : opts := with_grid optsS 2 [].
Lemma fresh2 : is_ok (build opts2 model3 None) = true. Proof. vm_compute. reflexivity. Qed.
Lemma reused2 : build opts2 (pm_m (pr_pm (cn_prob CS))) None = Err EException. Proof. vm_compute. reflexivity. Qed.

(* ---- automatic models ---- *)
Definition X0 : expr := EVar (MX 0).
Definition X1 : expr := EVar (MX 1).
Definition keep (e : expr) : expr := e.
Definition same_order (l : list expr) : list expr := l.
Definition no_ids (i j : nat) : nat := 10 * i + j.
(* one max: -x0 + max(x0, x1), one switch *)
Definition fsMax : list expr := [EBin BAdd (EUn UNeg X0) (EBin BFmax X0 X1); X0].
Lemma maxD : detect_additive keep fsMax = true. Proof. reflexivity. Qed.
(* two switches *)
Definition fsTwo : list expr := [EUn USign X0; EBin BFmin X0 X1].
Lemma twoD : detect_additive keep fsTwo = true. Proof. reflexivity. Qed.
(* max(sign x0, x1) *)
Definition fsNest : list expr := [EBin BFmax (EUn USign X0) X1; X0].
Lemma nestD : detect_additive keep fsNest = true. Proof. reflexivity. Qed.
Lemma nest_not_smooth a' m : reformulate keep no_ids same_order 2 0 [0%Q; 0%Q] auto_init fsNest = (a', Ok m) ->
  exists rs r, m_fx m = Some [rs] /\ In r rs /\ ~ smooth r.
Proof.
  intros H. vm_compute in H. injection H as _ <-. eexists _, _. split; [reflexivity|]. split; [left; reflexivity|].
  intros Sm. apply (Sm (EUn USign (EVar (MX 0)))); [|exists (EVar (MX 0)), (ECst 0); now left].
  apply sub_left. apply sub_right. apply sub_self.
Qed.
(* products that _check_additive does not recognise: exp(max(x0, x1)) + x0 *)
Definition fsExp : list expr := [EBin BAdd (EUn UExp (EBin BFmax X0 X1)) X0; EBin BSub X1 (EUn USin (EUn USign X0))].
Lemma expD : detect_additive keep fsExp = false. Proof. reflexivity. Qed.
(* x0 + sign x0 * sign x1 loses the second sign *)
Definition fsProd : list expr := [EBin BAdd X0 (EBin BMul (EUn USign X0) (EUn USign X1))].
Lemma prodD : detect_additive keep fsProd = false. Proof. reflexivity. Qed.

Definition at11 : env := fun y => match y with MX 0 => 1%R | MX 1 => (-1)%R | _ => 0%R end.
Lemma prod_wrong a' m : reformulate keep no_ids same_order 1 0 [0%Q] auto_init fsProd = (a', Ok m) ->
  exists Fl c Sm, m_F m = Some Fl /\ m_c m = Some [[c]] /\ m_S m = Some [Sm] /\ chosen at11 c Sm 0 /\
  row_value at11 Fl [0] 0 = 2%R /\ map (eval at11) fsProd = [0%R].
Proof.
  intros H. vm_compute in H. injection H as _ <-. eexists _, _, _. split; [reflexivity|]. split; [reflexivity|]. split; [reflexivity|].
  assert (Q1 : Q2R 1 = 1%R) by (unfold Q2R; cbn; lra).
  assert (Q0 : Q2R 0 = 0%R) by (unfold Q2R; cbn; lra).
  assert (S1 : Rsign 1 = 1%R) by (unfold Rsign; destruct (Rlt_dec 0 1); [|lra]; reflexivity).
  assert (SM : Rsign (-1) = (-1)%R) by (unfold Rsign; destruct (Rlt_dec 0 (-1)); [lra|]; destruct (Rlt_dec (-1) 0); [reflexivity|lra]).
  split; [exists 1%Q; split; [reflexivity|]; cbn; rewrite Q1; lra|]. split.
  - unfold row_value, entry_value. cbn [combine map fst snd fm_cols nth_error]. rewrite rsum_cons, rsum_nil. cbn. rewrite ?Q1, ?Q0. lra.
  - unfold fsProd, X0, X1. cbn. rewrite S1, SM. f_equal. lra.
Qed.
Lemma prod_made : exists a' m, reformulate keep no_ids same_order 1 0 [0%Q] auto_init fsProd = (a', Ok m).
Proof. vm_compute. eexists _, _. reflexivity. Qed.
(* x0 + (x0 * min(x0, x1)) * x1 *)
Definition fsMin : list expr := [EBin BAdd X0 (EBin BMul (EBin BMul X0 (EBin BFmin X0 X1)) X1); X1].
Lemma min_raises : snd (reformulate keep no_ids same_order 2 0 [0%Q; 0%Q] auto_init fsMin) = Err EValueError. Proof. reflexivity. Qed.
(* (x0 * sign x0) * x1 *)
Definition fsBare : list expr := [EBin BMul (EBin BMul X0 (EUn USign X0)) X1; X1].
Lemma bare_raises : snd (reformulate keep no_ids same_order 2 0 [0%Q; 0%Q] auto_init fsBare) = Err EIndexError. Proof. reflexivity. Qed.
(* nothing to switch *)
Lemma smooth_raises : snd (reformulate keep no_ids same_order 2 0 [0%Q; 0%Q] auto_init [X1; X0]) = Err EIndexError. Proof. reflexivity. Qed.

(* the hypotheses of the Filippov theorem for fsExp *)
Definition exp_ids (i j : nat) : nat := i.
Lemma exp_one f e : In f fsExp -> In e (find_components keep f) -> ~ smooth e -> exists n, outer e = [n] /\ is_min n = false.
Proof.
  intros Hf He Ns. assert (S0 : check_smooth e = true -> False) by (intros E; apply Ns, check_smooth_ok, E). cbn in Hf.
  destruct Hf as [<-|[<-|[]]]; cbn in He; destruct He as [<-|[<-|[]]]; cbn in S0; try (exfalso; apply S0; reflexivity); cbn; eexists; split; reflexivity.
Qed.
Lemma exp_same i j n i' j' n' : switch_at keep fsExp i j n -> switch_at keep fsExp i' j' n' ->
  (exp_ids i j = exp_ids i' j' <-> switch_of keep n = switch_of keep n').
Proof.
  assert (A : forall i j n, switch_at keep fsExp i j n -> (i = 0 /\ n = EBin BFmax X0 X1) \/ (i = 1 /\ n = EUn USign X0)).
  { intros a b k (f & e & Hf & He & Hn). destruct a as [|[|a]]; [| |destruct a; discriminate]; injection Hf as <-; cbn in He.
    - destruct b as [|[|b]]; [|discriminate|destruct b; discriminate]. injection He as <-. cbn in Hn. injection Hn as <-. left. auto.
    - destruct b as [|[|b]]; [|discriminate|destruct b; discriminate]. injection He as <-. cbn in Hn. injection Hn as <-. right. auto. }
  intros H H'. unfold exp_ids. destruct (A _ _ _ H) as [[-> ->]|[-> ->]], (A _ _ _ H') as [[-> ->]|[-> ->]]; cbn; split; try reflexivity; discriminate.
Qed.
Lemma exp_smooth f : In f fsExp -> exists e, In e (find_components keep f) /\ smooth e.
Proof.
  intros [<-|[<-|[]]]; [exists X0|exists X1]; (split; [cbn; tauto|]); apply check_smooth_ok; reflexivity.
Qed.
Lemma exp_some : exists f e, In f fsExp /\ In e (find_components keep f) /\ ~ smooth e.
Proof.
  exists (EBin BAdd (EUn UExp (EBin BFmax X0 X1)) X0), (EUn UExp (EBin BFmax X0 X1)). split; [now left|]. split; [now left|].
  intros H. apply check_smooth_ok in H. discriminate.
Qed.
Lemma max_unnested e : In e fsMax -> unnested e.
Proof.
  assert (SV : forall y, smooth (EVar y)) by (intros y; apply check_smooth_ok; reflexivity).
  intros [<-|[<-|[]]] t a b H; repeat match goal with H : subterm _ _ |- _ => inversion H; subst; clear H end;
    (split; [intros E; discriminate|intros [E|E]; try discriminate]); injection E as <- <-; split; apply SV.
Qed.

Lemma max_uses e : In e fsMax -> uses_only (ode_sym 2 0) e.
Proof. intros [<-|[<-|[]]] y Hy; cbn in Hy; repeat (destruct Hy as [<-|Hy]; [cbn; lia|]); destruct Hy. Qed.
Lemma max_switch e n y : In e fsMax -> In n (outer e) -> In y (fv n) -> exists i, y = MX i /\ i < 2.
Proof.
  intros [<-|[<-|[]]] Hn Hy; cbn in Hn; [|destruct Hn]. destruct Hn as [<-|[]]. cbn in Hy. destruct Hy as [<-|[<-|[]]]; eexists; split; try reflexivity; lia.
Qed.
Lemma max_made : exists a' m, reformulate keep no_ids same_order 2 0 [0%Q; 0%Q] auto_init fsMax = (a', Ok m).
Proof. vm_compute. eexists _, _. reflexivity. Qed.
Lemma two_unusable : exists fs a' m, reformulate keep no_ids same_order 2 0 [0%Q; 0%Q] auto_init fs = (a', Ok m) /\
  (forall e, In e fs -> unnested e /\ uses_only (ode_sym 2 0) e) /\ forall o pm, preprocess_model o m <> Ok pm.
Proof.
  exists fsTwo. eexists _, _. split; [vm_compute; reflexivity|]. split.
  - intros e He. split.
    + assert (SV : forall y, smooth (EVar y)) by (intros y; apply check_smooth_ok; reflexivity).
      destruct He as [<-|[<-|[]]]; intros t a b H; repeat match goal with H : subterm _ _ |- _ => inversion H; subst; clear H end;
        (split; [intros E; try discriminate|intros [E|E]; try discriminate]); [injection E as <-; apply SV|injection E as <- <-; split; apply SV].
    + destruct He as [<-|[<-|[]]]; intros y Hy; cbn in Hy; repeat (destruct Hy as [<-|Hy]; [cbn; lia|]); destruct Hy.
  - intros o pm H. assert (A : exists pm, preprocess_model o (new_model 2 0 [0%Q; 0%Q] None [X0; EBin BSub X0 X1] None (Some [2]) (Some [snd (reformulate_nonlin keep auto_init fsTwo)])) = Ok pm) by (exists pm; exact H).
    apply (step_accepted keep no_ids same_order 2 0 [0%Q; 0%Q] fsTwo _ _ o harmless_id twoD eq_refl eq_refl) in A.
    + destruct A as (_ & A & _). discriminate.
    + intros e [<-|[<-|[]]]; intros y Hy; cbn in Hy; repeat (destruct Hy as [<-|Hy]; [cbn; lia|]); destruct Hy.
    + intros e n y [<-|[<-|[]]] Hn Hy; cbn in Hn; destruct Hn as [<-|[]]; cbn in Hy; repeat (destruct Hy as [<-|Hy]; [eexists; split; [reflexivity|lia]|]); destruct Hy.
Qed.
Lemma second_unusable : exists fs a1 m1 a2 m2, reformulate keep no_ids same_order 2 0 [0%Q; 0%Q] auto_init fs = (a1, Ok m1) /\
  reformulate keep no_ids same_order 2 0 [0%Q; 0%Q] a1 fs = (a2, Ok m2) /\
  (exists o pm, preprocess_model o m1 = Ok pm) /\ (forall o pm, preprocess_model o m2 <> Ok pm).
Proof.
  exists fsMax. destruct max_made as (a1 & m1 & E1). exists a1, m1.
  destruct (twice keep no_ids same_order 2 0 [0%Q; 0%Q] fsMax harmless_id maxD) as (b1 & n1 & a2 & m2 & cs1 & cs2 & F1 & F2 & _).
  assert (b1 = a1 /\ n1 = m1) as [-> ->] by (split; congruence). exists a2, m2. split; [exact E1|]. split; [exact F2|]. split.
  - exists optsB. apply (step_accepted keep no_ids same_order 2 0 [0%Q; 0%Q] fsMax a1 m1 optsB harmless_id maxD E1 eq_refl max_uses max_switch). repeat split.
  - vm_compute in E1. injection E1 as <- <-. vm_compute in F2. injection F2 as _ <-. intros o pm H. pose proof (preprocess_model_ok _ _ _ H) as K.
    pose proof (mo_nc _ _ _ K) as C. rewrite (mo_nsys _ _ _ K) in C. cbn in C. injection C as C.
    destruct (mo_dcs _ _ _ K) as (gSl & ups & fx0 & d & _ & _ & G & _). cbn [m_F] in G. destruct G as (fx & _ & _ & G). rewrite <- C in G. cbn in G. discriminate.
Qed.
(* a guess below its lower bound in both control stages *)
Definition ocpL : ocp := {|
  oc_lbu := Some [Fin (-2)]; oc_ubu := Some [Fin 2]; oc_u_guess := Some [(-5)%Q];
  oc_lbx := Some [Fin (-10); NInf]; oc_ubx := None;
  oc_fq := EUn USq (EVar (MU 0));
  oc_g_path := [EBin BAdd (cx 0) (EVar (MU 0))]; oc_lbg := Some [NInf]; oc_ubg := Some [Fin 7];
  oc_comp := [(cx 0, cx 1); (EVar (MU 0), EVar (SVg 0))];
  oc_fT := EUn USq (cx 1); oc_gT := [EBin BSub (cx 0) (cq 1)];
  oc_lbv := Some [Fin 0]; oc_ubv := Some [Fin 4]; oc_v_guess := Some [1%Q] |}.
Lemma caseL_ok : is_ok (build optsA model1 (Some ocpL)) = true. Proof. vm_compute. reflexivity. Qed.
Definition CL : constructed := get _ caseL_ok.
Lemma builtL : build optsA model1 (Some ocpL) = Ok CL. Proof. apply get_ok. Qed.
