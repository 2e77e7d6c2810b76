(* RkInit_proofs.v -- the guesses written by InitializationStrategy.RK4_SMOOTHENED *)
From Coq Require Import Reals Qreals Lra.
From Verif Require Tableau_proofs.
From Verif Require Import Base Lib Sx Utils Tableau Opts Model Ocp Problem Numeric Rk4 Results Solver Spec Fesd Spec2 Spec3 Spec4 Spec5 Spec6
  Con_proofs Index3_proofs Results_proofs Results2_proofs Results3_proofs Results4_proofs Solve_proofs Solve2_proofs Vec_proofs Init_proofs Init2_proofs Set_proofs Sx_proofs Model_proofs Feas_proofs Accept_proofs Lam_proofs Smooth_proofs Smooth2_proofs Param_proofs Solve3_proofs Rk4_proofs.
Local Open Scope nat_scope.

Section Con.
Variables (lr : Q -> Q -> Q -> nat) (cp : nat -> scheme -> list Q) (d : ipopt_dict)
  (o : opts) (m : model) (oc : option ocp) (C : constructed).
Hypothesis H : construct_problem lr cp d o m oc = Ok C.
Notation O := (the_opts C).
Notation P := (the_problem C).
Notation W := (w (the_nlp C)).
Notation PM := (pr_pm (cn_prob C)).

(* only guesses of symbols in A may change *)
Definition only (A : sym -> Prop) (s s' : sstate) : Prop :=
  ss_x0 s' = ss_x0 s /\ ss_pval s' = ss_pval s /\ length (ss_w0 s') = length (ss_w0 s) /\
  forall p y, nth_error W p = Some y -> ~ A y -> nth_error (ss_w0 s') p = nth_error (ss_w0 s) p.
Lemma only_refl A s : only A s s. Proof. repeat split. Qed.
Lemma only_trans A a b c : only A a b -> only A b c -> only A a c.
Proof.
  intros (A1 & A2 & A3 & A4) (B1 & B2 & B3 & B4). split; [congruence|]. split; [congruence|]. split; [congruence|].
  intros p y Hp N. rewrite (B4 p y Hp N). exact (A4 p y Hp N).
Qed.
Lemma only_weaken (A B : sym -> Prop) s s' : (forall y, A y -> B y) -> only A s s' -> only B s s'.
Proof. intros I (A1 & A2 & A3 & A4). split; [exact A1|]. split; [exact A2|]. split; [exact A3|]. intros p y Hp N. apply (A4 p y Hp). intros Q. apply N, I, Q. Qed.

Lemma assign_only (A : sym -> Prop) idx ys v s s' u : sel W idx = Ok ys -> (forall y, In y ys -> A y) -> update_w0 (fun w => assign w idx v) s = (s', Ok u) -> only A s s'.
Proof.
  intros S I E. rewrite update_w0_run in E. destruct (assign (ss_w0 s) idx v) as [w|e] eqn:EA; [|discriminate]. injection E as <- <-.
  split; [reflexivity|]. split; [reflexivity|]. cbn [ss_w0]. split; [exact (assign_len _ _ _ _ EA)|]. intros p y Hp N.
  unfold assign in EA. apply bind_ok in EA. destruct EA as (v' & _ & EA). destruct (write_nth _ _ _ p EA) as [[_ Q]|(x & Q & _)]; [exact Q|].
  exfalso. apply N, I. apply combine_in_nth in Q. destruct Q as (k & Hk & _). apply sel_ok in S.
  destruct (Forall2_nth _ _ _ _ _ S Hk) as (y' & Hy' & Hw). assert (y' = y) by congruence. subst. eapply nth_error_In, Hy'.
Qed.
(* the written values *)
Lemma assign_at idx ys v s s' u : sel W idx = Ok ys -> NoDup ys -> length v = length ys -> update_w0 (fun w => assign w idx v) s = (s', Ok u) ->
  forall k y p, nth_error ys k = Some y -> nth_error W p = Some y -> nth_error (ss_w0 s') p = nth_error v k.
Proof.
  intros S ND L' E k y p Hk Hp. rewrite update_w0_run in E. destruct (assign (ss_w0 s) idx v) as [w|e] eqn:EA; [|discriminate]. injection E as <- <-. cbn [ss_w0].
  pose proof (proj1 (sel_ok _ _ _) S) as F. pose proof (Forall2_length _ _ _ F) as L2. assert (L : length v = length idx) by congruence.
  rewrite assign_same in EA by exact L. destruct (Forall2_nth_r _ _ _ _ _ F Hk) as (i & Hi & Hw).
  assert (i = p). { eapply NoDup_nth_error; [exact (W_NoDup _ _ _ _ _ _ _ H)| |congruence]. eapply nth_error_Some_lt; eassumption. } subst i.
  destruct (nth_error_lt v k) as [x Hx]. { rewrite L. eapply nth_error_Some_lt, Hi. } rewrite Hx.
  destruct (write_nth _ _ _ p EA) as [[Q _]|(x' & Q & E')].
  - exfalso. apply Q. apply in_fst_combine; [congruence|]. eapply nth_error_In, Hi.
  - rewrite E'. apply combine_in_nth in Q. destruct Q as (k' & Hk' & Hx').
    assert (k' = k); [|congruence]. destruct (Forall2_nth _ _ _ _ _ F Hk') as (y' & Hy' & Hw').
    eapply NoDup_nth_error; [exact ND| |congruence]. eapply nth_error_Some_lt, Hy'.
Qed.

Lemma ind1_ok f i r l2 : nth_error (p_ind1 P f) 0 = Some r -> nth_error r i = Some l2 ->
  In (0, i) (elements O) /\ length l2 = points1 O (explicit_end C) f /\
  forall k ix, nth_error l2 k = Some ix -> k < points1 O (explicit_end C) f /\ sel W ix = Ok (map (S1 f 0 i k) (seq 0 (dim1 O m f))).
Proof.
  intros Hr Hl. pose proof (nth_error_Some_lt _ _ _ Hr) as L0. destruct (proj1 (proj2 (shapes_con _ _ _ _ _ _ _ H)) f) as [LL S]. rewrite LL in L0.
  destruct (S 0 L0) as (r' & Hr' & En & _). assert (r' = r) by congruence. subst r'. pose proof (nth_error_Some_lt _ _ _ Hl) as Li.
  assert (Hp : In (0, i) (elements O)). { apply elements_in. cbn [fst snd]. split; [exact L0|]. unfold nfe_of. rewrite (nth_error_nth _ _ 0 En). exact Li. }
  assert (Ha : at2 (p_ind1 P f) (fst (0, i)) (snd (0, i)) = Some l2). { unfold at2. cbn [fst snd]. rewrite Hr. exact Hl. }
  destruct (row1 _ _ _ _ _ _ _ H f _ _ Hp Ha) as [La Hj]. split; [exact Hp|]. split; [exact La|]. intros k ix Hk.
  pose proof (nth_error_Some_lt _ _ _ Hk) as Lk. rewrite La in Lk. split; [exact Lk|]. destruct (Hj k Lk) as (ix' & E1 & E2). cbn [fst snd] in E2. congruence.
Qed.
Lemma nest3_ok f i k ix : nest3 (p_ind1 P f) 0 i k = Ok ix -> In (0, i) (elements O) /\ k < points1 O (explicit_end C) f /\ sel W ix = Ok (map (S1 f 0 i k) (seq 0 (dim1 O m f))).
Proof.
  unfold nest3. intros E. apply bind_ok in E. destruct E as (r & E1 & E). apply bind_ok in E. destruct E as (l2 & E2 & E). apply nthE_ok in E1, E2, E.
  destruct (ind1_ok f i r l2 E1 E2) as (A & _ & B). split; [exact A|]. exact (B k ix E).
Qed.
Lemma nest4_ok f i k s ix : In (0, i) (elements O) -> nest4 (p_ind2 P f) 0 i k s = Ok ix -> sel W ix = Ok (map (S2 f 0 i k s) (seq 0 (dim2 O m f s))).
Proof.
  unfold nest4. intros Hp E. apply bind_ok in E. destruct E as (r & E1 & E). apply bind_ok in E. destruct E as (l2 & E2 & E). apply bind_ok in E. destruct E as (l3 & E3 & E).
  apply nthE_ok in E1, E2, E3, E. assert (Ha : at2 (p_ind2 P f) (fst (0, i)) (snd (0, i)) = Some l2). { unfold at2. cbn [fst snd]. rewrite E1. exact E2. }
  destruct (row2 _ _ _ _ _ _ _ H f _ _ Hp Ha) as [La Hj]. pose proof (nth_error_Some_lt _ _ _ E3) as Lk. rewrite La in Lk.
  destruct (Hj k Lk) as (r3 & Hr3 & L3 & Hs). assert (r3 = l3) by congruence. subst r3. pose proof (nth_error_Some_lt _ _ _ E) as Ls. rewrite L3 in Ls.
  destruct (Hs s Ls) as (ix' & E5 & E6). cbn [fst snd] in E6. congruence.
Qed.

Lemma sfor_only {A} (B : sym -> Prop) (f : A -> se sstate unit) l : (forall a s s' u, In a l -> f a s = (s', Ok u) -> only B s s') ->
  forall s s' u, sfor f l s = (s', Ok u) -> only B s s'.
Proof.
  induction l as [|a l IH]; intros F s s' u E; cbn [sfor] in E.
  - apply sret_ok in E. destruct E as [-> _]. apply only_refl.
  - apply sbind_ok in E. destruct E as (s1 & x & E1 & E2). eapply only_trans; [eapply F; [left; reflexivity|exact E1]|]. eapply IH; [|exact E2]. intros; eapply F; [right|]; eassumption.
Qed.

(* one RK stage *)
Definition stage_sym (i k : nat) (y : sym) : Prop := (exists j, y = S1 FX 0 i k j) \/ (exists f s j, y = S2 f 0 i k s j).
Definition holds (s : sstate) (i k : nat) (x : list R) : Prop :=
  forall j p, j < m_nx m -> nth_error W p = Some (S1 FX 0 i k j) -> nth_error (ss_w0 s) p = nth_error x j.
Lemma holds_only A s s' i k x : only A s s' -> (forall j, ~ A (S1 FX 0 i k j)) -> holds s i k x -> holds s' i k x.
Proof. intros (_ & _ & _ & Q) N Hh j p Hj Hp. rewrite (Q p _ Hp (N j)). exact (Hh j p Hj Hp). Qed.
Lemma S1_NoDup f c e j n : NoDup (map (S1 f c e j) (seq 0 n)).
Proof. apply FinFun.Injective_map_NoDup; [intros a b E; injection E; auto|apply seq_NoDup]. Qed.
Lemma states_written i k ix x s s' u : sel W ix = Ok (map (S1 FX 0 i k) (seq 0 (m_nx m))) -> length x = m_nx m ->
  update_w0 (fun w => assign w ix x) s = (s', Ok u) -> holds s' i k x /\ only (fun y => exists j, y = S1 FX 0 i k j) s s'.
Proof.
  intros S L E. split.
  - intros j p Hj Hp. eapply (assign_at _ _ _ _ _ _ S); [apply S1_NoDup|rewrite map_length, seq_length; exact L|exact E| |exact Hp].
    rewrite nth_error_map, nth_error_seq by exact Hj. reflexivity.
  - eapply assign_only; [exact S| |exact E]. intros y Hy. apply in_map_iff in Hy. destruct Hy as (j & <- & _). exists j. reflexivity.
Qed.
Lemma stage_guess i k sm x s s' u : rk4_stage_guess C sm i k x s = (s', Ok u) -> length x = m_nx m ->
  In (0, i) (elements O) /\ k < points1 O (explicit_end C) FX /\ only (stage_sym i k) s s' /\ holds s' i k x.
Proof.
  unfold rk4_stage_guess. intros E L. apply sbind_ok in E. destruct E as (s1 & ix & E1 & E). apply lift_ok in E1. destruct E1 as [-> E1].
  destruct (nest3_ok _ _ _ _ E1) as (Hp & Hk & S). split; [exact Hp|]. split; [exact Hk|].
  apply sbind_ok in E. destruct E as (s2 & u2 & E2 & E). destruct (states_written i k ix x s s2 u2 S L E2) as [Hh Ho].
  do 5 (apply sbind_ok in E; destruct E as (? & ? & E3 & E); first [apply lift_ok in E3 | apply sget_ok in E3]; destruct E3 as [-> _]).
  assert (Q : only (fun y => exists f s j, y = S2 f 0 i k s j) s2 s').
  { eapply sfor_only; [|exact E]. clear - H Hp. intros q s s' u _ E. apply sbind_ok in E. destruct E as (s1 & it & E1 & E). apply lift_ok in E1. destruct E1 as [-> E1].
    apply sbind_ok in E. destruct E as (s2 & ? & E2 & E). apply lift_ok in E2. destruct E2 as [-> _].
    apply sbind_ok in E. destruct E as (s3 & ? & E3 & E).
    apply sbind_ok in E. destruct E as (s4 & il & E4 & E). apply lift_ok in E4. destruct E4 as [-> E4].
    apply sbind_ok in E. destruct E as (s5 & ? & E5 & E). apply lift_ok in E5. destruct E5 as [-> _].
    apply sbind_ok in E. destruct E as (s6 & ? & E6 & E).
    apply sbind_ok in E. destruct E as (s7 & im & E7 & E). apply lift_ok in E7. destruct E7 as [-> E7].
    apply sbind_ok in E. destruct E as (s8 & ? & E8 & E). apply lift_ok in E8. destruct E8 as [-> _].
    apply (nest4_ok _ _ _ _ _ Hp) in E1, E4, E7.
    assert (I : forall f n y, In y (map (S2 f 0 i k q) (seq 0 n)) -> exists f s j, y = S2 f 0 i k s j).
    { intros f n y Hy. apply in_map_iff in Hy. destruct Hy as (j & <- & _). eauto. }
    eapply only_trans; [eapply assign_only; [exact E1|apply I|exact E3]|]. eapply only_trans; [eapply assign_only; [exact E4|apply I|exact E6]|].
    eapply assign_only; [exact E7|apply I|exact E]. }
  split.
  - eapply only_trans; [eapply only_weaken; [|exact Ho]; intros y Hy; left; exact Hy|eapply only_weaken; [|exact Q]; intros y Hy; right; exact Hy].
  - eapply holds_only; [exact Q| |exact Hh]. intros j (f & q & j' & Ef). discriminate.
Qed.

(* the stages of one element *)
Lemma stages_guess i sm X n : (forall y, In y X -> length y = m_nx m) -> forall k0 s s' u,
  sfor (fun k => dos x_ki <- lift (nthE EIndexError X (k + 1)); rk4_stage_guess C sm i k x_ki) (seq k0 n) s = (s', Ok u) ->
  only (fun y => exists k, k0 <= k /\ stage_sym i k y) s s' /\
  forall k, k0 <= k < k0 + n -> In (0, i) (elements O) /\ k < points1 O (explicit_end C) FX /\ exists y, nth_error X (k + 1) = Some y /\ holds s' i k y.
Proof.
  intros LX. induction n as [|n IH]; intros k0 s s' u E; cbn [seq sfor] in E.
  - apply sret_ok in E. destruct E as [-> _]. split; [apply only_refl|]. intros; lia.
  - apply sbind_ok in E. destruct E as (s1 & u1 & E1 & E). apply sbind_ok in E1. destruct E1 as (s0 & x & E0 & E1). apply lift_ok in E0. destruct E0 as [-> E0]. apply nthE_ok in E0.
    destruct (stage_guess i k0 sm x s s1 u1 E1 (LX x (nth_error_In _ _ E0))) as (Hp & Hk & Ho & Hh). destruct (IH (S k0) s1 s' u E) as (Ho' & Hs).
    split.
    + eapply only_trans; [eapply only_weaken; [|exact Ho]|eapply only_weaken; [|exact Ho']].
      * intros y Hy. exists k0. auto.
      * intros y (k & Lk & Hy). exists k. split; [lia|exact Hy].
    + intros k Lk. destruct (Nat.eq_dec k k0) as [->|Nk].
      * split; [exact Hp|]. split; [exact Hk|]. exists x. split; [exact E0|]. eapply holds_only; [exact Ho'| |exact Hh].
        intros j (k & Lk' & [(j' & Ej)|(f & q & j' & Ej)]); [injection Ej; lia|discriminate].
      * apply Hs. lia.
Qed.

Definition element_sym (i0 : nat) (y : sym) : Prop := exists i k, i0 <= i /\ stage_sym i k y.
Notation field sm := (fun y => numcall (sm_fx sm) [y]).
Lemma elements_guess sm grid : length grid = o_ns O -> forall n i x s s' u, length x = m_nx m ->
  rk4_elements C sm grid n i x s = (s', Ok u) ->
  only (element_sym i) s s' /\
  (0 < n -> exists tl, last_is (t_times (cn_tab C)) tl /\ (tl == 1)%Q) /\
  forall i', i <= i' < i + n -> In (0, i') (elements O) /\ exists x' X, reached (field sm) x (concat (repeat grid (i' - i))) x' /\ rk4_on_timegrid (field sm) x' grid = Ok X /\
  forall k, k < o_ns O -> k < points1 O (explicit_end C) FX /\ exists y, nth_error X (k + 1) = Some y /\ length y = m_nx m /\ holds s' i' k y.
Proof.
  intros Lg. induction n as [|n IH]; intros i x s s' u L E; cbn [rk4_elements] in E.
  - apply sret_ok in E. destruct E as [-> _]. split; [apply only_refl|]. split; intros; lia.
  - apply sbind_ok in E. destruct E as (s0 & X & E0 & E). apply lift_ok in E0. destruct E0 as [-> EX].
    apply sbind_ok in E. destruct E as (s0 & xl & E0 & E). apply lift_ok in E0. destruct E0 as [-> El]. apply lastE_nth in El.
    apply sbind_ok in E. destruct E as (s1 & u1 & E1 & E).
    apply sbind_ok in E. destruct E as (s0 & tl & E0 & E). apply lift_ok in E0. destruct E0 as [-> Et]. apply lastE_is in Et.
    apply sbind_ok in E. destruct E as (s0 & u2 & E0 & E). apply lift_ok in E0. destruct E0 as [-> Eg].
    apply sbind_ok in E. destruct E as (s0 & l1 & E0 & E). apply lift_ok in E0. destruct E0 as [-> E3]. apply nthE_ok in E3.
    apply sbind_ok in E. destruct E as (s0 & l2 & E0 & E). apply lift_ok in E0. destruct E0 as [-> E4]. apply nthE_ok in E4.
    apply sbind_ok in E. destruct E as (s0 & ix & E0 & E). apply lift_ok in E0. destruct E0 as [-> E5]. apply lastE_nth in E5.
    apply sbind_ok in E. destruct E as (s0 & xe & E0 & E). apply lift_ok in E0. destruct E0 as [-> E6]. apply nthE_ok in E6. change (nth_error X (o_ns O) = Some xe) in E6.
    apply sbind_ok in E. destruct E as (s2 & u3 & E7 & E).
    destruct (grid_classical _ _ _ _ EX) as (LX & FX0 & LnX & _ & RX).
    assert (LnX' : forall y, In y X -> length y = m_nx m) by (intros y Hy; rewrite (LnX y Hy); exact L).
    destruct (stages_guess i sm X (o_ns O) LnX' 0 s s1 u1 E1) as (Ho1 & Hs1).
    destruct (ind1_ok FX i l1 l2 E3 E4) as (Hp & Ll2 & Hl2).
    destruct (Hl2 _ _ E5) as [Lp Sx]. change (dim1 O m FX) with (m_nx m) in Sx. rewrite Ll2 in *.
    set (p1 := points1 O (explicit_end C) FX) in *.
    destruct (states_written i (p1 - 1) ix xe s1 s2 u3 Sx (LnX' xe (nth_error_In _ _ E6)) E7) as [Hh2 Ho2].
    assert (Lxl : length xl = m_nx m) by (apply LnX'; eapply nth_error_In, El).
    destruct (IH (S i) xl s2 s' u Lxl E) as (Ho3 & _ & Hs3).
    split.
    { eapply only_trans; [eapply only_weaken; [|exact Ho1]|eapply only_trans; [eapply only_weaken; [|exact Ho2]|eapply only_weaken; [|exact Ho3]]].
      - intros y (k & _ & Hy). exists i, k. auto.
      - intros y (j & Hy). exists i, (p1 - 1). split; [lia|]. left. exists j. exact Hy.
      - intros y (i' & k & Li & Hy). exists i', k. split; [lia|exact Hy]. }
    split.
    { intros _. exists tl. split; [exact Et|]. destruct (Qeq_bool tl 1) eqn:Q; [|discriminate]. apply Qeq_bool_iff, Q. }
    assert (Rl : reached (field sm) x grid xl).
    { rewrite LX in El. replace (length grid + 1 - 1) with (length grid) in El by lia. pose proof (RX _ _ El) as Q.
      rewrite firstn_all in Q. exact Q. }
    intros i' Li. destruct (Nat.eq_dec i' i) as [->|Ni].
    + split; [exact Hp|]. exists x, X. rewrite Nat.sub_diag. split; [apply reached_start|]. split; [exact EX|].
      intros k Hk. destruct (Hs1 k) as (_ & Lk & y & Hy & Hh); [lia|]. fold p1 in Lk. split; [exact Lk|]. exists y. split; [exact Hy|]. split; [eapply LnX', nth_error_In, Hy|].
      eapply holds_only; [exact Ho3| |].
      { intros j (i2 & k2 & Li2 & [(j' & Ej)|(f & q & j' & Ej)]); [injection Ej; lia|discriminate]. }
      destruct (Nat.eq_dec k (p1 - 1)) as [Ek|Nk].
      * assert (k + 1 = o_ns O). { destruct (Nat.eq_dec (k + 1) (o_ns O)) as [|N]; [assumption|]. destruct (Hs1 (k + 1)) as (_ & Lk1 & _); [lia|]. fold p1 in Lk1. lia. }
        assert (y = xe) by congruence. subst y. rewrite Ek. exact Hh2.
      * eapply holds_only; [exact Ho2| |exact Hh]. intros j (j' & Ej). injection Ej; intros; lia.
    + destruct (Hs3 i') as (Hp' & x' & X' & R' & EX' & Hk'); [lia|]. split; [exact Hp'|]. exists x', X'. split; [|split; [exact EX'|exact Hk']].
      replace (i' - i) with (S (i' - S i)) by lia. change (concat (repeat grid (S (i' - S i)))) with (grid ++ concat (repeat grid (i' - S i))). eapply reached_trans; eassumption.
Qed.

(* the grid of one element *)
Lemma increments_nth h l : forall t k e, nth_error (increments h t l) k = Some e <-> exists u a, nth_error l k = Some u /\ nth_error (t :: l) k = Some a /\ e = (h * (u - a))%R.
Proof.
  induction l as [|u l IH]; intros t [|k] e; cbn [increments nth_error].
  - split; [discriminate|intros (u & a & E & _); discriminate].
  - split; [discriminate|intros (u & a & E & _); discriminate].
  - split; [intros E; injection E as <-; exists u, t; auto|intros (u' & a & E1 & E2 & ->); congruence].
  - rewrite IH. reflexivity.
Qed.
Lemma increments_len h l : forall t, length (increments h t l) = length l.
Proof. induction l as [|u l IH]; intros t; cbn; [reflexivity|]. rewrite IH. reflexivity. Qed.
Lemma time_grid h ns times g : irk_time_grid ns times = Ok g -> 0 < ns -> ns <= length times /\ map (fun q => h * Q2R q)%R g = increments h 0 (map Q2R (firstn ns times)).
Proof.
  unfold irk_time_grid. intros E Hn. apply bind_ok in E. destruct E as (t0 & E0 & E). apply bind_ok in E. destruct E as (ds & Ed & E). injection E as <-.
  apply nthE_ok in E0. apply mapM_Forall2 in Ed. pose proof (Forall2_length _ _ _ Ed) as Ld. rewrite seq_length in Ld.
  assert (Hd : forall k, S k < ns -> exists a b, nth_error times (S k) = Some a /\ nth_error times k = Some b /\ nth_error ds k = Some (a - b)%Q).
  { intros k Hk. destruct (Forall2_nth _ _ _ k (S k) Ed) as (dk & Hdk & Q). { rewrite nth_error_seq by lia. f_equal. }
    apply bind_ok in Q. destruct Q as (a & Ea & Q). apply bind_ok in Q. destruct Q as (b & Eb & Q). injection Q as <-. apply nthE_ok in Ea, Eb.
    replace (S k - 1) with k in Eb by lia. eauto. }
  assert (LT : ns <= length times).
  { destruct ns as [|[|n]]; [lia|destruct times; [discriminate|cbn; lia]|]. destruct (Hd n) as (a & b & Ea & _); [lia|]. apply nth_error_Some_lt in Ea. lia. }
  split; [exact LT|]. apply nth_error_ext. intros k. destruct (lt_dec k ns) as [Lk|Lk].
  - destruct k as [|k].
    + destruct times as [|t times]; [discriminate|]. injection E0 as ->. destruct ns as [|ns]; [lia|]. cbn. f_equal. ring.
    + destruct (Hd k Lk) as (a & b & Ea & Eb & Ek). change (nth_error (map (fun q => (h * Q2R q)%R) (t0 :: ds)) (S k)) with (nth_error (map (fun q => (h * Q2R q)%R) ds) k). rewrite nth_error_map, Ek. cbn [option_map]. symmetry. apply increments_nth.
      exists (Q2R a), (Q2R b). rewrite nth_error_map, nth_error_firstn_lt by exact Lk. rewrite Ea. split; [reflexivity|]. cbn [nth_error]. rewrite nth_error_map, nth_error_firstn_lt by lia. rewrite Eb.
      split; [reflexivity|]. rewrite Q2R_minus. reflexivity.
  - rewrite !(proj2 (nth_error_None _ _)); [reflexivity|rewrite increments_len, map_length, firstn_length; lia|rewrite map_length; cbn [length]; lia].
Qed.
Lemma increments_sum h l : forall t k u, nth_error l k = Some u -> rsum (firstn (k + 1) (increments h t l)) = (h * (u - t))%R.
Proof.
  induction l as [|a l IH]; intros t [|k] u E; try discriminate; cbn [nth_error] in E.
  - injection E as ->. cbn. ring.
  - cbn [increments plus firstn]. unfold rsum in *. cbn [fold_right]. rewrite (IH a k u E). ring.
Qed.
Lemma concat_sum g i : rsum (concat (repeat g i)) = (INR i * rsum g)%R.
Proof. induction i as [|i IH]; [cbn; ring|]. change (concat (repeat g (S i))) with (g ++ concat (repeat g i)). rewrite rsum_app, IH, S_INR. ring. Qed.

Definition rk4_dt : R := (Q2R (o_terminal_time O) / INR (o_N_stages O * o_N_finite_elements O))%R.
Definition rk4_incs : list R := increments rk4_dt 0 (map Q2R (firstn (o_ns O) (t_times (cn_tab C)))).
Lemma init_guess s s1 lam : o_init O = Rk4Smoothened -> length (ss_x0 s) = m_nx m -> 0 < o_ns O -> initialize C s = (s1, Ok lam) ->
  exists sm, cn_smooth C = Some sm /\ o_N_stages O * o_N_finite_elements O <> 0 /\ o_ns O <= length (t_times (cn_tab C)) /\
  (exists te, last_is (t_times (cn_tab C)) te /\ (te == 1)%Q) /\
  only (element_sym 0) s s1 /\
  forall i, i < o_N_finite_elements O -> In (0, i) (elements O) /\
  forall k, k < o_ns O -> k < points1 O (explicit_end C) FX /\ exists y, length y = m_nx m /\
  reached (field sm) (ss_x0 s) (concat (repeat rk4_incs i) ++ firstn (k + 1) rk4_incs) y /\ holds s1 i k y.
Proof.
  intros Hi L Hns E. unfold initialize in E. cbv zeta in E. apply sbind_ok in E. destruct E as (s0 & sg & E0 & E). apply sget_ok in E0. destruct E0 as [-> ->].
  apply sbind_ok in E. destruct E as (s0 & l0 & E0 & E). apply lift_ok in E0. destruct E0 as [-> _].
  apply sbind_ok in E. destruct E as (s2 & u & E & Er). apply sret_ok in Er. destruct Er as [<- _].
  change (pr_o (cn_prob C)) with O in E. rewrite Hi in E.
  apply sbind_ok in E. destruct E as (s0 & sm & E0 & E). apply lift_ok in E0. destruct E0 as [-> Es]. destruct (cn_smooth C) as [sm'|] eqn:Ec; [|discriminate]. injection Es as ->.
  apply sbind_ok in E. destruct E as (s0 & u2 & E0 & E). apply lift_ok in E0. destruct E0 as [-> Eg].
  apply sbind_ok in E. destruct E as (s0 & g & E0 & E). apply lift_ok in E0. destruct E0 as [-> Et].
  fold rk4_dt in E. destruct (time_grid rk4_dt _ _ _ Et Hns) as [Ln Hg]. rewrite Hg in E. fold rk4_incs in E.
  assert (Lm : length rk4_incs = o_ns O) by (unfold rk4_incs; rewrite increments_len, map_length, firstn_length; lia).
  destruct (elements_guess sm _ Lm _ 0 (ss_x0 s) s s1 u L E) as (Ho & Ht & Hs).
  destruct (o_N_stages O * o_N_finite_elements O =? 0) eqn:EN; [discriminate Eg|]. apply Nat.eqb_neq in EN.
  exists sm. split; [reflexivity|]. split; [exact EN|]. split; [exact Ln|]. split; [apply Ht; lia|]. split; [exact Ho|].
  intros i Li. destruct (Hs i) as (Hp & x' & X & R' & EX & Hk); [lia|]. split; [exact Hp|]. intros k Lk. destruct (Hk k Lk) as (Lk' & y & Hy & Ly & Hh). split; [exact Lk'|].
  exists y. split; [exact Ly|]. split; [|exact Hh]. rewrite Nat.sub_0_r in R'. eapply reached_trans; [exact R'|]. exact (grid_reached _ _ _ _ EX _ _ Hy).
Qed.

(* ---- the initialization does not raise ---- *)
Lemma only_sized A s s' : only A s s' -> sized C m s -> sized C m s'.
Proof. intros (A1 & A2 & A3 & _) [Z1 Z2 Z3 Z4]. split; [congruence|congruence|congruence|rewrite A2; exact Z4]. Qed.
Lemma guess_total (A : sym -> Prop) ix ys v s : sel W ix = Ok ys -> length v = length ys -> (forall y, In y ys -> A y) -> sized C m s ->
  exists s', update_w0 (fun w => assign w ix v) s = (s', Ok tt) /\ only A s s'.
Proof.
  intros S L I Z. pose proof (proj1 (sel_ok _ _ _) S) as F. pose proof (Forall2_length _ _ _ F) as L2.
  assert (EX : exists w', assign (ss_w0 s) ix v = Ok w').
  { rewrite assign_same by congruence. destruct (write_total (combine ix v) (ss_w0 s)) as [w' E]; [|eauto].
    intros [p x] Hp. cbn [fst]. apply combine_in_nth in Hp. destruct Hp as (k & Hk & _). destruct (Forall2_nth _ _ _ _ _ F Hk) as (y & _ & Hy).
    rewrite (sz_w0 _ _ _ Z). eapply nth_error_Some_lt, Hy. }
  destruct EX as [w' E]. assert (EU : update_w0 (fun w => assign w ix v) s = (mkState (ss_x0 s) (ss_pval s) w' (ss_calls s), Ok tt)) by (rewrite update_w0_run, E; reflexivity).
  eexists. split; [exact EU|]. eapply assign_only; eassumption.
Qed.
Lemma sfor_total {A} (f : A -> se sstate unit) l : (forall a s, In a l -> sized C m s -> exists s', f a s = (s', Ok tt) /\ sized C m s') ->
  forall s, sized C m s -> exists s', sfor f l s = (s', Ok tt) /\ sized C m s'.
Proof.
  induction l as [|a l IH]; intros F s Z; cbn [sfor]; [exists s; split; [reflexivity|exact Z]|].
  destruct (F a s (or_introl eq_refl) Z) as (s1 & E1 & Z1). unfold sbind. rewrite E1. apply IH; [intros; apply F; [right|]; assumption|exact Z1].
Qed.
Lemma bind_lift {A B} (r : res A) (a : A) (k : A -> se sstate B) s : r = Ok a -> sbind (lift r) k s = k a s.
Proof. intros ->. reflexivity. Qed.
Lemma bind_step {A B} (f : se sstate A) a (k : A -> se sstate B) s s' : f s = (s', Ok a) -> sbind f k s = k a s'.
Proof. intros E. unfold sbind. rewrite E. reflexivity. Qed.
Lemma range_total v lo n : lo + n <= length v -> exists r, dm_range v lo (lo + n) = Ok r /\ length r = n.
Proof.
  intros L. unfold dm_range. replace (lo + n - lo) with n by lia. revert lo L. induction n as [|n IH]; intros lo L; [exists []; auto|].
  cbn [seq mapM]. destruct (nth_error_lt v lo) as [x Hx]; [lia|]. unfold nthE at 1. rewrite Hx. cbn [bind]. destruct (IH (S lo)) as (r & -> & Lr); [lia|].
  cbn [bind]. exists (x :: r). split; [reflexivity|]. cbn [length]. lia.
Qed.
Lemma fit_same n (a : list R) : length a = n -> fit n a = Ok a.
Proof. intros <-. unfold fit. rewrite Nat.eqb_refl. reflexivity. Qed.
Lemma fit_empty n : fit n [] = Ok (repeat 0%R n).
Proof. unfold fit. destruct n; reflexivity. Qed.
Lemma firstn_nf s : s <= n_subsystems m -> sumn (firstn s (pm_nf PM)) = upto s (n_modes m).
Proof.
  intros Hs. destruct (pm_facts _ _ _ _ _ _ _ H) as [_ MO]. rewrite <- sumn_upto. f_equal. apply nth_error_ext. intros k. rewrite nth_error_map.
  destruct (lt_dec k s) as [Lk|Lk].
  - rewrite nth_error_firstn_lt by exact Lk. rewrite (pm_nf_nth _ _ _ _ MO) by (rewrite (mo_nsys _ _ _ MO); lia). rewrite nth_error_seq by exact Lk. reflexivity.
  - rewrite !(proj2 (nth_error_None _ _)); [reflexivity|rewrite seq_length; lia|rewrite firstn_length; lia].
Qed.
Lemma smooth_of_con : o_init O = Rk4Smoothened -> exists sm, cn_smooth C = Some sm /\ add_smooth_step_representation PM (o_smoothing O) = Ok sm.
Proof.
  intros Hi. destruct (construct_ok _ _ _ _ _ _ _ H) as (o1 & t1 & pm1 & po & P' & K). pose proof (co_o _ _ _ _ _ _ _ _ _ _ _ _ K) as Eo. rewrite Eo in *.
  rewrite (co_pm' _ _ _ _ _ _ _ _ _ _ _ _ K). pose proof (co_pm _ _ _ _ _ _ _ _ _ _ _ _ K) as Epm.
  pose proof H as HC. unfold construct_problem in HC. apply bind_ok in HC. destruct HC as ([[d' o'] t] & Epp & HC).
  apply bind_ok in HC. destruct HC as (pm & Em & HC). apply bind_ok in HC. destruct HC as (sm & Es & HC). apply bind_ok in HC. destruct HC as (pr & Ep & HC).
  injection HC as <-. cbn [cn_smooth cn_prob] in *.
  assert (o' = o1). { rewrite (co_o' _ _ _ _ _ _ _ _ _ _ _ _ K). unfold preprocess in Epp. apply bind_ok in Epp. destruct Epp as (t2 & _ & Epp). injection Epp as _ <- _. reflexivity. }
  subst o'. assert (pm = pm1) by congruence. subst pm. rewrite Hi in Es. apply bind_ok in Es. destruct Es as (s' & Es & Es'). injection Es' as <-. exists s'. auto.
Qed.
Lemma smooth_shapes sp sm : add_smooth_step_representation PM sp = Ok sm -> cf_in (sm_fx sm) = [mx m] /\ cf_in (Model.sm_theta sm) = [mx m; mp m] /\
  cf_in (sm_mu sm) = [mx m; mp m] /\ length (cf_out (sm_mu sm)) = n_subsystems m.
Proof.
  intros E. destruct (pm_facts _ _ _ _ _ _ _ H) as [_ MO]. unfold add_smooth_step_representation in E. gsg. cbv zeta in E.
  assert (E1 : mx (pm_m PM) = mx m /\ mp (pm_m PM) = mp m). { destruct (mo_m _ _ _ MO) as (ptv & -> & _). split; reflexivity. }
  destruct E1 as [E1 E2]. rewrite E1, E2 in E.
  apply bind_ok in E. destruct E as (u1 & G & E). apply bind_ok in E. destruct E as (u2 & _ & E). apply bind_ok in E. destruct E as (gSl & Eg & E).
  do 5 (apply bind_ok in E; destruct E as (? & _ & E)). apply bind_ok in E. destruct E as (lam & _ & E).
  apply bind_ok in E. destruct E as (f1 & F1 & E). apply bind_ok in E. destruct E as (f2 & F2 & E). apply bind_ok in E. destruct E as (f3 & F3 & E).
  apply bind_ok in E. destruct E as (f4 & _ & E). injection E as <-. cbn [sm_fx Model.sm_theta sm_mu].
  apply mkfun_ok in F1, F2, F3. destruct F1 as [-> _]. destruct F2 as [-> _]. destruct F3 as [-> _]. cbn [cf_in cf_out]. repeat (split; [reflexivity|]).
  rewrite map_length. unfold gS_list in Eg. gsg. destruct (gS_given (pm_m PM)); [discriminate G|].
  apply bind_ok in Eg. destruct Eg as (Sm & _ & Eg). apply bind_ok in Eg. destruct Eg as (c & _ & Eg). apply mapM_Forall2 in Eg.
  rewrite <- (Forall2_length _ _ _ Eg), seq_length. exact (mo_nsys _ _ _ MO).
Qed.

Section Total.
Hypothesis WS : well_sized m.
Hypothesis SG : sign_matrix m.
Hypothesis ST : o_pss O = Stewart.
Variable sm : smooth_funs.
Hypothesis HS : add_smooth_step_representation PM (o_smoothing O) = Ok sm.

Lemma mx_len : length (mx m) = m_nx m. Proof. unfold mx. rewrite map_length, seq_length. reflexivity. Qed.
Lemma mp_len : length (mp m) = m_npt m + m_npg m. Proof. unfold mp, mpt, mpg. rewrite app_length, !map_length, !seq_length. reflexivity. Qed.
Lemma field_total x : length x = m_nx m -> exists k, field sm x = Ok k /\ length k = m_nx m.
Proof.
  intros L. destruct (smooth_shapes _ _ HS) as (E & _). destruct (pm_facts _ _ _ _ _ _ _ H) as [HP _].
  destruct (smooth_entries _ _ _ _ _ (fun _ => 0%R) HP WS HS SG) as (_ & _ & Lf & _).
  unfold numcall. rewrite E. cbn [length Nat.eqb guard bind combine mapM fst snd]. rewrite fit_same by (rewrite mx_len; exact L). cbn [bind].
  eexists. split; [reflexivity|]. rewrite map_length. exact Lf.
Qed.
Lemma xp_total f x p0 : cf_in f = [mx m; mp m] -> length x = m_nx m -> length p0 = m_npt m + m_npg m -> exists r, numcall f [x; p0] = Ok r /\ length r = length (cf_out f).
Proof.
  intros E L Lp. unfold numcall. rewrite E. cbn [length Nat.eqb guard bind combine mapM fst snd]. rewrite fit_same by (rewrite mx_len; exact L). cbn [bind].
  rewrite fit_same by (rewrite mp_len; exact Lp). cbn [bind]. eexists. split; [reflexivity|]. rewrite map_length. reflexivity.
Qed.
Lemma lam_total x p0 : length x = m_nx m -> length p0 = m_npt m + m_npg m -> exists r, numcall (pm_lam00_fun PM) [x; []; p0] = Ok r /\ length r = upto (n_subsystems m) (n_modes m).
Proof.
  intros L Lp. destruct (pm_facts _ _ _ _ _ _ _ H) as [HP _]. destruct (stewart_l00 _ _ _ HP WS (fun _ => 0%R) ST) as (d0 & M & Ld & _). apply mkfun_ok in M. destruct M as [-> _].
  unfold numcall. cbn [cf_in cf_out length Nat.eqb guard bind combine mapM fst snd]. rewrite fit_same by (rewrite mx_len; exact L). cbn [bind].
  rewrite fit_empty. cbn [bind]. rewrite fit_same by (rewrite mp_len; exact Lp). cbn [bind]. eexists. split; [reflexivity|]. rewrite map_length. exact Ld.
Qed.
Lemma nest4_total f i k s : In (0, i) (elements O) -> k < o_ns O -> s < n_subsystems m -> exists ix, nest4 (p_ind2 P f) 0 i k s = Ok ix.
Proof.
  intros Hp Hk Hs. pose proof Hp as Hp'. apply elements_in in Hp'. cbn [fst snd] in Hp'. destruct Hp' as [Hc He].
  destruct (proj2 (proj2 (shapes_con _ _ _ _ _ _ _ H)) f) as [L S]. destruct (S 0 Hc) as (r & Hr & En & Hrr).
  unfold nfe_of in He. rewrite (nth_error_nth _ _ 0 En) in He. destruct (nth_error_lt r i He) as [l2 Hl2].
  assert (Ha : at2 (p_ind2 P f) (fst (0, i)) (snd (0, i)) = Some l2). { unfold at2. cbn [fst snd]. rewrite Hr. exact Hl2. }
  destruct (row2 _ _ _ _ _ _ _ H f _ _ Hp Ha) as [La Hj]. destruct (Hj k) as (r3 & Hr3 & L3 & Hss).
  { unfold points2. destruct f; lia. }
  destruct (Hss s Hs) as (ix & Hix & _). exists ix. unfold nest4, nthE. rewrite Hr. cbn [bind]. rewrite Hl2. cbn [bind]. rewrite Hr3. cbn [bind]. rewrite Hix. reflexivity.
Qed.
Lemma nest3_total i k : In (0, i) (elements O) -> k < points1 O (explicit_end C) FX -> exists l1 l2 ix, nth_error (p_ind1 P FX) 0 = Some l1 /\ nth_error l1 i = Some l2 /\ nth_error l2 k = Some ix.
Proof.
  intros Hp Hk. pose proof Hp as Hp'. apply elements_in in Hp'. cbn [fst snd] in Hp'. destruct Hp' as [Hc He].
  destruct (proj1 (proj2 (shapes_con _ _ _ _ _ _ _ H)) FX) as [L S]. destruct (S 0 Hc) as (r & Hr & En & Hrr).
  unfold nfe_of in He. rewrite (nth_error_nth _ _ 0 En) in He. destruct (Hrr i He) as (l2 & Hl2 & Ll2).
  destruct (nth_error_lt l2 k) as [ix Hix]; [lia|]. exists r, l2, ix. auto.
Qed.
Lemma S2_len f i k q n : length (map (S2 f 0 i k q) (seq 0 n)) = n.
Proof. rewrite map_length, seq_length. reflexivity. Qed.
Lemma stage_total i k x s : In (0, i) (elements O) -> k < o_ns O -> k < points1 O (explicit_end C) FX -> length x = m_nx m -> sized C m s ->
  exists s', rk4_stage_guess C sm i k x s = (s', Ok tt) /\ sized C m s'.
Proof.
  intros Hp Hk Hk1 Lx Z. destruct (smooth_shapes _ _ HS) as (Ef & Et & Em & Lm). destruct (pm_facts _ _ _ _ _ _ _ H) as [HP MO].
  destruct (smooth_entries _ _ _ _ _ (fun _ => 0%R) HP WS HS SG) as (Lt & _ & _ & _).
  destruct (nest3_total i k Hp Hk1) as (l1 & l2 & ix & H1 & H2 & H3).
  assert (N3 : nest3 (p_ind1 P FX) 0 i k = Ok ix). { unfold nest3, nthE. rewrite H1. cbn [bind]. rewrite H2. cbn [bind]. rewrite H3. reflexivity. }
  destruct (nest3_ok _ _ _ _ N3) as (_ & _ & Sx).
  destruct (guess_total (fun _ => True) ix _ x s Sx) as (s1 & E1 & O1); [rewrite map_length, seq_length; exact Lx|auto|exact Z|]. pose proof (only_sized _ _ _ O1 Z) as Z1.
  destruct (nth_error_lt (ss_pval s1) 0) as [p0 Hp0]. { rewrite (sz_pval _ _ _ Z1). apply (stages_pos' _ _ _ _ _ _ _ H). }
  pose proof (sz_rows _ _ _ Z1 p0 (nth_error_In _ _ Hp0)) as Lp.
  destruct (lam_total x p0 Lx Lp) as (lam & El & Ll). destruct (xp_total _ x p0 Em Lx Lp) as (mu & Emu & Lmu). destruct (xp_total _ x p0 Et Lx Lp) as (th & Eth & Lth).
  unfold rk4_stage_guess. cbv zeta. rewrite (bind_lift _ ix) by exact N3. rewrite (bind_step _ tt _ _ s1) by exact E1. rewrite (bind_step _ s1 _ _ s1) by reflexivity.
  rewrite (bind_lift _ p0) by (unfold nthE; rewrite Hp0; reflexivity). rewrite (bind_lift _ lam) by exact El. rewrite (bind_lift _ mu) by exact Emu. rewrite (bind_lift _ th) by exact Eth.
  apply sfor_total; [|exact Z1]. intros q s2 Hq Z2. apply in_seq in Hq. rewrite (mo_nsys _ _ _ MO) in Hq.
  rewrite !firstn_nf by lia. rewrite upto_S.
  assert (B : upto q (n_modes m) + n_modes m q <= upto (n_subsystems m) (n_modes m)). { rewrite <- upto_S. apply upto_mono. lia. }
  destruct (range_total th (upto q (n_modes m)) (n_modes m q)) as (ths & Eths & Lths); [lia|].
  destruct (range_total lam (upto q (n_modes m)) (n_modes m q)) as (lams & Elams & Llams); [lia|].
  destruct (range_total mu q 1) as (mus & Emus & Lmus); [lia|].
  destruct (nest4_total FTheta i k q Hp Hk) as [it Nt]; [lia|]. destruct (nest4_total FLam i k q Hp Hk) as [il Nl]; [lia|]. destruct (nest4_total FMu i k q Hp Hk) as [im Nm]; [lia|].
  pose proof (nest4_ok _ _ _ _ _ Hp Nt) as St. pose proof (nest4_ok _ _ _ _ _ Hp Nl) as Sl. pose proof (nest4_ok _ _ _ _ _ Hp Nm) as Smu.
  destruct (guess_total (fun _ => True) it _ ths s2 St) as (s3 & E3 & O3); [rewrite S2_len; unfold dim2; rewrite ST; exact Lths|auto|exact Z2|]. pose proof (only_sized _ _ _ O3 Z2) as Z3.
  destruct (guess_total (fun _ => True) il _ lams s3 Sl) as (s4 & E4 & O4); [rewrite S2_len; unfold dim2; rewrite ST; exact Llams|auto|exact Z3|]. pose proof (only_sized _ _ _ O4 Z3) as Z4.
  destruct (guess_total (fun _ => True) im _ mus s4 Smu) as (s5 & E5 & O5); [rewrite S2_len; unfold dim2; rewrite ST; exact Lmus|auto|exact Z4|]. pose proof (only_sized _ _ _ O5 Z4) as Z5.
  exists s5. split; [|exact Z5].
  rewrite (bind_lift _ it) by exact Nt. rewrite (bind_lift _ ths) by exact Eths. rewrite (bind_step _ tt _ _ s3) by exact E3.
  rewrite (bind_lift _ il) by exact Nl. rewrite (bind_lift _ lams) by exact Elams. rewrite (bind_step _ tt _ _ s4) by exact E4.
  rewrite (bind_lift _ im) by exact Nm. rewrite (bind_lift _ mus) by exact Emus. exact E5.
Qed.

Hypothesis NS : o_ns O <= points1 O (explicit_end C) FX.
Hypothesis NP : 0 < points1 O (explicit_end C) FX.
Variable te : Q.
Hypothesis TE : lastE EIndexError (t_times (cn_tab C)) = Ok te.
Hypothesis T1 : (te == 1)%Q.
Lemma elements_total grid : length grid = o_ns O -> forall n i x s, length x = m_nx m -> sized C m s -> (forall i', i' < i + n -> In (0, i') (elements O)) ->
  exists s', rk4_elements C sm grid n i x s = (s', Ok tt).
Proof.
  intros Lg. induction n as [|n IH]; intros i x s Lx Z Hel; cbn [rk4_elements]; [eexists; reflexivity|].
  destruct (grid_total (field sm) (m_nx m) field_total grid x Lx) as [X EX]. destruct (grid_classical _ _ _ _ EX) as (LX & _ & LnX & _).
  assert (LnX' : forall y, In y X -> length y = m_nx m) by (intros y Hy; rewrite (LnX y Hy); exact Lx).
  destruct (nth_error_lt X (length grid)) as [xl Hxl]; [lia|].
  rewrite (bind_lift _ X) by exact EX. rewrite (bind_lift _ xl) by (apply lastE_nth; rewrite LX; replace (length grid + 1 - 1) with (length grid) by lia; exact Hxl).
  assert (Hp : In (0, i) (elements O)) by (apply Hel; lia).
  match goal with |- context [sfor ?f ?l] => destruct (sfor_total f l) with (s := s) as (s1 & E1 & Z1) end; [|exact Z|].
  { intros k s2 Hk Z2. apply in_seq in Hk. destruct Hk as [_ Hk]. change (k < o_ns O) in Hk. destruct (nth_error_lt X (k + 1)) as [xk Hxk]; [lia|].
    rewrite (bind_lift _ xk) by (unfold nthE; rewrite Hxk; reflexivity). apply stage_total; try assumption; [lia|]. eapply LnX', nth_error_In, Hxk. }
  rewrite (bind_step _ tt _ _ s1) by exact E1. rewrite (bind_lift _ te) by exact TE. rewrite (bind_lift _ tt) by (rewrite (proj2 (Qeq_bool_iff te 1) T1); reflexivity).
  destruct (nest3_total i (points1 O (explicit_end C) FX - 1) Hp) as (l1 & l2 & ix & H1 & H2 & H3); [lia|]. destruct (ind1_ok FX i l1 l2 H1 H2) as (_ & Ll2 & Hl2).
  rewrite (bind_lift _ l1) by (apply nthE_ok; exact H1). rewrite (bind_lift _ l2) by (unfold nthE; rewrite H2; reflexivity).
  rewrite (bind_lift _ ix) by (apply lastE_nth; rewrite Ll2; exact H3). rewrite (bind_lift _ xl) by (unfold nthE; change (o_ns (pr_o (cn_prob C))) with (o_ns O); rewrite <- Lg, Hxl; reflexivity).
  assert (Lxl : length xl = m_nx m) by (eapply LnX', nth_error_In, Hxl).
  destruct (Hl2 _ _ H3) as [_ Sx]. destruct (guess_total (fun _ => True) ix _ xl s1 Sx) as (s3 & E3 & O3); [rewrite map_length, seq_length; exact Lxl|auto|exact Z1|].
  rewrite (bind_step _ tt _ _ s3) by exact E3. apply IH; [exact Lxl|exact (only_sized _ _ _ O3 Z1)|]. intros i' Hi'. apply Hel. lia.
Qed.
Lemma init_total s : o_init O = Rk4Smoothened -> cn_smooth C = Some sm -> sized C m s -> 0 < o_N_finite_elements O <= nfe_of O 0 -> 0 < o_ns O <= length (t_times (cn_tab C)) ->
  exists s' lam, initialize C s = (s', Ok lam).
Proof.
  intros Hi Hsm Z Hn Hns. unfold initialize. cbv zeta. rewrite (bind_step _ s _ _ s) by reflexivity.
  destruct (lam_ok _ _ _ _ _ _ _ H s WS ltac:(congruence) Z) as (lam & El & _). rewrite (bind_lift _ lam) by exact El.
  change (pr_o (cn_prob C)) with O. rewrite Hi. pose proof (stages_pos' _ _ _ _ _ _ _ H) as HN.
  assert (EG : exists g, irk_time_grid (o_ns O) (t_times (cn_tab C)) = Ok g).
  { unfold irk_time_grid. destruct (nth_error_lt (t_times (cn_tab C)) 0) as [t0 Ht0]; [lia|]. unfold nthE at 1. rewrite Ht0. cbn [bind].
    destruct (mapM_ex (fun k => do* a <- nthE EIndexError (t_times (cn_tab C)) k; do* b <- nthE EIndexError (t_times (cn_tab C)) (k - 1); Ok (a - b)%Q) (seq 1 (o_ns O - 1))) as [ds ->]; [|eexists; reflexivity].
    intros k Hk. apply in_seq in Hk. destruct (nth_error_lt (t_times (cn_tab C)) k) as [a Ha]; [lia|]. destruct (nth_error_lt (t_times (cn_tab C)) (k - 1)) as [b Hb]; [lia|].
    unfold nthE. rewrite Ha. cbn [bind]. rewrite Hb. eexists. reflexivity. }
  destruct EG as [g EG]. set (h := (Q2R (o_terminal_time O) / INR (o_N_stages O * o_N_finite_elements O))%R). destruct (time_grid h _ _ _ EG (proj1 Hns)) as [_ Eg].
  assert (Lg : length (map (fun q => (h * Q2R q)%R) g) = o_ns O) by (rewrite Eg, increments_len, map_length, firstn_length; lia).
  destruct (elements_total (map (fun q => (h * Q2R q)%R) g) Lg (o_N_finite_elements O) 0 (ss_x0 s) s (sz_x0 _ _ _ Z) Z) as [s' E'].
  { intros i Hi'. apply elements_in. cbn [fst snd]. split; [exact HN|lia]. }
  exists s', lam. erewrite bind_step; [reflexivity|]. rewrite (bind_lift _ sm) by (rewrite Hsm; reflexivity).
  rewrite (bind_lift _ tt). 2: { destruct (o_N_stages O * o_N_finite_elements O =? 0) eqn:Q; [apply Nat.eqb_eq in Q; nia|reflexivity]. }
  rewrite (bind_lift _ g) by exact EG. exact E'.
Qed.
End Total.

(* ---- statements ---- *)
Lemma holds_guess s i k y : sized C m s -> In (0, i) (elements O) -> k < points1 O (explicit_end C) FX -> length y = m_nx m -> holds s i k y -> state_guess C m s i k y.
Proof.
  intros Z Hp Hk L Hh. split; [exact L|]. intros j v Hj. assert (Lj : j < m_nx m) by (rewrite <- L; eapply nth_error_Some_lt, Hj).
  destruct (nest3_total i k Hp Hk) as (l1 & l2 & ix & H1 & H2 & H3). destruct (ind1_ok FX i l1 l2 H1 H2) as (_ & _ & Hix). destruct (Hix k ix H3) as [_ S].
  apply sel_ok in S. destruct (Forall2_nth_r _ _ _ j (S1 FX 0 i k j) S) as (p & _ & Hpos).
  { rewrite nth_error_map, nth_error_seq by exact Lj. reflexivity. }
  exists p. split; [exact Hpos|]. rewrite (Hh j p Lj Hpos). exact Hj.
Qed.
Lemma times_differential : o_repr O <> Integral -> exists bt, generate_butcher_tableu (o_ns O) (o_scheme O) = Ok bt /\ t_times (cn_tab C) = bt_c bt.
Proof.
  intros E. destruct (construct_ok _ _ _ _ _ _ _ H) as (o' & t & pm & po & P' & K). rewrite (co_o _ _ _ _ _ _ _ _ _ _ _ _ K) in *. rewrite (co_t _ _ _ _ _ _ _ _ _ _ _ _ K).
  pose proof (co_mt _ _ _ _ _ _ _ _ _ _ _ _ K) as MT. unfold make_tab in MT. destruct (o_repr o'); [congruence| |]; (apply bind_ok in MT; destruct MT as (t1 & M1 & MT);
    apply bind_ok in M1; destruct M1 as (bt & M1 & M2); injection M2 as <-; apply bind_ok in MT; destruct MT as (tl & _ & MT); injection MT as <-; exists bt; split; [exact M1|reflexivity]).
Qed.
Lemma times_integral : o_repr O = Integral -> t_times (cn_tab C) = 0%Q :: cp (o_ns O) (o_scheme O).
Proof.
  intros E. destruct (construct_ok _ _ _ _ _ _ _ H) as (o' & t & pm & po & P' & K). rewrite (co_o _ _ _ _ _ _ _ _ _ _ _ _ K) in *. rewrite (co_t _ _ _ _ _ _ _ _ _ _ _ _ K).
  pose proof (co_mt _ _ _ _ _ _ _ _ _ _ _ _ K) as MT. unfold make_tab in MT. rewrite E in MT. apply bind_ok in MT; destruct MT as (t1 & M1 & MT).
  apply bind_ok in M1; destruct M1 as (it & M1 & M2). injection M2 as <-. apply bind_ok in MT; destruct MT as (tl & _ & MT). injection MT as <-. cbn [t_times].
  unfold generate_butcher_tableu_integral in M1. cbv zeta in M1. apply bind_ok in M1. destruct M1 as (cs & _ & M1). injection M1 as <-. reflexivity.
Qed.
Lemma rk_sized s s1 : sized C m s -> only (element_sym 0) s s1 -> sized C m s1.
Proof. intros Z Ho. exact (only_sized _ _ _ Ho Z). Qed.

Lemma rk_differential s s1 lam : o_init O = Rk4Smoothened -> o_repr O <> Integral -> sized C m s -> initialize C s = (s1, Ok lam) ->
  exists sm bt, cn_smooth C = Some sm /\ generate_butcher_tableu (o_ns O) (o_scheme O) = Ok bt /\
  let h := (Q2R (o_terminal_time O) / INR (o_N_stages O * o_N_finite_elements O))%R in
  let steps := increments h 0 (map Q2R (bt_c bt)) in
  forall i k, i < o_N_finite_elements O -> k < o_ns O -> exists c y, nth_error (bt_c bt) k = Some c /\
  reached (field sm) (ss_x0 s) (concat (repeat steps i) ++ firstn (k + 1) steps) y /\
  rsum (concat (repeat steps i) ++ firstn (k + 1) steps) = ((INR i + Q2R c) * h)%R /\ state_guess C m s1 i k y.
Proof.
  intros Hi Hr Z E. destruct (times_differential Hr) as (bt & Hb & Et). destruct (Tableau_proofs.tables_ok _ _ _ Hb) as (Hns' & _ & _ & _ & Lc & _).
  assert (Hns : 0 < o_ns O) by lia.
  destruct (init_guess s s1 lam Hi (sz_x0 _ _ _ Z) Hns E) as (sm & Hsm & HN & Hle & (te & Hte & Hte1) & Ho & Hs). exists sm, bt. split; [exact Hsm|]. split; [exact Hb|].
  intros h steps i k Li Lk. destruct (Hs i Li) as (Hp & Hk). destruct (Hk k Lk) as (Lk1 & y & Ly & Hr' & Hh).
  assert (Es : rk4_incs = steps). { unfold rk4_incs, steps. rewrite Et, firstn_all2 by lia. reflexivity. } rewrite Es in Hr'.
  destruct (nth_error_lt (bt_c bt) k) as [c Hc]; [lia|]. exists c, y. split; [exact Hc|]. split; [exact Hr'|]. split.
  - rewrite rsum_app, concat_sum. unfold steps at 2. rewrite (increments_sum h _ 0 k (Q2R c)) by (rewrite nth_error_map, Hc; reflexivity).
    assert (Q : rsum steps = h).
    { destruct Hte as [_ Hte]. rewrite Et, Lc in Hte. rewrite <- (firstn_all steps). unfold steps at 1. rewrite increments_len, map_length, Lc.
      replace (o_ns O) with (o_ns O - 1 + 1) by lia. unfold steps. rewrite (increments_sum h _ 0 (o_ns O - 1) (Q2R te)) by (rewrite nth_error_map, Hte; reflexivity).
      rewrite (Qeq_eqR _ _ Hte1), RMicromega.Q2R_1. ring. }
    rewrite Q. ring.
  - apply (holds_guess s1 i k y (rk_sized _ _ Z Ho) Hp Lk1 Ly Hh).
Qed.
(* INTEGRAL: the points are shifted by one *)
Lemma rk_integral s s1 lam : o_init O = Rk4Smoothened -> o_repr O = Integral -> 0 < o_ns O -> sized C m s -> initialize C s = (s1, Ok lam) ->
  exists sm, cn_smooth C = Some sm /\
  let h := (Q2R (o_terminal_time O) / INR (o_N_stages O * o_N_finite_elements O))%R in
  let steps := increments h 0 (map Q2R (firstn (o_ns O) (0%Q :: cp (o_ns O) (o_scheme O)))) in
  forall i k, i < o_N_finite_elements O -> k < o_ns O -> exists y,
  reached (field sm) (ss_x0 s) (concat (repeat steps i) ++ firstn (k + 1) steps) y /\ state_guess C m s1 i k y.
Proof.
  intros Hi Hr Hns Z E. pose proof (times_integral Hr) as Et.
  destruct (init_guess s s1 lam Hi (sz_x0 _ _ _ Z) Hns E) as (sm & Hsm & HN & Hle & (te & Hte & Hte1) & Ho & Hs). exists sm. split; [exact Hsm|].
  intros h steps i k Li Lk. destruct (Hs i Li) as (Hp & Hk). destruct (Hk k Lk) as (Lk1 & y & Ly & Hr' & Hh).
  assert (Es : rk4_incs = steps). { unfold rk4_incs, steps. rewrite Et. reflexivity. } rewrite Es in Hr'.
  exists y. split; [exact Hr'|]. apply (holds_guess s1 i k y (rk_sized _ _ Z Ho) Hp Lk1 Ly Hh).
Qed.
Lemma zero_step f x y : classical f 0 x y -> y = x.
Proof.
  intros (k1 & k2 & k3 & k4 & _ & _ & _ & _ & _ & _ & _ & _ & L & N). apply vec_eq; [exact L|]. intros i Hi. rewrite N by lia. ring.
Qed.
Lemma reached_one f x h y : reached f x [h] y -> classical f h x y.
Proof.
  intros R. inversion R as [|hs z h' y' R' Cl E]. apply (app_inj_tail hs [] h' h) in E as [-> ->]. subst. inversion R' as [E1 E2|hs z' h2 z2 _ _ E]; [subst; exact Cl|destruct hs; discriminate].
Qed.
(* so the guess of the first point of the first element is x0 *)
Lemma rk_integral_first s s1 lam : o_init O = Rk4Smoothened -> o_repr O = Integral -> 0 < o_ns O -> 0 < o_N_finite_elements O -> sized C m s -> initialize C s = (s1, Ok lam) ->
  state_guess C m s1 0 0 (ss_x0 s).
Proof.
  intros Hi Hr Hns Hn Z E. destruct (rk_integral s s1 lam Hi Hr Hns Z E) as (sm & _ & Hs). destruct (Hs 0 0 Hn Hns) as (y & R & G).
  cbn [repeat concat app plus] in R. destruct (o_ns O) as [|n] eqn:En; [lia|]. cbn [firstn map increments] in R.
  apply reached_one in R. rewrite RMicromega.Q2R_0, Rminus_0_r, Rmult_0_r in R. apply zero_step in R. subst y. exact G.
Qed.
(* with one state slot per element (DIFFERENTIAL) several RK stages raise *)
Lemma rk_one_slot s s1 lam : o_init O = Rk4Smoothened -> 0 < o_ns O -> 0 < o_N_finite_elements O -> sized C m s -> initialize C s = (s1, Ok lam) -> o_ns O <= points1 O (explicit_end C) FX.
Proof.
  intros Hi Hns Hn Z E. destruct (init_guess s s1 lam Hi (sz_x0 _ _ _ Z) Hns E) as (sm & _ & _ & _ & _ & _ & Hs). destruct (Hs 0 Hn) as (_ & Hk).
  destruct (Hk (o_ns O - 1)) as (Lk & _); lia.
Qed.
End Con.

Section Con2.
Variables (lr : Q -> Q -> Q -> nat) (cp : nat -> scheme -> list Q) (d : ipopt_dict)
  (o : opts) (m : model) (oc : option ocp) (C : constructed).
Hypothesis H : construct_problem lr cp d o m oc = Ok C.
(* only the first control stage is written *)
Lemma rk_other_stages s s1 lam p y : o_init (the_opts C) = Rk4Smoothened -> 0 < o_ns (the_opts C) -> sized C m s -> initialize C s = (s1, Ok lam) ->
  nth_error (w (the_nlp C)) p = Some y -> (forall i k j, y <> S1 FX 0 i k j) -> (forall f i k q j, y <> S2 f 0 i k q j) ->
  nth_error (ss_w0 s1) p = nth_error (ss_w0 s) p.
Proof.
  intros Hi Hns Z E Hp N1 N2. destruct (init_guess _ _ _ _ _ _ _ H s s1 lam Hi (sz_x0 _ _ _ Z) Hns E) as (sm & _ & _ & _ & _ & (_ & _ & _ & Ho) & _).
  apply (Ho p y Hp). intros (i & k & _ & [(j & Ej)|(f & q & j & Ej)]); [exact (N1 _ _ _ Ej)|exact (N2 _ _ _ _ _ Ej)].
Qed.
Lemma rk_total s : o_init (the_opts C) = Rk4Smoothened -> well_sized m -> sign_matrix m -> o_pss (the_opts C) = Stewart ->
  o_repr (the_opts C) = DifferentialLiftX -> o_scheme (the_opts C) = RadauIIA -> sized C m s ->
  0 < o_N_finite_elements (the_opts C) <= nfe_of (the_opts C) 0 -> exists s1 lam, initialize C s = (s1, Ok lam).
Proof.
  intros Hi WS SG ST Hr Hsch Z HN. destruct (smooth_of_con _ _ _ _ _ _ _ H Hi) as (sm & Hs & Ha).
  destruct (times_differential _ _ _ _ _ _ _ H) as (bt & Hb & Et); [congruence|]. destruct (Tableau_proofs.tables_ok _ _ _ Hb) as (Hns & _ & _ & _ & Lc & _ & _ & _ & _ & HR). rewrite Hsch in HR.
  destruct (HR eq_refl) as [_ HR']. 
  assert (LE : lastE EIndexError (t_times (cn_tab C)) = Ok 1%Q) by (apply lastE_nth; rewrite Et, Lc; exact HR').
  assert (NP : o_ns (the_opts C) <= points1 (the_opts C) (explicit_end C) FX) by (unfold points1; rewrite Hr; destruct (explicit_end C); lia).
  apply (init_total _ _ _ _ _ _ _ H WS SG ST sm Ha NP ltac:(lia) 1%Q LE (Qeq_refl 1)); try assumption.
  rewrite Et, Lc. lia.
Qed.
Lemma rk_gauss s s1 lam : o_init (the_opts C) = Rk4Smoothened -> 0 < o_ns (the_opts C) -> sized C m s -> initialize C s = (s1, Ok lam) ->
  exists te, last_is (t_times (cn_tab C)) te /\ (te == 1)%Q.
Proof. intros Hi Hns Z E. destruct (init_guess _ _ _ _ _ _ _ H s s1 lam Hi (sz_x0 _ _ _ Z) Hns E) as (sm & _ & _ & _ & T & _). exact T. Qed.
End Con2.
