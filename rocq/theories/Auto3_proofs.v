(* Auto3_proofs.v -- the models returned by reformulate() and whether they can be used *)
From Coq Require Import Reals Qreals Lra Permutation.
From Verif Require Import Base Lib Sx Utils Opts Model AutoModel Spec Fesd Spec3 Spec4 Spec7 Sem_proofs Sx_proofs Fo_proofs Accept_proofs Accept2_proofs Auto_proofs Auto2_proofs.
Local Open Scope nat_scope.

Section Simp.
Variable simp : expr -> expr.
Hypothesis HL : harmless simp.
Variable ids : nat -> nat -> nat.
Variable order : list expr -> list expr.

(* ---- symbols ---- *)
Definition new_alpha (a a' : auto) (y : sym) : Prop := exists k, y = MF FAlpha 0 k /\ length (am_alpha a) <= k < length (am_alpha a').
Lemma grows e a : length (am_alpha a) <= length (am_alpha (fst (rebuild_nonlin simp a e))).
Proof. destruct (rb_c _ _ _ _ (rebuild_nonlin_ok simp HL e a)) as (cs & _ & -> & _). rewrite app_length. lia. Qed.
Lemma rebuild_fv e : forall a y, In y (fv (snd (rebuild_nonlin simp a e))) -> In y (fv e) \/ new_alpha a (fst (rebuild_nonlin simp a e)) y.
Proof.
  assert (SW : forall a c y, In y (fv (EVar (find_matching a))) -> new_alpha a (fst (add_switch a c)) y).
  { intros a c y [<-|[]]. exists (length (am_alpha a)). split; [reflexivity|]. cbn. rewrite app_length. cbn. lia. }
  induction e as [q|x|o d IH|o d0 IH0 d1 IH1]; intros a y Hy; [left; exact Hy|left; exact Hy| |].
  - destruct o; try (cbn [rebuild_nonlin fv] in *; specialize (IH a y); destruct (rebuild_nonlin simp a d) as [a1 r]; cbn [fst snd] in *; apply (un_fv simp HL) in Hy; exact (IH Hy)).
    cbn [rebuild_nonlin add_switch snd] in Hy. apply (bin_fv simp HL) in Hy. destruct Hy as [Hy|[]]. apply (bin_fv simp HL) in Hy. destruct Hy as [[]|Hy]. right. exact (SW a d y Hy).
  - assert (G : forall o', In y (fv (bin simp o' (snd (rebuild_nonlin simp a d0)) (snd (rebuild_nonlin simp (fst (rebuild_nonlin simp a d0)) d1)))) ->
        In y (fv d0 ++ fv d1) \/ new_alpha a (fst (rebuild_nonlin simp (fst (rebuild_nonlin simp a d0)) d1)) y).
    { intros o' H. pose proof (grows d0 a) as G0. pose proof (grows d1 (fst (rebuild_nonlin simp a d0))) as G1. apply (bin_fv simp HL) in H. destruct H as [H|H].
      - destruct (IH0 a y H) as [H'|(k & -> & Hk)]; [left; apply in_or_app; now left|right; exists k; split; [reflexivity|lia]].
      - destruct (IH1 _ y H) as [H'|(k & -> & Hk)]; [left; apply in_or_app; now right|right; exists k; split; [reflexivity|lia]]. }
    destruct o; try (cbn [rebuild_nonlin fv] in *; destruct (rebuild_nonlin simp a d0) as [a1 l]; cbn [fst snd] in *; destruct (rebuild_nonlin simp a1 d1) as [a2 r]; exact (G _ Hy)).
    + cbn [rebuild_nonlin add_switch snd fv] in *. apply (bin_fv simp HL) in Hy. destruct Hy as [Hy|Hy]; apply (bin_fv simp HL) in Hy; destruct Hy as [Hy|Hy];
        try (left; apply in_or_app; tauto); [apply (bin_fv simp HL) in Hy; destruct Hy as [[]|Hy]|]; right; exact (SW a (bin simp BSub d0 d1) y Hy).
    + cbn [rebuild_nonlin add_switch snd fv] in *. apply (bin_fv simp HL) in Hy. destruct Hy as [Hy|Hy]; apply (bin_fv simp HL) in Hy; destruct Hy as [Hy|Hy];
        try (left; apply in_or_app; tauto); [|apply (bin_fv simp HL) in Hy; destruct Hy as [[]|Hy]]; right; exact (SW a (bin simp BSub d0 d1) y Hy).
Qed.
Lemma reformulate_fv fs : forall a r y, In r (snd (reformulate_nonlin simp a fs)) -> In y (fv r) ->
  (exists e, In e fs /\ In y (fv e)) \/ new_alpha a (fst (reformulate_nonlin simp a fs)) y.
Proof.
  induction fs as [|e fs IH]; intros a r y; [intros []|]. cbn [reformulate_nonlin]. pose proof (rebuild_fv e a y) as F. pose proof (grows e a) as G.
  destruct (rebuild_nonlin simp a e) as [a1 r1]. specialize (IH a1 r y). destruct (rb_c _ _ _ _ (reformulate_nonlin_ok simp HL fs a1)) as (cs & _ & Ea & _).
  destruct (reformulate_nonlin simp a1 fs) as [a2 rs]. cbn [fst snd] in *. assert (G2 : length (am_alpha a1) <= length (am_alpha a2)) by (rewrite Ea, app_length; lia).
  intros [<-|Hr] Hy.
  - destruct (F Hy) as [Hf|(k & -> & Hk)]; [left; exists e; split; [now left|exact Hf]|right; exists k; split; [reflexivity|lia]].
  - destruct (IH Hr Hy) as [(e' & He & Hf)|(k & -> & Hk)]; [left; exists e'; split; [now right|exact Hf]|right; exists k; split; [reflexivity|lia]].
Qed.

(* ---- reformulate(): step functions ---- *)
Variables (nx nu : nat) (x0 : list Q) (fs : list expr).
Lemma step_model : detect_additive simp fs = true -> exists a' cs rs,
  reformulate simp ids order nx nu x0 auto_init fs = (a', Ok (new_model nx nu x0 None cs None (Some [length cs]) (Some [rs]))) /\
  Forall2 switch_for (concat (map outer fs)) cs /\
  (forall rho, (forall k c, nth_error cs k = Some c -> (0 < eval rho c /\ rho (MF FAlpha 0 k) = 1)%R \/ (eval rho c < 0 /\ rho (MF FAlpha 0 k) = 0)%R) ->
     map (eval rho) rs = map (eval rho) fs) /\
  length rs = length fs /\
  (forall r y, In r rs -> In y (fv r) -> (exists e, In e fs /\ In y (fv e)) \/ exists k, y = MF FAlpha 0 k /\ k < length cs) /\
  ((forall e, In e fs -> unnested e) -> forall r, In r rs -> smooth r).
Proof.
  intros D. unfold reformulate. rewrite D. pose proof (reformulate_nonlin_ok simp HL fs auto_init) as [(cs & C & A & HD & HE) _]. pose proof (reformulate_fv fs auto_init) as FV.
  pose proof (reformulate_smooth simp HL fs auto_init) as SM.
  destruct (reformulate_nonlin simp auto_init fs) as [a' rs]. cbn [fst snd auto_init am_c am_alpha length app] in *. exists a', cs, rs.
  assert (La : length (am_alpha a') = length cs) by (rewrite A; apply alphas_len). split; [rewrite C, La; reflexivity|]. split; [exact HD|].
  split; [|split; [symmetry; exact (Forall2_length _ _ _ HE)|split; [|exact SM]]].
  - intros rho Hs. assert (ST : stepped rho cs (alphas 0 (length cs))).
    { intros k c y Hc Hy. assert (Hk : k < length cs) by (apply nth_error_Some; congruence). unfold alphas in Hy. rewrite nth_error_map, nth_error_seq in Hy by exact Hk. injection Hy as <-. exact (Hs k c Hc). }
    clear -HE ST. induction HE as [|e r es rs He _ IH]; [reflexivity|]. cbn [map]. rewrite (He rho ST), IH. reflexivity.
  - intros r y Hr Hy. destruct (FV r y Hr Hy) as [H|(k & -> & Hk)]; [now left|right; exists k; split; [reflexivity|]]. cbn in Hk. lia.
Qed.
Notation ode_sym := (Spec7.ode_sym nx nu).
Lemma step_usable o cs rs : length rs = nx -> length fs = nx ->
  (forall e, In e fs -> uses_only ode_sym e) -> (forall c, In c cs -> uses_only (fun y => exists i, y = MX i /\ i < nx) c) ->
  (forall r y, In r rs -> In y (fv r) -> (exists e, In e fs /\ In y (fv e)) \/ exists k, y = MF FAlpha 0 k /\ k < length cs) ->
  let m := new_model nx nu x0 None cs None (Some [length cs]) (Some [rs]) in
  (exists pm, preprocess_model o m = Ok pm) <-> o_pss o = Step /\ length cs = 1 /\ o_time_freezing o = false.
Proof.
  intros Lr Lf US UC UR m. 
  assert (WS : well_sized m) by (split; [discriminate| |discriminate]; intros _ fx E; cbn in E; injection E as <-; cbn; rewrite app_nil_r; exact Lr).
  assert (CL : closed_model m).
  { split; cbn; try discriminate; try (intros; contradiction).
    - intros fx v e E Hv He y Hy. injection E as <-. destruct Hv as [<-|[]]. destruct (UR e y He Hy) as [(e' & He' & Hy')|(k & -> & Hk)].
      + pose proof (US e' He' y Hy') as U. destruct y; cbn in U |- *; tauto.
      + right. right. right. exists [length cs], (length cs). auto.
    - intros c v e E Hv He y Hy. injection E as <-. apply in_map_iff in Hv. destruct Hv as (c & <- & Hc). destruct He as [<-|[]]. destruct (UC c Hc y Hy) as (i & -> & Hi). exact Hi. }
  rewrite (accepted_iff o m WS CL) by reflexivity. split.
  - intros AC. pose proof (ac_modes _ _ AC) as HM. cbn in HM. destruct HM as (HS & fx & c & sizes & E1 & E2 & E3 & E0 & _ & E4 & _). injection E1 as <-. injection E2 as <-. injection E3 as <-.
    split; [exact HS|]. cbn in E4. split.
    + destruct cs as [|c0 [|c1 cs]]; cbn in *; lia.
    + destruct (o_time_freezing o) eqn:E; [|reflexivity]. exfalso. exact (ac_t _ _ AC E eq_refl).
  - intros (HS & Lc & HT). destruct cs as [|c0 [|c1 cs]]; try discriminate. split; cbn; try (intros ? E; discriminate); try lia; try congruence.
    split; [exact HS|]. exists [rs], [[c0]], [1]. cbn. repeat split; try lia. intros [|s] Hs; [reflexivity|lia].
Qed.

(* ---- reformulate(): Filippov systems ---- *)
Lemma filippov_usable o Fl cs Sl : length fs = nx -> cs <> [] -> length Fl = length cs -> length Sl = length cs ->
  (forall F, In F Fl -> fm_rows F = length fs /\ length (fm_cols F) = 2 /\ forall col, In col (fm_cols F) -> length col = length fs) ->
  (forall s, In s Sl -> s = S_pm) ->
  (forall e, In e fs -> uses_only ode_sym e) -> (forall c, In c cs -> uses_only (fun y => exists i, y = MX i /\ i < nx) c) ->
  (forall F col e y, In F Fl -> In col (fm_cols F) -> In e col -> In y (fv e) -> exists f, In f fs /\ In y (fv f)) ->
  let m := new_model nx nu x0 (Some Fl) cs (Some Sl) None None in
  (exists pm, preprocess_model o m = Ok pm) <-> o_time_freezing o = false.
Proof.
  intros Lf NE LF LS HF HS US UC UF m.
  assert (WS : well_sized m).
  { split; [|discriminate|].
    - intros F E f Hf. cbn in E. injection E as <-. destruct (HF f Hf) as [-> _]. exact Lf.
    - intros S' E Sm Hs r r' Hr Hr'. cbn in E. injection E as <-. rewrite (HS Sm Hs) in Hr, Hr'. destruct Hr as [<-|[<-|[]]], Hr' as [<-|[<-|[]]]; reflexivity. }
  assert (CL : closed_model m).
  { split; cbn; try discriminate; try (intros; contradiction).
    - intros F f col e E Hf Hc He y Hy. injection E as <-. destruct (UF f col e y Hf Hc He Hy) as (e' & He' & Hy').
      pose proof (US e' He' y Hy') as U. destruct y; cbn in U |- *; tauto.
    - intros c v e E Hv He y Hy. injection E as <-. apply in_map_iff in Hv. destruct Hv as (c & <- & Hc). destruct He as [<-|[]]. destruct (UC c Hc y Hy) as (i & -> & Hi). exact Hi. }
  rewrite (accepted_iff o m WS CL) by reflexivity. split.
  - intros AC. destruct (o_time_freezing o) eqn:E; [|reflexivity]. exfalso. exact (ac_t _ _ AC E eq_refl).
  - intros HT.
    assert (NM : forall s, s < length Fl -> n_modes m s = 2).
    { intros s Hs. unfold n_modes, m. cbn [m_F new_model]. destruct (nth_error Fl s) as [f|] eqn:E; [|apply nth_error_None in E; lia]. apply HF. exact (nth_error_In _ _ E). }
    assert (NS : forall s, s < length Fl -> n_switch m s = 1).
    { intros s Hs. unfold n_switch, m. cbn [gS_given m_gS m_c new_model]. rewrite nth_error_map. destruct (nth_error cs s) as [f|] eqn:E; [reflexivity|apply nth_error_None in E; lia]. }
    assert (SN : forall s, s < length Fl -> nth s Sl [] = S_pm).
    { intros s Hs. apply HS. apply nth_In. lia. }
    assert (P0 : 0 < length Fl) by (destruct cs; [congruence|cbn in LF; lia]).
    split; cbn; try (intros ? E; discriminate); try lia; try congruence. split.
    + intros f Hf. destruct (HF f Hf) as (R & C2 & CC). split; [intros col Hc; rewrite R; exact (CC col Hc)|lia].
    + exists (map (fun e => [e]) cs), Sl. rewrite map_length. repeat split; try lia.
      * intros s Hs. rewrite (SN s Hs). change (2 = n_modes m s). now rewrite NM.
      * assert (RF : forall s i, s < length Fl -> i < n_modes m s -> length (nth i (user_S m s) []) = n_switch m s).
        { intros s i Hs Hi. change (user_S m s) with (nth s Sl []). rewrite (SN s Hs), (NS s Hs). rewrite (NM s Hs) in Hi. destruct i as [|[|i]]; [reflexivity|reflexivity|lia]. }
        destruct (o_pss o); [intros s i Hs Hi; exact (RF s i Hs Hi)|]. split; [|split; [discriminate|]].
        -- intros s Hs. change (n_modes m s = n_modes m 0). now rewrite !NM.
        -- intros s i k Hs Hk. change (k < n_switch m s). rewrite (NS s Hs). destruct k as [|k]; [lia|]. exfalso. apply Hk. unfold sign. change (user_S m s) with (nth s Sl []). rewrite (SN s Hs).
           destruct i as [|[|[|i]]]; cbn; destruct k; reflexivity.
Qed.
Lemma filippov_model : (forall l, Permutation (order l) l) -> detect_additive simp fs = false ->
  (forall f e, In f fs -> In e (find_components simp f) -> ~ smooth e -> exists n, outer e = [n] /\ is_min n = false) ->
  (forall i j n i' j' n', switch_at simp fs i j n -> switch_at simp fs i' j' n' -> (ids i j = ids i' j' <-> switch_of simp n = switch_of simp n')) ->
  (forall f, In f fs -> exists e, In e (find_components simp f) /\ smooth e) ->
  (exists f e, In f fs /\ In e (find_components simp f) /\ ~ smooth e) ->
  exists a' Fl cs Sl, reformulate simp ids order nx nu x0 auto_init fs = (a', Ok (new_model nx nu x0 (Some Fl) cs (Some Sl) None None)) /\
  length Fl = length cs /\ length Sl = length cs /\ NoDup cs /\
  (forall c, In c cs -> exists f e n, In f fs /\ In e (find_components simp f) /\ outer e = [n] /\ switch_for n c) /\
  (forall rho ks, length ks = length cs -> (forall s c sw k, nth_error cs s = Some c -> nth_error Sl s = Some sw -> nth_error ks s = Some k -> chosen rho c sw k) ->
    forall i f, nth_error fs i = Some f -> row_value rho Fl ks i = eval rho f) /\
  (length fs = nx -> (forall e, In e fs -> uses_only ode_sym e) -> (forall c, In c cs -> uses_only (fun y => exists i, y = MX i /\ i < nx) c) ->
   forall o, (exists pm, preprocess_model o (new_model nx nu x0 (Some Fl) cs (Some Sl) None None) = Ok pm) <-> o_time_freezing o = false).
Proof.
  intros OP D ONE SAME SM SO. destruct (linear_ok simp HL ids order OP fs ONE SAME SM SO) as (a' & E & L1 & L2 & NE & ND & _ & HF & HS & HV & HC & HR).
  exists a', (am_F a'), (am_c a'), (am_S a'). unfold reformulate. rewrite D, E. split; [reflexivity|]. do 3 (split; [assumption|]). split; [|split; [exact HR|]].
  - intros c Hc. destruct (HC c Hc) as (i & j & n & (f & e & Hf & He & Hn) & ->). exists f, e, n. split; [exact (nth_error_In _ _ Hf)|]. apply nth_error_In in He. apply filter_In in He.
    split; [apply He|]. split; [exact Hn|]. assert (SWN : switching n) by (apply (outer_switching e); rewrite Hn; now left).
    split; [intros rho; apply (switch_of_value simp HL); exact SWN|]. intros y Hy. destruct SWN as (a & b & [->|[->| ->]]); cbn in Hy |- *; [exact Hy| |]; apply (bin_fv simp HL) in Hy; now apply in_or_app.
  - intros Lf US UC o. apply (filippov_usable o (am_F a') (am_c a') (am_S a')); assumption.
Qed.
End Simp.

(* any state of the object, e.g. after an earlier call *)
Lemma nonlin_any simp : harmless simp -> forall a fs, let r := reformulate_nonlin simp a fs in exists cs,
  am_c (fst r) = am_c a ++ cs /\ am_alpha (fst r) = am_alpha a ++ map (MF FAlpha 0) (seq (length (am_alpha a)) (length cs)) /\
  Forall2 switch_for (concat (map outer fs)) cs /\
  forall rho, (forall k c, nth_error cs k = Some c ->
      (0 < eval rho c /\ rho (MF FAlpha 0 (length (am_alpha a) + k)) = 1)%R \/ (eval rho c < 0 /\ rho (MF FAlpha 0 (length (am_alpha a) + k)) = 0)%R) ->
    map (eval rho) (snd r) = map (eval rho) fs.
Proof.
  intros HL a fs r. destruct (reformulate_nonlin_ok simp HL fs a) as [(cs & C & A & HD & HE) _]. exists cs. split; [exact C|]. split; [exact A|]. split; [exact HD|].
  intros rho Hs. assert (ST : stepped rho cs (alphas (length (am_alpha a)) (length cs))).
  { intros k c y Hc Hy. assert (Hk : k < length cs) by (apply nth_error_Some; congruence). unfold alphas in Hy. rewrite nth_error_map, nth_error_seq in Hy by exact Hk. injection Hy as <-. exact (Hs k c Hc). }
  fold r in HE. clear -HE ST. induction HE as [|e r' es rs He _ IH]; [reflexivity|]. cbn [map]. rewrite (He rho ST), IH. reflexivity.
Qed.
(* a second call of reformulate() on the step path: the switching functions of the first call come back *)
Lemma twice simp ids order nx nu x0 fs : harmless simp -> detect_additive simp fs = true ->
  exists a1 m1 a2 m2 cs1 cs2, reformulate simp ids order nx nu x0 auto_init fs = (a1, Ok m1) /\ reformulate simp ids order nx nu x0 a1 fs = (a2, Ok m2) /\
  m_c m1 = Some (map (fun e => [e]) cs1) /\ m_c m2 = Some (map (fun e => [e]) (cs1 ++ cs2)) /\
  length cs1 = length (concat (map outer fs)) /\ length cs2 = length (concat (map outer fs)).
Proof.
  intros HL D. unfold reformulate. rewrite D. pose proof (nonlin_any simp HL auto_init fs) as (cs1 & C1 & _ & F1 & _).
  destruct (reformulate_nonlin simp auto_init fs) as [a1 r1]. cbn [fst snd auto_init am_c app] in C1.
  pose proof (nonlin_any simp HL a1 fs) as (cs2 & C2 & _ & F2 & _). exists a1. eexists _. destruct (reformulate_nonlin simp a1 fs) as [a2 r2]. cbn [fst snd] in C2.
  exists a2. eexists _, cs1, cs2. split; [reflexivity|]. split; [reflexivity|]. cbn. rewrite C2, C1.
  split; [reflexivity|]. split; [reflexivity|]. split; [symmetry; exact (Forall2_length _ _ _ F1)|symmetry; exact (Forall2_length _ _ _ F2)].
Qed.
Lemma step_accepted simp ids order nx nu x0 fs a' m o : harmless simp -> detect_additive simp fs = true ->
  reformulate simp ids order nx nu x0 auto_init fs = (a', Ok m) -> length fs = nx ->
  (forall e, In e fs -> uses_only (ode_sym nx nu) e) ->
  (forall e n y, In e fs -> In n (outer e) -> In y (fv n) -> exists i, y = MX i /\ i < nx) ->
  (exists pm, preprocess_model o m = Ok pm) <-> o_pss o = Step /\ length (concat (map outer fs)) = 1 /\ o_time_freezing o = false.
Proof.
  intros HL D E L U W. destruct (step_model simp HL ids order nx nu x0 fs D) as (a1 & cs & rs & E1 & F2 & _ & Lr & FV & _).
  assert (m = new_model nx nu x0 None cs None (Some [length cs]) (Some [rs])) as -> by congruence. rewrite (forall2_len _ _ _ F2).
  apply step_usable with (fs := fs); try assumption; [congruence|].
  intros c Hc y Hy. destruct (forall2_right _ _ _ F2 c Hc) as (n & Hn & _ & HV). apply in_concat in Hn. destruct Hn as (l & Hl & Hn). apply in_map_iff in Hl. destruct Hl as (e & <- & He).
  exact (W e n y He Hn (HV y Hy)).
Qed.
