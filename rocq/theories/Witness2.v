(* Witness2.v -- concrete models and points of the complementarity system, checked with exact rational
   arithmetic. Used by the examples and refutations of Props_Dcs.v. *)
From Coq Require Import Reals Qreals Lra.
From Verif Require Import Base Sx Utils Tableau Opts Model Ocp Problem Spec Cases Lib Sx_proofs Fesd Spec2 Witness Numeric Spec3.

(* ---- checkers ---- *)
Definition zeroQ (v : sym -> Q) (e : expr) : bool := match evalQ v e with Some q => Qeq_bool q 0 | None => false end.
Lemma algebraQ pm v : forallb (zeroQ v) (cf_out (pm_gz_fun pm)) = true -> algebra_holds pm (fun s => Q2R (v s)).
Proof.
  intros H e He. rewrite forallb_forall in H. specialize (H e He). unfold zeroQ in H.
  destruct (evalQ v e) as [q|] eqn:E; [|discriminate]. rewrite (evalQ_sound _ _ _ E). rewrite <- RMicromega.Q2R_0. apply Q2R_eq, H.
Qed.
Definition each (n : nat) (f : nat -> bool) : bool := forallb f (seq 0 n).
Lemma each_ok n f k : each n f = true -> k < n -> f k = true.
Proof. unfold each. rewrite forallb_forall. intros H Hk. apply H, in_seq. lia. Qed.
Definition stewartQ (m : model) (v : sym -> Q) : bool :=
  each (n_subsystems m) (fun s => each (n_modes m s) (fun k =>
    Qle_bool 0 (v (MF FTheta s k)) && Qle_bool 0 (v (MF FLam s k)) && Qeq_bool (v (MF FTheta s k) * v (MF FLam s k)) 0)).
Lemma stewartQ_ok m v : stewartQ m v = true -> stewart_complementary m (fun s => Q2R (v s)).
Proof.
  intros H s k Hs Hk. unfold stewartQ in H. pose proof (each_ok _ _ _ (each_ok _ _ _ H Hs) Hk) as G. cbv beta in G.
  apply andb_prop in G. destruct G as [G G3]. apply andb_prop in G. destruct G as [G1 G2].
  apply Q2R_le_bool in G1, G2. apply Q2R_eq in G3. rewrite Q2R_mult in G3. rewrite RMicromega.Q2R_0 in *. auto.
Qed.
Definition stepQ (m : model) (v : sym -> Q) : bool :=
  each (n_subsystems m) (fun s => each (n_switch m s) (fun k =>
    Qle_bool 0 (v (MF FAlpha s k)) && Qle_bool (v (MF FAlpha s k)) 1 && Qle_bool 0 (v (MF FLn s k)) && Qle_bool 0 (v (MF FLp s k)) &&
    Qeq_bool (v (MF FLn s k) * v (MF FAlpha s k)) 0 && Qeq_bool (v (MF FLp s k) * (1 - v (MF FAlpha s k))) 0)).
Lemma stepQ_ok m v : stepQ m v = true -> step_complementary m (fun s => Q2R (v s)).
Proof.
  intros H s k Hs Hk. unfold stepQ in H. pose proof (each_ok _ _ _ (each_ok _ _ _ H Hs) Hk) as G. cbv beta in G.
  do 5 (apply andb_prop in G; let X := fresh "G" in destruct G as [G X]).
  apply Q2R_le_bool in G, G2, G3, G4. apply Q2R_eq in G0, G1. rewrite Q2R_mult in G0, G1. rewrite Q2R_minus in G0.
  rewrite RMicromega.Q2R_0, ?RMicromega.Q2R_1 in *. auto 10.
Qed.
Definition dynQ (pm : pmodel) (v : sym -> Q) (f : list Q) : bool :=
  (length (cf_out (pm_fx_fun pm)) =? m_nx (pm_m pm)) && (length f =? m_nx (pm_m pm)) &&
  forallb (fun p => match evalQ v (fst p) with Some q => Qeq_bool q (snd p) | None => false end) (combine (cf_out (pm_fx_fun pm)) f).
Lemma dynQ_ok pm v f : dynQ pm v f = true -> dynamics_are pm (fun s => Q2R (v s)) (fun i => Q2R (nth i f 0%Q)).
Proof.
  unfold dynQ. intros H. apply andb_prop in H. destruct H as [H H3]. apply andb_prop in H. destruct H as [H1 H2].
  apply Nat.eqb_eq in H1, H2. split; [exact H1|]. intros i e He. rewrite forallb_forall in H3.
  pose proof (nth_error_Some_lt _ _ _ He) as L. specialize (H3 (e, nth i f 0%Q)). cbn [fst snd] in H3.
  destruct (evalQ v e) as [q|] eqn:E.
  - rewrite (evalQ_sound _ _ _ E). apply Q2R_eq, H3. apply nth_error_In with (n := i). clear - He L H1 H2.
    revert f i L H1 H2 He. generalize (m_nx (pm_m pm)). induction (cf_out (pm_fx_fun pm)) as [|a l IH]; intros n f i L H1 H2 He; [destruct i; discriminate|].
    destruct f as [|b f]; [cbn in *; lia|]. destruct i as [|i]; cbn in *; [congruence|]. apply (IH (n - 1) f i); lia || assumption.
  - assert (X : false = true); [|discriminate]. apply H3. clear - He L H1 H2. apply nth_error_In with (n := i).
    revert f i L H1 H2 He. generalize (m_nx (pm_m pm)). induction (cf_out (pm_fx_fun pm)) as [|a l IH]; intros n f i L H1 H2 He; [destruct i; discriminate|].
    destruct f as [|b f]; [cbn in *; lia|]. destruct i as [|i]; cbn in *; [congruence|]. apply (IH (n - 1) f i); lia || assumption.
Qed.
Definition unitQ (q : Q) : bool := Qeq_bool q (-1) || Qeq_bool q 0 || Qeq_bool q 1.
Definition signQ (m : model) : bool := match m_S m with Some Sl => forallb (forallb (forallb unitQ)) Sl | None => true end.
Lemma signQ_ok m : signQ m = true -> sign_matrix m.
Proof.
  intros H s i k. unfold sign, user_S. unfold signQ in H. destruct (m_S m) as [Sl|].
  2: { right; left. destruct i; destruct k; reflexivity. }
  rewrite forallb_forall in H. destruct (nth_in_or_default s Sl []) as [A|A].
  2: { rewrite A. right; left. destruct i; destruct k; reflexivity. }
  specialize (H _ A). rewrite forallb_forall in H. destruct (nth_in_or_default i (nth s Sl []) []) as [B|B].
  2: { rewrite B. right; left. destruct k; reflexivity. }
  specialize (H _ B). rewrite forallb_forall in H. destruct (nth_in_or_default k (nth i (nth s Sl []) []) 0%Q) as [C|C].
  2: { rewrite C. right; left. reflexivity. }
  specialize (H _ C). unfold unitQ in H. apply orb_prop in H. destruct H as [H|H]; [apply orb_prop in H; destruct H as [H|H]|]; apply Qeq_bool_eq in H; auto.
Qed.
Definition fitQ (m : model) : bool :=
  each (n_subsystems m) (fun s => each (n_modes m s) (fun i => length (nth i (user_S m s) []) =? n_switch m s)).
Lemma fitQ_ok m : fitQ m = true -> rows_fit m.
Proof. intros H s i Hs Hi. apply Nat.eqb_eq. exact (each_ok _ _ _ (each_ok _ _ _ H Hs) Hi). Qed.
Definition regionQ (m : model) (v : sym -> Q) (s i : nat) : bool :=
  each (n_switch m s) (fun k => match evalQ v (nth k (user_c m s) (ECst 0)) with
    | Some q => Qeq_bool (sign m s i k) 0 || negb (Qle_bool (sign m s i k * q) 0)
    | None => false end).
Lemma regionQ_ok m v s i : regionQ m v s i = true -> in_region m (fun s => Q2R (v s)) s i.
Proof.
  intros H k Hk N. pose proof (each_ok _ _ _ H Hk) as G. cbv beta in G. unfold switch_value.
  destruct (evalQ v (nth k (user_c m s) (ECst 0))) as [q|] eqn:E; [|discriminate]. rewrite (evalQ_sound _ _ _ E).
  apply orb_prop in G. destruct G as [G|G]; [apply Qeq_bool_eq in G; contradiction|].
  apply negb_true_iff, Q2R_lt_bool in G. rewrite RMicromega.Q2R_0, Q2R_mult in G. exact G.
Qed.
Definition separatedQ (m : model) (s i j : nat) : bool :=
  existsb (fun k => negb (Qle_bool 0 (sign m s i k * sign m s j k))) (seq 0 (n_switch m s)).
Lemma separatedQ_ok m s i j : separatedQ m s i j = true -> separated m s i j.
Proof.
  intros H. apply existsb_exists in H. destruct H as (k & Hk & H). apply in_seq in Hk. exists k. split; [lia|].
  apply negb_true_iff in H. apply Qnot_le_lt. intros C. apply Qle_bool_iff in C. congruence.
Qed.
(* the symbols of the user's functions *)
Definition stateQ (m : model) (s : sym) : bool :=
  match s with MX i => i <? m_nx m | MZ i => i <? m_nz m | MPt i => i <? m_npt m | MPg i => i <? m_npg m | _ => false end.
Definition controlQ (m : model) (s : sym) : bool := match s with MU i => i <? m_nu m | _ => false end.
Definition globalQ (m : model) (s : sym) : bool := match s with SVg i => i <? m_nvg m | _ => false end.
Definition alphaQ (m : model) (s : sym) : bool :=
  match s with
  | MF FAlpha k i => match m_alpha m with Some sizes => match nth_error sizes k with Some n => i <? n | None => false end | None => false end
  | _ => false
  end.
Lemma stateQ_ok m s : stateQ m s = true -> state_sym m s.
Proof. destruct s; cbn; try discriminate; apply Nat.ltb_lt. Qed.
Lemma controlQ_ok m s : controlQ m s = true -> control_sym m s.
Proof. destruct s; cbn; try discriminate; apply Nat.ltb_lt. Qed.
Lemma globalQ_ok m s : globalQ m s = true -> global_sym m s.
Proof. destruct s; cbn; try discriminate; apply Nat.ltb_lt. Qed.
Lemma alphaQ_ok m s : alphaQ m s = true -> alpha_sym m s.
Proof.
  destruct s; cbn; try discriminate. destruct f; try discriminate. destruct (m_alpha m) as [sizes|]; [|discriminate].
  destruct (nth_error sizes sys) as [n|] eqn:E; [|discriminate]. intros H. apply Nat.ltb_lt in H. eauto.
Qed.
Definition usesQ (P : sym -> bool) (e : expr) : bool := forallb P (fv e).
Definition oall {A} (f : A -> bool) (x : option A) : bool := match x with Some a => f a | None => true end.
Definition closedQ (m : model) : bool :=
  oall (forallb (fun f => forallb (forallb (usesQ (fun s => stateQ m s || controlQ m s || globalQ m s))) (fm_cols f))) (m_F m) &&
  oall (forallb (forallb (usesQ (fun s => stateQ m s || controlQ m s || globalQ m s || alphaQ m s)))) (m_fx m) &&
  oall (forallb (forallb (usesQ (stateQ m)))) (m_c m) &&
  oall (forallb (forallb (usesQ (stateQ m)))) (m_gS m) &&
  forallb (usesQ (fun s => stateQ m s || controlQ m s)) (m_gz m) &&
  oall (usesQ (fun s => match s with MX i => i <? m_nx m | _ => false end)) (m_tvar m).
Lemma usesQ_ok P e : usesQ P e = true -> forall s, In s (fv e) -> P s = true.
Proof. unfold usesQ. rewrite forallb_forall. auto. Qed.
Lemma closedQ_ok m : closedQ m = true -> closed_model m.
Proof.
  unfold closedQ. intros H. do 5 (apply andb_prop in H; let X := fresh "H" in destruct H as [H X]). split.
  - intros F f col e E Hf Hc He s Hs. rewrite E in H. cbn [oall] in H. rewrite forallb_forall in H. specialize (H _ Hf).
    rewrite forallb_forall in H. specialize (H _ Hc). rewrite forallb_forall in H. pose proof (usesQ_ok _ _ (H _ He) s Hs) as G. cbv beta in G.
    apply orb_prop in G. destruct G as [G|G]; [apply orb_prop in G; destruct G as [G|G]|]; auto using stateQ_ok, controlQ_ok, globalQ_ok.
  - intros fx w e E Hv He s Hs. rewrite E in H4. cbn [oall] in H4. rewrite forallb_forall in H4. specialize (H4 _ Hv).
    rewrite forallb_forall in H4. pose proof (usesQ_ok _ _ (H4 _ He) s Hs) as G. cbv beta in G.
    apply orb_prop in G. destruct G as [G|G]; [apply orb_prop in G; destruct G as [G|G]; [apply orb_prop in G; destruct G as [G|G]|]|];
      auto using stateQ_ok, controlQ_ok, globalQ_ok, alphaQ_ok.
  - intros c w e E Hv He s Hs. rewrite E in H3. cbn [oall] in H3. rewrite forallb_forall in H3. specialize (H3 _ Hv).
    rewrite forallb_forall in H3. apply stateQ_ok. exact (usesQ_ok _ _ (H3 _ He) s Hs).
  - intros c w e E Hv He s Hs. rewrite E in H2. cbn [oall] in H2. rewrite forallb_forall in H2. specialize (H2 _ Hv).
    rewrite forallb_forall in H2. apply stateQ_ok. exact (usesQ_ok _ _ (H2 _ He) s Hs).
  - intros e He s Hs. rewrite forallb_forall in H1. pose proof (usesQ_ok _ _ (H1 _ He) s Hs) as G. cbv beta in G.
    apply orb_prop in G. destruct G as [G|G]; auto using stateQ_ok, controlQ_ok.
  - intros e E s Hs. rewrite E in H0. cbn [oall] in H0. pose proof (usesQ_ok _ _ H0 s Hs) as G. cbv beta in G.
    destruct s; try discriminate. apply Nat.ltb_lt in G. eauto.
Qed.

(* ---- models ---- *)
Definition with_switching (nx : nat) (x0 : list Q) (F : list fmat) (c : list (list expr)) (Sl : list (list (list Q))) : model := {|
  m_nx := nx; m_x0 := x0; m_F := Some F; m_c := Some c; m_S := Some Sl; m_gS := None;
  m_nu := 0; m_nz := 0; m_z0 := None; m_lbz := None; m_ubz := None; m_alpha := None; m_fx := None;
  m_gz := []; m_npt := 0; m_npg := 0; m_ptv_val := None; m_pg_val := []; m_nvg := 0; m_tvar := None |}.
Definition f2 (a b : Z) : list expr := [cq (inject_Z a); cq (inject_Z b)].
(* two switching functions, three modes: R_0 = {x_0 > 0}, R_1 = {x_0 < 0, x_1 > 0}, R_2 = {x_0 < 0, x_1 < 0} *)
Definition sparse_model : model :=
  with_switching 2 [(1#10)%Q; 10%Q] [mkFmat 2 [f2 1 0; f2 2 0; f2 3 0]] [[cx 0; cx 1]] [[[1; 0]; [-1; 1]; [-1; -1]]]%Q.
(* the four quadrants *)
Definition full_model : model :=
  with_switching 2 [(1#10)%Q; 10%Q] [mkFmat 2 [f2 1 0; f2 2 0; f2 3 0; f2 4 0]] [[cx 0; cx 1]] [[[1; 1]; [1; -1]; [-1; 1]; [-1; -1]]]%Q.
Definition stepopts : opts := with_modes default_opts Step ScholtesIneq SumLambdas HeuristicDelta SotNone true true.
Definition prep (o : opts) (m : model) (H : is_ok (preprocess_model o m) = true) : pmodel := get _ H.
Lemma sp_stewart_ok : is_ok (preprocess_model default_opts sparse_model) = true. Proof. vm_compute. reflexivity. Qed.
Definition sp_stewart : pmodel := get _ sp_stewart_ok.
Lemma sp_stewart_is : preprocess_model default_opts sparse_model = Ok sp_stewart. Proof. apply get_ok. Qed.
Lemma sp_step_ok : is_ok (preprocess_model stepopts sparse_model) = true. Proof. vm_compute. reflexivity. Qed.
Definition sp_step : pmodel := get _ sp_step_ok.
Lemma sp_step_is : preprocess_model stepopts sparse_model = Ok sp_step. Proof. apply get_ok. Qed.
Lemma fu_stewart_ok : is_ok (preprocess_model default_opts full_model) = true. Proof. vm_compute. reflexivity. Qed.
Definition fu_stewart : pmodel := get _ fu_stewart_ok.
Lemma fu_stewart_is : preprocess_model default_opts full_model = Ok fu_stewart. Proof. apply get_ok. Qed.

(* theta = e_1 although x is in R_0 *)
Definition sparse_point : list (sym * Q) :=
  [(MX 0, 1#10); (MX 1, 10); (MF FTheta 0 1, 1); (MF FLam 0 0, 98#10); (MF FLam 0 2, 20); (MF FMu 0 0, 99#10)]%Q.
Definition step_point : list (sym * Q) :=
  [(MX 0, 1#10); (MX 1, 10); (MF FAlpha 0 0, 1); (MF FAlpha 0 1, 1); (MF FLp 0 0, 1#10); (MF FLp 0 1, 10)]%Q.
Definition full_point : list (sym * Q) :=
  [(MX 0, 1#10); (MX 1, 10); (MF FTheta 0 0, 1); (MF FLam 0 1, 20); (MF FLam 0 2, 2#10); (MF FLam 0 3, 202#10); (MF FMu 0 0, 101#10)]%Q.

Lemma sparse_complete : complete sparse_model 0.
Proof.
  assert (H0 : forall sg, admits sparse_model 0 0 sg <-> sg 0 = true).
  { intros sg. split.
    - intros H. destruct (H 0) as [G|G]; [vm_compute; lia|discriminate|]. destruct (sg 0); [reflexivity|discriminate].
    - intros E k Hk. change (n_switch sparse_model 0) with 2 in Hk. destruct k as [|[|k]]; [right; rewrite E; reflexivity|left; reflexivity|lia]. }
  assert (H1 : forall sg, admits sparse_model 0 1 sg <-> sg 0 = false /\ sg 1 = true).
  { intros sg. split.
    - intros H. split; [destruct (H 0) as [G|G]|destruct (H 1) as [G|G]]; try (vm_compute; lia); try discriminate.
      + destruct (sg 0); [discriminate|reflexivity].
      + destruct (sg 1); [reflexivity|discriminate].
    - intros [E0 E1] k Hk. change (n_switch sparse_model 0) with 2 in Hk.
      destruct k as [|[|k]]; [right; rewrite E0; reflexivity|right; rewrite E1; reflexivity|lia]. }
  assert (H2 : forall sg, admits sparse_model 0 2 sg <-> sg 0 = false /\ sg 1 = false).
  { intros sg. split.
    - intros H. split; [destruct (H 0) as [G|G]|destruct (H 1) as [G|G]]; try (vm_compute; lia); try discriminate.
      + destruct (sg 0); [discriminate|reflexivity].
      + destruct (sg 1); [discriminate|reflexivity].
    - intros [E0 E1] k Hk. change (n_switch sparse_model 0) with 2 in Hk.
      destruct k as [|[|k]]; [right; rewrite E0; reflexivity|right; rewrite E1; reflexivity|lia]. }
  intros sg. change (n_modes sparse_model 0) with 3.
  assert (U : forall i, i < 3 -> admits sparse_model 0 i sg ->
     (forall j, j < 3 -> admits sparse_model 0 j sg -> j = i)).
  { intros i Hi Ai j Hj Aj.
    destruct i as [|[|[|i]]]; try lia; destruct j as [|[|[|j]]]; try lia; try reflexivity;
      rewrite ?H0, ?H1, ?H2 in *; exfalso; intuition congruence. }
  destruct (sg 0) eqn:E0; [exists 0|destruct (sg 1) eqn:E1; [exists 1|exists 2]].
  - assert (A : admits sparse_model 0 0 sg) by (apply H0; exact E0). split; [lia|]. split; [exact A|]. apply U; [lia|exact A].
  - assert (A : admits sparse_model 0 1 sg) by (apply H1; auto). split; [lia|]. split; [exact A|]. apply U; [lia|exact A].
  - assert (A : admits sparse_model 0 2 sg) by (apply H2; auto). split; [lia|]. split; [exact A|]. apply U; [lia|exact A].
Qed.
Lemma sparse_stewart_wrong : algebra_holds sp_stewart (pt sparse_point) /\ stewart_complementary sparse_model (pt sparse_point) /\
  in_region sparse_model (pt sparse_point) 0 0 /\ separated sparse_model 0 0 1 /\ separated sparse_model 0 0 2 /\
  pt sparse_point (MF FTheta 0 0) = 0%R /\ pt sparse_point (MF FTheta 0 1) = 1%R /\
  dynamics_are sp_stewart (pt sparse_point) (fun i => Q2R (nth i [2; 0]%Q 0%Q)).
Proof.
  split; [apply algebraQ; vm_compute; reflexivity|]. split; [apply (stewartQ_ok sparse_model (ptQ sparse_point)); vm_compute; reflexivity|].
  split; [apply (regionQ_ok sparse_model (ptQ sparse_point)); vm_compute; reflexivity|].
  split; [apply separatedQ_ok; reflexivity|]. split; [apply separatedQ_ok; reflexivity|].
  split; [apply RMicromega.Q2R_0|]. split; [apply RMicromega.Q2R_1|].
  apply dynQ_ok. vm_compute. reflexivity.
Qed.
Lemma sparse_step_right : algebra_holds sp_step (pt step_point) /\ step_complementary sparse_model (pt step_point) /\
  in_region sparse_model (pt step_point) 0 0 /\ (forall j, j < 3 -> j <> 0 -> separated sparse_model 0 0 j) /\
  dynamics_are sp_step (pt step_point) (fun i => Q2R (nth i [1; 0]%Q 0%Q)).
Proof.
  split; [apply algebraQ; vm_compute; reflexivity|]. split; [apply (stepQ_ok sparse_model (ptQ step_point)); vm_compute; reflexivity|].
  split; [apply (regionQ_ok sparse_model (ptQ step_point)); vm_compute; reflexivity|].
  split; [|apply dynQ_ok; vm_compute; reflexivity].
  intros [|[|[|j]]] Hj N; try lia; apply separatedQ_ok; reflexivity.
Qed.
Lemma full_stewart_right : algebra_holds fu_stewart (pt full_point) /\ stewart_complementary full_model (pt full_point) /\
  in_region full_model (pt full_point) 0 0 /\ full_row full_model 0 0 /\ (forall j, j < 4 -> j <> 0 -> ~ same_row full_model 0 0 j) /\
  dynamics_are fu_stewart (pt full_point) (fun i => Q2R (nth i [1; 0]%Q 0%Q)).
Proof.
  split; [apply algebraQ; vm_compute; reflexivity|]. split; [apply (stewartQ_ok full_model (ptQ full_point)); vm_compute; reflexivity|].
  split; [apply (regionQ_ok full_model (ptQ full_point)); vm_compute; reflexivity|].
  split. { intros k Hk. change (n_switch full_model 0) with 2 in Hk. destruct k as [|[|k]]; try lia; intros C; discriminate. }
  split; [|apply dynQ_ok; vm_compute; reflexivity].
  intros [|[|[|[|j]]]] Hj N H; try lia.
  - assert (G := H 1 ltac:(vm_compute; lia)). discriminate.
  - assert (G := H 0 ltac:(vm_compute; lia)). discriminate.
  - assert (G := H 0 ltac:(vm_compute; lia)). discriminate.
Qed.
Lemma sparse_sized : well_sized sparse_model. Proof. apply sizedQ_ok. reflexivity. Qed.
Lemma full_sized : well_sized full_model. Proof. apply sizedQ_ok. reflexivity. Qed.
Lemma sparse_signs : sign_matrix sparse_model. Proof. apply signQ_ok. reflexivity. Qed.
Lemma full_signs : sign_matrix full_model. Proof. apply signQ_ok. reflexivity. Qed.
Lemma sparse_fit : rows_fit sparse_model. Proof. apply fitQ_ok. reflexivity. Qed.

(* ---- accepted although the sizes do not match ---- *)
Definition extra_model : model := with_switching 1 [0%Q] [mkFmat 1 [[cq 1]; [cq 3]]] [[cx 0]; [cx 0; cx 0]] [[[1]; [-1]]; [[1]]]%Q.
Definition short_F_model : model := with_switching 2 [0; 0]%Q [mkFmat 1 [[cq 1]; [cq 3]]] [[cx 0]] [[[1]; [-1]]]%Q.
Definition narrow_S_model : model := with_switching 2 [0; 0]%Q [mkFmat 2 [f2 1 0; f2 3 0]] [[cx 0; cx 1]] [[[1]; [-1]]]%Q.
Lemma accepted_ok o m : is_ok (preprocess_model o m) = true -> exists pm, preprocess_model o m = Ok pm.
Proof. destruct (preprocess_model o m); [eauto|discriminate]. Qed.
Lemma badly_accepted :
  ((exists pm, preprocess_model default_opts extra_model = Ok pm) /\ ~ consistent_sizes extra_model) /\
  ((exists pm, preprocess_model default_opts short_F_model = Ok pm) /\ ~ consistent_sizes short_F_model) /\
  ((exists pm, preprocess_model stepopts narrow_S_model = Ok pm) /\ ~ consistent_sizes narrow_S_model).
Proof.
  repeat split; try (apply accepted_ok; vm_compute; reflexivity).
  - intros H. destruct (H _ _ _ eq_refl eq_refl eq_refl) as [E _]. discriminate.
  - intros H. destruct (H _ _ _ eq_refl eq_refl eq_refl) as (_ & _ & E & _). specialize (E _ (or_introl eq_refl)). discriminate.
  - intros H. destruct (H _ _ _ eq_refl eq_refl eq_refl) as (_ & _ & _ & E). specialize (E 0 0 _ eq_refl). discriminate.
Qed.
Lemma sparse_closed : closed_model sparse_model. Proof. apply closedQ_ok. reflexivity. Qed.
Lemma closed1 : closed_model model1. Proof. apply closedQ_ok. reflexivity. Qed.
Lemma closed2 : closed_model model2. Proof. apply closedQ_ok. reflexivity. Qed.
(* the multiplier returned by mu00_stewart_fun *)
Lemma p3_ok : is_ok (preprocess_model default_opts model3) = true. Proof. vm_compute. reflexivity. Qed.
Definition p3 : pmodel := get _ p3_ok.
Lemma p3_is : preprocess_model default_opts model3 = Ok p3. Proof. apply get_ok. Qed.
Definition muQ : Q := match pm_mu00_fun p3 with Some f => match evalQ (ptQ [(MX 0, -1)]%Q) (nth 0 (cf_out f) (ECst 0)) with Some q => q | None => 7%Q end | None => 7%Q end.
Definition mu_point : list (sym * Q) := [(MX 0, -1); (MF FLam 0 1, 2); (MF FMu 0 0, muQ)]%Q.
Lemma mu00_wrong : exists f e, pm_mu00_fun p3 = Some f /\ nth_error (cf_out f) 0 = Some e /\
  pt mu_point (MF FMu 0 0) = eval (pt mu_point) e /\ pt mu_point (MX 0) = (-1)%R /\
  pt mu_point (MF FLam 0 0) = 0%R /\ pt mu_point (MF FLam 0 1) = 2%R /\
  exists r, In r (cf_out (pm_gsw_fun p3)) /\ eval (pt mu_point) r <> 0%R.
Proof.
  destruct (pm_mu00_fun p3) as [f|] eqn:E; [|discriminate]. destruct (nth_error (cf_out f) 0) as [e|] eqn:Ee.
  2: { exfalso. assert (X : match pm_mu00_fun p3 with Some f => match nth_error (cf_out f) 0 with Some _ => true | None => false end | None => false end = true) by (vm_compute; reflexivity).
       rewrite E, Ee in X. discriminate. }
  exists f, e. split; [reflexivity|]. split; [exact Ee|].
  assert (X : match pm_mu00_fun p3 with Some f => match nth_error (cf_out f) 0 with Some e => match evalQ (ptQ mu_point) e with Some q => Qeq_bool q muQ | None => false end | None => false end | None => false end = true) by (vm_compute; reflexivity).
  rewrite E, Ee in X. destruct (evalQ (ptQ mu_point) e) as [q|] eqn:Eq; [|discriminate].
  split; [unfold pt at 2; rewrite (evalQ_sound _ _ _ Eq); symmetry; apply Q2R_eq; exact X|].
  split; [unfold pt; cbn; unfold Q2R; cbn; lra|]. split; [unfold pt; cbn; unfold Q2R; cbn; lra|]. split; [unfold pt; cbn; unfold Q2R; cbn; lra|].
  assert (Y : existsb (fun r => match evalQ (ptQ mu_point) r with Some q => negb (Qeq_bool q 0) | None => false end) (cf_out (pm_gsw_fun p3)) = true) by (vm_compute; reflexivity).
  apply existsb_exists in Y. destruct Y as (r & Hr & Y). exists r. split; [exact Hr|].
  destruct (evalQ (ptQ mu_point) r) as [q'|] eqn:Er; [|discriminate]. unfold pt. rewrite (evalQ_sound _ _ _ Er), <- RMicromega.Q2R_0.
  apply Q2R_neq. apply negb_true_iff, Y.
Qed.
