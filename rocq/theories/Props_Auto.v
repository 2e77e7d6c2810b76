(* Props_Auto.v -- NosnocAutoModel: C59, C60, C61, C62, C63, C72, C73, C89.
   simp is what CasADi does to a node on creation: any function that keeps the value, adds no symbol,
   creates no switching node and does not turn a negated product into a sum. The identity is one. *)
From Coq Require Import Reals Qreals Lra Permutation.
From Verif Require Import Base Lib Sx Utils Tableau Opts Model Ocp Problem Spec Cases Fesd Spec2 Spec3 Spec4 Spec7 Spec18 AutoModel
  Auto_proofs Auto2_proofs Auto3_proofs Witness6 Auto4_proofs.
Local Open Scope nat_scope.

(* ---- C59 ---- *)
(* whatever the object did before: one switching function and one new multiplier per outermost
   switching node, and the rebuilt ODE equals the given one where the multipliers are step functions *)
Theorem C59_rebuild simp : harmless simp -> forall a fs, let r := reformulate_nonlin simp a fs in exists cs,
  am_c (fst r) = am_c a ++ cs /\ am_alpha (fst r) = am_alpha a ++ map (MF FAlpha 0) (seq (length (am_alpha a)) (length cs)) /\
  Forall2 switch_for (concat (map outer fs)) cs /\
  forall rho, (forall k c, nth_error cs k = Some c ->
      (0 < eval rho c /\ rho (MF FAlpha 0 (length (am_alpha a) + k)) = 1)%R \/ (eval rho c < 0 /\ rho (MF FAlpha 0 (length (am_alpha a) + k)) = 0)%R) ->
    map (eval rho) (snd r) = map (eval rho) fs.
Proof. exact (nonlin_any simp). Qed.
Print Assumptions C59_rebuild.
(* the model returned by reformulate(), which takes this path when _detect_additive() is True *)
Theorem C59_model simp ids order nx nu x0 fs : harmless simp -> detect_additive simp fs = true -> exists a' m cs rs,
  reformulate simp ids order nx nu x0 auto_init fs = (a', Ok m) /\ plain_ode nx nu x0 m /\
  m_F m = None /\ m_S m = None /\ m_c m = Some (map (fun c => [c]) cs) /\ m_alpha m = Some [length cs] /\ m_fx m = Some [rs] /\
  Forall2 switch_for (concat (map outer fs)) cs /\
  (forall rho, (forall k c, nth_error cs k = Some c -> (0 < eval rho c /\ rho (MF FAlpha 0 k) = 1)%R \/ (eval rho c < 0 /\ rho (MF FAlpha 0 k) = 0)%R) ->
     map (eval rho) rs = map (eval rho) fs) /\
  length rs = length fs /\
  (forall r y, In r rs -> In y (fv r) -> (exists e, In e fs /\ In y (fv e)) \/ exists k, y = MF FAlpha 0 k /\ k < length cs) /\
  ((forall e, In e fs -> unnested e) -> forall r, In r rs -> smooth r).
Proof. intros HL. exact (step_model_form simp HL ids order nx nu x0 fs). Qed.
Print Assumptions C59_model.
Example C59_case : harmless keep /\ detect_additive keep fsTwo = true /\
  concat (map outer fsTwo) = [EUn USign X0; EBin BFmin X0 X1] /\
  am_c (fst (reformulate_nonlin keep auto_init fsTwo)) = [X0; EBin BSub X0 X1].
Proof. repeat split; try reflexivity; intros; assumption. Qed.

(* ---- C60 ---- *)
(* missing: switching nodes below switching nodes, for which it is false *)
Theorem C60_smooth_partial simp : harmless simp -> forall a fs, (forall e, In e fs -> unnested e) ->
  forall r, In r (snd (reformulate_nonlin simp a fs)) -> smooth r.
Proof. intros HL a fs. exact (reformulate_smooth simp HL fs a). Qed.
Print Assumptions C60_smooth_partial.
Example C60_case : (forall e, In e fsMax -> unnested e) /\ exists e, In e fsMax /\ ~ smooth e.
Proof.
  split; [exact max_unnested|]. exists (EBin BAdd (EUn UNeg X0) (EBin BFmax X0 X1)). split; [now left|].
  intros H. apply check_smooth_ok in H. discriminate.
Qed.
(* max(sign x0, x1): the sign is still there *)
Theorem C60_refuted : exists fs a' m rs r, reformulate keep no_ids same_order 2 0 [0%Q; 0%Q] auto_init fs = (a', Ok m) /\
  m_fx m = Some [rs] /\ In r rs /\ ~ smooth r.
Proof.
  exists fsNest. destruct (C59_model keep no_ids same_order 2 0 [0%Q; 0%Q] fsNest harmless_id nestD) as (a' & m & cs & rs0 & E & _).
  destruct (nest_not_smooth _ _ E) as (rs & r & H). exists a', m, rs, r. split; [exact E|exact H].
Qed.
Print Assumptions C60_refuted.

(* ---- C61 ---- *)
Theorem C61_sum simp : harmless simp -> forall rho e, rsum (map (eval rho) (find_components simp e)) = eval rho e.
Proof. exact (components_sum simp). Qed.
Print Assumptions C61_sum.
Theorem C61_not_sums simp : harmless simp -> forall e c, In c (find_components simp e) -> ~ sum_like c.
Proof. exact (components_not_sums simp). Qed.
Print Assumptions C61_not_sums.
Example C61_case : find_components keep (EBin BSub X0 (EBin BAdd X1 (EBin BMul X0 X1))) = [X0; EUn UNeg X1; EUn UNeg (EBin BMul X0 X1)].
Proof. reflexivity. Qed.

(* ---- C62 ---- *)
Theorem C62_check_smooth e : check_smooth e = true <-> smooth e.
Proof. exact (check_smooth_ok e). Qed.
Print Assumptions C62_check_smooth.
Example C62_case : check_smooth (EUn USin (EBin BMul X0 X1)) = true /\ check_smooth (EUn USin (EBin BMul X0 (EUn USign X1))) = false.
Proof. split; reflexivity. Qed.

(* ---- C63 ---- *)
(* Filippov systems. ids gives the node identity of the switching function of component j of row i; two
   of them are equal exactly when the expressions are (one SX node is shared). Missing: components with
   several switching nodes, fmin, rows without a smooth part: false, below. *)
Theorem C63_filippov_partial simp ids order nx nu x0 fs : harmless simp ->
  (forall l, Permutation (order l) l) -> detect_additive simp fs = false ->
  (forall f e, In f fs -> In e (find_components simp f) -> ~ smooth e -> exists n, outer e = [n] /\ is_min n = false) ->
  (forall i j n i' j' n', switch_at simp fs i j n -> switch_at simp fs i' j' n' -> (ids i j = ids i' j' <-> switch_of simp n = switch_of simp n')) ->
  (forall f, In f fs -> exists e, In e (find_components simp f) /\ smooth e) ->
  (exists f e, In f fs /\ In e (find_components simp f) /\ ~ smooth e) ->
  exists a' m Fl cs Sl, reformulate simp ids order nx nu x0 auto_init fs = (a', Ok m) /\ plain_ode nx nu x0 m /\
  m_F m = Some Fl /\ m_S m = Some Sl /\ m_c m = Some (map (fun c => [c]) cs) /\ m_alpha m = None /\ m_fx m = None /\
  length Fl = length cs /\ length Sl = length cs /\ NoDup cs /\ (forall Sm, In Sm Sl -> Sm = [[1%Q]; [(-1)%Q]]) /\
  (forall c, In c cs -> exists f e n, In f fs /\ In e (find_components simp f) /\ outer e = [n] /\ switch_for n c) /\
  (forall rho ks, length ks = length cs -> (forall s c sw k, nth_error cs s = Some c -> nth_error Sl s = Some sw -> nth_error ks s = Some k -> chosen rho c sw k) ->
    forall i f, nth_error fs i = Some f -> row_value rho Fl ks i = eval rho f) /\
  (length fs = nx -> (forall e, In e fs -> uses_only (ode_sym nx nu) e) -> (forall c, In c cs -> uses_only (fun y => exists i, y = MX i /\ i < nx) c) ->
   forall o, (exists pm, preprocess_model o m = Ok pm) <-> o_time_freezing o = false).
Proof. intros HL. exact (filippov_model_form simp HL ids order nx nu x0 fs). Qed.
Print Assumptions C63_filippov_partial.
Example C63_case : harmless keep /\ (forall l, Permutation (same_order l) l) /\ detect_additive keep fsExp = false /\
  (forall f e, In f fsExp -> In e (find_components keep f) -> ~ smooth e -> exists n, outer e = [n] /\ is_min n = false) /\
  (forall i j n i' j' n', switch_at keep fsExp i j n -> switch_at keep fsExp i' j' n' -> (exp_ids i j = exp_ids i' j' <-> switch_of keep n = switch_of keep n')) /\
  (forall f, In f fsExp -> exists e, In e (find_components keep f) /\ smooth e) /\
  (exists f e, In f fsExp /\ In e (find_components keep f) /\ ~ smooth e).
Proof. exact (conj harmless_id (conj (fun l => Permutation_refl l) (conj expD (conj exp_one (conj exp_same (conj exp_smooth exp_some)))))). Qed.
(* x0 + sign x0 * sign x1: the second sign is lost; at (1, -1) the model gives 2 instead of 0 *)
Theorem C63_value_refuted : exists fs a' m Fl c Sm rho, reformulate keep no_ids same_order 1 0 [0%Q] auto_init fs = (a', Ok m) /\
  m_F m = Some Fl /\ m_c m = Some [[c]] /\ m_S m = Some [Sm] /\ chosen rho c Sm 0 /\ row_value rho Fl [0] 0 = 2%R /\ map (eval rho) fs = [0%R].
Proof.
  destruct prod_made as (a' & m & E). destruct (prod_wrong a' m E) as (Fl & c & Sm & H). exists fsProd, a', m, Fl, c, Sm, at11. split; [exact E|exact H].
Qed.
Print Assumptions C63_value_refuted.
(* x0 + (x0 * min(x0, x1)) * x1 raises ValueError; (x0 * sign x0) * x1 raises IndexError *)
Theorem C63_min_refuted : exists fs, snd (reformulate keep no_ids same_order 2 0 [0%Q; 0%Q] auto_init fs) = Err EValueError /\
  exists f e n, In f fs /\ In e (find_components keep f) /\ outer e = [n] /\ is_min n = true.
Proof.
  exists fsMin. split; [exact min_raises|]. eexists _, _, _. split; [left; reflexivity|]. split; [right; left; reflexivity|]. split; reflexivity.
Qed.
Print Assumptions C63_min_refuted.
Theorem C63_no_smooth_part_refuted : exists fs, snd (reformulate keep no_ids same_order 2 0 [0%Q; 0%Q] auto_init fs) = Err EIndexError /\
  exists f n, In f fs /\ find_components keep f = [f] /\ outer f = [n] /\ is_min n = false.
Proof. exists fsBare. split; [exact bare_raises|]. eexists _, _. split; [left; reflexivity|]. split; [reflexivity|]. split; reflexivity. Qed.
Print Assumptions C63_no_smooth_part_refuted.
(* a smooth right-hand side is refused *)
Theorem C63_smooth_refuted : exists fs, (forall f, In f fs -> smooth f) /\
  snd (reformulate keep no_ids same_order 2 0 [0%Q; 0%Q] auto_init fs) = Err EIndexError.
Proof. exists [X1; X0]. split; [|exact smooth_raises]. intros f [<-|[<-|[]]]; apply check_smooth_ok; reflexivity. Qed.
Print Assumptions C63_smooth_refuted.

(* ---- C72: the returned model can be used ---- *)
(* on the step path preprocess_model() accepts it iff there is exactly one switch and pss_mode is STEP *)
Theorem C72_step simp ids order nx nu x0 fs a' m o : harmless simp -> detect_additive simp fs = true ->
  reformulate simp ids order nx nu x0 auto_init fs = (a', Ok m) -> length fs = nx ->
  (forall e, In e fs -> uses_only (ode_sym nx nu) e) ->
  (forall e n y, In e fs -> In n (outer e) -> In y (fv n) -> exists i, y = MX i /\ i < nx) ->
  (exists pm, preprocess_model o m = Ok pm) <-> o_pss o = Step /\ length (concat (map outer fs)) = 1 /\ o_time_freezing o = false.
Proof. exact (step_accepted simp ids order nx nu x0 fs a' m o). Qed.
Print Assumptions C72_step.
Example C72_step_case : harmless keep /\ detect_additive keep fsMax = true /\ length (concat (map outer fsMax)) = 1 /\
  (forall e, In e fsMax -> uses_only (ode_sym 2 0) e) /\
  (forall e n y, In e fsMax -> In n (outer e) -> In y (fv n) -> exists i, y = MX i /\ i < 2) /\
  exists a' m, reformulate keep no_ids same_order 2 0 [0%Q; 0%Q] auto_init fsMax = (a', Ok m).
Proof. exact (conj harmless_id (conj maxD (conj eq_refl (conj max_uses (conj max_switch max_made))))). Qed.
(* two switches (sign x0 and min(x0, x1)): no option makes preprocess_model() accept the model *)
Theorem C72_two_switches_refuted : exists fs a' m, reformulate keep no_ids same_order 2 0 [0%Q; 0%Q] auto_init fs = (a', Ok m) /\
  (forall e, In e fs -> unnested e /\ uses_only (ode_sym 2 0) e) /\ forall o pm, preprocess_model o m <> Ok pm.
Proof. exact two_unusable. Qed.
Print Assumptions C72_two_switches_refuted.

(* ---- C73: a second call of reformulate() ---- *)
Theorem C73_second_call simp ids order nx nu x0 fs : harmless simp -> detect_additive simp fs = true ->
  exists a1 m1 a2 m2 cs1 cs2, reformulate simp ids order nx nu x0 auto_init fs = (a1, Ok m1) /\ reformulate simp ids order nx nu x0 a1 fs = (a2, Ok m2) /\
  m_c m1 = Some (map (fun e => [e]) cs1) /\ m_c m2 = Some (map (fun e => [e]) (cs1 ++ cs2)) /\
  length cs1 = length (concat (map outer fs)) /\ length cs2 = length (concat (map outer fs)).
Proof. exact (twice simp ids order nx nu x0 fs). Qed.
Print Assumptions C73_second_call.
Theorem C73_refuted : exists fs a1 m1 a2 m2, reformulate keep no_ids same_order 2 0 [0%Q; 0%Q] auto_init fs = (a1, Ok m1) /\
  reformulate keep no_ids same_order 2 0 [0%Q; 0%Q] a1 fs = (a2, Ok m2) /\
  (exists o pm, preprocess_model o m1 = Ok pm) /\ (forall o pm, preprocess_model o m2 <> Ok pm).
Proof. exact second_unusable. Qed.
Print Assumptions C73_refuted.

(* ---- C89: which path reformulate() takes ---- *)
Theorem C89_check_additive e : check_additive e = true <-> additive e.
Proof. exact (check_additive_ok e). Qed.
Print Assumptions C89_check_additive.
(* a single additive component anywhere leads to the model with step functions; without one it is a Filippov system *)
Theorem C89_path_partial simp ids order nx nu x0 a fs a' m : reformulate simp ids order nx nu x0 a fs = (a', Ok m) ->
  plain_ode nx nu x0 m /\
  ((exists f e, In f fs /\ In e (find_components simp f) /\ additive e) -> m_F m = None /\ m_S m = None /\ m_fx m <> None /\ m_alpha m <> None) /\
  (~ (exists f e, In f fs /\ In e (find_components simp f) /\ additive e) -> m_F m <> None /\ m_S m <> None /\ m_fx m = None /\ m_alpha m = None).
Proof. exact (path_taken simp ids order nx nu x0 a fs a' m). Qed.
Print Assumptions C89_path_partial.
Example C89_case : (exists a' m, reformulate keep no_ids same_order 2 0 [0%Q; 0%Q] auto_init fsMax = (a', Ok m)) /\ detect_additive keep fsMax = true /\
  detect_additive keep fsExp = false /\ exists a' m, reformulate keep exp_ids same_order 2 0 [0%Q; 0%Q] auto_init fsExp = (a', Ok m).
Proof. split; [exact max_made|]. split; [reflexivity|]. split; [reflexivity|]. vm_compute. eexists _, _. reflexivity. Qed.
(* x' = -sign x is additive, but does not become a Filippov system and cannot be used with STEWART *)
Theorem C89_refuted : exists fs a' m, (forall f e, In f fs -> In e (find_components keep f) -> additive e) /\
  reformulate keep no_ids same_order 1 0 [0%Q] auto_init fs = (a', Ok m) /\ m_F m = None /\ forall o pm, o_pss o = Stewart -> preprocess_model o m <> Ok pm.
Proof. destruct relay_lost as (a' & m & H). exists fsRelay, a', m. exact (conj relay_additive H). Qed.
Print Assumptions C89_refuted.
