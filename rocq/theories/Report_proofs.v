(* Report_proofs.v -- statistics and cost in the results of solve(), plots *)
From Coq Require Import Reals Qreals Lra.
From Verif Require Import Base Lib Sx Utils Tableau Opts Model Ocp Problem Numeric Rk4 Results Solver Looper Plot Spec Fesd Spec2 Spec3 Spec4 Spec5 Spec6 Spec16
  Dcs_proofs Results4_proofs Results5_proofs Solve_proofs Solve2_proofs Polish_proofs Solve3_proofs Solve4_proofs Looper_proofs.
Local Open Scope nat_scope.

(* ---- all NLP solves of a polishing step ---- *)
Section Calls.
Variables (nlp : nat -> nlp_call -> res nlp_ret) (C : constructed) (lam : list R).
Notation O := (the_opts C).
Notation call_p lb ub v s := (mkCall v lb ub (lbg (the_nlp C)) (ubg (the_nlp C)) (setup_p_val s lam 0 0)).

Lemma stage_whole lb ub v c s s' q : polish_stage nlp C lam lb ub v c s = (s', Ok q) ->
  exists r, nlp (ss_calls s) (call_p lb ub v s) = Ok r /\ q = mkPolished (nr_x r) (nr_cpu r) (nr_iter r) (nr_status r).
Proof.
  intros F. pose proof (polish_stage_ok _ _ _ _ _ _ _ _ _ _ F) as (_ & r & Er & _). exists r. split; [exact Er|].
  unfold polish_stage in F. cbv zeta in F. apply sbind_ok in F. destruct F as (s1 & nfe & F1 & F). apply lift_ok in F1. destruct F1 as [-> _].
  apply sbind_ok in F. destruct F as (s2 & u & F1 & F).
  assert (E2 : s2 = s).
  { assert (K : keeps (@eq sstate) (sfor (fun e => dos l1 <- lift (nthE EIndexError (p_ind2 (pr (cn_prob C)) FTheta) c);
        dos l2 <- lift (nthE EIndexError l1 e); lift (touch_theta v l2)) (seq 0 nfe))).
    { apply keeps_for; [reflexivity|intros; congruence|]. intros e. apply keeps_bind; [intros; congruence|apply keeps_lift; reflexivity|].
      intros l1. apply keeps_bind; [intros; congruence|apply keeps_lift; reflexivity|]. intros l2. apply keeps_lift; reflexivity. }
    symmetry. exact (keeps_out _ _ _ _ _ K F1). }
  subst s2. apply sbind_ok in F. destruct F as (s3 & s0 & F2 & F). apply sget_ok in F2. destruct F2 as [-> ->].
  apply sbind_ok in F. destruct F as (s4 & r' & F2 & F). unfold call_nlp in F2. injection F2 as <- Er'.
  apply sbind_ok in F. destruct F as (s5 & cr & F2 & F). apply lift_ok in F2. destruct F2 as [-> _]. apply sret_ok in F. destruct F as [-> ->].
  fold (the_problem C) (the_nlp C) in Er'. change (pb (pr (cn_prob C))) with (the_nlp C) in Er'. rewrite Er in Er'. injection Er' as <-. reflexivity.
Qed.
Lemma from_all lb ub v l : forall s s' q, polish_from (polish_stage nlp C lam lb ub v) l s = (s', Ok q) ->
  exists rs rl, length rs = length l /\ (forall k r, nth_error rs k = Some r -> nlp (ss_calls s + k) (call_p lb ub v s) = Ok r) /\ last_is rs rl /\
    q = mkPolished (nr_x rl) (nr_cpu rl) (nr_iter rl) (nr_status rl).
Proof.
  induction l as [|c l IH]; intros s s' q F; [discriminate|]. destruct l as [|c' l].
  - cbn [polish_from] in F. apply stage_whole in F. destruct F as (r & Er & Eq). exists [r], r. split; [reflexivity|]. split; [|split; [split; [cbn; lia|reflexivity]|exact Eq]].
    intros [|k] r' Hr; [injection Hr as <-; rewrite Nat.add_0_r; exact Er|destruct k; discriminate Hr].
  - assert (F' : (dos _ <- polish_stage nlp C lam lb ub v c; polish_from (polish_stage nlp C lam lb ub v) (c' :: l)) s = (s', Ok q)) by exact F.
    apply sbind_ok in F'. destruct F' as (s1 & q1 & F1 & F2). pose proof (keeps_out _ _ _ _ _ (polish_stage_keeps nlp C lam lb ub v c) F1) as (K1 & K2 & _).
    pose proof (polish_stage_ok _ _ _ _ _ _ _ _ _ _ F1) as (A & _). apply stage_whole in F1. destruct F1 as (r0 & Er0 & _).
    destruct (IH s1 s' q F2) as (rs & rl & L & N & [L1 La] & Eq). exists (r0 :: rs), rl. split; [cbn [length] in *; lia|]. split; [|split; [split; [cbn; lia|]|exact Eq]].
    + intros [|k] r Hr; cbn [nth_error] in Hr; [injection Hr as <-; rewrite Nat.add_0_r; exact Er0|].
      specialize (N k r Hr). rewrite A in N. replace (ss_calls s + S k) with (S (ss_calls s) + k) by lia. unfold setup_p_val in *. rewrite K1, K2 in N. exact N.
    + cbn [length]. replace (S (length rs) - 1) with (S (length rs - 1)) by lia. exact La.
Qed.
Lemma polish_all v s s' q : polish_solution nlp C lam v s = (s', Ok q) -> exists c rs rl, nc_x0 c = v /\ length rs = o_N_stages O /\
  (forall k r, nth_error rs k = Some r -> nlp (ss_calls s + k) c = Ok r) /\ last_is rs rl /\ q = mkPolished (nr_x rl) (nr_cpu rl) (nr_iter rl) (nr_status rl).
Proof.
  intros F. rewrite polish_unfold in F. apply sbind_ok in F. destruct F as (s1 & u & F1 & F). apply lift_ok in F1. destruct F1 as [-> _].
  apply sbind_ok in F. destruct F as (s2 & b & F1 & F). apply lift_ok in F1. destruct F1 as [-> Eb].
  apply from_all in F. rewrite seq_length in F. destruct F as (rs & rl & A1 & A2 & A3 & A4).
  exists (call_p (fst b) (snd b) v s), rs, rl. repeat split; try assumption; apply A3.
Qed.
End Calls.

Lemma pad_nth {A} n (l : list A) k : nth_error (pad n l) k = match nth_error l k with Some a => Some (Some a) | None => if k <? n then Some None else None end.
Proof.
  unfold pad. destruct (nth_error l k) as [a|] eqn:E.
  - rewrite nth_error_app1 by (rewrite map_length; apply nth_error_Some; congruence). rewrite nth_error_map, E. reflexivity.
  - apply nth_error_None in E. rewrite nth_error_app2, map_length by (rewrite map_length; lia).
    destruct (k <? n) eqn:L; [apply Nat.ltb_lt in L|apply Nat.ltb_ge in L].
    + apply nth_error_repeat. lia.
    + apply nth_error_None. rewrite repeat_length. lia.
Qed.
Lemma pad_len {A} n (l : list A) : length l <= n -> length (pad n l) = n.
Proof. intros L. unfold pad. rewrite app_length, map_length, repeat_length. lia. Qed.

Lemma rsum_app a b : rsum (a ++ b) = (rsum a + rsum b)%R.
Proof. unfold rsum. induction a as [|x a IH]; cbn [app fold_right]; [lra|]. rewrite IH. lra. Qed.
Lemma rsum_zero {A} (f : A -> R) l : (forall a, In a l -> f a = 0%R) -> rsum (map f l) = 0%R.
Proof. intros Z. unfold rsum. induction l as [|x l IH]; [reflexivity|]. cbn [map fold_right]. rewrite Z by (left; reflexivity). rewrite IH by (intros; apply Z; right; assumption). lra. Qed.
Lemma pad_sum n l : rsum (map or_zero (pad n l)) = rsum l.
Proof.
  unfold pad. rewrite map_app, rsum_app, map_map. rewrite (rsum_zero or_zero (repeat None _)) by (intros a Ha; apply repeat_spec in Ha; subst a; reflexivity).
  cbn [or_zero]. rewrite map_id. lra.
Qed.

Section Con.
Variables (lr : Q -> Q -> Q -> nat) (cp : nat -> scheme -> list Q) (d : ipopt_dict)
  (o : opts) (m : model) (oc : option ocp) (C : constructed).
Hypothesis H : construct_problem lr cp d o m oc = Ok C.
Notation O := (the_opts C).

Lemma solve_stats nlp s s' out : solve nlp C s = (s', Ok out) -> let n := o_max_iter_homotopy O in exists c rs,
  length rs = (if o_do_polishing O then o_N_stages O else 0) /\ ss_calls s' = ss_calls s + length (so_steps out) + length rs /\
  (forall k r, nth_error rs k = Some r -> nlp (ss_calls s + length (so_steps out) + k) c = Ok r) /\
  length (so_cpu out) = n + (if o_do_polishing O then 1 else 0) /\ length (so_iter out) = n + (if o_do_polishing O then 1 else 0) /\
  (forall k h, nth_error (so_steps out) k = Some h ->
     nth_error (so_cpu out) k = Some (Some (nr_cpu (hs_ret h))) /\ nth_error (so_iter out) k = Some (Some (nr_iter (hs_ret h)))) /\
  (forall k, length (so_steps out) <= k -> k < n -> nth_error (so_cpu out) k = Some None /\ nth_error (so_iter out) k = Some None) /\
  (forall r, last_is rs r -> nth_error (so_cpu out) n = Some (Some (nr_cpu r)) /\ nth_error (so_iter out) n = Some (Some (nr_iter r)) /\ so_w_sol out = nr_x r) /\
  (forall r, last_is rs r -> rsum (map or_zero (so_cpu out)) = (rsum (map (fun h => nr_cpu (hs_ret h)) (so_steps out)) + nr_cpu r)%R) /\
  (rs = [] -> rsum (map or_zero (so_cpu out)) = rsum (map (fun h => nr_cpu (hs_ret h)) (so_steps out))).
Proof.
  intros E. cbv zeta. pose proof (solve_count _ _ _ _ _ _ _ H nlp s s' out E) as ((_ & Lm) & SC & _).
  apply solve_inv in E. destruct E as [(s1 & s2 & s3 & lam & w1 & lb & ub & h & I & SV & HH & LA & PO & EW & ES & _ & _ & _ & EI & Ecpu & Eit)].
  pose proof (keeps_out _ _ _ _ _ (initialize_keeps C) I) as (K1 & K2 & K3).
  pose proof (homotopy_loop _ _ _ _ _ _ _ _ _ _ _ HH) as LO. pose proof (lo_calls _ _ _ _ _ _ _ _ _ _ _ LO) as LC.
  set (n := o_max_iter_homotopy O) in *. 
  assert (D : exists c rs, length rs = (if o_do_polishing O then o_N_stages O else 0) /\
    (forall k r, nth_error rs k = Some r -> nlp (ss_calls s + length (so_steps out) + k) c = Ok r) /\
    match so_polish out with Some q => o_do_polishing O = true /\ exists rl, last_is rs rl /\ q = mkPolished (nr_x rl) (nr_cpu rl) (nr_iter rl) (nr_status rl)
      | None => rs = [] /\ o_do_polishing O = false end).
  { destruct (so_polish out) as [q|].
    - destruct PO as [Ed PO]. apply polish_all in PO. destruct PO as (c & rs & rl & _ & L & N & La & Eq). exists c, rs. rewrite Ed. split; [exact L|]. split.
      + intros k r Hr. specialize (N k r Hr). rewrite LC, K3 in N. exact N.
      + split; [reflexivity|]. exists rl. auto.
    - destruct PO as [Ed ->]. exists (mkCall [] [] [] [] [] []), []. rewrite Ed. split; [reflexivity|]. split; [intros [|k] r Hr; discriminate Hr|auto]. }
  destruct D as (c & rs & L & N & Q). exists c, rs. split; [exact L|]. split; [rewrite L; exact SC|]. split; [exact N|].
  assert (U : forall r r', last_is rs r -> last_is rs r' -> r = r') by (intros r r' [_ A] [_ B]; congruence).
  assert (Lc : length (map (fun h => nr_cpu (hs_ret h)) (so_steps out)) <= n) by (rewrite map_length; exact Lm).
  assert (Li : length (map (fun h => nr_iter (hs_ret h)) (so_steps out)) <= n) by (rewrite map_length; exact Lm).
  rewrite Ecpu, Eit, !app_length, (pad_len _ _ Lc), (pad_len _ _ Li).
  split. { destruct (so_polish out); [destruct Q as [-> _]|destruct Q as [_ ->]]; reflexivity. }
  split. { destruct (so_polish out); [destruct Q as [-> _]|destruct Q as [_ ->]]; reflexivity. }
  split. { intros k h0 Hk. assert (k < length (so_steps out)) by (apply nth_error_Some; congruence).
    rewrite !nth_error_app1 by (rewrite ?(pad_len _ _ Lc), ?(pad_len _ _ Li); lia). rewrite !pad_nth, !nth_error_map, Hk. auto. }
  split. { intros k A B. rewrite !nth_error_app1 by (rewrite ?(pad_len _ _ Lc), ?(pad_len _ _ Li); lia). rewrite !pad_nth, !nth_error_map.
    apply nth_error_None in A. rewrite A. cbn [option_map]. apply Nat.ltb_lt in B. rewrite B. auto. }
  split. { intros r Hr. destruct (so_polish out) as [q|].
    - destruct Q as [_ (rl & Hl & ->)]. rewrite <- (U _ _ Hr Hl). rewrite !nth_error_app2, (pad_len _ _ Lc), (pad_len _ _ Li), Nat.sub_diag by (rewrite ?(pad_len _ _ Lc), ?(pad_len _ _ Li); lia).
      cbn [nth_error po_cpu po_iter]. split; [reflexivity|]. split; [reflexivity|]. rewrite EW, <- (U _ _ Hr Hl). reflexivity.
    - destruct Q as [-> _]. destruct Hr as [Hr _]. cbn in Hr. lia. }
  rewrite map_app, rsum_app, pad_sum. split.
  - intros r Hr. destruct (so_polish out) as [q|].
    + destruct Q as [_ (rl & Hl & ->)]. rewrite <- (U _ _ Hr Hl). cbn. lra.
    + destruct Q as [-> _]. destruct Hr as [Hr _]. cbn in Hr. lia.
  - intros ->. destruct (so_polish out) as [q|].
    + destruct Q as [_ (rl & [Hl _] & _)]. cbn in Hl. lia.
    + cbn. lra.
Qed.

(* the reported cost *)
Lemma cost_reported nlp s s' out h rho : solve nlp C s = (s', Ok out) -> reports_objective C nlp -> last_is (so_steps out) h ->
  primal C rho = nr_x (hs_ret h) -> parameters C rho = nc_p (hs_call h) -> so_cost out = Rabs (eval rho (cost (the_nlp C))).
Proof.
  intros E T La P1 P2. pose proof (solve_count _ _ _ _ _ _ _ H nlp s s' out E) as (_ & _ & SC & _).
  apply solve_inv in E. destruct E as [(s1 & s2 & s3 & lam & w1 & lb & ub & h' & _ & _ & _ & LA & _ & _ & _ & Ec & _)].
  apply lastE_is in LA. assert (h' = h) by (destruct La, LA; congruence). subst h'. rewrite Ec.
  f_equal. destruct La as [_ La]. exact (T _ _ _ rho (SC _ _ La) P1 P2).
Qed.
End Con.

(* without polishing the reported solution is the point of the last pass *)
Lemma cost_at_solution lr cp d o m oc C nlp s s' out h rho : construct_problem lr cp d o m oc = Ok C -> solve nlp C s = (s', Ok out) ->
  reports_objective C nlp -> o_do_polishing (the_opts C) = false -> last_is (so_steps out) h ->
  primal C rho = so_w_sol out -> parameters C rho = nc_p (hs_call h) ->
  so_cost out = Rabs (eval rho (cost (the_nlp C))) /\ ((0 <= eval rho (cost (the_nlp C)))%R -> so_cost out = eval rho (cost (the_nlp C))).
Proof.
  intros H E T Ed La P1 P2. assert (A : so_cost out = Rabs (eval rho (cost (the_nlp C)))).
  { apply (cost_reported _ _ _ _ _ _ _ H nlp s s' out h rho E T La); [|exact P2]. rewrite P1.
    destruct (solve_last _ _ _ _ _ _ _ H nlp s s' out E) as (_ & _ & _ & c & r & _ & EW & _ & L & _). destruct (L Ed) as (h' & Lh & _ & Eh).
    assert (h' = h) by (destruct La, Lh; congruence). subst h'. congruence. }
  split; [exact A|]. intros P. rewrite A. apply Rabs_pos_eq. exact P.
Qed.
