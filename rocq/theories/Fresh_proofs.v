(* Fresh_proofs.v -- the outcome of solve() does not depend on earlier solves *)
From Coq Require Import Reals Qreals.
From Verif Require Import Base Lib Sx Utils Tableau Opts Model Ocp Problem Numeric Rk4 Results Solver Spec Fesd Spec2 Spec3 Spec4 Spec5 Init_proofs Set_proofs Hist_proofs Spec41.

Notation same := (simul (@eq (list R))).
Lemma same_bind {A B} (x : se sstate A) (k : A -> se sstate B) : same x x -> (forall a, same (k a) (k a)) -> same (sbind x k) (sbind x k).
Proof. intros X K. apply (sim_bind eq); assumption. Qed.
Lemma same_get {B} (k : sstate -> se sstate B) : (forall s s', srel eq s s' -> same (k s) (k s')) -> same (sbind sget k) (sbind sget k).
Proof. intros K s s' R. unfold sbind, sget. exact (K s s' R s s' R). Qed.
Lemma same_lift {A} (r : res A) : same (lift r) (lift r). Proof. apply sim_lift. Qed.
Lemma same_ret {A} (r : A) : same (sret r) (sret r). Proof. apply sim_ret. Qed.
Lemma same_p s s' lam sigma tau : srel eq s s' -> setup_p_val s' lam sigma tau = setup_p_val s lam sigma tau.
Proof. intros (E1 & E2 & _). unfold setup_p_val. rewrite E1, E2. reflexivity. Qed.

Section Memory.
Variable nlp : nat -> nlp_call -> res nlp_ret.
Hypothesis M : memoryless nlp.
Lemma same_call c : same (call_nlp nlp c) (call_nlp nlp c).
Proof. intros s s' (E1 & E2 & E3). unfold call_nlp. cbn. split; [repeat split; cbn; assumption|apply M]. Qed.
Lemma same_homotopy C lam lb ub n : forall sigma w, same (homotopy nlp C lam lb ub n sigma w) (homotopy nlp C lam lb ub n sigma w).
Proof.
  induction n as [|n IH]; intros sigma w; [apply same_ret|]. cbn [homotopy]. apply same_get. intros s s' R.
  apply (sim_bind eq); [apply same_lift|]. intros t. cbv zeta. rewrite (same_p s s' lam sigma (Rmin t sigma) R).
  apply same_bind; [apply same_call|]. intros r. apply same_bind; [apply same_lift|]. intros cr. destruct (Rltb _ _); [apply same_ret|]. destruct (Rleb _ _); [apply same_ret|].
  apply same_bind; [apply same_lift|]. intros sigma'. apply same_bind; [apply IH|]. intros rest. apply same_ret.
Qed.
Lemma same_stage C lam lb ub w c : same (polish_stage nlp C lam lb ub w c) (polish_stage nlp C lam lb ub w c).
Proof.
  unfold polish_stage. apply same_bind; [apply same_lift|]. intros nfe. apply same_bind.
  { apply sim_for. intros e. apply same_bind; [apply same_lift|]. intros l1. apply same_bind; [apply same_lift|]. intros l2. apply same_lift. }
  intros _. apply same_get. intros s s' R. cbv zeta. rewrite (same_p s s' lam 0 0 R).
  apply same_bind; [apply same_call|]. intros r. apply same_bind; [apply same_lift|]. intros _. apply same_ret.
Qed.
Lemma same_polish C lam w : same (polish_solution nlp C lam w) (polish_solution nlp C lam w).
Proof.
  unfold polish_solution. apply same_bind; [apply same_lift|]. intros _. apply same_bind; [apply same_lift|]. intros b. cbv zeta.
  induction (seq 0 (o_N_stages (pr_o (cn_prob C)))) as [|c l IH]; [apply sim_raise|]. destruct l as [|c2 l]; [apply same_stage|].
  apply same_bind; [apply same_stage|]. intros _. exact IH.
Qed.
(* solve() after initialize() *)
Definition after_init (C : constructed) (lam00 : list R) : se sstate solve_out :=
  let Pr := cn_prob C in
  let o := pr_o Pr in
  let P := pr Pr in
  dos s <- sget;
  dos st <- lift (start_values o P lam00 (ss_w0 s));
  let '(w1, lb, ub) := st in
  dos steps <- homotopy nlp C lam00 lb ub (o_max_iter_homotopy o) (Q2R (o_sigma_0 o)) w1;
  dos last <- lift (lastE EUnboundLocal steps);
  dos pol <- (if o_do_polishing o
              then dos q <- polish_solution nlp C lam00 (nr_x (hs_ret last)); sret (Some q)
              else sret None);
  let w_opt := match pol with Some q => po_w q | None => nr_x (hs_ret last) end in
  let stat := match pol with Some q => po_status q | None => nr_status (hs_ret last) end in
  dos s2 <- sget;
  dos rs <- lift (get_results Pr (ss_x0 s2) w_opt);
  dos _ <- match o_init o with
           | AllXcurrentWoptPrev => update_w0 (fun w => bcast (length w) w_opt)
           | _ => sret tt
           end;
  let n := o_max_iter_homotopy o in
  sret (mkOut rs
    (pad n (map (fun h => nr_cpu (hs_ret h)) steps) ++ match pol with Some q => [Some (po_cpu q)] | None => [] end)
    (pad n (map (fun h => nr_iter (hs_ret h)) steps) ++ match pol with Some q => [Some (po_iter q)] | None => [] end)
    (ss_w0 s :: map (fun h => nr_x (hs_ret h)) steps)
    w_opt
    (Rabs (nr_f (hs_ret last)))
    (if check_ipopt_success stat then SUCCESS else INFEASIBLE)
    steps pol).
Lemma solve_split C : solve nlp C = sbind (initialize C) (after_init C). Proof. reflexivity. Qed.
Lemma same_after C lam : same (after_init C lam) (after_init C lam).
Proof.
  unfold after_init. cbv zeta. apply same_get. intros s s' (E1 & E2 & E3). rewrite <- E3. apply same_bind; [apply same_lift|]. intros [[w1 lb] ub].
  apply same_bind; [apply same_homotopy|]. intros steps. apply same_bind; [apply same_lift|]. intros h. apply same_bind.
  { destruct (o_do_polishing _); [|apply same_ret]. apply same_bind; [apply same_polish|]. intros q. apply same_ret. }
  intros pol. apply same_get. intros s2 s2' (F1 & F2 & F3). rewrite F1. apply same_bind; [apply same_lift|]. intros rs. apply same_bind; [|intros _; apply same_ret].
  destruct (o_init _); try apply same_ret. apply sim_update. intros a b ->. unfold rres. destruct (bcast _ _); reflexivity.
Qed.
Section Con.
Variables (lr : Q -> Q -> Q -> nat) (cp : nat -> scheme -> list Q) (d : ipopt_dict)
  (o : opts) (m : model) (oc : option ocp) (C : constructed).
Hypothesis H : construct_problem lr cp d o m oc = Ok C.
Lemma initialize_w0 s : o_init (the_opts C) = AllXcurrentW0Start -> 0 < m_nx m -> sized C m s ->
  initialize C s = match compute_lambda00 (pr_pm (cn_prob C)) (ss_x0 s) (ss_pval s) with
    | Ok lam => (mkState (ss_x0 s) (ss_pval s) (with_states C (ss_w0 s) (ss_x0 s)) (ss_calls s), Ok lam) | Err e => (s, Err e) end.
Proof.
  intros I Hx Z. unfold initialize. cbv zeta. change (pr_o (cn_prob C)) with (the_opts C). change (pr (cn_prob C)) with (the_problem C). rewrite I.
  unfold sbind at 1. unfold sget at 1. unfold sbind at 1. unfold lift at 1. destruct (compute_lambda00 _ _ _) as [lam|e]; [|reflexivity].
  unfold sbind. rewrite (init_states _ _ _ _ _ _ _ H s Hx Z). reflexivity.
Qed.
Lemma same_w0_start s s' : o_init (the_opts C) = AllXcurrentW0Start -> 0 < m_nx m -> sized C m s -> sized C m s' ->
  srel (off_states C) s s' -> snd (solve nlp C s) = snd (solve nlp C s').
Proof.
  intros I Hx Z Z' (E1 & E2 & E3). rewrite solve_split. unfold sbind. rewrite (initialize_w0 s I Hx Z), (initialize_w0 s' I Hx Z'), E1, E2.
  destruct (compute_lambda00 _ _ _) as [lam|e]; [|reflexivity]. apply (same_after C lam). repeat split. cbn. apply off_with_eq; [exact (sz_w0 _ _ _ Z)|exact E3].
Qed.
Lemma same_external s s' : o_init (the_opts C) = External -> srel eq s s' -> snd (solve nlp C s) = snd (solve nlp C s').
Proof.
  intros I (E1 & E2 & E3). rewrite solve_split. unfold sbind, initialize. cbv zeta. change (pr_o (cn_prob C)) with (the_opts C). rewrite I. unfold sbind, sget, lift. rewrite E1, E2.
  destruct (compute_lambda00 _ _ _) as [lam|e]; [|reflexivity]. unfold sret. apply (same_after C lam). repeat split; assumption.
Qed.
Lemma sets_shape l : (forall a, In a l -> right_shape C m a) -> forall a, In a (sets_only l) -> right_shape C m a.
Proof. intros R a Ha. apply filter_In in Ha. apply R, Ha. Qed.
Lemma fresh l : o_init (the_opts C) = AllXcurrentW0Start \/ o_init (the_opts C) = External -> 0 < m_nx m -> (forall a, In a l -> right_shape C m a) ->
  snd (solve nlp C (history nlp C l)) = snd (solve nlp C (history nlp C (sets_only l))).
Proof.
  intros I Hx R. destruct I as [I|I].
  - apply same_w0_start; [exact I|exact Hx|apply (history_sized _ _ _ _ _ _ _ H), R|apply (history_sized _ _ _ _ _ _ _ H), sets_shape, R|].
    exact (history_off _ _ _ _ _ _ _ H nlp l I Hx R).
  - apply same_external; [exact I|]. exact (history_ext _ _ _ _ _ _ _ H nlp l I R).
Qed.
Lemma repeated l : o_init (the_opts C) = AllXcurrentW0Start \/ o_init (the_opts C) = External -> 0 < m_nx m -> (forall a, In a l -> right_shape C m a) ->
  snd (solve nlp C (fst (solve nlp C (history nlp C l)))) = snd (solve nlp C (history nlp C l)).
Proof.
  intros I Hx R. rewrite (fresh l I Hx R). assert (R' : forall a, In a (l ++ [ASolve]) -> right_shape C m a)
    by (intros a Ha; apply in_app_iff in Ha; destruct Ha as [Ha|[<-|[]]]; [apply R, Ha|exact Logic.I]).
  pose proof (fresh _ I Hx R') as E. unfold sets_only in E. rewrite filter_app in E. cbn [filter] in E. rewrite app_nil_r in E.
  unfold sets_only. rewrite <- E. unfold history. rewrite fold_left_app. reflexivity.
Qed.
End Con.
End Memory.
