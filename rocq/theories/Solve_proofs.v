(* Solve_proofs.v -- frames and inversion of initialize, the homotopy loop, polishing and solve *)
From Coq Require Import Reals Qreals Lra.
From Verif Require Import Base Lib Sx Sx_proofs Utils Tableau Opts Model Ocp Problem Numeric Rk4 Results Solver Spec Fesd Spec2 Spec4 Spec5
  Con_proofs Index3_proofs Results_proofs.

(* ---- the state monad ---- *)
Lemma sbind_ok {S A B} (m : se S A) (k : A -> se S B) s s' b :
  sbind m k s = (s', Ok b) <-> exists s1 a, m s = (s1, Ok a) /\ k a s1 = (s', Ok b).
Proof.
  unfold sbind. destruct (m s) as [s1 [a|e]].
  - split; [intros H; exists s1, a; auto|intros (s2 & a' & E & H); injection E as <- <-; exact H].
  - split; [discriminate|intros (s2 & a' & E & H); discriminate].
Qed.
Lemma lift_ok {S A} (m : res A) (s s' : S) a : lift m s = (s', Ok a) <-> s' = s /\ m = Ok a.
Proof. unfold lift. split; [intros H; injection H as <- H; auto|intros [-> ->]; reflexivity]. Qed.
Lemma sret_ok {S A} (x : A) (s s' : S) a : sret x s = (s', Ok a) <-> s' = s /\ a = x.
Proof. unfold sret. split; [intros H; injection H as <- <-; auto|intros [-> ->]; reflexivity]. Qed.
Lemma sget_ok {S} (s s' : S) a : sget s = (s', Ok a) <-> s' = s /\ a = s.
Proof. unfold sget. split; [intros H; injection H as <- <-; auto|intros [-> ->]; reflexivity]. Qed.

(* every outcome (also exceptions) relates the states before and after *)
Definition keeps {S A} (R : S -> S -> Prop) (m : se S A) : Prop := forall s, R s (fst (m s)).
Section Keeps.
Variables (S : Type) (R : S -> S -> Prop).
Hypothesis Rr : forall s, R s s.
Hypothesis Rt : forall a b c, R a b -> R b c -> R a c.
Lemma keeps_bind {A B} (m : se S A) (k : A -> se S B) : keeps R m -> (forall a, keeps R (k a)) -> keeps R (sbind m k).
Proof. intros Hm Hk s. unfold sbind. specialize (Hm s). destruct (m s) as [s1 [a|e]]; cbn in *; [eapply Rt; [exact Hm|apply Hk]|exact Hm]. Qed.
Lemma keeps_ret {A} (a : A) : keeps R (sret a). Proof. intros s. apply Rr. Qed.
Lemma keeps_lift {A} (a : res A) : keeps R (lift a). Proof. intros s. apply Rr. Qed.
Lemma keeps_raise {A} e : keeps R (raise (A := A) e). Proof. intros s. apply Rr. Qed.
Lemma keeps_get : keeps R sget. Proof. intros s. apply Rr. Qed.
Lemma keeps_for {A} (f : A -> se S unit) l : (forall a, keeps R (f a)) -> keeps R (sfor f l).
Proof. intros H. induction l as [|a l IH]; cbn; [apply keeps_ret|apply keeps_bind; auto]. Qed.
End Keeps.

(* initialize changes w0 only *)
Definition same_but_w0 (a b : sstate) : Prop := ss_x0 b = ss_x0 a /\ ss_pval b = ss_pval a /\ ss_calls b = ss_calls a.
Lemma sbw_refl s : same_but_w0 s s. Proof. repeat split. Qed.
Lemma sbw_trans a b c : same_but_w0 a b -> same_but_w0 b c -> same_but_w0 a c.
Proof. intros (A1 & A2 & A3) (B1 & B2 & B3). repeat split; congruence. Qed.
Lemma update_w0_keeps f : keeps same_but_w0 (update_w0 f).
Proof. intros s. unfold update_w0, sbind, sget, lift. destruct (f (ss_w0 s)); cbn; repeat split. Qed.
Ltac kp := repeat first
  [ apply (keeps_bind _ _ sbw_trans); [|intros ?] | apply (keeps_for _ _ sbw_refl sbw_trans); intros ?
  | apply (keeps_ret _ _ sbw_refl) | apply (keeps_lift _ _ sbw_refl) | apply (keeps_raise _ _ sbw_refl) | apply (keeps_get _ _ sbw_refl)
  | apply update_w0_keeps ].
Lemma rk4_stage_keeps C sm i k x : keeps same_but_w0 (rk4_stage_guess C sm i k x).
Proof. unfold rk4_stage_guess. kp. Qed.
Lemma rk4_elements_keeps C sm grid n : forall i x, keeps same_but_w0 (rk4_elements C sm grid n i x).
Proof.
  induction n as [|n IH]; intros i x; cbn [rk4_elements]; kp. apply IH.
Qed.
Lemma initialize_keeps C : keeps same_but_w0 (initialize C).
Proof.
  unfold initialize. kp. destruct (o_init (pr_o (cn_prob C))); kp. apply rk4_elements_keeps.
Qed.

(* the homotopy loop changes the number of calls only *)
Definition only_calls (a b : sstate) : Prop := ss_x0 b = ss_x0 a /\ ss_pval b = ss_pval a /\ ss_w0 b = ss_w0 a.
Lemma oc_refl s : only_calls s s. Proof. repeat split. Qed.
Lemma oc_trans a b c : only_calls a b -> only_calls b c -> only_calls a c.
Proof. intros (A1 & A2 & A3) (B1 & B2 & B3). repeat split; congruence. Qed.
Lemma call_nlp_keeps nlp c : keeps only_calls (call_nlp nlp c).
Proof. intros s. repeat split. Qed.
Ltac kc := repeat first
  [ apply (keeps_bind _ _ oc_trans); [|intros ?] | apply (keeps_for _ _ oc_refl oc_trans); intros ?
  | apply (keeps_ret _ _ oc_refl) | apply (keeps_lift _ _ oc_refl) | apply (keeps_raise _ _ oc_refl) | apply (keeps_get _ _ oc_refl)
  | apply call_nlp_keeps ].
Lemma homotopy_keeps nlp C lam lb ub n : forall sg w, keeps only_calls (homotopy nlp C lam lb ub n sg w).
Proof.
  induction n as [|n IH]; intros sg w; cbn [homotopy]; kc.
  destruct (Rltb _ _); kc. destruct (Rleb _ _); kc. apply IH.
Qed.
Lemma polish_stage_keeps nlp C lam lb ub w c : keeps only_calls (polish_stage nlp C lam lb ub w c).
Proof. unfold polish_stage. kc. Qed.
Definition polish_from (run : nat -> se sstate polished) : list nat -> se sstate polished :=
  fix go l := match l with [] => raise EUnboundLocal | [c] => run c | c :: l' => dos _ <- run c; go l' end.
Lemma polish_unfold nlp C lam w : polish_solution nlp C lam w =
  (dos _ <- lift (guard (polish_check (pr (cn_prob C)) w) EException);
   dos b <- lift (polish_bounds (pr_o (cn_prob C)) (pr (cn_prob C)) w);
   polish_from (polish_stage nlp C lam (fst b) (snd b) w) (seq 0 (o_N_stages (pr_o (cn_prob C))))).
Proof. reflexivity. Qed.
Lemma polish_from_keeps run l : (forall c, keeps only_calls (run c)) -> keeps only_calls (polish_from run l).
Proof.
  intros H. induction l as [|c l IH]; [cbn; kc|]. destruct l as [|c' l]; [apply H|].
  change (keeps only_calls (dos _ <- run c; polish_from run (c' :: l))). kc; [apply H|apply IH].
Qed.
Lemma polish_keeps nlp C lam w : keeps only_calls (polish_solution nlp C lam w).
Proof. rewrite polish_unfold. kc. apply polish_from_keeps. intros c. apply polish_stage_keeps. Qed.

(* ---- inversion of solve ---- *)
Lemma keeps_out {S A} (R : S -> S -> Prop) (m : se S A) s s' r : keeps R m -> m s = (s', r) -> R s s'.
Proof. intros K E. specialize (K s). rewrite E in K. exact K. Qed.

Record solved (nlp : nat -> nlp_call -> res nlp_ret) (C : constructed) (s s' : sstate) (out : solve_out) : Prop := {
  sv_ex : exists s1 s2 s3 lam w1 lb ub h,
    initialize C s = (s1, Ok lam) /\
    start_values (the_opts C) (the_problem C) lam (ss_w0 s1) = Ok (w1, lb, ub) /\
    homotopy nlp C lam lb ub (o_max_iter_homotopy (the_opts C)) (Q2R (o_sigma_0 (the_opts C))) w1 s1 = (s2, Ok (so_steps out)) /\
    lastE EUnboundLocal (so_steps out) = Ok h /\
    match so_polish out with
    | Some q => o_do_polishing (the_opts C) = true /\ polish_solution nlp C lam (nr_x (hs_ret h)) s2 = (s3, Ok q)
    | None => o_do_polishing (the_opts C) = false /\ s3 = s2
    end /\
    so_w_sol out = match so_polish out with Some q => po_w q | None => nr_x (hs_ret h) end /\
    so_status out = (if check_ipopt_success (match so_polish out with Some q => po_status q | None => nr_status (hs_ret h) end)
                     then SUCCESS else INFEASIBLE) /\
    so_cost out = Rabs (nr_f (hs_ret h)) /\
    so_w_all out = ss_w0 s1 :: map (fun h => nr_x (hs_ret h)) (so_steps out) /\
    get_results (cn_prob C) (ss_x0 s3) (so_w_sol out) = Ok (so_results out) /\
    match o_init (the_opts C) with
    | AllXcurrentWoptPrev => exists v, bcast (length (ss_w0 s3)) (so_w_sol out) = Ok v /\ s' = mkState (ss_x0 s3) (ss_pval s3) v (ss_calls s3)
    | _ => s' = s3
    end /\
    so_cpu out = pad (o_max_iter_homotopy (the_opts C)) (map (fun h => nr_cpu (hs_ret h)) (so_steps out))
                 ++ match so_polish out with Some q => [Some (po_cpu q)] | None => [] end /\
    so_iter out = pad (o_max_iter_homotopy (the_opts C)) (map (fun h => nr_iter (hs_ret h)) (so_steps out))
                 ++ match so_polish out with Some q => [Some (po_iter q)] | None => [] end }.

Lemma solve_inv nlp C s s' out : solve nlp C s = (s', Ok out) -> solved nlp C s s' out.
Proof.
  intros H. split. unfold solve in H. cbv zeta in H.
  apply sbind_ok in H. destruct H as (s1 & lam & HI & H).
  apply sbind_ok in H. destruct H as (s1' & q & HG & H). apply sget_ok in HG. destruct HG as [-> ->].
  apply sbind_ok in H. destruct H as (s1' & [[w1 lb] ub] & HS & H). apply lift_ok in HS. destruct HS as [-> HS].
  apply sbind_ok in H. destruct H as (s2 & steps & HH & H).
  apply sbind_ok in H. destruct H as (s2' & h & HL & H). apply lift_ok in HL. destruct HL as [-> HL].
  apply sbind_ok in H. destruct H as (s3 & pol & HP & H).
  apply sbind_ok in H. destruct H as (s3' & q & HG & H). apply sget_ok in HG. destruct HG as [-> ->].
  apply sbind_ok in H. destruct H as (s3' & rs & HR & H). apply lift_ok in HR. destruct HR as [-> HR].
  apply sbind_ok in H. destruct H as (s4 & u & HW & H). apply sret_ok in H. destruct H as [-> ->].
  exists s1, s2, s3, lam, w1, lb, ub, h. cbn [so_steps so_polish so_w_sol so_status so_cost so_w_all so_results so_cpu so_iter].
  repeat (split; [first [assumption|reflexivity]|]).
  split. { unfold the_opts. destruct (o_do_polishing (pr_o (cn_prob C))).
    - apply sbind_ok in HP. destruct HP as (s3' & q & HP & E). apply sret_ok in E. destruct E as [-> ->]. auto.
    - apply sret_ok in HP. destruct HP as [-> ->]. auto. }
  repeat (split; [first [assumption|reflexivity]|]).
  split; [|split; reflexivity].
  unfold the_opts. destruct (o_init (pr_o (cn_prob C))); try (apply sret_ok in HW; apply HW).
  unfold update_w0 in HW. apply sbind_ok in HW. destruct HW as (s5 & x & HG & HW). apply sget_ok in HG. destruct HG as [-> ->].
  apply sbind_ok in HW. destruct HW as (s5 & v & HB & HW). apply lift_ok in HB. destruct HB as [-> HB].
  unfold put_w0 in HW. injection HW as <- <-. exists v. split; [exact HB|reflexivity].
Qed.
