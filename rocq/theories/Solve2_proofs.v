(* Solve2_proofs.v -- the passes of the homotopy loop *)
From Coq Require Import Reals Qreals Lra.
From Verif Require Import Base Lib Sx Sx_proofs Utils Tableau Opts Model Ocp Problem Numeric Rk4 Results Solver Spec Fesd Spec2 Spec4 Spec5
  Con_proofs Index3_proofs Feas4_proofs Results_proofs Solve_proofs.

Lemma bindR_env rho ins s : In s ins -> bindR ins (map rho ins) s = rho s.
Proof.
  induction ins as [|i ins IH]; intros H; [destruct H|]. cbn. destruct (sym_eqb s i) eqn:E.
  - apply sym_eqb_eq in E. subst. reflexivity.
  - destruct H as [->|H]; [rewrite sym_eqb_refl in E; discriminate|auto].
Qed.
Lemma fit_same n a : length a = n -> fit n a = Ok a.
Proof. intros H. unfold fit. rewrite H, Nat.eqb_refl. reflexivity. Qed.
(* a function applied to the values of its inputs at a point *)
Lemma numcall_env rho ins outs f : mkfun ins outs = Ok f -> numcall f (map (map rho) ins) = Ok (map (eval rho) outs).
Proof.
  intros M. apply mkfun_ok in M. destruct M as [-> Hc]. unfold numcall. cbn [cf_in cf_out].
  rewrite map_length, Nat.eqb_refl. cbn [guard bind].
  rewrite (mapM_Ok_map _ (fun p => snd p)).
  2: { intros p Hp. apply fit_same. clear - Hp. revert p Hp. induction ins as [|i ins IH]; intros p Hp; [destruct Hp|].
       cbn in Hp. destruct Hp as [<-|Hp]; [apply map_length|auto]. }
  cbn [bind]. f_equal. apply map_ext_in. intros e He. apply eval_ext. intros s Hs.
  replace (map (fun p => snd p) (combine ins (map (map rho) ins))) with (map (map rho) ins).
  - rewrite <- concat_map. apply bindR_env. eapply Hc; eassumption.
  - clear. induction ins as [|i ins IH]; cbn; [reflexivity|]. f_equal. exact IH.
Qed.

Section Con.
Variables (lr : Q -> Q -> Q -> nat) (cp : nat -> scheme -> list Q) (d : ipopt_dict) (o : opts) (m : model) (oc : option ocp) (C : constructed).
Hypothesis H : construct_problem lr cp d o m oc = Ok C.

Lemma comp_value rho : comp_res_val (cn_prob C) (primal C rho) (parameters C rho) = Ok (comp_residual C rho).
Proof.
  destruct (construct_ok _ _ _ _ _ _ _ H) as (o' & t & pm & po & P & K).
  destruct (lsq_same _ _ _ (co_lsq _ _ _ _ _ _ _ _ _ _ _ _ K)) as (L1 & _ & _ & _ & _ & L2 & _ & _ & _ & _ & _ & _ & _ & _ & _ & _ & _ & _ & L3 & _).
  pose proof (numcall_env rho _ _ _ (co_res _ _ _ _ _ _ _ _ _ _ _ _ K)) as E.
  unfold comp_res_val, primal, parameters, the_nlp. rewrite L1, L2. cbn [map] in E. rewrite E. cbn. unfold comp_residual. rewrite L3. reflexivity.
Qed.
End Con.

Lemma py_pow_pos x e : (0 < x)%R -> py_pow x e = Ok (Rpower x (Q2R e)).
Proof. intros Hx. unfold py_pow. rewrite (proj2 (Rltb_true 0 x) Hx). reflexivity. Qed.
Lemma Rltb_false a b : Rltb a b = false <-> (b <= a)%R.
Proof.
  destruct (Rltb a b) eqn:E; [apply Rltb_true in E; split; [discriminate|lra]|].
  split; [|reflexivity]. intros _. destruct (Rlt_le_dec a b) as [L|L]; [|exact L]. apply Rltb_true in L. congruence.
Qed.
Lemma Rleb_false a b : Rleb a b = false <-> (b < a)%R.
Proof.
  destruct (Rleb a b) eqn:E; [apply Rleb_true in E; split; [discriminate|lra]|].
  split; [|reflexivity]. intros _. destruct (Rlt_le_dec b a) as [L|L]; [exact L|]. apply Rleb_true in L. congruence.
Qed.
Lemma update_pos o s : (0 < s)%R -> homotopy_sigma_update o s = Ok (next_sigma o s).
Proof. intros Hs. unfold homotopy_sigma_update, next_sigma. destruct (o_rule o); [reflexivity|]. rewrite py_pow_pos by exact Hs. reflexivity. Qed.
Lemma stops_dec o h : Rltb (hs_comp h) (Q2R (o_comp_tol o)) = false -> Rleb (hs_sigma h) (Q2R (o_sigma_N o)) = false -> ~ stops o h.
Proof. intros A B [S|S]; [apply Rltb_true in S|apply Rleb_true in S]; congruence. Qed.

Section Loop.
Variables (nlp : nat -> nlp_call -> res nlp_ret) (C : constructed) (lam : list R) (lb ub : list ext).
Let O := the_opts C.
Definition call_of (s : sstate) (sg tau : R) (w : list R) : nlp_call :=
  mkCall w lb ub (lbg (the_nlp C)) (ubg (the_nlp C)) (setup_p_val s lam sg tau).
Record loop_ok (n : nat) (sg : R) (w : list R) (s s' : sstate) (l : list hstep) : Prop := {
  lo_calls : ss_calls s' = ss_calls s + length l;
  lo_len : length l <= n;
  lo_some : 0 < n -> 0 < length l;
  lo_first : forall h, nth_error l 0 = Some h -> hs_sigma h = sg /\ nc_x0 (hs_call h) = w;
  lo_each : forall k h, nth_error l k = Some h ->
    nlp (ss_calls s + k) (hs_call h) = Ok (hs_ret h) /\ hs_call h = call_of s (hs_sigma h) (hs_tau h) (nc_x0 (hs_call h)) /\
    comp_res_val (cn_prob C) (nr_x (hs_ret h)) (nc_p (hs_call h)) = Ok (hs_comp h) /\
    (exists t, py_pow (hs_sigma h) (3 # 2) = Ok t /\ hs_tau h = Rmin t (hs_sigma h));
  lo_next : forall k h h', nth_error l k = Some h -> nth_error l (S k) = Some h' ->
    ~ stops O h /\ nc_x0 (hs_call h') = nr_x (hs_ret h) /\ homotopy_sigma_update O (hs_sigma h) = Ok (hs_sigma h');
  lo_last : forall h, last_is l h -> length l < n -> stops O h }.

Lemma call_of_state s1 s2 sg tau w : ss_pval s1 = ss_pval s2 -> ss_x0 s1 = ss_x0 s2 -> call_of s1 sg tau w = call_of s2 sg tau w.
Proof. intros A B. unfold call_of, setup_p_val. rewrite A, B. reflexivity. Qed.

Lemma homotopy_loop n : forall sg w s s' l, homotopy nlp C lam lb ub n sg w s = (s', Ok l) -> loop_ok n sg w s s' l.
Proof.
  induction n as [|n IH]; intros sg w s s' l E; cbn [homotopy] in E.
  { apply sret_ok in E. destruct E as [-> ->]. split; cbn.
    - lia. - lia. - lia. - discriminate. - intros [|k]; discriminate. - intros [|k]; discriminate. - intros h [Hl _]. cbn in Hl. lia. }
  apply sbind_ok in E. destruct E as (s1 & q & HG & E). apply sget_ok in HG. destruct HG as [-> ->].
  apply sbind_ok in E. destruct E as (s1 & t & HT & E). apply lift_ok in HT. destruct HT as [-> HT].
  cbv zeta in E. apply sbind_ok in E. destruct E as (s1 & r & HC & E). unfold call_nlp in HC. injection HC as <- HC.
  apply sbind_ok in E. destruct E as (s2 & cr & HR & E). apply lift_ok in HR. destruct HR as [-> HR].
  set (st := mkStep sg (Rmin t sg) _ r cr) in E.
  assert (Est : comp_res_val (cn_prob C) (nr_x (hs_ret st)) (nc_p (hs_call st)) = Ok (hs_comp st)) by exact HR.
  assert (Ecall : hs_call st = call_of s (hs_sigma st) (hs_tau st) (nc_x0 (hs_call st))) by reflexivity.
  assert (Enlp : nlp (ss_calls s + 0) (hs_call st) = Ok (hs_ret st)) by (rewrite Nat.add_0_r; exact HC).
  assert (Etau : exists t, py_pow (hs_sigma st) (3 # 2) = Ok t /\ hs_tau st = Rmin t (hs_sigma st)) by (exists t; split; [exact HT|reflexivity]).
  assert (ONE : forall s2, s2 = mkState (ss_x0 s) (ss_pval s) (ss_w0 s) (S (ss_calls s)) -> stops O st -> loop_ok (S n) sg w s s2 [st]).
  { intros s2 -> Hst. split; cbn [length ss_calls].
    - lia. - lia. - lia.
    - intros h Eh. injection Eh as <-. split; reflexivity.
    - intros [|k] h Eh; [|destruct k; discriminate]. injection Eh as <-. auto.
    - intros [|k] h h' _ Eh; [discriminate|destruct k; discriminate].
    - intros h [_ Eh] _. cbn in Eh. injection Eh as <-. exact Hst. }
  destruct (Rltb cr _) eqn:E1.
  { apply sret_ok in E. destruct E as [-> ->]. apply ONE; [reflexivity|]. left. apply Rltb_true in E1. exact E1. }
  destruct (Rleb sg _) eqn:E2.
  { apply sret_ok in E. destruct E as [-> ->]. apply ONE; [reflexivity|]. right. apply Rleb_true in E2. exact E2. }
  apply sbind_ok in E. destruct E as (s2 & sg' & HU & E). apply lift_ok in HU. destruct HU as [-> HU].
  apply sbind_ok in E. destruct E as (s2 & rest & HH & E). apply sret_ok in E. destruct E as [-> ->].
  apply IH in HH. destruct HH as [A1 A2 A3 A4 A5 A6 A7]. cbn [ss_calls] in *.
  split; cbn [length].
  - lia.
  - lia.
  - lia.
  - intros h Eh. injection Eh as <-. split; reflexivity.
  - intros [|k] h Eh; cbn in Eh.
    + injection Eh as <-. auto.
    + destruct (A5 k h Eh) as (B1 & B2 & B3 & B4). split; [rewrite <- B1; f_equal; lia|]. split; [|split; [exact B3|exact B4]].
      rewrite B2 at 1. apply call_of_state; reflexivity.
  - intros [|k] h h' Eh Eh'; cbn in Eh, Eh'.
    + injection Eh as <-. destruct (A4 _ Eh') as [B1 B2]. split; [apply stops_dec; assumption|]. split; [exact B2|].
      rewrite B1. exact HU.
    + eapply A6; eassumption.
  - intros h [_ Eh] Hl. apply A7; [|lia]. cbn [length] in Eh. rewrite Nat.sub_0_r in Eh || idtac.
    assert (0 < n) by lia. specialize (A3 H). replace (S (length rest) - 1) with (S (length rest - 1)) in Eh by lia. cbn in Eh.
    split; [exact A3|exact Eh].
Qed.
End Loop.

Lemma Q2R_32 : Q2R (3 # 2) = (3 / 2)%R.
Proof. unfold Q2R. cbn. lra. Qed.

Lemma solve_passes lr cp d o m oc C nlp s s' out : construct_problem lr cp d o m oc = Ok C -> 0 < o_max_iter_homotopy (the_opts C) ->
  solve nlp C s = (s', Ok out) -> exists s1 lam w1 lb ub,
  initialize C s = (s1, Ok lam) /\ start_values (the_opts C) (the_problem C) lam (ss_w0 s1) = Ok (w1, lb, ub) /\
  passes nlp C s (ss_calls s) lam lb ub w1 (so_steps out) /\
  so_w_all out = ss_w0 s1 :: map (fun h => nr_x (hs_ret h)) (so_steps out).
Proof.
  intros H Hn E. apply solve_inv in E. destruct E as [(s1 & s2 & s3 & lam & w1 & lb & ub & h & I & SV & HH & _ & _ & _ & _ & _ & W & _)].
  exists s1, lam, w1, lb, ub. split; [exact I|]. split; [exact SV|]. split; [|exact W].
  pose proof (keeps_out _ _ _ _ _ (initialize_keeps C) I) as (K1 & K2 & K3).
  apply homotopy_loop in HH. destruct HH as [A1 A2 A3 A4 A5 A6 A7].
  assert (EC : forall k h, nth_error (so_steps out) k = Some h -> nc_p (hs_call h) = concat (ss_pval s) ++ [hs_sigma h; hs_tau h] ++ lam ++ ss_x0 s).
  { intros k h0 Eh. destruct (A5 k h0 Eh) as (_ & B2 & _). rewrite B2. unfold call_of, setup_p_val. cbn [nc_p]. rewrite K1, K2. reflexivity. }
  split.
  - apply A3. exact Hn.
  - exact A2.
  - intros k h0 Eh. destruct (A5 k h0 Eh) as (B1 & B2 & B3 & _). rewrite K3 in B1. split; [exact B1|].
    rewrite B2. cbn [call_of nc_lbx nc_ubx nc_lbg nc_ubg]. do 4 (split; [reflexivity|]). rewrite <- B2. eapply EC; eassumption.
  - intros k h0 rho Eh P1 P2. destruct (A5 k h0 Eh) as (_ & _ & B3 & _). rewrite <- P1, <- P2 in B3.
    rewrite (comp_value _ _ _ _ _ _ _ H) in B3. injection B3 as B3. symmetry. exact B3.
  - exact A4.
  - intros k h0 h' Eh Eh'. destruct (A6 k h0 h' Eh Eh') as (B1 & B2 & B3). split; [exact B1|]. split; [exact B2|].
    intros Hp. rewrite update_pos in B3 by exact Hp. injection B3 as <-. reflexivity.
  - exact A7.
  - intros h0 Hin Hp. apply In_nth_error in Hin. destruct Hin as [k Hk]. destruct (A5 k h0 Hk) as (_ & _ & _ & (t & Ht & ->)).
    rewrite py_pow_pos in Ht by exact Hp. injection Ht as <-. rewrite Q2R_32. reflexivity.
Qed.
