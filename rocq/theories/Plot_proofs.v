(* Plot_proofs.v -- stacked bars, colours, plot_iterates *)
From Coq Require Import Reals Qreals Lra.
From Verif Require Import Base Lib Sx Utils Tableau Opts Model Ocp Problem Numeric Rk4 Results Solver Looper Plot Spec Fesd Spec2 Spec3 Spec4 Spec5 Spec6 Spec16
  Dcs_proofs Exact_proofs Results_proofs Results4_proofs Results5_proofs Solve_proofs Solve2_proofs Polish_proofs Solve3_proofs Solve4_proofs Vec_proofs Looper_proofs Report_proofs.
Local Open Scope nat_scope.

Lemma column_ok rows cols M i : table rows cols M -> i < cols -> exists c, timings_col M i = Ok c /\ length c = rows /\ forall k, k < rows -> nth_error c k = Some (cell M k i).
Proof.
  intros [L T] Hi. unfold timings_col. assert (E : mapM (fun r => nthE EIndexError r i) M = Ok (map (fun r => nth i r 0%R) M)).
  { clear L. induction M as [|r M IH]; [reflexivity|]. cbn. unfold nthE at 1. rewrite (nth_error_nth' r 0%R) by (rewrite (T r) by (left; reflexivity); exact Hi).
    cbn. rewrite IH by (intros r' Hr; apply T; right; exact Hr). reflexivity. }
  eexists. split; [exact E|]. rewrite map_length. split; [exact L|]. intros k Hk. rewrite nth_error_map, (nth_error_nth' M []) by lia. reflexivity.
Qed.
Lemma combine_nth_error {A B} (a : list A) (b : list B) k x y : nth_error a k = Some x -> nth_error b k = Some y -> nth_error (combine a b) k = Some (x, y).
Proof. revert b k. induction a as [|a0 a IH]; intros [|b0 b] [|k] Ha Hb; try discriminate; cbn in *; [congruence|apply IH; assumption]. Qed.
Lemma bars_ok rows cols M : table rows cols M -> forall n i y, i + n = cols -> length y = rows -> (forall k, k < rows -> nth_error y k = Some (rupto i (cell M k))) ->
  exists b, bars_from M n i y = Ok b /\ length b = n /\ forall j, j < n -> exists row, nth_error b j = Some row /\ length row = rows /\
    forall k, k < rows -> nth_error row k = Some (cell M k (i + j), rupto (i + j) (cell M k)).
Proof.
  intros T. induction n as [|n IH]; intros i y Hi Ly Hy; [exists []; repeat split; intros j Hj; lia|].
  destruct (column_ok _ _ _ i T ltac:(lia)) as (c & Ec & Lc & Hc). cbn [bars_from]. rewrite Ec. cbn [bind].
  destruct (IH (S i) (vadd y c)) as (b & Eb & Lb & Hb).
  - lia.
  - unfold vadd. rewrite map_length, combine_length. lia.
  - intros k Hk. unfold vadd. rewrite nth_error_map, (combine_nth_error _ _ _ _ _ (Hy k Hk) (Hc k Hk)). cbn [option_map fst snd]. rewrite rupto_succ. reflexivity.
  - rewrite Eb. cbn [bind]. eexists. split; [reflexivity|]. split; [cbn; lia|]. intros [|j] Hj.
    + exists (combine c y). split; [reflexivity|]. split; [rewrite combine_length; lia|]. intros k Hk. rewrite Nat.add_0_r. apply combine_nth_error; auto.
    + destruct (Hb j ltac:(lia)) as (row & E1 & E2 & E3). exists row. split; [exact E1|]. split; [exact E2|]. intros k Hk. rewrite (E3 k Hk). f_equal. f_equal; [f_equal; lia|f_equal; lia].
Qed.
Lemma row_sum r n : length r = n -> Rsum r = rupto n (fun j => nth j r 0%R).
Proof.
  intros <-. unfold rupto. change (Rsum r) with (rsum r). f_equal. symmetry. 
  clear. induction r as [|a r IH]; [reflexivity|]. cbn. f_equal. rewrite <- seq_shift, map_map. exact IH.
Qed.
Lemma timings_ok rows cols M : table rows cols M -> exists tp, plot_timings cols M = Ok tp /\ length (tp_bars tp) = cols /\
  (forall i, i < cols -> exists row, nth_error (tp_bars tp) i = Some row /\ length row = rows /\
     forall k, k < rows -> nth_error row k = Some (cell M k i, rupto i (cell M k))) /\
  tp_mean tp = if rows =? 0 then None else Some (rupto rows (fun k => rupto cols (cell M k)) / INR rows)%R.
Proof.
  intros T. pose proof T as [L T']. unfold plot_timings. cbv zeta. rewrite L.
  destruct (bars_ok _ _ _ T cols 0 (repeat 0%R rows)) as (b & Eb & Lb & Hb).
  - reflexivity.
  - apply repeat_length.
  - intros k Hk. rewrite nth_error_repeat by exact Hk. reflexivity.
  - rewrite Eb. cbn [bind]. eexists. split; [reflexivity|]. cbn [tp_bars tp_mean]. split; [exact Lb|]. split; [exact Hb|].
    destruct (rows =? 0); [reflexivity|]. f_equal. f_equal. rewrite (row_sum _ rows) by (rewrite map_length; exact L). apply rupto_ext. intros k Hk.
    rewrite (nth_indep _ 0%R (Rsum [])) by (rewrite map_length; lia). rewrite map_nth. apply row_sum. apply T'. apply nth_In. lia.
Qed.

(* ---- the table of the looper ---- *)
Section Con.
Variables (lr : Q -> Q -> Q -> nat) (cp : nat -> scheme -> list Q) (d : ipopt_dict)
  (o : opts) (m : model) (oc : option ocp) (C : constructed).
Hypothesis H : construct_problem lr cp d o m oc = Ok C.
Notation O := (the_opts C).
Definition width : nat := o_max_iter_homotopy O + (if o_do_polishing O then 1 else 0).

Lemma cpu_start x0 Nsim pv pc wi L : looper_init (cn_prob C) x0 Nsim pv pc wi = Ok L -> lp_cpu_nlp L = repeat (repeat (Some 0%R) width) Nsim.
Proof. unfold looper_init. intros E. apply bind_ok in E. destruct E as (? & _ & E). apply bind_ok in E. destruct E as (? & _ & E). injection E as <-. reflexivity. Qed.
Lemma run_len nlp stop n : forall i L s s' L' r, run_from nlp C stop n i L s = (s', L', r) -> length (lp_cpu_nlp L') = length (lp_cpu_nlp L).
Proof.
  induction n as [|n IH]; intros i L s s' L' r E; cbn [run_from] in E; [injection E as <- <- <-; reflexivity|].
  destruct (step_inputs nlp C L i s) as [s1 [out|e]]; [|injection E as <- <- <-; reflexivity].
  destruct (collect L (pr_o (cn_prob C)) i out) as [L1|e] eqn:E2; [|injection E as <- <- <-; reflexivity].
  unfold status_eq_str in E. rewrite Bool.andb_false_r in E. rewrite (IH _ _ _ _ _ _ E).
  unfold collect in E2. cbv zeta in E2. apply bind_ok in E2. destruct E2 as (xc & Ex & E2). apply bind_ok in E2. destruct E2 as (cpu & Ec & E2).
  apply bind_ok in E2. destruct E2 as (sot & _ & E2). injection E2 as <-. cbn. exact (updE_len _ _ _ _ _ Ec).
Qed.

Lemma rupto_list l n : length l = n -> rupto n (fun j => nth j (map nan_to_num l) 0%R) = rsum (map or_zero l).
Proof. intros <-. rewrite <- (row_sum (map nan_to_num l)) by (rewrite map_length; reflexivity). reflexivity. Qed.

Lemma looper_bars nlp x0 Nsim pv pc wi L stop s s' L' r : returns C nlp -> extractable O m -> looper_init (cn_prob C) x0 Nsim pv pc wi = Ok L ->
  length x0 = m_nx m -> tables C m L -> sized C m s -> run nlp C stop L s = (s', L', r) ->
  exists tr, simulation nlp C m 0 L s tr L' /\ table Nsim width (looper_cpu_nlp L') /\
  (forall k si out, nth_error tr k = Some (si, out) -> exists tp, solve nlp C si = (tp, Ok out) /\
     let all := rupto width (cell (looper_cpu_nlp L') k) in let passes := rsum (map (fun h => nr_cpu (hs_ret h)) (so_steps out)) in
     (o_do_polishing O = false -> all = passes) /\
     (o_do_polishing O = true -> exists c r, nlp (ss_calls tp - 1) c = Ok r /\ so_w_sol out = nr_x r /\ all = (passes + nr_cpu r)%R)) /\
  (forall k j, length tr <= k -> cell (looper_cpu_nlp L') k j = 0%R).
Proof.
  intros RT X IN Lx TA Z RU. destruct (glued _ _ _ _ _ _ _ H nlp x0 Nsim pv pc wi L stop s s' L' r RT X IN Lx TA Z RU) as (tr & SM & Lt & _).
  exists tr. split; [exact SM|]. pose proof (cpu_start _ _ _ _ _ _ IN) as E0. 
  assert (N1 : o_N_stages O = 1). { apply (init_ok _ _ _ _ _ _ _ H x0 Nsim pv pc wi). exists L. exact IN. }
  assert (LN : length (lp_cpu_nlp L') = Nsim). { unfold run in RU. rewrite (run_len _ _ _ _ _ _ _ _ _ RU), E0, repeat_length. reflexivity. }
  assert (RW : forall k row, nth_error (lp_cpu_nlp L') k = Some row -> length row = width).
  { intros k row Hk. destruct (Nat.lt_ge_cases k (length tr)) as [Lk|Lk].
    - destruct (nth_error tr k) as [[si out]|] eqn:Et; [|apply nth_error_None in Et; lia].
      pose proof (sm_cpu _ _ _ _ _ _ _ _ SM _ _ _ Et) as Q. cbn [Nat.add] in Q. rewrite Hk in Q. injection Q as ->.
      destruct (sm_solve _ _ _ _ _ _ _ _ SM _ _ _ Et) as (_ & t & Es). exact (cpu_width _ _ _ _ _ _ _ H nlp si t out Es).
    - rewrite (sm_cpu_rest _ _ _ _ _ _ _ _ SM k) in Hk by (right; exact Lk). rewrite E0 in Hk. apply nth_error_In, repeat_spec in Hk. subst row. apply repeat_length. }
  split; [split; [unfold looper_cpu_nlp; rewrite map_length; exact LN|]|split].
  - intros row Hr. unfold looper_cpu_nlp in Hr. apply in_map_iff in Hr. destruct Hr as (row' & <- & Hr). apply In_nth_error in Hr. destruct Hr as [k Hk]. rewrite map_length. exact (RW k row' Hk).
  - intros k si out Et. destruct (sm_solve _ _ _ _ _ _ _ _ SM _ _ _ Et) as (_ & t & Es). exists t. split; [exact Es|]. cbv zeta.
    pose proof (sm_cpu _ _ _ _ _ _ _ _ SM _ _ _ Et) as Q. cbn [Nat.add] in Q.
    assert (EA : rupto width (cell (looper_cpu_nlp L') k) = rsum (map or_zero (so_cpu out))).
    { rewrite <- (rupto_list (so_cpu out) width (RW k _ Q)). apply rupto_ext. intros j Hj. unfold cell, looper_cpu_nlp.
      rewrite (nth_indep _ [] (map nan_to_num [])) by (rewrite map_length; apply nth_error_Some; congruence). rewrite map_nth, (nth_error_nth _ _ [] Q). reflexivity. }
    rewrite EA. destruct (solve_stats _ _ _ _ _ _ _ H nlp si t out Es) as (c & rs & A1 & A2 & A3 & _ & _ & _ & _ & A8 & A9 & A10). rewrite N1 in A1. split.
    + intros Ed. rewrite Ed in A1. apply A10. destruct rs; [reflexivity|discriminate].
    + intros Ed. rewrite Ed in A1. destruct rs as [|r0 [|]]; try discriminate. assert (La : last_is [r0] r0) by (split; [cbn; lia|reflexivity]).
      exists c, r0. split; [|split; [apply (A8 _ La)|exact (A9 _ La)]]. cbn [length] in A2. specialize (A3 0 r0 eq_refl). rewrite Nat.add_0_r in A3.
      replace (ss_calls t - 1) with (ss_calls si + length (so_steps out)) by lia. exact A3.
  - intros k j Lk. unfold cell, looper_cpu_nlp. destruct (Nat.lt_ge_cases k Nsim) as [Lk'|Lk'].
    + pose proof (sm_cpu_rest _ _ _ _ _ _ _ _ SM k (or_intror Lk)) as Q. rewrite E0 in Q. rewrite (nth_error_repeat _ Lk') in Q.
      rewrite (nth_indep _ [] (map nan_to_num [])) by (rewrite map_length; lia). rewrite map_nth, (nth_error_nth _ _ [] Q).
      pose proof (map_nth nan_to_num (repeat (Some 0%R) width) (Some 0%R) j) as M. rewrite nth_repeat in M. exact M.
    + rewrite (nth_overflow (map (map nan_to_num) _)) by (rewrite map_length; lia). destruct j; reflexivity.
Qed.

(* ---- plot_iterates ---- *)
Lemma iterates_step x0 l n : o_pss O = Step -> plot_iterates (cn_prob C) x0 l n = Err ENotImplemented.
Proof. unfold plot_iterates. change (pr_o (cn_prob C)) with O. intros ->. reflexivity. Qed.
Lemma iterates_empty x0 n : o_pss O = Stewart -> plot_iterates (cn_prob C) x0 [] n = Ok 0.
Proof. unfold plot_iterates. change (pr_o (cn_prob C)) with O. intros ->. reflexivity. Qed.
Lemma no_mu rs : look_up rs KMuList = Err EKeyError.
Proof. unfold look_up, result_keys. destruct (rs_sot rs); reflexivity. Qed.
Lemma iterates_fail x0 v l n : o_pss O = Stewart -> 
  plot_iterates (cn_prob C) x0 (v :: l) n = Err (match get_results (cn_prob C) x0 v with Ok _ => EKeyError | Err e => e end).
Proof.
  unfold plot_iterates. change (pr_o (cn_prob C)) with O. intros ->. cbn [guard bind draw_iterates]. destruct (get_results (cn_prob C) x0 v) as [rs|e]; [|reflexivity].
  cbn [bind]. assert (A : look_up rs KLambdaList = Ok tt /\ look_up rs KThetaList = Ok tt) by (unfold look_up, result_keys; destruct (rs_sot rs); split; reflexivity).
  destruct A as [-> ->]. cbn [bind]. rewrite no_mu. reflexivity.
Qed.
Lemma iterates_key x0 v l n : o_pss O = Stewart -> extractable O m -> length v = length (w (the_nlp C)) -> plot_iterates (cn_prob C) x0 (v :: l) n = Err EKeyError.
Proof.
  intros Ep X Lv. rewrite iterates_fail by exact Ep. destruct (as_primal _ _ _ _ _ _ _ v H Lv) as [rho <-].
  destruct (results_read _ _ _ _ _ _ _ rho x0 H X) as (r & sw & -> & _). reflexivity.
Qed.
End Con.

(* ---- colours ---- *)
Lemma fold_min_le l : forall a, (fold_left Rmin l a <= a)%R /\ forall x, In x l -> (fold_left Rmin l a <= x)%R.
Proof.
  induction l as [|b l IH]; intros a; cbn [fold_left]; [split; [lra|intros x []]|]. destruct (IH (Rmin a b)) as [A B].
  pose proof (Rmin_l a b). pose proof (Rmin_r a b). split; [lra|]. intros x [<-|Hx]; [lra|auto].
Qed.
Lemma fold_min_in l : forall a, In (fold_left Rmin l a) (a :: l).
Proof.
  induction l as [|b l IH]; intros a; cbn [fold_left]; [left; reflexivity|]. destruct (IH (Rmin a b)) as [E|E]; [|right; right; exact E].
  rewrite <- E. unfold Rmin. destruct (Rle_dec a b); [left|right; left]; reflexivity.
Qed.
Lemma fold_max_ge l : forall a, (a <= fold_left Rmax l a)%R /\ forall x, In x l -> (x <= fold_left Rmax l a)%R.
Proof.
  induction l as [|b l IH]; intros a; cbn [fold_left]; [split; [lra|intros x []]|]. destruct (IH (Rmax a b)) as [A B].
  pose proof (Rmax_l a b). pose proof (Rmax_r a b). split; [lra|]. intros x [<-|Hx]; [lra|auto].
Qed.
Lemma fold_max_in l : forall a, In (fold_left Rmax l a) (a :: l).
Proof.
  induction l as [|b l IH]; intros a; cbn [fold_left]; [left; reflexivity|]. destruct (IH (Rmax a b)) as [E|E]; [|right; right; exact E].
  rewrite <- E. unfold Rmax. destruct (Rle_dec a b); [right; left|left]; reflexivity.
Qed.

(* earliest and latest time *)
Lemma extremes t : t <> [] -> exists lo hi, py_min t = Ok lo /\ py_max t = Ok hi /\ In lo t /\ In hi t /\ forall x, In x t -> (lo <= x <= hi)%R.
Proof.
  destruct t as [|a t]; [contradiction|]. intros _. exists (fold_left Rmin t a), (fold_left Rmax t a). split; [reflexivity|]. split; [reflexivity|].
  split; [apply fold_min_in|]. split; [apply fold_max_in|]. destruct (fold_min_le t a) as [A1 A2]. destruct (fold_max_ge t a) as [B1 B2].
  intros x [<-|Hx]; [lra|]. split; auto.
Qed.
Lemma colors_ok n t : n - 1 <= length t -> (exists a b, In a t /\ In b t /\ a <> b) ->
  exists lo hi l, In lo t /\ In hi t /\ (forall x, In x t -> (lo <= x <= hi)%R) /\ segment_colors n t = Ok l /\ length l = n - 1 /\
  forall i c x, nth_error l i = Some c -> nth_error t i = Some x -> c = ((x - lo) / (hi - lo))%R /\ (0 <= c <= 1)%R.
Proof.
  intros Ln (a & b & Ha & Hb & Nab). assert (N0 : t <> []) by (intros ->; destruct Ha).
  destruct (extremes t N0) as (lo & hi & E1 & E2 & I1 & I2 & B). assert (D : (0 < hi - lo)%R) by (pose proof (B a Ha); pose proof (B b Hb); lra).
  unfold segment_colors. rewrite E1, E2. cbn [bind]. destruct (Req_EM_T (hi - lo) 0) as [Z|_]; [lra|]. cbn [guard bind].
  rewrite (mapM_Ok_map _ (fun i => (nth i t 0 - lo) / (hi - lo))%R).
  2:{ intros i Hi. apply in_seq in Hi. unfold nthE. rewrite (nth_error_nth' t 0%R) by lia. reflexivity. }
  eexists lo, hi, _. split; [exact I1|]. split; [exact I2|]. split; [exact B|]. split; [reflexivity|]. rewrite map_length, seq_length. split; [reflexivity|].
  intros i c x Hc Hx. rewrite nth_error_map in Hc. assert (Li : i < n - 1).
  { destruct (nth_error (seq 0 (n - 1)) i) eqn:Q; [|discriminate]. pose proof (proj1 (nth_error_Some (seq 0 (n - 1)) i) ltac:(congruence)) as W. rewrite seq_length in W. exact W. }
  rewrite (nth_error_seq 0 _ i Li) in Hc. cbn in Hc. injection Hc as <-. rewrite (nth_error_nth _ _ 0%R Hx). split; [reflexivity|].
  pose proof (B x (nth_error_In _ _ Hx)) as Bx. assert (Hd : (hi - lo)%R <> 0%R) by lra. split.
  - apply Rmult_le_pos; [lra|]. apply Rlt_le, Rinv_0_lt_compat. exact D.
  - apply (Rmult_le_reg_r (hi - lo)); [exact D|]. unfold Rdiv. rewrite Rmult_assoc, Rinv_l by exact Hd. lra.
Qed.
Lemma colors_same a n : 2 <= n -> forall k, 0 < k -> segment_colors n (repeat a k) = Err EZeroDivision.
Proof.
  intros Hn k Hk. destruct (extremes (repeat a k)) as (lo & hi & E1 & E2 & I1 & I2 & _); [destruct k; [lia|discriminate]|].
  unfold segment_colors. rewrite E1, E2. cbn [bind]. apply repeat_spec in I1, I2. subst lo hi. destruct (Req_EM_T (a - a) 0) as [_|Z]; [|lra].
  destruct n as [|[|n]]; [lia|lia|]. cbn [Nat.sub seq mapM]. destruct k; [lia|]. reflexivity.
Qed.
Lemma colors_none n : segment_colors n [] = Err EValueError.
Proof. reflexivity. Qed.
Lemma colors_point n t : n < 2 -> t <> [] -> segment_colors n t = Ok [].
Proof.
  intros Hn Ht. destruct (extremes t Ht) as (lo & hi & E1 & E2 & _). unfold segment_colors. rewrite E1, E2. cbn [bind].
  replace (n - 1) with 0 by lia. reflexivity.
Qed.
Lemma mapM_first {A B} (f : A -> res B) er l1 x l2 : (forall a, In a l1 -> exists b, f a = Ok b) -> f x = Err er -> mapM f (l1 ++ x :: l2) = Err er.
Proof.
  intros H E. induction l1 as [|a l1 IH]; cbn [app mapM]; [rewrite E; reflexivity|].
  destruct (H a (or_introl eq_refl)) as [b ->]. cbn [bind]. rewrite IH by (intros; apply H; right; assumption). reflexivity.
Qed.
Lemma colors_short n t : length t < n - 1 -> (exists a b, In a t /\ In b t /\ a <> b) -> segment_colors n t = Err EIndexError.
Proof.
  intros Ln (a & b & Ha & Hb & Nab). assert (N0 : t <> []) by (intros ->; destruct Ha).
  destruct (extremes t N0) as (lo & hi & E1 & E2 & I1 & I2 & B). assert (D : (0 < hi - lo)%R) by (pose proof (B a Ha); pose proof (B b Hb); lra).
  unfold segment_colors. rewrite E1, E2. cbn [bind]. destruct (Req_EM_T (hi - lo) 0) as [Z|_]; [lra|]. cbn [guard].
  replace (seq 0 (n - 1)) with (seq 0 (length t) ++ length t :: seq (S (length t)) (n - 1 - S (length t))).
  2:{ replace (n - 1) with (length t + (S (n - 1 - S (length t)))) at 2 by lia. rewrite seq_app. reflexivity. }
  apply mapM_first.
  - intros i Hi. apply in_seq in Hi. unfold nthE. rewrite (nth_error_nth' t 0%R) by lia. eexists. reflexivity.
  - unfold nthE. rewrite (proj2 (nth_error_None t (length t))) by lia. reflexivity.
Qed.
