(* Field_proofs.v -- what set() writes, field by field *)
From Coq Require Import Reals Qreals Lra Permutation.
From Verif Require Import Base Lib Sx Sx_proofs Utils Tableau Opts Model Ocp Problem Numeric Rk4 Results Solver Spec Fesd Spec2 Spec4 Spec5
  Body_proofs Model_proofs Con_proofs Index_proofs Index2_proofs Index3_proofs Nlp_proofs Feas_proofs Lam_proofs Accept_proofs
  Results_proofs Results2_proofs Results4_proofs Solve_proofs Solve2_proofs Vec_proofs Syms_proofs Init_proofs Init2_proofs
  Start_proofs Progress_proofs Set_proofs Hist_proofs.

Lemma enum_in {A} (l : list A) i x : In (i, x) (enum l) <-> nth_error l i = Some x.
Proof.
  unfold enum. split.
  - intros Hi. apply combine_in_nth in Hi. destruct Hi as (k & E1 & E2). pose proof (nth_error_Some_lt _ _ _ E1) as L. rewrite seq_length in L.
    rewrite (nth_error_seq 0 _ k L) in E1. injection E1 as <-. exact E2.
  - intros E. pose proof (nth_error_Some_lt _ _ _ E) as L. apply (nth_error_In _ i). apply nth_combine; [apply (nth_error_seq 0 _ i L)|exact E].
Qed.

(* rows written block by block *)
Definition tagged (L : list (list (list nat))) : list (nat * list nat) := concat (map (fun p => map (pair (fst p)) (snd p)) (enum L)).
Lemma tagged_in L i idx : In (i, idx) (tagged L) <-> exists l, nth_error L i = Some l /\ In idx l.
Proof.
  unfold tagged. rewrite in_concat. split.
  - intros (b & Hb & Hi). apply in_map_iff in Hb. destruct Hb as ([k l] & <- & Hk). apply enum_in in Hk. cbn in Hi.
    apply in_map_iff in Hi. destruct Hi as (x & E & Hx). injection E as -> ->. eauto.
  - intros (l & Hl & Hi). exists (map (pair i) l). split; [|apply in_map, Hi]. apply in_map_iff. exists (i, l). split; [reflexivity|]. apply enum_in, Hl.
Qed.
Lemma rows_sfor v L s : length L <= length v ->
  sfor (fun p => sfor (fun idx => dos row <- lift (nthE EIndexError v (fst p)); update_w0 (fun w => assign w idx row)) (snd p)) (enum L) s =
  sfor (fun q => update_w0 (fun w => assign w (snd q) (nth (fst q) v []))) (tagged L) s.
Proof.
  intros Lv. rewrite (sfor_ext _ (fun p => sfor (fun q => update_w0 (fun w => assign w (snd q) (nth (fst q) v []))) (map (pair (fst p)) (snd p)))).
  - unfold tagged. rewrite <- sfor_concat. symmetry. symmetry. apply (sfor_map (fun p => map (pair (fst p)) (snd p)) (fun l => sfor (fun q => update_w0 (fun w => assign w (snd q) (nth (fst q) v []))) l)).
  - intros [i l] Hi s'. apply enum_in in Hi. cbn [fst snd]. rewrite <- (sfor_map (pair i)). apply sfor_ext. intros idx _ s2. cbn [fst snd].
    unfold sbind, lift. destruct (nth_error_lt v i) as [r Hr]; [apply nth_error_Some_lt in Hi; lia|].
    unfold nthE. rewrite Hr. rewrite (nth_error_nth _ _ _ Hr). reflexivity.
Qed.

Section Con.
Variables (lr : Q -> Q -> Q -> nat) (cp : nat -> scheme -> list Q) (d : ipopt_dict)
  (o : opts) (m : model) (oc : option ocp) (C : constructed).
Hypothesis H : construct_problem lr cp d o m oc = Ok C.
Notation O := (the_opts C).
Notation P := (the_problem C).
Notation PM := (pr_pm (cn_prob C)).
Notation W := (w (the_nlp C)).
Notation E := (explicit_end C).

Lemma elements_len : length (elements O) = total (firstn (o_N_stages O) (o_Nfe_list O)) /\
  forall k p, nth_error (elements O) k = Some p -> k = flat_pos (o_Nfe_list O) (fst p) (snd p).
Proof.
  pose proof (flat_seq _ _ _ _ _ _ _ H (o_N_stages O) (le_n _)) as F. fold (elements O) in F. split.
  - apply (f_equal (@length nat)) in F. rewrite map_length, seq_length in F. exact F.
  - intros k p Hk. apply (f_equal (fun l => nth_error l k)) in F. rewrite nth_error_map, Hk in F. cbn [option_map] in F.
    pose proof (nth_error_Some_lt _ _ _ (eq_sym F)) as L. rewrite seq_length in L. rewrite (nth_error_seq 0 _ k L) in F. cbn in F. congruence.
Qed.
Lemma total_firstn n l : total (firstn n l) <= total l.
Proof. revert n. induction l as [|a l IH]; intros [|n]; cbn; try lia. specialize (IH n). unfold total in *. lia. Qed.

(* rows v.(i) written to the states of the i-th group *)
Lemma states_by_rows v L pos s : length (ss_w0 s) = length W -> length L <= length v -> (forall r, In r v -> length r = m_nx m) ->
  (forall i l idx, nth_error L i = Some l -> In idx l -> exists c e j, pos c e = i /\ sel W idx = Ok (map (S1 FX c e j) (seq 0 (m_nx m)))) ->
  (forall c e j, In (c, e) (elements O) -> j < points1 O E FX -> exists i l idx, nth_error L i = Some l /\ In idx l /\ sel W idx = Ok (map (S1 FX c e j) (seq 0 (m_nx m)))) ->
  sfor (fun p => sfor (fun idx => dos row <- lift (nthE EIndexError v (fst p)); update_w0 (fun w => assign w idx row)) (snd p)) (enum L) s =
  (mkState (ss_x0 s) (ss_pval s) (overwrite W (ss_w0 s) (fun y => match y with S1 FX c e _ i => Some (nth i (nth (pos c e) v []) 0%R) | _ => None end)) (ss_calls s), Ok tt).
Proof.
  intros Lw Lv Rv A B. rewrite rows_sfor by exact Lv. apply (sfor_update (fun q w => assign w (snd q) (nth (fst q) v []))).
  rewrite <- (foldM_map (fun w b => assign w (fst b) (snd b)) (fun q => (snd q, nth (fst q) v []))).
  apply (blocks_write W (ss_w0 s) (tagged L) (fun q => (snd q, nth (fst q) v [])) (fun q => match sel W (snd q) with Ok ys => ys | _ => [] end)); [exact Lw| |].
  - intros [i idx] Hi. apply tagged_in in Hi. destruct Hi as (l & Hl & Hin). destruct (A i l idx Hl Hin) as (c & e & j & Hp & S). cbn [fst snd]. rewrite S.
    assert (Lr : length (nth i v []) = m_nx m).
    { apply Rv, nth_In. apply nth_error_Some_lt in Hl. lia. }
    split; [reflexivity|]. split; [apply sel_length in S; rewrite map_length, seq_length in S; congruence|].
    intros k y x Hy Hx. apply nth_error_map_seq in Hy. destruct Hy as [Hk ->]. rewrite Hp. f_equal. apply nth_error_nth. exact Hx.
  - intros i y Hi HG. cbn [fst]. pose proof (sym_in_w _ _ _ _ _ _ _ _ H (nth_error_In _ _ Hi)) as R.
    destruct y as [| | | | | | | | | | | | | | | | |f c e j k| | |]; try (exfalso; apply HG; reflexivity). destruct f; try (exfalso; apply HG; reflexivity).
    cbn in R. destruct R as (R1 & R2 & R3). destruct (B c e j R1 R2) as (g & l & idx & Hl & Hin & S). exists (g, idx). split; [apply tagged_in; eauto|].
    cbn [fst snd]. eapply (sel_pos _ _ _ _ _ _ _ H); [exact S| |exact Hi]. rewrite nth_error_map, (nth_error_seq 0 _ k R3). reflexivity.
Qed.

Definition warn {A} (s : sstate) (a : A) : sstate * res A := (s, if not_external O then Err EWarning else Ok a).
Lemma enum_map {A B} (f : A -> B) l : enum (map f l) = map (fun p => (fst p, f (snd p))) (enum l).
Proof. unfold enum. rewrite map_length. generalize 0. induction l as [|a l IH]; intros k; [reflexivity|]. cbn. f_equal. apply IH. Qed.

Lemma set_x_stages v s : sized C m s -> length v = o_N_stages O -> (forall r, In r v -> length r = m_nx m) ->
  set C (SetX v) s = warn (mkState (ss_x0 s) (ss_pval s) (overwrite W (ss_w0 s) (stage_rows v)) (ss_calls s)) tt.
Proof.
  intros Z Lv Rv. unfold set. cbv zeta. change (pr_o (cn_prob C)) with O. change (pr (cn_prob C)) with P. rewrite Lv, Nat.eqb_refl.
  unfold sbind at 1.
  rewrite (sfor_ext _ (fun p => sfor (fun idx => dos row <- lift (nthE EIndexError v (fst p)); update_w0 (fun w => assign w idx row)) (concat (snd p))))
    by (intros p _ s'; apply (sfor_concat (fun idx => dos row <- lift (nthE EIndexError v (fst p)); update_w0 (fun w => assign w idx row)))).
  rewrite (sfor_map (fun p => (fst p, concat (snd p))) (fun p => sfor (fun idx => dos row <- lift (nthE EIndexError v (fst p)); update_w0 (fun w => assign w idx row)) (snd p))).
  rewrite <- enum_map.
  destruct (proj1 (proj2 (shapes_con _ _ _ _ _ _ _ H)) FX) as [L S].
  rewrite (states_by_rows v (map (@concat _) (p_ind1 P FX)) (fun c _ => c)); [unfold warn, stage_rows; destruct (not_external O); reflexivity|apply (sz_w0 _ _ _ Z)|rewrite map_length; lia|exact Rv| |].
  - intros c l idx Hl Hin. rewrite nth_error_map in Hl. destruct (nth_error (p_ind1 P FX) c) as [r|] eqn:Er; [|discriminate]. injection Hl as <-.
    apply in_concat in Hin. destruct Hin as (a & Ha & Hin). apply In_nth_error in Ha. destruct Ha as [e Ha].
    assert (Hc : c < o_N_stages O) by (apply nth_error_Some_lt in Er; lia).
    destruct (S c Hc) as (r' & Hr' & Hn & Hrr). rewrite Er in Hr'. injection Hr' as <-.
    assert (Hp : In (c, e) (elements O)).
    { apply elements_in. split; [exact Hc|]. cbn. unfold nfe_of. rewrite (nth_error_nth _ _ _ Hn). eapply nth_error_Some_lt; exact Ha. }
    destruct (row1 _ _ _ _ _ _ _ H FX (c, e) a Hp) as [La Hr]. { unfold at2. cbn [fst snd]. rewrite Er. exact Ha. }
    apply In_nth_error in Hin. destruct Hin as [j Hj]. destruct (Hr j) as (idx' & E1 & Sl); [rewrite <- La; eapply nth_error_Some_lt; exact Hj|].
    rewrite Hj in E1. injection E1 as <-. exists c, e, j. auto.
  - intros c e j Hp Hj. destruct (elements_fe _ _ _ _ _ _ _ H (c, e) Hp) as (Hc & Hn & He). cbn [fst snd] in *.
    destruct (S c Hc) as (r & Hr & Hn' & Hrr). rewrite Hn in Hn'. injection Hn' as Hn'. destruct (Hrr e) as (a & Ha & La); [lia|].
    destruct (row1 _ _ _ _ _ _ _ H FX (c, e) a Hp) as [_ Hrow]. { unfold at2. cbn [fst snd]. rewrite Hr. exact Ha. }
    destruct (Hrow j Hj) as (idx & E1 & Sl). exists c, (concat r), idx. split; [rewrite nth_error_map, Hr; reflexivity|]. split; [|exact Sl].
    apply in_concat. exists a. split; eapply nth_error_In; eassumption.
Qed.
Lemma elements_total (v : list (list R)) : length v = total (o_Nfe_list O) -> length (elements O) <= length v.
Proof. intros Lv. rewrite (proj1 elements_len), Lv. apply total_firstn. Qed.
Lemma set_x_elements v s : sized C m s -> length v = total (o_Nfe_list O) -> length v <> o_N_stages O -> (forall r, In r v -> length r = m_nx m) ->
  set C (SetX v) s = warn (mkState (ss_x0 s) (ss_pval s) (overwrite W (ss_w0 s) (element_rows O v)) (ss_calls s)) tt.
Proof.
  intros Z Lv Nv Rv. unfold set. cbv zeta. change (pr_o (cn_prob C)) with O. change (pr (cn_prob C)) with P.
  apply Nat.eqb_neq in Nv. rewrite Nv, Lv. change total with sumn. rewrite Nat.eqb_refl. unfold sbind at 1.
  pose proof (nested1 _ _ _ _ _ _ _ H FX) as N1.
  rewrite (states_by_rows v (concat (p_ind1 P FX)) (flat_pos (o_Nfe_list O))); [unfold warn, element_rows; destruct (not_external O); reflexivity|apply (sz_w0 _ _ _ Z)| |exact Rv| |].
  - rewrite <- (Forall2_length _ _ _ N1). apply elements_total, Lv.
  - intros k l idx Hl Hin. destruct (Forall2_nth_r _ _ _ _ _ (Forall2_in _ _ _ N1) Hl) as (p & Hk & Hp & Hat).
    destruct (row1 _ _ _ _ _ _ _ H FX p l Hp Hat) as [La Hr]. apply In_nth_error in Hin. destruct Hin as [j Hj].
    destruct (Hr j) as (idx' & E1 & Sl); [rewrite <- La; eapply nth_error_Some_lt; exact Hj|]. rewrite Hj in E1. injection E1 as <-.
    exists (fst p), (snd p), j. split; [symmetry; apply elements_len, Hk|exact Sl].
  - intros c e j Hp Hj. apply In_nth_error in Hp as Hk. destruct Hk as [k Hk]. destruct (Forall2_nth _ _ _ _ _ N1 Hk) as (a & Ha & Hat).
    destruct (row1 _ _ _ _ _ _ _ H FX (c, e) a Hp Hat) as [_ Hr]. destruct (Hr j Hj) as (idx & E1 & Sl).
    exists k, a, idx. split; [exact Ha|]. split; [eapply nth_error_In; exact E1|exact Sl].
Qed.
Lemma set_x_other v s : length v <> o_N_stages O -> length v <> total (o_Nfe_list O) -> set C (SetX v) s = (s, Err EValueError).
Proof.
  intros N1 N2. unfold set. cbv zeta. change (pr_o (cn_prob C)) with O. change total with sumn in N2.
  apply Nat.eqb_neq in N1, N2. rewrite N1, N2. reflexivity.
Qed.

Lemma set_u_rows v s : sized C m s -> 0 < m_nu m -> length v = o_N_stages O -> (forall r, In r v -> length r = m_nu m) ->
  set C (SetU v) s = (mkState (ss_x0 s) (ss_pval s) (overwrite W (ss_w0 s) (control_rows v)) (ss_calls s), Ok tt).
Proof.
  intros Z Hu Lv Rv. destruct (idx_u_con _ _ _ _ _ _ _ H) as [L S].
  assert (S1 : forall idx, In idx (p_ind_u P) -> length idx = m_nu m).
  { intros idx Hi. apply In_nth_error in Hi. destruct Hi as [c Hc]. destruct (S c) as (idx' & E1 & Sl & _); [apply nth_error_Some_lt in Hc; lia|].
    rewrite Hc in E1. injection E1 as <-. apply sel_length in Sl. rewrite map_length, seq_length in Sl. congruence. }
  unfold set. cbv zeta. change (pr_o (cn_prob C)) with O. change (pr (cn_prob C)) with P.
  assert (NZ : length (concat (p_ind_u P)) <> 0).
  { pose proof (stages_pos' _ _ _ _ _ _ _ H) as N. destruct (p_ind_u P) as [|a l]; [cbn in L; lia|]. cbn. rewrite app_length, (S1 a) by (left; reflexivity). lia. }
  apply Nat.eqb_neq in NZ. rewrite NZ, (all_len_eq_intro (m_nu m)) by exact S1. rewrite L, Lv, Nat.eqb_refl. unfold sbind, lift, guard. cbn [negb].
  rewrite update_w0_run.
  rewrite <- (map_id (combine (p_ind_u P) v)).
  rewrite (blocks_write W (ss_w0 s) (combine (p_ind_u P) v) (fun q => q) (fun q => match sel W (fst q) with Ok ys => ys | _ => [] end) (control_rows v)); [reflexivity|apply (sz_w0 _ _ _ Z)| |].
  - intros [idx r] Hi. apply combine_in_nth in Hi. destruct Hi as (c & H1 & H2). destruct (S c) as (idx' & E1 & Sl & _); [apply nth_error_Some_lt in H1; lia|].
    rewrite H1 in E1. injection E1 as <-. cbn [fst snd]. rewrite Sl. split; [reflexivity|]. split; [rewrite (S1 idx (nth_error_In _ _ H1)); apply Rv; eapply nth_error_In; exact H2|].
    intros k y x Hy Hx. apply nth_error_map_seq in Hy. destruct Hy as [Hk ->]. cbn. rewrite (nth_error_nth _ _ _ H2), (nth_error_nth _ _ _ Hx). reflexivity.
  - intros i y Hi HG. cbn [fst]. pose proof (sym_in_w _ _ _ _ _ _ _ _ H (nth_error_In _ _ Hi)) as R.
    destruct y as [| | | | | | | | | | | | |c k| | | | | | |]; try (exfalso; apply HG; reflexivity). cbn in R. destruct R as [R1 R2].
    destruct (S c R1) as (idx & E1 & Sl & _). destruct (nth_error_lt v c) as [r Hr]; [lia|]. exists (idx, r).
    split; [eapply nth_error_In, nth_combine; eassumption|]. eapply (sel_pos _ _ _ _ _ _ _ H); [exact Sl| |exact Hi].
    rewrite nth_error_map, (nth_error_seq 0 _ k R2). reflexivity.
Qed.
Lemma set_u_none v s : m_nu m = 0 -> set C (SetU v) s = (s, Err EIndexError).
Proof.
  intros Hu. destruct (idx_u_con _ _ _ _ _ _ _ H) as [L S].
  unfold set. cbv zeta. change (pr (cn_prob C)) with P.
  assert (Z : concat (p_ind_u P) = []).
  { destruct (concat (p_ind_u P)) as [|i l] eqn:Ec; [reflexivity|]. exfalso. assert (Hi : In i (concat (p_ind_u P))) by (rewrite Ec; left; reflexivity).
    apply in_concat in Hi. destruct Hi as (idx & Hx & Hi). apply In_nth_error in Hx. destruct Hx as [c Hc].
    destruct (S c) as (idx' & E1 & Sl & _); [apply nth_error_Some_lt in Hc; lia|]. rewrite Hc in E1. injection E1 as <-. apply sel_length in Sl.
    rewrite Hu in Sl. destruct idx; [destruct Hi|discriminate]. }
  rewrite Z. reflexivity.
Qed.

Lemma set_vg_row v s : sized C m s -> 0 < m_nvg m -> length v = m_nvg m ->
  set C (SetVGlobal v) s = (mkState (ss_x0 s) (ss_pval s) (overwrite W (ss_w0 s) (global_row v)) (ss_calls s), Ok tt).
Proof.
  intros Z Hv Lv. destruct (idx_vg_con _ _ _ _ _ _ _ H) as (idx & Ei & Sl & _).
  assert (Li : length idx = m_nvg m) by (apply sel_length in Sl; rewrite map_length, seq_length in Sl; congruence).
  unfold set. cbv zeta. change (pr (cn_prob C)) with P. rewrite Ei. cbn [concat]. rewrite app_nil_r.
  assert (NZ : length idx <> 0) by lia. apply Nat.eqb_neq in NZ. rewrite NZ. unfold sbind, lift, guard. cbn [negb]. rewrite update_w0_run.
  unfold assign_rows. cbn [all_len_eq forallb]. unfold guard. cbn [bind andb].
  replace (bcast (length idx) v) with (Ok v) by (rewrite Li, <- Lv; symmetry; apply bcast_same).
  cbn [bind]. change [idx] with (map (fun i : list nat => i) [idx]). rewrite foldM_map.
  rewrite (foldM_ext_in _ (fun w b => assign w (fst ((fun r => (r, v)) b)) (snd ((fun r => (r, v)) b)))) by reflexivity.
  rewrite <- (foldM_map (fun w b => assign w (fst b) (snd b)) (fun r => (r, v))).
  rewrite (blocks_write W (ss_w0 s) [idx] (fun r => (r, v)) (fun _ => map SVg (seq 0 (m_nvg m))) (global_row v)); [reflexivity|apply (sz_w0 _ _ _ Z)| |].
  - intros t [<-|[]]. cbn [fst snd]. split; [exact Sl|]. split; [congruence|]. intros k y x Hy Hx. apply nth_error_map_seq in Hy. destruct Hy as [Hk ->]. cbn.
    rewrite (nth_error_nth _ _ _ Hx). reflexivity.
  - intros i y Hi HG. exists idx. split; [left; reflexivity|]. cbn [fst]. pose proof (sym_in_w _ _ _ _ _ _ _ _ H (nth_error_In _ _ Hi)) as R.
    destruct y as [| | | | | |k| | | | | | | | | | | | | |]; try (exfalso; apply HG; reflexivity). cbn in R.
    eapply (sel_pos _ _ _ _ _ _ _ H); [exact Sl| |exact Hi]. rewrite nth_error_map, (nth_error_seq 0 _ k R). reflexivity.
Qed.
Lemma set_vg_none v s : m_nvg m = 0 -> set C (SetVGlobal v) s = (s, Err EIndexError).
Proof.
  intros Hv. destruct (idx_vg_con _ _ _ _ _ _ _ H) as (idx & Ei & Sl & _). unfold set. cbv zeta. change (pr (cn_prob C)) with P. rewrite Ei.
  apply sel_length in Sl. rewrite Hv in Sl. destruct idx; [reflexivity|discriminate].
Qed.
Lemma set_w_all v s : set C (SetW v) s = warn (mkState (ss_x0 s) (ss_pval s) v (ss_calls s)) tt.
Proof. unfold set, warn. cbv zeta. change (pr_o (cn_prob C)) with O. unfold sbind, put_w0. destruct (not_external O); reflexivity. Qed.
End Con.
