(* Results2_proofs.v -- get_results on the primal vector of a constructed problem *)
From Coq Require Import Reals Qreals Lra Permutation.
From Verif Require Import Base Lib Sx Sx_proofs Utils Tableau Opts Model Ocp Problem Spec Fesd Spec2
  Fo_proofs Fe_proofs FeMake_proofs FeSel_proofs FeZero_proofs Prob_proofs Coll_proofs Body_proofs Model_proofs
  Con_proofs Index_proofs Index2_proofs Index3_proofs Nlp_proofs Feas_proofs Accept_proofs Results Spec4 Results_proofs.

Section XC.
Variables (o : opts) (t : tab) (pm : pmodel) (oc : pocp) (P : prob) (stages : list (list felem)) (lastfe : felem) (f1 : fobj).
Hypothesis B : body_ok o t pm oc P stages lastfe f1.
Lemma shape_xc : length (p_ind_x_cont P) = o_N_stages o /\
  forall c r, nth_error (p_ind_x_cont P) c = Some r -> nth_error (o_Nfe_list o) c = Some (length r).
Proof.
  destruct (bo_rest _ _ _ _ _ _ _ _ B) as (P0' & f2 & cvs & xT & gT & fT1 & f3 & f6 & Pc & _ & _ & _ & _ & _ & _ & _ & _ & _ & _ & _ & H6 & _ & EPc & Hcl & E1 & E2 & Ex & Eb & Eh).
  destruct (cl_xc _ _ _ Hcl) as (xlss & Hx & Exc).
  assert (Lx : length xlss = length stages) by (symmetry; eapply Forall2_length; eassumption).
  assert (L : length (p_ind_x_cont P) = o_N_stages o).
  { rewrite Exc, Ex. cbn [app]. unfold zipw. rewrite map_length, combine_length, offss_length, Lx.
    rewrite (stages_length _ _ _ _ _ _ _ _ B). lia. }
  split; [assumption|]. intros c r Hr.
  assert (Hc : c < o_N_stages o) by (apply nth_error_Some_lt in Hr; lia).
  destruct (get_stage _ _ _ _ _ _ _ _ B c Hc) as (P0 & nfe & starts & ends & qq & q & pp' & p' & _ & _ & Hn & _ & Hen & Hle & _).
  rewrite Hn. f_equal. revert Hr. rewrite Exc, Ex. cbn [app].
  destruct (nth_error_lt (offss (length (w (pb Pc))) stages) c) as [ofs Hofs].
  { rewrite offss_length. eapply nth_error_Some_lt; eassumption. }
  destruct (Forall2_nth _ _ _ _ _ Hx Hen) as (xls & Hxls & Hxl). apply Forall2_length in Hxl.
  rewrite (zipw_nth _ _ _ _ _ _ Hofs Hxls). intros Hr. injection Hr as <-.
  unfold zipw. rewrite map_length, combine_length. rewrite (offss_lens _ _ _ _ _ Hofs Hen). lia.
Qed.
End XC.

Section Con.
Variables (lr : Q -> Q -> Q -> nat) (cp : nat -> scheme -> list Q) (d : ipopt_dict)
  (o : opts) (m : model) (oc : option ocp) (C : constructed).
Hypothesis H : construct_problem lr cp d o m oc = Ok C.
Notation O := (the_opts C).
Notation P := (the_problem C).
Notation W := (w (the_nlp C)).

Lemma nfe_of_nth c : c < o_N_stages O -> nth_error (o_Nfe_list O) c = Some (nfe_of O c) /\ 0 < nfe_of O c.
Proof.
  intros Hc. destruct (proj1 (shapes_con _ _ _ _ _ _ _ H) c Hc) as (nfe & Hn & Hp).
  unfold nfe_of. rewrite (nth_error_nth _ _ _ Hn). auto.
Qed.
Lemma elements_fe p : In p (elements O) -> is_fe O (fst p) (snd p) (nfe_of O (fst p)).
Proof. intros Hp. apply elements_in in Hp. destruct Hp as [H1 H2]. split; [assumption|]. split; [apply nfe_of_nth; assumption|assumption]. Qed.

(* a nested list with one entry per element, read in order of time *)
Lemma nested {A} (l : list (list A)) : length l = o_N_stages O ->
  (forall c r, nth_error l c = Some r -> nth_error (o_Nfe_list O) c = Some (length r)) ->
  Forall2 (fun p a => at2 l (fst p) (snd p) = Some a) (elements O) (concat l).
Proof.
  intros L Hl. eapply Forall2_impl; [|apply (elems_gen (nfe_of O) l (o_N_stages O) 0 L)].
  - cbn. intros p a [_ E]. rewrite Nat.sub_0_r in E. exact E.
  - intros c r Hr. cbn. pose proof (Hl c r Hr) as E. unfold nfe_of. rewrite (nth_error_nth _ _ _ E). reflexivity.
Qed.
Lemma nested1 f : Forall2 (fun p a => at2 (p_ind1 P f) (fst p) (snd p) = Some a) (elements O) (concat (p_ind1 P f)).
Proof.
  destruct (proj1 (proj2 (shapes_con _ _ _ _ _ _ _ H)) f) as [L S]. apply nested; [assumption|].
  intros c r Hr. destruct (S c) as (r' & Hr' & E & _); [apply nth_error_Some_lt in Hr; lia|]. rewrite Hr in Hr'. injection Hr' as <-. exact E.
Qed.
Lemma nested2 f : Forall2 (fun p a => at2 (p_ind2 P f) (fst p) (snd p) = Some a) (elements O) (concat (p_ind2 P f)).
Proof.
  destruct (proj2 (proj2 (shapes_con _ _ _ _ _ _ _ H)) f) as [L S]. apply nested; [assumption|].
  intros c r Hr. destruct (S c) as (r' & Hr' & E & _); [apply nth_error_Some_lt in Hr; lia|]. rewrite Hr in Hr'. injection Hr' as <-. exact E.
Qed.
Lemma nested_xc : Forall2 (fun p a => at2 (p_ind_x_cont P) (fst p) (snd p) = Some a) (elements O) (concat (p_ind_x_cont P)).
Proof.
  destruct (con_use _ _ _ _ _ _ _ H) as (o' & t & pm & po & P' & st & lf & f1 & K & B & Eo & Ee & Ew & El & Eu & _).
  destruct (lsq_same _ _ _ (co_lsq _ _ _ _ _ _ _ _ _ _ _ _ K)) as (_ & _ & _ & _ & _ & _ & L7 & L8 & _).
  rewrite L8. destruct (shape_xc _ _ _ _ _ _ _ _ B) as [S1 S2]. apply nested; rewrite Eo; assumption.
Qed.

(* rows *)
Lemma row1 f p a : In p (elements O) -> at2 (p_ind1 P f) (fst p) (snd p) = Some a ->
  length a = points1 O (explicit_end C) f /\
  forall j, j < points1 O (explicit_end C) f -> exists idx, nth_error a j = Some idx /\
   sel W idx = Ok (map (S1 f (fst p) (snd p) j) (seq 0 (dim1 O m f))).
Proof.
  intros Hp Ha. pose proof (elements_fe p Hp) as Hfe. split.
  - destruct (proj1 (proj2 (shapes_con _ _ _ _ _ _ _ H)) f) as [L S]. destruct Hfe as (Hc & Hn & He).
    destruct (S _ Hc) as (r & Hr & En & Hrr). rewrite Hn in En. injection En as En. destruct (Hrr (snd p)) as (rr & E1 & E2); [lia|].
    unfold at2 in Ha. rewrite Hr, E1 in Ha. injection Ha as <-. exact E2.
  - intros j Hj. destruct (idx1_con _ _ _ _ _ _ _ H _ _ _ f j Hfe Hj) as (idx & E1 & E2 & _). exists idx.
    unfold at3 in E1. rewrite Ha in E1. auto.
Qed.
Lemma row2 f p a : In p (elements O) -> at2 (p_ind2 P f) (fst p) (snd p) = Some a ->
  let n := points2 O (explicit_end C) (nfe_of O (fst p)) (snd p) f in
  length a = n /\ forall j, j < n -> exists r, nth_error a j = Some r /\ length r = n_subsystems m /\
   forall s, s < n_subsystems m -> exists idx, nth_error r s = Some idx /\
   sel W idx = Ok (map (S2 f (fst p) (snd p) j s) (seq 0 (dim2 O m f s))).
Proof.
  intros Hp Ha n. pose proof (elements_fe p Hp) as Hfe.
  assert (E : map (@length _) a = repeat (n_subsystems m) n).
  { destruct (proj2 (proj2 (shapes_con _ _ _ _ _ _ _ H)) f) as [L S]. destruct Hfe as (Hc & Hn & He).
    destruct (S _ Hc) as (r & Hr & En & Hrr). rewrite Hn in En. injection En as En. destruct (Hrr (snd p)) as (rr & E1 & E2); [lia|].
    unfold at2 in Ha. rewrite Hr, E1 in Ha. injection Ha as <-. rewrite <- En in E2. exact E2. }
  assert (La : length a = n) by (rewrite <- (map_length (@length _) a), E, repeat_length; reflexivity).
  split; [exact La|]. intros j Hj. destruct (nth_error_lt a j) as [r Hr]; [lia|]. exists r. split; [assumption|].
  split.
  - pose proof (map_nth_error (@length _) _ _ Hr) as Hm. rewrite E in Hm. rewrite nth_error_repeat' in Hm by assumption. injection Hm as ->. reflexivity.
  - intros s Hs. destruct (idx2_con _ _ _ _ _ _ _ H _ _ _ f j s Hfe Hj Hs) as (idx & E1 & E2 & _). exists idx.
    unfold at4, at3 in E1. rewrite Ha, Hr in E1. auto.
Qed.

Lemma ns0 : 0 < o_ns O.
Proof. eapply ns_pos; eassumption. Qed.
Lemma points1_pos f : 0 < points1 O (explicit_end C) f.
Proof. pose proof ns0 as N. unfold points1. destruct f; try exact N. destruct (o_repr O), (explicit_end C); lia. Qed.
Lemma points2_pos f nfe e : 0 < points2 O (explicit_end C) nfe e f.
Proof. pose proof ns0 as N. unfold points2. destruct f; lia. Qed.

Variable rho : env.
Notation V := (map rho W).

Lemma gather_vals idx f n : sel W idx = Ok (map f (seq 0 n)) -> gather V idx = Ok (vals rho f n).
Proof. intros E. rewrite (gather_sel rho _ _ _ E), map_map. reflexivity. Qed.

Lemma r_x_list : mapM (gather V) (concat (p_ind_x_cont P)) = Ok (map (end_states O (explicit_end C) m rho) (elements O)).
Proof.
  eapply mapM_F2; [exact nested_xc|]. intros p a Hp Ha. cbn beta in Ha.
  destruct (idx_x_cont _ _ _ _ _ _ _ H _ _ _ (elements_fe p Hp)) as [E1 _]. rewrite Ha in E1.
  destruct (idx1_con _ _ _ _ _ _ _ H _ _ _ FX (points1 O (explicit_end C) FX - 1) (elements_fe p Hp)) as (idx & E2 & E3 & _); [pose proof (points1_pos FX); lia|].
  rewrite E2 in E1. injection E1 as ->. exact (gather_vals _ _ _ E3).
Qed.

Lemma r_x_all : 0 < m_nx m -> mapM (gather_arr V) (concat (concat (p_ind1 P FX))) =
  Ok (concat (map (all_states O (explicit_end C) m rho) (elements O))).
Proof.
  intros Hx.
  assert (G : forall (es : list (nat * nat)) (ll : list (list (list nat))), Forall2 (fun p a => mapM (gather_arr V) a = Ok (all_states O (explicit_end C) m rho p)) es ll ->
     mapM (gather_arr V) (concat ll) = Ok (concat (map (all_states O (explicit_end C) m rho) es))).
  { induction 1 as [|p a es ll H1 H2 IH]; [reflexivity|]. cbn [concat map]. rewrite mapM_app, H1. cbn [bind]. rewrite IH. reflexivity. }
  apply G. pose proof (nested1 FX) as N.
  assert (N' : Forall2 (fun p a => In p (elements O) /\ at2 (p_ind1 P FX) (fst p) (snd p) = Some a) (elements O) (concat (p_ind1 P FX))).
  { exact (Forall2_in _ _ _ N). }
  eapply Forall2_impl; [|exact N']. cbn. intros p a [Hp Ha].
  destruct (row1 FX p a Hp Ha) as [L R].
  assert (E : a = map (fun j => nth j a []) (seq 0 (points1 O (explicit_end C) FX))).
  { apply rows_of; [assumption|]. intros s Hs. apply nth_error_nth'. lia. }
  unfold all_states. rewrite E at 1. clear E.
  assert (G2 : forall js, (forall j, In j js -> j < length a) -> mapM (gather_arr V) (map (fun j => nth j a []) js) =
    Ok (map (fun j => vals rho (S1 FX (fst p) (snd p) j) (m_nx m)) js)).
  { induction js as [|j js IH]; intros Hj; [reflexivity|]. cbn [map mapM].
    destruct (R j) as (idx & Hi & Hs); [rewrite <- L; apply Hj; left; reflexivity|]. rewrite (nth_error_nth _ _ _ Hi).
    assert (Li : length idx = m_nx m) by (apply sel_length in Hs; rewrite map_length, seq_length in Hs; symmetry; exact Hs).
    unfold gather_arr at 1. rewrite (proj2 (Nat.eqb_neq (length idx) 0)) by lia. cbn [negb guard bind].
    rewrite (gather_vals _ _ _ Hs). cbn [bind]. rewrite IH; [reflexivity|]. intros; apply Hj; right; assumption. }
  apply G2. intros j Hj. apply in_seq in Hj. rewrite L. apply Hj.
Qed.

Lemma r_u : mapM (gather V) (p_ind_u P) = Ok (map (fun c => vals rho (SU c) (m_nu m)) (seq 0 (o_N_stages O))).
Proof.
  destruct (idx_u_con _ _ _ _ _ _ _ H) as [L S].
  assert (F : Forall2 (fun c idx => nth_error (p_ind_u P) c = Some idx) (seq 0 (o_N_stages O)) (p_ind_u P)).
  { rewrite <- L. clear. generalize (p_ind_u P) as l. intros l.
    assert (G : forall (s : list (list nat)) pre, l = pre ++ s -> Forall2 (fun c idx => nth_error l c = Some idx) (seq (length pre) (length s)) s).
    { induction s as [|a s IH]; intros pre E; cbn; constructor; [rewrite E, nth_error_app2, Nat.sub_diag by lia; reflexivity|].
      specialize (IH (pre ++ [a])). rewrite app_length, Nat.add_1_r in IH. apply IH. rewrite <- app_assoc. exact E. }
    exact (G l [] eq_refl). }
  eapply mapM_F2; [exact F|]. intros c idx Hc Hi. apply in_seq in Hc. destruct (S c) as (idx' & E1 & E2 & _); [lia|].
  cbn beta in Hi. rewrite Hi in E1. injection E1 as <-. exact (gather_vals _ _ _ E2).
Qed.

Lemma r_sot : (match o_sot O with SotNone => Ok None | _ => do* s <- mapM (gather V) (p_ind_sot P); Ok (Some s) end) =
  Ok (match o_sot O with SotNone => None | _ => Some (map (fun c => [rho (SSot c)]) (seq 0 (o_N_stages O))) end).
Proof.
  pose proof (idx_sot_con _ _ _ _ _ _ _ H) as S. destruct (o_sot O); [reflexivity| |contradiction].
  destruct S as [L S].
  assert (F : p_ind_sot P = map (fun c => nth c (p_ind_sot P) []) (seq 0 (o_N_stages O))).
  { apply rows_of; [assumption|]. intros s Hs. apply nth_error_nth'. lia. }
  rewrite F.
  assert (G : forall cs, (forall c, In c cs -> c < o_N_stages O) -> mapM (gather V) (map (fun c => nth c (p_ind_sot P) []) cs) = Ok (map (fun c => [rho (SSot c)]) cs)).
  { induction cs as [|c cs IH]; intros Hc; [reflexivity|]. cbn [map mapM].
    destruct (S c) as (i & E1 & E2 & _); [apply Hc; left; reflexivity|]. rewrite (nth_error_nth _ _ _ E1).
    unfold gather at 1. cbn [mapM]. unfold nthE at 1. rewrite nth_error_map, E2. cbn. rewrite IH; [reflexivity|]. intros; apply Hc; right; assumption. }
  rewrite G; [reflexivity|]. intros c Hc. apply in_seq in Hc. lia.
Qed.

Definition cont_rows f (p : nat * nat) : list (list nat) :=
  match at3 (p_ind2 P f) (fst p) (snd p) (points2 O (explicit_end C) (nfe_of O (fst p)) (snd p) f - 1) with Some r => r | None => [] end.
Lemma cont_rows_ok f p : In p (elements O) -> length (cont_rows f p) = n_subsystems m /\
  forall s, s < n_subsystems m -> exists idx, nth_error (cont_rows f p) s = Some idx /\
   sel W idx = Ok (map (S2 f (fst p) (snd p) (points2 O (explicit_end C) (nfe_of O (fst p)) (snd p) f - 1) s) (seq 0 (dim2 O m f s))).
Proof.
  intros Hp. assert (exists a, at2 (p_ind2 P f) (fst p) (snd p) = Some a) as [a Ha].
  { pose proof (idx2_con _ _ _ _ _ _ _ H) as _. pose proof (nested2 f) as N. apply In_nth_error in Hp. destruct Hp as [k Hk].
    destruct (Forall2_nth _ _ _ _ _ N Hk) as (a & _ & Ha). exists a. exact Ha. }
  destruct (row2 f p a Hp Ha) as [L R]. cbv zeta in *. destruct (R (points2 O (explicit_end C) (nfe_of O (fst p)) (snd p) f - 1)) as (r & Hr & Hl & Hs); [pose proof (points2_pos f (nfe_of O (fst p)) (snd p)); lia|].
  unfold cont_rows, at3. rewrite Ha, Hr. auto.
Qed.
Lemma r_cont f : get_cont_algebraic_indices (p_ind2 P f) = Ok (map (cont_rows f) (elements O)).
Proof.
  unfold get_cont_algebraic_indices. eapply mapM_F2; [exact (nested2 f)|]. intros p a Hp Ha. cbn beta in Ha.
  destruct (row2 f p a Hp Ha) as [L R]. cbv zeta in *. destruct (R (points2 O (explicit_end C) (nfe_of O (fst p)) (snd p) f - 1)) as (r & Hr & _); [pose proof (points2_pos f (nfe_of O (fst p)) (snd p)); lia|].
  unfold cont_rows, at3. rewrite Ha, Hr. rewrite <- L in Hr.
  clear - Hr. destruct a as [|x a] using rev_ind; [discriminate|]. rewrite app_length in Hr. cbn in Hr. rewrite nth_error_app2 in Hr by lia.
  replace (length a + 1 - 1 - length a) with 0 in Hr by lia. injection Hr as <-. apply lastE_app.
Qed.
Lemma gather_rows f p : In p (elements O) -> mapM (gather V) (cont_rows f p) = Ok (end_family O (explicit_end C) m rho f p).
Proof.
  intros Hp. destruct (cont_rows_ok f p Hp) as [L R]. rewrite (rows_of (cont_rows f p) (fun s => nth s (cont_rows f p) []) _ L) by (intros; apply nth_error_nth'; lia).
  unfold end_family.
  assert (G : forall ss, (forall s, In s ss -> s < n_subsystems m) -> mapM (gather V) (map (fun s => nth s (cont_rows f p) []) ss) =
    Ok (map (fun s => vals rho (S2 f (fst p) (snd p) (points2 O (explicit_end C) (nfe_of O (fst p)) (snd p) f - 1) s) (dim2 O m f s)) ss)).
  { induction ss as [|s ss IH]; intros Hs; [reflexivity|]. cbn [map mapM]. destruct (R s) as (idx & E1 & E2); [apply Hs; left; reflexivity|].
    rewrite (nth_error_nth _ _ _ E1), (gather_vals _ _ _ E2). cbn [bind]. rewrite IH; [reflexivity|]. intros; apply Hs; right; assumption. }
  apply G. intros s Hs. apply in_seq in Hs. lia.
Qed.
Lemma gather_concat (rows : list (list nat)) vs : mapM (gather V) rows = Ok vs -> gather V (concat rows) = Ok (concat vs).
Proof.
  revert vs. induction rows as [|r rows IH]; intros vs E; cbn [mapM] in E.
  - injection E as <-. reflexivity.
  - apply bind_ok in E. destruct E as (a & Ea & E). apply bind_ok in E. destruct E as (l & El & E). injection E as <-.
    cbn [concat]. unfold gather in *. rewrite mapM_app, Ea. cbn [bind]. rewrite (IH _ El). reflexivity.
Qed.
Lemma mapM_map_ok {A B D} (f : B -> res D) (g : A -> B) (h : A -> D) (l : list A) : (forall a, In a l -> f (g a) = Ok (h a)) -> mapM f (map g l) = Ok (map h l).
Proof. intros Hf. induction l as [|a l IH]; [reflexivity|]. cbn. rewrite (Hf a (or_introl eq_refl)). cbn. rewrite IH; [reflexivity|]. intros; apply Hf; right; assumption. Qed.

Lemma r_flat f : mapM (fun i => gather V (concat i)) (map (cont_rows f) (elements O)) =
  Ok (map (fun p => concat (end_family O (explicit_end C) m rho f p)) (elements O)).
Proof. apply mapM_map_ok. intros p Hp. apply gather_concat, gather_rows. assumption. Qed.
Lemma r_rows f : (forall s s', s < n_subsystems m -> s' < n_subsystems m -> dim2 O m f s = dim2 O m f s') ->
  mapM (gather2 V) (map (cont_rows f) (elements O)) = Ok (map (end_family O (explicit_end C) m rho f) (elements O)).
Proof.
  intros U. apply mapM_map_ok. intros p Hp. unfold gather2. rewrite (all_len_eq_intro (dim2 O m f 0)); [cbn [guard bind]; apply gather_rows; assumption|].
  intros r Hr. apply In_nth_error in Hr. destruct Hr as [s Hs]. destruct (cont_rows_ok f p Hp) as [L R].
  assert (Hlt : s < n_subsystems m) by (apply nth_error_Some_lt in Hs; lia).
  destruct (R s Hlt) as (idx & E1 & E2). rewrite Hs in E1. injection E1 as <-. apply sel_length in E2. rewrite map_length, seq_length in E2.
  rewrite <- E2. apply U; lia.
Qed.

Lemma r_z_idx : exists l, get_cont_algebraic_indices (p_ind1 P FZ) = Ok l /\ mapM (gather V) l = Ok (map (end_z O m rho) (elements O)).
Proof.
  set (row := fun p : nat * nat => match at3 (p_ind1 P FZ) (fst p) (snd p) (o_ns O - 1) with Some r => r | None => [] end).
  exists (map row (elements O)). pose proof ns0 as N0. split.
  - unfold get_cont_algebraic_indices. eapply mapM_F2; [exact (nested1 FZ)|]. intros p a Hp Ha. cbn beta in Ha.
    destruct (row1 FZ p a Hp Ha) as [L R]. cbn [points1] in L, R. destruct (R (o_ns O - 1)) as (r & Hr & _); [lia|].
    unfold row, at3. rewrite Ha, Hr. rewrite <- L in Hr. clear - Hr.
    destruct a as [|x a] using rev_ind; [discriminate|]. rewrite app_length in Hr. cbn in Hr. rewrite nth_error_app2 in Hr by lia.
    replace (length a + 1 - 1 - length a) with 0 in Hr by lia. injection Hr as <-. apply lastE_app.
  - apply mapM_map_ok. intros p Hp. destruct (idx1_con _ _ _ _ _ _ _ H _ _ _ FZ (o_ns O - 1) (elements_fe p Hp)) as (idx & E1 & E2 & _); [cbn; lia|].
    unfold row. rewrite E1. exact (gather_vals _ _ _ E2).
Qed.

Lemma total_app a b : total (a ++ b) = total a + total b.
Proof. induction a; cbn; [reflexivity|]. unfold total in *. lia. Qed.
Lemma seq_shift_map k n : map (fun e => k + e) (seq 0 n) = seq k n.
Proof. revert k. induction n as [|n IH]; intros k; [reflexivity|]. cbn. rewrite Nat.add_0_r. f_equal. rewrite <- seq_shift, map_map, <- (IH (S k)). apply map_ext. intros; lia. Qed.
Lemma flat_seq : forall n, n <= o_N_stages O ->
  map (fun p => flat_pos (o_Nfe_list O) (fst p) (snd p)) (concat (map (fun c => map (pair c) (seq 0 (nfe_of O c))) (seq 0 n))) =
  seq 0 (total (firstn n (o_Nfe_list O))).
Proof.
  induction n as [|n IH]; intros Hn; [reflexivity|].
  rewrite seq_S, map_app, concat_app, map_app, IH by lia. cbn [plus map concat]. rewrite app_nil_r, map_map.
  destruct (nfe_of_nth n) as [En _]; [lia|].
  assert (E : firstn (S n) (o_Nfe_list O) = firstn n (o_Nfe_list O) ++ [nfe_of O n]).
  { revert En. clear. generalize (o_Nfe_list O) as l, (nfe_of O n) as x. induction n as [|n IH]; intros [|a l] x E; try discriminate; cbn in *; [injection E as ->; reflexivity|]. f_equal. apply IH. assumption. }
  rewrite E, total_app, seq_app. cbn [plus]. f_equal. cbn [fst snd]. unfold flat_pos.
  rewrite seq_shift_map. cbn. rewrite Nat.add_0_r. reflexivity.
Qed.

Lemma stages_pos : 0 < o_N_stages O.
Proof.
  destruct (con_use _ _ _ _ _ _ _ H) as (o' & t & pm & po & P' & st & lf & f1 & K & B & Eo & _). rewrite Eo. exact (bo_N _ _ _ _ _ _ _ _ B).
Qed.

Lemma r_steps_fesd : o_use_fesd O = true -> time_steps_of O P V = Ok (step_lengths O rho).
Proof.
  intros F. unfold time_steps_of, step_lengths. pose proof (idx_h_con _ _ _ _ _ _ _ H) as Hh. rewrite F in Hh |- *.
  destruct Hh as [L S].
  assert (E : p_ind_h P = map (fun p => nth (flat_pos (o_Nfe_list O) (fst p) (snd p)) (p_ind_h P) 0) (elements O)).
  { rewrite <- (map_map (fun p => flat_pos (o_Nfe_list O) (fst p) (snd p)) (fun k => nth k (p_ind_h P) 0)). unfold elements. rewrite flat_seq by lia.
    rewrite <- L. clear. generalize (p_ind_h P) as l. intros l. apply nth_error_ext. intros i. rewrite nth_error_map.
    destruct (Nat.lt_ge_cases i (length l)) as [Hi|Hi]; [rewrite nth_error_seq by lia; cbn; apply nth_error_nth'; assumption|].
    rewrite !(proj2 (nth_error_None _ i)); [reflexivity|rewrite seq_length; lia|lia]. }
  rewrite E. unfold gather. apply mapM_map_ok. intros p Hp. destruct (S _ _ _ (elements_fe p Hp)) as (i & E1 & E2 & _).
  rewrite (nth_error_nth _ _ _ E1). unfold nthE. rewrite nth_error_map, E2. unfold step_len. rewrite F. reflexivity.
Qed.

Definition plain_step (nfe : nat) : R := (Q2R (o_terminal_time O) / INR (o_N_stages O) / INR nfe)%R.
Lemma r_steps_plain : o_use_fesd O = false -> (forall n, In n (o_Nfe_list O) -> 0 < n) ->
  time_steps_of O P V = Ok (concat (map (fun nfe => repeat (plain_step nfe) nfe) (o_Nfe_list O))).
Proof.
  intros F Hpos. unfold time_steps_of. rewrite F. pose proof stages_pos as N0.
  rewrite (proj2 (Nat.eqb_neq _ _)) by lia. cbn [negb guard bind].
  assert (G : mapM (fun nfe => do* _ <- guard (negb (nfe =? 0)) EZeroDivision; Ok (repeat (Q2R (o_terminal_time O) / INR (o_N_stages O) / INR nfe)%R nfe)) (o_Nfe_list O)
      = Ok (map (fun nfe => repeat (plain_step nfe) nfe) (o_Nfe_list O))).
  { apply mapM_ok_map. intros nfe Hn. apply Hpos in Hn.
    rewrite (proj2 (Nat.eqb_neq _ 0)) by lia. reflexivity. }
  rewrite G. reflexivity.
Qed.
Lemma plain_nominal c : c < o_N_stages O -> plain_step (nfe_of O c) = Q2R (nominal_step O (nfe_of O c)).
Proof.
  intros Hc. destruct (nfe_of_nth c Hc) as [_ Hp]. unfold plain_step, nominal_step.
  change (inject_Z (Z.of_nat (o_N_stages O))) with (Qnat (o_N_stages O)). change (inject_Z (Z.of_nat (nfe_of O c))) with (Qnat (nfe_of O c)).
  rewrite !Q2R_div by (apply Qnat_nz; lia). rewrite !Q2R_nat. reflexivity.
Qed.
Lemma nfes_one : one_nfe_per_stage O -> o_Nfe_list O = map (nfe_of O) (seq 0 (o_N_stages O)).
Proof.
  intros U. apply nth_error_ext. intros i. rewrite nth_error_map. unfold one_nfe_per_stage in U. destruct (Nat.lt_ge_cases i (o_N_stages O)) as [Hi|Hi].
  - rewrite nth_error_seq by lia. cbn. apply nfe_of_nth. assumption.
  - rewrite !(proj2 (nth_error_None _ i)); [reflexivity|rewrite seq_length; lia|lia].
Qed.
Lemma nfes_pos : one_nfe_per_stage O -> forall n, In n (o_Nfe_list O) -> 0 < n.
Proof.
  intros U n Hn. rewrite (nfes_one U) in Hn. apply in_map_iff in Hn. destruct Hn as (c & <- & Hc). apply in_seq in Hc. apply nfe_of_nth. lia.
Qed.

Lemma r_steps : one_nfe_per_stage O -> time_steps_of O P V = Ok (step_lengths O rho).
Proof.
  intros U. destruct (o_use_fesd O) eqn:F; [apply r_steps_fesd; assumption|].
  rewrite r_steps_plain by (try apply nfes_pos; assumption). f_equal. unfold step_lengths, elements. rewrite concat_map, map_map.
  rewrite (nfes_one U) at 1. rewrite map_map. f_equal. apply map_ext_in. intros c Hc. apply in_seq in Hc. rewrite map_map. cbn.
  unfold step_len. rewrite F. rewrite plain_nominal by lia. clear. generalize (Q2R (nominal_step O (nfe_of O c))). intros r.
  generalize 0. induction (nfe_of O c); intros k; cbn; [reflexivity|]. f_equal. apply IHn.
Qed.

Lemma r_x_out : exists l1 l2 l3, lastE EIndexError (p_ind1 P FX) = Ok l1 /\ lastE EIndexError l1 = Ok l2 /\ lastE EIndexError l2 = Ok l3 /\
  gather V l3 = Ok (end_states O (explicit_end C) m rho (final_element O)).
Proof.
  pose proof stages_pos as N0.
  destruct (nfe_of_nth (o_N_stages O - 1)) as [En Hp]; [lia|].
  destruct (proj1 (proj2 (shapes_con _ _ _ _ _ _ _ H)) FX) as [L S].
  destruct (S (o_N_stages O - 1)) as (r & Hr & Hlr & Hrr); [lia|]. rewrite En in Hlr. injection Hlr as Hlr.
  destruct (Hrr (nfe_of O (o_N_stages O - 1) - 1)) as (rr & Hrr1 & Hrr2); [lia|].
  pose proof (points1_pos FX) as Pp.
  destruct (idx1_con _ _ _ _ _ _ _ H (o_N_stages O - 1) (nfe_of O (o_N_stages O - 1) - 1) (nfe_of O (o_N_stages O - 1)) FX (points1 O (explicit_end C) FX - 1)) as (idx & E1 & E2 & _).
  { split; [lia|]. split; [assumption|lia]. } { lia. }
  unfold at3, at2 in E1. rewrite Hr, Hrr1 in E1.
  assert (LG : forall X (l : list X) x, nth_error l (length l - 1) = Some x -> lastE EIndexError l = Ok x).
  { clear. intros X l x Hx. destruct l as [|y l] using rev_ind; [discriminate|]. rewrite app_length in Hx. cbn in Hx.
    rewrite nth_error_app2 in Hx by lia. replace (length l + 1 - 1 - length l) with 0 in Hx by lia. injection Hx as <-. apply lastE_app. }
  exists r, rr, idx. split; [apply LG; rewrite L; assumption|]. split; [apply LG; rewrite <- Hlr; assumption|].
  split; [apply LG; rewrite Hrr2; assumption|]. exact (gather_vals _ _ _ E2).
Qed.

Lemma dims_equal f : (o_pss O = Stewart -> uniform_modes m) -> f = FTheta \/ f = FLam ->
  forall s s', s < n_subsystems m -> s' < n_subsystems m -> dim2 O m f s = dim2 O m f s'.
Proof. intros U Hf s s' Hs Hs'. unfold dim2. destruct (o_pss O) eqn:E; destruct Hf as [-> | ->]; try reflexivity; apply U; auto. Qed.

Lemma mode_values_ok : elements O <> [] /\ exists n, forall a, In a (mode_values O (explicit_end C) m rho) -> length a = n.
Proof.
  pose proof stages_pos as N0.
  split.
  - intros E. assert (Hin : In (0, 0) (elements O)); [|rewrite E in Hin; exact Hin].
    apply elements_in. cbn. split; [assumption|]. apply nfe_of_nth. assumption.
  - exists (total (map (dim2 O m (match o_pss O with Stewart => FTheta | Step => FAlpha end)) (seq 0 (n_subsystems m)))).
    intros a Ha. unfold mode_values in Ha. apply in_map_iff in Ha. destruct Ha as (p & <- & Hp).
    rewrite length_concat. unfold end_family. rewrite map_map. change sumn with total. f_equal. apply map_ext. intros s. unfold vals. rewrite map_length, seq_length. reflexivity.
Qed.

Lemma total_all : one_nfe_per_stage O -> length (elements O) = total (o_Nfe_list O).
Proof.
  intros U. unfold one_nfe_per_stage in U. rewrite elements_length by lia. f_equal. rewrite <- U. apply firstn_all.
Qed.

Theorem results_gen x0 steps : 0 < m_nx m -> (o_pss O = Stewart -> uniform_modes m) -> time_steps_of O P V = Ok steps ->
  total (o_Nfe_list O) <= length steps -> length (elements O) <= length steps ->
  exists r sw, get_results (cn_prob C) x0 V = Ok r /\
  let E := explicit_end C in let es := elements O in
  rs_x_list r = map (end_states O E m rho) es /\
  rs_x_traj r = x0 :: map (end_states O E m rho) es /\
  rs_x_out r = end_states O E m rho (final_element O) /\
  rs_x_all_list r = x0 :: concat (map (all_states O E m rho) es) /\
  rs_u_list r = map (fun c => vals rho (SU c) (m_nu m)) (seq 0 (o_N_stages O)) /\
  rs_sot r = match o_sot O with SotNone => None | _ => Some (map (fun c => [rho (SSot c)]) (seq 0 (o_N_stages O))) end /\
  rs_theta_list r = map (end_family O E m rho FTheta) es /\
  rs_lambda_list r = map (end_family O E m rho FLam) es /\
  rs_alpha_list r = map (fun p => concat (end_family O E m rho FAlpha p)) es /\
  rs_lambda_n_list r = map (fun p => concat (end_family O E m rho FLn p)) es /\
  rs_lambda_p_list r = map (fun p => concat (end_family O E m rho FLp p)) es /\
  rs_z_list r = map (end_z O m rho) es /\
  rs_v_global r = [vals rho SVg (m_nvg m)] /\
  rs_time_steps r = steps /\
  rs_t_grid r = map (partial_sum steps) (seq 0 (length steps + 1)) /\
  rs_t_grid_u r = map (fun c => partial_sum steps (total (firstn c (o_Nfe_list O)))) (seq 0 (length (o_Nfe_list O) + 1)) /\
  rs_switch_times r = map (fun j => nth j steps 0%R) sw /\
  increasing sw /\ (forall j, In j sw <-> jump_after (mode_values O E m rho) j).
Proof.
  intros Hx U F1 Lt Le. unfold get_results. change (pr_o (cn_prob C)) with O. change (pr (cn_prob C)) with P.
  destruct r_x_out as (l1 & l2 & l3 & -> & E2 & E3 & E4). cbn [bind]. rewrite E2. cbn [bind]. rewrite E3. cbn [bind]. rewrite E4. cbn [bind].
  rewrite r_x_list. cbn [bind]. rewrite r_x_all by assumption. cbn [bind]. rewrite r_u. cbn [bind].
  rewrite r_sot. cbn [bind]. rewrite r_cont. cbn [bind]. rewrite r_rows by (apply dims_equal; auto). cbn [bind].
  rewrite r_cont. cbn [bind]. rewrite r_rows by (apply dims_equal; auto). cbn [bind].
  rewrite r_cont. cbn [bind]. rewrite r_flat. cbn [bind]. rewrite r_cont. cbn [bind]. rewrite r_flat. cbn [bind].
  rewrite r_cont. cbn [bind]. rewrite r_flat. cbn [bind].
  destruct r_z_idx as (lz & -> & Ez). cbn [bind]. rewrite Ez. cbn [bind].
  rewrite F1. cbn [bind].
  assert (Eu : mapM (nthE EIndexError (0%R :: cumsum 0 steps)) (0 :: ncumsum 0 (o_Nfe_list O)) =
     Ok (map (fun c => partial_sum steps (total (firstn c (o_Nfe_list O)))) (seq 0 (length (o_Nfe_list O) + 1)))).
  { rewrite u_grid_map. apply mapM_map_ok. intros c Hc. unfold nthE. rewrite grid_nth; [reflexivity|].
    eapply Nat.le_trans; [apply total_firstn_le|assumption]. }
  rewrite Eu. cbn [bind].
  destruct (idx_vg_con _ _ _ _ _ _ _ H) as (idx & Ev & Es & _). rewrite Ev. unfold gather2 at 1. cbn [all_len_eq forallb guard bind mapM].
  rewrite (gather_vals _ _ _ Es). cbn [bind].
  destruct mode_values_ok as [Hne [n Hn]].
  assert (Hm : mode_values O (explicit_end C) m rho <> []) by (unfold mode_values; intros E; apply map_eq_nil in E; contradiction).
  destruct (all_switches_ok n _ Hm Hn) as (sw & Esw & Isw & Hsw).
  assert (E : (match o_pss O with
    | Stewart => all_switches (map (concat (A:=R)) (map (end_family O (explicit_end C) m rho FTheta) (elements O)))
    | Step => all_switches (map (fun p => concat (end_family O (explicit_end C) m rho FAlpha p)) (elements O)) end) = Ok sw).
  { rewrite <- Esw. unfold mode_values. destruct (o_pss O); [rewrite map_map|]; reflexivity. }
  rewrite E. cbn [bind].
  assert (Et : mapM (nthE EIndexError steps) sw = Ok (map (fun j => nth j steps 0%R) sw)).
  { apply mapM_ok_map. intros j Hj. apply Hsw in Hj. destruct Hj as (a & b & _ & Hb & _). apply nth_error_Some_lt in Hb.
    unfold mode_values in Hb. rewrite map_length in Hb. unfold nthE. rewrite nth_error_nth' with (d := 0%R) by lia. reflexivity. }
  rewrite Et. cbn [bind]. do 2 eexists. split; [reflexivity|]. cbv zeta. cbn [rs_x_list rs_x_traj rs_x_out rs_x_all_list rs_u_list rs_sot rs_theta_list rs_lambda_list rs_alpha_list rs_lambda_n_list rs_lambda_p_list rs_z_list rs_v_global rs_time_steps rs_t_grid rs_t_grid_u rs_switch_times].
  rewrite <- grid_map. do 16 (split; [reflexivity|]). split; [reflexivity|]. split; assumption.
Qed.

Theorem results_ok x0 : 0 < m_nx m -> (o_pss O = Stewart -> uniform_modes m) -> one_nfe_per_stage O ->
  exists r sw, get_results (cn_prob C) x0 V = Ok r /\
  let E := explicit_end C in let es := elements O in let steps := step_lengths O rho in
  rs_x_list r = map (end_states O E m rho) es /\
  rs_x_traj r = x0 :: map (end_states O E m rho) es /\
  rs_x_out r = end_states O E m rho (final_element O) /\
  rs_x_all_list r = x0 :: concat (map (all_states O E m rho) es) /\
  rs_u_list r = map (fun c => vals rho (SU c) (m_nu m)) (seq 0 (o_N_stages O)) /\
  rs_sot r = match o_sot O with SotNone => None | _ => Some (map (fun c => [rho (SSot c)]) (seq 0 (o_N_stages O))) end /\
  rs_theta_list r = map (end_family O E m rho FTheta) es /\
  rs_lambda_list r = map (end_family O E m rho FLam) es /\
  rs_alpha_list r = map (fun p => concat (end_family O E m rho FAlpha p)) es /\
  rs_lambda_n_list r = map (fun p => concat (end_family O E m rho FLn p)) es /\
  rs_lambda_p_list r = map (fun p => concat (end_family O E m rho FLp p)) es /\
  rs_z_list r = map (end_z O m rho) es /\
  rs_v_global r = [vals rho SVg (m_nvg m)] /\
  rs_time_steps r = steps /\
  rs_t_grid r = map (partial_sum steps) (seq 0 (length es + 1)) /\
  rs_t_grid_u r = map (fun c => partial_sum steps (total (firstn c (o_Nfe_list O)))) (seq 0 (o_N_stages O + 1)) /\
  rs_switch_times r = map (fun j => nth j steps 0%R) sw /\
  increasing sw /\ (forall j, In j sw <-> jump_after (mode_values O E m rho) j).
Proof.
  intros Hx U F1. pose proof (total_all F1) as Lt. pose proof (r_steps F1) as Es.
  assert (Ls : length (step_lengths O rho) = length (elements O)) by (unfold step_lengths; apply map_length).
  destruct (results_gen x0 _ Hx U Es) as (r & sw & Hr & G); [lia|lia|]. exists r, sw. split; [exact Hr|].
  cbv zeta in *. rewrite Ls in G. unfold one_nfe_per_stage in F1. rewrite F1 in G. exact G.
Qed.
End Con.
