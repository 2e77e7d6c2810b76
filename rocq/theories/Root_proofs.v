(* Root_proofs.v -- rootfinder_for_initial_z and the parameter vector of NosnocProblem.dump *)
From Coq Require Import Reals Qreals Lra.
From Verif Require Import Base Lib Sx Sx_proofs Utils Tableau Opts Model Ocp Problem Numeric Rk4 Results Solver Spec Cases Fesd Spec2 Spec3 Spec4 Spec5
  Witness Results5_proofs Progress_proofs Init2_proofs Set_proofs Param_proofs Model_proofs Lam_proofs Witness2 Witness3 Spec12 Guess_proofs Extras Spec15 Exact_proofs VField_proofs.
Local Open Scope nat_scope.

Lemma bindR_swap m x0 z0 p0 s : length x0 = m_nx m -> length z0 = m_nz m -> length p0 = m_npt m + m_npg m ->
  bindR (mz m ++ (mx m ++ mp m)) (z0 ++ (x0 ++ p0)) s = initial_point m x0 z0 p0 s.
Proof.
  intros Lx Lz Lp. rewrite <- bindR_initial by assumption.
  assert (E1 : length (mx m) = length x0) by (unfold mx; rewrite map_length, seq_length; lia).
  assert (E2 : length (mz m) = length z0) by (unfold mz; rewrite map_length, seq_length; lia).
  rewrite !bindR_app by assumption. destruct (Sx.mem s (mz m)) eqn:M1, (Sx.mem s (mx m)) eqn:M2; try reflexivity.
  exfalso. apply mem_In in M1, M2. unfold mz, mx in M1, M2. apply in_map_iff in M1, M2.
  destruct M1 as (i & <- & _). destruct M2 as (j & E & _). discriminate.
Qed.

Section Root.
Variables (o : opts) (m : model) (pm : pmodel) (f : cafun).
Hypothesis HR : preprocess_model_root o m = Ok (pm, f).

Lemma root_model : preprocess_model o m = Ok pm /\ f = mkCafun [mz m; mx m ++ mp m] (m_gz m) /\ length (m_gz m) = m_nz m /\
  forall e y, In e (m_gz m) -> In y (fv e) -> In y (mz m ++ mx m ++ mp m).
Proof.
  unfold preprocess_model_root in HR. apply bind_ok in HR. destruct HR as (pm' & HP & H). apply bind_ok in H. destruct H as (f' & Hf & H).
  injection H as -> ->. split; [exact HP|]. unfold z0_function in Hf. apply bind_ok in Hf. destruct Hf as (f' & M & Hf). apply bind_ok in Hf.
  destruct Hf as ([] & G & Hf). injection Hf as ->. apply guard_ok, Nat.eqb_eq in G. apply mkfun_ok in M. destruct M as [-> M].
  split; [reflexivity|]. split; [exact G|]. intros e y He Hy. specialize (M e y He Hy). cbn [concat] in M. rewrite app_nil_r in M. exact M.
Qed.

Lemma root_value root x0 pval p0 l : rootfinder root f -> length x0 = m_nx m -> nth_error pval 0 = Some p0 -> length p0 = m_npt m + m_npg m ->
  compute_lambda00_root root pm f x0 pval = Ok l ->
  exists z, length z = m_nz m /\ consistent_z m x0 z p0 /\ lambda00_at pm z x0 pval = Ok l.
Proof.
  intros RF Lx Hp Lp H. destruct root_model as (HP & Ef & Lg & _). unfold compute_lambda00_root, nthE in H. rewrite Hp in H. cbn [bind] in H.
  apply bind_ok in H. destruct H as (z & Hz & H). exists z. destruct (RF _ _ _ Hz) as [L1 L2].
  assert (E2 : length (mz m) = m_nz m) by (unfold mz; rewrite map_length, seq_length; reflexivity).
  rewrite Ef in L1. cbn [cf_in nth] in L1. rewrite E2 in L1.
  split; [exact L1|]. split; [|exact H]. intros e He.
  assert (E1 : length (mx m ++ mp m) = length (x0 ++ p0)). { unfold mx, mp, mpt, mpg. rewrite !app_length, !map_length, !seq_length. lia. }
  apply (L2 (map (eval (initial_point m x0 z p0)) (m_gz m))).
  - rewrite Ef. unfold numcall. cbn [cf_in cf_out length Nat.eqb guard bind combine mapM fst snd].
    unfold fit at 1. rewrite L1, E2, Nat.eqb_refl. cbn [bind]. unfold fit at 1. rewrite E1, Nat.eqb_refl. cbn [bind concat]. rewrite !app_nil_r.
    f_equal. apply map_ext. intros e'. apply eval_ext. intros y _. apply bindR_swap; assumption.
  - apply in_map, He.
Qed.
Lemma root_stewart root x0 pval p0 l : well_sized m -> o_pss o = Stewart -> rootfinder root f ->
  length x0 = m_nx m -> nth_error pval 0 = Some p0 -> length p0 = m_npt m + m_npg m -> compute_lambda00_root root pm f x0 pval = Ok l ->
  exists z, length z = m_nz m /\ consistent_z m x0 z p0 /\ let v0 := initial_point m x0 z p0 in
  exists mn, length l = upto (n_subsystems m) (n_modes m) /\
   (forall s, s < n_subsystems m -> least (n_modes m s) (region_value m v0 s) (mn s) /\
     forall k, k < n_modes m s -> nth_error l (offset (n_modes m) s k) = Some (region_value m v0 s k - mn s)%R) /\
   forall v, (forall y, In y (mx m ++ mz m ++ mp m) -> v y = v0 y) -> forall e, In e (cf_out (pm_gsw_fun pm)) ->
     eval (with_lambda v (fun s k => nth (offset (n_modes m) s k) l 0%R) (fun s _ => (- mn s)%R)) e = 0%R.
Proof.
  intros WS Ep RF Lx Hp Lp H. destruct (root_value root x0 pval p0 l RF Lx Hp Lp H) as (z & Lz & Cz & Hz). exists z. split; [exact Lz|]. split; [exact Cz|].
  destruct (stewart_lambda00_at o m pm (proj1 root_model) WS z x0 pval p0 Ep Lz Lx Hp Lp) as (l' & mn & E1 & E2).
  assert (l' = l) by congruence. subst l'. exists mn. exact E2.
Qed.
Lemma root_step root x0 pval p0 l : well_sized m -> o_pss o = Step -> gS_given m = false -> rootfinder root f ->
  length x0 = m_nx m -> nth_error pval 0 = Some p0 -> length p0 = m_npt m + m_npg m -> compute_lambda00_root root pm f x0 pval = Ok l ->
  exists z, length z = m_nz m /\ consistent_z m x0 z p0 /\ let v0 := initial_point m x0 z p0 in let D := fun s => 2 * n_switch m s in
  length l = upto (n_subsystems m) D /\
  forall s k, s < n_subsystems m -> k < n_switch m s ->
    exists ln lp, nth_error l (offset D s k) = Some ln /\ nth_error l (offset D s (n_switch m s + k)) = Some lp /\
      (0 <= ln)%R /\ (0 <= lp)%R /\ (lp - ln = switch_value m v0 s k)%R /\ (lp * ln = 0)%R.
Proof.
  intros WS Ep Eg RF Lx Hp Lp H. destruct (root_value root x0 pval p0 l RF Lx Hp Lp H) as (z & Lz & Cz & Hz). exists z. split; [exact Lz|]. split; [exact Cz|].
  destruct (step_lambda00_at o m pm (proj1 root_model) WS z x0 pval p0 Ep Eg Lz Lx Hp Lp) as (l' & E1 & E2 & E3 & _).
  assert (l' = l) by congruence. subst l'. exact (conj E2 E3).
Qed.
End Root.

(* an equation that uses a control (or anything else than z, x, p) is refused *)
Lemma root_refused o m e y : In e (m_gz m) -> In y (fv e) -> ~ In y (mz m ++ mx m ++ mp m) -> forall r, preprocess_model_root o m <> Ok r.
Proof.
  intros He Hy Hn [pm f] HR. destruct (root_model o m pm f HR) as (_ & _ & _ & A). exact (Hn (A e y He Hy)).
Qed.

Lemma root_controls o m e i : In e (m_gz m) -> In (MU i) (fv e) -> forall r, preprocess_model_root o m <> Ok r.
Proof.
  intros He Hi. apply (root_refused o m e (MU i) He Hi). unfold mz, mx, mp, mpt, mpg. rewrite !in_app_iff, !in_map_iff.
  intros [(j & X & _)|[(j & X & _)|[(j & X & _)|(j & X & _)]]]; discriminate.
Qed.

(* ---- dump ---- *)
Lemma dump_belongs lr cp d o m oc C s : construct_problem lr cp d o m oc = Ok C -> well_sized m -> sized C m s ->
  o_pss (the_opts C) = Stewart \/ (gS_given m = false /\ n_subsystems m = 1) ->
  exists v, dump_p0 (pr_pm (cn_prob C)) (ss_x0 s) (ss_pval s) = Ok v /\ Forall2 (belongs C m s 0 0) (p_p (the_problem C)) v.
Proof.
  intros H WS Z Hc.
  assert (GS : o_pss (the_opts C) = Step -> gS_given m = false). { intros E. destruct Hc as [Hc|[Hc _]]; [congruence|exact Hc]. }
  destruct (lam_ok lr cp d o m oc C H s WS GS Z) as (lam & EL & _).
  exists (concat (ss_pval s) ++ [0%R; 0%R] ++ lam ++ ss_x0 s). split; [unfold dump_p0; rewrite EL; reflexivity|].
  exact (params_belong lr cp d o m oc C H s 0 0 lam Z EL WS Hc).
Qed.

(* ---- cases ---- *)
(* x' = 3 (x < 0) or 1 at x = -1/4: g = (-1/4, 1/4) *)
Definition g3 : list R := [(-1/4)%R; (1/4)%R].
Lemma region3 k : k < 2 -> region_value model3 (initial_point model3 [(-1/4)%R] [] []) 0 k = nth k g3 0%R.
Proof.
  intros Hk. assert (E1 : Q2R (-1) = (-1)%R) by (unfold Q2R; cbn; lra). assert (E2 : Q2R 1 = 1%R) by (unfold Q2R; cbn; lra).
  unfold region_value. change (gS_given model3) with false. cbv iota. change (user_c model3 0) with [cx 0].
  destruct k as [|[|k]]; [| |lia].
  - change (nth 0 (user_S model3 0) []) with [(-1)%Q]. cbn [combine map fst snd]. unfold rsum. cbn [fold_right]. unfold cx. cbn [eval initial_point nth]. rewrite E1. unfold g3. cbn [nth]. lra.
  - change (nth 1 (user_S model3 0) []) with [1%Q]. cbn [combine map fst snd]. unfold rsum. cbn [fold_right]. unfold cx. cbn [eval initial_point nth]. rewrite E2. unfold g3. cbn [nth]. lra.
Qed.
Lemma list2 (l : list R) a b : length l = 2 -> nth_error l 0 = Some a -> nth_error l 1 = Some b -> l = [a; b].
Proof. destruct l as [|x [|y [|z l]]]; cbn; intros L A B; try discriminate. congruence. Qed.
Lemma created3 s : exists vf, create_vector_field default_opts p3 s = Ok vf /\ vf_n vf = 2 /\ numcall (vf_gfun vf) [[(-1/4)%R]; []; []] = Ok g3.
Proof.
  destruct (vf_created default_opts model3 p3 p3_is sized3 eq_refl s) as (vf & E & En & G). exists vf. split; [exact E|].
  change (upto (n_subsystems model3) (n_modes model3)) with 2 in En. split; [exact En|].
  destruct (G [(-1/4)%R] [] [] eq_refl eq_refl eq_refl) as (l & El & Ll & Hl). rewrite El. f_equal.
  change (n_subsystems model3) with 1 in Hl. pose proof (Hl 0 0 ltac:(lia) ltac:(cbn; lia)) as H0. pose proof (Hl 0 1 ltac:(lia) ltac:(cbn; lia)) as H1.
  change (offset (n_modes model3) 0 0) with 0 in H0. change (offset (n_modes model3) 0 1) with 1 in H1. rewrite region3 in H0 by lia. rewrite region3 in H1 by lia.
  cbn [nth g3] in H0, H1. apply list2; [congruence|exact H0|exact H1].
Qed.
Lemma wrong_mode s vf th mu : create_vector_field default_opts p3 s = Ok vf -> (0 < Q2R s <= 1/12)%R -> vf_root vf (fun i => nth i g3 0%R) th mu -> (1/8 <= th 1%nat)%R.
Proof.
  intros E Hs HR. destruct (created3 s) as (vf' & E' & En & _). assert (vf' = vf) by congruence. subst vf'.
  apply (roots_iff _ _ _ _ _ _ _ E) in HR. rewrite En in HR. apply (two_modes (Q2R s) th mu HR).
  - intros i Hi. destruct (vf_pos 2 (Q2R s) _ _ _ i HR ltac:(lra) Hi). lra.
  - rewrite Rabs_pos_eq; lra.
Qed.

Definition vf3 (s : Q) : vfield := match create_vector_field default_opts p3 s with Ok vf => vf | Err _ => mkVfield 0 [] (mkCafun [] []) end.
Lemma vf_case : create_vector_field default_opts p3 (1#100) = Ok (vf3 (1#100)) /\ vf_n (vf3 (1#100)) = 2 /\
  preprocess_model default_opts model3 = Ok p3 /\ well_sized model3 /\ simplex 2 (fun i => nth i [1; 0] 0)%R.
Proof.
  destruct (created3 (1#100)) as (vf & E & En & _). assert (E3 : vf3 (1#100) = vf) by (unfold vf3; rewrite E; reflexivity). rewrite E3.
  split; [exact E|]. split; [exact En|]. split; [exact p3_is|]. split; [exact sized3|]. split; [|rewrite !rupto_succ; unfold rupto, rsum; cbn; lra].
  intros i Hi. destruct i as [|[|i]]; cbn [nth]; [lra|lra|lia].
Qed.
Lemma wrong_weights : exists o m pm x, preprocess_model o m = Ok pm /\ well_sized m /\ o_pss o = Stewart /\
  forall s, (0 < Q2R s <= 1/12)%R -> exists vf gx, create_vector_field o pm s = Ok vf /\ numcall (vf_gfun vf) [x; []; []] = Ok gx /\
  gx = [-1/4; 1/4]%R /\ selects_least (vf_n vf) (fun i => nth i gx 0%R) (fun i => nth i [1; 0]%R 0%R) /\
  forall th mu, vf_root vf (fun i => nth i gx 0%R) th mu -> (1/8 <= th 1%nat)%R.
Proof.
  exists default_opts, model3, p3, [(-1/4)%R]. split; [exact p3_is|]. split; [exact sized3|]. split; [reflexivity|].
  intros s Hs. destruct (created3 s) as (vf & E & En & EN). exists vf, g3. split; [exact E|]. split; [exact EN|]. split; [reflexivity|]. split.
  - rewrite En. split; [exact (proj2 (proj2 (proj2 (proj2 vf_case))))|]. intros i j Hi Hj. destruct i as [|[|i]]; [|cbn [nth]; lra|lia].
    intros _. destruct j as [|[|j]]; [| |lia]; unfold g3; cbn [nth]; lra.
  - intros th mu. exact (wrong_mode s vf th mu E Hs).
Qed.

(* two subsystems *)
Lemma p2_ok : is_ok (preprocess_model default_opts model2) = true. Proof. vm_compute. reflexivity. Qed.
Definition p2 : pmodel := get _ p2_ok.
Lemma p2_is : preprocess_model default_opts model2 = Ok p2. Proof. apply get_ok. Qed.
Lemma two_subsystems_wrong : exists o m pm s vf, preprocess_model o m = Ok pm /\ well_sized m /\ create_vector_field o pm s = Ok vf /\
  n_subsystems m = 2 /\ forall g th mu, vf_root vf g th mu ->
  ~ (forall s, s < n_subsystems m -> rupto (n_modes m s) (fun k => th (offset (n_modes m) s k)) = 1%R).
Proof.
  destruct (vf_created default_opts model2 p2 p2_is sized2 eq_refl (1#100)) as (vf & E & _).
  exists default_opts, model2, p2, (1#100)%Q, vf. split; [exact p2_is|]. split; [exact sized2|]. split; [exact E|]. split; [reflexivity|].
  intros g th mu. apply (vf_two_subsystems default_opts model2 p2 p2_is sized2 eq_refl (1#100) vf g th mu E). cbn. lia.
Qed.

(* switching function z with the algebraic equation z = x, guess z0 = 1, x0 = -1 *)
Definition model_zc : model := {|
  m_nx := 1; m_x0 := [(-1)%Q];
  m_F := Some [mkFmat 1 [[cq 3]; [cq 1]]];
  m_c := Some [[EVar (MZ 0)]]; m_S := Some [[[(-1)%Q]; [1%Q]]]; m_gS := None;
  m_nu := 0; m_nz := 1; m_z0 := Some [1%Q]; m_lbz := None; m_ubz := None; m_alpha := None; m_fx := None;
  m_gz := [EBin BSub (EVar (MZ 0)) (cx 0)]; m_npt := 0; m_npg := 0; m_ptv_val := None; m_pg_val := []; m_nvg := 0; m_tvar := None |}.
Lemma sized_zc : well_sized model_zc. Proof. apply sizedQ_ok. reflexivity. Qed.
Lemma root_zc_ok : is_ok (preprocess_model_root default_opts model_zc) = true. Proof. vm_compute. reflexivity. Qed.
Definition root_zc : pmodel * cafun := get _ root_zc_ok.
Lemma root_zc_is : preprocess_model_root default_opts model_zc = Ok (fst root_zc, snd root_zc).
Proof. rewrite <- surjective_pairing. apply get_ok. Qed.
Lemma pm_zc_is : preprocess_model default_opts model_zc = Ok (fst root_zc).
Proof. exact (proj1 (root_model _ _ _ _ root_zc_is)). Qed.
Lemma region_zc a k : k < 2 -> region_value model_zc (initial_point model_zc [(-1)%R] [a] []) 0 k = nth k [a; (- a)%R] 0%R.
Proof.
  intros Hk. assert (E1 : Q2R (-1) = (-1)%R) by (unfold Q2R; cbn; lra). assert (E2 : Q2R 1 = 1%R) by (unfold Q2R; cbn; lra).
  unfold region_value. change (gS_given model_zc) with false. cbv iota. change (user_c model_zc 0) with [EVar (MZ 0)].
  destruct k as [|[|k]]; [| |lia].
  - change (nth 0 (user_S model_zc 0) []) with [(-1)%Q]. cbn [combine map fst snd]. unfold rsum. cbn [fold_right]. cbn [eval initial_point nth]. rewrite E1. lra.
  - change (nth 1 (user_S model_zc 0) []) with [1%Q]. cbn [combine map fst snd]. unfold rsum. cbn [fold_right]. cbn [eval initial_point nth]. rewrite E2. lra.
Qed.
Lemma least_zc a mn : least 2 (region_value model_zc (initial_point model_zc [(-1)%R] [a] []) 0) mn -> mn = Rmin a (- a).
Proof.
  intros [A (k & Hk & B)]. pose proof (A 0 ltac:(lia)) as A0. pose proof (A 1 ltac:(lia)) as A1. rewrite region_zc in A0, A1, B by lia. cbn [nth] in A0, A1.
  unfold Rmin. destruct k as [|[|k]]; [| |lia]; cbn [nth] in B; destruct (Rle_dec _ _); lra.
Qed.
Lemma lambda_zc a : lambda00_at (fst root_zc) [a] [(-1)%R] [[]] = Ok [(a - Rmin a (- a))%R; (- a - Rmin a (- a))%R].
Proof.
  destruct (stewart_lambda00_at _ _ _ pm_zc_is sized_zc [a] [(-1)%R] [[]] [] eq_refl eq_refl eq_refl eq_refl eq_refl) as (l & mn & E1 & E2 & E3 & _).
  change (n_subsystems model_zc) with 1 in E2, E3. destruct (E3 0 ltac:(lia)) as [L N]. change (n_modes model_zc 0) with 2 in L, N.
  apply least_zc in L. pose proof (N 0 ltac:(lia)) as N0. pose proof (N 1 ltac:(lia)) as N1. rewrite L in N0, N1. rewrite region_zc in N0, N1 by lia. cbn [nth] in N0, N1.
  rewrite E1. f_equal. apply list2; [exact E2|exact N0|exact N1].
Qed.
Lemma consistent_zc z : length z = 1 -> (consistent_z model_zc [(-1)%R] z [] <-> z = [(-1)%R]).
Proof.
  intros L. destruct z as [|a [|b z]]; try discriminate. split.
  - intros H. f_equal. specialize (H (EBin BSub (EVar (MZ 0)) (cx 0)) ltac:(left; reflexivity)). unfold cx in H. cbn [eval eval_bin initial_point nth] in H. lra.
  - intros H. injection H as ->. intros e [<-|[]]. unfold cx. cbn [eval eval_bin initial_point nth]. lra.
Qed.
Lemma root_case : exists root, rootfinder root (snd root_zc) /\ preprocess_model_root default_opts model_zc = Ok (fst root_zc, snd root_zc) /\ well_sized model_zc /\
  compute_lambda00_root root (fst root_zc) (snd root_zc) [(-1)%R] [[]] = Ok [0%R; 2%R] /\
  compute_lambda00 (fst root_zc) [(-1)%R] [[]] = Ok [2%R; 0%R].
Proof.
  exists (fun _ _ q => match q with [x] => Ok [x] | _ => Err ECasadi end). split; [|split; [exact root_zc_is|split; [exact sized_zc|split]]].
  - intros z0 q z. destruct (root_model _ _ _ _ root_zc_is) as (_ & -> & _). intros H. destruct q as [|x [|y q]]; try discriminate. injection H as <-.
    split; [reflexivity|]. intros r H e He. cbn in H. injection H as <-. cbn in He. destruct He as [<-|[]]. lra.
  - unfold compute_lambda00_root. cbn [nthE nth_error bind app]. rewrite lambda_zc. unfold Rmin. destruct (Rle_dec _ _); [|lra]. do 2 f_equal; [lra|f_equal; lra].
  - unfold compute_lambda00. replace (reals (pm_z0 (fst root_zc))) with [1%R].
    + rewrite lambda_zc. unfold Rmin. destruct (Rle_dec _ _); [lra|]. do 2 f_equal; [lra|f_equal; lra].
    + replace (pm_z0 (fst root_zc)) with [1%Q] by (vm_compute; reflexivity). cbn. f_equal. symmetry. exact Q2R_1.
Qed.
Lemma guess_wrong : exists o m pm l, preprocess_model o m = Ok pm /\ well_sized m /\ o_pss o = Stewart /\
  compute_lambda00 pm (reals (m_x0 m)) (map reals (pm_pval pm)) = Ok l /\
  (exists z, consistent_z m (reals (m_x0 m)) z []) /\
  forall z, length z = m_nz m -> consistent_z m (reals (m_x0 m)) z [] ->
    ~ exists mn, forall k, k < n_modes m 0 -> least (n_modes m 0) (region_value m (initial_point m (reals (m_x0 m)) z []) 0) mn /\
      nth_error l k = Some (region_value m (initial_point m (reals (m_x0 m)) z []) 0 k - mn)%R.
Proof.
  assert (Ex : reals (m_x0 model_zc) = [(-1)%R]) by (cbn; f_equal; unfold Q2R; cbn; lra).
  assert (Ep : map reals (pm_pval (fst root_zc)) = [[]]) by (replace (pm_pval (fst root_zc)) with [@nil Q] by (vm_compute; reflexivity); reflexivity).
  exists default_opts, model_zc, (fst root_zc), [2%R; 0%R]. split; [exact pm_zc_is|]. split; [exact sized_zc|]. split; [reflexivity|].
  rewrite Ex, Ep. destruct root_case as (_ & _ & _ & _ & _ & E). split; [exact E|]. split; [exists [(-1)%R]; apply consistent_zc; reflexivity|].
  intros z Lz Hz. apply (consistent_zc z Lz) in Hz. subst z. intros [mn H]. change (n_modes model_zc 0) with 2 in H.
  destruct (H 0 ltac:(lia)) as [L N]. apply least_zc in L. rewrite region_zc in N by lia. cbn [nth nth_error] in N. injection N as N.
  rewrite L in N. unfold Rmin in N. destruct (Rle_dec _ _); lra.
Qed.

(* dump with Step and two subsystems *)
Definition model2d : model := {|
  m_nx := 2; m_x0 := [1%Q; 2%Q]; m_F := m_F model2; m_c := m_c model2; m_S := m_S model2; m_gS := None;
  m_nu := 0; m_nz := 1; m_z0 := None; m_lbz := Some [Fin (-5)]; m_ubz := None; m_alpha := None; m_fx := None;
  m_gz := m_gz model2; m_npt := 1; m_npg := 0; m_ptv_val := None; m_pg_val := []; m_nvg := 0; m_tvar := None |}.
Lemma sized2d : well_sized model2d. Proof. apply sizedQ_ok. reflexivity. Qed.
Lemma case2d_ok : is_ok (build optsB model2d None) = true. Proof. vm_compute. reflexivity. Qed.
Definition C2d : constructed := get _ case2d_ok.
Lemma built2d : build optsB model2d None = Ok C2d. Proof. apply get_ok. Qed.
Lemma problem2d : is_problem optsB model2d None C2d. Proof. exact (is_problem_ok _ _ _ _ built2d eq_refl sized2d). Qed.
Lemma dump_wrong : exists o m C v, is_problem o m None C /\ let s := initial_state C in
  sized C m s /\ dump_p0 (pr_pm (cn_prob C)) (ss_x0 s) (ss_pval s) = Ok v /\ ~ Forall2 (belongs C m s 0 0) (p_p (the_problem C)) v.
Proof.
  pose proof (initial_sized _ _ _ _ _ _ _ (proj1 problem2d)) as Z.
  assert (Ep : o_pss (the_opts C2d) = Step) by (vm_compute; reflexivity).
  destruct (lam_ok _ _ _ _ _ _ _ (proj1 problem2d) (initial_state C2d) sized2d (fun _ => eq_refl) Z) as (lam & EL & _).
  exists optsB, model2d, C2d, (concat (ss_pval (initial_state C2d)) ++ [0%R; 0%R] ++ lam ++ ss_x0 (initial_state C2d)).
  split; [exact problem2d|]. split; [exact Z|]. split; [unfold dump_p0; rewrite EL; reflexivity|].
  apply (step_two_wrong _ _ _ _ _ _ _ (proj1 problem2d) _ 0 0 lam Z EL sized2d Ep eq_refl eq_refl eq_refl eq_refl).
  assert (Ex : ss_x0 (initial_state C2d) = [1%R; 2%R]).
  { unfold initial_state. cbn [ss_x0]. replace (m_x0 (pm_m (pr_pm (cn_prob C2d)))) with [1%Q; 2%Q] by (vm_compute; reflexivity).
    cbn. f_equal; [exact Q2R_1|f_equal; unfold Q2R; cbn; lra]. }
  rewrite Ex. generalize (reals (pm_z0 (pr_pm (cn_prob C2d)))) as z. generalize (nth 0 (ss_pval (initial_state C2d)) []) as p. intros p z.
  change (switch_value model2d (initial_point model2d [1%R; 2%R] z p) 0 0) with 1%R.
  change (switch_value model2d (initial_point model2d [1%R; 2%R] z p) 1 0) with 2%R.
  rewrite (Rmax_right 0 1) by lra. rewrite (Rmax_left 0 (-(2))) by lra. lra.
Qed.
