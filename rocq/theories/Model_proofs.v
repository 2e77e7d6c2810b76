(* Model_proofs.v -- inversion of preprocess_model *)
From Coq Require Import Reals Qreals Lra.
From Verif Require Import Base Lib Sx Sx_proofs Utils Opts Model Ocp Problem Spec.

Ltac gsg := repeat match goal with
  | |- context [gS_truthy ?m] => change (gS_truthy m) with (gS_given m)
  | H : context [gS_truthy ?m] |- _ => change (gS_truthy m) with (gS_given m) in H
  end.

Lemma opt_res_ok {A} e (x : option A) a : opt_res e x = Ok a -> x = Some a.
Proof. destruct x; cbn; intros H; congruence. Qed.

Lemma default_len_ok {A} (x : option (list A)) n d l :
  default_len x n d = Ok l -> length l = n /\ l = match x with Some v => v | None => repeat d n end.
Proof.
  unfold default_len. destruct x as [v|].
  - destruct (length v =? n) eqn:E; intros H; [|discriminate]. apply Nat.eqb_eq in E. injection H as <-. auto.
  - intros H; injection H as <-. rewrite repeat_length; auto.
Qed.
Lemma default_len_exc_ok {A} (x : option (list A)) n d l :
  default_len_exc x n d = Ok l -> length l = n /\ l = match x with Some v => v | None => repeat d n end.
Proof.
  unfold default_len_exc. destruct x as [v|].
  - destruct (length v =? n) eqn:E; intros H; [|discriminate]. apply Nat.eqb_eq in E. injection H as <-. auto.
  - intros H; injection H as <-. rewrite repeat_length; auto.
Qed.

Definition alpha_vars (o : opts) (m : model) (nc : list nat) : list (list sym) :=
  match m_alpha m with
  | Some sizes => mfams FAlpha sizes
  | None => match o_pss o with Stewart => [] | Step => mfams FAlpha nc end
  end.

Definition z_parts (o : opts) (m : model) (nsys : nat) (nf nc : list nat) : list (list sym) :=
  [concat (match o_pss o with Stewart => mfams FTheta nf | Step => [] end);
   concat (match o_pss o with Stewart => mfams FLam nf | Step => [] end);
   concat (match o_pss o with Stewart => mfams FMu (repeat 1 nsys) | Step => [] end);
   concat (alpha_vars o m nc);
   concat (match o_pss o with Stewart => [] | Step => mfams FLn nc end);
   concat (match o_pss o with Stewart => [] | Step => mfams FLp nc end);
   mz m].

Record pmodel_ok (o : opts) (m : model) (pm : pmodel) : Prop := {
  mo_m : exists ptv, pm_m pm = set_filled m (pm_z0 pm) (pm_lbz pm) (pm_ubz pm) ptv /\
         ptv = match m_ptv_val m with None => repeat (repeat 0%Q (m_npt m)) (o_N_stages o) | Some v => v end /\
         shape_is ptv (o_N_stages o) (m_npt m) = true /\
         pm_pval pm = map (fun row => row ++ m_pg_val m) ptv;
  mo_pg : length (m_pg_val m) = m_npg m;
  mo_nsys : pm_nsys pm = n_subsystems m;
  mo_nsys_pos : 0 < pm_nsys pm;
  mo_z0 : length (pm_z0 pm) = m_nz m /\ pm_z0 pm = match m_z0 m with Some v => v | None => repeat 0%Q (m_nz m) end;
  mo_lbz : length (pm_lbz pm) = m_nz m /\ pm_lbz pm = match m_lbz m with Some v => v | None => repeat NInf (m_nz m) end;
  mo_ubz : length (pm_ubz pm) = m_nz m /\ pm_ubz pm = match m_ubz m with Some v => v | None => repeat PInf (m_nz m) end;
  mo_nc : get_nc m (pm_nsys pm) = Ok (pm_nc pm);
  mo_nf : sanity_checks o m (pm_nsys pm) = Ok (pm_nf pm);
  mo_zall : pm_zall pm = concat (z_parts o m (pm_nsys pm) (pm_nf pm) (pm_nc pm));
  mo_dcs : exists gSl ups fx0 d,
      (match o_pss o with Stewart => gS_list m (pm_nsys pm) | Step => Ok [] end) = Ok gSl /\
      (match o_pss o, m_F m with
             | Step, Some _ => get_upsilon m (alpha_vars o m (pm_nc pm)) (pm_nsys pm)
             | _, _ => Ok []
             end) = Ok ups /\
      (match m_F m with
             | Some _ => fx0 = repeat (ECst 0) (m_nx m)
             | None => exists fx, m_fx m = Some fx /\ fx0 = concat fx /\
                   length (concat (alpha_vars o m (pm_nc pm))) = sumn (pm_nc pm)
             end) /\
      (match o_pss o with
           | Stewart => exists F, m_F m = Some F /\
                  foldM (stewart_step F gSl (pm_nf pm)) (seq 0 (pm_nsys pm)) (mkDcs fx0 [] [] (ECst 0) []) = Ok d
           | Step => exists c, m_c m = Some c /\
                  foldM (step_step (m_F m) ups c (alpha_vars o m (pm_nc pm)) (pm_nc pm)) (seq 0 (pm_nsys pm))
                    (mkDcs fx0 [] [] (ECst 0) []) = Ok d
           end) /\
      mkfun [mx m; pm_zall pm; mu_ m; mp m; mvg m] (d_fx d) = Ok (pm_fx_fun pm) /\
      mkfun [mx m; pm_zall pm; mu_ m; mp m] (d_gsw d) = Ok (pm_gsw_fun pm) /\
      mkfun [mx m; pm_zall pm; mu_ m; mp m] (d_gsw d ++ d_gcv d ++ m_gz m) = Ok (pm_gz_fun pm) /\
      mkfun [mx m; mz m; mp m] (d_l00 d) = Ok (pm_lam00_fun pm) /\
      mkfun [pm_zall pm; mp m] [d_res d] = Ok (pm_compl_fun pm) /\
      (match o_pss o with
       | Stewart => exists mins fm fg, mapM emin gSl = Ok mins /\ mkfun [mx m; mz m; mp m] mins = Ok fm /\
             pm_mu00_fun pm = Some fm /\ mkfun [mx m; mz m; mp m] (concat gSl) = Ok fg /\ pm_gS_fun pm = Some fg
       | Step => pm_mu00_fun pm = None /\ pm_gS_fun pm = None end);
  mo_t : match m_tvar m with
         | Some tv => exists f, mkfun [mx m] [tv] = Ok f /\ pm_t_fun pm = Some f
         | None => o_time_freezing o = false /\ pm_t_fun pm = None
         end
}.

Lemma preprocess_model_ok o m pm : preprocess_model o m = Ok pm -> pmodel_ok o m pm.
Proof.
  unfold preprocess_model. intros H.
  apply bind_ok in H; destruct H as (nsys & Hns & H).
  apply bind_ok in H; destruct H as (u0 & Hpos & H). apply guard_ok in Hpos.
  apply bind_ok in H; destruct H as (z0 & Hz0 & H). apply default_len_ok in Hz0.
  apply bind_ok in H; destruct H as (lbz & Hlbz & H). apply default_len_ok in Hlbz.
  apply bind_ok in H; destruct H as (ubz & Hubz & H). apply default_len_ok in Hubz.
  apply bind_ok in H; destruct H as (nc & Hnc & H).
  apply bind_ok in H; destruct H as (nf & Hnf & H).
  apply bind_ok in H; destruct H as (u1 & Hpg & H). apply guard_ok in Hpg. apply Nat.eqb_eq in Hpg.
  cbv zeta in H.
  apply bind_ok in H; destruct H as (u2 & Hpt & H). apply guard_ok in Hpt.
  apply bind_ok in H; destruct H as (gSl & HgS & H).
  apply bind_ok in H; destruct H as (ups & Hups & H).
  apply bind_ok in H; destruct H as (fx0 & Hfx0 & H).
  apply bind_ok in H; destruct H as (d & Hd & H).
  apply bind_ok in H; destruct H as (fxf & Hfxf & H).
  apply bind_ok in H; destruct H as (gswf & Hgsw & H).
  apply bind_ok in H; destruct H as (gzf & Hgz & H).
  apply bind_ok in H; destruct H as (tf & Htf & H).
  apply bind_ok in H; destruct H as (l00f & Hl00 & H).
  apply bind_ok in H; destruct H as (cf & Hcf & H).
  apply bind_ok in H; destruct H as (mu00f & Hmu & H).
  apply bind_ok in H; destruct H as (gSf & HgSf & H). injection H as <-.
  assert (En : nsys = n_subsystems m).
  { unfold n_subsystems. clear - Hns. destruct (m_F m); [congruence|]. apply bind_ok in Hns. destruct Hns as (fx & E & Hns).
    apply opt_res_ok in E. rewrite E. congruence. }
  assert (Hn : 0 < nsys) by (destruct nsys; [discriminate|lia]).
  split; cbn [pm_m pm_nsys pm_nc pm_nf pm_z0 pm_lbz pm_ubz pm_pval pm_zall pm_fx_fun pm_gsw_fun pm_gz_fun pm_t_fun pm_lam00_fun pm_compl_fun pm_mu00_fun pm_gS_fun]; auto.
  - eexists. split; [reflexivity|]. auto.
  - unfold z_parts, alpha_vars. cbn. rewrite app_nil_r. reflexivity.
  - exists gSl, ups, fx0, d. unfold alpha_vars.
    split; [exact HgS|]. split; [exact Hups|].
    split.
    { destruct (m_F m); [congruence|]. apply bind_ok in Hfx0. destruct Hfx0 as (fx & E & Hfx0).
      apply bind_ok in Hfx0. destruct Hfx0 as (u & G & Hfx0). injection Hfx0 as <-.
      apply opt_res_ok in E. apply guard_ok in G. apply Nat.eqb_eq in G. exists fx. unfold alpha_vars. auto. }
    split.
    { destruct (o_pss o); apply bind_ok in Hd; destruct Hd as (F & E & Hd); apply opt_res_ok in E; exists F; auto. }
    split; [exact Hfxf|]. split; [exact Hgsw|]. split; [exact Hgz|]. split; [exact Hl00|]. split; [exact Hcf|].
    destruct (o_pss o).
    + apply bind_ok in Hmu. destruct Hmu as (mins & E1 & Hmu). apply bind_ok in Hmu. destruct Hmu as (fm & E2 & Hmu).
      apply bind_ok in HgSf. destruct HgSf as (fg & E3 & HgSf). injection Hmu as <-. injection HgSf as <-.
      exists mins, fm, fg. auto 10.
    + split; congruence.
  - destruct (m_tvar m).
    + apply bind_ok in Htf. destruct Htf as (f & E & Htf). injection Htf as <-. eauto.
    + destruct (o_time_freezing o); [discriminate|]. split; congruence.
Qed.

(* ---- OCP ---- *)
Record pocp_ok (pm : pmodel) (oc : ocp) (p : pocp) : Prop := {
  po_gT : mkfun [mx (pm_m pm); mp (pm_m pm); mvg (pm_m pm)] (oc_gT oc) = Ok (po_gT_fun p);
  po_fT : mkfun [mx (pm_m pm); mp (pm_m pm); mvg (pm_m pm)] [oc_fT oc] = Ok (po_fT_fun p);
  po_fq : mkfun [mx (pm_m pm); mu_ (pm_m pm); mp (pm_m pm); mvg (pm_m pm)] [oc_fq oc] = Ok (po_fq_fun p);
  po_gp : mkfun [mx (pm_m pm); mu_ (pm_m pm); mp (pm_m pm); mvg (pm_m pm)] (oc_g_path oc) = Ok (po_g_path_fun p);
  po_cl : exists gc cc sc, classify (mx (pm_m pm) ++ mz (pm_m pm)) (mu_ (pm_m pm) ++ mpt (pm_m pm)) (oc_comp oc) = (gc, cc, sc) /\
     mkcomp [mpg (pm_m pm); mvg (pm_m pm)] gc = Ok (po_global_comp p) /\
     mkcomp [mu_ (pm_m pm); mp (pm_m pm); mvg (pm_m pm)] cc = Ok (po_ctrl_comp p) /\
     mkcomp [mx (pm_m pm); mu_ (pm_m pm); pm_zall pm; mp (pm_m pm); mvg (pm_m pm)] sc = Ok (po_rk_comp p);
  po_glen : length (po_lbg p) = length (oc_g_path oc) /\ length (po_ubg p) = length (oc_g_path oc);
  po_xlen : length (po_lbx p) = m_nx (pm_m pm) /\ length (po_ubx p) = m_nx (pm_m pm);
  po_ulen : length (po_lbu p) = m_nu (pm_m pm) /\ length (po_ubu p) = m_nu (pm_m pm) /\ length (po_u_guess p) = m_nu (pm_m pm);
  po_vlen : length (po_lbv p) = m_nvg (pm_m pm) /\ length (po_ubv p) = m_nvg (pm_m pm) /\ length (po_v_guess p) = m_nvg (pm_m pm);
  po_bnds : po_lbg p = match oc_lbg oc with Some v => v | None => repeat (Fin 0) (length (oc_g_path oc)) end /\
    po_ubg p = match oc_ubg oc with Some v => v | None => repeat (Fin 0) (length (oc_g_path oc)) end /\
    po_lbx p = match oc_lbx oc with Some v => v | None => repeat NInf (m_nx (pm_m pm)) end /\
    po_ubx p = match oc_ubx oc with Some v => v | None => repeat PInf (m_nx (pm_m pm)) end /\
    po_lbu p = match oc_lbu oc with Some v => v | None => repeat NInf (m_nu (pm_m pm)) end /\
    po_ubu p = match oc_ubu oc with Some v => v | None => repeat PInf (m_nu (pm_m pm)) end /\
    po_u_guess p = match oc_u_guess oc with Some v => v | None => repeat 0%Q (m_nu (pm_m pm)) end /\
    po_lbv p = match oc_lbv oc with Some v => v | None => repeat NInf (m_nvg (pm_m pm)) end /\
    po_ubv p = match oc_ubv oc with Some v => v | None => repeat PInf (m_nvg (pm_m pm)) end /\
    po_v_guess p = match oc_v_guess oc with Some v => v | None => repeat 0%Q (m_nvg (pm_m pm)) end
}.

Lemma preprocess_ocp_ok pm oc p : preprocess_ocp pm oc = Ok p -> pocp_ok pm oc p.
Proof.
  unfold preprocess_ocp. intros H. cbv zeta in H.
  destruct (classify _ _ _) as [[gc cc] sc] eqn:Ec.
  repeat match type of H with
  | bind _ _ = Ok _ => let a := fresh "v" in let E := fresh "E" in apply bind_ok in H; destruct H as (a & E & H)
  end.
  injection H as <-.
  repeat match goal with
  | H : default_len _ _ _ = Ok _ |- _ => apply default_len_ok in H; destruct H
  | H : default_len_exc _ _ _ = Ok _ |- _ => apply default_len_exc_ok in H; destruct H
  end.
  split; cbn; auto.
  - exists gc, cc, sc; auto.
  - repeat split; assumption.
Qed.

(* ---- sizes ---- *)
Lemma sanity_nf o m n nf : sanity_checks o m n = Ok nf ->
  nf = match m_F m with Some F => map (fun f => length (fm_cols f)) F | None => repeat 1 n end.
Proof.
  unfold sanity_checks. gsg. intros H. destruct (m_F m); inv_ok; congruence.
Qed.

Lemma pm_nf_nth o m pm s : pmodel_ok o m pm -> s < pm_nsys pm -> nth_error (pm_nf pm) s = Some (n_modes m s).
Proof.
  intros K Hs. pose proof (sanity_nf _ _ _ _ (mo_nf _ _ _ K)) as E. rewrite E. unfold n_modes.
  pose proof (mo_nsys _ _ _ K) as En. unfold n_subsystems in En. destruct (m_F m) as [F|] eqn:EF.
  - destruct (nth_error_lt F s) as [f Hf]; [lia|]. rewrite Hf. erewrite map_nth_error by eassumption. reflexivity.
  - apply nth_error_repeat'; assumption.
Qed.

Lemma pm_nc_nth o m pm s : pmodel_ok o m pm -> gS_given m = false -> s < pm_nsys pm ->
  nth_error (pm_nc pm) s = Some (n_switch m s).
Proof.
  intros K Hg Hs. pose proof (mo_nc _ _ _ K) as E. unfold get_nc in E. gsg. change (gS_truthy m) with (gS_given m) in *. rewrite Hg in E.
  apply bind_ok in E. destruct E as (c & Hc & E). apply opt_res_ok in Hc.
  assert (Hse : nth_error (seq 0 (pm_nsys pm)) s = Some s) by (rewrite nth_error_seq by assumption; reflexivity).
  destruct (mapM_nth _ _ _ _ _ E Hse) as (v & Hv & Hf). rewrite Hv. unfold n_switch. rewrite Hg, Hc.
  apply bind_ok in Hf. destruct Hf as (ci & Hci & Hf). apply nthE_ok in Hci. rewrite Hci. congruence.
Qed.

Lemma gS_stewart o m pm : pmodel_ok o m pm -> gS_given m = true -> m_F m <> None -> o_pss o = Stewart.
Proof.
  intros K Hg HF. pose proof (mo_nf _ _ _ K) as E. unfold sanity_checks in E. gsg.
  destruct (m_F m); [|congruence]. change (gS_truthy m) with (gS_given m) in *. rewrite Hg in E. inv_ok. destruct (o_pss o); [reflexivity|discriminate].
Qed.

(* a model without F needs c *)
Lemma noF_noS o m pm : pmodel_ok o m pm -> m_F m = None -> o_pss o = Step.
Proof.
  intros K HF. pose proof (mo_nf _ _ _ K) as E. unfold sanity_checks in E. gsg. rewrite HF in E. inv_ok.
  destruct (o_pss o); [discriminate|reflexivity].
Qed.
