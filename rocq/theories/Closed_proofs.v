(* Closed_proofs.v -- every symbol of the expressions built by nosnoc/problem.py is one of w or p (C05). *)
From Coq Require Import Permutation.
From Verif Require Import Base Sx Utils Tableau Opts Model Ocp Problem Spec Lib Sx_proofs Fo_proofs Fe_proofs FeMake_proofs
  FeSel_proofs FeZero_proofs Prob_proofs Coll_proofs Body_proofs Model_proofs.

Ltac bok := repeat match goal with
  | H : (fun _ => _) _ _ = Ok _ |- _ => progress cbv beta in H
  | H : (fun _ => _) _ = Ok _ |- _ => progress cbv beta in H
  | H : bind ?x _ = Ok _ |- _ => let E := fresh "E" in destruct x eqn:E; cbn [bind] in H; [|discriminate H]
  end.

Lemma foldM_ok_down {T A} (f : T -> A -> res T) (ok : T -> Prop) l :
  (forall s a s', In a l -> f s a = Ok s' -> ok s' -> ok s) ->
  forall s s', foldM f l s = Ok s' -> ok s' -> ok s.
Proof.
  induction l as [|a l IH]; intros D s s' H K; cbn [foldM] in H; [inversion H; subst; exact K|].
  bok. eapply D; [left; reflexivity|exact E|]. eapply IH; [intros; eapply D; [right|..]; eassumption|exact H|exact K].
Qed.
Lemma foldM_good {T A} (f : T -> A -> res T) (ok good : T -> Prop) l :
  (forall s a s', In a l -> f s a = Ok s' -> ok s' -> ok s) ->
  (forall s a s', In a l -> f s a = Ok s' -> ok s' -> good s -> good s') ->
  forall s s', foldM f l s = Ok s' -> ok s' -> good s -> good s'.
Proof.
  induction l as [|a l IH]; intros D G s s' H K Hs; cbn [foldM] in H; [inversion H; subst; exact Hs|].
  bok. eapply IH; [intros; eapply D; [right|..]; eassumption|intros; eapply G; [right|..]; eassumption|exact H|exact K|].
  eapply G; [left; reflexivity|exact E| |exact Hs].
  eapply foldM_ok_down; [|exact H|exact K]. intros; eapply D; [right|..]; eassumption.
Qed.

Section Scope.
Variable Sc : sym -> Prop.
Definition inS (e : expr) : Prop := forall s, In s (fv e) -> Sc s.
Definition inSl (v : list expr) : Prop := forall e, In e v -> inS e.

Lemma inS_cst q : inS (ECst q). Proof. intros s []. Qed.
Lemma inS_var s : Sc s -> inS (EVar s). Proof. intros H x [<-|[]]. exact H. Qed.
Lemma inS_un u e : inS e -> inS (EUn u e). Proof. intros H s Hs. exact (H s Hs). Qed.
Lemma inS_bin b x y : inS x -> inS y -> inS (EBin b x y).
Proof. intros Hx Hy s Hs. cbn in Hs. apply in_app_or in Hs as [Hs|Hs]; auto. Qed.
Lemma inSl_nil : inSl []. Proof. intros e []. Qed.
Lemma inSl_cons e v : inS e -> inSl v -> inSl (e :: v). Proof. intros H K x [<-|Hx]; auto. Qed.
Lemma inSl_app a b : inSl a -> inSl b -> inSl (a ++ b).
Proof. intros H K e He. apply in_app_or in He as [He|He]; auto. Qed.
Lemma inSl_concat l : (forall v, In v l -> inSl v) -> inSl (concat l).
Proof. intros H e He. apply in_concat in He as [v [Hv He]]. exact (H v Hv e He). Qed.
Lemma vars_in l : (forall s, In s l -> Sc s) -> inSl (vars l).
Proof. intros H e He. apply in_map_iff in He as [s [<- Hs]]. apply inS_var, H, Hs. Qed.
Lemma vbin_in b x y r : vbin b x y = Ok r -> inSl x -> inSl y -> inSl r.
Proof.
  intros H Hx Hy e He s Hs. destruct (vbin_fv _ _ _ _ _ _ H He Hs) as [a [[Ha|Ha] Hf]];
    [exact (Hx a Ha s Hf)|exact (Hy a Ha s Hf)].
Qed.
Lemma vscale_in e v : inS e -> inSl v -> inSl (vscale e v).
Proof. intros H K x Hx. apply in_map_iff in Hx as [y [<- Hy]]. apply inS_bin; [exact H|apply K, Hy]. Qed.
Lemma repeat_in e n : inS e -> inSl (repeat e n).
Proof. intros H x Hx. apply repeat_spec in Hx. subst. exact H. Qed.

Definition made_fun (f : cafun) : Prop := exists ins outs, mkfun ins outs = Ok f.
Lemma call_in f args r : made_fun f -> call f args = Ok r -> (forall a, In a args -> inSl a) -> inSl r.
Proof.
  intros [ins [outs Hf]] H Ha e He s Hs. destruct (call_fv _ _ _ _ _ _ _ Hf H He Hs) as [a [Hin Hfv]].
  apply in_concat in Hin as [v [Hv Hin]]. exact (Ha v Hv a Hin s Hfv).
Qed.
Lemma callcomp_in f args r : made_fun (fst f) -> made_fun (snd f) -> callcomp f args = Ok r ->
  (forall a, In a args -> inSl a) -> inSl (fst r) /\ inSl (snd r).
Proof.
  intros H1 H2 H Ha. unfold callcomp in H. bok. inversion H; subst. cbn.
  split; [exact (call_in _ _ _ H1 E Ha)|exact (call_in _ _ _ H2 E0 Ha)].
Qed.

Lemma foldM_vbin_in b l : forall a r, foldM (vbin b) l a = Ok r -> inSl a -> (forall v, In v l -> inSl v) -> inSl r.
Proof.
  induction l as [|v l IH]; intros a r H Ha Hl; cbn [foldM] in H; [inversion H; subst; exact Ha|].
  bok. eapply IH; [exact H| |intros; apply Hl; right; assumption].
  eapply vbin_in; [exact E|exact Ha|apply Hl; left; reflexivity].
Qed.
Lemma sum_list_in l r : casadi_sum_list l = Ok r -> (forall v, In v l -> inSl v) -> inSl r.
Proof.
  destruct l as [|v l]; intros H K; cbn in H; [discriminate|].
  eapply foldM_vbin_in; [exact H|apply K; left; reflexivity|intros; apply K; right; assumption].
Qed.
Lemma mapM_in {A} (f : A -> res (list expr)) l r : mapM f l = Ok r ->
  (forall a v, In a l -> f a = Ok v -> inSl v) -> forall v, In v r -> inSl v.
Proof. intros H K v Hv. destruct (mapM_In_inv _ _ _ _ H Hv) as [a [Ha Ev]]. exact (K a v Ha Ev). Qed.
Lemma mapM_in1 {A} (f : A -> res expr) l r : mapM f l = Ok r ->
  (forall a v, In a l -> f a = Ok v -> inS v) -> inSl r.
Proof. intros H K v Hv. destruct (mapM_In_inv _ _ _ _ H Hv) as [a [Ha Ev]]. exact (K a v Ha Ev). Qed.
Lemma nthE_in e l i v : nthE e l i = Ok v -> inSl l -> inS v.
Proof. intros H K. apply nthE_ok in H. apply K. eapply nth_error_In; exact H. Qed.
Lemma nthE_inl e l i v : nthE e l i = Ok v -> (forall x, In x l -> inSl x) -> inSl v.
Proof. intros H K. apply nthE_ok in H. apply K. eapply nth_error_In; exact H. Qed.
Lemma esum_in l : inSl l -> inS (esum l).
Proof.
  intros H s Hs. apply fv_esum_from in Hs as [[]|[e [He Hs]]]. exact (H e He s Hs).
Qed.
Lemma prod_in l : forall a, inS a -> inSl l -> inS (fold_left (fun acc e => EBin BMul acc e) l a).
Proof.
  induction l as [|e l IH]; intros a Ha Hl; cbn; [exact Ha|].
  apply IH; [apply inS_bin; [exact Ha|apply Hl; left; reflexivity]|intros x Hx; apply Hl; right; exact Hx].
Qed.
Lemma emax_in l e : emax l = Ok e -> inSl l -> inS e.
Proof.
  destruct l as [|a l]; cbn; [discriminate|]. intros H K. inversion H; subst; clear H.
  assert (G : forall l a, inS a -> inSl l -> inS (emax_from a l)).
  { clear. induction l as [|x l IH]; intros a Ha Hl; cbn; [exact Ha|].
    apply IH; [apply inS_bin; [exact Ha|apply Hl; left; reflexivity]|intros y Hy; apply Hl; right; exact Hy]. }
  apply G; [apply K; left; reflexivity|intros y Hy; apply K; right; exact Hy].
Qed.

(* ---- constraints and cost of a formulation object ---- *)
Definition f_good (f : fobj) : Prop := inSl (g f) /\ inS (cost f).
Definition f_ok (f : fobj) : Prop := forall s, In s (w f) -> Sc s.

Lemma fo_le_ok o z f f' : fo_le o z f f' -> f_ok f' -> f_ok f.
Proof. intros [[s [E _]] _ _] K x Hx. apply K. rewrite E. apply in_or_app. left. exact Hx. Qed.

Lemma add_constraint_good f e lb ub f' : add_constraint f e lb ub = Ok f' -> inSl e -> f_good f -> f_good f'.
Proof.
  intros H He [Hg Hc]. destruct (add_constraint_ok _ _ _ _ _ H) as [[-> ->]|[_ [_ [_ ->]]]]; [split; assumption|].
  split; cbn; [apply inSl_app; assumption|exact Hc].
Qed.
Lemma add_constraint_comp_good f e lb ub f' : add_constraint_comp f e lb ub = Ok f' -> inSl e -> f_good f -> f_good f'.
Proof.
  intros H He Hf. destruct (add_constraint_comp_ok _ _ _ _ _ H) as [f1 [ic [H1 ->]]].
  exact (add_constraint_good _ _ _ _ _ H1 He Hf).
Qed.
Lemma add_cost_good f e : inS e -> f_good f -> f_good (add_cost f e).
Proof. intros He [Hg Hc]. split; cbn; [exact Hg|apply inS_bin; assumption]. Qed.

Lemma fb_in x y s : inS x -> inS y -> inS s -> inS (fb x y s).
Proof. intros Hx Hy Hs. unfold fb. repeat (apply inS_bin || apply inS_un); assumption. Qed.
Lemma fb_row_in x y s j r : fb_row x y s j = Ok r -> (forall v, In v x -> inSl v) -> inSl y -> inS s -> inS r.
Proof.
  unfold fb_row. intros H Hx Hy Hs. bok. pose proof (nthE_in _ _ _ _ E Hy) as Hyj. revert H.
  assert (G : forall l acc, (forall v, In v l -> inSl v) -> inS acc ->
    foldM (fun acc xi => do* xij <- nthE ECasadi xi j; Ok (EBin BAdd acc (fb xij a s))) l acc = Ok r -> inS r).
  { induction l as [|v l IH]; intros acc Hl Ha H; cbn [foldM] in H; [inversion H; subst; exact Ha|].
    bok. eapply IH; [| |exact H]; [intros; apply Hl; right; assumption|].
    inversion E0; subst. apply inS_bin; [exact Ha|apply fb_in; [|assumption..]].
    eapply nthE_in; [exact E1|apply Hl; left; reflexivity]. }
  apply G; [exact Hx|apply inS_cst].
Qed.

Hypothesis HSigma : Sc SSigma.
Hypothesis HTau : Sc STau.

Lemma create_complementarity_good o z f x y f' :
  (is_elastic (o_mpcc o) = true -> Sc SElastic) ->
  create_complementarity o z f x y = Ok f' -> f_ok f' -> (forall v, In v x -> inSl v) -> inSl y -> f_good f -> f_good f'.
Proof.
  intros HE H K Hx Hy Hf.
  assert (HS : inS (EVar SSigma)) by (apply inS_var, HSigma).
  assert (HT : inS (EVar STau)) by (apply inS_var, HTau).
  assert (S1x : inSl [EVar SSigma]) by (apply inSl_cons; [exact HS|apply inSl_nil]).
  unfold create_complementarity in H. destruct (o_mpcc o) eqn:Em.
  1,2: bok; assert (inSl a1) by (eapply vbin_in; [exact E1|eapply vbin_in; [exact E0|eapply sum_list_in; eassumption|exact Hy]|exact S1x]);
       eapply add_constraint_comp_good; eassumption.
  1: { bok. eapply add_constraint_comp_good; [exact H| |exact Hf]. eapply mapM_in1; [exact E|].
       intros. eapply fb_row_in; eassumption. }
  1: { destruct x as [|x1 [|]]; try discriminate. bok. eapply add_constraint_comp_good; [exact H| |exact Hf].
       assert (H0 : inSl a) by (eapply mapM_in1; [exact E|intros; eapply fb_row_in; eassumption]).
       assert (Hx1 : inSl x1) by (apply Hx; left; reflexivity).
       repeat apply inSl_app.
       - exact H0.
       - eapply mapM_in1; [exact E0|]. intros j v _ Hv. cbn beta in Hv. bok. inversion Hv; subst.
         repeat (apply inS_bin || apply inS_un || apply inS_cst); try assumption. eapply nthE_in; eassumption.
       - eapply mapM_in1; [exact E1|]. intros j v _ Hv. cbn beta in Hv. bok. inversion Hv; subst.
         repeat (apply inS_bin || apply inS_un || apply inS_cst); try assumption. eapply nthE_in; eassumption.
       - eapply mapM_in1; [exact E2|]. intros j v _ Hv. cbn beta in Hv. bok. inversion Hv; subst.
         repeat (apply inS_bin || apply inS_un || apply inS_cst); eapply nthE_in; eassumption. }
  1,2: bok; assert (inSl a1) by (eapply vbin_in; [exact E1|eapply vbin_in; [exact E0|eapply sum_list_in; eassumption|exact Hy]|
         apply repeat_in, inS_var, HE; reflexivity]); eapply add_constraint_comp_good; eassumption.
  1: { bok. assert (Hp : inSl a0) by (eapply vbin_in; [exact E0|eapply sum_list_in; eassumption|exact Hy]).
       assert (He : inSl (repeat (EVar SElastic) (length y))) by (apply repeat_in, inS_var, HE; reflexivity).
       eapply add_constraint_comp_good; [exact H| |exact Hf].
       apply inSl_app; [exact (vbin_in _ _ _ _ E1 Hp He)|exact (vbin_in _ _ _ _ E2 Hp He)]. }
  bok. destruct a as [f1 idx]. bok.
  pose proof (add_variable_ok _ _ _ _ _ _ _ E) as [_ [_ [_ [_ Ef1]]]].
  assert (Hz : inSl (vars (map (z (length (ind_bool f))) (seq 0 (length y))))).
  { apply vars_in. intros s Hs. apply K. destruct (add_constraint_comp_ok _ _ _ _ _ H) as [f2 [ic [H1 ->]]].
    cbn. destruct (add_constraint_le o z _ _ _ _ _ H1) as [[s' [Ew _]] _ _]. rewrite Ew. subst f1. cbn.
    apply in_or_app. left. apply in_or_app. right. exact Hs. }
  assert (Hsx : inSl a) by (eapply sum_list_in; eassumption).
  assert (HM : inSl (vscale (ECst bigM) (vars (map (z (length (ind_bool f))) (seq 0 (length y))))))
    by (apply vscale_in; [apply inS_cst|exact Hz]).
  assert (HM1 : inSl (vscale (ECst bigM) a0)).
  { apply vscale_in; [apply inS_cst|]. eapply vbin_in; [exact E1| |exact Hz]. apply inSl_cons; [apply inS_cst|apply inSl_nil]. }
  eapply add_constraint_comp_good; [exact H| |].
  - repeat apply inSl_app; [exact (vbin_in _ _ _ _ E2 HM Hy)|exact (vbin_in _ _ _ _ E3 Hy HM)|
      exact (vbin_in _ _ _ _ E4 HM1 Hsx)|exact (vbin_in _ _ _ _ E5 Hsx HM1)].
  - subst f1. exact Hf.
Qed.

(* ---- finite elements ---- *)
Definition fe_in (fe : felem) : Prop := f_ok (fo fe) /\ inS (fe_h fe).
Definition fe_good (fe : felem) : Prop := f_good (fo fe).

Lemma fe_le_in o fe fe' : fe_le o fe fe' -> fe_in fe' -> fe_in fe.
Proof. intros [L [_ [_ [_ [_ [_ Eh]]]]]] [K Kh]. split; [exact (fo_le_ok _ _ _ _ L K)|rewrite <- Eh; exact Kh]. Qed.

Lemma fe_sel_in fe idx v : fe_sel fe idx = Ok v -> fe_in fe -> inSl v.
Proof.
  unfold fe_sel. intros H [K _]. bok. inversion H; subst. apply vars_in. intros s Hs. apply K.
  apply sel_ok in E. clear -E Hs. revert s Hs. induction E; intros s Hs; [destruct Hs|].
  destruct Hs as [<-|Hs]; [eapply nth_error_In; eassumption|exact (IHE s Hs)].
Qed.
Lemma fam_sel_in fe f st v : fam_sel fe f st = Ok v -> fe_in fe -> inSl v.
Proof. unfold fam_sel. intros H K. bok. eapply fe_sel_in; eassumption. Qed.
Lemma rk_stage_z_in fe st v : rk_stage_z fe st = Ok v -> fe_in fe -> inSl v.
Proof.
  unfold rk_stage_z. intros H K. bok. inversion H; subst.
  repeat apply inSl_app; try (eapply fam_sel_in; eassumption). eapply fe_sel_in; eassumption.
Qed.
Lemma Lambda_in fe st v : Lambda fe st = Ok v -> fe_in fe -> inSl v.
Proof. unfold Lambda. intros H K. bok. inversion H; subst. repeat apply inSl_app; eapply fam_sel_in; eassumption. Qed.
Lemma Theta_in fe st v : Theta fe st = Ok v -> fe_in fe -> inSl v.
Proof.
  unfold Theta. intros H K. bok. inversion H; subst.
  assert (Ha : inSl a0) by (eapply fam_sel_in; eassumption).
  repeat apply inSl_app; [eapply fam_sel_in; eassumption|exact Ha|].
  intros e He. apply in_map_iff in He as [x [<- Hx]]. apply inS_bin; [apply inS_cst|apply Ha, Hx].
Qed.
Lemma sum_Theta_in fe v : sum_Theta fe = Ok v -> fe_in fe -> inSl v.
Proof.
  unfold sum_Theta. intros H K. bok. eapply sum_list_in; [exact H|]. eapply mapM_in; [exact E|].
  intros ? ? _ Hv'; cbn beta in Hv'; eapply Theta_in; [exact Hv'|assumption..].
Qed.
Lemma get_Lambdas_in fe prev l : get_Lambdas_incl_last_prev_fe fe prev = Ok l -> fe_in fe -> fe_in prev ->
  forall v, In v l -> inSl v.
Proof.
  unfold get_Lambdas_incl_last_prev_fe. intros H K Kp. bok. inversion H; subst. intros v Hv.
  apply in_app_or in Hv as [Hv|[<-|[]]]; [|eapply Lambda_in; eassumption].
  revert v Hv. eapply mapM_in; [exact E|]. intros ? ? _ Hv'; cbn beta in Hv'; eapply Lambda_in; [exact Hv'|assumption..].
Qed.
Lemma sum_Lambda_in fe prev v : sum_Lambda fe prev = Ok v -> fe_in fe -> fe_in prev -> inSl v.
Proof.
  unfold sum_Lambda. intros H K Kp. bok. eapply sum_list_in; [exact H|]. eapply get_Lambdas_in; eassumption.
Qed.
Lemma x_last_in fe v : x_last fe = Ok v -> fe_in fe -> inSl v.
Proof. unfold x_last. intros H K. bok. eapply fe_sel_in; eassumption. Qed.
Lemma foldM_inSl {A} (f : list expr -> A -> res (list expr)) l :
  (forall acc a r, In a l -> f acc a = Ok r -> inSl acc -> inSl r) -> forall acc r, foldM f l acc = Ok r -> inSl acc -> inSl r.
Proof. intros K acc r H Ha. eapply (foldM_inv f inSl l); [|exact Ha|exact H]. intros; eapply K; eassumption. Qed.
Lemma x_temp_in o t fe prev j v : x_temp o t fe prev j = Ok v -> fe_in fe -> fe_in prev -> inSl v.
Proof.
  unfold x_temp. intros H K Kp. bok. eapply foldM_inSl; [|exact H|eapply x_last_in; eassumption].
  intros acc r v' _ H' Ha. cbn beta in H'. bok. eapply vbin_in; [exact H'|exact Ha|].
  apply vscale_in; [apply inS_bin; [apply K|apply inS_cst]|eapply fe_sel_in; eassumption].
Qed.
Lemma X_fe_in o t fe prev l : X_fe o t fe prev = Ok l -> fe_in fe -> fe_in prev -> forall v, In v l -> inSl v.
Proof.
  unfold X_fe. intros H K Kp. destruct (o_repr o).
  2: { bok. inversion H; subst. intros v Hv. apply in_app_or in Hv as [Hv|[<-|[]]]; [|eapply x_last_in; eassumption].
    revert v Hv. eapply mapM_in; [exact E|]. intros ? ? _ Hv'; cbn beta in Hv'; eapply x_temp_in; [exact Hv'|assumption..]. }
  all: eapply mapM_in; [exact H|]; intros ? ? _ Hv'; cbn beta in Hv'; eapply fe_sel_in; [exact Hv'|assumption..].
Qed.

Section Elem.
Variables (o : opts) (t : tab) (pm : pmodel) (oc : pocp).
Hypothesis HE : is_elastic (o_mpcc o) = true -> Sc SElastic.
Hypothesis HV : inSl (vgv pm).
Record funs_made : Prop := {
  fm_fx : made_fun (pm_fx_fun pm); fm_gz : made_fun (pm_gz_fun pm); fm_gsw : made_fun (pm_gsw_fun pm);
  fm_fq : made_fun (po_fq_fun oc); fm_gp : made_fun (po_g_path_fun oc);
  fm_gT : made_fun (po_gT_fun oc); fm_fT : made_fun (po_fT_fun oc);
  fm_rk : made_fun (fst (po_rk_comp oc)) /\ made_fun (snd (po_rk_comp oc));
  fm_ct : made_fun (fst (po_ctrl_comp oc)) /\ made_fun (snd (po_ctrl_comp oc));
  fm_gl : made_fun (fst (po_global_comp oc)) /\ made_fun (snd (po_global_comp oc));
  fm_t : forall f, pm_t_fun pm = Some f -> made_fun f }.
Hypothesis FM : funs_made.

Lemma fe_comp_good fe x y fe' : fe_comp o fe x y = Ok fe' -> fe_in fe' ->
  (forall v, In v x -> inSl v) -> inSl y -> fe_good fe -> fe_good fe'.
Proof.
  unfold fe_comp. intros H K Hx Hy G. bok. inversion H; subst.
  exact (create_complementarity_good _ _ _ _ _ _ HE E (proj1 K) Hx Hy G).
Qed.

Section Step.
Variables (nfe : nat) (prev : felem) (Uk : list expr) (sot : expr) (c : nat).
Hypothesis HP : fe_in prev.
Hypothesis HU : inSl Uk.
Hypothesis HS : inS sot.
Hypothesis HPar : inSl (vars (pst pm c)).

Lemma args_in (l : list (list expr)) : Forall inSl l -> forall a, In a l -> inSl a.
Proof. intros H a Ha. rewrite Forall_forall in H. exact (H a Ha). Qed.
Ltac args := apply args_in; repeat (apply Forall_cons; [assumption|]); apply Forall_nil.

Lemma fs_stage_good Xf fe X j fe' X' : (forall v, In v Xf -> inSl v) ->
  fs_stage o t pm oc prev Uk sot Xf (fe, X) j = Ok (fe', X') -> fe_ctrl fe = c ->
  fe_in fe' -> fe_good fe /\ inSl X -> fe_good fe' /\ inSl X'.
Proof.
  intros HX H Hc K [G HXk]. pose proof (fe_le_in _ _ _ (fs_stage_le _ _ _ _ _ _ _ _ _ _ _ _ _ H) K) as K0.
  unfold fs_stage in H. subst c. bok.
  assert (Hx : inSl a) by (eapply nthE_inl; eassumption).
  assert (Hz : inSl a0) by (eapply rk_stage_z_in; eassumption).
  assert (Hf : inSl a1) by (eapply call_in; [exact (fm_fx FM)|exact E1|args]).
  assert (Hq : inSl a2) by (eapply call_in; [exact (fm_fq FM)|exact E2|args]).
  assert (Hq1 : inS a3) by (apply head1_ok in E3; subst a2; apply Hq; left; reflexivity).
  assert (Hg : inSl a4) by (eapply call_in; [exact (fm_gz FM)|exact E4|args]).
  assert (G1 : f_good a5) by (eapply add_constraint_good; eassumption).
  assert (Hfj : inSl (vscale sot a1)) by (apply vscale_in; assumption).
  destruct (o_repr o).
  - bok. assert (Hxp : inSl a8) by (eapply x_last_in; eassumption).
    assert (Hxc : inSl a9).
    { eapply foldM_inSl; [|exact E9|apply vscale_in; [apply inS_cst|exact Hxp]].
      intros acc r v _ H' Ha. cbn beta in H'. bok. eapply vbin_in; [exact H'|exact Ha|].
      apply vscale_in; [apply inS_cst|]. eapply nthE_inl; eassumption. }
    inversion H; subst. split.
    + apply add_cost_good; [repeat (apply inS_bin || apply inS_cst); try assumption; apply K0|].
      eapply add_constraint_good; [eassumption| |exact G1]. eapply vbin_in; [eassumption| |exact Hxc].
      apply vscale_in; [apply K0|exact Hfj].
    + eapply vbin_in; [eassumption|exact HXk|]. apply vscale_in; [apply inS_cst|exact Hx].
  - bok. assert (Hv : inSl a8) by (eapply fe_sel_in; eassumption). inversion H; subst. split.
    + apply add_cost_good; [repeat (apply inS_bin || apply inS_cst); try assumption; apply K0|].
      eapply add_constraint_good; [eassumption| |exact G1]. eapply vbin_in; [eassumption|exact Hfj|exact Hv].
    + eapply vbin_in; [eassumption|exact HXk|]. apply vscale_in; [apply inS_bin; [apply K0|apply inS_cst]|exact Hv].
  - bok. assert (Hv : inSl a8) by (eapply fe_sel_in; eassumption). inversion H; subst. split.
    + apply add_cost_good; [repeat (apply inS_bin || apply inS_cst); try assumption; apply K0|].
      eapply add_constraint_good; [eassumption| |exact G1]. eapply vbin_in; [eassumption|exact Hfj|exact Hv].
    + eapply vbin_in; [eassumption|exact HXk|]. apply vscale_in; [apply inS_bin; [apply K0|apply inS_cst]|exact Hv].
Qed.

Lemma gpath_good Xf fe j fe' : (forall v, In v Xf -> inSl v) ->
  gpath pm oc Xf Uk (vars (pst pm c)) fe j = Ok fe' -> fe_good fe -> fe_good fe'.
Proof.
  intros HX H G. unfold gpath in H. bok. inversion H; subst.
  assert (Hx : inSl a) by (eapply nthE_inl; eassumption).
  eapply add_constraint_good; [exact E1| |exact G]. eapply call_in; [exact (fm_gp FM)|exact E0|args].
Qed.

Lemma lift_good fe fe' : lift_constraints o t fe prev = Ok fe' -> fe_in fe' -> fe_good fe -> fe_good fe'.
Proof.
  unfold lift_constraints. intros H K G. eapply (foldM_good _ fe_in fe_good); [| |exact H|exact K|exact G].
  - intros a j a' _ Ha Ka. bok. inversion Ha; subst. eapply fe_le_in; [|exact Ka]. eapply (fe_add_constraint_le o); eassumption.
  - intros a j a' _ Ha Ka Ga. bok. inversion Ha; subst.
    assert (Kb : fe_in a) by (eapply fe_le_in; [|exact Ka]; eapply (fe_add_constraint_le o); eassumption).
    eapply add_constraint_good; [eassumption| |exact Ga]. eapply vbin_in; [eassumption|eapply fe_sel_in; eassumption|].
    eapply x_temp_in; eassumption.
Qed.

Lemma forward_good fe fe' : fe_ctrl fe = c -> forward_simulation o t pm oc nfe prev Uk sot fe = Ok fe' ->
  fe_in fe' -> fe_good fe -> fe_good fe'.
Proof.
  intros Hc H K G. apply forward_simulation_parts in H.
  destruct H as [(Xf & xp & f0 & X0 & f1 & X1 & f2 & f3 & f4 & HX & Hxp & H0 & L0 & H1 & L1 & H2 & L2 & H3 & L3 & H4 & L4 & H5 & L5)].
  rewrite Hc in *.
  pose proof (fe_le_in _ _ _ L5 K) as K4. pose proof (fe_le_in _ _ _ L4 K4) as K3. pose proof (fe_le_in _ _ _ L3 K3) as K2.
  pose proof (fe_le_in _ _ _ L2 K2) as K1. pose proof (fe_le_in _ _ _ L1 K1) as K0. pose proof (fe_le_in _ _ _ L0 K0) as Kf.
  assert (HXf : forall v, In v Xf -> inSl v) by (eapply X_fe_in; eassumption).
  assert (Hx : inSl xp) by (eapply x_last_in; eassumption).
  assert (G0 : fe_good f0 /\ inSl X0).
  { destruct (o_repr o).
    - destruct H0 as [-> [d0 [_ ->]]]. split; [exact G|apply vscale_in; [apply inS_cst|exact Hx]].
    - destruct H0 as [-> ->]. split; assumption.
    - destruct H0 as [HL ->]. split; [eapply lift_good; eassumption|exact Hx]. }
  assert (Hc0 : fe_ctrl f0 = c) by (destruct L0 as [_ [E _]]; congruence).
  assert (G1 : fe_good f1 /\ inSl X1).
  { apply (foldM_good (fs_stage o t pm oc prev Uk sot Xf) (fun a => fe_in (fst a)) (fun a => (fe_good (fst a) /\ inSl (snd a)) /\ fe_ctrl (fst a) = c)
      (seq 0 (o_ns o)) ) with (s := (f0, X0)) (s' := (f1, X1)); [| |exact H1|exact K1|split; [exact G0|exact Hc0]].
    - intros [a xa] j [b xb] _ Hs Kb. cbn [fst] in *. eapply fe_le_in; [|exact Kb]. eapply fs_stage_le; exact Hs.
    - intros [a xa] j [b xb] _ Hs Kb [Ga Hca]. cbn [fst snd] in *. split; [eapply fs_stage_good; eassumption|].
      apply fs_stage_le in Hs. destruct Hs as [_ [E _]]. congruence. }
  destruct G1 as [G1 HX1].
  assert (G2 : fe_good f2).
  { destruct (has_xend o t); [|subst; exact G1]. destruct H2 as (xe & e & f' & Hxe & He & Ha & ->).
    eapply add_constraint_good; [exact Ha| |exact G1]. eapply vbin_in; [exact He|exact HX1|]. eapply x_last_in; [exact Hxe|exact K1]. }
  assert (G3 : fe_good f3).
  { destruct (_ || _); [|subst; exact G2]. eapply gpath_good; eassumption. }
  assert (G4 : fe_good f4).
  { destruct (o_g_path_at_stg o); [|subst; exact G3].
    eapply (foldM_inv (gpath pm oc Xf Uk (vars (pst pm c))) fe_good); [|exact G3|exact H4].
    intros; eapply gpath_good; eassumption. }
  destruct (_ && _); [|subst; exact G4]. destruct H5 as (xe & z & gs & f' & Hxe & Hz & Hg & Ha & ->).
  eapply add_constraint_good; [exact Ha| |exact G4].
  assert (inSl xe) by (eapply x_last_in; [exact Hxe|exact K4]).
  assert (inSl z) by (eapply rk_stage_z_in; [exact Hz|exact K4]).
  eapply call_in; [exact (fm_gsw FM)|exact Hg|args].
Qed.

Lemma ccc_good fe fe' : fe_ctrl fe = c -> create_complementarity_constraints o t pm oc prev Uk fe = Ok fe' ->
  fe_in fe' -> fe_good fe -> fe_good fe'.
Proof.
  intros Hc H K G. pose proof (fe_le_in _ _ _ (create_complementarity_constraints_le _ _ _ _ _ _ _ _ H) K) as Kf.
  unfold create_complementarity_constraints in H. rewrite Hc in H.
  destruct (X_fe o t fe prev) as [Xf|] eqn:HX; cbn [bind] in H; [|discriminate].
  assert (HXf : forall v, In v Xf -> inSl v) by (eapply X_fe_in; eassumption).
  match type of H with bind ?x _ = _ => destruct x as [f1|] eqn:H1; cbn [bind] in H; [|discriminate H] end.
  match type of H with bind ?x _ = _ => destruct x as [f2|] eqn:H2; cbn [bind] in H; [|discriminate H] end.
  assert (D : forall a x y a', fe_comp o a x y = Ok a' -> fe_in a' -> fe_in a).
  { intros a x y a' Ha Ka. eapply fe_le_in; [|exact Ka]. eapply fe_comp_le; exact Ha. }
  assert (Last : fe_in f2 /\ (fe_good f2 -> fe_good fe')).
  { destruct (negb (o_use_fesd o)); [|destruct (o_cross o)].
    - assert (D1 : forall s a s', In a (seq 0 (o_ns o)) -> (do* la <- Lambda s (At a); do* th <- Theta s (At a); fe_comp o s [la] th) = Ok s' -> fe_in s' -> fe_in s).
      { intros s a s' _ Hs Ks. bok. eapply D; eassumption. }
      split; [eapply foldM_ok_down; [|exact H|exact K]; exact D1|intros G2].
      eapply (foldM_good _ fe_in fe_good); [exact D1| |exact H|exact K|exact G2].
      intros s a s' _ Hs Ks Gs. bok. pose proof (D _ _ _ _ Hs Ks) as K0. eapply fe_comp_good; [exact Hs|exact Ks| | |exact Gs].
      + intros v [<-|[]]. eapply Lambda_in; eassumption.
      + eapply Theta_in; eassumption.
    - assert (D1 : forall j s a s', In a (seq 0 (o_ns o)) -> (do* th <- Theta s (At j); do* la <- Lambda s (At a); fe_comp o s [th] la) = Ok s' -> fe_in s' -> fe_in s).
      { intros j s a s' _ Hs Ks. bok. eapply D; eassumption. }
      assert (D2 : forall s a s', In a (seq 0 (o_ns o)) -> (do* th <- Theta s (At a); do* lp <- Lambda prev Last; do* fe' <- fe_comp o s [th] lp;
         foldM (fun fe jj => do* th <- Theta fe (At a); do* la <- Lambda fe (At jj); fe_comp o fe [th] la) (seq 0 (o_ns o)) fe') = Ok s' -> fe_in s' -> fe_in s).
      { intros s a s' _ Hs Ks. bok. eapply D; [eassumption|]. eapply foldM_ok_down; [|exact Hs|exact Ks]. apply D1. }
      split; [eapply foldM_ok_down; [|exact H|exact K]; exact D2|intros G2].
      eapply (foldM_good _ fe_in fe_good); [exact D2| |exact H|exact K|exact G2].
      intros s a s' _ Hs Ks Gs. bok.
      assert (K1 : fe_in a2) by (eapply foldM_ok_down; [|exact Hs|exact Ks]; apply D1).
      pose proof (D _ _ _ _ E1 K1) as K0.
      eapply (foldM_good _ fe_in fe_good); [apply D1| |exact Hs|exact Ks|].
      + intros u b u' _ Hu Ku Gu. bok. pose proof (D _ _ _ _ Hu Ku) as K3. eapply fe_comp_good; [exact Hu|exact Ku| | |exact Gu].
        * intros v [<-|[]]. eapply Theta_in; eassumption.
        * eapply Lambda_in; eassumption.
      + eapply fe_comp_good; [exact E1|exact K1| | |exact Gs].
        * intros v [<-|[]]. eapply Theta_in; eassumption.
        * eapply Lambda_in; eassumption.
    - assert (D1 : forall s a s', In a (seq 0 (o_ns o)) -> (do* ls <- get_Lambdas_incl_last_prev_fe s prev; do* th <- Theta s (At a); fe_comp o s ls th) = Ok s' -> fe_in s' -> fe_in s).
      { intros s a s' _ Hs Ks. bok. eapply D; eassumption. }
      split; [eapply foldM_ok_down; [|exact H|exact K]; exact D1|intros G2].
      eapply (foldM_good _ fe_in fe_good); [exact D1| |exact H|exact K|exact G2].
      intros s a s' _ Hs Ks Gs. bok. pose proof (D _ _ _ _ Hs Ks) as K0. eapply fe_comp_good; [exact Hs|exact Ks| | |exact Gs].
      + eapply get_Lambdas_in; eassumption.
      + eapply Theta_in; eassumption. }
  destruct Last as [K2 L2]. apply L2.
  assert (Mid : fe_in f1 /\ (fe_good f1 -> fe_good f2)).
  { destruct (_ =? _); [|inversion H2; subst; split; [exact K2|tauto]]. bok.
    split; [eapply D; eassumption|intros G1].
    destruct (callcomp_in _ _ _ (proj1 (fm_ct FM)) (proj2 (fm_ct FM)) E ltac:(args)) as [A B].
    eapply fe_comp_good; [exact H2|exact K2| |exact B|exact G1]. intros v [<-|[]]. exact A. }
  destruct Mid as [K1 L1]. apply L1.
  eapply (foldM_good _ fe_in fe_good); [| |exact H1|exact K1|exact G].
  - intros s a s' _ Hs Ks. bok. eapply D; eassumption.
  - intros s a s' _ Hs Ks Gs. bok. pose proof (D _ _ _ _ Hs Ks) as K0.
    assert (inSl a0) by (eapply rk_stage_z_in; eassumption).
    assert (inSl a1) by (eapply nthE_inl; eassumption).
    destruct (callcomp_in _ _ _ (proj1 (fm_rk FM)) (proj2 (fm_rk FM)) E1 ltac:(args)) as [A B].
    eapply fe_comp_good; [exact Hs|exact Ks| |exact B|exact Gs]. intros v [<-|[]]. exact A.
Qed.

Lemma nu_k_in fe pprev e : nu_k fe prev pprev = Ok e -> fe_in fe -> fe_in pprev -> inS e.
Proof.
  unfold nu_k. intros H K Kp. bok. inversion H; subst. apply prod_in; [apply inS_cst|].
  eapply vbin_in; [eassumption| |].
  - eapply vbin_in; [eassumption|eapply (sum_Lambda_in prev pprev); eassumption|eapply (sum_Lambda_in fe prev); eassumption].
  - eapply vbin_in; [eassumption|eapply (sum_Theta_in prev); eassumption|eapply (sum_Theta_in fe); eassumption].
Qed.

Lemma step_eq_good pprev fe fe' : fe_in pprev -> step_equilibration o nfe pprev prev fe = Ok fe' ->
  fe_in fe' -> fe_good fe -> fe_good fe'.
Proof.
  intros Kp H K G. pose proof (fe_le_in _ _ _ (step_equilibration_le _ _ _ _ _ _ H) K) as Kf.
  unfold step_equilibration in H. destruct (negb (o_use_fesd o)); [inversion H; subst; exact G|].
  assert (Hdh : inS (EBin BSub (fe_h fe) (fe_h prev))) by (apply inS_bin; [apply Kf|apply HP]).
  assert (Hl : inSl [EBin BSub (fe_h fe) (fe_h prev)]) by (apply inSl_cons; [exact Hdh|apply inSl_nil]).
  destruct (o_step_eq o);
  [inversion H; subst; apply add_cost_good; [|exact G]; repeat (apply inS_bin || apply inS_un || apply inS_cst); apply Kf|..];
  (destruct (fe_idx fe =? 0); [inversion H; subst; exact G|]).
  1: { inversion H; subst. apply add_cost_good; [|exact G]; repeat (apply inS_bin || apply inS_un || apply inS_cst); [apply Kf|apply HP]. }
  all: bok; assert (Hn : inS a) by (eapply nu_k_in; eassumption).
  all: try (inversion H; subst; apply add_cost_good; [|exact G]; repeat (apply inS_cst || apply inS_un || apply inS_bin); try assumption; try apply Kf; apply HP).
  - bok. inversion H; subst. eapply add_constraint_good; [eassumption| |exact G]. apply inSl_cons; [apply inS_bin; assumption|apply inSl_nil].
  - eapply fe_comp_good; [exact H|exact K| |exact Hl|exact G]. intros v [<-|[]]. apply inSl_cons; [exact Hn|apply inSl_nil].
  - eapply fe_comp_good; [exact H|exact K| |exact Hl|exact G]. intros v [<-|[]]. apply inSl_cons; [apply inS_cst|apply inSl_nil].
Qed.
End Step.

Lemma process_good nfe Uk sot c l : forall f pp p done ic f' pp' p' done' ic',
  inSl Uk -> inS sot -> inSl (vars (pst pm c)) ->
  foldM (process_fe o t pm oc nfe Uk sot) l (f, pp, p, done, ic) = Ok (f', pp', p', done', ic') ->
  (forall fe, In fe done' -> fe_in fe) -> fe_in pp -> fe_in p ->
  (forall s, In s l -> fe_ctrl s = c /\ fe_good s) -> f_good f -> f_good f' /\ fe_in pp' /\ fe_in p'.
Proof.
  induction l as [|s l IH]; intros f pp p done ic f' pp' p' done' ic' HU HS HPar H D Hpp Hp Hl G; cbn [foldM] in H.
  { inversion H; subst. auto. }
  destruct (process_fe o t pm oc nfe Uk sot (f, pp, p, done, ic) s) as [[[[[f1 pp1] p1] done1] ic1]|] eqn:E1;
    cbn [bind] in H; [|discriminate].
  unfold process_fe in E1. bok. inversion E1; subst; clear E1.
  destruct (process_fold_cost _ _ _ _ _ _ _ _ _ _ _ _ _ _ _ _ _ _ H) as [ds [-> _]].
  assert (K3 : fe_in p1) by (apply D, in_or_app; left; apply in_or_app; right; left; reflexivity).
  pose proof (fe_le_in _ _ _ (step_equilibration_le _ _ _ _ _ _ E2) K3) as K2.
  pose proof (fe_le_in _ _ _ (create_complementarity_constraints_le _ _ _ _ _ _ _ _ E0) K2) as K1.
  destruct (Hl s (or_introl eq_refl)) as [Hc Gs].
  assert (G1 : fe_good a) by (eapply (forward_good nfe pp1 Uk sot c); eassumption).
  assert (Hc1 : fe_ctrl a = c) by (apply forward_simulation_le in E; destruct E as [_ [Ec _]]; congruence).
  assert (G2 : fe_good a0) by (eapply (ccc_good pp1 Uk c); eassumption).
  assert (G3 : fe_good p1) by (eapply (step_eq_good nfe pp1 Hp pp); eassumption).
  eapply IH; [exact HU|exact HS|exact HPar|exact H|exact D|exact Hp|exact K3|intros x Hx; apply Hl; right; exact Hx|].
  eapply add_constraint_good; [eassumption|apply G3|]. apply add_cost_good; [apply G3|exact G].
Qed.

Section Stages.
Variable P : prob.
Hypothesis HPw : f_ok (pb P).
Hypothesis H0 : fe_in (p_fe0 P).

Lemma sel_in (l : list sym) idx v : sel l idx = Ok v -> forall s, In s v -> In s l.
Proof.
  intros E. apply sel_ok in E. induction E; intros s Hs; [destruct Hs|].
  destruct Hs as [<-|Hs]; [eapply nth_error_In; eassumption|exact (IHE s Hs)].
Qed.
Lemma sel_inSl idx v : sel (w (pb P)) idx = Ok v -> inSl (vars v).
Proof. intros E. apply vars_in. intros s Hs. apply HPw. eapply sel_in; eassumption. Qed.

Lemma stage_good c st f pp p done ics f' pp' p' done' ics' :
  inSl (vars (pst pm c)) ->
  process_stage o t pm oc P (f, pp, p, done, ics) (c, st) = Ok (f', pp', p', done', ics') ->
  (forall fe, In fe (concat done') -> fe_in fe) -> fe_in pp -> fe_in p ->
  (forall s, In s st -> fe_ctrl s = c /\ fe_good s) -> f_good f -> f_good f' /\ fe_in pp' /\ fe_in p'.
Proof.
  intros HPar H D Hpp Hp Hst G. unfold process_stage in H. cbn [bind] in H.
  destruct (nthE EIndexError (p_ind_u P) c) as [iu|] eqn:E1; cbn [bind] in H; [|discriminate].
  destruct (sel (w (pb P)) iu) as [Us|] eqn:E2; cbn [bind] in H; [|discriminate].
  match type of H with bind ?x _ = _ => destruct x as [sot|] eqn:E3; cbn [bind] in H; [|discriminate H] end.
  destruct (nthE EIndexError (o_Nfe_list o) c) as [nfe|] eqn:E4; cbn [bind] in H; [|discriminate].
  destruct (foldM (process_fe o t pm oc nfe (vars Us) sot) st (f, pp, p, [], [])) as [[[[[f1 pp1] p1] fes] ic]|] eqn:E5;
    cbn [bind] in H; [|discriminate].
  match type of H with bind ?x _ = _ => destruct x as [f2|] eqn:E6; cbn [bind] in H; [|discriminate H] end.
  match type of H with bind ?x _ = _ => destruct x as [f3|] eqn:E7; cbn [bind] in H; [|discriminate H] end.
  inversion H; subst; clear H.
  assert (HS : inS sot).
  { destruct (o_sot o).
    - inversion E3; subst; apply inS_cst.
    - bok. pose proof (sel_inSl _ _ E0) as Hv. apply head1_ok in E3. rewrite E3 in Hv. apply Hv. left; reflexivity.
    - bok. pose proof (sel_inSl _ _ E0) as Hv. apply head1_ok in E3. rewrite E3 in Hv. apply Hv. left; reflexivity. }
  assert (Df : forall fe, In fe fes -> fe_in fe).
  { intros fe Hfe. apply D. rewrite concat_app. apply in_or_app. right. cbn. rewrite app_nil_r. exact Hfe. }
  destruct (process_good nfe (vars Us) sot c st f pp p [] [] f1 pp' p' fes ic (sel_inSl _ _ E2) HS HPar E5 Df Hpp Hp Hst G) as [G1 [Kpp Kp]].
  assert (G2 : f_good f2).
  { destruct (o_use_fesd o && o_equidistant o); [|inversion E6; subst; exact G1].
    eapply add_constraint_good; [exact E6| |exact G1]. apply inSl_cons; [|apply inSl_nil].
    apply inS_bin; [|apply inS_cst]. apply esum_in. intros e He. apply in_map_iff in He as [fe [<- Hfe]]. apply Df, Hfe. }
  split; [|split; assumption].
  destruct (o_time_freezing o && o_equidistant o); [|inversion E7; subst; exact G2].
  bok. apply opt_res_ok in E.
  assert (A0 : inSl a0) by (eapply x_last_in; eassumption).
  assert (A3 : inSl a3).
  { eapply x_last_in; [eassumption|]. apply Df.
    match goal with L : lastE _ fes = Ok _ |- _ => apply lastE_ok in L as [l' ->] end. apply in_or_app. right. left. reflexivity. }
  assert (A1 : inSl a1) by (eapply call_in; [exact (fm_t FM _ E)|eassumption|]; intros x [<-|[]]; exact A0).
  assert (A4 : inSl a4) by (eapply call_in; [exact (fm_t FM _ E)|eassumption|]; intros x [<-|[]]; exact A3).
  assert (B0 : inS a5) by (match goal with L : head1 a1 = Ok _ |- _ => apply head1_ok in L; subst a1 end; apply A1; left; reflexivity).
  assert (B1 : inS a6) by (match goal with L : head1 a4 = Ok _ |- _ => apply head1_ok in L; subst a4 end; apply A4; left; reflexivity).
  eapply add_constraint_good; [exact E7| |exact G2]. apply inSl_cons; [|apply inSl_nil].
  repeat (apply inS_bin || apply inS_cst); assumption.
Qed.

Lemma stages_good l : forall f pp p done ics f' pp' p' done' ics',
  foldM (process_stage o t pm oc P) l (f, pp, p, done, ics) = Ok (f', pp', p', done', ics') ->
  (forall fe, In fe (concat done') -> fe_in fe) -> fe_in pp -> fe_in p ->
  (forall c st, In (c, st) l -> inSl (vars (pst pm c)) /\ forall s, In s st -> fe_ctrl s = c /\ fe_good s) ->
  f_good f -> f_good f' /\ fe_in p'.
Proof.
  induction l as [|[c st] l IH]; intros f pp p done ics f' pp' p' done' ics' H D Hpp Hp Hl G; cbn [foldM] in H.
  { inversion H; subst. auto. }
  destruct (process_stage o t pm oc P (f, pp, p, done, ics) (c, st)) as [[[[[f1 pp1] p1] done1] ics1]|] eqn:E1;
    cbn [bind] in H; [|discriminate].
  destruct (process_stages_cost _ _ _ _ _ _ _ _ _ _ _ _ _ _ _ _ H) as [es [-> _]].
  destruct (Hl c st (or_introl eq_refl)) as [HPar Hst].
  assert (D1 : forall fe, In fe (concat done1) -> fe_in fe).
  { intros fe Hfe. apply D. rewrite concat_app. apply in_or_app. left. exact Hfe. }
  destruct (stage_good c st f pp p done ics f1 pp1 p1 done1 ics1 HPar E1 D1 Hpp Hp Hst G) as [G1 [K1 K2]].
  eapply IH; [exact H|exact D|exact K1|exact K2|intros c' st' Hin; apply Hl; right; exact Hin|exact G1].
Qed.
End Stages.

Lemma comp_vector_in fe prev v : get_complementarity_vector o fe prev = Ok v -> fe_in fe -> fe_in prev -> inSl v.
Proof.
  unfold get_complementarity_vector, hadamard. intros H K Kp. destruct (o_use_fesd o); bok; inversion H; subst; apply inSl_concat;
    (eapply mapM_in; [exact E|]); intros j r _ Hr; bok.
  - assert (Th : inSl a0) by (eapply Theta_in; eassumption). inversion Hr; subst. apply inSl_app.
    + eapply vbin_in; [eassumption|exact Th|]. eapply (Lambda_in prev); eassumption.
    + apply inSl_concat. eapply mapM_in; [eassumption|]. intros k q _ Hq. bok.
      eapply vbin_in; [exact Hq|exact Th|]. eapply (Lambda_in fe); eassumption.
  - eapply vbin_in; [exact Hr|eapply Theta_in; eassumption|eapply Lambda_in; eassumption].
Qed.
End Elem.
End Scope.

(* ---- the functions of an accepted model and OCP are functions ---- *)
Lemma mkcomp_made ins rows f : mkcomp ins rows = Ok f -> made_fun (fst f) /\ made_fun (snd f).
Proof. unfold mkcomp. intros H. bok. inversion H; subst. cbn. split; do 2 eexists; eassumption. Qed.
Lemma accepted_funs o m pm oc po : pmodel_ok o m pm -> pocp_ok pm oc po -> funs_made pm po.
Proof.
  intros K L. destruct (mo_dcs _ _ _ K) as (gSl & ups & fx0 & d & _ & _ & _ & _ & Hfx & Hgsw & Hgz & _).
  destruct (po_cl _ _ _ L) as (gc & cc & sc & _ & Hg & Hc & Hr).
  split; try (do 2 eexists; eassumption).
  - do 2 eexists; exact (po_fq _ _ _ L).
  - do 2 eexists; exact (po_gp _ _ _ L).
  - do 2 eexists; exact (po_gT _ _ _ L).
  - do 2 eexists; exact (po_fT _ _ _ L).
  - exact (mkcomp_made _ _ _ Hr).
  - exact (mkcomp_made _ _ _ Hc).
  - exact (mkcomp_made _ _ _ Hg).
  - intros f Hf. pose proof (mo_t _ _ _ K) as Ht. destruct (m_tvar m).
    + destruct Ht as [f' [Hm Hf']]. assert (f' = f) by congruence. subst. do 2 eexists; exact Hm.
    + destruct Ht as [_ Hn]. congruence.
Qed.

Lemma fe0_syms o pm fe s : fe_zero o pm = Ok fe -> In s (w (fo fe)) -> In s (lam0 o pm ++ labx0 pm).
Proof.
  unfold fe_zero. intros H Hs. bok. destruct (fe0_decls_spec _ _ _ E) as [_ Hd].
  pose proof (dp_w _ _ _ (foldM_add_decl _ _ _ H)) as Hw. rewrite Hw in Hs. cbn in Hs.
  apply in_concat in Hs as [l [Hl Hs]]. apply in_map_iff in Hl as [d [<- Hin]].
  apply in_or_app. destruct (Hd d Hin) as [(_ & Es & _)|(f & y & Hf & Hy & _ & (_ & Es & _))]; rewrite Es in Hs; [right; exact Hs|left].
  assert (Hl0 : In s (lab0 o pm f)).
  { unfold lab0. apply in_concat. exists (map (SL00 f y) (seq 0 (fsz o pm f y))). split.
    - apply in_map_iff. exists y. split; [reflexivity|]. apply in_seq. lia.
    - unfold fsz. replace (fam_on o f) with true; [exact Hs|]. clear -Hf. unfold lam_fams, fam_on in *.
      destruct (o_pss o); cbn in Hf; intuition subst; reflexivity. }
  clear -Hl0 Hf. unfold lam0. unfold lam_fams in Hf. rewrite !in_app_iff. destruct (o_pss o); cbn in Hf; intuition (subst; tauto).
Qed.
Lemma fe0_h o pm fe : fe_zero o pm = Ok fe -> fe_h fe = ECst 0.
Proof. unfold fe_zero. intros H. bok. pose proof (dp_rest _ _ _ (foldM_add_decl _ _ _ H)) as R. intuition. Qed.

Lemma fe_ok_in o t pm oc c e nfe fe (Sc : sym -> Prop) : fe_ok o t pm oc c e nfe fe ->
  (forall s, In s (w (fo fe)) -> Sc s) -> fe_in Sc fe.
Proof.
  intros K H. split; [exact H|]. rewrite (ok_h _ _ _ _ _ _ _ _ K). pose proof (ok_hidx _ _ _ _ _ _ _ _ K) as Hh.
  destruct (o_use_fesd o); [|apply inS_cst]. destruct Hh as (idx & _ & Es & _). apply inS_var, H.
  eapply sel_in; [exact Es|left; reflexivity].
Qed.

Section Final.
Variables (o : opts) (t : tab) (m : model) (pm : pmodel) (ocp_ : ocp) (po : pocp) (P : prob).
Hypothesis KM : pmodel_ok o m pm.
Hypothesis KO : pocp_ok pm ocp_ po.
Hypothesis HB : problem_body o t pm po = Ok P.
Let Sc (s : sym) : Prop := In s (w (pb P) ++ p_p P).

Lemma body_closed : inSl Sc (g (pb P)) /\ inS Sc (cost (pb P)) /\ inS Sc (p_J_comp P).
Proof.
  destruct (problem_body_ok _ _ _ _ _ HB) as (stages & lastfe & f1 & B).
  pose proof (accepted_funs _ _ _ _ _ KM KO) as FM.
  destruct (bo_prim _ _ _ _ _ _ _ _ B) as (P0 & pp & pq & K0 & L1 & W1 & SCH & FO & Ep & Ef & _).
  destruct (bo_rest _ _ _ _ _ _ _ _ B) as (P1 & f2 & cvs & xT & gT & fT1 & f3 & f6 & Pc & K1 & Ep1 & Ef1 & HG & HC & HJ & HxT & HgT & Hf3 & HfT & Hc6 & L6 & _ & Epc & CO & _).
  destruct (bo_end _ _ _ _ _ _ _ _ B) as (P2 & f2' & xT' & gT' & f3' & f5 & f6' & K2 & HG' & HxT' & HgT' & Hf3' & Eg5 & _ & _ & _ & Hf6 & Eg6 & _).
  (* scope *)
  pose proof (cl_f _ _ _ CO) as WA. rewrite Epc in WA.
  assert (Sw6 : f_ok Sc f6).
  { intros s Hs. apply in_or_app. left. destruct WA as [-> _]. apply in_or_app. left. exact Hs. }
  assert (Sw3 : f_ok Sc f3) by (destruct L6 as [L6 _]; eapply fo_le_ok; eassumption).
  assert (Sw2 : f_ok Sc f2) by (eapply fo_le_ok; [exact (add_constraint_le o SBoolG _ _ _ _ _ Hf3)|exact Sw3]).
  assert (LG : fo_le o SBoolG f1 f2) by (unfold global_compl in HG; bok; eapply create_complementarity_le; exact HG).
  assert (Sw1 : f_ok Sc f1) by (eapply fo_le_ok; eassumption).
  assert (Sw0 : f_ok Sc (pb P0)) by (destruct L1 as [L1 _]; eapply fo_le_ok; eassumption).
  assert (Sp : forall s, In s (p_p P) -> Sc s) by (intros s Hs; apply in_or_app; right; exact Hs).
  assert (Pp : p_p P = concat (map (pst pm) (seq 0 (o_N_stages o))) ++ [SSigma; STau] ++ lam0 o pm ++ labx0 pm)
    by (rewrite Ep; exact (pk_p _ _ _ _ _ K0)).
  assert (HSigma : Sc SSigma) by (apply Sp; rewrite Pp; rewrite !in_app_iff; cbn; auto).
  assert (HTau : Sc STau) by (apply Sp; rewrite Pp; rewrite !in_app_iff; cbn; auto).
  assert (HE : is_elastic (o_mpcc o) = true -> Sc SElastic).
  { intros He. apply Sw0. rewrite (pk_w _ _ _ _ _ K0). unfold ellab. rewrite He. left. reflexivity. }
  assert (HV : inSl Sc (vgv pm)).
  { apply vars_in. intros s Hs. apply Sw0. rewrite (pk_w _ _ _ _ _ K0). rewrite !in_app_iff. auto. }
  assert (HPar : forall c, c < o_N_stages o -> inSl Sc (vars (pst pm c))).
  { intros c Hc. apply vars_in. intros s Hs. apply Sp. rewrite Pp. apply in_or_app. left. apply in_concat.
    exists (pst pm c). split; [|exact Hs]. apply in_map_iff. exists c. split; [reflexivity|]. apply in_seq. lia. }
  assert (H0 : fe_in Sc (p_fe0 P0)).
  { pose proof (pk_fe0' _ _ _ _ _ K0) as Z. split.
    - intros s Hs. apply Sp. rewrite Pp. rewrite !in_app_iff. pose proof (fe0_syms _ _ _ _ Z Hs) as Hin.
      rewrite in_app_iff in Hin. tauto.
    - rewrite (fe0_h _ _ _ Z). apply inS_cst. }
  assert (Hst : forall fe, In fe (concat stages) -> fe_in Sc fe).
  { intros fe Hfe. assert (Hw : forall s, In s (w (fo fe)) -> Sc s).
    { intros s Hs. apply in_or_app. left. destruct WA as [-> _]. apply in_or_app. right. apply in_concat.
      exists (w (fo fe)). split; [|exact Hs]. apply in_map_iff. exists fe. split; [reflexivity|exact Hfe]. }
    apply in_concat in Hfe as [st [Hs Hfe]]. apply In_nth_error in Hs as [c Hs]. apply In_nth_error in Hfe as [e Hfe].
    assert (Hc : c < o_N_stages o) by (rewrite <- (stages_length _ _ _ _ _ _ _ _ B); eapply nth_error_Some_lt; exact Hs).
    destruct (get_stage _ _ _ _ _ _ _ _ B c Hc) as (_ & nfe & _ & _ & _ & _ & _ & _ & _ & _ & Hn & _).
    destruct (get_fe_ok _ _ _ _ _ _ _ _ B _ _ _ _ _ Hs Hfe Hn) as [K _]. eapply fe_ok_in; eassumption. }
  (* the elements *)
  assert (GF : f_good Sc f1 /\ fe_in Sc lastfe).
  { eapply (stages_good Sc HSigma HTau o t pm po HE HV FM P0 Sw0 H0); [exact FO|exact Hst|exact H0|exact H0| |].
    - intros c st Hin. apply In_nth_error in Hin as [k Hk]. apply nth_error_combine_inv in Hk as [Hc Hs].
      assert (Hk : k < o_N_stages o) by (rewrite <- (pk_stages _ _ _ _ _ K0); eapply nth_error_Some_lt; exact Hs).
      rewrite nth_error_seq in Hc by (rewrite (pk_stages _ _ _ _ _ K0); exact Hk). inversion Hc; subst c; clear Hc.
      split; [apply HPar; exact Hk|]. intros s Hin.
      destruct (pk_stage _ _ _ _ _ K0 k Hk) as [fes [Hf (nfe & Hn & Hpos & HM)]].
      assert (fes = st) by (cbn in Hs; congruence). subst fes.
      destruct (mapM_In_inv _ _ _ _ HM Hin) as [e [_ Hmk]].
      split; [exact (ok_ctrl _ _ _ _ _ _ _ _ (fe_make_ok _ _ _ _ _ _ _ _ Hmk))|].
      destruct (fe_make_rest _ _ _ _ _ _ _ _ Hmk) as (Hg & _ & _ & Hcst & _).
      split; [rewrite Hg; apply inSl_nil|rewrite Hcst; apply inS_cst].
    - destruct (pk_nog _ _ _ _ _ K0) as (Hg & _ & _ & Hcst & _). split; [rewrite Hg; apply inSl_nil|rewrite Hcst; apply inS_cst]. }
  destruct GF as [G1 KL].
  (* global complementarities, terminal parts *)
  assert (G2 : forall P' f', global_compl o pm po P' f1 = Ok f' -> primal_ok o t pm po P' -> f_ok Sc f' -> f_good Sc f').
  { intros P' f' HG0 KP KF. unfold global_compl in HG0. bok.
    assert (Hpg : inSl Sc (vars a)).
    { apply vars_in. intros s Hs. apply Sp. rewrite Pp, <- (pk_p _ _ _ _ _ KP). eapply sel_in; eassumption. }
    destruct (callcomp_in Sc _ _ _ (proj1 (fm_gl _ _ FM)) (proj2 (fm_gl _ _ FM)) E0) as [A Bc].
    { intros x [<-|[<-|[]]]; assumption. }
    eapply (create_complementarity_good Sc HSigma HTau); [exact HE|exact HG0|exact KF| |exact Bc|exact G1].
    intros v [<-|[]]. exact A. }
  assert (HN : o_N_stages o - 1 < o_N_stages o) by (pose proof (bo_N _ _ _ _ _ _ _ _ B); lia).
  assert (HT : inSl Sc xT) by (eapply x_last_in; [exact HxT|exact KL]).
  assert (Hargs : forall a, In a [xT; vars (pst pm (o_N_stages o - 1)); vgv pm] -> inSl Sc a).
  { intros a [<-|[<-|[<-|[]]]]; [exact HT|apply HPar; exact HN|exact HV]. }
  assert (G3 : f_good Sc f3).
  { eapply add_constraint_good; [exact Hf3| |apply (G2 P1); assumption]. eapply call_in; [exact (fm_gT _ _ FM)|exact HgT|exact Hargs]. }
  assert (E2 : f2' = f2).
  { assert (EG : global_compl o pm po P1 f1 = global_compl o pm po P2 f1).
    { unfold global_compl. rewrite (pk_p _ _ _ _ _ K1), (pk_p _ _ _ _ _ K2). reflexivity. }
    congruence. }
  assert (E3 : f3' = f3) by congruence.
  subst f2' f3'.
  split; [|split].
  - rewrite Eg6. destruct (_ && _); [|inversion Hf6; subst f6'; rewrite Eg5; apply G3].
    assert (G5 : f_good Sc (mkFobj (w f5) (lbw f5) (ubw f5) (w0 f5) (g f5) (lbg f5) (ubg f5) (ECst 0) (ind_comp f5) (ind_bool f5))).
    { split; cbn; [rewrite Eg5; apply G3|apply inS_cst]. }
    destruct (add_constraint_ok _ _ _ _ _ Hf6) as [[Hn _]|[_ [_ [_ ->]]]]; [discriminate|]. cbn.
    apply inSl_app; [apply G5|]. apply inSl_cons; [|apply inSl_nil]. apply inS_bin; [|apply inS_cst].
    apply esum_in. intros e He. apply in_map_iff in He as [fe [<- Hfe]]. apply Hst, Hfe.
  - destruct WA as (_ & _ & _ & _ & _ & _ & _ & -> & _). rewrite Hc6.
    assert (HfTi : inS Sc fT1).
    { assert (Hl : inSl Sc [fT1]) by (eapply call_in; [exact (fm_fT _ _ FM)|exact HfT|exact Hargs]). apply Hl. left; reflexivity. }
    assert (H4 : inS Sc (EBin BAdd (cost f3) fT1)) by (apply inS_bin; [apply G3|exact HfTi]).
    cbv zeta. destruct (is_elastic (o_mpcc o)); [|exact H4]. specialize (HE eq_refl).
    destruct (o_obj_direct o); repeat (apply inS_cst || (apply inS_var; assumption) || apply inS_bin); try assumption; apply G3.
  - eapply emax_in; [exact HJ|]. apply inSl_concat. eapply mapM_in; [exact HC|].
    intros [fe prv] v Hin Hv. cbn [fst snd] in Hv. unfold with_prev, all_fes in Hin.
    assert (Hfp : fe_in Sc fe /\ fe_in Sc prv).
    { split; [apply Hst; eapply in_combine_l; exact Hin|]. apply in_combine_r in Hin. destruct Hin as [<-|Hin]; [|apply Hst, Hin].
      rewrite <- Ef1, Ef. exact H0. }
    eapply comp_vector_in; [exact Hv|apply Hfp|apply Hfp].
Qed.

Lemma body_functions : exists cf rf gf,
  mkfun [w (pb P); p_p P] [cost (pb P)] = Ok cf /\ mkfun [w (pb P); p_p P] [p_J_comp P] = Ok rf /\
  mkfun [w (pb P); p_p P] (g (pb P)) = Ok gf.
Proof.
  destruct body_closed as [Hg [Hc HJ]]. do 3 eexists.
  split; [|split]; apply mkfun_intro; intros e s He Hs; cbn [concat]; rewrite app_nil_r.
  - destruct He as [<-|[]]. exact (Hc s Hs).
  - destruct He as [<-|[]]. exact (HJ s Hs).
  - exact (Hg e He s Hs).
Qed.
End Final.

(* every constructed problem meets the hypotheses of body_functions *)
Lemma constructed_body lr cp d o m oc C : construct_problem lr cp d o m oc = Ok C ->
  exists o' t pm po P, preprocess_model o' m = Ok pm /\ preprocess_ocp pm (the_ocp oc) = Ok po /\ problem_body o' t pm po = Ok P.
Proof.
  unfold construct_problem. intros H. apply bind_ok in H. destruct H as ([[d' o'] t] & _ & H). cbv beta iota zeta in H.
  apply bind_ok in H. destruct H as (pm & Hpm & H). apply bind_ok in H. destruct H as (sm & _ & H).
  apply bind_ok in H. destruct H as (P & HP & _). unfold nosnoc_problem in HP. cbv zeta in HP.
  apply bind_ok in HP. destruct HP as (po & Hpo & HP). apply bind_ok in HP. destruct HP as (P0 & HP0 & _).
  exists o', t, pm, po, P0. split; [exact Hpm|]. split; [|exact HP0]. destruct oc; exact Hpo.
Qed.
