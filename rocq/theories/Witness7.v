(* Witness7.v -- the models of Cases.v are consistent under every combination of enum options *)
From Coq Require Import Reals Qreals.
From Verif Require Import Base Sx Utils Tableau Opts Model Ocp Problem Spec Cases Fesd Spec2 Numeric Spec3 Spec8 Accept2_proofs Witness Witness2.

Definition enums (p : pss_mode) (mp : mpcc_mode) (cr : cross_mode) (se : step_eq_mode) (so : sot_mode) (fesd : bool)
    (r : irk_repr) (ns : nat) (s : scheme) : opts :=
  with_irk (with_modes default_opts p mp cr se so fesd true) r ns s.

Lemma consistent2 p mp cr se so fesd r ns s : consistent_model (enums p mp cr se so fesd r ns s) model2.
Proof.
  split.
  - exact sized2.
  - exact closed2.
  - apply (proj1 (accepted_iff (enums p mp cr se so fesd r ns s) model2 sized2 closed2 ltac:(reflexivity))). apply accepted_ok. destruct p; vm_compute; reflexivity.
  - reflexivity.
  - intros _. vm_compute. lia.
  - intros sizes E. discriminate E.
Qed.
Lemma consistent1 : consistent_model optsA model1 /\ consistent_ocp model1 ocp1.
Proof.
  split; [split|].
  - exact sized1.
  - exact closed1.
  - apply (proj1 (accepted_iff optsA model1 sized1 closed1 ltac:(discriminate))). apply accepted_ok. vm_compute. reflexivity.
  - reflexivity.
  - discriminate.
  - intros sizes E. discriminate E.
  - split; cbn; try (intros l E; first [discriminate E|injection E as <-; reflexivity]); intros; unfold uses_only;
    repeat match goal with H : _ \/ _ |- _ => destruct H | H : False |- _ => destruct H | H : (_, _) = (_, _) |- _ => injection H as <- <- end; subst; cbn;
    intros s Hs; repeat match goal with H : _ \/ _ |- _ => destruct H | H : False |- _ => destruct H end; subst; cbn; try (left; lia); try (right; left; lia); try (do 2 right; left; lia); do 2 right; try right; lia.
Qed.
(* a model given by f_x, c and alpha: x' = alpha x + (1 - alpha) u *)
Definition model_fx : model := {|
  m_nx := 1; m_x0 := [(-1)%Q]; m_F := None; m_c := Some [[cx 0]]; m_S := None; m_gS := None;
  m_nu := 1; m_nz := 0; m_z0 := None; m_lbz := None; m_ubz := None; m_alpha := Some [1];
  m_fx := Some [[EBin BAdd (EBin BMul (EVar (MF FAlpha 0 0)) (cx 0)) (EBin BMul (EBin BSub (cq 1) (EVar (MF FAlpha 0 0))) (EVar (MU 0)))]];
  m_gz := []; m_npt := 0; m_npg := 0; m_ptv_val := None; m_pg_val := []; m_nvg := 0; m_tvar := None |}.
Lemma consistent_fx mp cr se so fesd r ns s : consistent_model (enums Step mp cr se so fesd r ns s) model_fx.
Proof.
  assert (W : well_sized model_fx) by (apply sizedQ_ok; reflexivity). assert (L : closed_model model_fx) by (apply closedQ_ok; reflexivity).
  split; [exact W|exact L| |reflexivity|intros _; vm_compute; lia|].
  - apply (proj1 (accepted_iff (enums Step mp cr se so fesd r ns s) model_fx W L ltac:(reflexivity))). apply accepted_ok. vm_compute. reflexivity.
  - intros sizes E. injection E as <-. reflexivity.
Qed.
Definition smooth_opts (p : pss_mode) : opts := with_misc (enums p ScholtesIneq SumLambdas HeuristicMean SotNone true Integral 2 RadauIIA) Exact false false false true 2 0 Rk4Smoothened.
Lemma consistent3 o : o_N_stages o = 1 -> o_time_freezing o = false -> consistent_model o model3.
Proof.
  intros N T. assert (L : closed_model model3) by (apply closedQ_ok; reflexivity).
  split; [exact sized3|exact L| |reflexivity|intros _; vm_compute; lia|intros sizes E; discriminate E].
  split; cbn; try (intros l E; discriminate E); auto; try congruence.
  split.
  - intros f [<-|[]]. cbn. split; [|lia]. intros col [<-|[<-|[]]]; reflexivity.
  - exists [[cx 0]], [[[(-1)%Q]; [1%Q]]]. do 3 (split; [reflexivity|]). split; [cbn; lia|]. split.
    + intros s Hs. destruct s; [reflexivity|cbn in Hs; lia].
    + destruct (o_pss o).
      * intros s i Hs Hi. cbn in Hs. destruct s; [|lia]. destruct i as [|[|i]]; [reflexivity..|cbn in Hi; lia].
      * split; [|split].
        -- intros s Hs. cbn in Hs. destruct s; [reflexivity|lia].
        -- intros sizes E. discriminate E.
        -- intros s i k Hs Hk. cbn in Hs. destruct s; [|lia]. cbn. destruct k; [lia|]. exfalso. apply Hk. unfold sign. cbn.
           destruct i as [|[|i]]; cbn; destruct k; try reflexivity. all: destruct i; reflexivity.
Qed.
Lemma smoothable3 o : (0 < o_smoothing o)%Q -> smoothable o model3.
Proof.
  intros H. split; [exact H|reflexivity|discriminate| | |].
  - intros s i Hs Hi. cbn in Hs. destruct s; [|lia]. destruct i as [|[|i]]; [reflexivity..|cbn in Hi; lia].
  - intros F f col e E Hf Hc He. injection E as <-. destruct Hf as [<-|[]]. destruct Hc as [<-|[<-|[]]]; destruct He as [<-|[]]; intros s [].
  - intros c v e E Hv He. injection E as <-. destruct Hv as [<-|[]]. destruct He as [<-|[]]. intros s [<-|[]]. cbn. lia.
Qed.
Lemma points_ok : forall n s, In (n, s) [(1, RadauIIA); (2, RadauIIA); (1, GaussLegendre)] -> length (case_cpoints n s) = n /\ distinct (0%Q :: case_cpoints n s).
Proof.
  assert (D : forall l, (forall i j x y, nth_error l i = Some x -> nth_error l j = Some y -> Qeq_bool x y = true -> i = j) -> distinct l).
  { intros l H i j x y Hi Hj E. apply (H i j x y Hi Hj). apply Qeq_bool_iff, E. }
  intros n s [H|[H|[H|[]]]]; injection H as <- <-; (split; [reflexivity|]); apply D; intros i j x y;
  destruct i as [|[|[|i]]], j as [|[|[|j]]]; cbn; intros Hi Hj E; try reflexivity; try discriminate Hi; try discriminate Hj; try (destruct i; discriminate Hi); try (destruct j; discriminate Hj);
  injection Hi as <-; injection Hj as <-; discriminate E.
Qed.
(* model1 with the smoothed initialisation: F depends on controls and parameters *)
Definition optsA_smooth : opts := with_misc (enums Stewart ScholtesIneq SumLambdas HeuristicMean SotNone true Integral 2 RadauIIA) Exact false false false true 2 0 Rk4Smoothened.
Lemma consistent1_smooth : consistent_model optsA_smooth model1.
Proof.
  split; [exact sized1|exact closed1| |reflexivity|discriminate|intros sizes E; discriminate E].
  apply (proj1 (accepted_iff optsA_smooth model1 sized1 closed1 ltac:(discriminate))). apply accepted_ok. vm_compute. reflexivity.
Qed.
