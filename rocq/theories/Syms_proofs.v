(* Syms_proofs.v -- the symbols of problem.w *)
From Coq Require Import Reals Qreals Lra Permutation.
From Verif Require Import Base Lib Sx Sx_proofs Utils Tableau Opts Model Ocp Problem Spec Fesd Spec2 Spec4
  Fo_proofs Fe_proofs FeMake_proofs FeSel_proofs FeZero_proofs Prob_proofs Coll_proofs Body_proofs Model_proofs
  Con_proofs Index_proofs Index2_proofs Index3_proofs Results_proofs Results2_proofs.

(* the range of the labels *)
Definition in_range (o : opts) (ex : bool) (m : model) (y : sym) : Prop :=
  match y with
  | S1 f c e j i => In (c, e) (elements o) /\ j < points1 o ex f /\ i < dim1 o m f
  | S2 f c e j s i => In (c, e) (elements o) /\ j < points2 o ex (nfe_of o c) e f /\ s < n_subsystems m /\ i < dim2 o m f s
  | SH c e => o_use_fesd o = true /\ In (c, e) (elements o)
  | SU c i => c < o_N_stages o /\ i < m_nu m
  | SSot c => o_sot o = SotLocal /\ c < o_N_stages o
  | SVg i => i < m_nvg m
  | SElastic => elastic o = true
  | SBool _ _ _ _ | SBoolG _ _ => True
  | _ => False
  end.

Lemma in_map_seq {A} (f : nat -> A) n x : In x (map f (seq 0 n)) -> exists i, i < n /\ x = f i.
Proof. intros H. apply in_map_iff in H. destruct H as (i & <- & Hi). apply in_seq in Hi. exists i. split; [lia|reflexivity]. Qed.

Lemma sym_in_w lr cp d o m oc C y : construct_problem lr cp d o m oc = Ok C -> In y (w (the_nlp C)) -> in_range (the_opts C) (explicit_end C) m y.
Proof.
  intros H Hy. destruct (con_use _ _ _ _ _ _ _ H) as (o' & t & pm & po & P & st & lf & f1 & K & B & Eo & Ee & Ew & _).
  pose proof (co_mo _ _ _ _ _ _ _ _ _ _ _ _ K) as MO. destruct (pm_dims _ _ _ MO) as (D1 & D2 & D3 & D4 & _).
  rewrite Ew in Hy. rewrite Eo, Ee.
  destruct (main_syms _ _ _ _ _ _ _ _ B) as (s & Hw & n & Hs). rewrite Hw in Hy. rewrite !in_app_iff in Hy.
  destruct Hy as [[Hy|[Hy|Hy]]|[Hy|Hy]].
  - unfold ellab in Hy. destruct (is_elastic (o_mpcc o')) eqn:E; [|destruct Hy]. destruct Hy as [<-|[]]. cbn. rewrite <- elastic_is. exact E.
  - unfold mvg in Hy. apply in_map_seq in Hy. destruct Hy as (i & Hi & ->). cbn. congruence.
  - apply in_concat in Hy. destruct Hy as (l & Hl & Hy). apply in_map_seq in Hl. destruct Hl as (c & Hc & ->).
    apply in_app_iff in Hy. destruct Hy as [Hy|Hy].
    + unfold ulab in Hy. apply in_map_seq in Hy. destruct Hy as (i & Hi & ->). cbn. split; [exact Hc|congruence].
    + unfold sotlab in Hy. destruct (o_sot o') eqn:E; try (destruct Hy; fail). destruct Hy as [<-|[]]. cbn. auto.
  - subst s. apply in_map_seq in Hy. destruct Hy as (i & _ & ->). exact I.
  - apply in_concat in Hy. destruct Hy as (l & Hl & Hy). apply in_map_iff in Hl. destruct Hl as (fe & <- & Hfe).
    destruct (elems_ok _ _ _ _ _ _ _ _ B fe Hfe) as (c & e & nfe & Hf & _ & Hok).
    assert (HE : In (c, e) (elements o')). { apply elements_in. destruct Hf as (Hc & Hn & He). split; [exact Hc|]. cbn. unfold nfe_of. rewrite (nth_error_nth _ _ _ Hn). exact He. }
    assert (HN : nfe = nfe_of o' c). { destruct Hf as (Hc & Hn & He). unfold nfe_of. rewrite (nth_error_nth _ _ _ Hn). reflexivity. }
    apply (Permutation_in (l' := elem_syms o' t pm c e nfe (bool_labs c e fe))) in Hy; [|symmetry; eapply elem_syms_perm; exact Hok].
    unfold elem_syms, bool_labs in Hy. rewrite !in_app_iff in Hy. destruct Hy as [Hy|[Hy|[Hy|Hy]]].
    + destruct (o_use_fesd o') eqn:E; [|destruct Hy]. destruct Hy as [<-|[]]. cbn. auto.
    + apply in_concat in Hy. destruct Hy as (l & Hl & Hy). apply in_map_iff in Hl. destruct Hl as (f & <- & _).
      apply in_concat in Hy. destruct Hy as (l & Hl & Hy). apply in_map_seq in Hl. destruct Hl as (j & Hj & ->).
      unfold lab1 in Hy. apply in_map_seq in Hy. destruct Hy as (i & Hi & ->). cbn. rewrite n1_points1 in Hj. rewrite (sz1_dim1 _ _ _ _ MO) in Hi. auto.
    + apply in_concat in Hy. destruct Hy as (l & Hl & Hy). apply in_map_iff in Hl. destruct Hl as (f & <- & _).
      apply in_concat in Hy. destruct Hy as (l & Hl & Hy). apply in_map_seq in Hl. destruct Hl as (j & Hj & ->).
      unfold lab2 in Hy. apply in_concat in Hy. destruct Hy as (l & Hl & Hy). apply in_map_seq in Hl. destruct Hl as (s' & Hs' & ->).
      unfold lab2s in Hy. apply in_map_seq in Hy. destruct Hy as (i & Hi & ->). cbn. rewrite n2_points2, HN in Hj. rewrite (fsz_dim2 _ _ _ _ _ MO Hs') in Hi.
      rewrite (mo_nsys _ _ _ MO) in Hs'. auto.
    + apply in_concat in Hy. destruct Hy as (l & Hl & Hy). apply in_map_seq in Hl. destruct Hl as (k & _ & ->).
      apply in_map_seq in Hy. destruct Hy as (i & _ & ->). exact I.
Qed.
