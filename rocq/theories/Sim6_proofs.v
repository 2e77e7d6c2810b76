(* Sim6_proofs.v -- cases of Props_Sim.v in the form in which they are stated there *)
From Coq Require Import Reals Qreals Lra.
From Verif Require Import Base Lib Sx Sx_proofs Utils Tableau Opts Model Ocp Problem Numeric Rk4 Results Solver Looper Spec Cases Fesd Spec2 Spec3 Spec4 Spec5 Spec6
  Witness Spec9 Filippov4_proofs Spec10 Exact2_proofs Exact3_proofs Spec19 Sim4_proofs Sim5_proofs.
Local Open Scope R_scope.
Lemma minus1 : [Q2R (-1)] = [-1]. Proof. f_equal. unfold Q2R. cbn. lra. Qed.
Lemma two_steps_case : exists nlp L s' L' tr, looper_init (cn_prob CS1) [Q2R (-1)] 2 None 0 None = Ok L /\
  run nlp CS1 false L (initial_state CS1) = (s', L', Ok true) /\ simulation nlp CS1 (switch_model 3 1 (-1)) 0 L (initial_state CS1) tr L' /\ length tr = 2%nat /\
  (forall k q, nth_error tr k = Some q -> solved_exactly CS1 (snd q) (rhos2 k)).
Proof.
  rewrite minus1. destruct two_steps_run as (L & s' & L' & tr & A & _ & B & D & E & F). exists (two_nlp CS1 rhoS (pt forthS)), L, s', L', tr.
  exact (conj A (conj B (conj D (conj E F)))).
Qed.
Lemma two_steps_setting : is_problem (with_cross optsS SumLambdas) (switch_model 3 1 (-1)) None CS1 /\ extractable (the_opts CS1) (switch_model 3 1 (-1)) /\
  simple_switching case_cpoints (the_opts CS1) (switch_model 3 1 (-1)) /\ o_use_fesd (the_opts CS1) = true /\ o_cross (the_opts CS1) = SumLambdas /\
  ext_upto (o_gamma_h (the_opts CS1)) 1 /\ (0 <= o_terminal_time (the_opts CS1))%Q /\ o_pss (the_opts CS1) = Stewart /\ o_repr (the_opts CS1) = Integral /\
  o_equidistant (the_opts CS1) = true /\ o_sot (the_opts CS1) <> SotLocal.
Proof.
  split; [exact problemS1|]. split; [exact extractS1|]. split.
  { destruct settingS as (A & B & D & E & F & _). exact (conj A (conj B (conj D (conj E F)))). }
  split; [vm_compute; reflexivity|]. split; [vm_compute; reflexivity|]. split; [vm_compute; discriminate|]. split; [vm_compute; discriminate|].
  split; [exact stewartS1|]. split; [vm_compute; reflexivity|]. split; [vm_compute; reflexivity|]. intros E. vm_compute in E. discriminate E.
Qed.
Lemma two_steps_exact tr : (forall k, (k < length tr)%nat -> one_sided (the_opts CS1) (switch_model 3 1 (-1)) (rhos2 k) (smallest (switch_model 3 1 (-1))) 0) /\
  run_solution (the_opts CS1) (switch_model 3 1 (-1)) (smallest (switch_model 3 1 (-1))) rhos2 tr [Q2R (-1)] (fun z _ => switch_solution 3 1 (-1) z).
Proof.
  assert (A : 0 < Q2R 3) by (unfold Q2R; cbn; lra). assert (B : Q2R 1 <= Q2R 3) by (unfold Q2R; cbn; lra). assert (D : Q2R (-1) <= 0) by (unfold Q2R; cbn; lra).
  assert (NS : o_sot (the_opts CS1) <> SotLocal) by (intros E; vm_compute in E; discriminate E). split.
  - intros k _. exact (sc_one_sided 3 1 (-1) B (the_opts CS1) (rhos2 k) _ (sides_smallest 3 1 (-1)) NS).
  - exact (sc_run_solution 3 1 (-1) CS1 rhos2 _ tr A B D (sides_smallest 3 1 (-1)) NS).
Qed.
