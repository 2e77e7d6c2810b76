(* Opts2_proofs.v -- the setters of the shared IPOPT options do not disturb each other *)
From Verif Require Import Base Lib Sx Opts.

Lemma ow_setters w i v n w1 w2 j : ow_set_tol w i v = Ok w1 -> ow_set_max_iter w i n = Ok w2 ->
  ow_max_iter w1 j = ow_max_iter w j /\ ow_objs w1 = ow_objs w /\ ow_tol w2 j = ow_tol w j /\ ow_objs w2 = ow_objs w.
Proof.
  unfold ow_set_tol, ow_set_max_iter. intros H1 H2. apply bind_ok in H1. destruct H1 as (o & _ & H1). injection H1 as <-.
  apply bind_ok in H2. destruct H2 as (o2 & _ & H2). injection H2 as <-. repeat split.
Qed.
