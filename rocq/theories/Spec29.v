(* Spec29.v -- vocabulary of the statements on step equilibration by complementarity *)
From Coq Require Import Reals Qreals.
From Verif Require Import Base Sx Utils Tableau Opts Model Ocp Problem Spec Fesd Spec2 Spec3.
Local Open Scope R_scope.

(* no switch between elements e - 1 and e of control stage c: every component keeps its multiplier or its weight positive *)
Definition no_switch (o : opts) (t : tab) (m : model) (rho : env) (c e : nat) : Prop := forall k, (k < n_pairs o m)%nat ->
  (0 < sum_lam o t m rho c (e - 1) k /\ 0 < sum_lam o t m rho c e k) \/ (0 < sum_theta o m rho c (e - 1) k /\ 0 < sum_theta o m rho c e k).
(* modes that bound a product from both sides, modes that bound it from above only, Fischer-Burmeister *)
Definition two_sided (mm : mpcc_mode) : Prop := mm = ScholtesEq \/ mm = ElasticEq \/ mm = ElasticTwoSided.
Definition upper_only (mm : mpcc_mode) : Prop := mm = ScholtesIneq \/ mm = ElasticIneq.
Definition fischer_mode (mm : mpcc_mode) : Prop := mm = FischerBurmeister \/ mm = FischerBurmeisterIpAug.
(* the value of the relaxation *)
Definition relaxation (mm : mpcc_mode) (rho : env) : R := match mm with
  | ElasticEq | ElasticIneq | ElasticTwoSided => rho SElastic
  | _ => rho SSigma
  end.
(* a control stage with more than one element *)
Definition refined (o : opts) : Prop := exists c, (c < o_N_stages o)%nat /\ (1 < nfe_of o c)%nat.
