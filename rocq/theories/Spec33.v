(* Spec33.v -- vocabulary: calls of set() that write at most once *)
From Coq Require Import Reals Qreals.
From Verif Require Import Base Sx Utils Tableau Opts Model Ocp Problem Results Solver Spec Spec2 Spec4 Spec5.

(* fields that are written by one assignment, and values whose number of rows is refused before anything is written *)
Definition writes_once (C : constructed) (fv : field_value) : Prop := match fv with
  | SetX0 _ | SetU _ | SetVGlobal _ | SetPGlobal _ | SetUnknown => True
  | SetX v => length v <> o_N_stages (the_opts C) /\ length v <> total (o_Nfe_list (the_opts C))
  | SetTheta v => length v <> total (o_Nfe_list (the_opts C))
  | SetPTimeVar _ | SetW _ => False
  end.
