(* Spec41.v -- vocabulary: NLP solvers without memory *)
From Verif Require Import Base Sx Solver.

(* the answer does not depend on the number of earlier calls *)
Definition memoryless (nlp : nat -> nlp_call -> res nlp_ret) : Prop := forall n n' c, nlp n c = nlp n' c.
