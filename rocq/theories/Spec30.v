(* Spec30.v -- vocabulary: limits of the points of the homotopy (sigma -> 0) and global solutions of the NLP *)
From Coq Require Import Reals Qreals.
From Verif Require Import Base Sx Utils Tableau Opts Model Ocp Problem Spec Fesd Spec2 Spec3.
Local Open Scope R_scope.

(* expressions that are continuous at a point: no jump of the sign, no division by zero, no logarithm of a number <= 0, no pole of tan *)
Fixpoint regular (v : env) (e : expr) : Prop :=
  match e with
  | ECst _ | EVar _ => True
  | EUn u a => regular v a /\
      match u with USign | UInv => eval v a <> 0 | ULog => 0 < eval v a | UTan => cos (eval v a) <> 0 | _ => True end
  | EBin b x y => regular v x /\ regular v y /\ match b with BDiv => eval v y <> 0 | _ => True end
  end.

(* the points r 0, r 1, ... converge to rho in the symbols of l *)
Definition converge_in (l : list sym) (r : nat -> env) (rho : env) : Prop := forall y, In y l -> Un_cv (fun k => r k y) (rho y).

(* the same point with other values of the relaxation parameters sigma and tau *)
Definition with_relaxation (rho : env) (sigma tau : R) : env := fun y => match y with SSigma => sigma | STau => tau | _ => rho y end.

(* global solutions of the NLP for the values of the parameters in rho *)
Definition solution_of (C : constructed) (rho : env) : Prop :=
  feasible rho (the_nlp C) /\
  forall rho', feasible rho' (the_nlp C) -> (forall y, In y (p_p (the_problem C)) -> rho' y = rho y) -> eval rho (cost (the_nlp C)) <= eval rho' (cost (the_nlp C)).

(* the points of a homotopy: all parameters but sigma and tau are those of rho *)
Definition same_data (C : constructed) (v rho : env) : Prop := forall y, In y (p_p (the_problem C)) -> y <> SSigma -> y <> STau -> v y = rho y.

(* the expressions of the user; sigma and tau are made by the NLP, so none of them mentions these *)
Definition user_expression (m : model) (oc : ocp) (e : expr) : Prop :=
  (exists s col, In col (user_F m s) /\ In e col) \/ (exists s, In e (user_c m s) \/ In e (user_gS m s)) \/ In e (user_fx m) \/ In e (m_gz m) \/
  m_tvar m = Some e \/ In e (oc_g_path oc) \/ In e (oc_gT oc) \/ e = oc_fq oc \/ e = oc_fT oc \/ (exists r, In r (oc_comp oc) /\ (e = fst r \/ e = snd r)).
Definition free_of_relaxation (m : model) (oc : ocp) : Prop :=
  forall e, user_expression m oc e -> uses_only (fun y => y <> SSigma /\ y <> STau) e.

(* user's costs continuous at all points where they enter the objective *)
Definition regular_costs (o : opts) (t : tab) (m : model) (oc : ocp) (rho : env) : Prop :=
  (forall c e j, (c < o_N_stages o)%nat -> (e < nfe_of o c)%nat -> (j < o_ns o)%nat -> regular (stage_point o t m rho c e j) (oc_fq oc)) /\
  regular (terminal_point o t m rho) (oc_fT oc).

(* phi picks a subsequence *)
Definition picks (phi : nat -> nat) : Prop := forall i j, (i < j)%nat -> (phi i < phi j)%nat.
