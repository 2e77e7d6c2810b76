(* Props_Tableau.v -- C21, C23, C24: Butcher tableaux and the integral representation.
   The tables are the decimal literals of rk_utils.py read as exact rationals. *)
From Coq Require Import Reals Qreals.
From Verif Require Import Base Sx Utils Tableau Opts Model Ocp Problem Spec Cases Tableau_proofs Poly_proofs.

(* ---- C23: every tableau the function returns ---- *)
Theorem C23_order_conditions n s bt : generate_butcher_tableu n s = Ok bt ->
  1 <= n <= 9 /\
  bt_order bt = match s with RadauIIA => 2 * n - 1 | GaussLegendre => 2 * n end /\
  length (bt_A bt) = n /\ length (bt_b bt) = n /\ length (bt_c bt) = n /\
  (forall i row, nth_error (bt_A bt) i = Some row -> length row = n) /\
  (forall i row c, nth_error (bt_A bt) i = Some row -> nth_error (bt_c bt) i = Some c -> close tolerance (qsum row) c) /\
  (forall k, 1 <= k <= bt_order bt -> close tolerance (moment (bt_b bt) (bt_c bt) (k - 1)) (1 / inject_Z (Z.of_nat k))%Q) /\
  (forall i row c k, nth_error (bt_A bt) i = Some row -> nth_error (bt_c bt) i = Some c -> 1 <= k <= n ->
     close tolerance (moment row (bt_c bt) (k - 1)) (Qpower c (Z.of_nat k) / inject_Z (Z.of_nat k))%Q) /\
  (s = RadauIIA -> nth_error (bt_A bt) (n - 1) = Some (bt_b bt) /\ nth_error (bt_c bt) (n - 1) = Some 1%Q).
Proof. exact (tables_ok n s bt). Qed.
Print Assumptions C23_order_conditions.
Example C23_case : match generate_butcher_tableu 4 GaussLegendre with
  | Ok bt => bt_order bt = 8 /\ length (bt_b bt) = 4 | Err _ => False end.
Proof. split; reflexivity. Qed.

(* ---- C24 ---- *)
Theorem C24_quadrature_of_polynomials n s bt a (pr : Riemann_integrable (peval a) 0 1) :
  generate_butcher_tableu n s = Ok bt -> length a <= bt_order bt ->
  (Rabs (quad (bt_b bt) (bt_c bt) (peval a) - RiemannInt pr) <= Q2R tolerance * abs_sum a)%R.
Proof. exact (quad_integral n s bt a pr). Qed.
Print Assumptions C24_quadrature_of_polynomials.
Example C24_case : (exists pr : Riemann_integrable (peval [1; 2; 3]%R) 0 1, True) /\ exists bt, generate_butcher_tableu 2 RadauIIA = Ok bt /\ 3 <= bt_order bt.
Proof.
  split; [unshelve eexists; [|exact I]; apply continuity_implies_RiemannInt; [apply Rle_0_1|intros x _; apply peval_continuity]|].
  eexists; split; [reflexivity|]. repeat constructor.
Qed.

(* ---- C21: the INTEGRAL coefficients built from distinct points in (0, 1] ---- *)
Theorem C21_coefficients_exist pts : distinct (0%Q :: pts) -> exists it, generate_butcher_tableu_integral pts = Ok it.
Proof. exact (integral_total pts). Qed.
Print Assumptions C21_coefficients_exist.
(* D gives the end point of every polynomial of degree <= n_s *)
Theorem C21_end_point pts it a : distinct (0%Q :: pts) -> generate_butcher_tableu_integral pts = Ok it ->
  length a <= S (length pts) ->
  dotR (it_D it) (map (fun t => peval a (Q2R t)) (it_tau it)) = peval a 1.
Proof. exact (fun Hd Hi Hl => integral_D pts Hd it Hi a Hl). Qed.
Print Assumptions C21_end_point.
(* column i of C gives its derivative at the i-th point *)
Theorem C21_derivatives pts it a i t : distinct (0%Q :: pts) -> generate_butcher_tableu_integral pts = Ok it ->
  length a <= S (length pts) -> nth_error (it_tau it) i = Some t ->
  derivable_pt_lim (peval a) (Q2R t) (dotR (column (it_C it) i) (map (fun t => peval a (Q2R t)) (it_tau it))).
Proof. exact (fun Hd Hi Hl Ht => integral_C pts Hd it Hi a i t Hl Ht). Qed.
Print Assumptions C21_derivatives.
(* B gives its integral *)
Theorem C21_quadrature pts it a (pr : Riemann_integrable (peval a) 0 1) : distinct (0%Q :: pts) ->
  generate_butcher_tableu_integral pts = Ok it -> length a <= S (length pts) ->
  dotR (it_B it) (map (fun t => peval a (Q2R t)) (it_tau it)) = RiemannInt pr.
Proof. exact (fun Hd Hi Hl => integral_B pts Hd it Hi a pr Hl). Qed.
Print Assumptions C21_quadrature.
(* conversely, point values with slope d at all collocation points lie on a line of slope d *)
Theorem C21_constant_slope pts it v d : distinct (0%Q :: pts) -> generate_butcher_tableu_integral pts = Ok it ->
  pts <> [] -> length v = S (length pts) ->
  (forall i, 1 <= i <= length pts -> dotR (column (it_C it) i) v = d) ->
  dotR (it_D it) v = (nth 0 v 0 + d)%R /\
  forall i t, nth_error (it_tau it) i = Some t -> nth i v 0%R = (nth 0 v 0 + Q2R t * d)%R.
Proof. exact (fun Hd Hi => integral_slope pts Hd it Hi v d). Qed.
Print Assumptions C21_constant_slope.
Example C21_case : match generate_butcher_tableu_integral [(1#3)%Q; 1%Q] with
  | Ok it => it_B it = [0; 3#4; 1#4]%Q /\ it_D it = [0; 0; 1]%Q /\ it_tau it = [0; 1#3; 1]%Q
  | Err _ => False end.
Proof. vm_compute. repeat split. Qed.
Example C21_case_distinct : distinct [0; 1#3; 1]%Q.
Proof.
  intros [|[|[|i]]] [|[|[|j]]] x y Hx Hy E; cbn in *; try reflexivity; try (destruct i; discriminate); try (destruct j; discriminate);
    injection Hx as <-; injection Hy as <-; discriminate.
Qed.
