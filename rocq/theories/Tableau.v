(* Tableau.v -- nosnoc/rk_utils.py *)
From Verif Require Import Base TableauData.
#[local] Open Scope Q_scope.

(* nosnoc_types.py:36-39 IrkSchemes *)
Inductive scheme := RadauIIA | GaussLegendre.

Record butcher := mkButcher { bt_A : list (list Q); bt_b : list Q; bt_c : list Q; bt_order : nat }.

(* rk_utils.py:49-1052 generate_butcher_tableu. Radau raises NotImplementedError for an
   unsupported n_s (its innermost else); the Gauss-Legendre chain has no else, so the
   return statement reads unbound locals. Negative n_s is not representable. *)
Definition generate_butcher_tableu (n_s : nat) (s : scheme) : res butcher :=
  match s with
  | RadauIIA =>
      let order := (2 * n_s - 1)%nat in
      match n_s with
      | 1 => Ok (mkButcher radau_A_1 radau_b_1 radau_c_1 order)
      | 2 => Ok (mkButcher radau_A_2 radau_b_2 radau_c_2 order)
      | 3 => Ok (mkButcher radau_A_3 radau_b_3 radau_c_3 order)
      | 4 => Ok (mkButcher radau_A_4 radau_b_4 radau_c_4 order)
      | 5 => Ok (mkButcher radau_A_5 radau_b_5 radau_c_5 order)
      | 6 => Ok (mkButcher radau_A_6 radau_b_6 radau_c_6 order)
      | 7 => Ok (mkButcher radau_A_7 radau_b_7 radau_c_7 order)
      | 8 => Ok (mkButcher radau_A_8 radau_b_8 radau_c_8 order)
      | 9 => Ok (mkButcher radau_A_9 radau_b_9 radau_c_9 order)
      | _ => Err ENotImplemented
      end%nat
  | GaussLegendre =>
      let order := (2 * n_s)%nat in
      match n_s with
      | 1 => Ok (mkButcher gauss_A_1 gauss_b_1 gauss_c_1 order)
      | 2 => Ok (mkButcher gauss_A_2 gauss_b_2 gauss_c_2 order)
      | 3 => Ok (mkButcher gauss_A_3 gauss_b_3 gauss_c_3 order)
      | 4 => Ok (mkButcher gauss_A_4 gauss_b_4 gauss_c_4 order)
      | 5 => Ok (mkButcher gauss_A_5 gauss_b_5 gauss_c_5 order)
      | 6 => Ok (mkButcher gauss_A_6 gauss_b_6 gauss_c_6 order)
      | 7 => Ok (mkButcher gauss_A_7 gauss_b_7 gauss_c_7 order)
      | 8 => Ok (mkButcher gauss_A_8 gauss_b_8 gauss_c_8 order)
      | 9 => Ok (mkButcher gauss_A_9 gauss_b_9 gauss_c_9 order)
      | _ => Err EUnboundLocal
      end%nat
  end.

(* numpy polynomials, highest coefficient first, exact rationals *)
Fixpoint zipadd (a b : list Q) : list Q :=
  match a, b with
  | [], _ => b
  | _, [] => a
  | x :: a', y :: b' => Qred (x + y) :: zipadd a' b'
  end.
(* np.convolve *)
Fixpoint convolve (a b : list Q) : list Q :=
  match a with
  | [] => []
  | x :: a' => zipadd (map (fun y => Qred (x * y)) b) (0 :: convolve a' b)
  end.
(* np.polyval *)
Definition polyval (p : list Q) (x : Q) : Q :=
  fold_left (fun acc c => Qred (acc * x + c)) p 0.
(* np.polyder: coefficient of t^k times k; the constant term is dropped *)
Fixpoint polyder (p : list Q) : list Q :=
  match p with
  | [] => []
  | [_] => []
  | c :: p' => Qred (c * inject_Z (Z.of_nat (length p'))) :: polyder p'
  end.
(* np.polyint: coefficient of t^k divided by k+1, zero constant of integration *)
Fixpoint polyint_aux (p : list Q) : list Q :=
  match p with
  | [] => []
  | c :: p' => Qred (c / inject_Z (Z.of_nat (length p))) :: polyint_aux p'
  end.
Definition polyint (p : list Q) : list Q := polyint_aux p ++ [0].

(* rk_utils.py:1071-1075: Lagrange basis polynomial number j on the points tau_root *)
Definition lagrange_coeff (tau : list Q) (j : nat) : res (list Q) :=
  do* tj <- nthE EIndexError tau j;
  Ok (fold_left (fun coeff (rt : nat * Q) =>
        let (r, tr) := rt in
        if (r =? j)%nat then coeff
        else map (fun c => Qred (c / (tj - tr))) (convolve coeff [1; Qred (- tr)]))
      (combine (seq 0 (length tau)) tau) [1]).

Record integral_tab := mkIntegral
  { it_B : list Q; it_C : list (list Q); it_D : list Q; it_tau : list Q }.

(* rk_utils.py:1055-1086 generate_butcher_tableu_integral. [points] is the result of
   ca.collocation_points(n_s, scheme) (CasADi, an oracle). Division by a zero difference
   (coinciding points) yields inf/nan in numpy and 0 here; theorems assume distinct points. *)
Definition generate_butcher_tableu_integral (points : list Q) : res integral_tab :=
  let tau := 0 :: points in
  do* cs <- mapM (lagrange_coeff tau) (seq 0 (length tau));
  Ok (mkIntegral
        (map (fun coeff => polyval (polyint coeff) 1) cs)
        (map (fun coeff => map (polyval (polyder coeff)) tau) cs)
        (map (fun coeff => polyval coeff 1) cs)
        tau).
