(* Props_Rk4.v -- rk4 and rk4_on_timegrid: C68 *)
From Coq Require Import Reals Lra.
From Verif Require Import Base Rk4 Spec4 Spec6 Rk4_proofs.
Local Open Scope nat_scope.

(* whenever the integration succeeds: one state per step plus the initial one, consecutive states
   related by the classical method, [reached] by the first k steps *)
Theorem C68_grid f grid x xs : rk4_on_timegrid f x grid = Ok xs ->
  length xs = length grid + 1 /\ first_is xs x /\ (forall y, In y xs -> length y = length x) /\
  (forall k h a b, nth_error grid k = Some h -> nth_error xs k = Some a -> nth_error xs (S k) = Some b -> classical f h a b) /\
  (forall k y, nth_error xs k = Some y -> reached f x (firstn k grid) y).
Proof. exact (grid_classical f grid x xs). Qed.
Print Assumptions C68_grid.
Theorem C68_rk4 f x tf n xs ts : rk4 f x tf n = Ok (xs, ts) ->
  n <> 0 /\ length xs = n + 1 /\ length ts = n + 1 /\ first_is xs x /\ first_is ts 0%R /\ last_is ts tf /\
  (forall k t y, nth_error ts k = Some t -> nth_error xs k = Some y -> t = (INR k * (tf / INR n))%R /\ reached f x (repeat (tf / INR n)%R k) y) /\
  (forall k y z, nth_error xs k = Some y -> nth_error xs (S k) = Some z -> classical f (tf / INR n) y z).
Proof. exact (rk4_classical f x tf n xs ts). Qed.
Print Assumptions C68_rk4.
(* it succeeds for every field that is defined on vectors of the length of x0 *)
Theorem C68_total f x tf n d : n <> 0 -> length x = d -> (forall y, length y = d -> exists k, f y = Ok k /\ length k = d) -> exists xs ts, rk4 f x tf n = Ok (xs, ts).
Proof. exact (rk4_total f x tf n d). Qed.
Print Assumptions C68_total.
Theorem C68_constant f v grid x : length v = length x -> (forall y, length y = length x -> f y = Ok v) ->
  exists xs, rk4_on_timegrid f x grid = Ok xs /\ forall k y, nth_error xs k = Some y -> y = axpy x (partial_sum grid k) v.
Proof. exact (constant_grid f v grid x). Qed.
Print Assumptions C68_constant.
Theorem C68_linear f A n grid x : linear n A -> (forall y, length y = n -> f y = Ok (A y)) -> length x = n ->
  exists xs, rk4_on_timegrid f x grid = Ok xs /\
  forall k h a b i, nth_error grid k = Some h -> nth_error xs k = Some a -> nth_error xs (S k) = Some b -> i < n ->
  nth i b 0%R = (nth i a 0 + h * nth i (A a) 0 + h ^ 2 / 2 * nth i (A (A a)) 0 + h ^ 3 / 6 * nth i (A (A (A a))) 0 + h ^ 4 / 24 * nth i (A (A (A (A a)))) 0)%R.
Proof. exact (linear_grid f A n grid x). Qed.
Print Assumptions C68_linear.
(* n equal steps on x' = a x multiply x0 by the n-th power of the stability polynomial *)
Theorem C68_scaling f a n x tf N : (forall y, length y = n -> f y = Ok (vscaleR a y)) -> length x = n -> N <> 0 ->
  exists xs ts, rk4 f x tf N = Ok (xs, ts) /\ forall j y i, nth_error xs j = Some y -> i < n -> nth i y 0%R = (stability (a * (tf / INR N)) ^ j * nth i x 0)%R.
Proof. exact (rk4_scaling f a n x tf N). Qed.
Print Assumptions C68_scaling.

(* fields meeting the hypotheses: the constant one, the rotation (x, y) -> (-y, x) and a quadratic one *)
Example C68_case_constant y : length y = length [1%R; 2%R] -> (fun _ : list R => Ok [3%R; 4%R]) y = Ok [3%R; 4%R].
Proof. reflexivity. Qed.
Definition turn (v : list R) : list R := match v with [a; b] => [(- b)%R; a] | _ => v end.
Example C68_case_linear : linear 2 turn.
Proof.
  split.
  - intros [|a [|b [|]]] L; try discriminate; reflexivity.
  - intros [|a [|b [|]]] [|a' [|b' [|]]] c L L'; try discriminate. cbn. f_equal. ring.
Qed.
Example C68_case_step : exists xs, rk4_on_timegrid (fun v => Ok (turn v)) [1%R; 0%R] [1%R; 2%R] = Ok xs /\ nth_error xs 1 = Some [(13 / 24)%R; (5 / 6)%R].
Proof. cbn. eexists. split; [reflexivity|]. cbn. f_equal. f_equal; [lra|]. f_equal. lra. Qed.
Example C68_case_field y : length y = 1 -> exists k, Ok (map (fun a => a * a)%R y) = Ok k /\ length k = 1.
Proof. intros L. exists (map (fun a => a * a)%R y). split; [reflexivity|]. rewrite map_length. exact L. Qed.
(* a field of another length raises *)
Example C68_error : rk4 (fun _ => Ok [1%R; 1%R]) [1%R] 1 1 = Err ECasadi /\ rk4 (fun v => Ok v) [1%R] 1 0 = Err EZeroDivision.
Proof. split; reflexivity. Qed.
