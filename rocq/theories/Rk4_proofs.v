(* Rk4_proofs.v -- rk4 and rk4_on_timegrid *)
From Coq Require Import Reals Lra.
From Verif Require Import Base Lib Sx Utils Opts Model Ocp Problem Numeric Rk4 Results Solver Spec Fesd Spec2 Spec3 Spec4 Spec5 Spec6 Vec_proofs Results_proofs Results4_proofs Results3_proofs.
Local Open Scope nat_scope.

Lemma axpy_len x c y : length x = length y -> length (axpy x c y) = length x.
Proof. intros L. unfold axpy. rewrite map_length, combine_length. lia. Qed.
Ltac al := first [congruence | rewrite axpy_len by al; al].
Ltac al_lt := first [lia | rewrite axpy_len by al; al_lt].
Lemma axpy_nth x c y i : length x = length y -> i < length x -> nth i (axpy x c y) 0%R = (nth i x 0 + c * nth i y 0)%R.
Proof.
  intros L Hi. destruct (nth_error_lt x i Hi) as [a Ea]. destruct (nth_error_lt y i) as [b Eb]; [lia|].
  rewrite (nth_error_nth x i 0%R Ea), (nth_error_nth y i 0%R Eb). apply nth_error_nth. unfold axpy. rewrite nth_error_map, (nth_combine _ _ _ _ _ Ea Eb). reflexivity.
Qed.
Ltac an := repeat (rewrite axpy_nth by first [al | al_lt]).
Ltac al_in H := repeat (rewrite axpy_len in H by al); exact H.
Lemma vadd_scale x c y : length x = length y -> vaddR x (vscaleR c y) = Ok (axpy x c y).
Proof.
  intros L. unfold vaddR, vscaleR. rewrite map_length, L, Nat.eqb_refl. cbn [guard bind]. f_equal. unfold axpy.
  revert y L. induction x as [|a x IH]; intros [|b y] L; try discriminate; [reflexivity|]. cbn. f_equal. apply IH. cbn in L. lia.
Qed.
Lemma vadd_one x y : length x = length y -> vaddR x y = Ok (axpy x 1 y).
Proof.
  intros L. unfold vaddR. rewrite L, Nat.eqb_refl. cbn [guard bind]. f_equal. unfold axpy. apply map_ext. intros p. ring.
Qed.
Lemma vadd_ok x y z : vaddR x y = Ok z -> length x = length y /\ length z = length x.
Proof.
  unfold vaddR. intros E. apply bind_ok in E. destruct E as (u & G & E). injection E as <-. destruct (length x =? length y) eqn:Q; [|discriminate].
  apply Nat.eqb_eq in Q. split; [exact Q|]. rewrite map_length, combine_length. lia.
Qed.
Lemma vec_eq (x y : list R) : length x = length y -> (forall i, i < length x -> nth i x 0%R = nth i y 0%R) -> x = y.
Proof. intros L E. apply (nth_ext x y 0%R 0%R L E). Qed.

(* one step with stage derivatives k1..k4 *)
Definition combination (x : list R) (h : R) (k1 k2 k3 k4 : list R) : list R :=
  axpy (axpy (axpy (axpy x (h / 6) k1) (h / 3) k2) (h / 3) k3) (h / 6) k4.
Lemma step_value f h x k1 k2 k3 k4 : length k1 = length x -> length k2 = length x -> length k3 = length x -> length k4 = length x ->
  f x = Ok k1 -> f (axpy x (h * / 2) k1) = Ok k2 -> f (axpy x (h * / 2) k2) = Ok k3 -> f (axpy x h k3) = Ok k4 ->
  rk4_step f h x = Ok (combination x h k1 k2 k3 k4).
Proof.
  intros L1 L2 L3 L4 E1 E2 E3 E4. unfold rk4_step. rewrite E1. cbn [bind]. rewrite vadd_scale by congruence. cbn [bind]. rewrite E2. cbn [bind].
  rewrite vadd_scale by congruence. cbn [bind]. rewrite E3. cbn [bind]. rewrite vadd_scale by congruence. cbn [bind]. rewrite E4. cbn [bind].
  rewrite vadd_scale by congruence. cbn [bind]. rewrite vadd_scale by al. cbn [bind].
  rewrite vadd_one by al. cbn [bind]. rewrite vadd_scale by al. f_equal.
  unfold combination. assert (forall c y, length y = length x -> length (axpy k1 c y) = length x) as LA by (intros; rewrite axpy_len; congruence).
  apply vec_eq; [al|]. intros i Hi. rewrite axpy_len in Hi by al.
  an. field.
Qed.
Lemma step_len f h x y : rk4_step f h x = Ok y -> length y = length x.
Proof. unfold rk4_step. intros E. do 10 (apply bind_ok in E; destruct E as (? & _ & E)). apply vadd_ok in E. apply E. Qed.
Lemma classical_step f h x y : rk4_step f h x = Ok y <-> classical f h x y.
Proof.
  split.
  - unfold rk4_step. intros E. apply bind_ok in E. destruct E as (k1 & E1 & E). apply bind_ok in E. destruct E as (x1 & V1 & E).
    apply bind_ok in E. destruct E as (k2 & E2 & E). apply bind_ok in E. destruct E as (x2 & V2 & E).
    apply bind_ok in E. destruct E as (k3 & E3 & E). apply bind_ok in E. destruct E as (x3 & V3 & E).
    apply bind_ok in E. destruct E as (k4 & E4 & E). apply bind_ok in E. destruct E as (s1 & V4 & E).
    apply bind_ok in E. destruct E as (s2 & V5 & E). apply bind_ok in E. destruct E as (s3 & V6 & E).
    assert (LS : forall c (v : list R), length (vscaleR c v) = length v) by (intros; apply map_length).
    destruct (vadd_ok _ _ _ V1) as [L1 _]. destruct (vadd_ok _ _ _ V2) as [L2 _]. destruct (vadd_ok _ _ _ V3) as [L3 _]. rewrite LS in L1, L2, L3.
    destruct (vadd_ok _ _ _ V4) as [_ M4]. destruct (vadd_ok _ _ _ V5) as [_ M5]. destruct (vadd_ok _ _ _ V6) as [L6 _].
    assert (L4 : length k4 = length x) by congruence.
    rewrite vadd_scale in V1, V2, V3 by congruence. injection V1 as <-. injection V2 as <-. injection V3 as <-. fold (Rdiv h 2) in *.
    assert (S : rk4_step f h x = Ok (combination x h k1 k2 k3 k4)) by (apply step_value; first [congruence | assumption]).
    assert (y = combination x h k1 k2 k3 k4).
    { unfold rk4_step in S. rewrite E1 in S. cbn [bind] in S. rewrite vadd_scale in S by congruence. cbn [bind] in S. fold (Rdiv h 2) in S. rewrite E2 in S. cbn [bind] in S.
      rewrite vadd_scale in S by congruence. cbn [bind] in S. fold (Rdiv h 2) in S. rewrite E3 in S. cbn [bind] in S. rewrite vadd_scale in S by congruence. cbn [bind] in S. rewrite E4 in S. cbn [bind] in S.
      rewrite V4 in S. cbn [bind] in S. rewrite V5 in S. cbn [bind] in S. rewrite V6 in S. cbn [bind] in S. congruence. }
    subst y. exists k1, k2, k3, k4. repeat (split; [first [assumption|congruence|unfold combination; al]|]). intros i Hi. unfold combination. an. field.
  - intros (k1 & k2 & k3 & k4 & E1 & E2 & E3 & E4 & L1 & L2 & L3 & L4 & Ly & N). rewrite (step_value f h x k1 k2 k3 k4) by assumption. f_equal.
    apply vec_eq; [unfold combination; al|]. intros i Hi. assert (Hi' : i < length x) by (revert Hi; unfold combination; intros Hi; al_in Hi).
    rewrite N by exact Hi'. unfold combination. an. field.
Qed.

(* ---- lengths and chaining ---- *)
Lemma grid_states f grid : forall x xs, rk4_on_timegrid f x grid = Ok xs ->
  length xs = length grid + 1 /\ first_is xs x /\
  (forall k h a, nth_error grid k = Some h -> nth_error xs k = Some a -> exists b, nth_error xs (S k) = Some b /\ rk4_step f h a = Ok b) /\
  (forall y, In y xs -> length y = length x).
Proof.
  induction grid as [|h grid IH]; intros x xs E; cbn [rk4_on_timegrid] in E.
  - injection E as <-. split; [reflexivity|]. split; [reflexivity|]. split; [intros [|k] h a Hk; discriminate|]. intros y [<-|[]]. reflexivity.
  - apply bind_ok in E. destruct E as (x1 & E1 & E). apply bind_ok in E. destruct E as (ys & E2 & E). injection E as <-.
    destruct (IH _ _ E2) as (L & F & S & N). cbn [length]. split; [lia|]. split; [reflexivity|]. split.
    + intros [|k] h' a Hk Ha; cbn [nth_error] in *.
      * injection Hk as <-. injection Ha as <-. exists x1. split; [exact F|exact E1].
      * exact (S k h' a Hk Ha).
    + intros y [<-|Hy]; [reflexivity|]. rewrite (N y Hy). apply (step_len _ _ _ _ E1).
Qed.
Lemma grid_reached f grid x xs : rk4_on_timegrid f x grid = Ok xs -> forall k y, nth_error xs k = Some y -> reached f x (firstn k grid) y.
Proof.
  intros E. destruct (grid_states _ _ _ _ E) as (L & F & S & _). induction k as [|k IH]; intros y Hy.
  - assert (y = x) by (unfold first_is in F; congruence). subst. apply reached_start.
  - pose proof (nth_error_Some_lt _ _ _ Hy) as Lt. destruct (nth_error_lt xs k) as [a Ha]; [lia|]. destruct (nth_error_lt grid k) as [h Hh]; [lia|].
    destruct (S k h a Hh Ha) as (b & Hb & Es). assert (b = y) by congruence. subst b.
    rewrite (firstn_S_snoc grid k h Hh).
    apply (reached_step _ _ _ a); [apply IH, Ha|exact (proj1 (classical_step _ _ _ _) Es)].
Qed.
Lemma reached_trans f x t y t' z : reached f x t y -> reached f y t' z -> reached f x (t ++ t') z.
Proof.
  intros A B. induction B as [|t' z h u B IH E]; [rewrite app_nil_r; exact A|]. rewrite app_assoc. eapply reached_step; eassumption.
Qed.
Lemma grid_total f n (A : forall x, length x = n -> exists k, f x = Ok k /\ length k = n) grid : forall x, length x = n -> exists xs, rk4_on_timegrid f x grid = Ok xs.
Proof.
  induction grid as [|h grid IH]; intros x L; cbn [rk4_on_timegrid]; [eauto|].
  destruct (A x L) as (k1 & E1 & L1). destruct (A (axpy x (h * / 2) k1)) as (k2 & E2 & L2); [al|].
  destruct (A (axpy x (h * / 2) k2)) as (k3 & E3 & L3); [al|]. destruct (A (axpy x h k3)) as (k4 & E4 & L4); [al|].
  rewrite (step_value f h x k1 k2 k3 k4) by congruence. cbn [bind]. unfold combination.
  match goal with |- context [rk4_on_timegrid f ?y grid] => destruct (IH y) as [xs ->]; [al|] end. cbn [bind]. eauto.
Qed.

(* ---- constant fields ---- *)
Lemma constant_step f v h x : length v = length x -> (forall y, length y = length x -> f y = Ok v) -> rk4_step f h x = Ok (axpy x h v).
Proof.
  intros L F. rewrite (step_value f h x v v v v) by (try congruence; apply F; try reflexivity; rewrite axpy_len; congruence). f_equal. unfold combination.
  apply vec_eq; [al|]. intros i Hi. 
  assert (Hi' : i < length x) by (revert Hi; intros Hi; al_in Hi).
  an. field.
Qed.
Lemma axpy_add x a b v : length x = length v -> axpy (axpy x a v) b v = axpy x (a + b) v.
Proof.
  intros L. apply vec_eq; [al|]. intros i Hi. 
  assert (Hi' : i < length x) by (revert Hi; intros Hi; al_in Hi).
  an. ring.
Qed.
Lemma axpy_0 x v : length x = length v -> axpy x 0 v = x.
Proof.
  intros L. apply vec_eq; [al|]. intros i Hi. rewrite axpy_len in Hi by congruence. rewrite axpy_nth by congruence. ring.
Qed.
Lemma constant_reached f v x t y : length v = length x -> (forall y, length y = length x -> f y = Ok v) -> reached f x t y -> y = axpy x (rsum t) v.
Proof.
  intros L F R. induction R as [|t y h z R IH E]; [cbn; rewrite axpy_0; congruence|]. subst y. apply classical_step in E.
  rewrite (constant_step f v h) in E; [|rewrite axpy_len; congruence|intros y Hy; apply F; rewrite Hy, axpy_len; congruence]. injection E as <-. rewrite rsum_app. replace (rsum [h]) with h by (cbn; lra). apply axpy_add. congruence.
Qed.

(* ---- linear fields ---- *)
Lemma linear_step f A n h x : linear n A -> (forall y, length y = n -> f y = Ok (A y)) -> length x = n ->
  exists y, rk4_step f h x = Ok y /\ length y = n /\ forall i, i < n ->
  nth i y 0%R = (nth i x 0 + h * nth i (A x) 0 + h ^ 2 / 2 * nth i (A (A x)) 0 + h ^ 3 / 6 * nth i (A (A (A x))) 0 + h ^ 4 / 24 * nth i (A (A (A (A x)))) 0)%R.
Proof.
  intros [LA AA] F L. set (a1 := A x) in *. assert (L1 : length a1 = n) by (apply LA, L).
  set (a2 := A a1) in *. assert (L2 : length a2 = n) by (apply LA, L1). set (a3 := A a2) in *. assert (L3 : length a3 = n) by (apply LA, L2).
  set (a4 := A a3) in *. assert (L4 : length a4 = n) by (apply LA, L3).
  set (k2 := axpy a1 (h * / 2) a2). assert (K2 : length k2 = n) by (unfold k2; rewrite axpy_len; congruence).
  set (k3 := axpy a1 (h * / 2) (axpy a2 (h * / 2) a3)). assert (K3 : length k3 = n) by (unfold k3; al).
  set (k4 := axpy a1 h (axpy a2 (h * / 2) (axpy a3 (h * / 2) a4))). assert (K4 : length k4 = n) by (unfold k4; al).
  exists (combination x h a1 k2 k3 k4). split.
  - apply step_value; try congruence.
    + apply F, L.
    + rewrite F by al. f_equal. apply AA; congruence.
    + rewrite F by al. f_equal. rewrite AA by congruence. unfold k3. f_equal. unfold k2. apply AA; congruence.
    + rewrite F by al. f_equal. rewrite AA by congruence. unfold k4. f_equal. unfold k3. rewrite AA by al. f_equal. apply AA; congruence.
  - unfold combination. split; [al|]. intros i Hi.
    an.
    unfold k2, k3, k4. an. field.
Qed.
Lemma scaling_linear n a : linear n (vscaleR a).
Proof.
  split; [intros x L; unfold vscaleR; rewrite map_length; exact L|]. intros x y c Lx Ly. unfold vscaleR. 
  apply vec_eq; [rewrite map_length, !axpy_len; rewrite ?map_length; congruence|]. intros i Hi. rewrite map_length, axpy_len in Hi by congruence.
  rewrite axpy_nth by (rewrite ?map_length; congruence). 
  rewrite !(nth_indep (map _ _) 0%R (a * 0)%R) by (rewrite map_length, ?axpy_len; congruence || lia). rewrite !map_nth, axpy_nth by congruence. ring.
Qed.
Lemma scale_nth a x i : nth i (vscaleR a x) 0%R = (a * nth i x 0)%R.
Proof. unfold vscaleR. replace 0%R with (a * 0)%R at 1 by ring. apply map_nth. Qed.
Lemma scaling_step f a n h x : (forall y, length y = n -> f y = Ok (vscaleR a y)) -> length x = n -> rk4_step f h x = Ok (vscaleR (stability (a * h)) x).
Proof.
  intros F L. destruct (linear_step f (vscaleR a) n h x (scaling_linear n a) F L) as (y & E & Ly & N). rewrite E. f_equal.
  apply vec_eq; [unfold vscaleR; rewrite map_length; congruence|]. intros i Hi. rewrite N by lia. rewrite !scale_nth. unfold stability. field.
Qed.
Lemma scaling_grid f a n h k : forall x xs y, (forall y, length y = n -> f y = Ok (vscaleR a y)) -> length x = n -> rk4_on_timegrid f x (repeat h k) = Ok xs ->
  forall j, nth_error xs j = Some y -> y = vscaleR (stability (a * h) ^ j) x.
Proof.
  induction k as [|k IH]; intros x xs y F L E j Hj; cbn [repeat rk4_on_timegrid] in E.
  - injection E as <-. destruct j as [|[|j]]; try discriminate. injection Hj as <-. cbn. unfold vscaleR. rewrite <- (map_id x) at 1. apply map_ext. intros. ring.
  - rewrite (scaling_step f a n h x F L) in E. cbn [bind] in E. apply bind_ok in E. destruct E as (ys & E & E'). injection E' as <-. destruct j as [|j].
    + injection Hj as <-. cbn. unfold vscaleR. rewrite <- (map_id x) at 1. apply map_ext. intros. ring.
    + assert (L' : length (vscaleR (stability (a * h)) x) = n) by (unfold vscaleR; rewrite map_length; exact L).
      rewrite (IH _ _ y F L' E j Hj). unfold vscaleR. rewrite map_map. apply map_ext. intros. cbn. ring.
Qed.

(* ---- rk4 ---- *)
Lemma repeat_sum h k : forall n, k <= n -> partial_sum (repeat h n) k = (INR k * h)%R.
Proof.
  unfold partial_sum. intros n L. replace (firstn k (repeat h n)) with (repeat h k).
  - clear. induction k as [|k IH]; [cbn; ring|]. change (repeat h (S k)) with (h :: repeat h k). unfold rsum in *. cbn [fold_right]. rewrite IH, S_INR. ring.
  - revert n L. induction k as [|k IH]; intros [|n] L; try reflexivity; [lia|]. cbn. f_equal. apply IH. lia.
Qed.
Lemma repeat_firstn {A} (h : A) k n : k <= n -> firstn k (repeat h n) = repeat h k.
Proof. revert n. induction k as [|k IH]; intros [|n] L; try reflexivity; [lia|]. cbn. f_equal. apply IH. lia. Qed.
Lemma rk4_states f x tf n xs ts : rk4 f x tf n = Ok (xs, ts) ->
  n <> 0 /\ length xs = n + 1 /\ length ts = n + 1 /\ first_is xs x /\ first_is ts 0%R /\ last_is ts tf /\
  (forall k t y, nth_error ts k = Some t -> nth_error xs k = Some y -> t = (INR k * (tf / INR n))%R /\ reached f x (repeat (tf / INR n)%R k) y) /\
  (forall k y z, nth_error xs k = Some y -> nth_error xs (S k) = Some z -> rk4_step f (tf / INR n) y = Ok z).
Proof.
  unfold rk4. intros E. apply bind_ok in E. destruct E as (u & G & E). apply bind_ok in E. destruct E as (ys & E & E'). injection E' as <- <-.
  destruct n as [|n]; [discriminate G|]. set (N := S n) in *. assert (HN : INR N <> 0%R) by (apply not_0_INR; discriminate).
  destruct (grid_states _ _ _ _ E) as (L & F & St & _). rewrite repeat_length in L. split; [discriminate|]. split; [exact L|].
  rewrite map_length, seq_length. split; [reflexivity|]. split; [exact F|].
  split; [unfold first_is; rewrite nth_error_map, nth_error_seq by lia; cbn; f_equal; ring|].
  split. { split; [rewrite map_length, seq_length; lia|]. rewrite map_length, seq_length, nth_error_map, nth_error_seq by lia. cbn [option_map plus]. rewrite Nat.add_sub. f_equal. field. exact HN. }
  split.
  - intros k t y Ht Hy. pose proof (nth_error_Some_lt _ _ _ Hy) as Lk. rewrite nth_error_map, nth_error_seq in Ht by lia. cbn in Ht. injection Ht as <-. split; [reflexivity|].
    rewrite <- (repeat_firstn _ k N) by lia. exact (grid_reached _ _ _ _ E k y Hy).
  - intros k y z Hy Hz. pose proof (nth_error_Some_lt _ _ _ Hz) as Lz. destruct (St k (tf / INR N)%R y) as (z' & Hz' & Es); [|exact Hy|].
    + rewrite nth_error_repeat by lia. reflexivity.
    + congruence.
Qed.
Lemma rk4_total f x tf n d : n <> 0 -> length x = d -> (forall y, length y = d -> exists k, f y = Ok k /\ length k = d) -> exists xs ts, rk4 f x tf n = Ok (xs, ts).
Proof.
  intros N L A. unfold rk4. destruct n as [|n]; [contradiction|]. cbn [Nat.eqb negb guard bind]. destruct (grid_total f d A (repeat (tf / INR (S n))%R (S n)) x L) as [xs ->].
  cbn [bind]. eauto.
Qed.

(* ---- statements ---- *)
Lemma grid_classical f grid x xs : rk4_on_timegrid f x grid = Ok xs ->
  length xs = length grid + 1 /\ first_is xs x /\ (forall y, In y xs -> length y = length x) /\
  (forall k h a b, nth_error grid k = Some h -> nth_error xs k = Some a -> nth_error xs (S k) = Some b -> classical f h a b) /\
  (forall k y, nth_error xs k = Some y -> reached f x (firstn k grid) y).
Proof.
  intros E. destruct (grid_states _ _ _ _ E) as (L & F & St & Ln). split; [exact L|]. split; [exact F|]. split; [exact Ln|].
  split; [|exact (grid_reached _ _ _ _ E)]. intros k h a b Hk Ha Hb. destruct (St k h a Hk Ha) as (b' & Hb' & Es). apply classical_step. congruence.
Qed.
Lemma rk4_classical f x tf n xs ts : rk4 f x tf n = Ok (xs, ts) ->
  n <> 0 /\ length xs = n + 1 /\ length ts = n + 1 /\ first_is xs x /\ first_is ts 0%R /\ last_is ts tf /\
  (forall k t y, nth_error ts k = Some t -> nth_error xs k = Some y -> t = (INR k * (tf / INR n))%R /\ reached f x (repeat (tf / INR n)%R k) y) /\
  (forall k y z, nth_error xs k = Some y -> nth_error xs (S k) = Some z -> classical f (tf / INR n) y z).
Proof.
  intros E. destruct (rk4_states _ _ _ _ _ _ E) as (A1 & A2 & A3 & A4 & A5 & A6 & A7 & A8). repeat (split; [assumption|]).
  intros k y z Hy Hz. apply classical_step, (A8 k); assumption.
Qed.
Lemma constant_grid f v grid x : length v = length x -> (forall y, length y = length x -> f y = Ok v) ->
  exists xs, rk4_on_timegrid f x grid = Ok xs /\ forall k y, nth_error xs k = Some y -> y = axpy x (partial_sum grid k) v.
Proof.
  intros L F. destruct (grid_total f (length x) (fun y Hy => ex_intro _ v (conj (F y Hy) L)) grid x eq_refl) as [xs E]. exists xs. split; [exact E|].
  intros k y Hy. apply (constant_reached f); [exact L|exact F|]. exact (grid_reached _ _ _ _ E k y Hy).
Qed.
Lemma linear_grid f A n grid x : linear n A -> (forall y, length y = n -> f y = Ok (A y)) -> length x = n ->
  exists xs, rk4_on_timegrid f x grid = Ok xs /\
  forall k h a b i, nth_error grid k = Some h -> nth_error xs k = Some a -> nth_error xs (S k) = Some b -> i < n ->
  nth i b 0%R = (nth i a 0 + h * nth i (A a) 0 + h ^ 2 / 2 * nth i (A (A a)) 0 + h ^ 3 / 6 * nth i (A (A (A a))) 0 + h ^ 4 / 24 * nth i (A (A (A (A a)))) 0)%R.
Proof.
  intros LA F L. destruct (grid_total f n (fun y Hy => ex_intro _ (A y) (conj (F y Hy) (proj1 LA y Hy))) grid x L) as [xs E]. exists xs. split; [exact E|].
  intros k h a b i Hk Ha Hb Hi. destruct (grid_states _ _ _ _ E) as (_ & _ & St & Ln). destruct (St k h a Hk Ha) as (b' & Hb' & Es).
  assert (b' = b) by congruence. subst b'. destruct (linear_step f A n h a LA F) as (y & Ey & _ & N); [rewrite (Ln a); [exact L|eapply nth_error_In, Ha]|].
  assert (y = b) by congruence. subst y. exact (N i Hi).
Qed.
Lemma rk4_scaling f a n x tf N : (forall y, length y = n -> f y = Ok (vscaleR a y)) -> length x = n -> N <> 0 ->
  exists xs ts, rk4 f x tf N = Ok (xs, ts) /\ forall j y i, nth_error xs j = Some y -> i < n -> nth i y 0%R = (stability (a * (tf / INR N)) ^ j * nth i x 0)%R.
Proof.
  intros F L HN. destruct (rk4_total f x tf N n HN L) as (xs & ts & E).
  { intros y Hy. exists (vscaleR a y). split; [exact (F y Hy)|]. unfold vscaleR. rewrite map_length. exact Hy. }
  exists xs, ts. split; [exact E|]. intros j y i Hj Hi. unfold rk4 in E. apply bind_ok in E. destruct E as (u & _ & E). apply bind_ok in E.
  destruct E as (ys & E & E'). injection E' as <- _. rewrite (scaling_grid f a n _ _ x ys y F L E j Hj). apply scale_nth.
Qed.
