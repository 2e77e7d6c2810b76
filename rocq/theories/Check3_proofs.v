(* Check3_proofs.v -- which exceptions preprocess_ocp raises *)
From Coq Require Import Reals Qreals.
From Verif Require Import Base Lib Sx Utils Tableau Opts Model Ocp Problem Spec Opts_proofs Fesd Spec2 Spec3 Spec38 Check_proofs.

Lemma mkfun_cases i l : (exists f, mkfun i l = Ok f) \/ mkfun i l = Err ECasadi.
Proof. unfold mkfun. destruct (forallb _ _); eauto. Qed.
Lemma mkcomp_cases i l : (exists f, mkcomp i l = Ok f) \/ mkcomp i l = Err ECasadi.
Proof. unfold mkcomp. destruct (mkfun_cases i (map fst l)) as [(f & ->)| ->]; cbn [bind]; [|auto]. destruct (mkfun_cases i (map snd l)) as [(g & ->)| ->]; cbn [bind]; eauto. Qed.
Lemma len_cases {A} (x : option (list A)) n d : (length_ok x n /\ exists l, default_len x n d = Ok l) \/ (~ length_ok x n /\ default_len x n d = Err EValueError).
Proof. destruct x as [l|]; cbn; [|left; eauto]. destruct (Nat.eqb_spec (length l) n); [left|right]; eauto. Qed.
Lemma len_exc_cases {A} (x : option (list A)) n d : (length_ok x n /\ exists l, default_len_exc x n d = Ok l) \/ (~ length_ok x n /\ default_len_exc x n d = Err EException).
Proof. destruct x as [l|]; cbn; [|left; eauto]. destruct (Nat.eqb_spec (length l) n); [left|right]; eauto. Qed.
Lemma ocp_cases pm oc :
  (preprocess_ocp pm (functions_of oc) = Err ECasadi /\ preprocess_ocp pm oc = Err ECasadi) \/
  (is_ok (preprocess_ocp pm (functions_of oc)) = true /\ ~ ocp_value_sizes (pm_m pm) oc /\ preprocess_ocp pm oc = Err EValueError) \/
  (is_ok (preprocess_ocp pm (functions_of oc)) = true /\ ocp_value_sizes (pm_m pm) oc /\ ~ ocp_global_sizes (pm_m pm) oc /\ preprocess_ocp pm oc = Err EException) \/
  (is_ok (preprocess_ocp pm (functions_of oc)) = true /\ ocp_value_sizes (pm_m pm) oc /\ ocp_global_sizes (pm_m pm) oc /\ is_ok (preprocess_ocp pm oc) = true).
Proof.
  unfold preprocess_ocp, functions_of, ocp_value_sizes, ocp_global_sizes. cbn [oc_gT oc_fT oc_fq oc_g_path oc_comp oc_lbg oc_ubg oc_lbx oc_ubx oc_lbu oc_ubu oc_u_guess oc_lbv oc_ubv oc_v_guess].
  cbv zeta. set (m := pm_m pm).
  do 4 match goal with |- context[bind (mkfun ?i ?l) _] => destruct (mkfun_cases i l) as [(? & E)|E]; rewrite E; clear E; cbn [bind]; [|left; split; reflexivity] end.
  destruct (classify (mx m ++ mz m) (mu_ m ++ mpt m) (oc_comp oc)) as [[gc cc] sc].
  do 3 match goal with |- context[bind (mkcomp ?i ?l) _] => destruct (mkcomp_cases i l) as [(? & E)|E]; rewrite E; clear E; cbn [bind]; [|left; split; reflexivity] end.
  cbn [default_len default_len_exc bind is_ok]. right.
  do 7 match goal with |- context[bind (default_len ?x ?n ?dd) _] => destruct (len_cases x n dd) as [[? (? & E)]|[? E]]; rewrite E; clear E; cbn [bind]; [|left; tauto] end.
  right. do 3 match goal with |- context[bind (default_len_exc ?x ?n ?dd) _] => destruct (len_exc_cases x n dd) as [[? (? & E)]|[? E]]; rewrite E; clear E; cbn [bind]; [|left; tauto] end.
  right. cbn [is_ok]. tauto.
Qed.
Lemma ocp_errors pm oc :
  (preprocess_ocp pm oc = Err ECasadi <-> ~ ocp_fits pm (functions_of oc)) /\
  (preprocess_ocp pm oc = Err EValueError <-> ocp_fits pm (functions_of oc) /\ ~ ocp_value_sizes (pm_m pm) oc) /\
  (preprocess_ocp pm oc = Err EException <-> ocp_fits pm (functions_of oc) /\ ocp_value_sizes (pm_m pm) oc /\ ~ ocp_global_sizes (pm_m pm) oc) /\
  forall e, preprocess_ocp pm oc = Err e -> e = ECasadi \/ e = EValueError \/ e = EException.
Proof.
  rewrite <- (preprocess_ocp_iff pm (functions_of oc)).
  destruct (ocp_cases pm oc) as [(A & E)|[(A & B & E)|[(A & B & D & E)|(A & B & D & E)]]].
  - rewrite A, E. cbn [is_ok]. split; [|split; [|split]]; [intuition congruence|intuition congruence|intuition congruence|]. intros e X. injection X as <-. auto.
  - rewrite A, E. split; [|split; [|split]]; [intuition congruence|intuition congruence|intuition congruence|]. intros e X. injection X as <-. auto.
  - rewrite A, E. split; [|split; [|split]]; [intuition congruence|intuition congruence|intuition congruence|]. intros e X. injection X as <-. auto.
  - destruct (preprocess_ocp pm oc); [|discriminate E]. rewrite A. split; [|split; [|split]]; [intuition congruence|intuition congruence|intuition congruence|]. intros e X. discriminate X.
Qed.
