(* Check_proofs.v -- which exceptions preprocess_model raises *)
From Coq Require Import Reals Qreals.
From Verif Require Import Base Lib Sx Utils Tableau Opts Model Spec Cases Fesd Spec2 Spec3 Spec38.

(* no documented exception, except a ValueError when b holds *)
Definition calm (b : Prop) {A} (r : res A) : Prop := match r with Err EWarning | Err EException => False | Err EValueError => b | _ => True end.
Lemma calm_bind (b : Prop) {A B} (r : res A) (k : A -> res B) : calm b r -> (forall a, r = Ok a -> calm b (k a)) -> calm b (bind r k).
Proof. intros H K. destruct r as [a|e]; [exact (K a eq_refl)|exact H]. Qed.
Lemma calm_mapM (b : Prop) {A B} (f : A -> res B) l : (forall a, calm b (f a)) -> calm b (mapM f l).
Proof. intros K. induction l as [|a l IH]; [exact Logic.I|]. cbn. apply calm_bind; [apply K|]. intros y _. apply calm_bind; [exact IH|]. intros z _. exact Logic.I. Qed.
Lemma calm_foldM (b : Prop) {S A} (f : S -> A -> res S) l : (forall s a, calm b (f s a)) -> forall s, calm b (foldM f l s).
Proof. intros K. induction l as [|a l IH]; intros s; [exact Logic.I|]. cbn. apply calm_bind; [apply K|]. intros y _. apply IH. Qed.
Definition silent (e : exn) : Prop := match e with EWarning | EException | EValueError => False | _ => True end.
Lemma calm_nth (b : Prop) {A} e (l : list A) i : silent e -> calm b (nthE e l i).
Proof. intros H. unfold nthE. destruct (nth_error l i); [exact Logic.I|]. destruct e; cbn in *; tauto. Qed.
Lemma calm_guard (b : Prop) x e : silent e -> calm b (guard x e).
Proof. intros H. unfold guard. destruct x; [exact Logic.I|]. destruct e; cbn in *; tauto. Qed.
Lemma calm_opt (b : Prop) {A} e (x : option A) : silent e -> calm b (opt_res e x).
Proof. intros H. destruct x; [exact Logic.I|]. destruct e; cbn in *; tauto. Qed.
Lemma calm_mkfun (b : Prop) i l : calm b (mkfun i l). Proof. unfold mkfun. destruct (forallb _ _); exact Logic.I. Qed.
Lemma calm_vbin (b : Prop) op x y : calm b (vbin op x y). Proof. unfold vbin. destruct (_ =? _); [exact Logic.I|]. destruct x as [|? [|]], y as [|? [|]]; exact Logic.I. Qed.
Lemma calm_edot (b : Prop) x y : calm b (edot x y). Proof. unfold edot. destruct (_ =? _); exact Logic.I. Qed.
Lemma calm_emin (b : Prop) x : calm b (emin x). Proof. destruct x; exact Logic.I. Qed.
Lemma calm_matvec (b : Prop) x y : calm b (matvec x y). Proof. unfold matvec. destruct (_ =? _); exact Logic.I. Qed.
Ltac calm1 := first
  [ exact Logic.I | assumption | apply calm_mkfun | apply calm_vbin | apply calm_edot | apply calm_emin | apply calm_matvec
  | apply calm_nth; exact Logic.I | apply calm_guard; exact Logic.I | apply calm_opt; exact Logic.I
  | apply calm_mapM; intros ? | apply calm_foldM; intros ? ? | apply calm_bind; [|intros ? _] ].
Ltac calmly := repeat calm1.
Lemma calm_upsilon (b : Prop) S al : calm b (upsilon_col S al).
Proof.
  unfold upsilon_col. apply calm_bind; [destruct S; exact Logic.I|]. intros n _. apply calm_mapM. intros row. unfold upsilon_row. calmly; destruct (Qeq_bool _ _); calmly.
Qed.
Lemma calm_stewart (b : Prop) F g nf a i : calm b (stewart_step F g nf a i). Proof. unfold stewart_step. calmly. Qed.
Lemma calm_step (b : Prop) F u c al nc a i : calm b (step_step F u c al nc a i). Proof. unfold step_step. apply calm_bind; [destruct F; calmly|intros fx _]. calmly. Qed.

(* ---- reflection of the checks ---- *)
Lemma bind_ok {A B} (r : res A) a (k : A -> res B) : r = Ok a -> bind r k = k a. Proof. intros ->. reflexivity. Qed.
Lemma bind_err {A B} (r : res A) e (k : A -> res B) : r = Err e -> bind r k = Err e. Proof. intros ->. reflexivity. Qed.
Lemma default_cases {A} (x : option (list A)) n d : (optional_length x n /\ exists l, default_len x n d = Ok l) \/ (~ optional_length x n /\ default_len x n d = Err EValueError).
Proof.
  destruct x as [l|]; cbn; [|left; split; [intros l E; discriminate|eauto]]. destruct (Nat.eqb_spec (length l) n) as [E|E]; [left|right].
  - split; [intros l' E'; injection E' as <-; exact E|eauto].
  - split; [intros H; exact (E (H l eq_refl))|reflexivity].
Qed.
Lemma mapM_nth_ok (c : list (list expr)) l : (forall i, In i l -> i < length c) -> exists r, mapM (fun i => do* ci <- nthE EIndexError c i; Ok (length ci)) l = Ok r.
Proof.
  induction l as [|i l IH]; intros H; [exists []; reflexivity|]. cbn. unfold nthE at 1. destruct (nth_error c i) as [v|] eqn:E.
  - cbn. destruct IH as (r & ->); [intros j Hj; apply H; right; exact Hj|]. eexists. reflexivity.
  - apply nth_error_None in E. specialize (H i (or_introl eq_refl)). lia.
Qed.
Lemma mapM_nth_err (c : list (list expr)) l i : In i l -> length c <= i -> mapM (fun i => do* ci <- nthE EIndexError c i; Ok (length ci)) l = Err EIndexError.
Proof.
  induction l as [|j l IH]; intros Hi Hc; [destruct Hi|]. cbn. unfold nthE at 1. destruct (nth_error c j) as [v|] eqn:E; [|reflexivity]. cbn.
  destruct Hi as [->|Hi]; [apply nth_error_None in Hc; congruence|]. rewrite (IH Hi Hc). reflexivity.
Qed.
Lemma nc_cases m n : (switching_given m n /\ exists nc, get_nc m n = Ok nc) \/
  (~ switching_given m n /\ ((m_c m = None /\ get_nc m n = Err ETypeError) \/ ((exists c, m_c m = Some c) /\ get_nc m n = Err EIndexError))).
Proof.
  unfold switching_given, get_nc. change (gS_truthy m) with (gS_given m). destruct (gS_given m); [left; eauto|]. destruct (m_c m) as [c|]; cbn [opt_res bind].
  - destruct (Nat.le_gt_cases n (length c)) as [L|L].
    + left. split; [right; eauto|]. apply mapM_nth_ok. intros i Hi. apply in_seq in Hi. lia.
    + right. split; [intros [E|(c' & E & H)]; [discriminate|injection E as <-; lia]|]. right. split; [eauto|]. apply (mapM_nth_err c _ (length c)); [apply in_seq; lia|lia].
  - right. split; [intros [E|(c & E & _)]; discriminate|]. left. auto.
Qed.
Lemma rectangular_ok F : rectangular F -> forallb fmat_ok F = true.
Proof. intros R. apply forallb_forall. intros f Hf. apply forallb_forall. intros c Hc. apply Nat.eqb_eq. exact (R f c Hf Hc). Qed.
Lemma single_cases F : (no_single_mode F /\ negb (existsb (fun n => n =? 1) (map (fun f => length (fm_cols f)) F)) = true) \/
  (~ no_single_mode F /\ negb (existsb (fun n => n =? 1) (map (fun f => length (fm_cols f)) F)) = false).
Proof.
  destruct (existsb _ _) eqn:E; [right|left]; (split; [|reflexivity]).
  - apply existsb_exists in E. destruct E as (n & Hn & E). apply in_map_iff in Hn. destruct Hn as (f & <- & Hf). apply Nat.eqb_eq in E. intros H. exact (H f Hf E).
  - intros f Hf E1. assert (X : existsb (fun n => n =? 1) (map (fun f => length (fm_cols f)) F) = true); [|congruence].
    apply existsb_exists. exists (length (fm_cols f)). split; [apply in_map_iff; eauto|]. rewrite E1. reflexivity.
Qed.
(* the loop over g_Stewart *)
Definition fits (F : list fmat) (p : nat * list expr) : Prop := exists f, nth_error F (fst p) = Some f /\ length (snd p) = length (fm_cols f).
Lemma gS_loop F l : let r := foldM (fun (_ : unit) p => let '(i, g) := p in do* n <- nthE EIndexError (map (fun f => length (fm_cols f)) F) i; guard (length g =? n) EValueError) l tt in
  ((forall p : nat * list expr, In p l -> fits F p) /\ r = Ok tt) \/
  (~ (forall p, In p l -> fits F p) /\ (r = Err EIndexError \/ r = Err EValueError) /\ ((forall p, In p l -> fst p < length F) -> r = Err EValueError)).
Proof.
  set (k := fun (_ : unit) p => _). induction l as [|[i g] l IH]; cbv zeta in *; [left; split; [intros p []|reflexivity]|]. cbn [foldM].
  assert (K : k tt (i, g) = match nth_error F i with Some f => guard (length g =? length (fm_cols f)) EValueError | None => Err EIndexError end) by (unfold k, nthE; rewrite nth_error_map; destruct (nth_error F i); reflexivity).
  rewrite K. destruct (nth_error F i) as [f|] eqn:Ef; cbn [bind].
  - destruct (Nat.eqb_spec (length g) (length (fm_cols f))) as [E|E]; cbn [guard bind].
    + destruct IH as [[A B]|(A & B & D)]; [left|right].
      * split; [|exact B]. intros p [<-|Hp]; [exists f; auto|exact (A p Hp)].
      * split; [intros H; apply A; intros p Hp; apply H; right; exact Hp|]. split; [exact B|]. intros H. apply D. intros p Hp. apply H. right. exact Hp.
    + right. split; [intros H; destruct (H (i, g) (or_introl eq_refl)) as (f' & E1 & E2); cbn in *; rewrite Ef in E1; injection E1 as <-; exact (E E2)|]. split; auto.
  - right. split; [intros H; destruct (H (i, g) (or_introl eq_refl)) as (f' & E1 & _); cbn in E1; congruence|]. split; [auto|].
    intros H. specialize (H (i, g) (or_introl eq_refl)). cbn in H. apply nth_error_None in Ef. lia.
Qed.
Lemma S_loop (l : list (nat * list (list Q))) : let r := foldM (fun (_ : unit) p => guard (fst p =? length (snd p)) EValueError) l tt in
  ((forall p, In p l -> fst p = length (snd p)) /\ r = Ok tt) \/ (~ (forall p, In p l -> fst p = length (snd p)) /\ r = Err EValueError).
Proof.
  set (k := fun (_ : unit) (p : nat * list (list Q)) => _). induction l as [|p l IH]; cbv zeta in *; [left; split; [intros p []|reflexivity]|]. cbn [foldM]. unfold k at 1 3. destruct (Nat.eqb_spec (fst p) (length (snd p))) as [E|E]; cbn [guard bind].
  - destruct IH as [[A B]|[A B]]; [left|right]; (split; [|exact B]).
    + intros q [<-|Hq]; [exact E|exact (A q Hq)].
    + intros H. apply A. intros q Hq. apply H. right. exact Hq.
  - right. split; [intros H; exact (E (H p (or_introl eq_refl)))|reflexivity].
Qed.
Lemma In_combine_nth {A B} (a : list A) (b : list B) p : In p (combine a b) <-> exists i, nth_error a i = Some (fst p) /\ nth_error b i = Some (snd p).
Proof.
  revert b. induction a as [|x a IH]; intros b; cbn.
  - split; [intros []|intros (i & E & _); destruct i; discriminate].
  - destruct b as [|y b]; cbn; [split; [intros []|intros (i & _ & E); destruct i; discriminate]|]. rewrite IH. split.
    + intros [<-|(i & E)]; [exists 0; auto|exists (S i); exact E].
    + intros ([|i] & E1 & E2); cbn in *; [left; injection E1; injection E2; intros -> ->; destruct p; reflexivity|right; eauto].
Qed.
Lemma nth_seq n i : nth_error (seq 0 n) i = if i <? n then Some i else None.
Proof.
  destruct (Nat.ltb_spec i n) as [L|L]; [|apply nth_error_None; rewrite seq_length; exact L].
  rewrite (nth_error_nth' _ 0) by (rewrite seq_length; exact L). rewrite seq_nth by exact L. reflexivity.
Qed.
Lemma In_numbered (g : list (list expr)) p : In p (combine (seq 0 (length g)) g) <-> nth_error g (fst p) = Some (snd p).
Proof.
  rewrite In_combine_nth. split.
  - intros (i & E1 & E2). rewrite nth_seq in E1. destruct (i <? length g); [injection E1 as <-; exact E2|discriminate].
  - intros E. exists (fst p). split; [|exact E]. rewrite nth_seq. replace (fst p <? length g) with true; [reflexivity|]. symmetry. apply Nat.ltb_lt. apply nth_error_Some. congruence.
Qed.
Lemma sanity_cases o m F n : m_F m = Some F -> rectangular F ->
  (~ no_single_mode F /\ sanity_checks o m n = Err EWarning) \/
  (no_single_mode F /\ mode_sizes o m F /\ exists nf, sanity_checks o m n = Ok nf) \/
  (no_single_mode F /\ ~ mode_sizes o m F /\ (sanity_checks o m n = Err EIndexError \/ sanity_checks o m n = Err EValueError) /\ (no_surplus o m F -> sanity_checks o m n = Err EValueError)).
Proof.
  intros EF R. unfold sanity_checks. rewrite EF. cbv zeta. rewrite (rectangular_ok F R). cbn [guard bind].
  destruct (single_cases F) as [[A ->]|[A ->]]; cbn [guard bind]; [|left; auto]. right.
  unfold mode_sizes, no_surplus. change (gS_truthy m) with (gS_given m). destruct (gS_given m) eqn:Eg.
  - destruct (o_pss o) eqn:Ep; cbn [guard bind].
    2: { right. split; [exact A|]. split; [intros [X _]; discriminate|]. auto. }
    unfold gS_given in Eg. destruct (m_gS m) as [g|] eqn:Em; [|discriminate]. destruct (gS_loop F (combine (seq 0 (length g)) g)) as [[B E]|(B & E & D)].
    + left. split; [exact A|]. split; [|rewrite E; eexists; reflexivity]. split; [reflexivity|]. intros g' X i v Hv. injection X as <-. exact (B (i, v) (proj2 (In_numbered g (i, v)) Hv)).
    + right. split; [exact A|]. split; [intros [_ H]; apply B; intros [i v] Hp; apply In_numbered in Hp; exact (H g eq_refl i v Hp)|]. split; [destruct E as [->| ->]; auto|].
      intros NS. rewrite D; [reflexivity|]. intros p Hp. apply In_numbered in Hp. specialize (NS eq_refl eq_refl g eq_refl). assert (fst p < length g) by (apply nth_error_Some; congruence). lia.
  - destruct (m_c m) as [c|]; cbn [opt_res bind]; [|right; split; [exact A|]; split; [intros (c & Sl & X & _); discriminate|auto]].
    destruct (m_S m) as [Sl|]; cbn [opt_res bind]; [|right; split; [exact A|]; split; [intros (c' & Sl & _ & X & _); discriminate|auto]].
    destruct (Nat.eqb_spec (length c) (length Sl)) as [L|L]; cbn [guard bind]; [|right; split; [exact A|]; split; [intros (c' & Sl' & X & Y & Z & _); injection X as <-; injection Y as <-; exact (L Z)|auto]].
    destruct (S_loop (combine (map (fun f => length (fm_cols f)) F) Sl)) as [[B E]|[B E]].
    + left. split; [exact A|]. split; [|rewrite E; eexists; reflexivity]. exists c, Sl. split; [reflexivity|]. split; [reflexivity|]. split; [exact L|]. intros i f Si Hf HS.
      apply (B (length (fm_cols f), Si)). apply In_combine_nth. exists i. rewrite nth_error_map, Hf. auto.
    + right. split; [exact A|]. split; [|rewrite E; cbn [bind]; auto]. intros (c' & Sl' & X & Y & _ & H). injection X as <-. injection Y as <-. apply B. intros p Hp. apply In_combine_nth in Hp. destruct Hp as (i & E1 & E2).
      rewrite nth_error_map in E1. destruct (nth_error F i) as [f|] eqn:Ef; [|discriminate]. injection E1 as E1. rewrite <- E1. exact (H i f (snd p) Ef E2).
Qed.
Lemma shape_iff (M : list (list Q)) r c : shape_is M r c = true <-> length M = r /\ forall row, In row M -> length row = c.
Proof.
  unfold shape_is. rewrite Bool.andb_true_iff, Nat.eqb_eq, forallb_forall. split; intros [A B]; (split; [exact A|]); intros row Hr; specialize (B row Hr); [apply Nat.eqb_eq|apply Nat.eqb_eq]; exact B.
Qed.
Definition ptv_of (o : opts) (m : model) : list (list Q) := match m_ptv_val m with None => repeat (repeat 0%Q (m_npt m)) (o_N_stages o) | Some v => v end.
Lemma parameter_cases o m : (parameter_sizes o m /\ (length (m_pg_val m) =? m_npg m) = true /\ shape_is (ptv_of o m) (o_N_stages o) (m_npt m) = true) \/
  (~ parameter_sizes o m /\ ((length (m_pg_val m) =? m_npg m) = false \/ (length (m_pg_val m) =? m_npg m) = true /\ shape_is (ptv_of o m) (o_N_stages o) (m_npt m) = false)).
Proof.
  unfold parameter_sizes, ptv_of. destruct (Nat.eqb_spec (length (m_pg_val m)) (m_npg m)) as [E|E]; [|right; tauto].
  destruct (m_ptv_val m) as [M|].
  - destruct (shape_is M (o_N_stages o) (m_npt m)) eqn:Es; [left|right].
    + apply shape_iff in Es. split; [|auto]. split; [exact E|]. intros M' X. injection X as <-. exact Es.
    + split; [|auto]. intros [_ H]. specialize (H M eq_refl). apply shape_iff in H. congruence.
  - left. split; [split; [exact E|discriminate]|]. split; [reflexivity|]. apply shape_iff. split; [apply repeat_length|]. intros row Hr. apply repeat_spec in Hr. subst row. apply repeat_length.
Qed.
Lemma model_cases o m F : m_F m = Some F -> F <> [] -> rectangular F ->
  (~ z_sizes m /\ preprocess_model o m = Err EValueError) \/
  (z_sizes m /\ ~ switching_given m (length F) /\ (m_c m = None /\ preprocess_model o m = Err ETypeError \/ (exists c, m_c m = Some c) /\ preprocess_model o m = Err EIndexError)) \/
  (z_sizes m /\ switching_given m (length F) /\ ~ no_single_mode F /\ preprocess_model o m = Err EWarning) \/
  (z_sizes m /\ switching_given m (length F) /\ no_single_mode F /\ ~ mode_sizes o m F /\ (preprocess_model o m = Err EIndexError \/ preprocess_model o m = Err EValueError) /\ (no_surplus o m F -> preprocess_model o m = Err EValueError)) \/
  (z_sizes m /\ switching_given m (length F) /\ no_single_mode F /\ mode_sizes o m F /\ ~ parameter_sizes o m /\ preprocess_model o m = Err EException) \/
  (z_sizes m /\ switching_given m (length F) /\ no_single_mode F /\ mode_sizes o m F /\ parameter_sizes o m /\ calm (o_time_freezing o = true /\ m_tvar m = None) (preprocess_model o m)).
Proof.
  intros EF NE R. unfold preprocess_model. rewrite EF. cbn [bind]. replace (negb (length F =? 0)) with true by (destruct F; [contradiction|reflexivity]). cbn [guard bind].
  unfold z_sizes. destruct (default_cases (m_z0 m) (m_nz m) 0%Q) as [[A (z0 & ->)]|[A ->]]; cbn [bind]; [|left; tauto].
  destruct (default_cases (m_lbz m) (m_nz m) NInf) as [[B1 (lbz & ->)]|[B1 ->]]; cbn [bind]; [|left; tauto].
  destruct (default_cases (m_ubz m) (m_nz m) PInf) as [[C1 (ubz & ->)]|[C1 ->]]; cbn [bind]; [|left; tauto].
  assert (Z : optional_length (m_z0 m) (m_nz m) /\ optional_length (m_lbz m) (m_nz m) /\ optional_length (m_ubz m) (m_nz m)) by tauto. right.
  destruct (nc_cases m (length F)) as [[N (nc & ->)]|[N [[Ec ->]|[Ec ->]]]]; cbn [bind]; [|left; auto|left; auto 6]. right.
  destruct (sanity_cases o m F (length F) EF R) as [[S1 ->]|[(S1 & S2 & nf & ->)|(S1 & S2 & S3 & S4)]]; cbn [bind]; [left; auto| |].
  2: { right. left. do 4 (split; [assumption|]). split; [destruct S3 as [->| ->]; auto|]. intros NS. rewrite (S4 NS). reflexivity. }
  right. right. fold (ptv_of o m). cbv zeta. destruct (parameter_cases o m) as [(P & -> & ->)|(P & [->|[-> ->]])]; cbn [guard bind]; [right|left; auto 8|left; auto 8].
  do 5 (split; [assumption|]).
  apply calm_bind; [destruct (o_pss o); [unfold gS_list; destruct (gS_truthy m); calmly; unfold neg_S_c; calmly|exact Logic.I]|intros gSl _].
  apply calm_bind; [destruct (o_pss o); [exact Logic.I|unfold get_upsilon; repeat first [apply calm_upsilon|progress calm1]]|intros ups _].
  apply calm_bind; [destruct (o_pss o); [apply calm_foldM; intros; apply calm_stewart|repeat first [apply calm_step|progress calm1]]|intros dc _].
  do 3 (apply calm_bind; [apply calm_mkfun|intros ? _]).
  apply calm_bind; [destruct (m_tvar m); [calmly|destruct (o_time_freezing o); cbn; auto]|intros tf _].
  do 2 (apply calm_bind; [apply calm_mkfun|intros ? _]).
  apply calm_bind; [destruct (o_pss o); calmly|intros ? _]. apply calm_bind; [destruct (o_pss o); calmly|intros ? _]. exact Logic.I.
Qed.

(* ---- the documented exceptions ---- *)
Section Filippov.
Variables (o : opts) (m : model) (F : list fmat).
Hypothesis EF : m_F m = Some F.
Hypothesis NE : F <> [].
Hypothesis R : rectangular F.
Lemma raises_warning : preprocess_model o m = Err EWarning <-> z_sizes m /\ switching_given m (length F) /\ ~ no_single_mode F.
Proof.
  destruct (model_cases o m F EF NE R) as [(A & E)|[(A & B & [(_ & E)|(_ & E)])|[(A & B & D & E)|[(A & B & D & G & [E|E] & _)|[(A & B & D & G & H & E)|(A & B & D & G & H & E)]]]]].
  all: try (rewrite E; split; [intros X; discriminate X|tauto]). all: try (rewrite E; tauto).
  split; [intros X; rewrite X in E; destruct E|tauto].
Qed.
Lemma raises_exception : preprocess_model o m = Err EException <-> z_sizes m /\ switching_given m (length F) /\ no_single_mode F /\ mode_sizes o m F /\ ~ parameter_sizes o m.
Proof.
  destruct (model_cases o m F EF NE R) as [(A & E)|[(A & B & [(_ & E)|(_ & E)])|[(A & B & D & E)|[(A & B & D & G & [E|E] & _)|[(A & B & D & G & H & E)|(A & B & D & G & H & E)]]]]].
  all: try (rewrite E; split; [intros X; discriminate X|tauto]). all: try (rewrite E; tauto).
  split; [intros X; rewrite X in E; destruct E|tauto].
Qed.
Lemma raises_value : (preprocess_model o m = Err EValueError -> ~ z_sizes m \/
    z_sizes m /\ switching_given m (length F) /\ no_single_mode F /\ ~ mode_sizes o m F \/
    z_sizes m /\ switching_given m (length F) /\ no_single_mode F /\ mode_sizes o m F /\ parameter_sizes o m /\ o_time_freezing o = true /\ m_tvar m = None) /\
  (~ z_sizes m -> preprocess_model o m = Err EValueError) /\
  (z_sizes m -> switching_given m (length F) -> no_single_mode F -> ~ mode_sizes o m F -> no_surplus o m F -> preprocess_model o m = Err EValueError).
Proof.
  destruct (model_cases o m F EF NE R) as [(A & E)|[(A & B & [(_ & E)|(_ & E)])|[(A & B & D & E)|[(A & B & D & G & [E|E] & K)|[(A & B & D & G & H & E)|(A & B & D & G & H & E)]]]]].
  all: try (rewrite E in *; split; [intros X; try discriminate X; tauto|split; tauto]).
  split; [intros X; rewrite X in E; cbn in E; tauto|split; tauto].
Qed.
Lemma raises_index : z_sizes m -> ((exists c, m_c m = Some c /\ length c < length F) /\ gS_given m = false) -> preprocess_model o m = Err EIndexError.
Proof.
  intros Z [(c & Ec & L) Eg]. assert (N : ~ switching_given m (length F)) by (intros [X|(c' & X & Y)]; [congruence|rewrite Ec in X; injection X as <-; lia]).
  destruct (model_cases o m F EF NE R) as [(A & E)|[(A & B & [(X & E)|(_ & E)])|[(A & B & D & E)|[(A & B & D & G & [E|E] & K)|[(A & B & D & G & H & E)|(A & B & D & G & H & E)]]]]]; try contradiction; congruence.
Qed.
End Filippov.
Lemma raises_freezing o o' m : (exists pm, preprocess_model o m = Ok pm) -> o_pss o' = o_pss o -> o_N_stages o' = o_N_stages o -> o_time_freezing o' = true -> m_tvar m = None -> preprocess_model o' m = Err EValueError.
Proof.
  intros (pm & H) Ep En Et Ev. unfold preprocess_model, sanity_checks in *. rewrite Ep, En, Et, Ev in *. cbv zeta in *.
  repeat match goal with H : bind ?a _ = Ok _ |- bind ?a _ = _ => destruct a; cbn [bind] in *; [|discriminate] end. reflexivity.
Qed.
Lemma inclusion_value o m fx c al : m_F m = None -> m_fx m = Some fx -> fx <> [] -> m_c m = Some c -> m_alpha m = Some al -> z_sizes m -> gS_given m = true \/ length fx <= length c ->
  o_pss o = Stewart \/ length (concat c) <> sumn al -> preprocess_model o m = Err EValueError.
Proof.
  intros EF Ef NE Ec Ea (Z1 & Z2 & Z3) N W. unfold preprocess_model. rewrite EF, Ef. cbn [opt_res bind]. replace (negb (length fx =? 0)) with true by (destruct fx; [contradiction|reflexivity]). cbn [guard bind].
  destruct (default_cases (m_z0 m) (m_nz m) 0%Q) as [[_ (z0 & ->)]|[X _]]; [|contradiction].
  destruct (default_cases (m_lbz m) (m_nz m) NInf) as [[_ (z1 & ->)]|[X _]]; [|contradiction].
  destruct (default_cases (m_ubz m) (m_nz m) PInf) as [[_ (z2 & ->)]|[X _]]; [|contradiction]. cbn [bind].
  destruct (nc_cases m (length fx)) as [[_ (nc & ->)]|[X _]]; [|exfalso; apply X; destruct N as [N|N]; [left; exact N|right; eauto]]. cbn [bind].
  unfold sanity_checks. rewrite EF, Ef, Ec, Ea. destruct (o_pss o); [reflexivity|]. cbn [guard bind opt_res]. destruct W as [W|W]; [discriminate|].
  apply Nat.eqb_neq in W. rewrite W. reflexivity.
Qed.
