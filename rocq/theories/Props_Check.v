(* Props_Check.v -- C109, C67: which exceptions malformed models and OCPs raise *)
From Coq Require Import Reals Qreals.
From Verif Require Import Base Sx Utils Tableau Opts Model Ocp Spec Cases Fesd Spec2 Spec3 Witness2 Spec38 Check_proofs Check2_proofs Check3_proofs.

(* ---- C109 ---- *)
(* Warning: exactly for a matrix with one column, after the sizes of z0, lbz, ubz and the number of switching functions *)
Theorem C109_warning o m F : m_F m = Some F -> F <> [] -> rectangular F ->
  (preprocess_model o m = Err EWarning <-> z_sizes m /\ switching_given m (length F) /\ ~ no_single_mode F).
Proof. exact (raises_warning o m F). Qed.
Print Assumptions C109_warning.
(* Exception: exactly for parameter values of the wrong shape, after all other checks *)
Theorem C109_exception o m F : m_F m = Some F -> F <> [] -> rectangular F ->
  (preprocess_model o m = Err EException <-> z_sizes m /\ switching_given m (length F) /\ no_single_mode F /\ mode_sizes o m F /\ ~ parameter_sizes o m).
Proof. exact (raises_exception o m F). Qed.
Print Assumptions C109_exception.
(* ValueError: only for the sizes of z0, lbz, ubz, for F, c, S or g_Stewart that do not fit, or for time freezing without t_var;
   always in the first case, and in the second when g_Stewart has no surplus entries *)
Theorem C109_value o m F : m_F m = Some F -> F <> [] -> rectangular F ->
  (preprocess_model o m = Err EValueError -> ~ z_sizes m \/
    z_sizes m /\ switching_given m (length F) /\ no_single_mode F /\ ~ mode_sizes o m F \/
    z_sizes m /\ switching_given m (length F) /\ no_single_mode F /\ mode_sizes o m F /\ parameter_sizes o m /\ o_time_freezing o = true /\ m_tvar m = None) /\
  (~ z_sizes m -> preprocess_model o m = Err EValueError) /\
  (z_sizes m -> switching_given m (length F) -> no_single_mode F -> ~ mode_sizes o m F -> no_surplus o m F -> preprocess_model o m = Err EValueError).
Proof. exact (raises_value o m F). Qed.
Print Assumptions C109_value.
(* a model that is accepted without time freezing raises ValueError with time freezing, when it has no t_var *)
Theorem C109_freezing o o' m : (exists pm, preprocess_model o m = Ok pm) -> o_pss o' = o_pss o -> o_N_stages o' = o_N_stages o -> o_time_freezing o' = true -> m_tvar m = None ->
  preprocess_model o' m = Err EValueError.
Proof. exact (raises_freezing o o' m). Qed.
Print Assumptions C109_freezing.
(* general inclusions: ValueError with Stewart, and when c and alpha have different sizes *)
Theorem C109_inclusion o m fx c al : m_F m = None -> m_fx m = Some fx -> fx <> [] -> m_c m = Some c -> m_alpha m = Some al -> z_sizes m -> gS_given m = true \/ length fx <= length c ->
  o_pss o = Stewart \/ length (concat c) <> sumn al -> preprocess_model o m = Err EValueError.
Proof. exact (inclusion_value o m fx c al). Qed.
Print Assumptions C109_inclusion.
(* fewer switching functions than matrices: an IndexError before the check of their number *)
Theorem C109_index o m F : m_F m = Some F -> F <> [] -> rectangular F -> z_sizes m -> (exists c, m_c m = Some c /\ length c < length F) /\ gS_given m = false ->
  preprocess_model o m = Err EIndexError.
Proof. exact (raises_index o m F). Qed.
Print Assumptions C109_index.
Example C109_case : is_ok (preprocess_model default_opts raw_good) = true /\ preprocess_model default_opts raw_single = Err EWarning /\
  preprocess_model default_opts raw_z0 = Err EValueError /\ preprocess_model default_opts raw_S = Err EValueError /\ preprocess_model default_opts raw_g = Err EValueError /\
  preprocess_model default_opts raw_pg = Err EException /\ preprocess_model default_opts raw_ptv = Err EException /\ preprocess_model default_opts raw_c = Err EIndexError.
Proof. exact raised. Qed.
Example C109_case_freezing : preprocess_model (with_freezing default_opts) raw_good = Err EValueError /\ rectangular [pm2] /\ rectangular [pm2; pm2].
Proof. exact (conj raised_freezing (conj (pm2_rect 1) (pm2_rect 2))). Qed.
(* malformed models for which no check raises: g_Stewart with too few or too many entries (IndexError), S with too many columns (an error of CasADi) *)
Theorem C109_checks_refuted :
  (exists m F, m_F m = Some F /\ rectangular F /\ z_sizes m /\ switching_given m (length F) /\ no_single_mode F /\ mode_sizes default_opts m F /\ parameter_sizes default_opts m /\
     preprocess_model default_opts m = Err EIndexError) /\
  (exists m F, m_F m = Some F /\ rectangular F /\ z_sizes m /\ switching_given m (length F) /\ no_single_mode F /\ mode_sizes default_opts m F /\ parameter_sizes default_opts m /\
     preprocess_model default_opts m = Err ECasadi) /\
  (exists m F, m_F m = Some F /\ rectangular F /\ ~ mode_sizes default_opts m F /\ preprocess_model default_opts m = Err EIndexError).
Proof.
  split; [|split].
  - exists raw_few, [pm2; pm2]. exact (conj eq_refl (conj (pm2_rect 2) raw_few_passes)).
  - exists raw_cols, [pm2]. exact (conj eq_refl (conj (pm2_rect 1) raw_cols_passes)).
  - exists raw_many, [pm2]. exact (conj eq_refl (conj (pm2_rect 1) raw_many_fails)).
Qed.
Print Assumptions C109_checks_refuted.

(* ---- C67 ---- *)
(* an error of CasADi exactly for functions with foreign symbols, then ValueError exactly for bounds on g_path, x, u or a guess of u of the wrong length,
   then Exception exactly for bounds or a guess of v_global of the wrong length; nothing else is raised *)
Theorem C67_errors pm oc :
  (preprocess_ocp pm oc = Err ECasadi <-> ~ ocp_fits pm (functions_of oc)) /\
  (preprocess_ocp pm oc = Err EValueError <-> ocp_fits pm (functions_of oc) /\ ~ ocp_value_sizes (pm_m pm) oc) /\
  (preprocess_ocp pm oc = Err EException <-> ocp_fits pm (functions_of oc) /\ ocp_value_sizes (pm_m pm) oc /\ ~ ocp_global_sizes (pm_m pm) oc) /\
  forall e, preprocess_ocp pm oc = Err e -> e = ECasadi \/ e = EValueError \/ e = EException.
Proof. exact (ocp_errors pm oc). Qed.
Print Assumptions C67_errors.
