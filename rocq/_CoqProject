-Q theories Verif
theories/Base.v
theories/Sx.v
theories/Utils.v
theories/TableauData.v
theories/Tableau.v
theories/Opts.v
theories/Model.v
theories/Ocp.v
theories/Problem.v
theories/Spec.v
theories/Cases.v
theories/Lib.v
theories/Sx_proofs.v
theories/Spec13.v
theories/Fo_proofs.v
theories/Fe_proofs.v
theories/FeMake_proofs.v
theories/FeSel_proofs.v
theories/FeZero_proofs.v
theories/Prob_proofs.v
theories/Coll_proofs.v
theories/Body_proofs.v
theories/Model_proofs.v
theories/Fesd.v
theories/Utils_proofs.v
theories/Opts_proofs.v
theories/Tableau_proofs.v
theories/Poly_proofs.v
theories/Props_Utils.v
theories/Props_Opts.v
theories/Props_Tableau.v
theories/Con_proofs.v
theories/Index_proofs.v
theories/Index2_proofs.v
theories/Index3_proofs.v
theories/Props_Index.v
theories/Sem_proofs.v
theories/Dcs_proofs.v
theories/Point_proofs.v
theories/Elem_proofs.v
theories/Nlp_proofs.v
theories/IndComp_proofs.v
theories/Spec2.v
theories/Feas_proofs.v
theories/Feas2_proofs.v
theories/Feas3_proofs.v
theories/Feas4_proofs.v
theories/Witness.v
theories/Feas5_proofs.v
theories/Feas6_proofs.v
theories/Props_Nlp.v
theories/Numeric.v
theories/Extras.v
theories/Spec15.v
theories/Spec3.v
theories/Mode_proofs.v
theories/Lam_proofs.v
theories/Smooth_proofs.v
theories/Accept_proofs.v
theories/Accept2_proofs.v
theories/Witness2.v
theories/Smooth2_proofs.v
theories/Props_Dcs.v
theories/Rk4.v
theories/Results.v
theories/Solver.v
theories/Looper.v
theories/Spec4.v
theories/Results_proofs.v
theories/Results2_proofs.v
theories/Results3_proofs.v
theories/Results4_proofs.v
theories/Results5_proofs.v
theories/Props_Results.v
theories/Spec5.v
theories/Solve_proofs.v
theories/Solve2_proofs.v
theories/Vec_proofs.v
theories/Syms_proofs.v
theories/Bounds_proofs.v
theories/Guess_proofs.v
theories/Spec14.v
theories/ExistBase_proofs.v
theories/Exist_proofs.v
theories/ExistStep_proofs.v
theories/Exist2_proofs.v
theories/Exist3_proofs.v
theories/Exist4_proofs.v
theories/Exist5_proofs.v
theories/Init_proofs.v
theories/Init2_proofs.v
theories/Start_proofs.v
theories/Progress_proofs.v
theories/Set_proofs.v
theories/Hist_proofs.v
theories/Field_proofs.v
theories/Field2_proofs.v
theories/Sigma_proofs.v
theories/Polish_proofs.v
theories/Param_proofs.v
theories/Fix_proofs.v
theories/Solve3_proofs.v
theories/Solve4_proofs.v
theories/Witness3.v
theories/Closed_proofs.v
theories/Props_Solver.v
theories/Spec6.v
theories/Looper_proofs.v
theories/Witness4.v
theories/Props_Looper.v
theories/Rk4_proofs.v
theories/Props_Rk4.v
theories/RkInit_proofs.v
theories/Witness5.v
theories/Props_RkInit.v
theories/AutoModel.v
theories/Spec7.v
theories/Auto_proofs.v
theories/Auto2_proofs.v
theories/Auto3_proofs.v
theories/Reuse_proofs.v
theories/Witness6.v
theories/Props_Auto.v
theories/Spec8.v
theories/Total_proofs.v
theories/Total2_proofs.v
theories/Total3_proofs.v
theories/Witness7.v
theories/Witness8.v
theories/Spec9.v
theories/Filippov_proofs.v
theories/Filippov2_proofs.v
theories/Filippov3_proofs.v
theories/Filippov4_proofs.v
theories/Props_Filippov.v
theories/Spec10.v
theories/Spec11.v
theories/Spec12.v
theories/Exact_proofs.v
theories/Exact2_proofs.v
theories/Exact3_proofs.v
theories/Props_Exact.v
theories/Props_Total.v
theories/Props_Misc.v
theories/VField_proofs.v
theories/Root_proofs.v
theories/Props_Exist.v
theories/Props_Extras.v
theories/Props_Guess.v
theories/Props_IndComp.v
theories/Plot.v
theories/Spec16.v
theories/Report_proofs.v
theories/Plot_proofs.v
theories/Witness9.v
theories/Props_Report.v
theories/Spec17.v
theories/Pin_proofs.v
theories/Witness10.v
theories/Props_Polish.v
theories/Spec18.v
theories/Spec19.v
theories/Sim_proofs.v
theories/Sim2_proofs.v
theories/Sim3_proofs.v
theories/Sim4_proofs.v
theories/Sim5_proofs.v
theories/Sim6_proofs.v
theories/Props_Sim.v
theories/Spec20.v
theories/Soft_proofs.v
theories/Soft2_proofs.v
theories/Props_Soft.v
theories/Auto4_proofs.v
theories/Spec21.v
theories/Conv_proofs.v
theories/Conv2_proofs.v
theories/Conv3_proofs.v
theories/Conv4_proofs.v
theories/Conv5_proofs.v
theories/Props_Conv.v
theories/Spec22.v
theories/Conv6_proofs.v
theories/Conv7_proofs.v
theories/Conv8_proofs.v
theories/Props_Order.v
theories/Spec23.v
theories/Detect_proofs.v
theories/Detect2_proofs.v
theories/Detect3_proofs.v
theories/Props_Detect.v
theories/Spec24.v
theories/Relax_proofs.v
theories/Relax2_proofs.v
theories/Relax3_proofs.v
theories/Relax5_proofs.v
theories/Relax4_proofs.v
theories/Props_Relax.v
theories/Spec25.v
theories/Cost_proofs.v
theories/Cost2_proofs.v
theories/Cost3_proofs.v
theories/Props_Cost.v
theories/Spec26.v
theories/Option_proofs.v
theories/Option2_proofs.v
theories/Option3_proofs.v
theories/Props_Option.v
theories/Spec27.v
theories/Run_proofs.v
theories/Run2_proofs.v
theories/Run3_proofs.v
theories/Props_Run.v
theories/Spec28.v
theories/Hord1_proofs.v
theories/Hord2_proofs.v
theories/Hord3_proofs.v
theories/Hord4_proofs.v
theories/Hord5_proofs.v
theories/Props_Hord.v
theories/Spec29.v
theories/Steps_proofs.v
theories/Steps2_proofs.v
theories/Props_Steps.v
theories/Spec30.v
theories/Homot_proofs.v
theories/Homot2_proofs.v
theories/Homot3_proofs.v
theories/Homot4_proofs.v
theories/Homot5_proofs.v
theories/Props_Homot.v
theories/Spec31.v
theories/Optim_proofs.v
theories/Optim2_proofs.v
theories/Props_Optim.v
theories/Spec32.v
theories/Even_proofs.v
theories/Even2_proofs.v
theories/Props_Even.v
theories/Spec33.v
theories/Atomic_proofs.v
theories/Atomic2_proofs.v
theories/Props_Atomic.v
theories/Spec34.v
theories/Hord6_proofs.v
theories/Hord7_proofs.v
theories/Hord8_proofs.v
theories/Hord9_proofs.v
theories/Props_Hsim.v
theories/Spec35.v
theories/Spec36.v
theories/Weier_proofs.v
theories/Weier2_proofs.v
theories/Weier3_proofs.v
theories/Props_Weier.v
theories/Spec37.v
theories/Picard_proofs.v
theories/Picard2_proofs.v
theories/Picard3_proofs.v
theories/Picard4_proofs.v
theories/Picard5_proofs.v
theories/Picard6_proofs.v
theories/Props_Picard.v
theories/Spec38.v
theories/Check_proofs.v
theories/Check2_proofs.v
theories/Check3_proofs.v
theories/Props_Check.v
theories/Forward_proofs.v
theories/Props_Forward.v
theories/Mono_proofs.v
theories/Mono2_proofs.v
theories/Mono3_proofs.v
theories/Props_Mono.v
theories/Spec39.v
theories/Unused_proofs.v
theories/Props_Unused.v
theories/Spec40.v
theories/Rebuild_proofs.v
theories/Props_Rebuild.v
theories/Opts2_proofs.v
theories/Spec41.v
theories/Fresh_proofs.v
theories/Fresh2_proofs.v
theories/Props_Fresh.v
theories/Sigma3_proofs.v
theories/Props_Sigma.v
