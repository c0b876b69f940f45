-Q theories Verif

theories/Common.v
theories/LogR.v
theories/MargLogp_Model.v
theories/MargLogp_Spec.v
theories/MargLogp_Proofs.v
theories/MargLogp_Props.v
theories/Dims_Model.v
theories/DimsAlign_Model.v
theories/DimsAlign_Spec.v
theories/DimsAlign_Proofs.v
theories/DimsAlign_Props.v
theories/CondDep_Model.v
theories/CondDep_Spec.v
theories/CondDep_Proofs.v
theories/CondDep_Props.v
theories/MargState_Model.v
theories/MargState_Spec.v
theories/MargState_Proofs.v
theories/MargState_Props.v
theories/KalmanScan_Model.v
theories/KalmanScan_Spec.v
theories/KalmanScan_Proofs.v
theories/KalmanScan_Props.v
theories/McTac.v
theories/Kalman_Model.v
theories/Kalman_Spec.v
theories/Kalman_Proofs.v
theories/Kalman_Seq.v
theories/Kalman_Missing.v
theories/Kalman_Sqrt.v
theories/M22.v
theories/Kalman_Run.v
theories/Kalman_LL.v
theories/Kalman_Cases.v
theories/Kalman_Props.v
theories/Kalman_Props2.v
theories/Kalman_Props3.v
theories/McLia.v
theories/Sarima_Model.v
theories/Sarima_Spec.v
theories/Sarima_Proofs.v
theories/Sarima_Proofs2.v
theories/Sarima_Proofs3.v
theories/Sarima_Proofs4.v
theories/Sarima_Props.v
theories/Struct_Model.v
theories/Struct_Spec.v
theories/Struct_Proofs.v
theories/Struct_Season.v
theories/Struct_Freq.v
theories/Struct_Trend.v
theories/Struct_Sum.v
theories/Struct_Params.v
theories/Struct_Props.v
theories/Struct_Noise.v
theories/Multi_Model.v
theories/Multi_Spec.v
theories/Multi_Varma.v
theories/Multi_Ets.v
theories/Multi_Props.v
theories/Dmc_Model.v
theories/Dmc_Spec.v
theories/Dmc_Props.v
theories/Dist_Model.v
theories/Dist_Gev.v
theories/Dist_Props.v
theories/Cg_Model.v
theories/Cg_Props.v
theories/Pchol_Model.v
theories/Pchol_Props.v
theories/Kl_Model.v
theories/Kl_Props.v
theories/Pp_Model.v
theories/Pp_Props.v
theories/Dict.v
theories/Api_Model.v
theories/Api_Props.v
theories/Repr_Model.v
theories/Repr_Props.v
theories/Data_Model.v
theories/Data_Props.v
theories/Lgss_Model.v
theories/Lgss_Spec.v
theories/Lgss_Proofs.v
theories/Lgss_Props.v
theories/Fcst_Model.v
theories/Fcst_Props.v
theories/Mb_Model.v
theories/Mb_Props.v
theories/Prior_Model.v
theories/Prior_Props.v
theories/Hist_Model.v
theories/Hist_Props.v
theories/Vip_Model.v
theories/Vip_Props.v
theories/Flat_Model.v
theories/FindMap_Model.v
theories/Laplace_Model.v
theories/Smc_Model.v
theories/Flat_Props.v
theories/FindMap_Props.v
theories/Laplace_Props.v
theories/Smc_Props.v
theories/Pathf_Props.v
theories/Dims_Spec.v
theories/Dims_Proofs.v
theories/Dims_Props.v
theories/Spline_Model.v
theories/Spline_Props.v
theories/Build_Model.v
theories/Build_Proofs.v
theories/Build_Props.v
theories/BuildMatrices_Props.v
theories/Linear_Model.v
theories/Linear_Props.v
theories/Skellam_Model.v
theories/Skellam_Props.v
theories/Nested_Model.v
theories/Nested_Props.v
theories/LapCov_Model.v
theories/LapCov_Props.v
theories/Elim_Model.v
theories/Elim_Props.v
theories/Fdraw_Model.v
theories/Fdraw_Props.v
theories/RealMc.v
theories/Stat_Model.v
theories/Stat_Proofs.v
theories/Stat_Props.v
theories/StatEntries.v
theories/StatMulti_Props.v
theories/Joint_Spec.v
theories/Joint_Proofs.v
theories/Joint_Stack.v
theories/Joint_Run.v
theories/Joint_Std.v
theories/Joint_Smooth.v
theories/KalmanUni_Model.v
theories/Joint_Uni.v
theories/Joint_Nonsing.v
theories/Joint_Props.v
theories/Branch_Model.v
theories/Branch_Spec.v
theories/Branch_Proofs.v
theories/Branch_Series.v
theories/Branch_Moments.v
theories/Branch_Props.v
theories/Cons_Spec.v
theories/Cons_Proofs.v
theories/Cons_Std.v
theories/Cons_Uni.v
theories/Cons_Props.v
theories/KFloat_Model.v
theories/KFloat_Double.v
theories/KFloat_Props.v
theories/Chi_Analysis.v
theories/Chi_Model.v
theories/Chi_Spec.v
theories/Chi_Props.v
theories/R2D2_Model.v
theories/R2D2_Props.v
theories/FitLap_Model.v
theories/FitLap_Props.v
theories/Gam_Analysis.v
theories/Bnb_Spec.v
theories/Bnb_Analysis.v
theories/Bnb_Moments.v
theories/Bnb_Props.v
theories/Skellam_Moments.v
theories/Save_Model.v
theories/Save_Props.v
theories/Meta_Model.v
theories/Meta_Spec.v
theories/Meta_Props.v
theories/Meta_Ets.v
theories/Hist_Error.v
theories/Basel.v
theories/Gum_Analysis.v
theories/Gev_Spec.v
theories/Gev_Moments.v
theories/Dmc_Dist.v
theories/Dmc_DistProps.v
theories/Fcst_More.v
theories/Tight_A.v
theories/Meta_Coords.v
theories/Extract_Model.v
theories/Extract_Props.v
theories/SeqMvn_Model.v
theories/SeqMvn_Props.v
theories/Compile_Model.v
theories/Compile_Props.v
theories/Tight_B.v
theories/R2D2_Resid.v
theories/Vip_More.v
theories/Scaler_Model.v
theories/Scaler_Props.v
theories/Tight_C.v
theories/Tight_D.v
theories/Joint_Lim.v
theories/Joint_Jitter.v
theories/Joint_JitterSmooth.v
theories/Tight_E.v
theories/Joint_JitterSqrt.v
theories/Tight_F.v
theories/Tight_G.v
theories/Joint_JitterUni.v
theories/Nested_Tree.v
theories/Tight_H.v
theories/Filt_Model.v
theories/Filt_Props.v
theories/Equiv_Props.v
theories/Tight_I.v
theories/Tight_J.v
theories/Equiv_Uni.v
theories/Equiv_Off.v
theories/Equiv_UniLL.v
theories/Joint_TV.v
theories/Gev_Small.v
theories/Equiv_Smooth.v
theories/Joint_Shift.v
theories/Spline_More.v
