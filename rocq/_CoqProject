-Q theories Verif
theories/RFieldLra.v
theories/Prelude.v
theories/WeightedMedian_Model.v
theories/WeightedMedian_Spec.v
theories/WeightedMedian_Proofs.v
theories/WeightedMedian_Props.v
theories/Qn_Model.v
theories/Qn_Spec.v
theories/Qn_Proofs.v
theories/Qn_Props.v
theories/Stats.v
theories/Xnum.v
theories/RatFloor.v
theories/UMcd_Model.v
theories/UMcd_Spec.v
theories/UMcd_Proofs.v
theories/UMcd_Props.v
theories/Rho_Model.v
theories/Rho_Spec.v
theories/Rho_Proofs.v
theories/Rho_Props.v
theories/WMean.v
theories/OneStepM_Model.v
theories/OneStepM_Proofs.v
theories/OneStepM_Props.v
theories/Tau_Model.v
theories/Tau_Proofs.v
theories/Tau_Props.v
theories/Fit_Model.v
theories/Fit_Proofs.v
theories/Fit_Props.v
theories/Boxplot_Model.v
theories/Boxplot_Proofs.v
theories/Boxplot_Props.v
theories/Wrapping_Model.v
theories/Wrapping_Props.v
theories/Vec.v
theories/SD_Model.v
theories/SD_Proofs.v
theories/SD_Props.v
theories/Logger_Model.v
theories/Logger_Props.v
theories/L1Median_Model.v
theories/L1Median_Proofs.v
theories/L1Median_Props.v
theories/LinAlg_Model.v
theories/LinAlg_Proofs.v
theories/LinAlg_Props.v
theories/Cleaner_Model.v
theories/Cleaner_Proofs.v
theories/CleanerFit_Proofs.v
theories/Cleaner_Props.v
theories/XR.v
theories/Transfo_Model.v
theories/Transfo_Spec.v
theories/Transfo_Proofs.v
theories/TransfoRect_Proofs.v
theories/TransfoFit_Proofs.v
theories/Transfo_Props.v
theories/DDC_Model.v
theories/DDC_Spec.v
theories/DDC_Proofs.v
theories/DDCFit_Proofs.v
theories/DDCMore_Proofs.v
theories/DDCCheck_Proofs.v
theories/DDC_Props.v
theories/Regr.v
theories/Regr_Proofs.v
theories/LTS_Model.v
theories/LTS_Spec.v
theories/LTS_Proofs.v
theories/LTSFit_Proofs.v
theories/LTS_Props.v
theories/LTSCorr_Model.v
theories/LTSCorr_Proofs.v
theories/LTSCorr_Props.v
theories/SReg_Model.v
theories/SReg_Spec.v
theories/SReg_Proofs.v
theories/SRegFit_Proofs.v
theories/SReg_Props.v
theories/MM_Model.v
theories/MM_Spec.v
theories/MM_Proofs.v
theories/MM_Props.v
theories/PSD.v
theories/MCD_Model.v
theories/MCD_Spec.v
theories/MCD_Proofs.v
theories/MCDRun_Proofs.v
theories/MCDEquiv_Proofs.v
theories/MCDCase_Proofs.v
theories/MCD_Props.v
theories/OGK_Model.v
theories/OGK_Spec.v
theories/OGK_Proofs.v
theories/Eig2_Proofs.v
theories/OGK_Props.v
theories/Cov_Model.v
theories/Cov_Spec.v
theories/Cov_Proofs.v
theories/Cov_Props.v
theories/Gauss_Proofs.v
theories/CellMCD_Model.v
theories/CellMCD_Spec.v
theories/RInst.v
theories/CellMCD_Proofs.v
theories/CellMCD_Step_Proofs.v
theories/CellMCD_Loop_Proofs.v
theories/CellMCD_More_Proofs.v
theories/CellMCD_Props.v
theories/InitDDCW_Model.v
theories/InitDDCW_Spec.v
theories/InitDDCW_Proofs.v
theories/InitDDCW_Props.v
theories/PCA_Model.v
theories/PCA_Spec.v
theories/PCA_Proofs.v
theories/PCAExact_Proofs.v
theories/Spectral_Proofs.v
theories/PCA_Props.v
theories/SPCA_Proofs.v
theories/SPCA_Props.v
theories/Plot_Model.v
theories/Plot_Spec.v
theories/Plot_Proofs.v
theories/Plot_Props.v
theories/PlotFig_Props.v
theories/DetMCD_Model.v
theories/DetMCD_Spec.v
theories/DetMCD_Proofs.v
theories/DetMCDRun_Proofs.v
theories/DetMCD_Props.v
theories/RegMap_Model.v
theories/RegMap_Proofs.v
theories/RegMap_Props.v
theories/PCAFinal_Props.v
theories/SRegInit_Props.v
theories/MCDParam_Props.v
theories/CellFit_Model.v
theories/CellFit_Props.v
