-Q theories Verif

theories/Common.v
theories/TimeIndex_Model.v
theories/TimeIndex_Proofs.v
theories/TimeIndex_Props.v
theories/Expr_Model.v
theories/Expr_Spec.v
theories/Expr_Lex.v
theories/Expr_Proofs.v
theories/Expr_RoundTrip.v
theories/Expr_Cases.v
theories/Expr_Props.v
theories/ExpandTime_Model.v
theories/ExpandTime_Spec.v
theories/ExpandTime_Proofs.v
theories/ExpandTime_More.v
theories/ExpandTime_Props.v
theories/Sym_Model.v
theories/Sym_Spec.v
theories/Sym_Proofs.v
theories/Sym_Diff.v
theories/Sym_Flatten.v
theories/Sym_More.v
theories/Sym_Props.v
theories/SymDict_Model.v
theories/SymDict_Spec.v
theories/SymDict_Proofs.v
theories/SymDict_More.v
theories/SymDict_Props.v
theories/Block_Model.v
theories/Block_Spec.v
theories/Block_Proofs.v
theories/Block_Lagr.v
theories/Block_Foc.v
theories/Block_Solve.v
theories/Block_Params.v
theories/Block_Final.v
theories/Block_Props.v
theories/Closed_Model.v
theories/Closed_Spec.v
theories/Closed_Proofs.v
theories/Closed_Forms.v
theories/Closed_Final.v
theories/Closed_Props.v
theories/Sort_Lib.v
theories/Build_Model.v
theories/Build_Spec.v
theories/Build_Proofs.v
theories/Build_Order.v
theories/Build_Dist.v
theories/Build_Props.v
theories/SS_Spec.v
theories/SS_Model.v
theories/SS_Proofs.v
theories/SS_Filter.v
theories/SS_Driver.v
theories/SS_DriverProofs.v
theories/SS_Bounds.v
theories/SS_Props.v
theories/Lin_Spec.v
theories/Lin_Model.v
theories/Lin_Proofs.v
theories/Lin_Main.v
theories/Lin_Results.v
theories/Lin_Props.v
theories/LA_Spec.v
theories/LA_Model.v
theories/LA_Proofs.v
theories/LA_Main.v
theories/LA_Props.v
theories/LA_Adj.v
theories/LA_Props2.v
theories/LA_GModel.v
theories/LA_GSpec.v
theories/LA_GProofs.v
theories/LA_GMain.v
theories/LA_GProps.v
theories/LA_GCase_Props.v
theories/LA_BModel.v
theories/LA_BProofs.v
theories/LA_BProps.v
theories/LA_EModel.v
theories/LA_EProofs.v
theories/LA_EProps.v
theories/LA_EProps2.v
theories/Ten_Model.v
theories/Ten_Spec.v
theories/Ten_Proofs.v
theories/Ten_Block.v
theories/Ten_Rewrites.v
theories/Ten_Diag.v
theories/Ten_Props.v
theories/Conv_Model.v
theories/Conv_Spec.v
theories/Conv_Proofs.v
theories/Conv_Runs.v
theories/Conv_Wire.v
theories/Conv_Props.v
theories/Comp_Model.v
theories/Comp_Proofs.v
theories/Comp_Pack.v
theories/Comp_Props.v
theories/Acf_Model.v
theories/Acf_Spec.v
theories/Acf_Props.v
theories/Mix_Model.v
theories/Mix_Spec.v
theories/Mix_Proofs.v
theories/Mix_Props.v
theories/Err_Model.v
theories/Err_Spec.v
theories/Err_Proofs.v
theories/Err_Props.v
theories/Sim_Model.v
theories/Sim_Spec.v
theories/Sim_Proofs.v
theories/Sim_Props.v
theories/Sim_MProps.v
theories/Sim_Case_Props.v
theories/Diag_Model.v
theories/Diag_Proofs.v
theories/Diag_Props.v
theories/PF_Model.v
theories/PF_Assemble.v
theories/PF_Spec.v
theories/PF_Proofs.v
theories/PF_System.v
theories/PF_Request.v
theories/PF_Prepare.v
theories/PF_Props.v
theories/PF_More_Props.v
theories/SR_Model.v
theories/SR_Spec.v
theories/SR_Proofs.v
theories/SR_Props.v
theories/SR_Search_Props.v
theories/SR_Trust_Proofs.v
theories/SR_Trust_Props.v
theories/SR_Reuse_Props.v
theories/Kal_Model.v
theories/Kal_Spec.v
theories/Kal_Proofs.v
theories/Kal_Config.v
theories/Kal_Trans.v
theories/Kal_Obs.v
theories/Kal_Lin.v
theories/Kal_Props.v
theories/Kal_Accept.v
theories/Kal_Props2.v
theories/Dyn_Model.v
theories/Dyn_Spec.v
theories/Dyn_Proofs.v
theories/Dyn_Print.v
theories/Dyn_Main.v
theories/Dyn_Names.v
theories/Dyn_Props.v
theories/Simp_Model.v
theories/Simp_Spec.v
theories/Simp_Proofs.v
theories/Simp_More.v
theories/Simp_Props.v
theories/Val_Model.v
theories/Val_Spec.v
theories/Val_Proofs.v
theories/Val_Props.v
theories/Gcn_Lex.v
theories/Gcn_Model.v
theories/Gcn_Spec.v
theories/Gcn_Basic.v
theories/Gcn_Sim.v
theories/Gcn_Layout.v
theories/Gcn_Closed.v
theories/Gcn_Proofs.v
theories/Gcn_Expr.v
theories/Gcn_Props.v
theories/Gcn_Grammar.v
theories/Gcn_Sound.v
theories/Gcn_Complete.v
theories/Gcn_Complete2.v
theories/Gcn_Complete3.v
theories/Gcn_Complete4.v
theories/Gcn_Complete5.v
theories/Gcn_Meaning.v
theories/Gcn_Build.v
theories/Gcn_Props2.v
theories/Gcn_NoHash.v
theories/Gcn_Print.v
theories/Gcn_Print2.v
theories/Gcn_Print3.v
theories/Gcn_Parsed.v
theories/Gcn_Props3.v
theories/Load_Model.v
theories/Load_Spec.v
theories/Load_Proofs.v
theories/Load_Proofs2.v
theories/Load_Proofs3.v
theories/Load_Props.v
theories/Sens_Model.v
theories/Sens_Spec.v
theories/Sens_Proofs.v
theories/Sens_Props.v
theories/Fig_Model.v
theories/Fig_Props.v
theories/Eplot_Model.v
theories/Eplot_Props.v
theories/Get_Model.v
theories/Get_Props.v
theories/Pz_Model.v
theories/Pz_Props.v
theories/Vis_Model.v
theories/Vis_Spec.v
theories/Vis_Proofs.v
theories/Vis_Props.v
theories/Lru_Model.v
theories/Lru_Props.v
theories/Tens_Model.v
theories/Tens_Spec.v
theories/Tens_Proofs.v
theories/Tens_Props.v
theories/Seed_Model.v
theories/Seed_Props.v
theories/Errs_Model.v
theories/Errs_Props.v
theories/Dfp_Model.v
theories/Dfp_Props.v
theories/Cls_Model.v
theories/Cls_Props.v
theories/Pym_Model.v
theories/Pym_Props.v
theories/Rep_Model.v
theories/Rep_Proofs.v
theories/Rep_Props.v
theories/Lfoc_Spec.v
theories/Lfoc_Proofs.v
theories/Lfoc_Props.v
theories/Nun_Model.v
theories/Nun_Props.v
theories/Pmq_Model.v
theories/Pmq_Props.v
theories/Fmt_Model.v
theories/Fmt_Props.v
theories/Panel_Model.v
theories/Panel_Props.v
theories/Simlin_Props.v
theories/Dec_Lib.v
theories/Exc_Model.v
theories/Exc_Props.v
theories/Pos_Model.v
theories/Pos_Props.v
theories/Plots_Model.v
theories/Plots_Props.v
theories/Rx_Model.v
theories/Rx_Props.v
theories/Stst_Model.v
theories/Stst_Props.v
theories/Irf_Model.v
theories/Irf_Props.v
theories/Xerr_Model.v
theories/Xerr_Props.v
theories/Node_Model.v
theories/Node_Props.v
