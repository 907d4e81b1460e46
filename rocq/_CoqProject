-Q theories Verif
theories/Base.v
theories/LoadAgg_Model.v
theories/LoadAgg_Spec.v
theories/LoadAgg_CJ_Proofs.v
theories/LoadAgg_MLAA_Proofs.v
theories/LoadAgg_Liu_Proofs.v
theories/LoadAgg_Props.v
theories/TimeGrid_Model.v
theories/TimeGrid_Spec.v
theories/TimeGrid_Proofs.v
theories/TimeGrid_Geo_Proofs.v
theories/SegRatios_Proofs.v
theories/TimeGrid_Props.v
theories/Bore_Model.v
theories/Bore_Spec.v
theories/Bore_Proofs.v
theories/UniqueDist_Proofs.v
theories/Bore_Props.v
theories/Field_Model.v
theories/Field_Spec.v
theories/Field_Proofs.v
theories/FieldLayout_Proofs.v
theories/FieldStag_Proofs.v
theories/Field_Props.v
theories/LinAlg.v
theories/Net_Model.v
theories/Net_Spec.v
theories/Net_Proofs.v
theories/Net_Coef_Proofs.v
theories/Net_Heat_Proofs.v
theories/Net_Cache_Proofs.v
theories/Net_More_Proofs.v
theories/Net_Equiv_Proofs.v
theories/Net_Extra_Proofs.v
theories/Net_Props.v
theories/Pipe_Model.v
theories/Pipe_Spec.v
theories/Pipe_Alg_Proofs.v
theories/Pipe_Proofs.v
theories/Pipe_Main_Proofs.v
theories/Pipe_Flow_Proofs.v
theories/Pipe_Unique_Proofs.v
theories/PipeCache_Model.v
theories/PipeCache_Spec.v
theories/PipeCache_Proofs.v
theories/Pipe_Props.v
theories/LinInv.v
theories/Res_Model.v
theories/Res_Spec.v
theories/Res_Proofs.v
theories/Res_Passive_Proofs.v
theories/Res_Geom_Proofs.v
theories/Res_Mult_Proofs.v
theories/Res_Inv_Proofs.v
theories/Res_Wall_Proofs.v
theories/Res_Props.v
theories/Conv_Model.v
theories/Conv_Spec.v
theories/Conv_Proofs.v
theories/Conv_Main_Proofs.v
theories/Conv_Props.v
theories/FLS_Model.v
theories/FLS_Spec.v
theories/FLS_Erf_Proofs.v
theories/FLS_Proofs.v
theories/FLS_Sol_Proofs.v
theories/FLS_Line_Proofs.v
theories/FLS_Steady_Proofs.v
theories/FLS_Incl_Proofs.v
theories/FLS_Incl_Steady_Proofs.v
theories/FLS_Exact_Proofs.v
theories/FLS_More_Proofs.v
theories/FLS_Heat_Proofs.v
theories/FLS_Props.v
theories/Solve_Model.v
theories/Solve_Spec.v
theories/Solve_Rec_Proofs.v
theories/Solve_Loop_Proofs.v
theories/Solve_Eq_Proofs.v
theories/Solve_Sol_Proofs.v
theories/Solve_Extra_Proofs.v
theories/Solve_Props.v
theories/Detailed_Model.v
theories/Detailed_Spec.v
theories/Detailed_Proofs.v
theories/Detailed_Sol_Proofs.v
theories/Detailed_Props.v
theories/Sim_Model.v
theories/Sim_Spec.v
theories/Sim_Dist_Proofs.v
theories/Sim_Group_Proofs.v
theories/Sim_Cells_Proofs.v
theories/Sim_Matrix_Proofs.v
theories/Sim_Exact_Proofs.v
theories/Sim_Sol_Proofs.v
theories/Sim_All_Proofs.v
theories/Sim_Fill_Proofs.v
theories/Sim_Kernel_Proofs.v
theories/Sim_Incl_Proofs.v
theories/Sim_Single_Proofs.v
theories/Sim_Skew_Proofs.v
theories/Sim_Flat_Proofs.v
theories/Sim_Step_Proofs.v
theories/Sim_Final_Proofs.v
theories/Sim_Props.v
theories/Eq_Model.v
theories/Eq_Spec.v
theories/Eq_Group_Proofs.v
theories/Eq_Cluster_Proofs.v
theories/Eq_Mix_Proofs.v
theories/Eq_Dist_Proofs.v
theories/Eq_Field_Proofs.v
theories/Eq_Block_Proofs.v
theories/Eq_Main_Proofs.v
theories/Eq_Heat_Proofs.v
theories/Eq_Lump_Proofs.v
theories/Eq_Sym_Proofs.v
theories/Eq_Square_Proofs.v
theories/Eq_Final_Proofs.v
theories/Eq_Props.v
theories/GFun_Model.v
theories/GFun_Spec.v
theories/GFun_Causal_Proofs.v
theories/GFun_Eval_Proofs.v
theories/GFun_Start_Proofs.v
theories/GFun_Dispatch_Proofs.v
theories/GFun_Methods_Proofs.v
theories/GFun_Field_Proofs.v
theories/GFun_Uniform_Proofs.v
theories/GFun_Times_Proofs.v
theories/GFun_Pair_Proofs.v
theories/GFun_Two_Proofs.v
theories/GFun_Exist_Proofs.v
theories/GFun_Mift_Proofs.v
theories/GFun_Flow_Proofs.v
theories/GFun_Rows_Proofs.v
theories/GFun_Total_Proofs.v
theories/GFun_Legacy_Proofs.v
theories/GFun_Props.v
theories/Multi_Model.v
theories/Multi_Spec.v
theories/Multi_Ode_Proofs.v
theories/Multi_Profile_Proofs.v
theories/Multi_Energy_Proofs.v
theories/Multi_Setup_Proofs.v
theories/Multi_Main_Proofs.v
theories/Multi_Query_Proofs.v
theories/Multi_Max_Proofs.v
theories/Multi_Sym_Proofs.v
theories/Multi_Turn_Proofs.v
theories/Multi_Net_Proofs.v
theories/Multi_Ex_Proofs.v
theories/Multi_Props.v
theories/Passive_Spec.v
theories/Passive_Pipe_Proofs.v
theories/Passive_Net_Proofs.v
theories/Passive_GFun_Proofs.v
theories/Passive_Props.v
theories/Approx_Model.v
theories/Approx_Spec.v
theories/Approx_Table.v
theories/Approx_Int_Proofs.v
theories/Approx_Proofs.v
theories/Approx_Incl_Proofs.v
theories/Approx_Num_Proofs.v
theories/Approx_Erf_Proofs.v
theories/Approx_List_Proofs.v
theories/Approx_Props.v
theories/Prof_Model.v
theories/Prof_Spec.v
theories/Prof_Proofs.v
theories/Prof_Call_Proofs.v
theories/Prof_Main_Proofs.v
theories/Prof_Field_Proofs.v
theories/Prof_Fig_Proofs.v
theories/Prof_Depth_Proofs.v
theories/Prof_Shape_Proofs.v
theories/Prof_Last_Proofs.v
theories/Prof_Neg_Proofs.v
theories/Prof_Axis_Proofs.v
theories/Prof_Trio_Proofs.v
theories/Prof_Props.v
theories/Def_Psd_Proofs.v
theories/Def_Kernel_Proofs.v
theories/Def_Pack_Proofs.v
theories/Def_Main_Proofs.v
theories/Def_Spec.v
theories/Def_Field_Proofs.v
theories/Def_Object_Proofs.v
theories/Def_Props.v
theories/Whole_Model.v
theories/Whole_Spec.v
theories/Whole_Proofs.v
theories/Whole_Field_Proofs.v
theories/Whole_Props.v
theories/Sym_Spec.v
theories/Sym_Geo_Proofs.v
theories/Sym_Det_Proofs.v
theories/Sym_Sim_Proofs.v
theories/Sym_Incl_Proofs.v
theories/Sym_Eq_Proofs.v
theories/Sym_Move_Proofs.v
theories/Sym_Time_Proofs.v
theories/Sym_Perm_Proofs.v
theories/Sym_Order_Proofs.v
theories/Sym_Props.v
theories/Unit_Spec.v
theories/Unit_Geo_Proofs.v
theories/Unit_Main_Proofs.v
theories/Unit_Props.v
theories/Space_Spec.v
theories/Space_Proofs.v
theories/Space_Top_Proofs.v
theories/Space_Props.v
theories/Mift_Spec.v
theories/Mift_Lump_Proofs.v
theories/Mift_Net_Proofs.v
theories/Mift_Top_Proofs.v
theories/Mift_Props.v
theories/Cross_Model.v
theories/Cross_Spec.v
theories/Cross_Kernel_Proofs.v
theories/Cross_Roots_Proofs.v
theories/Cross_Psd_Proofs.v
theories/Cross_Form_Proofs.v
theories/Cross_Multi_Proofs.v
theories/Cross_Props.v
theories/Cross_Eff_Proofs.v
theories/Under_Spec.v
theories/Under_Proofs.v
theories/Under_Fls_Proofs.v
theories/Under_Main_Proofs.v
theories/Under_Props.v
theories/Under_Block_Proofs.v
theories/Under_Block_Props.v
theories/Flow_Proofs.v
theories/Flow_Props.v
theories/Media_Model.v
theories/Media_Spec.v
theories/Media_Proofs.v
theories/Media_Props.v
theories/NetR_Proofs.v
theories/NetR_Props.v
theories/NetR_Spec.v
theories/NetFlow_Proofs.v
theories/NetFlow_Props.v
theories/NetOrder_Proofs.v
theories/NetOrder_Props.v
theories/Refine_Spec.v
theories/Refine_Proofs.v
theories/Refine_Field_Proofs.v
theories/Refine_Props.v
theories/Rise_Proofs.v
theories/Rise_Props.v
theories/Add_Spec.v
theories/Add_Proofs.v
theories/Add_Field_Proofs.v
theories/Add_Props.v
theories/Recip_Proofs.v
theories/Recip_Props.v
theories/Order_Spec.v
theories/Order_Proofs.v
theories/Order_Object_Proofs.v
theories/Order_Net_Proofs.v
theories/Order_Field_Proofs.v
theories/Order_Pair_Proofs.v
theories/Order_Series_Proofs.v
theories/Order_Props.v
theories/Gen_Model.v
theories/Gen_Proofs.v
theories/Gen_Props.v
theories/Exp1_Model.v
theories/Exp1_Int_Proofs.v
theories/Exp1_Num_Proofs.v
theories/Exp1_Proofs.v
theories/Exp1_Props.v
theories/Alias_Model.v
theories/Alias_Spec.v
theories/Alias_Proofs.v
theories/Alias_Props.v
theories/MRecip_Proofs.v
theories/MRecip_Props.v
theories/NetRecip_Spec.v
theories/NetRecip_Proofs.v
theories/NetRecip_Props.v
theories/Compass_Model.v
theories/Compass_Spec.v
theories/Compass_Proofs.v
theories/Compass_Props.v
theories/NetAlias_Model.v
theories/NetAlias_Spec.v
theories/NetAlias_Proofs.v
theories/NetAlias_Props.v
theories/Agg_Spec.v
theories/Agg_Lin_Proofs.v
theories/Agg_Proofs.v
theories/Agg_Props.v
theories/Horizon_Proofs.v
theories/Horizon_Props.v
theories/Group_Spec.v
theories/Group_Proofs.v
theories/Group_Props.v
theories/Steps_Model.v
theories/Steps_Proofs.v
theories/Steps_Props.v
theories/Vary_Spec.v
theories/Vary_Proofs.v
theories/Vary_Props.v
theories/Blur_Proofs.v
theories/Blur_Props.v
theories/Current_Proofs.v
theories/Current_Props.v
theories/Swap_Proofs.v
theories/Swap_Pair_Proofs.v
theories/Swap_Props.v
theories/Coincide_Proofs.v
theories/Coincide_Props.v
theories/Assemble_Spec.v
theories/Assemble_Proofs.v
theories/Assemble_Props.v
