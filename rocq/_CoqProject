-Q theories Verif
theories/Outcome.v
theories/SortModel.v
theories/SortSpec.v
theories/SortProofs.v
theories/ClusterModel.v
theories/ClusterSpec.v
theories/ClusterProofs.v
theories/GroupModel.v
theories/GroupSpec.v
theories/GroupProofs.v
theories/Prop_Util.v
theories/MatLib.v
theories/BlockLib.v
theories/MatSpec.v
theories/FormulaModel.v
theories/FormulaProofs.v
theories/Prop_Formula.v
theories/SrcFormulaModel.v
theories/SrcFormulaProofs.v
theories/Prop_SrcFormula.v
theories/RmatModel.v
theories/RmatSpec.v
theories/RmatProofs.v
theories/Prop_Rmat.v
theories/DetMatModel.v
theories/DetMatSpec.v
theories/DetMatSide.v
theories/DetMatProofs.v
theories/DetMatCycles.v
theories/DetMatMain.v
theories/DetMatProtocol.v
theories/Prop_DetMat.v
theories/PartModel.v
theories/PartSpec.v
theories/PartSide.v
theories/PartProofs.v
theories/PartLoops.v
theories/PartMain.v
theories/Prop_Part.v
theories/ProdModel.v
theories/Prop_Prod.v
theories/GreenModel.v
theories/GreenProofs.v
theories/Prop_Green.v
theories/SubModel.v
theories/SubSpec.v
theories/SubMath.v
theories/SubRows.v
theories/SubFlavor.v
theories/SubConf.v
theories/SubStep.v
theories/SubFinal.v
theories/SubProofs.v
theories/Prop_Sub.v
theories/OrderModel.v
theories/Prop_Order.v
theories/UMatModel.v
theories/UMatSpec.v
theories/UMatProofs.v
theories/Prop_UMat.v
theories/ManModel.v
theories/ManSpec.v
theories/ManCount.v
theories/ManProofs.v
theories/ManGlobal.v
theories/ManShift.v
theories/Prop_Man.v
theories/PairModel.v
theories/PairSpec.v
theories/Prop_Pair.v
theories/SplineModel.v
theories/SplineSpec.v
theories/SplineProofs.v
theories/Prop_Spline.v
theories/GreenTableModel.v
theories/GreenTableProofs.v
theories/Prop_GreenTable.v
theories/LegendreModel.v
theories/LegendreSpec.v
theories/LegendreProofs.v
theories/LegendreOrtho.v
theories/Prop_Legendre.v
theories/BinModel.v
theories/Prop_Bin.v
theories/DensModel.v
theories/DensSpec.v
theories/DensProofs.v
theories/Prop_Dens.v
theories/HistModel.v
theories/HistProofs.v
theories/Prop_Hist.v
theories/ProgModel.v
theories/ProgProofs.v
theories/Prop_Prog.v
theories/SlModel.v
theories/SlProofs.v
theories/Prop_Sl.v
theories/MeasModel.v
theories/MeasSpec.v
theories/Prop_Meas.v
theories/QnModel.v
theories/QnSpec.v
theories/Prop_Qn.v
theories/WinModel.v
theories/Prop_Win.v
theories/CutModel.v
theories/Prop_Cut.v
theories/Prop_Restart.v
theories/StartModel.v
theories/Prop_Shift.v
theories/Prop_Start.v
theories/SuccModel.v
theories/Prop_Succ.v
theories/SanityModel.v
theories/Prop_Sanity.v
theories/PermModel.v
theories/Prop_Perm.v
theories/SetupModel.v
theories/Prop_Setup.v
theories/RunModel.v
theories/RunProofs.v
theories/RunLive.v
theories/Prop_Run.v
theories/SpreadModel.v
theories/Prop_Spread.v
theories/AnyModel.v
theories/Prop_Any.v
theories/SlDirectModel.v
theories/Prop_SlDirect.v
theories/CheckMModel.v
theories/Prop_CheckM.v
