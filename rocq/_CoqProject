-Q theories Verif
theories/TreeModel.v
theories/TreeSpec.v
theories/TreeProofs.v
theories/TreeOpsProofs.v
theories/TreeProps.v
theories/LogitModel.v
theories/LogitSpec.v
theories/LogitProofs.v
theories/LogitRun.v
theories/LogitGrad.v
theories/LogitDeriv.v
theories/LogitProps.v
theories/LogitExProps.v
theories/TreeLogitProps.v
theories/UtilityModel.v
theories/UtilitySpec.v
theories/UtilityProofs.v
theories/UtilityProps.v
theories/CEModel.v
theories/CESpec.v
theories/CEProofs.v
theories/CEProps.v
theories/DenseModel.v
theories/DenseProps.v
theories/ParamModel.v
theories/ParamSpec.v
theories/ParamProofs.v
theories/ParamHistory.v
theories/ParamEval.v
theories/ParamProps.v
theories/BhhhModel.v
theories/BhhhSpec.v
theories/BhhhProofs.v
theories/BhhhStep.v
theories/BhhhProps.v
theories/BhhhMoreProps.v
theories/ConsModel.v
theories/ConsSpec.v
theories/ConsProofs.v
theories/ConsProps.v
theories/ConsListProofs.v
theories/ConsListProps.v
theories/PenaltyProofs.v
theories/PenaltyProps.v
theories/CovModel.v
theories/CovSpec.v
theories/CovProofs.v
theories/CovProps.v
theories/LinModel.v
theories/LinSpec.v
theories/LinProofs.v
theories/LinPrintProofs.v
theories/LinProps.v
theories/PieceModel.v
theories/PieceSpec.v
theories/PieceProofs.v
theories/PieceProps.v
theories/BitsModel.v
theories/BitsSpec.v
theories/BitsProofs.v
theories/BitsCodes.v
theories/BitsNest.v
theories/BitsProps.v
theories/LabelModel.v
theories/LabelSpec.v
theories/LabelProofs.v
theories/LabelProps.v
theories/WtModel.v
theories/WtSpec.v
theories/WtProofs.v
theories/WtProps.v
theories/SplitModel.v
theories/SplitSpec.v
theories/SplitProofs.v
theories/SplitProps.v
theories/CeModel.v
theories/CeSpec.v
theories/CeProofs.v
theories/CeProps.v
theories/DocModel.v
theories/DocSpec.v
theories/DocProofs.v
theories/DocProps.v
theories/RangeModel.v
theories/RangeProofs.v
theories/LcModel.v
theories/LcSpec.v
theories/LcProofs.v
theories/LcKernel.v
theories/LcDeriv.v
theories/LcProps.v
theories/LcSyncModel.v
theories/LcSyncSpec.v
theories/LcSyncProofs.v
theories/LcSyncProofs2.v
theories/LcSyncProps.v
theories/GroupModel.v
theories/GroupSpec.v
theories/GroupProofs.v
theories/GroupProofs2.v
theories/GroupProofs3.v
theories/GroupProps.v
theories/SchedModel.v
theories/SchedSpec.v
theories/SchedProofs.v
theories/SchedKernel.v
theories/SchedGlobal.v
theories/SchedProps.v
theories/NetModel.v
theories/NetSpec.v
theories/NetProofs.v
theories/NetGrad.v
theories/NetDeriv.v
theories/NetProps.v
theories/NetTreeModel.v
theories/NetBridge.v
theories/NetExProps.v
theories/NetEx2Props.v
theories/NetEx3Props.v
theories/CyuModel.v
theories/CyuSpec.v
theories/CyuProofs.v
theories/CyuProps.v
theories/CyuExProps.v
theories/CyuNetProps.v
theories/CstrModel.v
theories/CstrSpec.v
theories/CstrProofs.v
theories/CstrReads.v
theories/CstrOrder.v
theories/CstrProps.v
theories/IdcaModel.v
theories/IdcaSpec.v
theories/IdcaProofs.v
theories/IdcaRead.v
theories/IdcaCells.v
theories/IdcaShuffle.v
theories/IdcaProps.v
theories/SessModel.v
theories/SessSpec.v
theories/SessProofs.v
theories/SessViews.v
theories/SessProps.v
theories/TouchModel.v
theories/TouchSpec.v
theories/TouchProofs.v
theories/TouchSteps.v
theories/TouchProps.v
theories/AltsModel.v
theories/AltsSpec.v
theories/AltsProofs.v
theories/AltsProps.v
theories/FeasModel.v
theories/FeasSpec.v
theories/FeasProofs.v
theories/FeasProps.v
theories/StatModel.v
theories/StatSpec.v
theories/StatProofs.v
theories/StatProps.v
theories/SumModel.v
theories/SumSpec.v
theories/SumProofs.v
theories/SumProps.v
theories/PickleModel.v
theories/PickleProps.v
theories/TableModel.v
theories/TableSpec.v
theories/TableProps.v
theories/PvalModel.v
theories/PvalSpec.v
theories/PvalProps.v
theories/PeriodModel.v
theories/PeriodSpec.v
theories/PeriodProps.v
theories/FourierModel.v
theories/FourierSpec.v
theories/FourierProps.v
theories/Assumptions.v
