-Q theories Verif
theories/Base.v
theories/EdgeModel.v
theories/EdgeProofs.v
theories/EdgeProps.v
theories/GraphModel.v
theories/GraphSpec.v
theories/GraphProofs.v
theories/DpathProofs.v
theories/SumLib.v
theories/QueryProofs.v
theories/GraphProps.v
theories/QuerySpec.v
theories/RankLib.v
theories/UtilsModel.v
theories/UtilsProofs.v
theories/DsepSpec.v
theories/DsepProofs.v
theories/UtilsProps.v
theories/NamedModel.v
theories/NamedProofs.v
theories/NamedProps.v
theories/KnowledgeModel.v
theories/KnowledgeProps.v
theories/ChoiceModel.v
theories/ChoiceSpec.v
theories/ChoiceProofs.v
theories/ChoiceProps.v
theories/PQModel.v
theories/PQProps.v
theories/CacheModel.v
theories/CacheProofs.v
theories/CacheProps.v
theories/MeekModel.v
theories/MeekSpec.v
theories/QueryProps.v
theories/MeekProofs.v
theories/CheckLib.v
theories/MeekProps.v
theories/PdagModel.v
theories/PdagProofs.v
theories/PdagProps.v
theories/CpdagTheory.v
theories/CpdagModel.v
theories/CpdagSpec.v
theories/CpdagProofs.v
theories/CpdagMain.v
theories/CpdagProps.v
theories/SkelModel.v
theories/SkelSpec.v
theories/SkelProofs.v
theories/SkelMain.v
theories/SkelOrder.v
theories/DsepTheory.v
theories/SkelSep.v
theories/SkelProps.v
theories/MeekComplete.v
theories/PCModel.v
theories/PCSpec.v
theories/MeekFull.v
theories/PCGraph.v
theories/PCProofs.v
theories/PCMain.v
theories/PCAny.v
theories/PCTotal.v
theories/PCProps.v
theories/FinderProps.v
theories/DconnLib.v
theories/FCIModel.v
theories/FCISpec.v
theories/FCIProofs.v
theories/FCIRules.v
theories/FCILoops.v
theories/FCIFront.v
theories/FCISep.v
theories/FCITotal.v
theories/FCIStill.v
theories/FCIExhaust.v
theories/FCISound.v
theories/FCISuff.v
theories/FCITri.v
theories/FCIProps.v
theories/ExactModel.v
theories/ExactSpec.v
theories/ExactParents.v
theories/ExactOrder.v
theories/ExactAStar.v
theories/ExactDP.v
theories/ExactProps.v
theories/BossModel.v
theories/BossSpec.v
theories/BossTree.v
theories/BossProofs.v
theories/GraspProofs.v
theories/BossGraph.v
theories/BossProps.v
theories/TextModel.v
theories/TextProofs.v
theories/TextProps.v
theories/GESSpec.v
theories/GESTheory.v
theories/GESModel.v
theories/GESProofs.v
theories/GESSweep.v
theories/GESMain.v
theories/GESLoop.v
theories/GESProps.v
theories/ScoreEqProofs.v
theories/BDeuModel.v
theories/BDeuProofs.v
theories/ScoreProps.v
theories/BICModel.v
theories/BICProofs.v
theories/BICProps.v
theories/ChisqModel.v
theories/ChisqSpec.v
theories/ChisqProofs.v
theories/ChisqProps.v
theories/MBModel.v
theories/MBSpec.v
theories/MBProofs.v
theories/MBProps.v
theories/Dag2PagModel.v
theories/Dag2PagSpec.v
theories/Dag2PagProofs.v
theories/Dag2PagMain.v
theories/Dag2PagProps.v
theories/CDNODModel.v
theories/CDNODSpec.v
theories/CDNODTheory.v
theories/CDNODProps.v
theories/LingamModel.v
theories/LingamSpec.v
theories/LingamProofs.v
theories/LingamMain.v
theories/LingamProps.v
theories/BootModel.v
theories/BootSpec.v
theories/BootProofs.v
theories/BootProps.v
theories/EffectModel.v
theories/EffectSpec.v
theories/EffectProofs.v
theories/EffectProps.v
theories/ParceModel.v
theories/ParceProps.v
theories/RCDModel.v
theories/RCDProofs.v
theories/RCDProps.v
theories/CAMUVModel.v
theories/CAMUVProps.v
theories/MarkovEq.v
theories/MarkovSpec.v
theories/MarkovProps.v
theories/MVPCModel.v
theories/MVPCProofs.v
theories/MVPCProps.v
theories/GINModel.v
theories/GINSpec.v
theories/GINProofs.v
theories/GINGraph.v
theories/GINProps.v
theories/GINMIProps.v
theories/VARModel.v
theories/VARSpec.v
theories/VARProofs.v
theories/VARProps.v
theories/VARMAModel.v
theories/VARMAProps.v
theories/LongModel.v
theories/LongProps.v
theories/MultiModel.v
theories/MultiProps.v
theories/SepsetModel.v
theories/SepsetProofs.v
theories/SepsetProps.v
theories/DagMoreModel.v
theories/DagMoreProps.v
theories/GrangerModel.v
theories/GrangerProps.v
theories/CALMModel.v
theories/CALMProofs.v
theories/CALMProps.v
theories/KCIModel.v
theories/KCIProofs.v
theories/KCIProps.v
theories/FisherSpec.v
theories/FisherModel.v
theories/FisherProofs.v
theories/FisherMain.v
theories/FisherProps.v
theories/MissingProps.v
theories/HSICModel.v
theories/HSICProofs.v
theories/HSICMedian.v
theories/HSICProps.v
theories/HSICTestProps.v
theories/CVModel.v
theories/CVProofs.v
theories/CVResid.v
theories/CVMeaning.v
theories/CVProps.v
theories/CVScoreProps.v
theories/GPModel.v
theories/GPProofs.v
theories/GPProps.v
theories/HelperModel.v
theories/HelperSpec.v
theories/HelperProofs.v
theories/HelperProps.v
theories/HelperFileProps.v
theories/BootMoreModel.v
theories/BootMoreSpec.v
theories/BootMoreProofs.v
theories/BootMoreProps.v
theories/RCITModel.v
theories/RCITProofs.v
theories/RCITProps.v
theories/NullModel.v
theories/NullProofs.v
theories/NullProps.v
theories/FastProps.v
theories/CITModel.v
theories/CITProps.v
theories/BossShift.v
theories/UnitsProps.v
theories/DLModel.v
theories/DLProofs.v
theories/DLProps.v
theories/TransferModel.v
theories/TransferProps.v
theories/LutilModel.v
theories/LutilProps.v
theories/DrawModel.v
theories/DrawProps.v
theories/BulkModel.v
theories/BulkProps.v
theories/PlotModel.v
theories/PlotProps.v
theories/RenameModel.v
theories/RenameProps.v
theories/RateModel.v
theories/RateProps.v
theories/LikeModel.v
theories/LikeProofs.v
theories/LikeProps.v
theories/ResidModel.v
theories/ResidProps.v
theories/FingerModel.v
theories/FingerProps.v
theories/PersistModel.v
theories/PersistProps.v
theories/R5Props.v
theories/GstModel.v
theories/GstProps.v
theories/NodeAncProps.v
theories/AttrModel.v
theories/AttrProps.v
theories/ClearModel.v
theories/ClearProps.v
theories/EdgeOrdModel.v
theories/EdgeOrdProps.v
theories/EdgesProps.v
theories/TwinProps.v
