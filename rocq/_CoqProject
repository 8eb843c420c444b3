-Q theories Verif
theories/AgModel.v
theories/AgSpec.v
theories/AgLemmas.v
theories/AgSeq.v
theories/AgConc.v
theories/AgErase.v
theories/AgProofs.v
theories/AgMain.v
theories/AgExamples.v
theories/PropsAg.v
theories/FwdModel.v
theories/FwdProofs.v
theories/PropsFwd.v
theories/RandModel.v
theories/RandSpec.v
theories/RandPeriod.v
theories/RandProofs.v
theories/RandProofs2.v
theories/RandFloatModel.v
theories/RandFloatProofs.v
theories/PropsRand.v
theories/DenseModel.v
theories/DenseSpec.v
theories/DenseLemmas.v
theories/DenseCycles.v
theories/DenseProofs.v
theories/DenseProofs2.v
theories/PropsDense.v
theories/ArithModel.v
theories/ArithSpec.v
theories/ArithProofs.v
theories/PropsArith.v
theories/GradModel.v
theories/GradSpec.v
theories/GradLemmas.v
theories/GradProofs.v
theories/GradProofs2.v
theories/GradProofs3.v
theories/GradProofs4.v
theories/GradProofs5.v
theories/GradGelu.v
theories/GradProofs6.v
theories/GradProofs7.v
theories/GradProofs8.v
theories/GradProofs9.v
theories/GradProofs10.v
theories/GradProofs11.v
theories/GradProofs12.v
theories/OpsModel.v
theories/OpsSpec.v
theories/OpsLemmas.v
theories/OpsProofs.v
theories/OpsProofs2.v
theories/OpsProofs3.v
theories/OpsProofs4.v
theories/GradProofs13.v
theories/PropsGrad.v
theories/PropsOps.v
theories/DiffSpec.v
theories/DiffProofs.v
theories/DiffExamples.v
theories/PropsDiff.v
theories/OptModel.v
theories/OptSpec.v
theories/OptProofs.v
theories/OptProofs2.v
theories/OptProofs3.v
theories/OptProofs4.v
theories/OptConcModel.v
theories/OptConcSpec.v
theories/OptConcProofs.v
theories/PropsOpt.v
theories/CrfModel.v
theories/CrfSpec.v
theories/CrfProofs.v
theories/CrfProofs2.v
theories/PropsCrf.v
theories/WalkModel.v
theories/WalkSpec.v
theories/WalkProofs.v
theories/PropsNn.v
theories/EmbModel.v
theories/EmbSpec.v
theories/EmbProofs.v
theories/PropsEmb.v
theories/AttModel.v
theories/AttSpec.v
theories/AttProofs.v
theories/MhaModel.v
theories/MhaSpec.v
theories/MhaProofs.v
theories/PropsAtt.v
theories/RnnModel.v
theories/RnnSpec.v
theories/RnnProofs.v
theories/SlstmModel.v
theories/SlstmSpec.v
theories/SlstmProofs.v
theories/PropsRnn.v
theories/ConvModel.v
theories/ConvSpec.v
theories/ConvProofs.v
theories/ConvProofs2.v
theories/PropsConv.v
theories/SparseModel.v
theories/SparseSpec.v
theories/SparseProofs.v
theories/SparseProofs2.v
theories/SparseProofs3.v
theories/PropsSparse.v
theories/ActModel.v
theories/ActSpec.v
theories/ActProofs.v
theories/PropsAct.v
theories/FmtModel.v
theories/FmtSpec.v
theories/FmtProofs.v
theories/PropsFmt.v
theories/FloatModel.v
theories/FloatSpec.v
theories/FloatProofs.v
theories/PropsFloat.v
theories/MarshalModel.v
theories/PropsMarshal.v
theories/HeapModel.v
theories/HeapSpec.v
theories/HeapProofs.v
theories/PropsHeap.v
theories/PoolModel.v
theories/PoolProofs.v
theories/PropsPool.v
theories/NormModel.v
theories/PropsNorm.v
theories/LayerModel.v
theories/LayerSpec.v
theories/LayerProofs.v
theories/PropsLayer.v
theories/InitModel.v
theories/InitSpec.v
theories/InitProofs.v
theories/PropsInit.v
theories/LockModel.v
theories/LockSpec.v
theories/LockProofs.v
theories/PropsLock.v
theories/NumModel.v
theories/NumSpec.v
theories/NumLemmas.v
theories/NumProofs.v
theories/NumProofs2.v
theories/NumProofs3.v
theories/NumProofs4.v
theories/NumProofs5.v
theories/NumMath.v
theories/PropsNum.v
theories/DumpModel.v
theories/DumpSpec.v
theories/DumpProofs.v
theories/PropsDump.v
theories/AsmModel.v
theories/AsmCode.v
theories/AsmCalls.v
theories/AsmSpec.v
theories/AsmLemmas.v
theories/AsmProofs.v
theories/AsmProofs2.v
theories/AsmProofs3.v
theories/AsmProofs4.v
theories/AsmProofs5.v
theories/AsmProofs6.v
theories/AsmFloatSpec.v
theories/AsmFloat.v
theories/AsmFloat2.v
theories/PropsAsm.v
theories/AsmWords.v
theories/AsmWordsSpec.v
theories/AsmProofs7.v
theories/AsmExp.v
theories/AsmExp2.v
theories/AsmExp3.v
theories/AsmExp4.v
theories/AsmLog.v
theories/AsmLog2.v
theories/AsmLog3.v
theories/AsmLog4.v
theories/AsmLog5.v
theories/AsmLog6.v
theories/PropsExp.v
theories/GemModel.v
theories/GemCode.v
theories/GemSpec.v
theories/GemLemmas.v
theories/GemAxpy.v
theories/GemAxpy2.v
theories/GemAxpy3.v
theories/GemAxpy4.v
theories/GemCalls.v
theories/GemProofs.v
theories/GemGemv.v
theories/GemGemv2.v
theories/GemCumSum.v
theories/GemEntries.v
theories/GemFloatSpec.v
theories/GemFloat.v
theories/PropsGem.v
theories/SoftModel.v
theories/SoftSpec.v
theories/SoftProofs.v
theories/SoftFloat.v
theories/SoftFloat2.v
theories/SoftFloat3.v
theories/SoftFloat4.v
theories/SoftFloat5.v
theories/PropsSoft.v
theories/OptFloatModel.v
theories/OptFloatSpec.v
theories/OptFloatNum.v
theories/OptFloatNum2.v
theories/OptFloatNum3.v
theories/OptFloatProofs.v
theories/OptFloatNum4.v
theories/OptFloatProofs2.v
theories/OptFloatProofs3.v
theories/OptFloatProofs4.v
theories/OptFloatProofs5.v
theories/OptFloatProofs6.v
theories/OptFloatRate.v
theories/PropsOptFloat.v
theories/GaussTables.v
theories/GaussModel.v
theories/GaussSpec.v
theories/GaussTab.v
theories/GaussReal.v
theories/GaussProofs.v
theories/GaussFloat.v
theories/GaussAttempt.v
theories/GaussTail.v
theories/GaussRange.v
theories/GaussWeight.v
theories/GaussCount.v
theories/PropsGauss.v
theories/NormFloatModel.v
theories/NormFloatSpec.v
theories/NormFloatNum.v
theories/NormFloatProofs.v
theories/NormFloatProofs2.v
theories/NormFloatBack.v
theories/NormFloatBack2.v
theories/NormFloatBack3.v
theories/NormFloatBack4.v
theories/NormFloatBack5.v
theories/NormFloatEdge.v
theories/NormFloatLayers.v
theories/PropsNormFloat.v
theories/LossFloatModel.v
theories/LossFloatSpec.v
theories/LossFloatProofs.v
theories/LossFloatProofs2.v
theories/LossFloatProofs3.v
theories/LossFloatProofs4.v
theories/LossFloatProofs5.v
theories/LossFloatProofs6.v
theories/LossFloatProofs7.v
theories/LossFloatProofs8.v
theories/LossFloatProofs9.v
theories/LossFloatProofs10.v
theories/LossFloatProofs11.v
theories/PropsLossFloat.v
theories/RnnFloatModel.v
theories/RnnFloatSpec.v
theories/RnnFloatProofs.v
theories/RnnFloatProofs2.v
theories/RnnFloatProofs3.v
theories/RnnFloatProofs4.v
theories/PropsRnnFloat.v
theories/AttFloatModel.v
theories/AttFloatSpec.v
theories/AttFloatProofs.v
theories/AttFloatProofs2.v
theories/AttFloatProofs3.v
theories/AttFloatProofs4.v
theories/PropsAttFloat.v
theories/ClipFloatModel.v
theories/ClipFloatSpec.v
theories/ClipFloatProofs.v
theories/ClipFloatProofs2.v
theories/ClipFloatProofs3.v
theories/ClipFloatProofs4.v
theories/PropsClipFloat.v
theories/LossFloatModel2.v
theories/LossFloatSpec2.v
theories/LossFloatProofs12.v
theories/LossFloatProofs13.v
theories/LossFloatProofs14.v
theories/PropsLossFloat2.v
theories/LayerFloatSpec.v
theories/LayerFloatProofs.v
theories/LayerFloatProofs2.v
theories/PropsNormFloat2.v
theories/LambFloatModel.v
theories/LambFloatSpec.v
theories/LambFloatProofs.v
theories/LambFloatProofs2.v
theories/LambFloatProofs3.v
theories/LambFloatProofs4.v
theories/PropsLambFloat.v
theories/ParamModel.v
theories/ParamSpec.v
theories/ParamProofs.v
theories/PropsParam.v
theories/ParamPrecProofs.v
theories/PropsParamPrec.v
theories/RnnBuildModel.v
theories/RnnBuildSpec.v
theories/PropsRnnBuild.v
