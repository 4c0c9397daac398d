-Q theories Verif
theories/Base.v
theories/QcX.v
theories/Digraph.v
theories/BbnModel.v
theories/SumOver.v
theories/Forest.v
theories/Elim.v
theories/Triang.v
theories/Kruskal.v
theories/JtAnti.v
theories/JtConv.v
theories/RTree.v
theories/Sched.v
theories/Calib.v
theories/BbnTables.v
theories/BbnProofs.v
theories/BbnQuery.v
theories/BbnOrder.v
theories/BbnBuild.v
theories/InferModel.v
theories/InferSpec.v
theories/InferProofs.v
theories/InferEngine.v
theories/InferOps.v
theories/InferMain.v
theories/SampleModel.v
theories/SampleProofs.v
theories/InferThms.v
theories/InferCheck.v
theories/InferWit.v
theories/PropsInfer.v
theories/PropsBbn.v
theories/SmModel.v
theories/SmProofs.v
theories/SmHist.v
theories/SmThms.v
theories/PropsSm.v
theories/NetModel.v
theories/NetProofs.v
theories/NetFit.v
theories/NetThms.v
theories/NetBridge.v
theories/PropsNet.v
theories/EvalModel.v
theories/EvalProofs.v
theories/PropsEval.v
theories/DiscModel.v
theories/DiscProofs.v
theories/DiscThms.v
theories/PropsDisc.v
theories/Names.v
theories/TransModel.v
theories/TransProofs.v
theories/TransThms.v
theories/PropsTrans.v
theories/MapperModel.v
theories/MapperProofs.v
theories/MapperThms.v
theories/PropsMapper.v
theories/SmBuild.v
theories/NotearsModel.v
theories/NotearsProofs.v
theories/NotearsThms.v
theories/PropsNotears.v
theories/AcycModel.v
theories/AcycProofs.v
theories/AcycThms.v
theories/AcycLink.v
theories/PropsAcyc.v
theories/DynoModel.v
theories/DynoProofs.v
theories/DynoThms.v
theories/DynoLoss.v
theories/PropsDyno.v
theories/TorchModel.v
theories/TorchSpec.v
theories/TorchProofs.v
theories/TorchThms.v
theories/TorchGraph.v
theories/TorchResult.v
theories/TorchPandas.v
theories/TorchFrame.v
theories/TorchAcyc.v
theories/TorchTotal.v
theories/TorchFinal.v
theories/PropsTorch.v
theories/Float64.v
theories/PlotModel.v
theories/GradProofs.v
theories/GradStrings.v
theories/PlotAttrs.v
theories/PropsPlot.v
theories/SklModel.v
theories/OrdProofs.v
theories/SklCoef.v
theories/SklFit.v
theories/SklThms.v
theories/SklPredict.v
theories/SklNet.v
theories/SklProba.v
theories/SklClf.v
theories/SklLin.v
theories/SklRefit.v
theories/SklMain.v
theories/SklValues.v
theories/SklPairs.v
theories/PropsSkl.v
theories/PropsSklMore.v
theories/GenModel.v
theories/GenProofs.v
theories/PropsGen.v
theories/PoisModel.v
theories/PoisProofs.v
theories/PropsPois.v
theories/SemModel.v
theories/SemProofs.v
theories/SemThms.v
theories/SemEq.v
theories/SemMain.v
theories/SemGp.v
theories/SemBin.v
theories/SemWrap.v
theories/PropsSem.v
theories/DynGenModel.v
theories/DynGenProofs.v
theories/DynGenData.v
theories/DynGenNames.v
theories/DynGenThms.v
theories/DynGenStat.v
theories/DynGenTopo.v
theories/PropsDynGen.v
theories/ObjModel.v
theories/ObjProofs.v
theories/ObjGrad.v
theories/ObjLasso.v
theories/PropsObj.v
theories/LossModel.v
theories/LossProofs.v
theories/LossSpec.v
theories/LossNll.v
theories/LossThms.v
theories/LossShift.v
theories/LossFunc.v
theories/LossBias.v
theories/PropsLoss.v
theories/CausalCore.v
theories/CausalThms.v
theories/CausalDo.v
theories/CausalSep.v
theories/CausalApi.v
theories/PropsCausal.v
theories/NetMle.v
theories/NetOrder.v
theories/PropsFit.v
theories/SampleLaw.v
theories/PropsSample.v
theories/ObjCycle.v
theories/ObjPerm.v
theories/ObjUnits.v
theories/PropsObjMore.v
theories/DsepSpec.v
theories/CausalTrail.v
theories/CausalBack.v
theories/DsepCheck.v
theories/CausalBackApi.v
theories/PropsDsep.v
theories/MarkovEq.v
theories/NetEquiv.v
theories/NetMoral.v
theories/NetNested.v
theories/PropsEquiv.v
theories/MetricsModel.v
theories/MetricsRoc.v
theories/MetricsThms.v
theories/PropsMetrics.v
theories/PgModel.v
theories/PgThms.v
theories/PgMain.v
theories/PgState.v
theories/PropsPredict.v
theories/NetBayes.v
theories/PropsBayes.v
theories/InferCoherent.v
theories/PropsCoherent.v
theories/NetMarkov.v
theories/PropsMarkov.v
theories/DiscUnits.v
theories/PropsUnits.v
theories/NotearsThr.v
theories/PropsThr.v
theories/CopyModel.v
theories/SmCopy.v
theories/PropsCopy.v
theories/CausalFront.v
theories/CausalFrontApi.v
theories/PropsFront.v
theories/NetMoreModel.v
theories/NetLife.v
theories/PropsLife.v
theories/NotearsAccepts.v
theories/PropsUnfit.v
theories/PropsAccepts.v
theories/InferOrder.v
theories/PropsOrder.v
theories/MapperGet.v
theories/ObjFit.v
theories/FitLink.v
theories/FitDyno.v
theories/PropsRegress.v
theories/SklUnits.v
theories/SklUnits2.v
theories/PropsStandard.v
theories/FitBound.v
theories/FitBest.v
theories/FitBestDyno.v
theories/PropsBest.v
theories/SmFrame.v
theories/PropsSmCalls.v
theories/NetAccept.v
theories/PropsPredictData.v
theories/FirstAnswer.v
theories/PropsFirst.v
theories/RefuseTorch.v
theories/RefuseGen.v
theories/RefuseMisc.v
theories/PropsRefuse.v
theories/Workflow.v
theories/WorkTorch.v
theories/PropsWork.v
theories/WorkDyn.v
theories/PropsWorkDyn.v
theories/CalcSpec.v
theories/CausalCalc.v
theories/CausalCalcApi.v
theories/PropsCalc.v
theories/AscentSpec.v
theories/AscentRun.v
theories/AscentApi.v
theories/PropsAscent.v
theories/TorchExact.v
theories/AscentBest.v
theories/TorchBest.v
theories/PropsTorchBest.v
theories/TorchNamed.v
theories/PropsTorchNamed.v
theories/DynoNamed.v
theories/PropsDynoNamed.v
theories/ConsistLim.v
theories/ConsistNet.v
theories/EffectNet.v
theories/NetConsist.v
theories/PropsConsist.v
theories/NetSample.v
theories/PropsDraws.v
theories/PropsEffects.v
theories/CondModel.v
theories/BuiltGen.v
theories/CondSpec.v
theories/CondProofs.v
theories/PropsCond.v
theories/VoteProofs.v
theories/PropsVote.v
theories/FigModel.v
theories/FigProofs.v
theories/PropsFig.v
theories/DotModel.v
theories/DotProofs.v
theories/PropsDot.v
theories/HeldProofs.v
theories/PropsHeld.v
theories/CalibProofs.v
theories/PropsCalib.v
theories/BrierProofs.v
theories/BrierHeld.v
theories/PropsBrier.v
