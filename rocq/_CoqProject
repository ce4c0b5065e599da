-Q theories Verif
theories/Scalar.v
theories/Np.v
theories/State.v
theories/Pdyn.v
theories/NpFacts.v
theories/PdynFacts.v
theories/PdynStep.v
theories/PdynRun.v
theories/ScalarFacts.v
theories/Exec.v
theories/PdynOk.v
theories/BestFacts.v
theories/TermSpec.v
theories/TermFacts.v
theories/RunFacts.v
theories/Script.v
theories/ExZ.v
theories/Props_Best.v
theories/Props_Term.v
theories/BatchFacts.v
theories/BatchSpec.v
theories/ExBatch.v
theories/IndepFacts.v
theories/IndepSpec.v
theories/Props_Batch.v
theories/Props_Indep.v
theories/StepFrame.v
theories/BcFacts.v
theories/ExHist.v
theories/HeaviFacts.v
theories/HistFacts.v
theories/HistSpec.v
theories/Props_Heavi.v
theories/Props_Hist.v
theories/ExMisc.v
theories/ExR.v
theories/MiscFacts.v
theories/PostFacts.v
theories/PostProc.v
theories/Props_Misc.v
theories/RFacts.v
theories/ConsFacts.v
theories/ConsSpec.v
theories/Consensus.v
theories/ExCons.v
theories/Props_Consensus.v
theories/RVec.v
theories/RVecFacts.v
theories/EssFacts.v
theories/ExSched.v
theories/Props_Sched.v
theories/Sched.v
theories/SchedFacts.v
theories/CovFacts.v
theories/CovNoise.v
theories/Nd.v
theories/Polar.v
theories/PolarFacts.v
theories/PolarSpec.v
theories/Props_Polar.v
theories/AbsorbFacts.v
theories/Cbo.v
theories/CboFacts.v
theories/CboSpec.v
theories/CorrFacts.v
theories/ExCbo.v
theories/MoveFacts.v
theories/Props_Cbo.v
theories/SymFacts.v
theories/TwinFacts.v
theories/TwinSpec.v
theories/CovCbo.v
theories/CovCboFacts.v
theories/CovCboSpec.v
theories/MatFacts.v
theories/MatSpec.v
theories/MatSqrt.v
theories/Props_Cov.v
theories/ExMem.v
theories/ExMemR.v
theories/MemFacts.v
theories/MemFacts2.v
theories/MemFacts3.v
theories/MemMove.v
theories/MemRaise.v
theories/MemReal.v
theories/MemSpec.v
theories/Memory.v
theories/Props_Memory.v
theories/ExResamp.v
theories/Props_Resamp.v
theories/ResampApply.v
theories/ResampFacts.v
theories/ResampSpec.v
theories/ResampTerm.v
theories/Resampling.v
theories/StagFacts.v
theories/Success.v
theories/SuccessFacts.v
theories/Dispatch.v
theories/DispatchFacts.v
theories/ExUtil.v
theories/PlotFacts.v
theories/Plotting.v
theories/Props_Util.v
theories/RegFacts.v
theories/RegSched.v
theories/Torch.v
theories/TorchFacts.v
theories/RegVar.v
theories/VarFacts.v
theories/VarMove.v
theories/VarSpec.v
theories/Variant.v
theories/AdamFacts.v
theories/AdamR.v
theories/AdamSpec.v
theories/ExAdam.v
theories/ExVar.v
theories/Props_Variant.v
theories/ConFacts.v
theories/ConSpec.v
theories/Constraints.v
theories/ExMirror.v
theories/MirrorDyn.v
theories/MirrorFacts.v
theories/MirrorMaps.v
theories/MirrorProj.v
theories/MirrorSpec.v
theories/MirrorSquare.v
theories/MirrorStiefel.v
theories/Props_Mirror.v
theories/ExCon.v
theories/Props_Constraint.v
theories/ExHyper.v
theories/ExStag.v
theories/HyperDyn.v
theories/HyperFacts.v
theories/HyperMaps.v
theories/HyperSpec.v
theories/Props_Hyper.v
theories/Props_Stag.v
theories/StagSpec.v
theories/StagTermFacts.v
theories/Stagnation.v
theories/Alias.v
theories/AliasFacts.v
theories/AliasSpec.v
theories/ExAlias.v
theories/ExObj.v
theories/ObjFacts.v
theories/ObjSpec.v
theories/Objective.v
theories/Props_Alias.v
theories/Props_Obj.v
theories/Shared.v
theories/SharedFacts.v
theories/SharedSpec.v
theories/MinDef.v
theories/MinFacts.v
theories/MinFacts2.v
theories/MinFacts3.v
theories/MinFacts4.v
theories/MinSpec.v
theories/Objectives.v
theories/Props_Min.v
theories/Squeeze.v
theories/SqueezeFacts.v
theories/Cbs.v
theories/CbsFacts.v
theories/CovMoment.v
theories/ExMoment.v
theories/MomentFacts.v
theories/MomentSpec.v
theories/Props_Moment.v
theories/EssReach.v
theories/ExKick.v
theories/KickFacts.v
theories/KickNoise.v
theories/KickSpec.v
theories/KickStep.v
theories/Props_Kick.v
theories/ExPen.v
theories/PenFacts.v
theories/PenRun.v
theories/PenSched.v
theories/PenSpec.v
theories/Props_Pen.v
theories/Props_Regz.v
theories/Regularizers.v
theories/RegzFacts.v
theories/RegzSpec.v
theories/BestCons.v
theories/ConMulti.v
theories/ConMultiFacts.v
theories/ConMultiSpec.v
theories/ExVarMove.v
theories/Props_VarExact.v
theories/VarExact.v
theories/VarExactSpec.v
theories/PotConj.v
theories/PotDefect.v
theories/PotFacts.v
theories/PotMaps.v
theories/PotSpec.v
theories/Potentials.v
theories/Props_Potential.v
theories/ExProx.v
theories/Props_Prox.v
theories/Prox.v
theories/ProxFacts.v
theories/ProxSpec.v
theories/ExLim.v
theories/ExMs.v
theories/LimFacts.v
theories/LimSpec.v
theories/MsFacts.v
theories/MsSpec.v
theories/Props_Limit.v
theories/Props_MeanSquare.v
theories/ConvFacts.v
theories/ConvSpec.v
theories/ExConv.v
theories/ExTol.v
theories/Props_Convex.v
theories/Props_Tol.v
theories/TolFacts.v
theories/TolSpec.v
theories/ExTorch.v
theories/Props_Torch.v
theories/TorchEval.v
theories/TorchEvalFacts.v
theories/TorchEvalSpec.v
theories/ExRound.v
theories/Props_Round.v
theories/RoundFacts.v
theories/RoundFacts2.v
theories/RoundSpec.v
theories/Rounding.v
theories/ClockFacts.v
theories/ClockSpec.v
theories/ExClock.v
theories/Props_Clock.v
theories/ExInit.v
theories/ExSampler.v
theories/ParticleInit.v
theories/ParticleInitFacts.v
theories/ParticleInitSpec.v
theories/Props_Init.v
theories/Props_Sampler.v
theories/SamplerFacts.v
theories/SamplerSpec.v
theories/Samplers.v
theories/ExMix.v
theories/MixFacts.v
theories/MixSpec.v
theories/Mixture.v
theories/Props_Mix.v
theories/Dtype.v
theories/DtypeFacts.v
theories/DtypeSpec.v
theories/ExDtype.v
theories/Props_Dtype.v
theories/ExSeed.v
theories/Props_Seed.v
theories/Seed.v
theories/SeedFacts.v
theories/SeedSpec.v
theories/ExOptimize.v
theories/Optimize.v
theories/OptimizeFacts.v
theories/OptimizeSpec.v
theories/Props_Optimize.v
theories/ExUnits.v
theories/Props_Units.v
theories/UnitsFacts.v
theories/UnitsSpec.v
theories/UnitsSym.v
theories/ExHyperMove.v
theories/HyperMoveFacts.v
theories/HyperMoveMore.v
theories/HyperMoveRun.v
theories/HyperMoveSpec.v
theories/HyperRun.v
theories/HyperTotal.v
theories/Props_HyperMove.v
theories/ExRelabel.v
theories/Props_Relabel.v
theories/RelabelFacts.v
theories/RelabelReal.v
theories/RelabelSpec.v
theories/AdamStep.v
theories/AdamStepSpec.v
theories/ExAdamStep.v
theories/Props_AdamStep.v
theories/ExNan.v
theories/NanFacts.v
theories/NanSpec.v
theories/Props_Nan.v
theories/ExPolarRun.v
theories/PolarRun.v
theories/PolarRunSpec.v
theories/PolarSym.v
theories/Props_PolarRun.v
theories/TwinRow.v
theories/ExPolarRest.v
theories/PolarCluster.v
theories/PolarRest.v
theories/PolarRestSpec.v
theories/Props_PolarRest.v
theories/CbsMove.v
theories/CbsRun.v
theories/CbsRunSpec.v
theories/ExCbsRun.v
theories/Props_CbsRun.v
theories/ExMemRun.v
theories/MemMove2.v
theories/MemRun.v
theories/MemRun2.v
theories/MemRun3.v
theories/MemRunSpec.v
theories/Props_MemRun.v
theories/ExMemSym.v
theories/MemSymSpec.v
theories/Props_MemSym.v
theories/SimFacts.v
theories/SimMem.v
theories/SimNp.v
theories/SimSpec.v
theories/SymLaws.v
theories/ExLive.v
theories/LiveFacts.v
theories/LivePlot.v
theories/LiveReal.v
theories/Props_Live.v
theories/CoordFacts.v
theories/CoordSpec.v
theories/ExCoord.v
theories/Props_Coord.v
theories/SessSpec.v
theories/SimCbo.v
theories/ExVarSym.v
theories/ExVarTotal.v
theories/Props_VarSym.v
theories/Props_VarTotal.v
theories/SimVar.v
theories/VarSessSpec.v
theories/VarSym.v
theories/VarSymInst.v
theories/VarTotal.v
theories/VarTotalSess.v
theories/VarTotalSpec.v
theories/ExOptStream.v
theories/ExPrint.v
theories/OptStream.v
theories/PrintFacts.v
theories/PrintSpec.v
theories/Printing.v
theories/Props_Print.v
theories/ExMirrorDual.v
theories/MirrorDual.v
theories/MirrorDualFacts.v
theories/MirrorDualSpec.v
theories/Props_MirrorDual.v
theories/ExNdPart.v
theories/NdPart.v
theories/NdPartFacts.v
theories/NdPartFacts2.v
theories/NdPartSpec.v
theories/Props_NdPart.v
theories/PolarDocFacts.v
theories/PolarDocSpec.v
theories/PolarObj.v
theories/Props_PolarDoc.v
theories/ExScale.v
theories/Props_Scale.v
theories/ScaleLaws.v
theories/ScaleSpec.v
theories/ScaleVar.v
theories/ExWL2.v
theories/Props_WL2.v
theories/WL2.v
theories/WL2Facts.v
theories/WL2Spec.v
theories/Ctor.v
theories/CtorFacts.v
theories/CtorSpec.v
theories/ExCtor.v
theories/Props_Ctor.v
theories/ExMini.v
theories/MiniFacts.v
theories/Props_Mini.v
theories/CboRound.v
theories/CboRoundFacts.v
theories/CboRoundSpec.v
theories/ExCboRound.v
theories/Props_CboRound.v
theories/MinFacts5.v
theories/MinSpec2.v
theories/CboRoundFacts2.v
theories/DocFacts.v
theories/DocSpec.v
theories/Props_Doc.v
theories/DefaultFacts.v
theories/DefaultSpec.v
theories/Props_Default.v
theories/ExVarIndep.v
theories/Props_VarIndep.v
theories/VarIndep.v
theories/VarIndepSpec.v
theories/MemIndep.v
theories/ExRsm.v
theories/RsmCalls.v
theories/TazFacts.v
theories/ExPlot1D.v
theories/Plot1D.v
theories/Plot1DFacts.v
theories/Props_Plot1D.v
theories/TorchSize.v
theories/ExStiefel.v
theories/StiefelNoise.v
theories/ExAniso.v
theories/ExAdamTurn.v
theories/ExHyperShift.v
theories/ConReg.v
theories/ConRun.v
theories/ConRunSpec.v
theories/ExConRun.v
theories/Props_ConRun.v
theories/ConRegAll.v
theories/ConSphere.v
theories/ConTotal.v
theories/ExConSphere.v
theories/ConRegSphere.v
theories/ExMirrorStop.v
theories/MirrorStop.v
theories/MirrorStopSpec.v
theories/Props_MirrorStop.v
theories/MirrorSpeed.v
