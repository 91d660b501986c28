-Q theories Verif
theories/Num.v
theories/NumFloat.v
theories/Numpy.v
theories/PyVal.v
theories/LinalgModel.v
theories/StateModel.v
theories/BaseModel.v
theories/Estimators.v
theories/ListLemmas.v
theories/Spec.v
theories/BaseProofs.v
theories/RegistryModel.v
theories/Shapes.v
theories/ClassShapes.v
theories/BlockShapes.v
theories/StreamProofs.v
theories/RegistryProofs.v
theories/Props_Stream.v
theories/RMat.v
theories/Fin.v
theories/RealSpec.v
theories/RunFin.v
theories/EwaReal.v
theories/RunAvg.v
theories/EmpFacts.v
theories/Props_Emp.v
theories/ShrinkReal.v
theories/Props_Shrink.v
theories/MomentReal.v
theories/FactorReal.v
theories/Props_Moment.v
theories/LinSpec.v
theories/Spectral.v
theories/MatAlg.v
theories/Det.v
theories/Contracts.v
theories/LinalgReal.v
theories/Props_Linalg.v
theories/RobustReal.v
theories/TylerReal.v
theories/Props_Robust.v
theories/KeyedModel.v
theories/KeyedSpec.v
theories/KeyedProofs.v
theories/Props_Mismatch.v
theories/Props_Shape.v
theories/Props_Keyed.v
theories/DynProofs.v
theories/DynProofs2.v
theories/Props_Dyn.v
theories/AsmProofs.v
theories/Props_Asm.v
theories/Props_AsmReal.v
theories/BlockSpec.v
theories/BlockGeom.v
theories/BlockReal.v
theories/BlockRun.v
theories/BlockRun2.v
theories/Props_Block.v
theories/SchurCondSpec.v
theories/SchurCondReal.v
theories/Props_SchurCond.v
theories/AssessModel.v
theories/GaussSpec.v
theories/GaussReal.v
theories/ScoreReal.v
theories/Props_Score.v
theories/AssessSpec.v
theories/BlockDet.v
theories/AssessReal.v
theories/AssessBlock.v
theories/Props_Assess.v
theories/ConditionalModel.v
theories/ConditionalSpec.v
theories/ConditionalProofs.v
theories/Props_Cond.v
theories/CondRealSpec.v
theories/CondReal.v
theories/Props_CondReal.v
theories/RecommendModel.v
theories/Props_Recommend.v
theories/RecommendSpec.v
theories/RecommendReal.v
theories/Props_RecommendReal.v
theories/HeapModel.v
theories/HeapSpec.v
theories/HeapProofs.v
theories/Props_Heap.v
theories/Props_Corr.v
theories/Props_Size.v
theories/NumBin.v
theories/FloatBase.v
theories/FloatRun.v
theories/FloatErr.v
theories/FloatAcc.v
theories/FloatEwa.v
theories/FloatDiag.v
theories/FloatSpec.v
theories/Props_Float.v
theories/SymSpec.v
theories/SymReal.v
theories/SymRun.v
theories/SymGeo.v
theories/SymPerm.v
theories/Props_Sym.v
theories/Props_SymShift.v
theories/ParamsModel.v
theories/Props_Params.v
theories/Props_Defaults.v
theories/Props_Improper.v
theories/Props_Forget.v
theories/Props_Range.v
theories/ResearchModel.v
theories/ResearchSpec.v
theories/ResearchReal.v
theories/Props_Research.v
theories/ResearchRun.v
theories/Props_ResearchBlocks.v
theories/ResearchTwo.v
theories/Props_Canonical.v
theories/ResearchOp.v
theories/Props_Godambe.v
theories/SymCond.v
theories/Props_SymCond.v
theories/GammaModel.v
theories/Props_Gamma.v
theories/Props_OneVar.v
theories/Props_Incomplete.v
theories/Props_Counts.v
theories/Props_Marginal.v
theories/MetricModel.v
theories/MetricReal.v
theories/Props_Metric.v
theories/Props_Judges.v
theories/OosModel.v
theories/OosSpec.v
theories/Props_Oos.v
theories/Props_OosReal.v
theories/Props_OosRun.v
theories/Props_OosWitness.v
theories/Props_Ranks.v
theories/Props_RanksWitness.v
theories/SpikedModel.v
theories/Props_Spiked.v
theories/Props_SpikedVar.v
theories/Props_SpikedTruth.v
theories/Props_KeyedRead.v
theories/Props_KeyedCorr.v
theories/Props_NpdLoop.v
theories/Props_ParamTable.v
theories/CondObjModel.v
theories/CondObjSpec.v
theories/CondObjProofs.v
theories/Props_CondPickle.v
theories/Props_CondCorr.v
theories/Props_Report.v
theories/FloatBound.v
theories/Props_FloatShrink.v
theories/TrainModel.v
theories/Props_Train.v
theories/Props_TrainRun.v
theories/Props_Families.v
theories/PowerModel.v
theories/Props_Power.v
theories/Props_PowerReal.v
theories/Props_PowerRun.v
theories/Props_GodambeRun.v
theories/Props_Structured.v
theories/Props_TrainSet.v
theories/Props_Tuning.v
theories/Props_TuningReal.v
theories/Props_PowerNoise.v
theories/Props_Missing.v
theories/Props_MissingCov.v
theories/Props_MissingAll.v
theories/Props_CondScore.v
theories/Props_FloatCorr.v
theories/Props_RangeBlocks.v
theories/Props_Nonexp.v
theories/Props_Invert.v
theories/Props_Masking.v
theories/Props_AffineScore.v
theories/Props_Bias.v
theories/Props_Consistency.v
theories/Props_Drift.v
theories/Props_Fresh.v
theories/Props_Walk.v
theories/Props_FloatShrunk.v
theories/Props_FloatCorrShrink.v
theories/Props_BiasDiag.v
theories/Props_BiasBlocks.v
theories/EloModel.v
theories/EloSpec.v
theories/Props_Elo.v
theories/Props_EloRounds.v
theories/Props_EloPool.v
theories/Props_EloBest.v
theories/Assumptions.v
