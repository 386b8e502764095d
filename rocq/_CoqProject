-Q theories Verif
theories/Base.v
theories/Spec.v
theories/Desc.v
theories/Slice.v
theories/SliceSpec.v
theories/Lemmas.v
theories/DescProofs.v
theories/SliceProofs.v
theories/ViewProofs.v
theories/RunProofs.v
theories/ViewThms.v
theories/ViewThms2.v
theories/ViewThms3.v
theories/ViewThms4.v
theories/SliceLost.v
theories/PropView.v
theories/AxisProofs.v
theories/PropAxis.v
theories/Life.v
theories/LifeSpec.v
theories/LifeProofs.v
theories/LifeList.v
theories/LifeSim.v
theories/LifeThms.v
theories/PropLife.v
theories/Expr.v
theories/ExprSpec.v
theories/ExprProofs.v
theories/ExprThms.v
theories/PropExpr.v
theories/ExprSeq.v
theories/PropExprSeq.v
theories/ArrAssign.v
theories/PropArrAssign.v
theories/Numeric.v
theories/NumericSpec.v
theories/NumericProofs.v
theories/PropNumeric.v
theories/Reduce.v
theories/ReduceSpec.v
theories/ReduceProofs.v
theories/PropReduce.v
theories/Coerce.v
theories/CoerceSpec.v
theories/CoerceProofs.v
theories/PropCoerce.v
theories/Frame.v
theories/FrameSpec.v
theories/FrameProofs.v
theories/FrameText.v
theories/PropFrame.v
theories/FrameWrite.v
theories/PropFrameText.v
theories/PropFrameCol.v
theories/Random.v
theories/RandomSpec.v
theories/RandomProofs.v
theories/PropRandom.v
theories/Shared.v
theories/SharedSpec.v
theories/SharedProofs.v
theories/PropShared.v
theories/Io.v
theories/IoSpec.v
theories/IoProofs.v
theories/IoText.v
theories/PropIo.v
theories/Stats.v
theories/StatsSpec.v
theories/StatsProofs.v
theories/StatsInt.v
theories/PropStats.v
theories/ViewLife.v
theories/ViewLifeProofs.v
theories/PropViewLife.v
theories/LifeExact.v
theories/PropLifeExact.v
theories/PropExact.v
theories/ColHeap.v
theories/ColHeapSpec.v
theories/ColHeapProofs.v
theories/ColHeapProofs2.v
theories/ColHeapProofs3.v
theories/ColHeapFrame.v
theories/ColHeapThms.v
theories/ColHeapConsist.v
theories/ColHeapPtr.v
theories/PropColHeap.v
theories/RandomUniSpec.v
theories/RandomUniProofs.v
theories/PropRandomUni.v
theories/EmptySpec.v
theories/EmptyProofs.v
theories/EmptySlice.v
theories/EmptyThms.v
theories/PropEmpty.v
theories/PropBounded.v
theories/PropBorrow.v
theories/ExprLife.v
theories/ExprLifeProofs.v
theories/PropExprLife.v
theories/Freq.v
theories/PropFreq.v
theories/PropMask.v
theories/PropSeq.v
theories/Threads.v
theories/ThreadsSpec.v
theories/ThreadsProofs.v
theories/PropThreads.v
theories/Engine.v
theories/PropEngine.v
theories/RangeLoop.v
theories/RangeLoopSpec.v
theories/RangeLoopProofs.v
theories/PropRange.v
theories/Builds.v
theories/PropBuild.v
theories/BuildsLife.v
theories/PropBuildLife.v
theories/ReadNumSpec.v
theories/ReadNumProofs.v
theories/PropReadNum.v
theories/PropLost.v
theories/Relative.v
theories/RelativeSpec.v
theories/PropRelative.v
theories/IdxView.v
theories/PropIdxView.v
theories/InplaceRef.v
theories/PropInplaceRef.v
theories/AsVector.v
theories/PropAsVector.v
theories/Pattern.v
theories/PatternSpec.v
theories/PatternProofs.v
theories/PropPattern.v
theories/Throws.v
theories/ThrowsProofs.v
theories/PropThrows.v
theories/ThrowsLife.v
theories/PropThrowsLife.v
theories/ExprThrow.v
theories/ExprThrowProofs.v
theories/PropExprThrow.v
theories/ViewThreads.v
theories/ViewThreadsProofs.v
theories/PropViewThreads.v
theories/Iter.v
theories/PropIter.v
theories/Effects.v
theories/EffectsSpec.v
theories/EffectsProofs.v
theories/EffectsRec.v
theories/PropEffects.v
theories/Levels.v
theories/LevelsProofs.v
theories/PropLevels.v
theories/LevelsLife.v
theories/PropLevelsLife.v
theories/Prod.v
theories/ProdSpec.v
theories/ProdProofs.v
theories/ProdBlas.v
theories/PropProd.v
theories/PropDrop.v
theories/PropFrameVars.v
theories/MathFn.v
theories/MathSpec.v
theories/MathProofs.v
theories/MathPdf.v
theories/MathPdf2.v
theories/MathExp.v
theories/MathInt.v
theories/PropMath.v
theories/ExprProduct.v
theories/ExprProductSpec.v
theories/ExprProductProofs.v
theories/ExprProductFloat.v
theories/PropExprProduct.v
theories/Dist.v
theories/DistSpec.v
theories/DistCount.v
theories/DistUniform.v
theories/DistProofs.v
theories/DistDiscrete.v
theories/DistChance.v
theories/PropDist.v
theories/PropUniform.v
theories/Export.v
theories/ExportSpec.v
theories/ExportProofs.v
theories/ExportThms.v
theories/PropExport.v
theories/TableSpec.v
theories/PropTable.v
theories/Mt.v
theories/MtSpec.v
theories/MtProofs.v
theories/SampleThreads.v
theories/SampleThreadsSpec.v
theories/SampleThreadsProofs.v
theories/PropSampleThreads.v
theories/Stream.v
theories/StreamSpec.v
theories/StreamProofs.v
theories/StreamCut.v
theories/PropStream.v
theories/Single.v
theories/SingleSpec.v
theories/SingleProofs.v
theories/PropSingle.v
theories/ReadHeap.v
theories/ReadHeapSpec.v
theories/ReadHeapProofs.v
theories/PropReadHeap.v
