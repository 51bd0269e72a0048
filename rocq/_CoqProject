-Q theories Verif
theories/Prelude.v
theories/Arith.v
theories/CoreModel.v
theories/SpecSampling.v
theories/SamplingProofs.v
theories/PropSampling.v
theories/SpecLogit.v
theories/MnlProofs.v
theories/PropMultinomial.v
theories/SpecNested.v
theories/NestedProofs.v
theories/NestedExact.v
theories/NestedMore.v
theories/PropNested.v
theories/ParModel.v
theories/SpecDraws.v
theories/ParProofs.v
theories/PropParallel.v
theories/TreeModel.v
theories/DictProofs.v
theories/TreeProofs.v
theories/SpecTree.v
theories/TreeMore.v
theories/TreeHist.v
theories/TreeRow.v
theories/PropTree.v
theories/ExprModel.v
theories/SpecExpr.v
theories/ExprProofs.v
theories/ExprUses.v
theories/ExprMeaning.v
theories/ExprNames.v
theories/SpecDict.v
theories/ExprDict.v
theories/SpecContainer.v
theories/ExprContainer.v
theories/ExprWorld.v
theories/PropExpr.v
theories/PropContainer.v
theories/PropDict.v
theories/ScopeModel.v
theories/ModelModel.v
theories/SpecScope.v
theories/ScopeProofs.v
theories/PropScope.v
theories/ModelProofs.v
theories/SpecModel.v
theories/KernelProofs.v
theories/EvalProofs.v
theories/ModelExample.v
theories/PropState.v
theories/ModelWorld.v
theories/ModelHist.v
theories/ModelTabs.v
theories/RunProofs.v
theories/PropUtility.v
theories/PropRerun.v
theories/EvalTransfer.v
theories/ModelInv.v
theories/ExprSets.v
theories/PropPreval.v
theories/PrevalExamples.v
theories/PropCopy.v
theories/PropIsolation.v
theories/CopyExamples.v
theories/PropExternal.v
theories/CopyTree.v
theories/LdfModel.v
theories/SpecLdf.v
theories/LdfProofs.v
theories/LdfKeys.v
theories/LdfReads.v
theories/LdfInv.v
theories/LdfGood.v
theories/LdfLookup.v
theories/LdfExample.v
theories/PropLookup.v
theories/LdfLinks.v
theories/LdfSim.v
theories/PropReads.v
theories/PropLinkTo.v
theories/LdfGroups.v
theories/PropAgg.v
theories/LdfSlice.v
theories/PropSlice.v
theories/PropRows.v
theories/SpecFill.v
theories/PropFill.v
theories/PropEvaluate.v
theories/LdfCols.v
theories/LdfTables.v
theories/PropTables.v
theories/PropRefresh.v
theories/RunOut.v
theories/SpecEnd.v
theories/EndProofs.v
theories/OutProofs.v
theories/EndExample.v
theories/RunResult.v
theories/PropEnd.v
theories/SpecIeee.v
theories/IeeeProofs.v
theories/PropIeee.v
theories/SpecLinked.v
theories/LinkedProofs.v
theories/PropLinked.v
theories/SpecExternal.v
theories/PropRunExternal.v
theories/DebugModel.v
theories/PropDebug.v
theories/NestedIeee.v
theories/ModelTrees.v
theories/PropNestedIeee.v
theories/PropWeights.v
theories/NestedSum.v
theories/PropNestedSum.v
theories/PropChoice.v
theories/LdfMore.v
theories/SpecMore.v
theories/PropMore.v
theories/SpecCalc.v
theories/NestedCalc.v
theories/NestedGrad.v
theories/NestedEmbed.v
theories/PropNestedCalc.v
theories/PropStale.v
theories/PropLogsum.v
theories/PropLost.v
theories/PropTreeMore.v
theories/LdfNorm.v
theories/PropLater.v
theories/PropLinkErrors.v
theories/ExprCounts.v
theories/PropNames.v
theories/TreeMoved.v
theories/PropMoved.v
theories/PropFailed.v
theories/PropPoison.v
theories/PropGive.v
theories/ExprSame.v
theories/SpecUnits.v
theories/PropUnits.v
theories/UnitsExample.v
theories/ExprNull.v
theories/SpecOrder.v
theories/PropOrder.v
theories/PropAggs.v
theories/PropShuffle.v
theories/ConvModel.v
theories/PropConv.v
theories/PropTop.v
theories/PropConst.v
theories/AliasModel.v
theories/PropAlias.v
theories/PropOwn.v
theories/PropOdds.v
theories/PropUnit.v
theories/PropLevel.v
theories/PropLess.v
