-Q theories Verif
theories/Base.v
theories/Floats.v
theories/XReal.v
theories/IEEE.v
theories/Digest.v
theories/Spec.v
theories/FloatFacts.v
theories/History.v
theories/LinearProofs.v
theories/WrapProofs.v
theories/P_Linear.v
theories/MultiSymProofs.v
theories/P_Wrap.v
theories/ChunkProofs.v
theories/ParallelProofs.v
theories/ParallelProofs2.v
theories/P_Parallel.v
theories/TDigest.v
theories/ScaleFunctions.v
theories/TDigestProofs.v
theories/TDigestProofs2.v
theories/TDigestExact.v
theories/TDigestExactQ.v
theories/TDigestExactV.v
theories/TDigestHist.v
theories/TDigestTop.v
theories/P_TDigest.v
theories/ScaleProofs.v
theories/TDigestScale.v
theories/P_Scale.v
theories/TDigestCluster.v
theories/ParTDProofs.v
theories/P_Cluster.v
theories/KeyedSumTree.v
theories/KeyedSumProofs.v
theories/KeyedSumProofs2.v
theories/KeyedSumCluster.v
theories/P_Tree.v
theories/RCSketch.v
theories/RCProofs.v
theories/RCHist.v
theories/RCRank.v
theories/RCExpect.v
theories/RCTop.v
theories/RCQuery.v
theories/RCObs.v
theories/RCObs2.v
theories/P_RC.v
theories/RC2.v
theories/RC2Sections.v
theories/RC2Proofs.v
theories/RC2Hist.v
theories/RC2Rank.v
theories/RC2Top.v
theories/P_RC2.v
theories/Util.v
theories/UtilProofs.v
theories/P_Util.v
theories/RCRel.v
theories/RCRelTop.v
theories/P_RCRel.v
theories/RCValue.v
theories/RC2Value.v
theories/P_RCValue.v
theories/TDigestAcc.v
theories/TDigestAcc2.v
theories/P_TDigestAcc.v
theories/TDigestParts.v
theories/TDigestAt.v
theories/TDigestAt2.v
theories/TDigestCap.v
theories/P_TDigestAt.v
theories/TDigestDrift.v
theories/P_TDigestDrift.v
theories/TDigestRange.v
theories/TDigestRange2.v
theories/TDigestRange3.v
theories/P_Range.v
theories/ParTDSched.v
theories/ParTDrift.v
theories/P_ParTDrift.v
theories/ClusterCap.v
theories/KeyedSumCap.v
theories/P_Place.v
theories/Accurate.v
theories/AccuratePar.v
theories/AccurateTop.v
theories/P_Accurate.v
theories/RCSym.v
theories/RCSymTop.v
theories/AccurateRC.v
theories/AccurateRC2.v
theories/AccuratePT.v
theories/P_RCSym.v
theories/RC2Var.v
theories/Average.v
theories/AverageRC.v
theories/P_Average.v
theories/Gens.v
theories/P_Gens.v
theories/RCExp.v
theories/RCExpTop.v
theories/SubGauss.v
theories/RCTail.v
theories/P_Tail.v
theories/RCValueTail.v
theories/P_ValueTail.v
theories/OrderMap.v
theories/P_Order.v
theories/RCBits.v
theories/P_UnitTests.v
theories/EntryPoints.v
theories/P_Entry.v
theories/InterpQ.v
theories/P_InterpQ.v
theories/UnbiasedWrap.v
theories/P_Unbiased.v
theories/SymAverage.v
theories/P_SymAvg.v
theories/WrapTail.v
theories/P_WrapTail.v
theories/Demo.v
theories/P_Demo.v
theories/ParTDRange.v
theories/P_ParRange.v
theories/AccuracyEx.v
theories/P_Accuracy.v
theories/RC2Casts.v
theories/P_Casts.v
