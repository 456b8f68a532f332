-Q theories Verif
theories/Base.v
theories/Exn.v
theories/XReal.v
theories/TypesEvent.v
theories/ModelBuilder.v
theories/SpecEvent.v
theories/ProofBuilder.v
theories/PropBuilder.v
theories/SpecDP.v
theories/PyDict.v
theories/ModelCommon.v
theories/ModelPmf.v
theories/SpecPmf.v
theories/ProofDP.v
theories/ProofDict.v
theories/ProofPmf.v
theories/ProofCompose.v
theories/ProofCompose2.v
theories/ProofQuery.v
theories/ModelPld.v
theories/SpecPld.v
theories/ProofPld.v
theories/ProofSelf.v
theories/ProofComposed.v
theories/ProofSelfDP.v
theories/ProofPldApi.v
theories/PropPld.v
theories/TypesRelation.v
theories/ModelMake.v
theories/SpecMake.v
theories/ProofMake.v
theories/ProofTwo.v
theories/ProofRR.v
theories/ProofParams.v
theories/ProofDots.v
theories/ProofCdf.v
theories/ProofMakeEx.v
theories/PropMake.v
theories/SpecRenyi.v
theories/SpecRdp.v
theories/ModelRdp.v
theories/ModelLog.v
theories/ModelAccountant.v
theories/ProofRdpMath.v
theories/ProofRenyi.v
theories/ProofConv.v
theories/ProofMono.v
theories/ProofRRRdp.v
theories/ProofPoisson.v
theories/ProofTree.v
theories/ProofTaylor.v
theories/ProofGamma.v
theories/ProofLog.v
theories/ProofRdpEx.v
theories/PropRdp.v
theories/SpecAccountant.v
theories/ProofAccGen.v
theories/ProofAccRdp.v
theories/ProofAccAdd.v
theories/ProofCharge.v
theories/ProofAccMono.v
theories/ProofAccPld.v
theories/ProofLedger.v
theories/SpecAccPld.v
theories/ProofAccSound.v
theories/ProofAccEx.v
theories/ProofAccTop.v
theories/ProofMoreEx.v
theories/PropAccountant.v
theories/ModelSearch.v
theories/SpecSearch.v
theories/ProofSearch.v
theories/ProofCal.v
theories/ProofSearchEx.v
theories/ProofRound.v
theories/PropSearch.v
theories/ModelSmallest.v
theories/SpecSmallest.v
theories/ProofAdvanced.v
theories/ProofSmallestEx.v
theories/PropSmallest.v
theories/TypesAdjacency.v
theories/ModelMech.v
theories/SpecMech.v
theories/ProofPeak.v
theories/ProofNoise.v
theories/ProofShape.v
theories/ProofShapeGauss.v
theories/ProofShapeInt.v
theories/ProofAdditive.v
theories/SpecClasses.v
theories/ProofClasses.v
theories/ProofMechTop.v
theories/ProofGuarantee.v
theories/ProofNormal.v
theories/ProofMechEx.v
theories/PropMech.v
theories/SpecDGauss.v
theories/SpecConstruct.v
theories/ProofDotsMech.v
theories/ProofBuckets.v
theories/ProofTails.v
theories/ProofTailClasses.v
theories/ProofConstruct.v
theories/ProofConstructTotal.v
theories/ProofConstructEx.v
theories/ProofDGaussTail.v
theories/ProofDGaussPriv.v
theories/PropConstruct.v
theories/ModelNoise.v
theories/ProofFindNoise.v
theories/ProofTight.v
theories/ProofTightMech.v
theories/ProofTightBuckets.v
theories/ProofTightEps.v
theories/PropTight.v
theories/SpecNear.v
theories/ProofNear.v
theories/ProofNearTwo.v
theories/ProofNearEps.v
theories/ProofNearMake.v
theories/PropNear.v
theories/SpecConfig.v
theories/ProofConfig.v
theories/PropConfig.v
theories/ProofFindTotal.v
theories/ProofNoiseEx.v
theories/PropNoise.v
theories/SpecDict.v
theories/ProofConvert.v
theories/PropDict.v
theories/TypesNamed.v
theories/ModelNamed.v
theories/SpecNamed.v
theories/ProofNamed.v
theories/PropNamed.v
theories/TypesCluster.v
theories/ModelCluster.v
theories/SpecCluster.v
theories/ProofTreeShape.v
theories/ProofLockstep.v
theories/ProofInfluence.v
theories/ProofAlign.v
theories/ProofClusterEx.v
theories/PropCluster.v
theories/ModelCalculator.v
theories/ProofInfMass.v
theories/SpecNoiseAcc.v
theories/ProofNoiseAcc.v
theories/SpecCalculator.v
theories/ProofCalculator.v
theories/ProofTv.v
theories/ProofCalcEx.v
theories/ProofCalcRun.v
theories/SpecAccErr.v
theories/ModelAccMix.v
theories/ProofErrComp.v
theories/ProofAccErr.v
theories/ProofErrDots.v
theories/ProofMixAcc.v
theories/ProofNoiseNear.v
theories/ProofFullAcc.v
theories/ProofFullEx.v
theories/PropCalculator.v
theories/TypesSvt.v
theories/ModelSvt.v
theories/SpecSvt.v
theories/ProofSvt.v
theories/PropSvt.v
theories/TypesAudit.v
theories/ModelAudit.v
theories/SpecAudit.v
theories/ProofHoeffding.v
theories/ProofHist.v
theories/ProofAudit.v
theories/ProofAuditRun.v
theories/ProofHistEst.v
theories/ProofAuditTop.v
theories/PropAudit.v
theories/ProofObserve.v
theories/ProofGaussRdp.v
theories/ProofLapRdp.v
theories/ProofRefine.v
theories/ProofCuts.v
theories/SpecWor.v
theories/SpecRdpEvent.v
theories/ProofRdpAtom.v
theories/ProofGdpConv.v
theories/ProofGdp.v
theories/ProofGdpSeq.v
theories/ProofGaussNoise.v
theories/ProofGaussTotal.v
theories/ProofGdpTight.v
theories/ProofGaussEx.v
theories/ProofRdpSample.v
theories/ProofWorGauss.v
theories/ProofWorMix.v
theories/ProofWorSample.v
theories/ProofWorCode.v
theories/ProofWor.v
theories/ProofRdpEnd.v
theories/ProofRdpEndEx.v
theories/PropRdpEnd.v
theories/SpecSelect.v
theories/ProofSelect.v
theories/ProofSelectRdp.v
theories/ProofSelectLaw.v
theories/ProofSelectEnd.v
theories/ProofSelectSound.v
theories/ProofSelectEx.v
theories/PropSelect.v
theories/SpecMixture.v
theories/ModelMixture.v
theories/ProofMix.v
theories/ProofMixLaw.v
theories/ProofMixInv.v
theories/ProofMixDelta.v
theories/ProofMixDom.v
theories/ProofMixPld.v
theories/ProofMixTotal.v
theories/ProofMixRef.v
theories/ProofMixEnd.v
theories/PropMixture.v
theories/SpecRun.v
theories/ProofRun.v
theories/ProofSvtDp.v
theories/ProofSvtTight.v
theories/ProofSvt3.v
theories/PropSvtDp.v
theories/ModelNoisyMax.v
theories/SpecNoisyMax.v
theories/ProofNoisyMax.v
theories/PropNoisyMax.v
theories/ModelFrac.v
theories/SpecSeries.v
theories/ProofBinom.v
theories/ProofConvexDom.v
theories/ProofFrac.v
theories/ProofFracEnd.v
theories/ProofFracEx.v
theories/PropFrac.v
theories/TypesTesters.v
theories/ModelTesters.v
theories/SpecTesters.v
theories/ProofTailBounds.v
theories/ProofTailSums.v
theories/ProofTrained.v
theories/ProofHockey.v
theories/ProofHockeyBad.v
theories/ProofVariational.v
theories/ProofRenyiTester.v
theories/ProofTesterRun.v
theories/ProofTesterEx.v
theories/ProofTesterBounds.v
theories/ProofFit.v
theories/PropTesters.v
theories/ProofMmdTail.v
theories/ProofMmd.v
theories/ProofMmdRun.v
theories/ProofMmdPower.v
theories/PropMmd.v
theories/TypesMean.v
theories/ModelMean.v
theories/SpecMean.v
theories/ProofSplit.v
theories/ProofGaussPair.v
theories/ProofMeanDp.v
theories/ProofMeanPriv.v
theories/ProofMeanLaw.v
theories/ProofMeanBad.v
theories/ProofMeanOut.v
theories/ProofMeanEx.v
theories/PropMean.v
theories/TypesGen.v
theories/ModelGen.v
theories/SpecGen.v
theories/ProofGen.v
theories/ProofGenRun.v
theories/ProofGenData.v
theories/ProofGenBad.v
theories/ProofGenRead.v
theories/PropGen.v
theories/ModelResult.v
theories/SpecResult.v
theories/ProofResult.v
theories/ProofMetrics.v
theories/ProofMetricsRun.v
theories/ProofResultRun.v
theories/PropResult.v
theories/ProofGrid.v
theories/ProofGridRaise.v
theories/ProofGridMass.v
theories/ProofGridFull.v
theories/ProofBucketNear.v
theories/PropGrid.v
