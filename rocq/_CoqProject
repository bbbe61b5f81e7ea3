-Q theories Verif
theories/RSum.v
theories/ModelBernstein.v
theories/SpecBernstein.v
theories/ProofBernstein.v
theories/PropBernstein.v
theories/ModelKnots.v
theories/ProofKnots.v
theories/PropKnots.v
theories/ModelBase.v
theories/ModelDeBoor.v
theories/SpecDeBoor.v
theories/ProofDeBoor.v
theories/ProofDeBoorDer.v
theories/ProofDeBoorTP.v
theories/PropDeBoor.v
theories/ModelTree.v
theories/SpecTree.v
theories/ProofTree.v
theories/ProofTreeWF.v
theories/ProofTreeHist.v
theories/ProofTreeGeo.v
theories/ProofTreeLook.v
theories/PropTree.v
theories/ProofTopo.v
theories/ProofConf.v
theories/ProofConfStep.v
theories/ProofConfTree.v
theories/SpecMesh.v
theories/ProofConfHist.v
theories/ProofConfPts.v
theories/ProofConfIdx.v
theories/ProofTopoInfo.v
theories/PropTopo.v
theories/ModelGlue.v
theories/SpecGlue.v
theories/ProofGlueMat.v
theories/ProofGlueId.v
theories/ProofGlueEdge.v
theories/ProofGlueMesh.v
theories/ProofGlueDiv.v
theories/PropGlue.v
theories/ModelBlock.v
theories/SpecBlock.v
theories/ProofBlock.v
theories/PropBlock.v
theories/ModelBall.v
theories/SpecBall.v
theories/ProofBall.v
theories/ProofPoints.v
theories/PropBall.v
theories/ModelPar.v
theories/ProofPar.v
theories/ModelH2.v
theories/SpecH2.v
theories/ProofH2.v
theories/ProofH2Prod.v
theories/PropH2.v
theories/ModelAssembly.v
theories/ProofAssembly.v
theories/PropAssembly.v
theories/ModelInterp.v
theories/SpecInterp.v
theories/ProofInterp.v
theories/ProofMoment.v
theories/ModelH2Init.v
theories/ProofH2Entry.v
theories/PropInterp.v
theories/GaussTable.v
theories/ModelQuad.v
theories/SpecQuad.v
theories/ProofQuad.v
theories/ProofGolub.v
theories/PropQuad.v
theories/ModelDuffy.v
theories/SpecDuffy.v
theories/ProofDuffy.v
theories/ProofDuffyInt.v
theories/PropDuffy.v
theories/ProofCompare.v
theories/PropCompare.v
theories/ModelPatch.v
theories/SpecPatch.v
theories/ProofBezier.v
theories/ProofPatch.v
theories/ProofPatchInit.v
theories/ProofProjection.v
theories/ProofPatchSpline.v
theories/PropPatch.v
theories/ModelUtil.v
theories/SpecUtil.v
theories/PropUtil.v
theories/ModelText.v
theories/ModelDat.v
theories/SpecDat.v
theories/ProofText.v
theories/ProofDat.v
theories/PropDat.v
theories/ModelIges.v
theories/SpecIges.v
theories/ProofIges.v
theories/ProofIgesPatch.v
theories/ProofIgesFile.v
theories/PropIges.v
theories/ModelOperators.v
theories/SpecOperators.v
theories/ProofOperators.v
theories/PropOperators.v
theories/ProofNearFar.v
theories/PropNearFar.v
theories/ModelForms.v
theories/SpecForms.v
theories/ProofForms.v
theories/PropForms.v
theories/ProofPotential.v
theories/PropPotential.v
theories/SpecProj.v
theories/ModelProj.v
theories/ProofPiece.v
theories/ProofProj.v
theories/ProofProjMesh.v
theories/PropProj.v
theories/ModelAnsatz.v
theories/SpecConform.v
theories/ProofConform.v
theories/ProofAnsatz.v
theories/PropConform.v
theories/ProofIndep.v
theories/PropComplete.v
theories/SpecTame.v
theories/ProofGlueTame.v
theories/PropTame.v
theories/ModelSpherical.v
theories/SpecSpherical.v
theories/ProofSpherical.v
theories/ProofSphericalCode.v
theories/ProofSphericalTable.v
theories/ProofSphericalGrad.v
theories/PropSpherical.v
theories/SpecHomogenised.v
theories/ProofHomogenised.v
theories/PropHomogenised.v
theories/ModelCoefficients.v
theories/SpecCoefficients.v
theories/ProofCoefficients.v
theories/ProofCoefficients2.v
theories/ProofPeriodic.v
theories/ProofPeriodic2.v
theories/ProofCoefficients3.v
theories/ProofGauss.v
theories/ProofGaussExist.v
theories/PropGauss.v
theories/ProofTable.v
theories/PropTable.v
theories/ProofLeastSquares.v
theories/PropCoefficients.v
theories/ModelExport.v
theories/SpecExport.v
theories/ProofExport.v
theories/PropExport.v
theories/ModelBctCopy.v
theories/SpecBctCopy.v
theories/ProofBctCopy.v
theories/PropBctCopy.v
theories/ModelH2Expr.v
theories/SpecH2Expr.v
theories/PropH2Expr.v
theories/ModelReinit.v
theories/SpecReinit.v
theories/PropReinit.v
theories/ModelL2.v
theories/SpecL2.v
theories/ProofSurfInt.v
theories/PropL2.v
theories/ModelMachine.v
theories/SpecMachine.v
theories/ProofMachine.v
theories/PropMachine.v
theories/SpecCheb.v
theories/ProofCheb.v
theories/PropCheb.v
theories/ProofLegendre.v
theories/SpecFlat.v
theories/PropFarLaplace.v
theories/ProofGegenbauer.v
theories/PropFarDouble.v
theories/ProofGaussErr.v
theories/PropGalerkin.v
theories/ModelLogger.v
theories/SpecLogger.v
theories/PropLogger.v
theories/ModelOrient.v
theories/PropOrient.v
theories/PropDivThm.v
theories/PropConstants.v
theories/SpecDofs.v
theories/ProofDofs.v
theories/PropDofs.v
theories/PropCompressed.v
theories/ProofLin.v
theories/PropUnique.v
theories/PropKernel.v
theories/ModelPipeline.v
theories/SpecMotion.v
theories/ProofMotion.v
theories/PropMotion.v
theories/ProofPipeline.v
theories/PropPipeline.v
theories/PropWhole.v
theories/SpecHyper.v
theories/ProofHyper.v
theories/PropHyper.v
theories/PropRules.v
theories/SpecScale.v
theories/ProofScale.v
theories/PropScale.v
theories/PropUnits.v
theories/PropUnitsH2.v
theories/SpecMirror.v
theories/ProofMirror.v
theories/PropMirror.v
theories/SpecWave.v
theories/ProofWave.v
theories/PropWave.v
theories/PropHyperConst.v
