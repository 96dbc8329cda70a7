-Q theories Verif
theories/Base.v
theories/ModelUtil.v
theories/ModelMC.v
theories/ProofUtil.v
theories/ProofUtil2.v
theories/PropsUtil.v
theories/Deriv.v
theories/Herm.v
theories/Herm2.v
theories/ModelProjective.v
theories/ProofProjective.v
theories/Bridge.v
theories/ProofFS.v
theories/ModelDiff.v
theories/ProofFS2.v
theories/ProofDiff.v
theories/ProofDiff2.v
theories/PropsProjective.v
theories/PropsDiff.v
theories/ModelML.v
theories/ProofML.v
theories/ProofML2.v
theories/ProofML3.v
theories/ProofML4.v
theories/PropsML.v
theories/ModelStr.v
theories/ProofStr.v
theories/PropsStr.v
theories/ModelExpr.v
theories/ModelPoly.v
theories/ProofPoly.v
theories/SpecPoly.v
theories/ProofPoly2.v
theories/ProofPoly3.v
theories/ProofPoly4.v
theories/ProofPoly5.v
theories/ProofPoly6.v
theories/ProofPoly7.v
theories/PropsPoly.v
theories/ModelHom.v
theories/SpecHom.v
theories/ProofHom.v
theories/ProofHom2.v
theories/ProofHom3.v
theories/PropsHom.v
theories/SpecUniv.v
theories/ProofUniv.v
theories/PropsUniv.v
theories/ModelMon.v
theories/SpecMon.v
theories/ProofMon.v
theories/ProofMon2.v
theories/ProofMon3.v
theories/PropsMon.v
theories/ModelStore.v
theories/SpecStore.v
theories/ProofStore.v
theories/PropsStore.v
theories/ModelVariety.v
theories/SpecVariety.v
theories/ProofVariety.v
theories/ProofVariety2.v
theories/ProofVariety3.v
theories/PropsVariety.v
theories/ModelBasis.v
theories/SpecBasis.v
theories/ProofBasis.v
theories/ProofBasis2.v
theories/ProofBasis3.v
theories/PropsBasis.v
theories/Wirtinger.v
theories/WMatrix.v
theories/ModelGeom.v
theories/SpecGeom.v
theories/ProofGeom.v
theories/ProofGeom2.v
theories/ProofGeom3.v
theories/ProofGeom4.v
theories/PolyGrad.v
theories/PropsGeom.v
theories/ModelDonaldson.v
theories/SpecDonaldson.v
theories/ProofDonaldson.v
theories/ProofDonaldson2.v
theories/ProofDonaldson3.v
theories/Herm3.v
theories/SpecStep.v
theories/Herm4.v
theories/ProofDonaldson4.v
theories/ProofDonaldson5.v
theories/ProofStep.v
theories/PropsDonaldson.v
theories/RealField.v
theories/RealLog.v
theories/ComplexR.v
theories/ModelRandom.v
theories/SpecRandom.v
theories/ProofRandom.v
theories/ProofRandom2.v
theories/ProofRandom3.v
theories/PropsRandom.v
theories/Implicit.v
theories/Implicit2.v
theories/SpecSections.v
theories/ProofSections.v
theories/PropsSections.v
theories/SpecComplex.v
theories/ProofComplex.v
theories/PropsComplex.v
theories/SpecPatch.v
theories/ProofPatch.v
theories/PropsPatch.v
theories/ProofRicci.v
theories/ProofRicci2.v
theories/PropsRicci.v
theories/ProofPolyExpr.v
theories/ModelAlg.v
theories/ModelPipe.v
theories/SpecAlg.v
theories/ProofAlg.v
theories/ProofAlg2.v
theories/ProofAlg3.v
theories/ProofAlg4.v
theories/ProofAlg7.v
theories/PropsAlg.v
theories/ProofAlg5.v
theories/ProofAlg6.v
theories/SpecPipe.v
theories/ProofPipe.v
theories/ProofPipe2.v
theories/ProofPipe3.v
theories/ProofPipe4.v
theories/ProofPipe5.v
theories/ProofPipe6.v
theories/ProofPipe7.v
theories/ProofPipe8.v
theories/ProofPipe9.v
theories/PropsPipe.v
theories/PropsVariety2.v
theories/ModelOps.v
theories/SpecOps.v
theories/ProofOps.v
theories/ProofOps2.v
theories/ProofOps3.v
theories/ProofOps4.v
theories/PropsOps.v
theories/ProofStep2.v
theories/PropsStep.v
theories/Limits.v
theories/Compact.v
theories/ProofStep3.v
theories/ProofStep4.v
theories/ProofStep5.v
theories/ProofStep6.v
theories/ProofStep7.v
theories/ProofStep8.v
theories/PropsStep2.v
theories/SpecClash.v
theories/ProofClash.v
theories/ProofClash2.v
theories/PropsVariety3.v
theories/ModelInput.v
theories/SpecInput.v
theories/ProofInput.v
theories/PropsInput.v
theories/SpecShort.v
theories/ProofShort.v
theories/PropsShort.v
theories/SpecSolve.v
theories/ProofSolve.v
theories/ProofParams.v
theories/PropsSolve.v
theories/SpecEta.v
theories/ProofEta.v
theories/ProofRicci3.v
theories/ProofEta2.v
theories/ProofEta3.v
theories/ProofEta4.v
theories/ProofEta5.v
theories/PropsEta.v
theories/ModelClamp.v
theories/SpecSig.v
theories/ProofSig.v
theories/ProofClamp.v
theories/PropsSig.v
theories/ProofRange.v
theories/PropsRange.v
theories/SpecFubini.v
theories/ProofFubini.v
theories/ProofFubini2.v
theories/ProofFubini3.v
theories/PropsFubini.v
theories/SpecSymmetry.v
theories/ProofSymmetry.v
theories/ProofSymmetry2.v
theories/ProofSymmetry3.v
theories/ProofSymmetry4.v
theories/PropsSymmetry.v
theories/PropsDraw.v
theories/ProofSymmetry5.v
theories/ProofSymmetry6.v
theories/ProofSymmetry7.v
theories/ProofSymmetry8.v
theories/PropsSymmetry2.v
theories/SpecConj.v
theories/ProofConj.v
theories/ProofConj2.v
theories/ProofConj3.v
theories/ProofConj4.v
theories/PropsConj.v
theories/ProofRate.v
theories/ProofRate2.v
theories/ProofRate3.v
theories/ProofRate4.v
theories/PropsRate.v
theories/ProofChol.v
theories/PropsChol.v
theories/ProofFubini4.v
theories/PropsFubini2.v
theories/SpecProduct.v
theories/ProofProduct.v
theories/ProofProduct2.v
theories/ProofProduct3.v
theories/ProofProduct4.v
theories/ProofProduct5.v
theories/PropsProduct.v
theories/ProofVar.v
theories/PropsVar.v
theories/SpecLinear.v
theories/ProofLinear.v
theories/ProofLinear2.v
theories/ProofLinear3.v
theories/ProofLinear4.v
theories/PropsLinear.v
theories/ProofLinear5.v
theories/ProofLinear6.v
theories/ProofLinear7.v
theories/ProofLinear8.v
theories/PropsLinear2.v
theories/ProofIdent.v
theories/ProofIdent2.v
theories/ProofIdent3.v
theories/ProofIdent4.v
theories/PropsIdent.v
theories/ProofIdent5.v
theories/ProofIdent6.v
theories/ProofIdent7.v
theories/ProofIdent8.v
theories/PropsIdent2.v
theories/SpecRotate.v
theories/ProofLinear9.v
theories/ProofLinear10.v
theories/PropsLinear3.v
theories/SpecReduce.v
theories/ProofReduce.v
theories/ProofReduce2.v
theories/ProofReduce3.v
theories/PropsReduce.v
theories/SpecRank.v
theories/ProofRank.v
theories/ProofRank2.v
theories/PropsRank.v
theories/SpecRotate2.v
theories/ProofLinear11.v
theories/ProofLinear12.v
theories/PropsLinear4.v
theories/ProofLinear13.v
theories/ProofLinear14.v
theories/PropsLinear5.v
