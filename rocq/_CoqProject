-Q theories Verif
theories/Cplx.v
theories/Mx.v
theories/ModelTM.v
theories/ProofFlux.v
theories/ProofEnergy1D.v
theories/ProofEnergy2D.v
theories/Spec.v
theories/SpecSolve.v
theories/SpecFilm.v
theories/ProofSetup.v
theories/ProofEff.v
theories/ProofFilm.v
theories/ProofStack.v
theories/ProofCompose.v
theories/ProofFilmSolve.v
theories/ProofSubstrate.v
theories/ProofNormal.v
theories/ProofPinv.v
theories/ProofWell.v
theories/ProofWellSolve.v
theories/ExampleKit.v
theories/PropertiesSolve.v
theories/PropertiesFilm.v
theories/ModelFourier.v
theories/SpecFourier.v
theories/SpecLayer.v
theories/ProofFourier.v
theories/ProofConv.v
theories/ProofCell.v
theories/ProofLayer.v
theories/ProofRules.v
theories/ProofInvert.v
theories/ProofDFS.v
theories/PropertiesFourier.v
theories/ModelVec.v
theories/SpecVec.v
theories/ProofVec.v
theories/PropertiesVec.v
theories/ModelField.v
theories/ModelState.v
theories/SpecState.v
theories/ProofState.v
theories/ProofState2.v
theories/ProofEnd.v
theories/ProofEnd2.v
theories/ProofObjEx.v
theories/PropertiesState.v
theories/SpecField.v
theories/ProofField.v
theories/ProofBVP.v
theories/ProofBVP2.v
theories/ProofFieldSolve.v
theories/SpecAgree.v
theories/ProofAgree.v
theories/ProofAgree2.v
theories/ProofAgree3.v
theories/PropertiesAgree.v
theories/ModelGrad.v
theories/SpecGrad.v
theories/ProofGrad.v
theories/ProofGrad2.v
theories/ProofGradEx.v
theories/PropertiesGrad.v
theories/ModelSMM.v
theories/SpecSMM.v
theories/ProofSMM.v
theories/ProofSMM2.v
theories/ProofSMM3.v
theories/ProofSMMEx.v
theories/ProofSMM4.v
theories/PropertiesSMM.v
theories/ModelTree.v
theories/SpecTree.v
theories/ProofTree.v
theories/PropertiesTree.v
theories/ProofFieldEx.v
theories/PropertiesField.v
theories/SpecMaxwell.v
theories/ProofMaxwell.v
theories/PropertiesMaxwell.v
theories/ModelTorch.v
theories/SpecTorch.v
theories/ProofTorch.v
theories/ProofTorch2.v
theories/ProofTorch3.v
theories/PropertiesTorch.v
theories/ModelMat.v
theories/SpecMat.v
theories/ProofMat.v
theories/ProofMat2.v
theories/ProofMat3.v
theories/ProofMat4.v
theories/ProofMat5.v
theories/ProofMat6.v
theories/ProofMat7.v
theories/PropertiesMat.v
theories/ModelShape.v
theories/SpecShape.v
theories/ProofShape.v
theories/ProofShape2.v
theories/PropertiesShape.v
theories/SpecPassive.v
theories/ProofPassive.v
theories/ProofPassive2.v
theories/ProofPassive3.v
theories/PropertiesPassive.v
theories/ProofTorch4.v
theories/SpecFull.v
theories/ProofFull.v
theories/SpecSym.v
theories/ProofSym.v
theories/ProofSym2.v
theories/ProofSym3.v
theories/ProofSym4.v
theories/ProofSym5.v
theories/ProofSym6.v
theories/ProofSym7.v
theories/ProofSymEx.v
theories/PropertiesSym.v
theories/PropertiesFull.v
theories/SpecRecip.v
theories/ProofRecip.v
theories/ProofRecip2.v
theories/ProofRecip3.v
theories/PropertiesRecip.v
theories/SpecRecipT.v
theories/ProofRecipT.v
theories/ProofRecipT2.v
theories/ProofRecipEx.v
theories/PropertiesRecipT.v
theories/ModelOpt.v
theories/SpecOpt.v
theories/ProofOpt.v
theories/PropertiesOpt.v
theories/SpecTorchField.v
theories/ModelTorchField.v
theories/ProofTorchField.v
theories/PropertiesTorchField.v
theories/ModelJax.v
theories/SpecJax.v
theories/ProofJax.v
theories/ProofJax2.v
theories/PropertiesJax.v
theories/ModelTorchObj.v
theories/SpecTorchObj.v
theories/ProofTorchObj.v
theories/ProofTorchObj2.v
theories/ProofTorchObjEx.v
theories/PropertiesTorchObj.v
theories/SpecFilm2D.v
theories/ProofFilm2D.v
theories/ProofFilm2DEx.v
theories/PropertiesFilm2D.v
theories/SpecTorchPassive.v
theories/ProofTorchPassive.v
theories/SpecAbsorb.v
theories/ProofAbsorb.v
theories/ProofAbsorb2.v
theories/ProofAbsorb3.v
theories/ProofAbsorb4.v
theories/ProofAbsorb5.v
theories/ProofAbsorbEx.v
theories/PropertiesAbsorb.v
theories/ProofTorchPassEx.v
theories/PropertiesTorchPassive.v
theories/ProofStrict.v
theories/SpecStrict.v
theories/ProofStrict2.v
theories/ProofStrict3.v
theories/ProofStrictEx.v
theories/PropertiesStrict.v
theories/ModelSMM2D.v
theories/SpecSMM2D.v
theories/ProofSMM2D.v
theories/ProofSMM2D2.v
theories/ProofSMM2D3.v
theories/ProofSMM2D4.v
theories/ProofSMM2DEx.v
theories/ProofSMM2D5.v
theories/ProofSMM2D6.v
theories/ProofSMM2DEx2.v
theories/PropertiesSMM2D.v
theories/SpecPort.v
theories/ProofPort.v
theories/ProofPortEx.v
theories/PropertiesPort.v
theories/SpecSpot.v
theories/ProofSpot.v
theories/ProofSpot2.v
theories/ProofSpotEx.v
theories/PropertiesSpot.v
theories/SpecCoat.v
theories/ProofCoat.v
theories/ProofCoat2.v
theories/ProofCoat3.v
theories/ProofCoat4.v
theories/ProofCoatEx.v
theories/PropertiesCoat.v
theories/PropertiesTir.v
theories/SpecGraphene.v
theories/ProofGraphene.v
theories/PropertiesGraphene.v
theories/SpecFilmT.v
theories/PropertiesFilmT.v
theories/PropertiesUcell.v
theories/PropertiesAniso.v
