-Q theories Verif
theories/ExampleBody.v
theories/ExampleCases.v
theories/ExampleCases2.v
theories/ExampleCollapse.v
theories/ExampleContraction.v
theories/ExampleDescent.v
theories/ExampleElasticBody.v
theories/ExampleEnergy.v
theories/ExampleExistence.v
theories/ExampleFiles.v
theories/ExampleLimit.v
theories/ExampleLimitLoad.v
theories/ExampleMachine.v
theories/ExampleMirror.v
theories/ExampleNames.v
theories/ExampleNumbering.v
theories/ExampleObject.v
theories/ExampleProgram.v
theories/ExampleRigid.v
theories/ExampleRun.v
theories/ExampleScratch.v
theories/ExampleScratchMatrix.v
theories/ExampleStiffness.v
theories/ExampleSuperposition.v
theories/ExampleSupport.v
theories/ExampleTangent.v
theories/ExampleTimescale.v
theories/ExampleUnique.v
theories/ExampleVisit.v
theories/ModelActiveSet.v
theories/ModelAssembly.v
theories/ModelBody.v
theories/ModelCohesive.v
theories/ModelCrystal.v
theories/ModelElastic.v
theories/ModelFEField.v
theories/ModelFiles.v
theories/ModelHistory.v
theories/ModelIO.v
theories/ModelInterface.v
theories/ModelKrylov.v
theories/ModelLineSearch.v
theories/ModelLinear.v
theories/ModelLoading.v
theories/ModelMicro.v
theories/ModelObject.v
theories/ModelParams.v
theories/ModelPost.v
theories/ModelProgram.v
theories/ModelRace.v
theories/ModelScratch.v
theories/ModelScratchMatrix.v
theories/ModelShear.v
theories/ModelSolver.v
theories/ModelStep.v
theories/ModelSweep.v
theories/ModelTable.v
theories/ModelTangent.v
theories/ModelTrial.v
theories/ModelUtilities.v
theories/Num.v
theories/ProofAssembly.v
theories/ProofBound.v
theories/ProofCoercive.v
theories/ProofCohesive.v
theories/ProofCrystal.v
theories/ProofDirection.v
theories/ProofElastic.v
theories/ProofEnergy.v
theories/ProofErf.v
theories/ProofFEField.v
theories/ProofFace.v
theories/ProofHistory.v
theories/ProofInterface.v
theories/ProofLineSearch.v
theories/ProofMicro.v
theories/ProofMinimum.v
theories/ProofMirror.v
theories/ProofNames.v
theories/ProofNewton.v
theories/ProofNumbering.v
theories/ProofParams.v
theories/ProofPotential.v
theories/ProofRigid.v
theories/ProofSaturation.v
theories/ProofScratch.v
theories/ProofScratchMatrix.v
theories/ProofSimulation.v
theories/ProofStep.v
theories/ProofStiffness.v
theories/ProofTangent.v
theories/ProofUtilities.v
theories/PropActiveSet.v
theories/PropAssembly.v
theories/PropBody.v
theories/PropCohesive.v
theories/PropCollapse.v
theories/PropContraction.v
theories/PropCrystal.v
theories/PropDescent.v
theories/PropElastic.v
theories/PropElasticBody.v
theories/PropElasticStep.v
theories/PropEnergy.v
theories/PropExistence.v
theories/PropFEField.v
theories/PropFiles.v
theories/PropHistory.v
theories/PropIO.v
theories/PropInterface.v
theories/PropKrylov.v
theories/PropLimit.v
theories/PropLimitLoad.v
theories/PropLimitRun.v
theories/PropLineSearch.v
theories/PropLinear.v
theories/PropLoading.v
theories/PropMachine.v
theories/PropMicro.v
theories/PropMirror.v
theories/PropNames.v
theories/PropNumbering.v
theories/PropObject.v
theories/PropOutput.v
theories/PropParams.v
theories/PropPost.v
theories/PropPower.v
theories/PropProgram.v
theories/PropRace.v
theories/PropRigid.v
theories/PropRun.v
theories/PropScale.v
theories/PropScratch.v
theories/PropScratchMatrix.v
theories/PropShear.v
theories/PropSlipNames.v
theories/PropSolver.v
theories/PropStep.v
theories/PropStiffness.v
theories/PropSuperposition.v
theories/PropSupport.v
theories/PropSweep.v
theories/PropTable.v
theories/PropTangent.v
theories/PropTimescale.v
theories/PropTrial.v
theories/PropTrialLines.v
theories/PropUnique.v
theories/PropUtilities.v
theories/PropVisit.v
theories/RefuteStiffness.v
theories/RefuteUnique.v
theories/SpecActiveSet.v
theories/SpecAssembly.v
theories/SpecBody.v
theories/SpecCohesive.v
theories/SpecCollapse.v
theories/SpecContraction.v
theories/SpecCrystal.v
theories/SpecDescent.v
theories/SpecElastic.v
theories/SpecElasticBody.v
theories/SpecEnergy.v
theories/SpecExistence.v
theories/SpecFEField.v
theories/SpecFiles.v
theories/SpecHistory.v
theories/SpecIO.v
theories/SpecInterface.v
theories/SpecKrylov.v
theories/SpecLimit.v
theories/SpecLimitLoad.v
theories/SpecLineSearch.v
theories/SpecLinear.v
theories/SpecLoading.v
theories/SpecMachine.v
theories/SpecMicro.v
theories/SpecMirror.v
theories/SpecNames.v
theories/SpecNumbering.v
theories/SpecObject.v
theories/SpecParams.v
theories/SpecPost.v
theories/SpecProgram.v
theories/SpecRigid.v
theories/SpecRun.v
theories/SpecScratch.v
theories/SpecScratchMatrix.v
theories/SpecShear.v
theories/SpecSolver.v
theories/SpecStep.v
theories/SpecStiffness.v
theories/SpecSuperposition.v
theories/SpecSupport.v
theories/SpecSweep.v
theories/SpecTangent.v
theories/SpecTimescale.v
theories/SpecTrial.v
theories/SpecUnique.v
theories/SpecVisit.v
theories/SumLemmas.v
theories/TensorLemmas.v
theories/Tensors.v
