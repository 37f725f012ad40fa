-Q theories Verif
theories/Base.v
theories/ModelParts.v
theories/ModelKernel.v
theories/ModelCommon.v
theories/ModelPhases.v
theories/ModelFinder.v
theories/ProofsKernel.v
theories/ProofsParts.v
theories/ProofsSteps.v
theories/ProofsBounds.v
theories/ProofsCopy.v
theories/ProofsRun.v
theories/Spec.v
theories/Examples.v
theories/PropertiesKernel.v
theories/WitnessKernel.v
theories/ModelHistory.v
theories/ProofsHistory.v
theories/ProofsRun2.v
theories/PropertiesFinder.v
theories/PropertiesRun.v
theories/WitnessFinder.v
theories/PropertiesSetup.v
theories/ProofsRelabel.v
theories/ProofsTwin.v
theories/PropertiesRelabel.v
theories/WitnessSetup.v
theories/ProofsPhases.v
theories/PropertiesPhases.v
theories/WitnessPhases.v
theories/ModelObjects.v
theories/PropertiesObjects.v
theories/WitnessObjects.v
theories/ModelFreeEnergy.v
theories/ProofsFreeEnergy.v
theories/PropertiesFreeEnergy.v
theories/WitnessFreeEnergy.v
theories/PropertiesConstraints.v
theories/ProofsEquilibrium.v
theories/PropertiesEquilibrium.v
theories/PropertiesEnsembles.v
theories/WitnessEquilibrium.v
theories/PropertiesFeatures.v
theories/WitnessFeatures.v
theories/PropertiesTheory.v
theories/WitnessTheory.v
theories/ModelShortcut.v
theories/PropertiesShortcut.v
theories/WitnessShortcut.v
theories/ModelFloat.v
theories/PropertiesFloat.v
theories/PropertiesMetrics.v
theories/PropertiesHomogeneous.v
theories/WitnessMetrics.v
theories/PropertiesConvex.v
theories/WitnessConvex.v
theories/PropertiesGauge.v
theories/WitnessGauge.v
theories/ModelFlory.v
theories/PropertiesFlory.v
theories/WitnessFlory.v
theories/ModelOwnership.v
theories/ModelSharing.v
theories/ModelWorld.v
theories/ModelNorm.v
theories/ModelPoly.v
theories/ModelMeans.v
theories/PropertiesOwnership.v
theories/WitnessOwnership.v
theories/PropertiesOneStep.v
theories/WitnessOneStep.v
theories/ProofsSim.v
theories/PropertiesConsistency.v
theories/WitnessConsistency.v
theories/PropertiesSplit.v
theories/WitnessSplit.v
theories/PropertiesSharing.v
theories/PropertiesWorld.v
theories/WitnessWorld.v
theories/PropertiesNorm.v
theories/PropertiesPoly.v
theories/PropertiesMeans.v
theories/PropertiesSpinodal.v
theories/WitnessSpinodal.v
theories/PropertiesAbsent.v
theories/WitnessAbsent.v
theories/ProofsCopies.v
theories/PropertiesCopies.v
theories/WitnessCopies.v
theories/ModelFloatKernel.v
theories/ProofsFloatKernel.v
theories/PropertiesFloatKernel.v
theories/WitnessFloatKernel.v
theories/PropertiesSetters.v
theories/WitnessSetters.v
theories/ProofsRounding.v
theories/PropertiesRounding.v
theories/WitnessRounding.v
theories/ModelInterrupt.v
theories/PropertiesInterrupt.v
theories/WitnessInterrupt.v
theories/ModelProgress.v
theories/PropertiesProgress.v
theories/WitnessProgress.v
theories/PropertiesFreeEnergyCode.v
theories/PropertiesBroadcast.v
theories/PropertiesPartition.v
theories/WitnessPartition.v
theories/ModelArrays.v
theories/PropertiesArrays.v
theories/WitnessArrays.v
theories/ModelBlocks.v
theories/PropertiesBlocks.v
theories/PropertiesRelax.v
theories/WitnessRelax.v
theories/ProofsBinary.v
theories/PropertiesBinary.v
theories/WitnessBinary.v
theories/ProofsCompact.v
theories/PropertiesAccuracy.v
theories/WitnessAccuracy.v
theories/ProofsOptimum.v
theories/PropertiesOptimum.v
theories/PropertiesMixing.v
theories/WitnessOptimum.v
theories/ProofsContract.v
theories/PropertiesContract.v
theories/WitnessContract.v
theories/ModelFloatParts.v
theories/ProofsFloatError.v
theories/PropertiesFloatError.v
theories/PropertiesFloatParts.v
theories/WitnessFloatError.v
theories/ProofsFloatRevive.v
theories/PropertiesFloatRevive.v
theories/WitnessFloatRevive.v
theories/PropertiesEdit.v
theories/WitnessEdit.v
theories/PropertiesBoundary.v
theories/WitnessBoundary.v
theories/PropertiesShortcutArgs.v
theories/ModelBlockArgs.v
theories/PropertiesBlockArgs.v
theories/ProofsContractLoose.v
theories/PropertiesFloatConverge.v
theories/WitnessFloatConverge.v
theories/PropertiesFloatBalance.v
theories/WitnessFloatBalance.v
theories/PropertiesFloatUniform.v
theories/WitnessFloatUniform.v
