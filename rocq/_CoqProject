-Q theories Verif
theories/Base.v
theories/TEUtils.v
theories/TimeEvolution.v
theories/ListFacts.v
theories/TEIndexFacts.v
theories/TEStageFacts.v
theories/TEStepFacts.v
theories/TELoopFacts.v
theories/TEInv.v
theories/TEForward.v
theories/TEZero.v
theories/TEZeroRun.v
theories/NumpyInst.v
theories/Spec_TE.v
theories/TEShift.v
theories/TEThm1.v
theories/TEThm2.v
theories/TEExamples.v
theories/TEThm3.v
theories/TEThm4.v
theories/TEThm5.v
theories/TEThm6.v
theories/TEErr.v
theories/TEThm7.v
theories/TEReach.v
theories/TEAuto.v
theories/TEReuse.v
theories/TEAuto2.v
theories/TEThm8.v
theories/Spec_Groups.v
theories/Spec_Bins.v
theories/Spec_Finish.v
theories/TEBins.v
theories/TEGroups.v
theories/TEExamples2.v
theories/TEExamples3.v
theories/TEExamples4.v
theories/Props_TE1.v
theories/Props_TE2.v
theories/Props_TE3.v
theories/Spec_Init.v
theories/TEInitFacts.v
theories/Props_TE4.v
theories/TEAgree.v
theories/TERestart.v
theories/TEBounded.v
theories/TEBoundary.v
theories/Props_TE5.v
theories/Props_TE6.v
theories/TEFinish.v
theories/Props_TE7.v
theories/Props_TE8.v
theories/MathUtils.v
theories/Conversion.v
theories/Spectra.v
theories/Blob.v
theories/Synchrotron.v
theories/Geometry.v
theories/Kernels.v
theories/SSC.v
theories/Losses.v
theories/Targets.v
theories/ExternalCompton.v
theories/Absorption.v
theories/EBL.v
theories/RadProc.v
theories/Constraints.v
theories/Fit.v
theories/FitData.v
theories/Spec_Fit.v
theories/Spec_Math.v
theories/Spec_Spectra.v
theories/MathFacts.v
theories/MathFacts2.v
theories/SpectraFacts.v
theories/SpectraFacts2.v
theories/Spec_Blob.v
theories/Spec_Rad.v
theories/Calculus.v
theories/BlobFacts.v
theories/Props_Blob.v
theories/SynchFacts.v
theories/SynchFacts2.v
theories/Props_Synch.v
theories/ComptonFacts.v
theories/Props_Compton.v
theories/Spec_Geom.v
theories/Spec_Beams.v
theories/Props_Geometry.v
theories/TargetFacts.v
theories/Props_Targets.v
theories/Props_EC.v
theories/Props_Beams.v
theories/AbsorptionFacts.v
theories/Props_Absorption.v
theories/Props_Opacity.v
theories/Spec_Emission.v
theories/Props_Emission.v
theories/Spec_Thermal.v
theories/Props_Thermal.v
theories/Props_Disk.v
theories/Props_EBL.v
theories/Props_RadProc.v
theories/Props_Constraints.v
theories/Props_Validation.v
theories/Props_Fit.v
theories/Props_FitData.v
theories/FitParameters.v
theories/Props_FitPars.v
theories/Props_DiskLum.v
theories/Props_Math.v
theories/Props_Spectra.v
theories/SynchPower.v
theories/Props_SynchPower.v
theories/Props_Growth.v
theories/Props_KleinNishina.v
theories/Props_Isotropic.v
theories/Props_Budget.v
theories/Spec_Move.v
theories/Cooling.v
theories/TEMove.v
theories/Props_Move.v
theories/Props_Balance.v
theories/Utils.v
theories/Spec_Utils.v
theories/Props_Utils.v
theories/Spec_Field.v
theories/Props_FarField.v
theories/Props_DiskField.v
theories/Props_Refine.v
theories/DiskMethods.v
theories/Props_Methods.v
theories/Riemann.v
theories/Props_Refine2.v
theories/Records.v
theories/Props_Records.v
theories/Clock.v
theories/ClockFacts.v
theories/ClockCompute.v
theories/Props_Clock.v
theories/Spec_Kinetic.v
theories/KineticFacts.v
theories/KineticGrid.v
theories/Props_Kinetic.v
theories/Spec_Units.v
theories/UnitsFacts.v
theories/Props_Units.v
theories/TensorGrid.v
theories/Spec_Opacity.v
theories/Props_Limits.v
theories/Spec_Surface.v
theories/JumpGrid.v
theories/BeamGrid.v
theories/Props_Limits2.v
theories/Spec_Round.v
theories/Rounding.v
theories/RoundFacts.v
theories/Props_Round.v
theories/Props_Round2.v
theories/RoundBlob.v
theories/Props_Round3.v
theories/Props_Path.v
theories/RoundSSA.v
theories/Props_Round4.v
theories/Props_DiskSed.v
theories/RoundSigma.v
theories/Props_Round5.v
theories/RoundLog.v
theories/Props_Round6.v
theories/Props_More2.v
theories/RoundKernel.v
theories/Props_Round7.v
theories/RoundGeometry.v
theories/Props_Round8.v
theories/Props_Opacity2.v
theories/RoundBLR.v
theories/Props_Round9.v
theories/RoundDisk.v
theories/Props_Round10.v
theories/RoundGrid.v
theories/Props_Round11.v
theories/RoundBound.v
theories/Props_Round12.v
theories/RoundCompton.v
theories/Props_Round13.v
theories/RoundSlab.v
theories/Props_Round14.v
theories/RoundSynch.v
theories/Props_Round15.v
theories/RoundTemp.v
theories/Props_Round16.v
