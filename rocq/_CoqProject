-Q theories Verif

theories/PyBase.v
theories/PyFacts.v
theories/Compat.v
theories/SphericalSpec.v
theories/Spherical.v
theories/SphericalFacts.v
theories/PropsSpherical.v
theories/FullLabels.v
theories/FullLabelsFacts.v
theories/PropsFullLabels.v
theories/Matrix.v
theories/FullSpace.v
theories/FullSpaceFacts.v
theories/PropsFullSpace.v
theories/RadialOps.v
theories/RadialSpec.v
theories/RadialOpsFacts.v
theories/LambdaFacts.v
theories/SplitsFacts.v
theories/ProdFacts.v
theories/PropsRadialOps.v
theories/RadialME.v
theories/RadialMESpec.v
theories/RadialMEFacts.v
theories/IdFacts.v
theories/PropsRadialME.v
theories/PyDict.v
theories/Text.v
theories/SO5Files.v
theories/PropsFiles.v
theories/CG.v
theories/CGSpec.v
theories/CGFacts.v
theories/PropsCG.v
theories/CGSO3.v
theories/CGSO3Facts.v
theories/AngMom.v
theories/PropsCGSO3.v
theories/Operators.v
theories/OperatorSpec.v
theories/PropsOperators.v
theories/ReducedSpec.v
theories/ReducedFacts.v
theories/PropsReduced.v
theories/PropsHarmonics.v
theories/FullOps.v
theories/FullOpsFacts.v
theories/FullOpsBlocks.v
theories/FullOpsMemo.v
theories/FullOpsProd.v
theories/RadialWords.v
theories/PropsFullOps.v
theories/PropsMomentum.v
theories/PropsHistory.v
theories/Format.v
theories/Settings.v
theories/SettingsFacts.v
theories/PropsSettings.v
theories/PropsLambda.v
theories/PropsRates.v
theories/QxQxQ.v
theories/PropsQxQxQ.v
theories/HamData.v
theories/HamFacts.v
theories/PropsHam.v
theories/FormatFacts.v
theories/Display.v
theories/DisplayFacts.v
theories/PropsDisplay.v
theories/PropsDriver.v
theories/RadialElement.v
theories/RadialExact.v
theories/RadialChain.v
theories/PropsRadialMatrix.v
theories/RadialSums.v
theories/Spectrum.v
theories/PropsOscillator.v
theories/Ritz.v
theories/PropsRitz.v
theories/PropsCode.v
theories/PropsAmplitude.v
theories/DataFile.v
theories/PropsDataFile.v
theories/Paper.v
theories/PropsPaper.v
theories/Compare.v
theories/PropsCompare.v
theories/Examples.v
theories/PropsExamples.v
theories/MemoDriver.v
theories/PropsMemoDriver.v
theories/PropsCommutator.v
theories/Report.v
theories/PropsReport.v
theories/Sharing.v
theories/SharingFacts.v
theories/SharingValues.v
theories/PropsSharing.v
theories/Improper.v
theories/Laguerre.v
theories/Waves.v
theories/WaveSpec.v
theories/WaveFacts.v
theories/PropsWaves.v
theories/WaveClass.v
theories/WaveWords.v
theories/PropsWaveWords.v
theories/HamWaves.v
theories/PropsHamWaves.v
theories/PropsTransition.v
theories/DataMemo.v
theories/DataMemoFacts.v
theories/PropsDataMemo.v
theories/DataDriver.v
theories/DataDriverFacts.v
theories/PropsDataDriver.v
theories/Float.v
theories/FloatFacts.v
theories/FloatLambda.v
theories/PropsFloat.v
theories/FullSharing.v
theories/FullSharingFacts.v
theories/PropsFullSharing.v
theories/HermitianSpec.v
theories/HermitianFacts.v
theories/HermitianRadial.v
theories/HermitianTerms.v
theories/HermitianCubed.v
theories/PropsHermitian.v
theories/ArgTypes.v
theories/PropsArgTypes.v
theories/Nested.v
theories/PropsNested.v
theories/Solver.v
theories/PropsSolver.v
theories/PropsFormats.v
theories/PropsUnits.v
theories/PropsLength.v
theories/PropsMirror.v
theories/PropsStiffer.v
theories/PropsSmooth.v
theories/PropsSeniority.v
theories/PropsMoments.v
theories/PropsTwoWays.v
theories/PropsOpKeys.v
theories/PropsE2.v
