-Q theories Verif
theories/Machine.v
theories/NumTheory.v
theories/Spec.v
theories/LongDouble.v
theories/LongDoubleProofs.v
theories/FFInt.v
theories/FFIntProofs.v
theories/Props_FFInt.v
theories/RatNum.v
theories/RatNumProofs.v
theories/Modular.v
theories/ModularProofs.v
theories/MqrrProofs.v
theories/Props_Modular.v
theories/Combi.v
theories/CombiProofs.v
theories/CombiProofs2.v
theories/Props_Combi.v
theories/FField.v
theories/FSum.v
theories/FFVec.v
theories/FFVecProofs.v
theories/Props_FFVec.v
theories/LinAlg.v
theories/LinSpec.v
theories/LinAlgProofs.v
theories/Det.v
theories/LinAlgProofs2.v
theories/Props_LinAlg.v
theories/FPoly.v
theories/Vandermonde.v
theories/VandermondeProofs.v
theories/PolyFF.v
theories/PolySpec.v
theories/Binom.v
theories/PolyFFProofs.v
theories/PolyFFProofs2.v
theories/PolyFFProofs3.v
theories/Props_PolyFF.v
theories/Thiele.v
theories/ThieleSpec.v
theories/ThieleProofs.v
theories/Props_Thiele.v
theories/Newton.v
theories/NewtonProofs.v
theories/Props_Newton.v
theories/BM.v
theories/BMSpec.v
theories/BMProofs.v
theories/BTProofs.v
theories/Props_BM.v
theories/ThreadPool.v
theories/ThreadPoolSpec.v
theories/ThreadPoolProofs.v
theories/Props_ThreadPool.v
theories/Prng.v
theories/PrngProofs.v
theories/PrngProofs2.v
theories/Props_Prng.v
theories/Pocklington.v
theories/Primes.v
theories/PrimeCerts.v
theories/PrimeCheck.v
theories/Props_Primes.v
theories/FeedQueue.v
theories/FeedQueueProofs.v
theories/Props_FeedQueue.v
theories/Reconst.v
theories/ReconstSpec.v
theories/ReconstProofs.v
theories/ReconstProofs2.v
theories/ReconstProofs3.v
theories/ReconstProofs4.v
theories/ReconstProofs5.v
theories/ReconstProofs6.v
theories/Props_Reconst.v
theories/Series.v
theories/PolyU.v
theories/PolyUProofs.v
theories/PolyUProofs2.v
theories/Props_PolyU.v
theories/SYParse.v
theories/SYGrammar.v
theories/SYParseProofs.v
theories/SYValidateProofs.v
theories/SYEval.v
theories/SYEvalProofs.v
theories/SYPreProofs.v
theories/SYTreeProofs.v
theories/SYObj.v
theories/SYObjProofs.v
theories/SYTrimProofs.v
theories/SYExitProofs.v
theories/Props_Parser.v
theories/DecPrint.v
theories/StateFile.v
theories/StateSpec.v
theories/StateFileProofs.v
theories/Props_StateFile.v
theories/Printers.v
theories/PrintSpec.v
theories/PrintProofs.v
theories/PrintReads.v
theories/Props_Printers.v
theories/Crash.v
theories/CrashProofs.v
theories/Props_Crash.v
theories/PField.v
theories/RatUni.v
theories/RatUniSpec.v
theories/RatUniProofs.v
theories/RatUniThiele.v
theories/RatUniFirst.v
theories/RatUniNext.v
theories/RatUniRows.v
theories/RatUniRun.v
theories/RatUniMisled.v
theories/Props_RatUni.v
theories/PolyRec.v
theories/PolyRecSpec.v
theories/PolyRecRunSpec.v
theories/PolyRecKey.v
theories/PolyRecMath.v
theories/PolyRecFile.v
theories/PolyRecStage.v
theories/PolyRecMain.v
theories/PolyRecChecks.v
theories/Props_PolyRec.v
theories/PolyRat.v
theories/PolyRatSpec.v
theories/PolyRatProofs.v
theories/PolyRatMain.v
theories/Props_PolyRat.v
theories/RatMulti.v
theories/RatMultiSpec.v
theories/RatMultiMath.v
theories/RatMultiShift.v
theories/RatMultiSub.v
theories/RatMultiClean.v
theories/RatMultiTraj.v
theories/RatMultiSide.v
theories/RatMultiRay.v
theories/RatMultiResult.v
theories/RatMultiMain.v
theories/RatMultiThiele.v
theories/RatMultiFirst.v
theories/RatMultiRunSpec.v
theories/RatMultiRun.v
theories/Field101.v
theories/Props_RatMulti.v
theories/RatMultiQ.v
theories/RatMultiQSpec.v
theories/RatMultiQCoef.v
theories/RatMultiQSide.v
theories/RatMultiQMaps.v
theories/RatMultiQCheck.v
theories/RatMultiQRays.v
theories/RatMultiQRun.v
theories/RatMultiQFirst.v
theories/RatMultiQMain.v
theories/RatMultiQLate.v
theories/RatMultiQEx.v
theories/Props_RatMultiQ.v
theories/Amplitude.v
theories/AmplitudeSpec.v
theories/AmplitudeText.v
theories/AmplitudeParse.v
theories/AmplitudeState.v
theories/AmplitudeValue.v
theories/AmplitudeMain.v
theories/Props_Amplitude.v
theories/Scan.v
theories/ScanSpec.v
theories/ScanRun.v
theories/ScanProofs.v
theories/ScanLoop.v
theories/ScanAccept.v
theories/Props_Scan.v
theories/Results.v
theories/ResultsSpec.v
theories/ResultsProofs.v
theories/ResultsText.v
theories/Props_Results.v
theories/Precomp.v
theories/PrecompSpec.v
theories/PrecompProofs.v
theories/Props_Precomp.v
theories/FactorFiles.v
theories/FactorFilesSpec.v
theories/FactorFilesProofs.v
theories/Props_FactorFiles.v
theories/Continue.v
theories/ContinueSpec.v
theories/ContinueProofs.v
theories/Props_Continue.v
theories/AnchorLead.v
theories/AnchorFew.v
theories/AnchorTerms.v
theories/AnchorMain.v
theories/Props_Anchors.v
theories/RatSing.v
theories/RatSingSub.v
theories/RatSingSide.v
theories/RatSingSum.v
theories/RatSingRays.v
theories/RatSingSpec.v
theories/RatSingStart.v
theories/RatSingMain.v
theories/Props_RatSing.v
theories/RatSingEx.v
theories/Props_RatSingEx.v
theories/RatSingRun.v
theories/RatSingRunSpec.v
theories/RatSingNext.v
theories/RatSingLoop.v
theories/RatSingFirst.v
theories/Props_RatSingRun.v
theories/Props_RatSingRunEx.v
theories/PolySort.v
theories/Props_PolySort.v
