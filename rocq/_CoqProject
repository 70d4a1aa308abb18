-Q theories Verif
theories/Outcome.v
theories/Algebra.v
theories/Zp.v
theories/Rust.v
theories/InnerProducts.v
theories/Commitments.v
theories/Gipa.v
theories/Poly.v
theories/Tipa.v
theories/Ssm.v
theories/Floats.v
theories/PolyCommit.v
theories/Transparent.v
theories/Groth16.v
theories/Rng.v
theories/Sipp.v
theories/Spec.v
theories/ListFacts.v
theories/RustFacts.v
theories/InnerProductFacts.v
theories/CommitFacts.v
theories/GipaFacts.v
theories/GipaComplete.v
theories/GipaTop.v
theories/GipaAttack.v
theories/SerFacts.v
theories/PolyFacts.v
theories/KeyFacts.v
theories/TipaFacts.v
theories/SsmFacts.v
theories/FloatFacts.v
theories/PcFacts.v
theories/FloatLarge.v
theories/PcDegrees.v
theories/UpcFacts.v
theories/TransparentFacts.v
theories/PropsBase.v
theories/RootFacts.v
theories/PropsGipa.v
theories/PropsTipa.v
theories/PropsSsm.v
theories/PropsPoly.v
theories/SippFacts.v
theories/PropsSipp.v
theories/VerifyFacts.v
theories/Groth16Facts.v
theories/PropsGroth.v
theories/SpecialFacts.v
theories/PropsSpecial.v
theories/PropsVerify.v
theories/Forger.v
theories/PcAttack.v
theories/PropsPcVerify.v
theories/PropsGrothVerify.v
theories/Batch.v
theories/PropsBatch.v
theories/Bench.v
theories/PropsBench.v
theories/Cli.v
theories/PropsCli.v
theories/Wire.v
theories/PropsWire.v
theories/GrothMain.v
theories/PropsGrothMain.v
theories/PropsDegrees.v
theories/TipaForge.v
theories/PropsTipaForge.v
theories/ZpBig.v
theories/Circuits.v
theories/CircuitFacts.v
theories/PropsCircuits.v
theories/SsmSpecial.v
theories/PropsSsmSpecial.v
theories/PcSpecial.v
theories/PropsPcSpecial.v
theories/PropsPcCommit.v
theories/Schedule.v
theories/PropsSchedule.v
theories/PropsUnivariate.v
theories/Tests.v
theories/PropsTests.v
theories/PropsRuns.v
theories/Cost.v
theories/CostFacts.v
theories/PropsCost.v
theories/Report.v
theories/PropsReport.v
theories/PropsProofSize.v
theories/PropsProvers.v
theories/PropsMalleable.v
theories/PropsAnswers.v
theories/Scaling.v
theories/Display.v
theories/PropsOutput.v
theories/PropsScaling.v
theories/PropsDisplay.v
theories/CostProve.v
theories/PropsCostProve.v
theories/Forking.v
theories/PropsForking.v
theories/Oracle.v
theories/PropsOracle.v
theories/ForkingTwo.v
theories/PropsForkingTwo.v
theories/Algebraic.v
theories/PropsAlgebraic.v
theories/PcAlgebraic.v
theories/PropsPcAlgebraic.v
theories/Searches.v
theories/PropsSearches.v
theories/PropsLive.v
theories/OracleValues.v
theories/Rounds.v
theories/PropsGipaOracle.v
theories/PropsSsmOracle.v
theories/PropsTipaOracle.v
theories/PropsHashed.v
theories/PropsTipaRounds.v
theories/PropsGrothInputs.v
theories/Pocklington.v
theories/PrimeQ377.v
theories/PrimeFields.v
theories/PropsLevel.v
theories/PropsTrials.v
theories/PropsErrors.v
theories/PropsLevelSsm.v
theories/PropsPoints.v
theories/PropsLiveTipa.v
theories/Plot.v
theories/PropsPlot.v
theories/Trapdoor.v
theories/PropsTrapdoor.v
theories/PropsPadding.v
theories/Print.v
theories/PropsPrint.v
theories/PropsLinear.v
theories/PropsSetups.v
theories/PropsCurveCircuits.v
theories/PropsBatchCount.v
theories/PropsLevelSipp.v
theories/PropsPcSizes.v
theories/PropsConvert.v
theories/Words.v
theories/PropsWords.v
theories/WordsTop.v
theories/PropsWordsTop.v
theories/WordsPc.v
theories/PropsWordsPc.v
theories/WordsBench.v
theories/PropsWordsBench.v
theories/Stdout.v
theories/PropsStdout.v
