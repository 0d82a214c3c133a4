-Q theories Verif
theories/Base.v
theories/ModelPoly.v
theories/ModelVO.v
theories/ModelGates.v
theories/ModelOracle.v
theories/ModelPC.v
theories/ModelPermutation.v
theories/ModelLookup.v
theories/ModelIndexer.v
theories/ModelMultiproof.v
theories/ModelProtocol.v
theories/Field97.v
theories/Concrete.v
theories/Spec.v
theories/SpecProtocol.v
theories/ProofBase.v
theories/ProofPoly.v
theories/ProofDomain.v
theories/ProofVO.v
theories/ProofGates.v
theories/ProofOracle.v
theories/ProofExamples.v
theories/ProofConcrete.v
theories/PropsVO.v
theories/PropsOracle.v
theories/ProofPermutation.v
theories/ProofIndexer.v
theories/ProofIndexerExamples.v
theories/PropsIndexer.v
theories/ProofPermute.v
theories/ProofPermArg.v
theories/PropsPermutation.v
theories/ProofLookup.v
theories/ProofColumns.v
theories/ProofOpen.v
theories/ProofVerifierCols.v
theories/ProofTools.v
theories/PropsLookup.v
theories/SpecPIOP.v
theories/ProofPIOP.v
theories/ProofPIOP2.v
theories/ProofPIOP3.v
theories/PropsPIOP.v
theories/SpecMultiopen.v
theories/ProofMultiopen.v
theories/ProofMultiopen2.v
theories/ProofMultiopen3.v
theories/ProofPC.v
theories/PropsPC.v
theories/PropsMultiopen.v
theories/SpecTranscript.v
theories/ProofProver.v
theories/ProofFront.v
theories/ProofInstances.v
theories/Run97.v
theories/PropsTranscript.v
theories/ProofMock.v
theories/SpecProver.v
theories/ProofCounts.v
theories/PropsMisc.v
theories/SpecCircuit.v
theories/ProofEach.v
theories/ProofRounds.v
theories/ProofHonest.v
theories/SpecProve.v
theories/ProofProve.v
theories/ProofComplete.v
theories/ProofCheck.v
theories/PropsEndToEnd.v
theories/SpecSound.v
theories/ProofSound.v
theories/ProofSound2.v
theories/SpecRows.v
theories/ProofRows.v
theories/PropsRows.v
theories/ProofCheck2.v
theories/PropsSound.v
theories/SpecShape.v
theories/ProofShape.v
theories/ProofTotal.v
theories/ProofTotal2.v
theories/ProofTotal3.v
theories/ProofForge.v
theories/PropsAttack.v
theories/ProofHistory.v
theories/PropsHistory.v
theories/PropsProve.v
theories/PropsPIOPRuns.v
theories/SpecBlind.v
theories/ProofBlind.v
theories/PropsBlind.v
theories/PropsHiding.v
theories/ProofExact.v
theories/PropsRefuse.v
theories/SpecUnopened.v
theories/ProofUnopened.v
theories/PropsUnopened.v
theories/ProofReject.v
theories/PropsReject.v
theories/PropsExact.v
theories/PropsRound.v
theories/SpecClaims.v
theories/ProofClaims.v
theories/PropsClaims.v
theories/SpecAlgebraic.v
theories/ProofSeen.v
theories/PropsAlgebraic.v
theories/SpecShift.v
theories/PropsMalleable.v
theories/ProofShift.v
theories/PropsShift.v
theories/ProofVerdict.v
theories/PropsVerdict.v
theories/ProofZh.v
theories/PropsZh.v
theories/PropsUsable.v
theories/SpecOpenings.v
theories/ProofOpenings.v
theories/PropsOpenings.v
theories/SpecSingle.v
theories/ProofSingle.v
theories/ProofSingle2.v
theories/ProofSingle3.v
theories/PropsSingle.v
theories/PropsReopen.v
theories/SpecLinear.v
theories/ProofLinear.v
theories/PropsLinear.v
theories/SpecRequote.v
theories/ProofRequote.v
theories/PropsRequote.v
