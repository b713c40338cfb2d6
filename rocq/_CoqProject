-Q theories Verif
theories/Base.v
theories/ModelUtils.v
theories/ModelVersion.v
theories/ModelError.v
theories/ModelTypes.v
theories/ModelOverload.v
theories/ModelFunctions.v
theories/ModelInstructionSet.v
theories/ModelAst.v
theories/ModelAnalyzer.v
theories/ModelSemantic.v
theories/ModelLexer.v
theories/ModelParser.v
theories/ModelSyntactic.v
theories/SpecUtils.v
theories/SpecError.v
theories/ProofsUtils.v
theories/ProofsVersion.v
theories/ProofsError.v
theories/PropertiesUtils.v
theories/SpecTypes.v
theories/ProofsFloat.v
theories/ProofsTypes.v
theories/PropertiesTypes.v
theories/SpecFunctions.v
theories/ProofsFunctions.v
theories/ProofsFolding.v
theories/ProofsIeee.v
theories/ProofsFolding2.v
theories/PropertiesFolding.v
theories/SpecInstructions.v
theories/ProofsExpr.v
theories/ProofsInstructions.v
theories/ProofsGates.v
theories/ProofsIndex.v
theories/ProofsSample.v
theories/PropertiesInstructions.v
theories/SpecAnalyzer.v
theories/ProofsAnalyzer.v
theories/ProofsAnalyzer2.v
theories/ProofsAnalyzer3.v
theories/ProofsAnalyzer4.v
theories/ProofsAnalyzer5.v
theories/ProofsAnalyzer6.v
theories/ProofsAnalyzer7.v
theories/PropertiesAnalyzer.v
theories/SpecLexer.v
theories/ProofsLexer.v
theories/ProofsLexer2.v
theories/ProofsLexer3.v
theories/SpecParser.v
theories/ProofsParser.v
theories/ProofsParser2.v
theories/ProofsParser3.v
theories/ProofsParser4.v
theories/ProofsParser5.v
theories/ProofsParser6.v
theories/ProofsParser7.v
theories/ProofsParser8.v
theories/SpecSyntax.v
theories/ProofsSyntax.v
theories/ProofsSyntax2.v
theories/SpecLiteral.v
theories/ProofsLiteral.v
theories/SpecTree.v
theories/ProofsTree.v
theories/SpecReading.v
theories/ProofsUtf8.v
theories/ProofsReading.v
theories/SpecSites.v
theories/ProofsSites.v
theories/ProofsText.v
theories/ProofsPipeline.v
theories/PropertiesSyntax.v
theories/SpecRelocate.v
theories/ProofsRelocate.v
theories/ProofsLayout1.v
theories/ProofsLayout2.v
theories/ProofsFileName.v
theories/SpecLayout.v
theories/ProofsLayout3.v
theories/ProofsLayout4.v
theories/ProofsLayout5.v
theories/ProofsLayout6.v
theories/ProofsLayout7.v
theories/PropertiesLayout.v
theories/SpecPrint.v
theories/ProofsPrint1.v
theories/ProofsPrint2.v
theories/ProofsPrint3.v
theories/ProofsPrint4.v
theories/ProofsPrint5.v
theories/PropertiesPrint.v
theories/ModelPrimitives.v
theories/SpecPrimitives.v
theories/ProofsPrimitives.v
theories/PropertiesPrimitives.v
theories/ModelApi.v
theories/SpecApi.v
theories/ProofsApi.v
theories/PropertiesApi.v
theories/ProofsOrder.v
theories/PropertiesOrder.v
theories/ModelObjects.v
theories/SpecObjects.v
theories/ProofsObjects.v
theories/ProofsScopes.v
theories/PropertiesObjects.v
theories/SpecRename.v
theories/ProofsRename.v
theories/ProofsRename2.v
theories/ProofsRename3.v
theories/SpecContext.v
theories/ProofsContext.v
theories/PropertiesRename.v
theories/SpecHull.v
theories/ProofsHull.v
theories/PropertiesHull.v
theories/ModelLocated.v
theories/SpecLocated.v
theories/ProofsLocated.v
theories/ProofsLocated2.v
theories/ProofsLocated3.v
theories/PropertiesLocated.v
theories/SpecDiagnosis.v
theories/ProofsDiagnosis.v
theories/ProofsDiagnosis2.v
theories/ProofsDiagnosis3.v
theories/ProofsDiagnosis4.v
theories/PropertiesDiagnosis.v
theories/ProofsConstants.v
theories/PropertiesConstants.v
theories/SpecMachine.v
theories/ProofsMachine.v
theories/ProofsMachine2.v
theories/PropertiesMachine.v
theories/SpecFolded.v
theories/ProofsFolded.v
theories/ProofsFolded2.v
theories/PropertiesFolded.v
theories/SpecNarrow.v
theories/ProofsNarrow.v
theories/PropertiesNarrow.v
theories/SpecNames.v
theories/SpecVersion.v
theories/ProofsNames.v
theories/PropertiesNames.v
theories/UnitTests.v
theories/SpecAppend.v
theories/ProofsAppend.v
theories/PropertiesAppend.v
theories/ProofsVersion2.v
theories/PropertiesVersion.v
theories/SpecEvaluate.v
theories/ProofsEvaluate.v
theories/ProofsEvaluate2.v
theories/ProofsEvaluate3.v
theories/PropertiesEvaluate.v
theories/SpecMeaning.v
theories/ProofsMeaning.v
theories/ProofsMeaning2.v
theories/PropertiesMeaning.v
theories/SpecOutcome.v
theories/ProofsOutcome.v
theories/ProofsOutcome2.v
theories/ProofsOutcome3.v
theories/PropertiesOutcome.v
theories/SpecReuse.v
theories/ProofsReuse.v
theories/PropertiesReuse.v
theories/SpecPlace.v
theories/SpecSize.v
theories/ProofsSize.v
theories/PropertiesSize.v
theories/SpecAnnotations.v
theories/ProofsAnnotations.v
theories/ProofsAnnotations2.v
theories/PropertiesAnnotations.v
theories/SpecEntry.v
theories/PropertiesEntry.v
theories/ModelThreads.v
theories/SpecThreads.v
theories/ProofsThreads.v
theories/ProofsThreads2.v
theories/PropertiesThreads.v
theories/ModelNodes.v
theories/SpecNodes.v
theories/ProofsNodes.v
theories/ProofsNodes2.v
theories/ProofsNodes3.v
theories/ProofsNodes4.v
theories/ProofsNodes5.v
theories/ProofsNodes6.v
theories/PropertiesNodes.v
theories/SpecExtend.v
theories/ProofsExtend.v
theories/PropertiesExtend.v
theories/SpecCommute.v
theories/ProofsCommute.v
theories/PropertiesCommute.v
theories/ModelPython.v
theories/SpecPython.v
theories/ProofsPython.v
theories/PropertiesPython.v
theories/SpecAscii.v
theories/ProofsAscii.v
theories/PropertiesAscii.v
theories/SpecShapes.v
theories/ProofsShapes.v
theories/PropertiesShapes.v
theories/SpecGateShapes.v
theories/ProofsGateShapes.v
theories/PropertiesGateShapes.v
theories/SpecRegister.v
theories/ProofsRegister.v
theories/PropertiesRegister.v
theories/SpecSorted.v
theories/ProofsSorted.v
theories/PropertiesSorted.v
theories/ProofsErase.v
theories/SpecResize.v
theories/ProofsResize.v
theories/PropertiesResize.v
theories/SpecSpelled.v
theories/ProofsSpelled.v
theories/PropertiesSpelled.v
theories/SpecNumbers.v
theories/ProofsNumbers.v
theories/PropertiesNumbers.v
theories/SpecSingle.v
theories/ProofsSingle.v
theories/PropertiesSingle.v
theories/SpecUnroll.v
theories/ProofsUnroll.v
theories/PropertiesUnroll.v
theories/SpecMerge.v
theories/ProofsMerge.v
theories/ProofsSplit.v
theories/PropertiesMerge.v
theories/SpecJoin.v
theories/ProofsJoin.v
theories/PropertiesJoin.v
theories/SpecElementary.v
theories/ProofsElementary.v
theories/ProofsElementary2.v
theories/PropertiesElementary.v
theories/SpecRenumber.v
theories/ProofsRenumber.v
theories/PropertiesRenumber.v
theories/SpecFlat.v
theories/ProofsFlat.v
theories/ProofsFlat2.v
theories/ProofsFlat3.v
theories/PropertiesFlat.v
theories/SpecFollow.v
theories/ProofsFollow.v
theories/PropertiesFollow.v
theories/SpecOperations.v
theories/ProofsOperations.v
theories/ProofsOperations2.v
theories/PropertiesOperations.v
theories/ProofsOperations3.v
theories/PropertiesOperations2.v
