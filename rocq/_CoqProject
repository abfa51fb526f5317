-Q theories Verif
theories/Base.v
theories/BaseLemmas.v
theories/ModelSplitVec.v
theories/ModelSpanIter.v
theories/ModelErrors.v
theories/ModelParser.v
theories/SpecParser.v
theories/ProofParser.v
theories/ProofParserSim.v
theories/ProofParserProps.v
theories/ProofParserClean.v
theories/ProofParserMisc.v
theories/ProofParserRefuted.v
theories/ProofParserExact.v
theories/PropertiesParser.v
theories/ModelInt.v
theories/ModelZarith.v
theories/ModelFloat.v
theories/ModelUtf8.v
theories/ModelTarget.v
theories/SpecSplitVec.v
theories/ProofSplitVec.v
theories/ProofSpanIter.v
theories/PropertiesSplitVec.v
theories/ModelSchema.v
theories/SpecCodec.v
theories/ProofInt.v
theories/ProofZarith.v
theories/SpecUtf8.v
theories/ProofUtf8.v
theories/ProofFloat.v
theories/ProofDec.v
theories/ProofCodec.v
theories/ProofRoundTrip.v
theories/ProofMeta.v
theories/ProofHalt.v
theories/ProofSafe.v
theories/ProofTyped.v
theories/ProofCanon.v
theories/ProofEnc.v
theories/ProofEstimate.v
theories/ProofEncValid.v
theories/ProofEncBytes.v
theories/ProofTransfer.v
theories/ProofSettle.v
theories/ProofView.v
theories/ProofBroken.v
theories/ProofCut.v
theories/ProofCodecProps.v
theories/ProofCodecThms.v
theories/ProofStall.v
theories/SpecNum.v
theories/ProofNum.v
theories/PropertiesCodec.v
theories/PropertiesNum.v
theories/ModelScan.v
theories/SpecScan.v
theories/ProofScan.v
theories/PropertiesScan.v
theories/ModelHex.v
theories/SpecHex.v
theories/ProofHex.v
theories/PropertiesHex.v
theories/ModelSeq.v
theories/SpecSeq.v
theories/ProofSeq.v
theories/PropertiesSeq.v
theories/ModelBuilder.v
theories/SpecBuilder.v
theories/ProofBuilder.v
theories/PropertiesBuilder.v
theories/ProofOptions.v
theories/SpecOver.v
theories/ProofOver.v
theories/PropertiesOptions.v
theories/SpecError.v
theories/ProofError.v
theories/ModelEnum.v
theories/ModelTake.v
theories/ProofEnum.v
theories/ProofTake.v
theories/SpecLaws.v
theories/ProofLaws.v
theories/PropertiesLaws.v
theories/SpecEnum.v
theories/PropertiesEnum.v
theories/ModelInput.v
theories/SpecInput.v
theories/ProofInput.v
theories/PropertiesInput.v
theories/ModelArrayVec.v
theories/ProofArrayVec.v
theories/PropertiesArrayVec.v
theories/ModelConv.v
theories/SpecConv.v
theories/ProofConv.v
theories/PropertiesConv.v
theories/ProofLossy.v
theories/SpecGrammar.v
theories/ProofGrammar.v
theories/SpecReencode.v
theories/ProofReencode.v
theories/PropertiesGrammar.v
theories/ModelDerive.v
theories/SpecDerive.v
theories/ProofDerive.v
theories/PropertiesDerive.v
theories/SpecSize.v
theories/ProofSize.v
theories/PropertiesSize.v
theories/SpecPanic.v
theories/ProofPanic.v
theories/SpecSpill.v
theories/ProofSpill.v
theories/ProofSpillAll.v
theories/ProofSpillHalt.v
theories/ProofSpillEnd.v
theories/PropertiesPanic.v
theories/ModelDisplay.v
theories/SpecDisplay.v
theories/ProofDisplay.v
theories/PropertiesDisplay.v
theories/ModelHexString.v
theories/SpecHexString.v
theories/ProofHexString.v
theories/PropertiesHexString.v
theories/ProofRanged.v
theories/PropertiesRanged.v
theories/ModelCompare.v
theories/ModelCheck.v
theories/SpecCompare.v
theories/SpecCheck.v
theories/ProofCompare.v
theories/ProofOrder.v
theories/ProofCheck.v
theories/ProofFloatEq.v
theories/PropertiesCompare.v
theories/ModelSplitText.v
theories/SpecLeftover.v
theories/ProofLeftover.v
theories/PropertiesLeftover.v
theories/ModelHash.v
theories/SpecHash.v
theories/ProofHash.v
theories/PropertiesHash.v
theories/ModelText.v
theories/SpecText.v
theories/ProofText.v
theories/PropertiesText.v
theories/SpecWork.v
theories/ProofWork.v
theories/PropertiesWork.v
theories/ModelMeter.v
theories/SpecMeter.v
theories/ProofMeter.v
theories/PropertiesMeter.v
theories/SpecEvolve.v
theories/ProofEvolve.v
theories/PropertiesEvolve.v
theories/SpecCustom.v
theories/ProofCustom.v
theories/PropertiesCustom.v
theories/ProofLook.v
theories/PropertiesLook.v
theories/ModelCause.v
theories/SpecCause.v
theories/ProofCause.v
theories/PropertiesCause.v
theories/SpecAfter.v
theories/ProofAfter.v
theories/PropertiesAfter.v
theories/ModelStack.v
theories/SpecStack.v
theories/ProofStack.v
theories/ModelWriteStack.v
theories/ProofWriteStack.v
theories/PropertiesStack.v
theories/PropertiesWriteStack.v
theories/ModelMemory.v
theories/SpecMemory.v
theories/ProofMemory.v
theories/PropertiesMemory.v
theories/SpecTarget.v
theories/ProofTarget.v
theories/PropertiesTarget.v
theories/ModelOpen.v
theories/SpecOpen.v
theories/ProofOpen.v
theories/PropertiesOpen.v
theories/SpecAccept.v
theories/ProofAccept.v
theories/PropertiesAccept.v
theories/ModelOverride.v
theories/ProofOverride.v
theories/PropertiesOverride.v
theories/ModelLimit.v
theories/ProofLimit.v
theories/PropertiesLimit.v
theories/ModelCapacity.v
theories/SpecCapacity.v
theories/ProofCapacity.v
theories/PropertiesCapacity.v
theories/SpecPlain.v
theories/ProofPlain.v
theories/PropertiesPlain.v
theories/SpecGroups.v
theories/ProofGroups.v
theories/ProofGroupsRead.v
theories/ProofGroupsThms.v
theories/PropertiesGroups.v
theories/SpecUnwind.v
theories/ProofUnwind.v
theories/PropertiesUnwind.v
theories/ModelInterrupt.v
theories/SpecInterrupt.v
theories/ProofInterrupt.v
theories/PropertiesInterrupt.v
theories/SpecWrap.v
theories/ProofWrap.v
theories/PropertiesWrap.v
theories/ProofBounds.v
theories/PropertiesBounds.v
theories/Conformance.v
theories/ModelDefault.v
theories/ModelStream.v
theories/SpecStream.v
theories/SpecDefault.v
theories/ProofDefault.v
theories/PropertiesDefault.v
theories/ProofStream.v
theories/PropertiesStream.v
theories/ModelDebug.v
theories/SpecDebug.v
theories/ProofDebug.v
theories/PropertiesDebug.v
theories/SpecSort.v
theories/ProofSort.v
theories/PropertiesSort.v
theories/SpecPatch.v
theories/ProofPatch.v
theories/PropertiesPatch.v
theories/SpecExtent.v
theories/ProofExtent.v
theories/PropertiesExtent.v
theories/ModelErrDebug.v
theories/SpecErrDebug.v
theories/ProofErrDebug.v
theories/PropertiesErrDebug.v
theories/SpecFinal.v
theories/ProofMemoSame.v
theories/ProofFinal.v
theories/ProofFinalSlice.v
theories/PropertiesFinal.v
theories/ModelParserDebug.v
theories/SpecParserDebug.v
theories/ProofParserDebug.v
theories/PropertiesParserDebug.v
theories/SpecAlone.v
theories/ProofAlone.v
theories/ProofAloneSlice.v
theories/ProofAloneTop.v
theories/ProofAlonePay.v
theories/ProofAloneReads.v
theories/ProofAloneOnly.v
theories/ProofAloneVPad.v
theories/PropertiesAlone.v
