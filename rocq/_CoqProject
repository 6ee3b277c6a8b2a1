-Q theories Verif
theories/Base.v
theories/ModelIter.v
theories/Sim.v
theories/ModelStack.v
theories/ModelSkip.v
theories/ModelStr.v
theories/ModelInt.v
theories/ModelFloat.v
theories/ModelRead.v
theories/Spec.v
theories/StackFacts.v
theories/SimLib.v
theories/Machine.v
theories/SimSkip.v
theories/SimRaw.v
theories/SimStr.v
theories/SimInt.v
theories/SimFloat.v
theories/SimRead.v
theories/NumFacts.v
theories/StrFacts.v
theories/MachineFacts.v
theories/FloatFacts.v
theories/SpecRead.v
theories/GrammarFacts.v
theories/IntFacts.v
theories/ModelIterate.v
theories/SimIterate.v
theories/IterateFacts.v
theories/ModelOps.v
theories/SimOps.v
theories/IterFacts.v
theories/Properties1.v
theories/SpecStream.v
theories/ModelStream.v
theories/StreamIntFacts.v
theories/StreamStrFacts.v
theories/StreamFacts.v
theories/StreamTree.v
theories/Properties2.v
theories/ModelTag.v
theories/ModelFold.v
theories/SpecFold.v
theories/TagFacts.v
theories/FoldFacts.v
theories/SpecBase64.v
theories/ModelBase64.v
theories/Base64Facts.v
theories/SpecGrow.v
theories/ModelGrow.v
theories/GrowFacts.v
theories/Properties3.v
theories/ModelVal.v
theories/SimVal.v
theories/SpecVal.v
theories/DecFacts.v
theories/DecSound.v
theories/DecComplete.v
theories/ModelDecoder.v
theories/SpecDecoder.v
theories/DecStrict.v
theories/ValFacts.v
theories/StructFacts.v
theories/Properties4.v
theories/ModelEnc.v
theories/SpecEnc.v
theories/EncFacts.v
theories/EncRound.v
theories/Properties5.v
theories/SpecFail.v
theories/FailFacts.v
theories/Properties6.v
theories/ModelStruct.v
theories/SpecStruct.v
theories/DescFacts.v
theories/DescSearch.v
theories/Properties7.v
theories/ModelEface.v
theories/SpecEface.v
theories/EfaceFacts.v
theories/Properties8.v
theories/ModelCache.v
theories/SpecCache.v
theories/CacheFacts.v
theories/DecCache.v
theories/ModelEncCache.v
theories/SpecEncCache.v
theories/EncCache.v
theories/Properties9.v
theories/ModelWord.v
theories/SpecWord.v
theories/WordFacts.v
theories/Properties10.v
theories/ModelLink.v
theories/SpecLink.v
theories/LinkFacts.v
theories/Properties11.v
theories/ModelMem.v
theories/SpecMem.v
theories/MemFacts.v
theories/MemInv.v
theories/MemRun.v
theories/MemProg.v
theories/MemLib.v
theories/Properties12.v
theories/ModelPool.v
theories/SpecPool.v
theories/PoolFacts.v
theories/Properties13.v
theories/SpecTyped.v
theories/TidyFacts.v
theories/TypedFacts.v
theories/Properties14.v
theories/SpecRound.v
theories/RoundFacts.v
theories/Properties15.v
theories/Properties16.v
theories/SpecProgress.v
theories/NeverFacts.v
theories/ProgressFacts.v
theories/Properties17.v
theories/SpecHazard.v
theories/EncEnds.v
theories/EncMono.v
theories/Properties18.v
theories/ModelPart.v
theories/PartAgree.v
theories/DecMono.v
theories/SpecPart.v
theories/PartText.v
theories/PartFacts.v
theories/PartUnique.v
theories/PartTyped.v
theories/Properties19.v
theories/SpecPrompt.v
theories/PromptStep.v
theories/PromptFacts.v
theories/Properties20.v
theories/SpecOption.v
theories/OptionFacts.v
theories/OptionStep.v
theories/Properties21.v
theories/ModelNode.v
theories/SpecNode.v
theories/NodeFacts.v
theories/NodeRead.v
theories/Properties22.v
theories/SpecKeep.v
theories/KeepFacts.v
theories/Properties23.v
theories/SpecCut.v
theories/CutFacts.v
theories/CutMachine.v
theories/CutRead.v
theories/Properties24.v
theories/CutTyped.v
theories/SpecEnd.v
theories/CutVal.v
theories/Properties25.v
theories/SpecSpell.v
theories/TreeFacts.v
theories/SpellFacts.v
theories/SpellVal.v
theories/Properties26.v
theories/SpecOrder.v
theories/OrderFacts.v
theories/OrderVal.v
theories/Properties27.v
theories/SpecCompact.v
theories/CompactFacts.v
theories/Properties28.v
theories/SpecAgain.v
theories/AgainWhole.v
theories/AgainVal.v
theories/Properties29.v
theories/Properties30.v
theories/SpecPatch.v
theories/PatchVal.v
theories/Properties31.v
theories/FirmFacts.v
theories/Properties32.v
theories/SpecFields.v
theories/Properties33.v
theories/Properties34.v
theories/Properties35.v
theories/SpecBlock.v
theories/Properties36.v
theories/Properties37.v
theories/SpecReach.v
theories/Properties38.v
theories/SpecSupport.v
theories/Properties39.v
