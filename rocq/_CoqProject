-Q theories Verif
theories/Base.v
theories/Normalize.v
theories/NormalizeSpec.v
theories/NormalizeProofs.v
theories/NormalizeWords.v
theories/Text.v
theories/TextSpec.v
theories/TextProofs.v
theories/TextCanon.v
theories/Find.v
theories/Types.v
theories/FindProofs.v
theories/PropText.v
theories/Reader.v
theories/ReaderSpec.v
theories/ReaderProofs.v
theories/ReaderTotal.v
theories/ReaderOk.v
theories/ReaderMore.v
theories/ReaderXml.v
theories/ReaderProps.v
theories/PropReader.v
theories/DeriveDe.v
theories/DeSpec.v
theories/DeProofs.v
theories/DeMain.v
theories/DeDet.v
theories/DeLike.v
theories/DeTotal.v
theories/DeProps.v
theories/PropDe.v
theories/ErrSpec.v
theories/LeakSpec.v
theories/ErrProofs.v
theories/PropErr.v
theories/LeakProofs.v
theories/LeakCutSpec.v
theories/LeakCut.v
theories/PropLeak.v
theories/ReaderCut.v
theories/ReaderStop.v
theories/DeCut.v
theories/PropCut.v
theories/Display.v
theories/DisplaySpec.v
theories/DisplayProofs.v
theories/PropDisplay.v
theories/BMap.v
theories/Ser.v
theories/SerSpec.v
theories/SerProofs.v
theories/SerTree.v
theories/SerPoison.v
theories/PropSer.v
theories/NsProofs.v
theories/NsSpec.v
theories/NsExactSpec.v
theories/NsMain.v
theories/NsMeaning.v
theories/NsChoice.v
theories/NsExact.v
theories/ScopeSpec.v
theories/NsScope.v
theories/NsWrites.v
theories/PropNs.v
theories/PropScope.v
theories/PropWrites.v
theories/DeriveSer.v
theories/DSerSpec.v
theories/DSerProofs.v
theories/DSerPanic.v
theories/DSerProps.v
theories/PropDeriveSer.v
theories/RTSpec.v
theories/RTProofs.v
theories/RTProps.v
theories/RTInj.v
theories/PropRoundTrip.v
theories/RTStableSpec.v
theories/RTStable.v
theories/PropStable.v
theories/SchemaSpec.v
theories/SchemaProofs.v
theories/SchemaStable.v
theories/PropSchema.v
theories/ReaderRel.v
theories/DeriveMixed.v
theories/MixedSpec.v
theories/MixedProofs.v
theories/MixedUser.v
theories/PropMixed.v
theories/MixedReads.v
theories/MixedDe.v
theories/PropMixedReads.v
theories/DeriveAttr.v
theories/DASpec.v
theories/DAProofs.v
theories/DAType.v
theories/DATrim.v
theories/DAProps.v
theories/DALink.v
theories/PropAttr.v
theories/Conformance.v
theories/DeriveMixedSer.v
theories/MixedSerSpec.v
theories/MixedSer.v
theories/PropMixedSer.v
theories/MixedRTSpec.v
theories/MixedRT.v
theories/PropMixedRT.v
theories/DepthSpec.v
theories/DepthProofs.v
theories/DepthDe.v
theories/PropDepth.v
theories/HandTextSpec.v
theories/HandText.v
theories/HandParse.v
theories/PropHandText.v
theories/NamesSpec.v
theories/Names.v
theories/NamesDerived.v
theories/NamesSource.v
theories/NamesReads.v
theories/PropNames.v
theories/EvolveSpec.v
theories/Evolve.v
theories/EvolveDoc.v
theories/PropEvolve.v
theories/DeriveFlat.v
theories/FlatSpec.v
theories/FlatProofs.v
theories/FlatSafe.v
theories/FlatEnum.v
theories/PropFlat.v
theories/DeriveEntry.v
theories/MistakeSpec.v
theories/MistakeProofs.v
theories/PropMistakes.v
theories/GenCode.v
theories/GenRun.v
theories/GenNames.v
theories/GenProofs.v
theories/GenSer.v
theories/GenSerProofs.v
theories/GenLink.v
theories/PropGen.v
theories/Forget.v
theories/ForgetSpec.v
theories/ForgetProofs.v
theories/PropForget.v
theories/Catch.v
theories/CatchSpec.v
theories/CatchProofs.v
theories/CatchOk.v
theories/PropCatch.v
theories/MixedLeak.v
theories/MixedLeakProofs.v
theories/PropMixedLeak.v
theories/Visitor.v
theories/CatchRel.v
theories/VisitorSpec.v
theories/VisitorSafe.v
theories/VisitorHolds.v
theories/VisitorSame.v
theories/PropVisitor.v
theories/Source.v
theories/SourceSpec.v
theories/SourceProofs.v
theories/PropSource.v
theories/Word.v
theories/WordSpec.v
theories/WordProofs.v
theories/WordExact.v
theories/PropWord.v
theories/SizeSpec.v
theories/SizeProofs.v
theories/SizeLeak.v
theories/SizeSer.v
theories/PropSize.v
theories/Dom.v
theories/DomSpec.v
theories/DomProofs.v
theories/PropDom.v
theories/Rest.v
theories/RestSpec.v
theories/RestProofs.v
theories/PropRest.v
theories/Many.v
theories/ManySpec.v
theories/ManyProofs.v
theories/PropMany.v
theories/FlatLeak.v
theories/FlatLeakSpec.v
theories/FlatLeakProofs.v
theories/FlatLeakDet.v
theories/PropFlatLeak.v
theories/FailSpec.v
theories/FailProofs.v
theories/PropFail.v
theories/ReorderSpec.v
theories/Reorder.v
theories/ReorderSer.v
theories/PropReorder.v
theories/PartSpec.v
theories/PartProofs.v
theories/MixedPart.v
theories/PropPart.v
theories/LossSpec.v
theories/LossProofs.v
theories/LossSaved.v
theories/MixedLoss.v
theories/PropLoss.v
theories/BuildProofs.v
theories/PropBuild.v
theories/Alias.v
theories/AliasSpec.v
theories/AliasProofs.v
theories/PropAlias.v
theories/Resolve.v
theories/ResolveSpec.v
theories/ResolveProofs.v
theories/PropResolve.v
theories/Steps.v
theories/StepsSpec.v
theories/StepsProofs.v
theories/NormSteps.v
theories/PropSteps.v
theories/StreamSpec.v
theories/StreamProofs.v
theories/PropStream.v
theories/Live.v
theories/LiveSpec.v
theories/LiveProofs.v
theories/PropLive.v
theories/Float.v
theories/FloatSpec.v
theories/FloatProofs.v
theories/FloatText.v
theories/FloatShort.v
theories/FloatLaws.v
theories/FloatUse.v
theories/PropFloat.v
