-Q theories Verif
theories/Bytes.v
theories/Stream.v
theories/Tokenizer.v
theories/Num.v
theories/Dbl.v
theories/Types.v
theories/Write.v
theories/Read.v
theories/SpecJson.v
theories/SpecInterp.v
theories/BaseProofs.v
theories/BitProofs.v
theories/LexView.v
theories/LexMono.v
theories/Termination.v
theories/LexJson.v
theories/ReadSim.v
theories/SpecStr.v
theories/StrProofs.v
theories/IntProofs.v
theories/SpecB64.v
theories/B64Proofs.v
theories/Samples.v
theories/SpecNum.v
theories/SpecDoc.v
theories/ApiProofs.v
theories/InterpProofs.v
theories/SpecDbl.v
theories/DblProofs.v
theories/DblApi.v
theories/SpecWrite.v
theories/WriteProofs.v
theories/SampleProofs.v
theories/SpecVal.v
theories/ValProofs.v
theories/SpecKept.v
theories/KeptProofs.v
theories/SerProofs.v
theories/FuelMono.v
theories/RelProofs.v
theories/LayoutProofs.v
theories/SuffixProofs.v
theories/SpecRange.v
theories/SpecErr.v
theories/ErrProofs.v
theories/SpecPos.v
theories/PosProofs.v
theories/PropC09.v
theories/PropC01.v
theories/PropC02.v
theories/PropC06.v
theories/PropC07.v
theories/PropC08.v
theories/PropC10.v
theories/PropC13.v
theories/PropC14.v
theories/PropC15.v
theories/PropC16.v
theories/PropC03.v
theories/PropC04.v
theories/PropC05.v
theories/PropC18.v
theories/PropC19.v
theories/PropC20.v
theories/PropC21.v
theories/PropC44.v
theories/PropC45.v
theories/PropC11.v
theories/PropC25.v
theories/PropC47.v
theories/PropC12.v
theories/Sinks.v
theories/SinkProofs.v
theories/GenRead.v
theories/GenProofs.v
theories/PropC22.v
theories/PropC23.v
theories/PropC24.v
theories/SpecBad.v
theories/BadProofs.v
theories/SpecNonFinite.v
theories/NonFinite.v
theories/PropC46.v
theories/PropC17.v
theories/ProtoLex.v
theories/ProtoParse.v
theories/SpecProto.v
theories/PLexProofs.v
theories/PNextProofs.v
theories/PSimProofs.v
theories/PRunProofs.v
theories/PTermProofs.v
theories/SpecSchema.v
theories/PSchemaProofs.v
theories/PAcceptProofs.v
theories/PRenderProofs.v
theories/PSamples.v
theories/PWitness.v
theories/PErrProofs.v
theories/PropC26.v
theories/PropC27.v
theories/PropC28.v
theories/PropC29.v
theories/PropC30.v
theories/PropC43.v
theories/Printer.v
theories/Template.v
theories/CodeTxt.v
theories/HdrText.v
theories/Codes.v
theories/Cpp.v
theories/SpecLiteral.v
theories/LiteralProofs.v
theories/Gen.v
theories/MainC.v
theories/RealBuild.v
theories/SpecPrint.v
theories/PrinterProofs.v
theories/PropC38.v
theories/SpecTemplate.v
theories/TemplateProofs.v
theories/TemplateReal.v
theories/PropC39.v
theories/SpecGen.v
theories/SortProofs.v
theories/SpecCpp.v
theories/SpecFile.v
theories/GenText.v
theories/GenFile.v
theories/BackProofs.v
theories/RealFine.v
theories/SpecOpts.v
theories/BackMore.v
theories/BackSamples.v
theories/PropC31.v
theories/PropC35.v
theories/PropC36.v
theories/PropC37.v
theories/PropC41.v
theories/PropC48.v
theories/PropC49.v
theories/SpecProgram.v
theories/ProgramProofs.v
theories/NameProofs.v
theories/SpecOrder.v
theories/OrderProofs.v
theories/CheckProofs.v
theories/SpecEnd.v
theories/EndProofs.v
theories/EndSamples.v
theories/PropC32.v
theories/PropC33.v
theories/PropC34.v
theories/PropC40.v
theories/PropC42.v
theories/PropC50.v
theories/SpecTok.v
theories/SpecTakes.v
theories/TokRead.v
theories/TokRun.v
theories/TokComplete.v
theories/TokLex.v
theories/TokSim.v
theories/AcceptProofs.v
theories/AcceptSamples.v
theories/PropC51.v
theories/PropC52.v
theories/SpecRound.v
theories/RoundProofs.v
theories/PropC53.v
theories/SpecFault.v
theories/FaultProofs.v
theories/FaultSamples.v
theories/PropC54.v
theories/Scope.v
theories/SpecScope.v
theories/ScopeProofs.v
theories/ScopeSamples.v
theories/PropC55.v
theories/SpecLenient.v
theories/LenientProofs.v
theories/LenientSamples.v
theories/PropC56.v
theories/SpecLoose.v
theories/LooseProofs.v
theories/LooseSamples.v
theories/PropC57.v
theories/Fields.v
theories/SpecOption.v
theories/FieldProofs.v
theories/PropC58.v
theories/Close.v
theories/SpecClose.v
theories/CloseProofs.v
theories/PropC59.v
theories/SpecReads.v
theories/ReadsCode.v
theories/ReadsProofs.v
theories/ReadsLift.v
theories/ReadsGrammar.v
theories/ReadsMessages.v
theories/ReadsSamples.v
theories/PropC60.v
theories/StdIn.v
theories/SpecFollow.v
theories/StdInProofs.v
theories/PropC61.v
theories/SpecEvolve.v
theories/EvolveProofs.v
theories/SpecVersions.v
theories/VersionProofs.v
theories/EvolveSamples.v
theories/PropC62.v
theories/Unit.v
theories/SpecUnit.v
theories/UnitProofs.v
theories/PreProofs.v
theories/PreText.v
theories/PreUnit.v
theories/PreAll.v
theories/PreReal.v
theories/UnitSamples.v
theories/PropC63.v
theories/SpecDepth.v
theories/Depth.v
theories/DepthProofs.v
theories/DepthAny.v
theories/DepthOwn.v
theories/PropC64.v
theories/SpecHeader.v
theories/HeaderProofs.v
theories/HeaderEnd.v
theories/PropC65.v
theories/SpecEsc.v
theories/EscProofs.v
theories/StdOut.v
theories/SpecOut.v
theories/OutProofs.v
theories/PropC66.v
theories/SpecAssign.v
theories/AssignProofs.v
theories/CLex.v
theories/CParse.v
theories/CExec.v
theories/SpecText.v
theories/CLexProofs.v
theories/CTextProofs.v
theories/CClassText.v
theories/CParseProofs.v
theories/CDeclProofs.v
theories/CExecProofs.v
theories/CUnitProofs.v
theories/CProgramProofs.v
theories/PropC67.v
theories/HText.v
theories/HParse.v
theories/HExec.v
theories/HTok.v
theories/SpecHTok.v
theories/HTokProofs.v
theories/HIgnProofs.v
theories/HGlueProofs.v
theories/PropC68.v
theories/HJson.v
theories/HApi.v
theories/SpecHApi.v
theories/HApiProofs.v
theories/HRunProofs.v
theories/HReadProofs.v
theories/HListProofs.v
theories/HB64Proofs.v
theories/HJsonProofs.v
theories/SpecHJson.v
theories/HJsonGlue.v
theories/PropC69.v
theories/HWriteProofs.v
theories/HStrProofs.v
theories/HEncProofs.v
theories/HSerProofs.v
theories/HSerGlue.v
theories/PropC70.v
theories/HApiGlue.v
theories/PropC71.v
theories/HIter.v
theories/SpecHIter.v
theories/HIterProofs.v
theories/PropC72.v
theories/HField.v
theories/SpecHField.v
theories/HFieldProofs.v
theories/PropC73.v
theories/HNum.v
theories/SpecHNum.v
theories/HNumProofs.v
theories/HNameText.v
theories/PropC74.v
theories/HStd.v
theories/SpecHStd.v
theories/HStdProofs.v
theories/PropC75.v
theories/LexSrc.v
theories/LexRead.v
theories/LexExec.v
theories/SpecLexText.v
theories/LexTextProofs.v
theories/LexTokProofs.v
theories/LexNextProofs.v
theories/PropC76.v
theories/PrintText.v
theories/SpecPrintText.v
theories/PrintTextProofs.v
theories/PropC77.v
theories/ObfText.v
theories/SpecObfText.v
theories/ObfTextProofs.v
theories/PropC78.v
theories/CgRead.v
theories/GenExec.v
theories/SpecGenText.v
theories/GenTextProofs.v
theories/PropC79.v
