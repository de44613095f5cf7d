-Q theories Verif
theories/Base.v
theories/Prog.v
theories/GoVarint.v
theories/AbiPrim.v
theories/BaseProofs.v
theories/SpecWire.v
theories/ProgProofs.v
theories/AbiPrimProofs.v
theories/PropWire.v
theories/Chain.v
theories/SpecChain.v
theories/ChainProofs.v
theories/PropChain.v
theories/Name.v
theories/SpecName.v
theories/NameProofs.v
theories/PropName.v
theories/GoStd.v
theories/SpecText.v
theories/GoStdProofs.v
theories/Symbol.v
theories/SpecSymbol.v
theories/SymbolProofs.v
theories/PropSymbol.v
theories/Numbers.v
theories/SpecNumbers.v
theories/NumbersProofs.v
theories/PropNumbers.v
theories/Hex.v
theories/SpecHex.v
theories/HexProofs.v
theories/PropHex.v
theories/Base58.v
theories/SpecBase58.v
theories/Base58Proofs.v
theories/Ripemd.v
theories/SpecRipemd.v
theories/RipemdProofs.v
theories/PropRipemd.v
theories/Keys.v
theories/SpecKeys.v
theories/KeysProofs.v
theories/PropKeys.v
theories/PropTargets.v
theories/PropTimeOrder.v
theories/Values.v
theories/Leaf.v
theories/SpecLeaf.v
theories/LeafProofs.v
theories/AbiDyn.v
theories/SpecAbi.v
theories/AbiResolveProofs.v
theories/AbiCodecProofs.v
theories/AbiTermProofs.v
theories/AbiStrictProofs.v
theories/AbiApiProofs.v
theories/AbiSample.v
theories/PropAbi.v
theories/Reflect.v
theories/SpecReflect.v
theories/ReflectProofs.v
theories/ReflectOrder.v
theories/ReflectOverwrite.v
theories/ReflectRepeat.v
theories/PropReflect.v
theories/SpecTags.v
theories/ReflectTags.v
theories/SpecCustom.v
theories/ReflectCustom.v
theories/SpecMirror.v
theories/ReflectMirror.v
theories/PropTags.v
theories/SpecAbiDef.v
theories/AbiDefProofs.v
theories/PropAbiDef.v
theories/SpecTwin.v
theories/TwinProofs.v
theories/PropTwin.v
theories/Time.v
theories/SpecTime.v
theories/TimeCalendar.v
theories/TimeProofs.v
theories/PropTime.v
theories/Codegen.v
theories/GoLang.v
theories/GoCheck.v
theories/CodegenSource.v
theories/CodegenProgram.v
theories/CodegenRun.v
theories/GoParse.v
theories/GoParseProofs.v
theories/GoNorm.v
theories/CodegenCheck.v
theories/CodegenParse.v
theories/SpecCodegen.v
theories/CodegenText.v
theories/CodegenWrite.v
theories/CodegenRead.v
theories/PropCodegen.v
theories/PropCodegenSource.v
theories/SpecStrict.v
theories/ReflectStrict.v
theories/PropStrict.v
theories/SpecStream.v
theories/PropStream.v
theories/SpecDecoded.v
theories/DecodedProofs.v
theories/PropDecoded.v
theories/ActionData.v
theories/PropAction.v
theories/SpecLengths.v
theories/LengthProofs.v
theories/PropLengths.v
theories/SpecTerm.v
theories/TermProofs.v
theories/PropTerm.v
theories/SpecUser.v
theories/UserProofs.v
theories/CodegenSafe.v
theories/PropCodegenSafe.v
theories/Json.v
theories/SpecJson.v
theories/JsonProofs.v
theories/JsonCodecs.v
theories/JsonStrings.v
theories/JsonTypes.v
theories/JsonNest.v
theories/JsonOrder.v
theories/SpecJsonText.v
theories/JsonText.v
theories/PropJson.v
theories/PropUser.v
theories/SpecPanics.v
theories/PanicProofs.v
theories/PropPanics.v
theories/Interfaces.v
theories/SpecInterfaces.v
theories/InterfacesProofs.v
theories/PropInterfaces.v
theories/Targets.v
theories/SpecTargets.v
theories/TargetsProofs.v
theories/PropArguments.v
theories/PropInjective.v
theories/SpecCanonical.v
theories/CanonicalProofs.v
theories/PropCanonical.v
theories/SpecReencode.v
theories/ReencodeProofs.v
theories/PropReencode.v
theories/SpecBulk.v
theories/BulkProofs.v
theories/PropBulk.v
theories/SpecContents.v
theories/ContentsProofs.v
theories/PropContents.v
theories/SpecParts.v
theories/PartsProofs.v
theories/PropParts.v
theories/SpecSettled.v
theories/PropSettled.v
theories/JsonKept.v
theories/PropJsonKept.v
theories/JsonReleases.v
theories/PropForms.v
theories/SpecFailed.v
theories/PropFailed.v
theories/PropHtml.v
theories/PropFailedTypes.v
theories/SpecAbiFailed.v
theories/PropAbiFailed.v
theories/SpecAbiPart.v
theories/PropAbiPart.v
theories/SpecCut.v
theories/PropCut.v
theories/SpecAhead.v
theories/PropAhead.v
