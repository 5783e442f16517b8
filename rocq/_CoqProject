-Q theories Verif
theories/Add.v
theories/AddProofs.v
theories/AddSpec.v
theories/AppFile.v
theories/AppFileProofs.v
theories/AppFileSpec.v
theories/Bits.v
theories/BitsIntProofs.v
theories/BitsMatchProofs.v
theories/BitsProofs.v
theories/BitsSpec.v
theories/CallGraph.v
theories/CallGraphOrder.v
theories/CallGraphProofs.v
theories/CallGraphSpec.v
theories/Case.v
theories/CaseBitSplit.v
theories/CaseCompile.v
theories/CaseDeriv.v
theories/CaseFalls.v
theories/CaseKinds.v
theories/CaseLoop.v
theories/CaseMove.v
theories/CaseNice.v
theories/CasePaths.v
theories/CasePure.v
theories/CaseRefine.v
theories/CaseResidual.v
theories/CaseSem.v
theories/CaseSource.v
theories/CaseSpec.v
theories/CaseSplit.v
theories/CaseStatic.v
theories/CaseStringSplit.v
theories/CaseText.v
theories/CaseTop.v
theories/CaseWays.v
theories/DepTree.v
theories/DepTreeProofs.v
theories/DepTreeSpec.v
theories/Erl.v
theories/ErlTerm.v
theories/ErlangCode.v
theories/ErlangCodeCalls.v
theories/ErlangCodeEnv.v
theories/ErlangCodeNames.v
theories/ErlangCodeRel.v
theories/ErlangCodeSim.v
theories/ErlangCodeSimAll.v
theories/ErlangCodeSimBody.v
theories/ErlangCodeSimCase.v
theories/ErlangCodeSimExpr.v
theories/ErlangCodeSimLet.v
theories/ErlangCodeSimMain.v
theories/ErlangCodeSpec.v
theories/ErlangCodeState.v
theories/ErlangCodeTree.v
theories/ErlangCodeWf.v
theories/ErlangModule.v
theories/ErlangModuleProofs.v
theories/ErlangModuleSpec.v
theories/ErlangRun.v
theories/ErlangRunProofs.v
theories/ErlangSource.v
theories/ErlangSourceParse.v
theories/ErlangSourceRun.v
theories/ErlangSourceScan.v
theories/ErlangSourceSpec.v
theories/ErlangTypes.v
theories/ErlangTypesDefs.v
theories/ErlangTypesProofs.v
theories/ErlangTypesSpec.v
theories/Etf.v
theories/EtfProofs.v
theories/EtfSpec.v
theories/Feedback.v
theories/FeedbackProofs.v
theories/FeedbackSpec.v
theories/Fetch.v
theories/FetchProofs.v
theories/FetchSpec.v
theories/Fields.v
theories/FieldsMoreProofs.v
theories/FieldsProofs.v
theories/FieldsSpec.v
theories/Fingerprint.v
theories/FingerprintProofs.v
theories/FingerprintSpec.v
theories/ImportAdd.v
theories/ImportAddProofs.v
theories/ImportAddSpec.v
theories/ImportEdit.v
theories/ImportEditMain.v
theories/ImportEditProofs.v
theories/ImportEditSpec.v
theories/Incremental.v
theories/IncrementalAnalysis.v
theories/IncrementalErrors.v
theories/IncrementalExamples.v
theories/IncrementalHistory.v
theories/IncrementalInterrupted.v
theories/IncrementalPackage.v
theories/IncrementalProject.v
theories/IncrementalProofs.v
theories/IncrementalRun.v
theories/IncrementalSim.v
theories/IncrementalSpec.v
theories/Instantiate.v
theories/InstantiateProofs.v
theories/InstantiateSpec.v
theories/JsImports.v
theories/JsImportsMain.v
theories/JsImportsProofs.v
theories/JsImportsSpec.v
theories/JsScope.v
theories/JsScopeProofs.v
theories/JsScopeSpec.v
theories/Lexer.v
theories/LexerCuts.v
theories/LexerNumbers.v
theories/LexerProofs.v
theories/LexerSpans.v
theories/LexerSpec.v
theories/LexerStrings.v
theories/LexerSymbols.v
theories/LexerWhole.v
theories/Locked.v
theories/LockedChangesProofs.v
theories/LockedProofs.v
theories/LockedSpec.v
theories/LockedUnlockProofs.v
theories/ManifestText.v
theories/ManifestTextMain.v
theories/ManifestTextProofs.v
theories/ManifestTextSpec.v
theories/MemFs.v
theories/MemFsProofs.v
theories/MemFsServer.v
theories/MemFsSpec.v
theories/MemFsWalk.v
theories/MissingPatterns.v
theories/MissingPatternsProofs.v
theories/MissingPatternsShown.v
theories/MissingPatternsSpec.v
theories/MissingPatternsTop.v
theories/Native.v
theories/NativeCopyProofs.v
theories/NativeProofs.v
theories/NativeSpec.v
theories/OperatorFormat.v
theories/OperatorFormatProofs.v
theories/OperatorFormatSpec.v
theories/Operators.v
theories/OperatorsProofs.v
theories/OperatorsSpec.v
theories/P_Add.v
theories/P_AppFile.v
theories/P_Bits.v
theories/P_CallGraph.v
theories/P_Case.v
theories/P_DepTree.v
theories/P_ErlangModule.v
theories/P_ErlangSource.v
theories/P_ErlangTypes.v
theories/P_Etf.v
theories/P_Feedback.v
theories/P_Fetch.v
theories/P_Fields.v
theories/P_Fingerprint.v
theories/P_ImportAdd.v
theories/P_ImportEdit.v
theories/P_Incremental.v
theories/P_Instantiate.v
theories/P_JsImports.v
theories/P_JsScope.v
theories/P_Lexer.v
theories/P_Locked.v
theories/P_ManifestText.v
theories/P_MemFs.v
theories/P_MissingPatterns.v
theories/P_Native.v
theories/P_OperatorFormat.v
theories/P_Operators.v
theories/P_PackageErrors.v
theories/P_Packages.v
theories/P_Pretty.v
theories/P_Reference.v
theories/P_Resolve.v
theories/P_SegmentOptions.v
theories/P_SrcSpan.v
theories/P_Strings.v
theories/P_TextTable.v
theories/P_TypePrinter.v
theories/P_Unify.v
theories/P_Version.v
theories/PackageErrorsProofs.v
theories/PackageErrorsSpec.v
theories/Packages.v
theories/PackagesProofs.v
theories/PackagesSpec.v
theories/Pretty.v
theories/PrettyProofs.v
theories/PrettySpec.v
theories/Reference.v
theories/ReferenceMarkProofs.v
theories/ReferenceNotesProofs.v
theories/ReferenceProofs.v
theories/ReferenceSpec.v
theories/ReferenceStepProofs.v
theories/ReferenceUnusedProofs.v
theories/Resolve.v
theories/ResolveProofs.v
theories/ResolveSpec.v
theories/SegmentOptions.v
theories/SegmentOptionsProofs.v
theories/SegmentOptionsSpec.v
theories/SrcSpan.v
theories/SrcSpanProofs.v
theories/SrcSpanSpec.v
theories/Strings.v
theories/StringsProofs.v
theories/StringsSpec.v
theories/Text.v
theories/TextProofs.v
theories/TextTable.v
theories/TextTableProofs.v
theories/TextTableSpec.v
theories/Toml.v
theories/TypePrinter.v
theories/TypePrinterLex.v
theories/TypePrinterNamesProofs.v
theories/TypePrinterProofs.v
theories/TypePrinterReadProofs.v
theories/TypePrinterScopeProofs.v
theories/TypePrinterSpec.v
theories/Unify.v
theories/UnifyProofs.v
theories/UnifySpec.v
theories/Version.v
theories/VersionProofs.v
theories/VersionRangeProofs.v
theories/VersionSpec.v
