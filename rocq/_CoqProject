-Q theories Verif

theories/Base.v
theories/Iter.v
theories/SpecIter.v
theories/IterProofs.v
theories/PropsIter.v
theories/RegexModel.v
theories/SpecRegex.v
theories/RegexTokProofs.v
theories/RegexPrintProofs.v
theories/RegexParseProofs.v
theories/RegexProofs.v
theories/PropsRegex.v
theories/NfaModel.v
theories/SpecNfa.v
theories/NfaCompileProofs.v
theories/NfaLangProofs.v
theories/NfaSimProofs.v
theories/NfaMachineProofs.v
theories/NfaTermProofs.v
theories/LexerModel.v
theories/NfaProofs.v
theories/SpecSpin.v
theories/NfaSpin.v
theories/NfaCountProofs.v
theories/NfaWitness.v
theories/PropsNfa.v
theories/SpecLexer.v
theories/LexerProofs.v
theories/LexerCallsProofs.v
theories/LexerWitness.v
theories/PropsLexer.v
theories/GrammarModel.v
theories/CfsmModel.v
theories/SlrModel.v
theories/SpecCfg.v
theories/GrammarProofs.v
theories/FirstProofs.v
theories/FollowProofs.v
theories/GrammarTotal.v
theories/PropsGrammar.v
theories/ItemProofs.v
theories/CfsmProofs.v
theories/CfsmCorrect.v
theories/PropsCfsm.v
theories/TableProofs.v
theories/SlrTable.v
theories/SlrNew.v
theories/SlrRun.v
theories/SlrMoves.v
theories/SlrSim.v
theories/SlrTerm.v
theories/SlrAll.v
theories/PangoModel.v
theories/SlrFinal.v
theories/SlrWitness.v
theories/PropsSlr.v
theories/SpecPattern.v
theories/RegexAcceptProofs.v
theories/PropsPattern.v
theories/NfaVecProofs.v
theories/DotModel.v
theories/SpecDot.v
theories/DotProofs.v
theories/GrammarIterProofs.v
theories/PropsDot.v
theories/SpecPrefix.v
theories/SlrPrefix.v
theories/SlrReads.v
theories/PropsReads.v
theories/SpecErrors.v
theories/ErrorModel.v
theories/RegexErrorProofs.v
theories/ErrorTextProofs.v
theories/PropsErrors.v
theories/SpecMunch.v
theories/NfaBegun.v
theories/LexerMunch.v
theories/PropsMunch.v
theories/PipeProofs.v
theories/ExprModel.v
theories/SpecExpr.v
theories/ExprProofs.v
theories/PropsPipe.v
theories/SpecCalls.v
theories/LexerRef.v
theories/PropsCalls.v
theories/SpecStuck.v
theories/LexerSpin.v
theories/PropsSpin.v
theories/SpecTokens.v
theories/RegexTokens.v
theories/PropsTokens.v
theories/SpecPanic.v
theories/RegexPanicProofs.v
theories/PropsPanic.v
theories/SpecMachine.v
theories/SlrMachine.v
theories/PropsMachine.v
theories/SpecCopies.v
theories/CfsmCopies.v
theories/CfsmLadder.v
theories/PropsCopies.v
theories/SlrSource.v
theories/SpecWhole.v
theories/PipeWhole.v
theories/PropsWhole.v
theories/AskModel.v
theories/SpecAsk.v
theories/LexerAsk.v
theories/PropsAsk.v
theories/SpecCircle.v
theories/SlrLinear.v
theories/PropsLinear.v
theories/RepoTests.v
theories/SpecLaws.v
theories/LawProofs.v
theories/LexerLaws.v
theories/PropsLaws.v
theories/SpecRename.v
theories/RenameProofs.v
theories/PropsRename.v
theories/PtrModel.v
theories/PtrWorld.v
theories/PtrProofs.v
theories/PtrWorldProofs.v
theories/PropsPtr.v
theories/SpecWrap.v
theories/WrapProofs.v
theories/WrapText.v
theories/PropsWrap.v
theories/SpecPlain.v
theories/PlainProofs.v
theories/PropsPlain.v
theories/CountModel.v
theories/SpecReads.v
theories/CountProofs.v
theories/PropsCount.v
theories/RegexImage.v
theories/PropsImage.v
theories/DebugModel.v
theories/SpecDebug.v
theories/DebugProofs.v
theories/DebugTypes.v
theories/DebugSlr.v
theories/DebugLexer.v
theories/DebugCfsm.v
theories/PropsDebug.v
theories/SpecSub.v
theories/SubProofs.v
theories/SubWitness.v
theories/PropsSub.v
theories/SpecLists.v
theories/SpecLines.v
theories/ListProofs.v
theories/LineProofs.v
theories/ListWitness.v
theories/PropsLists.v
theories/TickModel.v
theories/TickProofs.v
theories/TickLexer.v
theories/PropsTick.v
theories/SpecStack.v
theories/StackModel.v
theories/StackProofs.v
theories/StackBounds.v
theories/PropsStack.v
theories/SpecSize.v
theories/SizeModel.v
theories/SizeProofs.v
theories/PropsSize.v
theories/SpecFront.v
theories/FrontProofs.v
theories/PropsFront.v
theories/SpecKleene.v
theories/KleeneProofs.v
theories/PropsKleene.v
theories/SpecWrite.v
theories/WriteProofs.v
theories/PropsWrite.v
theories/SpecExtent.v
theories/ExtentProofs.v
theories/PropsExtent.v
theories/OrderModel.v
theories/OrderProofs.v
theories/OrderLink.v
theories/OrderNames.v
theories/OrderAll.v
theories/PropsOrder.v
theories/SpecRegular.v
theories/RegularProofs.v
theories/RegularMore.v
theories/PropsRegular.v
theories/SpecNamed.v
theories/NamedProofs.v
theories/NamedWitness.v
theories/PropsNamed.v
theories/SpecExact.v
theories/ExactProofs.v
theories/PropsExact.v
theories/WorkModel.v
theories/SpecWork.v
theories/WorkProofs.v
theories/EchoProofs.v
theories/PropsWork.v
theories/SpecClean.v
theories/CleanProofs.v
theories/CleanFinal.v
theories/CleanSlr.v
theories/CleanWitness.v
theories/PropsClean.v
theories/RunsModel.v
theories/SpecOnce.v
theories/OnceProofs.v
theories/OnceWork.v
theories/PropsOnce.v
theories/SpecRight.v
theories/RightProofs.v
theories/PropsRight.v
theories/DebugRegexModel.v
theories/DebugRegex.v
theories/PropsDebugRegex.v
theories/TraceModel.v
theories/SpecTrace.v
theories/TraceProofs.v
theories/PropsTrace.v
theories/ReturnProofs.v
theories/SpecCounter.v
theories/CounterProofs.v
theories/PropsCounter.v
theories/HashModel.v
theories/SpecHash.v
theories/HashProofs.v
theories/HashSlrProofs.v
theories/HashWitness.v
theories/PropsHash.v
theories/SpecOutcome.v
theories/OutcomeProofs.v
theories/PropsOutcome.v
theories/EntryProofs.v
theories/PropsEntry.v
theories/SpecLoose.v
theories/LooseProofs.v
theories/PropsLoose.v
theories/NoEpsProofs.v
theories/WholeProofs.v
theories/PropsExactly.v
theories/SpecCrowd.v
theories/CrowdProofs.v
theories/PropsCrowd.v
theories/SpecText.v
theories/TextOutcome.v
theories/PropsText.v
theories/UselessProofs.v
theories/PropsUseless.v
theories/TrackProofs.v
theories/ContextProofs.v
theories/PropsContext.v
theories/PumpProofs.v
theories/PumpParser.v
theories/PropsPump.v
theories/DecideProofs.v
theories/DecideLexer.v
theories/DecideWhole.v
theories/GrowthProofs.v
theories/TurnProofs.v
theories/TurnWhole.v
theories/PropsTurns.v
theories/SpecHang.v
theories/HangProofs.v
theories/HangWhole.v
theories/PropsHang.v
theories/EffortModel.v
theories/SpecEffort.v
theories/EffortProofs.v
theories/EffortLex.v
theories/PropsEffort.v
theories/SpecQuery.v
theories/QueryProofs.v
theories/QueryLexer.v
theories/QueryWhole.v
theories/PropsQuery.v
theories/SpecPossible.v
theories/PossibleFacts.v
theories/PossibleMachine.v
theories/PossibleProofs.v
theories/PossibleParser.v
theories/PropsPossible.v
theories/SpecExactness.v
theories/ExactnessProofs.v
theories/PropsExactness.v
theories/SpecBuildable.v
theories/BuildableProofs.v
theories/PropsBuildable.v
theories/SpecTextbook.v
theories/TextbookProofs.v
theories/PropsTextbook.v
theories/SpecMatter.v
theories/MatterProofs.v
theories/PropsMatter.v
theories/SpecCertify.v
theories/CertifyProofs.v
theories/PropsCertify.v
theories/SpecKinds.v
theories/KindsProofs.v
theories/PropsKinds.v
theories/SpecAlike.v
theories/AlikeProofs.v
theories/PropsAlike.v
theories/SpecFind.v
theories/FindProofs.v
theories/PropsFind.v
theories/DropProofs.v
theories/PropsDrop.v
theories/SpecLate.v
theories/LateProofs.v
theories/PropsLate.v
theories/SpecMisread.v
theories/MisreadProofs.v
theories/PropsMisread.v
theories/MeantProofs.v
theories/PropsMeant.v
