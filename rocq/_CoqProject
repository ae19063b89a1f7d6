-Q theories Verif
theories/Base.v
theories/Grammar.v
theories/FirstFollow.v
theories/Transitions.v
theories/Parser.v
theories/Session.v
theories/Spec.v
theories/SessionSpec.v
theories/LexSpec.v
theories/RenameSpec.v
theories/RepeatSpec.v
theories/StallSpec.v
theories/FollowSpec.v
theories/BaseFacts.v
theories/GrammarFacts.v
theories/DerivFacts.v
theories/FirstFacts.v
theories/FollowFacts.v
theories/FollowRepeat.v
theories/TransitionsFacts.v
theories/ParserRel.v
theories/ParserPast.v
theories/ParserSound.v
theories/ParserBuild.v
theories/ParserPanic.v
theories/ParserSim.v
theories/ParserTerm.v
theories/ParserStall.v
theories/SuppliedSpec.v
theories/CoverFacts.v
theories/SuppliedFacts.v
theories/ParserComplete.v
theories/ReportSpec.v
theories/ChoiceSpec.v
theories/PastSpec.v
theories/ParserCF.v
theories/ParserReport.v
theories/ContractSpec.v
theories/ParserOff.v
theories/ParserEscalate.v
theories/ParserContract.v
theories/ParserChoice.v
theories/ParserPastChoice.v
theories/PrefixSpec.v
theories/ParserTrunc.v
theories/ParserErrPos.v
theories/MoreFacts.v
theories/RenameFacts.v
theories/RepeatFacts.v
theories/ParserRename.v
theories/ExampleTools.v
theories/Examples.v
theories/SpecTests.v
theories/PropGrammar.v
theories/PropFirstFollow.v
theories/PropTable.v
theories/LL1Check.v
theories/PropParse.v
theories/ParserDeclined.v
theories/PropReports.v
theories/PropContract.v
theories/PropLimits.v
theories/GuidedSpec.v
theories/ParserGuided.v
theories/PropGuided.v
theories/PropPrefix.v
theories/PropRename.v
theories/PropFollow.v
theories/PropRepeat.v
theories/DepthSpec.v
theories/ParserDepth.v
theories/PropDepth.v
theories/WorkSpec.v
theories/WorkFacts.v
theories/WorkLog.v
theories/ParserWork.v
theories/PropWork.v
theories/ParserExp.v
theories/PropExp.v
theories/ForeverSpec.v
theories/ForeverFacts.v
theories/LoopSpec.v
theories/LoopFacts.v
theories/PropForever.v
theories/ProductiveSpec.v
theories/LeftRecFacts.v
theories/PropLeftRec.v
theories/RecoverSpec.v
theories/ParserStop.v
theories/ParserRecover.v
theories/StopSpec.v
theories/ParserStopRecover.v
theories/StopFacts.v
theories/PropRecover.v
theories/PropSupplied.v
theories/PropSession.v
theories/KeySpec.v
theories/KeyFacts.v
theories/PropKey.v
theories/LastSpec.v
theories/LastFacts.v
theories/PropLast.v
theories/PropCertify.v
theories/SizeSpec.v
theories/SizeFacts.v
theories/PropSize.v
theories/ApartSpec.v
theories/ApartFacts.v
theories/PropApart.v
theories/StartSpec.v
theories/StartFacts.v
theories/PropStart.v
theories/LocalFacts.v
theories/PropLocal.v
theories/EarlySpec.v
theories/EarlyFacts.v
theories/PropEarly.v
theories/Machine.v
theories/MachineFacts.v
theories/PropMachine.v
theories/Resume.v
theories/ResumeSpec.v
theories/ResumeFacts.v
theories/PropResume.v
theories/RoundFacts.v
theories/PropRounds.v
theories/LanguageSpec.v
theories/AccountSpec.v
theories/PropAccount.v
theories/ParserAsks.v
theories/PropAsks.v
theories/CountSpec.v
theories/ParserCount.v
theories/PropCount.v
theories/UsefulSpec.v
theories/PropUseful.v
theories/ParserAsked.v
theories/PropAsked.v
theories/ParserHang.v
theories/PropHang.v
theories/SplitSpec.v
theories/SplitFacts.v
theories/PropSplit.v
theories/RecipeSpec.v
theories/PropRecipe.v
theories/ParserHalt.v
theories/PropHalt.v
theories/EffortSpec.v
theories/ParserEffort.v
theories/EffortFacts.v
theories/PropEffort.v
theories/ExpectSpec.v
theories/ExpectFacts.v
theories/PropExpect.v
theories/EpsFreeSpec.v
theories/EpsFreeFacts.v
theories/PropEpsFree.v
theories/CutFacts.v
theories/PropCut.v
theories/PropAdequate.v
theories/FirstChoiceSpec.v
theories/PropFirstChoice.v
theories/EndSpec.v
theories/PropEnd.v
theories/PropOffending.v
theories/QuietSpec.v
theories/PropQuiet.v
theories/PropUnreached.v
theories/PropLanguage.v
theories/WrapSpec.v
theories/PropWrap.v
theories/AssembleSpec.v
theories/PropAssemble.v
theories/PropEndMarker.v
theories/PropInOrder.v
theories/EndingFacts.v
theories/EndingCutFacts.v
theories/PlaceFacts.v
theories/PropEnding.v
theories/PropLastParts.v
theories/ExactSpec.v
theories/ExactFacts.v
theories/PropExact.v
theories/ReachSpec.v
theories/ReachFacts.v
theories/PropReach.v
theories/PegSpec.v
theories/PegFacts.v
theories/PropPeg.v
theories/FactorSpec.v
theories/FactorFacts.v
theories/FactorLeft.v
theories/PropFactor.v
theories/FitSpec.v
theories/FitFacts.v
theories/FitCheck.v
theories/FitCover.v
theories/PropFit.v
theories/PropLadder.v
