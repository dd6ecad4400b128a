-Q theories Verif
theories/Num.v
theories/NumFacts.v
theories/Outcome.v
theories/Interval.v
theories/IntervalFacts.v
theories/Constraint.v
theories/Zone.v
theories/ZoneFacts.v
theories/ZoneOps.v
theories/TA.v
theories/Spec.v
theories/TAFacts.v
theories/PropBase.v
theories/WfDec.v
theories/Intersection.v
theories/IntersectionFacts.v
theories/PropTA.v
theories/ZA.v
theories/ZASpec.v
theories/ZAFacts.v
theories/ZAGraph.v
theories/PropZA.v
theories/Word.v
theories/Monaa.v
theories/WordFacts.v
theories/MonaaSim.v
theories/MonaaFacts.v
theories/MonaaVec.v
theories/Skip.v
theories/SkipFacts.v
theories/PropMonaa.v
theories/Sunday.v
theories/Kmp.v
theories/KmpRun.v
theories/KmpSafe.v
theories/KmpUB.v
theories/ApFacts.v
theories/Tables.v
theories/PropSkip.v
theories/PropSkipEx.v
theories/PropModes.v
theories/PropModesEx.v
theories/Tre.v
theories/TreRun.v
theories/TreFacts.v
theories/TreBuild.v
theories/TreLang.v
theories/PropTre.v
theories/PropMore.v
theories/Text.v
theories/TextFacts.v
theories/BoostFacts.v
theories/Ans.v
theories/PropText.v
theories/EpsZone.v
theories/EpsZoneFacts.v
theories/EpsZoneOps.v
theories/EpsSpec.v
theories/EpsRun.v
theories/PropEps.v
theories/PropEpsEx.v
theories/Signal.v
theories/SignalFacts.v
theories/SignalTerm.v
theories/SignalSpec.v
theories/PropSignal.v
theories/SignalRep.v
theories/SignalBuild.v
theories/SignalTop.v
theories/SignalDur.v
theories/SignalWords.v
theories/SignalAut.v
theories/PropSignal2.v
theories/PropSignal3.v
theories/PropSignal4.v
theories/Parse.v
theories/ParseSpec.v
theories/ParseFacts.v
theories/PropParse.v
theories/Main.v
theories/MainFacts.v
theories/TreConsts.v
theories/PropMain.v
theories/IntersectionSignal.v
theories/PropInterSig.v
theories/PropStatic.v
theories/PropEpsSim.v
theories/ZATerm.v
theories/ZALive.v
theories/ZADiv.v
theories/ZAFin.v
theories/SundayTerm.v
theories/KmpTerm.v
theories/KmpHang.v
theories/PropTerm.v
theories/TreMild.v
theories/PropEvent.v
theories/TreLean.v
theories/ZAIdle.v
theories/PropExact.v
theories/PropMissed.v
theories/ZALast.v
theories/ZACong.v
theories/ZAOrder.v
theories/ZALoop.v
theories/ZASupple.v
theories/TreLoop.v
theories/TreSupple.v
theories/TreOrder.v
theories/ZAExact.v
theories/PropReal.v
theories/PropFresh.v
theories/Rename.v
theories/PropRename.v
theories/PropStart.v
theories/TreKnown.v
theories/PropEmpty.v
theories/SignalLast.v
theories/PropSignal5.v
theories/RenameAny.v
theories/SignalKnown.v
theories/PropSignal6.v
theories/Bin.v
theories/PropBin.v
theories/Print.v
theories/PrintFacts.v
theories/PrintMicro.v
theories/PropPrint.v
theories/PropPrintMain.v
theories/PropSignal7.v
theories/Conform.v
theories/ConformKmp.v
theories/ConformMain.v
theories/PropIvals.v
theories/Online.v
theories/PropOnline.v
theories/PropProd.v
theories/PropSignal8.v
theories/ConformDoc.v
theories/Ieee.v
theories/PropBinary.v
theories/PropStaticVec.v
theories/PropGuard.v
theories/PropPrintSignal.v
theories/OnlineEps.v
theories/PropOnlineEps.v
theories/Stream.v
theories/PropStream.v
theories/Unused.v
theories/PropUnused.v
theories/Round.v
theories/PropRound.v
theories/RoundZone.v
theories/PropRoundZone.v
theories/PropTextEx.v
theories/Enc.v
theories/PropDouble.v
theories/Audit.v
