-Q theories Verif
theories/Base.v
theories/Text.v
theories/Context.v
theories/Neu.v
theories/Syntax.v
theories/Regex.v
theories/Ctor.v
theories/Api.v
theories/TextProofs.v
theories/Spec.v
theories/Units.v
theories/Core.v
theories/Sound.v
theories/Complete.v
theories/Mono.v
theories/Atomic.v
theories/Leaf.v
theories/ByteInv.v
theories/Boundary.v
theories/CtorBoundary.v
theories/Obs.v
theories/Laws.v
theories/UnitLaws.v
theories/ApiLaws.v
theories/Term.v
theories/Consumes.v
theories/Diverge.v
theories/CtorSpec.v
theories/CtorSound.v
theories/CtorComplete.v
theories/Samples.v
theories/PolicyLaws.v
theories/CursorLaws.v
theories/PegLaws.v
theories/UnitProps.v
theories/TermLaws.v
theories/CtorLaws.v
theories/CtorShape.v
theories/LoopLaws.v
theories/SeqLaws.v
theories/AgreeLaws.v
theories/PropCursor.v
theories/PropPeg.v
theories/PropComb.v
theories/PropUnit.v
theories/PropTerm.v
theories/PropCtor.v
theories/FindLaws.v
theories/Inside.v
theories/FindItems.v
theories/PropFind.v
theories/PropPolicy.v
theories/Store.v
theories/StoreLaws.v
theories/PropStore.v
theories/Rel.v
theories/Shift.v
theories/PropCtx.v
theories/Maps.v
theories/MapLaws.v
theories/PropMaps.v
theories/Lang.v
theories/PropLang.v
theories/RecLaws.v
theories/Unlock.v
theories/PropRec.v
theories/PrefixUnit.v
theories/PropPrefix.v
theories/Conform.v
theories/Json.v
theories/JsonLaws.v
theories/PropJson.v
theories/Png.v
theories/CrcLaws.v
theories/PngLaws.v
theories/PropPng.v
theories/Macros.v
theories/MacroSpec.v
theories/MacroLaws.v
theories/PropMacro.v
theories/Methods.v
theories/PropForms.v
theories/PropMethods.v
theories/Stateful.v
theories/PropStateful.v
theories/PropStCond.v
theories/Lossy.v
theories/PropLossy.v
theories/Loose.v
theories/PropSafe.v
theories/Refactor.v
theories/Cong.v
theories/Solid.v
theories/RefLaws.v
theories/RefLoops.v
theories/PropRefactor.v
theories/Pieces.v
theories/Readme.v
theories/PropReadme.v
theories/PropColor.v
theories/Png1.v
theories/PropPng1.v
theories/Decls.v
theories/SkipPieces.v
theories/SkipText.v
theories/PropDecls.v
theories/PropFields.v
theories/ConSpec.v
theories/ConSound.v
theories/ConComplete.v
theories/ConTerm.v
theories/ConCalm.v
theories/PropCon.v
theories/Blame.v
theories/BlameLaws.v
theories/PropBlame.v
theories/ErrText.v
theories/PropErrText.v
theories/Utf8Sim.v
theories/PropUtf8.v
theories/Types.v
theories/TypeLaws.v
theories/PropTypes.v
theories/JsonOwned.v
theories/OwnedLaws.v
theories/PropOwned.v
theories/DocRec.v
theories/PropDocRec.v
theories/WeakPrefix.v
theories/PropWeak.v
theories/Search.v
theories/PropSearch.v
theories/Ll1.v
theories/PropLl1.v
theories/MutexPar.v
theories/PropMutex.v
theories/Tokens.v
theories/TokensLl1.v
theories/PropTokens.v
theories/Respell.v
theories/RespellCon.v
theories/JsonZero.v
theories/PropRespell.v
theories/Meaning.v
theories/MeanLaws.v
theories/PropMean.v
theories/TokMean.v
theories/TokMeanLaws.v
theories/PropTokMean.v
theories/PropRespellPol.v
theories/MutexNest.v
theories/PropNest.v
theories/Told.v
theories/ToldLaws.v
theories/PropTold.v
theories/Work.v
theories/WorkLaws.v
theories/WorkPoly.v
theories/Deep.v
theories/DeepLaws.v
theories/Calls.v
theories/WorkCalls.v
theories/PropWork.v
theories/PropDeep.v
theories/Look.v
theories/LookLaws.v
theories/Reach.v
theories/PropLook.v
theories/ConDeep.v
theories/ConWork.v
theories/ConDeepLaws.v
theories/ConWorkLaws.v
theories/ConCalls.v
theories/PropConCost.v
theories/ConLook.v
theories/ConReach.v
theories/PropConLook.v
theories/SharedUnit.v
theories/PropShared.v
