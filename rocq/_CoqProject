-Q theories Verif
theories/Syntax.v
theories/Context.v
theories/ExprModel.v
theories/TypeAnalysis.v
theories/AutoEnum.v
theories/AstInd.v
theories/TyInd.v
theories/Edits.v
theories/AttrFold.v
theories/RunLemmas.v
theories/EditsRun.v
theories/Frame.v
theories/VisitRun.v
theories/EngineRun.v
theories/AttributeRun.v
theories/ErrorRun.v
theories/Scope.v
theories/ScopeRun.v
theories/ScopeTop.v
theories/Erase.v
theories/EraseRun.v
theories/RootRun.v
theories/ArgsSpec.v
theories/ArgsRun.v
theories/TraitRun.v
theories/Samples.v
theories/PropExpansion.v
theories/PropArgs.v
theories/Grammar.v
theories/Halt.v
theories/HaltRun.v
theories/Deeper.v
theories/PropHalt.v
theories/Outside.v
theories/OutsideRun.v
theories/NoValueSpec.v
theories/NoValueRun.v
theories/ContextRun.v
theories/Tails.v
theories/Twin.v
theories/TwinBase.v
theories/TailRun.v
theories/TwinRun.v
theories/Changes.v
theories/ChangesRun.v
theories/TwinEdits.v
theories/FoldTwin.v
theories/Exits.v
theories/ExitsRun.v
theories/ExitsTop.v
theories/ChangesTop.v
theories/ExitsMeaning.v
theories/PropExits.v
theories/Closures.v
theories/ClosuresRun.v
theories/PropClosures.v
theories/PropContext.v
theories/Eval.v
theories/Same.v
theories/EvalRun.v
theories/Trace.v
theories/Excused.v
theories/NoValueEval.v
theories/PropSemantics.v
theories/Derive.v
theories/DeriveTable.v
theories/EnumDerive.v
theories/DeriveEval.v
theories/DeriveSpec.v
theories/DeriveRun.v
theories/ForwardRun.v
theories/RequestRun.v
theories/OnceRun.v
theories/Contracts.v
theories/ContractRun.v
theories/TransposeRun.v
theories/RefuseRun.v
theories/CompleteSpec.v
theories/CompleteRun.v
theories/DeriveTop.v
theories/PropDerive.v
theories/ChangesInd.v
theories/Branches.v
theories/BranchesRun.v
theories/CleanRun.v
theories/ElseRun.v
theories/Loops.v
theories/LoopsRun.v
theories/BranchesClean.v
theories/MarkersRun.v
theories/VisitedRun.v
theories/PropBranches.v
theories/Nodes.v
theories/Annotations.v
theories/AnnotRun.v
theories/GoneRun.v
theories/PropAnnotations.v
theories/Owners.v
theories/OwnersRun.v
theories/PropMarkers.v
theories/AgreeSpec.v
theories/AgreeRun.v
theories/PropTypes.v
theories/Causes.v
theories/CauseEdits.v
theories/CauseRun.v
theories/FewRun.v
theories/PropErrors.v
theories/Retag.v
theories/StillRun.v
theories/Found.v
theories/FoundRun.v
theories/PropFound.v
theories/Values.v
theories/ValuesRun.v
theories/ValuesTop.v
theories/PropValues.v
theories/Requests.v
theories/RequestsTop.v
theories/PropRequests.v
theories/Results.v
theories/ResultsRun.v
theories/StrictRun.v
theories/PropResults.v
theories/Annotated.v
theories/AnnotatedRun.v
theories/AnnotatedTop.v
theories/PropAnnotated.v
theories/Inner.v
theories/InnerLoop.v
theories/InnerBreak.v
theories/InnerRun.v
theories/InnerTop.v
theories/PropInner.v
theories/Steady.v
theories/SteadyEdits.v
theories/SteadyBranch.v
theories/SteadyRun.v
theories/PropSteady.v
theories/Alike.v
theories/Alone.v
theories/AloneRun.v
theories/AloneErr.v
theories/PropAlone.v
theories/Spare.v
theories/SpareEdits.v
theories/SpareRun.v
theories/SpareSites.v
theories/SpareTop.v
theories/PropSpare.v
theories/Swap.v
theories/SwapRun.v
theories/PropSwap.v
theories/Rename.v
theories/RenamePlain.v
theories/RenameKept.v
theories/RenameStay.v
theories/RenameRun.v
theories/PropRename.v
