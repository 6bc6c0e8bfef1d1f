-Q theories Verif
theories/Str.v
theories/Types.v
theories/Context.v
theories/Exec.v
theories/Tokenize.v
theories/Macros.v
theories/ReEngine.v
theories/ScriptGrammar.v
theories/ScriptBuild.v
theories/Facts.v
theories/Mono.v
theories/Spec.v
theories/SpecScript.v
theories/SpecMore.v
theories/ContextProofs.v
theories/DecimalProofs.v
theories/TextProofs.v
theories/Basics.v
theories/AtomProofs.v
theories/CombProofs.v
theories/ScopeProofs.v
theories/ProgramProofs.v
theories/MapProofs.v
theories/FrameProofs.v
theories/FamilyProofs.v
theories/LoopProofs.v
theories/DepthProofs.v
theories/FetchProofs.v
theories/TokenizeProofs.v
theories/TreeProofs.v
theories/BoundsProofs.v
theories/Utf8Proofs.v
theories/FlowProofs.v
theories/ScriptProofs.v
theories/FaultProofs.v
theories/MoveProofs.v
theories/ImportProofs.v
theories/DebugProofs.v
theories/TerminationProofs.v
theories/WrapProofs.v
theories/SeesProofs.v
theories/SpecSyntax.v
theories/LexProofs.v
theories/SyntaxProofs.v
theories/ScriptTextProofs.v
theories/CompileProofs.v
theories/BrokenProofs.v
theories/SpecMatch.v
theories/MatchProofs.v
theories/FatalProofs.v
theories/ProjectProofs.v
theories/CulpritProofs.v
theories/Samples.v
theories/SampleScripts.v
theories/ConformMatchers.v
theories/ConformGrammar.v
theories/ConformScript.v
theories/PropsContext.v
theories/PropsAtoms.v
theories/PropsCombinators.v
theories/PropsScopes.v
theories/PropsPrograms.v
theories/PropsTokenize.v
theories/PropsInvariants.v
theories/PropsScript.v
theories/PropsStore.v
theories/PropsDebug.v
theories/PropsTermination.v
theories/PropsWrap.v
theories/PropsSyntax.v
theories/PropsBroken.v
theories/PropsFatal.v
theories/PropsFault.v
theories/PropsCulprit.v
theories/ReadProofs.v
theories/SaneProofs.v
theories/BookProofs.v
theories/SampleReads.v
theories/PropsMatch.v
theories/SpecSteady.v
theories/SteadyProofs.v
theories/SampleSteady.v
theories/PropsSteady.v
theories/EndProofs.v
theories/FateProofs.v
theories/PropsEnd.v
theories/SpecGuard.v
theories/GuardProofs.v
theories/GuardEnds.v
theories/GuardScript.v
theories/GuardCompile.v
theories/SampleGuard.v
theories/PropsGuard.v
theories/TokenOps.v
theories/SpecPrint.v
theories/TokenProofs.v
theories/PrintProofs.v
theories/LineageProofs.v
theories/TruthProofs.v
theories/PropsPrint.v
theories/MatcherOps.v
theories/SpecOps.v
theories/OpsProofs.v
theories/PropsOps.v
theories/LogOps.v
theories/LogProofs.v
theories/PropsLog.v
theories/UniqueProofs.v
theories/PropsUnique.v
theories/SpecNames.v
theories/NamesProofs.v
theories/HomeProofs.v
theories/NamesCompile.v
theories/PropsNames.v
theories/SpecShape.v
theories/SpecLex.v
theories/SpecRefused.v
theories/ShapeLex.v
theories/ShapeProofs.v
theories/ShapeScript.v
theories/ShapeCompile.v
theories/SampleShape.v
theories/PropsShape.v
theories/SampleLex.v
theories/PropsLex.v
theories/SpecShift.v
theories/ShiftProofs.v
theories/PropsShift.v
theories/ErrorTextProofs.v
theories/RefusedProofs.v
theories/PropsRefused.v
theories/FuelProofs.v
theories/PropsFuel.v
