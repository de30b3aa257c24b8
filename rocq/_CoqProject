-Q theories Verif
theories/BDD.v
theories/Loop.v
theories/Spec.v
theories/VarTypes.v
theories/Synth.v
theories/Sem.v
theories/GameSound.v
theories/GameComplete.v
theories/FixBase.v
theories/SynthProofs.v
theories/Verdict.v
theories/Solvers.v
theories/SolversProofs.v
theories/PropsSynth.v
theories/PropsSolvers.v
theories/FormulaSpec.v
theories/Parser.v
theories/ParserProofs.v
theories/FileSpec.v
theories/GameExt.v
theories/Execute.v
theories/FileProofs.v
theories/PropsParser.v
theories/AutSpec.v
theories/OutputSpec.v
theories/Explicit.v
theories/DetProofs.v
theories/ExplicitProofs.v
theories/ExplicitGame.v
theories/OutputProofs.v
theories/PropsExplicit.v
theories/Permissive.v
theories/PermissiveProofs.v
theories/PropsPermissive.v
theories/SymSpec.v
theories/Symbolic.v
theories/SymbolicProofs.v
theories/PropsSymbolic.v
theories/CounterSpec.v
theories/Counter.v
theories/CounterDual.v
theories/CounterData.v
theories/CounterExtract.v
theories/CounterGame.v
theories/CounterNodes.v
theories/PropsCounter.v
theories/CommandLine.v
theories/CommandLineSpec.v
theories/CommandLineProofs.v
theories/PropsCommandLine.v
theories/Cnf.v
theories/CnfSpec.v
theories/CnfProofs.v
theories/PropsCnf.v
theories/Analyze.v
theories/AnalyzeSpec.v
theories/AnalyzeProofs.v
theories/CubeProofs.v
theories/PropsAnalyze.v
theories/Coop.v
theories/CoopSpec.v
theories/CoopProofs.v
theories/CoopComplete.v
theories/CoopGame.v
theories/PropsCoop.v
theories/Assume.v
theories/AssumeSpec.v
theories/AssumeDist.v
theories/AssumeProofs.v
theories/PropsAssume.v
theories/Interact.v
theories/InteractSpec.v
theories/InteractProofs.v
theories/PropsInteract.v
theories/Recovery.v
theories/RecoverySpec.v
theories/PropsRecovery.v
theories/Weaken.v
theories/WeakenSpec.v
theories/WeakenProofs.v
theories/PropsWeaken.v
theories/Shell.v
theories/ShellSpec.v
theories/ShellText.v
theories/ShellProofs.v
theories/ShellSafe.v
theories/PropsShell.v
theories/ShellMarks.v
theories/PropsComplete.v
theories/ShellMove.v
theories/PropsMove.v
theories/ShellTrans.v
theories/ShellEnv.v
theories/PropsTransition.v
theories/InterestingRun.v
theories/InterestingSpec.v
theories/InterestingProofs.v
theories/PropsInteresting.v
theories/Interleave.v
theories/InterleaveSpec.v
theories/InterleaveGame.v
theories/InterleaveSpoil.v
theories/InterleaveProofs.v
theories/InterleaveLoops.v
theories/InterleaveReport.v
theories/PropsInterleave.v
theories/StructuredSpec.v
theories/Structured.v
theories/StructuredProofs.v
theories/StructuredTrans.v
theories/StructuredAccept.v
theories/PropsStructured.v
theories/FastSlow.v
theories/FastSlowSpec.v
theories/FastSlowProofs.v
theories/FastSlowFile.v
theories/PropsFastSlow.v
theories/CoreGame.v
theories/CoreProofs.v
theories/Motion.v
theories/MotionSpec.v
theories/MotionProofs.v
theories/MotionFile.v
theories/MotionScope.v
theories/PropsMotion.v
theories/TraceSpec.v
theories/Trace.v
theories/TraceProofs.v
theories/PropsTrace.v
theories/EstimatorSpec.v
theories/Estimator.v
theories/EstimatorProofs.v
theories/EstimatorText.v
theories/EstimatorFile.v
theories/EstimatorRange.v
theories/PropsEstimator.v
theories/MinCoreSpec.v
theories/MonoProofs.v
theories/MinCore.v
theories/MinCoreProofs.v
theories/PropsMinCore.v
theories/SearchSpec.v
theories/Search.v
theories/SearchProofs.v
theories/PropsSearch.v
theories/TwoDimSpec.v
theories/TwoDim.v
theories/TwoDimBase.v
theories/TwoDimProofs.v
theories/TwoDimSound.v
theories/TwoDimRun.v
theories/PropsTwoDim.v
theories/AigSpec.v
theories/Aig.v
theories/AigProofs.v
theories/AigFile.v
theories/AigRun.v
theories/AigMain.v
theories/AigGame.v
theories/PropsAig.v
theories/StructGrammar.v
theories/StructTables.v
theories/StructParse.v
theories/StructItems.v
theories/StructParseProofs.v
theories/StructTreeProofs.v
theories/StructReadProofs.v
theories/PropsStructParse.v
theories/StructFileSpec.v
theories/StructFile.v
theories/StructGameProofs.v
theories/StructFileProofs.v
theories/StructDeclProofs.v
theories/StructLineProofs.v
theories/StructTokenProofs.v
theories/StructConvProofs.v
theories/StructMain.v
theories/PropsStructFile.v
theories/StuckSpec.v
theories/Stuck.v
theories/StuckProofs.v
theories/PropsStuck.v
theories/ResilientSpec.v
theories/Resilient.v
theories/FrontierProofs.v
theories/ResilientProofs.v
theories/PropsResilient.v
theories/DecoderSpec.v
theories/Decoder.v
theories/DecoderProofs.v
theories/PropsDecoder.v
theories/Mixed.v
theories/MixedSpec.v
theories/MixedGame.v
theories/MixedText.v
theories/MixedProofs.v
theories/MixedSearch.v
theories/MixedBound.v
theories/PropsMixed.v
theories/LtlTables.v
theories/LtlItems.v
theories/LtlSpec.v
theories/Ltl.v
theories/LtlParseProofs.v
theories/LtlTreeProofs.v
theories/LtlReadProofs.v
theories/LtlProofs.v
theories/LtlFile.v
theories/LtlMain.v
theories/PropsLtl.v
theories/GraphSpec.v
theories/Graph.v
theories/GraphProofs.v
theories/PropsGraph.v
theories/SmvSpec.v
theories/Smv.v
theories/SmvReadProofs.v
theories/SmvRunProofs.v
theories/SmvMain.v
theories/PropsSmv.v
theories/ReportSpec.v
theories/Report.v
theories/ReportProofs.v
theories/PropsReport.v
theories/SubstSpec.v
theories/Subst.v
theories/SubstProofs.v
theories/SubstFileSpec.v
theories/SubstFile.v
theories/SubstFileProofs.v
theories/PropsSubst.v
theories/Fuzz.v
theories/FuzzProofs.v
theories/PropsFuzz.v
theories/LtlFuzz.v
theories/LtlFuzzProofs.v
theories/PropsLtlFuzz.v
theories/CinderellaSpec.v
theories/Cinderella.v
theories/CinderellaProofs.v
theories/CinderellaFile.v
theories/CinderellaGame.v
theories/PropsCinderella.v
theories/StructAcceptSpec.v
theories/StructAccept.v
theories/StructVerdict.v
theories/PropsStructAccept.v
theories/StructBlanks.v
theories/PropsStructCircuit.v
