-Q theories Verif
theories/Base.v
theories/LocModel.v
theories/EvdModel.v
theories/NomModel.v
theories/AstModel.v
theories/ParseModel.v
theories/AstParseModel.v
theories/EngineModel.v
theories/ModelTests.v
theories/EvdSpec.v
theories/LocSpec.v
theories/EvdProofs.v
theories/EvdProofs2.v
theories/EvdProofs3.v
theories/EvdExamples.v
theories/PropEvd.v
theories/CutSpec.v
theories/LocateProofs.v
theories/CutExamples.v
theories/PropCut.v
theories/SliceProofs.v
theories/PropSlice.v
theories/LocProofs.v
theories/PropLoc.v
theories/DbSpec.v
theories/DbProofs.v
theories/PropDb.v
theories/ParseSpec.v
theories/ParseProofs.v
theories/ParseProofs2.v
theories/ParseProofs3.v
theories/ParseProofs4.v
theories/ParseProofs5.v
theories/ParseExamples.v
theories/PropParse.v
theories/EvalSpec.v
theories/SubstProofs.v
theories/EvalProofs.v
theories/EvalProofs2.v
theories/FuelProofs.v
theories/CutProofs.v
theories/EvalProofs3.v
theories/EvalProofs4.v
theories/EvalExamples.v
theories/PropEval.v
theories/AstParseSpec.v
theories/AstParseProofs.v
theories/AstParseProofs2.v
theories/AstParseProofs3.v
theories/AstExamples.v
theories/PropAst.v
theories/EngineSpec.v
theories/SafeProofs.v
theories/SafeProofs2.v
theories/SafeProofs3.v
theories/SafeProofs4.v
theories/EngineProofs.v
theories/EngineProofs2.v
theories/EngineProofs3.v
theories/MakeSpec.v
theories/CrashSpec.v
theories/SensProofs.v
theories/PieceProofs.v
theories/MakeProofs.v
theories/MakeProofs2.v
theories/MakeProofs3.v
theories/MakeProofs4.v
theories/MakeProofs6.v
theories/MakeProofs7.v
theories/MakeProofs8.v
theories/MakeProofs9.v
theories/MakeProofs10.v
theories/MakeProofs11.v
theories/MakeProofs12.v
theories/MakeProofs13.v
theories/MakeProofs14.v
theories/MakeProofs5.v
theories/EngineExamples.v
theories/MakeRun.v
theories/CrashProofs.v
theories/CrashProofs2.v
theories/UnclosedProofs.v
theories/MalformedProofs.v
theories/RuleStopProofs.v
theories/CondStopProofs.v
theories/CrashProofs3.v
theories/MakeExamples.v
theories/PropEngine.v
theories/PropMake.v
theories/WriteSpec.v
theories/StopSpec.v
theories/WriteSubst.v
theories/WriteProofs.v
theories/WriteProofs2.v
theories/WriteRule.v
theories/WriteLong.v
theories/WriteProofs3.v
theories/WriteProofs4.v
theories/WriteProofs5.v
theories/WriteProofs9.v
theories/WriteProofs6.v
theories/WriteProofs7.v
theories/StopProofs.v
theories/StopProofs2.v
theories/StopProofs3.v
theories/WriteProofs8.v
theories/ObjectSpec.v
theories/ObjectProofs.v
theories/ObjectProofs2.v
theories/RecipeProofs.v
theories/WriteExamples.v
theories/StopExamples.v
theories/PropWrite.v
theories/SensProofs2.v
theories/SensExamples.v
theories/PropSens.v
theories/NestExamples.v
theories/PropNest.v
theories/PropCrash.v
theories/CrlfProofs.v
theories/PropCrlf.v
theories/WordSpec.v
theories/WordProofs.v
theories/WordExamples.v
theories/PropWord.v
theories/SessionSpec.v
theories/SessionProofs.v
theories/SessionExamples.v
theories/PropSession.v
theories/Utf8Examples.v
theories/PropUtf8.v
