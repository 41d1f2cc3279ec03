-Q theories Verif
theories/BlockExport.v
theories/BlockExportProofs.v
theories/BoolReduction.v
theories/BoolReductionConverse.v
theories/BoolReductionProofs.v
theories/BuildCache.v
theories/BuildCacheProofs.v
theories/BuildModule.v
theories/BuildModuleProofs.v
theories/BuildReplay.v
theories/BuildReplayProofs.v
theories/CertificateStep.v
theories/Checker.v
theories/CheckerProofs.v
theories/CheckerSem.v
theories/CheckerSets.v
theories/ClaimValidation.v
theories/Clause.v
theories/ClauseProofs.v
theories/ClauseSem.v
theories/ClauseSet.v
theories/ClauseSetProofs.v
theories/ClauseWf.v
theories/Clausifier.v
theories/ClausifierCases.v
theories/ClausifierConv.v
theories/ClausifierExt.v
theories/ClausifierInd.v
theories/ClausifierLits.v
theories/ClausifierMain.v
theories/ClausifierMatch.v
theories/ClausifierProofs.v
theories/ClausifierSets.v
theories/ClausifierTidy.v
theories/Containers.v
theories/EqualityGraph.v
theories/EqualityGraphClosure.v
theories/EqualityGraphProofs.v
theories/EqualityGraphRemap.v
theories/EqualityGraphSteps.v
theories/EqualityGraphTotal.v
theories/EvalSkip.v
theories/EvalSkipProofs.v
theories/Expression.v
theories/ExpressionDisplay.v
theories/ExpressionFuel.v
theories/ExpressionProofs.v
theories/ExpressionRound.v
theories/ExpressionTidy.v
theories/ExpressionTokens.v
theories/Fingerprint.v
theories/FiniteCheck.v
theories/FiniteModel.v
theories/FiniteTyping.v
theories/FlatTerm.v
theories/FlatTermProofs.v
theories/Fragment.v
theories/GeneralizationSet.v
theories/GeneralizationSetProofs.v
theories/GoalPartition.v
theories/GoalPartitionProofs.v
theories/Inference.v
theories/InferenceProofs.v
theories/Inhabited.v
theories/InhabitedProofs.v
theories/InstanceProofs.v
theories/Kbo.v
theories/KboProofs.v
theories/LineFilter.v
theories/Literal.v
theories/LiveDocument.v
theories/LocalContext.v
theories/LoweredModule.v
theories/LoweredModuleProofs.v
theories/MatchSpec.v
theories/MonoClaim.v
theories/MonoInfer.v
theories/MonoMatch.v
theories/MonoNorm.v
theories/MonoProofs.v
theories/MonoReduce.v
theories/MonoRules.v
theories/MonoUnify.v
theories/Monomorphic.v
theories/P_Binders.v
theories/P_BlockExport.v
theories/P_BooleanReduction.v
theories/P_BuildModule.v
theories/P_BuildReplay.v
theories/P_CacheCrash.v
theories/P_CacheMerge.v
theories/P_Checker.v
theories/P_ClaimValidation.v
theories/P_Clause.v
theories/P_ClauseSet.v
theories/P_Clausifier.v
theories/P_ClausifierMatch.v
theories/P_Congruence.v
theories/P_Display.v
theories/P_EqualityGraph.v
theories/P_EqualityInferences.v
theories/P_EvalSkip.v
theories/P_Expression.v
theories/P_Extensionality.v
theories/P_Fingerprint.v
theories/P_FlatTerm.v
theories/P_GeneralizationSet.v
theories/P_GoalPartition.v
theories/P_Inhabited.v
theories/P_Injectivity.v
theories/P_Instances.v
theories/P_Instantiation.v
theories/P_Kbo.v
theories/P_LineFilter.v
theories/P_LiteralSet.v
theories/P_LiveDocument.v
theories/P_LoweredModule.v
theories/P_Matching.v
theories/P_ModuleNames.v
theories/P_Monomorphic.v
theories/P_PassiveSet.v
theories/P_PdtKeys.v
theories/P_PipelineMerge.v
theories/P_Positivity.v
theories/P_Project.v
theories/P_ProofOrder.v
theories/P_Renumber.v
theories/P_SavedLines.v
theories/P_Scanner.v
theories/P_Score.v
theories/P_Search.v
theories/P_Server.v
theories/P_Simplify.v
theories/P_SkipUnchanged.v
theories/P_TargetLine.v
theories/P_TermNorm.v
theories/P_Termination.v
theories/P_TokenMap.v
theories/P_TraceChecker.v
theories/P_TracePrune.v
theories/P_TraceUsage.v
theories/P_TypeMatch.v
theories/P_Unifier.v
theories/P_VarStack.v
theories/P_Variance.v
theories/P_Witness.v
theories/P_WitnessDecl.v
theories/P_Worklist.v
theories/PassiveSet.v
theories/PassiveSetProofs.v
theories/Pdt.v
theories/PdtProofs.v
theories/PipelineMerge.v
theories/PolyTyped.v
theories/Positivity.v
theories/PositivityPoly.v
theories/PositivityProofs.v
theories/PositivitySem.v
theories/PositivitySpec.v
theories/ProjectManager.v
theories/ProjectManagerProofs.v
theories/ProjectProofs.v
theories/ProofOrder.v
theories/ProofOrderProofs.v
theories/RenumberProofs.v
theories/Scanner.v
theories/ScannerProofs.v
theories/Score.v
theories/SearchProofs.v
theories/SearchRewrite.v
theories/SearchRules.v
theories/SearchSimplify.v
theories/SemFacts.v
theories/Semantics.v
theories/Simplify.v
theories/SimplifyProofs.v
theories/SkipUnchanged.v
theories/TargetLine.v
theories/Term.v
theories/TermNorm.v
theories/TermNormProofs.v
theories/TermProofs.v
theories/Termination.v
theories/TokenMap.v
theories/TraceChecker.v
theories/TraceProofs.v
theories/TracePrune.v
theories/TypeInferProofs.v
theories/TypeMatch.v
theories/TypeMatchProofs.v
theories/TypeMatchSpec.v
theories/Typing.v
theories/TypingProofs.v
theories/Unifier.v
theories/UnifierProofs.v
theories/VarStack.v
theories/VariableMap.v
theories/VariableMapProofs.v
theories/VarianceProofs.v
theories/VarianceSem.v
theories/Witness.v
theories/WitnessDecl.v
theories/WitnessDeclProofs.v
theories/WitnessProofs.v
theories/Worklist.v
