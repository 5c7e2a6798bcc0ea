-Q theories Verif

theories/Model/Base.v
theories/Model/Scalar.v
theories/Model/Value.v
theories/Model/History.v
theories/Model/Register.v
theories/Model/Cast.v
theories/Model/Errors.v
theories/Model/Options.v
theories/Model/Ast.v
theories/Model/Surface.v
theories/Model/Translate.v
theories/Model/Typecheck.v
theories/Model/Interp.v
theories/Model/Graph.v
theories/Model/Causality.v
theories/Model/Clockcheck.v
theories/Model/Positivity.v
theories/Model/Pipeline.v
theories/Model/Constexpr.v
theories/Model/Names.v
theories/Spec/GraphSpec.v
theories/Spec/CausalitySpec.v
theories/Proofs/Tarjan.v
theories/Proofs/DfsOrder.v
theories/Proofs/GraphProofs.v
theories/Proofs/UnitOrder.v
theories/Proofs/CausalityProofs.v
theories/Spec/Static.v
theories/Proofs/StaticTypes.v
theories/Proofs/StaticStmts.v
theories/Proofs/StaticNode.v
theories/Proofs/StaticConst.v
theories/Proofs/StaticClocks.v
theories/Proofs/StaticPace.v
theories/Proofs/StaticPast.v
theories/Proofs/StaticNames.v
theories/Proofs/StaticProgram.v
theories/Proofs/StaticOrder.v
theories/Proofs/StaticSilent.v
theories/Spec/LinkSpec.v
theories/Proofs/Link.v
theories/Properties/Scheduling.v
theories/Properties/Translation.v
theories/Properties/Typing.v
theories/Spec/Clocked.v
theories/Spec/RuntimeSpec.v
theories/Proofs/RuntimeProofs.v
theories/Proofs/RegisterProofs.v
theories/Proofs/RuntimeProofs2.v
theories/Proofs/CastProofs.v
theories/Spec/GroupSpec.v
theories/Spec/StepSpec.v
theories/Proofs/AstInd.v
theories/Proofs/InterpBasics.v
theories/Proofs/Stripped.v
theories/Proofs/Grouped.v
theories/Proofs/StepProofs.v
theories/Spec/CoreSem.v
theories/Proofs/CoreProofs.v
theories/Proofs/CoreNode.v
theories/Spec/SurfaceSem.v
theories/Proofs/OutBasics.v
theories/Proofs/TranslateSem.v
theories/Spec/TranslateSpec.v
theories/Proofs/TranslateStruct.v
theories/Proofs/NodeWf.v
theories/Spec/ProgramSem.v
theories/Spec/SourceCausal.v
theories/Proofs/PipelineProofs.v
theories/Proofs/ProgramProofs.v
theories/Proofs/Unique.v
theories/Spec/OrderSpec.v
theories/Spec/ChainSpec.v
theories/Spec/TypeSpec.v
theories/Proofs/Reorder.v
theories/Proofs/ReorderSource.v
theories/Proofs/Chains.v
theories/Proofs/TypeEval.v
theories/Proofs/TypeExec.v
theories/Proofs/TypeProg.v
theories/Proofs/DeepIds.v
theories/Proofs/Unify.v
theories/Proofs/TypeInfer.v
theories/Spec/DepthSpec.v
theories/Spec/SafetySpec.v
theories/Spec/DiagSpec.v
theories/Spec/ClockSpec.v
theories/Spec/UniversalSem.v
theories/Spec/PromptSpec.v
theories/Spec/RangeSpec.v
theories/Spec/FloatSpec.v
theories/Spec/CrashSpec.v
theories/Spec/RunSpec.v
theories/Spec/AttrSpec.v
theories/Spec/ConstSpec.v
theories/Spec/NamesSpec.v
theories/Proofs/Depths.v
theories/Proofs/UniversalOrder.v
theories/Proofs/TypeNode.v
theories/Proofs/TypePipeline.v
theories/Proofs/CallTypes.v
theories/Proofs/DepthPipeline.v
theories/Proofs/Fair.v
theories/Proofs/FairPipeline.v
theories/Proofs/Silent.v
theories/Proofs/Attrs.v
theories/Proofs/Constants.v
theories/Proofs/Names.v
theories/Proofs/BoundedReads.v
theories/Proofs/Paces.v
theories/Proofs/UniClock.v
theories/Proofs/UniSem.v
theories/Proofs/UniProgram.v
theories/Proofs/SourceOrder.v
theories/Proofs/Prompt.v
theories/Proofs/Closed.v
theories/Proofs/Range.v
theories/Proofs/Floats.v
theories/Proofs/FloatRuns.v
theories/Proofs/NoCrash.v
theories/Proofs/Runs.v
theories/Proofs/PaceNode.v
theories/Proofs/Presence.v
theories/Proofs/TraceInd.v
theories/Proofs/NilFree.v
theories/Proofs/Positive.v
theories/Proofs/ClockProps.v
theories/Properties/Runtime.v
theories/Properties/Steps.v
theories/Properties/Diagnostics.v
theories/Properties/Clocks.v
theories/Properties/Universal.v
theories/Properties/Reads.v
theories/Properties/Runs.v
theories/Properties/Floats.v
theories/Properties/Attributes.v
theories/Properties/Constants.v
theories/Properties/Names.v
theories/Model/Parse.v
theories/Spec/GrammarSpec.v
theories/Proofs/ParseFacts.v
theories/Proofs/ParseExpr.v
theories/Proofs/ParseLists.v
theories/Proofs/ParseSound.v
theories/Proofs/ParseComplete.v
theories/Proofs/ParseTotal.v
theories/Proofs/ParseWrite.v
theories/Properties/Parsing.v
theories/Model/Codegen.v
theories/Model/Macro.v
theories/Spec/CodegenSpec.v
theories/Spec/BehaviourSpec.v
theories/Proofs/CodegenNames.v
theories/Proofs/Codegen.v
theories/Proofs/DeclOrder.v
theories/Proofs/DeclRuns.v
theories/Proofs/Interface.v
theories/Properties/Codegen.v
theories/Properties/Declarations.v
theories/Proofs/SourceCausality.v
theories/Properties/Acceptance.v
theories/Properties/Linking.v
theories/Model/Extern.v
theories/Spec/ExternSem.v
theories/Spec/GenericSpec.v
theories/Proofs/ExternBasics.v
theories/Proofs/Externs.v
theories/Proofs/ExternLink.v
theories/Proofs/ExternTypes.v
theories/Proofs/Parametric.v
theories/Proofs/ParametricProg.v
theories/Proofs/ParametricCases.v
theories/Properties/Externs.v
theories/Properties/Generics.v
theories/Model/Trace.v
theories/Spec/TraceSpec.v
theories/Proofs/TraceText.v
theories/Proofs/Traces.v
theories/Proofs/Wrappers.v
theories/Proofs/TraceProgram.v
theories/Proofs/TraceModed.v
theories/Spec/TokenSpec.v
theories/Proofs/Macro.v
theories/Properties/Macro.v
theories/Properties/Grouping.v
theories/Properties/Tracing.v
theories/Spec/RenameSpec.v
theories/Proofs/ConstOrder.v
theories/Proofs/Renamed.v
theories/Proofs/RenamedChecks.v
theories/Proofs/RenamedRun.v
theories/Proofs/RenamedProg.v
theories/Proofs/RenamedMain.v
theories/Properties/Renaming.v
theories/Proofs/Extension.v
theories/Properties/Extension.v
theories/Spec/SettledSem.v
theories/Proofs/Completeness.v
theories/Proofs/CompletenessNode.v
theories/Proofs/Settled.v
theories/Proofs/Exact.v
theories/Properties/Exact.v
theories/Spec/Replace.v
theories/Proofs/Replace.v
theories/Proofs/Asserts.v
theories/Properties/Replace.v
theories/Spec/Inline.v
theories/Proofs/Inline.v
theories/Properties/Inline.v
theories/Spec/Laws.v
theories/Proofs/Laws.v
theories/Properties/Laws.v
theories/Spec/ExternSettled.v
theories/Proofs/ExternExact.v
theories/Proofs/ExternReplace.v
theories/Spec/Observe.v
theories/Proofs/Observe.v
theories/Properties/Observe.v
theories/Proofs/ExternExtension.v
theories/Properties/ExternExact.v
theories/Spec/Slice.v
theories/Proofs/Slice.v
theories/Properties/Slice.v
theories/Spec/Simplify.v
theories/Proofs/Simplify.v
theories/Properties/Simplify.v
