-Q theories Verif

theories/Base.v
theories/Dec.v
theories/Value.v
theories/Heap.v
theories/Ast.v
theories/Ops.v
theories/Compiler.v
theories/Vm.v
theories/Eval.v
theories/CompilerFacts.v
theories/VmFacts.v
theories/Funcs.v
theories/ExprFacts.v
theories/Samples.v
theories/PropExpr.v
theories/HeapSpec.v
theories/TreeFacts.v
theories/HeapFacts.v
theories/DotFacts.v
theories/PureFacts.v
theories/HeapClaims.v
theories/PropHeap.v
theories/RunSpec.v
theories/FuncSpec.v
theories/IntervalFacts.v
theories/LoopFacts.v
theories/AggFacts.v
theories/FuncClaims.v
theories/PropFuncs.v
theories/VMap.v
theories/VMapFacts.v
theories/RepFacts.v
theories/ContentFacts.v
theories/Isolate.v
theories/IsolateFacts.v
theories/MemoFacts.v
theories/DropFacts.v
theories/StateClaims.v
theories/PropState.v
theories/OpFacts.v
theories/PropOps.v
theories/Lexer.v
theories/SynSpec.v
theories/LexFacts.v
theories/Parser.v
theories/ParserFacts.v
theories/PropSyntax.v
theories/Print.v
theories/RoundTrip.v
theories/RelexFacts.v
theories/ParensFacts.v
theories/CellSpec.v
theories/UnaryFacts.v
theories/GrammarFacts.v
theories/PropGrammar.v
theories/PropWords.v
theories/FnSpec.v
theories/FnFacts.v
theories/FnClaims.v
theories/PropFns.v
theories/FnMoreSpec.v
theories/FnMore.v
theories/PropFnsMore.v
theories/Graph.v
theories/GraphSpec.v
theories/GraphFacts.v
theories/Walker.v
theories/PruneFacts.v
theories/WalkSpec.v
theories/MergeFacts.v
theories/WalkFacts.v
theories/WalkClaims.v
theories/PropGraph.v
theories/Session.v
theories/SessionFacts.v
theories/Nodes.v
theories/NodeSpec.v
theories/ExprNodeFacts.v
theories/TransformFacts.v
theories/CleanFacts.v
theories/PropNodes.v
theories/Engine.v
theories/EngineFacts.v
theories/PropEngine.v
theories/OwnFacts.v
theories/Table.v
theories/TableSpec.v
theories/TableFacts.v
theories/Discriminant.v
theories/CoverSpec.v
theories/CoverFacts.v
theories/ArmFacts.v
theories/IndexFacts.v
theories/PropTables.v
theories/Decision.v
theories/PropDecision.v
theories/Json.v
theories/Docs.v
theories/DocSpec.v
theories/ImportFacts.v
theories/RewriteFacts.v
theories/DocsFacts.v
theories/EngineSet.v
theories/EngineSetFacts.v
theories/PropDocs.v
theories/Template.v
theories/TemplateSpec.v
theories/TemplateFacts.v
theories/PropTemplate.v
theories/Duration.v
theories/DurationSpec.v
theories/DurationFacts.v
theories/PropDuration.v
theories/RefSer.v
theories/RefSpec.v
theories/RefFacts.v
theories/RefDecode.v
theories/RefTrip.v
theories/PropRef.v
theories/Dates.v
theories/CalendarFacts.v
theories/DateSpec.v
theories/DateFacts.v
theories/DatePeriods.v
theories/DateMath.v
theories/DateMethods.v
theories/DateCalls.v
theories/DateDiff.v
theories/DateMore.v
theories/PropDates.v
theories/PropDateMath.v
theories/Convert.v
theories/ConvertSpec.v
theories/ConvertFacts.v
theories/PropJson.v
theories/VarType.v
theories/TypeSpec.v
theories/TypeFacts.v
theories/TypeMembers.v
theories/PropTypes.v
theories/Driver.v
theories/DriverSpec.v
theories/DriverFacts.v
theories/DriverRun.v
theories/PropPolicy.v
theories/Validate.v
theories/ValidateSpec.v
theories/ValidateFacts.v
theories/HydrateSpec.v
theories/HydrateFacts.v
theories/PropValidate.v
theories/Deps.v
theories/DepsSpec.v
theories/DepsFacts.v
theories/DepsClaims.v
theories/TextSpec.v
theories/ParseSane.v
theories/PropDeps.v
theories/KeepFacts.v
theories/KeepLib.v
theories/Blocks.v
theories/BlocksSpec.v
theories/AssertFacts.v
theories/BlocksFacts.v
theories/PropBlocks.v
theories/PolicyRun.v
theories/PolicySpec.v
theories/SolveFacts.v
theories/SolveRun.v
theories/SolveTwo.v
theories/PropSolve.v
theories/PTable.v
theories/PTableSpec.v
theories/PTableSel.v
theories/PTableRun.v
theories/PropPTable.v
theories/Lint.v
theories/LintSpec.v
theories/LintFacts.v
theories/PropLint.v
theories/ParenLint.v
theories/ParenSpec.v
theories/ParenValue.v
theories/ParenDrop.v
theories/ParenPlaces.v
theories/PropParen.v
theories/Infer.v
theories/InferSpec.v
theories/InferFits.v
theories/InferOps.v
theories/InferFacts.v
theories/ArgFacts.v
theories/PropInfer.v
theories/PGraph.v
theories/NeedSpec.v
theories/NeedFacts.v
theories/NeedRun.v
theories/NeedClaims.v
theories/PropNeed.v
theories/Conditional.v
theories/ConditionalSpec.v
theories/ConditionalFacts.v
theories/ConditionalRun.v
theories/ConditionalClaims.v
theories/PropConditional.v
theories/Workspace.v
theories/WorkspaceSpec.v
theories/WorkspaceMaps.v
theories/WorkspaceFacts.v
theories/WorkspaceGraphs.v
theories/WorkspaceRun.v
theories/PropWorkspace.v
theories/PreferMatch.v
theories/PreferSpec.v
theories/PreferFacts.v
theories/PropPrefer.v
theories/Iterate.v
theories/IterateSpec.v
theories/IterateFacts.v
theories/PropIterate.v
theories/Files.v
theories/FilesSpec.v
theories/FilesFacts.v
theories/PropFiles.v
theories/OldDates.v
theories/OldDatesFacts.v
theories/PropOldDates.v
theories/Conflicts.v
theories/ConflictsFacts.v
theories/PropConflicts.v
theories/Search.v
theories/SearchSpec.v
theories/SearchFacts.v
theories/SearchFacts2.v
theories/SearchFacts3.v
theories/PropSearch.v
theories/Repeat.v
theories/RepeatSpec.v
theories/RepeatFacts.v
theories/RepeatFacts2.v
theories/RepeatFacts3.v
theories/PropRepeat.v
theories/Schema.v
theories/SchemaSpec.v
theories/SchemaFacts.v
theories/SchemaFacts2.v
theories/SchemaFacts3.v
theories/SchemaFacts4.v
theories/SchemaFacts5.v
theories/PropSchema.v
theories/TsType.v
theories/TsSpec.v
theories/TsFacts.v
theories/TsFacts2.v
theories/PropTs.v
theories/Rename.v
theories/RenameSpec.v
theories/RenameFacts.v
theories/PropRename.v
