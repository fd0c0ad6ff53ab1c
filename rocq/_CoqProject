-Q theories Verif
theories/Base.v
theories/BlankProofs.v
theories/Blocks.v
theories/BuildKeys.v
theories/BuildProofs.v
theories/BuildSystem.v
theories/BuilderPack.v
theories/CallBaselines.v
theories/CallProofs.v
theories/CallSequence.v
theories/CallSpec.v
theories/CallTheorems.v
theories/CallWorth.v
theories/Combine.v
theories/CombinePaths.v
theories/CombineProofs.v
theories/CombineSpec.v
theories/CombineStats.v
theories/CombineTheorems.v
theories/ConstraintDag.v
theories/ConstraintPack.v
theories/ConstraintProofs.v
theories/ConstraintSpec.v
theories/Convert.v
theories/ConvertApi.v
theories/ConvertLayout.v
theories/ConvertLists.v
theories/ConvertPaths.v
theories/ConvertProofs.v
theories/ConvertSuccess.v
theories/CostDerivation.v
theories/DebugSpec.v
theories/DebugView.v
theories/Decisions.v
theories/DesugarProofs.v
theories/DesugarShape.v
theories/DocSpec.v
theories/DocstringProofs.v
theories/Docstrings.v
theories/DrawBounds.v
theories/DrawSpec.v
theories/Drawing.v
theories/DrawingProofs.v
theories/DualApi.v
theories/DualCommit.v
theories/DualFeasible.v
theories/DualGreedy.v
theories/DualInvariant.v
theories/DualLists.v
theories/DualOps.v
theories/DualPaths.v
theories/DualRun.v
theories/DualSolver.v
theories/DualSpec.v
theories/DualSweeps.v
theories/DualUpdates.v
theories/EditComplete.v
theories/EditDag.v
theories/EditOrder.v
theories/EditProofs.v
theories/EditReport.v
theories/EditReportProofs.v
theories/EditScript.v
theories/EditSound.v
theories/EditSpec.v
theories/EditTheorems.v
theories/EditView.v
theories/Ensemble.v
theories/Evaluation.v
theories/ExitProofs.v
theories/ExitSuggestion.v
theories/GatedDag.v
theories/GatedDagRewrite.v
theories/Graph.v
theories/HeapFrame.v
theories/HeapMatch.v
theories/HeapMatchProofs.v
theories/HeapNestProofs.v
theories/HeapProofs.v
theories/HeapSplitProofs.v
theories/HeapTree.v
theories/HeapYieldProofs.v
theories/Html.v
theories/LayoutBoxes.v
theories/LayoutConstraint.v
theories/LayoutEdges.v
theories/LayoutEdit.v
theories/LayoutFrames.v
theories/LayoutProofs.v
theories/LayoutSelection.v
theories/LayoutSpec.v
theories/Layouts.v
theories/LexSpec.v
theories/Lexer.v
theories/LexerProofs.v
theories/LexerPython.v
theories/LineProofs.v
theories/LinkSpec.v
theories/MapDag.v
theories/MoreOptions.v
theories/NestProofs.v
theories/NumbaBuild.v
theories/NumbaProofs.v
theories/NumbaSpec.v
theories/Numbered.v
theories/PackedDag.v
theories/PackedDagProofs.v
theories/PackedScale.v
theories/PackedSeq.v
theories/PackedSeqProofs.v
theories/PackedTables.v
theories/ParseShape.v
theories/ParserTools.v
theories/ParserToolsProofs.v
theories/PrefixBaselines.v
theories/PrefixProofs.v
theories/PrefixTheorems.v
theories/PriceProofs.v
theories/PrintSpec.v
theories/Properties_Baselines.v
theories/Properties_Bounds.v
theories/Properties_CallPrices.v
theories/Properties_CallWorth.v
theories/Properties_Calls.v
theories/Properties_Debug.v
theories/Properties_DirectCalls.v
theories/Properties_Docstrings.v
theories/Properties_Drawing.v
theories/Properties_Dual.v
theories/Properties_Edit.v
theories/Properties_EndToEnd.v
theories/Properties_Evaluate.v
theories/Properties_Exit.v
theories/Properties_Gated.v
theories/Properties_Heap.v
theories/Properties_Layout.v
theories/Properties_NoBaseline.v
theories/Properties_Numba.v
theories/Properties_NumbaShow.v
theories/Properties_Options.v
theories/Properties_Order.v
theories/Properties_Packed.v
theories/Properties_Parse.v
theories/Properties_ParserTools.v
theories/Properties_Prices.v
theories/Properties_Print.v
theories/Properties_RawBaselines.v
theories/Properties_RawText.v
theories/Properties_RawWorth.v
theories/Properties_Reformat.v
theories/Properties_RegionBaselines.v
theories/Properties_RegionParameters.v
theories/Properties_Regions.v
theories/Properties_Report.v
theories/Properties_RunBaselines.v
theories/Properties_Selection.v
theories/Properties_Show.v
theories/Properties_SimpleAnnotator.v
theories/Properties_Tracebacks.v
theories/Properties_Tree.v
theories/Properties_Visible.v
theories/Properties_Wrappers.v
theories/PseudoParse.v
theories/PseudoParseProofs.v
theories/RegionBaselineProofs.v
theories/RegionBaselineSolve.v
theories/RegionBaselines.v
theories/RegionDecisions.v
theories/RegionParameters.v
theories/RegionProofs.v
theories/RunBaselineProofs.v
theories/RunBaselines.v
theories/Search.v
theories/SelectionDag.v
theories/SelectionPaths.v
theories/SelectionProofs.v
theories/SelectionReport.v
theories/SelectionReportProofs.v
theories/SelectionSpec.v
theories/SelectionTheorems.v
theories/SelectionVerdicts.v
theories/SeqNodes.v
theories/Show.v
theories/ShowCalls.v
theories/ShowProofs.v
theories/ShowSpec.v
theories/ShowTokens.v
theories/SimpleAnnotator.v
theories/StackParser.v
theories/StackParserProofs.v
theories/Subtokenizer.v
theories/SystemSpec.v
theories/TokenProb.v
theories/Tracebacks.v
theories/Transforms.v
theories/TreePlaces.v
theories/TreePrint.v
theories/UtilityBounds.v
theories/WalkOrder.v
