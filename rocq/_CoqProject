-Q theories Verif
theories/Base.v
theories/Lexical.v
theories/SymExecModel.v
theories/AsmModel.v
theories/MachineSpec.v
theories/GreedyTailModel.v
theories/FootprintSpec.v
theories/LexicalProofs.v
theories/CheckerProofs.v
theories/CheckerSim.v
theories/GreedyTailProofs.v
theories/CheckerProps.v
theories/DepsModel.v
theories/DepsSpec.v
theories/DepsProofs.v
theories/DepsProps.v
theories/SpecModel.v
theories/SpecSem.v
theories/SpecProofs.v
theories/SpecBuild.v
theories/SpecSound.v
theories/SpecDce.v
theories/SpecDeps.v
theories/SpecCheck.v
theories/SpecProps.v
theories/UtilModel.v
theories/UtilProps.v
theories/LevelProps.v
theories/WebModel.v
theories/WebProps.v
theories/GraphModel.v
theories/GraphProps.v
theories/LayoutModel.v
theories/LayoutProps.v
theories/UnifyModel.v
theories/UnifyProps.v
theories/LiveModel.v
theories/CfgModel.v
theories/CfgSpec.v
theories/CfgProps.v
theories/ParseProps.v
theories/CombineProps.v
theories/MergePassProps.v
theories/RemoveProps.v
theories/LiveSpec.v
theories/LiveProps.v
theories/LiveLoop.v
theories/LiveTheorems.v
theories/RenameModel.v
theories/RenameProps.v
theories/InlineModel.v
theories/InlineProps.v
theories/InlineWalks.v
theories/InlineExamples.v
theories/RegModel.v
theories/RegSpec.v
theories/RegProps.v
theories/RegExamples.v
theories/RegSlots.v
theories/MemSpec.v
theories/RegCopies.v
theories/RuleModel.v
theories/RuleSpec.v
theories/RuleProps.v
theories/EmitModel.v
theories/EmitSpec.v
theories/EmitProps.v
theories/EmitExamples.v
theories/PermutModel.v
theories/PermutProps.v
theories/PermutExamples.v
theories/PlaceModel.v
theories/PlaceSpec.v
theories/PlaceBlock.v
theories/PlaceTree.v
theories/PlaceCover.v
theories/PlaceRepair.v
theories/PlaceProps.v
theories/BlockSpec.v
theories/BlockProofs.v
theories/BlockProps.v
theories/ProgSem.v
theories/RegsSpec.v
theories/RegsSim.v
theories/RegsBlock.v
theories/ProgSpec.v
theories/ProgBlock.v
theories/ProgLayout.v
theories/ProgProofs.v
theories/ProgProps.v
theories/ProgExample.v
theories/LayoutGenModel.v
theories/LayoutGenSpec.v
theories/LayoutGenUnify.v
theories/LayoutGenProofs.v
theories/LayoutGenTotal.v
theories/LayoutGenProps.v
theories/LayoutGenProg.v
theories/JumpModel.v
theories/JumpSpec.v
theories/JumpTrace.v
theories/JumpProofs.v
theories/JumpInsert.v
theories/JumpSplit.v
theories/JumpObject.v
theories/JumpProps.v
theories/JumpExamples.v
theories/ObjSem.v
theories/ObjSim.v
theories/ObjSplit.v
theories/ObjErase.v
theories/ObjProgram.v
theories/ObjProg.v
theories/ObjProps.v
theories/ObjExamples.v
theories/CombineModel.v
theories/ObjCombineSpec.v
theories/ObjCombine.v
theories/ObjFit.v
theories/ObjCombineProps.v
theories/ObjCombineExamples.v
theories/LayoutSpread.v
theories/PhiRepairSpec.v
theories/PhiRepair.v
theories/PhiRepairProps.v
theories/ObjRenameModel.v
theories/ObjRenameSpec.v
theories/ObjRename.v
theories/ObjRenameProps.v
theories/ObjSsaSpec.v
theories/ObjInlineModel.v
theories/ObjSsa.v
theories/ObjDriverSpec.v
theories/InlineReturn.v
theories/InlineDriverModel.v
theories/ObjLayoutSpec.v
theories/ObjInline.v
theories/ObjDriver.v
theories/ObjInlineProps.v
theories/ObjDriverProps.v
theories/PhiArity.v
theories/ObjFrontModel.v
theories/ObjFront.v
theories/ObjFrontProps.v
theories/ConstModel.v
theories/ConstSpec.v
theories/ConstProps.v
theories/CompileSpec.v
theories/CompileOrigin.v
theories/CompileProofs.v
theories/CompileProps.v
theories/CompileCheck.v
theories/CompileExample.v
theories/RecursionProps.v
theories/SearchModel.v
theories/SearchSpec.v
theories/SearchProofs.v
theories/SearchProps.v
theories/StoreSpec.v
theories/SearchOrder.v
theories/TargetModel.v
theories/TargetSpec.v
theories/TargetProofs.v
theories/TargetProps.v
theories/SearchIds.v
theories/GenModel.v
theories/GenSpec.v
theories/GenProofs.v
theories/GenProps.v
theories/GenCompile.v
theories/GenLayout.v
theories/ImportModel.v
theories/ImportSpec.v
theories/ImportProofs.v
theories/ImportText.v
theories/ImportProps.v
theories/ParseModel.v
theories/ParseSpec.v
theories/ParseProofs.v
theories/ParseTranslate.v
theories/ParseComponent.v
theories/ParseSim.v
theories/ParseFile.v
theories/ParseCompile.v
theories/ParseReady.v
theories/ReadyExample.v
theories/SourceSpec.v
theories/ParseSource.v
theories/SourceCompile.v
theories/SourceExample.v
theories/OrderModel.v
theories/OrderSpec.v
theories/OrderProofs.v
theories/OrderProps.v
theories/CostModel.v
theories/CostSpec.v
theories/CostProofs.v
theories/CostSums.v
theories/CostProps.v
theories/DomModel.v
theories/DomSpec.v
theories/DomProofs.v
theories/DomProps.v
theories/LocalConstModel.v
theories/LocalConstSpec.v
theories/LocalConstProofs.v
theories/LocalConstProps.v
