-Q theories Verif
theories/Prelude.v
theories/VectorModel.v
theories/VectorSpec.v
theories/VectorRun.v
theories/VectorProofs.v
theories/VectorProps.v
theories/ItemModel.v
theories/ItemSpec.v
theories/ItemProofs.v
theories/ItemProps.v
theories/Utf8Model.v
theories/Utf8Spec.v
theories/Utf8Proofs.v
theories/Utf8Props.v
theories/UniioModel.v
theories/UniioSpec.v
theories/UniioProofs.v
theories/UniioProps.v
theories/StringsModel.v
theories/StringsSpec.v
theories/StringsRun.v
theories/StringsProofs.v
theories/StringsProps.v
theories/MapModel.v
theories/MapSpec.v
theories/MapProofs.v
theories/MapProps.v
theories/LVec.v
theories/HashModel.v
theories/HashSpec.v
theories/HashProofs.v
theories/HashProps.v
theories/StorageModel.v
theories/StorageSpec.v
theories/StorageProofs.v
theories/StorageProps.v
theories/ComputerModel.v
theories/ComputerSpec.v
theories/ComputerProofs.v
theories/ComputerProps.v
theories/EtextModel.v
theories/EtextSpec.v
theories/EtextProofs.v
theories/EtextBad.v
theories/EtextProps.v
theories/TreeModel.v
theories/TreeSpec.v
theories/TreeShape.v
theories/TreeProofs.v
theories/TreeEdit.v
theories/TreeMove.v
theories/TreeCut.v
theories/TreeRun.v
theories/TreeSteps.v
theories/TreeProps.v
theories/LexModel.v
theories/LexText.v
theories/LexProofs.v
theories/LexMono.v
theories/LexStep.v
theories/LexWord.v
theories/LexSpec.v
theories/LexFacts.v
theories/LexRun.v
theories/LexHistory.v
theories/LexEnd.v
theories/LexProps.v
theories/TypesModel.v
theories/TypesSpec.v
theories/TypesProofs.v
theories/TypesEqual.v
theories/TypesAdd.v
theories/TypesDenote.v
theories/TypesHistory.v
theories/TypesParts.v
theories/TypesFacts.v
theories/TypesProps.v
theories/IdentModel.v
theories/IdentSpec.v
theories/IdentRun.v
theories/IdentTable.v
theories/IdentProofs.v
theories/IdentSteps.v
theories/IdentHistory.v
theories/IdentFacts.v
theories/IdentProps.v
theories/ParseModel.v
theories/ParseSpec.v
theories/ParseFuel.v
theories/ParseProofs.v
theories/ParseBack.v
theories/ParseSkip.v
theories/ParseProps.v
theories/StmtModel.v
theories/StmtSpec.v
theories/StmtProofs.v
theories/StmtTexts.v
theories/StmtEnds.v
theories/StmtScope.v
theories/StmtProps.v
theories/StmtEnv.v
theories/DeclModel.v
theories/DeclSpec.v
theories/DeclProofs.v
theories/DeclEnds.v
theories/DeclFaults.v
theories/DeclProps.v
theories/DeclTexts.v
theories/DeclUnits.v
theories/DeclTextProps.v
theories/BuildModel.v
theories/BuildSpec.v
theories/BuildFold.v
theories/BuildAssign.v
theories/BuildProps.v
theories/BuildTypeSpec.v
theories/BuildType.v
theories/BuildTypeProps.v
theories/InstrModel.v
theories/CodeModel.v
theories/VmSpec.v
theories/CodeSpec.v
theories/CodeExpr.v
theories/CodeRun.v
theories/CodeStmt.v
theories/CodeEmit.v
theories/CodeSim.v
theories/CodeProofs.v
theories/CodeInterp.v
theories/CodeProps.v
theories/InstrSpec.v
theories/InstrProps.v
theories/ExportSpec.v
theories/ExportProofs.v
theories/ExportProps.v
theories/LinkSpec.v
theories/LinkProofs.v
theories/LinkProps.v
theories/StoreSpec.v
theories/StoreProofs.v
theories/StoreStmt.v
theories/StoreUnit.v
theories/StoreProps.v
theories/WsSpec.v
theories/WsModel.v
theories/WsProofs.v
theories/WsProps.v
theories/ReportSpec.v
theories/ReportModel.v
theories/ReportProofs.v
theories/ReportProps.v
theories/MacroModel.v
theories/MacroSpec.v
theories/MacroSkip.v
theories/MacroProofs.v
theories/MacroRun.v
theories/MacroInv.v
theories/MacroEnd.v
theories/MacroTerm.v
theories/MacroHang.v
theories/MacroNest.v
theories/MacroStray.v
theories/MacroMain.v
theories/MacroExpand.v
theories/MacroDefine.v
theories/MacroBody.v
theories/MacroProps.v
theories/StrzModel.v
theories/StrzSpec.v
theories/StrzProofs.v
theories/StrzProps.v
theories/LocModel.v
theories/LocSpec.v
theories/LocProofs.v
theories/LocEmit.v
theories/LocProps.v
theories/LogModel.v
theories/LogSpec.v
theories/LogProofs.v
theories/LogProps.v
theories/IncSpec.v
theories/IncModel.v
theories/IncProofs.v
theories/IncProps.v
theories/StmtAccept.v
theories/StmtBack.v
theories/DeclAccept.v
theories/DeclBack.v
theories/AcceptBlocks.v
theories/UnitBack.v
theories/AcceptProps.v
theories/FlagModel.v
theories/FlagSpec.v
theories/FlagProofs.v
theories/FlagProps.v
theories/CommentModel.v
theories/CommentSpec.v
theories/CommentProofs.v
theories/CommentProps.v
theories/MipsModel.v
theories/MipsSpec.v
theories/MipsProofs.v
theories/MipsProps.v
theories/LabelModel.v
theories/LabelSpec.v
theories/LabelProofs.v
theories/LabelCase.v
theories/LabelProps.v
theories/FlowSpec.v
theories/FlowProofs.v
theories/FlowProps.v
