-Q theories Verif
theories/Base.v
theories/HashMapModel.v
theories/HashMapSpec.v
theories/HashMapProofs.v
theories/HashMapProps.v
theories/BitLemmas.v
theories/UnicodeModel.v
theories/UnicodeSpec.v
theories/UnicodeProofs.v
theories/UnicodeProps.v
theories/TextModel.v
theories/TextSpec.v
theories/TextProofs.v
theories/TextProps.v
theories/LexModel.v
theories/LexSpec.v
theories/LexProofs.v
theories/LexProps.v
theories/LitModel.v
theories/LitSpec.v
theories/LitProofs.v
theories/LitProps.v
theories/PpModel.v
theories/PpSpec.v
theories/PpProofs.v
theories/PpCondProofs.v
theories/PpMoreProofs.v
theories/PpSubstProofs.v
theories/PpProps.v
theories/TypeModel.v
theories/TypeSpec.v
theories/TypeProofs.v
theories/TypeProps.v
theories/LayoutModel.v
theories/LayoutSpec.v
theories/LayoutProofs.v
theories/LayoutProps.v
theories/IntArith.v
theories/NodeModel.v
theories/ValSpec.v
theories/NodeSpec.v
theories/EvalModel.v
theories/EvalSpec.v
theories/NodeProofs.v
theories/EvalProofs.v
theories/EvalProps.v
theories/FpSpec.v
theories/RvSpec.v
theories/GenModel.v
theories/GenSpec.v
theories/GenArith.v
theories/RvProofs.v
theories/GenBits.v
theories/GenRun.v
theories/GenBytes.v
theories/GenProofs.v
theories/GenSim.v
theories/GenShape.v
theories/GenProps.v
theories/StmtSpec.v
theories/StmtModel.v
theories/StmtTree.v
theories/StmtProofs.v
theories/StmtCode.v
theories/StmtProps.v
theories/FrameModel.v
theories/FrameSpec.v
theories/FrameArgs.v
theories/FrameProofs.v
theories/FrameProps.v
theories/FunSpec.v
theories/FunLabels.v
theories/FunProofs.v
theories/FunProps.v
theories/AllocaModel.v
theories/AllocaSpec.v
theories/AllocaProofs.v
theories/AllocaProps.v
theories/DrvModel.v
theories/DrvSpec.v
theories/DrvProofs.v
theories/DrvProps.v
theories/ScopeModel.v
theories/ScopeSpec.v
theories/ScopeProofs.v
theories/ScopeProps.v
theories/ElabSpec.v
theories/ElabProofs.v
theories/ElabSim.v
theories/ElabProps.v
theories/InitModel.v
theories/InitSpec.v
theories/InitProofs.v
theories/InitLocal.v
theories/DataModel.v
theories/DataSpec.v
theories/DataProofs.v
theories/InitProps.v
theories/ParseModel.v
theories/ParseSpec.v
theories/ParseProofs.v
theories/ParseGrammar.v
theories/ParseSound.v
theories/ParsePrint.v
theories/ParseProps.v
theories/AtomSpec.v
theories/AtomModel.v
theories/AtomProofs.v
theories/AtomRun.v
theories/AtomProps.v
theories/DeclModel.v
theories/DeclSpec.v
theories/DeclProofs.v
theories/DeclProps.v
theories/ListModel.v
theories/ListSpec.v
theories/ListProofs.v
theories/ListProps.v
theories/PlaceSpec.v
theories/PlaceProofs.v
theories/PlaceProps.v
theories/FrontModel.v
theories/FrontSpec.v
theories/FrontProofs.v
theories/FrontProps.v
theories/SpellSpec.v
theories/SpellProofs.v
theories/SourceModel.v
theories/SourceProofs.v
theories/SpellProps.v
theories/BlockModel.v
theories/BlockSpec.v
theories/BlockProofs.v
theories/BlockProps.v
theories/BodyModel.v
theories/BodySpec.v
theories/BodyRename.v
theories/BodyConst.v
theories/BodyStatic.v
theories/BodySim.v
theories/BodyProps.v
theories/ProgModel.v
theories/ProgSpec.v
theories/ProgVars.v
theories/ProgStatic.v
theories/ProgSim.v
theories/ProgProps.v
theories/ListMoreProps.v
theories/AtomWholeProps.v
theories/FloatSpec.v
theories/FloatProofs.v
theories/FloatRun.v
theories/FloatSim.v
theories/FloatProps.v
theories/FevalModel.v
theories/FevalSpec.v
theories/FevalProofs.v
theories/FevalProps.v
theories/FsrcSpec.v
theories/FsrcProofs.v
theories/FsrcSim.v
theories/FsrcProps.v
