-Q theories Verif
theories/IntModel.v
theories/IntSpec.v
theories/IntProofs.v
theories/IntProps.v
theories/BMap.v
theories/HeaderModel.v
theories/HeaderSpec.v
theories/HeaderProofs.v
theories/HeaderProps.v
theories/TagModel.v
theories/TagSpec.v
theories/TagProofs.v
theories/TagProps.v
theories/RegistryModel.v
theories/RegistrySpec.v
theories/RegistryProofs.v
theories/RegistryProps.v
theories/ScopeModel.v
theories/ScopeSpec.v
theories/ScopeProofs.v
theories/ScopeSymProofs.v
theories/ScopeProps.v
theories/PValModel.v
theories/PValSpec.v
theories/PValProofs.v
theories/PValProps.v
theories/SumModel.v
theories/SumSpec.v
theories/SumProofs.v
theories/SumProps.v
theories/PersistModel.v
theories/PersistSpec.v
theories/PersistProofs.v
theories/PersistProofs2.v
theories/PersistProps.v
theories/PassModel.v
theories/PassProps.v
theories/IdentModel.v
theories/IdentSpec.v
theories/IdentProofs.v
theories/IdentProps.v
theories/Graphs.v
theories/OrderModel.v
theories/OrderSpec.v
theories/OrderProofs.v
theories/OrderProps.v
theories/MangleModel.v
theories/MangleSpec.v
theories/MangleProofs.v
theories/MangleProps.v
theories/TypesModel.v
theories/TypesSpec.v
theories/TypesProofs.v
theories/TypesSubst.v
theories/TypesTransform.v
theories/TypesProps.v
theories/GraphModel.v
theories/GraphSpec.v
theories/GraphProofs.v
theories/GraphRemove.v
theories/GraphProps.v
theories/GraphBfs.v
theories/InsertModel.v
theories/InsertProofs.v
theories/InsertSpec.v
theories/InsertTree.v
theories/InsertForest.v
theories/InsertProps.v
theories/CanonModel.v
theories/CanonProofs.v
theories/CanonProps.v
theories/OpModel.v
theories/OpSpec.v
theories/OpProofs.v
theories/SeqProofs.v
theories/OpProps.v
theories/SerialModel.v
theories/SerialSpec.v
theories/SerialProofs.v
theories/SerialProps.v
theories/DeadModel.v
theories/DeadSpec.v
theories/DeadProofs.v
theories/DeadProps.v
theories/DeadFuncs.v
theories/DeadFuncsProps.v
theories/ValidModel.v
theories/ValidSpec.v
theories/ValidProofs.v
theories/ValidEdges.v
theories/ValidNodes.v
theories/ValidProps.v
theories/InlineModel.v
theories/InlineSpec.v
theories/InlineProofs.v
theories/InlineFacts.v
theories/InlineTree.v
theories/InlineProps.v
theories/NestModel.v
theories/NestSpec.v
theories/NestProofs.v
theories/NestDfs.v
theories/NestProps.v
theories/LlvmModel.v
theories/LlvmSpec.v
theories/LlvmProofs.v
theories/LlvmProps.v
theories/LayoutModel.v
theories/LayoutSpec.v
theories/LayoutProofs.v
theories/LayoutProps.v
theories/LinkModel.v
theories/LinkSpec.v
theories/LinkCheck.v
theories/LinkSwap.v
theories/LinkProofs.v
theories/LinkMerge.v
theories/LinkInsert.v
theories/LinkStrip.v
theories/LinkProps.v
theories/ReplaceModel.v
theories/ReplaceSpec.v
theories/ReplaceProofs.v
theories/ReplaceStages.v
theories/ReplaceMain.v
theories/SubgraphModel.v
theories/SubgraphProofs.v
theories/ReplaceValid.v
theories/SubgraphFacts.v
theories/ReplaceProps.v
theories/FloatModel.v
theories/FloatSpec.v
theories/FloatProofs.v
theories/FloatProps.v
theories/LogicModel.v
theories/LogicSpec.v
theories/LogicProps.v
theories/FlowModel.v
theories/FlowSpec.v
theories/FlowProofs.v
theories/FlowSound.v
theories/FlowProps.v
theories/TextModel.v
theories/TextSpec.v
theories/TextProofs.v
theories/TextTerm.v
theories/TextNode.v
theories/TextProps.v
theories/CollModel.v
theories/CollSpec.v
theories/CollProofs.v
theories/CollProps.v
theories/ResolveModel.v
theories/ResolveSpec.v
theories/ResolveProofs.v
theories/ResolveProps.v
theories/BinaryModel.v
theories/BinarySpec.v
theories/BinaryProofs.v
theories/BinaryProps.v
theories/BorrowModel.v
theories/BorrowSpec.v
theories/BorrowBits.v
theories/BorrowProofs.v
theories/BorrowRun.v
theories/BorrowProps.v
theories/EmitModel.v
theories/EmitSpec.v
theories/EmitGraph.v
theories/EmitGrow.v
theories/EmitRun.v
theories/EmitSim.v
theories/EmitProps.v
theories/NormModel.v
theories/NormProps.v
theories/MirrorProofs.v
theories/CullProofs.v
theories/CullProps.v
theories/FoldModel.v
theories/FoldSpec.v
theories/FoldGraph.v
theories/FoldSim.v
theories/FoldProofs.v
theories/FoldProps.v
theories/BuildModel.v
theories/BuildSpec.v
theories/BuildProofs.v
theories/BuildProps.v
theories/IncallModel.v
theories/IncallSpec.v
theories/IncallCopy.v
theories/IncallFacts.v
theories/RenameProofs.v
theories/IncallSim.v
theories/IncallProps.v
theories/MapioModel.v
theories/MapioSpec.v
theories/MapioProofs.v
theories/MapioMain.v
theories/MapioProps.v
theories/MapioSim.v
theories/MapioRun.v
theories/PatchModel.v
theories/PatchSpec.v
theories/PatchWire.v
theories/PatchDrop.v
theories/PatchProps.v
theories/OutlineModel.v
theories/OutlineSpec.v
theories/OutlineProofs.v
theories/OutlineProps.v
theories/OutlineEffect.v
theories/OutlineMain.v
theories/OutlineWorks.v
theories/MergeModel.v
theories/MergeSpec.v
theories/MergeProps.v
