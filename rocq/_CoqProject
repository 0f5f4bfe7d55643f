-Q theories Verif
theories/AsStridedGraphProofs.v
theories/AsStridedModel.v
theories/AsStridedProofs.v
theories/AsStridedProps.v
theories/AsStridedSpec.v
theories/ClassAnnModel.v
theories/ClassAnnProofs.v
theories/ClassAnnProps.v
theories/ClassAnnSpec.v
theories/DebugModel.v
theories/DebugProps.v
theories/DebugSpec.v
theories/DecBucketModel.v
theories/DecBucketProofs.v
theories/DecBucketProps.v
theories/DecCompactModel.v
theories/DecCompactProofs.v
theories/DecCompactProps.v
theories/DecCompactSpec.v
theories/DecElemModel.v
theories/DecElemProofs.v
theories/DecElemProps.v
theories/DecElemSpec.v
theories/DecFillModel.v
theories/DecFillProofs.v
theories/DecFillProps.v
theories/DecFillSpec.v
theories/DecIndexModel.v
theories/DecIndexProofs.v
theories/DecIndexProps.v
theories/DecIndexSpec.v
theories/DecMoveModel.v
theories/DecMoveProofs.v
theories/DecMoveProps.v
theories/DecMoveSpec.v
theories/DecNmsModel.v
theories/DecNmsProofs.v
theories/DecNmsProps.v
theories/DecReduceModel.v
theories/DecReduceProofs.v
theories/DecReduceProps.v
theories/DecReshapeModel.v
theories/DecReshapeProofs.v
theories/DecReshapeProps.v
theories/DecReshapeSpec.v
theories/DecTopkModel.v
theories/DecTopkProofs.v
theories/DecTopkProps.v
theories/DecTriModel.v
theories/DecTriProofs.v
theories/DecTriProps.v
theories/DecTriSpec.v
theories/DecWindowModel.v
theories/DecWindowProofs.v
theories/DecWindowProps.v
theories/DecWindowSpec.v
theories/DtypeFnModel.v
theories/DtypeFnProps.v
theories/DtypeFnSpec.v
theories/DtypeModel.v
theories/DtypeProps.v
theories/DtypeSpec.v
theories/DynFxModel.v
theories/DynFxProps.v
theories/DynFxSpec.v
theories/EinsumModel.v
theories/EinsumProofs.v
theories/EinsumProps.v
theories/EinsumSpec.v
theories/EntryModel.v
theories/EntryProps.v
theories/FoldCompareModel.v
theories/FoldCompareProps.v
theories/FoldFloatModel.v
theories/FoldFloatProps.v
theories/FoldListModel.v
theories/FoldListProps.v
theories/FoldModel.v
theories/FoldNaryModel.v
theories/FoldNaryProps.v
theories/FoldProps.v
theories/FoldSliceProps.v
theories/FoldTensorModel.v
theories/FoldTensorProps.v
theories/FoldTensorSpec.v
theories/FxFlexModel.v
theories/FxFlexProps.v
theories/FxFrozenModel.v
theories/FxFrozenProps.v
theories/FxFuncTypeProps.v
theories/FxGraphCanon.v
theories/FxGraphModel.v
theories/FxGraphProofs.v
theories/FxGraphProps.v
theories/FxGraphSpec.v
theories/FxGraphSsa.v
theories/FxGraphTotal.v
theories/FxGraphTrace.v
theories/FxLiteralModel.v
theories/FxLiteralProps.v
theories/FxMiscModel.v
theories/FxMiscProps.v
theories/FxMiscSpec.v
theories/FxNameProps.v
theories/FxProgramLoads.v
theories/FxProgramModel.v
theories/FxProgramProofs.v
theories/FxProgramProps.v
theories/FxProgramRun.v
theories/FxProgramSpec.v
theories/FxScalarProps.v
theories/GenTextModel.v
theories/GenTextProofs.v
theories/GenTextProps.v
theories/GenTextSpec.v
theories/GlobalizeGraph.v
theories/GlobalizeModel.v
theories/GlobalizeNames.v
theories/GlobalizeProofs.v
theories/GlobalizeProps.v
theories/GlobalizeSpec.v
theories/GraphVerifyModel.v
theories/GraphVerifyProps.v
theories/HarnessModel.v
theories/HarnessProps.v
theories/HarnessRunProps.v
theories/HarnessSpec.v
theories/IValueModel.v
theories/IValueProofs.v
theories/IValueProps.v
theories/IValueSpec.v
theories/IfLoopModel.v
theories/IfLoopProofs.v
theories/IfLoopProps.v
theories/IfLoopSpec.v
theories/InlineSlotsHeap.v
theories/InlineSlotsModel.v
theories/InlineSlotsProofs.v
theories/InlineSlotsProps.v
theories/InlineSlotsSpec.v
theories/InvocModel.v
theories/InvocProofs.v
theories/InvocProps.v
theories/InvocSpec.v
theories/JitTypesModel.v
theories/JitTypesProps.v
theories/JitTypesSpec.v
theories/ListInterpModel.v
theories/ListInterpProofs.v
theories/ListInterpProps.v
theories/ListInterpSpec.v
theories/LtcListProps.v
theories/LtcModel.v
theories/LtcProps.v
theories/NodeModel.v
theories/NodeProofs.v
theories/NodeProps.v
theories/NodeScope.v
theories/NodeShape.v
theories/NodeSpec.v
theories/NodeTotal.v
theories/NumOps.v
theories/OdsModel.v
theories/OdsProofs.v
theories/OdsProps.v
theories/OdsSpec.v
theories/OnnxFuncModel.v
theories/OnnxFuncProps.v
theories/OnnxModel.v
theories/OnnxProps.v
theories/OnnxSpec.v
theories/OnnxToolModel.v
theories/OnnxToolProps.v
theories/OnnxTypesModel.v
theories/OnnxTypesProps.v
theories/OnnxTypesSpec.v
theories/OverlayModel.v
theories/OverlayProps.v
theories/Prelude.v
theories/ReduceConvert.v
theories/ReduceExpand.v
theories/ReduceModel.v
theories/ReduceProofs.v
theories/ReduceProps.v
theories/ReduceSpec.v
theories/RegSigModel.v
theories/RegSigProofs.v
theories/RegSigProps.v
theories/RegSigSpec.v
theories/RegistryModel.v
theories/RegistryProps.v
theories/RegistrySpec.v
theories/ReifyModel.v
theories/ReifyProps.v
theories/ReifySpec.v
theories/ReturnModel.v
theories/ReturnProofs.v
theories/ReturnProps.v
theories/ReturnSpec.v
theories/RunModel.v
theories/RunProps.v
theories/RunSpec.v
theories/ShapeAxisProps.v
theories/ShapeBroadcastProps.v
theories/ShapeCatProps.v
theories/ShapeConvProps.v
theories/ShapeCoreModel.v
theories/ShapeCoreProofs.v
theories/ShapeCoreSpec.v
theories/ShapeDiagProps.v
theories/ShapeDimProps.v
theories/ShapeFlatProps.v
theories/ShapeIndexProps.v
theories/ShapeLossProps.v
theories/ShapeMatProps.v
theories/ShapeMiscModel.v
theories/ShapeMiscSpec.v
theories/ShapeMoreModel.v
theories/ShapeMoreSpec.v
theories/ShapePadProps.v
theories/ShapePermProps.v
theories/ShapePoolModel.v
theories/ShapePoolProps.v
theories/ShapePoolSpec.v
theories/ShapeProdProps.v
theories/ShapeResizeProps.v
theories/ShapeTableProps.v
theories/ShapeTriProps.v
theories/ShapeVerifyModel.v
theories/ShapeVerifyProps.v
theories/ShapeVerifySpec.v
theories/ShapeViewProps.v
theories/ShapeWindowProps.v
theories/SymShapeModel.v
theories/SymShapeProofs.v
theories/SymShapeProps.v
theories/SymShapeSpec.v
theories/TensorOps.v
theories/TypesModel.v
theories/TypesPrintProps.v
theories/TypesProps.v
theories/TypesSpec.v
theories/ValueSemApplies.v
theories/ValueSemBlock.v
theories/ValueSemModel.v
theories/ValueSemProofs.v
theories/ValueSemProps.v
theories/ValueSemSim.v
theories/ValueSemSpec.v
theories/ValueSemTyping.v
theories/VecOps.v
