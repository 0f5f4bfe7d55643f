# Design of the formal model

Target: llvm/torch-mlir at the commit pinned in `/repo`. Prover: Rocq/Coq 8.16.1, standard library only.
Sources are in `rocq/theories/` (logical root `Verif`), one group of files per area:

* `<Area>Model.v`: the code, function by function. Every definition cites its file and lines.
* `<Area>Spec.v`: what the code should do, stated without the functions of the model (where a specification
  is a few lines long it sits at the top of the `Props` file instead).
* `<Area>Props.v`: lemmas, the theorems named in `MANIFEST.json` (`Cnn_...`), a non-vacuity `Example` for each
  property, and `Print Assumptions`.
* `Prelude.v`: option monad, Python indexing, `range`, list updates, products.

## Conventions

* A Python exception, a failed assertion, a C++ `failure()`, a fatal error and a pattern that does not match are values
  (`None`). Theorems of the form "f x = Some y <-> spec x y" therefore say exactly when the code raises.
* Integers are `Z` (Python's integers). int64 overflow in compiled code is not modelled except where a definition says so.
* Python lists, tuples and MLIR ranges are lists; dictionaries are association lists; sets are lists without order.
* Loops are structural recursions, folds or `mapM`/`foldM` over the iterated list. There is no fuel except where the
  program itself recurses on something that need not be finite; then the theorem is about the runs that end.
* Operators of PyTorch are uninterpreted functions in the semantics of graphs: the theorems hold for every meaning of them.
* `..._refuted`: a concrete run of the model on which the English property fails as written in the code; these are findings
  about the code and the English statement lists the case as an exception.
* `..._partial`: part of a property; what is missing is said in the statement and in the comment above the theorem.

## Method

Three shapes of theorem are used, always without a bound on sizes.

1. Simulation. The importers (FX, frozen FX, dynamo, ONNX) get a semantics of the source graph (by-name evaluation with
   uninterpreted operators) and a semantics of the emitted operations (SSA environment). An invariant relates the value table
   of the importer to both environments; import is an induction over the list of nodes.
2. Characterisation. Shape and dtype functions, type functions, name manglers, option parsers: `f x = Some y` if and only if an
   independent relation holds (index sets, window positions, the promotion order, the language of names).
3. Histories. Caches, trackers, symbol tables and harness state: a fold over a list of operations keeps an invariant, and the
   answer to the last operation is the one a stateless specification gives for the whole history.

## Properties

138 properties, 1350 theorems. A property is marked partial when one of its theorems is `_partial` or `_refuted`.

| Id | Property | Status | Theorems in | Model and specification | Theorems |
|---|---|---|---|---|---|
| C01 | Rewritten as_strided reads the right elements | partial | AsStridedProps | AsStridedModel, AsStridedSpec | 3 (0 partial, 2 refuted) |
| C02 | as_strided is never refused on a dense row-major base | partial | AsStridedProps | AsStridedModel, AsStridedSpec | 3 (1 partial, 1 refuted) |
| C03 | The as_strided rewrite changes nothing else in the graph | proved | AsStridedProps | AsStridedModel, AsStridedSpec | 2 (0 partial, 0 refuted) |
| C04 | Symbolic dimension expressions keep their value | proved | SymShapeProps | SymShapeModel, SymShapeSpec | 3 (0 partial, 0 refuted) |
| C05 | bind_symbolic_shape describes the tensor's true shape | proved | SymShapeProps | SymShapeModel, SymShapeSpec | 3 (0 partial, 0 refuted) |
| C06 | Symbolic range guards never exclude an admissible size | partial | SymShapeProps | SymShapeModel, SymShapeSpec | 7 (0 partial, 2 refuted) |
| C07 | Importing an FX graph preserves its meaning | proved | FxGraphProps | FxGraphModel, FxGraphSpec | 11 (0 partial, 0 refuted) |
| C08 | Imported blocks are in SSA form | proved | FxGraphProps, FxProgramProps | FxGraphModel, FxGraphSpec, FxProgramModel, FxProgramSpec | 2 (0 partial, 0 refuted) |
| C09 | Parameters, buffers and constants are materialised at most once and only when used | proved | FxProgramProps | FxGraphModel, FxGraphSpec, FxProgramModel, FxProgramSpec | 4 (0 partial, 0 refuted) |
| C10 | Mutated user inputs end up holding the final value | partial | FxProgramProps | FxGraphModel, FxGraphSpec, FxProgramModel, FxProgramSpec | 5 (0 partial, 1 refuted) |
| C11 | Two mutations with the same producer are both performed | partial | FxProgramProps | FxGraphModel, FxGraphSpec, FxProgramModel, FxProgramSpec | 2 (0 partial, 2 refuted) |
| C12 | User outputs are returned in order | partial | FxProgramProps | FxGraphModel, FxGraphSpec, FxProgramModel, FxProgramSpec | 4 (0 partial, 1 refuted) |
| C13 | Comparisons and arithmetic on mixed symbolic int/float keep operand order | partial | FxScalarProps | FxMiscModel, FxMiscSpec | 5 (2 partial, 3 refuted) |
| C14 | Operator calls are completed to the full schema | partial | FxGraphProps | FxGraphModel, FxGraphSpec | 6 (0 partial, 1 refuted) |
| C15 | getitem selects the right result | proved | FxGraphProps | FxGraphModel, FxGraphSpec | 3 (0 partial, 0 refuted) |
| C16 | Imported while loops iterate as the source loop | partial | FxScalarProps | FxMiscModel, FxMiscSpec | 7 (1 partial, 2 refuted) |
| C17 | Object identity tracking gives one constant per tensor | partial | FxMiscProps | FxMiscModel, FxMiscSpec | 5 (2 partial, 1 refuted) |
| C18 | Type-dispatch table resolves every subclass consistently | partial | FxMiscProps | FxMiscModel, FxMiscSpec | 4 (1 partial, 1 refuted) |
| C19 | Sparse encodings describe the tensor's layout | partial | FxMiscProps | FxMiscModel, FxMiscSpec | 6 (2 partial, 1 refuted) |
| C20 | Functions imported for sub-modules get distinct symbol names | partial | FxNameProps | FxMiscModel, FxMiscSpec | 9 (1 partial, 3 refuted) |
| C21 | Tensor types are cached by all that determines them | proved | FxNameProps | FxMiscModel, FxMiscSpec | 4 (0 partial, 0 refuted) |
| C22 | Importing an ONNX graph preserves its meaning | proved | OnnxProps | OnnxModel, OnnxSpec | 2 (0 partial, 0 refuted) |
| C23 | Elided initializers become constants, other inputs become arguments | proved | OnnxProps | OnnxModel, OnnxSpec | 2 (0 partial, 0 refuted) |
| C24 | Value types are found with a fixed precedence | proved | OnnxTypesProps | DtypeModel, OnnxModel, OnnxSpec, OnnxTypesModel, OnnxTypesSpec, TypesModel | 4 (0 partial, 0 refuted) |
| C25 | Subgraph names shadow outer names | partial | OnnxProps | OnnxModel, OnnxSpec | 2 (1 partial, 1 refuted) |
| C26 | Function-based operators are expanded once per signature and version | partial | OnnxFuncProps | OnnxFuncModel, OnnxModel, OnnxSpec | 8 (0 partial, 2 refuted) |
| C27 | Sanitised names are legal identifiers | partial | OnnxTypesProps | DtypeModel, OnnxModel, OnnxSpec, OnnxTypesModel, OnnxTypesSpec, TypesModel | 4 (0 partial, 1 refuted) |
| C28 | Broadcast shape is the common shape of aligned indices | proved | ShapeBroadcastProps | ShapeCoreModel, ShapeCoreSpec | 8 (0 partial, 0 refuted) |
| C29 | Dimension wrapping accepts exactly [-rank, rank) | proved | ShapeBroadcastProps | ShapeCoreModel, ShapeCoreSpec | 2 (0 partial, 0 refuted) |
| C30 | expand/broadcast_to produce the requested size | partial | ShapeBroadcastProps | ShapeCoreModel, ShapeCoreSpec | 3 (0 partial, 1 refuted) |
| C31 | view/reshape keep the number of elements | proved | ShapeViewProps | ShapeCoreModel, ShapeCoreSpec | 3 (0 partial, 0 refuted) |
| C32 | Slice size counts the selected indices | partial | ShapeViewProps | ShapeCoreModel, ShapeCoreSpec | 6 (1 partial, 3 refuted) |
| C33 | Matrix-multiplication shapes | partial | ShapeMatProps | ShapeCoreModel, ShapeCoreSpec | 11 (1 partial, 1 refuted) |
| C34 | Concatenation and stacking shapes | proved | ShapeAxisProps, ShapeCatProps | ShapeCoreModel, ShapeCoreSpec, ShapeMiscModel, ShapeMiscSpec | 9 (0 partial, 0 refuted) |
| C35 | Permutation-like ops re-index dimensions | partial | ShapeAxisProps, ShapeDimProps, ShapePermProps | ShapeCoreModel, ShapeCoreSpec, ShapeMiscModel, ShapeMiscSpec | 9 (1 partial, 1 refuted) |
| C36 | Reductions remove or flatten exactly the reduced dims | partial | ShapeAxisProps, ShapeDimProps | ShapeCoreModel, ShapeCoreSpec, ShapeMiscModel, ShapeMiscSpec | 9 (0 partial, 1 refuted) |
| C37 | Pooling output size counts window positions | partial | ShapePoolProps | ShapeCoreModel, ShapeCoreSpec, ShapeMiscModel, ShapePoolModel, ShapePoolSpec | 17 (3 partial, 4 refuted) |
| C38 | Default pooling stride is the kernel size | partial | ShapePoolProps | ShapeCoreModel, ShapeCoreSpec, ShapeMiscModel, ShapePoolModel, ShapePoolSpec | 4 (1 partial, 1 refuted) |
| C39 | Convolution output sizes | partial | ShapeConvProps | ShapeCoreModel, ShapeCoreSpec, ShapeMiscModel, ShapePoolModel, ShapePoolSpec | 10 (0 partial, 2 refuted) |
| C40 | Flatten/collapse/split/unflatten keep element count | partial | ShapeFlatProps | ShapeCoreModel, ShapeCoreSpec, ShapeMiscModel, ShapeMiscSpec | 13 (0 partial, 1 refuted) |
| C41 | triu_indices/tril_indices count the triangle | partial | ShapeTriProps | ShapeMiscModel, ShapeMiscSpec | 4 (0 partial, 1 refuted) |
| C42 | Diagonal shapes | partial | ShapeDiagProps | ShapeCoreModel, ShapeCoreSpec, ShapeMiscModel, ShapeMiscSpec | 10 (0 partial, 1 refuted) |
| C43 | Padding, repetition and pixel shuffling shapes | partial | ShapePadProps | ShapeCoreModel, ShapeCoreSpec, ShapeMiscModel, ShapeMiscSpec | 17 (1 partial, 3 refuted) |
| C44 | Advanced indexing shapes | partial | ShapeIndexProps | ShapeCoreModel, ShapeCoreSpec, ShapeMiscModel, ShapeMiscSpec | 5 (0 partial, 1 refuted) |
| C45 | Two-operand elementwise shapes follow broadcasting | partial | ShapeIndexProps | ShapeCoreModel, ShapeCoreSpec, ShapeMiscModel, ShapeMiscSpec | 8 (2 partial, 2 refuted) |
| C46 | Negative dimension arguments mean counting from the end | partial | ShapeAxisProps, ShapeDimProps | ShapeCoreModel, ShapeCoreSpec, ShapeMiscModel, ShapeMiscSpec | 23 (1 partial, 4 refuted) |
| C47 | 'same' padding keeps the spatial size | partial | ShapeConvProps | ShapeCoreModel, ShapeCoreSpec, ShapeMiscModel, ShapePoolModel, ShapePoolSpec | 9 (1 partial, 2 refuted) |
| C48 | Type promotion is a join | partial | DtypeProps | DtypeModel, DtypeSpec | 12 (0 partial, 1 refuted) |
| C49 | Promoting a dtype with itself gives that dtype | partial | DtypeProps | DtypeModel, DtypeSpec | 2 (0 partial, 1 refuted) |
| C50 | Result dtype respects operand categories | partial | DtypeProps | DtypeModel, DtypeSpec | 7 (0 partial, 1 refuted) |
| C51 | Dtype codes agree across the importer and the compiler | partial | DtypeProps | DtypeModel, DtypeSpec | 17 (2 partial, 2 refuted) |
| C52 | Subtyping is a sound preorder | partial | TypesProps | DtypeModel, TypesModel, TypesSpec | 8 (0 partial, 2 refuted) |
| C53 | Combining static tensor information loses and invents nothing | partial | TypesProps | DtypeModel, TypesModel, TypesSpec | 9 (0 partial, 2 refuted) |
| C54 | Tensor types survive printing and parsing | partial | TypesPrintProps | DtypeModel, TypesModel, TypesSpec | 11 (0 partial, 1 refuted) |
| C55 | A test passes only if every recorded call matches the golden trace | partial | HarnessProps, HarnessRunProps | HarnessModel, HarnessSpec, OnnxModel, OnnxSpec | 9 (2 partial, 3 refuted) |
| C56 | Suite status is unexpected iff some test misbehaves | partial | HarnessRunProps | HarnessModel, HarnessSpec, OnnxModel | 10 (0 partial, 1 refuted) |
| C57 | Shape/dtype checks accept exactly agreeing functions | partial | DebugProps | DebugModel, DebugSpec | 3 (0 partial, 1 refuted) |
| C58 | Lockstep debugging frees values exactly after their last use | partial | DebugProps | DebugModel, DebugSpec | 4 (0 partial, 1 refuted) |
| C59 | Calling-convention adjustment is undone for the caller | partial | DebugProps | DebugModel, DebugSpec | 4 (1 partial, 1 refuted) |
| C60 | Operator names round-trip through library function names | partial | RegistryProps | RegistryModel, RegistrySpec | 18 (0 partial, 1 refuted) |
| C61 | ONNX types become the torch types that describe the same values | partial | OnnxTypesProps | DtypeModel, OnnxModel, OnnxSpec, OnnxTypesModel, OnnxTypesSpec, TypesModel | 4 (1 partial, 1 refuted) |
| C62 | Every node attribute is carried over once, with its value | proved | OnnxTypesProps | DtypeModel, OnnxModel, OnnxSpec, OnnxTypesModel, OnnxTypesSpec, TypesModel | 3 (0 partial, 0 refuted) |
| C63 | Tensor literals keep their elements | partial | OnnxTypesProps | DtypeModel, OnnxModel, OnnxSpec, OnnxTypesModel, OnnxTypesSpec, TypesModel | 4 (1 partial, 1 refuted) |
| C64 | Nodes are compiled against the recorded opset | partial | OnnxTypesProps | DtypeModel, OnnxModel, OnnxSpec, OnnxTypesModel, OnnxTypesSpec, TypesModel | 4 (1 partial, 2 refuted) |
| C65 | Function bodies are specialised to the caller | partial | OnnxFuncProps | OnnxFuncModel, OnnxModel, OnnxSpec | 6 (2 partial, 2 refuted) |
| C66 | Exactly the library functions that are called get imported | proved | ReifyProps | DtypeModel, ReifyModel, ReifySpec, TypesModel, TypesSpec | 2 (0 partial, 0 refuted) |
| C67 | Operands are converted to the parameters of shape and dtype functions | partial | ReifyProps | DtypeModel, ReifyModel, ReifySpec, TypesModel, TypesSpec | 9 (0 partial, 2 refuted) |
| C68 | Functions defined on real numbers give floating point results | partial | DtypeFnProps | DtypeFnModel, DtypeFnSpec, DtypeModel, DtypeSpec | 13 (0 partial, 2 refuted) |
| C69 | Binary and ternary operators return the promoted dtype | partial | DtypeFnProps | DtypeFnModel, DtypeFnSpec, DtypeModel, DtypeSpec | 19 (0 partial, 1 refuted) |
| C70 | Reductions choose the dtype of their accumulator | proved | DtypeFnProps | DtypeFnModel, DtypeFnSpec, DtypeModel, DtypeSpec | 12 (0 partial, 0 refuted) |
| C71 | Created and converted tensors have the requested dtype | proved | DtypeFnProps | DtypeFnModel, DtypeFnSpec, DtypeModel, DtypeSpec | 10 (0 partial, 0 refuted) |
| C72 | Predicates and index operators have a fixed dtype | proved | DtypeFnProps | DtypeFnModel, DtypeFnSpec, DtypeModel, DtypeSpec | 6 (0 partial, 0 refuted) |
| C73 | Data movement and neural network operators keep the dtype | proved | DtypeFnProps | DtypeFnModel, DtypeFnSpec, DtypeModel, DtypeSpec | 6 (0 partial, 0 refuted) |
| C74 | Dtype functions refuse exactly the dtypes the operator does | proved | DtypeFnProps | DtypeFnModel, DtypeFnSpec, DtypeModel, DtypeSpec | 7 (0 partial, 0 refuted) |
| C75 | Matrix products return the promoted dtype | partial | DtypeFnProps | DtypeFnModel, DtypeFnSpec, DtypeModel, DtypeSpec | 4 (0 partial, 2 refuted) |
| C76 | Complex and quantized dtypes correspond to their parts | partial | DtypeFnProps | DtypeFnModel, DtypeFnSpec, DtypeModel, DtypeSpec | 14 (0 partial, 2 refuted) |
| C77 | TorchDynamo graphs are imported with their meaning | partial | DynFxProps | DtypeModel, DtypeSpec, DynFxModel, DynFxSpec, TypesModel, TypesSpec | 10 (0 partial, 4 refuted) |
| C78 | The TorchDynamo importer translates types, codes and literals | partial | DynFxProps | DtypeModel, DtypeSpec, DynFxModel, DynFxSpec, TypesModel, TypesSpec | 10 (0 partial, 2 refuted) |
| C79 | Calls of compiled functions return the functions' values | partial | RunProps | AsStridedModel, DtypeModel, RunModel, RunSpec | 15 (0 partial, 7 refuted) |
| C80 | Structures of tensors survive the trip to numpy and back | partial | RunProps | AsStridedModel, DtypeModel, RunModel, RunSpec | 8 (0 partial, 1 refuted) |
| C81 | Example arguments describe what will be compiled | partial | RunProps | AsStridedModel, DtypeModel, RunModel, RunSpec | 22 (0 partial, 3 refuted) |
| C82 | Elementwise operators and reductions follow their operands | partial | ShapeTableProps | ShapeCoreModel, ShapeCoreSpec, ShapeMoreModel, ShapeMoreSpec | 11 (0 partial, 4 refuted) |
| C83 | Products, lookups and attention have the shapes of their definitions | partial | ShapeProdProps | ShapeCoreModel, ShapeCoreSpec, ShapeMiscModel, ShapeMoreModel, ShapeMoreSpec | 34 (4 partial, 10 refuted) |
| C84 | Windows are counted | partial | ShapeWindowProps | ShapeCoreModel, ShapeCoreSpec, ShapeMiscModel, ShapeMoreModel, ShapeMoreSpec | 13 (2 partial, 4 refuted) |
| C85 | Resized images keep batch and channels | partial | ShapeResizeProps | ShapeCoreModel, ShapeCoreSpec, ShapeMiscModel, ShapeMoreModel, ShapeMoreSpec | 16 (0 partial, 2 refuted) |
| C86 | Ranges have as many elements as there are values before the end | partial | ShapeResizeProps | ShapeCoreModel, ShapeCoreSpec, ShapeMiscModel, ShapeMoreModel, ShapeMoreSpec | 7 (1 partial, 1 refuted) |
| C87 | Losses and normalisations return one value per example and per statistic | partial | ShapeLossProps | ShapeCoreModel, ShapeCoreSpec, ShapeMiscModel, ShapeMoreModel, ShapeMoreSpec | 9 (1 partial, 2 refuted) |
| C88 | Parts, complex views and in-place operands | partial | ShapeLossProps | ShapeCoreModel, ShapeCoreSpec, ShapeMiscModel, ShapeMoreModel, ShapeMoreSpec | 21 (1 partial, 4 refuted) |
| C89 | Frozen programs keep their meaning | partial | FxFrozenProps | FxFrozenModel, FxGraphModel, FxGraphSpec | 5 (0 partial, 1 refuted) |
| C90 | Imported functions have the type they declare | proved | FxFuncTypeProps | FxFrozenModel, FxGraphModel | 5 (0 partial, 0 refuted) |
| C91 | Attention calls carry their operands and functions | partial | FxFlexProps | FxFlexModel, FxGraphModel, FxGraphSpec | 5 (0 partial, 1 refuted) |
| C92 | Tensor literals are the tensors | partial | FxLiteralProps | DtypeModel, FxLiteralModel | 7 (1 partial, 1 refuted) |
| C93 | Overlaid directories hold both trees | partial | OverlayProps | OverlayModel | 4 (0 partial, 1 refuted) |
| C94 | Lowering functions of the lazy backend pass every operand on | partial | LtcProps | LtcModel | 4 (0 partial, 1 refuted) |
| C95 | Operator lists and regeneration of the lazy backend | partial | LtcListProps | LtcModel | 18 (0 partial, 3 refuted) |
| C96 | Folding scalar operations keeps their value | partial | FoldProps | FoldModel | 24 (3 partial, 3 refuted) |
| C97 | Folding operations with doubles | partial | FoldFloatProps | FoldFloatModel, FoldModel | 23 (2 partial, 4 refuted) |
| C98 | Folding operations on lists keeps what programs compute | partial | FoldListProps | FoldListModel, FoldModel | 23 (5 partial, 6 refuted) |
| C99 | Slices of constant tensors | partial | FoldSliceProps | FoldTensorModel, FoldTensorSpec | 7 (1 partial, 1 refuted) |
| C100 | Transposes, concatenations and selections of constant tensors | partial | FoldTensorProps | FoldTensorModel, FoldTensorSpec | 16 (3 partial, 4 refuted) |
| C101 | Arithmetic on constant tensors is folded to the element-wise result | partial | FoldNaryProps | FoldFloatModel, FoldNaryModel, FoldTensorModel, FoldTensorSpec | 14 (7 partial, 5 refuted) |
| C102 | Comparisons, fills, single elements and rank-0 arithmetic of constants are folded to what they mean | partial | FoldCompareProps | FoldCompareModel, FoldFloatModel, FoldModel, FoldNaryModel, FoldTensorModel, FoldTensorSpec | 22 (6 partial, 7 refuted) |
| C103 | Turning a mutated tensor into values keeps what a block computes and what it writes | partial | ValueSemProps | ValueSemModel, ValueSemSpec | 6 (0 partial, 1 refuted) |
| C104 | Turning a tree of views into values keeps what a block computes | partial | ValueSemProps | ValueSemModel, ValueSemSpec | 5 (2 partial, 3 refuted) |
| C105 | Decompositions by slices and concatenations compute what the operator computes | partial | DecMoveProps | DecMoveModel, DecMoveSpec | 13 (0 partial, 4 refuted) |
| C106 | Decompositions by flips and permutations compute what the operator computes | partial | DecMoveProps | DecMoveModel, DecMoveSpec | 10 (0 partial, 1 refuted) |
| C107 | Decompositions into views and split axes compute what the operator computes | partial | DecReshapeProps | DecMoveModel, DecReshapeModel, DecReshapeSpec | 15 (1 partial, 8 refuted) |
| C108 | Decompositions of repeats and tiles compute what the operator computes | partial | DecReshapeProps | DecMoveModel, DecReshapeModel, DecReshapeSpec | 9 (0 partial, 2 refuted) |
| C109 | Decomposed activation functions are the functions PyTorch defines | partial | DecElemProps | DecElemModel, DecElemSpec | 29 (3 partial, 9 refuted) |
| C110 | Decomposed tests, roundings, remainders and interpolations are the functions PyTorch defines | partial | DecElemProps | DecElemModel, DecElemSpec | 34 (1 partial, 6 refuted) |
| C111 | triu_indices and tril_indices list the triangles of a matrix | partial | DecTriProps | DecTriModel, DecTriSpec, DtypeModel, ShapeMiscModel, ShapeMiscSpec | 10 (0 partial, 2 refuted) |
| C112 | nonzero and masked_scatter number the selected elements by a running sum | partial | DecCompactProps | DecCompactModel, DecCompactSpec | 7 (1 partial, 3 refuted) |
| C113 | einsum is turned into permutations, reshapes and matrix products that compute it | partial | EinsumProps | EinsumModel, EinsumSpec | 11 (2 partial, 5 refuted) |
| C114 | The texts written by the generators read back as what was meant | partial | GenTextProps | GenTextModel, GenTextSpec | 10 (1 partial, 3 refuted) |
| C115 | The ODS records of operators declare the types of their schemas, and generated assembly reads back | partial | OdsProps | GenTextModel, GenTextSpec, OdsModel, OdsSpec | 12 (3 partial, 2 refuted) |
| C116 | Signatures of library functions declare the types and defaults of the operator | partial | RegSigProps | GenTextModel, GenTextSpec, RegSigModel, RegSigSpec | 17 (2 partial, 5 refuted) |
| C117 | Invocations that check library functions describe the same call at every level and cover every pair of dtypes | partial | InvocProps | InvocModel, InvocSpec | 11 (1 partial, 1 refuted) |
| C118 | Class annotations export and describe exactly what is named | partial | ClassAnnProps | ClassAnnModel, ClassAnnSpec | 10 (0 partial, 1 refuted) |
| C119 | TorchScript types, operation names and locations are carried over exactly | partial | JitTypesProps | DtypeModel, JitTypesModel, JitTypesSpec, RegistryModel, RegistrySpec, TypesModel, TypesSpec | 24 (1 partial, 4 refuted) |
| C120 | The objects of a TorchScript program are imported each once, with everything inside | partial | IValueProps | DtypeModel, IValueModel, IValueSpec, JitTypesModel, JitTypesSpec, TypesModel | 9 (0 partial, 2 refuted) |
| C121 | Importing a TorchScript function into the torch dialect preserves what it computes, its types and its scopes | partial | NodeProps | DtypeModel, JitTypesModel, JitTypesSpec, NodeModel, NodeSpec, RegistryModel, TypesModel | 11 (0 partial, 2 refuted) |
| C122 | Globalising the object graph preserves what methods compute and names everything by its path | partial | GlobalizeProps | GlobalizeModel, GlobalizeSpec | 12 (0 partial, 2 refuted) |
| C123 | Refined returns keep what the caller sees | partial | ReturnProps | ReturnModel, ReturnSpec | 9 (0 partial, 1 refuted) |
| C124 | Inlined global slots are never changed | partial | InlineSlotsProps | InlineSlotsModel, InlineSlotsSpec | 8 (0 partial, 2 refuted) |
| C125 | Functional variants do what the operations in place do | partial | ReduceProps | ReduceModel, ReduceSpec | 8 (0 partial, 1 refuted) |
| C126 | Interpreted list operations compute the same lists | partial | ListInterpProps | ListInterpModel, ListInterpSpec | 7 (0 partial, 3 refuted) |
| C127 | Conditionals and unrolled loops compute what they did | partial | IfLoopProps | IfLoopModel, IfLoopSpec | 13 (1 partial, 3 refuted) |
| C128 | The ONNX import tool infers shapes in its own directory | partial | OnnxToolProps | OnnxToolModel | 11 (1 partial, 3 refuted) |
| C129 | The entry points run the pipelines that were asked for, and report failures | partial | EntryProps | EntryModel, RunModel | 22 (1 partial, 3 refuted) |
| C130 | Verifiers of operations with shapes refuse only what cannot run | partial | ShapeVerifyProps | ShapeVerifyModel, ShapeVerifySpec | 26 (2 partial, 6 refuted) |
| C131 | Verifiers of object graphs, global slots and attributes accept exactly the well-formed ones | partial | GraphVerifyProps | EntryModel, GraphVerifyModel | 16 (1 partial, 2 refuted) |
| C132 | Scatters, gates, identities, one-hot vectors and diagonals are decomposed into the operation they replace | partial | DecFillProps | DecFillModel, DecFillSpec | 17 (2 partial, 3 refuted) |
| C133 | Adaptive pools, named convolution paddings and pads are replaced by operations that read PyTorch's positions | partial | DecWindowProps | DecWindowModel, DecWindowSpec | 20 (3 partial, 4 refuted) |
| C134 | Missing indices of index and index_put are replaced by ranges that read the same positions | partial | DecIndexProps | DecFillModel, DecIndexModel, DecIndexSpec | 12 (1 partial, 2 refuted) |
| C135 | amin, amax and aminmax reduce exactly the axes that were asked for | partial | DecReduceProps | DecReduceModel | 7 (1 partial, 2 refuted) |
| C136 | bucketize gives the bucket of every element, and argmax and argmin the first extreme element | partial | DecBucketProps | DecBucketModel | 9 (0 partial, 1 refuted) |
| C137 | topk and argsort give the extreme elements and their indices in order | partial | DecTopkProps | DecTopkModel | 5 (0 partial, 1 refuted) |
| C138 | The loops of torchvision.nms compute greedy suppression by descending score | proved | DecNmsProps | DecNmsModel, DecTopkModel | 5 (0 partial, 0 refuted) |

## Trusted base

* Coq's kernel. `Print Assumptions` prints `Closed under the global context` for every one of the 1350 theorems in
  `MANIFEST.json`: no axiom is used, neither from the standard library nor our own. (The gate also lists, for the set of loaded
  libraries, axioms of `Coq.ssr.ssrunder`, which come with the standard library's tactics; no theorem depends on them.)
* The transcription of the cited code into Gallina, and the simplifications below.
* The specifications, in so far as they describe PyTorch, ONNX and MLIR: these were written from their documentation, since none of
  them is available here.

Every definition that was changed at random (`seeded/LOG.jsonl`) made at least one theorem fail, or led to a new theorem.

## What is modelled, and simplified how

* `AsStridedModel.v` (32 definitions). Model of python/torch_mlir/extras/fx_as_strided.py. Tensors of indices are modelled pointwise: an index tensor of sizes [size] is a function from multi-indices to Z (all tensor operations used there are elementwise). int64 wrap-around of index arithmetic is not modelled.
* `ClassAnnModel.v` (30 definitions). Annotations of classes: which attributes and methods of a TorchScript program are exported, and what is known of arguments. Sources: ann = /repo/projects/jit_ir_common/csrc/jit_ir_importer/class_annotator.cpp, annh = class_annotator.h beside it, bind = /repo/projects/pt1/python/torch_mlir/csrc/jit_ir_importer/class_annotator_pybind.cpp, tsa = /repo/projects/pt1/python/torch_mlir/jit_ir_importer/torchscript_annotations.py. [None] is an exception. A class type is the tree of its attributes, so no class has itself as an attribute; functions have numbers. The maps are lists whose first entry for a key counts. The printed form (toString) is left out.
* `DebugModel.v` (35 definitions). Self-checks of the abstract interpretation library, the lockstep debugging backend and the dynamo wrapper. Sources under /repo/projects/pt1/python: tfw = torch_mlir/jit_ir_importer/build_tools/testing_framework.py, lock = torch_mlir_e2e_test/debug/lockstep.py, dyn = torch_mlir/dynamo.py. [None] is an exception.
* `DecBucketModel.v` (10 definitions). The decompositions of bucketize, argmax and argmin: lib/Dialect/Torch/Transforms/DecomposeComplexOps.cpp (dco). The elements are integers: NaN is not modelled. bucketize works on every element of its input by itself, so the model is the one of an element; a tensor whose elements are all reduced is the list of its elements in row-major order.
* `DecCompactModel.v` (6 definitions). The decompositions that number the selected elements by a running sum: lib/Dialect/Torch/Transforms/DecomposeComplexOps.cpp (dco), DecomposeAtenNonzeroOp and DecomposeAtenMaskedScatterOp. The value of the operations that the patterns create (TensorOps.v, VecOps.v); [None] is an error, in the pattern or when the operations run. Ranks and (for masked_scatter) sizes are taken to be known; the types given to the results are not modelled.
* `DecElemModel.v` (52 definitions). Decompositions of elementwise operations: lib/Dialect/Torch/Transforms/DecomposeComplexOps.cpp. Each definition computes one element of the tensor the pattern builds, from the elements of its operands and its scalar arguments. The operations it is built from (NumOps.v) are PyTorch's. Patterns that can refuse return an option ([None]: the operation is kept). Checks that a type has a dtype or sizes are not modelled; element types are floating-point unless said otherwise. A scalar turned into a tensor without dimensions (createRank0Tensor, Utils.cpp:688-699) is that scalar. Random numbers and the function exp are parameters.
* `DecFillModel.v` (12 definitions). Operations that are replaced by comparisons with a range, by a scatter into a slice, or by operations on a diagonal: lib/Dialect/Torch/Transforms/DecomposeComplexOps.cpp (dco). A pattern answers with [None] if it does not apply, and otherwise with the value of the operations it creates (TensorOps.v, and the operations below; an inner [None] is an error when they run). Ranks are taken to be known, and dimensions to be constants. Element types, and the types given to the results, are not modelled; [aten.sigmoid] and [aten.mul.Tensor] are any functions of elements, and [aten.sum] adds the elements in their order.
* `DecIndexModel.v` (18 definitions). The removal of missing indices, and of masks, from aten.index.Tensor and aten.index_put: lib/Dialect/Torch/Transforms/DecomposeComplexOps.cpp (dco). An index of an axis is a tensor of integers or missing; sizes of the input are taken to be known in the removal, and its rank in the check of masks. [None] is a pattern that does not apply.
* `DecMoveModel.v` (27 definitions). Operations that are replaced by slices, flips, permutations and concatenations: lib/Dialect/Torch/Transforms/DecomposeComplexOps.cpp (dco). A pattern answers with [None] if it does not apply, and otherwise with the value of the operations it creates (TensorOps.v; an inner [None] is an error when they run). Ranks are taken to be known, and dimensions to be constants; the types given to the results, other than their rank where the code asks for it, are not modelled.
* `DecNmsModel.v` (13 definitions). The decomposition of torchvision.nms into loops: lib/Dialect/Torch/Transforms/DecomposeComplexOps.cpp (dco). The coordinates and scores are integers and the threshold is the fraction [tn / td] with [0 < td]; "intersection / union > threshold" is written without the division, and does not hold for a union of 0, as for the NaN of the division.
* `DecReduceModel.v` (7 definitions). Which axes are reduced by the operations that amin, amax and aminmax are replaced by: lib/Dialect/Torch/Transforms/DecomposeComplexOps.cpp (dco). The input is modelled by the list of the axes that it still has, numbered as in the operand. The pattern answers [None] if it does not apply; an inner [None] is a reduction of an axis that its input does not have. The value of a reduction is not modelled, only the axes that are reduced, in their order.
* `DecReshapeModel.v` (24 definitions). Operations that are replaced by views, splits and collapses of axes, and broadcasts: lib/Dialect/Torch/Transforms/DecomposeComplexOps.cpp (dco). As in DecMoveModel.v, ranks are taken to be known and dimensions to be constants, and the types given to intermediate results are not modelled. Whether the compiler knows a size or a repeat is an argument where the code asks for it. Integers are not bounded.
* `DecTopkModel.v` (6 definitions). The decompositions of topk and argsort: lib/Dialect/Torch/Transforms/DecomposeComplexOps.cpp (dco). Both work on every vector along their dim by itself, so the model is the one of a vector. The elements are integers: NaN is not modelled. aten.sort is modelled by a stable sort.
* `DecTriModel.v` (18 definitions). The coordinates of the triangles of a matrix: lib/Dialect/Torch/Transforms/DecomposeComplexOps.cpp (dco), getTrilSizes, getTriuSizes, DecomposeAtenTriuIndicesOp and DecomposeAtenTrilIndicesOp. A pattern answers with [None] if it does not apply. The tensors that it creates all have one axis, and are written as lists; the result of aten.stack is the list of its two rows. The float64 computations are modelled as computations on real numbers, without rounding: every number there is a half of an integer, or the square root of one, so that floor(a/2 + sqrt(d/4)) is computed on integers (see DecTriSpec.v for what the floors are). int64 is not bounded.
* `DecWindowModel.v` (10 definitions). Adaptive pools, convolutions with named padding, and pads, as they are replaced by operations with fixed windows: lib/Dialect/Torch/Transforms/DecomposeComplexOps.cpp (dco). A pool is modelled by the kernel, stride and padding that are computed for one axis: each axis is computed alone. [Refused] is a pattern that does not apply, [Fails] an assertion or an error of an integer operation when the program runs, [Undefined] an access outside a vector of the compiler.
* `DtypeFnModel.v` (28 definitions). The dtype functions of the abstract interpretation library: the dtypes of an operator's results from the ranks and dtypes of its tensor operands and the kinds of its number operands. Sources, all under /repo: - ag = projects/pt1/python/torch_mlir/jit_ir_importer/build_tools/abstract_interp_lib_gen.py, l.2927-6540 - gl = projects/pt1/python/torch_mlir/jit_ir_importer/build_tools/library_generator.py promote_dtypes is the compiler's (DtypeModel.decompose_promote_dtypes). [None] is a failed assertion, or a call with operands missing. Operands a function never looks at are left out; the optional tensor operands that are absent (clamp's bounds, bincount's weights) are not listed. Many functions have textually the same body up to the names of variables; each body is a constructor, and the table at the end gives every function its body.
* `DtypeModel.v` (51 definitions). Dtype codes and dtype promotion. Sources, all under /repo: - up = lib/Dialect/Torch/Utils/TorchUpstream.cpp (promotion), hdr = include/torch-mlir/Dialect/Torch/Utils/TorchUpstream.h (codes) - ut = lib/Dialect/Torch/Utils/Utils.cpp (element types) - sd = lib/Dialect/Torch/Transforms/SimplifyDtypeCalculations.cpp (torch.promote_dtypes) - gl = projects/pt1/python/torch_mlir/jit_ir_importer/build_tools/library_generator.py - fx = python/torch_mlir/extras/fx_importer.py (code tables) [None] is a failed assertion, a fatal error or a pattern that does not match.
* `DynFxModel.v` (55 definitions). Model of the TorchDynamo importer, projects/pt1/python/torch_mlir/_dynamo_fx_importer.py (below: dfi). A raised exception is [None]. Simplifications: locations (l.226-235) are dropped; FX nodes are numbers; the text of types is modelled as the tokens of TypesModel, read back with its parser (ir.Type.parse); floats are bit patterns; sizes are concrete integers; a list and a tuple of fake tensors are the same.
* `EinsumModel.v` (52 definitions). The decomposition of einsum into permutations, reshapes and matrix products: lib/Dialect/Torch/Transforms/DecomposeComplexOps.cpp (dco), DecomposeAtenEinsumOp and its helpers. Equations are lists of characters. The tensors have elements in any type with a sum and a product. [None] is a pattern that does not apply, a read outside of a vector, or an error of an operation that was created (TensorOps.v). Sizes are taken to be known numbers; the types given to the results, and dtypes, are not modelled.
* `EntryModel.v` (32 definitions). The entry points that lower a program: fx.py (fx) and compiler_utils.py (cpu) of python/torch_mlir, torchscript.py (tsc) of projects/pt1/python/torch_mlir and configs/torchdynamo.py (td) of projects/pt1/python/torch_mlir_e2e_test. Simplified: modules are not modelled but the pipelines that run on them; texts are bytes; exporting, importing and decomposing are steps of a plan.
* `FoldCompareModel.v` (28 definitions). Folders of comparisons of constant tensors, of constant fills and of single elements, and the rewriting of arithmetic on rank 0: lib/Dialect/Torch/IR/TorchOps.cpp. As in FoldNaryModel: literals of integers have bits, doubles are a parameter with their comparisons. IntegerAttr::get(type, value) keeps the low bits of the value.
* `FoldFloatModel.v` (37 definitions). Folders of scalar operations computed with doubles: lib/Dialect/Torch/IR/TorchOps.cpp. A double is a [spec_float] of the standard library: a signed zero, an infinity, NaN, or a sign, a significand of 53 bits and an exponent. The conversion of an integer and the quotient of two integers round to nearest, ties to even, as IEEE 754 does; no overflow or subnormal number can occur there. Other float operations (sums, products, quotients of doubles, powers, square roots) are a parameter: the folder calls the C++ operator on the two constants. Conversions of doubles that do not fit int64_t are [Undefined].
* `FoldListModel.v` (50 definitions). Folders and canonicalisation patterns of operations on lists, tuples and dictionaries: lib/Dialect/Torch/IR/TorchOps.cpp and lib/Dialect/Torch/Utils/Utils.cpp. A program is a list of operations; an operation's result is the value numbered by its position, so a folder sees the definition of a value and all its users. Lists live in a heap and are shared: executing prim.ListConstruct allocates one, aten.append.t and aten._set_item.t change one, torch.derefine and prim.unchecked_cast return the list they are given. The traits are those of the ODS files: which operations are ReadOnly or without effect. Elements of lists are integers, booleans or lists. Not modelled: control flow, static types (a pattern's casts), strings. What the C++ leaves undefined is [Undefined].
* `FoldModel.v` (41 definitions). Folders of scalar operations: lib/Dialect/Torch/IR/TorchOps.cpp. An operand of an operation is an SSA value together with what a folder can see of it: the constant it is defined by, and whether it is defined by aten.size.int. The adaptor's attribute and the matcher m_TorchConstantInt both give that constant. C++ int64_t is Z in its range; what the C++ standard leaves undefined (overflow, division by zero) and failed assertions are [Undefined]. APInt arithmetic wraps. Not modelled: the types of the attributes, the rewriting that replaces the operation by the result of its folder.
* `FoldNaryModel.v` (57 definitions). Folders of arithmetic on constant tensors: lib/Dialect/Torch/IR/TorchOps.cpp:1515-1856 and 2240-2335, 4087-4110. An APInt has a width and its bits as an unsigned integer; its operators and constructor fail an assertion ([None]) if the widths differ or the value does not fit. Doubles and their operators are parameters: [of_int] is static_cast<double>, [round] the conversion of a double to the result's float type. A literal of integers has the width and signedness of its type and the bits of its elements; scalar constants are signless integers of 64 bits or doubles. Not modelled: complex types, resources instead of literals, types without known sizes except that they are not folded.
* `FoldTensorModel.v` (38 definitions). Folders of operations on constant tensors that only move elements: lib/Dialect/Torch/IR/TorchOps.cpp. A tensor type has sizes ([None] for an unknown one) and an element type, either of which may be missing; a literal (DenseElementsAttr) has the sizes of its type, its elements in row-major order and a mark that it is a splat (all elements the same, one stored). A folder answers with nothing, one of its operands, a literal, nothing and a diagnostic ([TError]), or [TBad]: a failed assertion, a read outside of the literal or a loop that does not end. Elements are abstract; IntegerAttr and FloatAttr operands are optional integers. Not modelled: that an attribute's own type matches the literal's, except in cat.
* `FxFlexModel.v` (9 definitions). Model of GraphNodeImporter._import_hop_flex_attention, python/torch_mlir/extras/ fx_importer.py l.1935-2072 (fx below). A raised exception is [None]. Float literals are bit patterns; [to_float] is Python's float() on numbers.
* `FxFrozenModel.v` (12 definitions). Model of FxImporter.import_frozen_program and of the function types and results it declares, python/torch_mlir/extras/fx_importer.py (fx below). A raised exception is [None]. Simplifications: tensors are object ids as in FxGraphModel; child modules (l.991-998) are imported separately (FxNameModel); reading [.meta] of an argument that has been replaced by a tensor is not represented in [n_arg0_fp].
* `FxGraphModel.v` (74 definitions). Model of the FX node importer, python/torch_mlir/extras/fx_importer.py: the value table of GraphNodeImporter, argument import, operator emission, getitem, lazy parameters and producer hooks. A raised exception is [None]. Simplifications: locations are dropped; hooks are the default FxImporterHooks except that [store_produced_value] emits a store; an operation wrapped in torch.operator is identified with the operation it names (l.2647-2669); FX nodes are identified by their (unique) names.
* `FxLiteralModel.v` (14 definitions). Model of tensor literals, python/torch_mlir/extras/fx_importer.py (fx below): TORCH_DTYPE_TO_NPY_TYPE, _make_vtensor_literal_op with its table of attributes keyed by the identity of the tensor, and _import_literal. A raised exception is [None]. Simplifications: all the optional dtypes exist; tensor elements are opaque codes in row order and tolist/astype to the tensor's own dtype keep them; an attribute is its type and contents.
* `FxMiscModel.v` (31 definitions). Smaller parts of the FX importer: symbolic scalar operators, while loops, identity tracking, type dispatch, sparse encodings, function names and the tensor type cache. Source under /repo: fx = python/torch_mlir/extras/fx_importer.py.
* `FxProgramModel.v` (28 definitions). Model of FxImporter.import_program, python/torch_mlir/extras/fx_importer.py:614-879: the lookaside tables built from the ExportedProgram's signature, the function's prologue (constants, user inputs, lazy parameters and buffers, producer hooks), the body, and the returned values. [rewrite_as_strided] (l.646) is modelled in AsStridedModel; child modules (l.860-862) in FxMiscModel. Exceptions are [None].
* `GenTextModel.v` (18 definitions). The texts that the generators write: lines with indentation, quoted strings, blocks of documentation and the C++ literal that holds the library of abstract interpretation functions. Sources: utils = utils.py and lib = abstract_interp_lib_gen.py in /repo/projects/pt1/python/torch_mlir/jit_ir_importer/build_tools/. Simplifications: texts are lists of ASCII characters; of the characters at which Python's splitlines cuts only the newline is kept, and of those that rstrip removes only blanks, tabs and newlines.
* `GlobalizeModel.v` (74 definitions). lib/Dialect/Torch/Transforms/GlobalizeObjectGraph.cpp (gg): the pass that turns the objects of a module into global slots and specialises the functions for the objects they get. Simplified: operations other than the reading and writing of attributes, calls, conditionals and loops are [Other]; a slot is known by its module and its name (slots have the names of the attributes of the class, which differ); the map from values to modules at an operation has the values visible there (IRMapping has all of them, and values are defined once); a search that runs into undefined behaviour or an assertion is [None], as is an error; the number of rounds of the search for specialisations is a parameter. Locations and the text of errors are not modelled.
* `GraphVerifyModel.v` (29 definitions). The verifiers of object graphs, global slots and attributes: lib/Dialect/Torch/IR/TorchOps.cpp (ops) and TorchDialect.cpp (dia). Simplified: a symbol table is a list of named symbols in which the first of a name is found; the types are those of modules and others, with isValidSubtype a parameter; of the errors only the notes on slots are kept.
* `HarnessModel.v` (50 definitions). The end-to-end test harness: comparing traces, running tests, reporting and the exit code. Sources under /repo/projects/pt1: rep = python/torch_mlir_e2e_test/reporting.py, fwk = python/torch_mlir_e2e_test/framework.py, reg = python/torch_mlir_e2e_test/registry.py, main = e2e_testing/main.py. Processes and signals are left out: each step of a test says how it ended. [None] is an exception that leaves the function. Messages are left out except for where they point. Finite floats are rational numbers, so rounding is left out.
* `IValueModel.v` (34 definitions). Import of the objects of a TorchScript program. Sources: ivi = /repo/projects/jit_ir_common/csrc/jit_ir_importer/ivalue_importer.cpp. An object has an address; it is written with the objects inside, so there are no cycles. Sameness is that of c10::IValue::isSameIdentity: numbers, strings and None by value, other objects by address. Functions are imported elsewhere ([import_function] makes the operation), and the annotator says what is exported (see ClassAnnModel). A failed assertion or undefined behaviour counts as refusal. The position of operations is left out.
* `IfLoopModel.v` (24 definitions). The canonicalisations of torch.prim.If (lib/Dialect/Torch/IR/TorchOps.cpp l.535-635) and the unrolling of torch.prim.Loop (lib/Dialect/Torch/Transforms/SimplifyAbstractInterpCalculationsUtils.cpp l.33-101 (sa); PrimLoopOp::isForLike, TorchOps.cpp l.450-453). Simplified: values are numbers and regions have one block; a pattern gets the operation, the operations after it in its block and what the block yields, and gives the new operations and yields; constants are known through functions that say which values are results of constant operations. Values of a copied body get new numbers above all others: copy [i] of value [v] is number [n + k + i * n + v], if [n] is above all numbers and [k] the number of copies; index constant [i] is [n + i].
* `InlineSlotsModel.v` (36 definitions). lib/Dialect/Torch/Transforms/InlineGlobalSlots.cpp (ig): the analysis that finds the global slots whose initial values can stand for them, and the pass that puts these values where the slots are read. Simplified: a program is the sequence of its operations in the order of the walk (ig l.157-183), with the traits that the analysis asks for; the types are those that it tells apart. The solver of the framework visits the operations whose inputs changed; here all operations are visited again until nothing changes. A backward slice lists the operations in the order of the initializer. A copied operation gives value [v] the number [base + v]; the operation that adjusts static information is always there and keeps the number of the value that was read, so uses need no renaming.
* `InvocModel.v` (27 definitions). Invocations: the arguments that the self-checks of the library give to functions and operators, and the generators of invocations. Sources under /repo/projects/pt1/python/torch_mlir/jit_ir_importer/build_tools: tfw = testing_framework.py, gen = abstract_interp_lib_gen.py. [None] is an exception. See DebugModel for the checks that use the invocations. Sets of dtypes are lists; the memory that real tensors are filled with is left out.
* `JitTypesModel.v` (35 definitions). What the TorchScript importer makes of types, tensors, operator names and source positions. Sources: tu = /repo/projects/jit_ir_common/csrc/jit_ir_importer/torch_to_mlir_utils.cpp, fi = function_importer.cpp and ivi = ivalue_importer.cpp beside it, io = import_options.h beside it, to = /repo/lib/Dialect/Torch/IR/TorchOps.cpp, capi = /repo/lib/CAPI/TorchTypes.cpp. A null type inside another type is undefined behaviour; so is a dictionary type that DictType::verify refuses. Errors that are only printed (mlirEmitError) are left out.
* `ListInterpModel.v` (20 definitions). lib/Dialect/Torch/Transforms/SimplifyAbstractInterpCalculationsUtils.cpp l.104-255 (sa), with potentiallyMutatesListOperands (lib/Dialect/Torch/IR/TorchOps.cpp l.126-144) and matchLegalConstantIndexIntoListOfSize (lib/Dialect/Torch/Utils/Utils.cpp l.32-54): the pattern that replaces a list construction and the operations that change the list by constructions of the successive lists. Simplified: values are numbers; the block is the construction and the operations after it; an operation that is not one of append, insert, _set_item, a construction or an alias (derefine, casts, tuples: pure operations whose result is or holds their operand) is given by its users: the operation itself and those in its regions, each with whether it is in a region, whether it may change the lists it gets (no ReadOnly trait and some memory effect), and its operands. Users in one region operation come in any order (the order of the use list). A user that gets the list twice is one user.
* `LtcModel.v` (30 definitions). Model of build_tools/autogen_ltc_backend.py (below: ltc): which operators the lazy tensor backend gets code for, the bodies of the generated Lower functions, and when the code is generated again. Python sets are lists read by membership. The text of generated code is the list of its statements. The operators of GeneratedTorchOps.td (found by rg or grep, ltc l.221-236), torchgen's parsing of native_functions.yaml and the lists of the configuration file are inputs.
* `NodeModel.v` (30 definitions). Import of TorchScript graphs: nodes, blocks and functions. Sources: ni = /repo/projects/jit_ir_common/csrc/jit_ir_importer/node_importer.cpp, fi = function_importer.cpp and tu = torch_to_mlir_utils.cpp beside it. A TorchScript value is a number (its address); a value of MLIR is a number and a type. Where a block is built, the operations are returned in order. Locations are left out (see JitTypesModel). A constant list or tuple is imported by importIValue (see IValueModel): here it is one operation of a type that is given. The type of a function constant is written Any: it is never adjusted. [None] is an exception, a failed assertion, or undefined behaviour.
* `OdsModel.v` (28 definitions). The TableGen records that are generated for operators, and the printing and parsing of operations that they ask for. Sources: ods = /repo/projects/pt1/python/torch_mlir/jit_ir_importer/build_tools/torch_ods_gen.py; utils = /repo/lib/Dialect/Torch/IR/UtilsForODSGenerated.cpp. [None] is an exception, or a failure to parse. The names of an operator (get_mlir_names) and its key are given; see RegistryModel.
* `OnnxFuncModel.v` (20 definitions). The ONNX importer: operators defined by functions. Source under /repo: onnx = python/torch_mlir/extras/onnx_importer.py. ONNX itself gives the schemas and the bodies of functions; they are parameters here. [repr] of a key is taken to be injective. [None] is an exception.
* `OnnxModel.v` (22 definitions). The ONNX importer: graphs, nodes, subgraphs and value names. Source under /repo: onnx = python/torch_mlir/extras/onnx_importer.py. Python dictionaries from names are association lists. Types are modelled in OnnxTypesModel.v. Operators that are expanded into functions (get_operator_function, onnx l.965-1092) are modelled in OnnxFuncModel.v; here no operator is expanded.
* `OnnxToolModel.v` (23 definitions). The ONNX import tool: python/torch_mlir/tools/import_onnx/__main__.py (om), main l.33-55 and load_onnx_model l.58-155. Simplified: paths are absolute lists of names; a file system says for each path whether it is a directory or a file; the functions of the onnx package are parameters, which may fail with an exception; a function that fails writes no file. A model is its list of nodes, which may hold the nodes of subgraphs in their attributes, and the rest.
* `OnnxTypesModel.v` (51 definitions). The ONNX importer: types, type lookup, names of resources, tensors, attributes and opset metadata. Source under /repo: onnx = python/torch_mlir/extras/onnx_importer.py. Types are parsed from their spelling by the parser of TypesModel.v. Caches of types (onnx l.590-606) are left out: they are keyed by everything the type is made from. Protobuf messages are records; [WhichOneof] is the constructor. [None] is an exception.
* `OverlayModel.v` (22 definitions). Model of utils/bazel/overlay_directories.py (below: ovl), which fuses two directories with symbolic links. A raised OSError is [None]. Directories do not change while the script runs, apart from the target, which lies outside of them. Paths are lists of names relative to the directory: joining with "." and abspath only change their spelling. The order of a directory is the order of its list.
* `ReduceModel.v` (38 definitions). lib/Dialect/Torch/Transforms/ReduceOpVariants.cpp (rv): the pass that makes operations work on value tensors, and replaces those that change a tensor in place by an operation and an overwriting of the contents. Simplified: a function is one sequence of operations; the sizes and dtype of a tensor type are one number; the operations that the pass makes get the next free numbers, and the results of the operations that it changes are renumbered instead of their uses; the operations that stand for others are made first and get value semantics second, where the driver of the rewriting does both per operation (the second step looks only at operations that the first leaves alone). None is a failure of the pass or of an assertion. [traits] tells which operations have the traits HasValueSemantics and IsTrailingUnderscoreInplaceVariant, and which operators the extra library declares. Attributes, locations, the element types of literals and arange.start_out are not modelled.
* `RegSigModel.v` (16 definitions). The declarations of parameters and results in the signatures that library functions must have. Source: reg = /repo/projects/pt1/python/torch_mlir/jit_ir_importer/build_tools/registry.py; see RegistryModel for the signatures that are put together from them. Python's [repr] of a string is modelled for texts of printable characters, newlines and tabs.
* `RegistryModel.v` (45 definitions). The registry of operators, the names of library functions, and what is generated from them. Sources: reg, libgen and ods = registry.py, library_generator.py and torch_ods_gen.py in /repo/projects/pt1/python/torch_mlir/jit_ir_importer/build_tools/; reify = /repo/lib/Dialect/Torch/Transforms/ReifyAbstractInterpCalculationsUtils.cpp. [None] is an exception.
* `ReifyModel.v` (11 definitions). Calling library functions from the compiler: the arguments passed to them and the functions that are imported. Sources under /repo/lib/Dialect/Torch/Transforms: reify = ReifyAbstractInterpCalculationsUtils.cpp, rshape = ReifyShapeCalculations.cpp, rdtype = ReifyDtypeCalculations.cpp. The operations that are created are the constructors of [code], from the operand to the argument.
* `ReturnModel.v` (18 definitions). lib/Dialect/Torch/Transforms/RefinePublicReturn.cpp (rp): the pass that makes public functions return values of the most precise type, and copyTensorToType of lib/Dialect/Torch/IR/TorchOps.cpp (to). Simplified: the sizes and dtype of a tensor type are one number (0: none); bodies are sequences of operations, of which those that the pass looks through and the overwriting of contents are distinguished; the operations that the pass makes get the next free numbers. Locations and the text of errors are not modelled.
* `RunModel.v` (80 definitions). Model of how compiled programs are called and fed: lib/RefBackend/RefBackend.cpp (below: rbc), refbackend.py (rbp), the test configurations configs/utils.py (cu), configs/fx_importer_backend.py (fxb) and configs/onnx_backend.py (onb), all of projects/pt1/python/torch_mlir_e2e_test, utils.py there (e2u), compiler_utils.py (cpu) of python/torch_mlir and torchscript.py (tsc) of projects/pt1/python/torch_mlir. A raised exception or a failed pass is [None]. Memory is a list of bit patterns; numbers are their bit patterns.
* `ShapeCoreModel.v` (43 definitions). Models of the shape functions of torch.jit._shape_functions in the form the compiler ships them, lib/Dialect/Torch/Transforms/AbstractInterpLibrary.cpp (line numbers below), and of their wrappers in projects/pt1/python/torch_mlir/jit_ir_importer/build_tools/abstract_interp_lib_gen.py ("gen"). Sizes are unbounded integers; a raised exception is [None]. A loop [for i in range(n): out.append(..)] is [mapM] over [zrange 0 n], one that appends zero or one element is [collect].
* `ShapeMiscModel.v` (36 definitions). Models of shape functions written in projects/pt1/python/torch_mlir/jit_ir_importer/build_tools/abstract_interp_lib_gen.py (line numbers below). Conventions as in ShapeCoreModel: sizes are unbounded integers, a failed assertion or any raised exception is [None]. Functions that update their argument list in place are modelled by the value they return.
* `ShapeMoreModel.v` (79 definitions). Models of the remaining shape functions of projects/pt1/python/torch_mlir/jit_ir_importer/build_tools/abstract_interp_lib_gen.py (line numbers "l." below) and of the functions of torch.jit._shape_functions they call, as compiled into lib/Dialect/Torch/Transforms/AbstractInterpLibrary.cpp (line numbers "lib"). Conventions as in ShapeCoreModel: sizes are unbounded integers; a failed assertion or any raised exception is [None]; functions that update their argument list in place are modelled by the value they return; operands that are never looked at are left out. Floating point operands are rationals, so rounding of products and quotients is not modelled.
* `ShapePoolModel.v` (39 definitions). Shape functions of pooling and convolution. Sources: projects/pt1/python/torch_mlir/jit_ir_importer/build_tools/abstract_interp_lib_gen.py ("gen") and lib/Dialect/Torch/Transforms/AbstractInterpLibrary.cpp ("lib"). Simplifications: integers are unbounded; argument lists of a fixed small arity are taken apart by pattern matching where the source asserts the length and then indexes; only the sizes returned are modelled, not the text of the errors.
* `ShapeVerifyModel.v` (27 definitions). The verifiers of operations that look at shapes and constants: lib/Dialect/Torch/IR/TorchOps.cpp (ops). Simplified: integers are unbounded; an error has no text (false); a floating point constant is given by how it compares with zero, and None if it does not.
* `SymShapeModel.v` (23 definitions). Model of the symbolic-shape part of python/torch_mlir/extras/fx_importer.py.
* `TypesModel.v` (44 definitions). Types of the torch dialect: subtyping, combination of tensor types, printing and parsing. Sources under /repo: tt = lib/Dialect/Torch/IR/TorchTypes.cpp, td = lib/Dialect/Torch/IR/TorchDialect.cpp, def = include/torch-mlir/Dialect/Torch/IR/TorchTypes.td, hdr = include/torch-mlir/Dialect/Torch/IR/TorchTypes.h. Types are uniqued in MLIR, so that [==] is structural equality. Builtin types and attributes are printed and parsed by MLIR and are single tokens here.
* `ValueSemModel.v` (26 definitions). Turning tensors that are mutated into values: lib/Dialect/Torch/Transforms/MaximizeValueSemantics.cpp (mvs). One block of a function. Values are numbers; an operation has at most one result. View-like operations (lib/Dialect/Torch/Utils/Utils.cpp:328-345) look at their first operand, and may read others; a cast changes only the static type. Sizes and dtypes are not modelled, except that a cast may be inserted before a return. The work list of uses finds the same operations as a walk down the block, which is how it is done here: an operation comes after its operands'. The second pattern also follows uses in nested blocks, which are not modelled.

## Not modelled

* PyTorch, MLIR and LLVM. Operators are uninterpreted; types and attributes of MLIR are uniqued values; the textual IR is only
  modelled where this repository parses or prints it (torch types).
* Floating point arithmetic: bit patterns where only identity matters, rationals where the code compares or multiplies.
* int64 wrap-around of sizes.
* Locations, log messages and the text of diagnostics.
* Files, processes, threads and signals, except for what the harness does with their outcome.
* The lowerings in `lib/Conversion` (Torch to Linalg, TOSA, StableHLO, ONNX to Torch), decompositions, the lazy tensor backend's C++
  and the JIT importer's C++. The functions of `lib/` that are modelled are named in the headers above.

## Findings

Each of these is a theorem (`_refuted`, or an exception in a characterisation) about the model of the code as it is.

Types (`lib/Dialect/Torch/IR/TorchTypes.cpp`)
* Sparsity is ignored by subtyping and dropped by `meet` and by the changes of value semantics.
* Non-value tensors without sizes meet to a value tensor.
* `Optional Int` is no subtype of `Optional Number`; unions and optionals are treated asymmetrically.
* A tensor with sparsity but without sizes and dtype loses it when printed. The parser accepts a trailing comma and -1 as a size.
* String tensors pass verification but have no builtin type.

Dtypes
* ComplexHalf does not promote with reals; float8, float4 and bits types promote to uint8, even with themselves.
* The Python fold of `promote_dtypes` and the compiler pass disagree from three operands on.
* `TORCH_DTYPE_TO_INT`: complex32 and complex64 are off by one and complex128 is missing. The layout code of sparse_csc is the compiler's Mkldnn.
* `softplus` and `prims.sqrt` keep integers; `logaddexp` returns its first operand's dtype; `ldexp` of double and complex64 gives complex64.
* `matmul` of rank at most 2 picks the lower of two dtypes while `mm` promotes; `polar` on half returns half.
* conv1d and _convolution insist on equal dtypes while conv2d, conv3d and convolution return the input's.
* `std` and `var` accept integers; stft on bfloat16 with `return_complex` fails.

Shapes
* `convolution` and `conv1d` never check channels, groups, bias or that the kernel fits; `conv_tbc` returns a wrong shape.
* 'same' padding loses one for odd `d*(k-1)` and applies dilations to the axes in reverse.
* Batched matmul and linear never check the contracted sizes; addmm accepts a larger self; baddbmm ignores self; dot never compares lengths.
* A slice starting at INT64_MAX starts at 0; negative steps give wrong sizes.
* Reductions of rank 0 never check their axes; prims.sum/prod/var over no axes reduce everything.
* expand accepts sizes below -1; view fails for a zero product with -1; _unsafe_view returns -1 verbatim; unflatten and glu wrap twice.
* triu/tril_indices accept negative sizes; diag_embed compares axes before wrapping; reflection_pad1d never checks the length.
* constant_pad, repeat, pixel_shuffle and unfold can return negative sizes.
* Indexing with only None duplicates the last size; boolean masks are not told apart from indices.
* cosine_similarity is wrong for dim=-1 and accepts axes out of range; rot90 by an even count never checks its axes.
* Eleven elementwise operators, and masked_fill and masked_scatter, return their first operand's shape instead of the broadcast.
* sdpa broadcasts only the first axis, is wrong for rank 2 and never checks sizes; embedding_bag with no offsets and include_last gives -1.
* Pooling: default strides of max_pool3d and avg_pool3d are (kD,kD,kD); max_pool1d ignores the dilation; negative padding is accepted; empty batches are refused.
* stft.center is one off for odd n_fft when hop divides the length; col2im accepts kernels that fit nowhere; fft ignores n.
* interpolate handles only images; grid_sampler loses an axis of volumes; arange(-5,-2) is refused; cross_entropy refuses rank above 2.
* narrow with a negative start reaching the end gives 0; overruns are cut; view_as_complex never checks the last size; det refuses two batch axes.

FX importer
* The symbolic `mod` is imported as fmod; lt/ge/gt of (int, float) swap their operands.
* While loops with additional inputs give invalid IR, and a single carried value cannot be imported.
* `RefTracker` keys on addresses that can be reused: the temporary copy of a bool tensor is freed at once, so that a later bool literal can get an earlier one's contents.
* `TypeSubclassMap` remembers a stale None; BSC block sizes are put on swapped axes; function names of sub-modules can collide.
* flex_attention drops arguments after the seventh and ignores list masks.
* Frozen programs look up buffers only in the state dictionary, so non-persistent ones raise; mutated buffers are returned before the outputs.

ONNX importer
* Outer names override the names of subgraph inputs.
* A tensor type with no shape is imported with rank 0; typed UINT16, FLOAT16, BFLOAT16 and FP8 data are refused; the length of raw data is never checked; -1 is read as unknown.
* A missing domain in the opset imports raises UnboundLocalError; of duplicate imports the last is recorded and the first used.
* Sanitised names collide; function bodies that depend on the context are not shared; nested functions ignore the user's configuration.
* `_bind_attributes_in_subgraph` uses an undefined variable and graph attributes are never bound.

Harness and debugging
* Truncated traces pass; floats are not compared for negative goldens, NaN passes, and golden 0 raises; bools count as ints.
* One unsupported value makes the whole run raise; sequential mode runs tests twice.
* Self-checks that expect an error pass for any error. A dynamo graph is not recompiled when only a list becomes a tuple.

Registry and compiler interface
* C++ class names of operators are not injective; `emit_op` changes the list of traits it is given.
* Shape functions drop extra operands silently while dtype functions assert; numbers are passed to int parameters as they are.

Dynamo importer and running
* Keyword arguments of parameters that are not keyword-only are ignored; a tuple used directly is its first element; negative getitem raises.
* Result types are bound late: with several signatures results are read with the last one's types. bf16 and f16 share a token; i64 scalars are cut to 32 bits.
* Negative `dynamic_axes` are ignored; a rank-0 placeholder is traced as int64; one output with a mutation gives a 1-tuple.

Build scripts
* `overlay_directories.py`: a symbolic link to a directory in the overlay disappears; a dangling link beside a source entry of the same name raises; an overlay directory that the source lacks raises.
* `autogen_ltc_backend.py`: an absent optional keyword tensor takes the next operand; the generated yaml is hashed before it is written, so the second run always regenerates; `native_functions.yaml` is not hashed.

Folders of the torch dialect (lib/Dialect/Torch/IR/TorchOps.cpp)
* `aten.remainder.int` is folded with C++'s `%` (-7 % 3 gives -1); `aten.__range_length` is negative when the range ends more than a step before its start and divides by zero for step 0; `aten.len.str` counts bytes; integer results that overflow are undefined behaviour.
* `aten.floordiv.int` is computed with a double: wrong above 2^53, undefined for a divisor 0. The pattern for `(x * c) // c` also rewrites `c // (x * c)` to `x`.
* `x == x` and `x >= x` are folded to true for doubles (wrong for NaN); `0.0 / x` to 0.0 (wrong for zero, NaN and negative x).
* `isListPotentiallyMutated` only looks at direct users: a list changed through `torch.derefine`, `prim.unchecked_cast` or as an element of another list is folded with its old contents. `aten.eq.int_list` and `prim.min.self_int` do not look at mutation at all.
* `aten.slice.t` of a constructed list does not end or leaves the list for steps that are not positive, and dereferences the first element of an empty list. `prim.TupleIndex` with a negative index reads out of bounds. A dictionary with a repeated key folds to the first value.
* `AtenSliceTensorOp::fold` adds the remainder of the range to the limit instead of rounding the range up to a multiple of the step. A slice with step 3 over ten
  elements never meets its limit and leaves the literal; only remainders of 0 or half a step work. With a negative step and half a step remaining one element is
  lost and an error is emitted (C99_slice_refuted, C99_negative_step).
* `AtenCatOp::fold` asks operands that the operation ignores (empty, of rank one) for a size along an axis they do not have, and does not look at promotion
  (C100_cat_refuted). Its pattern replaces a concatenation of only empty tensors by one of no tensors (C100_cat_pattern_refuted).
* `AtenSelectIntOp::fold` uses a negative index as it is and reads in front of the elements (C100_select_refuted).
* `AtenWhereSelfOp::fold` returns the common value of both branches even if the condition gives the result more elements (C100_where_refuted).
* C101: add/sub/rsub/mul.Scalar/remainder of a narrow integer tensor (int32, int8) combine it with a constant kept at 64 bits, so `APInt`'s width assertion fails (`C101_narrow_refuted`); add/sub.Scalar with a negative constant on a narrow tensor fails the constructor's assertion (`C101_negative_scalar_refuted`).
* C101: float folds read an integer constant with `getZExtValue`-like conversion, because the constant is signless: −1 becomes 2^64 − 1 (`C101_float_negative_refuted`).
* C101: `aten.div.Tensor_mode` on integers computes in `uint64_t` (the common type of the conditional), so a negative dividend is wrong; floor is applied after the integer division; a zero divisor is undefined (`C101_int_div_refuted`). `aten.remainder` uses `srem`/`fmod`, which truncate, where PyTorch floors (`C101_remainder_refuted`).
* C102: comparison folds sign-extend a boolean element, so `True == 1` folds to false (`C102_compare_refuted`); an unsigned element is compared with a negative constant as 2^64 more; float/integer mixes fail an assertion (`C102_compare_mixed_refuted`).
* C102: `x == x` folds to true where x is NaN (`C102_eq_tensor_refuted`); `item` of a true boolean is −1, and `item(full(…, v))` is v whatever the tensor's dtype (`C102_item_refuted`); `full` of dtype bool with an even integer is False (`C102_full_refuted`); `prim.NumToTensor` of an integer constant into a float type (or back) asserts (`C102_num_to_tensor_refuted`).
* C102: rank-0 `true + true` is rewritten to the integer 2, whose boolean tensor is False; truncating division of constants above 2^53 goes through doubles (`C102_rank_zero_refuted`).

Passes (lib/Dialect/Torch/Transforms)

* C103: results of a function that shared storage are separate copies after MaximizeValueSemantics, so a caller that writes to one no longer sees it in the other (`C103_sharing_of_results_lost_refuted`).
* C104: `RewriteViewLikeSubgraph` follows every operand of a view-like operation. `expand_as(y, t)` (or `narrow.Tensor`) is reached from `t`, though it is a view of `y`; its result becomes a value at that point, and an overwrite of `y` before the copy.to_vtensor is lost. The other pattern had refused both copies (`C104_view_of_another_tensor_refuted`).
* C104: it copies back only returned results of views. If the copy.to_tensor is returned as well, a value is returned where the function's type says !torch.tensor (`C104_returned_copy_refuted`); if a view and a copy.to_vtensor of it are returned, both become !torch.tensor (`C104_returned_view_and_copy_refuted`).
* C105: the decomposition of `narrow` is `slice(start, start + length)`: with start = −length the end is 0 and nothing is left (`C105_narrow_of_the_end_refuted`). `roll` by more than the size of the axis is ignored, because both slices are clamped (`C105_roll_of_a_large_shift_refuted`). `hstack` of rank-0 tensors concatenates along axis 1 of vectors (`C105_hstack_of_a_scalar_refuted`). `select` does not check its index (`C105_select_out_of_range_refuted`).
* C106: `prims.squeeze` with an axis named twice removes a second axis (`C106_squeeze_named_twice_refuted`).
* C107: `channel_shuffle` splits the channels with outer length C/g where it means g; `prims.split_dim` then gives (C/g, g), and the result is the inverse shuffle (`C107_channel_shuffle_uses_the_wrong_groups_refuted`; `C107_channel_shuffle_partial` says exactly when it is right). The linalg and TOSA lowerings of split_dim read the declared result type and hide it; the shape function and the StableHLO lowering use the outer length.
* C107: `flatten` becomes `view` with a −1, which is ambiguous when a kept axis has size 0 (`C107_flatten_of_an_empty_tensor_refuted`), and does not check the last axis (`C107_flatten_past_the_end_refuted`). `unflatten` divides by each given size at compile time, also when nothing is to be inferred: a size 0 is undefined behaviour (`C107_unflatten_into_no_elements_refuted`).
* C107: `pixel_shuffle` of no channels and `pixel_unshuffle` of no rows split an axis by 0 (`C107_pixel_shuffle_of_no_channels_refuted`, `C107_pixel_unshuffle_of_no_rows_refuted`).
* C108: a repeat of −1 is broadcast as "unchanged" (`C108_negative_repeat_refuted`); `repeat_interleave.self_int` with an axis between −2r−2 and −r−2 writes a list out of bounds (`C108_repeat_interleave_of_a_bad_axis`).
* C109: `DecomposeAtenSoftshrinkOp` builds the branch below -lambd as `self + neglambd`: -2 with lambd 0.5 becomes -2.5 instead of -1.5. The tests draw inputs from [0, 1).
* C109: `DecomposeAtenLeakyReluBackwardOp` computes max(0, grad) + slope * min(0, x); the gradient is grad for positive x and slope * grad otherwise.
* C109: `DecomposeAtenPreluOp` multiplies input and weight with ordinary broadcasting, so several weights go to the last axis instead of the channels (it is also the target of ONNX PRelu, which does broadcast that way).
* C109: `DecomposeAtenRreluWithNoiseOp` always passes training = false. `DecomposeAtenRreluOp` takes min(0, alpha * x), wrong for negative alpha.
* C109: hardshrink and threshold select with `x > lambd`, so NaN becomes 0 or the value.
* C110: `DecomposeAtenNanToNumOp` replaces one after the other: nan_to_num(nan=inf) gives the replacement of +inf.
* C110: `DecomposeAtenRad2degOp` writes 180 / 3.14159. `DecomposeAtenSignbitOp` falls through to `return failure()` after replacing the operation for integers. fmod by infinity is NaN. fake_quantize bounds are vectors of one element, so a tensor without dimensions gains one.
* C111: triu_indices/tril_indices with a dtype other than int64 get a result type that says int64.
* C112: nonzero of a rank-0 tensor reads `shapeValues[0]` of an empty vector; masked_scatter with an empty source and an all-false mask selects element 0 of nothing; a mask larger than the tensor is not broadcast.
* C113: einsum is decomposed correctly for letters that are in at most two operands (`C113_einsum_partial`). A summed letter shared by three operands is contracted between the first two and then summed on its own in the third, so that "i,i,i->" gives (Σxy)(Σz). An equation without an arrow sums everything. "i,->" loses its last operand and reads outside of the vector of tokens. An ellipsis that stands for no dimensions is replaced by all unused letters of the alphabet, because the count is compared after it is increased.
* C114: the library source escapes quotation marks and newlines but not backslashes; `TextEmitter.quote` replaces a quotation mark by two backslashes and the mark, so it still ends the TableGen string; documentation in which `}]` is nested as `}}]]` keeps a `}]` after the marks are removed.
* C115: an unnamed second result is called `result1`, also when an operand or a named result has that name; `parseDefaultTorchOp` accepts any number of result types.
* C116: the shape signature of a type with both numbers and tensors keeps its tensors (the branches exclude each other); `List[Device]` is not renamed; the default `[[]]` becomes `((,),)`, which is not Python; string defaults with an apostrophe or quotation mark end early.
* C117: `_check_two_tensor_op` marks the pairs (float16, bfloat16) and (int8, uint8) as succeeding when the highest valid dtype is float16 or int8, although they promote to a refused third dtype; tensors in keyword arguments are not converted.
* C118: `exportPath` exports an attribute and a method of the same name together.
* `getMlirTypeFromTorchType` passes the import options to every contained type except those of a union, so inside unions tensors keep shapes and lose value semantics (C119_options_refuted); contained types that cannot be converted are passed on as null to the constructors of lists, optionals and tuples; int16 tensor literals are refused although the type is accepted (C119_literals_refuted); an annotation with an unsupported dtype gives a type bound without dtype (C119_type_bounds_refuted).
* `IValueImporter` compares doubles with `==` (through `isSameIdentity`), so −0.0 after 0.0 is imported as 0.0 (C120_zero_refuted); `rootModuleName` is reset on leaving any module, not only the root, so the message about shared storage loses its path after the first nested module (C120_path_refuted).
* `NodeImporter` never removes the values of inner blocks from its map, so a graph that uses one outside of its block is imported without complaint (C121_scoped_refuted); it adjusts the carried values of loops and what blocks yield, but not the condition and the count of a loop or the condition of a conditional (C121_conditions_refuted).
* `globalizeObjectGraph` names a specialised method after its first module only, so a private method that gets a second module has several specialisations of the same name (C122_names_refuted: the program is rejected by the verifier, or calls reach the first of them); a public method of a class with two instances that no function calls is dropped without an error (C122_exports_refuted); after the errors "non-existing module type" and "non-existing module slot" `collectUsedSlots` dereferences the end iterator (modelled as no result).
* C123 `C123_changed_refuted`: RefinePublicReturn counts the users of a `copy.to_tensor` but not those of the casts through which it came there. `copy.to_tensor`, then `tensor_static_info_cast` (the one user of the copy), then `overwrite.tensor.contents` on the cast tensor, then `return` of the cast tensor: the refined function returns the operand of the copy, which is the contents from before the overwriting (RefinePublicReturn.cpp l.69-87).
* C124 `C124_yield_refuted`: `torch.prim.If.yield` is `Pure` (TorchOps.td l.587-591) and has no results, so InlineGlobalSlots takes the yielding of a slot's tensor for a safe use (InlineGlobalSlots.cpp l.232-239). The result of the `prim.If` aliases the tensor and may be changed in place; the slot is inlined all the same and the change is lost. The same holds for `func.return`, which is pure too.
* C124 `C124_order_refuted`: the walk that starts the analysis sets a private slot to safe when it meets its declaration (InlineGlobalSlots.cpp l.158-164). If the slot was assigned earlier in the text this is a non-monotonic update: an assertion fails, or, without assertions, the slot counts as safe and is inlined although it is assigned.
* C125 `C125_appended_refuted`: ReduceOpVariants replaces a list operand by a new list of copies of the elements of the `prim.ListConstruct` that defines it, without asking whether the list was changed since (there is no guard like `isListPotentiallyMutated`): `l = [a]; l.append(b); cat(l)` becomes `cat([a])`. Also: every `torch.operator` that is neither in the extra library nor flash attention makes the pass fail (`isSpecializedOperation` always returns true); legality looks at direct operands only; a list of optionals of something else than tensors crashes (`OptionalType::get` of null).
* C126 `C126_resumed_refuted`: the second loop of AbstractlyInterpretListOpsWithinABlock stops at a changing user that it does not know, but the loop that rewrites goes over all users, so an append, insert or _set_item after it reads `listLiterals` beyond its end (SimplifyAbstractInterpCalculationsUtils.cpp l.205-241). `C126_held_refuted`: after `outer.append(l); l.append(x)` the first append is made to use the last literal, which is constructed after it (invalid IR). `C126_alias_refuted`: pure operations that hand on the list (derefine, unchecked casts, prim.If.yield) count as reads, so changes through the other name are lost.
* C127: FullyUnrollPrimLoopOp takes a loop for a for loop when its *initial* condition is the constant true (PrimLoopOp::isForLike), and does not look at the condition that the body yields: a loop that its body ends early is unrolled to all its iterations. A yielded value that is defined outside the body, and a negative trip count of a loop with results, reach IRMapping::lookup of a value that is not mapped.
* C128: import_onnx creates <input dir>/onnx-importer-temp and, when the in-memory shape inference succeeds, returns without removing it, with or without --keep-temps. It removes that directory when it starts, so an input file kept there by an earlier run with --keep-temps is deleted when it is named with the same --temp-dir. --clear-domain does not reach the nodes of subgraphs.
* C129: the option text of the backend pipelines is not quoted, so an extra library in a directory with a space in its name is cut at the space. The dynamo test configuration builds the option text for legal operations and the library and does not use it. In run_pipeline_with_repro_report get_asm is inside the try, so a module that cannot be printed makes the handler itself fail with an UnboundLocalError.
* C130: AtenLinalgCrossOp::verify compares kUnknownSize with known sizes, so operands of shapes [?,3] and [4,3] are refused. AtenKthvalueOp and AtenCountNonzeroOp refuse dim 0 of tensors of rank zero. AtenNormScalarOp refuses bf16. AtenCountNonzeroDimIntListOp refuses lists that are not constant, but only once shape inference has found the shape. AtenRot90Op compares the SSA values of its dims, so two equal constants pass, and checks no range.
* C131: GlobalSlotModuleInitializerOp::verify indexes slotSymNames by the operands of its terminator, and runs before InitializeGlobalSlotsOp::verify compares their numbers, so more values than names (possible in the generic form) fail an assertion instead of being reported. BindSymbolicShapeOp::verify calls isa on the defining operation of a symbol, which a block argument does not have.
* C132: `aten.select_scatter` with index -1 is decomposed into a `slice_scatter` from -1 to 0, which is empty, so it is an error for every tensor although PyTorch replaces the last position (dco l.10475-10485; the decomposition of `aten.select` does treat -1). `aten.one_hot` with `num_classes = -1` becomes `arange(-1)`, an error, and a class out of range gives zeros where PyTorch raises an error.
* C133: DecomposeAtenPadOp scans constant pads with an unsigned index that is decreased by two while it is positive: after the pair at 0 it wraps, so pads that are all zero (or empty) access the vector out of bounds instead of taking the branch that returns the input (dco l.9341-9349). DecomposeAtenAdaptivePool2dOp accepts an input of size 1 with an output of 2 or more and creates a pool of stride 0. DecomposeAtenConvPaddingOp pads "same" by the rounded half on both sides, so the output is one short whenever dilation*(kernel-1) is odd, and takes every text but "valid" for "same".
* C134: DecomposeAtenIndexPutLikeOp does not advance the axis of the input on a missing index (dco l.12657-12661), so in `x[:, mask] = v` the sizes of the mask are compared with the first axis: for x of shape [2,3] a mask of shape [3] is refused and one of shape [2] is accepted.
* C135: DecomposeAtenAminAmaxOp sorts the dims in descending order before negative dims are made positive (dco, `std::sort(dims.rbegin(), dims.rend())`), so for keepdim=False a list with dims of both signs is reduced in the wrong order: `amax(x, (0, -2))` reduces axes 0 and rank-1 without an error, and `(0, -1)` reduces an axis that no longer exists.
* C136: DecomposeAtenBucketizeTensorOp selects the last comparison, so it fails for empty boundaries, for which every element has bucket 0.
* C137: DecomposeAtenTopkOp passes k to aten.slice.Tensor as the end, so a k that is negative or larger than the axis, which topk rejects, silently gives n+k or n elements.

