{"id": "C01", "title": "Rewritten as_strided reads the right elements", "statement": "When the importer replaces an as_strided node by an index operation on a base tensor, every element of the replacement equals the storage element that PyTorch's as_strided denotes (offset plus the stride-weighted index), and the result has the requested size.", "quantifier": "all ranks, sizes, strides, offsets, base layouts (including permuted, padded and zero-size ones) and storage contents", "why_tests_cant": "Tests exercise a handful of rank-1/2/3 contiguous layouts; the decoder's greedy division has to be right for every stride system.", "anchors": ["python/torch_mlir/extras/fx_as_strided.py:_indices", "python/torch_mlir/extras/fx_as_strided.py:rewrite_as_strided (module entry)"]}
{"id": "C02", "title": "as_strided is never refused on a dense row-major base", "statement": "For a base tensor in dense row-major layout, every as_strided view that stays inside the storage is rewritten (the decoder finds indices) rather than rejected.", "quantifier": "all dense row-major shapes without zero-size dimensions and all in-range views", "why_tests_cant": "Completeness is a statement over all offsets and strides at once.", "anchors": ["python/torch_mlir/extras/fx_as_strided.py:_indices"]}
{"id": "C03", "title": "The as_strided rewrite changes nothing else in the graph", "statement": "After the rewrite every node that existed before still computes the same value under the same name, generated constant names are fresh, and the graph still binds every name once.", "quantifier": "all graphs with any number of as_strided nodes", "why_tests_cant": "Name freshness and frame conditions depend on arbitrary existing attribute/node names.", "anchors": ["python/torch_mlir/extras/fx_as_strided.py:_constant", "python/torch_mlir/extras/fx_as_strided.py:rewrite"]}
{"id": "C04", "title": "Symbolic dimension expressions keep their value", "statement": "A symbolic dimension expression that is accepted is turned into an affine expression that evaluates to the same integer for every assignment of the symbols; anything the translation cannot express is rejected, never approximated.", "quantifier": "all expression trees over symbols, integers, +, *, non-negative integer powers and modulo; all symbol assignments", "why_tests_cant": "Expression depth and assignments are unbounded.", "anchors": ["python/torch_mlir/extras/fx_importer.py:sympy_expr_to_semi_affine_expr"]}
{"id": "C05", "title": "bind_symbolic_shape describes the tensor's true shape", "statement": "The affine map attached to a value, applied to the symbol operands it is given, yields exactly the value's dimension sizes, for every assignment of the symbols; each symbol used is an operand exactly once.", "quantifier": "all shapes of mixed constants and expressions, all symbol sets and name orders, all assignments", "why_tests_cant": "The symbol/operand order agreement must hold for every set of names.", "anchors": ["python/torch_mlir/extras/fx_importer.py:GraphNodeImporter._create_bind_symbolic_shape_ops"]}
{"id": "C06", "title": "Symbolic range guards never exclude an admissible size", "statement": "The min/max bounds emitted for a shape symbol contain every value its source range allows that fits in a 64-bit integer, and the bounds themselves are 64-bit.", "quantifier": "all ranges, finite or infinite on either side", "why_tests_cant": "Interval endpoints are unbounded.", "anchors": ["python/torch_mlir/extras/fx_importer.py:ContextCache.set_symbolic_guards", "python/torch_mlir/extras/fx_importer.py:FxImporter.import_program"]}
{"id": "C07", "title": "Importing an FX graph preserves its meaning", "statement": "If a graph is imported, running the emitted straight-line block on the same inputs gives the same outputs as interpreting the graph node by node by name, for any interpretation of the operators.", "quantifier": "all graphs (any size, any sharing, placeholders, calls, multi-result nodes, constants, outputs) and all operator semantics", "why_tests_cant": "Unit tests compare text for a few graphs; the claim quantifies over every program and operator semantics.", "anchors": ["python/torch_mlir/extras/fx_importer.py:GraphNodeImporter.import_nodes", "python/torch_mlir/extras/fx_importer.py:GraphNodeImporter.bind_node_value", "python/torch_mlir/extras/fx_importer.py:GraphNodeImporter.resolve_node_value"]}
{"id": "C08", "title": "Imported blocks are in SSA form", "statement": "Every operand of an emitted operation is a block argument or the result of an earlier operation, and every value is defined once.", "quantifier": "all imported graphs", "why_tests_cant": "Dominance for arbitrary graphs, including lazily materialised parameters in the middle of the block.", "anchors": ["python/torch_mlir/extras/fx_importer.py:GraphNodeImporter.resolve_node_value", "python/torch_mlir/extras/fx_importer.py:GraphNodeImporter.import_nodes"]}
{"id": "C09", "title": "Parameters, buffers and constants are materialised at most once and only when used", "statement": "However often a lifted parameter/buffer/constant is used, one load is emitted for it, placed before its first use, and none when it is unused; all uses see the same value.", "quantifier": "all sequences of bind/resolve calls", "why_tests_cant": "Order and number of uses are unbounded.", "anchors": ["python/torch_mlir/extras/fx_importer.py:GraphNodeImporter.resolve_node_value", "python/torch_mlir/extras/fx_importer.py:GraphNodeImporter.lazy_import_buffer"]}
{"id": "C10", "title": "Mutated user inputs end up holding the final value", "statement": "After the imported function runs, each mutable argument whose mutation the program reports holds the value produced by the mutating node, and arguments not reported as mutated are unchanged.", "quantifier": "all programs, any number of mutated inputs and all producer/target pairings", "why_tests_cant": "Requires reasoning over every pairing of producers and targets.", "anchors": ["python/torch_mlir/extras/fx_importer.py:FxImporter.import_program", "python/torch_mlir/extras/fx_importer.py:GraphNodeImporter._on_node_produced"]}
{"id": "C11", "title": "Two mutations with the same producer are both performed", "statement": "When one node produces the new value of two mutated targets (two inputs, or an input and a buffer), both targets receive it.", "quantifier": "all programs in which two targets share a producer", "why_tests_cant": "Needs a particular aliasing of producers no example test covers.", "anchors": ["python/torch_mlir/extras/fx_importer.py:GraphNodeImporter._on_node_produced", "python/torch_mlir/extras/fx_importer.py:FxImporter.import_program"]}
{"id": "C12", "title": "User outputs are returned in order", "statement": "The results of the imported function are exactly the program's user outputs, in order, with constant outputs replaced by their literal values, and mutation outputs omitted.", "quantifier": "all output signatures mixing user outputs, mutations and constants", "why_tests_cant": "All interleavings of output kinds.", "anchors": ["python/torch_mlir/extras/fx_importer.py:FxImporter.import_program", "python/torch_mlir/extras/fx_importer.py:GraphNodeImporter.return_node_values"]}
{"id": "C13", "title": "Comparisons and arithmetic on mixed symbolic int/float keep operand order", "statement": "A scalar symbolic comparison or arithmetic node imported with one int and one float operand computes the same result as the source expression.", "quantifier": "all operand values and all supported scalar operators", "why_tests_cant": "Argument swapping is only wrong for non-commutative operators and unequal operands.", "anchors": ["python/torch_mlir/extras/fx_importer.py:GraphNodeImporter._import_symbolic_torch_op"]}
{"id": "C14", "title": "Operator calls are completed to the full schema", "statement": "The operand list emitted for an operator call has one operand per schema argument, in schema order: the positional argument if given, else the keyword argument, else the schema default; a missing required argument is an error.", "quantifier": "all schemas, argument lists and keyword sets", "why_tests_cant": "All combinations of positional/keyword/default arguments.", "anchors": ["python/torch_mlir/extras/fx_importer.py:GraphNodeImporter._import_torch_op_overload"]}
{"id": "C15", "title": "getitem selects the right result", "statement": "Importing getitem(node, i) of a multi-result node yields the i-th result; for a list/tuple-valued single result it yields the i-th unpacked element, and the unpacking is emitted once per node.", "quantifier": "all nodes, indices and orders of getitem", "why_tests_cant": "Any number and order of accesses.", "anchors": ["python/torch_mlir/extras/fx_importer.py:GraphNodeImporter._import_getitem"]}
{"id": "C16", "title": "Imported while loops iterate as the source loop", "statement": "The loop emitted for while_loop(cond, body, carried, extra) terminates with the same carried values as the source loop whenever the source loop terminates.", "quantifier": "all condition/body semantics, carried values and iteration counts", "why_tests_cant": "Unbounded iteration.", "anchors": ["python/torch_mlir/extras/fx_importer.py:GraphNodeImporter._import_hop_while_loop"]}
{"id": "C17", "title": "Object identity tracking gives one constant per tensor", "statement": "Asking for the constant of the same live tensor twice gives the same constant, and distinct tensors never share one.", "quantifier": "all histories of tensor creation, tracking and garbage collection", "why_tests_cant": "Depends on allocation history (address reuse).", "anchors": ["python/torch_mlir/extras/fx_importer.py:RefTracker.track", "python/torch_mlir/extras/fx_importer.py:RefMapping"]}
{"id": "C18", "title": "Type-dispatch table resolves every subclass consistently", "statement": "Looking up a value's type returns the handler registered for the exact type if any, else the first registered base class handler; repeated lookups agree.", "quantifier": "all class hierarchies and interleavings of registration and lookup", "why_tests_cant": "All interleavings of map and lookup.", "anchors": ["python/torch_mlir/extras/fx_importer.py:TypeSubclassMap"]}
{"id": "C19", "title": "Sparse encodings describe the tensor's layout", "statement": "The dimension-to-level map emitted for COO/CSR/CSC/BSR/BSC tensors sends distinct coordinates to distinct level coordinates within the level sizes implied by the shape and block size.", "quantifier": "all shapes, batch ranks and block sizes", "why_tests_cant": "All block shapes, including non-square ones.", "anchors": ["python/torch_mlir/extras/fx_importer.py:sparsity_encoding"]}
{"id": "C20", "title": "Functions imported for sub-modules get distinct symbol names", "statement": "No two functions placed in a module by repeated graph imports share a symbol name, and calls refer to the function imported for their target.", "quantifier": "all sequences of imports and requested names", "why_tests_cant": "Name collisions with generated suffixes.", "anchors": ["python/torch_mlir/extras/fx_importer.py:FxImporter._graph_module_to_func_name / import_graph_module"]}
{"id": "C21", "title": "Tensor types are cached by all that determines them", "statement": "Two tensor metadata records receive the same MLIR type from the cache only when the types they denote are equal.", "quantifier": "all sequences of type requests", "why_tests_cant": "Cache histories are unbounded.", "anchors": ["python/torch_mlir/extras/fx_importer.py:ContextCache.tensor_metadata_to_type"]}
{"id": "C22", "title": "Importing an ONNX graph preserves its meaning", "statement": "If a graph is imported, executing the emitted function gives the same outputs as evaluating the ONNX graph by value names, for every interpretation of the ONNX operators, provided no subgraph declares an input whose name is already visible around it (ONNX forbids that). A graph is imported exactly when every name used is visible at its use.", "quantifier": "all graphs, nested subgraphs, inputs, initializers, optional inputs and operator semantics", "why_tests_cant": "Every program, not a corpus.", "anchors": ["python/torch_mlir/extras/onnx_importer.py:NodeImporter.import_all", "python/torch_mlir/extras/onnx_importer.py:NodeImporter.import_node"]}
{"id": "C23", "title": "Elided initializers become constants, other inputs become arguments", "statement": "The function arguments are exactly the declared graph inputs that have no initializer (when elision is on), in declaration order, and every elided input's value is its initializer.", "quantifier": "all graphs and both elision settings", "why_tests_cant": "All overlaps of inputs and initializers.", "anchors": ["python/torch_mlir/extras/onnx_importer.py:GraphInfo", "python/torch_mlir/extras/onnx_importer.py:NodeImporter.define_function"]}
{"id": "C24", "title": "Value types are found with a fixed precedence", "statement": "The type used for a name is its value_info entry, else its output declaration, else its declared input, else the type of its initializer (Constant nodes included); a name found nowhere has the none type.", "quantifier": "all graphs and names", "why_tests_cant": "All overlaps of the tables.", "anchors": ["python/torch_mlir/extras/onnx_importer.py:GraphInfo.find_type_proto_for_name"]}
{"id": "C25", "title": "Subgraph names shadow outer names", "statement": "Inside a nested graph (If/Loop/Scan body) a name declared by the nested graph refers to the nested value, otherwise to the enclosing scope.", "quantifier": "all nesting depths and name reuse patterns", "why_tests_cant": "Name reuse across scopes.", "anchors": ["python/torch_mlir/extras/onnx_importer.py:NodeImporter.import_regions"]}
{"id": "C26", "title": "Function-based operators are expanded once per signature and version", "statement": "Uses of a function-expanded operator call the same private function exactly when they have the same key (name, version, types and attributes; for context-dependent bodies the whole specialised node), each private function is created once, and the chosen function version is the newest one not newer than the model's opset.", "quantifier": "all sequences of operator uses, all version tables", "why_tests_cant": "Histories and version tables are unbounded.", "anchors": ["python/torch_mlir/extras/onnx_importer.py:ModuleCache.get_operator_function"]}
{"id": "C27", "title": "Sanitised names are legal identifiers", "statement": "Sanitising any ONNX name gives a non-empty name made only of letters, digits, underscores and dots and not starting with a digit; a legal name is unchanged, so distinct legal names stay distinct.", "quantifier": "all strings", "why_tests_cant": "All strings.", "anchors": ["python/torch_mlir/extras/onnx_importer.py:_sanitize_name"]}
{"id": "C28", "title": "Broadcast shape is the common shape of aligned indices", "statement": "The computed broadcast of two shapes has the larger rank, each output size is the one both (right-aligned, missing = 1) sizes expand to, the function fails exactly when some pair differs with neither 1; it is commutative, associative and idempotent.", "quantifier": "all shapes of any rank", "why_tests_cant": "Ranks and sizes are unbounded.", "anchors": ["lib/Dialect/Torch/Transforms/AbstractInterpLibrary.cpp:broadcast", "projects/pt1/python/torch_mlir/jit_ir_importer/build_tools/abstract_interp_lib_gen.py:aten〇add〇Tensor〡shape"]}
{"id": "C29", "title": "Dimension wrapping accepts exactly [-rank, rank)", "statement": "A dimension argument d is accepted iff -r <= d < r (r = max(rank,1) for 0-d tensors) and denotes d or d + r.", "quantifier": "all dims and ranks", "why_tests_cant": "All integers.", "anchors": ["lib/Dialect/Torch/Transforms/AbstractInterpLibrary.cpp:maybe_wrap_dim"]}
{"id": "C30", "title": "expand/broadcast_to produce the requested size", "statement": "expand(self, size) succeeds exactly when each trailing size is -1 or equals the input size or the input size is 1, and leading new dims are given; the result is size with -1 replaced by the input size.", "quantifier": "all shapes and sizes", "why_tests_cant": "All ranks.", "anchors": ["lib/Dialect/Torch/Transforms/AbstractInterpLibrary.cpp:expand"]}
{"id": "C31", "title": "view/reshape keep the number of elements", "statement": "Whenever view succeeds the result has as many elements as the input, equals the requested sizes except at an inferred -1, and the inferred size is uniquely determined; inconsistent requests fail.", "quantifier": "all shapes and requested sizes", "why_tests_cant": "All integers.", "anchors": ["lib/Dialect/Torch/Transforms/AbstractInterpLibrary.cpp:view", "lib/Dialect/Torch/Transforms/AbstractInterpLibrary.cpp:infer_size_impl"]}
{"id": "C32", "title": "Slice size counts the selected indices", "statement": "The size computed for slicing a dimension equals the number of indices a Python slice start:end:step selects on a sequence of that length, for positive and negative steps and any out-of-range bounds.", "quantifier": "all dimension sizes, starts, ends and non-zero steps", "why_tests_cant": "Unbounded integers with clamping corner cases.", "anchors": ["projects/pt1/python/torch_mlir/jit_ir_importer/build_tools/abstract_interp_lib_gen.py:aten〇slice〇Tensor〡shape", "lib/Dialect/Torch/Transforms/AbstractInterpLibrary.cpp:slice"]}
{"id": "C33", "title": "Matrix-multiplication shapes", "statement": "matmul's result shape is: () for vector·vector, batch-broadcast prefix followed by the non-contracted dims otherwise; it fails exactly on rank-0 operands, contraction mismatch or unbroadcastable batches.", "quantifier": "all ranks and shapes", "why_tests_cant": "All rank combinations.", "anchors": ["lib/Dialect/Torch/Transforms/AbstractInterpLibrary.cpp:matmul"]}
{"id": "C34", "title": "Concatenation and stacking shapes", "statement": "cat's result agrees with every non-skipped input off the concatenation dim and its size there is the sum; stack inserts a new dimension of size the number of inputs.", "quantifier": "all lists of shapes and dims", "why_tests_cant": "Any number of inputs and ranks.", "anchors": ["lib/Dialect/Torch/Transforms/AbstractInterpLibrary.cpp:cat", "lib/Dialect/Torch/Transforms/AbstractInterpLibrary.cpp:stack"]}
{"id": "C35", "title": "Permutation-like ops re-index dimensions", "statement": "permute/transpose/movedim/numpy_T return the input sizes re-indexed by the requested permutation; they preserve rank and element count and reject repeated dims.", "quantifier": "all shapes and dim lists", "why_tests_cant": "All permutations of all ranks.", "anchors": ["lib/Dialect/Torch/Transforms/AbstractInterpLibrary.cpp:permute", "lib/Dialect/Torch/Transforms/AbstractInterpLibrary.cpp:transpose", "lib/Dialect/Torch/Transforms/AbstractInterpLibrary.cpp:movedim", "projects/pt1/python/torch_mlir/jit_ir_importer/build_tools/abstract_interp_lib_gen.py:aten〇numpy_T〡shape"]}
{"id": "C36", "title": "Reductions remove or flatten exactly the reduced dims", "statement": "sum/mean/amax/any over a dim list (none = all) with keepdim gives size 1 at reduced dims, otherwise drops them, and keeps every other size in order.", "quantifier": "all shapes, dim lists and keepdim", "why_tests_cant": "All ranks.", "anchors": ["lib/Dialect/Torch/Transforms/AbstractInterpLibrary.cpp:sum_mean_dim", "lib/Dialect/Torch/Transforms/AbstractInterpLibrary.cpp:argmax"]}
{"id": "C37", "title": "Pooling output size counts window positions", "statement": "The pooling output size equals the number of window start positions that fit in the padded input (rounding up only when the last window starts inside the input or left padding in ceil mode).", "quantifier": "all sizes, kernels, strides, paddings and dilations", "why_tests_cant": "Unbounded integers with rounding.", "anchors": ["lib/Dialect/Torch/Transforms/AbstractInterpLibrary.cpp:pooling_output_shape_pad_lr", "projects/pt1/python/torch_mlir/jit_ir_importer/build_tools/abstract_interp_lib_gen.py:avg_pool2d"]}
{"id": "C38", "title": "Default pooling stride is the kernel size", "statement": "When no stride is given, each spatial dimension uses its own kernel extent as stride.", "quantifier": "all kernels and inputs, 1-d, 2-d and 3-d pooling", "why_tests_cant": "Only non-cubic kernels reveal a mix-up.", "anchors": ["projects/pt1/python/torch_mlir/jit_ir_importer/build_tools/abstract_interp_lib_gen.py:_max_pool3d", "projects/pt1/python/torch_mlir/jit_ir_importer/build_tools/abstract_interp_lib_gen.py:avg_pool3d", "projects/pt1/python/torch_mlir/jit_ir_importer/build_tools/abstract_interp_lib_gen.py:avg_pool2d", "projects/pt1/python/torch_mlir/jit_ir_importer/build_tools/abstract_interp_lib_gen.py:pool1d"]}
{"id": "C39", "title": "Convolution output sizes", "statement": "Each spatial output size equals the number of kernel placements (dilated kernel, padded input, stride); the transposed convolution size inverts it.", "quantifier": "all inputs, kernels, strides, paddings, dilations, groups", "why_tests_cant": "Unbounded integers.", "anchors": ["lib/Dialect/Torch/Transforms/AbstractInterpLibrary.cpp:conv_output_size", "lib/Dialect/Torch/Transforms/AbstractInterpLibrary.cpp:conv_forwards"]}
{"id": "C40", "title": "Flatten/collapse/split/unflatten keep element count", "statement": "flatten, collapse, split_dim and unflatten preserve the number of elements and leave dims outside the range untouched; split_dim inverts collapse.", "quantifier": "all shapes and ranges", "why_tests_cant": "All ranks.", "anchors": ["lib/Dialect/Torch/Transforms/AbstractInterpLibrary.cpp:flatten", "projects/pt1/python/torch_mlir/jit_ir_importer/build_tools/abstract_interp_lib_gen.py:prims〇collapse〡shape", "projects/pt1/python/torch_mlir/jit_ir_importer/build_tools/abstract_interp_lib_gen.py:prims〇split_dim〡shape", "projects/pt1/python/torch_mlir/jit_ir_importer/build_tools/abstract_interp_lib_gen.py:aten〇unflatten〇int〡shape"]}
{"id": "C41", "title": "triu_indices/tril_indices count the triangle", "statement": "The number of columns reported equals the number of (row, col) pairs on or above (below) the offset diagonal, and the two counts partition the matrix.", "quantifier": "all matrix sizes and offsets", "why_tests_cant": "Closed-form counts over all integers.", "anchors": ["projects/pt1/python/torch_mlir/jit_ir_importer/build_tools/abstract_interp_lib_gen.py:aten〇tril_indices〡shape", "projects/pt1/python/torch_mlir/jit_ir_importer/build_tools/abstract_interp_lib_gen.py:aten〇triu_indices〡shape"]}
{"id": "C42", "title": "Diagonal shapes", "statement": "diagonal's last size is the number of positions (i, i+offset) inside the two chosen dims; diag_embed followed by diagonal gives back the original shape; equal dims are rejected.", "quantifier": "all shapes, offsets and dim pairs incl. negative", "why_tests_cant": "All ranks and offsets.", "anchors": ["projects/pt1/python/torch_mlir/jit_ir_importer/build_tools/abstract_interp_lib_gen.py:aten〇diagonal〡shape", "projects/pt1/python/torch_mlir/jit_ir_importer/build_tools/abstract_interp_lib_gen.py:_diag_embed_shape_helper", "projects/pt1/python/torch_mlir/jit_ir_importer/build_tools/abstract_interp_lib_gen.py:aten〇diag〡shape"]}
{"id": "C43", "title": "Padding, repetition and pixel shuffling shapes", "statement": "pad adds each (low, high) pair to the matching trailing dim; repeat/tile multiply right-aligned dims; pixel_unshuffle inverts pixel_shuffle and both keep the element count.", "quantifier": "all shapes and parameters", "why_tests_cant": "All ranks.", "anchors": ["projects/pt1/python/torch_mlir/jit_ir_importer/build_tools/abstract_interp_lib_gen.py:pad_shape_fn", "projects/pt1/python/torch_mlir/jit_ir_importer/build_tools/abstract_interp_lib_gen.py:aten〇repeat〡shape", "projects/pt1/python/torch_mlir/jit_ir_importer/build_tools/abstract_interp_lib_gen.py:aten〇tile〡shape", "projects/pt1/python/torch_mlir/jit_ir_importer/build_tools/abstract_interp_lib_gen.py:aten〇pixel_shuffle〡shape"]}
{"id": "C44", "title": "Advanced indexing shapes", "statement": "Indexing with tensors on some dims gives the broadcast of the index shapes placed where the indexed dims were when these are adjacent and at the front otherwise, with the remaining dims in order.", "quantifier": "all shapes and index lists with gaps", "why_tests_cant": "All index placement patterns.", "anchors": ["projects/pt1/python/torch_mlir/jit_ir_importer/build_tools/abstract_interp_lib_gen.py:index_tensor_like"]}
{"id": "C45", "title": "Two-operand elementwise shapes follow broadcasting", "statement": "Every elementwise operator on two tensors (remainder, fmod, logaddexp, clamp with tensor bounds, polar, ...) reports the broadcast of its operands' shapes.", "quantifier": "all operand shapes", "why_tests_cant": "A test must pick operands where the second one is larger.", "anchors": ["projects/pt1/python/torch_mlir/jit_ir_importer/build_tools/abstract_interp_lib_gen.py:aten〇remainder〇Tensor〡shape", "projects/pt1/python/torch_mlir/jit_ir_importer/build_tools/abstract_interp_lib_gen.py:aten〇logaddexp〡shape", "projects/pt1/python/torch_mlir/jit_ir_importer/build_tools/abstract_interp_lib_gen.py:aten〇clamp〇Tensor〡shape"]}
{"id": "C46", "title": "Negative dimension arguments mean counting from the end", "statement": "Every shape function with a dim argument gives the same result for d and d - rank.", "quantifier": "all shapes and dims", "why_tests_cant": "Each op must be tested with each negative dim.", "anchors": ["projects/pt1/python/torch_mlir/jit_ir_importer/build_tools/abstract_interp_lib_gen.py:aten〇cosine_similarity〡shape", "projects/pt1/python/torch_mlir/jit_ir_importer/build_tools/abstract_interp_lib_gen.py:aten〇repeat_interleave〇self_int〡shape", "projects/pt1/python/torch_mlir/jit_ir_importer/build_tools/abstract_interp_lib_gen.py:aten〇glu〡shape"]}
{"id": "C47", "title": "'same' padding keeps the spatial size", "statement": "A stride-1 convolution with padding='same' reports the input's spatial size.", "quantifier": "all kernels and dilations", "why_tests_cant": "Even kernels and unequal dilations only.", "anchors": ["projects/pt1/python/torch_mlir/jit_ir_importer/build_tools/abstract_interp_lib_gen.py:_conv_padding", "projects/pt1/python/torch_mlir/jit_ir_importer/build_tools/abstract_interp_lib_gen.py:aten〇conv2d〇padding〡shape"]}
{"id": "C48", "title": "Type promotion is a join", "statement": "Promotion of dtypes is commutative, associative and idempotent on the ordinary dtypes, and the result is the least dtype both operands convert to in the promotion order.", "quantifier": "all pairs and triples of dtypes, all lists of operands", "why_tests_cant": "Table of hundreds of entries; laws over all combinations and list lengths.", "anchors": ["lib/Dialect/Torch/Utils/TorchUpstream.cpp:promoteTypes", "projects/pt1/python/torch_mlir/jit_ir_importer/build_tools/library_generator.py:promote_dtypes"]}
{"id": "C49", "title": "Promoting a dtype with itself gives that dtype", "statement": "For every supported dtype, including the 8-bit floats, promotion with itself returns it.", "quantifier": "all dtypes with a code", "why_tests_cant": "The table omits some dtypes.", "anchors": ["lib/Dialect/Torch/Utils/TorchUpstream.cpp:promoteTypes"]}
{"id": "C50", "title": "Result dtype respects operand categories", "statement": "Dimensioned tensors outrank 0-d tensors which outrank Python scalars unless a lower-priority operand has a higher category (bool < int < float < complex).", "quantifier": "all lists of operands", "why_tests_cant": "Unbounded operand lists.", "anchors": ["lib/Dialect/Torch/Utils/TorchUpstream.cpp:result_type", "lib/Dialect/Torch/Utils/TorchUpstream.cpp:combine_categories"]}
{"id": "C51", "title": "Dtype codes agree across the importer and the compiler", "statement": "The integer code the importer emits for a dtype is the code the compiler decodes to the same dtype, and distinct dtypes have distinct codes.", "quantifier": "all dtypes", "why_tests_cant": "Two tables in different languages.", "anchors": ["python/torch_mlir/extras/fx_importer.py:TORCH_DTYPE_TO_INT", "include/torch-mlir/Dialect/Torch/Utils/TorchUpstream.h:ScalarType"]}
{"id": "C52", "title": "Subtyping is a sound preorder", "statement": "The compiler's subtype relation is reflexive and transitive, and every value of a subtype is a value of the supertype.", "quantifier": "all types of any nesting", "why_tests_cant": "Type nesting is unbounded.", "anchors": ["lib/Dialect/Torch/IR/TorchTypes.cpp:isValidSubtype"]}
{"id": "C53", "title": "Combining static tensor information loses and invents nothing", "statement": "The meet of two tensor types, when it exists, describes exactly the tensors both describe; it is null exactly when they are contradictory; it is commutative, associative and idempotent.", "quantifier": "all tensor types", "why_tests_cant": "All ranks and sizes.", "anchors": ["lib/Dialect/Torch/IR/TorchTypes.cpp:meetTensorTypes"]}
{"id": "C54", "title": "Tensor types survive printing and parsing", "statement": "Parsing the printed form of a tensor type gives back the same type.", "quantifier": "all tensor types", "why_tests_cant": "All sizes, dtypes and encodings.", "anchors": ["lib/Dialect/Torch/IR/TorchTypes.cpp:printTensorType", "lib/Dialect/Torch/IR/TorchTypes.cpp:parseTensorType"]}
{"id": "C55", "title": "A test passes only if every recorded call matches the golden trace", "statement": "A test is reported as passed exactly when compilation and execution succeeded, the trace has the same calls as the golden one, and all inputs and outputs agree (structure, types, shapes, values within tolerance).", "quantifier": "all traces and nested values", "why_tests_cant": "All value trees and traces.", "anchors": ["projects/pt1/python/torch_mlir_e2e_test/reporting.py:ValueReport", "projects/pt1/python/torch_mlir_e2e_test/reporting.py:SingleTestReport"]}
{"id": "C56", "title": "Suite status is unexpected iff some test misbehaves", "statement": "Each result is classified in exactly one of PASS/FAIL/XFAIL/XPASS and the suite reports failure exactly when some result is FAIL or XPASS; crashed tests still get a failing result.", "quantifier": "all result lists and expected-failure sets", "why_tests_cant": "All sets.", "anchors": ["projects/pt1/python/torch_mlir_e2e_test/reporting.py:report_results", "projects/pt1/python/torch_mlir_e2e_test/framework.py:run_tests"]}
{"id": "C57", "title": "Shape/dtype checks accept exactly agreeing functions", "statement": "A library function passes its self-check iff on every invocation it and the real operator both raise (for error invocations) or both succeed with equal results.", "quantifier": "all invocation lists and behaviours", "why_tests_cant": "All behaviours of function and operator.", "anchors": ["projects/pt1/python/torch_mlir/jit_ir_importer/build_tools/testing_framework.py:check_shape_function", "projects/pt1/python/torch_mlir/jit_ir_importer/build_tools/testing_framework.py:_get_fn_and_golden_results"]}
{"id": "C58", "title": "Lockstep debugging frees values exactly after their last use", "statement": "No node reads a freed value, each value that is used is freed once right after its last user, and results equal the golden evaluation.", "quantifier": "all graphs", "why_tests_cant": "All graph shapes.", "anchors": ["projects/pt1/python/torch_mlir_e2e_test/debug/lockstep.py:_make_last_use_map"]}
{"id": "C59", "title": "Calling-convention adjustment is undone for the caller", "statement": "The wrapped backend returns results in the structure (tuple, list, single element) of the original graph output.", "quantifier": "all output structures", "why_tests_cant": "All structures.", "anchors": ["projects/pt1/python/torch_mlir/dynamo.py:_adjust_calling_convention"]}
{"id": "C60", "title": "Operator names round-trip through library function names", "statement": "The (namespace, name, overload) triple of an operator is recovered from the name of its shape/dtype function, so each function is checked against the right operator; value-semantic operators never write to their operands.", "quantifier": "all operator triples", "why_tests_cant": "All names.", "anchors": ["projects/pt1/python/torch_mlir/jit_ir_importer/build_tools/registry.py:JitOperator.get_mlir_names", "projects/pt1/python/torch_mlir/jit_ir_importer/build_tools/library_generator.py:_verify_signature_matches_registry"]}
{"id": "C61", "title": "ONNX types become the torch types that describe the same values", "statement": "Every ONNX element type that is accepted maps to the torch type with the same kind and width, a ranked tensor keeps its rank, static sizes and unknown sizes in order, and sequences and optionals map to lists and optionals of the mapped element type.", "quantifier": "all ONNX type descriptors", "why_tests_cant": "All nestings and ranks.", "anchors": ["python/torch_mlir/extras/onnx_importer.py:ContextCache.type_proto_to_type", "python/torch_mlir/extras/onnx_importer.py:ContextCache.tensor_element_type"]}
{"id": "C62", "title": "Every node attribute is carried over once, with its value", "statement": "The emitted operator has one attribute per ONNX attribute of a supported kind, with the same name and payload, one region per graph attribute and none for other kinds; an import succeeds exactly when every attribute is of a supported kind.", "quantifier": "all attribute lists", "why_tests_cant": "All lists of attributes.", "anchors": ["python/torch_mlir/extras/onnx_importer.py:NodeImporter.import_attributes", "python/torch_mlir/extras/onnx_importer.py:NodeImporter.import_regions"]}
{"id": "C63", "title": "Tensor literals keep their elements", "statement": "An imported tensor literal has the declared shape and element type and lists the stored elements in order (one repeated element for a splat); raw little-endian data is passed on byte for byte.", "quantifier": "all tensors of any size", "why_tests_cant": "All payloads.", "anchors": ["python/torch_mlir/extras/onnx_importer.py:ContextCache.tensor_proto_to_attr"]}
{"id": "C64", "title": "Nodes are compiled against the recorded opset", "statement": "The opset version recorded on the function for each domain is the version nodes of that domain are resolved with, for models importing each domain once.", "quantifier": "all opset import lists", "why_tests_cant": "All lists.", "anchors": ["python/torch_mlir/extras/onnx_importer.py:NodeImporter._populate_graph_attrs", "python/torch_mlir/extras/onnx_importer.py:ModuleCache.get_operator_function"]}
{"id": "C65", "title": "Function bodies are specialised to the caller", "statement": "In a specialised function body every attribute reference is replaced by the caller's attribute of that name, else the function's default, else dropped; declared inputs and outputs get the caller's types in order.", "quantifier": "all callers, defaults and bodies", "why_tests_cant": "All bodies.", "anchors": ["python/torch_mlir/extras/onnx_importer.py:_bind_attributes_on_node", "python/torch_mlir/extras/onnx_importer.py:_specialize_function_and_create_model"]}
{"id": "C66", "title": "Exactly the library functions that are called get imported", "statement": "Importing a set of needed library functions adds each of them and each function they call, directly or transitively, exactly once, adds nothing else, terminates for recursive and mutually recursive libraries, and fails exactly when one of them is missing from the library.", "quantifier": "all libraries (call graphs) and sets of needed functions", "why_tests_cant": "Every call graph, cyclic or not.", "anchors": ["lib/Dialect/Torch/Transforms/ReifyAbstractInterpCalculationsUtils.cpp:importLibraryFunctions"]}
{"id": "C67", "title": "Operands are converted to the parameters of shape and dtype functions", "statement": "The operations inserted before a call of a shape or dtype function are well typed exactly when the operand's type fits the parameter's, and then compute a value of the parameter's type: the sizes (or rank and dtype) of each tensor wherever it is nested in lists and optionals, integers as floats where floats are wanted, None as None, and everything else unchanged.", "quantifier": "all operand and parameter types of any nesting, all values", "why_tests_cant": "Nested types are unbounded; tests use the types of existing operators.", "anchors": ["lib/Dialect/Torch/Transforms/ReifyAbstractInterpCalculationsUtils.cpp:adjustFunctionArg", "lib/Dialect/Torch/Transforms/ReifyShapeCalculations.cpp:shapeFunctionArgsBuilder", "lib/Dialect/Torch/Transforms/ReifyDtypeCalculations.cpp:dtypeFunctionArgsBuilder"]}
{"id": "C68", "title": "Functions defined on real numbers give floating point results", "statement": "Every dtype function of a transcendental or dividing operator keeps floating and complex dtypes, turns integer and bool operands into float32, gives a real dtype for norms of complex operands, and follows the rounding mode of divisions.", "quantifier": "all named operators, all operand ranks and dtypes, all rounding modes", "why_tests_cant": "447 functions times all dtypes, ranks and optional operands.", "anchors": ["projects/pt1/python/torch_mlir/jit_ir_importer/build_tools/abstract_interp_lib_gen.py:_get_dtype_of_floating_point_op", "projects/pt1/python/torch_mlir/jit_ir_importer/build_tools/abstract_interp_lib_gen.py:aten〇div〇Tensor_mode〡dtype", "projects/pt1/python/torch_mlir/jit_ir_importer/build_tools/abstract_interp_lib_gen.py:aten〇ldexp〇Tensor〡dtype"]}
{"id": "C69", "title": "Binary and ternary operators return the promoted dtype", "statement": "The dtype functions of arithmetic operators on tensors and numbers return PyTorch's promotion of exactly the operands that take part, do not depend on the operands' order, fail only on the dtypes they refuse, and are total on ordinary dtypes.", "quantifier": "all named operators, all operand ranks and dtypes, any number of operands", "why_tests_cant": "Tests pick a handful of dtype pairs per operator.", "anchors": ["projects/pt1/python/torch_mlir/jit_ir_importer/build_tools/library_generator.py:promote_dtypes", "projects/pt1/python/torch_mlir/jit_ir_importer/build_tools/abstract_interp_lib_gen.py:aten〇where〇self〡dtype", "projects/pt1/python/torch_mlir/jit_ir_importer/build_tools/abstract_interp_lib_gen.py:aten〇floor_divide〡dtype", "projects/pt1/python/torch_mlir/jit_ir_importer/build_tools/abstract_interp_lib_gen.py:aten〇cat〡dtype"]}
{"id": "C70", "title": "Reductions choose the dtype of their accumulator", "statement": "Sums over integers give int64, a given dtype wins, means refuse integral results, deviations and norms of complex operands are real, any/all give bool except for uint8, and reductions with indices give int64 indices.", "quantifier": "all named reductions, all dtypes, with and without a given dtype", "why_tests_cant": "All dtypes and optional dtypes.", "anchors": ["projects/pt1/python/torch_mlir/jit_ir_importer/build_tools/abstract_interp_lib_gen.py:aten〇sum〡dtype", "projects/pt1/python/torch_mlir/jit_ir_importer/build_tools/abstract_interp_lib_gen.py:aten〇mean〡dtype", "projects/pt1/python/torch_mlir/jit_ir_importer/build_tools/abstract_interp_lib_gen.py:aten〇linalg_vector_norm〡dtype", "projects/pt1/python/torch_mlir/jit_ir_importer/build_tools/abstract_interp_lib_gen.py:aten〇any〡dtype"]}
{"id": "C71", "title": "Created and converted tensors have the requested dtype", "statement": "An operator that takes a dtype returns it, or refuses it exactly when the operator is not defined for it, and otherwise uses the documented default: that of the operand, of the number, or the operator's own.", "quantifier": "all named creation and conversion operators, all dtypes and numbers", "why_tests_cant": "All dtypes for each operator.", "anchors": ["projects/pt1/python/torch_mlir/jit_ir_importer/build_tools/abstract_interp_lib_gen.py:aten〇arange〡dtype", "projects/pt1/python/torch_mlir/jit_ir_importer/build_tools/abstract_interp_lib_gen.py:aten〇full〡dtype", "projects/pt1/python/torch_mlir/jit_ir_importer/build_tools/abstract_interp_lib_gen.py:aten〇_softmax〡dtype", "projects/pt1/python/torch_mlir/jit_ir_importer/build_tools/abstract_interp_lib_gen.py:aten〇ScalarImplicit〡dtype"]}
{"id": "C72", "title": "Predicates and index operators have a fixed dtype", "statement": "Comparisons and tests return bool and index-valued operators int64 (int32 where asked) whatever their operands, refusing exactly the dtypes they are not defined on.", "quantifier": "all named operators, all operands", "why_tests_cant": "All operands.", "anchors": ["projects/pt1/python/torch_mlir/jit_ir_importer/build_tools/abstract_interp_lib_gen.py:aten〇bucketize〇Tensor〡dtype", "projects/pt1/python/torch_mlir/jit_ir_importer/build_tools/abstract_interp_lib_gen.py:aten〇one_hot〡dtype", "projects/pt1/python/torch_mlir/jit_ir_importer/build_tools/abstract_interp_lib_gen.py:aten〇bincount〡dtype", "projects/pt1/python/torch_mlir/jit_ir_importer/build_tools/abstract_interp_lib_gen.py:aten〇_int_mm〡dtype"]}
{"id": "C73", "title": "Data movement and neural network operators keep the dtype", "statement": "Operators that move, select or pool elements return the dtype of their first operand; those with several results give each result its dtype; operators on two tensors of one dtype refuse others.", "quantifier": "all 138 named operators and those with several results, all dtypes", "why_tests_cant": "All dtypes for each operator.", "anchors": ["projects/pt1/python/torch_mlir/jit_ir_importer/build_tools/abstract_interp_lib_gen.py:aten〇view〡dtype", "projects/pt1/python/torch_mlir/jit_ir_importer/build_tools/abstract_interp_lib_gen.py:aten〇broadcast_tensors〡dtype", "projects/pt1/python/torch_mlir/jit_ir_importer/build_tools/abstract_interp_lib_gen.py:aten〇rrelu_with_noise_functional〡dtype"]}
{"id": "C74", "title": "Dtype functions refuse exactly the dtypes the operator does", "statement": "For operators undefined on some dtypes the dtype function fails on exactly those and returns the right dtype on all others.", "quantifier": "all named operators and dtypes", "why_tests_cant": "All dtypes for each operator.", "anchors": ["projects/pt1/python/torch_mlir/jit_ir_importer/build_tools/abstract_interp_lib_gen.py:aten〇layer_norm〡dtype", "projects/pt1/python/torch_mlir/jit_ir_importer/build_tools/abstract_interp_lib_gen.py:aten〇elu〡dtype", "projects/pt1/python/torch_mlir/jit_ir_importer/build_tools/abstract_interp_lib_gen.py:aten〇_weight_norm_interface〡dtype", "projects/pt1/python/torch_mlir/jit_ir_importer/build_tools/abstract_interp_lib_gen.py:aten〇nll_loss_forward〡dtype"]}
{"id": "C75", "title": "Matrix products return the promoted dtype", "statement": "mm, bmm and matmul agree: batched and vector products need equal dtypes, others return the promotion of both.", "quantifier": "all ranks and dtypes", "why_tests_cant": "All ranks and dtypes.", "anchors": ["projects/pt1/python/torch_mlir/jit_ir_importer/build_tools/abstract_interp_lib_gen.py:aten〇matmul〡dtype", "projects/pt1/python/torch_mlir/jit_ir_importer/build_tools/abstract_interp_lib_gen.py:aten〇mm〡dtype", "projects/pt1/python/torch_mlir/jit_ir_importer/build_tools/abstract_interp_lib_gen.py:aten〇bmm〡dtype"]}
{"id": "C76", "title": "Complex and quantized dtypes correspond to their parts", "statement": "view_as_real inverts polar, Fourier transforms return the complex dtype over the operand's precision, and int_repr inverts the constructors of quantized tensors, on dtypes.", "quantifier": "all dtypes", "why_tests_cant": "All dtypes.", "anchors": ["projects/pt1/python/torch_mlir/jit_ir_importer/build_tools/abstract_interp_lib_gen.py:aten〇polar〡dtype", "projects/pt1/python/torch_mlir/jit_ir_importer/build_tools/abstract_interp_lib_gen.py:aten〇view_as_real〡dtype", "projects/pt1/python/torch_mlir/jit_ir_importer/build_tools/abstract_interp_lib_gen.py:aten〇fft_fft〡dtype", "projects/pt1/python/torch_mlir/jit_ir_importer/build_tools/abstract_interp_lib_gen.py:aten〇stft〡dtype", "projects/pt1/python/torch_mlir/jit_ir_importer/build_tools/abstract_interp_lib_gen.py:aten〇int_repr〡dtype"]}
{"id": "C77", "title": "TorchDynamo graphs are imported with their meaning", "statement": "A graph is accepted by verification exactly when it is in the documented subset, every accepted graph whose nodes are ready in order is imported, the function has the traced input and result types, and it computes what the graph computes - for graphs that pass keyword arguments only to keyword-only parameters, index only multi-result nodes, use these only by index, and name devices without an index; each of these four restrictions is shown to be necessary.", "quantifier": "all FX graphs of any size, all operator semantics and inputs", "why_tests_cant": "Graphs and operators are unbounded; tests import a dozen graphs.", "anchors": ["projects/pt1/python/torch_mlir/_dynamo_fx_importer.py:import_fx_graph_as_func", "projects/pt1/python/torch_mlir/_dynamo_fx_importer.py:_verify_fx_graph_conforms_to_subset", "projects/pt1/python/torch_mlir/_dynamo_fx_importer.py:_FXGraphImporter"]}
{"id": "C78", "title": "The TorchDynamo importer translates types, codes and literals", "statement": "JIT types translate to their counterparts in the dialect and nothing else does; traced tensors get their sizes and dtype; dtype, memory format and layout codes are the compiler's; and a literal argument is imported exactly when it fits the parameter's type. Exceptions: lists of strings have no translation, and sparse_csc shares the code of Mkldnn.", "quantifier": "all JIT types, fake tensors, arguments of any nesting", "why_tests_cant": "Nested types and literals are unbounded.", "anchors": ["projects/pt1/python/torch_mlir/_dynamo_fx_importer.py:_torch_type_to_mlir_type_string", "projects/pt1/python/torch_mlir/_dynamo_fx_importer.py:_import_fake_tensor_as_mlir_type", "projects/pt1/python/torch_mlir/_dynamo_fx_importer.py:_import_literal", "projects/pt1/python/torch_mlir/_dynamo_fx_importer.py:DTYPE_TO_INT"]}
{"id": "C79", "title": "Calls of compiled functions return the functions' values", "statement": "The calling-convention pass accepts exactly the modules whose public functions take memrefs of the eleven element types and return types with a word, rewrites each function, and declares each callback used once, in order; lists of known result types have distinct callback names, which Python reads back; and a call of a public function whose signature is the only or the last one returns exactly its values. Exceptions, each proved: with several signatures results are read with the last one's types, bfloat16 results are read as float16, functions without results cannot be called, 64-bit numbers are cut to 32 bits, 32-bit numbers and signed bytes are not returned, and arrays are never compared with the function's arguments.", "quantifier": "all modules, functions, result types, values and arguments", "why_tests_cant": "The callbacks are named and typed by text; tests use one function per module.", "anchors": ["lib/RefBackend/RefBackend.cpp:mungeFunction", "lib/RefBackend/RefBackend.cpp:getConsumeReturnFunctionNameForReturnTypes", "projects/pt1/python/torch_mlir_e2e_test/linalg_on_tensors_backends/refbackend.py:get_ctype_func", "projects/pt1/python/torch_mlir_e2e_test/linalg_on_tensors_backends/refbackend.py:RefBackendInvoker"]}
{"id": "C80", "title": "Structures of tensors survive the trip to numpy and back", "statement": "recursively_convert_to_numpy and recursively_convert_from_numpy convert exactly the structures of tensors (arrays) of shared dtypes, strings and numbers, element by element, and undo each other; results of compiled functions are converted the same way when they are arrays, numbers and tuples and refused otherwise; of a tuple of results exactly the user's are kept in order. Exception: a single user output comes back as a tuple of one when the program also updates a buffer.", "quantifier": "all nested structures of tensors", "why_tests_cant": "Structures nest without bound.", "anchors": ["projects/pt1/python/torch_mlir_e2e_test/configs/utils.py:recursively_convert_to_numpy", "projects/pt1/python/torch_mlir_e2e_test/configs/utils.py:recursively_convert_from_numpy", "projects/pt1/python/torch_mlir_e2e_test/configs/fx_importer_backend.py:refine_result_type", "projects/pt1/python/torch_mlir_e2e_test/configs/fx_importer_backend.py:FxImporterTestConfig._export_run"]}
{"id": "C81", "title": "Example arguments describe what will be compiled", "statement": "Placeholders carry the sizes and dtype of their tensor except at the dynamic axes; arguments are normalised to one list per method and anything but tensors and placeholders refused; annotations and traced examples agree with the arguments given, placeholders being refused when traced shapes count; ONNX export gets examples, distinct names and exactly the unknown dimensions; output types are found by name in any case, and each has its own pipeline. Exceptions, each proved: negative dynamic axes are ignored, a rank-0 placeholder is traced as an int64, and only one unknown size of all the arguments is marked dynamic.", "quantifier": "all shapes, dtypes, argument lists, method tables and texts", "why_tests_cant": "Shapes, lists and texts are unbounded.", "anchors": ["python/torch_mlir/compiler_utils.py:TensorPlaceholder.like", "python/torch_mlir/compiler_utils.py:OutputType.get", "python/torch_mlir/compiler_utils.py:lower_mlir_module", "projects/pt1/python/torch_mlir/torchscript.py:ExampleArgs", "projects/pt1/python/torch_mlir_e2e_test/utils.py:convert_annotations_to_placeholders", "projects/pt1/python/torch_mlir_e2e_test/configs/onnx_backend.py:convert_onnx", "projects/pt1/python/torch_mlir_e2e_test/configs/fx_importer_backend.py:FxImporterTestConfig._stateless_run"]}
{"id": "C82", "title": "Elementwise operators and reductions follow their operands", "statement": "238 operators have the shape function their documentation calls for: the shape of one operand, no axes, or a pair of these, each listed once; and 20 reductions remove (or keep with size one) exactly the axes given, all axes when none are given. Exceptions, each proved: masked_fill, masked_scatter and others ignore broadcasting, _unsafe_view returns -1 as given, dot never compares lengths, and the prims reductions over no axes reduce everything.", "quantifier": "all operators of the table, all shapes, axis lists and keepdim flags", "why_tests_cant": "Hundreds of operators times unbounded shapes; tests use a few shapes each.", "anchors": ["projects/pt1/python/torch_mlir/jit_ir_importer/build_tools/abstract_interp_lib_gen.py:aten〇sin〡shape", "projects/pt1/python/torch_mlir/jit_ir_importer/build_tools/abstract_interp_lib_gen.py:aten〇sum〇dim_IntList〡shape", "projects/pt1/python/torch_mlir/jit_ir_importer/build_tools/abstract_interp_lib_gen.py:prims〇sum〡shape"]}
{"id": "C83", "title": "Products, lookups and attention have the shapes of their definitions", "statement": "linear, addmm, addbmm, baddbmm, outer, bilinear, _trilinear, scaled dot product attention, embedding, embedding_bag, one_hot, det, slogdet, cross, trace, kthvalue and channel_shuffle accept exactly the shapes stated in the specification and return the shape of the mathematical result. Exceptions, each proved: with two or more batch axes linear does not compare the contracted sizes, addmm accepts a self larger than the product, baddbmm ignores self, outer accepts matrices, attention broadcasts only the first axis and compares no other size, embedding_bag with no offsets has size -1, det refuses two batch axes and cross never looks at its axis.", "quantifier": "all operand shapes of any rank", "why_tests_cant": "Shapes are unbounded; tests use one or two per operator.", "anchors": ["projects/pt1/python/torch_mlir/jit_ir_importer/build_tools/abstract_interp_lib_gen.py:aten〇linear〡shape", "projects/pt1/python/torch_mlir/jit_ir_importer/build_tools/abstract_interp_lib_gen.py:aten〇_trilinear〡shape", "projects/pt1/python/torch_mlir/jit_ir_importer/build_tools/abstract_interp_lib_gen.py:aten〇scaled_dot_product_attention〡shape", "projects/pt1/python/torch_mlir/jit_ir_importer/build_tools/abstract_interp_lib_gen.py:aten〇embedding〡shape", "projects/pt1/python/torch_mlir/jit_ir_importer/build_tools/abstract_interp_lib_gen.py:aten〇embedding_bag〇padding_idx〡shape"]}
{"id": "C84", "title": "Windows are counted", "statement": "unfold, stft, stft.center, fft_rfft and col2im return (and require) exactly the number of windows of the given size and step that fit the axis, and real transforms the number of frequencies k/n with 2k <= n. Exceptions, each proved: unfold accepts negative sizes and steps, a centered stft with an odd window counts one frame too many when the hop divides the length and refuses windows longer than the unpadded signal, and col2im accepts kernels that fit nowhere.", "quantifier": "all lengths, window sizes, hops, dilations, paddings and strides", "why_tests_cant": "Counting formulas with floor division go wrong at the boundary cases tests skip.", "anchors": ["projects/pt1/python/torch_mlir/jit_ir_importer/build_tools/abstract_interp_lib_gen.py:aten〇unfold〡shape", "projects/pt1/python/torch_mlir/jit_ir_importer/build_tools/abstract_interp_lib_gen.py:aten〇stft〡shape", "projects/pt1/python/torch_mlir/jit_ir_importer/build_tools/abstract_interp_lib_gen.py:aten〇stft〇center〡shape", "projects/pt1/python/torch_mlir/jit_ir_importer/build_tools/abstract_interp_lib_gen.py:aten〇fft_rfft〡shape", "projects/pt1/python/torch_mlir/jit_ir_importer/build_tools/abstract_interp_lib_gen.py:aten〇col2im〡shape"]}
{"id": "C85", "title": "Resized images keep batch and channels", "statement": "interpolate, upsample, grid_sampler, roi_align, roi_pool and deform_conv2d keep the batch and channel sizes (of the operand documented) and give the requested sizes, or each size times its factor with the fraction dropped; exactly one of size and factor is required, and the .vec overloads agree with interpolate. Exceptions, each proved: images of other ranks than 4 are refused or lose an axis.", "quantifier": "all sizes and rational factors", "why_tests_cant": "Scaling and truncation range over all rationals.", "anchors": ["projects/pt1/python/torch_mlir/jit_ir_importer/build_tools/abstract_interp_lib_gen.py:aten〇__interpolate〇size_list_scale_list〡shape", "projects/pt1/python/torch_mlir/jit_ir_importer/build_tools/abstract_interp_lib_gen.py:aten〇upsample_nearest2d〇vec〡shape", "projects/pt1/python/torch_mlir/jit_ir_importer/build_tools/abstract_interp_lib_gen.py:aten〇grid_sampler〡shape", "projects/pt1/python/torch_mlir/jit_ir_importer/build_tools/abstract_interp_lib_gen.py:torchvision〇roi_align〡shape", "projects/pt1/python/torch_mlir/jit_ir_importer/build_tools/abstract_interp_lib_gen.py:torchvision〇deform_conv2d〡shape"]}
{"id": "C86", "title": "Ranges have as many elements as there are values before the end", "statement": "arange.start_step succeeds exactly when the bounds are in the order of a nonzero step, and then its size n is the one number such that start + i*step lies before the end exactly for the i below n; likewise arange and arange.start; linspace, eye, iota, hann_window, _shape_as_tensor and multinomial have the sizes given. Exception, proved: arange.start refuses ranges that end below zero.", "quantifier": "all rational bounds and steps", "why_tests_cant": "Bounds and steps range over all rationals.", "anchors": ["projects/pt1/python/torch_mlir/jit_ir_importer/build_tools/abstract_interp_lib_gen.py:aten〇arange〇start_step〡shape", "projects/pt1/python/torch_mlir/jit_ir_importer/build_tools/abstract_interp_lib_gen.py:aten〇arange〇start〡shape", "projects/pt1/python/torch_mlir/jit_ir_importer/build_tools/abstract_interp_lib_gen.py:aten〇arange〡shape", "projects/pt1/python/torch_mlir/jit_ir_importer/build_tools/abstract_interp_lib_gen.py:aten〇multinomial〡shape"]}
{"id": "C87", "title": "Losses and normalisations return one value per example and per statistic", "statement": "nll_loss_forward and cross_entropy_loss accept exactly scores of one example or of a batch with a matching target and one weight per class, and return a loss per example or one; elementwise losses return the operand's shape or no axes; layer norm's statistics keep the leading sizes and have ones for the normalised axes, batch norm's have the channels while training. Exceptions, each proved: losses of pixels and probability targets are refused, and the normalised sizes are never compared with the operand's.", "quantifier": "all shapes, weights and reductions", "why_tests_cant": "Shapes are unbounded.", "anchors": ["projects/pt1/python/torch_mlir/jit_ir_importer/build_tools/abstract_interp_lib_gen.py:aten〇nll_loss_forward〡shape", "projects/pt1/python/torch_mlir/jit_ir_importer/build_tools/abstract_interp_lib_gen.py:aten〇cross_entropy_loss〡shape", "projects/pt1/python/torch_mlir/jit_ir_importer/build_tools/abstract_interp_lib_gen.py:aten〇kl_div〡shape", "projects/pt1/python/torch_mlir/jit_ir_importer/build_tools/abstract_interp_lib_gen.py:aten〇native_layer_norm〡shape", "projects/pt1/python/torch_mlir/jit_ir_importer/build_tools/abstract_interp_lib_gen.py:aten〇native_batch_norm〡shape"]}
{"id": "C88", "title": "Parts, complex views and in-place operands", "statement": "narrow replaces the axis by the length of a part within it; the complex and real views undo each other; count_nonzero removes exactly the axes given and refuses others; an in-place operand is accepted exactly when it broadcasts to the first operand's shape, which is returned; and the shapes of nonzero and masked_select are right for one value of the unknown size. Exceptions, each proved: parts that start from the end and reach it get size 0, parts that overrun are cut, view_as_complex does not require a last size of 2, and nms returns two axes.", "quantifier": "all shapes, starts, lengths and element predicates", "why_tests_cant": "Shapes and data are unbounded.", "anchors": ["projects/pt1/python/torch_mlir/jit_ir_importer/build_tools/abstract_interp_lib_gen.py:aten〇narrow〡shape", "projects/pt1/python/torch_mlir/jit_ir_importer/build_tools/abstract_interp_lib_gen.py:aten〇view_as_complex〡shape", "projects/pt1/python/torch_mlir/jit_ir_importer/build_tools/abstract_interp_lib_gen.py:aten〇count_nonzero〇dim_IntList〡shape", "lib/Dialect/Torch/Transforms/AbstractInterpLibrary.cpp:broadcast_inplace", "projects/pt1/python/torch_mlir/jit_ir_importer/build_tools/abstract_interp_lib_gen.py:aten〇nonzero〡shape", "projects/pt1/python/torch_mlir/jit_ir_importer/build_tools/abstract_interp_lib_gen.py:torchvision〇nms〡shape"]}
{"id": "C89", "title": "Frozen programs keep their meaning", "statement": "import_frozen_program puts, for each input of the signature, its parameter, else its buffer, else its lifted constant in place (refusing exactly when a name is missing); freezing substitutes these values everywhere at once and removes exactly these inputs; and the imported function called with the user's inputs returns what the program returns with its state in place. Exception, proved: a buffer kept only in the constants (a non-persistent one) makes the import fail.", "quantifier": "all exported programs, signatures, states, operator semantics and inputs", "why_tests_cant": "Programs, states and inputs are unbounded.", "anchors": ["python/torch_mlir/extras/fx_importer.py:FxImporter.import_frozen_program"]}
{"id": "C90", "title": "Imported functions have the type they declare", "statement": "The declared operand types are those of the placeholders in order; a type is declared exactly when every placeholder and every returned value has one; and the values returned by the imported body have exactly the declared result types, for metadata that agrees with itself (items have the type recorded in their tuple, constants that of their value, several results are recorded as several).", "quantifier": "all FX graphs of any size", "why_tests_cant": "Graphs are unbounded; a mismatch only shows up when the module is verified.", "anchors": ["python/torch_mlir/extras/fx_importer.py:FxImporter._graph_to_function_meta", "python/torch_mlir/extras/fx_importer.py:GraphNodeImporter.import_nodes"]}
{"id": "C91", "title": "Attention calls carry their operands and functions", "statement": "A flex_attention call becomes one operation whose operands hold the query, key, value, scale and the two kernel options, whose symbols are the functions imported for the score and mask submodules exactly when these are given, and whose results are bound with the recorded types. Exception, proved: the tensors captured by the two functions are dropped.", "quantifier": "all graphs, calls, options and operator semantics", "why_tests_cant": "Graphs and arguments are unbounded.", "anchors": ["python/torch_mlir/extras/fx_importer.py:GraphNodeImporter._import_hop_flex_attention"]}
{"id": "C92", "title": "Tensor literals are the tensors", "statement": "The literal of a tensor has the tensor's element type, sizes and contents; exactly the dtypes with a numpy type have literals; one-element literals are written in place and others under a name that determines sizes and dtype; and in every sequence of tensors that are not bool each literal is that of its own tensor. Exception, proved: the temporary copy of a bool tensor may reuse the address of an earlier copy and then gets the earlier tensor's contents.", "quantifier": "all tensors, sequences of literals and allocations", "why_tests_cant": "Address reuse depends on the allocator and shows up in no deterministic test.", "anchors": ["python/torch_mlir/extras/fx_importer.py:_make_vtensor_literal_op", "python/torch_mlir/extras/fx_importer.py:GraphNodeImporter._import_literal", "python/torch_mlir/extras/fx_importer.py:RefTracker"]}
{"id": "C93", "title": "Overlaid directories hold both trees", "statement": "The overlay script succeeds exactly when the overlay fits the source (every overlay directory is a directory of the source, no overlay file is named like a source entry that is not replaced), and then the resulting tree read at any path gives the overlay's entry if there is one, else the source's; every entry is a link to the file it stands for and every directory with overlay entries is a real one. Exception, proved: a symbolic link to a directory in the overlay is in neither place of the result.", "quantifier": "all directory trees of any depth and width", "why_tests_cant": "Trees are unbounded and the script only runs inside one build.", "anchors": ["utils/bazel/overlay_directories.py:main"]}
{"id": "C94", "title": "Lowering functions of the lazy backend pass every operand on", "statement": "In the generated lowering of an operator every positional and keyword argument of the schema reaches its own parameter of the call, reading the node's operands in order; the operand counter is declared exactly when it is read; and an operator without a body is exactly one that needs none. Exception, proved: an absent optional keyword tensor takes the following operand.", "quantifier": "all schemas with any number of arguments and any operand presence", "why_tests_cant": "Schemas come from a file of the installed framework; absent arguments shift operands silently.", "anchors": ["build_tools/autogen_ltc_backend.py:GenMlirLazyIr.lowering_function"]}
{"id": "C95", "title": "Operator lists and regeneration of the lazy backend", "statement": "Every registered operator is in one of the lists, each list holds exactly what its rule says, the generated, composite and skipped ones do not overlap unless the configuration or a generated variant names an operator twice, the functions to generate come in the order of the list, the shape-inference check reports exactly the missing and the unnecessary definitions, and generation runs exactly when the hash of its inputs changed, reaching a fixed point after two runs. Exceptions, proved: an in-place operator whose functional variant is generated is still reported as skipped; a second run without changes can generate again; changes of native_functions.yaml are not noticed.", "quantifier": "all operator registries, configurations and histories of runs", "why_tests_cant": "The lists depend on the installed framework and on earlier runs.", "anchors": ["build_tools/autogen_ltc_backend.py:GenTorchMlirLTC.generate_native_functions", "build_tools/autogen_ltc_backend.py:GenTorchMlirLTC.generate_shape_inference", "build_tools/autogen_ltc_backend.py:GenTorchMlirLTC.__call__"]}
{"id": "C96", "title": "Folding scalar operations keeps their value", "statement": "For aten.add/sub/mul/neg.int, max, min, derive_index, the boolean operators, conversions between bool and int, integer comparisons (with what is known about sizes), comparisons with None, and string operations: whenever the folder answers, the answer is the value the operation has at run time for every environment in which the constants have their values, as long as the result fits 64 bits; constants are always folded; and what is folded without two constants is exactly listed. Exceptions, each proved: remainder.int is C++'s % (wrong for operands of different signs), range_length is negative or a division by zero for empty ranges and step 0, len.str counts bytes, and results that do not fit are undefined in C++.", "quantifier": "all operands, constants and environments", "why_tests_cant": "The operand values and the definitions a folder sees are unbounded.", "anchors": ["lib/Dialect/Torch/IR/TorchOps.cpp:AtenAddIntOp::fold", "lib/Dialect/Torch/IR/TorchOps.cpp:AtenRemainderIntOp::fold", "lib/Dialect/Torch/IR/TorchOps.cpp:Aten__RangeLengthOp::fold", "lib/Dialect/Torch/IR/TorchOps.cpp:intComparatorFoldHelper", "lib/Dialect/Torch/IR/TorchOps.cpp:atenIsOrIsNotFoldHelper"]}
{"id": "C97", "title": "Folding operations with doubles", "statement": "The doubles the folders compute with are the nearest ones (ties to even) and integers up to 2^53 are exact; aten.div.int is then the nearest double of the quotient; Int.float truncates, ceil.Scalar rounds up and both refuse values that are not finite as stated; comparisons of doubles are right for numbers that are not NaN; and the patterns for products of products and quotients of products keep the value. Exceptions, each proved: floordiv.int goes through a double (wrong above 2^53, undefined for 0), c // (x*c) is rewritten to x, x == x and x >= x are folded to true for NaN, and 0.0 / x is folded to 0.0 for every x.", "quantifier": "all 64-bit integers and all doubles", "why_tests_cant": "There are 2^128 pairs of operands; the wrong ones are rare.", "anchors": ["lib/Dialect/Torch/IR/TorchOps.cpp:AtenFloordivIntOp::fold", "lib/Dialect/Torch/IR/TorchOps.cpp:AtenFloordivIntOp::getCanonicalizationPatterns", "lib/Dialect/Torch/IR/TorchOps.cpp:floatComparatorFoldHelper", "lib/Dialect/Torch/IR/TorchOps.cpp:AtenDivIntOp::fold", "lib/Dialect/Torch/IR/TorchOps.cpp:AtenIntFloatOp::fold"]}
{"id": "C98", "title": "Folding operations on lists keeps what programs compute", "statement": "In every program in which a list is not changed through its own value and no other value or list can hold it, the list still has the elements it was built from at every later operation; so len, __getitem__, add, mul, slice with a positive step, unpack, any, all, ==, min and `in` fold or are rewritten to exactly what executing them gives, and they are folded exactly when the list is built in view and not changed. Exceptions, each proved: the analysis does not see changes through another name (derefine, or an element of a list), == and min do not look at changes at all, slices of empty lists and with other steps crash, a negative tuple index is out of bounds, and a dictionary with a repeated key folds to the first value.", "quantifier": "all programs of list operations of any length", "why_tests_cant": "Programs and lists are unbounded; aliasing needs particular sequences of operations.", "anchors": ["lib/Dialect/Torch/IR/TorchOps.cpp:isListPotentiallyMutated", "lib/Dialect/Torch/IR/TorchOps.cpp:AtenLenTOp::fold", "lib/Dialect/Torch/IR/TorchOps.cpp:AtenSliceTOp::getCanonicalizationPatterns", "lib/Dialect/Torch/IR/TorchOps.cpp:AtenEqIntListOp::fold", "lib/Dialect/Torch/IR/TorchOps.cpp:PrimTupleIndexOp::getCanonicalizationPatterns"]}
{"id": "C99", "title": "Slices of constant tensors", "statement": "When aten.slice.Tensor on a constant tensor is folded, the literal has the element begin + step * j of the operand at position j of the axis and the operand's element elsewhere. Exceptions, each proved: a positive step whose remainder over the range is neither 0 nor half a step moves the limit to where the walk never meets it, so that the loop does not end; a negative step ends only when the remainder is 0 or half a step, and in the latter case an element is lost and an error reported. Splats are folded to splats of the output type, and a slice of the whole tensor, or one with step 1 that keeps all sizes, is the operand.", "quantifier": "all ranks, sizes, element types, axes, starts, ends and steps, and every literal", "why_tests_cant": "the tests fold a handful of slices with step 1; the limit is wrong only for particular remainders", "anchors": ["lib/Dialect/Torch/IR/TorchOps.cpp:AtenSliceTensorOp::fold"]}
{"id": "C100", "title": "Transposes, concatenations and selections of constant tensors", "statement": "The literal that aten.transpose.int, aten.cat, aten.broadcast_to, aten.select.int, aten.index_select and aten.where.self on constant tensors are folded to has at each index the element the operation takes from its operands; the pattern of aten.cat drops exactly the empty operands. Exceptions, each proved: a concatenation with an ignored empty operand of smaller rank, or with operands of another element type than the result's, fails an assertion; if all operands are empty an empty list is left; select with an index from the end reads in front of the elements; where with the same value in both branches is replaced by it although the condition may broadcast it.", "quantifier": "all ranks, sizes, axes, indices, types and literals", "why_tests_cant": "the tests fold literals of a few elements; negative indices, empty operands and promoting types are not among them", "anchors": ["lib/Dialect/Torch/IR/TorchOps.cpp:AtenTransposeIntOp::fold", "lib/Dialect/Torch/IR/TorchOps.cpp:AtenCatOp::fold", "lib/Dialect/Torch/IR/TorchOps.cpp:AtenCatOp::getCanonicalizationPatterns", "lib/Dialect/Torch/IR/TorchOps.cpp:AtenBroadcastToOp::fold", "lib/Dialect/Torch/IR/TorchOps.cpp:AtenSelectIntOp::fold", "lib/Dialect/Torch/IR/TorchOps.cpp:AtenIndexSelectOp::fold", "lib/Dialect/Torch/IR/TorchOps.cpp:AtenWhereSelfOp::fold"]}
{"id": "C101", "title": "Arithmetic on constant tensors is folded to the element-wise result", "statement": "For integer tensors of 64 bits or less and constants of 64 bits, the folders of aten.add, sub, mul and rsub (Tensor and Scalar), div with a rounding mode and remainder give, element by element, the result of the operation modulo the width; for float tensors they give the operation of the elements as doubles, rounded to the result's type. They decline when the result is not small (more than 16 elements and not a splat), when the types are unknown, or when an operand is not constant. Exceptions, each proved: a narrow integer tensor meets a 64-bit constant and the width assertion fails for every operation that does not extend; a negative constant on a narrow tensor fails the constructor's check; negative integer constants enter float folds as 2^64 more; division computes on unsigned numbers, so a negative dividend is divided wrongly, and floors after the integer division; remainder truncates where PyTorch floors.", "quantifier": "for all widths up to 64, signedness, sizes, literals and constants", "why_tests_cant": "The folders only fire on small constant tensors; tests use positive 64-bit values where the exceptions do not show.", "anchors": ["lib/Dialect/Torch/IR/TorchOps.cpp:naryFolderHelper", "lib/Dialect/Torch/IR/TorchOps.cpp:AtenAddTensorOp::fold", "lib/Dialect/Torch/IR/TorchOps.cpp:AtenSubScalarOp::fold", "lib/Dialect/Torch/IR/TorchOps.cpp:AtenMulScalarOp::fold", "lib/Dialect/Torch/IR/TorchOps.cpp:AtenRsubScalarOp::fold", "lib/Dialect/Torch/IR/TorchOps.cpp:AtenDivTensorModeOp::fold", "lib/Dialect/Torch/IR/TorchOps.cpp:AtenRemainderScalarOp::fold"]}
{"id": "C102", "title": "Comparisons, fills, single elements and rank-0 arithmetic of constants are folded to what they mean", "statement": "Comparing a constant tensor with a constant gives, at every index, the truth of the comparison of the element with the constant; comparing two constant tensors for equality compares their elements; aten.item of a splat gives its element; aten.ones, zeros and full give a constant of the sizes asked for; prim.NumToTensor gives the number; arithmetic on int64 operands of rank 0 is rewritten to the same arithmetic on integers. Exceptions, each proved: a true element of a boolean tensor is read as -1 by the comparisons and by item, so True == 1 folds to False; an unsigned element is compared with a negative constant as if it were 2^64 more; mixing float and integer operands fails an assertion; a tensor equals itself even where it holds NaN; item of aten.full ignores the conversion to the tensor's type; a boolean fill with an even number is False; true + true of rank 0 becomes the integer 2, which stored as a boolean is False; truncating division is right only below 2^53.", "quantifier": "for all widths up to 64, sizes, literals, constants and comparison operators", "why_tests_cant": "Each exception needs a particular pairing of element type and constant that lit tests of the folders do not contain.", "anchors": ["lib/Dialect/Torch/IR/TorchOps.cpp:comparisonScaleFolder", "lib/Dialect/Torch/IR/TorchOps.cpp:AtenEqTensorOp::fold", "lib/Dialect/Torch/IR/TorchOps.cpp:AtenItemOp::fold", "lib/Dialect/Torch/IR/TorchOps.cpp:AtenOnesOp::fold", "lib/Dialect/Torch/IR/TorchOps.cpp:AtenZerosOp::fold", "lib/Dialect/Torch/IR/TorchOps.cpp:AtenFullOp::fold", "lib/Dialect/Torch/IR/TorchOps.cpp:PrimNumToTensorScalarOp::fold", "lib/Dialect/Torch/IR/TorchOps.cpp:getScalarIntValue", "lib/Dialect/Torch/IR/TorchOps.cpp:rewrite0DBinaryTensorOp"]}
{"id": "C103", "title": "Turning a mutated tensor into values keeps what a block computes and what it writes", "statement": "In a block in SSA form, when MaximizeValueSemantics rewrites the slice of a copy.to_tensor, the results of the block have the same contents and the storages of its arguments end with the same contents, whatever the tensors hold, whatever the views show and whichever view-like operations share storage; any number of rewritings does too. The rewritten block is in SSA form, its results are tensors or values as before, exactly the members of the slice stop being !torch.tensor, and the copy is gone. A copy is rewritten if and only if its slice is only used by copies, overwrites and views of members, no member older than an overwrite is used after it except what was overwritten and what that is a cast of, and it is not only returned. Exception, proved: results that shared storage are separate copies afterwards.", "quantifier": "all blocks, slices, contents, lenses and sharing decisions", "why_tests_cant": "Which uses follow which overwrite through which alias is a question of all interleavings; tests show a few blocks, and never vary whether reshape or to.dtype share storage.", "anchors": ["lib/Dialect/Torch/Transforms/MaximizeValueSemantics.cpp:abstractlyInterpretSlice", "lib/Dialect/Torch/Transforms/MaximizeValueSemantics.cpp:rewriteSlice", "lib/Dialect/Torch/Transforms/MaximizeValueSemantics.cpp:getCastLikeAliasesOf", "lib/Dialect/Torch/IR/TorchOps.cpp:copyTensorToType"]}
{"id": "C104", "title": "Turning a tree of views into values keeps what a block computes", "statement": "When RewriteViewLikeSubgraph rewrites the tree of views of a copy.to_tensor in a block, the results have the same contents and the arguments' storages too, provided every view in the tree returns a !torch.tensor and looks at a member of the tree (not only at its shape). Exceptions, each proved: expand_as or narrow of another tensor that is overwritten before it is copied has the old contents afterwards; a copy that is itself returned becomes a value where a tensor was; a view and a value copy of it that are both returned both become tensors.", "quantifier": "all blocks, trees, contents, lenses and sharing decisions", "why_tests_cant": "The pattern only fires when the other one gave up, so the failing blocks need two tensors and an overwrite in a certain order.", "anchors": ["lib/Dialect/Torch/Transforms/MaximizeValueSemantics.cpp:RewriteViewLikeSubgraph", "lib/Dialect/Torch/Utils/Utils.cpp:isViewLikeOp"]}
{"id": "C105", "title": "Decompositions by slices and concatenations compute what the operator computes", "statement": "For tensors of every rank and size (zero included), what DecomposeComplexOps puts in place of select.int, narrow, split_with_sizes, stack, atleast_1d, atleast_2d, hstack, column_stack and roll has the sizes and, at every index, the element that PyTorch's operator has whenever that is defined; stack, atleast, hstack and column_stack fail exactly when it fails. Exceptions, each proved: an index past the end of select gives an empty tensor; narrow of the last positions counted from the end gives none; hstack of a tensor without dimensions is concatenated along a missing axis; a roll by more than the size of the axis is ignored (and what is computed instead is stated).", "quantifier": "all tensors, dimensions, positions, lengths and shifts, positive or negative", "why_tests_cant": "Tests run each operator on one or two shapes and one sign of the arguments.", "anchors": ["lib/Dialect/Torch/Transforms/DecomposeComplexOps.cpp:DecomposeAtenSelectIntOp", "lib/Dialect/Torch/Transforms/DecomposeComplexOps.cpp:DecomposeAtenNarrowOp", "lib/Dialect/Torch/Transforms/DecomposeComplexOps.cpp:DecomposeAtenStackOp", "lib/Dialect/Torch/Transforms/DecomposeComplexOps.cpp:DecomposeAtenHstackOp", "lib/Dialect/Torch/Transforms/DecomposeComplexOps.cpp:DecomposeAtenColumnStackOp", "lib/Dialect/Torch/Transforms/DecomposeComplexOps.cpp:DecomposeAtenRollOp"]}
{"id": "C106", "title": "Decompositions by flips and permutations compute what the operator computes", "statement": "For tensors of every rank and size, what DecomposeComplexOps puts in place of fliplr, flipud, t, numpy_T, movedim.int, rot90 and prims.squeeze has the sizes and elements of PyTorch's operator whenever that is defined, for every number of quarter turns and positive or negative axes; fliplr, flipud and t fail exactly when it fails, movedim is left alone exactly when its axes are bad, and an axis that squeeze may not remove is refused. Exception, proved: an axis that prims.squeeze names twice takes the next one with it.", "quantifier": "all tensors, axes and numbers of turns", "why_tests_cant": "Tests run each operator on one rank and a few axes.", "anchors": ["lib/Dialect/Torch/Transforms/DecomposeComplexOps.cpp:DecomposeAtenRot90Op", "lib/Dialect/Torch/Transforms/DecomposeComplexOps.cpp:DecomposeAtenMovedimIntOp", "lib/Dialect/Torch/Transforms/DecomposeComplexOps.cpp:DecomposeAtenFliplrOp", "lib/Dialect/Torch/Transforms/DecomposeComplexOps.cpp:DecomposeAtenTOp", "lib/Dialect/Torch/Transforms/DecomposeComplexOps.cpp:DecomposePrimsSqueezeOp"]}
{"id": "C107", "title": "Decompositions into views and split axes compute what the operator computes", "statement": "For tensors of every rank and size, what DecomposeComplexOps puts in place of flatten.using_ints, unflatten.int, pixel_shuffle and pixel_unshuffle has the sizes and, at every index, the element of PyTorch's operator whenever that is defined, and pixel_unshuffle undoes pixel_shuffle. What it puts in place of channel_shuffle with g groups of C channels is the shuffle with C/g groups: for tensors with different elements it is right exactly if g = 1, g = C or g * g = C. Exceptions, each proved: an axis of size 0 beside the flattened ones, no channels (or no rows) to shuffle, a size 0 to unflatten into (the compiler divides by it), a flattened axis past the end, and sizes or channels that do not divide, which are accepted.", "quantifier": "all tensors, axes, sizes and factors", "why_tests_cant": "Tests use one small tensor per operator; the channel_shuffle test's reference runs through a lowering that ignores the outer length.", "anchors": ["lib/Dialect/Torch/Transforms/DecomposeComplexOps.cpp:DecomposeAtenFlattenUsingIntsOp", "lib/Dialect/Torch/Transforms/DecomposeComplexOps.cpp:DecomposeAtenUnflattenIntOp", "lib/Dialect/Torch/Transforms/DecomposeComplexOps.cpp:DecomposeAtenPixelShuffleOp", "lib/Dialect/Torch/Transforms/DecomposeComplexOps.cpp:DecomposeAtenPixelUnshuffleOp", "lib/Dialect/Torch/Transforms/DecomposeComplexOps.cpp:DecomposeAtenChannelShuffleOp"]}
{"id": "C108", "title": "Decompositions of repeats and tiles compute what the operator computes", "statement": "For tensors of every rank and size, repeats that are constants or not, and sizes that the type has or not, what DecomposeComplexOps puts in place of repeat, tile and repeat_interleave.self_int has the sizes and elements of PyTorch's operator whenever that is defined; repeat is left alone exactly if there are fewer repeats than axes. The index vector put in place of repeat_interleave.Tensor is each position as often as it is to be repeated, and it is refused exactly if the size is not a constant, negative, not the declared one, or the comparison table would have more than 2^20 elements. Exceptions, each proved: a repeat of -1 counts as 1; a sum of repeats below output_size gives indices past the end.", "quantifier": "all tensors, repeats, and knowledge of sizes and repeats", "why_tests_cant": "Which axes are lifted, broadcast in place or left alone depends on every combination of known sizes and repeats.", "anchors": ["lib/Dialect/Torch/Transforms/DecomposeComplexOps.cpp:DecomposeAtenRepeatOp", "lib/Dialect/Torch/Transforms/DecomposeComplexOps.cpp:DecomposeAtenTileOp", "lib/Dialect/Torch/Transforms/DecomposeComplexOps.cpp:DecomposeAtenRepeatInterleaveSelfIntOp", "lib/Dialect/Torch/Transforms/DecomposeComplexOps.cpp:DecomposeAtenRepeatInterleaveTensorOp"]}
{"id": "C109", "title": "Decomposed activation functions are the functions PyTorch defines", "statement": "Rewriting relu6, hardtanh, hardsigmoid, hardswish, leaky_relu (and its gradient), rrelu (with and without noise, in training and evaluation, and its gradient), prelu, elu, celu, selu, softshrink, hardshrink and threshold into comparisons, minima, maxima and arithmetic gives, for every element including infinities and NaN and for all scalar parameters, the value PyTorch defines; prelu pairs each element with the weight of its channel. Exceptions, each proved: the gradient of leaky_relu is max(0, grad) + slope * min(0, x), which is wrong for negative gradients and for negative inputs; softshrink of a number below -lambd is too small by 2 * lambd; prelu with several weights on inputs of more than two axes applies the weights to the last axis; rrelu_with_noise ignores its training flag; rrelu is wrong for negative slopes, and for +inf with slope 0; hardshrink and threshold turn NaN into a number; prelu of 0 with an infinite weight; hardswish of -inf is NaN (as in PyTorch's kernel).", "quantifier": "all elements (rationals, infinities, NaN), all parameters, all sizes of tensors for prelu, and all functions that behave like exp around 0", "why_tests_cant": "the test inputs of softshrink, leaky_relu_backward and most of these operations are drawn from [0, 1), where the wrong branches are never taken; NaN, infinities and negative slopes are not tried", "anchors": ["lib/Dialect/Torch/Transforms/DecomposeComplexOps.cpp:DecomposeAtenSoftshrinkOp", "lib/Dialect/Torch/Transforms/DecomposeComplexOps.cpp:DecomposeAtenLeakyReluBackwardOp", "lib/Dialect/Torch/Transforms/DecomposeComplexOps.cpp:DecomposeAtenPreluOp", "lib/Dialect/Torch/Transforms/DecomposeComplexOps.cpp:DecomposeAtenRreluWithNoiseOp", "lib/Dialect/Torch/Transforms/DecomposeComplexOps.cpp:DecomposeAtenHardshrinkOp", "lib/Dialect/Torch/Transforms/DecomposeComplexOps.cpp:DecomposeAtenThresholdOp", "lib/Dialect/Torch/Transforms/DecomposeComplexOps.cpp:DecomposeAtenCeluOp", "lib/Dialect/Torch/Transforms/DecomposeComplexOps.cpp:DecomposeAtenEluOp"]}
{"id": "C110", "title": "Decomposed tests, roundings, remainders and interpolations are the functions PyTorch defines", "statement": "Rewriting isnan, isinf, isposinf, isneginf, nan_to_num, masked_fill, clamp_min, clamp_max, deg2rad, rad2deg, sgn, trunc, frac, fmod, heaviside, fmax, fmin, round to decimals, lerp, addcmul, addcdiv, the gradient of tanh, fake_quantize_per_tensor_affine, signbit and copysign into simpler operations gives the value PyTorch defines: remainders have the sign of the dividend and differ from it by a multiple of the divisor, rounding goes to the nearest multiple with ties to even, NaN is ignored by fmax and fmin, and quantized values stay between the bounds. Exceptions, each proved: nan_to_num replaces an infinite replacement again; rad2deg uses 3.14159 for pi and is wrong by between half a millionth and a millionth; fmod by an infinity is NaN; the gradient of tanh is NaN for an infinite incoming gradient; fake_quantize turns a tensor without dimensions into a vector; signbit of integers is rewritten although the pattern reports failure.", "quantifier": "all elements (rationals, infinities, NaN), all integers, all parameters, all bit widths", "why_tests_cant": "tests compare a few random tensors with a tolerance of about a hundred-thousandth, which hides the wrong pi, and do not use infinite replacements, divisors or gradients", "anchors": ["lib/Dialect/Torch/Transforms/DecomposeComplexOps.cpp:DecomposeAtenNanToNumOp", "lib/Dialect/Torch/Transforms/DecomposeComplexOps.cpp:DecomposeAtenRad2degOp", "lib/Dialect/Torch/Transforms/DecomposeComplexOps.cpp:DecomposeAtenFmodTensorOp", "lib/Dialect/Torch/Transforms/DecomposeComplexOps.cpp:DecomposeAtenTruncOp", "lib/Dialect/Torch/Transforms/DecomposeComplexOps.cpp:DecomposeAtenFMaxMinOp", "lib/Dialect/Torch/Transforms/DecomposeComplexOps.cpp:DecomposeAtenHeaviside", "lib/Dialect/Torch/Transforms/DecomposeComplexOps.cpp:DecomposeAtenSignbitOp", "lib/Dialect/Torch/Transforms/DecomposeComplexOps.cpp:DecomposeAtenFakeQuantizePerTensorAffineOp", "lib/Dialect/Torch/Transforms/DecomposeComplexOps.cpp:DecomposeAtenRoundDecimalsOp"]}
{"id": "C111", "title": "triu_indices and tril_indices list the triangles of a matrix", "statement": "For all non-negative numbers of rows and columns and every offset, the row and column numbers computed by the decompositions of aten.triu_indices and aten.tril_indices (a rectangle by division and remainder, a trapezoid by floor(-b -+ sqrt(b*b -+ 2x)), in exact real arithmetic) are the coordinates of exactly the positions on or above (below) the diagonal, each once, in row-major order; the declared sizes are those of the shape functions; the pattern applies exactly if its operands are constants and the dtype code has a type. Exceptions, each proved: the declared dtype is int64 whatever dtype is asked for; negative sizes are not refused.", "quantifier": "all rows, cols >= 0, all offsets", "why_tests_cant": "the closed formulas with square roots change regime with the signs of the offset and of rows + offset, and a wrong rounding shows only on particular rows of large matrices", "anchors": ["lib/Dialect/Torch/Transforms/DecomposeComplexOps.cpp:getTrilSizes", "lib/Dialect/Torch/Transforms/DecomposeComplexOps.cpp:getTriuSizes", "lib/Dialect/Torch/Transforms/DecomposeComplexOps.cpp:DecomposeAtenTriuIndicesOp", "lib/Dialect/Torch/Transforms/DecomposeComplexOps.cpp:DecomposeAtenTrilIndicesOp"]}
{"id": "C112", "title": "nonzero and masked_scatter number the selected elements by a running sum", "statement": "The decomposition of aten.nonzero (flatten, cumsum - 1, clamp, scatter_add, slice, division by strides obtained by cumprod of the flipped shape) returns exactly the indices of the elements that are not zero, without repetition and in lexicographic order, for tensors of every rank except 0 and all sizes. The decomposition of aten.masked_scatter puts the elements of the source, in order, at the marked positions, and fails exactly when the source has too few elements, for masks that broadcast to the tensor and a source that is not empty. Exceptions, each proved: nonzero of a tensor of rank 0 (the first of no values is read); masked_scatter with an empty source and nothing marked; masked_scatter with a mask larger than the tensor.", "quantifier": "all tensors of all ranks and sizes, all masks and sources", "why_tests_cant": "that scattering zeros into clamped positions is harmless, and that quotients and remainders by strides invert flattening, are invariants over all shapes and all patterns of zeros", "anchors": ["lib/Dialect/Torch/Transforms/DecomposeComplexOps.cpp:DecomposeAtenNonzeroOp", "lib/Dialect/Torch/Transforms/DecomposeComplexOps.cpp:DecomposeAtenMaskedScatterOp"]}
{"id": "C113", "title": "einsum is turned into permutations, reshapes and matrix products that compute it", "statement": "DecomposeAtenEinsumOp, followed through parseEquation, diagonalizeInputAndRewriteEquation, parseDimTokens, permuteTensorForMatmul, collapseDimForMatmul, performMatmul and performLastReduceAndPermute, gives the tensor whose element at an index is the sum, over the letters that the result does not have, of the product of the operands read at their letters; this holds for any number of operands, repeated letters inside of an operand, any number of dimensions, spaces in the equation, an ellipsis that stands for at least one dimension, and elements of any commutative semiring. Conditions: an arrow, one size for each letter, result letters distinct and taken from the operands, summed letters in at most two operands. Exceptions, each proved: a summed letter shared by three operands is summed after the first two, a different value; an equation without an arrow sums everything; a last operand without dimensions is lost when the result has none; an ellipsis that stands for no dimension is replaced by all unused letters; a summed dimension of size 1 is not broadcast.", "quantifier": "for every commutative semiring, every number and rank of operands, every consistent assignment of sizes to letters, every equation text with spaces, and every set of tensor elements", "why_tests_cant": "The end-to-end tests have a few equations with two or three operands; each equation divides the letters into other classes, and an index that is dropped too early gives a plausible tensor of the right shape.", "anchors": ["lib/Dialect/Torch/Transforms/DecomposeComplexOps.cpp:DecomposeAtenEinsumOp", "lib/Dialect/Torch/Transforms/DecomposeComplexOps.cpp:performMatmul", "lib/Dialect/Torch/Transforms/DecomposeComplexOps.cpp:parseDimTokens", "lib/Dialect/Torch/Transforms/DecomposeComplexOps.cpp:parseEquation", "lib/Dialect/Torch/Transforms/DecomposeComplexOps.cpp:rewriteEquationWithEllipsisSlicing", "lib/Dialect/Torch/Transforms/DecomposeComplexOps.cpp:diagonalizeInputAndRewriteEquation"]}
{"id": "C114", "title": "The texts written by the generators read back as what was meant", "statement": "The C++ source written for the abstract interpretation library is one string whose value is the text of the library exactly when the text has no backslash; TextEmitter.quote writes a TableGen string that reads back as the text exactly when the text has no quotation mark or backslash; print writes each line of its argument with the indentation and keeps blank lines blank, and multi-line documentation is a TableGen code block with the trimmed lines. Exceptions, each proved: a backslash in the library (escapes are not escaped), a quotation mark in a quoted text (two backslashes are written before it, so it ends the string), and nested closing marks in documentation.", "quantifier": "for all texts and indentation levels", "why_tests_cant": "Generated files are only compiled for the texts of today; no test quotes a text with special characters.", "anchors": ["projects/pt1/python/torch_mlir/jit_ir_importer/build_tools/utils.py:TextEmitter", "projects/pt1/python/torch_mlir/jit_ir_importer/build_tools/abstract_interp_lib_gen.py:main"]}
{"id": "C115", "title": "The ODS records of operators declare the types of their schemas, and generated assembly reads back", "statement": "get_ods_type maps each type that the dialect supports to the constraint for it and refuses the others; raw_emit_op writes a record whose arguments, results, number of operands and hooks are those of the schema; printing an operation with the default Torch assembly and parsing it gives the operation back. Exceptions, each proved: results that are not named can get the name of one that is, and the parser does not check the number of results.", "quantifier": "for all operators with arguments and results of supported types, and all operations", "why_tests_cant": "The generator is run only on the registry of one PyTorch version; the tests of assembly use operators with few operands.", "anchors": ["projects/pt1/python/torch_mlir/jit_ir_importer/build_tools/torch_ods_gen.py:raw_emit_op", "projects/pt1/python/torch_mlir/jit_ir_importer/build_tools/torch_ods_gen.py:get_ods_type", "lib/Dialect/Torch/IR/UtilsForODSGenerated.cpp:parseDefaultTorchOp"]}
{"id": "C116", "title": "Signatures of library functions declare the types and defaults of the operator", "statement": "The declaration of each parameter and result replaces exactly the tensors and numbers of its type, at any depth, by the types that stand for them in shape, dtype and decomposition functions; list defaults become tuples with the same items, string defaults read back as the string, other defaults are copied, and the name of a dtype parameter says that it holds a rank and a dtype exactly when its type has a tensor. Exceptions, each proved: types with both numbers and tensors, devices inside other types, empty lists inside lists, and strings with quotation marks or apostrophes.", "quantifier": "for all types written as trees of names, and all defaults", "why_tests_cant": "The signatures are compared only with the functions that exist; types and defaults that no operator has yet are not tried.", "anchors": ["projects/pt1/python/torch_mlir/jit_ir_importer/build_tools/registry.py:_get_default_value", "projects/pt1/python/torch_mlir/jit_ir_importer/build_tools/registry.py:_pytype_to_shape_fn_pytype", "projects/pt1/python/torch_mlir/jit_ir_importer/build_tools/registry.py:_pytype_to_dtype_fn_pytype", "projects/pt1/python/torch_mlir/jit_ir_importer/build_tools/registry.py:_pytype_to_fn_pytype_common"]}
{"id": "C117", "title": "Invocations that check library functions describe the same call at every level and cover every pair of dtypes", "statement": "The arguments that an invocation gives to the shape function, the dtype function and the real operator correspond position by position, at any depth, with each tensor replaced by its shape, by its rank and dtype code, or by a tensor of that shape, stride, dtype and device; the conversion fails exactly when something that is not a tensor, number, string or container occurs. The generated lists contain an invocation for every dtype, and for two tensors exactly the pairs of equal dtypes and the pairs with the highest valid dtype, marked as failing exactly when the pair is refused by the priority order, so the marks determine the verdict on every pair. Exceptions, each proved: pairs that promote to a third dtype (float16 with bfloat16) are marked by the order and not by promotion, and tensors in keyword arguments are not converted.", "quantifier": "for all invocations, all sets of invalid dtypes and all shapes", "why_tests_cant": "The invocations are themselves the tests of the library; nothing tests what they claim or that they cover the pairs.", "anchors": ["projects/pt1/python/torch_mlir/jit_ir_importer/build_tools/testing_framework.py:Invocation", "projects/pt1/python/torch_mlir/jit_ir_importer/build_tools/testing_framework.py:TensorOfShape", "projects/pt1/python/torch_mlir/jit_ir_importer/build_tools/abstract_interp_lib_gen.py:_check_two_tensor_op", "projects/pt1/python/torch_mlir/jit_ir_importer/build_tools/abstract_interp_lib_gen.py:_check_tensors_with_the_same_dtype"]}
{"id": "C118", "title": "Class annotations export and describe exactly what is named", "statement": "An annotator that was told nothing exports everything. exportNone withdraws exactly the attributes and methods of the classes at and below the given one; exportPath succeeds exactly if the path leads to an attribute or method and then exports exactly that; annotateArgs succeeds exactly if the path leads to a method with that number of inputs and then sets exactly its arguments; each method's annotation is found from its function as soon as its class was named. Extraction from a scripted module that mirrors its Python module always succeeds, exports no attribute, exports exactly the methods decorated in some module of their class, and records the decorated arguments. Exception, proved: an attribute with the name of an exported method is exported too.", "quantifier": "for all class hierarchies with unique class names, all annotators reachable or not, all paths and module trees", "why_tests_cant": "Tests export forward from one or two classes and compare the printed annotations.", "anchors": ["projects/jit_ir_common/csrc/jit_ir_importer/class_annotator.cpp:ClassAnnotator", "projects/jit_ir_common/csrc/jit_ir_importer/class_annotator.cpp:exportPath", "projects/jit_ir_common/csrc/jit_ir_importer/class_annotator.cpp:annotateArgs", "projects/pt1/python/torch_mlir/jit_ir_importer/torchscript_annotations.py:extract_annotations"]}
{"id": "C119", "title": "TorchScript types, operation names and locations are carried over exactly", "statement": "For every TorchScript type and all import options, getMlirTypeFromTorchType gives exactly the torch type that the type stands for (tensor types with the declared sizes and dtype, or neither if shapes and dtypes are ignored; value semantics as asked; containers of the converted types, dictionaries only with admissible keys; classes by name), and gives no type exactly for the types that have none; type bounds of arguments are exactly the annotated ones; literals have the element type of what is stored; adjustStaticInformation makes exactly the cast that the two types call for, and the result has the desired type (or a refinement where that is allowed); an operation created from a schema has the name of the registry, and different schemas give different operations; a location is made from the scope, position or call stack of the node and distinguishes different ones. Exceptions, each proved: import options are dropped inside unions, QInt32 and other scalar types are not importable, int16 literals are refused although int16 tensor types are accepted, and a type bound with an unsupported dtype silently has no dtype.", "quantifier": "all TorchScript types, nested without bound, all options, schemas, nodes and annotations", "why_tests_cant": "Types nest without bound; tests import a few signatures with a few dtypes.", "anchors": ["projects/jit_ir_common/csrc/jit_ir_importer/torch_to_mlir_utils.cpp:getMlirTypeFromTorchType", "projects/jit_ir_common/csrc/jit_ir_importer/torch_to_mlir_utils.cpp:createOperationFromSchema", "projects/jit_ir_common/csrc/jit_ir_importer/torch_to_mlir_utils.cpp:getMlirLocationFromNode", "projects/jit_ir_common/csrc/jit_ir_importer/torch_to_mlir_utils.cpp:convertTensorToMlirElementsAttr", "projects/jit_ir_common/csrc/jit_ir_importer/function_importer.cpp:importJitFunctionAsFuncOp", "lib/Dialect/Torch/IR/TorchOps.cpp:adjustStaticInformation"]}
{"id": "C120", "title": "The objects of a TorchScript program are imported each once, with everything inside", "statement": "For every object graph (lists, dictionaries, tuples, tensors, quantized tensors, modules, packed linear parameters, numbers, strings), if importIValue succeeds then every object inside has a value, the operation of a value is that of its object with operands standing for the objects inside in order, an object has one value and a value one object (so aliasing is preserved both ways), operands come before their use, every class of a module is imported once with its attributes and methods in order and private exactly where not exported, and the functions of the compilation unit are imported once, in order. The import succeeds exactly if every object is importable, no two different tensors share storage, and all modules are of one compilation unit; the complaint about shared storage is always true. Exceptions, each proved: negative zero is unified with zero, NaN is never unified, and the complaint about shared storage loses its path after a nested module.", "quantifier": "all acyclic object graphs with coherent addresses, all exported flags and import options", "why_tests_cant": "Object graphs and their sharing are unbounded; tests import a few modules.", "anchors": ["projects/jit_ir_common/csrc/jit_ir_importer/ivalue_importer.cpp:importIValue", "projects/jit_ir_common/csrc/jit_ir_importer/ivalue_importer.cpp:rawImportIValue", "projects/jit_ir_common/csrc/jit_ir_importer/ivalue_importer.cpp:importModule", "projects/jit_ir_common/csrc/jit_ir_importer/ivalue_importer.cpp:importTensor", "projects/jit_ir_common/csrc/jit_ir_importer/ivalue_importer.cpp:importClassType", "projects/jit_ir_common/csrc/jit_ir_importer/ivalue_importer.cpp:importCompilationUnit"]}
{"id": "C121", "title": "Importing a TorchScript function into the torch dialect preserves what it computes, its types and its scopes", "statement": "For every graph that importJitFunctionAsFuncOp imports, the function made computes the results and effects of the graph for every meaning of operators, primitives, literals and calls that the operations of the dialect follow, including loops, conditionals, dictionaries, tuples and casts (and has no result when the graph has none). The arguments and the return have the types of the signature, the carried values of loops and the values yielded by blocks have the types of the results, and the operands of calls have the types of the callee; every cast is one that adjustStaticInformation allows. Values are numbered without repetition. If the operands of the graph are visible, so are those of the function. A graph is imported exactly if its types are imported, each used value is mapped, no value is mapped twice, and the types can be adjusted where they must agree. Exceptions, each proved: values of inner blocks stay in the map, so a graph that uses one outside is imported to operations that are not in scope; conditions and counts are not adjusted to bool and int.", "quantifier": "all graphs (any nesting, any number of nodes), all inputs, all meanings of operators and all numbers of loop rounds", "why_tests_cant": "Tests import a few modules and compare text; they do not quantify over graphs or over the meanings of operators.", "anchors": ["projects/jit_ir_common/csrc/jit_ir_importer/node_importer.cpp:importNode", "projects/jit_ir_common/csrc/jit_ir_importer/node_importer.cpp:importBlock", "projects/jit_ir_common/csrc/jit_ir_importer/node_importer.cpp:createBlockFor", "projects/jit_ir_common/csrc/jit_ir_importer/node_importer.cpp:rearrangeDictConstructInputs", "projects/jit_ir_common/csrc/jit_ir_importer/function_importer.cpp:importJitFunctionAsFuncOp", "projects/jit_ir_common/csrc/jit_ir_importer/torch_to_mlir_utils.cpp:adjustStaticInformationForValues"]}
{"id": "C122", "title": "Globalising the object graph preserves what methods compute and names everything by its path", "statement": "If globalizeObjectGraph accepts a program, then for every meaning of the other operations, every run of a function on objects and data (with reads and writes of attributes, calls, conditionals and loops) is a run of the specialisation for these objects on the data alone, with the same results and memory, and the global slots hold afterwards what the slots hold, if they did before; they do at the beginning. Every module is reached from the root along one path (otherwise the program is refused), the root is the only module held by no slot, the global slots are exactly those of reachable data slots that some function reads or writes, each with the value and visibility of its slot and the path as its name, and two slots never share one. The specialisations are exactly those needed: functions whose module arguments are of classes with one instance, and all they call, each once. Modules are used only as receivers and in calls, public methods are specialised at most once, and a program is accepted exactly under these conditions; methods have the path of their module in their name, other functions a number. Exceptions, each proved: a private method that gets a second module is given the same name for each, so that calls reach the wrong function; a public method of a class with two instances that no function calls disappears without an error.", "quantifier": "all programs (any classes, modules, functions and nesting), all inputs, stores and meanings of the other operations, any number of calls", "why_tests_cant": "Tests check the text of a few small graphs; they run nothing and cannot quantify over object graphs or call patterns.", "anchors": ["lib/Dialect/Torch/Transforms/GlobalizeObjectGraph.cpp:findRootNnModule", "lib/Dialect/Torch/Transforms/GlobalizeObjectGraph.cpp:ObjectGraphInfo", "lib/Dialect/Torch/Transforms/GlobalizeObjectGraph.cpp:analyzeInstances", "lib/Dialect/Torch/Transforms/GlobalizeObjectGraph.cpp:MonomorphizationTracker", "lib/Dialect/Torch/Transforms/GlobalizeObjectGraph.cpp:rewriteMonomorphizedFuncClone", "lib/Dialect/Torch/Transforms/GlobalizeObjectGraph.cpp:globalizeObjectGraph"]}
{"id": "C123", "title": "Refined returns keep what the caller sees", "statement": "RefinePublicReturn looks from every returned value of a public function through static-info casts, derefinements and copies into memory that have exactly one user, as far as it can, copies tensors in memory to value tensors, and sets the result types to those of the new operands. For every function whose renamed tensors in memory (results of casts and derefinements) have at most one user, every memory and every meaning of the other operations that changes only the cells it gets, the new function returns the same contents and leaves the same memory. No result is a tensor in memory, only copies to value tensors are added, private and external functions are untouched, and a function is refused exactly if it is public, has a body, and is called or does not have one return. copyTensorToType makes a value of the wanted type with the same contents, in a new cell if that type is in memory. Exceptions, each proved: when the only user of the copy is a cast, and the cast tensor is overwritten before it is returned, the refined function returns the contents from before the overwriting.", "quantifier": "all functions (any number of operations and returned values), all memories, all meanings of the other operations", "why_tests_cant": "The pass has a handful of FileCheck tests on fixed functions; the aliasing argument ranges over all bodies.", "anchors": ["lib/Dialect/Torch/Transforms/RefinePublicReturn.cpp:rewriteSignature", "lib/Dialect/Torch/Transforms/RefinePublicReturn.cpp:runOnOperation", "lib/Dialect/Torch/IR/TorchOps.cpp:copyTensorToType"]}
{"id": "C124", "title": "Inlined global slots are never changed", "statement": "InlineGlobalSlots: for every program whose slots are declared first, the analysis ends without a failed assertion and finds unsafe exactly the values and slots from which a changing use, a public slot or an assigned slot is reached along effect-free operations, initialisations and reads. A slot is inlined exactly if it is not such and no operation on whose results its initial value depends has such a result. In every run (the initializer, then the operations of the functions in any order, any number of times, with arguments of regions and functions bound on entry, where each operation may do to the objects it gets what its traits allow) no object reachable from an inlined slot is changed, provided that terminators hand on no objects without counting as a change. If the inlined slots keep the contents of their initial values, the rewritten functions compute what they computed. Exactly the inlined slots lose their declarations, initial values and reads; the pass succeeds on every well-formed module. Exceptions, each proved: prim.If.yield is pure and has no results, so a tensor of a slot that a branch yields and whose If result is then changed is inlined although it is changed; a slot that is assigned in the text before its declaration ends the analysis in an assertion, and without assertions it is inlined although it is assigned.", "quantifier": "all modules and programs, all runs over all heaps, with and without assertions", "why_tests_cant": "An alias analysis is a claim about every execution; tests cover a few modules and check only the text after the pass.", "anchors": ["lib/Dialect/Torch/Transforms/InlineGlobalSlots.cpp:isValueSafeTransferFunction", "lib/Dialect/Torch/Transforms/InlineGlobalSlots.cpp:initialize", "lib/Dialect/Torch/Transforms/InlineGlobalSlots.cpp:visit", "lib/Dialect/Torch/Transforms/InlineGlobalSlots.cpp:isInitialValueTransitivelySafeToInline", "lib/Dialect/Torch/Transforms/InlineGlobalSlots.cpp:runOnOperation"]}
{"id": "C125", "title": "Functional variants do what the operations in place do", "statement": "ReduceOpVariants: for every sequence of operations with unique results, every meaning of the operations in which a name with the underscore writes what the name without it computes, cast to the dtype of the tensor it changes, and every start, if the pass succeeds then the new sequence returns the same values and leaves the same contents in every object (the dropped second result of flash attention excepted), provided that operations without value semantics do not change lists. Afterwards operations with value semantics and library operators have no tensor in memory directly among their operands and results, nothing works in place, no literal is in memory, and every copy and overwriting goes between types of the same sizes and dtype. Operands can be converted exactly if they are no list or optional of tensors in memory, or come directly from a list construction or a derefinement (of tensors and None); an operation without direct tensors in memory is left as it is; the name of the functional variant is the name without the underscore of its third part; the element types of new lists are the old ones with value tensors; an operator that the extra library does not declare, flash attention with unused second result excepted, makes the pass fail. Exceptions, each proved: a list that is appended to before an operation uses it is read as it was constructed, so the appended tensors are lost.", "quantifier": "all sequences of operations, all type contexts, all meanings of the operations and all memories", "why_tests_cant": "The FileCheck tests compare fixed texts and never run the program before and after.", "anchors": ["lib/Dialect/Torch/Transforms/ReduceOpVariants.cpp:matchAndRewrite", "lib/Dialect/Torch/Transforms/ReduceOpVariants.cpp:createOverwriteTensorContents", "lib/Dialect/Torch/Transforms/ReduceOpVariants.cpp:getContainerOrTensorTypeWithValueSemantics", "lib/Dialect/Torch/Transforms/ReduceOpVariants.cpp:operatorOpHasValueSemantics", "lib/Dialect/Torch/Transforms/ReduceOpVariants.cpp:runOnOperation"]}
{"id": "C126", "title": "Interpreted list operations compute the same lists", "statement": "AbstractlyInterpretListOpsWithinABlock replaces a list construction and the append, insert and _set_item operations on it by constructions of the successive lists. For every program with unique results, every construction in it, every use of the list afterwards (in the block, in regions, changing it or not) such that nothing else comes to hold the list, and every meaning of the other operations: if the pattern applies, the new program gives every other value the same contents, leaves every other list the same, and the last list is what the old list became. The pattern does not apply exactly if, before the first change it cannot interpret, a changing operation has uses, an insertion index is not a constant between 0 and the length by then, an index of _set_item is not a constant within the length by then, or none of these operations changes this list. If all changes are interpreted none is left. Exceptions, each proved: with another name for the list (derefine, casts and yields are pure) what is changed through it is lost; if the list is put into another list and changed afterwards, the new program uses the last list before it is made; if an append, insert or _set_item comes after a changing user of the same block that the pattern does not know, it reads beyond its literals (exactly then).", "quantifier": "all programs, all lists and all numbers of users, all meanings of the other operations", "why_tests_cant": "The order of users, regions and mutations is unbounded; the FileCheck tests have a dozen fixed blocks and never run them.", "anchors": ["lib/Dialect/Torch/Transforms/SimplifyAbstractInterpCalculationsUtils.cpp:AbstractlyInterpretListOpsWithinABlock", "lib/Dialect/Torch/IR/TorchOps.cpp:potentiallyMutatesListOperands", "lib/Dialect/Torch/Utils/Utils.cpp:matchLegalConstantIndexIntoListOfSize"]}
{"id": "C127", "title": "Conditionals and unrolled loops compute what they did", "statement": "For every block that starts with a torch.prim.If, every environment and every way operations compute results and change state: inlining the branch of a known condition, replacing the results that both branches yield alike and dropping the results that nothing uses each leave what the block yields and the state it ends in unchanged; the three rewrites match exactly when the condition is a constant, when a used result is yielded alike, when a result is unused or nothing is left. Replacing agreed results makes that rewrite not match again. Unrolling a torch.prim.Loop in a shape or dtype calculation yields the same values and state, for any trip count, if the body always ends with a true condition; it matches exactly when the initial condition is the constant true and the trip count a constant. Exceptions, each proved: a loop whose body ends it early runs on when unrolled, since isForLike only looks at the initial condition; a loop that yields a value from outside its body, or that has a negative trip count and yields something, ends in the failed assertion of IRMapping::lookup.", "quantifier": "all structured programs with nested conditionals and loops, environments, states, operation semantics and trip counts", "why_tests_cant": "Tests check the text of a few rewritten loops; they do not run them, and all have a constant true condition in the body.", "anchors": ["lib/Dialect/Torch/IR/TorchOps.cpp:getCanonicalizationPatterns", "lib/Dialect/Torch/Transforms/SimplifyAbstractInterpCalculationsUtils.cpp:FullyUnrollPrimLoopOp", "lib/Dialect/Torch/IR/TorchOps.cpp:isForLike"]}
{"id": "C128", "title": "The ONNX import tool infers shapes in its own directory", "statement": "For every file system, arguments and behaviour of the onnx package (load, convert_version, check_model, infer_shapes, save, infer_shapes_path may fail): the tool changes nothing outside <temp-dir or directory of the input>/onnx-importer-temp, whatever happens. It starts exactly when that directory is no file and its parent is a directory. A model that it gives is the shape inference of the input with the external data of the data directory, converted when a non-zero opset version is given, and with the domains of its nodes cleared when asked, both in memory and through files. A model that the checker or the inference finds too big (ValueError) goes through files and the directory is removed after unless it is kept; any other exception is raised. main writes the import exactly when it verifies or should not be verified, to the file given unless it is '' or '-'. Exceptions, each proved: a model small enough leaves the temporary directory behind even without --keep-temps; an input in that directory is deleted before it is read; --clear-domain leaves the domains of nodes in subgraphs.", "quantifier": "all file systems, arguments, models and behaviours of the onnx package", "why_tests_cant": "Tests import a few small models, none above the protobuf limit with changes, and do not look at the files left behind.", "anchors": ["python/torch_mlir/tools/import_onnx/__main__.py:load_onnx_model", "python/torch_mlir/tools/import_onnx/__main__.py:main"]}
{"id": "C129", "title": "The entry points run the pipelines that were asked for, and report failures", "statement": "For every list of legal operations and library path without spaces or commas, the option text that fx and torchscript write parses back to those operations and that path; torchscript's operations come sorted and once each. RAW runs no pipeline; every other output type runs the pipeline to the backend contract with these options and then exactly the pipelines of that type. export_and_import imports exactly once, after an export (iff it is given no program) and a decomposition (iff the table, or the default when there is none, is not empty), and before every pipeline; it succeeds iff the output type is known. The dynamo configuration accepts legal operations iff the output is TORCH, and replaces exactly the two-argument add/mul.Tensor calls whose second argument is no node. A failed pipeline raises an error with the module as it was before, the file it was written to, and a message whose lines are those of the template without leading white space; stderr is always restored. Exceptions, each proved: a library path with a space is cut at the space; the dynamo configuration ignores the legal operations and the library that it accepts; when the module cannot be printed the handler reads an unbound variable and no compiler error is raised.", "quantifier": "all option values, output types, graphs, pipelines and diagnostics", "why_tests_cant": "Tests run the default options; the failure report and unusual option values are not covered.", "anchors": ["python/torch_mlir/fx.py:export_and_import", "python/torch_mlir/fx.py:_module_lowering", "python/torch_mlir/fx.py:stateless_fx_import", "python/torch_mlir/compiler_utils.py:run_pipeline_with_repro_report", "projects/pt1/python/torch_mlir/torchscript.py:compile", "projects/pt1/python/torch_mlir_e2e_test/configs/torchdynamo.py:jit"]}
{"id": "C130", "title": "Verifiers of operations with shapes refuse only what cannot run", "statement": "For permute, linalg.cross, kthvalue, renorm, rot90, count_nonzero (with a dim, and with a list) and triu/tril_indices, and every combination of known and unknown types, sizes and constants, the verifier is characterised exactly (accepts iff ...). If any choice of the unknown sizes and values lets the operation run then the program is accepted, and when everything is known nothing that cannot run is accepted. Exceptions, each proved: linalg.cross refuses a size that is known of one tensor only (accepted when sizes are known of both or neither, or known to be 1); kthvalue and count_nonzero refuse the dimensions 0 and -1 of a tensor of rank zero; norm.Scalar refuses bfloat16; count_nonzero with a list that is not of constants is refused once the shape is known; rot90 accepts equal dimensions given by two constants and dimensions out of range; renorm accepts NaN for p and maxnorm.", "quantifier": "all ranks, sizes, constants and choices of what is known", "why_tests_cant": "Tests of the verifiers have one refused program for each message; accepted programs with partly known shapes are not tested.", "anchors": ["lib/Dialect/Torch/IR/TorchOps.cpp:AtenPermuteOp::verify", "lib/Dialect/Torch/IR/TorchOps.cpp:AtenLinalgCrossOp::verify", "lib/Dialect/Torch/IR/TorchOps.cpp:AtenKthvalueOp::verify", "lib/Dialect/Torch/IR/TorchOps.cpp:AtenRenormOp::verify", "lib/Dialect/Torch/IR/TorchOps.cpp:AtenRot90Op::verify", "lib/Dialect/Torch/IR/TorchOps.cpp:AtenCountNonzeroDimIntListOp::verify"]}
{"id": "C131", "title": "Verifiers of object graphs, global slots and attributes accept exactly the well-formed ones", "statement": "Exactly: a class type is accepted iff it has only attributes and methods, no two of one name; a method iff its symbol is a private, defined function whose first argument is the module of its class; a module iff it has only slots and these are, in order, the attributes of its class with values of their types; list and dict constructions iff every operand is a subtype; torch.type_bound iff it is a tensor type on a tensor argument of a function; a bound symbolic shape iff it has as many symbols as its map and all are symbolic ints. A global slot initializer with as many values as names is accepted iff it is the only one, names every slot of the module once and nothing else, every value is within the bound of its slot, and every operation inside is allowed; when names are wrong the notes are exactly the missing and the unexpected slots, in order. Exceptions, each proved: an initializer with more values than names fails an assertion because the count is verified after it; a shape symbol that is a block argument fails an assertion.", "quantifier": "all symbol tables, classes, modules and slots, for any subtype relation", "why_tests_cant": "Tests have one refused module for each message.", "anchors": ["lib/Dialect/Torch/IR/TorchOps.cpp:ClassTypeOp::verify", "lib/Dialect/Torch/IR/TorchOps.cpp:NnModuleOp::verifySymbolUses", "lib/Dialect/Torch/IR/TorchOps.cpp:MethodOp::verifySymbolUses", "lib/Dialect/Torch/IR/TorchOps.cpp:GlobalSlotModuleInitializerOp::verify", "lib/Dialect/Torch/IR/TorchOps.cpp:BindSymbolicShapeOp::verify", "lib/Dialect/Torch/IR/TorchDialect.cpp:TorchDialect::verifyRegionArgAttribute"]}
{"id": "C132", "title": "Scatters, gates, identities, one-hot vectors and diagonals are decomposed into the operation they replace", "statement": "select_scatter (unsqueeze then slice_scatter) has PyTorch's value and errors for every index other than -1; glu halves the axis, multiplies by the sigmoid of the second half, and errs exactly on odd sizes and bad axes; eye and eye.m give ones exactly on the diagonal and err exactly for a negative size; one_hot has a 1 exactly at each element's class; diag of a matrix is the (unique) requested diagonal and diag of a vector is the square matrix with it on that diagonal, and the pattern applies to ranks 1 and 2 only; trace adds the elements t[i][i]. What slice_scatter writes is read back by the slice, and other positions are kept. Exceptions, each proved: index -1 of select_scatter is always an error (the slice is -1 to 0); one_hot with num_classes -1 is an error, and a class out of range gives a row of zeros instead of an error.", "quantifier": "all tensors of any rank and sizes, all dimensions, indices, offsets and element operations", "why_tests_cant": "Tests use a few shapes and positive indices; the last position by a negative index, empty axes and out-of-range classes are not covered.", "anchors": ["lib/Dialect/Torch/Transforms/DecomposeComplexOps.cpp:10462-10487", "lib/Dialect/Torch/Transforms/DecomposeComplexOps.cpp:1640-1680", "lib/Dialect/Torch/Transforms/DecomposeComplexOps.cpp:1699-1795", "lib/Dialect/Torch/Transforms/DecomposeComplexOps.cpp:11790-11840", "lib/Dialect/Torch/Transforms/DecomposeComplexOps.cpp:2209-2298"]}
{"id": "C133", "title": "Adaptive pools, named convolution paddings and pads are replaced by operations that read PyTorch's positions", "statement": "For sizes of at least one, an accepted adaptive_avg/max_pool2d reads on each axis, for each output i, exactly the positions from floor(i*in/out) to ceil((i+1)*in/out), has exactly the requested outputs when its stride is not zero, and fails its assertions exactly when no fixed kernel and stride could cover those positions; adaptive pools of one axis likewise when shapes are not assumed strict. Convolution padding \"valid\" is zero and \"same\" is half of dilation*(kernel-1) on both sides, which is PyTorch's when that number is even. A pad by reflection or replication is given to the operation of the least number of axes, one to three, and has the value of the pad asked for. Exceptions, each proved: an input of size 1 with two or more outputs passes the assertions with stride 0; with strict symbolic shapes the sizes of the pool of one axis are not compared; \"same\" with an odd number loses one output, and every other text is taken for \"same\"; fewer dilations than axes, and constant pads that are all zero or empty, make the compiler read outside a vector (an unsigned loop index wraps).", "quantifier": "all integer sizes, all weights, dilations, pad lists and texts, all tensors", "why_tests_cant": "Tests use a few divisible sizes; the number-theoretic conditions and wrap-around are only reached at particular sizes.", "anchors": ["lib/Dialect/Torch/Transforms/DecomposeComplexOps.cpp:9517-9604", "lib/Dialect/Torch/Transforms/DecomposeComplexOps.cpp:9619-9762", "lib/Dialect/Torch/Transforms/DecomposeComplexOps.cpp:6018-6092", "lib/Dialect/Torch/Transforms/DecomposeComplexOps.cpp:9304-9408"]}
{"id": "C134", "title": "Missing indices of index and index_put are replaced by ranges that read the same positions", "statement": "For an index list with one run of tensors, the tensors that createNewIndices builds, read with broadcasting at x ++ y ++ z, are exactly x for the leading axes without an index, the values of the given indices at y, and z for the trailing axes, and their shapes are broadcast to the leading sizes, the broadcast shape of the given indices and the trailing sizes. The check for gaps accepts exactly one run of indices; with a gap aten.index.Tensor permutes the axes, those with an index first and each group in its order, so createNewIndices never refuses. aten.index_put's expansion of masks has one slot per axis of a mask, and without missing indices a list is accepted exactly if every mask fits the axes that it indexes. Exceptions, each proved: a missing index is not counted in the check of a later mask, so a mask that fits is refused and one that does not is accepted.", "quantifier": "all ranks, sizes, index tensors and index lists", "why_tests_cant": "Tests use a few index lists; the broadcasting of all combinations of missing indices, ranks and gaps, and masks after a missing index, are not covered.", "anchors": ["lib/Dialect/Torch/Transforms/DecomposeComplexOps.cpp:12396-12512", "lib/Dialect/Torch/Transforms/DecomposeComplexOps.cpp:12519-12618", "lib/Dialect/Torch/Transforms/DecomposeComplexOps.cpp:12625-12712"]}
{"id": "C135", "title": "amin, amax and aminmax reduce exactly the axes that were asked for", "statement": "The decomposition refuses exactly dims or keepdim that are not constant and dims out of range. With keepdim, and without it if the dims are distinct and all of the same sign, the axes of the operand that are reduced are a permutation of the axes that were asked for; with no dims they are all axes; aminmax reduces its one axis or all. Exceptions, each proved for every rank: the dims are sorted before negative ones are made positive, so without keepdim the dims 0 and -2 reduce the last axis instead of the one before it, and 0 and -1 an axis that does not exist.", "quantifier": "all ranks and lists of dims", "why_tests_cant": "The tests of amax use lists of dims of one sign only; dims of both signs are not covered.", "anchors": ["lib/Dialect/Torch/Transforms/DecomposeComplexOps.cpp:2800-2852", "lib/Dialect/Torch/Transforms/DecomposeComplexOps.cpp:2946-2973", "lib/Dialect/Torch/Utils/Utils.cpp:25-31"]}
{"id": "C136", "title": "bucketize gives the bucket of every element, and argmax and argmin the first extreme element", "statement": "For sorted, non-empty boundaries the comparison, argmax, select and where that bucketize becomes give k exactly if k is the bucket of the element: the boundaries before k are below the element (at most the element with right=true) and those from k on are not; that bucket is unique. The decomposition fails exactly without boundaries, although 0 is the bucket then. argmax and argmin without a dim give the index of the first greatest or least element in row-major order, with one axis of size 1 for each axis of the input if they are kept, for every input that has an axis; the size of the flattened input is the product of the sizes, or unknown if one is.", "quantifier": "all lists of boundaries and elements (integers), ranks and shapes", "why_tests_cant": "Tests use a few boundaries; ties, boundaries that equal an element and empty boundaries are not covered for all lengths.", "anchors": ["lib/Dialect/Torch/Transforms/DecomposeComplexOps.cpp:2856-2942", "lib/Dialect/Torch/Transforms/DecomposeComplexOps.cpp:2976-3094"]}
{"id": "C137", "title": "topk and argsort give the extreme elements and their indices in order", "statement": "With aten.sort modelled as a stable sort: for 0 <= k <= n the sort and slices that topk becomes give the values and indices ps exactly if ps has k pairs, each an element of the vector with its index, in order (by element, then by index), and before every element that is not in ps; there is one such list. The pattern is refused exactly unless sorted is a constant true. argsort gives the one list of all indices in that order, a permutation of 0..n-1. Exception, proved: for k < 0 or k > n, which topk rejects, the decomposition gives n+k or n elements.", "quantifier": "all vectors of integers, both directions and all k", "why_tests_cant": "Tests use random vectors of one size without ties; ties and a k out of range are not covered.", "anchors": ["lib/Dialect/Torch/Transforms/DecomposeComplexOps.cpp:11899-11941", "lib/Dialect/Torch/Transforms/DecomposeComplexOps.cpp:11943-11968"]}
{"id": "C138", "title": "The loops of torchvision.nms compute greedy suppression by descending score", "statement": "For every suppression relation, every order of the boxes and every content of the uninitialised result, the two nested loops over the mask, the result and the count give a list exactly if it is the greedy suppression of the order: a box is kept unless one kept before suppresses it. One box suppresses another exactly if the common area exceeds the threshold times the union, with corners in any order, where the common length on an axis is characterised by the points in both intervals. Hence no kept box suppresses a later kept one, every other box is suppressed by a kept one, only indices of boxes are returned, and the box that is first in the stable descending order of the scores is kept.", "quantifier": "all numbers of boxes, integer coordinates and scores, fractional thresholds", "why_tests_cant": "Tests use a few boxes; ties, flipped corners, empty boxes and loops of any length are not covered.", "anchors": ["lib/Dialect/Torch/Transforms/DecomposeComplexOps.cpp:13110-13394"]}
