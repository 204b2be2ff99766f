{"id": "C01", "title": "Symbolic integer division and remainder agree with generated C code", "statement": "For every pair of integer expressions and every valuation in which the divisor is non-zero, the expression returned by symbolic::div evaluates to the C quotient (truncation toward zero), symbolic::mod evaluates to the C remainder, and dividend = div*divisor + mod. The folding shortcuts (constants, x/1, 0/x) never change the value.", "quantifier": "all expressions l, r and all integer valuations with r != 0", "why_tests_cant": "infinitely many expressions and signed values; sign combinations of truncating division are easily missed", "anchors": ["sdfg/src/symbolic/symbolic.cpp: div, mod"]}
{"id": "C02", "title": "divide_ceil returns the ceiling of the quotient", "statement": "symbolic::divide_ceil(a,b) evaluates to ceil(a/b) for every valuation with b>0, whether or not the operands are literals.", "quantifier": "all expressions a,b and all valuations with b>0", "why_tests_cant": "constant folding and the symbolic form take different code paths; only a value-for-all statement compares them", "anchors": ["sdfg/src/symbolic/symbolic.cpp: divide_ceil"]}
{"id": "C03", "title": "Symbolic simplification never changes a value", "statement": "symbolic::simplify(e) evaluates to the same integer as e under every valuation for which e is defined (no division by zero).", "quantifier": "all expressions and all valuations", "why_tests_cant": "expression space is infinite; rewriting under max/idiv/imod/zext has corner cases in sign", "anchors": ["sdfg/src/symbolic/symbolic.cpp: simplify"]}
{"id": "C04", "title": "Computed lower/upper bounds enclose the expression", "statement": "If symbolic::minimum (maximum) returns a bound for an expression under a set of assumptions, then in every valuation satisfying the assumptions, bound <= value (value <= bound), with products of mixed signs, Min/Max and nested assumption bounds.", "quantifier": "all expressions, all assumption maps, all valuations satisfying them", "why_tests_cant": "must hold for every valuation; corner products hide sign mistakes", "anchors": ["sdfg/src/symbolic/extreme_values.cpp: minimum, maximum"]}
{"id": "C05", "title": "Conjunctive normal form is equivalent to the condition", "statement": "Whenever symbolic::conjunctive_normal_form(cond) returns, the conjunction of its clauses (each a disjunction of literals) is true exactly in the valuations where cond is true.", "quantifier": "all conditions and all valuations", "why_tests_cant": "boolean structure of unbounded depth", "anchors": ["sdfg/src/symbolic/conjunctive_normal_form.cpp"]}
{"id": "C06", "title": "Completeness of an if/else is sound", "statement": "If IfElse::is_complete() answers true, then in every state at least one branch condition holds (so code placed after may assume one branch ran).", "quantifier": "all branch condition lists, all states", "why_tests_cant": "quantifies over all states", "anchors": ["sdfg/src/structured_control_flow/if_else.cpp: is_complete"]}
{"id": "C07", "title": "Affine/polynomial decomposition reconstructs the expression", "statement": "The coefficients returned for an expression recompose to it: e = c0 + sum ci*xi; polynomial_div(offset,stride) = (q,r) satisfies offset = q*stride + r in every valuation; affine_inverse recovers the iteration value.", "quantifier": "all expressions, symbols and valuations", "why_tests_cant": "algebraic identity over all valuations", "anchors": ["sdfg/src/symbolic/polynomials.cpp"]}
{"id": "C08", "title": "Contiguity and monotonicity verdicts on loop updates are sound", "statement": "If is_contiguous says a loop advances by exactly one, then the update increases the induction variable by exactly 1 from every value satisfying the assumptions; if is_monotonic says the update increases, it strictly increases.", "quantifier": "all update expressions, assumptions and valuations", "why_tests_cant": "verdict from bounds only; wrong for unseen valuations", "anchors": ["sdfg/src/symbolic/series.cpp: is_monotonic, is_contiguous"]}
{"id": "C09", "title": "Monotonic-disjointness verdict on subscripts is sound", "statement": "If the analysis says a memory subscript is disjoint across iterations by monotonicity, two different values of the loop index never produce the same address.", "quantifier": "all subscripts, assumptions, pairs of distinct iterations", "why_tests_cant": "pairs of iterations over all parameter values", "anchors": ["sdfg/src/symbolic/maps.cpp"]}
{"id": "C10", "title": "Delinearisation of a flat subscript is injective and value preserving", "statement": "When a linear index is delinearised into a multi-dimensional one, equal flat indices within the assumed bounds correspond to equal multi-dimensional indices and conversely.", "quantifier": "all flat subscripts, bounds, valuations", "why_tests_cant": "non-injectivity only shows at boundary valuations", "anchors": ["sdfg/src/symbolic/utils.cpp: delinearize"]}
{"id": "C11", "title": "Type-derived assumptions hold for every value of the type", "statement": "The bounds assumed for a symbol from its primitive type contain every value representable in that type; combining bounds never excludes an admissible value.", "quantifier": "all integer primitive types and all their values", "why_tests_cant": "value ranges up to 2^64", "anchors": ["sdfg/src/symbolic/assumptions.cpp"]}
{"id": "C12", "title": "Sequence fusion preserves program behaviour", "statement": "Flattening a nested sequence into its parent leaves the final store (and break/continue/return outcome) of the program unchanged for every initial store.", "quantifier": "all structured programs and all initial stores", "why_tests_cant": "program space", "anchors": ["sdfg/src/passes/structured_control_flow/sequence_fusion.cpp", "sdfg/src/builder/structured_sdfg_builder.cpp: move_children, remove_child"]}
{"id": "C13", "title": "Dead control-flow elimination preserves program behaviour", "statement": "Removing self assignments, code after return, empty blocks/sequences/branches, false branches, and inlining an always-true first branch leaves the final store and outcome unchanged for every initial store on which the program terminates.", "quantifier": "all structured programs and all initial stores", "why_tests_cant": "program space", "anchors": ["sdfg/src/passes/structured_control_flow/dead_cfg_elimination.cpp"]}
{"id": "C14", "title": "Condition elimination preserves program behaviour", "statement": "Removing an if that repeats a loop's own entry condition does not change the final store for any initial store.", "quantifier": "all programs, all initial stores", "why_tests_cant": "zero-trip behaviour depends on runtime values", "anchors": ["sdfg/src/passes/structured_control_flow/condition_elimination.cpp"]}
{"id": "C15", "title": "Common-assignment elimination preserves program behaviour", "statement": "Hoisting an assignment shared by all branches of an if/else to after the if/else does not change the final store for any initial store.", "quantifier": "all branch lists, assignments and stores", "why_tests_cant": "depends on which branch runs at run time", "anchors": ["sdfg/src/passes/structured_control_flow/common_assignment_elimination.cpp"]}
{"id": "C16", "title": "Loop tiling executes exactly the same iterations in the same order", "statement": "For every loop the LoopTiling transformation accepts and every tile size > 1, the tiled nest runs the original body for the same index values in the same order and terminates whenever the original does.", "quantifier": "all loop bounds, tile sizes, bodies and stores", "why_tests_cant": "unbounded trip counts, remainder tiles", "anchors": ["sdfg/src/transformations/loop_tiling.cpp"]}
{"id": "C17", "title": "Loop interchange preserves results for the loops it accepts", "statement": "When LoopInterchange::can_be_applied accepts a nest, executing the interchanged nest yields the same store as the original.", "quantifier": "all accepted loop nests and all stores", "why_tests_cant": "legality depends on dependences between all pairs of iterations", "anchors": ["sdfg/src/transformations/loop_interchange.cpp"]}
{"id": "C18", "title": "Loop skewing executes the same body instances", "statement": "Skewing shifts the inner loop by factor*(i-init) and compensates in the body: each body instance sees the same index values, in the same order.", "quantifier": "all bounds, factors and stores", "why_tests_cant": "symbolic bounds", "anchors": ["sdfg/src/transformations/loop_skewing.cpp"]}
{"id": "C19", "title": "Loop distribution preserves results", "statement": "Splitting the first child of a loop into its own preceding loop preserves the final store when no later child's effect in an earlier iteration reaches the first child.", "quantifier": "all accepted loops and stores", "why_tests_cant": "pairs of iterations", "anchors": ["sdfg/src/transformations/loop_distribute.cpp"]}
{"id": "C20", "title": "Loop-carried dependency analysis misses no dependency", "statement": "If two different iterations of an analysed loop can access the same location, one writing and one reading it before redefinition, the analysis reports a loop-carried dependency on that container.", "quantifier": "all loop bodies, subscripts and pairs of iterations", "why_tests_cant": "pairs of iterations over all parameter values", "anchors": ["sdfg/src/analysis/data_dependency_analysis.cpp"]}
{"id": "C21", "title": "A loop converted to a parallel map gives the same result in any iteration order", "statement": "Whenever For2Map converts a loop, executing its iterations in any order gives the same final store as the sequential loop.", "quantifier": "all accepted loops, all iteration orders and stores", "why_tests_cant": "factorially many schedules", "anchors": ["sdfg/src/passes/structured_control_flow/for2map.cpp"]}
{"id": "C22", "title": "While-to-for conversion preserves behaviour", "statement": "Converting a while loop with trailing update and conditional continue/break into a for loop preserves the final store for every initial store.", "quantifier": "all accepted while loops, all stores", "why_tests_cant": "first-iteration behaviour depends on runtime values", "anchors": ["sdfg/src/passes/structured_control_flow/while_to_for_conversion.cpp"]}
{"id": "C23", "title": "Loop normalization preserves the iteration sequence", "statement": "Rewriting != bounds to </>, shifting a loop to start at zero and rotating a down-counting loop preserve the sequence of body executions and all values visible after the loop.", "quantifier": "all accepted loops, all stores", "why_tests_cant": "boundary cases of init vs bound", "anchors": ["sdfg/src/passes/structured_control_flow/loop_normalization.cpp"]}
{"id": "C24", "title": "Scalar evolution replaces induction symbols by equal closed forms", "statement": "When SymbolEvolution replaces a symbol updated every iteration by a closed form in the loop index, the replaced expression equals the symbol's value at every use in every iteration, and the symbol's value after the loop is unchanged.", "quantifier": "all accepted loops, all iterations, all stores", "why_tests_cant": "every iteration count including zero", "anchors": ["sdfg/src/passes/symbolic/symbol_evolution.cpp"]}
{"id": "C25", "title": "Canonical bound and stride describe the loop", "statement": "If the loop analysis returns a canonical bound for a loop, then in every state where the loop condition is defined it holds exactly when the index is below that bound; if it returns a stride, the loop update adds exactly that constant to the index.", "quantifier": "all loop conditions and valuations", "why_tests_cant": "all valuations", "anchors": ["sdfg/src/structured_control_flow/structured_loop.cpp"]}
{"id": "C26", "title": "Generated names are fresh", "statement": "find_new_name never returns a name that already exists in the function.", "quantifier": "all sets of existing names and prefixes", "why_tests_cant": "unbounded name sets", "anchors": ["sdfg/src/builder/function_builder.cpp: find_new_name"]}
{"id": "C27", "title": "Tensor views address exactly the elements they denote", "statement": "newaxis, flip and squeeze of a tensor type address, for every in-range index, the element of the original tensor given by the usual (numpy) meaning.", "quantifier": "all shapes, strides, offsets, axes and in-range indices", "why_tests_cant": "unbounded rank and shape", "anchors": ["sdfg/src/types/tensor.cpp"]}
{"id": "C28", "title": "Reshape of a tensor keeps row-major order", "statement": "Tensor reshape with equal element count addresses, at each multi-index of the new shape, the element with the same row-major rank in the original tensor.", "quantifier": "all tensors, shapes and indices", "why_tests_cant": "non-contiguous inputs are rarely tested", "anchors": ["sdfg/src/types/tensor.cpp: reshape"]}
{"id": "C29", "title": "Row-major strides are a bijection onto the element range", "statement": "strides_from_shape yields an addressing that maps the in-range multi-indices one-to-one onto [0,total_elements).", "quantifier": "all shapes and indices", "why_tests_cant": "unbounded rank", "anchors": ["sdfg/src/types/tensor.cpp: strides_from_shape, total_elements"]}
{"id": "C30", "title": "Byte sizes of types", "statement": "The size computed for a type is at least its bit width, arrays are count times element, and is strictly positive for non-void.", "quantifier": "all types", "why_tests_cant": "nested types of unbounded depth", "anchors": ["sdfg/src/types/utils.cpp", "sdfg/src/symbolic/symbolic.cpp: size_of_type"]}
{"id": "C31", "title": "Primitive type names round-trip", "statement": "primitive_type_from_string(primitive_type_to_string(t)) = t, and the classification predicates partition the types consistently with the bit widths and signedness conversions.", "quantifier": "all primitive types", "why_tests_cant": "finite but the classification tables are spread over many switches", "anchors": ["sdfg/include/sdfg/types/type.h"]}
{"id": "C32", "title": "Base64 decode inverts encode", "statement": "arg-capture base64 decoding of an encoding returns the original bytes, for every byte string.", "quantifier": "all byte strings", "why_tests_cant": "all lengths and padding residues", "anchors": ["arg-capture-io/src/base64.cpp"]}
{"id": "C33", "title": "Argument captures survive index write and parse", "statement": "For every history of executions of instrumented regions, the runtime writes, for exactly the invocations the capture strategy selects, an index file that parses back to that invocation's arguments: one entry per (argument, before/after), with its type, dimensions and exactly the captured bytes (inline or in its data file), the last capture of a key winning.", "quantifier": "all capture histories", "why_tests_cant": "histories", "anchors": ["arg-capture-io/src/arg_capture_io.cpp"]}
{"id": "C34", "title": "JSON serialization round-trips", "statement": "Deserializing the serialization of a structured program, its types, conditions, memlets and control-flow yields an equal program.", "quantifier": "all programs and types", "why_tests_cant": "unbounded nesting", "anchors": ["sdfg/src/serializer/json_serializer.cpp"]}
{"id": "C35", "title": "Inlining single-iteration maps and removing empty loops preserves behaviour", "statement": "When dead-control-flow elimination replaces a Map that executes exactly one iteration by its body with the start value substituted (and, in permissive mode, deletes empty loops), the final contents of every container other than the induction variables and the outcome are unchanged for every initial store.", "quantifier": "all programs, all initial stores, both modes", "why_tests_cant": "Substitution must be correct for every body, including bodies that read the variable as data or leave by break", "anchors": ["sdfg/src/passes/structured_control_flow/dead_cfg_elimination.cpp: is_trivial, run_pass"]}
{"id": "C36", "title": "MLIR tensor views address the same element", "statement": "Transposing, flipping or reshaping the compile-time description of a tensor (shape, strides, offset) yields a description under which every in-range multi-index of the view addresses exactly the memory element that the corresponding multi-index of the original addresses, and a reshape is accepted only when this can hold.", "quantifier": "all ranks, shapes, strides, offsets, permutations, axes and indices", "why_tests_cant": "Ranges over all ranks and permutations, including repeated axes", "anchors": ["mlir/lib/Target/SDFG/SDFGTranslator.cpp: TensorInfo::transpose, flip, reshape, is_reshape_valid"]}
{"id": "C37", "title": "Type equality is an equivalence and equal types are interchangeable", "statement": "Comparing two types for equality is reflexive, symmetric and transitive, and equal types have the same size and give the same inferred type and bounds for every access.", "quantifier": "all types of unbounded nesting", "why_tests_cant": "The set of types is infinite and recursive", "anchors": ["sdfg/src/types/*.cpp: operator==", "sdfg/src/types/utils.cpp: get_type_size, infer_type"]}
{"id": "C38", "title": "Type inference of an access is compositional", "statement": "The inferred type of an access with a concatenated subscript is the inferred type of the second part applied to the result of the first; a pointer may be followed only by the first dimension of a subscript.", "quantifier": "all types and subscripts", "why_tests_cant": "Unbounded nesting of aggregate types", "anchors": ["sdfg/src/types/utils.cpp: infer_type, infer_type_internal"]}
{"id": "C39", "title": "Loop assumptions hold wherever they are reported", "statement": "Whenever an execution reaches a node inside nested loops, every lower/upper bound the assumptions analysis reports for that node (start value below the index, condition bound above it, sizes above the start, bounds inferred from array extents, merged over all enclosing loops) holds in the current state, and a symbol reported constant keeps its value while the node runs.", "quantifier": "all programs with arbitrarily nested loops, branches and while loops, all initial stores, every reachable point of every (also non-terminating) execution", "why_tests_cant": "the bounds must hold at every iteration of every nest for all symbol values; transformations rely on them silently", "anchors": ["sdfg/src/analysis/assumptions_analysis.cpp: cnf_to_upper_bound, traverse_structured_loop, propagate", "sdfg/src/symbolic/assumptions.cpp"]}
{"id": "C40", "title": "Expanding elementwise, fill, cast, transpose and broadcast nodes computes the tensor operation", "statement": "After expansion of an elementwise (fill, cast) node the output element at every index is the operation applied to the operand elements at that index as they were before, also in place; of a transpose node out[perm(j)] = in[j]; of a broadcast node out[j] = in[NumPy-broadcast j]; every other cell is unchanged.", "quantifier": "all ranks, (symbolic) shapes, permutations, operands, op-codes and stores", "why_tests_cant": "unbounded ranks and extents, symbolic shapes", "anchors": ["sdfg/src/data_flow/library_nodes/math/tensor/elementwise_node.cpp: ElementWiseUnaryNode::expand, ElementWiseBinaryNode::expand", "sdfg/src/data_flow/library_nodes/math/tensor/transpose_node.cpp: TransposeNode::expand", "sdfg/src/data_flow/library_nodes/math/tensor/broadcast_node.cpp: BroadcastNode::expand"]}
{"id": "C41", "title": "Expanding a reduction folds exactly the reduced elements, once each", "statement": "After expansion of a reduction over a set of axes (negative axes count from the end, keepdims or not), every output element is the fold of the operation, from its identity, over exactly the input elements whose kept coordinates agree with the output index, each once, in row-major order; mean divides this sum by the number of contributing elements.", "quantifier": "all ranks, shapes, axis lists, keepdims flags, operations and stores", "why_tests_cant": "unbounded ranks and axis subsets", "anchors": ["sdfg/src/data_flow/library_nodes/math/tensor/reduce_node.cpp: ReduceNode::expand", "sdfg/src/data_flow/library_nodes/math/tensor/reduce_ops/mean_node.cpp: MeanNode::expand"]}
{"id": "C42", "title": "Expanding activation functions and softmax computes the named function", "statement": "After expansion, relu, sigmoid, ELU, leaky ReLU and hard sigmoid nodes compute the named function of every input element, and softmax computes exp(x-max)/sum over the elements sharing the other coordinates; temporaries stay inside the memory allocated for them.", "quantifier": "all ranks, shapes, axes, stores and interpretations of the scalar operations", "why_tests_cant": "unbounded shapes; buffer sizes depend on symbolic extents", "anchors": ["sdfg/src/data_flow/library_nodes/math/tensor/elementwise_ops/relu_node.cpp", "sdfg/src/data_flow/library_nodes/math/tensor/elementwise_ops/sigmoid_node.cpp", "sdfg/src/data_flow/library_nodes/math/tensor/elementwise_ops/elu_node.cpp", "sdfg/src/data_flow/library_nodes/math/tensor/elementwise_ops/leaky_relu_node.cpp", "sdfg/src/data_flow/library_nodes/math/tensor/elementwise_ops/hard_sigmoid_node.cpp", "sdfg/src/data_flow/library_nodes/math/tensor/reduce_ops/softmax_node.cpp: SoftmaxNode::expand"]}
{"id": "C43", "title": "Expansion keeps everything else its block does", "statement": "Replacing a block by the expansion of the library node it holds keeps the block's transition assignments (executed once, after the operation) and every other computation of the block.", "quantifier": "all blocks, assignments, other computations and stores", "why_tests_cant": "depends on what other passes (block fusion) put into the same block", "anchors": ["sdfg/src/data_flow/library_nodes/math/tensor/elementwise_node.cpp: expand", "sdfg/src/data_flow/library_nodes/math/tensor/broadcast_node.cpp: expand", "sdfg/src/data_flow/library_nodes/math/tensor/reduce_ops/softmax_node.cpp: expand"]}
{"id": "C44", "title": "Expanded BLAS nodes (dot, gemm) compute what the BLAS routine computes", "statement": "Expanding a dot or gemm library node leaves a program that ends with the same values a call of the BLAS routine would leave: res = sum of x[i]*y[i] over the strided vectors (whatever res held before, negative increments walking backwards), C = alpha*A*B + beta*C for row- and column-major matrices with their leading dimensions, also in place; nothing else changes.", "quantifier": "all sizes, increments, leading dimensions, layouts, element operations and memory contents", "why_tests_cant": "holds for every size, stride and content; tests run a few fixed matrices with zeroed results", "anchors": ["sdfg/src/data_flow/library_nodes/math/blas/dot_node.cpp:DotNode::expand", "sdfg/src/data_flow/library_nodes/math/blas/gemm_node.cpp:GEMMNode::expand"]}
{"id": "C45", "title": "Expanded matrix multiplication computes NumPy matmul", "statement": "Expanding a MatMul tensor node gives a program in which every element of the result is the sum of products of the elements the operands' shapes, strides and offsets select, with the batch dimensions broadcast as in NumPy, and nothing but the result changes; views are copied first and still denote the same elements.", "quantifier": "all ranks, shapes, strides, offsets, batch dimensions and memory contents", "why_tests_cant": "the batch, stride and offset combinations are unbounded", "anchors": ["sdfg/src/data_flow/library_nodes/math/tensor/matmul_node.cpp:MatMulNode::expand", "sdfg/src/data_flow/library_nodes/math/tensor/matmul_node.cpp:copy_if_view"]}
{"id": "C46", "title": "Expanded convolution computes ONNX Conv", "statement": "Expanding a convolution node gives a program in which every output element is the sum over the input channels of its group and the kernel of the products of weights and zero-padded inputs at stride*o + dilation*k - pad, plus the bias, with floor((in + pads - dilation*(kernel-1) - 1)/stride) + 1 outputs per dimension; nothing outside the input is read and nothing else is written.", "quantifier": "all numbers of spatial dimensions, shapes, kernels, strides, paddings, dilations, groups and contents", "why_tests_cant": "the parameter space is unbounded and reads outside the input often go unnoticed", "anchors": ["sdfg/src/data_flow/library_nodes/math/tensor/conv_node.cpp:ConvNode::expand"]}
{"id": "C47", "title": "A block's nodes are emitted once each, producers before consumers", "statement": "For every acyclic dataflow graph, the order in which the code generator emits the nodes of a block contains every node exactly once; every node comes after the nodes it reads from; and in a block whose conflicting operations are ordered by the graph the emitted code computes what every topological order computes.", "quantifier": "every well-formed acyclic dataflow graph, every store, every meaning of the tasklet codes", "why_tests_cant": "The sort is a priority-driven backwards search with stitched chunks; its result depends on sibling order, element ids and fan-out, so a finite set of graphs cannot cover the orders that occur.", "anchors": ["sdfg/src/data_flow/data_flow_graph.cpp: DataFlowGraph::topological_sort", "sdfg/src/codegen/dispatchers/block_dispatcher.cpp: DataFlowDispatcher::dispatch", "sdfg/src/graph/graph.cpp: weakly_connected_components"]}
{"id": "C48", "title": "Fusing two consecutive blocks preserves what they compute", "statement": "When the block fusion pass accepts two consecutive blocks, the fused block is well formed and acyclic, holds exactly the operations of the two blocks, and followed by its transition assignments leaves every container as the two blocks with their transitions did.", "quantifier": "every pair of well-formed race-free blocks, every choice of fresh element ids, every store", "why_tests_cant": "The criterion looks only at one matching source and sink per pair of components; whether all remaining conflicts are ordered is a property of all graph shapes.", "anchors": ["sdfg/src/passes/structured_control_flow/block_fusion.cpp: BlockFusion::can_be_applied, apply", "sdfg/src/data_flow/data_flow_graph.cpp: post_dominators"]}
{"id": "C49", "title": "The data dependency analysis reports every flow from a write to a read", "statement": "If in some execution a read of a container obtains data that an earlier write of that container stored (no other write of a scalar in between), then the data dependency analysis lists that read among the reads of that write; in particular a write listed without reads is never read. Every executed write has an entry.", "quantifier": "every program, every container, every terminating execution (normal end or return), every answer of the dominance and memlet oracles compatible with the hypotheses", "why_tests_cant": "The claim is about all executions through branches, loops, breaks and early returns; a missed flow shows only on particular inputs.", "anchors": ["sdfg/src/analysis/data_dependency_analysis.cpp: DataDependencyAnalysis::run, visit_block, visit_for, visit_if_else, visit_while, visit_return, visit_sequence, closes, defines, definitions", "sdfg/src/analysis/users.cpp: Users::traverse"]}
{"id": "C50", "title": "Dead data elimination keeps everything observable", "statement": "After the pass removes transition assignments and tasklets whose written data is never read, every terminating execution has the same outcome, the same content of all containers the pass may not touch (external, viewed, moved, pointers) and the same returned value; a container the pass deletes occurs nowhere in the rewritten program.", "quantifier": "every program, every set of candidate containers, every terminating execution, every interpretation of the tasklets", "why_tests_cant": "A write is dead only if no execution reads it; a wrong deletion is visible only on the inputs that take the path.", "anchors": ["sdfg/src/passes/dataflow/dead_data_elimination.cpp: DeadDataElimination::run_pass", "sdfg/src/analysis/data_dependency_analysis.cpp: DataDependencyAnalysis::definitions", "sdfg/src/builder/structured_sdfg_builder.cpp: StructuredSDFGBuilder::clear_node"]}
{"id": "C51", "title": "Structuring a control-flow graph keeps its behaviour", "statement": "When an SDFG made of states and guarded edges is converted to a structured SDFG without an exception, the structured program terminates from exactly the same inputs as the graph, returns the same value and leaves the same data.", "quantifier": "every graph of states (any size, nesting and branching) on which the conversion succeeds, every input store, every terminating execution", "why_tests_cant": "The graph is arbitrary and executions are unbounded; tests convert a few hand-written graphs and inspect the shape of the result.", "anchors": ["sdfg/src/builder/structured_sdfg_builder.cpp: determine_loop_nodes, traverse, structure_region", "sdfg/src/sdfg.cpp: back_edges, dominator_tree, post_dominator_tree"]}
{"id": "C52", "title": "Unifying loop exits preserves behaviour", "statement": "The pass that gives a loop a single exit changes nothing observable: started in the start state from any store, the graph before and the graph after terminate in the same cases, with the same return value and the same value of every container except the new jump symbol, whatever order the exits are numbered in. After the pass all edges that leave the treated loop lead to the new state, which leads exactly to the former exits; all other edges are kept; the edges of a state stay mutually exclusive. If the pass reports no change, no loop has two different exits. Structuring the result gives a program with the same results.", "quantifier": "every control-flow graph, every choice of back edge, every iteration order of the exit set, every store and every terminating execution", "why_tests_cant": "a test runs one graph with one hash order; the claim ranges over all graphs, exits, stores and path lengths", "anchors": ["sdfg/src/passes/structured_control_flow/unify_loop_exits.cpp: UnifyLoopExits::run_pass", "sdfg/src/passes/structured_control_flow/unify_loop_exits.cpp: determine_loop_nodes"]}
{"id": "C53", "title": "Inserting states and loops into a control-flow graph", "statement": "Adding a state before or after another one leaves every execution as it was (the new state is empty and is passed through), and all edges into (out of) the given state go through the new one. Adding a loop after a state makes executions run, between the block of the state and its former outgoing edges, exactly the loop init; cond; update with the contents of the body state as body; executions from other states are unchanged. This requires that the edges that are redirected carry no assignments: otherwise these are dropped (refuted).", "quantifier": "every control-flow graph, state, iterator, bounds, loop body, store and terminating execution", "why_tests_cant": "tests count the states and edges; equivalence must hold for every graph, number of iterations and store", "anchors": ["sdfg/src/builder/sdfg_builder.cpp: SDFGBuilder::add_state_before", "sdfg/src/builder/sdfg_builder.cpp: SDFGBuilder::add_state_after", "sdfg/src/builder/sdfg_builder.cpp: SDFGBuilder::add_loop"]}
{"id": "C54", "title": "Fusing a map into the loop that consumes its results keeps results", "statement": "MapFusion(first_map, second_loop): if can_be_applied accepts two neighbouring loops and the loops are independent apart from the arrays produced by the first (the second changes nothing the first reads or writes, does not use its private scalars, reads every shared element through its own access node, and reads only elements the first map has written), then after apply every execution that ends still ends, and every container other than the private scalars of the first map and the new temporaries holds the same values; in particular the index mapping the transformation computes is the index for which the first map wrote the element.", "quantifier": "all pairs of loops accepted by can_be_applied, all bounds, subsets, tasklets, stores and iteration orders of the sets used", "why_tests_cant": "the consumer's index, its range, the stride of the producer and the shape of the access nodes vary independently; tests fix a handful of loops", "anchors": ["sdfg/src/transformations/map_fusion.cpp: MapFusion::can_be_applied", "sdfg/src/transformations/map_fusion.cpp: MapFusion::apply", "sdfg/include/sdfg/transformations/map_fusion.h: FusionCandidate"]}
{"id": "C55", "title": "Promoting an integer tasklet to a symbolic assignment keeps its value", "statement": "SymbolPromotion replaces a block with a single integer tasklet by an assignment on a transition. For every accepted tasklet and every memory state in which the tasklet is defined, the container written by the assignment holds the value the tasklet would have stored, in the container's declared type; and a program after the pass has the executions it had before.", "quantifier": "all tasklet codes, operand kinds (constants, scalars, array elements), declared and memlet types, operand values in the range of their types, and all programs and executions", "why_tests_cant": "the promoted expression is evaluated over unbounded integers and printed with other casts and operators than the tasklet; differences appear only at particular values (negative shifts, 32-bit boundaries) and type combinations", "anchors": ["sdfg/src/passes/symbolic/symbol_promotion.cpp: SymbolPromotion::can_be_applied, is_safe_constant_assign, apply, run_pass", "sdfg/src/codegen/dispatchers/block_dispatcher.cpp: dispatch_tasklet", "sdfg/src/codegen/language_extensions/c_language_extension.cpp: tasklet, CSymbolicPrinter", "sdfg/src/data_flow/tasklet.cpp: is_zext, is_trunc"]}
{"id": "C56", "title": "SymbolPropagation keeps the value of every read", "statement": "When SymbolPropagation replaces a read of an integer symbol by the right-hand side of the one assignment that reaches it (or by that right-hand side with one later change of a symbol undone), every execution of the program, with any inputs, branches and loop counts, ends in the same store with the same return.", "quantifier": "all programs, symbols, assignments, reads, initial stores and executions", "why_tests_cant": "whether a symbol of the right-hand side can change between the assignment and the read depends on every path through loops, breaks and branches", "anchors": ["sdfg/src/passes/symbolic/symbol_propagation.cpp: inverse, SymbolPropagation::run_pass", "sdfg/src/analysis/dominance_analysis.cpp: dominates", "sdfg/src/analysis/users.cpp: Users::traverse"]}
{"id": "C57", "title": "Generated tasklet code computes the operation of its code", "statement": "The C statement generated for a tasklet stores the value that the tasklet's code names: wrap-around arithmetic, signed or unsigned division, shifts, minimum, maximum, three-way and relational comparisons on the bit patterns of the operands, and the ordered/unordered floating-point predicates; integer powers in symbolic expressions are computed exactly when they fit.", "quantifier": "every tasklet code, operand type, output type and operand value", "why_tests_cant": "C's integer promotions, implementation-defined char and NaN make the result depend on the combination of code, width, signedness and value; the space of values is unbounded.", "anchors": ["sdfg/src/codegen/language_extensions/c_language_extension.cpp CLanguageExtension::tasklet, primitive_type", "sdfg/src/codegen/dispatchers/block_dispatcher.cpp dispatch_tasklet", "sdfg/include/sdfg/data_flow/tasklet.h TaskletCode, is_unsigned", "rtl/include/daisy_rtl/daisy_rtl.h __daisy_sym_pow"]}
{"id": "C58", "title": "Generated C text of a symbolic expression has the expression's value", "statement": "The C text printed for a symbolic expression or condition (loop bounds, subsets, transition assignments, branch conditions) parses, by C's precedence and associativity, to a single syntax tree, and evaluating that tree with C's promotions and conversions gives the value of the expression, whenever the evaluation has no undefined behaviour.", "quantifier": "every canonical expression or condition, every assignment of signed integer types and values to its symbols", "why_tests_cant": "Missing parentheses or a wrong sign only show for particular nestings of operators, and overflow or conversions only for particular values; both spaces are infinite.", "anchors": ["sdfg/src/codegen/language_extensions/c_language_extension.cpp CSymbolicPrinter", "rtl/include/daisy_rtl/daisy_rtl.h __daisy_min, __daisy_max, __daisy_sym_pow"]}
{"id": "C59", "title": "Generated C statements execute like the structured program", "statement": "The C function body generated for a structured program (loops, while loops with break and continue, if/else chains, transition assignments, returns) ends with the memory and return value the program ends with: every ending run of the program is a run of the C code unless the C code meets undefined behaviour or stores a value outside the range of a symbol, and every ending run of the C code is a run of the program.", "quantifier": "all structured programs whose expressions are printable over signed integer symbols, all initial memories of the right types, any number of iterations", "why_tests_cant": "Generated code is compared with the program on a few compiled kernels; nesting of loops, branches, break/continue and evaluation order of transitions are unbounded.", "anchors": ["sdfg/src/codegen/dispatchers/sequence_dispatcher.cpp: SequenceDispatcher::dispatch_node", "sdfg/src/codegen/dispatchers/for_dispatcher.cpp: ForDispatcher::dispatch_node", "sdfg/src/codegen/dispatchers/while_dispatcher.cpp: WhileDispatcher, BreakDispatcher, ContinueDispatcher, ReturnDispatcher", "sdfg/src/codegen/dispatchers/if_else_dispatcher.cpp: IfElseDispatcher::dispatch_node", "sdfg/src/codegen/dispatchers/map_dispatcher.cpp: sequential schedule"]}
{"id": "C60", "title": "Removing a repeated definition keeps the program's result", "statement": "When constant propagation deletes the second of the only two definitions of a container, every execution of the program ends in the same way with the same contents of every container.", "quantifier": "every structured program, every pair of definitions (tasklets or transition assignments) the pass accepts, every initial state and every execution, including definitions inside loops", "why_tests_cant": "The first definition must have been executed, and nothing it reads may have changed, on every path and in every loop iteration that reaches the second one; tests only sample paths.", "anchors": ["sdfg/src/passes/dataflow/constant_propagation.cpp ConstantPropagation::run_pass", "sdfg/src/analysis/users.cpp Users::all_uses_between", "sdfg/src/analysis/dominance_analysis.cpp DominanceAnalysis::dominates"]}
{"id": "C61", "title": "Tasklet fusion removes a copy without changing results", "statement": "When tasklet fusion removes, inside one block, a copy into a temporary that is used nowhere else (x -> assign -> t -> readers) or a copy out of one (tasklet -> t -> assign -> out), the block stays valid and race free, no longer mentions the temporary, and every emission order of the new block computes what every emission order of the old one computes for all other containers; hence so does the whole program.", "quantifier": "all valid race-free blocks of tasklets, access nodes with one incoming copy or one outgoing copy, subsets, emission orders, tasklet semantics, initial stores, and programs around the block", "why_tests_cant": "the block's graph, the order its nodes are emitted in and the values are unbounded; a test fixes one graph and one order", "anchors": ["sdfg/src/passes/dataflow/tasklet_fusion.cpp: TaskletFusion::accept, container_allowed_accesses", "sdfg/src/data_flow/tasklet.cpp: Tasklet::validate"]}
{"id": "C62", "title": "Instrumentation runtime: no failure, stable ids, bounded event sets", "statement": "As long as every instrumented region makes its calls in the generated order (init, any number of enter/exit pairs and metric reports, finalize, possibly all over again), with regions nested or interleaved in any way, __daisy_instrumentation_* never ends the program and never leaves its vectors; a region keeps its id when initialised again and no two regions share one; each open region has a running PAPI event set of its own; at most ten event sets beyond those of the open regions exist; at shutdown the kept ones are destroyed, and none is left if every region was finalised. A region that is initialised again while it is open (recursion, a second thread, a return that skips finalize) ends the program.", "quantifier": "all event lists and modes, all histories of calls of any number of regions with any interleaving that follow the protocol per region", "why_tests_cant": "the cache of sleeping event sets only shows its faults for particular orders of more than ten regions; tests run a few", "anchors": ["rtl/src/instrumentation.cpp: register_region, enter_region, exit_region, finalize, ~DaisyInstrumentationState", "sdfg/src/codegen/instrumentation/instrumentation_plan.cpp: begin_instrumentation, end_instrumentation"]}
{"id": "C63", "title": "Instrumentation runtime: recorded measurements", "statement": "In trace mode the starts, durations and counter differences kept for a region are those of its enter/exit pairs, in order, across repeated init/finalize and whatever other regions do meanwhile; in aggregate mode the runtime, counter and metric statistics are the number, mean, population variance, least and greatest of exactly those values (over the rationals), and the first start is kept.", "quantifier": "all event lists, all protocol histories, all clock and counter readings (counter differences in the range of long long)", "why_tests_cant": "the online update must equal the closed formula after any number of samples, and no other region's calls may disturb it", "anchors": ["rtl/src/instrumentation.cpp: enter_region, exit_region, provided_metric"]}
{"id": "C64", "title": "Instrumentation trace file", "statement": "At the end of the program the runtime writes a JSON document: in trace mode one event for every time a region was entered, with its start, duration and counters, in aggregate mode one event per region with its statistics; regions in any order. The events asked for in the environment variable are exactly its comma-separated parts. (False for a region that is initialised but never entered, for metadata without SDFG name or file, and, in aggregate mode with counters, for a program that ends inside a region.)", "quantifier": "all protocol histories, all metadata, all orders of the region map, all event lists", "why_tests_cant": "separators depend on which regions have events and on which metadata is missing, over all histories", "anchors": ["rtl/src/instrumentation.cpp: append_event, append_event_aggregated, ~DaisyInstrumentationState, split_string", "sdfg/src/codegen/instrumentation/instrumentation_plan.cpp: begin_instrumentation"]}
{"id": "C65", "title": "A parallel (OpenMP) map computes what the sequential loop computes, under every thread schedule", "statement": "When a map with the OpenMP schedule is executed by any number of threads, with its iterations distributed over them in any way, with arbitrary garbage in the thread-private copies and with the memory accesses of the threads interleaved arbitrarily, then no thread gets stuck or fails, every execution ends, no two threads ever access the same shared element at the same time with one of them writing, and at the end every shared container holds what the sequential loop leaves there; this holds for all maps whose iterations are independent and for the loops the loop-to-map conversion accepts.", "quantifier": "all loop bodies (blocks, branches, nested loops, while, break/continue), all bounds and stores, all numbers of threads, all distributions of iterations, all interleavings of single accesses, all initial contents of private copies", "why_tests_cant": "A test run sees one of exponentially many interleavings on one machine; a race shows only under particular timing.", "anchors": ["opt/src/targets/omp/codegen/omp_map_dispatcher.cpp: OMPMapDispatcher::dispatch_node", "opt/src/transformations/omp_transform.cpp: OMPTransform::can_be_applied", "sdfg/src/analysis/users.cpp: Users::locals", "sdfg/src/passes/structured_control_flow/for2map.cpp"]}
{"id": "C66", "title": "A CUDA kernel executes every iteration of its map nest exactly once, under every interleaving of its threads", "statement": "When a nest of maps is compiled to a CUDA kernel, the launched grid covers every point of the index space, exactly one thread executes the body for it and no thread executes it for any other point; for independent iterations, with arbitrary interleaving of the accesses of all threads and arbitrary garbage in kernel-local variables, the kernel ends, no thread fails or gets stuck, there is no data race, and global memory holds what the sequential loops leave there.", "quantifier": "all map nests with one map per dimension, all bodies, all iteration counts (constant or symbolic, including zero and negative), all block sizes, all orders in which the maps are found, all interleavings of single accesses", "why_tests_cant": "Grid sizes, remainders of the division by the block size and interleavings cannot be enumerated; an error shows only for particular bounds, block sizes or timing.", "anchors": ["opt/src/targets/cuda/cuda_map_dispatcher.cpp: CUDAMapDispatcher::dispatch_node, find_nested_cuda_blocksize, find_nested_cuda_iterations, dispatch_kernel_body, dispatch_kernel_preamble", "opt/src/transformations/offloading/cuda_parallelize_nested_map.cpp: CUDAParallelizeNestedMap::can_be_applied", "sdfg/src/symbolic/symbolic.cpp: divide_ceil"]}
{"id": "C67", "title": "Offloading a map leaves the host memory of the sequential map", "statement": "When a map is offloaded (each array argument copied to a fresh device buffer, the map run on the device names, written arrays copied back, all buffers released), the resulting sequence of transfers and kernel runs without an invalid device access whenever the sequential map runs and touches only elements inside the copied ranges; afterwards every argument array holds what the sequential map leaves, all other host memory and all other device buffers are unchanged, and no device buffer is leaked. A program with any number of offloaded maps and host phases ends with the host memory of the sequential program.", "quantifier": "every map, every set of array arguments and sizes, every memory and device state, every number of phases", "why_tests_cant": "The result depends on every index the map touches, on every memory content and on which buffers are live; tests see a few sizes only.", "anchors": ["opt/src/transformations/offloading/offload_transform.cpp: OffloadTransform::apply", "opt/src/transformations/offloading/cuda_transform.cpp: CUDATransform", "opt/src/targets/cuda/cuda_data_offloading_node.cpp: dispatcher", "opt/src/targets/offloading/data_offloading_node.cpp: DataOffloadingNode"]}
{"id": "C68", "title": "Removing a copy to the host and back keeps results", "statement": "When data transfer minimisation replaces a copy-out followed by a copy-in of the same host array by passing on the device buffer, the new program runs without an invalid device access whenever the old one does and leaves the same host memory; the copy-out itself is dropped only if the host array is not read again.", "quantifier": "every position of the two transfers, every program before, between and after them, every memory and device state", "why_tests_cant": "Whether the buffer survives unchanged and is still allocated at the point of the removed copy-in depends on everything executed in between.", "anchors": ["opt/src/passes/offloading/data_transfer_minimization_pass.cpp: DataTransferMinimization::accept", "opt/src/targets/offloading/data_offloading_node.cpp: redundant_with, remove_free"]}
{"id": "C69", "title": "Memory ranges and copy sizes cover every access", "statement": "The range reported for a container of a loop nest contains every index the nest reads or writes; a host/device copy of the size derived from it moves every element touched, so offloading a map with the computed sizes gives the result of running it on the host.", "quantifier": "every loop nest, container, symbol values satisfying the assumptions where the nest starts, and execution", "why_tests_cant": "tests fix a few bounds and sizes; the range must hold for every value of the symbols and every access of every iteration", "anchors": ["sdfg/src/analysis/mem_access_range_analysis.cpp: MemAccessRangesBuilder::process_workItem, process_direct_users", "sdfg/src/analysis/arguments_analysis.cpp: ArgumentsAnalysis::argument_size", "opt/src/transformations/offloading/offload_transform.cpp: OffloadTransform::apply"]}
{"id": "C70", "title": "Local storage for a loop output keeps the result", "statement": "After OutLocalStorage (a copy of the accessed element(s) into a local scalar or array, the loop on the local copy, a copy back) the program ends the same way with the same contents of every original container; the local array is large enough for every iteration.", "quantifier": "every loop, container, subset, following code, initial memory and interpretation of the tasklets the transformation accepts", "why_tests_cant": "tests run a few loops; that the local copy is in step with the container must hold through every nested control flow, break and iteration", "anchors": ["sdfg/src/transformations/out_local_storage.cpp: OutLocalStorage::can_be_applied, apply_scalar, apply_array", "sdfg/src/transformations/utils.cpp: get_iteration_count", "sdfg/src/builder/structured_sdfg_builder.cpp: StructuredSDFGBuilder::add_block_after"]}
{"id": "C71", "title": "Managed allocation keeps results and memory", "statement": "When the memory pipeline turns the malloc/alloca of a container into an allocation made at function entry, and its free into a release made at every exit, each call of the function that was well defined before returns the same value, leaves the same scalars, and leaves exactly the same buffers live with the same contents: nothing is released too early, twice or while undefined, nothing is left behind, and no access becomes out of bounds.", "quantifier": "all functions with any nesting of branches, loops and returns, all accepted allocations and releases, all argument values and initial memories", "why_tests_cant": "Whether the moved allocation and release are safe depends on every path through the function (early returns, arguments overwritten before the allocation, aliases) and on every input that selects it; tests look at the changed storage type of one straight-line program.", "anchors": ["sdfg/src/passes/memory/allocation_management.cpp:AllocationManagement", "sdfg/src/codegen/code_generators/c_code_generator.cpp:CCodeGenerator::dispatch_schedule", "sdfg/src/codegen/dispatchers/while_dispatcher.cpp:ReturnDispatcher::dispatch_node"]}
{"id": "C72", "title": "Propagating a pointer assignment does not change results", "statement": "When the reference propagation pass replaces accesses through a pointer y by accesses through x at a shifted index, because the only pointer assignment reaching them is y = x + e, every call of the function returns the same value and leaves the same memory, scalars and pointers.", "quantifier": "all functions with loads, stores, pointer assignments, malloc/free, branches, loops and early returns; all pointer assignments and all subsets of their users; all calls", "why_tests_cant": "tests look at the renamed access node in a few straight-line graphs; whether x, y or the index can change between the assignment and the user depends on every path and every value", "anchors": ["sdfg/src/passes/dataflow/reference_propagation.cpp:ReferencePropagation::run_pass", "sdfg/src/analysis/reference_analysis.cpp:ReferenceAnalysis", "sdfg/src/analysis/users.cpp:Users::all_uses_between"]}
{"id": "C73", "title": "Removing a pointer that is only assigned does not change results", "statement": "When dead reference elimination removes a pointer container that is never read, written or viewed together with all assignments to it, every call of the function has the same result, memory, scalars and other pointers, and nothing in the function mentions the container any more.", "quantifier": "all functions with loads, stores, pointer assignments, malloc/free, branches, loops and early returns; all containers the pass accepts; all calls", "why_tests_cant": "tests check that the container disappeared; that no path of any program could observe it is a statement about all executions", "anchors": ["sdfg/src/passes/dataflow/dead_reference_elimination.cpp:DeadReferenceElimination::run_pass"]}
{"id": "C74", "title": "Removing a redundant copy from the device leaves host memory unchanged", "statement": "When the pass removes the first of two equal device-to-host copies of one container that is not used in between, the remaining program runs whenever the original does, ends with the same host memory in every container, valid device pointers with the same contents, and no device buffer that the original released is left behind.", "quantifier": "all command sequences (transfers, kernels, host code, pointer assignments), all pairs of copies the pass accepts, all machines", "why_tests_cant": "tests count transfers in one graph; whether the second copy really overwrites all the first wrote, and what happens to the buffer the removed node released, depends on sizes and everything in between", "anchors": ["opt/src/passes/offloading/remove_redundant_transfers_pass.cpp:RemoveRedundantTransfersPass::run_pass", "opt/src/targets/offloading/data_offloading_node.cpp:DataOffloadingNode::equal_with"]}
{"id": "C75", "title": "Linearizing a multi-dimensional access does not move it", "statement": "When memlet linearization replaces an access to a nested array type by an access with a single index to a pointer of the scalar type, the new index is, in every environment in which the old access has an address, the distance in elements between the start of the container and that address, including accesses that stop at a row; accesses within the extents with different indices keep different addresses.", "quantifier": "all nested array types with symbolic extents, all subsets, all environments", "why_tests_cant": "tests compare one linearized expression with the expected text; the product of the remaining extents must be right for every depth, extent and partially indexed access", "anchors": ["sdfg/src/passes/dataflow/memlet_linearization.cpp:MemletLinearization::accept"]}
{"id": "C76", "title": "Removing an array dimension of size one changes no value", "statement": "When the pass removes the first dimension of extent one from a container's type and the corresponding index from every access, every execution whose accesses to that container are within its extents is an execution of the changed program with the same outcome, the same contents of all other containers, and the same contents of the container at the shortened indices; the changed program has no other execution.", "quantifier": "all programs, array types, initial memories and in-bounds executions", "why_tests_cant": "tests count dimensions after the pass; that reads and writes stay matched through loops and symbolic indices depends on every index being zero in every execution", "anchors": ["sdfg/src/passes/dataflow/trivial_array_elimination.cpp:TrivialArrayElimination::run_pass"]}
{"id": "C77", "title": "Dropping a 32-bit truncation changes no index and no condition", "statement": "When type minimization replaces trunc_i32(e) by e in a memlet's subset or a loop condition, e is a non-negative 32-bit integer in every state in which the expression is evaluated, so subsets and conditions keep their values and the program its behaviour.", "quantifier": "all expressions, all assumption sets, all states that satisfy them, all programs and executions", "why_tests_cant": "tests look at the rewritten text; whether the bounds found really cover every iteration that reaches the access is a statement about all executions", "anchors": ["sdfg/src/passes/symbolic/type_minimization.cpp:TypeMinimization::is_safe_trunc", "sdfg/src/passes/symbolic/type_minimization.cpp:TypeMinimization::accept"]}
{"id": "C78", "title": "Threads outside the map's range pass the barriers and nothing else", "statement": "After condition propagation on a kernel map with barriers, a thread whose index satisfies the map's condition behaves as before, a thread whose index does not leaves everything other threads can see unchanged, and any two threads of a launch pass the same number of barriers.", "quantifier": "all map bodies (nested loops, branches, while loops), all conditions, all initial states and executions, in range or not", "why_tests_cant": "tests look at where the test was put; whether every path of every thread reaches the barriers, and none of an out-of-range thread writes, ranges over all executions", "anchors": ["opt/src/transformations/offloading/gpu_condition_propagation.cpp:GPUConditionPropagation::apply", "opt/src/transformations/offloading/gpu_condition_propagation.cpp:BarrierFinder", "opt/src/passes/offloading/sync_condition_propagation.cpp:SyncConditionPropagation::run_pass"]}
{"id": "C79", "title": "A precise operation count is the number of operations executed", "statement": "When the flop analysis reports its result as precise, the expression it gives for a loop (or for the program), evaluated where the loop starts, equals the number of floating-point operations every execution of the loop performs.", "quantifier": "all programs of blocks, branches and nested loops, all values of the parameters, all executions", "why_tests_cant": "tests compare expressions; whether an expression counts the operations for every value of the symbols, and still does when an outer loop changes them, is a statement about all executions", "anchors": ["sdfg/src/analysis/flop_analysis.cpp:FlopAnalysis::visit_structured_loop_with_scope", "sdfg/src/analysis/flop_analysis.cpp:FlopAnalysis::get_scope_parameters", "sdfg/src/analysis/flop_analysis.cpp:FlopAnalysis::visit_block"]}
{"id": "C80", "title": "Sorting blocks before offloading keeps what the program computes", "statement": "BlockSortingPass moves allocations, memsets and references to the front of their sequence and releases to the end. For every program and every memory, each execution of the original is an execution of the sorted program, with the same exit (normal, break, continue, return), the same scalars, pointers and buffers; no access is dropped or duplicated; sorting stops at the first break, continue or return.", "quantifier": "all programs built from sequences, branches, loops, jumps and blocks of scalar, load, store, reference, allocation, release and memset accesses, at any nesting; all memories and all terminating executions", "why_tests_cant": "Whether two blocks may be exchanged depends on which buffers their pointers reach at run time, and bubbling composes arbitrarily many exchanges at every nesting level; a test sees one program and one aliasing pattern.", "anchors": ["opt/src/passes/offloading/code_motion/block_sorting.cpp:BlockSortingPass::sort", "opt/src/passes/offloading/code_motion/block_sorting.cpp:BlockSortingPass::bubble_up", "opt/src/passes/offloading/code_motion/block_sorting.cpp:BlockSortingPass::bubble_down", "opt/src/passes/offloading/code_motion/block_sorting.cpp:BlockSortingPass::get_prio_and_order"]}
{"id": "C81", "title": "Moving blocks out of conditionals and maps keeps what the program computes", "statement": "BlockHoisting moves a block that both branches of a complete conditional start (or end) with in front of it (or behind it), and a reference, alloca or memset that a map starts or ends with out of the map. For every program and memory the transformed program has the same executions: same exit, scalars, pointers and buffers.", "quantifier": "all programs built from sequences, branches, loops, jumps and blocks; all places of the conditional or map; all memories and all terminating executions, all trip counts", "why_tests_cant": "Trip counts, aliasing of the moved block with the rest of the body and the assignments of transitions range over unbounded inputs; the existing tests only look at where the block ends up.", "anchors": ["opt/src/passes/offloading/code_motion/block_hoisting.cpp:BlockHoisting::accept", "opt/src/passes/offloading/code_motion/block_hoisting.cpp:BlockHoisting::if_else_invariant_front", "opt/src/passes/offloading/code_motion/block_hoisting.cpp:BlockHoisting::if_else_invariant_back", "opt/src/passes/offloading/code_motion/block_hoisting.cpp:BlockHoisting::map_invariant_front", "opt/src/passes/offloading/code_motion/block_hoisting.cpp:BlockHoisting::map_invariant_back"]}
{"id": "C82", "title": "Propagated source locations cover what a node contains", "statement": "After debug info propagation every control flow node whose contents have a source location has one; when all locations of the program are in one file and one function, its line range is exactly the range spanned by everything inside it, starting and ending where one of them does, and running the pass again changes nothing. Everything except the locations of control flow nodes is unchanged.", "quantifier": "all programs, all nestings of control flow nodes, all locations of nodes, edges, transitions and data flow", "why_tests_cant": "The order in which locations are merged depends on the nesting and the order of the children and of the graph's nodes; that the result is the enclosing range needs associativity of merging, for all locations.", "anchors": ["sdfg/src/element.cpp:DebugInfo::merge", "sdfg/src/passes/debug_info_propagation.cpp:DebugInfoPropagation::propagate", "sdfg/src/passes/debug_info_propagation.cpp:DebugInfoPropagation::run_pass"]}
{"id": "C83", "title": "A pipeline ends with nothing left to do", "statement": "A pipeline runs every pass until it reports no change, and all passes until none reports one. What every pass preserves the pipeline preserves; its result is determined by the program; when its passes report all their changes, it ends with a program to which no pass applies, reports whether any pass applied to the program it was given, and running it again changes nothing. It ends whenever something gets smaller each time a pass applies.", "quantifier": "all pipelines (lists of passes), all passes, all programs, all numbers of rounds", "why_tests_cant": "Passes enable each other, so the number of rounds is unbounded; tests run a pipeline on a few programs and cannot see that one never ends.", "anchors": ["sdfg/src/passes/pipeline.cpp:Pipeline::run", "sdfg/src/passes/pass.cpp:Pass::run", "sdfg/src/passes/debug_info_propagation.cpp:DebugInfoPropagation::run_pass"]}
{"id": "C84", "title": "A deep copy is the same code under new identifiers", "statement": "Inserting the children of a sequence into another, or copying a node into it, adds exactly the same control flow, conditions, bounds, assignments and data flow behind what was there (a copied node gets no assignments), gives every new element an identifier no other element has, and leaves the builder's next identifier above all in use.", "quantifier": "all programs, all nestings of the copied node, all programs it is copied into, all identifier counters", "why_tests_cant": "Identifiers are handed out in the order of the recursion, with extra ones for loop bodies; that none is used twice depends on the nesting of the whole copied tree.", "anchors": ["sdfg/src/deepcopy/structured_sdfg_deep_copy.cpp:StructuredSDFGDeepCopy::append", "sdfg/src/deepcopy/structured_sdfg_deep_copy.cpp:StructuredSDFGDeepCopy::insert", "sdfg/src/deepcopy/structured_sdfg_deep_copy.cpp:StructuredSDFGDeepCopy::copy", "sdfg/src/builder/structured_sdfg_builder.cpp:StructuredSDFGBuilder::add_dataflow", "sdfg/src/builder/structured_sdfg_builder.cpp:StructuredSDFGBuilder::add_while"]}
