{
 "C01": "`symbolic::div/mod/simplify` and the C printer on `expr`; compared with C's truncated division on `Z`. Structural induction on the printed expression.",
 "C02": "`divide_ceil` (symbolic.cpp) as a function; compared with the mathematical ceiling.",
 "C03": "`simplify`, `expand`, substitution on expression trees; induction, one lemma per rewrite rule of SymEngine's constructors.",
 "C04": "`minimum`/`maximum` with assumption maps (extreme_values.cpp), fuelled by the recursion depth the code uses; invariant: whenever an answer is given it bounds the value in every environment satisfying the assumptions.",
 "C05": "`conjunctive_normal_form` with its distribution step; induction on fuel with the value of clause sets.",
 "C06": "`IfElse::is_complete` through the normal form; C05 plus unsatisfiability of the negated disjunction.",
 "C07": "`polynomial`, `affine_coefficients`, `affine_inverse`, `polynomial_div` over integer multivariate polynomials (`Poly.v`, `Delin.v`).",
 "C08": "`is_contiguous`, `is_monotonic` of series.cpp; theorem: verdict implies the stated step for every value of the index.",
 "C09": "`is_disjoint_monotonic` of maps.cpp; theorem: verdict implies different subscripts for different iterations in every environment.",
 "C10": "`delinearize` of utils.cpp with the peeling of strides; mixed radix argument for injectivity.",
 "C11": "type ranges and the assumption table built by `add_container`.",
 "C12": "the visitor of sequence_fusion.cpp as a function on IR sequences; simulation in both directions.",
 "C13": "dead_cfg_elimination.cpp with its symbolic condition checks; simulation relation over programs with break/continue/return.",
 "C14": "condition_elimination.cpp; simulation relating the guarded and the unguarded loop.",
 "C15": "common_assignment_elimination.cpp; simulation.",
 "C16": "loop_tiling.cpp on single loops and in contexts (`CtxD.v`); loop iteration lemmas (`LoopIter.v`), regrouping of the index sequence.",
 "C17": "loop_interchange.cpp; execution traces (`Trace.v`), commutation of independent instances (`Reorder.v`).",
 "C18": "loop_skewing.cpp; shifted iteration (`Skew.v`).",
 "C19": "loop_distribute.cpp with the dependency analysis of C20; trace reordering.",
 "C20": "data_dependency_analysis.cpp for straight-line bodies, parameterised by the set oracle (`DepAna.v`); soundness against the conflict relation on traces.",
 "C21": "for2map.cpp with C20; every permutation of the iterations gives the same store.",
 "C22": "while_to_for_conversion.cpp; simulation between the while and the for loop with the update moved.",
 "C23": "loop_normalization (condition, rotation, stride) in `Normalize.v`; iteration-sequence bijection.",
 "C24": "symbol_evolution.cpp (`Evolution.v`); loop invariant with the closed form.",
 "C25": "LoopAnalysis canonical_bound and stride; induction over iterations.",
 "C26": "`find_new_name`/capture names; pigeonhole over the set of used names.",
 "C27": "Tensor layout linearisation; rank function and injectivity in the box.",
 "C28": "`Tensor::reshape`.",
 "C29": "row-major strides; mixed radix bijection.",
 "C30": "type sizes and the expressions returned for them.",
 "C31": "name tables of primitive types.",
 "C32": "base64 encoder/decoder on byte lists; induction by triples.",
 "C33": "arg capture index: writer, parser and execution counters as a state machine over arbitrary histories.",
 "C34": "serializer/deserializer as functions to and from JSON trees; mutual induction over types, expressions (text printed and read back) and control flow.",
 "C35": "dead_cfg_elimination for trivial maps and empty loops; simulation with renaming.",
 "C36": "MLIR tensor view operations on shape/strides/offset.",
 "C37": "type equality as implemented (operator== per class); equivalence and congruence.",
 "C38": "`infer_type`; composition over concatenated subsets.",
 "C39": "assumptions_analysis.cpp: the assumptions collected at each point; invariant over all executions that reach the point.",
 "C40": "expansion of elementwise, fill, cast, transpose, broadcast nodes to loop nests (`Tensor.v`); `nest_run`: the nest executes the body once per point of the box.",
 "C41": "expansion of reduce, mean, std; nest lemma plus fold over the fibre of each output element.",
 "C42": "expansion of activation chains and softmax.",
 "C43": "what the expansion does with the surrounding block and its transition.",
 "C44": "dot and gemm expansion (`Blas.v`); accumulation nest.",
 "C45": "matmul expansion to copies and gemm (`Matmul.v`).",
 "C46": "loop nest expansion of convolutions (`Conv.v`).",
 "C47": "`DataFlowGraph::topological_sort` as written (queue of starts, reversed searches, stitching), the lowering of tasklets; invariant over search states, then a commutation argument over linear extensions.",
 "C48": "BlockFusion criterion and merge on dataflow graphs; the two blocks in sequence are one linear extension of the fused graph, C47 does the rest.",
 "C49": "`DataDependencyAnalysis` (not detailed) as a transformer of (undefined, open, closed) definitions over the tree (`Reach.v`), executions with a log of uses (`Users.v`); dominance, memlet covering and hash-map order are oracles. Invariant per position relating all logs of a prefix (normal, by break/continue, by return) to the three sets; induction on the tree, inner induction on loop executions (`ReachProofs.v`). Outside the regular programs the analysis is refuted, for every oracle. The walks of the users graph are a second inductive semantics (`UserGraph.v`); a walk avoiding a loop body exists, so post-dominance by the graph implies the assumption (`GraphProps.v`).",
 "C50": "the rewriting with the analysis of C49 (`DeadData.v`); simulation over executions with logs: the stores agree except where a dropped write is not yet overwritten, and C49 says that is never read. Syntactic induction for the deleted containers (`DeadProps.v`). `GraphProps.v` discharges the post-dominance assumption from the users graph.",
 "C51": "Graph executions as an indexed relation and `structure_region` as a fuelled function with dominance, post-dominance and back edges as parameters (`Cfg.v`); simulation both ways by induction on the fuel, for a while loop by strong induction on the length of the graph execution resp. on the execution of the loop; the invariant says where the traversal is relative to the innermost loop (`CfgProofs.v`). Refutations run the whole conversion, with the graph analyses computed from their definitions (`CfgProps.v`).",
 "C52": "CfgEdit.v: the graph edit of unify_loop_exits.cpp:6-94 on the model of Cfg.v, with the new state, the symbol, the position of the new assignment in the hash map, the edge ids and the iteration order as parameters. Two simulations by induction on executions (up to the value of the symbol); the shape of the result by inspection of the edge list. CfgEditProps.v composes it with C51.",
 "C53": "CfgEdit.v: sdfg_builder.cpp:61-104 and 289-334 (add_state_before, add_state_after, add_loop); executions of the edited graph against executions of the original one (for loops: against an execution relation that runs a structured for loop after the block of the state), both directions by strong induction on the number of edges. Redirected edges must carry no assignments; two refutations show that they are lost otherwise.",
 "C54": "MapFusion.v models can_be_applied (producer, consumer subsets, affine coefficients, index mapping, parameter check) and apply (copies of the producer with the index replaced, redirected access nodes) on the IR of IR.v. The proof runs a copy of the producer block in step with the instance of the first loop that wrote the element (copy_run, instances), shows that the temporaries hold the elements when the rewritten body runs (rw_run), and iterates over the values of the second loop (second, both). The index mapping is shown to be that instance's index from affine_recompose_value and the exactness of the division. Each hypothesis that can_be_applied does not check has a refutation.",
 "C55": "Promote.v models SymbolPromotion (can_be_applied, is_safe_constant_assign, apply, run_pass) on tasklets with the types of containers and memlets, and, independently, what the generated C of a tasklet computes (conversions, integer promotion, overflow as undefined behaviour). PromoteProps.v proves that the container holds the same value after the assignment as after the tasklet when the operands are in the range the printed casts preserve, lifts this to whole programs by induction on executions, and refutes the unconditional claim for each operation where it fails.",
 "C56": "Propagate.v: the replacement at one user of the users graph (transition, condition, loop header, tasklet operand, memlet subset), `inverse`, the dominance/danger criteria. A generic simulation carries an invariant of the log of uses and the store; the invariant says that while the log since the defining assignment has no write of x or of a symbol of rhs, rhs evaluates to x. `reach`/`dom_sound`: dominance on the users graph holds of executions (except for loop updates after a continue). `program_order`: outside loops executions follow program order. Refutations execute the program before and after.",
 "C57": "TaskC.v models the printed C expressions as an AST with C17 integer promotions, usual arithmetic conversions, undefined signed overflow and implementation-defined char; the specification `meaning` is written on bit patterns. The proof is by cases on the code with congruences modulo 2^w. Floating comparisons are over an abstract IEEE comparison. __daisy_sym_pow is the loop on the binary digits of the exponent.",
 "C58": "CParse.v gives the C expression grammar as a relation and a recursive-descent parser proved complete for it (hence unambiguity). CPrint.v models the printer on tokens, C evaluation with types, and proves by induction on the expression that the text derives a tree with the right value.",
 "C59": "CGen.v models the dispatchers (genN/genS/genB/genA) and a control-stack machine for C statements whose expressions are token texts parsed by the C58 grammar. Proved by a simulation over the run derivation (forward) and by strong induction on the number of machine steps (backward); determinism by inversion.",
 "C60": "ConstProp.v models a definition (tasklet or transition assignment), the pass's criteria (may_drop: two writes, dominance, same subsets, same input containers, writes of inputs dominate the first definition, uses between) and the removal. Proof: a simulation in which the store already holds what the second definition would write (redundant), using the users graph to show the first definition has always been made. The right-hand side and own-subset gaps of the pass are refuted on concrete programs.",
 "C61": "TaskletFuse models both halves of the pass on the dataflow graphs of C47 (edges redirected, nodes removed); statement-level lemmas for a copied operand, then graph lemmas: the fused block is valid and race free, and its statements in any topological order agree with the original's except on the temporary. Hole lifts this to a whole program containing the block. The two-reader input case needs that nothing changes the source between the copy and the last reader; without it the claim is refuted.",
 "C62": "Instr.v models the state (regions, names, sleeping list, PAPI event sets with their running flag) and every call; InstrSpec.v the protocol per region on histories. Invariant over histories (InstrProofs.v, Section Life), by induction on the history.",
 "C63": "Per-region data invariant (InstrProofs.v, Section Data) on top of C62's; Welford's update is shown equal to mean and variance over Q (Section Welford).",
 "C64": "InstrOut.v models the writer as a list of JSON tokens; InstrOutProps.v gives the document as a JSON tree built from the history, and proves the file is its text, on top of C63's data invariant. Refutations through: the text of a JSON value never has a comma before a closing bracket or another comma.",
 "C65": "Par.v gives threads a small-step semantics, one memory access per step, derived from the IR (frames and micro-accesses), with thread-private copies of the containers the OpenMP dispatcher lists; a team interleaves threads arbitrarily. ParProofs.v proves a thread alone follows the logged big-step semantics of Trace.v (goes_run), an invariant over teams relating every thread to its solo run (step_inv), and that solo runs of independent iterations determine the final memory (team). ParProps.v states the property for independent iterations (C65_any_interleaving) and for loops accepted by For2Map (C65_for2map_partial, C65_syntactic_partial); refutes it for maps with a temporary that is also used outside (shared) and for constant stores accepted by For2Map (data race).",
 "C66": "Cuda.v models the kernel text (CUDA maps become tests on the thread's coordinates), the launch configuration and the coordinate computation in C's int, on top of the thread semantics of Par.v. CudaProofs.v proves the grid covers the index space (coords_upto, num_blocks_enough, filter_upto), that a thread whose tests pass executes the body once and any other thread accesses nothing shared (run_guards), and that the sequential nest is the iteration over the product space (nest_run). CudaProps.v states coverage (C66_coverage, C66_index_space), the kernel theorem (C66_any_interleaving), and refutes it for sibling maps of one dimension, imperfect nests accepted by the nesting transformation, omitted tests, and more than 2^31 threads.",
 "C67": "Offload.v: a machine with host memory, device pointers, device heap; transfers (allocate, copy, release), kernels that execute the map's loops on the device names with checked accesses, and OffloadTransform's sequence. OffloadProofs.v: renaming simulation with access logs (every container renamed to a name that does not occur), the buffers before and after the kernel, determinism. C67_program composes any number of host and offloaded phases, up to the maps' own variables.",
 "C68": "Offload.v `minimize`: one step of the pass. OffloadSim.v: simulation between machines that differ in addresses, in buffers nobody refers to and in host containers nobody reads, proved for every command; the released buffer of the original run is shown untouched until the copy-in. Refutations exhibit the missing checks: the caller's array is never updated, the buffer is released in between, the size symbol changes, a kept buffer is modified in between.",
 "C69": "Model in Ranges.v: the accesses of a nest with the loops around them, the minimum/maximum of each index over the assumptions (C04, C39), the merged range and the copy size. Proof: every event of a trace comes from an access reached under the loops it is listed with; C39 gives the assumptions there, C04 the bounds, and the bounds only use symbols the nest does not write, so they keep their value. Composed with C67 for offloading; counterexamples for negative indices and negative sizes.",
 "C70": "Model in OutLocal.v: uses with their subsets, can_be_applied, get_iteration_count, the replaced loop and the copies around it. Proof: simulation over executions (mutual induction on the big-step semantics) with the relation 'element j of the container is held in element w of the local storage, everything else is equal'; the array form runs it for each iteration of the trip (LoopIter) between two copy loops. Counterexamples executed by the interpreter.",
 "C71": "Alloc.v models a function's heap and stack memory (loads, stores, pointer views, malloc/alloca/free, branches, loops, returns), the prologue and epilogue the C generator emits for managed containers, and the pass's criteria and edits. AllocProofs/AllocSim: simulation between memories that differ in buffers the program cannot reach; AllocProps: allocation, release and both together preserve result and memory for every call, with five refutations for what the pass does not check.",
 "C72": "RefProp.v: relation flow over nested statements with the must-reach state of one pointer assignment, code_kill as in the pass and full_kill as needed; invariant y = x + e, executions equal in both directions by induction on the rewriting and on executions; congruence for the position in the program; programs the pass accepts refute the rest.",
 "C73": "RefProp.v: erase and dead_ref; simulation with memories equal but for the removed pointer (rel of AllocProofs.v).",
 "C74": "Redundant.v: drop_first on the commands of Offload.v; simulation R of OffloadSim.v with the host container unconstrained until the second copy, which restores equality of all its elements.",
 "C75": "Linearize.v: linear_index and linearize; offset of a C object of nested array type as an inductive relation (words, offset), induction on it.",
 "C76": "TrivialArray.v: trivial_dim and strip_node on the structured language; simulation over traced executions (runT) with memories equal up to the erased index.",
 "C77": "MinTypes.v: is_safe_trunc on minimum_new/maximum_new (SymFuns.v), replacement in subsets and conditions; soundness of the bounds (C04) gives the range, a map over blocks known by the loops around them lifts it to programs.",
 "C78": "GuardProp.v: the recursion of apply over the body and BarrierFinder, a barrier being a write of one container; simulation for threads in range, a frame argument for threads out of range, and a two-run induction over logged executions (Trace.v) for the barriers passed.",
 "C79": "Flops.v: the visitors of FlopAnalysis where precise() stays true, on the tight bounds AssumptionsAnalysis gives a loop; executions with an operation counter (equivalent to run of IR.v) and induction over the nest, then over the iterations of a loop.",
 "C80": "BlockSort.v models the pass (both bubbling loops as insertions) on programs over the heap of Alloc.v; BlockSortProofs.v proves what a block can touch (its containers, the live buffers they point to, later allocations) and from it the four exchanges (reference, allocation, memset up; release down); BlockSortSim.v composes them through sequences, branches and loops (simulation up to pointwise equal memories).",
 "C81": "Hoist.v models accept and its four cases on the programs of BlockSort.v; HoistProps.v proves the conditional cases by inversion and by commuting the moved access with assignments, closes them under all contexts, and the map case by a simulation in which one memory already holds the reference; four counterexamples are executed.",
 "C82": "Dbg.v models DebugInfo::merge and the recursion of the pass over the programs of Serial.v; DbgProofs.v proves that merging within one file and function is associative and idempotent and that the range of a list (hull) is composed by it, then mutual induction over programs; hull, the list of locations inside a node and the list of nodes are the separate specification.",
 "C83": "Pipe.v: the three nested loops as inductive relations over passes S -> S * bool; inductions over executions, and over a natural-number measure for termination; the pass of C82 as the instance that never ends.",
 "C84": "Copy.v threads the identifier counter through the recursion of append; code_* (programs without identifiers and without the locations the copy drops) and ids_* (all identifiers) are the specification; mutual induction over programs for both, with the interval of identifiers each node takes."
}