# Formal model of daisytuner/docc: design

The model is in `rocq/theories/`, one logical library `Verif`. Every definition
that models code cites the file and the lines of `/repo` it models; what it
simplifies is said in the same comment. Statements live in `*Props*.v`, together
with the small specifications they use, refutations and examples that meet the
hypotheses. `MANIFEST.json` maps each property to its theorems.

## How programs are modelled

* **Symbolic layer** (`Sym*.v`, `Lin.v`, `Poly.v`, `Delin.v`): SymEngine expression
  trees as an inductive type `expr` (integers, infinities, symbols, n-ary sums and
  products, powers, max/min, docc's function symbols), conditions as `cond`. An
  evaluator `eval : env -> expr -> option Z` with `None` for undefined behaviour
  (division by zero). The functions of `sdfg/src/symbolic/` are Gallina functions
  over these trees. Integers are unbounded, as in SymEngine; where the generated C
  code wraps or truncates (`trunc_i32`, idiv), the wrap is written explicitly.
* **Structured control flow** (`IR.v`): sequences with transition assignments,
  blocks of operations, if/else chains, `while(1)`, for, map, break, continue,
  return. Big-step semantics `run`/`runs` (partial correctness, undefined behaviour
  has no run), and an executable fuelled interpreter `xseq`, proved to agree, for
  examples and refutations. The stores map a container and an index list to `Z`;
  the meaning `I` of the tasklet codes is a universally quantified parameter.
* **Passes and analyses**: functions on this IR that follow the C++ control flow,
  including the visiting order and the conditions the C++ code checks (also where
  these are wrong).
* **Dataflow graphs** (`DataFlow.v`, `BlockFusion*.v`): nodes with element ids,
  memlets with connectors and subsets, lowered to blocks of the IR in the order the
  code generator emits them.
* **Types, tensors, library nodes** (`Types.v`, `Tensor*.v`, `Blas.v`, `Conv.v`,
  `Matmul.v`): the type hierarchy and the expansion of library nodes to IR programs,
  compared with the mathematical operation.
* **Serialization, argument capture** (`Json.v`, `Serial.v`, `Base64.v`,
  `Capture.v`, `Names.v`): functions on JSON trees, byte lists and strings; the
  capture context is a state machine over arbitrary histories of calls.

## How claims are stated

A claim that holds of the code is a theorem quantified over all inputs, programs,
stores and executions. A claim that is false of the code is kept as a `Definition
Cnn_..._full : Prop` or spelled out, refuted by a theorem `Cnn_..._refuted` with a
concrete program, and proved under the missing condition as `Cnn_..._partial` (or a
name that states the restriction). Statements use only the IR semantics, the API
functions and small specifications written beside them. Each theorem has an `Example`
(`Cnn_hypotheses`, `Cnn_nonvacuous`, ...) that meets its hypotheses.


## Properties: model and proof

### C01 Symbolic integer division and remainder agree with generated C code (proved)

*Claim.* For every pair of integer expressions and every valuation in which the divisor is non-zero, the expression returned by symbolic::div evaluates to the C quotient (truncation toward zero), symbolic::mod evaluates to the C remainder, and dividend = div*divisor + mod. The folding shortcuts (constants, x/1, 0/x) never change the value.

*Model and proof.* `symbolic::div/mod/simplify` and the C printer on `expr`; compared with C's truncated division on `Z`. Structural induction on the printed expression.

*Theorems* (`SymProps.v`): `C01_div_value`, `C01_mod_value`, `C01_div_mod_law`, `C01_div_total`

### C02 divide_ceil returns the ceiling of the quotient (partial)

*Claim.* symbolic::divide_ceil(a,b) evaluates to ceil(a/b) for every valuation with b>0, whether or not the operands are literals.

*Model and proof.* `divide_ceil` (symbolic.cpp) as a function; compared with the mathematical ceiling.

*Result.* The full claim is false of the code (C02_divide_ceil_refuted: symbolic dividend -4, divisor 2); proved for closed or non-negative dividends.

*Theorems* (`SymProps.v`): `C02_divide_ceil_partial`, `C02_divide_ceil_refuted`

### C03 Symbolic simplification never changes a value (proved)

*Claim.* symbolic::simplify(e) evaluates to the same integer as e under every valuation for which e is defined (no division by zero).

*Model and proof.* `simplify`, `expand`, substitution on expression trees; induction, one lemma per rewrite rule of SymEngine's constructors.

*Theorems* (`SymProps.v`): `C03_simplify_value`, `C03_simplify_cond_value`

### C04 Computed lower/upper bounds enclose the expression (partial)

*Claim.* If symbolic::minimum (maximum) returns a bound for an expression under a set of assumptions, then in every valuation satisfying the assumptions, bound <= value (value <= bound), with products of mixed signs, Min/Max and nested assumption bounds.

*Model and proof.* `minimum`/`maximum` with assumption maps (extreme_values.cpp), fuelled by the recursion depth the code uses; invariant: whenever an answer is given it bounds the value in every environment satisfying the assumptions.

*Result.* Proved for expressions and bounds without trunc_i32; false with it (C04_trunc_refuted).

*Theorems* (`SymProps.v`): `C04_minimum_sound_partial`, `C04_maximum_sound_partial`, `C04_minimum_new_sound_partial`, `C04_maximum_new_sound_partial`, `C04_trunc_refuted`

### C05 Conjunctive normal form is equivalent to the condition (proved)

*Claim.* Whenever symbolic::conjunctive_normal_form(cond) returns, the conjunction of its clauses (each a disjunction of literals) is true exactly in the valuations where cond is true.

*Model and proof.* `conjunctive_normal_form` with its distribution step; induction on fuel with the value of clause sets.

*Theorems* (`SymProps.v`): `C05_cnf_equivalent`

### C06 Completeness of an if/else is sound (proved)

*Claim.* If IfElse::is_complete() answers true, then in every state at least one branch condition holds (so code placed after may assume one branch ran).

*Model and proof.* `IfElse::is_complete` through the normal form; C05 plus unsatisfiability of the negated disjunction.

*Theorems* (`SymProps.v`): `C06_is_complete_sound`

### C07 Affine/polynomial decomposition reconstructs the expression (proved)

*Claim.* The coefficients returned for an expression recompose to it: e = c0 + sum ci*xi; polynomial_div(offset,stride) = (q,r) satisfies offset = q*stride + r in every valuation; affine_inverse recovers the iteration value.

*Model and proof.* `polynomial`, `affine_coefficients`, `affine_inverse`, `polynomial_div` over integer multivariate polynomials (`Poly.v`, `Delin.v`).

*Result.* Affine decomposition, inverse and polynomial_div (with the quotient of non-polynomials arbitrary). SymEngine polynomial normalisation is modelled by integer-coefficient multivariate polynomials.

*Theorems* (`DelinProps.v`, `SymProps.v`): `C07_polynomial_div`, `C07_affine_recompose`, `C07_inverse`

### C08 Contiguity and monotonicity verdicts on loop updates are sound (partial)

*Claim.* If is_contiguous says a loop advances by exactly one, then the update increases the induction variable by exactly 1 from every value satisfying the assumptions; if is_monotonic says the update increases, it strictly increases.

*Model and proof.* `is_contiguous`, `is_monotonic` of series.cpp; theorem: verdict implies the stated step for every value of the index.

*Result.* False as stated: symbolic stride accepted as contiguous, 2i+1 at negative i, power of another symbol; proved under the corrected guards.

*Theorems* (`SymProps.v`): `C08_contiguous_refuted`, `C08_contiguous_literal_partial`, `C08_monotonic_refuted`, `C08_monotonic_nonneg_partial`, `C08_monotonic_unit_partial`, `C08_monotonic_pow_refuted`

### C09 Monotonic-disjointness verdict on subscripts is sound (partial)

*Claim.* If the analysis says a memory subscript is disjoint across iterations by monotonicity, two different values of the loop index never produce the same address.

*Model and proof.* `is_disjoint_monotonic` of maps.cpp; theorem: verdict implies different subscripts for different iterations in every environment.

*Result.* False as stated for N**2 subscripts (C09_disjoint_refuted); proved when a power subscript's base is the index.

*Theorems* (`SymProps.v`): `C09_disjoint_monotonic_partial`, `C09_disjoint_refuted`

### C10 Delinearisation of a flat subscript is injective and value preserving (partial)

*Claim.* When a linear index is delinearised into a multi-dimensional one, equal flat indices within the assumed bounds correspond to equal multi-dimensional indices and conversely.

*Model and proof.* `delinearize` of utils.cpp with the peeling of strides; mixed radix argument for injectivity.

*Result.* Value preservation (and hence: equal multi-dimensional index gives equal flat index) proved for every subscript; injectivity proved when at each position the lower digits stay below the stride (semantic form, and literal boxes). Missing/false: the code only checks max(stride) >= max(remainder), so injectivity under the assumptions alone is refuted three ways (off by one, symbolic stride, unbounded sizes).

*Theorems* (`DelinProps.v`): `C10_value_preserving`, `C10_equal_indices_equal_flat`, `C10_injective_partial`, `C10_injective_boxes_partial`, `C10_off_by_one_refuted`, `C10_symbolic_stride_refuted`, `C10_unbounded_refuted`

### C11 Type-derived assumptions hold for every value of the type (proved)

*Claim.* The bounds assumed for a symbol from its primitive type contain every value representable in that type; combining bounds never excludes an admissible value.

*Model and proof.* type ranges and the assumption table built by `add_container`.

*Theorems* (`SymProps.v`, `TypesProps.v`): `C11_lower_bound_sound`, `C11_upper_bound_sound`, `C11_type_bounds`, `C11_type_bounds_defined`

### C12 Sequence fusion preserves program behaviour (partial)

*Claim.* Flattening a nested sequence into its parent leaves the final store (and break/continue/return outcome) of the program unchanged for every initial store.

*Model and proof.* the visitor of sequence_fusion.cpp as a function on IR sequences; simulation in both directions.

*Result.* False as stated: assignments on the transition of a nested sequence are dropped (C12_sequence_fusion_refuted), and ConditionElimination creates such sequences; proved (both directions) when nested sequences carry no assignments.

*Theorems* (`PassCFGProps.v`): `C12_sequence_fusion_partial`, `C12_sequence_fusion_flattens`, `C12_sequence_fusion_refuted`, `C12_after_condition_elimination_refuted`

### C13 Dead control-flow elimination preserves program behaviour (proved)

*Claim.* Removing self assignments, code after return, empty blocks/sequences/branches, false branches, and inlining an always-true first branch leaves the final store and outcome unchanged for every initial store on which the program terminates.

*Model and proof.* dead_cfg_elimination.cpp with its symbolic condition checks; simulation relation over programs with break/continue/return.

*Theorems* (`PassCFGProps.v`): `C13_dead_cfg_elimination`

### C14 Condition elimination preserves program behaviour (partial)

*Claim.* Removing an if that repeats a loop's own entry condition does not change the final store for any initial store.

*Model and proof.* condition_elimination.cpp; simulation relating the guarded and the unguarded loop.

*Result.* False as stated: assignments after the loop inside the branch become unconditional; proved for whole programs when there are none and the start value is defined.

*Theorems* (`PassCFGProps.v`): `C14_condition_elimination_step_partial`, `C14_condition_elimination_partial`, `C14_condition_elimination_refuted`

### C15 Common-assignment elimination preserves program behaviour (partial)

*Claim.* Hoisting an assignment shared by all branches of an if/else to after the if/else does not change the final store for any initial store.

*Model and proof.* common_assignment_elimination.cpp; simulation.

*Result.* False as stated: the common assignment is inserted without being removed and without checking that the branches are exhaustive; proved under exhaustiveness and stability of the right-hand side.

*Theorems* (`PassCFGProps.v`): `C15_common_assignment_elimination_partial`, `C15_common_assignment_elimination_refuted`, `C15_incomplete_branches_refuted`

### C16 Loop tiling executes exactly the same iterations in the same order (partial)

*Claim.* For every loop the LoopTiling transformation accepts and every tile size > 1, the tiled nest runs the original body for the same index values in the same order and terminates whenever the original does.

*Model and proof.* loop_tiling.cpp on single loops and in contexts (`CtxD.v`); loop iteration lemmas (`LoopIter.v`), regrouping of the index sequence.

*Result.* False as stated: non-monotone conditions (i != 3 && i < 6), breaks, symbolic strides accepted; the loop variable after a zero-trip loop differs. Proved for single loops and in any program context when the condition is a conjunction of upper bounds, the update has literal coefficients and the body does not break.

*Theorems* (`LoopProps.v`): `C16_tiling_partial`, `C16_tiling_in_program_partial`, `C16_condition_refuted`, `C16_break_refuted`, `C16_loop_variable_refuted`, `C16_stride_refuted`

### C17 Loop interchange preserves results for the loops it accepts (partial)

*Claim.* When LoopInterchange::can_be_applied accepts a nest, executing the interchanged nest yields the same store as the original.

*Model and proof.* loop_interchange.cpp; execution traces (`Trace.v`), commutation of independent instances (`Reorder.v`).

*Result.* False as stated: an inner Map whose iterations are independent is not enough (C17_inner_map_refuted), the inner bound may read a container the outer body writes (C17_outer_bound_refuted), final loop variables differ; proved when different outer iterations do not conflict outside privately rewritten cells and the inner header is stable.

*Theorems* (`LoopProps2.v`): `C17_interchange_partial`, `C17_accepted`, `C17_inner_map_refuted`, `C17_outer_bound_refuted`, `C17_loop_variable_refuted`

### C18 Loop skewing executes the same body instances (partial)

*Claim.* Skewing shifts the inner loop by factor*(i-init) and compensates in the body: each body instance sees the same index values, in the same order.

*Model and proof.* loop_skewing.cpp; shifted iteration (`Skew.v`).

*Result.* Proved when the inner update is a translation, the inner variable is not read through an access node, headers do not use it, and the body writes neither loop variable nor the symbols of the outer initial value; refuted without each of access/update/initial-value conditions. The inner variable itself ends at a different value (C18_final_index_refuted).

*Theorems* (`LoopProps5.v`): `C18_skewing_partial`, `C18_access_refuted`, `C18_update_refuted`, `C18_init_refuted`, `C18_final_index_refuted`, `C18_full_refuted`

### C19 Loop distribution preserves results (partial)

*Claim.* Splitting the first child of a loop into its own preceding loop preserves the final store when no later child's effect in an earlier iteration reaches the first child.

*Model and proof.* loop_distribute.cpp with the dependency analysis of C20; trace reordering.

*Result.* Straight-line bodies. False as stated: the analysis misses flow dependencies (C19_flow_refuted), a later child may change the bound (C19_bound_refuted), the initial value may be the loop variable itself (C19_init_refuted). Proved when the header symbols are not written in the body, the initial value does not use the loop variable, and accesses treated as covering each other touch the same cell; with the modelled answers (C19_syntactic_partial) the last hypothesis is proved.

*Theorems* (`LoopProps4.v`): `C19_distribute_partial`, `C19_syntactic_partial`, `C19_flow_refuted`, `C19_full_refuted`, `C19_bound_refuted`, `C19_init_refuted`

### C20 Loop-carried dependency analysis misses no dependency (partial)

*Claim.* If two different iterations of an analysed loop can access the same location, one writing and one reading it before redefinition, the analysis reports a loop-carried dependency on that container.

*Model and proof.* data_dependency_analysis.cpp for straight-line bodies, parameterised by the set oracle (`DepAna.v`); soundness against the conflict relation on traces.

*Result.* Straight-line bodies. False as stated even for correct set answers: a read A[i-1] after a write A[i] counts as defined in the same iteration (C20_flow_refuted, for every oracle obeying its documented meaning). Proved when accesses treated as covering really touch the same cell, and without any oracle assumption for the syntactic/monotonic oracle. If/else, inner loops in the body not modelled.

*Theorems* (`DepProps.v`): `C20_dependencies_partial`, `C20_syntactic_partial`, `C20_flow_refuted`, `C20_full_refuted`

### C21 A loop converted to a parallel map gives the same result in any iteration order (partial)

*Claim.* Whenever For2Map converts a loop, executing its iterations in any order gives the same final store as the sequential loop.

*Model and proof.* for2map.cpp with C20; every permutation of the iterations gives the same store.

*Result.* False as stated (C21_flow_refuted, C21_bound_refuted); proved for every iteration order when the header is not written by the body and the analysis' cover assumption holds, or unconditionally for the syntactic/monotonic oracle.

*Theorems* (`DepProps.v`): `C21_any_order_partial`, `C21_syntactic_partial`, `C21_flow_refuted`, `C21_full_refuted`, `C21_bound_refuted`

### C22 While-to-for conversion preserves behaviour (partial)

*Claim.* Converting a while loop with trailing update and conditional continue/break into a for loop preserves the final store for every initial store.

*Model and proof.* while_to_for_conversion.cpp; simulation between the while and the for loop with the update moved.

*Result.* Proved for a loop entered with its condition true, whose update is a transition of the loop body itself whose other assignments do not read the loop variable, without return. Refuted without: false condition on entry (the while body runs once, the for body never), update inside an if/else (becomes unconditional), reads of the loop variable in the updating transition, return in a nested loop. Not modelled: updates inside nested loops (accepted by the code).

*Theorems* (`LoopProps3.v`): `C22_while_to_for_partial`, `C22_entry_refuted`, `C22_conditional_update_refuted`, `C22_same_transition_refuted`, `C22_return_refuted`

### C23 Loop normalization preserves the iteration sequence (partial)

*Claim.* Rewriting != bounds to </>, shifting a loop to start at zero and rotating a down-counting loop preserve the sequence of body executions and all values visible after the loop.

*Model and proof.* loop_normalization (condition, rotation, stride) in `Normalize.v`; iteration-sequence bijection.

*Result.* Proved for loops whose update adds a constant (32-bit) seen by the analysis, finite literals, condition symbols not written; inequations with the index alone in their clause with the start on the right side (steps 1/-1), max-literals in upward loops; rotation needs quiet start symbols. Everything but the loop variable is preserved (exactly, if the index is used outside subsets). Refuted in general: start beyond the excluded value, alternative clauses, symbolic step counted as 1, rotated start changed by the body, final index, countdown from its own variable becomes an infinite loop.

*Theorems* (`LoopProps6.v`): `C23_normalize_partial`, `C23_start_beyond_refuted`, `C23_alternative_refuted`, `C23_symbolic_step_refuted`, `C23_rotated_start_refuted`, `C23_full_refuted`, `C23_final_index_refuted`, `C23_countdown_refuted`

### C24 Scalar evolution replaces induction symbols by equal closed forms (partial)

*Claim.* When SymbolEvolution replaces a symbol updated every iteration by a closed form in the loop index, the replaced expression equals the symbol's value at every use in every iteration, and the symbol's value after the loop is unchanged.

*Model and proof.* symbol_evolution.cpp (`Evolution.v`); loop invariant with the closed form.

*Result.* Proved: with the symbol at its initial value on loop entry and the side conditions in [evolvable], the rewritten loop computes the same in every other container and leaves the same way; after the loop the symbol is right too if there is an iteration (or it is constant), no break, and the update does not use the index. Whole-program version when the initialisation is right before the loop. Refuted in general: zero iterations, aliases and functions of the index end one step too far, condition or transition using the symbol, continue, s=s+i, changed start symbol, loops entered twice.

*Theorems* (`EvolProps.v`): `C24_evolution_partial`, `C24_final_value_partial`, `C24_program_partial`, `C24_zero_trip_refuted`, `C24_alias_final_refuted`, `C24_function_final_refuted`, `C24_condition_refuted`, `C24_continue_refuted`, `C24_triangular_refuted`, `C24_start_changed_refuted`, `C24_transition_refuted`, `C24_reentered_refuted`, `C24_full_refuted`

### C25 Canonical bound and stride describe the loop (proved)

*Claim.* If the loop analysis returns a canonical bound for a loop, then in every state where the loop condition is defined it holds exactly when the index is below that bound; if it returns a stride, the loop update adds exactly that constant to the index.

*Model and proof.* LoopAnalysis canonical_bound and stride; induction over iterations.

*Theorems* (`PassCFGProps.v`): `C25_canonical_bound`, `C25_stride`

### C26 Generated names are fresh (proved)

*Claim.* find_new_name never returns a name that already exists in the function.

*Model and proof.* `find_new_name`/capture names; pigeonhole over the set of used names.

*Theorems* (`CaptureProps.v`): `C26_fresh`, `C26_distinct`

### C27 Tensor views address exactly the elements they denote (proved)

*Claim.* newaxis, flip and squeeze of a tensor type address, for every in-range index, the element of the original tensor given by the usual (numpy) meaning.

*Model and proof.* Tensor layout linearisation; rank function and injectivity in the box.

*Theorems* (`TypesProps.v`): `C27_lowered_access`, `C27_newaxis`, `C27_flip`, `C27_squeeze_axis`, `C27_squeeze`

### C28 Reshape of a tensor keeps row-major order (partial)

*Claim.* Tensor reshape with equal element count addresses, at each multi-index of the new shape, the element with the same row-major rank in the original tensor.

*Model and proof.* `Tensor::reshape`.

*Result.* False as stated: Tensor::reshape only compares element counts, so a non-contiguous tensor is silently reinterpreted (C28_reshape_refuted); proved when the strides are the row-major strides of the shape.

*Theorems* (`TypesProps.v`): `C28_reshape_partial`, `C28_reshape_refuted`

### C29 Row-major strides are a bijection onto the element range (proved)

*Claim.* strides_from_shape yields an addressing that maps the in-range multi-indices one-to-one onto [0,total_elements).

*Model and proof.* row-major strides; mixed radix bijection.

*Theorems* (`TypesProps.v`): `C29_row_major`

### C30 Byte sizes of types (proved)

*Claim.* The size computed for a type is at least its bit width, arrays are count times element, and is strictly positive for non-void.

*Model and proof.* type sizes and the expressions returned for them.

*Theorems* (`TypesProps.v`): `C30_primitive_size`, `C30_array_size`, `C30_tensor_size`, `C30_positive`

### C31 Primitive type names round-trip (proved)

*Claim.* primitive_type_from_string(primitive_type_to_string(t)) = t, and the classification predicates partition the types consistently with the bit widths and signedness conversions.

*Model and proof.* name tables of primitive types.

*Theorems* (`TypesProps.v`): `C31_roundtrip`, `C31_names_unique`, `C31_classification`

### C32 Base64 decode inverts encode (proved)

*Claim.* arg-capture base64 decoding of an encoding returns the original bytes, for every byte string.

*Model and proof.* base64 encoder/decoder on byte lists; induction by triples.

*Theorems* (`CaptureProps.v`): `C32_roundtrip`, `C32_format`, `C32_groups`, `C32_decode_bytes`

### C33 Argument captures survive index write and parse (partial)

*Claim.* For every history of executions of instrumented regions, the runtime writes, for exactly the invocations the capture strategy selects, an index file that parses back to that invocation's arguments: one entry per (argument, before/after), with its type, dimensions and exactly the captured bytes (inline or in its data file), the last capture of a key winning.

*Model and proof.* arg capture index: writer, parser and execution counters as a state machine over arbitrary histories.

*Result.* Proved for every history with fewer than 2^32 executions per region and inline sizes below 2^31; false beyond (32-bit counter wraps and overwrites the first capture; inline size accumulated in int). File-system failures are not modelled.

*Theorems* (`CaptureProps.v`): `C33_inline_history`, `C33_runtime_history`, `C33_strategies`, `C33_counter_wrap_refuted`, `C33_inline_size_refuted`

### C34 JSON serialization round-trips (partial)

*Claim.* Deserializing the serialization of a structured program, its types, conditions, memlets and control-flow yields an equal program.

*Model and proof.* serializer/deserializer as functions to and from JSON trees; mutual induction over types, expressions (text printed and read back) and control flow.

*Result.* Types and whole programs come back equal (containers as a map) for every program satisfying wf: expressions that SymEngine re-reads from their own text and that do not use symbols called true/false, default attributes on reference types, unique names. The unrestricted claim is false of the code and the refutations are proved: reference attributes (alignment) are not written, a symbol called true comes back as 1, assumptions are not written and a symbol-typed external loses its entry. Not modelled: SymEngine text printer/parser (parameters), fields written by library-node serializers (opaque), iteration order of assignment maps.

*Theorems* (`SerialProps.v`): `C34_type_roundtrip`, `C34_program_roundtrip_partial`, `C34_document_determines_program`, `C34_reloaded_assumptions`, `C34_reference_attributes_lost`, `C34_symbol_true_rewritten`, `C34_assumptions_lost`

### C35 Inlining single-iteration maps and removing empty loops preserves behaviour (partial)

*Claim.* When dead-control-flow elimination replaces a Map that executes exactly one iteration by its body with the start value substituted (and, in permissive mode, deletes empty loops), the final contents of every container other than the induction variables and the outcome are unchanged for every initial store.

*Model and proof.* dead_cfg_elimination for trivial maps and empty loops; simulation with renaming.

*Result.* False as stated (variable read through an access node, break inside the Map); proved under the scoping predicate sok.

*Theorems* (`PassCFGProps.v`): `C35_trivial_map_inlining_partial`, `C35_trivial_map_inlining_refuted`, `C35_break_in_map_refuted`

### C36 MLIR tensor views address the same element (partial)

*Claim.* Transposing, flipping or reshaping the compile-time description of a tensor (shape, strides, offset) yields a description under which every in-range multi-index of the view addresses exactly the memory element that the corresponding multi-index of the original addresses, and a reshape is accepted only when this can hold.

*Model and proof.* MLIR tensor view operations on shape/strides/offset.

*Result.* Transpose, flip and reshape proved; flip with a repeated axis is refuted (C36_*_refuted).

*Theorems* (`TypesProps.v`): `C36_transpose`, `C36_flip`, `C36_reshape`, `C36_reshape_total`, `C36_flip_duplicate_refuted`

### C37 Type equality is an equivalence and equal types are interchangeable (proved)

*Claim.* Comparing two types for equality is reflexive, symmetric and transitive, and equal types have the same size and give the same inferred type and bounds for every access.

*Model and proof.* type equality as implemented (operator== per class); equivalence and congruence.

*Theorems* (`TypesProps.v`): `C37_equivalence`, `C37_interchangeable`

### C38 Type inference of an access is compositional (proved)

*Claim.* The inferred type of an access with a concatenated subscript is the inferred type of the second part applied to the result of the first; a pointer may be followed only by the first dimension of a subscript.

*Model and proof.* `infer_type`; composition over concatenated subsets.

*Theorems* (`TypesProps.v`): `C38_subscripts_compose`, `C38_pointer_once`

### C39 Loop assumptions hold wherever they are reported (partial)

*Claim.* Whenever an execution reaches a node inside nested loops, every lower/upper bound the assumptions analysis reports for that node (start value below the index, condition bound above it, sizes above the start, bounds inferred from array extents, merged over all enclosing loops) holds in the current state, and a symbol reported constant keeps its value while the node runs.

*Model and proof.* assumptions_analysis.cpp: the assumptions collected at each point; invariant over all executions that reach the point.

*Result.* Proved for every reachable point of every execution when each loop start does not use the index, the body writes neither index nor header symbols, a monotonic update adds a positive constant, and condition literals used as bounds stand alone and compare strictly with a symbol or with a number, and bounds from array extents follow from the header. False as stated, nine refutations: i<=N reported to need N>=start+1, disjunctive conditions, bounds like 10-M, reversed accesses A[10-i], array extents matched from the wrong end, guarded accesses, start from the own variable, bounds written in the body (also called constant).

*Theorems* (`AssumProps.v`): `C39_bounds_hold_partial`, `C39_constant_partial`, `C39_le_bound_refuted`, `C39_disjunction_refuted`, `C39_bound_symbol_refuted`, `C39_reversed_access_refuted`, `C39_extent_order_refuted`, `C39_guarded_access_refuted`, `C39_own_start_refuted`, `C39_written_bound_refuted`, `C39_constant_refuted`

### C40 Expanding elementwise, fill, cast, transpose and broadcast nodes computes the tensor operation (partial)

*Claim.* After expansion of an elementwise (fill, cast) node the output element at every index is the operation applied to the operand elements at that index as they were before, also in place; of a transpose node out[perm(j)] = in[j]; of a broadcast node out[j] = in[NumPy-broadcast j]; every other cell is unchanged.

*Model and proof.* expansion of elementwise, fill, cast, transpose, broadcast nodes to loop nests (`Tensor.v`); `nest_run`: the nest executes the body once per point of the box.

*Result.* Elementwise (also in place), fill, cast, transpose onto a different container, broadcast of equal rank with literal-1 dimensions and of scalars are proved for all ranks, shapes and stores. False as stated: transpose in place, broadcast from a lower rank (left aligned instead of right aligned), symbolic dimensions equal to 1 at run time.

*Theorems* (`TensorProps.v`): `C40_elementwise`, `C40_transpose_partial`, `C40_transpose_default`, `C40_transpose_in_place_refuted`, `C40_broadcast_partial`, `C40_broadcast_rank_refuted`, `C40_broadcast_symbolic_refuted`, `C40_broadcast_scalar`, `C40_nonvacuous`

### C41 Expanding a reduction folds exactly the reduced elements, once each (partial)

*Claim.* After expansion of a reduction over a set of axes (negative axes count from the end, keepdims or not), every output element is the fold of the operation, from its identity, over exactly the input elements whose kept coordinates agree with the output index, each once, in row-major order; mean divides this sum by the number of contributing elements.

*Model and proof.* expansion of reduce, mean, std; nest lemma plus fold over the fibre of each output element.

*Result.* Reduction proved for all ranks, axes, keepdims when input and output differ; mean and standard deviation proved when no axis is named twice. Refuted: in place (validate accepts it), mean with an axis named twice (0 and -1).

*Theorems* (`TensorProps.v`, `TensorProps2.v`): `C41_reduce_partial`, `C41_keepdims_shape`, `C41_reduce_in_place_refuted`, `C41_nonvacuous`, `C41_mean_partial`, `C41_mean_duplicate_axes_refuted`, `C41_mean_nonvacuous`, `C41_std_partial`

### C42 Expanding activation functions and softmax computes the named function (partial)

*Claim.* After expansion, relu, sigmoid, ELU, leaky ReLU and hard sigmoid nodes compute the named function of every input element, and softmax computes exp(x-max)/sum over the elements sharing the other coordinates; temporaries stay inside the memory allocated for them.

*Model and proof.* expansion of activation chains and softmax.

*Result.* relu and sigmoid proved; ELU only for non-positive elements (no branch for positive ones: refuted for every arithmetic), leaky ReLU and hard sigmoid refuted (operands never connected), softmax proved at the level of cells, but its max/sum buffers overflow (refuted by stride arithmetic).

*Theorems* (`TensorProps2.v`): `C42_relu`, `C42_sigmoid`, `C42_elu_partial`, `C42_elu_positive_refuted`, `C42_leaky_relu_refuted`, `C42_hard_sigmoid_refuted`, `C42_softmax_partial`, `C42_softmax_buffer_refuted`, `C42_nonvacuous`

### C43 Expansion keeps everything else its block does (partial)

*Claim.* Replacing a block by the expansion of the library node it holds keeps the block's transition assignments (executed once, after the operation) and every other computation of the block.

*Model and proof.* what the expansion does with the surrounding block and its transition.

*Result.* Assignments proved kept for elementwise nodes; refuted for broadcast and softmax (dropped) and for other computations in the same block (removed with the block).

*Theorems* (`TensorProps2.v`): `C43_assignments_partial`, `C43_other_nodes_refuted`, `C43_broadcast_assignments_refuted`, `C43_softmax_assignments_refuted`, `C43_nonvacuous`

### C44 Expanded BLAS nodes (dot, gemm) compute what the BLAS routine computes (partial)

*Claim.* Expanding a dot or gemm library node leaves a program that ends with the same values a call of the BLAS routine would leave: res = sum of x[i]*y[i] over the strided vectors (whatever res held before, negative increments walking backwards), C = alpha*A*B + beta*C for row- and column-major matrices with their leading dimensions, also in place; nothing else changes.

*Model and proof.* dot and gemm expansion (`Blas.v`); accumulation nest.

*Result.* dot: proved when the result holds zero before and increments are not negative; refuted otherwise (old value is added, negative increments read in front of the vector). gemm: proved for row-major, all leading dimensions >= N, in place or not; refuted for column-major (layout ignored). Transposed operands are not expanded.

*Theorems* (`BlasProps.v`): `C44_dot_partial`, `C44_dot_uninitialised_refuted`, `C44_dot_negative_increment_refuted`, `C44_dot_nonvacuous`, `C44_gemm_partial`, `C44_gemm_transposed`, `C44_gemm_column_major_refuted`, `C44_gemm_nonvacuous`

### C45 Expanded matrix multiplication computes NumPy matmul (partial)

*Claim.* Expanding a MatMul tensor node gives a program in which every element of the result is the sum of products of the elements the operands' shapes, strides and offsets select, with the batch dimensions broadcast as in NumPy, and nothing but the result changes; views are copied first and still denote the same elements.

*Model and proof.* matmul expansion to copies and gemm (`Matmul.v`).

*Result.* Proved for rank 2 (C-order with any offset, or any strides with offset 0, copied); refuted for batches (references taken before the batch loops) and for views with an offset (offset added twice). Assumes x*1 + c*0 = x (no NaN in the old output).

*Theorems* (`MatmulProps.v`): `C45_matmul_partial`, `C45_matmul_types`, `C45_matmul_batch_refuted`, `C45_matmul_view_offset_refuted`, `C45_nonvacuous`

### C46 Expanded convolution computes ONNX Conv (partial)

*Claim.* Expanding a convolution node gives a program in which every output element is the sum over the input channels of its group and the kernel of the products of weights and zero-padded inputs at stride*o + dilation*k - pad, plus the bias, with floor((in + pads - dilation*(kernel-1) - 1)/stride) + 1 outputs per dimension; nothing outside the input is read and nothing else is written.

*Model and proof.* loop nest expansion of convolutions (`Conv.v`).

*Result.* Proved for any number of spatial dimensions with one group, no padding and a kernel that fits; refuted for padding (reads outside the input), for two groups, and for a kernel larger than the input with stride 2 (rounding).

*Theorems* (`ConvProps.v`): `C46_conv_partial`, `C46_conv_padding_refuted`, `C46_conv_groups_refuted`, `C46_conv_rounding_refuted`, `C46_nonvacuous`

### C47 A block's nodes are emitted once each, producers before consumers (partial)

*Claim.* For every acyclic dataflow graph, the order in which the code generator emits the nodes of a block contains every node exactly once; every node comes after the nodes it reads from; and in a block whose conflicting operations are ordered by the graph the emitted code computes what every topological order computes.

*Model and proof.* `DataFlowGraph::topological_sort` as written (queue of starts, reversed searches, stitching), the lowering of tasklets; invariant over search states, then a commutation argument over linear extensions.

*Result.* Each-node-once and termination are proved for all acyclic graphs; the order is topological when no node with several outgoing edges reaches another one (antichain). The full claim is refuted: a consumer can be emitted before its producer (C47_sort_topological_refuted, C47_emitted_code_refuted: c = n + a emitted before a = n).

*Theorems* (`DataFlowProps.v`): `C47_sort_each_node_once`, `C47_sort_topological_partial`, `C47_every_order_same`, `C47_emitted_code_partial`, `C47_sort_topological_refuted`, `C47_emitted_code_refuted`, `C47_tasklet_statement`

### C48 Fusing two consecutive blocks preserves what they compute (partial)

*Claim.* When the block fusion pass accepts two consecutive blocks, the fused block is well formed and acyclic, holds exactly the operations of the two blocks, and followed by its transition assignments leaves every container as the two blocks with their transitions did.

*Model and proof.* BlockFusion criterion and merge on dataflow graphs; the two blocks in sequence are one linear extension of the fused graph, C47 does the rest.

*Result.* Well-formedness, acyclicity and the multiset of operations are proved for all accepted pairs. Same result is proved when the fused block is race free, and that is proved to follow from the criterion when the components of the first block end in one sink and those of the second hold one tasklet. The full claim is refuted: b = a + 1; c = a fused with a = b lets the write of a overtake the read of a.

*Theorems* (`BlockFusionProps.v`): `C48_race_free_result`, `C48_block_fusion_partial`, `C48_fused_wf`, `C48_block_fusion_refuted`

### C49 The data dependency analysis reports every flow from a write to a read (partial)

*Claim.* If in some execution a read of a container obtains data that an earlier write of that container stored (no other write of a scalar in between), then the data dependency analysis lists that read among the reads of that write; in particular a write listed without reads is never read. Every executed write has an entry.

*Model and proof.* `DataDependencyAnalysis` (not detailed) as a transformer of (undefined, open, closed) definitions over the tree (`Reach.v`), executions with a log of uses (`Users.v`); dominance, memlet covering and hash-map order are oracles. Invariant per position relating all logs of a prefix (normal, by break/continue, by return) to the three sets; induction on the tree, inner induction on loop executions (`ReachProofs.v`). Outside the regular programs the analysis is refuted, for every oracle. The walks of the users graph are a second inductive semantics (`UserGraph.v`); a walk avoiding a loop body exists, so post-dominance by the graph implies the assumption (`GraphProps.v`).

*Result.* Proved for regular programs (an executable check: in a branch or body a read precedes all writes of the container there or follows one that is always executed; a complete if-else that hides earlier writes overwrites them in every branch; no write after a break that follows a write; loop condition not written by the body) and a post-dominance oracle that is right about loops; C49_users_graph_partial instead takes post-dominance as walks of the users graph define it, when every loop condition mentions a container (C49_constant_condition_refuted shows why). Missing: non-regular programs, where the analysis is wrong: nine refutations, for every choice of the oracles.

*Theorems* (`GraphProps.v`, `ReachProps.v`): `C49_users_graph_partial`, `C49_users_graph_hypotheses`, `C49_constant_condition_refuted`, `C49_reaching_definitions_partial`, `C49_unread_definition_partial`, `C49_every_write_has_an_entry`, `C49_hypotheses`, `C49_break_refuted`, `C49_complete_if_refuted`, `C49_complete_if_loop_refuted`, `C49_transition_refuted`, `C49_loop_condition_refuted`, `C49_same_transition_refuted`, `C49_array_element_refuted`, `C49_array_complete_if_refuted`, `C49_refuted_not_regular`

### C50 Dead data elimination keeps everything observable (partial)

*Claim.* After the pass removes transition assignments and tasklets whose written data is never read, every terminating execution has the same outcome, the same content of all containers the pass may not touch (external, viewed, moved, pointers) and the same returned value; a container the pass deletes occurs nowhere in the rewritten program.

*Model and proof.* the rewriting with the analysis of C49 (`DeadData.v`); simulation over executions with logs: the stores agree except where a dropped write is not yet overwritten, and C49 says that is never read. Syntactic induction for the deleted containers (`DeadProps.v`). `GraphProps.v` discharges the post-dominance assumption from the users graph.

*Result.* Preservation proved when every candidate container is regular (see C49) and scalars are accessed without subsets; C50_users_graph_partial derives the post-dominance assumption from the users graph; deletion of containers proved for all programs. Missing: non-regular programs, for which the pass deletes live writes: six refutations, for every choice of the oracles.

*Theorems* (`DeadProps.v`, `GraphProps.v`): `C50_dead_data_partial`, `C50_deleted_containers_unused`, `C50_hypotheses`, `C50_deleted_hypotheses`, `C50_complete_if_refuted`, `C50_array_element_refuted`, `C50_array_complete_if_refuted`, `C50_break_refuted`, `C50_transition_refuted`, `C50_users_graph_partial`, `C50_constant_condition_refuted`

### C51 Structuring a control-flow graph keeps its behaviour (partial)

*Claim.* When an SDFG made of states and guarded edges is converted to a structured SDFG without an exception, the structured program terminates from exactly the same inputs as the graph, returns the same value and leaves the same data.

*Model and proof.* Graph executions as an indexed relation and `structure_region` as a fuelled function with dominance, post-dominance and back edges as parameters (`Cfg.v`); simulation both ways by induction on the fuel, for a while loop by strong induction on the length of the graph execution resp. on the execution of the loop; the invariant says where the traversal is relative to the innermost loop (`CfgProofs.v`). Refutations run the whole conversion, with the graph analyses computed from their definitions (`CfgProps.v`).

*Result.* Both directions proved for every graph whose loops are properly nested with a single exit and jump one level at a time (decidable on the graph: properb), for any post-dominator tree; C51_acyclic needs no such assumption. Conditions of a state are exclusive and exhaustive. Missing: other graphs, on which the conversion silently miscompiles: three refutations (edge to a shared return state becomes break, continue or break of an outer loop).

*Theorems* (`CfgProps.v`): `C51_structuring_partial`, `C51_terminating_runs`, `C51_acyclic`, `C51_hypotheses`, `C51_shared_return_refuted`, `C51_outer_continue_refuted`, `C51_outer_break_refuted`

### C52 Unifying loop exits preserves behaviour (proved)

*Claim.* The pass that gives a loop a single exit changes nothing observable: started in the start state from any store, the graph before and the graph after terminate in the same cases, with the same return value and the same value of every container except the new jump symbol, whatever order the exits are numbered in. After the pass all edges that leave the treated loop lead to the new state, which leads exactly to the former exits; all other edges are kept; the edges of a state stay mutually exclusive. If the pass reports no change, no loop has two different exits. Structuring the result gives a program with the same results.

*Model and proof.* CfgEdit.v: the graph edit of unify_loop_exits.cpp:6-94 on the model of Cfg.v, with the new state, the symbol, the position of the new assignment in the hash map, the edge ids and the iteration order as parameters. Two simulations by induction on executions (up to the value of the symbol); the shape of the result by inspection of the edge list. CfgEditProps.v composes it with C51.

*Result.* Any graph, any exit order; up to the value of the new jump symbol. Model: the pass treats the first back edge with several exits, as the code does.

*Theorems* (`CfgEditProps.v`): `C52_unify_loop_exits`, `C52_single_exit`, `C52_exclusive`, `C52_then_structure`, `C52_hypotheses`

### C53 Inserting states and loops into a control-flow graph (partial)

*Claim.* Adding a state before or after another one leaves every execution as it was (the new state is empty and is passed through), and all edges into (out of) the given state go through the new one. Adding a loop after a state makes executions run, between the block of the state and its former outgoing edges, exactly the loop init; cond; update with the contents of the body state as body; executions from other states are unchanged. This requires that the edges that are redirected carry no assignments: otherwise these are dropped (refuted).

*Model and proof.* CfgEdit.v: sdfg_builder.cpp:61-104 and 289-334 (add_state_before, add_state_after, add_loop); executions of the edited graph against executions of the original one (for loops: against an execution relation that runs a structured for loop after the block of the state), both directions by strong induction on the number of edges. Redirected edges must carry no assignments; two refutations show that they are lost otherwise.

*Result.* Partial: the code drops the assignments of redirected edges (sdfg_builder.cpp:70, 93), so the equivalence is proved for redirected edges without assignments and refuted otherwise; add_loop bodies are one state.

*Theorems* (`CfgEditProps.v`): `C53_add_state_before_partial`, `C53_add_state_after_partial`, `C53_add_loop_partial`, `C53_hypotheses`, `C53_add_state_before_refuted`, `C53_add_state_after_refuted`

### C54 Fusing a map into the loop that consumes its results keeps results (partial)

*Claim.* MapFusion(first_map, second_loop): if can_be_applied accepts two neighbouring loops and the loops are independent apart from the arrays produced by the first (the second changes nothing the first reads or writes, does not use its private scalars, reads every shared element through its own access node, and reads only elements the first map has written), then after apply every execution that ends still ends, and every container other than the private scalars of the first map and the new temporaries holds the same values; in particular the index mapping the transformation computes is the index for which the first map wrote the element.

*Model and proof.* MapFusion.v models can_be_applied (producer, consumer subsets, affine coefficients, index mapping, parameter check) and apply (copies of the producer with the index replaced, redirected access nodes) on the IR of IR.v. The proof runs a copy of the producer block in step with the instance of the first loop that wrote the element (copy_run, instances), shows that the temporaries hold the elements when the rewritten body runs (rw_run), and iterates over the values of the second loop (second, both). The index mapping is shown to be that instance's index from affine_recompose_value and the exactness of the division. Each hypothesis that can_be_applied does not check has a refutation.

*Result.* Proved with the safety conditions the code does not check as hypotheses (independent, own_seq, distinct, steps, covered); C54_same_range discharges coverage for loops over the same range. Eight refutations show accepted pairs that change results: larger consumer range, strided producer, overwritten producer input, access node with two memlets, index read through an access node, second output of the first map, reassigned parameter, captured index name.

*Theorems* (`MapFusionProps.v`): `C54_map_fusion_partial`, `C54_same_range`, `C54_hypotheses`, `C54_range_refuted`, `C54_stride_refuted`, `C54_overwrite_refuted`, `C54_shared_node_refuted`, `C54_index_access_refuted`, `C54_other_output_refuted`, `C54_parameter_refuted`, `C54_capture_refuted`

### C55 Promoting an integer tasklet to a symbolic assignment keeps its value (partial)

*Claim.* SymbolPromotion replaces a block with a single integer tasklet by an assignment on a transition. For every accepted tasklet and every memory state in which the tasklet is defined, the container written by the assignment holds the value the tasklet would have stored, in the container's declared type; and a program after the pass has the executions it had before.

*Model and proof.* Promote.v models SymbolPromotion (can_be_applied, is_safe_constant_assign, apply, run_pass) on tasklets with the types of containers and memlets, and, independently, what the generated C of a tasklet computes (conversions, integer promotion, overflow as undefined behaviour). PromoteProps.v proves that the container holds the same value after the assignment as after the tasklet when the operands are in the range the printed casts preserve, lifts this to whole programs by induction on executions, and refutes the unconditional claim for each operation where it fails.

*Result.* Proved for all accepted tasklets, types and values under the explicit faithfulness condition (no array element, non-negative operand of an arithmetic shift, casts only of values the printed cast preserves), and for whole programs whose tasklets compute without converting values; boolean results are covered at the level of one tasklet only. The unconditional claim is refuted: shift of a negative value, zero extension of a negative value in a signed container, truncation into a 64-bit container, narrowing to 64 bits or bool through trunc_i32, casts of array elements (index dropped), xor of two constants.

*Theorems* (`PromoteProps.v`): `C55_symbol_promotion_partial`, `C55_safe_constant`, `C55_whole_program_partial`, `C55_ashr_refuted`, `C55_zext_refuted`, `C55_trunc_refuted`, `C55_narrowing_refuted`, `C55_bool_refuted`, `C55_subset_refuted`, `C55_xor_refuted`

### C56 SymbolPropagation keeps the value of every read (partial)

*Claim.* When SymbolPropagation replaces a read of an integer symbol by the right-hand side of the one assignment that reaches it (or by that right-hand side with one later change of a symbol undone), every execution of the program, with any inputs, branches and loop counts, ends in the same store with the same return.

*Model and proof.* Propagate.v: the replacement at one user of the users graph (transition, condition, loop header, tasklet operand, memlet subset), `inverse`, the dominance/danger criteria. A generic simulation carries an invariant of the log of uses and the store; the invariant says that while the log since the defining assignment has no write of x or of a symbol of rhs, rhs evaluates to x. `reach`/`dom_sound`: dominance on the users graph holds of executions (except for loop updates after a continue). `program_order`: outside loops executions follow program order. Refutations execute the program before and after.

*Result.* Forward propagation (lines 161-430), for the read replaced at any position of the program: the last write before the read is the given assignment (from C49 and dominance on the users graph, proved sound for executions), so the substituted value is the same. Partial: the pass does not check that symbols of the right-hand side stay unchanged in every case (three refutations: a write dominated by the read inside a loop, an assignment of the same transition, inverse of sums of more than two terms); the theorems need no interference, either over executions (symbol_propagation) or from the program text (program_order). Reverse propagation (two definitions) and the simplification of the substituted expression (C03) are not modelled.

*Theorems* (`PropagateProps.v`): `C56_symbol_propagation_partial`, `C56_program_order_partial`, `C56_inverse`, `C56_modified_symbol_partial`, `C56_hypotheses`, `C56_program_order_hypotheses`, `C56_loop_refuted`, `C56_transition_refuted`, `C56_inverse_refuted`, `C56_modified_hypotheses`

### C57 Generated tasklet code computes the operation of its code (partial)

*Claim.* The C statement generated for a tasklet stores the value that the tasklet's code names: wrap-around arithmetic, signed or unsigned division, shifts, minimum, maximum, three-way and relational comparisons on the bit patterns of the operands, and the ordered/unordered floating-point predicates; integer powers in symbolic expressions are computed exactly when they fit.

*Model and proof.* TaskC.v models the printed C expressions as an AST with C17 integer promotions, usual arithmetic conversions, undefined signed overflow and implementation-defined char; the specification `meaning` is written on bit patterns. The proof is by cases on the code with congruences modulo 2^w. Floating comparisons are over an abstract IEEE comparison. __daisy_sym_pow is the loop on the binary digits of the exponent.

*Result.* Proved for all integer codes when the operands share a type, signed codes are applied to signed containers and char is unsigned or the width is not 8 (C57_integer_tasklet_partial; C57_defined for absence of undefined behaviour). Refuted in the model where these fail: UInt8 printed as plain char, signed codes on unsigned containers, operands of mixed types, signed overflow, fp_ord (prints isnan && isnan) and fp_one (prints !=), 64-bit powers. Floating-point arithmetic and fma rounding are not modelled.

*Theorems* (`TaskCProps.v`): `C57_integer_tasklet_partial`, `C57_defined`, `C57_hypotheses`, `C57_uint8_refuted`, `C57_signed_code_on_unsigned_refuted`, `C57_mixed_types_refuted`, `C57_overflow_refuted`, `C57_float_comparison_partial`, `C57_float_hypotheses`, `C57_fp_ord_refuted`, `C57_fp_one_refuted`, `C57_power`, `C57_power_refuted`

### C58 Generated C text of a symbolic expression has the expression's value (partial)

*Claim.* The C text printed for a symbolic expression or condition (loop bounds, subsets, transition assignments, branch conditions) parses, by C's precedence and associativity, to a single syntax tree, and evaluating that tree with C's promotions and conversions gives the value of the expression, whenever the evaluation has no undefined behaviour.

*Model and proof.* CParse.v gives the C expression grammar as a relation and a recursive-descent parser proved complete for it (hence unambiguity). CPrint.v models the printer on tokens, C evaluation with types, and proves by induction on the expression that the text derives a tree with the right value.

*Result.* Proved for every printable expression and condition (sums and products in SymEngine canonical form), with signed symbols of 8 to 64 bits and bases of non-square powers in int range. The printing of sums, products and order relations is SymEngine code outside /repo, modelled from its documentation. Partial because unsigned symbols, pointers, sizeof and malloc_usable_size are outside the theorem. Refuted: unsigned symbols wrap, zext_i64 sign-extends a negative int, arithmetic in narrow types overflows, powers truncate their base.

*Theorems* (`CPrintProps.v`): `C58_expression_text_partial`, `C58_condition_text_partial`, `C58_grammar_unambiguous`, `C58_hypotheses`, `C58_unsigned_symbol_refuted`, `C58_zext_refuted`, `C58_narrow_refuted`, `C58_negated_order_refuted`, `C58_power_refuted`

### C59 Generated C statements execute like the structured program (partial)

*Claim.* The C function body generated for a structured program (loops, while loops with break and continue, if/else chains, transition assignments, returns) ends with the memory and return value the program ends with: every ending run of the program is a run of the C code unless the C code meets undefined behaviour or stores a value outside the range of a symbol, and every ending run of the C code is a run of the program.

*Model and proof.* CGen.v models the dispatchers (genN/genS/genB/genA) and a control-stack machine for C statements whose expressions are token texts parsed by the C58 grammar. Proved by a simulation over the run derivation (forward) and by strong induction on the number of machine steps (backward); determinism by inversion.

*Result.* Small-step C statement machine over the token-level expression text of C58; forward and backward simulation, determinism. Partial: symbols are signed integers, powers are squares, compound conditions contain no division; blocks are executed as in the model of C47/C57 and assumed to keep symbols in range; returns do not model deallocation; maps are the sequential schedule. Refuted outside: assignment to a narrower symbol, short-circuit conditions.

*Theorems* (`CGenProps.v`): `C59_program_to_code_partial`, `C59_code_to_program_partial`, `C59_code_deterministic`, `C59_hypotheses`, `C59_narrow_counter_refuted`, `C59_short_circuit_refuted`

### C60 Removing a repeated definition keeps the program's result (partial)

*Claim.* When constant propagation deletes the second of the only two definitions of a container, every execution of the program ends in the same way with the same contents of every container.

*Model and proof.* ConstProp.v models a definition (tasklet or transition assignment), the pass's criteria (may_drop: two writes, dominance, same subsets, same input containers, writes of inputs dominate the first definition, uses between) and the removal. Proof: a simulation in which the store already holds what the second definition would write (redundant), using the users graph to show the first definition has always been made. The right-hand side and own-subset gaps of the pass are refuted on concrete programs.

*Result.* Proved for two equal definitions under the pass criteria, provided that no container the definition reads is written between the two (in every execution; or, by program order). Refuted as implemented: the pass compares only the containers read, not the right-hand side or tasklet code (i = n; i = n + 1 loses the second assignment), and a definition that changes a symbol of its own input subset (i = A[i] twice) is deleted, since the uses between do not include the definitions.

*Theorems* (`ConstPropProps.v`): `C60_constant_propagation_partial`, `C60_program_order_partial`, `C60_compared_partial`, `C60_hypotheses`, `C60_rhs_refuted`, `C60_subset_refuted`

### C61 Tasklet fusion removes a copy without changing results (partial)

*Claim.* When tasklet fusion removes, inside one block, a copy into a temporary that is used nowhere else (x -> assign -> t -> readers) or a copy out of one (tasklet -> t -> assign -> out), the block stays valid and race free, no longer mentions the temporary, and every emission order of the new block computes what every emission order of the old one computes for all other containers; hence so does the whole program.

*Model and proof.* TaskletFuse models both halves of the pass on the dataflow graphs of C47 (edges redirected, nodes removed); statement-level lemmas for a copied operand, then graph lemmas: the fused block is valid and race free, and its statements in any topological order agree with the original's except on the temporary. Hole lifts this to a whole program containing the block. The two-reader input case needs that nothing changes the source between the copy and the last reader; without it the claim is refuted.

*Result.* Input fusion is proved when the temporary has one reader, or when no operation between the copy and the last reader changes what the copy read; with two readers the pass does not check this (t = x; x = t + 1; z = x; y = t + z becomes y = x + z with the new x): refuted. Output fusion is proved in full for race-free blocks. The type checks, debug info and the check that t has no other user are hypotheses (only_at); for containers visible outside the value of t changes.

*Theorems* (`TaskletFuseProps.v`): `C61_input_fusion_partial`, `C61_single_reader`, `C61_output_fusion`, `C61_temporary_gone`, `C61_program`, `C61_hypotheses`, `C61_program_hypotheses`, `C61_two_readers_refuted`, `C61_full_refuted`

### C62 Instrumentation runtime: no failure, stable ids, bounded event sets (partial)

*Claim.* As long as every instrumented region makes its calls in the generated order (init, any number of enter/exit pairs and metric reports, finalize, possibly all over again), with regions nested or interleaved in any way, __daisy_instrumentation_* never ends the program and never leaves its vectors; a region keeps its id when initialised again and no two regions share one; each open region has a running PAPI event set of its own; at most ten event sets beyond those of the open regions exist; at shutdown the kept ones are destroyed, and none is left if every region was finalised. A region that is initialised again while it is open (recursion, a second thread, a return that skips finalize) ends the program.

*Model and proof.* Instr.v models the state (regions, names, sleeping list, PAPI event sets with their running flag) and every call; InstrSpec.v the protocol per region on histories. Invariant over histories (InstrProofs.v, Section Life), by induction on the history.

*Result.* Calls are atomic (each holds the mutex); PAPI itself is modelled by its documented state machine (create needs PAPI_NULL, destroy needs a stopped set), adding the named events is assumed to succeed. C62_reentry_refuted: an activation inside another one of the same region ends the program.

*Theorems* (`InstrOutProps.v`, `InstrProps.v`): `C62_region_names`, `C62_never_fails`, `C62_ids`, `C62_ids_stay`, `C62_open_regions_counted`, `C62_event_sets`, `C62_shutdown`, `C62_example`, `C62_reentry_refuted`

### C63 Instrumentation runtime: recorded measurements (proved)

*Claim.* In trace mode the starts, durations and counter differences kept for a region are those of its enter/exit pairs, in order, across repeated init/finalize and whatever other regions do meanwhile; in aggregate mode the runtime, counter and metric statistics are the number, mean, population variance, least and greatest of exactly those values (over the rationals), and the first start is kept.

*Model and proof.* Per-region data invariant (InstrProofs.v, Section Data) on top of C62's; Welford's update is shown equal to mean and variance over Q (Section Welford).

*Result.* Doubles are rationals (no rounding). Regions that follow the protocol (C62).

*Theorems* (`InstrProps.v`): `C63_events`, `C63_aggregated`, `C63_metrics`, `C63_example`

### C64 Instrumentation trace file (partial)

*Claim.* At the end of the program the runtime writes a JSON document: in trace mode one event for every time a region was entered, with its start, duration and counters, in aggregate mode one event per region with its statistics; regions in any order. The events asked for in the environment variable are exactly its comma-separated parts. (False for a region that is initialised but never entered, for metadata without SDFG name or file, and, in aggregate mode with counters, for a program that ends inside a region.)

*Model and proof.* InstrOut.v models the writer as a list of JSON tokens; InstrOutProps.v gives the document as a JSON tree built from the history, and proves the file is its text, on top of C63's data invariant. Refutations through: the text of a JSON value never has a comma before a closing bracket or another comma.

*Result.* Token level: white space is left out, strings are taken as written (the writer does not escape quotes or backslashes), numbers are rationals. Partial: needs every region entered and SDFG name and file present (trace mode), every region with counters left once (aggregate mode); each is refuted without.

*Theorems* (`InstrOutProps.v`): `C64_trace_partial`, `C64_aggregated_partial`, `C64_not_entered_refuted`, `C64_no_name_refuted`, `C64_exit_inside_refuted`, `C64_example`, `C64_event_list`

### C65 A parallel (OpenMP) map computes what the sequential loop computes, under every thread schedule (partial)

*Claim.* When a map with the OpenMP schedule is executed by any number of threads, with its iterations distributed over them in any way, with arbitrary garbage in the thread-private copies and with the memory accesses of the threads interleaved arbitrarily, then no thread gets stuck or fails, every execution ends, no two threads ever access the same shared element at the same time with one of them writing, and at the end every shared container holds what the sequential loop leaves there; this holds for all maps whose iterations are independent and for the loops the loop-to-map conversion accepts.

*Model and proof.* Par.v gives threads a small-step semantics, one memory access per step, derived from the IR (frames and micro-accesses), with thread-private copies of the containers the OpenMP dispatcher lists; a team interleaves threads arbitrarily. ParProofs.v proves a thread alone follows the logged big-step semantics of Trace.v (goes_run), an invariant over teams relating every thread to its solo run (step_inv), and that solo runs of independent iterations determine the final memory (team). ParProps.v states the property for independent iterations (C65_any_interleaving) and for loops accepted by For2Map (C65_for2map_partial, C65_syntactic_partial); refutes it for maps with a temporary that is also used outside (shared) and for constant stores accepted by For2Map (data race).

*Result.* C65_any_interleaving is unconditional for independent iterations (termination, no failure, no race, sequential result). For loops accepted by For2Map the extra hypotheses are those of C21 plus: constants stored only to local containers, locals initialised before use, header symbols not written (C65_constant_store_refuted, C65_shared_temporary_refuted and C65_full_refuted show why). Interleaving semantics; weak memory is covered by the proved absence of data races.

*Theorems* (`ParProps.v`): `C65_any_interleaving`, `C65_for2map_partial`, `C65_syntactic_partial`, `C65_shared_temporary_refuted`, `C65_constant_store_refuted`, `C65_full_refuted`

### C66 A CUDA kernel executes every iteration of its map nest exactly once, under every interleaving of its threads (partial)

*Claim.* When a nest of maps is compiled to a CUDA kernel, the launched grid covers every point of the index space, exactly one thread executes the body for it and no thread executes it for any other point; for independent iterations, with arbitrary interleaving of the accesses of all threads and arbitrary garbage in kernel-local variables, the kernel ends, no thread fails or gets stuck, there is no data race, and global memory holds what the sequential loops leave there.

*Model and proof.* Cuda.v models the kernel text (CUDA maps become tests on the thread's coordinates), the launch configuration and the coordinate computation in C's int, on top of the thread semantics of Par.v. CudaProofs.v proves the grid covers the index space (coords_upto, num_blocks_enough, filter_upto), that a thread whose tests pass executes the body once and any other thread accesses nothing shared (run_guards), and that the sequential nest is the iteration over the product space (nest_run). CudaProps.v states coverage (C66_coverage, C66_index_space), the kernel theorem (C66_any_interleaving), and refutes it for sibling maps of one dimension, imperfect nests accepted by the nesting transformation, omitted tests, and more than 2^31 threads.

*Result.* C66_coverage and C66_any_interleaving hold for every perfect nest with one CUDA map per dimension, tests kept and at most 2^31 threads per dimension. Outside of that the property fails: the launch configuration takes the first map found of a dimension (C66_sibling_maps_refuted), statements between the maps of a nest accepted by CUDAParallelizeNestedMap run once per thread of the inner dimension (C66_imperfect_nest_refuted), nested_sync removes the test (C66_no_test_refuted; GPUConditionPropagation is meant to move it inwards and is not modelled), int coordinates wrap (C66_int_overflow_refuted). Hardware limits, host-device transfers and barriers are not modelled.

*Theorems* (`CudaProps.v`): `C66_coverage`, `C66_index_space`, `C66_int_overflow_refuted`, `C66_any_interleaving`, `C66_sibling_maps_refuted`, `C66_imperfect_nest_refuted`, `C66_no_test_refuted`

### C67 Offloading a map leaves the host memory of the sequential map (proved)

*Claim.* When a map is offloaded (each array argument copied to a fresh device buffer, the map run on the device names, written arrays copied back, all buffers released), the resulting sequence of transfers and kernel runs without an invalid device access whenever the sequential map runs and touches only elements inside the copied ranges; afterwards every argument array holds what the sequential map leaves, all other host memory and all other device buffers are unchanged, and no device buffer is leaked. A program with any number of offloaded maps and host phases ends with the host memory of the sequential program.

*Model and proof.* Offload.v: a machine with host memory, device pointers, device heap; transfers (allocate, copy, release), kernels that execute the map's loops on the device names with checked accesses, and OffloadTransform's sequence. OffloadProofs.v: renaming simulation with access logs (every container renamed to a name that does not occur), the buffers before and after the kernel, determinism. C67_program composes any number of host and offloaded phases, up to the maps' own variables.

*Result.* A kernel is executed as its sequential loops (C66 relates these to every interleaving of its threads). The sizes of the copies are given; that they cover all touched indices is a hypothesis (in the code: MemAccessRanges).

*Theorems* (`OffloadProps.v`): `C67_offload`, `C67_program`

### C68 Removing a copy to the host and back keeps results (partial)

*Claim.* When data transfer minimisation replaces a copy-out followed by a copy-in of the same host array by passing on the device buffer, the new program runs without an invalid device access whenever the old one does and leaves the same host memory; the copy-out itself is dropped only if the host array is not read again.

*Model and proof.* Offload.v `minimize`: one step of the pass. OffloadSim.v: simulation between machines that differ in addresses, in buffers nobody refers to and in host containers nobody reads, proved for every command; the released buffer of the original run is shown untouched until the copy-in. Refutations exhibit the missing checks: the caller's array is never updated, the buffer is released in between, the size symbol changes, a kept buffer is modified in between.

*Result.* For a copy-out that releases its buffer, under two conditions the pass does not check (device pointer not reassigned, size symbols not written in between), and excluding the container of a removed copy-out unless it is read later: proved. Without them the claim is false of the code (C68_lost_output_refuted, C68_use_after_free_refuted, C68_size_changed_refuted, C68_kept_buffer_refuted). Copies between different host containers (check_container_dependency) and buffers kept on the device are not covered.

*Theorems* (`OffloadProps.v`): `C68_minimized_partial`, `C68_lost_output_refuted`, `C68_use_after_free_refuted`, `C68_size_changed_refuted`, `C68_kept_buffer_refuted`

### C69 Memory ranges and copy sizes cover every access (partial)

*Claim.* The range reported for a container of a loop nest contains every index the nest reads or writes; a host/device copy of the size derived from it moves every element touched, so offloading a map with the computed sizes gives the result of running it on the host.

*Model and proof.* Model in Ranges.v: the accesses of a nest with the loops around them, the minimum/maximum of each index over the assumptions (C04, C39), the merged range and the copy size. Proof: every event of a trace comes from an access reached under the loops it is listed with; C39 gives the assumptions there, C04 the bounds, and the bounds only use symbols the nest does not write, so they keep their value. Composed with C67 for offloading; counterexamples for negative indices and negative sizes.

*Result.* Proved: every access of an execution lies within the reported bounds (C39 tameness of the loops, no trunc_i32 in the subscripts); a copy of the derived size covers every touched element when the lowest index is not negative; composed with C67. Refuted: the lower bound is never looked at (A[i-1]); the size is not checked for sign (N = -5 gives a negative allocation although the map is empty). Missing: containers reached through views or moved pointers, multi-dimensional copy sizes.

*Theorems* (`RangesProps.v`): `C69_range_partial`, `C69_copy_size_partial`, `C69_offload_partial`, `C69_negative_index_refuted`, `C69_empty_map_refuted`

### C70 Local storage for a loop output keeps the result (partial)

*Claim.* After OutLocalStorage (a copy of the accessed element(s) into a local scalar or array, the loop on the local copy, a copy back) the program ends the same way with the same contents of every original container; the local array is large enough for every iteration.

*Model and proof.* Model in OutLocal.v: uses with their subsets, can_be_applied, get_iteration_count, the replaced loop and the copies around it. Proof: simulation over executions (mutual induction on the big-step semantics) with the relation 'element j of the container is held in element w of the local storage, everything else is equal'; the array form runs it for each iteration of the trip (LoopIter) between two copy loops. Counterexamples executed by the interpreter.

*Result.* Proved for the scalar and the array form under conditions the code does not check: no return in the loop, a transition after the loop that does not touch the container or its index, an index that can be computed; for the array also a steady header, no break, and different elements for different iterations. Array size proved for loops counting up from 0. Refuted without them: one access node with two indices, transition reading the container or moving the index (the copy back comes after it), return, shared elements (A[i/2]), loops not starting at 0 (index outside the local array), loops counting down (negative size), undefined index of an empty loop.

*Theorems* (`OutLocalProps.v`): `C70_scalar_partial`, `C70_array_partial`, `C70_array_size_partial`, `C70_one_node_refuted`, `C70_transition_refuted`, `C70_index_moved_refuted`, `C70_return_refuted`, `C70_shared_element_refuted`, `C70_array_offset_refuted`, `C70_count_down_refuted`, `C70_no_iteration_refuted`

### C71 Managed allocation keeps results and memory (partial)

*Claim.* When the memory pipeline turns the malloc/alloca of a container into an allocation made at function entry, and its free into a release made at every exit, each call of the function that was well defined before returns the same value, leaves the same scalars, and leaves exactly the same buffers live with the same contents: nothing is released too early, twice or while undefined, nothing is left behind, and no access becomes out of bounds.

*Model and proof.* Alloc.v models a function's heap and stack memory (loads, stores, pointer views, malloc/alloca/free, branches, loops, returns), the prologue and epilogue the C generator emits for managed containers, and the pass's criteria and edits. AllocProofs/AllocSim: simulation between memories that differ in buffers the program cannot reach; AllocProps: allocation, release and both together preserve result and memory for every call, with five refutations for what the pass does not check.

*Result.* Proved for every call: allocation alone (the arguments in the size are not written before it; with an early return only stack memory), release alone (no early return before it, container allocated and released with one storage kind), and both together (early returns allowed if the size is valid at entry). The pass checks none of these side conditions; five accepted programs refute the unrestricted claim: argument written before the malloc (buffer too small), release of an undefined pointer at an early return, release of the caller s buffer at an early return, leak at an early return, alloca turned into malloc. Break/continue, calls and pointer comparisons are not modelled; dominance is taken on root children.

*Theorems* (`AllocProps.v`): `C71_allocation_partial`, `C71_allocation_otherwise`, `C71_release_partial`, `C71_allocation_and_release_partial`, `C71_deterministic`, `C71_written_argument_refuted`, `C71_undefined_release_refuted`, `C71_caller_buffer_refuted`, `C71_leak_refuted`, `C71_storage_kind_refuted`, `C71_hypotheses`

### C72 Propagating a pointer assignment does not change results (partial)

*Claim.* When the reference propagation pass replaces accesses through a pointer y by accesses through x at a shifted index, because the only pointer assignment reaching them is y = x + e, every call of the function returns the same value and leaves the same memory, scalars and pointers.

*Model and proof.* RefProp.v: relation flow over nested statements with the must-reach state of one pointer assignment, code_kill as in the pass and full_kill as needed; invariant y = x + e, executions equal in both directions by induction on the rewriting and on executions; congruence for the position in the program; programs the pass accepts refute the rest.

*Result.* Proved for every call (equivalence of executions, any number of applications) when y and x differ and neither pointer nor a scalar of the offset is assigned between the assignment and the user. The pass only looks for pointer assignments of x strictly in between; refuted without the missing criteria: p = p + 1 replaced again and again, index written in between, x allocated in between, y allocated in between, and a malloc into y renamed to x. Type comparisons and multi-dimensional subsets are left out.

*Theorems* (`RefPropProps.v`): `C72_propagation_partial`, `C72_repeated_partial`, `C72_self_assignment_refuted`, `C72_self_assignment_repeats_refuted`, `C72_index_moved_refuted`, `C72_viewed_allocated_refuted`, `C72_reference_allocated_refuted`, `C72_allocation_renamed_refuted`, `C72_hypotheses`

### C73 Removing a pointer that is only assigned does not change results (proved)

*Claim.* When dead reference elimination removes a pointer container that is never read, written or viewed together with all assignments to it, every call of the function has the same result, memory, scalars and other pointers, and nothing in the function mentions the container any more.

*Model and proof.* RefProp.v: erase and dead_ref; simulation with memories equal but for the removed pointer (rel of AllocProofs.v).

*Result.* Proved for every call of a function on which the pass applies; one access per statement.

*Theorems* (`RefPropProps.v`): `C73_dead_reference`, `C73_removed`, `C73_hypotheses`

### C74 Removing a redundant copy from the device leaves host memory unchanged (partial)

*Claim.* When the pass removes the first of two equal device-to-host copies of one container that is not used in between, the remaining program runs whenever the original does, ends with the same host memory in every container, valid device pointers with the same contents, and no device buffer that the original released is left behind.

*Model and proof.* Redundant.v: drop_first on the commands of Offload.v; simulation R of OffloadSim.v with the host container unconstrained until the second copy, which restores equality of all its elements.

*Result.* Proved: same host memory and at least the same device data, if the symbols of the size are not written between the two copies and the copies do not allocate. Refuted without: size written in between (elements missing). The no-leak half is false for copies that release their buffer: proved that the buffer of the removed copy survives to the end with its contents, and a program shows it (equal_with does not compare device containers).

*Theorems* (`RedundantProps.v`): `C74_redundant_copy_partial`, `C74_buffer_lost`, `C74_leak_refuted`, `C74_size_changed_refuted`, `C74_hypotheses`

### C75 Linearizing a multi-dimensional access does not move it (proved)

*Claim.* When memlet linearization replaces an access to a nested array type by an access with a single index to a pointer of the scalar type, the new index is, in every environment in which the old access has an address, the distance in elements between the start of the container and that address, including accesses that stop at a row; accesses within the extents with different indices keep different addresses.

*Model and proof.* Linearize.v: linear_index and linearize; offset of a C object of nested array type as an inductive relation (words, offset), induction on it.

*Result.* Proved for every nested array type and every environment in which the access has an address; byte sizes and the base pointer type are not modelled.

*Theorems* (`LinearizeProps.v`): `C75_same_address`, `C75_offset_unique`, `C75_injective`, `C75_hypotheses`

### C76 Removing an array dimension of size one changes no value (proved)

*Claim.* When the pass removes the first dimension of extent one from a container's type and the corresponding index from every access, every execution whose accesses to that container are within its extents is an execution of the changed program with the same outcome, the same contents of all other containers, and the same contents of the container at the shortened indices; the changed program has no other execution.

*Model and proof.* TrivialArray.v: trivial_dim and strip_node on the structured language; simulation over traced executions (runT) with memories equal up to the erased index.

*Result.* Proved for every execution within the constant extents of the container; containers with moves and views are excluded by the pass and not in the language.

*Theorems* (`TrivialArrayProps.v`): `C76_dimension_removed`, `C76_initial_memory`, `C76_only_result`, `C76_hypotheses`

### C77 Dropping a 32-bit truncation changes no index and no condition (partial)

*Claim.* When type minimization replaces trunc_i32(e) by e in a memlet's subset or a loop condition, e is a non-negative 32-bit integer in every state in which the expression is evaluated, so subsets and conditions keep their values and the program its behaviour.

*Model and proof.* MinTypes.v: is_safe_trunc on minimum_new/maximum_new (SymFuns.v), replacement in subsets and conditions; soundness of the bounds (C04) gives the range, a map over blocks known by the loops around them lifts it to programs.

*Result.* Proved wherever the assumptions hold and truncations are not nested; for whole programs with the bounds derived from loops (C39), not those taken from the types of written symbols. Refuted: a bound taken from an access made only under a condition lets the pass drop a truncation that matters, the program then writes another element.

*Theorems* (`MinTypesProps.v`): `C77_fits`, `C77_any_order`, `C77_condition`, `C77_program`, `C77_loop_bounds_partial`, `C77_hypotheses`, `C77_guarded_refuted`

### C78 Threads outside the map's range pass the barriers and nothing else (partial)

*Claim.* After condition propagation on a kernel map with barriers, a thread whose index satisfies the map's condition behaves as before, a thread whose index does not leaves everything other threads can see unchanged, and any two threads of a launch pass the same number of barriers.

*Model and proof.* GuardProp.v: the recursion of apply over the body and BarrierFinder, a barrier being a write of one container; simulation for threads in range, a frame argument for threads out of range, and a two-run induction over logged executions (Trace.v) for the barriers passed.

*Result.* In range: proved whenever the body does not write the names of the condition. Out of range: proved when what others see is written in parts that mention the index and hold no barrier. Barriers: proved when the control around them depends on names both threads agree on, and no assignment moved under the test is one of those. Refuted in general: an index computed from the map index in a transition escapes the test, and assignments of a guarded statement that decide a barrier go with it; a barrier-free branch beside one with a barrier is not handled (static_cast of an IfElse to Sequence).

*Theorems* (`GuardPropProps.v`): `C78_in_range`, `C78_out_of_range_partial`, `C78_same_barriers_partial`, `C78_derived_index_refuted`, `C78_transition_refuted`, `C78_branch_refuted`

### C79 A precise operation count is the number of operations executed (partial)

*Claim.* When the flop analysis reports its result as precise, the expression it gives for a loop (or for the program), evaluated where the loop starts, equals the number of floating-point operations every execution of the loop performs.

*Model and proof.* Flops.v: the visitors of FlopAnalysis where precise() stays true, on the tight bounds AssumptionsAnalysis gives a loop; executions with an operation counter (equivalent to run of IR.v) and induction over the nest, then over the iterations of a loop.

*Result.* Proved for loops that nothing leaves early, that run to one bound by steps of one and do not start past their end, and whose bounds depend on nothing the counted part writes. Refuted in general although the analysis says precise: a break, a loop that does not start (negative count), a bound of an inner loop that an outer loop changes, a second loop condition. Library nodes and imprecise estimates are not modelled.

*Theorems* (`FlopsProps.v`): `C79_counted`, `C79_precise_loop_partial`, `C79_precise_root_partial`, `C79_break_refuted`, `C79_empty_refuted`, `C79_outer_scope_refuted`, `C79_condition_refuted`

### C80 Sorting blocks before offloading keeps what the program computes (partial)

*Claim.* BlockSortingPass moves allocations, memsets and references to the front of their sequence and releases to the end. For every program and every memory, each execution of the original is an execution of the sorted program, with the same exit (normal, break, continue, return), the same scalars, pointers and buffers; no access is dropped or duplicated; sorting stops at the first break, continue or return.

*Model and proof.* BlockSort.v models the pass (both bubbling loops as insertions) on programs over the heap of Alloc.v; BlockSortProofs.v proves what a block can touch (its containers, the live buffers they point to, later allocations) and from it the four exchanges (reference, allocation, memset up; release down); BlockSortSim.v composes them through sequences, branches and loops (simulation up to pointwise equal memories).

*Result.* Partial. C80_sort_partial: every terminating execution of a program is one of the sorted program with the same exit and memory, given an alias analysis under which no memset block is moved over a block that reaches the same buffer under another name; C80_without_memset_partial: without memset blocks nothing about aliases is needed (references, allocations and releases may always move). C80_same_accesses: sorting permutes the accesses; C80_stops_at_jump: a jump and what follows it stay in place; C80_deterministic: executions are unique. C80_aliased_memset_refuted: without the alias condition the pass is wrong (p = &x[0]; p[0] = 7; memset(x): the memset is moved before the store, they share no container name). Not modelled: data offloading nodes, calloc, pointers stored in memory, library nodes with effects outside memory.

*Theorems* (`BlockSortProps.v`): `C80_sort_partial`, `C80_without_memset_partial`, `C80_same_accesses`, `C80_deterministic`, `C80_aliased_memset_refuted`, `C80_hypotheses`, `C80_stops_at_jump`

### C81 Moving blocks out of conditionals and maps keeps what the program computes (partial)

*Claim.* BlockHoisting moves a block that both branches of a complete conditional start (or end) with in front of it (or behind it), and a reference, alloca or memset that a map starts or ends with out of the map. For every program and memory the transformed program has the same executions: same exit, scalars, pointers and buffers.

*Model and proof.* Hoist.v models accept and its four cases on the programs of BlockSort.v; HoistProps.v proves the conditional cases by inversion and by commuting the moved access with assignments, closes them under all contexts, and the map case by a simulation in which one memory already holds the reference; four counterexamples are executed.

*Result.* Partial. C81_if_front: moving the common first block of both branches keeps exactly the executions; C81_if_back_partial: the same for the common last block, if the assignments of the transition after the conditional do not write what the block uses; C81_if_anywhere_partial: both anywhere in a program, any number of times; C81_map_front_view_partial: moving a reference out of a map, if the map runs at least once and nothing else in it moves the reference, its target or writes the offset. The code tests none of these conditions (no_loop_carried_dependencies is always true). Refuted in general: C81_empty_map_refuted (zero trips), C81_map_memset_refuted (memset of a buffer the body writes), C81_if_back_transition_refuted (n = 0 in the transition changes the size of the moved memset), C81_self_reference_refuted (p = &p[1]). Not modelled: Dereference memlets, memcpy, memmove, data offloading nodes, more than two branches.

*Theorems* (`HoistProps.v`): `C81_if_front`, `C81_if_back_partial`, `C81_map_front_view_partial`, `C81_if_anywhere_partial`, `C81_empty_map_refuted`, `C81_map_memset_refuted`, `C81_if_back_transition_refuted`, `C81_self_reference_refuted`, `C81_hypotheses`

### C82 Propagated source locations cover what a node contains (partial)

*Claim.* After debug info propagation every control flow node whose contents have a source location has one; when all locations of the program are in one file and one function, its line range is exactly the range spanned by everything inside it, starting and ending where one of them does, and running the pass again changes nothing. Everything except the locations of control flow nodes is unchanged.

*Model and proof.* Dbg.v models DebugInfo::merge and the recursion of the pass over the programs of Serial.v; DbgProofs.v proves that merging within one file and function is associative and idempotent and that the range of a list (hull) is composed by it, then mutual induction over programs; hull, the list of locations inside a node and the list of nodes are the separate specification.

*Result.* merge and the pass are modelled in full on the programs of Serial.v. Proved for all programs: a node gets a location exactly when something inside had one, nodes keep their file and lines, nothing else changes. The range, covering and idempotence theorems are for programs whose locations are in one file and one function (or name none). Refuted: columns are not covered when lines tie; with two functions (after inlining) and a location that names none, merging is order-dependent and leaves lines out.

*Theorems* (`DbgProps.v`): `C82_range_partial`, `C82_covers_partial`, `C82_again_partial`, `C82_grouping_partial`, `C82_located`, `C82_no_mixing`, `C82_only_locations`, `C82_columns_refuted`, `C82_functions_refuted`

### C83 A pipeline ends with nothing left to do (partial)

*Claim.* A pipeline runs every pass until it reports no change, and all passes until none reports one. What every pass preserves the pipeline preserves; its result is determined by the program; when its passes report all their changes, it ends with a program to which no pass applies, reports whether any pass applied to the program it was given, and running it again changes nothing. It ends whenever something gets smaller each time a pass applies.

*Model and proof.* Pipe.v: the three nested loops as inductive relations over passes S -> S * bool; inductions over executions, and over a natural-number measure for termination; the pass of C82 as the instance that never ends.

*Result.* Both loops of Pipeline::run over arbitrary passes. Proved: preservation, determinism, termination under a measure. That nothing is left to do and the meaning of the report need passes that report every change (honest): refuted without. Refuted as termination: DebugInfoPropagation always reports a change, so no pipeline containing it ends. Which of the real passes are honest or have a measure is not proved here.

*Theorems* (`PipeProps.v`): `C83_preserves`, `C83_nothing_left_partial`, `C83_report_partial`, `C83_deterministic`, `C83_ends`, `C83_never_ends`, `C83_debug_info_refuted`, `C83_unreported_refuted`

### C84 A deep copy is the same code under new identifiers (partial)

*Claim.* Inserting the children of a sequence into another, or copying a node into it, adds exactly the same control flow, conditions, bounds, assignments and data flow behind what was there (a copied node gets no assignments), gives every new element an identifier no other element has, and leaves the builder's next identifier above all in use.

*Model and proof.* Copy.v threads the identifier counter through the recursion of append; code_* (programs without identifiers and without the locations the copy drops) and ids_* (all identifiers) are the specification; mutual induction over programs for both, with the interval of identifiers each node takes.

*Result.* append, insert, copy and the builder functions they call, on the programs of Serial.v; proved for all programs, provided the source is not the sequence copied into (the code would not end) and the identifiers in use are different and below the next one. The returned node mapping is not modelled; nodes of a block are copied in list order (the code: any order). Refuted: the locations of transitions, of loop bodies and of a copied conditional are not kept.

*Theorems* (`CopyProps.v`): `C84_insert`, `C84_copy`, `C84_copy_if`, `C84_ids_insert`, `C84_ids_copy`, `C84_locations_refuted`

## Trusted base

* Coq 8.16.1's kernel (with its conversion and `vm_compute`).
* `Print Assumptions` on every theorem of `MANIFEST.json` prints "Closed under the
  global context": no axioms, neither our own nor of the standard library. The
  check is repeated by `tools/assumptions.sh`.
* That the Gallina definitions say what the C++ text says: they were written by
  reading the cited lines; nothing was extracted or run. The definitions that matter
  most for this are the semantics in `IR.v`, the evaluator in `Sym.v` and the
  SymEngine behaviour in `Sym.v`/`SymFuns.v` (canonical sums and products, numeric
  folding, expansion), because SymEngine itself is not part of `/repo`.
* That the specifications beside the theorems match the English properties.

Only the standard library is used. There are no axioms, section-less variables,
functors, module types, `Admitted` proofs or disabled kernel checks.

## What is not modelled

* Boost, SymEngine, ISL, nlohmann::json, MLIR and LLVM internals. ISL answers are an
  abstract oracle with its documented meaning (`DepOracle.v`), or replaced by the
  syntactic/monotonic part of the code.
* Floating point: values are abstract; tasklet codes have an arbitrary meaning, the
  arithmetic theorems for library nodes are stated for the meaning of the named
  operations and their order.
* Machine arithmetic of containers: containers hold integers of unbounded size,
  except where a property is about the width (trunc_i32, capture counters, type
  bounds).
* Pointers, references and dereferences, structures with members inside blocks,
  aliasing of containers, allocation and lifetime, volatile/external storage.
* Parallel schedules of maps except as arbitrary iteration orders (C21); OpenMP and
  GPU code generation, the offloading passes, instrumentation, the Python and MLIR
  front ends (only tensor views), the C++ front end, the daemon and its network
  protocol.
* Library nodes other than those listed under C40 to C46; stdlib and MPI-like calls.
* Fixpoint iteration of pipelines; theorems are about one application of a pass
  (whole program, as the visitor does it) and compose because each preserves the
  behaviour.
* Termination: program equivalence is about terminating executions (both directions
  where stated), so a pass that makes a program diverge is excluded only by the
  theorems stated in both directions.
* Memory exhaustion and exceptions other than those modelled as `Throw`/`None`.

## Testing the theorems against wrong programs

`tools/mutate.py` seeds a wrong definition into a scratch copy, rebuilds, replaces
every broken proof by `Admitted` and lists the theorems that then depend on an
admitted lemma. `seeded/LOG.jsonl` has one line per attempt.
