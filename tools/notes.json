{
 "C02": {
  "note": "The full claim is false of the code (C02_divide_ceil_refuted: symbolic dividend -4, divisor 2); proved for closed or non-negative dividends."
 },
 "C04": {
  "note": "Proved for expressions and bounds without trunc_i32; false with it (C04_trunc_refuted)."
 },
 "C08": {
  "note": "False as stated: symbolic stride accepted as contiguous, 2i+1 at negative i, power of another symbol; proved under the corrected guards."
 },
 "C09": {
  "note": "False as stated for N**2 subscripts (C09_disjoint_refuted); proved when a power subscript's base is the index."
 },
 "C12": {
  "note": "False as stated: assignments on the transition of a nested sequence are dropped (C12_sequence_fusion_refuted), and ConditionElimination creates such sequences; proved (both directions) when nested sequences carry no assignments."
 },
 "C14": {
  "note": "False as stated: assignments after the loop inside the branch become unconditional; proved for whole programs when there are none and the start value is defined."
 },
 "C15": {
  "note": "False as stated: the common assignment is inserted without being removed and without checking that the branches are exhaustive; proved under exhaustiveness and stability of the right-hand side."
 },
 "C35": {
  "note": "False as stated (variable read through an access node, break inside the Map); proved under the scoping predicate sok."
 },
 "C16": {
  "note": "False as stated: non-monotone conditions (i != 3 && i < 6), breaks, symbolic strides accepted; the loop variable after a zero-trip loop differs. Proved for single loops and in any program context when the condition is a conjunction of upper bounds, the update has literal coefficients and the body does not break."
 },
 "C28": {
  "note": "False as stated: Tensor::reshape only compares element counts, so a non-contiguous tensor is silently reinterpreted (C28_reshape_refuted); proved when the strides are the row-major strides of the shape."
 },
 "C36": {
  "note": "Transpose, flip and reshape proved; flip with a repeated axis is refuted (C36_*_refuted)."
 },
 "C33": {
  "note": "Proved for every history with fewer than 2^32 executions per region and inline sizes below 2^31; false beyond (32-bit counter wraps and overwrites the first capture; inline size accumulated in int). File-system failures are not modelled."
 },
 "C17": {
  "note": "False as stated: an inner Map whose iterations are independent is not enough (C17_inner_map_refuted), the inner bound may read a container the outer body writes (C17_outer_bound_refuted), final loop variables differ; proved when different outer iterations do not conflict outside privately rewritten cells and the inner header is stable."
 },
 "C20": {
  "note": "Straight-line bodies. False as stated even for correct set answers: a read A[i-1] after a write A[i] counts as defined in the same iteration (C20_flow_refuted, for every oracle obeying its documented meaning). Proved when accesses treated as covering really touch the same cell, and without any oracle assumption for the syntactic/monotonic oracle. If/else, inner loops in the body not modelled."
 },
 "C21": {
  "note": "False as stated (C21_flow_refuted, C21_bound_refuted); proved for every iteration order when the header is not written by the body and the analysis' cover assumption holds, or unconditionally for the syntactic/monotonic oracle."
 },
 "C22": {
  "note": "Proved for a loop entered with its condition true, whose update is a transition of the loop body itself whose other assignments do not read the loop variable, without return. Refuted without: false condition on entry (the while body runs once, the for body never), update inside an if/else (becomes unconditional), reads of the loop variable in the updating transition, return in a nested loop. Not modelled: updates inside nested loops (accepted by the code)."
 },
 "C19": {
  "note": "Straight-line bodies. False as stated: the analysis misses flow dependencies (C19_flow_refuted), a later child may change the bound (C19_bound_refuted), the initial value may be the loop variable itself (C19_init_refuted). Proved when the header symbols are not written in the body, the initial value does not use the loop variable, and accesses treated as covering each other touch the same cell; with the modelled answers (C19_syntactic_partial) the last hypothesis is proved."
 },
 "C18": {
  "note": "Proved when the inner update is a translation, the inner variable is not read through an access node, headers do not use it, and the body writes neither loop variable nor the symbols of the outer initial value; refuted without each of access/update/initial-value conditions. The inner variable itself ends at a different value (C18_final_index_refuted)."
 },
 "C23": {
  "note": "Proved for loops whose update adds a constant (32-bit) seen by the analysis, finite literals, condition symbols not written; inequations with the index alone in their clause with the start on the right side (steps 1/-1), max-literals in upward loops; rotation needs quiet start symbols. Everything but the loop variable is preserved (exactly, if the index is used outside subsets). Refuted in general: start beyond the excluded value, alternative clauses, symbolic step counted as 1, rotated start changed by the body, final index, countdown from its own variable becomes an infinite loop.",
  "status": "partial"
 },
 "C24": {
  "note": "Proved: with the symbol at its initial value on loop entry and the side conditions in [evolvable], the rewritten loop computes the same in every other container and leaves the same way; after the loop the symbol is right too if there is an iteration (or it is constant), no break, and the update does not use the index. Whole-program version when the initialisation is right before the loop. Refuted in general: zero iterations, aliases and functions of the index end one step too far, condition or transition using the symbol, continue, s=s+i, changed start symbol, loops entered twice.",
  "status": "partial"
 },
 "C10": {
  "note": "Value preservation (and hence: equal multi-dimensional index gives equal flat index) proved for every subscript; injectivity proved when at each position the lower digits stay below the stride (semantic form, and literal boxes). Missing/false: the code only checks max(stride) >= max(remainder), so injectivity under the assumptions alone is refuted three ways (off by one, symbolic stride, unbounded sizes).",
  "status": "partial"
 },
 "C07": {
  "note": "Affine decomposition, inverse and polynomial_div (with the quotient of non-polynomials arbitrary). SymEngine polynomial normalisation is modelled by integer-coefficient multivariate polynomials."
 },
 "C34": {
  "note": "Types and whole programs come back equal (containers as a map) for every program satisfying wf: expressions that SymEngine re-reads from their own text and that do not use symbols called true/false, default attributes on reference types, unique names. The unrestricted claim is false of the code and the refutations are proved: reference attributes (alignment) are not written, a symbol called true comes back as 1, assumptions are not written and a symbol-typed external loses its entry. Not modelled: SymEngine text printer/parser (parameters), fields written by library-node serializers (opaque), iteration order of assignment maps.",
  "status": "partial"
 },
 "C39": {
  "note": "Proved for every reachable point of every execution when each loop start does not use the index, the body writes neither index nor header symbols, a monotonic update adds a positive constant, and condition literals used as bounds stand alone and compare strictly with a symbol or with a number, and bounds from array extents follow from the header. False as stated, nine refutations: i<=N reported to need N>=start+1, disjunctive conditions, bounds like 10-M, reversed accesses A[10-i], array extents matched from the wrong end, guarded accesses, start from the own variable, bounds written in the body (also called constant).",
  "status": "partial"
 },
 "C40": {
  "note": "Elementwise (also in place), fill, cast, transpose onto a different container, broadcast of equal rank with literal-1 dimensions and of scalars are proved for all ranks, shapes and stores. False as stated: transpose in place, broadcast from a lower rank (left aligned instead of right aligned), symbolic dimensions equal to 1 at run time.",
  "status": "partial"
 },
 "C41": {
  "note": "Reduction proved for all ranks, axes, keepdims when input and output differ; mean and standard deviation proved when no axis is named twice. Refuted: in place (validate accepts it), mean with an axis named twice (0 and -1).",
  "status": "partial"
 },
 "C42": {
  "note": "relu and sigmoid proved; ELU only for non-positive elements (no branch for positive ones: refuted for every arithmetic), leaky ReLU and hard sigmoid refuted (operands never connected), softmax proved at the level of cells, but its max/sum buffers overflow (refuted by stride arithmetic).",
  "status": "partial"
 },
 "C43": {
  "note": "Assignments proved kept for elementwise nodes; refuted for broadcast and softmax (dropped) and for other computations in the same block (removed with the block).",
  "status": "partial"
 },
 "C44": {
  "note": "dot: proved when the result holds zero before and increments are not negative; refuted otherwise (old value is added, negative increments read in front of the vector). gemm: proved for row-major, all leading dimensions >= N, in place or not; refuted for column-major (layout ignored). Transposed operands are not expanded.",
  "status": "partial"
 },
 "C45": {
  "note": "Proved for rank 2 (C-order with any offset, or any strides with offset 0, copied); refuted for batches (references taken before the batch loops) and for views with an offset (offset added twice). Assumes x*1 + c*0 = x (no NaN in the old output).",
  "status": "partial"
 },
 "C46": {
  "note": "Proved for any number of spatial dimensions with one group, no padding and a kernel that fits; refuted for padding (reads outside the input), for two groups, and for a kernel larger than the input with stride 2 (rounding).",
  "status": "partial"
 },
 "C47": {
  "note": "Each-node-once and termination are proved for all acyclic graphs; the order is topological when no node with several outgoing edges reaches another one (antichain). The full claim is refuted: a consumer can be emitted before its producer (C47_sort_topological_refuted, C47_emitted_code_refuted: c = n + a emitted before a = n).",
  "status": "partial"
 },
 "C48": {
  "note": "Well-formedness, acyclicity and the multiset of operations are proved for all accepted pairs. Same result is proved when the fused block is race free, and that is proved to follow from the criterion when the components of the first block end in one sink and those of the second hold one tasklet. The full claim is refuted: b = a + 1; c = a fused with a = b lets the write of a overtake the read of a.",
  "status": "partial"
 },
 "C49": {
  "note": "Proved for regular programs (an executable check: in a branch or body a read precedes all writes of the container there or follows one that is always executed; a complete if-else that hides earlier writes overwrites them in every branch; no write after a break that follows a write; loop condition not written by the body) and a post-dominance oracle that is right about loops; C49_users_graph_partial instead takes post-dominance as walks of the users graph define it, when every loop condition mentions a container (C49_constant_condition_refuted shows why). Missing: non-regular programs, where the analysis is wrong: nine refutations, for every choice of the oracles.",
  "status": "partial"
 },
 "C50": {
  "note": "Preservation proved when every candidate container is regular (see C49) and scalars are accessed without subsets; C50_users_graph_partial derives the post-dominance assumption from the users graph; deletion of containers proved for all programs. Missing: non-regular programs, for which the pass deletes live writes: six refutations, for every choice of the oracles.",
  "status": "partial"
 },
 "C51": {
  "note": "Both directions proved for every graph whose loops are properly nested with a single exit and jump one level at a time (decidable on the graph: properb), for any post-dominator tree; C51_acyclic needs no such assumption. Conditions of a state are exclusive and exhaustive. Missing: other graphs, on which the conversion silently miscompiles: three refutations (edge to a shared return state becomes break, continue or break of an outer loop).",
  "status": "partial"
 },
 "C52": {
  "note": "Any graph, any exit order; up to the value of the new jump symbol. Model: the pass treats the first back edge with several exits, as the code does."
 },
 "C53": {
  "note": "Partial: the code drops the assignments of redirected edges (sdfg_builder.cpp:70, 93), so the equivalence is proved for redirected edges without assignments and refuted otherwise; add_loop bodies are one state.",
  "status": "partial"
 },
 "C54": {
  "note": "Proved with the safety conditions the code does not check as hypotheses (independent, own_seq, distinct, steps, covered); C54_same_range discharges coverage for loops over the same range. Eight refutations show accepted pairs that change results: larger consumer range, strided producer, overwritten producer input, access node with two memlets, index read through an access node, second output of the first map, reassigned parameter, captured index name.",
  "status": "partial"
 },
 "C55": {
  "note": "Proved for all accepted tasklets, types and values under the explicit faithfulness condition (no array element, non-negative operand of an arithmetic shift, casts only of values the printed cast preserves), and for whole programs whose tasklets compute without converting values; boolean results are covered at the level of one tasklet only. The unconditional claim is refuted: shift of a negative value, zero extension of a negative value in a signed container, truncation into a 64-bit container, narrowing to 64 bits or bool through trunc_i32, casts of array elements (index dropped), xor of two constants.",
  "status": "partial"
 },
 "C56": {
  "note": "Forward propagation (lines 161-430), for the read replaced at any position of the program: the last write before the read is the given assignment (from C49 and dominance on the users graph, proved sound for executions), so the substituted value is the same. Partial: the pass does not check that symbols of the right-hand side stay unchanged in every case (three refutations: a write dominated by the read inside a loop, an assignment of the same transition, inverse of sums of more than two terms); the theorems need no interference, either over executions (symbol_propagation) or from the program text (program_order). Reverse propagation (two definitions) and the simplification of the substituted expression (C03) are not modelled.",
  "status": "partial"
 },
 "C57": {
  "note": "Proved for all integer codes when the operands share a type, signed codes are applied to signed containers and char is unsigned or the width is not 8 (C57_integer_tasklet_partial; C57_defined for absence of undefined behaviour). Refuted in the model where these fail: UInt8 printed as plain char, signed codes on unsigned containers, operands of mixed types, signed overflow, fp_ord (prints isnan && isnan) and fp_one (prints !=), 64-bit powers. Floating-point arithmetic and fma rounding are not modelled.",
  "status": "partial"
 },
 "C58": {
  "note": "Proved for every printable expression and condition (sums and products in SymEngine canonical form), with signed symbols of 8 to 64 bits and bases of non-square powers in int range. The printing of sums, products and order relations is SymEngine code outside /repo, modelled from its documentation. Partial because unsigned symbols, pointers, sizeof and malloc_usable_size are outside the theorem. Refuted: unsigned symbols wrap, zext_i64 sign-extends a negative int, arithmetic in narrow types overflows, powers truncate their base.",
  "status": "partial"
 },
 "C59": {
  "note": "Small-step C statement machine over the token-level expression text of C58; forward and backward simulation, determinism. Partial: symbols are signed integers, powers are squares, compound conditions contain no division; blocks are executed as in the model of C47/C57 and assumed to keep symbols in range; returns do not model deallocation; maps are the sequential schedule. Refuted outside: assignment to a narrower symbol, short-circuit conditions.",
  "status": "partial"
 },
 "C60": {
  "note": "Proved for two equal definitions under the pass criteria, provided that no container the definition reads is written between the two (in every execution; or, by program order). Refuted as implemented: the pass compares only the containers read, not the right-hand side or tasklet code (i = n; i = n + 1 loses the second assignment), and a definition that changes a symbol of its own input subset (i = A[i] twice) is deleted, since the uses between do not include the definitions.",
  "status": "partial"
 },
 "C61": {
  "note": "Input fusion is proved when the temporary has one reader, or when no operation between the copy and the last reader changes what the copy read; with two readers the pass does not check this (t = x; x = t + 1; z = x; y = t + z becomes y = x + z with the new x): refuted. Output fusion is proved in full for race-free blocks. The type checks, debug info and the check that t has no other user are hypotheses (only_at); for containers visible outside the value of t changes.",
  "status": "partial"
 },
 "C62": {
  "note": "Calls are atomic (each holds the mutex); PAPI itself is modelled by its documented state machine (create needs PAPI_NULL, destroy needs a stopped set), adding the named events is assumed to succeed. C62_reentry_refuted: an activation inside another one of the same region ends the program."
 },
 "C63": {
  "note": "Doubles are rationals (no rounding). Regions that follow the protocol (C62)."
 },
 "C64": {
  "note": "Token level: white space is left out, strings are taken as written (the writer does not escape quotes or backslashes), numbers are rationals. Partial: needs every region entered and SDFG name and file present (trace mode), every region with counters left once (aggregate mode); each is refuted without.",
  "status": "partial"
 },
 "C65": {
  "note": "C65_any_interleaving is unconditional for independent iterations (termination, no failure, no race, sequential result). For loops accepted by For2Map the extra hypotheses are those of C21 plus: constants stored only to local containers, locals initialised before use, header symbols not written (C65_constant_store_refuted, C65_shared_temporary_refuted and C65_full_refuted show why). Interleaving semantics; weak memory is covered by the proved absence of data races.",
  "status": "partial"
 },
 "C66": {
  "note": "C66_coverage and C66_any_interleaving hold for every perfect nest with one CUDA map per dimension, tests kept and at most 2^31 threads per dimension. Outside of that the property fails: the launch configuration takes the first map found of a dimension (C66_sibling_maps_refuted), statements between the maps of a nest accepted by CUDAParallelizeNestedMap run once per thread of the inner dimension (C66_imperfect_nest_refuted), nested_sync removes the test (C66_no_test_refuted; GPUConditionPropagation is meant to move it inwards and is not modelled), int coordinates wrap (C66_int_overflow_refuted). Hardware limits, host-device transfers and barriers are not modelled.",
  "status": "partial"
 },
 "C67": {
  "note": "A kernel is executed as its sequential loops (C66 relates these to every interleaving of its threads). The sizes of the copies are given; that they cover all touched indices is a hypothesis (in the code: MemAccessRanges).",
  "status": "proved"
 },
 "C68": {
  "note": "For a copy-out that releases its buffer, under two conditions the pass does not check (device pointer not reassigned, size symbols not written in between), and excluding the container of a removed copy-out unless it is read later: proved. Without them the claim is false of the code (C68_lost_output_refuted, C68_use_after_free_refuted, C68_size_changed_refuted, C68_kept_buffer_refuted). Copies between different host containers (check_container_dependency) and buffers kept on the device are not covered.",
  "status": "partial"
 },
 "C69": {
  "note": "Proved: every access of an execution lies within the reported bounds (C39 tameness of the loops, no trunc_i32 in the subscripts); a copy of the derived size covers every touched element when the lowest index is not negative; composed with C67. Refuted: the lower bound is never looked at (A[i-1]); the size is not checked for sign (N = -5 gives a negative allocation although the map is empty). Missing: containers reached through views or moved pointers, multi-dimensional copy sizes.",
  "status": "partial"
 },
 "C70": {
  "note": "Proved for the scalar and the array form under conditions the code does not check: no return in the loop, a transition after the loop that does not touch the container or its index, an index that can be computed; for the array also a steady header, no break, and different elements for different iterations. Array size proved for loops counting up from 0. Refuted without them: one access node with two indices, transition reading the container or moving the index (the copy back comes after it), return, shared elements (A[i/2]), loops not starting at 0 (index outside the local array), loops counting down (negative size), undefined index of an empty loop.",
  "status": "partial"
 },
 "C71": {
  "note": "Proved for every call: allocation alone (the arguments in the size are not written before it; with an early return only stack memory), release alone (no early return before it, container allocated and released with one storage kind), and both together (early returns allowed if the size is valid at entry). The pass checks none of these side conditions; five accepted programs refute the unrestricted claim: argument written before the malloc (buffer too small), release of an undefined pointer at an early return, release of the caller s buffer at an early return, leak at an early return, alloca turned into malloc. Break/continue, calls and pointer comparisons are not modelled; dominance is taken on root children.",
  "status": "partial"
 },
 "C72": {
  "note": "Proved for every call (equivalence of executions, any number of applications) when y and x differ and neither pointer nor a scalar of the offset is assigned between the assignment and the user. The pass only looks for pointer assignments of x strictly in between; refuted without the missing criteria: p = p + 1 replaced again and again, index written in between, x allocated in between, y allocated in between, and a malloc into y renamed to x. Type comparisons and multi-dimensional subsets are left out.",
  "status": "partial"
 },
 "C73": {
  "note": "Proved for every call of a function on which the pass applies; one access per statement.",
  "status": "proved"
 },
 "C74": {
  "note": "Proved: same host memory and at least the same device data, if the symbols of the size are not written between the two copies and the copies do not allocate. Refuted without: size written in between (elements missing). The no-leak half is false for copies that release their buffer: proved that the buffer of the removed copy survives to the end with its contents, and a program shows it (equal_with does not compare device containers).",
  "status": "partial"
 },
 "C75": {
  "note": "Proved for every nested array type and every environment in which the access has an address; byte sizes and the base pointer type are not modelled.",
  "status": "proved"
 },
 "C76": {
  "note": "Proved for every execution within the constant extents of the container; containers with moves and views are excluded by the pass and not in the language.",
  "status": "proved"
 },
 "C77": {
  "note": "Proved wherever the assumptions hold and truncations are not nested; for whole programs with the bounds derived from loops (C39), not those taken from the types of written symbols. Refuted: a bound taken from an access made only under a condition lets the pass drop a truncation that matters, the program then writes another element.",
  "status": "partial"
 },
 "C78": {
  "note": "In range: proved whenever the body does not write the names of the condition. Out of range: proved when what others see is written in parts that mention the index and hold no barrier. Barriers: proved when the control around them depends on names both threads agree on, and no assignment moved under the test is one of those. Refuted in general: an index computed from the map index in a transition escapes the test, and assignments of a guarded statement that decide a barrier go with it; a barrier-free branch beside one with a barrier is not handled (static_cast of an IfElse to Sequence).",
  "status": "partial"
 },
 "C79": {
  "note": "Proved for loops that nothing leaves early, that run to one bound by steps of one and do not start past their end, and whose bounds depend on nothing the counted part writes. Refuted in general although the analysis says precise: a break, a loop that does not start (negative count), a bound of an inner loop that an outer loop changes, a second loop condition. Library nodes and imprecise estimates are not modelled.",
  "status": "partial"
 },
 "C80": {
  "note": "Partial. C80_sort_partial: every terminating execution of a program is one of the sorted program with the same exit and memory, given an alias analysis under which no memset block is moved over a block that reaches the same buffer under another name; C80_without_memset_partial: without memset blocks nothing about aliases is needed (references, allocations and releases may always move). C80_same_accesses: sorting permutes the accesses; C80_stops_at_jump: a jump and what follows it stay in place; C80_deterministic: executions are unique. C80_aliased_memset_refuted: without the alias condition the pass is wrong (p = &x[0]; p[0] = 7; memset(x): the memset is moved before the store, they share no container name). Not modelled: data offloading nodes, calloc, pointers stored in memory, library nodes with effects outside memory.",
  "status": "partial"
 },
 "C81": {
  "note": "Partial. C81_if_front: moving the common first block of both branches keeps exactly the executions; C81_if_back_partial: the same for the common last block, if the assignments of the transition after the conditional do not write what the block uses; C81_if_anywhere_partial: both anywhere in a program, any number of times; C81_map_front_view_partial: moving a reference out of a map, if the map runs at least once and nothing else in it moves the reference, its target or writes the offset. The code tests none of these conditions (no_loop_carried_dependencies is always true). Refuted in general: C81_empty_map_refuted (zero trips), C81_map_memset_refuted (memset of a buffer the body writes), C81_if_back_transition_refuted (n = 0 in the transition changes the size of the moved memset), C81_self_reference_refuted (p = &p[1]). Not modelled: Dereference memlets, memcpy, memmove, data offloading nodes, more than two branches.",
  "status": "partial"
 },
 "C82": {
  "note": "merge and the pass are modelled in full on the programs of Serial.v. Proved for all programs: a node gets a location exactly when something inside had one, nodes keep their file and lines, nothing else changes. The range, covering and idempotence theorems are for programs whose locations are in one file and one function (or name none). Refuted: columns are not covered when lines tie; with two functions (after inlining) and a location that names none, merging is order-dependent and leaves lines out.",
  "status": "partial"
 },
 "C83": {
  "note": "Both loops of Pipeline::run over arbitrary passes. Proved: preservation, determinism, termination under a measure. That nothing is left to do and the meaning of the report need passes that report every change (honest): refuted without. Refuted as termination: DebugInfoPropagation always reports a change, so no pipeline containing it ends. Which of the real passes are honest or have a measure is not proved here.",
  "status": "partial"
 },
 "C84": {
  "note": "append, insert, copy and the builder functions they call, on the programs of Serial.v; proved for all programs, provided the source is not the sequence copied into (the code would not end) and the identifiers in use are different and below the next one. The returned node mapping is not modelled; nodes of a block are copied in list order (the code: any order). Refuted: the locations of transitions, of loop bodies and of a copied conditional are not kept."
 }
}