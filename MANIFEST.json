{
 "claims": [
  {
   "property": "C01",
   "status": "proved",
   "theorems": [
    "C01_div_value",
    "C01_mod_value",
    "C01_div_mod_law",
    "C01_div_total"
   ],
   "note": ""
  },
  {
   "property": "C02",
   "status": "partial",
   "theorems": [
    "C02_divide_ceil_partial",
    "C02_divide_ceil_refuted"
   ],
   "note": "The full claim is false of the code (C02_divide_ceil_refuted: symbolic dividend -4, divisor 2); proved for closed or non-negative dividends."
  },
  {
   "property": "C03",
   "status": "proved",
   "theorems": [
    "C03_simplify_value",
    "C03_simplify_cond_value"
   ],
   "note": ""
  },
  {
   "property": "C04",
   "status": "partial",
   "theorems": [
    "C04_minimum_sound_partial",
    "C04_maximum_sound_partial",
    "C04_minimum_new_sound_partial",
    "C04_maximum_new_sound_partial",
    "C04_trunc_refuted"
   ],
   "note": "Proved for expressions and bounds without trunc_i32; false with it (C04_trunc_refuted)."
  },
  {
   "property": "C05",
   "status": "proved",
   "theorems": [
    "C05_cnf_equivalent"
   ],
   "note": ""
  },
  {
   "property": "C06",
   "status": "proved",
   "theorems": [
    "C06_is_complete_sound"
   ],
   "note": ""
  },
  {
   "property": "C07",
   "status": "proved",
   "theorems": [
    "C07_polynomial_div",
    "C07_affine_recompose",
    "C07_inverse"
   ],
   "note": "Affine decomposition, inverse and polynomial_div (with the quotient of non-polynomials arbitrary). SymEngine polynomial normalisation is modelled by integer-coefficient multivariate polynomials."
  },
  {
   "property": "C08",
   "status": "partial",
   "theorems": [
    "C08_contiguous_refuted",
    "C08_contiguous_literal_partial",
    "C08_monotonic_refuted",
    "C08_monotonic_nonneg_partial",
    "C08_monotonic_unit_partial",
    "C08_monotonic_pow_refuted"
   ],
   "note": "False as stated: symbolic stride accepted as contiguous, 2i+1 at negative i, power of another symbol; proved under the corrected guards."
  },
  {
   "property": "C09",
   "status": "partial",
   "theorems": [
    "C09_disjoint_monotonic_partial",
    "C09_disjoint_refuted"
   ],
   "note": "False as stated for N**2 subscripts (C09_disjoint_refuted); proved when a power subscript's base is the index."
  },
  {
   "property": "C10",
   "status": "partial",
   "theorems": [
    "C10_value_preserving",
    "C10_equal_indices_equal_flat",
    "C10_injective_partial",
    "C10_injective_boxes_partial",
    "C10_off_by_one_refuted",
    "C10_symbolic_stride_refuted",
    "C10_unbounded_refuted"
   ],
   "note": "Value preservation (and hence: equal multi-dimensional index gives equal flat index) proved for every subscript; injectivity proved when at each position the lower digits stay below the stride (semantic form, and literal boxes). Missing/false: the code only checks max(stride) >= max(remainder), so injectivity under the assumptions alone is refuted three ways (off by one, symbolic stride, unbounded sizes)."
  },
  {
   "property": "C11",
   "status": "proved",
   "theorems": [
    "C11_lower_bound_sound",
    "C11_upper_bound_sound",
    "C11_type_bounds",
    "C11_type_bounds_defined"
   ],
   "note": ""
  },
  {
   "property": "C12",
   "status": "partial",
   "theorems": [
    "C12_sequence_fusion_partial",
    "C12_sequence_fusion_flattens",
    "C12_sequence_fusion_refuted",
    "C12_after_condition_elimination_refuted"
   ],
   "note": "False as stated: assignments on the transition of a nested sequence are dropped (C12_sequence_fusion_refuted), and ConditionElimination creates such sequences; proved (both directions) when nested sequences carry no assignments."
  },
  {
   "property": "C13",
   "status": "proved",
   "theorems": [
    "C13_dead_cfg_elimination"
   ],
   "note": ""
  },
  {
   "property": "C14",
   "status": "partial",
   "theorems": [
    "C14_condition_elimination_step_partial",
    "C14_condition_elimination_partial",
    "C14_condition_elimination_refuted"
   ],
   "note": "False as stated: assignments after the loop inside the branch become unconditional; proved for whole programs when there are none and the start value is defined."
  },
  {
   "property": "C15",
   "status": "partial",
   "theorems": [
    "C15_common_assignment_elimination_partial",
    "C15_common_assignment_elimination_refuted",
    "C15_incomplete_branches_refuted"
   ],
   "note": "False as stated: the common assignment is inserted without being removed and without checking that the branches are exhaustive; proved under exhaustiveness and stability of the right-hand side."
  },
  {
   "property": "C16",
   "status": "partial",
   "theorems": [
    "C16_tiling_partial",
    "C16_tiling_in_program_partial",
    "C16_condition_refuted",
    "C16_break_refuted",
    "C16_loop_variable_refuted",
    "C16_stride_refuted"
   ],
   "note": "False as stated: non-monotone conditions (i != 3 && i < 6), breaks, symbolic strides accepted; the loop variable after a zero-trip loop differs. Proved for single loops and in any program context when the condition is a conjunction of upper bounds, the update has literal coefficients and the body does not break."
  },
  {
   "property": "C17",
   "status": "partial",
   "theorems": [
    "C17_interchange_partial",
    "C17_accepted",
    "C17_inner_map_refuted",
    "C17_outer_bound_refuted",
    "C17_loop_variable_refuted"
   ],
   "note": "False as stated: an inner Map whose iterations are independent is not enough (C17_inner_map_refuted), the inner bound may read a container the outer body writes (C17_outer_bound_refuted), final loop variables differ; proved when different outer iterations do not conflict outside privately rewritten cells and the inner header is stable."
  },
  {
   "property": "C18",
   "status": "partial",
   "theorems": [
    "C18_skewing_partial",
    "C18_access_refuted",
    "C18_update_refuted",
    "C18_init_refuted",
    "C18_final_index_refuted",
    "C18_full_refuted"
   ],
   "note": "Proved when the inner update is a translation, the inner variable is not read through an access node, headers do not use it, and the body writes neither loop variable nor the symbols of the outer initial value; refuted without each of access/update/initial-value conditions. The inner variable itself ends at a different value (C18_final_index_refuted)."
  },
  {
   "property": "C19",
   "status": "partial",
   "theorems": [
    "C19_distribute_partial",
    "C19_syntactic_partial",
    "C19_flow_refuted",
    "C19_full_refuted",
    "C19_bound_refuted",
    "C19_init_refuted"
   ],
   "note": "Straight-line bodies. False as stated: the analysis misses flow dependencies (C19_flow_refuted), a later child may change the bound (C19_bound_refuted), the initial value may be the loop variable itself (C19_init_refuted). Proved when the header symbols are not written in the body, the initial value does not use the loop variable, and accesses treated as covering each other touch the same cell; with the modelled answers (C19_syntactic_partial) the last hypothesis is proved."
  },
  {
   "property": "C20",
   "status": "partial",
   "theorems": [
    "C20_dependencies_partial",
    "C20_syntactic_partial",
    "C20_flow_refuted",
    "C20_full_refuted"
   ],
   "note": "Straight-line bodies. False as stated even for correct set answers: a read A[i-1] after a write A[i] counts as defined in the same iteration (C20_flow_refuted, for every oracle obeying its documented meaning). Proved when accesses treated as covering really touch the same cell, and without any oracle assumption for the syntactic/monotonic oracle. If/else, inner loops in the body not modelled."
  },
  {
   "property": "C21",
   "status": "partial",
   "theorems": [
    "C21_any_order_partial",
    "C21_syntactic_partial",
    "C21_flow_refuted",
    "C21_full_refuted",
    "C21_bound_refuted"
   ],
   "note": "False as stated (C21_flow_refuted, C21_bound_refuted); proved for every iteration order when the header is not written by the body and the analysis' cover assumption holds, or unconditionally for the syntactic/monotonic oracle."
  },
  {
   "property": "C22",
   "status": "partial",
   "theorems": [
    "C22_while_to_for_partial",
    "C22_entry_refuted",
    "C22_conditional_update_refuted",
    "C22_same_transition_refuted",
    "C22_return_refuted"
   ],
   "note": "Proved for a loop entered with its condition true, whose update is a transition of the loop body itself whose other assignments do not read the loop variable, without return. Refuted without: false condition on entry (the while body runs once, the for body never), update inside an if/else (becomes unconditional), reads of the loop variable in the updating transition, return in a nested loop. Not modelled: updates inside nested loops (accepted by the code)."
  },
  {
   "property": "C23",
   "status": "partial",
   "theorems": [
    "C23_normalize_partial",
    "C23_start_beyond_refuted",
    "C23_alternative_refuted",
    "C23_symbolic_step_refuted",
    "C23_rotated_start_refuted",
    "C23_full_refuted",
    "C23_final_index_refuted",
    "C23_countdown_refuted"
   ],
   "note": "Proved for loops whose update adds a constant (32-bit) seen by the analysis, finite literals, condition symbols not written; inequations with the index alone in their clause with the start on the right side (steps 1/-1), max-literals in upward loops; rotation needs quiet start symbols. Everything but the loop variable is preserved (exactly, if the index is used outside subsets). Refuted in general: start beyond the excluded value, alternative clauses, symbolic step counted as 1, rotated start changed by the body, final index, countdown from its own variable becomes an infinite loop."
  },
  {
   "property": "C24",
   "status": "partial",
   "theorems": [
    "C24_evolution_partial",
    "C24_final_value_partial",
    "C24_program_partial",
    "C24_zero_trip_refuted",
    "C24_alias_final_refuted",
    "C24_function_final_refuted",
    "C24_condition_refuted",
    "C24_continue_refuted",
    "C24_triangular_refuted",
    "C24_start_changed_refuted",
    "C24_transition_refuted",
    "C24_reentered_refuted",
    "C24_full_refuted"
   ],
   "note": "Proved: with the symbol at its initial value on loop entry and the side conditions in [evolvable], the rewritten loop computes the same in every other container and leaves the same way; after the loop the symbol is right too if there is an iteration (or it is constant), no break, and the update does not use the index. Whole-program version when the initialisation is right before the loop. Refuted in general: zero iterations, aliases and functions of the index end one step too far, condition or transition using the symbol, continue, s=s+i, changed start symbol, loops entered twice."
  },
  {
   "property": "C25",
   "status": "proved",
   "theorems": [
    "C25_canonical_bound",
    "C25_stride"
   ],
   "note": ""
  },
  {
   "property": "C26",
   "status": "proved",
   "theorems": [
    "C26_fresh",
    "C26_distinct"
   ],
   "note": ""
  },
  {
   "property": "C27",
   "status": "proved",
   "theorems": [
    "C27_lowered_access",
    "C27_newaxis",
    "C27_flip",
    "C27_squeeze_axis",
    "C27_squeeze"
   ],
   "note": ""
  },
  {
   "property": "C28",
   "status": "partial",
   "theorems": [
    "C28_reshape_partial",
    "C28_reshape_refuted"
   ],
   "note": "False as stated: Tensor::reshape only compares element counts, so a non-contiguous tensor is silently reinterpreted (C28_reshape_refuted); proved when the strides are the row-major strides of the shape."
  },
  {
   "property": "C29",
   "status": "proved",
   "theorems": [
    "C29_row_major"
   ],
   "note": ""
  },
  {
   "property": "C30",
   "status": "proved",
   "theorems": [
    "C30_primitive_size",
    "C30_array_size",
    "C30_tensor_size",
    "C30_positive"
   ],
   "note": ""
  },
  {
   "property": "C31",
   "status": "proved",
   "theorems": [
    "C31_roundtrip",
    "C31_names_unique",
    "C31_classification"
   ],
   "note": ""
  },
  {
   "property": "C32",
   "status": "proved",
   "theorems": [
    "C32_roundtrip",
    "C32_format",
    "C32_groups",
    "C32_decode_bytes"
   ],
   "note": ""
  },
  {
   "property": "C33",
   "status": "partial",
   "theorems": [
    "C33_inline_history",
    "C33_runtime_history",
    "C33_strategies",
    "C33_counter_wrap_refuted",
    "C33_inline_size_refuted"
   ],
   "note": "Proved for every history with fewer than 2^32 executions per region and inline sizes below 2^31; false beyond (32-bit counter wraps and overwrites the first capture; inline size accumulated in int). File-system failures are not modelled."
  },
  {
   "property": "C34",
   "status": "partial",
   "theorems": [
    "C34_type_roundtrip",
    "C34_program_roundtrip_partial",
    "C34_document_determines_program",
    "C34_reloaded_assumptions",
    "C34_reference_attributes_lost",
    "C34_symbol_true_rewritten",
    "C34_assumptions_lost"
   ],
   "note": "Types and whole programs come back equal (containers as a map) for every program satisfying wf: expressions that SymEngine re-reads from their own text and that do not use symbols called true/false, default attributes on reference types, unique names. The unrestricted claim is false of the code and the refutations are proved: reference attributes (alignment) are not written, a symbol called true comes back as 1, assumptions are not written and a symbol-typed external loses its entry. Not modelled: SymEngine text printer/parser (parameters), fields written by library-node serializers (opaque), iteration order of assignment maps."
  },
  {
   "property": "C35",
   "status": "partial",
   "theorems": [
    "C35_trivial_map_inlining_partial",
    "C35_trivial_map_inlining_refuted",
    "C35_break_in_map_refuted"
   ],
   "note": "False as stated (variable read through an access node, break inside the Map); proved under the scoping predicate sok."
  },
  {
   "property": "C36",
   "status": "partial",
   "theorems": [
    "C36_transpose",
    "C36_flip",
    "C36_reshape",
    "C36_reshape_total",
    "C36_flip_duplicate_refuted"
   ],
   "note": "Transpose, flip and reshape proved; flip with a repeated axis is refuted (C36_*_refuted)."
  },
  {
   "property": "C37",
   "status": "proved",
   "theorems": [
    "C37_equivalence",
    "C37_interchangeable"
   ],
   "note": ""
  },
  {
   "property": "C38",
   "status": "proved",
   "theorems": [
    "C38_subscripts_compose",
    "C38_pointer_once"
   ],
   "note": ""
  },
  {
   "property": "C39",
   "status": "partial",
   "theorems": [
    "C39_bounds_hold_partial",
    "C39_constant_partial",
    "C39_le_bound_refuted",
    "C39_disjunction_refuted",
    "C39_bound_symbol_refuted",
    "C39_reversed_access_refuted",
    "C39_extent_order_refuted",
    "C39_guarded_access_refuted",
    "C39_own_start_refuted",
    "C39_written_bound_refuted",
    "C39_constant_refuted"
   ],
   "note": "Proved for every reachable point of every execution when each loop start does not use the index, the body writes neither index nor header symbols, a monotonic update adds a positive constant, and condition literals used as bounds stand alone and compare strictly with a symbol or with a number, and bounds from array extents follow from the header. False as stated, nine refutations: i<=N reported to need N>=start+1, disjunctive conditions, bounds like 10-M, reversed accesses A[10-i], array extents matched from the wrong end, guarded accesses, start from the own variable, bounds written in the body (also called constant)."
  },
  {
   "property": "C40",
   "status": "partial",
   "theorems": [
    "C40_elementwise",
    "C40_transpose_partial",
    "C40_transpose_default",
    "C40_transpose_in_place_refuted",
    "C40_broadcast_partial",
    "C40_broadcast_rank_refuted",
    "C40_broadcast_symbolic_refuted",
    "C40_broadcast_scalar",
    "C40_nonvacuous"
   ],
   "note": "Elementwise (also in place), fill, cast, transpose onto a different container, broadcast of equal rank with literal-1 dimensions and of scalars are proved for all ranks, shapes and stores. False as stated: transpose in place, broadcast from a lower rank (left aligned instead of right aligned), symbolic dimensions equal to 1 at run time."
  },
  {
   "property": "C41",
   "status": "partial",
   "theorems": [
    "C41_reduce_partial",
    "C41_keepdims_shape",
    "C41_reduce_in_place_refuted",
    "C41_nonvacuous",
    "C41_mean_partial",
    "C41_mean_duplicate_axes_refuted",
    "C41_mean_nonvacuous",
    "C41_std_partial"
   ],
   "note": "Reduction proved for all ranks, axes, keepdims when input and output differ; mean and standard deviation proved when no axis is named twice. Refuted: in place (validate accepts it), mean with an axis named twice (0 and -1)."
  },
  {
   "property": "C42",
   "status": "partial",
   "theorems": [
    "C42_relu",
    "C42_sigmoid",
    "C42_elu_partial",
    "C42_elu_positive_refuted",
    "C42_leaky_relu_refuted",
    "C42_hard_sigmoid_refuted",
    "C42_softmax_partial",
    "C42_softmax_buffer_refuted",
    "C42_nonvacuous"
   ],
   "note": "relu and sigmoid proved; ELU only for non-positive elements (no branch for positive ones: refuted for every arithmetic), leaky ReLU and hard sigmoid refuted (operands never connected), softmax proved at the level of cells, but its max/sum buffers overflow (refuted by stride arithmetic)."
  },
  {
   "property": "C43",
   "status": "partial",
   "theorems": [
    "C43_assignments_partial",
    "C43_other_nodes_refuted",
    "C43_broadcast_assignments_refuted",
    "C43_softmax_assignments_refuted",
    "C43_nonvacuous"
   ],
   "note": "Assignments proved kept for elementwise nodes; refuted for broadcast and softmax (dropped) and for other computations in the same block (removed with the block)."
  },
  {
   "property": "C44",
   "status": "partial",
   "theorems": [
    "C44_dot_partial",
    "C44_dot_uninitialised_refuted",
    "C44_dot_negative_increment_refuted",
    "C44_dot_nonvacuous",
    "C44_gemm_partial",
    "C44_gemm_transposed",
    "C44_gemm_column_major_refuted",
    "C44_gemm_nonvacuous"
   ],
   "note": "dot: proved when the result holds zero before and increments are not negative; refuted otherwise (old value is added, negative increments read in front of the vector). gemm: proved for row-major, all leading dimensions >= N, in place or not; refuted for column-major (layout ignored). Transposed operands are not expanded."
  },
  {
   "property": "C45",
   "status": "partial",
   "theorems": [
    "C45_matmul_partial",
    "C45_matmul_types",
    "C45_matmul_batch_refuted",
    "C45_matmul_view_offset_refuted",
    "C45_nonvacuous"
   ],
   "note": "Proved for rank 2 (C-order with any offset, or any strides with offset 0, copied); refuted for batches (references taken before the batch loops) and for views with an offset (offset added twice). Assumes x*1 + c*0 = x (no NaN in the old output)."
  },
  {
   "property": "C46",
   "status": "partial",
   "theorems": [
    "C46_conv_partial",
    "C46_conv_padding_refuted",
    "C46_conv_groups_refuted",
    "C46_conv_rounding_refuted",
    "C46_nonvacuous"
   ],
   "note": "Proved for any number of spatial dimensions with one group, no padding and a kernel that fits; refuted for padding (reads outside the input), for two groups, and for a kernel larger than the input with stride 2 (rounding)."
  },
  {
   "property": "C47",
   "status": "partial",
   "theorems": [
    "C47_sort_each_node_once",
    "C47_sort_topological_partial",
    "C47_every_order_same",
    "C47_emitted_code_partial",
    "C47_sort_topological_refuted",
    "C47_emitted_code_refuted",
    "C47_tasklet_statement"
   ],
   "note": "Each-node-once and termination are proved for all acyclic graphs; the order is topological when no node with several outgoing edges reaches another one (antichain). The full claim is refuted: a consumer can be emitted before its producer (C47_sort_topological_refuted, C47_emitted_code_refuted: c = n + a emitted before a = n)."
  },
  {
   "property": "C48",
   "status": "partial",
   "theorems": [
    "C48_race_free_result",
    "C48_block_fusion_partial",
    "C48_fused_wf",
    "C48_block_fusion_refuted"
   ],
   "note": "Well-formedness, acyclicity and the multiset of operations are proved for all accepted pairs. Same result is proved when the fused block is race free, and that is proved to follow from the criterion when the components of the first block end in one sink and those of the second hold one tasklet. The full claim is refuted: b = a + 1; c = a fused with a = b lets the write of a overtake the read of a."
  },
  {
   "property": "C49",
   "status": "partial",
   "theorems": [
    "C49_users_graph_partial",
    "C49_users_graph_hypotheses",
    "C49_constant_condition_refuted",
    "C49_reaching_definitions_partial",
    "C49_unread_definition_partial",
    "C49_every_write_has_an_entry",
    "C49_hypotheses",
    "C49_break_refuted",
    "C49_complete_if_refuted",
    "C49_complete_if_loop_refuted",
    "C49_transition_refuted",
    "C49_loop_condition_refuted",
    "C49_same_transition_refuted",
    "C49_array_element_refuted",
    "C49_array_complete_if_refuted",
    "C49_refuted_not_regular"
   ],
   "note": "Proved for regular programs (an executable check: in a branch or body a read precedes all writes of the container there or follows one that is always executed; a complete if-else that hides earlier writes overwrites them in every branch; no write after a break that follows a write; loop condition not written by the body) and a post-dominance oracle that is right about loops; C49_users_graph_partial instead takes post-dominance as walks of the users graph define it, when every loop condition mentions a container (C49_constant_condition_refuted shows why). Missing: non-regular programs, where the analysis is wrong: nine refutations, for every choice of the oracles."
  },
  {
   "property": "C50",
   "status": "partial",
   "theorems": [
    "C50_dead_data_partial",
    "C50_deleted_containers_unused",
    "C50_hypotheses",
    "C50_deleted_hypotheses",
    "C50_complete_if_refuted",
    "C50_array_element_refuted",
    "C50_array_complete_if_refuted",
    "C50_break_refuted",
    "C50_transition_refuted",
    "C50_users_graph_partial",
    "C50_constant_condition_refuted"
   ],
   "note": "Preservation proved when every candidate container is regular (see C49) and scalars are accessed without subsets; C50_users_graph_partial derives the post-dominance assumption from the users graph; deletion of containers proved for all programs. Missing: non-regular programs, for which the pass deletes live writes: six refutations, for every choice of the oracles."
  },
  {
   "property": "C51",
   "status": "partial",
   "theorems": [
    "C51_structuring_partial",
    "C51_terminating_runs",
    "C51_acyclic",
    "C51_hypotheses",
    "C51_shared_return_refuted",
    "C51_outer_continue_refuted",
    "C51_outer_break_refuted"
   ],
   "note": "Both directions proved for every graph whose loops are properly nested with a single exit and jump one level at a time (decidable on the graph: properb), for any post-dominator tree; C51_acyclic needs no such assumption. Conditions of a state are exclusive and exhaustive. Missing: other graphs, on which the conversion silently miscompiles: three refutations (edge to a shared return state becomes break, continue or break of an outer loop)."
  },
  {
   "property": "C52",
   "status": "proved",
   "theorems": [
    "C52_unify_loop_exits",
    "C52_single_exit",
    "C52_exclusive",
    "C52_then_structure",
    "C52_hypotheses"
   ],
   "note": "Any graph, any exit order; up to the value of the new jump symbol. Model: the pass treats the first back edge with several exits, as the code does."
  },
  {
   "property": "C53",
   "status": "partial",
   "theorems": [
    "C53_add_state_before_partial",
    "C53_add_state_after_partial",
    "C53_add_loop_partial",
    "C53_hypotheses",
    "C53_add_state_before_refuted",
    "C53_add_state_after_refuted"
   ],
   "note": "Partial: the code drops the assignments of redirected edges (sdfg_builder.cpp:70, 93), so the equivalence is proved for redirected edges without assignments and refuted otherwise; add_loop bodies are one state."
  },
  {
   "property": "C54",
   "status": "partial",
   "theorems": [
    "C54_map_fusion_partial",
    "C54_same_range",
    "C54_hypotheses",
    "C54_range_refuted",
    "C54_stride_refuted",
    "C54_overwrite_refuted",
    "C54_shared_node_refuted",
    "C54_index_access_refuted",
    "C54_other_output_refuted",
    "C54_parameter_refuted",
    "C54_capture_refuted"
   ],
   "note": "Proved with the safety conditions the code does not check as hypotheses (independent, own_seq, distinct, steps, covered); C54_same_range discharges coverage for loops over the same range. Eight refutations show accepted pairs that change results: larger consumer range, strided producer, overwritten producer input, access node with two memlets, index read through an access node, second output of the first map, reassigned parameter, captured index name."
  },
  {
   "property": "C55",
   "status": "partial",
   "theorems": [
    "C55_symbol_promotion_partial",
    "C55_safe_constant",
    "C55_whole_program_partial",
    "C55_ashr_refuted",
    "C55_zext_refuted",
    "C55_trunc_refuted",
    "C55_narrowing_refuted",
    "C55_bool_refuted",
    "C55_subset_refuted",
    "C55_xor_refuted"
   ],
   "note": "Proved for all accepted tasklets, types and values under the explicit faithfulness condition (no array element, non-negative operand of an arithmetic shift, casts only of values the printed cast preserves), and for whole programs whose tasklets compute without converting values; boolean results are covered at the level of one tasklet only. The unconditional claim is refuted: shift of a negative value, zero extension of a negative value in a signed container, truncation into a 64-bit container, narrowing to 64 bits or bool through trunc_i32, casts of array elements (index dropped), xor of two constants."
  },
  {
   "property": "C56",
   "status": "partial",
   "theorems": [
    "C56_symbol_propagation_partial",
    "C56_program_order_partial",
    "C56_inverse",
    "C56_modified_symbol_partial",
    "C56_hypotheses",
    "C56_program_order_hypotheses",
    "C56_loop_refuted",
    "C56_transition_refuted",
    "C56_inverse_refuted",
    "C56_modified_hypotheses"
   ],
   "note": "Forward propagation (lines 161-430), for the read replaced at any position of the program: the last write before the read is the given assignment (from C49 and dominance on the users graph, proved sound for executions), so the substituted value is the same. Partial: the pass does not check that symbols of the right-hand side stay unchanged in every case (three refutations: a write dominated by the read inside a loop, an assignment of the same transition, inverse of sums of more than two terms); the theorems need no interference, either over executions (symbol_propagation) or from the program text (program_order). Reverse propagation (two definitions) and the simplification of the substituted expression (C03) are not modelled."
  },
  {
   "property": "C57",
   "status": "partial",
   "theorems": [
    "C57_integer_tasklet_partial",
    "C57_defined",
    "C57_hypotheses",
    "C57_uint8_refuted",
    "C57_signed_code_on_unsigned_refuted",
    "C57_mixed_types_refuted",
    "C57_overflow_refuted",
    "C57_float_comparison_partial",
    "C57_float_hypotheses",
    "C57_fp_ord_refuted",
    "C57_fp_one_refuted",
    "C57_power",
    "C57_power_refuted"
   ],
   "note": "Proved for all integer codes when the operands share a type, signed codes are applied to signed containers and char is unsigned or the width is not 8 (C57_integer_tasklet_partial; C57_defined for absence of undefined behaviour). Refuted in the model where these fail: UInt8 printed as plain char, signed codes on unsigned containers, operands of mixed types, signed overflow, fp_ord (prints isnan && isnan) and fp_one (prints !=), 64-bit powers. Floating-point arithmetic and fma rounding are not modelled."
  },
  {
   "property": "C58",
   "status": "partial",
   "theorems": [
    "C58_expression_text_partial",
    "C58_condition_text_partial",
    "C58_grammar_unambiguous",
    "C58_hypotheses",
    "C58_unsigned_symbol_refuted",
    "C58_zext_refuted",
    "C58_narrow_refuted",
    "C58_negated_order_refuted",
    "C58_power_refuted"
   ],
   "note": "Proved for every printable expression and condition (sums and products in SymEngine canonical form), with signed symbols of 8 to 64 bits and bases of non-square powers in int range. The printing of sums, products and order relations is SymEngine code outside /repo, modelled from its documentation. Partial because unsigned symbols, pointers, sizeof and malloc_usable_size are outside the theorem. Refuted: unsigned symbols wrap, zext_i64 sign-extends a negative int, arithmetic in narrow types overflows, powers truncate their base."
  },
  {
   "property": "C59",
   "status": "partial",
   "theorems": [
    "C59_program_to_code_partial",
    "C59_code_to_program_partial",
    "C59_code_deterministic",
    "C59_hypotheses",
    "C59_narrow_counter_refuted",
    "C59_short_circuit_refuted"
   ],
   "note": "Small-step C statement machine over the token-level expression text of C58; forward and backward simulation, determinism. Partial: symbols are signed integers, powers are squares, compound conditions contain no division; blocks are executed as in the model of C47/C57 and assumed to keep symbols in range; returns do not model deallocation; maps are the sequential schedule. Refuted outside: assignment to a narrower symbol, short-circuit conditions."
  },
  {
   "property": "C60",
   "status": "partial",
   "theorems": [
    "C60_constant_propagation_partial",
    "C60_program_order_partial",
    "C60_compared_partial",
    "C60_hypotheses",
    "C60_rhs_refuted",
    "C60_subset_refuted"
   ],
   "note": "Proved for two equal definitions under the pass criteria, provided that no container the definition reads is written between the two (in every execution; or, by program order). Refuted as implemented: the pass compares only the containers read, not the right-hand side or tasklet code (i = n; i = n + 1 loses the second assignment), and a definition that changes a symbol of its own input subset (i = A[i] twice) is deleted, since the uses between do not include the definitions."
  },
  {
   "property": "C61",
   "status": "partial",
   "theorems": [
    "C61_input_fusion_partial",
    "C61_single_reader",
    "C61_output_fusion",
    "C61_temporary_gone",
    "C61_program",
    "C61_hypotheses",
    "C61_program_hypotheses",
    "C61_two_readers_refuted",
    "C61_full_refuted"
   ],
   "note": "Input fusion is proved when the temporary has one reader, or when no operation between the copy and the last reader changes what the copy read; with two readers the pass does not check this (t = x; x = t + 1; z = x; y = t + z becomes y = x + z with the new x): refuted. Output fusion is proved in full for race-free blocks. The type checks, debug info and the check that t has no other user are hypotheses (only_at); for containers visible outside the value of t changes."
  },
  {
   "property": "C62",
   "status": "partial",
   "theorems": [
    "C62_region_names",
    "C62_never_fails",
    "C62_ids",
    "C62_ids_stay",
    "C62_open_regions_counted",
    "C62_event_sets",
    "C62_shutdown",
    "C62_example",
    "C62_reentry_refuted"
   ],
   "note": "Calls are atomic (each holds the mutex); PAPI itself is modelled by its documented state machine (create needs PAPI_NULL, destroy needs a stopped set), adding the named events is assumed to succeed. C62_reentry_refuted: an activation inside another one of the same region ends the program."
  },
  {
   "property": "C63",
   "status": "proved",
   "theorems": [
    "C63_events",
    "C63_aggregated",
    "C63_metrics",
    "C63_example"
   ],
   "note": "Doubles are rationals (no rounding). Regions that follow the protocol (C62)."
  },
  {
   "property": "C64",
   "status": "partial",
   "theorems": [
    "C64_trace_partial",
    "C64_aggregated_partial",
    "C64_not_entered_refuted",
    "C64_no_name_refuted",
    "C64_exit_inside_refuted",
    "C64_example",
    "C64_event_list"
   ],
   "note": "Token level: white space is left out, strings are taken as written (the writer does not escape quotes or backslashes), numbers are rationals. Partial: needs every region entered and SDFG name and file present (trace mode), every region with counters left once (aggregate mode); each is refuted without."
  },
  {
   "property": "C65",
   "status": "partial",
   "theorems": [
    "C65_any_interleaving",
    "C65_for2map_partial",
    "C65_syntactic_partial",
    "C65_shared_temporary_refuted",
    "C65_constant_store_refuted",
    "C65_full_refuted"
   ],
   "note": "C65_any_interleaving is unconditional for independent iterations (termination, no failure, no race, sequential result). For loops accepted by For2Map the extra hypotheses are those of C21 plus: constants stored only to local containers, locals initialised before use, header symbols not written (C65_constant_store_refuted, C65_shared_temporary_refuted and C65_full_refuted show why). Interleaving semantics; weak memory is covered by the proved absence of data races."
  },
  {
   "property": "C66",
   "status": "partial",
   "theorems": [
    "C66_coverage",
    "C66_index_space",
    "C66_int_overflow_refuted",
    "C66_any_interleaving",
    "C66_sibling_maps_refuted",
    "C66_imperfect_nest_refuted",
    "C66_no_test_refuted"
   ],
   "note": "C66_coverage and C66_any_interleaving hold for every perfect nest with one CUDA map per dimension, tests kept and at most 2^31 threads per dimension. Outside of that the property fails: the launch configuration takes the first map found of a dimension (C66_sibling_maps_refuted), statements between the maps of a nest accepted by CUDAParallelizeNestedMap run once per thread of the inner dimension (C66_imperfect_nest_refuted), nested_sync removes the test (C66_no_test_refuted; GPUConditionPropagation is meant to move it inwards and is not modelled), int coordinates wrap (C66_int_overflow_refuted). Hardware limits, host-device transfers and barriers are not modelled."
  },
  {
   "property": "C67",
   "status": "proved",
   "theorems": [
    "C67_offload",
    "C67_program"
   ],
   "note": "A kernel is executed as its sequential loops (C66 relates these to every interleaving of its threads). The sizes of the copies are given; that they cover all touched indices is a hypothesis (in the code: MemAccessRanges)."
  },
  {
   "property": "C68",
   "status": "partial",
   "theorems": [
    "C68_minimized_partial",
    "C68_lost_output_refuted",
    "C68_use_after_free_refuted",
    "C68_size_changed_refuted",
    "C68_kept_buffer_refuted"
   ],
   "note": "For a copy-out that releases its buffer, under two conditions the pass does not check (device pointer not reassigned, size symbols not written in between), and excluding the container of a removed copy-out unless it is read later: proved. Without them the claim is false of the code (C68_lost_output_refuted, C68_use_after_free_refuted, C68_size_changed_refuted, C68_kept_buffer_refuted). Copies between different host containers (check_container_dependency) and buffers kept on the device are not covered."
  },
  {
   "property": "C69",
   "status": "partial",
   "theorems": [
    "C69_range_partial",
    "C69_copy_size_partial",
    "C69_offload_partial",
    "C69_negative_index_refuted",
    "C69_empty_map_refuted"
   ],
   "note": "Proved: every access of an execution lies within the reported bounds (C39 tameness of the loops, no trunc_i32 in the subscripts); a copy of the derived size covers every touched element when the lowest index is not negative; composed with C67. Refuted: the lower bound is never looked at (A[i-1]); the size is not checked for sign (N = -5 gives a negative allocation although the map is empty). Missing: containers reached through views or moved pointers, multi-dimensional copy sizes."
  },
  {
   "property": "C70",
   "status": "partial",
   "theorems": [
    "C70_scalar_partial",
    "C70_array_partial",
    "C70_array_size_partial",
    "C70_one_node_refuted",
    "C70_transition_refuted",
    "C70_index_moved_refuted",
    "C70_return_refuted",
    "C70_shared_element_refuted",
    "C70_array_offset_refuted",
    "C70_count_down_refuted",
    "C70_no_iteration_refuted"
   ],
   "note": "Proved for the scalar and the array form under conditions the code does not check: no return in the loop, a transition after the loop that does not touch the container or its index, an index that can be computed; for the array also a steady header, no break, and different elements for different iterations. Array size proved for loops counting up from 0. Refuted without them: one access node with two indices, transition reading the container or moving the index (the copy back comes after it), return, shared elements (A[i/2]), loops not starting at 0 (index outside the local array), loops counting down (negative size), undefined index of an empty loop."
  },
  {
   "property": "C71",
   "status": "partial",
   "theorems": [
    "C71_allocation_partial",
    "C71_allocation_otherwise",
    "C71_release_partial",
    "C71_allocation_and_release_partial",
    "C71_deterministic",
    "C71_written_argument_refuted",
    "C71_undefined_release_refuted",
    "C71_caller_buffer_refuted",
    "C71_leak_refuted",
    "C71_storage_kind_refuted",
    "C71_hypotheses"
   ],
   "note": "Proved for every call: allocation alone (the arguments in the size are not written before it; with an early return only stack memory), release alone (no early return before it, container allocated and released with one storage kind), and both together (early returns allowed if the size is valid at entry). The pass checks none of these side conditions; five accepted programs refute the unrestricted claim: argument written before the malloc (buffer too small), release of an undefined pointer at an early return, release of the caller s buffer at an early return, leak at an early return, alloca turned into malloc. Break/continue, calls and pointer comparisons are not modelled; dominance is taken on root children."
  },
  {
   "property": "C72",
   "status": "partial",
   "theorems": [
    "C72_propagation_partial",
    "C72_repeated_partial",
    "C72_self_assignment_refuted",
    "C72_self_assignment_repeats_refuted",
    "C72_index_moved_refuted",
    "C72_viewed_allocated_refuted",
    "C72_reference_allocated_refuted",
    "C72_allocation_renamed_refuted",
    "C72_hypotheses"
   ],
   "note": "Proved for every call (equivalence of executions, any number of applications) when y and x differ and neither pointer nor a scalar of the offset is assigned between the assignment and the user. The pass only looks for pointer assignments of x strictly in between; refuted without the missing criteria: p = p + 1 replaced again and again, index written in between, x allocated in between, y allocated in between, and a malloc into y renamed to x. Type comparisons and multi-dimensional subsets are left out."
  },
  {
   "property": "C73",
   "status": "proved",
   "theorems": [
    "C73_dead_reference",
    "C73_removed",
    "C73_hypotheses"
   ],
   "note": "Proved for every call of a function on which the pass applies; one access per statement."
  },
  {
   "property": "C74",
   "status": "partial",
   "theorems": [
    "C74_redundant_copy_partial",
    "C74_buffer_lost",
    "C74_leak_refuted",
    "C74_size_changed_refuted",
    "C74_hypotheses"
   ],
   "note": "Proved: same host memory and at least the same device data, if the symbols of the size are not written between the two copies and the copies do not allocate. Refuted without: size written in between (elements missing). The no-leak half is false for copies that release their buffer: proved that the buffer of the removed copy survives to the end with its contents, and a program shows it (equal_with does not compare device containers)."
  },
  {
   "property": "C75",
   "status": "proved",
   "theorems": [
    "C75_same_address",
    "C75_offset_unique",
    "C75_injective",
    "C75_hypotheses"
   ],
   "note": "Proved for every nested array type and every environment in which the access has an address; byte sizes and the base pointer type are not modelled."
  },
  {
   "property": "C76",
   "status": "proved",
   "theorems": [
    "C76_dimension_removed",
    "C76_initial_memory",
    "C76_only_result",
    "C76_hypotheses"
   ],
   "note": "Proved for every execution within the constant extents of the container; containers with moves and views are excluded by the pass and not in the language."
  },
  {
   "property": "C77",
   "status": "partial",
   "theorems": [
    "C77_fits",
    "C77_any_order",
    "C77_condition",
    "C77_program",
    "C77_loop_bounds_partial",
    "C77_hypotheses",
    "C77_guarded_refuted"
   ],
   "note": "Proved wherever the assumptions hold and truncations are not nested; for whole programs with the bounds derived from loops (C39), not those taken from the types of written symbols. Refuted: a bound taken from an access made only under a condition lets the pass drop a truncation that matters, the program then writes another element."
  },
  {
   "property": "C78",
   "status": "partial",
   "theorems": [
    "C78_in_range",
    "C78_out_of_range_partial",
    "C78_same_barriers_partial",
    "C78_derived_index_refuted",
    "C78_transition_refuted",
    "C78_branch_refuted"
   ],
   "note": "In range: proved whenever the body does not write the names of the condition. Out of range: proved when what others see is written in parts that mention the index and hold no barrier. Barriers: proved when the control around them depends on names both threads agree on, and no assignment moved under the test is one of those. Refuted in general: an index computed from the map index in a transition escapes the test, and assignments of a guarded statement that decide a barrier go with it; a barrier-free branch beside one with a barrier is not handled (static_cast of an IfElse to Sequence)."
  },
  {
   "property": "C79",
   "status": "partial",
   "theorems": [
    "C79_counted",
    "C79_precise_loop_partial",
    "C79_precise_root_partial",
    "C79_break_refuted",
    "C79_empty_refuted",
    "C79_outer_scope_refuted",
    "C79_condition_refuted"
   ],
   "note": "Proved for loops that nothing leaves early, that run to one bound by steps of one and do not start past their end, and whose bounds depend on nothing the counted part writes. Refuted in general although the analysis says precise: a break, a loop that does not start (negative count), a bound of an inner loop that an outer loop changes, a second loop condition. Library nodes and imprecise estimates are not modelled."
  },
  {
   "property": "C80",
   "status": "partial",
   "theorems": [
    "C80_sort_partial",
    "C80_without_memset_partial",
    "C80_same_accesses",
    "C80_deterministic",
    "C80_aliased_memset_refuted",
    "C80_hypotheses",
    "C80_stops_at_jump"
   ],
   "note": "Partial. C80_sort_partial: every terminating execution of a program is one of the sorted program with the same exit and memory, given an alias analysis under which no memset block is moved over a block that reaches the same buffer under another name; C80_without_memset_partial: without memset blocks nothing about aliases is needed (references, allocations and releases may always move). C80_same_accesses: sorting permutes the accesses; C80_stops_at_jump: a jump and what follows it stay in place; C80_deterministic: executions are unique. C80_aliased_memset_refuted: without the alias condition the pass is wrong (p = &x[0]; p[0] = 7; memset(x): the memset is moved before the store, they share no container name). Not modelled: data offloading nodes, calloc, pointers stored in memory, library nodes with effects outside memory."
  },
  {
   "property": "C81",
   "status": "partial",
   "theorems": [
    "C81_if_front",
    "C81_if_back_partial",
    "C81_map_front_view_partial",
    "C81_if_anywhere_partial",
    "C81_empty_map_refuted",
    "C81_map_memset_refuted",
    "C81_if_back_transition_refuted",
    "C81_self_reference_refuted",
    "C81_hypotheses"
   ],
   "note": "Partial. C81_if_front: moving the common first block of both branches keeps exactly the executions; C81_if_back_partial: the same for the common last block, if the assignments of the transition after the conditional do not write what the block uses; C81_if_anywhere_partial: both anywhere in a program, any number of times; C81_map_front_view_partial: moving a reference out of a map, if the map runs at least once and nothing else in it moves the reference, its target or writes the offset. The code tests none of these conditions (no_loop_carried_dependencies is always true). Refuted in general: C81_empty_map_refuted (zero trips), C81_map_memset_refuted (memset of a buffer the body writes), C81_if_back_transition_refuted (n = 0 in the transition changes the size of the moved memset), C81_self_reference_refuted (p = &p[1]). Not modelled: Dereference memlets, memcpy, memmove, data offloading nodes, more than two branches."
  },
  {
   "property": "C82",
   "status": "partial",
   "theorems": [
    "C82_range_partial",
    "C82_covers_partial",
    "C82_again_partial",
    "C82_grouping_partial",
    "C82_located",
    "C82_no_mixing",
    "C82_only_locations",
    "C82_columns_refuted",
    "C82_functions_refuted"
   ],
   "note": "merge and the pass are modelled in full on the programs of Serial.v. Proved for all programs: a node gets a location exactly when something inside had one, nodes keep their file and lines, nothing else changes. The range, covering and idempotence theorems are for programs whose locations are in one file and one function (or name none). Refuted: columns are not covered when lines tie; with two functions (after inlining) and a location that names none, merging is order-dependent and leaves lines out."
  },
  {
   "property": "C83",
   "status": "partial",
   "theorems": [
    "C83_preserves",
    "C83_nothing_left_partial",
    "C83_report_partial",
    "C83_deterministic",
    "C83_ends",
    "C83_never_ends",
    "C83_debug_info_refuted",
    "C83_unreported_refuted"
   ],
   "note": "Both loops of Pipeline::run over arbitrary passes. Proved: preservation, determinism, termination under a measure. That nothing is left to do and the meaning of the report need passes that report every change (honest): refuted without. Refuted as termination: DebugInfoPropagation always reports a change, so no pipeline containing it ends. Which of the real passes are honest or have a measure is not proved here."
  },
  {
   "property": "C84",
   "status": "partial",
   "theorems": [
    "C84_insert",
    "C84_copy",
    "C84_copy_if",
    "C84_ids_insert",
    "C84_ids_copy",
    "C84_locations_refuted"
   ],
   "note": "append, insert, copy and the builder functions they call, on the programs of Serial.v; proved for all programs, provided the source is not the sequence copied into (the code would not end) and the identifiers in use are different and below the next one. The returned node mapping is not modelled; nodes of a block are copied in list order (the code: any order). Refuted: the locations of transitions, of loop bodies and of a copied conditional are not kept."
  }
 ]
}