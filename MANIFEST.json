{
 "claims": [
  {
   "property": "C01",
   "status": "proved",
   "theorems": [
    "C01_set_bit",
    "C01_set_bits_in_range",
    "C01_get_ones_count_in_range",
    "C01_find_next_set_bit"
   ],
   "note": ""
  },
  {
   "property": "C02",
   "status": "proved",
   "theorems": [
    "C02_get_word_with_offset",
    "C02_get_bit",
    "C02_intersect"
   ],
   "note": ""
  },
  {
   "property": "C03",
   "status": "proved",
   "theorems": [
    "C03_are_all_bits_set",
    "C03_are_all_bits_unset",
    "C03_count_bits",
    "C03_iterate_by_groups",
    "C03_iterate",
    "C03_builder"
   ],
   "note": ""
  },
  {
   "property": "C04",
   "status": "partial",
   "theorems": [
    "C04_build",
    "C04_build_size_partial",
    "C04_build_size_refuted"
   ],
   "note": "Build() is proved for all histories. Build(size) is proved when at least one id was missed and refuted (C04_build_size_refuted) when none was: the returned buffer claims words over a null pointer."
  },
  {
   "property": "C05",
   "status": "proved",
   "theorems": [
    "C05_denotes",
    "C05_slice",
    "C05_force_no_offset",
    "C05_present_count",
    "C05_flags",
    "C05_to_mask",
    "C05_for_each",
    "C05_for_each_present",
    "C05_equivalent",
    "C05_create",
    "C05_create_const_empty"
   ],
   "note": ""
  },
  {
   "property": "C06",
   "status": "proved",
   "theorems": [
    "C06_builder"
   ],
   "note": ""
  },
  {
   "property": "C07",
   "status": "proved",
   "theorems": [
    "C07_dense_op",
    "C07_size_mismatch",
    "C07_iterate",
    "C07_iterate_from_zero"
   ],
   "note": ""
  },
  {
   "property": "C08",
   "status": "proved",
   "theorems": [
    "C08_from_split_points",
    "C08_from_mapping",
    "C08_from_uniform_groups",
    "C08_uniform_overflow_refuted",
    "C08_to_mapping",
    "C08_to_split_points",
    "C08_is_equivalent",
    "C08_split_size"
   ],
   "note": "FromUniformGroups(INT64_MAX, 0) overflows parent_size + 1 (C08_uniform_overflow_refuted); all other arguments are proved."
  },
  {
   "property": "C09",
   "status": "proved",
   "theorems": [
    "C09_compose",
    "C09_incompatible",
    "C09_empty"
   ],
   "note": ""
  },
  {
   "property": "C10",
   "status": "proved",
   "theorems": [
    "C10_mapping",
    "C10_split_points",
    "C10_representation",
    "C10_scalar",
    "C10_size_mismatch",
    "C10_scalar_mismatch",
    "C10_inverse_mapping_contract",
    "C10_representation_refuted"
   ],
   "note": "Mapping and scalar edges: any accumulator. Split points: accumulators following the documented contract; without an OK initial status the two representations can differ (C10_representation_refuted)."
  },
  {
   "property": "C11",
   "status": "proved",
   "theorems": [
    "C11_constructor",
    "C11_ids_ascending",
    "C11_id_to_offset",
    "C11_index_of",
    "C11_offset_round_trip",
    "C11_for_each_common",
    "C11_merge",
    "C11_intersect"
   ],
   "note": ""
  },
  {
   "property": "C12",
   "status": "proved",
   "theorems": [
    "C12_with_ids",
    "C12_to_dense",
    "C12_to_sparse",
    "C12_to_sparse_exact",
    "C12_to_sparse_spurious",
    "C12_to_sparse_refuted",
    "C12_to_sparse_negative_zero_refuted"
   ],
   "note": "ToSparseForm(v) is proved exactly, including two exceptions that are refuted: a sparse array with default v whose bitmap marks no missing element yields a broken bitmap (C12_to_sparse_refuted), and a non-injective == such as -0.0 == 0.0 changes values (C12_to_sparse_negative_zero_refuted)."
  },
  {
   "property": "C13",
   "status": "proved",
   "theorems": [
    "C13_slice",
    "C13_present_count",
    "C13_for_each",
    "C13_for_each_fn",
    "C13_for_each_present",
    "C13_for_each_present_fn"
   ],
   "note": ""
  },
  {
   "property": "C14",
   "status": "proved",
   "theorems": [
    "C14_equivalent",
    "C14_empty",
    "C14_empty_refuted"
   ],
   "note": "Proved for non-empty arrays. Two empty arrays may be reported as different when their missing_id_value differ (C14_empty_refuted); C14_empty says exactly when."
  },
  {
   "property": "C15",
   "status": "proved",
   "theorems": [
    "C15_array_op",
    "C15_array_op_exact",
    "C15_size_mismatch",
    "C15_default_error_refuted"
   ],
   "note": "Proved exactly. An operator also fails if its function fails on the arguments' defaults although no row holds them (C15_default_error_refuted); C15_array_op_exact gives the guards under which only rows matter."
  },
  {
   "property": "C16",
   "status": "proved",
   "theorems": [
    "C16_mapping",
    "C16_split_points",
    "C16_scalar",
    "C16_size_mismatch",
    "C16_scalar_mismatch",
    "C16_representation",
    "C16_dense",
    "C16_sum_lawful"
   ],
   "note": "All code paths of Apply for both kinds of edges and for the scalar edge, including the dense shortcut and the two paths for very sparse data (hash map iterated in any order). Split points need the accumulator contract and lawful AddN; a mapping needs nothing. Errors: an error is returned iff some group ends with one (which of several errors is not specified)."
  },
  {
   "property": "C17",
   "status": "proved",
   "theorems": [
    "C17_scalar",
    "C17_dense",
    "C17_array",
    "C17_array_shift_refuted",
    "C17_array_representation_refuted",
    "C17_edge",
    "C17_shape",
    "C17_array_edge"
   ],
   "note": "Byte-level streams. False without the equal-shift guard for Array (C17_array_shift_refuted)."
  },
  {
   "property": "C18",
   "status": "proved",
   "theorems": [
    "C18_builder",
    "C18_slice",
    "C18_deep_copy",
    "C18_uninitialized",
    "C18_equal",
    "C18_reshuffle",
    "C18_reshuffle_no_default",
    "C18_reshuffle_default_refuted",
    "C18_reshuffle_copy_refuted",
    "C18_stream",
    "C18_stream_refuted"
   ],
   "note": "Fails for ReshuffleBuilder on a buffer with a base offset (C18_reshuffle_default_refuted, C18_reshuffle_copy_refuted) and for the hashed stream of buffers with different base offsets (C18_stream_refuted); proved otherwise. Sizes up to 2^60."
  },
  {
   "property": "C19",
   "status": "proved",
   "theorems": [
    "C19_layout",
    "C19_lifetime",
    "C19_array",
    "C19_registered",
    "C19_register"
   ],
   "note": "Nested programs of slots, subframes and registrations; the hash map iteration order of each subframe is an arbitrary permutation. Sizes are natural numbers (no 2^64 wrap)."
  },
  {
   "property": "C20",
   "status": "proved",
   "theorems": [
    "C20_disjoint",
    "C20_contents",
    "C20_reset",
    "C20_one_region",
    "C20_one_region_refuted",
    "C20_huge_request_refuted"
   ],
   "note": "The base factory is the environment (fresh, 8-aligned memory); sizes and addresses up to 2^62, the need for a bound is C20_huge_request_refuted. Heap and protobuf factories not modelled."
  },
  {
   "property": "C21",
   "status": "proved",
   "theorems": [
    "C21_lower_bound_int",
    "C21_upper_bound_int",
    "C21_lower_bound_float",
    "C21_upper_bound_float",
    "C21_lower_bound_float_nan",
    "C21_upper_bound_float_nan_refuted",
    "C21_galloping",
    "C21_bound_unique",
    "C21_exp_lower_bound",
    "C21_exp_lower_bound_advance_refuted"
   ],
   "note": "UpperBound on float arrays holding NaN elements differs from std::upper_bound (C21_upper_bound_float_nan_refuted) and exp_lower_bound moves an iterator past the end without dereferencing it (C21_exp_lower_bound_advance_refuted); the claims without these are proved."
  },
  {
   "property": "C22",
   "status": "proved",
   "theorems": [
    "C22_history",
    "C22_lookup_fresh",
    "C22_put_found",
    "C22_weight_overflow_refuted"
   ],
   "note": "Proved for capacities and weights below 2^63. With larger weights the size_t sum wraps and entries above the capacity are kept (C22_weight_overflow_refuted)."
  },
  {
   "property": "C23",
   "status": "proved",
   "theorems": [
    "C23_safe_add_mul",
    "C23_safe_abs",
    "C23_formula",
    "C23_sticky",
    "C23_abs_min"
   ],
   "note": "All formulas over safe_add, safe_mul and safe_abs, all mixes of integer types."
  },
  {
   "property": "C24",
   "status": "proved",
   "theorems": [
    "C24_safe",
    "C24_first_error",
    "C24_status",
    "C24_poll",
    "C24_poll_settled",
    "C24_call_once",
    "C24_call_after",
    "C24_call_all",
    "C24_drop",
    "C24_call_unlocked",
    "C24_progress",
    "C24_no_leak",
    "C24_scope"
   ],
   "note": "All interleavings of any number of threads; atomics outside of the mutex are single steps, the relaxed load of the flag may be stale, the mutex is sequentially consistent. Node addresses are not reused."
  },
  {
   "property": "C25",
   "status": "proved",
   "theorems": [
    "C25_safe",
    "C25_alive",
    "C25_once",
    "C25_count",
    "C25_no_leak",
    "C25_all_freed",
    "C25_progress",
    "C25_terminates"
   ],
   "note": "All interleavings; atomic counter operations are single steps, the counter is unbounded (fewer than 2^31 handles). The handles inside of an object are fixed at its creation, hence no cycles."
  },
  {
   "property": "C26",
   "status": "proved",
   "theorems": [
    "C26_one_typo",
    "C26_symmetric"
   ],
   "note": "IsWithinOneTypo is compared with an inductive definition of one edit (insert, delete, replace, swap of neighbours) on code point lists."
  },
  {
   "property": "C27",
   "status": "proved",
   "theorems": [
    "C27_identifier",
    "C27_qualified",
    "C27_starts_with",
    "C27_join",
    "C27_truncate",
    "C27_container_access"
   ],
   "note": "Truncate is stated for limits of at least 3, as documented; the escaping function of ContainerAccessString is a parameter."
  },
  {
   "property": "C28",
   "status": "proved",
   "theorems": [
    "C28_blocks",
    "C28_small",
    "C28_collision",
    "C28_chunking_refuted",
    "C28_array"
   ],
   "note": "CityHash128WithSeed is a parameter. Chunk independence beyond 256 bytes is false, as documented (C28_chunking_refuted)."
  },
  {
   "property": "C29",
   "status": "proved",
   "theorems": [
    "C29_create",
    "C29_tree",
    "C29_unique"
   ],
   "note": "For every list of dependencies: Create accepts exactly valid graphs and its errors are about an actual defect; the tree of every accepted graph agrees with path based dominance."
  },
  {
   "property": "C30",
   "status": "proved",
   "theorems": [
    "C30_externalize"
   ],
   "note": ""
  },
  {
   "property": "C31",
   "status": "proved",
   "theorems": [
    "C31_frontier"
   ],
   "note": "Both readings of the statement: empty dominance frontier, and dominance over everything reachable."
  },
  {
   "property": "C32",
   "status": "proved",
   "theorems": [
    "C32_binds",
    "C32_run",
    "C32_init",
    "C32_types",
    "C32_expression",
    "C32_shared_inputs_refuted"
   ],
   "note": "SlotAllocator, the binding loop and running the program; from post-order nodes and, with the model of PostOrder, from expressions. Operators are arbitrary functions; where/while sub-programs and operator errors are not modelled. C32_shared_inputs_refuted: leaves sharing a slot that may be overwritten give a wrong result."
  },
  {
   "property": "C33",
   "status": "proved",
   "theorems": [
    "C33_post_order",
    "C33_visitor_order",
    "C33_pre_post",
    "C33_leaf_keys",
    "C33_placeholder_keys",
    "C33_keys_post_order"
   ],
   "note": "Expressions as trees with structural equality for fingerprints; adjacency array, node_index and both key overloads included."
  },
  {
   "property": "C34",
   "status": "proved",
   "theorems": [
    "C34_traverse",
    "C34_transform",
    "C34_deep_run",
    "C34_deep_errors",
    "C34_deep_complete",
    "C34_deep_limit",
    "C34_deep_unique",
    "C34_deep_fixed",
    "C34_deep_identity",
    "C34_deep_preserves"
   ],
   "note": "PostOrderTraverse and TransformOnPostOrder equal their recursive descriptions including errors. DeepTransform: always ends, sound and complete against the inductive rewriting relation; the log function is not modelled."
  },
  {
   "property": "C35",
   "status": "proved",
   "theorems": [
    "C35_from_edges",
    "C35_add_dims",
    "C35_flat_from_size",
    "C35_size",
    "C35_remove_dims",
    "C35_flatten",
    "C35_equivalent",
    "C35_fast_check",
    "C35_broadcastable",
    "C35_broadcast_edge",
    "C35_op_remove_dims",
    "C35_op_flatten",
    "C35_op_edge_at",
    "C35_op_edge_at_refuted"
   ],
   "note": "FromEdges/AddDims iff, FlattenDims, RemoveDims, equivalence, broadcasting and the operators on top, over sizes per dimension. FlattenDims and GetBroadcastEdge assume sizes < 2^63-1. C35_op_edge_at_refuted: the error path of edge_at overflows for dim = -2^63."
  },
  {
   "property": "C36",
   "status": "proved",
   "theorems": [
    "C36_nested",
    "C36_nested_unique",
    "C36_concat_dense",
    "C36_concat_array",
    "C36_stack_dense",
    "C36_stack_array",
    "C36_rejects",
    "C36_count_mismatch",
    "C36_size_mismatch_dense",
    "C36_size_mismatch_array",
    "C36_one_array_refuted"
   ],
   "note": "Both array kinds, concat and stack, all ranks and dims, against nested lists. C36_one_array_refuted: one array is not checked against its shape's size."
  },
  {
   "property": "C37",
   "status": "proved",
   "theorems": [
    "C37_copy_bits",
    "C37_inplace_and",
    "C37_inplace_and_empty_refuted"
   ],
   "note": "CopyBits is proved in full. InplaceLogicalAndWithOffsets is proved except for zero bits with lhs_skip > rhs_skip, where it reads a source word that need not exist (C37_inplace_and_empty_refuted)."
  },
  {
   "property": "C38",
   "status": "proved",
   "theorems": [
    "C38_concat"
   ],
   "note": ""
  },
  {
   "property": "C39",
   "status": "proved",
   "theorems": [
    "C39_create_array",
    "C39_create_array_ids",
    "C39_sparse_builder"
   ],
   "note": ""
  },
  {
   "property": "C40",
   "status": "proved",
   "theorems": [
    "C40_iterate",
    "C40_iterate_simple",
    "C40_arrays_iterate"
   ],
   "note": ""
  },
  {
   "property": "C41",
   "status": "proved",
   "theorems": [
    "C41_from_sizes",
    "C41_sizes",
    "C41_round_trip",
    "C41_pairs",
    "C41_pairs_meaning",
    "C41_pairs_errors",
    "C41_pair_left_negative_refuted",
    "C41_pair_right_negative_refuted",
    "C41_pair_count_overflow_refuted",
    "C41_expand",
    "C41_expand_scalar",
    "C41_resize_child",
    "C41_resize_child_one",
    "C41_resize_child_scalar",
    "C41_resize_rejects",
    "C41_resize_negative_refuted",
    "C41_resize_one_overflow_refuted",
    "C41_resize_parent_one",
    "C41_resize_parent",
    "C41_resize_parent_errors",
    "C41_resize_parent_overflow_refuted"
   ],
   "note": "Proved for non-negative sizes whose totals fit int64. Negative sizes reach undefined behaviour in edge.pair_left, edge.pair_right and edge.resize_groups_child_side, and three unchecked sums or products may overflow (C41_*_refuted)."
  },
  {
   "property": "C42",
   "status": "proved",
   "theorems": [
    "C42_from_split_points",
    "C42_from_mapping",
    "C42_from_uniform_groups",
    "C42_to_dense",
    "C42_from_dense",
    "C42_to_mapping",
    "C42_to_split_points",
    "C42_compose",
    "C42_incompatible",
    "C42_is_equivalent",
    "C42_is_equivalent_refuted",
    "C42_split_size"
   ],
   "note": "Guard of IsEquivalentTo: at least one child or split points; the excluded case is refuted with a witness."
  },
  {
   "property": "C43",
   "status": "proved",
   "theorems": [
    "C43_count",
    "C43_any",
    "C43_all",
    "C43_logical_all",
    "C43_logical_any",
    "C43_sum",
    "C43_prod",
    "C43_prod_any",
    "C43_sum_any",
    "C43_join",
    "C43_float_sum_form_refuted"
   ],
   "note": "End to end through C10 and C16. Sums of floating point Arrays depend on the form of the Array (AddN multiplies): C43_float_sum_form_refuted, with IEEE double arithmetic of the standard library. 64-bit counters are unbounded."
  },
  {
   "property": "C44",
   "status": "proved",
   "theorems": [
    "C44_orders",
    "C44_min",
    "C44_max",
    "C44_argmin",
    "C44_argmax",
    "C44_collapse",
    "C44_median",
    "C44_inverse_cdf"
   ],
   "note": "End to end through C10 and C16, for any order satisfying ord_ok (proved for integers, IEEE floats and byte strings) and any function with the guarantees of std::nth_element. The floating point computation of the rank in inverse_cdf is arbitrary; an invalid cdf argument is not modelled."
  },
  {
   "property": "C45",
   "status": "proved",
   "theorems": [
    "C45_ordinal_rank",
    "C45_ordinal_rank_permutation",
    "C45_dense_rank",
    "C45_inverse_mapping",
    "C45_take",
    "C45_weighted_cdf",
    "C45_mean",
    "C45_mean_exact",
    "C45_weighted_average"
   ],
   "note": "End to end through C10 and C16. Arithmetic of weights and sums is arbitrary (so holds for floating point). Means are covered on DenseArrays in any arithmetic, and on Arrays when multiplying by a count is exact (C45_mean_exact); otherwise AddN may round differently on Arrays, as in C43_float_sum_form_refuted. Weighted averages on DenseArrays only. Cancellation during ranking is not modelled."
  },
  {
   "property": "C46",
   "status": "proved",
   "theorems": [
    "C46_accepts",
    "C46_slots",
    "C46_safe",
    "C46_naive",
    "C46_filter",
    "C46_terminates",
    "C46_cycle_refuted"
   ],
   "note": "Values of leaves are an arbitrary type with arbitrary addition, multiplication and final rounding, so floats are covered. Split conditions of other kinds are arbitrary functions of the row."
  },
  {
   "property": "C47",
   "status": "proved",
   "theorems": [
    "C47_calls",
    "C47_accepts",
    "C47_predict",
    "C47_boosted",
    "C47_forest",
    "C47_ignored_error_refuted",
    "C47_leaf_root_refuted"
   ],
   "note": "The order in which the boosted predictor adds is left open (a permutation); the exact result follows if additions commute. Tests with cached bound conditions are identified with the condition they are bound from."
  },
  {
   "property": "C48",
   "status": "proved",
   "theorems": [
    "C48_eval",
    "C48_exact",
    "C48_no_trees",
    "C48_oblivious_ends",
    "C48_oblivious_sound",
    "C48_oblivious_complete",
    "C48_nan_bound_refuted",
    "C48_shared_refuted"
   ],
   "note": "Guards: no NaN bounds, no shared subtrees (C48_nan_bound_refuted and C48_shared_refuted show that they are needed). Sums are in an order and grouping left open (sum_of); C48_exact gives the exact result for exact arithmetic. Completeness of the conversion assumes that conditions equal themselves. Indices fit into the 32-bit ids."
  },
  {
   "property": "C49",
   "status": "proved",
   "theorems": [
    "C49_midpoint",
    "C49_eval",
    "C49_internal",
    "C49_overflow_refuted",
    "C49_lowest_refuted",
    "C49_neg_inf_refuted",
    "C49_pos_inf_refuted",
    "C49_nan_refuted",
    "C49_int_overflow_refuted",
    "C49_custom_refuted"
   ],
   "note": "The internal evaluator used for sampling is a parameter with internal_ok; C49_internal shows that naive evaluation meets it. C49_midpoint and C49_eval use the axioms of the real numbers of the standard library, through Flocq. All guards are shown to be needed by the *_refuted witnesses. Sums are in an order left open (sum_of)."
  },
  {
   "property": "C50",
   "status": "proved",
   "theorems": [
    "C50_eval",
    "C50_unfit",
    "C50_outputs",
    "C50_exact"
   ],
   "note": "Input slots are assumed to have been validated (Compile itself checks none of them for the regular and bitmask evaluators) and output slots to be distinct. The internal evaluator of C49 is the modelled SimpleForestEvaluator itself. C50_eval, C50_unfit and C50_exact use the axioms of the real numbers through C49_eval. The merged constants need 1.0 to be a unit of the multiplication after rounding to float (unit_weight)."
  },
  {
   "property": "C51",
   "status": "proved",
   "theorems": [
    "C51_wraps",
    "C51_ring",
    "C51_abs",
    "C51_zero",
    "C51_divmod",
    "C51_identity",
    "C51_order"
   ],
   "note": ""
  },
  {
   "property": "C52",
   "status": "proved",
   "theorems": [
    "C52_integral_part",
    "C52_float_to_int",
    "C52_int_to_int",
    "C52_int_to_float",
    "C52_round_trip",
    "C52_widen"
   ],
   "note": "C52_int_to_float, C52_round_trip and C52_widen use the axioms of the real numbers through Flocq. Which of two equally near floats is chosen (the even one) is not part of the theorem. Casts to bool are not instantiated by the library."
  },
  {
   "property": "C53",
   "status": "proved",
   "theorems": [
    "C53_error",
    "C53_integers",
    "C53_near",
    "C53_sign",
    "C53_floor_refuted",
    "C53_mod_refuted"
   ],
   "note": "All but C53_error and C53_sign use the axioms of the real numbers through Flocq. The guards are needed (C53_floor_refuted, C53_mod_refuted). Assumes that the compiler does not fuse the multiplication and subtraction in ModOp."
  },
  {
   "property": "C54",
   "status": "proved",
   "theorems": [
    "C54_create",
    "C54_for_each",
    "C54_zero_buffer_refuted"
   ],
   "note": "Input slots must be different from each other and in the layout; scalar output slots must hold a value in every row (a scalar slot cannot express a missing one). buffer > 0 is needed (C54_zero_buffer_refuted). The ForEachFrame overload with threads is a separate property."
  },
  {
   "property": "C55",
   "status": "proved",
   "theorems": [
    "C55_safe",
    "C55_progress",
    "C55_terminates",
    "C55_result",
    "C55_frame_iterator"
   ],
   "note": "absl::Barrier is modelled as documented (Block waits for all threads and returns true in the last to return). Preloading, saving and one call of the function are single steps; C55_safe proves that no other thread can access their memory meanwhile. The function is assumed to use nothing but its frame. thread_count >= 1 (a DCHECK in the code)."
  },
  {
   "property": "C56",
   "status": "proved",
   "theorems": [
    "C56_eval",
    "C56_exact",
    "C56_groups",
    "C56_checks",
    "C56_no_limit_refuted",
    "C56_alias_refuted"
   ],
   "note": "C56_eval, C56_exact and C56_groups use the axioms of the real numbers through C50_eval, and functional extensionality. Evaluation with a threading interface is not repeated here: C55 shows that it ends as the one without. row_count is not negative."
  },
  {
   "property": "C57",
   "status": "proved",
   "theorems": [
    "C57_round_trip",
    "C57_records",
    "C57_encodes",
    "C57_once",
    "C57_total",
    "C57_hints",
    "C57_refs",
    "C57_meaning",
    "C57_stop",
    "C57_attributes_refuted",
    "C57_hint_record_refuted"
   ],
   "note": "Codecs themselves are parameters: a value encoder is any program that calls the encoder and returns a message or an error. Values are identified by their fingerprints. Input/output errors and the text of errors are not modelled. The order of nodes is that of C33. C57_refs is about containers without a separate list of codecs."
  },
  {
   "property": "C58",
   "status": "proved",
   "theorems": [
    "C58_compile",
    "C58_pattern",
    "C58_unique",
    "C58_instance",
    "C58_key",
    "C58_node",
    "C58_defined",
    "C58_keeps",
    "C58_nothing_missed",
    "C58_rounds",
    "C58_sound",
    "C58_name_refuted",
    "C58_sharing_refuted",
    "C58_attributes_refuted"
   ],
   "note": "Builds with NDEBUG; the checks of debug builds and the default packs of optimizations are not modelled. Matchers are functions without effects. Hash functions, inference and the meaning of operators are arbitrary; C58_sound needs operators of one name to have one meaning (C58_name_refuted shows why)."
  },
  {
   "property": "C59",
   "status": "proved",
   "theorems": [
    "C59_total",
    "C59_same",
    "C59_value",
    "C59_lazy",
    "C59_once",
    "C59_merge_refuted"
   ],
   "note": "Annotations are not modelled (the code reports an error for annotations that are not on leaves). Attributes of a conditional are kept as they are. The two sub-programs of a packed conditional are the two lambda bodies; the jumps they are compiled to are C60."
  },
  {
   "property": "C60",
   "status": "proved",
   "theorems": [
    "C60_binds",
    "C60_runs",
    "C60_tame",
    "C60_functor",
    "C60_loop_tame",
    "C60_loop",
    "C60_stops",
    "C60_cancel",
    "C60_operator"
   ],
   "note": "Operators other than jumps are arbitrary, as long as they request no jumps and leave no signals (C60_functor: operators made of functions are such; C60_tame, C60_loop_tame: so are bound programs and loops). Loads of the cancellation flag are answers of an arbitrary sequence. Slots are functions on frames. Literals, descriptions and source locations are not modelled."
  },
  {
   "property": "C61",
   "status": "proved",
   "theorems": [
    "C61_total",
    "C61_order",
    "C61_accepts",
    "C61_errors",
    "C61_link_order",
    "C61_process",
    "C61_flush"
   ],
   "note": "Functions of initializers may report failure depending on all that ran before; an initializer that loads a library (and so calls InitArollaSecondary while another batch runs) is not modelled, nor are threads (the code documents that race). LOG(FATAL) ends the process. C61_link_order needs names: with anonymous initializers the order of registration can be seen (C61_link_order_anonymous_refuted)."
  },
  {
   "property": "C62",
   "status": "proved",
   "theorems": [
    "C62_cast",
    "C62_order",
    "C62_common",
    "C62_common_list",
    "C62_common_set",
    "C62_broadcast",
    "C62_with_value",
    "C62_decay",
    "C62_overload",
    "C62_overload_order"
   ],
   "note": "Types are trees; the C++ compares addresses of registered objects. The types of a program are those of an arbitrary registry of optionals and arrays, without optionals of optionals and arrays of optionals. Null arguments are modelled for CommonQType of two types only (they give null). The conversions that the compiler inserts for a chosen signature are not modelled."
  },
  {
   "property": "C63",
   "status": "proved",
   "theorems": [
    "C63_valid",
    "C63_make",
    "C63_roundtrip",
    "C63_bind",
    "C63_bind_errors",
    "C63_keyword_order",
    "C63_keyword",
    "C63_default",
    "C63_deps",
    "C63_args_n"
   ],
   "note": "Strings are lists of character codes; values and expressions are abstract, `literal` is the constructor of a literal node. The keyword map is a list of pairs with distinct keys in the order of its iteration. Error texts are kept as constructors with the names that they mention. The Make overloads with QValue packs only forward to the modelled one."
  },
  {
   "property": "C64",
   "status": "proved",
   "theorems": [
    "C64_find_bytes",
    "C64_find_text",
    "C64_contains",
    "C64_contains_text",
    "C64_substr_bytes",
    "C64_substr_text",
    "C64_substr_unique",
    "C64_count_bytes",
    "C64_count_text",
    "C64_count_exists",
    "C64_replace_bytes",
    "C64_replace_text",
    "C64_replace_unique",
    "C64_strip_bytes",
    "C64_strip_text",
    "C64_decode_strict",
    "C64_decode_repair",
    "C64_decode_valid",
    "C64_parse_int",
    "C64_as_text",
    "C64_split_bytes",
    "C64_split_text",
    "C64_split_unique",
    "C64_split_space",
    "C64_split_space_text",
    "C64_split_bytes_empty",
    "C64_split_array",
    "C64_join",
    "C64_join_text"
   ],
   "note": "ICU and utf8_range are trusted to read well-formed UTF-8 and to pass over ill-formed bytes by one byte and some trail bytes. Case mapping, regular expressions, printf-style formatting and floating-point conversion are not modelled. Texts that hold ill-formed UTF-8 are covered by the decode theorems only. Byte-string strip with explicit characters also removes backspace and throws on bytes above 127 where char is signed (C64_strip_backspace_refuted, C64_strip_signed_refuted); splitting a text by an empty separator yields parts that are no texts (C64_split_empty_refuted); more than 2^31-1 occurrences overflow the counter (C64_count_overflow_refuted)."
  },
  {
   "property": "C65",
   "status": "proved",
   "theorems": [
    "C65_sequential",
    "C65_encloses",
    "C65_decay",
    "C65_select",
    "C65_detector_right",
    "C65_detector_ends",
    "C65_detector_restores",
    "C65_snapshot",
    "C65_visit",
    "C65_namespace",
    "C65_snapshot_alias_refuted",
    "C65_threads",
    "C65_fresh",
    "C65_register_race_refuted",
    "C65_stale_refuted"
   ],
   "note": "A record is its position; operators are plain, overloads or registered names. Atomics are sequentially consistent steps. Fingerprints are taken to be distinct for distinct tokens. UnsafeUnregister is modelled for one thread only. The compilation and evaluation of the dispatch expression is replaced by its results. Two concurrent registrations of one name both succeed and the first operator is lost (C65_register_race_refuted); a snapshot begun between the revision change and the listing stays stale (C65_stale_refuted); so does one with an alias to a name outside the namespace (C65_snapshot_alias_refuted)."
  },
  {
   "property": "C66",
   "status": "proved",
   "theorems": [
    "C66_encode_values",
    "C66_encode_unit",
    "C66_decode_values",
    "C66_decode_unit",
    "C66_no_amplification",
    "C66_values_roundtrip",
    "C66_unit_roundtrip",
    "C66_size_overflow_refuted",
    "C66_encode_strings",
    "C66_decode_strings",
    "C66_strings_roundtrip",
    "C66_strings_canonical_refuted",
    "C66_decode_array",
    "C66_array_roundtrip",
    "C66_array_through",
    "C66_decode_edge",
    "C66_edge_roundtrip",
    "C66_decode_array_edge",
    "C66_array_edge_roundtrip",
    "C66_size"
   ],
   "note": "Messages are records of their fields; the wire format and the indices of codecs are not modelled. Elements are of an arbitrary type: conversions of element types (such as int32 fields for booleans) are not modelled. Bitmap words of a message are below 2^32 (their field is uint32). Ids, sizes and offsets do not overflow when the ids offset is subtracted. A size close to 2^63 with a bitmap overflows (C66_size_overflow_refuted); messages of strings depend on characters that belong to no element (C66_strings_canonical_refuted)."
  },
  {
   "property": "C67",
   "status": "proved",
   "theorems": [
    "C67_loop",
    "C67_value",
    "C67_ill_typed",
    "C67_deterministic",
    "C67_accepted",
    "C67_types",
    "C67_infer",
    "C67_reserved_name_refuted",
    "C67_reserved_placeholder_refuted",
    "C67_eager_refuted"
   ],
   "note": "Expressions are trees compared structurally (fingerprints are taken to be distinct for distinct expressions); operators are strict functions with a sound type function; only types, not literal values of attributes, are inferred. Lambda lowering of the condition and body before compilation is taken to keep their meaning. The iteration order of the maps is a parameter. A variable of the initial state named _while_loop_immutable_0 replaces a part of the body (C67_reserved_name_refuted), a placeholder of that name need not be initialised (C67_reserved_placeholder_refuted), and an error of a part without variables surfaces even if the body is never evaluated (C67_eager_refuted)."
  },
  {
   "property": "C68",
   "status": "proved",
   "theorems": [
    "C68_reads",
    "C68_injective",
    "C68_negative_refuted"
   ],
   "note": "The text is the list of its Python tokens: blanks, escaping and the digits of numbers are not modelled; a literal other than a number, a text or unspecified is one opaque token. The verbose mode, GetDebugSnippet and representation functions registered by users are not modelled. An operator is its display name. The literal -5 and the negation of the literal 5 have the same text (C68_negative_refuted)."
  },
  {
   "property": "C69",
   "status": "proved",
   "theorems": [
    "C69_lines",
    "C69_names",
    "C69_clash_refuted",
    "C69_shadow_refuted"
   ],
   "note": "As for C68. The name of an annotation is a literal. Names a, a and a._1 collide (C69_clash_refuted); a name may equal the text of a leaf or an attribute access, so that different expressions are printed alike (C69_shadow_refuted)."
  },
  {
   "property": "C70",
   "status": "proved",
   "theorems": [
    "C70_parse",
    "C70_parse_error",
    "C70_parse_total",
    "C70_roundtrip",
    "C70_reformat",
    "C70_ids_injective",
    "C70_roundtrip_refuted",
    "C70_child",
    "C70_prefix",
    "C70_prefix_error",
    "C70_column_parent",
    "C70_table_parent",
    "C70_debug_name",
    "C70_full_name",
    "C70_leaf",
    "C70_underscore",
    "C70_underscore_refuted"
   ],
   "note": "DoubleUnderscore and GoogleSQL policies, hashing and map access paths beyond their segments are not modelled. A trailing empty field is lost, a field ending with [:] becomes an index and a slash splits a field when written as an id and parsed (C70_roundtrip_refuted); a_b and a, b have the same single-underscore name (C70_underscore_refuted)."
  },
  {
   "property": "C71",
   "status": "proved",
   "theorems": [
    "C71_total",
    "C71_value",
    "C71_everywhere",
    "C71_unique",
    "C71_control_point",
    "C71_accept",
    "C71_infinite",
    "C71_hooks",
    "C71_all",
    "C71_nan_refuted",
    "C71_constant_start_refuted"
   ],
   "note": "Numbers are rationals, infinities and NaN; rounding and signed zeros are not modelled. The single-precision path (the same code over rounded points) and the text of errors are not modelled. NaN as the x of a control point is accepted (C71_nan_refuted); a constant start written with a point at -infinity is refused if a later segment is constant, though without that point it is accepted (C71_constant_start_refuted)."
  },
  {
   "property": "C72",
   "status": "proved",
   "theorems": [
    "C72_total",
    "C72_accept",
    "C72_other_separator",
    "C72_round_trip",
    "C72_injective",
    "C72_separator",
    "C72_either",
    "C72_neither",
    "C72_coordinates",
    "C72_listed_twice_refuted",
    "C72_value",
    "C72_made"
   ],
   "note": "SimpleAtod and ToShortest are parameters; the round trip is for curves whose numbers survive them (-0 prints as 0). Positions are unbounded (the code uses int). Which error is reported is modelled but not specified. A separator listed twice counts as two (C72_listed_twice_refuted)."
  },
  {
   "property": "C73",
   "status": "proved",
   "theorems": [
    "C73_accessors",
    "C73_wildcard",
    "C73_wildcard_callback",
    "C73_key",
    "C73_wrapped",
    "C73_filter",
    "C73_filter_names",
    "C73_chain",
    "C73_delegating",
    "C73_by_key",
    "C73_kept",
    "C73_partial_bind",
    "C73_suggestions"
   ],
   "note": "Buffer factories, custom InvokeBoundLoadersFn of chains, the texts of errors and locking are not modelled; a callback accessor calls back once or fails. On an error the requested slots may hold anything (other places are still unchanged). Dispatching by key assumes the loader of a key is fixed, which C73_kept shows for keys already made."
  },
  {
   "property": "C74",
   "status": "proved",
   "theorems": [
    "C74_accessors",
    "C74_wrapped",
    "C74_chain",
    "C74_delegating",
    "C74_partial",
    "C74_determined",
    "C74_suggestions",
    "C74_reported_type_refuted"
   ],
   "note": "An accessor that points to a part of the output is modelled as reading and replacing that part (it points to the same part on every call). Texts of errors are not modelled. The type a chain reports for a name need not be one it can be bound with (C74_reported_type_refuted)."
  },
  {
   "property": "C75",
   "status": "proved",
   "theorems": [
    "C75_make",
    "C75_make_one",
    "C75_lower",
    "C75_value",
    "C75_count",
    "C75_attributes",
    "C75_lower_node",
    "C75_checked",
    "C75_unstable_refuted"
   ],
   "note": "The claim on attributes is for operators that are monotone and whose known values are not lost, and needs it (C75_unstable_refuted). Release mode; names, docs, fingerprints and texts of errors are not modelled; of the checks of a signature only that of repeated names (the others are C63)."
  },
  {
   "property": "C76",
   "status": "proved",
   "theorems": [
    "C76_accepted",
    "C76_types",
    "C76_parameters",
    "C76_constraints",
    "C76_constraints_accepted",
    "C76_constraints_stable",
    "C76_dispatch",
    "C76_dispatch_accepted",
    "C76_dispatch_stable",
    "C76_dispatch_infer",
    "C76_dispatch_lower",
    "C76_restricted",
    "C76_overloaded",
    "C76_overloaded_stable",
    "C76_overloaded_lower",
    "C76_unready_error_refuted",
    "C76_sequence_refuted",
    "C76_parse"
   ],
   "note": "Conditions are evaluated, not compiled; their static types are not modelled, so that they yield presences (and the output expression a type) is a hypothesis. A condition is evaluated also before it is ready, and an error then is an error of the operator (C76_unready_error_refuted). A condition that reads the whole sequence of types can change the overload later (C76_sequence_refuted). Texts of errors are not modelled."
  },
  {
   "property": "C77",
   "status": "proved",
   "theorems": [
    "C77_get",
    "C77_make",
    "C77_read",
    "C77_sorted",
    "C77_fingerprint",
    "C77_same",
    "C77_decode",
    "C77_round_trip"
   ],
   "note": "What is fed into the hasher is compared as a sequence of strings and fingerprints, not of bytes. TypedValue, its fingerprints and its encoding are parameters (what is needed of them is a hypothesis); std::sort by its specification. Repr is not modelled."
  },
  {
   "property": "C78",
   "status": "proved",
   "theorems": [
    "C78_extract",
    "C78_complete",
    "C78_clean",
    "C78_values",
    "C78_same",
    "C78_read",
    "C78_read_name",
    "C78_read_qtype",
    "C78_topmost",
    "C78_strip",
    "C78_strip_same",
    "C78_prepare",
    "C78_prepare_filter_refuted"
   ],
   "note": "Evaluation is any meaning of operators that ignores annotations; attributes come from any InferAttributes; texts of errors and source locations are not modelled. The header of PrepareSideOutputsForListener says that names the listener does not know are filtered out; they are kept (C78_prepare_filter_refuted). CoreCast is a parameter."
  },
  {
   "property": "C79",
   "status": "proved",
   "theorems": [
    "C79_defined",
    "C79_range",
    "C79_zero",
    "C79_small",
    "C79_wrap",
    "C79_range_refuted",
    "C79_overflow_refuted",
    "C79_operator",
    "C79_repeat"
   ],
   "note": "Proved under the exact guard: near the ends of int64 the size wraps around and the sequence is too short (C79_wrap, C79_range_refuted), or the last y += step overflows (C79_overflow_refuted). Any allocator; memory is only a list of values."
  },
  {
   "property": "C80",
   "status": "proved",
   "theorems": [
    "C80_format",
    "C80_unambiguous",
    "C80_escape",
    "C80_insert",
    "C80_concat",
    "C80_names",
    "C80_malformed",
    "C80_operator",
    "C80_types"
   ],
   "note": "absl::FormatUntyped, absl::StrCat and TypedRef::Repr are parameters; texts of errors are not modelled, only their kind. strings.printf is not modelled."
  },
  {
   "property": "C81",
   "status": "proved",
   "theorems": [
    "C81_make",
    "C81_get_row",
    "C81_keys",
    "C81_keys_made",
    "C81_keys_refuted"
   ],
   "note": "Missing keys are accepted when a dict is made, but then its keys cannot be listed if a key follows a missing one (C81_keys_refuted). Float keys are ruled out by the types and not modelled. The hash map is a list of entries in any order."
  },
  {
   "property": "C82",
   "status": "proved",
   "theorems": [
    "C82_findall",
    "C82_findall_sizes",
    "C82_interleave"
   ],
   "note": "The matches of a regular expression are any lists of the declared number of groups (what RE2 finds is not modelled). Iterating over rows and making edges are modelled in full for C54 and C08, here only in the form used. The counter of interleave is an int and overflows at 2^31 elements (C82_interleave)."
  },
  {
   "property": "C83",
   "status": "proved",
   "theorems": [
    "C83_and",
    "C83_or",
    "C83_not",
    "C83_if",
    "C83_presence",
    "C83_fuse"
   ],
   "note": "Scalars only; the lifting to arrays is C07 and C15. Overloads taking functions are not modelled (short circuits are C59), nor are the comparisons."
  }
 ]
}