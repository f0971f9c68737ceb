{
 "claims": [
  {
   "property": "C01",
   "status": "proved",
   "theorems": [
    "C01_results_cover_every_valid_path",
    "C01_results_cover_every_valid_path_no_top"
   ],
   "note": "All schedules, both settings of followReturnsPastSeeds. Seeds at start points (C09 shows why). The solver never propagates a value that is top, so the general theorem speaks about paths on which no intermediate value is top; the second theorem removes this for problems in which no edge maps non-top to top."
  },
  {
   "property": "C02",
   "status": "proved",
   "theorems": [
    "C02_results_are_join_over_valid_paths",
    "C02_results_not_above_join_of_valid_paths",
    "C02_results_are_join_if_joins_are_exact_where_they_occur"
   ],
   "note": "Least upper bound over all valid paths; followReturnsPastSeeds off, distributive edge functions with exact compose/join, one start point per function, special summaries only for declarations."
  },
  {
   "property": "C03",
   "status": "proved",
   "theorems": [
    "C03_jump_functions_cover_same_level_paths",
    "C03_jump_functions_are_joins_of_same_level_paths"
   ],
   "note": ""
  },
  {
   "property": "C04",
   "status": "proved",
   "theorems": [
    "C04_results_do_not_depend_on_schedule",
    "C04_solve_is_a_schedule"
   ],
   "note": "followReturnsPastSeeds off (C10 refutes the property with it on)."
  },
  {
   "property": "C05",
   "status": "proved",
   "theorems": [
    "C05_solver_terminates",
    "C05_no_infinite_jump_function_phase",
    "C05_no_infinite_value_phase"
   ],
   "note": ""
  },
  {
   "property": "C06",
   "status": "proved",
   "theorems": [
    "C06_interrupted_run_equals_solve",
    "C06_cancelled_state_is_prefix",
    "C06_cancelled_run_can_be_completed"
   ],
   "note": "All callbacks, clocks and ways of cutting the run into calls."
  },
  {
   "property": "C07",
   "status": "partial",
   "theorems": [
    "C07_cancelled_solve_can_be_continued_refuted",
    "C07_async_cancelled_solve_can_be_continued_refuted",
    "C07_continue_with_work_left_partial"
   ],
   "note": "False of the code: cancellation is also reported when the worklist is already empty. Holds whenever work is left."
  },
  {
   "property": "C08",
   "status": "partial",
   "theorems": [
    "C08_time_limited_solving_progresses_refuted",
    "C08_fast_enough_rounds_finish_partial"
   ],
   "note": "False of the code: the adaptive iteration count can reach 0 and stay there. Holds if at least one step is done per interval."
  },
  {
   "property": "C09",
   "status": "partial",
   "theorems": [
    "C09_seeds_at_any_instruction_refuted"
   ],
   "note": "False of the code: witness. The part that holds (seeds at start points) is C01."
  },
  {
   "property": "C10",
   "status": "partial",
   "theorems": [
    "C10_unbalanced_returns_schedule_independent_refuted"
   ],
   "note": "False of the code: two schedules with different results."
  },
  {
   "property": "C11",
   "status": "proved",
   "theorems": [
    "C11_ifds_results_are_valid_path_facts",
    "C11_ifds_terminates"
   ],
   "note": ""
  },
  {
   "property": "C12",
   "status": "partial",
   "theorems": [
    "C12_jump_function_views_agree",
    "C12_jump_function_views_nodup",
    "C12_remove_keeps_views_consistent_refuted",
    "C12_remove_result_refuted"
   ],
   "note": "Insertions keep all views consistent; removeFunction breaks them (refuted with witness)."
  },
  {
   "property": "C13",
   "status": "partial",
   "theorems": [
    "C13_compose_is_composition",
    "C13_compose_over_approximates",
    "C13_compose_after_AllBottom",
    "C13_edge_functions_are_monotone",
    "C13_equal_edge_functions_agree",
    "C13_compose_keeps_constants_proper",
    "C13_compose_exact_for_all_refuted"
   ],
   "note": "Exact unless AllTop/AllBottom occurs inside the first function; with them over-approximation (monotone client functions); the documented equality is refuted for AllTop/AllBottom first."
  },
  {
   "property": "C14",
   "status": "partial",
   "theorems": [
    "C14_join_is_upper_bound",
    "C14_join_edge_function_is_exact",
    "C14_join_with_equal_is_stable",
    "C14_repeated_join_is_stable_partial",
    "C14_covered_join_is_stable_refuted"
   ],
   "note": "Upper bound for all functions, limits and address orders. Stability under repetition holds if equal objects are shared, and is refuted otherwise (address-based operator<)."
  },
  {
   "property": "C15",
   "status": "proved",
   "theorems": [
    "C15_lattice_domain_is_semilattice",
    "C15_equality_meaning",
    "C15_less_total",
    "C15_less_is_strict_order",
    "C15_top_least_bottom_greatest",
    "C15_equal_values_hash_equally",
    "C15_binary_domain_is_semilattice"
   ],
   "note": ""
  },
  {
   "property": "C16",
   "status": "proved",
   "theorems": [
    "C16_targets_are_as_documented",
    "C16_targets_are_a_set",
    "C16_calls_do_not_influence_each_other",
    "C16_ranges_become_sets",
    "C16_compose_is_composition",
    "C16_legacy_union_is_union",
    "C16_zero_is_kept",
    "C16_gen_and_kill_is_kill_then_gen"
   ],
   "note": "transferFlow(v,v): the code keeps v; the documentation can be read either way. The legacy union of an empty vector is the identity."
  },
  {
   "property": "C17",
   "status": "partial",
   "theorems": [
    "C17_cache_is_transparent",
    "C17_key_packing_is_injective",
    "C17_callees_are_part_of_the_query_refuted",
    "C17_wide_integral_nodes_refuted"
   ],
   "note": "Transparent when the callees of call-to-return queries are a function of the call site and integral node ids are below 2^32; refuted without either."
  },
  {
   "property": "C18",
   "status": "partial",
   "theorems": [
    "C18_find_after_any_history",
    "C18_count_after_any_history",
    "C18_one_class_per_value",
    "C18_map_for_unique_values",
    "C18_equal_values_share_a_class",
    "C18_first_insertion_wins_refuted",
    "C18_last_insertion_wins_refuted"
   ],
   "note": "Exact behaviour for all histories; it is a map when keys are not re-inserted with another value. For re-insertion neither the first nor the last value wins (refuted)."
  },
  {
   "property": "C19",
   "status": "partial",
   "theorems": [
    "C19_membership",
    "C19_size",
    "C19_empty",
    "C19_iteration",
    "C19_equality",
    "C19_inclusion",
    "C19_less_is_strict_total_order",
    "C19_iteration_with_insertions_partial",
    "C19_iteration_with_insertions_refuted"
   ],
   "note": "Set semantics for all operation histories over a shared value map. Iterating while another set inserts a new value is undefined behaviour (refuted with witness); it is fine if no new value is registered."
  },
  {
   "property": "C20",
   "status": "partial",
   "theorems": [
    "C20_equal_nonempty_sets_hash_equally_partial",
    "C20_equal_sets_hash_equally_refuted"
   ],
   "note": "Holds for nonempty sets; a set erased to empty hashes differently from a fresh empty set (refuted with witness)."
  },
  {
   "property": "C21",
   "status": "proved",
   "theorems": [
    "C21_is_a_sequence",
    "C21_references_are_stable",
    "C21_addresses_are_distinct",
    "C21_emplace_back_returns_the_element",
    "C21_copy",
    "C21_several_vectors",
    "C21_destructor_releases_memory"
   ],
   "note": "All histories of emplace_back, pop_back, pop_back_n and clear; shrink_to_fit is C22."
  },
  {
   "property": "C22",
   "status": "partial",
   "theorems": [
    "C22_shrink_to_fit_keeps_vector_usable_refuted",
    "C22_write_pointer_dangles_refuted",
    "C22_shrink_to_fit_of_nonempty_partial",
    "C22_shrink_to_fit_keeps_addresses_partial",
    "C22_shrink_to_fit_releases_blocks"
   ],
   "note": "False of the code: shrink_to_fit on a cleared vector with several blocks leaves the write pointer dangling. Holds if the vector is not empty at each shrink_to_fit."
  },
  {
   "property": "C23",
   "status": "proved",
   "theorems": [
    "C23_minimised_graph_reads_the_same",
    "C23_merges_only_equivalent_states",
    "C23_never_larger",
    "C23_minimal_refuted"
   ],
   "note": "Holds for every well-formed graph. C23_minimal_refuted additionally shows that the result need not be minimal: states equal only through a cycle are kept apart."
  },
  {
   "property": "C24",
   "status": "proved",
   "theorems": [
    "C24_context_is_the_top_of_the_stack",
    "C24_exact_up_to_depth_K",
    "C24_pop_returns_the_innermost_call",
    "C24_equality_is_equality_of_content",
    "C24_constructor_limits",
    "C24_K_zero_is_unlimited",
    "C24_K_zero_refuted",
    "C24_print_separates_refuted"
   ],
   "note": "For every K from 1 to 2^32-1. Outside the property: C24_K_zero_refuted (K=0 wraps, contexts are unlimited), C24_print_separates_refuted (print omits separators)."
  },
  {
   "property": "C25",
   "status": "proved",
   "theorems": [
    "C25_result_satisfies_the_equations",
    "C25_result_is_above_all_paths",
    "C25_result_is_the_least_solution",
    "C25_distributive_result_is_the_join_over_paths",
    "C25_terminates",
    "C25_genkill_terminates",
    "C25_missed_branch_target_refuted",
    "C25_seed_in_loop_diverges_refuted",
    "C25_seed_with_predecessors_refuted",
    "C25_end_respects_edges"
   ],
   "note": "For every CFG that is a graph (converse successors/predecessors, branch targets reported), every monotone problem, seeds at nodes without predecessors. Outside these hypotheses: C25_seed_with_predecessors_refuted (seed lost), C25_seed_in_loop_diverges_refuted (no termination), C25_missed_branch_target_refuted (join points whose block starts with a skipped debug instruction)."
  },
  {
   "property": "C26",
   "status": "partial",
   "theorems": [
    "C26_single_callees_are_covered_partial",
    "C26_contexts_are_k_limited",
    "C26_every_callee_refuted",
    "C26_second_call_site_refuted",
    "C26_returned_facts_refuted",
    "C26_seed_in_called_function_refuted",
    "C26_two_seeds_refuted",
    "C26_recursive_call_refuted",
    "C26_returns_to_the_caller_refuted",
    "C26_contexts_overwrite_each_other_refuted"
   ],
   "note": "Refuted: a callee behind an already added one is skipped, contexts cut to the same call string overwrite each other and the solver diverges, returned facts are not propagated, seeds get wiped, recursive calls use the call-to-return flow. Proved: with at most one callee per call site every function that can be entered is analysed; contexts have at most K call sites."
  },
  {
   "property": "C27",
   "status": "partial",
   "theorems": [
    "C27_folded_constant_is_the_llvm_value_partial",
    "C27_exact_at_64_bits",
    "C27_wrong_iff_it_leaves_the_range",
    "C27_narrow_overflow_refuted",
    "C27_unsigned_division_refuted",
    "C27_unsigned_remainder_refuted",
    "C27_undefined_behaviour",
    "C27_undefined_remainder_refuted",
    "C27_otherwise_bottom",
    "C27_edge_computes_the_operation",
    "C27_equal_edges_agree",
    "C27_edges_monotone_refuted"
   ],
   "note": "Proved: signed division, remainder and bitwise operations at every width, add/sub/mul at 64 bits and whenever the result fits the type, unsigned division of non-negative operands. Refuted: add/sub/mul overflowing a narrower type, unsigned division and remainder of operands with the top bit set, min % -1 is undefined behaviour in the analysis."
  },
  {
   "property": "C28",
   "status": "partial",
   "theorems": [
    "C28_element_operation_is_exact_partial",
    "C28_subtraction_is_zero",
    "C28_subtraction_refuted",
    "C28_element_operation_undefined",
    "C28_set_operation_is_pairwise",
    "C28_set_operation_is_sound_partial",
    "C28_possible_zero_divisor_refuted",
    "C28_cast_keeps_the_width",
    "C28_cast_then_add_refuted",
    "C28_sign_extension_keeps_the_number",
    "C28_zero_extension_refuted",
    "C28_truncation_refuted"
   ],
   "note": "Every integer operation except subtraction is exact at every width and set operations contain every pairwise result. Refuted: operator- computes Lhs - Lhs, a possible zero divisor is undefined behaviour, casts never change the width, so arithmetic with a cast value is undefined. Floating-point arithmetic is a parameter."
  },
  {
   "property": "C29",
   "status": "partial",
   "theorems": [
    "C29_join_is_the_least_upper_bound",
    "C29_join_is_commutative",
    "C29_join_is_associative",
    "C29_join_is_idempotent",
    "C29_unit_and_absorbing",
    "C29_join_over_approximates",
    "C29_less_is_the_strict_order",
    "C29_compare_refuted",
    "C29_associative_fp_refuted",
    "C29_over_approximates_fp_refuted",
    "C29_idempotent_fp_refuted",
    "C29_hash_fp_refuted"
   ],
   "note": "All laws proved for sets of integers, strings and top, for every MaxSize. Refuted for floating-point values: equality up to an epsilon is not transitive and disagrees with the hash, NaN is not equal to itself; compare() does not know that {top} is above everything."
  },
  {
   "property": "C30",
   "status": "partial",
   "theorems": [
    "C30_join_kinds",
    "C30_join_positions",
    "C30_join_commutative_partial",
    "C30_join_commutative_refuted",
    "C30_join_commutative_switch_refuted",
    "C30_join_associative_refuted",
    "C30_merged_position",
    "C30_merged_position_loop_refuted",
    "C30_claims_both_refuted",
    "C30_compose",
    "C30_compose_exact_refuted",
    "C30_transfer_join_refuted",
    "C30_kill_monotone",
    "C30_transfer_monotone_refuted"
   ],
   "note": "idempotence, units and absorption, the possible results and (outside the refuted cases) commutativity are proved; commutativity, associativity and 'claims only points that follow both' are refuted"
  },
  {
   "property": "C31",
   "status": "partial",
   "theorems": [
    "C31_tables",
    "C31_no_undefined_behaviour",
    "C31_runs_automaton",
    "C31_compose",
    "C31_compose_bottom_refuted",
    "C31_error_sticks",
    "C31_secure_heap_error_refuted",
    "C31_join_lub",
    "C31_edge_join_upper_bound",
    "C31_edge_equality",
    "C31_traits_join_refuted",
    "C31_monotone_refuted",
    "C31_call_edge",
    "C31_call_edge_covers_refuted",
    "C31_file_protocol",
    "C31_kdf_protocol",
    "C31_kdf_context_protocol",
    "C31_secure_memory_protocol"
   ],
   "note": "composition runs the automaton exactly unless AllBottom comes first (refuted there); tables are total; the error state is never left except by the secure-heap factories"
  },
  {
   "property": "C32",
   "status": "partial",
   "theorems": [
    "C32_join_lub",
    "C32_extend",
    "C32_extend_top_refuted",
    "C32_combine_partial",
    "C32_combine_identity_refuted",
    "C32_combine_top_refuted",
    "C32_store_edges_handled",
    "C32_store_labels",
    "C32_weak_update_refuted",
    "C32_fields_k_limited",
    "C32_fact_equality_refuted"
   ],
   "note": "extend is composition (over-approximation when AllTop comes first); combine is an upper bound except where the identity meets kill/replace, which is refuted"
  },
  {
   "property": "C33",
   "status": "partial",
   "theorems": [
    "C33_queries_exact",
    "C33_mutually_inverse",
    "C33_vertices",
    "C33_call_site_pointers_stable",
    "C33_reserve_suffices",
    "C33_capacity_refuted",
    "C33_second_reserve_refuted"
   ],
   "note": "proved for all histories of a legal client (own vertex pointers, reserved capacity); exceeding the capacity or reserving twice is refuted"
  },
  {
   "property": "C34",
   "status": "partial",
   "theorems": [
    "C34_json_roundtrip_partial",
    "C34_deserialize_total",
    "C34_empty_graph_refuted",
    "C34_lost_call_site_refuted",
    "C34_wide_ids_refuted",
    "C34_unknown_call_site_refuted"
   ],
   "note": "edges and function vertices survive for non-empty graphs with 32-bit ids and inverse getters; the empty graph, call sites without callees, wide ids and unknown ids do not"
  },
  {
   "property": "C35",
   "status": "partial",
   "theorems": [
    "C35_terminates",
    "C35_no_duplicates",
    "C35_covers_partial",
    "C35_undeclared_mutation_refuted",
    "C35_same_count_refuted",
    "C35_declared_entry_refuted"
   ],
   "note": "termination without failure, no duplicates for every resolver; exact coverage for stateless resolvers and for monotone resolvers that report their mutation; resolvers that mutate undeclared (DTA) or non-monotonically are refuted"
  },
  {
   "property": "C36",
   "status": "partial",
   "theorems": [
    "C36_generated",
    "C36_equivalence_partial",
    "C36_exact_partial",
    "C36_constructor",
    "C36_alias",
    "C36_getAliasSet",
    "C36_allocation_sites",
    "C36_json_partial",
    "C36_may_alias_lost_refuted"
   ],
   "note": "The sets alone hold exactly the equivalence generated by the introduced pairs (C36_generated). With the analysis of functions and globals the relation is always an equivalence between the required links and the equivalence generated by these and the LLVM alias results; it equals the upper bound when those results are an equivalence on the pointers of each analysed function. Otherwise a may-alias of LLVM can be lost (refuted). A JSON round trip keeps the relation on the values that have an id only. Well-formed modules exclude stores to null."
  },
  {
   "property": "C37",
   "status": "partial",
   "theorems": [
    "C37_memory_safe_partial",
    "C37_store_to_null_refuted",
    "C37_after_json_refuted"
   ],
   "note": "For every state reachable by operations and merges no released or null alias set is used, provided no function stores to the constant null pointer. With such a store, or after loading from JSON, a query uses a null alias set (refuted)."
  },
  {
   "property": "C38",
   "status": "partial",
   "theorems": [
    "C38_merge_partial",
    "C38_merge_refuted"
   ],
   "note": "mergeWith keeps this relation and adds nothing beyond the join; it equals the join if no class of the other analysis meets two classes of this one. Otherwise the result is neither symmetric nor does it contain the other relation (refuted)."
  },
  {
   "property": "C39",
   "status": "partial",
   "theorems": [
    "C39_subtypes_partial",
    "C39_isSubType_partial",
    "C39_preorder",
    "C39_getType",
    "C39_json_partial",
    "C39_template_base_refuted",
    "C39_json_empty_refuted",
    "C39_json_unnamed_refuted",
    "C39_json_missing_type_refuted"
   ],
   "note": "getSubTypes/isSubType equal the reflexive transitive closure of the base relation for classes whose type infos are found under their names; a JSON round trip keeps the hierarchy for non-empty modules with distinct names. Refuted: bases that are template instances are not found, the empty hierarchy cannot be read back, unnamed types share one entry, a document naming a type the module lacks throws."
  },
  {
   "property": "C40",
   "status": "partial",
   "theorems": [
    "C40_signature",
    "C40_tables_total",
    "C40_cha_exact",
    "C40_cha_covers_partial",
    "C40_rta_subset",
    "C40_rta_fallback",
    "C40_rta_exact",
    "C40_dta_fallback",
    "C40_function_pointer",
    "C40_allocated",
    "C40_secondary_base_refuted",
    "C40_virtual_base_refuted",
    "C40_covariant_return_refuted",
    "C40_struct_function_pointer_refuted",
    "C40_rta_global_object_refuted",
    "C40_rta_variadic_refuted",
    "C40_otf_builder_refuted",
    "C40_builder"
   ],
   "note": "CHA answers exactly the consistent non-pure entries of the slot in the tables of the subtypes, RTA is a subset of CHA and only empty if CHA is, function-pointer calls get exactly the address-taken functions with a consistent signature. CHA covers the run-time target for calls through the primary table with unchanged return type; calls through secondary or virtual bases and covariant returns are missed (refuted), as are objects in globals for RTA. The OTF resolver is not modelled here."
  },
  {
   "property": "C41",
   "status": "partial",
   "theorems": [
    "C41_power_set_partial",
    "C41_power_set_empty_refuted",
    "C41_power_set_shift_refuted",
    "C41_remove_by_index",
    "C41_remove_out_of_range_refuted",
    "C41_remove_forward_partial",
    "C41_remove_forward_refuted",
    "C41_intersect",
    "C41_string_id_order",
    "C41_string_id_separates_partial",
    "C41_string_id_separates_refuted",
    "C41_constructor_name_refuted"
   ],
   "note": "proved: power set for 1..31 elements, remove_by_index (random access), intersectWith, StringIDLess strict weak order separating decimal ids; refuted: empty set and 32+ elements, forward remove_by_index with two indices, argument ids not separated"
  },
  {
   "property": "C42",
   "status": "proved",
   "theorems": [
    "C42_representation",
    "C42_no_assertion_fails",
    "C42_deleted_exactly_once",
    "C42_deletes_only_what_it_owns",
    "C42_owner_is_unique_and_alive",
    "C42_owner_deletes",
    "C42_borrower_never_deletes",
    "C42_move_assignment_swaps",
    "C42_misaligned_refuted"
   ],
   "note": "For every layout with the documented alignment and every history of operations on any number of pointers. C42_misaligned_refuted: RequireAlignment with a type whose objects are not 2-aligned (outside the documented precondition). assumeOwnership, named in the statement, does not exist at this commit."
  },
  {
   "property": "C43",
   "status": "proved",
   "theorems": [
    "C43_seeds_are_the_start_points",
    "C43_other_seeds_stay",
    "C43_one_entry_per_fact",
    "C43_seeds_of_sets",
    "C43_entry_functions",
    "C43_seeded_functions_are_entries",
    "C43_all_internal_refuted"
   ],
   "note": "For modules whose functions have distinct names and whose blocks end in terminators. C43_all_internal_refuted: with __ALL__ functions with internal linkage are seeded although the call graph does not start from them."
  },
  {
   "property": "C44",
   "status": "partial",
   "theorems": [
    "C44_table_is_two_key_map",
    "C44_remove_returns_old_value",
    "C44_row_accessor_creates_phantom_row_refuted"
   ],
   "note": "Two-key map for all operation sequences; containsRow/empty are wrong after the mutable row() accessor created a phantom row (refuted with witness)."
  },
  {
   "property": "C45",
   "status": "partial",
   "theorems": [
    "C45_results_are_the_row",
    "C45_result_at",
    "C45_ifds_results",
    "C45_all_entries",
    "C45_ifds_absent_fact_refuted",
    "C45_ssa_void",
    "C45_ssa_inner_partial",
    "C45_ssa_merged",
    "C45_ssa_terminator_partial",
    "C45_ssa_queries_agree_partial",
    "C45_solver_queries",
    "C45_solver_strip_refuted",
    "C45_ssa_queries_agree_refuted",
    "C45_ssa_debug_instruction_refuted",
    "C45_ssa_other_target_refuted",
    "C45_solver_ifds_invoke_refuted"
   ],
   "note": "The queries by node are exact for every table. For IFDS the default value equals the value of facts that hold (refuted). The queries respecting SSA form report exactly the results behind the instruction, or their least upper bound; refuted: instructions followed by a debug instruction, targets of an invoke beside one with a single predecessor, IDESolver's resultsAtInLLVMSSA never strips zero, ifdsResultsAtInLLVMSSA on an invoke."
  },
  {
   "property": "C46",
   "status": "partial",
   "theorems": [
    "C46_successors_are_what_executes_next",
    "C46_successors_execute_next",
    "C46_lazy_initialisation_successor_refuted",
    "C46_predecessors_are_the_converse",
    "C46_successors_know_their_predecessor",
    "C46_lazy_initialisation_converse_refuted",
    "C46_edges_stay_in_the_graph",
    "C46_all_edges",
    "C46_start_point",
    "C46_is_start_point_refuted",
    "C46_exit_points",
    "C46_branch_targets",
    "C46_branch_target_behind_debug_instruction_refuted",
    "C46_the_cfg_is_a_graph",
    "C46_monotone_solver_on_llvm_functions",
    "C46_monotone_solver_behind_debug_instruction_refuted"
   ],
   "note": "Proved without lazy static-initialisation branches, and the single-predecessor part when no block starts with an ignored debug instruction; refuted otherwise: the second successor of a lazy-initialisation branch is missing while the predecessor is listed, and isBranchTarget compares with the block's first instruction even if that is ignored, so the monotone solver loses facts. isStartPoint disagrees with getStartPointsOf around debug instructions."
  },
  {
   "property": "C47",
   "status": "partial",
   "theorems": [
    "C47_backward_is_the_converse",
    "C47_artificial_return",
    "C47_start_and_exit_points",
    "C47_all_edges_point_forwards",
    "C47_all_edges_refuted",
    "C47_ignored_debug_edges_refuted",
    "C47_predecessors_of_the_return_refuted",
    "C47_branch_targets_refuted"
   ],
   "note": "Successors, predecessors and start/exit points proved; refuted: getAllControlFlowEdges lists every edge the other way round and includes ignored dbg.value instructions, predecessors of the artificial return are undefined behaviour, isBranchTarget misses switches."
  },
  {
   "property": "C48",
   "status": "partial",
   "theorems": [
    "C48_types_are_reachable_partial",
    "C48_queries_do_not_matter_partial",
    "C48_literal_struct_asserts_refuted",
    "C48_literal_struct_types_refuted",
    "C48_unnamed_types_refuted"
   ],
   "note": "Proved for identified struct types with distinct names. Refuted: reverseTypePropagation asks literal struct types for a name (assertion failure, or propagation from vertex 0), and unnamed types all share one vertex."
  },
  {
   "property": "C49",
   "status": "partial",
   "theorems": [
    "C49_no_undefined_behaviour",
    "C49_value_semantics",
    "C49_reference_counts_exact",
    "C49_alive_iff_needed",
    "C49_nothing_left",
    "C49_cache_content",
    "C49_cached_functions_are_singletons",
    "C49_equality",
    "C49_hash_of_hashable_classes",
    "C49_small_reference_equality",
    "C49_order_asymmetric",
    "C49_hash_agrees_with_equality_refuted",
    "C49_small_cached_reference_equality_refuted",
    "C49_order_transitive_refuted",
    "C49_irreflexive_equality_refuted"
   ],
   "note": "The memory management is correct for all histories, given a reflexive and symmetric operator== of the concrete classes. Refuted: hash codes of classes without hash function depend on the address; the cached constructor of small classes leaves padding uninitialised, so referenceEquals and hash codes of equal functions may differ; operator< is not transitive; with an irreflexive operator== and passing by value the cache keeps a dead entry."
  },
  {
   "property": "C50",
   "status": "partial",
   "theorems": [
    "C50_alongside_as_documented",
    "C50_to_callee_exact",
    "C50_to_callee_as_documented",
    "C50_to_callee_defined",
    "C50_to_caller_exact",
    "C50_to_caller_zero_is_a_global",
    "C50_to_callee_drops_zero",
    "C50_argument_round_trip",
    "C50_strong_update_if",
    "C50_strong_update",
    "C50_strong_update_through_cast",
    "C50_alongside_global_argument_refuted",
    "C50_to_callee_sret_refuted",
    "C50_to_callee_moved_refuted",
    "C50_to_caller_zero_refuted",
    "C50_sret_argument_lost_refuted"
   ],
   "note": "Exact characterisation of all four flow functions. They differ from their documentation (refuted): a global passed as argument ignores PropagateArgs; facts of an sret argument are not passed to the callee, and lost if arguments are killed along the call; mapFactsToCallee uses the fact after moving it into the result; mapFactsToCaller propagates zero as a global although PropagateZeroToCaller is false."
  },
  {
   "property": "C51",
   "status": "partial",
   "theorems": [
    "C51_reported_constants_are_the_values_partial",
    "C51_terminates",
    "C51_edges_are_linear",
    "C51_unknown_result_refuted",
    "C51_external_write_refuted",
    "C51_pointers_refuted",
    "C51_extern_global_refuted",
    "C51_arithmetic_refuted"
   ],
   "note": "From the program to the reported constants, through flow functions, edge functions and any complete run of the IDE solver. Soundness holds for programs with integer variables, calls, recursion, loops and exact arithmetic (the predicate simple). Outside of it refuted with executions: results of functions without a body, parameters of main and casts (an unknown value deletes the fact instead of making it bottom), functions without a body that write through their arguments, local pointers and aliased parameters, globals without initializer, wrap-around, udiv, the overflow flag."
  },
  {
   "property": "C52",
   "status": "partial",
   "theorems": [
    "C52_uninitialised_uses_are_reported_partial",
    "C52_terminates",
    "C52_external_call_refuted",
    "C52_indirect_call_refuted",
    "C52_global_refuted",
    "C52_struct_refuted",
    "C52_undef_call_refuted",
    "C52_pointers_refuted",
    "C52_false_alarms_refuted"
   ],
   "note": "From the program to UndefValueUses, through the flow functions and any complete run of the IFDS solver. In programs whose loads and stores name local variables or pointer parameters, with calls by value and by reference, recursion and loops (the predicate simple), every use of an uninitialised value is reported. Refuted with executions outside of it: functions without a body that do not initialise what they get the address of, indirect calls with pointer arguments, uninitialised values in globals, variables of struct type, undef as argument or result, stores through pointers, aliased parameters; and false alarms: a pointer to an uninitialised variable counts as uninitialised, a store through a pointer does not initialise."
  },
  {
   "property": "C53",
   "status": "partial",
   "theorems": [
    "C53_leaks_are_reported_partial",
    "C53_terminates",
    "C53_store",
    "C53_return",
    "C53_sanitizer_with_body",
    "C53_reports_are_sink_facts",
    "C53_operations_refuted",
    "C53_parameter_used_once_refuted",
    "C53_library_function_refuted",
    "C53_alias_behind_refuted",
    "C53_sanitizer_refuted"
   ],
   "note": "From the program to Leaks, through flow functions and solver, for any alias sets. Proved for simple programs (loads and stores name variables, variables passed by address, no phi of registers, pointer parameters not used just once, sources and sinks without a body) and taint through copies. Refuted: taint through operations and phis, a pointer parameter used once, library functions without summary or with a sink parameter, an alias loaded later in the basic block, declared sanitizers."
  },
  {
   "property": "C54",
   "status": "partial",
   "theorems": [
    "C54_reported_pairs_are_found",
    "C54_nodes_carry_their_fact_partial",
    "C54_traces_are_flows_partial",
    "C54_flows_are_recorded_partial",
    "C54_predecessors_end_partial",
    "C54_traces_are_flows_refuted",
    "C54_predecessors_end_refuted",
    "C54_predecessors_end_in_one_block_refuted",
    "C54_every_call_site_is_traced_refuted",
    "C54_every_block_is_traced_refuted",
    "C54_assertion_refuted",
    "C54_traces_from_entry_points_refuted",
    "C54_seeds_are_found_refuted"
   ],
   "note": "Proved for every sequence of calls in which pairs are processed after they were reported, no flow enters the instruction of a seed, what a seed flows to is reached from there only, and a non-zero fact carried on unchanged in its block has no second origin. Without the last condition traces take flows of later instructions, and predecessors can form a cycle (also when main starts with a call of a function it calls again). Also refuted: of two call sites in one block only one is traced, single-instruction callees are left out, with several entry points an assertion fails or traces are wrong, seeds without outflow are not found."
  },
  {
   "property": "C55",
   "status": "partial",
   "theorems": [
    "C55_result_is_acyclic",
    "C55_nothing_is_logged",
    "C55_paths_are_traces",
    "C55_traces_are_found_partial",
    "C55_some_trace_is_found",
    "C55_search_ends_partial",
    "C55_paths_are_flows_partial",
    "C55_cycle_check_is_exact",
    "C55_reversed_graph_reads_back",
    "C55_reversed_to_a_depth",
    "C55_search_ends_refuted",
    "C55_simple_traces_are_found_refuted",
    "C55_each_fact_gets_a_path_refuted",
    "C55_threshold_keeps_whole_paths_refuted",
    "C55_filtered_traces_are_found_refuted",
    "C55_seeds_are_answered_refuted"
   ],
   "note": "For every exploded supergraph, filter and configuration the result is acyclic, every path in it is a trace (its first part under a depth threshold), and if any queried fact has a trace some trace is found; with C54 the paths are paths over reported flows. Completeness is partial: traces that meet no cycle of the exploded supergraph, filters that do not both end and continue paths at a node, no tight depth threshold. Refuted otherwise: a path round a loop that visits no node twice is lost, of two facts the second may get no path, a path that a filter ends is lost where another continues, a cut path looks like a whole one, the search does not end on the graphs of C54 whose predecessors form a cycle, and it aborts for seeds without node."
  },
  {
   "property": "C56",
   "status": "partial",
   "theorems": [
    "C56_factory_total",
    "C56_one_object",
    "C56_create_covers",
    "C56_create_stands_for",
    "C56_same_location_same_pointer",
    "C56_create_canonical",
    "C56_create_covers_partial",
    "C56_indirection_covers",
    "C56_offset_covers_partial",
    "C56_offsets_covers_partial",
    "C56_transfer_from_covers_partial",
    "C56_transfer_from_pointer",
    "C56_transfer_to_covers_iff",
    "C56_transfer_to_overapproximates",
    "C56_equivalent_iff",
    "C56_covering_equivalent",
    "C56_prefix_strict_order",
    "C56_prefix_reaches",
    "C56_prefix_covers",
    "C56_except_arithmetics_iff",
    "C56_alias_prefix_reaches",
    "C56_minus_prefix",
    "C56_must_alias_partial",
    "C56_stored_fact_partial",
    "C56_pool_partial",
    "C56_pool_refuted",
    "C56_destroyed_size_refuted",
    "C56_create_variable_refuted",
    "C56_offset_refuted",
    "C56_offsets_refuted",
    "C56_transfer_from_refuted",
    "C56_transfer_to_refuted",
    "C56_stored_fact_refuted",
    "C56_must_alias_refuted",
    "C56_equivalent_transitive_refuted",
    "C56_lifetime_refuted"
   ],
   "note": "Abstract memory locations of the extended taint analysis. Proved for every bound and history of requests: no assertion fails, one object per location, sizes within the bound, creation is canonical and exact for pointers with constant offsets, indirections are covered; proper prefixes are a strict order. Partial: derived locations are right as long as none of the locations involved is an over-approximation (offset, offsets, transfer from a callee), transfer into a callee exactly when certain offsets are 0 (an iff), stores if the stored pointer has last offset 0, must-alias for equally many offsets, the pool for objects no larger than a block. Refuted outside of it: a location with a variable offset does not cover it, an offset at the bound is dropped, an over-approximated taint of a parameter returns as exactly its argument, the offset of a tainted field is lost on the way into a callee, a tainted pointer with an offset stored and loaded back is not recognised, a pointer must-aliases what is stored there, the lifetime of a location depends on who asked for it first."
  },
  {
   "property": "C57",
   "status": "partial",
   "theorems": [
    "C57_feasible_paths_are_kept",
    "C57_edges_left_are_feasible",
    "C57_formula_is_some_path",
    "C57_paths_are_exact_partial",
    "C57_threshold_partial",
    "C57_duplicates_are_removed",
    "C57_successor_check",
    "C57_pathsTo_partial",
    "C57_returns_have_paths_refuted",
    "C57_loops_have_paths_refuted",
    "C57_threshold_is_a_bound_refuted"
   ],
   "note": "For any edge constraints and any solver meeting its contract: removing edges loses no feasible path, the formula is that some path is taken, and pathsTo returns exactly the realizable feasible paths of the graph, each once and with its constraint. Partial: a solver that decides (for exactness), an instruction asked for that is neither a return nor a branch to itself, no depth threshold (pathsTo); what is lost at cycles is in C55. Refuted: for a return inside a called function no path is found, for a branch to itself the condition of another iteration is required, more paths than the threshold are returned. z3 and the translation of branch conditions are parameters."
  },
  {
   "property": "C58",
   "status": "partial",
   "theorems": [
    "C58_table_is_transparent",
    "C58_variables_of_constraint",
    "C58_constraint_says_when_taken_partial",
    "C58_executed_paths_are_taken_partial",
    "C58_executed_paths_are_reported_partial",
    "C58_reassigned_variable_refuted",
    "C58_same_name_refuted",
    "C58_two_calls_refuted",
    "C58_overflow_refuted",
    "C58_unsigned_refuted",
    "C58_signed_division_refuted",
    "C58_zero_extension_refuted",
    "C58_truncated_boolean_refuted",
    "C58_equal_targets_refuted",
    "C58_loaded_pointer_refuted",
    "C58_conditions_have_constraints_refuted",
    "C58_search_ends_refuted",
    "C58_untaken_edges_are_excluded_refuted"
   ],
   "note": "For every program: the table of expressions changes no constraint, and the variables given with a constraint are those in it. For understood conditions (comparisons, logical operators and calls over integers, null pointers, loads of variables and through getelementptrs, arithmetic, single casts) the constraint of an edge holds exactly if the edge is taken, and an executed path satisfies its constraints and is reported by the path filters of C57. Partial: no overflow, no negative numbers in unsigned operations and divisions, no cast that changes a value, different targets, and one assignment for all loads of a name and all calls of a function on the path. Refuted (an executed path is dropped) without any of these, for truncated booleans that are false and for pointers loaded from pointers; also refuted: negated comparisons and zero-extended booleans are errors, the search for the variable behind a load may not end, and no constraint for phis and for blocks that start with a debug instruction. Floating point and arithmetic on pointers are outside of the model."
  },
  {
   "property": "C59",
   "status": "partial",
   "theorems": [
    "C59_calls_in_order",
    "C59_order_is_unique",
    "C59_selector_is_valid",
    "C59_entry_functions",
    "C59_made_functions_are_recognised_partial",
    "C59_entry_points_are_called_refuted",
    "C59_exit_order_refuted",
    "C59_registration_order_refuted",
    "C59_second_model_refuted",
    "C59_made_functions_are_recognised_refuted"
   ],
   "note": "For every module whose constructors and destructors have the parameters asserted: the function built has exactly one execution per selected entry point, calling constructors by ascending priority (stable), the entry point and, after main, destructors by descending priority, then registered ones, latest in the use list first and those of local statics before those of globals; no execution for other selectors; the entry points are the definitions named, or all external ones and main. Partial: entry points without parameters or main with two; first model built in the module. Refuted against the C runtime: other entry points are never called, registered destructors run after instead of before llvm.global_dtors, a local static registered before a global is destroyed first, a second model in a module is dead code, the caller of registered destructors is not recognised as generated."
  },
  {
   "property": "C60",
   "status": "partial",
   "theorems": [
    "C60_ids_are_positions",
    "C60_get_instruction",
    "C60_metadata_ids_are_unique",
    "C60_order_is_program_order",
    "C60_round_trip_partial",
    "C60_from_metadata_is_within",
    "C60_round_trip_refuted",
    "C60_only_ids_have_values_refuted",
    "C60_inserted_twice_refuted",
    "C60_unprocessed_ids_refuted",
    "C60_earlier_ids_refuted"
   ],
   "note": "For every module and any functions inserted later, each once: both tables are exactly the position in the program, the assertions hold, getInstruction is right for every 64-bit id, metadata ids of a preprocessed module are unique and LLVMValueIDLess (with StringIDLess of C41) is the program order. fromMetaDataId always gives a value of the module. Partial: it is the inverse of getMetaDataID for functions whose names have no dot and no leading minus. Refuted: the id of an argument of f.1 gives an argument of f; strings that are no ids have values; a function inserted twice breaks the assertion and the agreement of the ids; without preprocessing ids are equal or those of an earlier numbering."
  },
  {
   "property": "C61",
   "status": "partial",
   "theorems": [
    "C61_builds",
    "C61_subtypes",
    "C61_self_first",
    "C61_preorder",
    "C61_getType",
    "C61_vtables",
    "C61_dot",
    "C61_json_partial",
    "C61_inherited_slot_refuted",
    "C61_json_null_refuted",
    "C61_json_typedef_refuted",
    "C61_json_namespace_refuted",
    "C61_json_c_structs_refuted",
    "C61_anonymous_refuted"
   ],
   "note": "The queries of the hierarchy are proved for every module with well-founded inheritance. Serialisation holds only for unique names and tables without gaps; the refuted theorems show what is lost otherwise, that tables lack inherited functions, and that a struct without a name stops the construction."
  },
  {
   "property": "C62",
   "status": "partial",
   "theorems": [
    "C62_category_names",
    "C62_parse",
    "C62_parse_rejects",
    "C62_marks_partial",
    "C62_category",
    "C62_leaks_and_sanitizers",
    "C62_generated",
    "C62_generates_partial",
    "C62_seeds",
    "C62_annotations_partial",
    "C62_overload_refuted",
    "C62_removed_refuted",
    "C62_address_refuted",
    "C62_member_refuted",
    "C62_generates_refuted",
    "C62_return_refuted",
    "C62_few_arguments_refuted",
    "C62_annotated_char_refuted",
    "C62_annotated_global_refuted",
    "C62_annotated_assigned_refuted",
    "C62_annotation_prefix_refuted"
   ],
   "note": "Reading, categories, seeds and the values generated, leaked and sanitized at an instruction are exact. The marked values are exact for unambiguous function names, functions that are only called and local variables; the refuted theorems show overloads, removed functions, addresses, struct members, return values and annotations where they are not."
  },
  {
   "property": "C63",
   "status": "partial",
   "theorems": [
    "C63_merge_and_equal",
    "C63_constants_are_right_partial",
    "C63_fitting_operations",
    "C63_call_and_return",
    "C63_void_return_refuted",
    "C63_surplus_refuted",
    "C63_inter_merge_refuted",
    "C63_join_refuted",
    "C63_argument_refuted",
    "C63_call_refuted",
    "C63_alias_refuted",
    "C63_wrap_refuted",
    "C63_overflow_refuted",
    "C63_monotone_refuted",
    "C63_loop_refuted"
   ],
   "note": "The constants of a finished solver run are right in every execution of a function without calls whose stores go directly to stack variables, if known variables are only overwritten by known values and no operation wraps. The refuted theorems show that each of these conditions is needed, that constants are lost at loop heads and joins, and that the analysis itself has undefined behaviour. The end of the solver is not proved."
  },
  {
   "property": "C64",
   "status": "partial",
   "theorems": [
    "C64_function_pointer",
    "C64_terminates",
    "C64_covers_partial",
    "C64_subset_of_naive",
    "C64_virtual_call",
    "C64_call_aliases",
    "C64_cast_refuted",
    "C64_alias_refuted",
    "C64_global_pointer_refuted",
    "C64_inner_pointer_refuted",
    "C64_secondary_table_refuted",
    "C64_short_table_refuted"
   ],
   "note": "The targets, the end of the search and the aliases introduced for calls are exact with respect to the given alias sets. A function is covered if it is itself in the alias set; the refuted theorems show constants for its address that are not followed, virtual calls through the second table of an object, and a table that is read out of bounds. The alias sets are those of C36 to C38 or any other."
  },
  {
   "property": "C65",
   "status": "partial",
   "theorems": [
    "C65_reports_exactly_what_the_histories_say",
    "C65_covers_executions",
    "C65_terminates",
    "C65_initialised_on_all_paths_refuted",
    "C65_initialised_again_refuted",
    "C65_indirect_calls_refuted",
    "C65_calls_that_do_not_return_refuted"
   ],
   "note": "The result of a finished run is characterised exactly by the histories of init and shutdown calls on paths that may step over calls, and covers every execution of programs that call the two functions by name. The refuted theorems show what INITIALIZED and BOT do not mean, and that calls through pointers are missed."
  },
  {
   "property": "C66",
   "status": "partial",
   "theorems": [
    "C66_written_by_two_statements",
    "C66_written_by_two_statements_is_not_listed",
    "C66_written_global",
    "C66_written_through_a_parameter",
    "C66_passed_to_callee",
    "C66_single_writes_are_no_facts",
    "C66_terminates",
    "C66_written_in_a_loop_refuted",
    "C66_written_before_abort_refuted",
    "C66_written_once_per_execution_refuted",
    "C66_results_depend_on_the_order_refuted",
    "C66_written_by_a_library_function_refuted",
    "C66_constants_are_reported_refuted"
   ],
   "note": "For every order of the solver's requests, locations that an execution writes by two statements (globals: by one) are facts behind one of them, given alias sets that cover the execution, and without two aliasing writes there are no facts. The refuted theorems show the mutations that are missed (a store in a loop, library functions, writes before abort), the exclusive branches that count as two writes, results that depend on the order of requests, and that the report is always empty because AllMemLocs is never filled."
  },
  {
   "property": "C67",
   "status": "partial",
   "theorems": [
    "C67_containers",
    "C67_terminates",
    "C67_fresh_on_all_paths",
    "C67_exact_without_loops",
    "C67_loops_forget",
    "C67_reported_is_uninitialised_partial",
    "C67_other_stores_refuted",
    "C67_alias_refuted",
    "C67_call_refuted",
    "C67_undef_refuted",
    "C67_loop_refuted"
   ],
   "note": "The solver ends; what is reported was allocated and not set by a constant integer on every path (exactly so without loops), and is uninitialised in every execution of programs that only store integer constants directly. The refuted theorems show the initialisations that are not recognised (non-constant or non-integer values, aliases, calls), that storing undef counts as one, and that loops forget all variables allocated before them."
  },
  {
   "property": "C68",
   "status": "partial",
   "theorems": [
    "C68_leaks_are_found_partial",
    "C68_normal",
    "C68_call_and_return",
    "C68_call_to_return",
    "C68_distributive",
    "C68_leaks",
    "C68_equal",
    "C68_seeds",
    "C68_graph",
    "C68_operations_refuted",
    "C68_library_call_refuted",
    "C68_library_result_refuted",
    "C68_alias_refuted",
    "C68_global_refuted",
    "C68_sanitizer_with_body_refuted"
   ],
   "note": "The flow functions are characterised exactly and distribute over the merge; in simple programs every leak of an execution is recorded along its path. Missing: other programs, sanitizers in the execution theorem, and the solver (whose table does not cover all paths, C26). The refuted theorems show the leaks that are missed (operations, phi nodes, library calls and results, aliases, globals in callees) and that a sanitizer with a body does not remove the taint."
  },
  {
   "property": "C69",
   "status": "partial",
   "theorems": [
    "C69_lookup",
    "C69_unknown_parameter_refuted",
    "C69_llvm_lookup_partial",
    "C69_asking_changes_refuted",
    "C69_insert_refuted",
    "C69_contains",
    "C69_read",
    "C69_libc",
    "C69_libc_copies_partial",
    "C69_libc_refuted"
   ],
   "note": "After every history of calls the tables answer with what they were given, and readFromFDFF gives each function the facts of its name in whatever order names are visited. Refuted: an unknown parameter of a known function dereferences the end iterator; lookups in the LLVM table add entries that make a later insertSet ineffective; insertSet after addElement inserts nothing; the C library summaries miss the flows of snprintf and the results of memcpy and strcpy. The positive libc theorem covers six functions of string.h."
  },
  {
   "property": "C70",
   "status": "partial",
   "theorems": [
    "C70_asserts",
    "C70_timers",
    "C70_running",
    "C70_stopped",
    "C70_pauses",
    "C70_stop_all",
    "C70_counter",
    "C70_sum",
    "C70_sum_unregistered",
    "C70_histogram",
    "C70_hms",
    "C70_stop_twice_refuted",
    "C70_paused_refuted",
    "C70_reset_refuted",
    "C70_wrap_refuted"
   ],
   "note": "After every history of calls that does not abort, timers, pauses, counters, sums and histograms have the values the history gives, and with asserts nothing is undefined. Refuted: without asserts, stopping a stopped timer dereferences the end iterator; a paused timer has elapsed time 0; a reset keeps the paused intervals; counters wrap around modulo 2^32."
  },
  {
   "property": "C71",
   "status": "partial",
   "theorems": [
    "C71_parse",
    "C71_round_trip",
    "C71_round_trip_plain",
    "C71_alias_result_refuted",
    "C71_severity_refuted"
   ],
   "note": "Five enumerations with command-line flags are parsed exactly by name or flag, and printed enumerators are read back. Refuted: toAliasResult lacks the include of its .def file and reads every string as MayAlias; the invalid severity level is printed as DEBUG."
  }
 ]
}