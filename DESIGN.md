# Formal model of phasar: design

Subject: the C++ sources in `/repo` (read as text, not built, not changed).
Prover: Rocq/Coq 8.16.1.  All files are under `rocq/theories/`, logical root `Verif`.

## 1. Layout

Each modelled component `X` has

* `XModel.v`  - executable Gallina definitions, one per C++ function, each with
  a comment citing file and lines and naming the simplification, no proofs;
* `XProofs.v` - invariants and proofs;
* `XProperties.v` - an independent specification (where one is needed), the
  theorems, each closed by `exact`/`apply` of a proved lemma, `Print Assumptions`
  below each, and `Example`s showing that the hypotheses are met by a concrete
  non-trivial case.

## 2. Trusted base

* the Coq kernel (and `coqchk`);
* the assumptions printed by `Print Assumptions` (see section 5; the aim is
  "Closed under the global context" for every theorem);
* the reading of the C++ code: every definition cites the lines it models.
* LLVM, the C++ standard library and boost containers are not modelled beyond
  their documented contract (ordered/unordered maps are finite maps; iteration
  order of pointer-keyed containers is arbitrary).
* logging (`PHASAR_LOG*`), statistics (`PAMM`), DOT output are not modelled.

## 3. Modelling conventions

* Undefined behaviour (assert failure, out-of-bounds, use after free, popping an
  empty vector) is a distinct outcome, never silently totalised.
* Loops that need not terminate are either relations (`step` + reflexive
  transitive closure) or functions with fuel and an explicit out-of-fuel result.
* Template parameters (nodes, facts, values, edge functions) are section
  variables; their required laws are explicit hypotheses of the theorems.
* Hash/pointer ordered iteration: theorems about the solver quantify over an
  arbitrary choice of the work item and an arbitrary permutation of the pushed
  items, so they hold for every container order.

## 4. Plan per property

| id | model | proof idea |
|----|-------|-----------|
| C01 | `IDESolverModel.v`: full phase I (`processCall`, `processExit`, `processNormalFlow`, `propagate`, end summaries, incoming table, special summaries, unbalanced returns) and phase II | spec: push-down runs of the exploded super-graph; invariant "each consequence of a stored jump function is covered by the table or the worklist"; decomposition of push-down runs |
| C02 | same | invariant "every stored/pending function is a finite join of path functions" |
| C03 | same | the two invariants at an empty worklist |
| C04 | same | corollary of C01-C03 (both runs equal the same least upper bound) |
| C05 | same | lexicographic measure (sum of heights, worklist length) |
| C06 | `SolverAPIModel.v` over an abstract stepping machine | induction on steps; `solve` = iterate `next` |
| C07 | same | refuted with a witness (cancel at the empty worklist); what holds: continuing is safe if the worklist is not empty |
| C08 | same | refuted: the adaptive step count reaches 0 and stays there; partial: progress while the count is positive |
| C09 | IDE model | refuted with a concrete program; the start-point case is C01 |
| C10 | IDE model | refuted with a concrete program and two schedules |
| C11 | instance of the IDE model | C01+C02 with the binary domain |
| C12 | `JumpFunctionsModel.v` | invariant over operation lists; removal refuted |
| C13, C14 | `EdgeFunctionModel.v`: syntax of library edge functions | induction on fuel/structure |
| C15 | `LatticeModel.v` | case analysis |
| C16 | `FlowFunctionsModel.v` | set extensionality |
| C17 | `FlowCacheModel.v` | invariant: cached = fresh; key packing injective below 2^32 |
| C18 | `EquivClassMapModel.v` | invariant; re-insertion with another value refuted |
| C19, C20 | `BitVectorSetModel.v` | refinement to finite sets; hash refuted |
| C21, C22 | `StableVectorModel.v` | index arithmetic, refinement to lists; shrink refuted |
| C23 | `DFAMinimizerModel.v` | bisimulation |
| C24 | `CallStringModel.v` | refinement to suffixes |
| C25 | `IntraMonoModel.v` | worklist invariant, least fixed point |
| C26 | `InterMonoModel.v` | refuted by callee order |
| C27 | `LCAModel.v` | Z arithmetic; refuted for unsigned and narrow types; proved for the rest |
| C28, C29 | `GLCAModel.v` | arithmetic; subtraction refuted; lattice laws |
| C30 | `XTaintModel.v` | refuted (asymmetry); remaining laws proved |
| C31 | `TypeStateModel.v` | induction over call sequences; finite table facts |
| C32 | `IIAModel.v` | set algebra; identity case refuted |
| C33, C34 | `CallGraphModel.v` | multiset invariant over builder histories |
| C35 | `CGBuilderModel.v` | worklist invariant, reachability |
| C36-C38 | `AliasSetModel.v` | refinement of union-by-size heap to a partition; mergeWith refuted |
| C39 | `TypeHierarchyModel.v` | closure; serialisation refuted |
| C40 | `ResolverModel.v` | set inclusion |
| C41 | `UtilitiesModel.v` | induction; refuted parts with witnesses |
| C42 | `MaybeUniquePtrModel.v` | ownership invariant |
| C43 | `SeedsModel.v` | map lemmas |
| C44 | `TableModel.v` | map refinement |
| C45 | `SolverResultsModel.v` | map lemmas |
| C49 | `EdgeFunctionMemModel.v` | reference-count invariant, acyclic heap, readback of values |
| C50 | `LLVMFlowFunctionsModel.v` | the documented formulas as relations, case analysis |
| C51 | `LCAProgramModel.v` | executions of the program (`LCAProgramSpec.v`); invariant: each value is covered by an analysis path valid for the call stack, then C01 and C05 |
| C52 | `IRProgramModel.v`, `UninitModel.v` | executions in which each value is marked or not (`IRProgramSpec.v`, `UninitSpec.v`); invariant (`IRProgramSim.v`): each marked value is a fact of a path valid for the call stack, then C01 |
| C53 | `IRProgramModel.v`, `TaintModel.v` | the same executions with tainted values marked (`TaintSpec.v`), policy separate from the configuration; the invariant of `IRProgramSim.v`, then C01 |
| C54 | `ExplodedSuperGraphModel.v` | the flows reported by the calls, the backwards paths over them and the traces readable off the graph (`ExplodedSuperGraphSpec.v`); induction over the calls |
| C55 | `PathDagModel.v` | traces back through the exploded supergraph under the two filters, readings of graphs (`PathDagSpec.v`); invariant of the memoised search over cache, path and graph; bisimulation of C23 for minimisation |
| C56 | `AmlModel.v` | run time pointers, the accesses that lead to them, the accesses a location covers (`AmlSpec.v`); invariant of the factory over all histories of requests; the pool as blocks with disjoint objects |
| C57 | `PathFilterModel.v` | paths of a graph, constraints taken along a path, balanced calls and returns, contracts of solver and sort (`PathFilterSpec.v`); invariant of the memoised filter; the traversal state is the state of the path walked (call stack and solver scopes restored); composed with C55 |
| C58 | `BranchConstraintModel.v` | value of z3 terms (SMT-LIB division), value of IR instructions modulo 2^n, the conditions that are understood, executions along a path (`BranchConstraintSpec.v`); the table against versions without it, fuel monotonicity; composed with C57 |
| C59 | `GlobalModelModel.v` | executions of the functions made as sequences of calls, stable order by priority, registrations by initializers and others, what the C runtime does at exit (`GlobalModelSpec.v`) |
| C60 | `IRDBModel.v` | positions in the list of all globals and instructions (`IRDBSpec.v`), decimal notation of C41 (`UtilitiesSpec.v`) |
| C61 | `DIHierarchyModel.v` | sub-types are the closure of inheritance (depth-first ranges); tables; serialisation refuted in four ways |
| C62 | `TaintConfigModel.v` | reading of configurations, marked values, queries and seeds are exact for plain modules; eleven ways in which they are not |
| C63 | `FullConstModel.v` | constants are right in all executions of simple functions in which known variables stay known and nothing wraps; each condition is shown to be needed |
| C64 | `OTFModel.v` | targets of indirect and virtual calls and aliases of calls are exact for given alias sets, and the search ends; which addresses of functions are missed |
| C65 | `SecureHeapModel.v` | the reported state of the secure heap is exactly given by the histories of init and shutdown calls; which executions it does not describe |
| C66 | `ConstAnalysisModel.v` | locations written by two statements are facts for every order of requests; mutations that are missed; the empty report |
| C67 | `MonoUninitModel.v` | reported variables were not set on any path; exact without loops; the end of the solver; initialisations that are not seen |
| C68 | `MonoTaintModel.v` | what the flow functions pass on; leaks of executions are recorded along their path; what untaints wrongly |
| C69 | `FlowFactsModel.v` | library summaries after any history of calls; reading them for a program; the C library's |
| C70 | `PAMMModel.v` | timers, counters and histograms after any history of calls, with and without asserts; splitting durations |
| C71 | `EnumNamesModel.v` | printing and parsing of the enumerations that are generated from .def files |

Statements that turn out false of the faithful model are proved as
`..._refuted` with a witness and recorded in section 6.

## 5. Theorem/assumption table

`Print Assumptions` prints "Closed under the global context" for every theorem below (648 theorems): no axioms are used.
`coqchk`-style listings of loaded libraries may name the abstract constants of `Coq.ssr.ssrunder`, which are loaded with the
standard library and used by no theorem.

| id | status | file | theorems |
|----|--------|------|----------|
| C01 | proved | IDEProperties | results_cover_every_valid_path, results_cover_every_valid_path_no_top |
| C02 | proved | IDEProperties | results_are_join_over_valid_paths, results_not_above_join_of_valid_paths, results_are_join_if_joins_are_exact_where_they_occur |
| C03 | proved | IDEProperties | jump_functions_cover_same_level_paths, jump_functions_are_joins_of_same_level_paths |
| C04 | proved | IDEProperties | results_do_not_depend_on_schedule, solve_is_a_schedule |
| C05 | proved | IDEProperties | solver_terminates, no_infinite_jump_function_phase, no_infinite_value_phase |
| C06 | proved | SolverAPIProperties | interrupted_run_equals_solve, cancelled_state_is_prefix, cancelled_run_can_be_completed |
| C07 | partial | SolverAPIProperties | cancelled_solve_can_be_continued_refuted, async_cancelled_solve_can_be_continued_refuted, continue_with_work_left_partial |
| C08 | partial | SolverAPIProperties | time_limited_solving_progresses_refuted, fast_enough_rounds_finish_partial |
| C09 | partial | IDEProperties | seeds_at_any_instruction_refuted |
| C10 | partial | IDEProperties | unbalanced_returns_schedule_independent_refuted |
| C11 | proved | IFDSProperties | ifds_results_are_valid_path_facts, ifds_terminates |
| C12 | partial | JumpFunctionsProperties | jump_function_views_agree, jump_function_views_nodup, remove_keeps_views_consistent_refuted, remove_result_refuted |
| C13 | partial | EdgeFunctionProperties | compose_is_composition, compose_over_approximates, compose_after_AllBottom, edge_functions_are_monotone, equal_edge_functions_agree, compose_keeps_constants_proper, compose_exact_for_all_refuted |
| C14 | partial | EdgeFunctionProperties | join_is_upper_bound, join_edge_function_is_exact, join_with_equal_is_stable, repeated_join_is_stable_partial, covered_join_is_stable_refuted |
| C15 | proved | LatticeProperties | lattice_domain_is_semilattice, equality_meaning, less_total, less_is_strict_order, top_least_bottom_greatest, equal_values_hash_equally, binary_domain_is_semilattice |
| C16 | proved | FlowFunctionsProperties | targets_are_as_documented, targets_are_a_set, calls_do_not_influence_each_other, ranges_become_sets, compose_is_composition, legacy_union_is_union, zero_is_kept, gen_and_kill_is_kill_then_gen |
| C17 | partial | FlowCacheProperties | cache_is_transparent, key_packing_is_injective, callees_are_part_of_the_query_refuted, wide_integral_nodes_refuted |
| C18 | partial | EquivClassMapProperties | find_after_any_history, count_after_any_history, one_class_per_value, map_for_unique_values, equal_values_share_a_class, first_insertion_wins_refuted, last_insertion_wins_refuted |
| C19 | partial | BitVectorSetProperties | membership, size, empty, iteration, equality, inclusion, less_is_strict_total_order, iteration_with_insertions_partial, iteration_with_insertions_refuted |
| C20 | partial | BitVectorSetProperties | equal_nonempty_sets_hash_equally_partial, equal_sets_hash_equally_refuted |
| C21 | proved | StableVectorProperties | is_a_sequence, references_are_stable, addresses_are_distinct, emplace_back_returns_the_element, copy, several_vectors, destructor_releases_memory |
| C22 | partial | StableVectorProperties | shrink_to_fit_keeps_vector_usable_refuted, write_pointer_dangles_refuted, shrink_to_fit_of_nonempty_partial, shrink_to_fit_keeps_addresses_partial, shrink_to_fit_releases_blocks |
| C23 | proved | DFAMinimizerProperties | minimised_graph_reads_the_same, merges_only_equivalent_states, never_larger, minimal_refuted |
| C24 | proved | CallStringProperties | context_is_the_top_of_the_stack, exact_up_to_depth_K, pop_returns_the_innermost_call, equality_is_equality_of_content, constructor_limits, K_zero_is_unlimited, K_zero_refuted, print_separates_refuted |
| C25 | proved | IntraMonoProperties | result_satisfies_the_equations, result_is_above_all_paths, result_is_the_least_solution, distributive_result_is_the_join_over_paths, terminates, genkill_terminates, missed_branch_target_refuted, seed_in_loop_diverges_refuted, seed_with_predecessors_refuted |
| C25 | proved | IntraMonoCover | end_respects_edges |
| C26 | partial | InterMonoProperties | single_callees_are_covered_partial, contexts_are_k_limited, every_callee_refuted, second_call_site_refuted, returned_facts_refuted, seed_in_called_function_refuted, two_seeds_refuted, recursive_call_refuted, returns_to_the_caller_refuted, contexts_overwrite_each_other_refuted |
| C27 | partial | LCAProperties | folded_constant_is_the_llvm_value_partial, exact_at_64_bits, wrong_iff_it_leaves_the_range, narrow_overflow_refuted, unsigned_division_refuted, unsigned_remainder_refuted, undefined_behaviour, undefined_remainder_refuted, otherwise_bottom, edge_computes_the_operation, equal_edges_agree, edges_monotone_refuted |
| C28 | partial | GLCAProperties | element_operation_is_exact_partial, subtraction_is_zero, subtraction_refuted, element_operation_undefined, set_operation_is_pairwise, set_operation_is_sound_partial, possible_zero_divisor_refuted, cast_keeps_the_width, cast_then_add_refuted, sign_extension_keeps_the_number, zero_extension_refuted, truncation_refuted |
| C29 | partial | GLCAProperties | join_is_the_least_upper_bound, join_is_commutative, join_is_associative, join_is_idempotent, unit_and_absorbing, join_over_approximates, less_is_the_strict_order, compare_refuted, associative_fp_refuted, over_approximates_fp_refuted, idempotent_fp_refuted, hash_fp_refuted |
| C30 | partial | XTaintProperties | join_kinds, join_positions, join_commutative_partial, join_commutative_refuted, join_commutative_switch_refuted, join_associative_refuted, merged_position, merged_position_loop_refuted, claims_both_refuted, compose, compose_exact_refuted, transfer_join_refuted, kill_monotone, transfer_monotone_refuted |
| C31 | partial | TypeStateProperties | tables, no_undefined_behaviour, runs_automaton, compose, compose_bottom_refuted, error_sticks, secure_heap_error_refuted, join_lub, edge_join_upper_bound, edge_equality, traits_join_refuted, monotone_refuted, call_edge, call_edge_covers_refuted, file_protocol, kdf_protocol, kdf_context_protocol, secure_memory_protocol |
| C32 | partial | IIAProperties | join_lub, extend, extend_top_refuted, combine_partial, combine_identity_refuted, combine_top_refuted, store_edges_handled, store_labels, weak_update_refuted, fields_k_limited, fact_equality_refuted |
| C33 | partial | CallGraphProperties | queries_exact, mutually_inverse, vertices, call_site_pointers_stable, reserve_suffices, capacity_refuted, second_reserve_refuted |
| C34 | partial | CallGraphProperties | json_roundtrip_partial, deserialize_total, empty_graph_refuted, lost_call_site_refuted, wide_ids_refuted, unknown_call_site_refuted |
| C35 | partial | CGBuilderProperties | terminates, no_duplicates, covers_partial, undeclared_mutation_refuted, same_count_refuted, declared_entry_refuted |
| C36 | partial | AliasSetProperties | generated, equivalence_partial, exact_partial, constructor, alias, getAliasSet, allocation_sites, json_partial, may_alias_lost_refuted |
| C37 | partial | AliasSetProperties | memory_safe_partial, store_to_null_refuted, after_json_refuted |
| C38 | partial | AliasSetProperties | merge_partial, merge_refuted |
| C39 | partial | TypeHierarchyProperties | subtypes_partial, isSubType_partial, preorder, getType, json_partial, template_base_refuted, json_empty_refuted, json_unnamed_refuted, json_missing_type_refuted |
| C40 | partial | ResolverProperties | signature, tables_total, cha_exact, cha_covers_partial, rta_subset, rta_fallback, rta_exact, dta_fallback, function_pointer, allocated, secondary_base_refuted, virtual_base_refuted, covariant_return_refuted, struct_function_pointer_refuted, rta_global_object_refuted, rta_variadic_refuted, otf_builder_refuted, builder |
| C41 | partial | UtilitiesProperties | power_set_partial, power_set_empty_refuted, power_set_shift_refuted, remove_by_index, remove_out_of_range_refuted, remove_forward_partial, remove_forward_refuted, intersect, string_id_order, string_id_separates_partial, string_id_separates_refuted, constructor_name_refuted |
| C42 | proved | MaybeUniquePtrProperties | representation, no_assertion_fails, deleted_exactly_once, deletes_only_what_it_owns, owner_is_unique_and_alive, owner_deletes, borrower_never_deletes, move_assignment_swaps, misaligned_refuted |
| C43 | proved | SeedsProperties | seeds_are_the_start_points, other_seeds_stay, one_entry_per_fact, seeds_of_sets, entry_functions, seeded_functions_are_entries, all_internal_refuted |
| C44 | partial | TableProperties | table_is_two_key_map, remove_returns_old_value, row_accessor_creates_phantom_row_refuted |
| C45 | partial | SolverResultsProperties | results_are_the_row, result_at, ifds_results, all_entries, ifds_absent_fact_refuted, ssa_void, ssa_inner_partial, ssa_merged, ssa_terminator_partial, ssa_queries_agree_partial, solver_queries, solver_strip_refuted, ssa_queries_agree_refuted, ssa_debug_instruction_refuted, ssa_other_target_refuted, solver_ifds_invoke_refuted |
| C46 | partial | LLVMCFGProperties | successors_are_what_executes_next, successors_execute_next, lazy_initialisation_successor_refuted, predecessors_are_the_converse, successors_know_their_predecessor, lazy_initialisation_converse_refuted, edges_stay_in_the_graph, all_edges, start_point, is_start_point_refuted, exit_points, branch_targets, branch_target_behind_debug_instruction_refuted, the_cfg_is_a_graph, monotone_solver_on_llvm_functions, monotone_solver_behind_debug_instruction_refuted |
| C47 | partial | LLVMCFGProperties | backward_is_the_converse, artificial_return, start_and_exit_points, all_edges_point_forwards, all_edges_refuted, ignored_debug_edges_refuted, predecessors_of_the_return_refuted, branch_targets_refuted |
| C48 | partial | TypeGraphProperties | types_are_reachable_partial, queries_do_not_matter_partial, literal_struct_asserts_refuted, literal_struct_types_refuted, unnamed_types_refuted |
| C49 | partial | EdgeFunctionMemProperties | no_undefined_behaviour, value_semantics, reference_counts_exact, alive_iff_needed, nothing_left, cache_content, cached_functions_are_singletons, equality, hash_of_hashable_classes, small_reference_equality, order_asymmetric, hash_agrees_with_equality_refuted, small_cached_reference_equality_refuted, order_transitive_refuted, irreflexive_equality_refuted |
| C50 | partial | LLVMFlowFunctionsProperties | alongside_as_documented, to_callee_exact, to_callee_as_documented, to_callee_defined, to_caller_exact, to_caller_zero_is_a_global, to_callee_drops_zero, argument_round_trip, strong_update_if, strong_update, strong_update_through_cast, alongside_global_argument_refuted, to_callee_sret_refuted, to_callee_moved_refuted, to_caller_zero_refuted, sret_argument_lost_refuted |
| C51 | partial | LCAProgramProperties | reported_constants_are_the_values_partial, terminates, edges_are_linear, unknown_result_refuted, external_write_refuted, pointers_refuted, extern_global_refuted, arithmetic_refuted |
| C52 | partial | UninitProperties | uninitialised_uses_are_reported_partial, terminates, external_call_refuted, indirect_call_refuted, global_refuted, struct_refuted, undef_call_refuted, pointers_refuted, false_alarms_refuted |
| C53 | partial | TaintProperties | leaks_are_reported_partial, terminates, store, return, sanitizer_with_body, reports_are_sink_facts, operations_refuted, parameter_used_once_refuted, library_function_refuted, alias_behind_refuted, sanitizer_refuted |
| C54 | partial | ExplodedSuperGraphProperties | reported_pairs_are_found, nodes_carry_their_fact_partial, traces_are_flows_partial, flows_are_recorded_partial, predecessors_end_partial, traces_are_flows_refuted, predecessors_end_refuted, predecessors_end_in_one_block_refuted, every_call_site_is_traced_refuted, every_block_is_traced_refuted, assertion_refuted, traces_from_entry_points_refuted, seeds_are_found_refuted |
| C55 | partial | PathDagProperties | result_is_acyclic, nothing_is_logged, paths_are_traces, traces_are_found_partial, some_trace_is_found, search_ends_partial, paths_are_flows_partial, cycle_check_is_exact, reversed_graph_reads_back, reversed_to_a_depth, search_ends_refuted, simple_traces_are_found_refuted, each_fact_gets_a_path_refuted, threshold_keeps_whole_paths_refuted, filtered_traces_are_found_refuted, seeds_are_answered_refuted |
| C56 | partial | AmlProperties | factory_total, one_object, create_covers, create_stands_for, same_location_same_pointer, create_canonical, create_covers_partial, indirection_covers, offset_covers_partial, offsets_covers_partial, transfer_from_covers_partial, transfer_from_pointer, transfer_to_covers_iff, transfer_to_overapproximates, equivalent_iff, covering_equivalent, prefix_strict_order, prefix_reaches, prefix_covers, except_arithmetics_iff, alias_prefix_reaches, minus_prefix, must_alias_partial, stored_fact_partial, pool_partial, pool_refuted, destroyed_size_refuted, create_variable_refuted, offset_refuted, offsets_refuted, transfer_from_refuted, transfer_to_refuted, stored_fact_refuted, must_alias_refuted, equivalent_transitive_refuted, lifetime_refuted |
| C57 | partial | PathFilterProperties | feasible_paths_are_kept, edges_left_are_feasible, formula_is_some_path, paths_are_exact_partial, threshold_partial, duplicates_are_removed, successor_check, pathsTo_partial, returns_have_paths_refuted, loops_have_paths_refuted, threshold_is_a_bound_refuted |
| C58 | partial | BranchConstraintProperties | table_is_transparent, variables_of_constraint, constraint_says_when_taken_partial, executed_paths_are_taken_partial, executed_paths_are_reported_partial, reassigned_variable_refuted, same_name_refuted, two_calls_refuted, overflow_refuted, unsigned_refuted, signed_division_refuted, zero_extension_refuted, truncated_boolean_refuted, equal_targets_refuted, loaded_pointer_refuted, conditions_have_constraints_refuted, search_ends_refuted, untaken_edges_are_excluded_refuted |
| C59 | partial | GlobalModelProperties | calls_in_order, order_is_unique, selector_is_valid, entry_functions, made_functions_are_recognised_partial, entry_points_are_called_refuted, exit_order_refuted, registration_order_refuted, second_model_refuted, made_functions_are_recognised_refuted |
| C60 | partial | IRDBProperties | ids_are_positions, get_instruction, metadata_ids_are_unique, order_is_program_order, round_trip_partial, from_metadata_is_within, round_trip_refuted, only_ids_have_values_refuted, inserted_twice_refuted, unprocessed_ids_refuted, earlier_ids_refuted |
| C61 | partial | DIHierarchyProperties | builds, subtypes, self_first, preorder, getType, vtables, dot, json_partial, inherited_slot_refuted, json_null_refuted, json_typedef_refuted, json_namespace_refuted, json_c_structs_refuted, anonymous_refuted |
| C62 | partial | TaintConfigProperties | category_names, parse, parse_rejects, marks_partial, category, leaks_and_sanitizers, generated, generates_partial, seeds, annotations_partial, overload_refuted, removed_refuted, address_refuted, member_refuted, generates_refuted, return_refuted, few_arguments_refuted, annotated_char_refuted, annotated_global_refuted, annotated_assigned_refuted, annotation_prefix_refuted |
| C63 | partial | FullConstProperties | merge_and_equal, constants_are_right_partial, fitting_operations, call_and_return, void_return_refuted, surplus_refuted, inter_merge_refuted, join_refuted, argument_refuted, call_refuted, alias_refuted, wrap_refuted, overflow_refuted, monotone_refuted, loop_refuted |
| C64 | partial | OTFProperties | function_pointer, terminates, covers_partial, subset_of_naive, virtual_call, call_aliases, cast_refuted, alias_refuted, global_pointer_refuted, inner_pointer_refuted, secondary_table_refuted, short_table_refuted |
| C65 | partial | SecureHeapProperties | reports_exactly_what_the_histories_say, covers_executions, terminates, initialised_on_all_paths_refuted, initialised_again_refuted, indirect_calls_refuted, calls_that_do_not_return_refuted |
| C66 | partial | ConstAnalysisProperties | written_by_two_statements, written_by_two_statements_is_not_listed, written_global, written_through_a_parameter, passed_to_callee, single_writes_are_no_facts, terminates, written_in_a_loop_refuted, written_before_abort_refuted, written_once_per_execution_refuted, results_depend_on_the_order_refuted, written_by_a_library_function_refuted, constants_are_reported_refuted |
| C67 | partial | MonoUninitProperties | containers, terminates, fresh_on_all_paths, exact_without_loops, loops_forget, reported_is_uninitialised_partial, other_stores_refuted, alias_refuted, call_refuted, undef_refuted, loop_refuted |
| C68 | partial | MonoTaintProperties | leaks_are_found_partial, normal, call_and_return, call_to_return, distributive, leaks, equal, seeds, graph, operations_refuted, library_call_refuted, library_result_refuted, alias_refuted, global_refuted, sanitizer_with_body_refuted |
| C69 | partial | FlowFactsProperties | lookup, unknown_parameter_refuted, llvm_lookup_partial, asking_changes_refuted, insert_refuted, contains, read, libc, libc_copies_partial, libc_refuted |
| C70 | partial | PAMMProperties | asserts, timers, running, stopped, pauses, stop_all, counter, sum, sum_unregistered, histogram, hms, stop_twice_refuted, paused_refuted, reset_refuted, wrap_refuted |
| C71 | partial | EnumNamesProperties | parse, round_trip, round_trip_plain, alias_result_refuted, severity_refuted |

Theorem names are prefixed with the id.

## 6. Findings (places where the code violates the property)

Each item is a theorem whose name ends in `_refuted`, with a concrete witness, unless marked (read only).

**IDE/IFDS solver.** C07: `solveUntil`/`solveWithAsyncCancellation` cancelled when the worklist is empty leads to a
step on an empty worklist. C08: the adaptive number of steps per poll reaches 0 and stays there (livelock). C09: seeds at
nodes that are not start points get no values in phase II. C10: with followReturnsPastSeeds the result depends on the
schedule. C12: `removeFunction` clears the by-target table and returns the wrong flag. C44: `Table::row` on a missing row
creates a row without cells. C45: `resultAt` of an IFDS fact that never held gives the value of facts that hold;
`IDESolver::resultsAtInLLVMSSA` passes StripZero as AllowOverapproximation; value-producing instructions before a debug
instruction have no results; an invoke with a single-predecessor landing pad loses the facts of the normal return.
C43: `__ALL__` seeds functions with internal linkage that the call graph does not start from.

**Edge and flow functions.** C13: composing with AllTop/AllBottom is inexact for functions that map top or bottom
elsewhere. C14: the order of joins compares addresses. C17: the call-to-return cache ignores the callees; integral
nodes from 2^32 on are conflated. C49: hash codes of equal
EdgeFunctions differ for classes without a hash function, and for small classes made through a cache (uninitialised bytes);
`operator<` is not transitive; (read only) the DefaultEdgeFunctionSingletonCache of a small class cannot be instantiated. (read only) transferFlow(v,v): code and documentation can be read differently.
C50: a global passed as argument ignores PropagateArgs, sret arguments are not passed to the callee, `mapFactsToCallee` reads
the fact after moving it, `mapFactsToCaller` returns zero although told not to.

**Containers and helpers.** C18: re-insertion into EquivalenceClassMap. C19: iterating a BitVectorSet while another set
registers a value. C20: a set erased to empty hashes differently from a fresh one. C22: `StableVector::shrink_to_fit`
after `clear` leaves a dangling write pointer. C23: the minimiser is not minimal on cycles. C24: K = 0 means unlimited
contexts, print omits separators; (read only) operator< names a member that does not exist. C41: power set of the empty
set and of 32 or more elements, forward `remove_by_index`, `StringIDLess` typo, `isConstructor` false positives;
(read only) the collecting `intersectWith` does not compile. C42: only outside the documented alignment.

**Monotone framework.** C25: seeds at nodes with predecessors are lost or make the solver diverge; join points behind debug
instructions. C26: callees behind an already added one are skipped, contexts cut to the same string overwrite each other,
returned facts are not propagated, several seeds wipe each other, recursive calls take the call-to-return flow.

**Client domains.** C51: linear constant analysis reports wrong constants: an unknown value (result of a function without a body,
parameter of main, cast) deletes the fact, and the constant of the other branch survives the join; functions without a body do not
write; pointers and aliased parameters; globals without initializer; wrap-around; `extractvalue 1` of an overflow intrinsic. C52: uses of uninitialised variables
are missed after calls of functions without a body or through pointers, through globals, for structs, for undef arguments and
results, and through pointers; pointers to uninitialised variables are false alarms. C53: taint is lost through operations, phis
and selects, through a pointer parameter with a single use (it does not come back to the caller), through library functions
without a summary or with a sink parameter, and through aliases that are loaded later in the basic block; a sanitizer without a
body has no effect.
C27: narrow overflow, unsigned division and remainder, `min % -1`, Top treated as Bottom by binary
operations. C28: `operator-` computes Lhs - Lhs, zero divisors, casts that keep the width. C29: epsilon equality, NaN,
`compare` with {top}. C30: asymmetric and non-associative join, wrong loop positions, inexact compose, non-monotone
transfer. C31: compose after AllBottom, secure heap error state, wrong join traits, non-monotone, call edges. C32: combine
with the identity, extend after AllTop, weak updates, fact equality ignoring indices.

**Call graph, CFG, resolvers.** C33: exceeding the capacity, second reserve. C34: empty graph, call sites without
callees, wide ids, unknown ids. C35: resolvers that mutate without saying so, answers of the same size, declared entry
points. C39: template bases, empty hierarchy, unnamed types, missing types. C40: secondary and virtual bases, covariant returns,
calls through struct fields taken for virtual calls, RTA and global objects, RTA and functions without parameters, the
builder does not pass alias information to OTF. C46, C47: see the claims. C48: literal structs, unnamed types.

**Aliasing.** C36: a non-transitive may-alias answer loses pairs. C37: stores to null, use after loading JSON.
C38: mergeWith is not symmetric and loses pairs.

**Path sensitivity.** C54: pairs of one block share a node, so that an alternative entering at a later instruction is offered
to earlier ones; a node without predecessor is linked to the next flow that reaches it, which makes cycles of predecessors
without alternatives (`main` starting with a call of a function that it calls again; copying a seeded fact to another one and back),
on which the do-while loop of pathsToImplLAInvoke does not end; of several call sites of a function in one block only one is
traced; a callee of one instruction is left out of the trace; with several entry points the assertion at ExplodedSuperGraph.h:319 fails or
a trace shows the call of a function in place of its start; a seed without recorded outflow is not found. saveEdges reads
CurrNode after moving it; getNumNeighbors returns bool. C55: pathsDagToAll caches a node while it is in progress, so what is found for a node depends on where
the search came from: in a loop with two branches the path that takes one branch first and the other later is lost (the reverse
order is kept), and of two facts the second may be left without path although it has one; a path that the end filter ends at a node is lost when
another path continues there; an alternative for which both filters hold is an error, a predecessor for which both hold is an end;
a path cut by DAGDepthThreshold is indistinguishable from a whole one; a fact without path yields the lone instruction; the search aborts for a pair
without node and does not end on the cyclic graphs of C54.

**Extended taint analysis.** C56: an AbstractMemoryLocation with a variable index keeps offset 0 (createImpl) whereas withOffset drops
the offset, so p[i] and p[4] are not equivalent; at the k-limit withOffset and withOffsets drop the offset but keep the old one;
withTransferTo sets the last offset to 0, so a tainted field arrives in the callee as the one at offset 0, and keeps the last offset
of the argument in front of further ones; withTransferFrom of an over-approximation returns the argument itself, no longer an
over-approximation; a tainted pointer with an offset that is stored and loaded back is not recognised; mustAlias compares prefixes
only, so a store to p kills taints on what p points to; the profile of a location has only whether its lifetime is 0, so lifetimes
(and what is derived) depend on the order of requests. The constructor of Allocator does not set the member InitialCapacity (hidden
by its parameter) and its destructor uses that size for the newest block instead of the oldest (it matters for ASAN builds only); an
object larger than a block is written past its end (bounds above 6140).

**C57 (Z3BasedPathSensitivityManager).** If the instruction asked for is a return, saveFinalEdge pops the call that entered its
function and demands that the return comes right after it, so no path through a call is found. saveFinalEdge also adds the
constraint of the edge from the last instruction to itself: for a branch to its own block the condition for another iteration. The
threshold on paths is not checked where a path ends, so more paths can be returned.

**C58 (LLVMPathConstraints).** Executed paths are dropped because: a variable is one constant even when it is assigned between two
branches; constants are identified by name, so variables of one name (or without name) and all calls of a function are one; integers
are unbounded, unsigned comparisons and divisions signed, casts ignored; a branch on a truncated boolean gets `x % 2 == 1` on the
edge for false too; a branch with equal targets gets the condition for true; a pointer loaded through a pointer is the constant of
the outer variable. A negated comparison (`xor i1 %c, true`) is a fatal error, a comparison with a zero-extended boolean a z3
exception. The search for the variable behind a load does not end on `while (*p) p = *p` (phi and load in a circle). A phi gives
`true || …`, no constraint, and a block that starts with a debug instruction gets none.
**C59 (C runtime model).** An entry point with parameters (other than main with two, so also `main(argc, argv, envp)`, and library
functions under `__ALL__`) is never called by the model, so nothing of it is reachable from there. Registered destructors get priority 0 and run after
`llvm.global_dtors`, in the C runtime they run before. A local static made during initialisation before a later global is
destroyed before it. A second model in the same module appends its blocks behind those of the first, where nothing reaches them.
`isPhasarGenerated` is false for the generated `__psrGlobalDtorsCaller.<module>`.

**C60 (LLVMProjectIRDB).** `fromMetaDataId` splits at the first dot and takes a number followed by anything, so the id `f.1.0` of
argument 0 of a function `f.1` gives argument 1 of `f`; alias sets read from JSON get the wrong value. A function inserted twice
(two C runtime models in a module) has other ids in the metadata than in the table. Without preprocessing metadata ids are all `-1`
or those of an earlier numbering.

**C61 (DIBasedTypeHierarchy).** Sub-type queries are right for every inheritance graph, although the `Seen` bits of
buildTypeHierarchy are never set (they are only set if they are set already): each visit overwrites the range of the class.
With the bits set as intended the start of the first visit would be kept with the end of the last, a range that holds
unrelated classes. Tables of derived classes lack the functions that are inherited (`inherited_slot_refuted`). Reading back:
an empty slot becomes two entries, as a `continue` is missing after the null is added (`json_null_refuted`); the hierarchy is
written with plain names, which are read as the first type of that name, e.g. the typedef of `typedef struct S S` or a
class of another namespace (`json_typedef_refuted`, `json_namespace_refuted`); C structs of equal names cannot be read
(`json_c_structs_refuted`). A struct without name and identifier fails an assertion (`anonymous_refuted`).

**C62 (taint configuration).** Of several overloads only the first is marked (`overload_refuted`). A function that was inlined
and removed still has its subprogram, and naming it dereferences null (`removed_refuted`). All users of a source function are
marked, also a call that gets its address as an argument (`address_refuted`). If one variable of the configuration lies in a
struct, then every access to a member of any struct whose name begins like that of the member gets the categories of all
variables (`member_refuted`: the category is taken from the loop variable, the struct from the module). `generatesValuesAt`
says yes for a call that gets a source as argument, where `forAllGeneratedValuesAt` names nothing (`generates_refuted`).
Return values described as sink or sanitizer are stored and never asked for (`return_refuted`). A call with fewer arguments
than parameters leaks the callee operand (`few_arguments_refuted`). Annotations: a `char` variable fails an assertion, as its
address needs no cast (`annotated_char_refuted`); any annotated global variable uses a null pointer
(`annotated_global_refuted`); a variable to which a parameter is assigned is not marked, the parameter is
(`annotated_assigned_refuted`); the first four characters are dropped unseen (`annotation_prefix_refuted`).

**C63 (full constant propagation).** A store of a value that is not known (an argument, a loaded variable that differs between
branches) leaves the old constant of the target in place, so that wrong constants are reported in ordinary programs (`argument_refuted`,
`join_refuted`); the same after calls that get the address of a variable (`call_refuted`) and stores through pointers (`alias_refuted`).
Arithmetic is done in `int64_t` whatever the width, and unsigned division as signed (`wrap_refuted`); it overflows (`overflow_refuted`).
Transfer is not monotone (`monotone_refuted`), and since `allTop()` is the empty map, what is merged at a loop head is lost
(`loop_refuted`). Interprocedurally every merge gives the empty map (`inter_merge_refuted`) and `ret void` dereferences the null
pointer `getReturnValue()` (`void_return_refuted`).

**C64 (on-the-fly resolver).** A constant cast or a global alias of a function in the alias set does not lead to the function
(`cast_refuted`, `alias_refuted`); neither does a global pointer that is initialized with the function, although a struct that holds
the function does (`global_pointer_refuted`); constant expressions inside of tables are followed only if they are casts of functions
(`inner_pointer_refuted`). For virtual calls the tables of all bases are concatenated, so that a call through a second base gets an
entry of the first (`secondary_table_refuted`), and `std::next(begin, 2)` leaves arrays of fewer than two elements
(`short_table_refuted`).

**C65 (secure heap).** INITIALIZED means that the heap is initialised on some path, not on all (`initialised_on_all_paths_refuted`),
because the fact does not exist where the heap was not initialised and joins only see the paths that have it. After shutdown the state
is BOT for good, also behind another initialisation (`initialised_again_refuted`). Calls through pointers are ignored
(`indirect_calls_refuted`); calls are stepped over even if the callee never returns (`calls_that_do_not_return_refuted`). The join of a
constant edge function with the identity is AllBottom, so that joins of edge functions are not exact; it does not matter here because the
two never meet in one jump function.

**C66 (constness).** The report of IFDSConstAnalysis is always "No immutable memory locations found!": the set AllMemLocs it prints is never
filled (`constants_are_reported_refuted`). Were it filled, it would list variables that are not constant: one store in a loop is one write
(`written_in_a_loop_refuted`), writes by functions without a body are not seen (`written_by_a_library_function_refuted`), and a second
write on the way to abort() is not there at an exit statement (`written_before_abort_refuted`). The state Initialized grows with the
requests for flow functions, so that the two branches of a conditional count as two writes (`written_once_per_execution_refuted`) and the
results depend on the order in which the solver visits statements (`results_depend_on_the_order_refuted`).

**C67 (IntraMonoUninitVariables.cpp).** The analysis merges by intersection but starts with the empty set (allTop), so the solver finds the least
instead of the greatest solution: in and behind a loop no variable allocated before it is ever reported (`loops_forget`, `loop_refuted`).
Only stores of integer-typed ConstantData count as initialisation: `int x = f()`, `float x = 1` and `x` set through a pointer or a call
stay reported (`other_stores_refuted`, `alias_refuted`, `call_refuted`), while a store of undef counts (`undef_refuted`).

**C68 (InterMonoTaintAnalysis.cpp).** The call-to-return flow erases all pointer arguments wherever nothing is generated or sanitized, because "they
are now propagated in the retFF"; a function without a body has no return flow, so any such call untaints what its arguments point to
(`src(&x); puts(&x); sink(&x)`, `library_call_refuted`). Arithmetic, phi nodes, aggregates, results of library functions, aliases and globals used
in callees lose the taint (`operations_refuted`, `library_result_refuted`, `alias_refuted`, `global_refuted`). A sanitizer with a body does not sanitize: its
pointer parameter brings the fact back (`sanitizer_with_body_refuted`). callFlow and returnFlow read getArgOperand past the end at calls with fewer
arguments than the callee has parameters, and initialSeeds dereferences a null pointer in modules without main (not modelled, see the header).

**C69 (FunctionDataFlowFacts.h, LLVMFunctionDataFlowFacts.h, LibCSummary.cpp).** getDataFlowFacts dereferences the end iterator for a parameter without facts of a
function with facts (`unknown_parameter_refuted`). LLVMFunctionDataFlowFacts::getFacts uses operator[] instead, so that asking adds an empty entry,
after which insertSet (try_emplace) for that parameter is ignored (`asking_changes_refuted`, `insert_refuted`). The summary of snprintf lists flows from the
size to the size, the format and the first value, but none into the buffer; memcpy has no flow to its result, and strcpy and its
relatives none from the source string to the result (`libc_refuted`).

**C70 (performance measurements).** stopTimer guards its body with `TimerRunning || TimerStopped` but dereferences the iterator of the
running timers, so in a build without asserts stopping a stopped timer is undefined (`stop_twice_refuted`). A paused timer is in neither
of the maps elapsedTime looks at: it reports 0 (`paused_refuted`), and resetTimer does not touch its recorded intervals
(`reset_refuted`). Counters are 32 bits and wrap around (`wrap_refuted`).

**C71 (names of enumerators).** toAliasResult (`lib/Pointer/AliasResult.cpp:29-33`) defines the macro for its cases but does not include
`AliasResult.def`, so it has no cases: "NoAlias", "PartialAlias" and "MustAlias" are read as MayAlias (`alias_result_refuted`). The
`default:` label of the severity levels stands before the first case, so the invalid level is printed as DEBUG (`severity_refuted`).

## 7. Modelled and not modelled code

The definitions cite the lines. `…/` stands for `include/phasar/`.

| model | sources |
|-------|---------|
| `AliasSetModel.v` | `lib/PhasarLLVM/Pointer/LLVMAliasSet.cpp`; `…/Pointer/AliasSetOwner.h`; `…/Utils/BoxedPointer.h` |
| `AmlModel.v` | `lib/PhasarLLVM/DataFlow/IfdsIde/Problems/ExtendedTaintAnalysis`; `…/PhasarLLVM/DataFlow/IfdsIde/Problems/ExtendedTaintAnalysis` |
| `BitVectorSetModel.v` | `…/Utils/BitVectorSet.h` |
| `BranchConstraintModel.v` | `lib/PhasarLLVM/DataFlow/PathSensitivity/LLVMPathConstraints.cpp` |
| `CGBuilderModel.v` | `lib/PhasarLLVM/ControlFlow/LLVMBasedCallGraphBuilder.cpp` |
| `CallGraphModel.v` | `…/ControlFlow/CallGraph.h` |
| `CallStringModel.v` | `…/DataFlow/Mono/Contexts/CallStringCTX.h` |
| `ConstAnalysisModel.v` | `lib/PhasarLLVM/DataFlow/IfdsIde/Problems/IFDSConstAnalysis.cpp` |
| `DFAMinimizerModel.v` | `…/Utils/DFAMinimizer.h`; `…/Utils/AdjacencyList.h` |
| `DIHierarchyModel.v` | `lib/PhasarLLVM/TypeHierarchy/DIBasedTypeHierarchy.cpp`; `…/PhasarLLVM/TypeHierarchy/DIBasedTypeHierarchy.h` |
| `EdgeFunctionMemModel.v` | `…/DataFlow/IfdsIde/EdgeFunction.h` |
| `EdgeFunctionModel.v` | `…/DataFlow/IfdsIde/EdgeFunctionUtils.h`; `…/DataFlow/IfdsIde/EdgeFunction.h` |
| `EnumNamesModel.v` | `lib/Utils/Soundness.cpp`; `lib/ControlFlow/CallGraphAnalysisType.cpp`; `lib/Pointer/AliasAnalysisType.cpp`; `lib/PhasarLLVM/Utils/DataFlowAnalysisType.cpp`; `lib/AnalysisStrategy/Strategies.cpp`; `lib/ControlFlow/SpecialMemberFunctionType.cpp`; `lib/Pointer/AliasResult.cpp`; `lib/Utils/Logger.cpp` |
| `EquivClassMapModel.v` | `…/Utils/EquivalenceClassMap.h` |
| `ExplodedSuperGraphModel.v` | `…/DataFlow/PathSensitivity/ExplodedSuperGraph.h`; `…/DataFlow/IfdsIde/Solver/ESGEdgeKind.h`; `…/DataFlow/IfdsIde/Solver/PathAwareIDESolver.h` |
| `FlowCacheModel.v` | `…/DataFlow/IfdsIde/Solver/FlowEdgeFunctionCache.h` |
| `FlowFactsModel.v` | `…/PhasarLLVM/DataFlow/IfdsIde/FunctionDataFlowFacts.h`; `lib/PhasarLLVM/DataFlow/IfdsIde/LLVMFunctionDataFlowFacts.cpp` |
| `FlowFunctionsModel.v` | `…/DataFlow/IfdsIde/FlowFunctions.h` |
| `FullConstModel.v` | `lib/PhasarLLVM/DataFlow/Mono/Problems/IntraMonoFullConstantPropagation.cpp` |
| `GLCAModel.v` | `lib/PhasarLLVM/DataFlow/IfdsIde/Problems/IDEGeneralizedLCA/EdgeValue.cpp`; `…/PhasarLLVM/DataFlow/IfdsIde/Problems/IDEGeneralizedLCA/{EdgeValue,EdgeValueSet}.h` |
| `GlobalModelModel.v` | `lib/PhasarLLVM/ControlFlow/GlobalCtorsDtorsModel.cpp`; `lib/PhasarLLVM/ControlFlow/EntryFunctionUtils.cpp` |
| `IDESolverModel.v` | `…/DataFlow/IfdsIde/Solver/IDESolver.h` |
| `IFDSModel.v` | `…/Domain/BinaryDomain.h`; `…/DataFlow/IfdsIde/IFDSTabulationProblem.h`; `…/DataFlow/IfdsIde/Solver/IFDSSolver.h`; `…/DataFlow/IfdsIde/EdgeFunctionUtils.h` |
| `IIAModel.v` | `…/PhasarLLVM/DataFlow/IfdsIde/Problems/IDEInstInteractionAnalysis.h` |
| `IRDBModel.v` | `…/PhasarLLVM/DB/LLVMProjectIRDB.h`; `lib/PhasarLLVM/DB/LLVMProjectIRDB.cpp`; `lib/PhasarLLVM/Utils/LLVMShorthands.cpp` |
| `IRProgramModel.v` | `lib/PhasarLLVM/DataFlow/IfdsIde/Problems`; `…/PhasarLLVM/ControlFlow` |
| `InterMonoModel.v` | `…/DataFlow/Mono/Solver/InterMonoSolver.h` |
| `IntraMonoModel.v` | `…/DataFlow/Mono/Solver/IntraMonoSolver.h` |
| `JumpFunctionsModel.v` | `…/DataFlow/IfdsIde/Solver/JumpFunctions.h` |
| `LCAModel.v` | `lib/PhasarLLVM/DataFlow/IfdsIde/Problems/IDELinearConstantAnalysis.cpp` |
| `LCAProgramModel.v` | `lib/PhasarLLVM/DataFlow/IfdsIde/Problems/IDELinearConstantAnalysis.cpp` |
| `LLVMCFGModel.v` | `lib/PhasarLLVM/ControlFlow/LLVMBasedCFG.cpp` |
| `LLVMFlowFunctionsModel.v` | `…/PhasarLLVM/DataFlow/IfdsIde/LLVMFlowFunctions.h` |
| `LatticeModel.v` | `…/Domain/LatticeDomain.h` |
| `MaybeUniquePtrModel.v` | `…/Utils/MaybeUniquePtr.h` |
| `MonoTaintModel.v` | `lib/PhasarLLVM/DataFlow/Mono/Problems/InterMonoTaintAnalysis.cpp`; `…/PhasarLLVM/TaintConfig/TaintConfigUtilities.h` |
| `MonoUninitModel.v` | `lib/PhasarLLVM/DataFlow/Mono/Problems/IntraMonoUninitVariables.cpp` |
| `OTFModel.v` | `lib/PhasarLLVM/ControlFlow/Resolver/OTFResolver.cpp`; `lib/PhasarLLVM/TypeHierarchy/LLVMVFTable.cpp` |
| `PAMMModel.v` | `lib/Utils/PAMM.cpp`; `…/Utils/ChronoUtils.h` |
| `PathDagModel.v` | `…/DataFlow/PathSensitivity/PathSensitivityManagerMixin.h`; `…/Utils/GraphTraits.h`; `…/Utils/AdjacencyList.h` |
| `PathFilterModel.v` | `lib/PhasarLLVM/DataFlow/PathSensitivity/Z3BasedPathSensitivityManager.cpp`; `…/PhasarLLVM/DataFlow/PathSensitivity/Z3BasedPathSensitvityManager.h`; `…/DataFlow/PathSensitivity/FlowPath.h` |
| `ResolverModel.v` | `lib/PhasarLLVM/TypeHierarchy/LLVMVFTable.cpp`; `lib/PhasarLLVM/ControlFlow/LLVMVFTableProvider.cpp`; `lib/PhasarLLVM/ControlFlow/Resolver/{Resolver,NOResolver,CHAResolver,RTAResolver,DTAResolver}.cpp`; `lib/PhasarLLVM/Utils/LLVMShorthands.cpp` |
| `SecureHeapModel.v` | `lib/PhasarLLVM/DataFlow/IfdsIde/Problems/IDESecureHeapPropagation.cpp`; `…/PhasarLLVM/DataFlow/IfdsIde/Problems/IDESecureHeapPropagation.h` |
| `SeedsModel.v` | `…/DataFlow/IfdsIde/InitialSeeds.h`; `lib/PhasarLLVM/ControlFlow/EntryFunctionUtils.cpp` |
| `SolverAPIModel.v` | `…/DataFlow/IfdsIde/Solver/IDESolverAPIMixin.h` |
| `SolverResultsModel.v` | `…/DataFlow/IfdsIde/SolverResults.h`; `…/PhasarLLVM/DataFlow/IfdsIde/LLVMSolverResults.h` |
| `StableVectorModel.v` | `…/Utils/StableVector.h` |
| `TableModel.v` | `…/Utils/Table.h` |
| `TaintConfigModel.v` | `lib/PhasarLLVM/TaintConfig/TaintConfigBase.cpp`; `lib/PhasarLLVM/TaintConfig/LLVMTaintConfig.cpp`; `lib/PhasarLLVM/Utils/Annotation.cpp` |
| `TaintModel.v` | `lib/PhasarLLVM/DataFlow/IfdsIde/Problems/IFDSTaintAnalysis.cpp`; `…/PhasarLLVM/TaintConfig/TaintConfigUtilities.h` |
| `TypeGraphModel.v` | `lib/PhasarLLVM/Pointer/TypeGraphs/CachedTypeGraph.cpp`; `lib/PhasarLLVM/ControlFlow/Resolver/DTAResolver.cpp` |
| `TypeHierarchyModel.v` | `lib/PhasarLLVM/TypeHierarchy/LLVMTypeHierarchy.cpp` |
| `TypeStateModel.v` | `…/PhasarLLVM/DataFlow/IfdsIde/Problems/IDETypeStateAnalysis.h`; `lib/PhasarLLVM/DataFlow/IfdsIde/Problems/TypeStateDescriptions/` |
| `UninitModel.v` | `lib/PhasarLLVM/DataFlow/IfdsIde/Problems/IFDSUninitializedVariables.cpp` |
| `UtilitiesModel.v` | `…/Utils/Utilities.h`; `lib/Utils/Utilities.cpp` |
| `XTaintModel.v` | `lib/PhasarLLVM/DataFlow/IfdsIde/Problems/ExtendedTaintAnalysis/*.cpp`; `lib/PhasarLLVM/Utils/BasicBlockOrdering.cpp` |

Not modelled: parsing of LLVM IR, the alias analyses of LLVM behind `LLVMBasedAliasAnalysis` (parameters of the theorems), the
flow functions of the shipped client analyses other than IDELinearConstantAnalysis, IFDSUninitializedVariables, IFDSTaintAnalysis, IDESecureHeapPropagation, IFDSConstAnalysis, the monotone full constant propagation, IntraMonoUninitVariables and InterMonoTaintAnalysis (beyond the edge functions and value domains named above), threads, I/O, logging,
statistics, DOT and JSON text syntax (JSON documents are trees), the WPDS and Sparse solvers, the Soot/CLI front ends. Each model
file states its own simplifications in its header.
