{"claims": [
 {"property": "C01", "status": "proved", "theorems": ["disjointset_find_iff_connected", "disjointset_answers", "disjointset_find_logarithmic"], "note": "all element types with decidable equality; termination with logarithmic bound"},
 {"property": "C02", "status": "proved", "theorems": ["disjointset_answers", "disjointset_representatives"], "note": ""},
 {"property": "C03", "status": "partial", "theorems": ["hashset_set_algebra_partial", "hashset_union_and_clear_flag_refuted"], "note": "all programs over any number of (possibly aliased) sets, every hash order; the flag returned by UnionWithAndClear is refuted when the receiver is smaller"},
 {"property": "C04", "status": "partial", "theorems": ["hashset_is_subset_of_refuted", "hashset_is_subset_of_actual", "hashset_is_subset_of_partial"], "note": "false of the code: IsSubsetOf only compares sizes; refuted with witness, exact behaviour proved"},
 {"property": "C05", "status": "proved", "theorems": ["bijectivemap_history", "bijectivemap_equality", "bijectivemap_construct"], "note": ""},
 {"property": "C06", "status": "proved", "theorems": ["lifo_worklist_correct", "fifo_worklist_correct", "lrf_worklist_correct", "two_phase_lrf_worklist_correct", "workset_correct", "pending_list_is_pending"], "note": "LRF policies: fewer than 2^64-1 operations"},
 {"property": "C07", "status": "proved", "theorems": ["lifo_worklist_correct", "fifo_worklist_correct", "lrf_worklist_correct", "two_phase_lrf_worklist_correct"], "note": ""},
 {"property": "C08", "status": "proved", "theorems": ["tarjan_correct", "tarjan_correct_identity"], "note": "Full correctness and termination for all graphs; vectors modelled as functions, node indices shown to stay in range."},
 {"property": "C09", "status": "partial", "theorems": ["log2Floor_exact", "RoundUpToPowerOf2_exact", "RoundUpToPowerOf2_spec_total", "RoundUpToMultipleOf_unsigned_exact", "RoundUpToMultipleOf_signed_partial", "RoundUpToMultipleOf_signed_refuted", "BitsRequiredToRepresent_exact"], "note": "Exact on the unsigned domain; the signed instance of RoundUpToMultipleOf overflows its intermediate sum (undefined behaviour) for some representable results, shown by the refuted theorem."},
 {"property": "C10", "status": "partial", "theorems": ["truncateAndSignExtend_exact", "truncateAndZeroExtend_exact", "truncateAndZeroExtend_64", "truncate_zero_bits_refuted"], "note": "Exact for 1..64 kept bits; keepBits = 0 passes the assert but shifts by 64."},
 {"property": "C11", "status": "partial", "theorems": ["construct_from_int_partial", "construct_from_int_refuted", "int_round_trip", "read_value"], "note": "Exact acceptance condition and round trips proved; the documented rejection of every unrepresentable value is false of the code (refuted: values in [-2^n,-2^(n-1)) are accepted and change value)."},
 {"property": "C12", "status": "proved", "theorems": ["arithmetic_exact", "unary_and_shifts_exact", "width_mismatch_rejected"], "note": ""},
 {"property": "C13", "status": "proved", "theorems": ["division_exact", "division_by_zero"], "note": ""},
 {"property": "C14", "status": "proved", "theorems": ["comparisons_exact"], "note": ""},
 {"property": "C15", "status": "partial", "theorems": ["unknown_bits_sound_partial", "division_unknown_refuted", "defined_preserved"], "note": "Sound for every operation except udiv/umod/sdiv/smod, which are refuted."},
 {"property": "C16", "status": "proved", "theorems": ["slice_exact", "concat_exact", "concat_of_slices", "extend_and_truncate_exact"], "note": ""},
 {"property": "C17", "status": "proved", "theorems": ["history_consistent", "history_defined", "rejected_calls_change_nothing", "origin_iff_user", "divert_to_effect", "divert_users_effect", "create_simple_effect", "remove_inputs_effect", "remove_outputs_effect", "remove_arguments_effect", "prune_arguments_effect", "insert_argument_effect", "add_argument_effect", "add_result_effect", "add_input_effect", "add_output_effect", "remove_results_effect", "remove_node_effect", "remove_inputs_of_inputless_node_refuted"], "note": "One region; structural nodes without their subregions and argument/result links. RemoveInputs is legal only on nodes with inputs: the refuted theorem shows it corrupts the top-node list otherwise."},
 {"property": "C18", "status": "proved", "theorems": ["history_consistent", "history_defined"], "note": "fields c_top, c_bottom, c_all of consistent"},
 {"property": "C19", "status": "proved", "theorems": ["prune_removes_useless", "prune_keeps_needed"], "note": "not recursive into subregions; reachability form needs an acyclic region"},
 {"property": "C20", "status": "proved", "theorems": ["top_down_order"], "note": "every acyclic region built by any legal history; td_nodes is the loop over next()"},
 {"property": "C21", "status": "proved", "theorems": ["bottom_up_order"], "note": "as C20"},
 {"property": "C22", "status": "partial", "theorems": ["top_down_next_ends", "top_down_edited_partial", "top_down_edited_complete_partial", "top_down_fuel", "bottom_up_edited_partial", "bottom_up_edited_complete_partial", "top_down_misses_node_refuted", "top_down_indirect_dependence_refuted", "bottom_up_visits_new_node_refuted", "bottom_up_visits_early_refuted", "bottom_up_misses_node_refuted"], "note": "top down: safety for every interleaving of legal edits, completeness when RemoveInputs takes one input at a time; bottom up: safety and completeness for edits without node creation. The excluded cases are false of the code: proved by counterexamples (_refuted)."},
 {"property": "C23", "status": "partial", "theorems": ["niterations_correct_partial", "niterations_refuted"], "note": "Right for additions counting up (ne/lt/le, either operand order, repeat on true); refuted for eq, subtraction, zero step, inverted match and start=end."},
 {"property": "C24", "status": "partial", "theorems": ["run_each_reachable_once", "run_after_unique_dependency", "run_respects_dependencies_partial", "run_respects_dependencies_refuted", "jlc_runs_in_order_partial", "jlc_mixed_inputs_refuted"], "note": "exactly-once for all graphs; order proved for graded graphs and all homogeneous jlc graphs; the order claim is refuted for general acyclic graphs (SortNodesTopological is a BFS) and for jlc a.c b.o"},
 {"property": "C25", "status": "partial", "theorems": ["filepath_name", "filepath_base_complete_suffix", "filepath_suffix", "filepath_no_dot", "filepath_dirname", "filepath_dirname_cases", "filepath_join_dirname_name", "filepath_dirname_gnu_refuted"], "note": "The claimed GNU dirname behaviour fails for repeated slashes (refuted theorem); exact behaviour given for every string."},
 {"property": "C26", "status": "partial", "theorems": ["unroll_known_preserves_semantics", "unroll_unknown_preserves_semantics_partial", "unroll_semantics_refuted"], "note": "Known boundaries: proved for all counts_up loops, any body; run-time boundaries: proved with room for factor more steps; refuted otherwise."},
 {"property": "C27", "status": "proved", "theorems": ["pointer_object_set_wf", "naive_terminates", "naive_least_solution", "naive_frame"], "note": "naive solver"},
 {"property": "C28", "status": "proved", "theorems": ["naive_least_solution", "naive_order_independent", "has_identical_sol_spec"], "note": "naive solver; HasIdenticalSolAs"},
 {"property": "C29", "status": "proved", "theorems": ["unify_merges", "unify_sound", "unify_exact_if_equal", "unify_exact_on_cycle", "unification_root_path_halving"], "note": ""},
 {"property": "C30", "status": "proved", "theorems": ["normalize_same_solutions", "normalize_normal"], "note": ""},
 {"property": "C31", "status": "partial", "theorems": ["iterated_set_unchanged", "iterated_set_unchanged_refuted"], "note": "refuted in general (a function calling its own parameter that may be passed itself); proved when the written objects do not share the iterated set"},
 {"property": "C32", "status": "proved", "theorems": ["worklist_sound", "worklist_frame"], "note": "For every configuration and every fuel: if the model returns, the result is a solution. (Termination is a separate claim.)"},
 {"property": "C33", "status": "proved", "theorems": ["worklist_least", "worklist_same_as_naive", "worklist_configurations_agree"], "note": "Partial correctness: stated for runs of the model that end within their fuel; hybrid cycle detection excluded (its reference roots come from OVS, not modelled)."},
 {"property": "C34", "status": "proved", "theorems": ["dne_total"], "note": "assertion numBottomNodes() == 0 at the end of sweepRegion is not part of the model; type assertions are not modelled (JLM_ASSERT of equal types in GammaNode::mapBranchArgumentToInput, gamma.cpp:344-359)"},
 {"property": "C35", "status": "proved", "theorems": ["dne_results", "dne_functions", "ev_det"], "note": "values are the least solution of the equations of the outputs; hypotheses met by Dne/Examples.v"},
 {"property": "C36", "status": "proved", "theorems": ["dne_keeps", "dne_removes", "dne_only_removes"], "note": "dependence is defined in Dne/Spec.v (uses, needed)"},
 {"property": "C37", "status": "partial", "theorems": ["ivr_well_formed", "ivr_only_removes", "ivr_refines"], "note": "redirectThetaGammaOutputs is modelled apart (C106), redirectCallOutputs is modelled apart (C107); volatile loads are opaque operations"},
 {"property": "C38", "status": "partial", "theorems": ["ivr_no_invariant_users", "ivr_order_irrelevant_refuted"], "note": "first half proved for all visit orders; the second half (order is irrelevant, comment at InvariantValueRedirection.cpp:134) is false: a gamma node visited before the theta node that feeds it keeps its users"},
 {"property": "C39", "status": "partial", "theorems": ["gamma_invariant_reduction", "gamma_invariant_reduction_total", "gamma_invariant_reduction_refuted", "gamma_invariant_reduction_crashes"], "note": "false as stated: the guard in gamma.cpp:60 is !argument && ... instead of ||. Proved right under the hypothesis same_entry_var; wrong value and null dereference shown otherwise"},
 {"property": "C40", "status": "partial", "theorems": ["cne_sound_partial", "cne_leaders_first_theta_free", "cne_theta_free_sound", "cne_keeps_nodes", "cne_sound_refuted", "cne_leaders_first_refuted"], "note": "False in general: cne_sound_refuted gives a well-formed module with a loop that computes another value afterwards (the second marking of a loop body makes a node a follower of a later node whose congruences are stale). Proved: if leaders come before their followers (the invariant the code documents), the module computes the same; and they do in every module without loops, where the pass is sound without conditions. Types of outputs are not modelled; exceptions are None."},
 {"property": "C41", "status": "partial", "theorems": ["cne_theta_free_total", "cne_theta_free_complete_partial", "cne_content_crash"], "note": "Proved for every loop-free module in which no branch result is the match content argument; cne_content_crash: with such a result the pass dereferences a null pointer. Missing: modules with theta nodes."},
 {"property": "C42", "status": "partial", "theorems": ["pairwise_reduce_correct", "commutative_pairwise_reduce_correct", "commutative_pairwise_reduce_total", "pairwise_reduce_complete_refuted", "normalize_binary_correct", "normalize_flattened_partial", "normalize_flattened_crash"], "note": "Binary nodes: proved in full. Flattened nodes: the value is kept whenever the node is replaced, but the code fails an assertion when three or more operands are left (normalize_flattened_crash)."},
 {"property": "C43", "status": "partial", "theorems": ["flatten_associative_correct", "reduce_linear_correct", "reduce_parallel_partial", "reduce_parallel_refuted"], "note": "Flattening and linear expansion: proved in full. The expansion to a tree is proved for associative and commutative operations; for operations that are associative only it changes the order of operands (reduce_parallel_refuted)."},
 {"property": "C44", "status": "proved", "theorems": ["slice_normalizations_correct", "slice_normalizations_complete", "concat_reduce_correct", "concat_normalize_correct", "concat_normalize_two", "concat_normalize_crash", "concat_flatten_correct", "concat_flatten_crash"], "note": "Values are kept by every normalization that returns; additionally, concatenations of three or more operands make NormalizeBinaryOperation throw and FlattenBitConcatOperation fail an assertion (the two _crash theorems)."},
 {"property": "C45", "status": "proved", "theorems": ["fold_binary_correct", "declared_flags_correct", "fold_shift_crash"], "note": "Shifts by constants of 2^64 or more (poison in LLVM) throw (fold_shift_crash)."},
 {"property": "C46", "status": "proved", "theorems": ["sizes_and_alignment", "sizes_exact", "scalar_sizes", "scalar_alignment", "array_layout", "struct_layout", "struct_fields_disjoint"], "note": "size_t arithmetic wraps in the model; the theorems are for types whose parts have at most 2^60 bytes."},
 {"property": "C47", "status": "partial", "theorems": ["type_equality_equivalence", "type_equality_partial", "type_equality_refuted", "type_hash_partial", "type_hash_refuted", "type_equality_layout"], "note": "Equality is proved to be an equivalence, to be exact and to respect hashes for types without scalable vectors, and to respect layouts for all types. A fixed and a scalable vector compare equal and hash differently (the two _refuted theorems)."},
 {"property": "C48", "status": "partial", "theorems": ["trace_sound", "trace_terminates", "trace_total", "trace_match_content_refuted"], "note": "Sound and terminating for all configurations and histories; without assertion failures if no match content is used or traced. Tracing a match content argument fails the type assertion of mapBranchArgumentToInput (refuted part)."},
 {"property": "C49", "status": "proved", "theorems": ["cache_transparent", "cache_stable", "cache_total"], "note": "For every history of tracings of one tracer over an unchanged graph."},
 {"property": "C50", "status": "proved", "theorems": ["trace_stops", "trace_idempotent", "intra_procedural_stays"], "note": "passes_on in Spec.v lists what must be looked through."},
 {"property": "C51", "status": "proved", "theorems": ["all_writes_sound", "reads_and_full_writes_sound"], "note": "For the aggregation tree of a function body."},
 {"property": "C52", "status": "proved", "theorems": ["convert_correct", "convert_wf"], "note": "A module with one function; everything else it refers to is an import. Result for terminating calls (the least fixed point semantics of the RVSDG gives a value to dead non-terminating code as well)."},
 {"property": "C53", "status": "partial", "theorems": ["convert_total_partial", "convert_total_refuted"], "note": "Proved under the condition that in no linear node (other than the root) a child writes a variable on some of its paths which the children after it write on all of theirs. Refuted without it: the working set is not reduced by what a branch always writes (Annotation.cpp:422-445), the linear node around it reduces it, and the lookup of the variable fails."},
 {"property": "C54", "status": "proved", "theorems": ["straighten_correct", "straighten_exhaustive"], "note": "all valid graphs, all visiting orders, all semantics"},
 {"property": "C55", "status": "proved", "theorems": ["purge_correct", "purge_exhaustive", "purge_phi_refuted"], "note": "graphs without phis; purge_phi_refuted: with phis the result can be invalid, so the check at the end of purge fails"},
 {"property": "C56", "status": "proved", "theorems": ["livenodes_correct", "prune_correct"], "note": ""},
 {"property": "C57", "status": "proved", "theorems": ["destruct_ssa_correct", "destruct_ssa_first_phi_refuted"], "note": "the first block has no phi and only the entry before it, as LLVM demands; otherwise destruct_ssa dereferences a moved result (destruct_ssa_first_phi_refuted)"},
 {"property": "C58", "status": "partial", "theorems": ["is_reducible_refuted", "is_reducible_unsound_refuted"], "note": "the claim is false of the code in both directions; an if-then-else is always answered no, a loop with two entries can be answered yes. No function of jlm calls is_reducible; nothing positive is proved"},
 {"property": "C59", "status": "proved", "theorems": ["aggregate_correct", "aggregate_wide_refuted", "some_finds_sccs"], "note": "partial correctness of aggregate(): success implies equivalence; the condition on blocks with more than two successors is necessary (aggregate_wide_refuted)"},
 {"property": "C60", "status": "proved", "theorems": ["normalize_correct", "normalize_idempotent"], "note": "all executable trees"},
 {"property": "C61", "status": "partial", "theorems": ["construct_correct", "construct_total_partial"], "note": "aggregation, normalization, annotation and conversion composed; control flow restructuring, which comes before, is not modelled; when conversion succeeds is proved under the condition of C53"},
 {"property": "C62", "status": "proved", "theorems": ["divert_preserves"], "note": "other nodes are arbitrary functions of what their operands carry"},
 {"property": "C63", "status": "partial", "theorems": ["merge_reduction_sound", "merge_reduction_never_crashes", "join_reduction_sound", "join_nested_sound", "nested_flattened", "merge_equal_iff", "join_not_equal_itself_refuted"], "note": "everything but the last clause is proved; the equality of join operations is refuted: operator== casts to MemoryStateMergeOperation, so a join is not equal to itself but to a merge"},
 {"property": "C64", "status": "partial", "theorems": ["split_reduction_sound_partial", "split_merge_sound_partial", "split_merge_refuted"], "note": "proved for single results and nested splits; a split of a merge is only right for the bytes known best by the state at that position, and refuted in general"},
 {"property": "C65", "status": "proved", "theorems": ["load_store_forwarding_sound", "load_store_forwarding_applies", "load_duplicate_states_sound", "store_duplicate_states_sound"], "note": "non volatile accesses"},
 {"property": "C66", "status": "partial", "theorems": ["load_alloca_sound_partial", "load_store_state_sound_partial", "load_store_state_own_chain_sound", "load_reduction_value_partial", "load_alloca_states_refuted", "load_store_state_refuted"], "note": "the value is preserved by NormalizeLoadAlloca, but its state results are permuted (refuted); NormalizeLoadStoreState is right if each dropped store is on its own alloca's chain, refuted otherwise"},
 {"property": "C67", "status": "partial", "theorems": ["load_barrier_sound", "store_barrier_sound", "barrier_removed_in_bounds_partial", "barrier_negative_offset_refuted"], "note": "holds for offsets that are not negative and do not overflow; refuted for negative offsets, where the sum wraps around in size_t"},
 {"property": "C68", "status": "partial", "theorems": ["store_mux_sound_partial", "store_mux_crash", "store_store_sound_partial", "store_alloca_sound_partial", "store_single_user_sound", "store_store_refuted", "store_alloca_duplicates_refuted", "store_alloca_order_refuted"], "note": "bytes preserved under the stated conditions; refuted: assertion for stores without states or with several states of one merge, results of NormalizeStoreAlloca in hash order and too few with duplicates, store after store when another state of the first store bypasses the second"},
 {"property": "C69", "status": "proved", "theorems": ["exit_reduction_sound", "exit_reduction_never_crashes", "exit_load_exact"], "note": "accesses through the address of an alloca fit in it; non volatile accesses"},
 {"property": "C70", "status": "proved", "theorems": ["add_folding_sound", "add_folding_precise"], "note": "All algebraic terms (no binary trees, no empty recurrence, which the analysis never passes)."},
 {"property": "C71", "status": "partial", "theorems": ["mul_folding_sound_partial", "mul_folding_total", "mul_folding_deterministic", "mul_folding_nested_refuted"], "note": "Sound when no recurrence has a recurrence as its last increment; refuted otherwise (step of another loop is taken as a step of the same loop)."},
 {"property": "C72", "status": "proved", "theorems": ["fold_nary_add_sound", "fold_nary_mul_sound", "fold_nary_add_total"], "note": "Products: operands of one loop."},
 {"property": "C73", "status": "partial", "theorems": ["recurrences_sound_partial", "recurrences_complete", "increments_accepted", "accepted_occurs_once", "recurrence_of_reset_refuted", "recurrence_of_copy_refuted", "recurrence_of_scaled_refuted"], "note": "Sound for variables updated by x+e; the admission test also accepts x'=5, x'=y and x'=2*(x+1), for which the recurrence is wrong (refuted)."},
 {"property": "C74", "status": "partial", "theorems": ["tree_sound_partial", "negative_sound", "tree_of_extension_refuted"], "note": "Without extensions; with a zero extension the tree is wrong after wrap-around (refuted). GEP offsets not modelled."},
 {"property": "C75", "status": "partial", "theorems": ["structural_equality", "unknown_terms", "unknown_tree_refuted"], "note": "Placeholders are never equal; the right operand of a binary tree is never tested (refuted)."},
 {"property": "C76", "status": "partial", "theorems": ["affine_trip_count_partial", "constant_on_left_refuted", "inverted_match_refuted", "unsigned_comparison_refuted", "rounded_count_refuted", "overflow_refuted"], "note": "Constant on the right, match repeating on true, values that fit the comparison's signedness and do not overflow, |bound-start| and |step| below 2^53; each restriction is shown necessary by a refutation."},
 {"property": "C77", "status": "partial", "theorems": ["quadratic_trip_count_partial", "quadratic_division_by_zero_crash", "quadratic_wrong_root_refuted", "quadratic_equality_refuted"], "note": "0 < second <= 2*first (or mirrored), magnitudes below 2^22; otherwise a division by zero, a wrong root or a wrong count is possible (shown)."},
 {"property": "C78", "status": "partial", "theorems": ["local_no_alias_sound", "local_must_alias_sound", "local_must_alias_refuted", "local_no_alias_refuted"], "note": "Proved if no pointer comes up twice with different values (no allocas, loads, calls of pointers in loops) or if tracing does not stop at loop variables; refuted otherwise: tracing over the back edge of a loop mixes iterations."},
 {"property": "C79", "status": "proved", "theorems": ["traceable_never_comes_back"], "note": ""},
 {"property": "C80", "status": "proved", "theorems": ["local_query_total", "local_query_symmetric"], "note": "int64 overflow in the sum of offsets is not modelled"},
 {"property": "C81", "status": "partial", "theorems": ["constant_exact", "constant_found", "constant_wide_refuted", "gep_offset_exact", "gep_offset_vector_refuted", "idempotent_gep_is_base"], "note": "Proved for chains within 64 bits and for arrays and structs; more than 64 bits fail an assertion, vectors throw in a noexcept function."},
 {"property": "C82", "status": "partial", "theorems": ["ptg_query_right", "ptg_query_total", "chained_right", "chained_compatible", "chained_dead_refuted", "local_ptg_right"], "note": "The check in builds with assertions fails for pointers that point to nothing."},
 {"property": "C83", "status": "partial", "theorems": ["unswitching_preserves_region_partial", "unswitch_entry_variable_refuted", "unswitch_other_heuristic_refuted", "unswitch_throws_refuted"], "note": "Proved for the default heuristic and loops whose gamma node takes the loop's predicate as its predicate; refuted when it is only an entry variable, for heuristics that accept other gamma nodes, and for cases that throw."},
 {"property": "C84", "status": "proved", "theorems": ["sinking_preserves_body"], "note": ""},
 {"property": "C85", "status": "proved", "theorems": ["correlation_constants"], "note": ""},
 {"property": "C86", "status": "proved", "theorems": ["predicate_correlation_preserves_body"], "note": "provided that the body's predicate is always a control value, which the type system guarantees"},
 {"property": "C87", "status": "partial", "theorems": ["roles_sound", "roles_refuted"], "note": "Proved for alternatives 0 and 1 in some order and match correlations on the predicate; refuted for other alternatives."},
 {"property": "C88", "status": "partial", "theorems": ["gamma_gamma_correlation", "gamma_gamma_null_refuted"], "note": "Proved if all users are gamma nodes; a null pointer is dereferenced otherwise."},
 {"property": "C89", "status": "partial", "theorems": ["if_conversion_preserves", "if_conversion_total", "case_constant_range", "if_conversion_wide_refuted", "if_conversion_crash_refuted"], "note": "Proved for matches whose keys are in range (below 2^63 for more than 64 bits); refuted for wide keys, and for matches whose only case has the default alternative, and content arguments that are passed on."},
 {"property": "C90", "status": "partial", "theorems": ["if_conversion_complete", "if_conversion_nested_refuted"], "note": "Proved for the gamma nodes of the region; gamma nodes inside gamma nodes are not visited."},
 {"property": "C91", "status": "proved", "theorems": ["sinking_preserves", "sinking_gamma_preserves"], "note": "Structural nodes other than gamma and theta are not modelled; the order of the nodes of a region is the order in which the traverser visits them."},
 {"property": "C92", "status": "proved", "theorems": ["sinking_complete", "sinking_terminates"], "note": "Same model as C91; extent is the recursion depth that suffices."},
 {"property": "C93", "status": "partial", "theorems": ["hoist_sound", "hoist_preserves_partial", "hoists_preserve_partial", "constant_defined", "hoist_preserves_refuted", "hoist_memory_refuted"], "note": "False in general: a guarded division is speculated (hoist_preserves_refuted), and a load is hoisted over the stores of earlier iterations because null pointers are compared (hoist_memory_refuted). Proved for loop variables that are truly invariant and operations that are defined in every execution of the target region. The choice of the target region (computeTargetRegion, marks) is not modelled: the theorems hold for every choice for which the operands are found."},
 {"property": "C94", "status": "proved", "theorems": ["hoist_from_loops"], "note": "Same model as C93; loop variables with memory state type count only if they are truly invariant (see hoist_memory_refuted for the others)."},
 {"property": "C95", "status": "proved", "theorems": ["graph_implements", "cfg_implements", "numbering"], "note": "for the region of one lambda node with simple, gamma and theta nodes, which are listed in the order of the traverser; types, and lambda, delta and phi nodes, are not modelled"},
 {"property": "C96", "status": "proved", "theorems": ["graph_valid", "cfg_valid", "cfg_straight"], "note": "as for C95"},
 {"property": "C97", "status": "partial", "theorems": ["convertible", "convertible_refuted"], "note": "the conversion succeeds exactly if no match content argument of a gamma node has users; for a region that hands on a match content argument the lookup of its variable fails (the claim in full is wrong of the code)"},
 {"property": "C98", "status": "proved", "theorems": ["inline_preserves", "inlined_preserves", "inlined_callee"], "note": "The callee is given by what its call operation does (calls): the theorem holds for any meaning of the operations that agrees with the callee's body. hoistInlinedAllocas is not modelled, tryRerouteMemoryStateMergeAndSplit and the choice of calls neither."},
 {"property": "C99", "status": "proved", "theorems": ["inline_well_formed", "inline_succeeds"], "note": ""},
 {"property": "C100", "status": "proved", "theorems": ["domtree_correct", "domtree_ancestors", "domtree_unique"], "note": ""},
 {"property": "C101", "status": "proved", "theorems": ["domtree_total", "domtree_closed_refuted"], "note": "domtree_closed_refuted: is_closed, which domtree asserts, is not enough: with an unreachable cycle another assertion fails."},
 {"property": "C102", "status": "partial", "theorems": ["check_reachable_partial", "check_false_elsewhere", "assign_constraints_sound", "check_terminates", "check_reachable_refuted", "check_unreachable_refuted"], "note": "The equivalence with reachability is false of the code in both directions (refuted). An execution is one activation of every entered region: of a loop it is one iteration. Destruction of nodes is not modelled."},
 {"property": "C103", "status": "partial", "theorems": ["check_fresh_partial", "check_stale_refuted", "assign_stale_refuted"], "note": "Proved for reachability checks and changes of origins in graphs without loop variables; with invariant loop variables, and for GetRegionPredicateAssignConstraints called directly, the caches go stale (refuted)."},
 {"property": "C104", "status": "proved", "theorems": ["breadth_first_correct", "breadth_first_total"], "note": ""},
 {"property": "C105", "status": "proved", "theorems": ["postorder_correct", "reverse_postorder_correct", "postorder_total"], "note": "The assertion is_closed is left out: the theorems hold without it."},
 {"property": "C106", "status": "proved", "theorems": ["theta_gamma_preserves"], "note": "Whole redirectThetaGammaOutputs after the correlation; that the subregion roles are right is the theorem of C87 and here the hypothesis roles. Liveness (IsDead) is that of the region at the time each loop variable is visited."},
 {"property": "C107", "status": "partial", "theorems": ["call_redirect_preserves", "call_redirect_no_error", "call_redirect_complete", "call_redirect_type_refuted", "call_redirect_results_refuted", "call_redirect_routed_refuted"], "note": "Whole redirectCallOutputs for a non-recursive direct call. The state part needs that a memory node represented at the callee's exit is represented at its entry (without it: call_redirect_routed_refuted). A direct call whose type is not the function's throws although the guard on the number of arguments is meant for that (call_redirect_type_refuted, call_redirect_results_refuted). Of the callee's termination nothing is said."},
 {"property": "C108", "status": "partial", "theorems": ["eliminate_exact", "barrier_elimination_safe_partial", "barrier_elimination_states_refuted", "barrier_elimination_dependent_refuted"], "note": "Which loads lose their barrier is exact. Safety is false in general: a load whose memory state comes from a call shows nothing about the time before the call (barrier_elimination_states_refuted), and a load of a pointer loaded behind a barrier loses its order too (barrier_elimination_dependent_refuted). The partial theorem excludes both. Nested lambda and phi nodes are separate regions; pruning is not modelled."},
 {"property": "C109", "status": "partial", "theorems": ["trace_sound", "load_chain_preserves_partial", "separate_complete", "load_chain_call_refuted"], "note": "One chain in one region. False for a loop that contains a call: the result of tracing a call's state is dropped, so the loop counts as a read and a load behind it is moved before it (load_chain_call_refuted); the partial theorem excludes calls in loops. Chains that overlap (a state with several users) and dead outputs are not modelled."},
 {"property": "C110", "status": "partial", "theorems": ["splitable_private", "alloca_split_dead", "alloca_split_adds_nothing", "alloca_split_preserves_partial", "element_allocas_complete", "element_allocas_distinct", "alloca_split_merge_refuted", "splitable_type_refuted"], "note": "alloca_split_preserves_partial assumes that a copy of the address of a split alloca is a copy of no other pointer; the code does not check it, and without it the claim is false (alloca_split_merge_refuted). Without the assumption pointers never point to more than before (alloca_split_adds_nothing). Memory states, and keys that the map of the elements does not have, are not modelled."}
]}
