{
 "claims": [
  {
   "property": "C01",
   "status": "proved",
   "theorems": [
    "C01_pre_star_sound"
   ],
   "note": "for PDAs built by the API, automata satisfying pre_ok (indices in range, no epsilon, no duplicate edge) and no_in (no edge into a PDA state)"
  },
  {
   "property": "C02",
   "status": "proved",
   "theorems": [
    "C02_pre_star_complete",
    "C02_pre_star_complete_negative_weight_refuted"
   ],
   "note": "holds when no PUSH rule of label 0 has negative weight (lookup_safe; always true for unweighted PDAs); the refuted theorem is a witness that it fails otherwise"
  },
  {
   "property": "C03",
   "status": "proved",
   "theorems": [
    "C03_pre_star_terminates"
   ],
   "note": ""
  },
  {
   "property": "C04",
   "status": "proved",
   "theorems": [
    "C04_post_star_sound"
   ],
   "note": ""
  },
  {
   "property": "C05",
   "status": "proved",
   "theorems": [
    "C05_post_star_complete",
    "C05_post_star_accepts",
    "C05_post_star_accepts_empty_stack_refuted"
   ],
   "note": "the refuted theorem is a witness that the restriction of accepts() to non-empty stacks is needed"
  },
  {
   "property": "C06",
   "status": "proved",
   "theorems": [
    "C06_post_star_terminates"
   ],
   "note": ""
  },
  {
   "property": "C07",
   "status": "proved",
   "theorems": [
    "C07_pre_star_accepts_config"
   ],
   "note": "under lookup_safe (see C02) and for states of the PDA"
  },
  {
   "property": "C08",
   "status": "proved",
   "theorems": [
    "C08_pre_star_verdict"
   ],
   "note": "under lookup_safe; the initial automaton may be any well-formed automaton, epsilon edges included"
  },
  {
   "property": "C09",
   "status": "proved",
   "theorems": [
    "C09_post_star_verdict",
    "C09_post_star_no_ET_verdict"
   ],
   "note": ""
  },
  {
   "property": "C10",
   "status": "proved",
   "theorems": [
    "C10_dual_search_verdict"
   ],
   "note": "under lookup_safe"
  },
  {
   "property": "C11",
   "status": "proved",
   "theorems": [
    "C11_engines_agree"
   ],
   "note": "under lookup_safe"
  },
  {
   "property": "C12",
   "status": "proved",
   "theorems": [
    "C12_pre_star_trace"
   ],
   "note": "Trace_Type::Any; the initial automaton has no epsilon edges, the final automaton is fresh; also: empty trace exactly when the verdict is false"
  },
  {
   "property": "C13",
   "status": "proved",
   "theorems": [
    "C13_post_star_trace"
   ],
   "note": "Trace_Type::Any; also for the variant without early termination"
  },
  {
   "property": "C14",
   "status": "proved",
   "theorems": [
    "C14_dual_search_trace"
   ],
   "note": "Trace_Type::Any"
  },
  {
   "property": "C15",
   "status": "proved",
   "theorems": [
    "C15_traceback_pre",
    "C15_traceback_post",
    "C15_config_trace_pre",
    "C15_config_trace_post",
    "C15_config_trace_refuted"
   ],
   "note": "every accepting path of an automaton saturated by pre*/post*, with any early termination; explicit bound on the number of iterations. The refuted theorem: get_trace for a configuration that is not accepted is undefined"
  },
  {
   "property": "C16",
   "status": "proved",
   "theorems": [
    "C16_product_is_intersection",
    "C16_product_insert_defined"
   ],
   "note": ""
  },
  {
   "property": "C17",
   "status": "proved",
   "theorems": [
    "C17_find_path",
    "C17_find_path_language"
   ],
   "note": ""
  },
  {
   "property": "C18",
   "status": "proved",
   "theorems": [
    "C18_accepts",
    "C18_accepts_with_epsilon_refuted"
   ],
   "note": "the refuted theorem shows that accepts() does not decide membership when epsilon edges are read"
  },
  {
   "property": "C19",
   "status": "proved",
   "theorems": [
    "C19_accept_path"
   ],
   "note": "Trace_Type::Any; the Shortest variant of accept_path is modelled separately"
  },
  {
   "property": "C20",
   "status": "proved",
   "theorems": [
    "C20_rule_store"
   ],
   "note": ""
  },
  {
   "property": "C21",
   "status": "proved",
   "theorems": [
    "C21_label_sets",
    "C21_returned_flags"
   ],
   "note": "for sorted label vectors over a non-empty alphabet, as the callers pass them"
  },
  {
   "property": "C22",
   "status": "proved",
   "theorems": [
    "C22_binary_search",
    "C22_vector_map",
    "C22_vector_map_results",
    "C22_from_unordered",
    "C22_vector_set",
    "C22_fut_set"
   ],
   "note": "for total orders; includes fut::set (hash table of sorted vectors)"
  },
  {
   "property": "C23",
   "status": "proved",
   "theorems": [
    "C23_concat",
    "C23_or",
    "C23_plus",
    "C23_atoms",
    "C23_expressions"
   ],
   "note": "for arbitrary well-formed NFAs, in particular all those built by the operations"
  },
  {
   "property": "C24",
   "status": "partial",
   "theorems": [
    "C24_option_exact",
    "C24_star_option_complete",
    "C24_star_option_partial",
    "C24_refuted"
   ],
   "note": "false in general: ([a]*[b])? and ([a]*[b])* accept a. Exact language of question_extend given; nothing is ever lost; exact for all expressions in which ? and * are not applied to a sequence beginning with a repetition"
  },
  {
   "property": "C25",
   "status": "proved",
   "theorems": [
    "C25_automaton_of_nfa",
    "C25_atoms",
    "C25_uncompiled_refuted",
    "C25_duplicate_states_refuted",
    "C25_wildcard_refuted",
    "C25_typed_negated_refuted"
   ],
   "note": "for NFAs over label ids and sorted duplicate-free state vectors; the refuted theorems are witnesses that compile(), absence of duplicates, label insertion order and (typed constructor) label id order matter"
  },
  {
   "property": "C26",
   "status": "proved",
   "theorems": [
    "C26_or_extend",
    "C26_or_extend_refuted"
   ],
   "note": "under the condition of all saturation inputs that no edge leads into a PDA state; refuted without"
  },
  {
   "property": "C27",
   "status": "proved",
   "theorems": [
    "C27_single_configuration"
   ],
   "note": ""
  },
  {
   "property": "C28",
   "status": "proved",
   "theorems": [
    "C28_parser",
    "C28_parser_total",
    "C28_text_language",
    "C28_query_verdict"
   ],
   "note": "the PEG grammar and the builder actions against an inductive grammar; C28_query_verdict goes from the texts of a query to the verdict of the three engines"
  },
  {
   "property": "C29",
   "status": "partial",
   "theorems": [
    "C29_order",
    "C29_add",
    "C29_infinity",
    "C29_overflow_refuted",
    "C29_array_order",
    "C29_array_add",
    "C29_array_monotone_refuted",
    "C29_vector_add",
    "C29_vector_less",
    "C29_vector_less_defined",
    "C29_vector_refuted"
   ],
   "note": "Integer weights: all laws, associativity and monotonicity without overflow (refuted with overflow). Arrays: all laws, monotonicity for finite components (refuted otherwise). Vectors: addition laws; the order of signed/maximising vectors is undefined for some vectors of different length (exact characterisation), and infinity is neither absorbing nor greatest (refuted). Floating point is not modelled."
  },
  {
   "property": "C30",
   "status": "proved",
   "theorems": [
    "C30_post_star_shortest",
    "C30_shortest_automaton",
    "C30_verdict_refuted",
    "C30_empty_stack_refuted",
    "C30_negative_rejected"
   ],
   "note": "the boolean result can be false although the weight is found (refuted); undefined when both automata accept the same configuration with an empty stack (refuted)"
  },
  {
   "property": "C31",
   "status": "partial",
   "theorems": [
    "C31_shortest_automaton_partial",
    "C31_single_label_partial",
    "C31_verdict_refuted",
    "C31_trace_refuted",
    "C31_config_refuted",
    "C31_out_of_range_refuted",
    "C31_empty_stack_refuted",
    "C31_overlap_refuted",
    "C31_negative_refuted"
   ],
   "note": "Proved: with early termination the weighted automaton has exactly the least weights of runs, and the query for a configuration of one label is right. Refuted: the boolean of the product query (the final call is skipped after an outdated element), the trace (weight lowered, trace kept), the query for longer stacks (without early termination positive weights are dropped), automata with edges that leave non-PDA states (read out of range), accepting PDA states without edges, overlapping languages, negative weights."
  },
  {
   "property": "C32",
   "status": "partial",
   "theorems": [
    "C32_pre_fixed_point_partial",
    "C32_single_edge_refuted",
    "C32_post_star_fails_refuted",
    "C32_post_star_refuted"
   ],
   "note": "Proved for pre* (both trace types) from an automaton with at least two edges: it ends, and the best weights and bottom are exact. Refuted: with one edge the second phase can fail an assertion (null pointer in release builds); post* can fail in the same way, and can report a finite weight although the weights can be lowered for ever."
  },
  {
   "property": "C33",
   "status": "partial",
   "theorems": [
    "C33_reduce_runs",
    "C33_count",
    "C33_reduce_verdict_partial",
    "C33_dual_stack_refuted",
    "C33_terminal_refuted",
    "C33_initial_rule_refuted"
   ],
   "note": "Runs and verdict are kept for terminal state 0 (with levels 2 and 4 only the runs above the initial stack). Refuted: levels 2 and 4 lose runs that pop to the initial stack; a terminal state other than 0 without rules is cleared; an initial rule that does not push fails an assertion."
  },
  {
   "property": "C34",
   "status": "proved",
   "theorems": [
    "C34_forwards_prune",
    "C34_backwards_prune",
    "C34_backwards_prune_exact",
    "C34_target_tos_prune"
   ],
   "note": "Exact for forwards_prune after any calls, for backwards_prune after add_rule calls."
  },
  {
   "property": "C35",
   "status": "proved",
   "theorems": [
    "C35_clear_state"
   ],
   "note": "the index side of the claim is C36"
  },
  {
   "property": "C36",
   "status": "partial",
   "theorems": [
    "C36_predecessors",
    "C36_predecessors_after_clear_partial",
    "C36_predecessors_after_clear_refuted"
   ],
   "note": "exact for add-only histories; after clear_state the index is complete but not exact (refuted with a witness)"
  },
  {
   "property": "C37",
   "status": "proved",
   "theorems": [
    "C37_path_container",
    "C37_path_observers"
   ],
   "note": "null paths are represented by an option type"
  },
  {
   "property": "C38",
   "status": "proved",
   "theorems": [
    "C38_trace_codec",
    "C38_order",
    "C38_equality_refuted",
    "C38_reserved_refuted"
   ],
   "note": "operator== of trace_t is wrong (refuted with witnesses); it is not used by the library"
  },
  {
   "property": "C39",
   "status": "proved",
   "theorems": [
    "C39_label_map",
    "C39_insert_label",
    "C39_stable",
    "C39_state_map"
   ],
   "note": "for all call sequences; the trie is modelled by its documented behaviour"
  },
  {
   "property": "C40",
   "status": "proved",
   "theorems": [
    "C40_decode_encode",
    "C40_injective",
    "C40_reserved_size",
    "C40_vectors_and_strings",
    "C40_trie_of_encodings"
   ],
   "note": "for nested tuples, vectors and variants of unsigned integers, and containers of raw elements"
  },
  {
   "property": "C41",
   "status": "proved",
   "theorems": [
    "C41_insert",
    "C41_refine",
    "C41_partition_history"
   ],
   "note": "AbstractionMapping and RefinementMapping: all call sequences; RI is the representation invariant, established by C41_insert and kept by C41_refine."
  },
  {
   "property": "C42",
   "status": "proved",
   "theorems": [
    "C42_combine",
    "C42_two_parts",
    "C42_two_parts_defined",
    "C42_header"
   ],
   "note": "Refinement::combine with a two-part refinement (its assertion), the two-set constructor, HeaderRefinement and its effect on a mapping."
  },
  {
   "property": "C43",
   "status": "partial",
   "theorems": [
    "C43_make_pair_refinement",
    "C43_make_simple_pair_refinement_partial",
    "C43_make_simple_pair_refinement_refuted"
   ],
   "note": "make_pair_refinement: full separation, any hash order. make_simple_pair_refinement only separates one pair; the full claim is refuted for it by a witness."
  },
  {
   "property": "C44",
   "status": "partial",
   "theorems": [
    "C44_positive_labels",
    "C44_negated_labels_partial",
    "C44_automaton_partial",
    "C44_automaton_exact",
    "C44_negated_labels_refuted",
    "C44_negated_exact_refuted"
   ],
   "note": "Plain sets are encoded exactly. For negated sets over-approximation is refuted: a class of which only a part is in the set is excluded (the predicate of remove_if is inverted); the partial theorems say exactly which classes a negated set denotes and give over-approximation when no class is cut."
  },
  {
   "property": "C45",
   "status": "partial",
   "theorems": [
    "C45_has_as_successor",
    "C45_intersect_edge_labels_partial",
    "C45_intersect_edge_labels_refuted"
   ],
   "note": "has_as_successor: proved. intersect_edge_labels: sound always; complete when no label is read by two of the edges leading to the target; otherwise it can lose labels and its result can be unsorted with duplicates (refuted with a witness)"
  },
  {
   "property": "C46",
   "status": "proved",
   "theorems": [
    "C46_negated_edges",
    "C46_negated_edges_refuted"
   ],
   "note": "for sorted duplicate-free lists of existing labels; refuted for duplicates and unsorted lists"
  },
  {
   "property": "C47",
   "status": "partial",
   "theorems": [
    "C47_rule_lookup",
    "C47_rule_lookup_refuted"
   ],
   "note": "proved under lookup_safe, refuted without"
  },
  {
   "property": "C48",
   "status": "proved",
   "theorems": [
    "C48_flags",
    "C48_fill_single"
   ],
   "note": ""
  },
  {
   "property": "C49",
   "status": "proved",
   "theorems": [
    "C49_is_disjoint",
    "C49_is_disjoint_nat"
   ],
   "note": ""
  },
  {
   "property": "C50",
   "status": "partial",
   "theorems": [
    "C50_paths_are_words",
    "C50_update_header",
    "C50_update_sequence",
    "C50_finalize_header",
    "C50_pre_labels_partial",
    "C50_refinement_refuted"
   ],
   "note": "Headers, update_header, sequences of updates and finalize_header: exact. Partial only in pre_labels, which may miss labels because of intersect_edge_labels (C45). The refinement built from that function may contain duplicates, which breaks the mapping (refuted with a witness)."
  },
  {
   "property": "C51",
   "status": "partial",
   "theorems": [
    "C51_rule_trace_pre",
    "C51_rule_trace_post_partial",
    "C51_rule_trace_post_refuted",
    "C51_rule_trace_dual_partial",
    "C51_rule_trace_dual_refuted"
   ],
   "note": "pre*: proved. post*: right if some rule is needed, else the two paths are exchanged (refuted). Dual search: right if some rule is needed, undefined otherwise (refuted)"
  },
  {
   "property": "C52",
   "status": "partial",
   "theorems": [
    "C52_automaton_copy",
    "C52_nfa_copy",
    "C52_nfa_assign_refuted",
    "C52_nfa_assign_null_refuted"
   ],
   "note": "Proved for the copy constructors in a heap model with an arbitrary allocator. Refuted for assignment to an NFA that has states: they stay, so a default constructed target also accepts the empty word, and edges of the target become null pointers."
  },
  {
   "property": "C53",
   "status": "proved",
   "theorems": [
    "C53_priority_set",
    "C53_priority_set_refuted",
    "C53_workset",
    "C53_workset_defined",
    "C53_workset_ends",
    "C53_workset_idle"
   ],
   "note": "priority_set: under the use discipline of the library (no emplace of a popped element); refuted without it. The priority queue's choice among equal elements is arbitrary, but push may change the top only to the new element"
  },
  {
   "property": "C54",
   "status": "partial",
   "theorems": [
    "C54_read",
    "C54_total",
    "C54_write",
    "C54_roundtrip",
    "C54_skip_refuted",
    "C54_nested_refuted",
    "C54_vector_weight_refuted",
    "C54_pop_assert_refuted",
    "C54_unused_label_refuted",
    "C54_star_label_refuted",
    "C54_unnamed_refuted"
   ],
   "note": "Reading is exact for documents in which ignored members hold at most one leaf, arrays are not nested where objects are expected and vector weights are arrays; refuted outside: ignored members with several values are rejected, nested arrays and plain numbers for vectors are accepted. Round trip proved for automata without a label named *, with named states, whose document mentions all labels; each condition is refuted without."
  },
  {
   "property": "C55",
   "status": "proved",
   "theorems": [
    "C55_reconstruct_trace",
    "C55_complete"
   ],
   "note": "For any implementation of the virtual functions with finite ranges; assumes that finalize_header does not fail and returns refinements of two sorted duplicate-free parts (see C50)."
  },
  {
   "property": "C56",
   "status": "proved",
   "theorems": [
    "C56_refine_grows",
    "C56_refinements_end"
   ],
   "note": "For refinements that fit the mapping and have at least two parts."
  },
  {
   "property": "C57",
   "status": "proved",
   "theorems": [
    "C57_linear_function",
    "C57_ordered_function",
    "C57_linear_function_refuted"
   ],
   "note": "refuted for sums of 2^31 and more"
  },
  {
   "property": "C58",
   "status": "proved",
   "theorems": [
    "C58_typed_rules",
    "C58_typed_store",
    "C58_unsorted_labels_refuted"
   ],
   "note": "labels not in id order break the store (refuted)"
  },
  {
   "property": "C59",
   "status": "proved",
   "theorems": [
    "C59_path_fixed_point",
    "C59_answer_unique"
   ],
   "note": "the reconstruction of the path (get_path) is not modelled"
  },
  {
   "property": "C60",
   "status": "proved",
   "theorems": [
    "C60_fixed_point_query"
   ],
   "note": "for final automata with at least two edges; the single edge case is refuted under C32; for the trace see C61"
  },
  {
   "property": "C61",
   "status": "proved",
   "theorems": [
    "C61_fixed_point_trace",
    "C61_epsilon_refuted"
   ],
   "note": "for initial automata without epsilon edges; with one get_path fails its assertion (C61_epsilon_refuted)"
  },
  {
   "property": "C62",
   "status": "proved",
   "theorems": [
    "C62_shortest_trace",
    "C62_epsilon_refuted"
   ],
   "note": "for final automata without epsilon edges; with one the lookup of the annotation fails an assertion (C62_epsilon_refuted)"
  },
  {
   "property": "C63",
   "status": "proved",
   "theorems": [
    "C63_hash_store",
    "C63_factory",
    "C63_ruleless_initial_refuted",
    "C63_duplicate_initial_refuted"
   ],
   "note": "for strictly increasing initial states below the size of the PDA; refuted without"
  },
  {
   "property": "C64",
   "status": "partial",
   "theorems": [
    "C64_read",
    "C64_usable",
    "C64_mixed_states_refuted",
    "C64_short_edge_refuted",
    "C64_number_refuted",
    "C64_nested_refuted"
   ],
   "note": "exact for documents whose edges have at least three elements, whose state arrays hold no arrays and whose further states are all names or all numbers; refuted without each"
  },
  {
   "property": "C65",
   "status": "partial",
   "theorems": [
    "C65_instance_partial",
    "C65_array_length_refuted",
    "C65_unknown_weight_refuted",
    "C65_nested_weight_refuted",
    "C65_number_type_refuted",
    "C65_fifth_element_refuted",
    "C65_unruled_state_refuted"
   ],
   "note": "exact for regular documents (regular_inst), verdicts of all engines for automata without empty labels and edges into PDA states; refuted without each restriction on the type, the number of elements and the numbering"
  },
  {
   "property": "C66",
   "status": "partial",
   "theorems": [
    "C66_files_partial"
   ],
   "note": "exact for regular documents (regular_files), verdicts as in C65; missing: documents outside these restrictions, for which C54, C64 and C65_unruled_state_refuted give counterexamples"
  },
  {
   "property": "C67",
   "status": "partial",
   "theorems": [
    "C67_automaton_partial",
    "C67_no_accepting_refuted",
    "C67_no_states_refuted",
    "C67_empty_label_refuted",
    "C67_mixed_names_refuted"
   ],
   "note": "language round trip for automata that fit (aut_fits); missing: the automata outside these conditions, for which the refutations give counterexamples"
  },
  {
   "property": "C68",
   "status": "partial",
   "theorems": [
    "C68_instance_partial",
    "C68_fixed_length_refuted",
    "C68_unruled_state_refuted"
   ],
   "note": "the question and the verdicts survive writing and reading under writable, last_used and aut_fits; missing: weights of fixed length and unruled numbered states (refuted), and the restrictions of C54 and C67"
  },
  {
   "property": "C69",
   "status": "partial",
   "theorems": [
    "C69_interleaving_partial",
    "C69_post_first_refuted",
    "C69_post_fails_refuted"
   ],
   "note": "right whenever pre* ends first; missing: post*, for which a wrong weight and a failing step are shown"
  },
  {
   "property": "C70",
   "status": "partial",
   "theorems": [
    "C70_dual_shortest_partial",
    "C70_trace_weight_partial",
    "C70_verdict_refuted",
    "C70_overlap_refuted",
    "C70_undefined_refuted"
   ],
   "note": "every yes and every reported weight comes from a run; missing: optimality and traces; completeness and definedness are refuted"
  },
  {
   "property": "C71",
   "status": "proved",
   "theorems": [
    "C71_query_text",
    "C71_accepted",
    "C71_verdict",
    "C71_quoted_state_refuted",
    "C71_number_state_refuted",
    "C71_late_label_refuted",
    "C71_state_numbers",
    "C71_plain_number",
    "C71_state_names"
   ],
   "note": "exact for expressions in the scope of C24 (at least the described configurations otherwise); the surprises of the statement are the refuted theorems"
  },
  {
   "property": "C72",
   "status": "partial",
   "theorems": [
    "C72_round",
    "C72_cegar",
    "C72_negated_refuted"
   ],
   "note": "right for all contracts if every negated label set is a union of classes; without that a wrong answer is shown"
  },
  {
   "property": "C73",
   "status": "proved",
   "theorems": [
    "C73_verify",
    "C73_other_options",
    "C73_trace_option",
    "C73_program"
   ],
   "note": "PDAs without weights; boost::program_options, json output and timing are not modelled; expressions in the scope of C24"
  },
  {
   "property": "C74",
   "status": "partial",
   "theorems": [
    "C74_verify_partial",
    "C74_program_partial",
    "C74_verdict_refuted"
   ],
   "note": "every weight and trace reported is right; missing: result true whenever a run exists, which is false (C74_verdict_refuted); engines 2 and 3 not modelled here"
  },
  {
   "property": "C75",
   "status": "proved",
   "theorems": [
    "C75_verify",
    "C75_program",
    "C75_single_refuted"
   ],
   "note": "signed weights without overflow; expressions in the scope of C24; the failing case of the statement is C75_single_refuted"
  },
  {
   "property": "C76",
   "status": "proved",
   "theorems": [
    "C76_post_fixed_point",
    "C76_post_fixed_point_ends",
    "C76_post_query",
    "C76_post_accepts",
    "C76_interleaving"
   ],
   "note": "whenever no step fails; that a step can fail and that the weight need not be the best one is C32_post_star_fails_refuted, C32_post_star_refuted"
  },
  {
   "property": "C77",
   "status": "proved",
   "theorems": [
    "C77_post_trace",
    "C77_interleaving_trace",
    "C77_empty_stack_refuted"
   ],
   "note": "whenever the query returns; for a final configuration with the empty stack get_path fails its assertion (C77_empty_stack_refuted); the weight of the run is not claimed to be the weight returned"
  }
 ]
}