{"id": "C01", "title": "pre* is sound", "statement": "After Solver::pre_star on an automaton A (no edges into PDA states, no epsilon edges), every configuration (p,w) that the resulting automaton accepts can reach, by some sequence of PDA rules, a configuration accepted by the original A.", "quantifier": "all pushdown systems built through add_rule/add_wildcard_rule, all target automata, all configurations, all hash iteration orders", "why_tests_cant": "the runs of a PDA and its stacks are unbounded; a test only samples configurations", "anchors": ["src/include/pdaaal/internal/PdaSaturation.h: PreStarSaturation", "src/include/pdaaal/Solver.h: pre_star"]}
{"id": "C02", "title": "pre* is complete", "statement": "After Solver::pre_star on A, every configuration (p,w) from which some configuration accepted by the original A is reachable is accepted by the resulting automaton.", "quantifier": "all pushdown systems, target automata, configurations and runs of any length", "why_tests_cant": "a missing edge only shows on the particular runs that need it", "anchors": ["src/include/pdaaal/internal/PdaSaturation.h: PreStarSaturation", "src/include/pdaaal/Solver.h: pre_star"]}
{"id": "C03", "title": "pre* terminates without undefined behaviour", "statement": "Solver::pre_star finishes after a number of worklist steps bounded by the number of possible edges, whatever the rules (including rule cycles and automaton cycles), and never indexes outside its tables.", "quantifier": "all pushdown systems and well-formed automata", "why_tests_cant": "termination on all inputs is not observable by running some of them", "anchors": ["src/include/pdaaal/internal/PdaSaturation.h: PreStarSaturation::step, workset_empty"]}
{"id": "C04", "title": "post* is sound", "statement": "After Solver::post_star on an automaton A, every configuration the resulting automaton accepts (epsilon edges included) is reachable from some configuration accepted by the original A.", "quantifier": "all pushdown systems, all initial automata without edges into PDA states and without epsilon edges, all configurations", "why_tests_cant": "unbounded stacks and runs", "anchors": ["src/include/pdaaal/internal/PdaSaturation.h: PostStarSaturation", "src/include/pdaaal/Solver.h: post_star"]}
{"id": "C05", "title": "post* is complete", "statement": "After Solver::post_star on A, every configuration reachable from a configuration accepted by the original A is accepted by the resulting automaton read with epsilon edges, and by the epsilon-free accepts() query whenever its stack is not empty.", "quantifier": "all pushdown systems, initial automata, runs of any length", "why_tests_cant": "a missing epsilon or push combination only shows on specific interleavings of rule applications", "anchors": ["src/include/pdaaal/internal/PdaSaturation.h: PostStarSaturation", "src/include/pdaaal/internal/PAutomaton.h: accepts"]}
{"id": "C06", "title": "post* terminates without undefined behaviour", "statement": "Solver::post_star finishes on every admissible input within a bounded number of worklist steps and never indexes outside its relation tables.", "quantifier": "all pushdown systems and admissible initial automata", "why_tests_cant": "termination and absence of out-of-range accesses quantify over all inputs", "anchors": ["src/include/pdaaal/internal/PdaSaturation.h: PostStarSaturation::initialize, step, run"]}
{"id": "C07", "title": "Single-configuration query by pre*", "statement": "Solver::pre_star_accepts(automaton,state,stack) returns true exactly when (state,stack) can reach a configuration accepted by the automaton, although it may stop saturating early.", "quantifier": "all pushdown systems, automata, states and stacks (of length 0, 1 and more)", "why_tests_cant": "early termination makes the result depend on the order in which edges are inserted", "anchors": ["src/include/pdaaal/Solver.h: pre_star_accepts(PAutomaton&,size_t,vector)"]}
{"id": "C08", "title": "pre* instance verdict", "statement": "Solver::pre_star_accepts(instance) returns true exactly when some configuration of the initial automaton can reach some configuration of the final automaton.", "quantifier": "all pushdown systems, initial automata and final automata", "why_tests_cant": "the verdict is computed on an incrementally built product with early termination; errors need particular insertion orders", "anchors": ["src/include/pdaaal/Solver.h: pre_star_accepts(SolverInstance)", "src/include/pdaaal/PAutomatonProduct.h"]}
{"id": "C09", "title": "post* instance verdict", "statement": "Solver::post_star_accepts(instance) returns true exactly when some configuration of the initial automaton can reach some configuration of the final automaton.", "quantifier": "all pushdown systems, initial automata and final automata", "why_tests_cant": "as for pre*, plus epsilon edges in the product", "anchors": ["src/include/pdaaal/Solver.h: post_star_accepts(SolverInstance)", "src/include/pdaaal/PAutomatonProduct.h"]}
{"id": "C10", "title": "dual search instance verdict", "statement": "Solver::dual_search_accepts(instance) returns true exactly when some configuration of the initial automaton can reach some configuration of the final automaton, although each direction stops as soon as either worklist is empty.", "quantifier": "all pushdown systems, initial automata and final automata", "why_tests_cant": "correctness depends on the interleaving of two saturations that both stop before completion", "anchors": ["src/include/pdaaal/Solver.h: dual_search, dual_search_accepts"]}
{"id": "C11", "title": "The three engines agree", "statement": "For the same instance, pre*, post* and dual search give the same verdict.", "quantifier": "all instances", "why_tests_cant": "differential testing only compares sampled instances", "anchors": ["src/include/pdaaal/Solver.h", "src/include/pdaaal/../../pdaaal-bin/Verifier.h"]}
{"id": "C12", "title": "Traces from pre* are runs", "statement": "The trace returned by get_trace after pre* starts in a configuration accepted by the initial automaton, each step is licensed by a rule of the PDA, and the last configuration is accepted by the final automaton.", "quantifier": "all instances for which pre* answers true", "why_tests_cant": "witness reconstruction follows stored back pointers whose shape depends on the saturation history", "anchors": ["src/include/pdaaal/Solver.h: get_trace, _get_trace", "src/include/pdaaal/internal/PdaSaturation.h: TraceBack"]}
{"id": "C13", "title": "Traces from post* are runs", "statement": "The trace returned after post* starts in a configuration accepted by the initial automaton, each step is licensed by a rule, and it ends in a configuration accepted by the final automaton.", "quantifier": "all instances for which post* answers true", "why_tests_cant": "as above; push edges share a state between several rules", "anchors": ["src/include/pdaaal/Solver.h: _get_trace", "src/include/pdaaal/internal/PdaSaturation.h: TraceBack::next (post_star)"]}
{"id": "C14", "title": "Traces from dual search are runs", "statement": "The concatenated trace returned after dual search is one run from the initial automaton's language to the final automaton's language with the meeting configuration listed once.", "quantifier": "all instances for which dual search answers true", "why_tests_cant": "two half traces must meet in one configuration for every saturation history", "anchors": ["src/include/pdaaal/Solver.h: get_trace_dual_search"]}
{"id": "C15", "title": "Trace reconstruction terminates", "statement": "Following the stored trace information always ends in edges of the original automaton, and never reads an edge that is not there.", "quantifier": "every automaton state reachable during pre* or post* saturation and every path of it", "why_tests_cant": "a cycle in the back pointers would only appear for particular insertion orders", "anchors": ["src/include/pdaaal/internal/PdaSaturation.h: TraceBack", "src/include/pdaaal/internal/PAutomaton.h: trace_t"]}
{"id": "C16", "title": "Product automaton accepts the intersection", "statement": "The automaton built by PAutomatonProduct has an accepting state exactly when some configuration is accepted by both components, and stays so when edges are added one by one to either component.", "quantifier": "all pairs of automata and all sequences of edge insertions", "why_tests_cant": "incremental exploration must not depend on the insertion order", "anchors": ["src/include/pdaaal/PAutomatonProduct.h: construct_reachable, add_edge, get_product_state"]}
{"id": "C17", "title": "find_path returns an accepting path", "statement": "PAutomaton/product find_path returns a path whose consecutive states are joined by edges with the returned labels, ending in an accepting state, and returns none exactly when no accepting state is reachable from an initial state.", "quantifier": "all automata and hash orders", "why_tests_cant": "depth-first search with a shared path buffer: errors need particular graph shapes", "anchors": ["src/include/pdaaal/internal/PAutomaton.h: find_path", "src/include/pdaaal/PAutomatonProduct.h: find_path"]}
{"id": "C18", "title": "accepts() decides epsilon-free membership", "statement": "PAutomaton::accepts(state,stack) is true exactly when there is a path from state reading the stack, without epsilon edges, to an accepting state.", "quantifier": "all automata, states and stacks", "why_tests_cant": "membership quantifies over all paths", "anchors": ["src/include/pdaaal/internal/PAutomaton.h: accepts"]}
{"id": "C19", "title": "accept_path returns a witnessing path", "statement": "accept_path(state,stack) returns the states of an accepting path for that stack, one more than the stack length, and an empty result exactly when accepts is false.", "quantifier": "all automata, states and stacks", "why_tests_cant": "all graph shapes", "anchors": ["src/include/pdaaal/internal/PAutomaton.h: accept_path"]}
{"id": "C20", "title": "Rule store is the set of added rules", "statement": "After any sequence of add_rule / add_wildcard_rule calls the PDA contains exactly the added transitions: same-key rules merge their precondition labels, wildcard absorbs labels, and nothing else appears or disappears.", "quantifier": "all sequences of rule insertions", "why_tests_cant": "merging depends on the whole insertion history", "anchors": ["src/include/pdaaal/internal/PDA.h: add_untyped_rule_impl", "src/include/pdaaal/internal/PDA.cpp: labels_t::merge"]}
{"id": "C21", "title": "Precondition label sets", "statement": "labels_t merge, contains, intersect and noop_pre_filter compute union, membership and intersection of label sets, wildcard standing for all labels, and keep the representation sorted.", "quantifier": "all label sets and all operation sequences", "why_tests_cant": "set algebra over arbitrary sets", "anchors": ["src/include/pdaaal/internal/PDA.cpp: merge, intersect, noop_pre_filter", "src/include/pdaaal/internal/PDA.h: labels_t"]}
{"id": "C22", "title": "Sorted vector containers refine maps and sets", "statement": "vector_map and vector_set behave as finite maps/sets with first-insertion-wins emplace and sorted iteration, for every sequence of operations, with binary search equal to membership.", "quantifier": "all operation sequences and key orders", "why_tests_cant": "container invariants range over all histories", "anchors": ["src/include/pdaaal/utils/vector_set.h: vector_map, vector_set"]}
{"id": "C23", "title": "Regular expression building: concatenation, union, plus", "statement": "The NFA built for e1 e2, e1|e2 and e+ accepts exactly the concatenation, union and iteration of the languages of the parts.", "quantifier": "all NFAs built from label-set atoms by these operations and all words", "why_tests_cant": "language equality ranges over infinitely many words", "anchors": ["src/include/pdaaal/NFA.h: concat, or_extend, plus_extend"]}
{"id": "C24", "title": "Regular expression building: star and option", "statement": "The NFA built for e* and e? accepts exactly the star and the option of the language of e.", "quantifier": "all regular expressions e and all words", "why_tests_cant": "language equality; fails only for bodies whose initial state is re-entered", "anchors": ["src/include/pdaaal/NFA.h: star_extend, question_extend"]}
{"id": "C25", "title": "P-automaton from NFA", "statement": "A P-automaton constructed from a set of PDA states and a compiled NFA accepts (p,w) exactly when p is one of the states and the NFA accepts w.", "quantifier": "all NFAs (with epsilon edges, negated and wildcard edges), state sets and words", "why_tests_cant": "language equality over all words", "anchors": ["src/include/pdaaal/internal/PAutomaton.h: construct, add_edges", "src/include/pdaaal/NFA.h: compile, follow_epsilon"]}
{"id": "C26", "title": "Union of P-automata", "statement": "After a.or_extend(b), a accepts exactly the configurations that a or b accepted before.", "quantifier": "all pairs of P-automata over the same PDA and all configurations", "why_tests_cant": "language equality", "anchors": ["src/include/pdaaal/internal/PAutomaton.h: or_extend"]}
{"id": "C27", "title": "Single-configuration P-automaton", "statement": "The P-automaton constructed from one state and one stack accepts exactly that configuration.", "quantifier": "all states and stacks", "why_tests_cant": "language equality over all configurations", "anchors": ["src/include/pdaaal/internal/PAutomaton.h: PAutomaton(pda,initial_state,initial_stack)"]}
{"id": "C28", "title": "Regular expression parser actions", "statement": "The sequence of parser actions for a regular expression yields the automaton of that expression: concatenation binds tighter than |, brackets group, postfix operators apply to the preceding factor.", "quantifier": "all regular expression syntax trees", "why_tests_cant": "infinitely many expressions", "anchors": ["src/include/pdaaal/parsing/NfaParserGrammar.h: NfaBuilder"]}
{"id": "C29", "title": "Weight algebra", "statement": "For every built-in weight type, adding is associative and commutative with zero as neutral element, the ordering is a strict weak order, and adding is monotone; infinity is absorbing and greatest.", "quantifier": "all weight values", "why_tests_cant": "overflow and ordering laws range over all values and triples of values", "anchors": ["src/include/pdaaal/Weight.h: weight_impl"]}
{"id": "C30", "title": "Shortest post* trace is minimal", "statement": "With trace type Shortest, post_star_accepts ends, and the weight that find_path of the product then reports equals the minimum total rule weight over all runs from the initial to the final automaton; a path is reported exactly if there is a run, and it describes a configuration reached by a run of that weight. The returned boolean is true only if there is a run (it can be false although there is one). post_star without early termination gives an automaton whose accepting paths have the weights of runs and include the least one.", "quantifier": "all PDAs with non-negative weights and all pairs of automata without edge weights that do not accept a common configuration with an empty stack; all orders of equal elements in the priority queues", "why_tests_cant": "minimality quantifies over all runs", "anchors": ["src/include/pdaaal/internal/PdaSaturation.h: PostStarShortestSaturation", "src/include/pdaaal/Solver.h: post_star_accepts"]}
{"id": "C31", "title": "Shortest pre* trace is minimal", "statement": "With trace type Shortest, pre* reports the minimum total rule weight over all runs and a trace having that weight.", "quantifier": "all instances with non-negative weights", "why_tests_cant": "minimality quantifies over all runs and insertion orders", "anchors": ["src/include/pdaaal/internal/PdaSaturation.h: PreStarSaturation (Shortest)", "src/include/pdaaal/Solver.h: pre_star"]}
{"id": "C32", "title": "Fixed-point engines", "statement": "For ShortestFixedPoint and Longest, the fixed-point saturations report the least (greatest) total weight over all runs when it exists and infinity when weights can be improved for ever.", "quantifier": "all instances", "why_tests_cant": "loops with negative gain need unboundedly many rounds to show", "anchors": ["src/include/pdaaal/internal/PdaSaturation.h: PreStarFixedPointSaturation, PostStarFixedPointSaturation", "src/include/pdaaal/internal/PAutomatonAlgorithms.h"]}
{"id": "C33", "title": "Reduction preserves the verdict", "statement": "Reducer::reduce(pda, aggressivity, initial, terminal) ends, never adds a rule, reports counts that do not grow, and keeps exactly the runs from the initial to the terminal state (up to the first visit), so that reachability of the terminal state does not change, at every aggressivity level. (Holds for terminal state 0 and levels other than 2 and 4; refuted for other terminal states and for levels 2 and 4 in general.)", "quantifier": "all pushdown systems with an initial and a terminal state", "why_tests_cant": "an over-eager pruning only shows on runs that used the pruned rule", "anchors": ["src/include/pdaaal/internal/Reducer.h: reduce, forwards_prune, backwards_prune, target_tos_prune", "src/include/pdaaal/internal/Reducer.cpp"]}
{"id": "C34", "title": "forwards/backwards pruning is safe", "statement": "forwards_prune, backwards_prune and target_tos_prune keep every run from the initial to the terminal state. forwards_prune keeps exactly the rules whose source is reachable in the graph of the states, backwards_prune exactly those whose target is connected to the terminal state, and after target_tos_prune every rule that does not pop or reach the terminal state is followed by a rule for the new top of the stack.", "quantifier": "all pushdown systems and runs", "why_tests_cant": "runs are unbounded", "anchors": ["src/include/pdaaal/internal/Reducer.h: forwards_prune, backwards_prune", "src/include/pdaaal/internal/Reducer.h: target_tos_prune", "src/include/pdaaal/internal/PDA.h: clear_state"]}
{"id": "C35", "title": "Clearing a state", "statement": "clear_state(s) removes exactly the rules from and to s and leaves every other rule and the predecessor index consistent.", "quantifier": "all PDAs and states", "why_tests_cant": "index consistency is an invariant over all histories", "anchors": ["src/include/pdaaal/internal/PDA.h: clear_state"]}
{"id": "C36", "title": "Predecessor index", "statement": "For every PDA built through the API, s is listed as predecessor of t exactly when some rule leads from s to t.", "quantifier": "all sequences of add_rule, add_wildcard_rule, clear_state", "why_tests_cant": "history invariant", "anchors": ["src/include/pdaaal/internal/PDA.h: add_untyped_rule_impl, clear_state"]}
{"id": "C37", "title": "Path container", "statement": "AutomatonPath behaves as the list of edges it was built from: emplace adds an edge in front, pop removes the front edge, get_path lists the states, front_edge is the first edge.", "quantifier": "all sequences of operations", "why_tests_cant": "representation with separate edge stack and end state must agree for all histories", "anchors": ["src/include/pdaaal/AutomatonPath.h"]}
{"id": "C38", "title": "Trace information encoding", "statement": "Distinct kinds of trace information (none, pre*, post* rule, post* epsilon) are never confused by the packed encoding, for all rule ids, labels and states below the reserved values.", "quantifier": "all field values", "why_tests_cant": "2^128 encodings", "anchors": ["src/include/pdaaal/internal/PAutomaton.h: trace_t"]}
{"id": "C39", "title": "Label and state maps are injective", "statement": "Typed PDA label/state insertion gives distinct labels distinct ids, returns the same id for the same label, ids are dense from 0, and get_symbol inverts insert.", "quantifier": "all insertion sequences", "why_tests_cant": "history invariant", "anchors": ["src/include/pdaaal/PDA.h: insert_label", "src/include/pdaaal/utils/ptrie_interface.h"]}
{"id": "C40", "title": "Byte serialisation of map keys", "statement": "The byte encodings used as trie keys for integers, vectors and strings are injective and inverted by the decoder.", "quantifier": "all values", "why_tests_cant": "infinitely many values", "anchors": ["src/include/pdaaal/utils/ptrie_interface.h"]}
{"id": "C41", "title": "Partition refinement mapping", "statement": "RefinementMapping keeps a partition of the concrete values: every inserted value has exactly one abstract id, refinement only splits classes, and values in different classes are never merged.", "quantifier": "all sequences of insert and refine", "why_tests_cant": "history invariant", "anchors": ["src/include/pdaaal/cegar/AbstractionMapping.h: RefinementMapping"]}
{"id": "C42", "title": "Combined refinements separate", "statement": "Refinement::combine yields disjoint partitions that still separate what was separated before and also separate what the other refinement separates.", "quantifier": "all partitions", "why_tests_cant": "set-theoretic statement over all partitions", "anchors": ["src/include/pdaaal/cegar/Refinement.h: Refinement::combine"]}
{"id": "C43", "title": "Pair refinement separates spurious from real", "statement": "make_pair_refinement and make_simple_pair_refinement return refinements after which no pair of X falls in the same abstract class pair as a pair of Y.", "quantifier": "all disjoint finite sets of pairs", "why_tests_cant": "greedy bucket assignment over all inputs and hash orders", "anchors": ["src/include/pdaaal/cegar/Refinement.h: make_pair_refinement, make_simple_pair_refinement"]}
{"id": "C44", "title": "Abstraction over-approximates label sets", "statement": "Encoding a (possibly negated) set of concrete labels as abstract labels covers every concrete label in the set.", "quantifier": "all label abstractions and label sets", "why_tests_cant": "over-approximation quantifies over all labels", "anchors": ["src/include/pdaaal/cegar/AbstractionPDA.h: encode_labels"]}
{"id": "C45", "title": "Set difference of NFA edges", "statement": "NFA::intersect_edge_labels returns exactly the labels of the given set with which an edge leads from the given states to the target state (through epsilon edges).", "quantifier": "all NFAs, state sets, label sets", "why_tests_cant": "union over an arbitrary number of edges", "anchors": ["src/include/pdaaal/NFA.h: intersect_edge_labels"]}
{"id": "C46", "title": "Adding negated edges", "statement": "add_edges with a negated label list adds an edge for exactly the labels outside the list.", "quantifier": "all label lists and label counts", "why_tests_cant": "all subsets of labels", "anchors": ["src/include/pdaaal/internal/PAutomaton.h: add_edges"]}
{"id": "C47", "title": "Rule order look-up", "statement": "In pre*, the rules of a state that lead to a given target are all visited, whatever their operation, label and weight.", "quantifier": "all rule sets", "why_tests_cant": "depends on the total order of rules including weights", "anchors": ["src/include/pdaaal/internal/PdaSaturation.h: step", "src/include/pdaaal/internal/PDA.h: pda_rule_t::operator<"]}
{"id": "C48", "title": "Flags and enumerations", "statement": "Flag sets support set/clear/test as sets of flags, for all sequences of operations.", "quantifier": "all operation sequences", "why_tests_cant": "all bit patterns", "anchors": ["src/include/pdaaal/utils/flags.h"]}
{"id": "C49", "title": "Disjointness test", "statement": "is_disjoint on sorted ranges returns true exactly when the ranges share no element.", "quantifier": "all sorted sequences", "why_tests_cant": "all sequences", "anchors": ["src/include/pdaaal/utils/more_algorithms.h"]}
{"id": "C50", "title": "Header stack of the concrete reconstruction", "statement": "Header pop/append and update track exactly the stack a symbolic header stands for: some wildcard positions below a concrete part.", "quantifier": "all headers and rule sequences", "why_tests_cant": "all stacks", "anchors": ["src/include/pdaaal/cegar/CegarPdaFactory.h: Header, update_header"]}
{"id": "C51", "title": "Rule traces", "statement": "get_rule_trace_and_paths returns rules which, applied in order to the first configuration, lead to the last one.", "quantifier": "all instances answered positively", "why_tests_cant": "all saturation histories", "anchors": ["src/include/pdaaal/Solver.h: get_rule_trace_and_paths, _get_rule_trace_and_paths"]}
{"id": "C52", "title": "Copy and re-use of automata", "statement": "Copying a P-automaton or an NFA gives an automaton with the same states, edges and language; whatever is done afterwards through one of the two (changing its states, adding states, destroying it) leaves the other one as it was. Assigning an NFA (operator=) makes the target accept the same language as the source. (The last sentence is refuted: operator= keeps the states the target had.)", "quantifier": "all automata and insertion sequences", "why_tests_cant": "aliasing ranges over all histories", "anchors": ["src/include/pdaaal/internal/PAutomaton.h: copy constructor", "src/include/pdaaal/NFA.h: operator=(const NFA&), copy constructor"]}
{"id": "C53", "title": "Priority set and workset", "statement": "The work containers hand out every inserted element, never lose one, and the priority variants hand out a least element first.", "quantifier": "all operation sequences", "why_tests_cant": "history invariant", "anchors": ["src/include/pdaaal/utils/workset.h"]}
{"id": "C54", "title": "JSON pushdown automata", "statement": "The JSON parser of pushdown automata accepts exactly the documents of the described form and stores exactly the rules, labels and states they list; it ends with an automaton or an exception for every JSON document; a document written by to_json is read back as the same rules.", "quantifier": "all JSON documents; all automata built by call sequences", "why_tests_cant": "documents are unboundedly nested trees; the handlers keep a context stack and a last key whose combinations tests only sample", "anchors": ["src/pdaaal-bin/parsing/PdaJsonParser.h:45-509", "src/include/pdaaal/utils/SaxHandlerHelpers.h:38-239", "src/include/pdaaal/PDA.h:279-384"]}
{"id": "C55", "title": "The search for a concrete trace is exhaustive", "statement": "reconstruct_trace returns a concrete trace iff some chain of configurations, one per rule of the abstract trace, ends in a configuration with a final header; otherwise it refines with exactly the configurations of the deepest level reached, or with the combined header refinements of all complete chains. The search terminates.", "quantifier": "all finite configuration ranges returned by the virtual functions, all trace lengths", "why_tests_cant": "all search trees", "anchors": ["src/include/pdaaal/cegar/CegarPdaFactory.h: reconstruct_trace"]}
{"id": "C56", "title": "Refinement makes progress", "statement": "Every refinement of a mapping by at least two parts increases its number of abstract values, so at most as many refinements happen as there are concrete values.", "quantifier": "all mappings and sequences of refinements", "why_tests_cant": "termination over all sequences", "anchors": ["src/include/pdaaal/cegar/AbstractionMapping.h: refine", "src/include/pdaaal/cegar/CegarPdaFactory.h: cegar_solve"]}
{"id": "C57", "title": "Linear and ordered weight functions", "statement": "A linear_weight_function evaluates to the sum of the products of its coefficients and its sub-functions, and an ordered_weight_function to the vector of its components' values, as long as the sums are below 2^31 (the accumulator of the sum is an int; larger sums come out wrong).", "quantifier": "all (nested) linear combinations and all unsigned weight types of at least 32 bits", "why_tests_cant": "nested combinations are unbounded, and the narrowing only shows for large sums", "anchors": ["src/include/pdaaal/Weight.h: linear_weight_function::operator(), ordered_weight_function::operator()"]}
{"id": "C58", "title": "Typed rules are the rules that were added", "statement": "After any sequence of insert_label, insert_state and add_rule calls on a typed PDA, all_rules lists exactly the rules added, wildcards spelled out over all labels known at the end. With assertions on and no repeated labels in a call the rule store is sorted and duplicate free; labels given in another order than that of their ids violate an assertion, and without assertions are not found afterwards.", "quantifier": "all call sequences, label types and state types", "why_tests_cant": "call sequences and label types are unbounded", "anchors": ["src/include/pdaaal/PDA.h: add_rule, encode_pre, find_labelid, all_rules"]}
{"id": "C59", "title": "Best weight of an accepted path", "statement": "PAutomatonFixedPoint run on a weighted automaton ends, and get_weight is the least (greatest) weight over all accepting paths from the first n states; it is infinite exactly if some accepting path has an infinite weight or the weights of accepting paths can be improved for ever, and not_accepting holds exactly if there is no accepting path.", "quantifier": "all automata (with epsilon edges, negative weights and bottom), both trace types, all edge orders", "why_tests_cant": "negative loops may lie on paths of any length and lead to accepting states through any detour", "anchors": ["src/include/pdaaal/internal/PAutomatonAlgorithms.h: PAutomatonFixedPoint", "src/include/pdaaal/utils/workset.h: fixed_point_workset"]}
{"id": "C60", "title": "Fixed-point queries by pre*", "statement": "Solver::pre_star_fixed_point_accepts followed by find_path_fixed_point (ShortestFixedPoint, Longest) ends without undefined behaviour; the verdict tells whether a run from an initial to a final configuration exists; the weight is the best total weight of these runs, infinite exactly if they can be improved for ever, and max() if there are none.", "quantifier": "all PDAs without the wildcard lookup defect, all initial automata whose epsilon edges weigh zero, all final automata with default annotations and at least two edges (with one edge see C32)", "why_tests_cant": "runs are unbounded and the loop with gain may be joint to both automata", "anchors": ["src/include/pdaaal/Solver.h: pre_star_fixed_point_accepts", "src/include/pdaaal/PAutomatonProduct.h: initialize_product, find_path_fixed_point"]}
{"id": "C61", "title": "Traces of fixed-point queries by pre*", "statement": "Solver::get_trace after pre_star_fixed_point_accepts (ShortestFixedPoint, Longest) ends without undefined behaviour; if the reported weight is finite the trace is a sequence of configurations from an initial to a final one in which every step is made by a rule and the weights of these rules add up to exactly the reported weight; if the weight is infinite or there is no run the trace is empty. With an epsilon edge in the initial automaton get_path fails an assertion instead.", "quantifier": "all PDAs without the wildcard lookup defect, all initial automata without epsilon edges, all final automata with default annotations and at least two edges", "why_tests_cant": "the recorded traces come from two saturation phases in which weights keep improving; a trace may be built from records of different rounds", "anchors": ["src/include/pdaaal/Solver.h: get_trace", "src/include/pdaaal/internal/PAutomatonAlgorithms.h: get_path, get_path_with_loop", "src/include/pdaaal/internal/PdaSaturation.h: TraceBack", "src/include/pdaaal/PAutomatonProduct.h: find_path_fixed_point"]}
{"id": "C62", "title": "Traces of least-weight queries by post*", "statement": "Solver::get_trace<Trace_Type::Shortest> after post_star_accepts<Trace_Type::Shortest> ends without undefined behaviour; if a configuration of the final automaton is reachable, the trace is a sequence of configurations from an initial to a final one in which every step is made by a rule, the weights of these rules add up to exactly the returned weight, and no run has a smaller weight; otherwise the trace is empty. With an epsilon edge in the final automaton the lookup of an edge fails an assertion instead.", "quantifier": "all PDAs with non-negative weights, all initial automata without epsilon edges, edges into PDA states or annotations, all final automata without epsilon edges, all orders of the priority queues and hash tables", "why_tests_cant": "the annotation of an edge has to belong to the derivation of its least weight although it was queued several times with different weights, and the weight of a PUSH is split over two edges", "anchors": ["src/include/pdaaal/Solver.h: get_trace, _get_trace", "src/include/pdaaal/internal/PdaSaturation.h: PostStarShortestSaturation, TraceBack", "src/include/pdaaal/PAutomatonProduct.h: find_path_shortest"]}
{"id": "C63", "title": "Solver instances made by DFS_PDAFactory", "statement": "DFS_PDAFactory::compile ends, its PDA is the one that the same rules added to a PDA with sorted vectors would give, whatever the order of the hash tables, and post*, pre* and the dual search on the returned instance answer yes exactly if in the pushdown system described by rules() a configuration with a state of initial() and a stack matched by the first NFA reaches one with an accepting state and a stack matched by the second. If an initial state without rules is larger than every state of a rule, or initial() lists a state twice, the answer can be wrong.", "quantifier": "all derived classes with finitely many reachable states, rules with known labels and strictly increasing initial states of which none is larger than every state in a rule; all compiled NFAs; all orders of hash tables and addresses", "why_tests_cant": "the rules and the accepting predicate are arbitrary functions, and the states are found in an order that depends on them", "anchors": ["src/include/pdaaal/PDAFactory.h: BasePDAFactory::compile, DFS_PDAFactory::build_pda", "src/include/pdaaal/PAutomatonProduct.h: PAutomatonProduct, intersect_vector", "src/include/pdaaal/internal/PDA.h: PDA, state_t"]}
{"id": "C64", "title": "Reading P-automata from JSON", "statement": "PAutomatonJsonParser::parse accepts a regular document exactly if it is a P-automaton document, and then the automaton accepts from each state of the PDA exactly the words that the accepting states and edges of the document say; the PDA only gets the labels of the edges, its states and rules are unchanged; states outside the PDA may be names or numbers. The automaton meets the preconditions of pre* (no empty labels) and post* (also no edges into states of the PDA). Outside regular documents: numbers and names mixed for further states give a failed assertion or an automaton for other words, edges with fewer than three elements and a document that is a number are undefined, nested arrays are accepted.", "quantifier": "all JSON values in which edges have at least three elements, state arrays hold no arrays and further states are all names or all numbers; all PDAs with distinct names and labels; PDAs with named and with numbered states", "why_tests_cant": "members can come in any order and states are created on first use, so the numbering depends on the whole document", "anchors": ["src/pdaaal-bin/parsing/PAutomatonJsonParser.h: PAutomatonSaxHandler, PAutomatonJsonParser::parse", "src/include/pdaaal/PAutomaton.h: exists_state, insert_state"]}
{"id": "C65", "title": "Reading solver instances from one JSON document", "statement": "SolverInstanceJsonParser::parse accepts a regular document exactly if it is {\"instance\": [type, pda, automaton, automaton]}, and the solver instance it makes asks the question of the document: post*, post* without early termination, pre* and the dual search answer yes exactly if a configuration accepted by the first automaton of the document reaches one accepted by the second by rules of the document, by the names of states and labels, where \"*\" stands for every label of the whole document. Outside regular documents: a weight type that is an array with a length, as to_json writes it, is never read; unknown weight types are read as no weights, nested arrays as a weight type are accepted; a bare number as type is undefined; a fifth element that is an array is read as another instance which replaces the first; states without names that no rule reaches do not exist.", "quantifier": "all JSON values with a known weight type without length, numbered states up to one in a rule, and the restrictions of C54 and C64 on the parts; verdicts for automata without empty labels and edges into PDA states (of the saturated side), and non-negative weights for pre* and the dual search; all orders of hash tables, with and without assertions", "why_tests_cant": "four handlers take turns on one stream of events and pass a PDA that grows while the automata are read; the answer depends on labels that only the automata mention", "anchors": ["src/pdaaal-bin/parsing/SolverInstanceJsonParser.h: SolverInstanceSaxHandler, SolverInstanceJsonParser::parse", "src/pdaaal-bin/parsing/SaxHandlerDispatch.h: SAXHandlerDispatch", "src/pdaaal-bin/parsing/PdaJsonParser.h: PdaTypeSaxHandler, PdaSaxHandler", "src/pdaaal-bin/parsing/PAutomatonJsonParser.h: PAutomatonSaxHandler"]}
{"id": "C66", "title": "Reading solver instances from three JSON documents", "statement": "Parsing::parse_instance with JSON automata accepts regular documents exactly if they are a PDA document and two P-automaton documents, and the solver instance made from them asks the question of the documents: the engines answer yes exactly if a configuration of the first automaton reaches one of the second by the rules of the PDA document, by the names of states and labels.", "quantifier": "all triples of JSON values with numbered states up to one in a rule and the restrictions of C54 and C64; verdicts as in C65; named and numbered states, all weight types; all orders of hash tables, with and without assertions", "why_tests_cant": "the second automaton is read against a PDA that the first one has changed", "anchors": ["src/pdaaal-bin/parsing/Parsing.h: parse_instance", "src/pdaaal-bin/parsing/PAutomatonJsonParser.h: PAutomatonJsonParser::parse", "src/pdaaal-bin/parsing/PdaJsonParser.h: PdaJsonParser::parse"]}
{"id": "C67", "title": "Writing P-automata as JSON and reading them back", "statement": "to_json of a PAutomaton gives a document that PAutomatonJsonParser::parse reads against the same PDA as an automaton that accepts exactly the same configurations, and reading it adds no labels, states or rules to the PDA. Outside the stated conditions this fails: an automaton without accepting states, and the automaton of a PDA without states, are written as documents the parser rejects; an edge for the empty label is read back as an epsilon edge; if only some of the further states have names the parser hits an assertion or, without assertions, reads an automaton with another language.", "quantifier": "all PDAs with distinct names and labels and at least one state, all automata with a final state, edges within range, no edge for the empty label, and further states that all have names (distinct from those of the PDA) or none; epsilon edges allowed; named and numbered states, all orders of hash tables, with and without assertions", "why_tests_cant": "the reader numbers the further states anew, in the order in which they are mentioned", "anchors": ["src/include/pdaaal/PAutomaton.h: to_json_impl, to_json, get_state_optional", "src/pdaaal-bin/parsing/PAutomatonJsonParser.h: PAutomatonSaxHandler"]}
{"id": "C68", "title": "Writing solver instances as JSON and reading them back", "statement": "to_json of a PAutomatonProduct gives a document that SolverInstanceJsonParser::parse reads as a solver instance for the same question: a configuration of the first automaton reaches one of the second in the PDA that was read exactly if this is so in the PDA that was written, and post*, post* without early termination, pre* and the dual search on the instance that was read give that answer. Instances with weights of a fixed length are written as documents that are never read, and numbered states without rules are lost, which can change the answer.", "quantifier": "all PDAs built by calls with weights and labels that can be written (as C54), numbered states up to one in a rule, weight types none, integer and vector, and all pairs of automata as in C67; verdicts for automata without epsilon edges and edges into PDA states (of the saturated side), and non-negative weights for pre* and the dual search; all orders of hash tables, with and without assertions", "why_tests_cant": "labels, states and rules get new numbers when they are read, and wildcard rules range over the labels that the document happens to mention", "anchors": ["src/include/pdaaal/PAutomatonProduct.h: to_json", "src/include/pdaaal/PDA.h: to_json, params_state_names, params_weight_type", "src/pdaaal-bin/parsing/SolverInstanceJsonParser.h: SolverInstanceJsonParser::parse"]}
{"id": "C69", "title": "Fixed-point queries by interleaving pre* and post*", "statement": "Engine 3 with trace type ShortestFixedPoint or Longest (Solver::interleaving_fixed_point_accepts on an instance and its copy, then get_trace of the one whose saturation ended first) ends. If pre* ended first, the verdict tells whether a run exists, the weight is the best weight of the runs or infinite exactly if they can be improved for ever, and a finite weight comes with a run of exactly this weight; if post* ended first, the result is that of engine 1. For post* the result can be wrong: there are instances where post* ends first with a finite weight although the weights can be lowered for ever (so the answer depends on which side is faster), and instances where a step of post* fails although pre* alone gives the answer.", "quantifier": "all PDAs, all initial automata without epsilon edges, all final automata with at least two edges and default annotations, all copies that differ in the order of iteration, all numbers of steps", "why_tests_cant": "which saturation ends first depends on the instance; a test sees one interleaving and cannot show that the weight is right for every instance on which pre* wins, nor does a passing test reveal the instances on which post* wins with a wrong weight", "anchors": ["src/include/pdaaal/Solver.h:52-82", "src/include/pdaaal/PAutomatonProduct.h:79-83", "src/pdaaal-bin/Verifier.h:281-317", "src/include/pdaaal/utils/workset.h:36-90"]}
{"id": "C70", "title": "Dual search for shortest traces", "statement": "dual_search_accepts<Trace_Type::Shortest> on an instance whose automata have no epsilon edges, no edges into PDA states and zero weights: if it says yes, some configuration of the final automaton is reachable from one of the initial automaton, and the weight that find_path<Shortest> or get_trace_dual_search<Shortest> then reports for a path is the weight of such a run. The converse fails: there is an instance with non-negative weights where the search says no although a run exists and the product contains a path of its weight. If the languages overlap, the verdict is yes but the trace cannot be read, because the product was built without the trace type and has no back edges; if words of the two languages only begin alike, the search itself reads weights that were never written.", "quantifier": "all PDAs, all pairs of automata as above, all choices of the queues and orders of iteration, all values read behind the end of _popped, all numbers of steps", "why_tests_cant": "that every yes and every reported weight is backed by a run concerns all interleavings of the two saturations; the failures need instances on which post* ends before the path is confirmed or words with a common beginning, and reading an uninitialised weight often goes unnoticed", "anchors": ["src/include/pdaaal/Solver.h:83-144", "src/include/pdaaal/Solver.h:282-299", "src/include/pdaaal/PAutomatonProduct.h:111-120", "src/include/pdaaal/PAutomatonProduct.h:219-390"]}
{"id": "C71", "title": "Query texts", "statement": "PAutomatonParser::parse_string on any text: it throws exactly if the text is not in the grammar (atoms <states, expression> joined by |, states as numbers, identifiers or quoted UTF-8 strings, comments) or names a state that is not found (a quoted state that is merely unknown is not an error); otherwise it returns an automaton that accepts every configuration the text describes, and no other if the expressions are in the scope of C24. New labels are appended to the label map in the order of their first mention, and . and negated sets of an atom stand for the labels known after that atom. With two accepted texts, read one after the other, pre*, post* and the dual search decide whether a configuration of the second is reachable from one of the first. Surprises: an unknown quoted state is silently ignored, \"1x\" and \"-18446744073709551615\" denote state 1 if states are numbers, and a label that only the second text mentions is not matched by . in the first text, so that the verdict is no although such a run exists.", "quantifier": "all texts, all label maps, all state mappings, all PDAs, all addresses of NFA states and orders of iteration", "why_tests_cant": "texts, escapes, comments and orders of first mention of labels are unbounded, and that no text outside the grammar is accepted concerns all texts", "anchors": ["src/pdaaal-bin/parsing/PAutomatonParser.h:36-182", "src/pdaaal-bin/parsing/NfaParserGrammar.h:40-140", "src/pdaaal-bin/parsing/Parsing.h:72-89", "src/include/pdaaal/PDA.h:189-198"]}
{"id": "C72", "title": "Refinement loop (cegar_solve)", "statement": "CEGAR::cegar_solve for a factory whose abstract rules simulate the concrete rules and whose initial (accepting) states cover the concrete ones, and a reconstruction that returns valid traces or refinements that fit the mapping: no round fails; each round's saturation ends and answers whether the abstract automata are connected; the answer 'no trace' means that no configuration of the initial headers reaches one of the final headers in the concrete system, a returned trace is one the reconstruction vouches for; if every refinement splits a class of labels or decreases a measure, the loop ends after at most (labels - classes + measure) + 1 rounds. This needs that no negated label set of the headers contains only a part of a class of labels: otherwise cegar_solve answers 'no trace' although a run exists.", "quantifier": "all factories and reconstructions that meet the contracts, all concrete systems, all label abstractions, all NFAs, all three engines, all orders of iteration and addresses of NFA states", "why_tests_cant": "the factory and the reconstruction are arbitrary user code; that a no is right concerns every run of the concrete system and every number of rounds", "anchors": ["src/include/pdaaal/cegar/CegarPdaFactory.h:445-490", "src/include/pdaaal/cegar/AbstractionSolverInstance.h:42-61", "src/include/pdaaal/PDAFactory.h:57-61"]}
{"id": "C73", "title": "The program's report for two query texts", "statement": "For a PDA without weights and engines 1 to 3 with trace option 0 or 1, the program ends; if a text is not in the grammar or names an unknown state it throws, otherwise it reports the name of the engine, result true exactly if a run leads from a configuration of the first text to one of the second, and, if the result is true and a trace was asked for, a trace that is such a run (otherwise no trace). Engine 0 reports nothing, engines above 3 throw, and trace options 2 to 4 end in a failed assertion. The option --trace accepts exactly the five texts it prints.", "quantifier": "all PDAs without weights (rules whose look-up is safe), all label tables, all pairs of texts (expressions in the scope of C24), all hash orders and addresses", "why_tests_cant": "The claim spans reader, construction, saturation and trace for every pair of texts and every PDA; runs are unboundedly long.", "anchors": ["src/pdaaal-bin/Verifier.h:37-88", "src/pdaaal-bin/Verifier.h:90-337", "src/pdaaal-bin/main.cpp:77-86", "src/pdaaal-bin/parsing/Parsing.h:73-88"]}
{"id": "C74", "title": "The program's report of a least weight", "statement": "For a PDA with non-negative weights, engine 1 and trace option 2 (Shortest), the program ends; if a text is not in the grammar or names an unknown state it throws; otherwise, provided no state is described with the empty stack by both texts, a result true comes with the least weight of a run from the first text to the second and with a trace of exactly that weight, and a result false comes with neither. In particular the result is false if there is no run. The converse is false: the result can be false although a run exists.", "quantifier": "all PDAs with non-negative weights, all label tables, all pairs of texts (expressions in the scope of C24), all hash orders, addresses and priority queues that return a least element", "why_tests_cant": "Least weights range over infinitely many runs, and whether the search reports a path it has found depends on the order of the queue.", "anchors": ["src/pdaaal-bin/Verifier.h:90-126", "src/pdaaal-bin/Verifier.h:326-336", "src/include/pdaaal/Solver.h:215-224", "src/include/pdaaal/Solver.h:261-280"]}
{"id": "C75", "title": "The program's report of best weights by pre*", "statement": "For a PDA with signed weights, engine 2 and trace option 3 (Longest) or 4 (ShortestFixedPoint), the program ends; if a text is not in the grammar or names an unknown state it throws; otherwise, if the second text describes a stack of two labels or two different pairs of state and first label, it reports result true with the best weight and a run of exactly that weight, or result true with \"infinity\" respectively \"negative infinity\" and no trace exactly if the runs can be improved for ever, or result false exactly if there is no run. If the second text describes a single configuration with one label an assertion can fail.", "quantifier": "all PDAs with integer weights (rules whose look-up is safe), all label tables, all pairs of texts (expressions in the scope of C24), all hash orders and addresses", "why_tests_cant": "Best weights range over infinitely many runs, loops with gain can be joint to all parts of the search, and the claim spans reader, saturation, path search and trace.", "anchors": ["src/pdaaal-bin/Verifier.h:246-274", "src/pdaaal-bin/Verifier.h:326-336", "src/pdaaal-bin/main.cpp:119-123", "src/include/pdaaal/Solver.h:40-45", "src/include/pdaaal/Solver.h:261-280"]}
{"id": "C76", "title": "Fixed-point saturation by post*: verdicts and finite weights", "statement": "Solver::post_star_fixed_point for trace type ShortestFixedPoint or Longest ends or fails an assertion. If it does not fail, the automaton accepts exactly the configurations that runs from the given automaton reach, and every finite weight of an accepting path is the weight of a run to that configuration. So, whenever engine 1 (post_star_fixed_point_accepts, then get_trace) or engine 3 (interleaving) returns, the verdict tells whether a run from the initial to the final configurations exists, a finite weight is the weight of such a run, and the weight is missing exactly for a negative verdict. Nothing is claimed about better runs: C32 shows that the weight need not be the best one.", "quantifier": "all PDAs, all initial automata with default annotations and no edge into a PDA state, all final automata without epsilon edges (engine 3: as C69), both trace types, all hash orders, all numbers of steps", "why_tests_cant": "A test compares the weights of a few instances; that each finite weight left by two phases with improvements and bottoms belongs to a run is an invariant of all intermediate states.", "anchors": ["src/include/pdaaal/Solver.h:52-82", "src/include/pdaaal/internal/PdaSaturation.h:919-1060", "src/include/pdaaal/utils/workset.h:36-90", "src/pdaaal-bin/Verifier.h:211-244"]}
{"id": "C77", "title": "Fixed-point queries by post*: the trace is a run", "statement": "Whenever engine 1 (post_star_fixed_point_accepts, then get_trace) or engine 3 (interleaving) returns for trace type ShortestFixedPoint or Longest with a finite weight, the trace is the list of configurations of a run: it begins with an initial configuration, ends with a final configuration, and each configuration follows from the one before by a rule. If the weight is bottom or missing, the trace is empty. The weight of the run is not claimed to be the one returned. A query for a final configuration with the empty stack can fail: its verdict is right, but get_path fails an assertion on the epsilon label.", "quantifier": "all PDAs, all initial automata with default annotations and no edge into a PDA state, all final automata without epsilon edges (engine 3: as C69), both trace types, all hash orders, all numbers of steps", "why_tests_cant": "The second traces of edges are overwritten while the weights improve, also those of given edges; a test sees the traces left by a few instances and not whether a trace can name an edge that does not give the traced one.", "anchors": ["src/include/pdaaal/Solver.h:52-82", "src/include/pdaaal/Solver.h:260-276", "src/include/pdaaal/internal/PdaSaturation.h:919-1090", "src/include/pdaaal/internal/PAutomatonAlgorithms.h:121-138", "src/pdaaal-bin/Verifier.h:211-244"]}
