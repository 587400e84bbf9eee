# Formal model of PDAAAL in Rocq (Coq 8.16.1)

## Scope and trusted base

* The model is written by hand from the C++ text in /repo. Nothing checks mechanically that the Gallina functions equal
  the C++ functions; every definition names the file and lines it models, and simplifications are stated there.
* Trusted: Coq's kernel, `coqchk`, and the reading of the C++ semantics described below.
* Axioms: see the section "Print Assumptions" (kept current; the aim is "Closed under the global context" everywhere).
* No axioms, no `Admitted`, no functors, no disabled checks.

## Conventions

* States, labels, rule ids, indices: `nat`. Epsilon (`uint32` max) is `None` in `option nat`. Overflow of `size_t`/`uint32_t` ids is
  not modelled (ids are assumed to fit), except in the properties that are about encodings or weights.
* Weights of rules are `Z` (unweighted PDAs: all weights 0).
* Vectors indexed out of range, look-ups of absent edges, `back()` of an empty vector are undefined behaviour and are the value
  `None` of an `option` result. Theorems state that `None` is not returned under the stated preconditions.
* Hash tables with unspecified iteration order: the order is an arbitrary permutation supplied by a section variable
  (universally quantified in the theorems).
* Loops `while (!workset.empty())` are functions with fuel; the theorems show a fuel bound that always suffices.
* `Model` files hold definitions only, `Proof` files the lemmas, `Prop` files the property theorems, non-vacuity examples and
  `Print Assumptions`.

## Print Assumptions

Every property theorem is followed by `Print Assumptions` in its Props file; all of them print
`Closed under the global context` (no axiom, not even of the standard library). `coqchk` lists axioms of
`Coq.ssr.ssrunder` because a standard library file loads that module; no theorem uses them.

## Mutation tests

`seeded/LOG.jsonl` has one line per edit of a definition, tried in a scratch copy with `make -k`. How to read it:

* `failed_at` is what was observed: the statements at which the compiler stopped. That a proof script stops does not by itself
  show that its statement is false of the edited model. `theorems_failed` are the theorems of MANIFEST.json among them.
* `theorems_depending` was not run: these are the theorems whose proofs use a statement of `failed_at` in the present tree
  (computed from the .glob files), including theorems written after the test. Files behind the first error were not compiled.
* An empty `failed_at` is a survivor. `theorems_tightened` names what was added for it and `rerun_failed_at` where the same edit
  stopped when it was run again; `note` says why the others were left.

Revisions of the log up to 3ad8c8f listed every theorem of every importing file as `theorems_failed`, which said more than had been
observed.

## What is modelled

| file | code |
|------|------|
| PdaModel | internal/PDA.h: rules, labels_t, add_rule, predecessors, clear_state, rule look-up |
| AutModel | internal/PAutomaton.h: states, edges, traces, add_edge, emplace_edge |
| PreStarModel, PostStarModel, SolverModel | internal/PdaSaturation.h (Trace types None/Any), internal/PAutomatonAlgorithms.h |
| QueryModel, PathModel | accepts, accept_path, find_path, AutomatonPath.h |
| ProductModel, VerdictModel | PAutomatonProduct.h, Solver.h verdict functions |
| TraceModel | Solver.h: TraceBack, get_trace, get_rule_trace_and_paths |
| NfaModel | NFA.h: construction, compile, follow_epsilon; PAutomaton constructors, construct, add_edges, or_extend |
| ParserModel | parsing/NfaParserGrammar.h (grammar and actions), NfaParser.cpp parse() |
| AtomModel | pdaaal-bin/parsing/PAutomatonParser.h: PAutomatonBuilder |
| QTextModel | pdaaal-bin/parsing/PAutomatonParser.h: the grammar of query texts with states and quoted names in UTF-8 (36-65), the actions (126-142), parse (159-182) with both state mappings; insert_label and exists_state as list look-ups. A parse_error and the exceptions of std::stoul are one outcome (QThrow); the error message is not modelled. string_literal::success and the pegtl rules are modelled by their documented behaviour |
| NfaQueryModel | NFA.h state_t::has_as_successor, intersect_edge_labels and the functions they use |
| ContainersModel | utils/vector_set.h, utils/fut_set.h (hash + vector), internal/PDA.cpp labels_t, utils/more_algorithms.h is_disjoint, std::lower_bound |
| TrieModel | utils/ptrie_interface.h ptrie_set and ptrie_map by what their users rely on (ids by order of insertion); the ptrie library itself is external and trusted |
| RefineModel | cegar/Refinement.h, cegar/AbstractionMapping.h |
| AbstractionModel | cegar/AbstractionPDA.h encode_labels, cegar/AbstractionPAutomaton.h constructor |
| HeaderModel | cegar/CegarPdaFactory.h: Header 75-106, initial_header, update_header, update_header_wildcard_pre, find_wildcard_specialization, pre_labels, finalize_header, concreterize_wildcards, check_nfa_path, intersect_edge_labels 272-430; the search of reconstruct_trace 146-257 over arbitrary virtual functions. Not modelled: obtaining the abstract trace and paths (136-158); cegar_solve is in CegarModel |
| CegarModel | cegar/CegarPdaFactory.h: cegar_solve 453-489, reset_pda 60-62; AbstractionSolverInstance.h 42-61; compile (PDAFactory.h 58-61) for abstractions. The derived factory (build_pda, initial, accepting, refine) and the reconstruction are arbitrary functions, as they are template parameters; weights are zero (the code rejects others, CegarPdaFactory.h 135). The fuel of each saturation is a function of the instance |
| VerifyModel | pdaaal-bin/Verifier.h: Trace_Type operators, needs_trace_info_pair, verify for PDAs without weights; the order of the readers in parsing/Parsing.h parse_instance and main.cpp run. Not modelled: program options, output of PDA and instance, json, time, weighted PDAs |
| VerifyShortModel | pdaaal-bin/Verifier.h verify for a PDA with weights, engine 1, trace type Shortest (entries engine, weight, result, trace), with the readers as in VerifyModel. Not modelled: weights that overflow, engines 2 and 3 |
| VerifyFixModel | pdaaal-bin/Verifier.h verify for a PDA with signed weights, engine 2, trace types Longest and ShortestFixedPoint, with the readers as in VerifyModel. Not modelled: unsigned weights (for which bottom is a number), overflow, engines 1 and 3 |
| WeightModel | Weight.h: weight_impl for integers, arrays and vectors 106-198, linear_weight_function, ordered_weight_function 206-250. Not modelled: floating point weights, printing |
| ShortModel | internal/PdaSaturation.h PostStarShortestSaturation 494-714; PAutomatonProduct.h with trace type Shortest (initialize_product, add_edge, construct_reachable, find_path); make_back_edge_shortest, min_accepting_weight, get_path_shortest; Solver.h post_star_accepts<Shortest>, post_star<Shortest>. Weights are unbounded integers |
| ShortTraceModel | Solver.h get_trace<Shortest> 274-276 with PAutomatonProduct.h find_path_shortest 193-196 (the reconstruction is that of TraceModel). Not modelled: get_rule_trace_and_paths for Shortest |
| FactoryModel | PDAFactory.h 41-134 (PDAFactory, DFS_PDAFactory); the hash variant of internal::PDA (internal/PDA.h 208-323) and its conversion 219-246; PAutomatonProduct.h 62-67, 480-487 (product of two NFAs). Labels are their ids; the derived class is given by four arbitrary functions |
| PreShortModel | internal/PdaSaturation.h PreStarSaturation<W,ET,SHORTEST=true> 65-337 (with and without early termination); Solver.h pre_star<Shortest>, pre_star_accepts<Shortest> for a product and for one configuration. The read of _popped outside of the vector (242) is an oracle; it is undefined in the refutations. Weights are unbounded integers |
| FixModel | utils/workset.h fixed_point_workset; internal/PdaSaturation.h PreStarFixedPointSaturation and PostStarFixedPointSaturation (716-1060); internal/PAutomatonAlgorithms.h PAutomatonFixedPoint (35-127, without get_path); Solver.h pre_star_fixed_point, post_star_fixed_point. Weights are unbounded integers with the value bottom; the constructors with an own round limit are not modelled |
| FixSolveModel | Solver.h pre_star_fixed_point_accepts (40-45); PAutomatonProduct.h initialize_product with the edge annotations, find_path_fixed_point (173-193, the weight): which edge weight the product takes |
| FixTraceModel | internal/PAutomatonAlgorithms.h get_path and get_path_with_loop (121-218); find_path_fixed_point (173-193) with the path; TraceBack for TraceInfoType::Pair (internal/PdaSaturation.h 1075-1090, the second traces); Solver.h get_trace (260-276) |
| InterModel | post_star_fixed_point_accepts and interleaving_fixed_point_accepts (Solver.h 52-82), copy() of an instance (PAutomatonProduct.h 79-83) as automata that differ in their orders of iteration only, engines 1 and 3 of Verifier.h (211-244, 281-317) for fixed-point trace types without their output |
| DualShortModel | dual_search_accepts<Shortest> with dual_short_search (Solver.h 83-109, 128-144), get_trace_dual_search<Shortest> (282-299); the is_dual forms of PAutomatonProduct::add_edge and construct_reachable for Shortest (PAutomatonProduct.h 219-390). The saturations are those of PreShortModel and ShortModel. As in the code, initialize_product is called without the trace type |
| ByteModel | utils/ptrie_interface.h: byte encodings of keys (integers, tuples, vectors, variants; vectors and strings of raw elements), their decoders and sizes. Not modelled: floating point and padding of structs |
| TypedModel | PDA.h 44-281: typed PDA with label and state maps, add_rule, add_wildcard_rule, all_rules. Not modelled here: to_json (JsonModel); construction from a map of rules |
| ReducerModel | internal/Reducer.h and Reducer.cpp: reduce, forwards_prune, backwards_prune, target_tos_prune, size, the merges of tos_t |
| CopyModel | copy constructor of PAutomaton, internal/PAutomaton.h 225-237; NFA::operator= and copy constructor, NFA.h 175-177, 293-315, with states in a heap and an arbitrary allocator. _backedges of NFA states are left out |
| JsonModel | context stack of the SAX handlers, utils/SaxHandlerHelpers.h 38-239; PdaSaxHandler and PdaJsonParser::parse, pdaaal-bin/parsing/PdaJsonParser.h 45-509; to_json, PDA.h 279-384. The JSON library is not in /repo: a document is a tree and the model has the list of SAX calls for it. Error messages, floating point weights and the text are left out |
| AutJsonModel | PAutomatonSaxHandler and PAutomatonJsonParser::parse, pdaaal-bin/parsing/PAutomatonJsonParser.h 35-417, with the state names of PAutomaton.h 74-96. PDA states are strings or plain numbers, the two types PdaJsonParser makes; error messages are left out. Not modelled: PAutomatonJsonParser_Old (419-517), to_json of automata |
| InstModel | PdaTypeSaxHandler, pdaaal-bin/parsing/PdaJsonParser.h 510-741; SAXHandlerDispatch, SaxHandlerDispatch.h 34-131; SolverInstanceSaxHandler and SolverInstanceJsonParser::parse, SolverInstanceJsonParser.h 51-248; the branch of Parsing::parse_instance for three JSON files, Parsing.h 74-87. The result is the PDA and the two automata from which the SolverInstance is made (new_inst of VerdictModel). Error messages are left out; the variants of handler types are one record with the configuration as data |
| InstWriteModel | to_json of PAutomaton, PAutomaton.h 68-72, 98-113, 137-186; to_json of PAutomatonProduct, PAutomatonProduct.h 213-217, 519-528; the type of an instance, PDA.h 386-430. Labels and names are strings (details::label_to_string is the identity); get_state of an unnamed state and get_symbol of an unknown label are a failure. Not modelled: floating point weight types, long integers |
| JsonSpec | what a document says: the rules by names of states and labels, without reference to the handlers |
| UtilModel | internal/PAutomaton.h trace_t words, utils/flags.h, utils/more_algorithms.h priority_set, utils/workset.h |

Specifications independent of the model: Spec (configurations, runs, automata), ShortSpec (weights of runs), ReducerSpec (runs as lists of rules), RegexSpec, GrammarSpec, ContainersSpec.

Not modelled: printing (to_dot, and to_json except in JsonModel and InstWriteModel), timing, file access, exceptions other than as a failed result, memory management
(copies and moves are values), integer overflow of ids. The bodies of library containers (std, ptrie, nlohmann::json, PEGTL) are
replaced by their documented behaviour; the PEGTL combinators used by the grammar are written out in ParserModel.

## Plan per property

| id | model | proof idea |
|----|-------|-----------|
| C01 | PreStarSaturation (Any/None traces) as a state machine over edge list, workset, rel, delta', popped | every inserted edge is justified by older edges; induction on the insertion order gives a run for each edge; composition along paths |
| C02 | same | worklist invariants (edges = workset + rel, rel closed under rules, delta' x rel closed, popped closed), then induction on the run |
| C03 | same | the measure "workset length + missing edges" drops by one at each step; explicit fuel bound; no `None` |
| C04 | PostStarSaturation with q' states, rel1, rel2, FIFO workset | as C01, edges justified by older edges |
| C05 | same | worklist invariants incl. epsilon combination |
| C06 | same | as C03; `None` for every index into rel1/rel2/pda states |
| C07 | Solver::pre_star_accepts(config) | C01-C03 plus invariant of the early-termination callback |
| C08-C10 | Solver with PAutomatonProduct callback | product invariant preserved by each insertion, plus C01-C06 |
| C11 | corollary | from C08-C10 |
| C12-C15 | TraceBack, AutomatonPath, find_path | edge ages decrease: measure sum of 3^age; each step undoes one rule |
| C16 | PAutomatonProduct | product is closed under joint edges (or an accepting state was found) |
| C17-C19 | DFS functions on automata | DFS invariants, path buffer invariant |
| C20-C22, C35, C36 | PDA rule store, labels_t, vector_map | sortedness invariants, extensional set reasoning |
| C23, C24, C28 | NFA construction functions, NfaBuilder | simulation of paths; C24 is refuted in general and proved for bodies whose initial state is not re-entered by unaccepted words |
| C25-C27 | PAutomaton constructors, or_extend | worklist exploration invariant |
| C29 | weight_impl scalar/array/vector | case analysis with explicit wrap; refutations for overflow |
| C30 | post* Shortest | Dijkstra invariant on keys, product with best weights |
| C31 | pre* Shortest | Dijkstra invariant with lower bounds per state (PreShortProof: kinv); the claim as a whole is refuted in six ways |
| C32 | fixed point pre* | FixChain: an edge that still changes in round t has a chain of derivations as long as the number of edges, so a pumpable cycle; FixPre1-5: closure and ghost levels through both phases; FixPre6: languages. The single edge case and post* are refuted |
| C59 | PAutomatonFixedPoint | FixPath: paths with a cycle; FixPath2: Bellman-Ford with the lowering round, both phases |
| C60 | fixed-point queries by pre* | FixSolveProof: the weighted product has the weights of the joint paths; C32 and C59 |
| C61 | traces of fixed-point queries | FixTrace1: the second trace of an edge is a rule application whose weight is at most the weight of the edge, and edges of equal weight are ordered by the round in which they were last improved; FixTrace2: so following the second traces ends and yields a run at most as heavy; FixTrace3-5: the predecessors of PAutomatonFixedPoint give a path with the reported weight. Refuted with an epsilon edge in the initial automaton |
| C62 | traces of post* Shortest | ShortTrace1: the annotation of every edge is a rule application on older edges whose weight is at most the weight of the edge (wjs); ShortTrace2: so TraceBack yields a run at most as heavy as the path; ShortTrace3: the back edges of the product give a path of the reported weight, which C30 shows to be the least. Refuted with an epsilon edge in the final automaton |
| C63 | DFS_PDAFactory | FactoryProof: hash tables and sorted vectors stay permutations of each other, so sorting gives the same store; the search adds the rules of every reachable state once; the accepting product states agree with those of the automata. Then C25, C08-C10. Refuted for initial states without rules above all others and for repeated initial states |
| C33, C34 | Reducer | abstraction invariant (top of stack sets over-approximate); PropsCount: the numbers reduce returns, counted from the rules given |
| C37, C38 | AutomatonPath, trace_t encoding | direct |
| C39, C40 | ptrie based maps, byte codecs | history invariants, digit representation |
| C41-C44 | CEGAR mappings and refinements | partition invariants; C44 expected to be refuted |
| C45, C46 | NFA::intersect_edge_labels, add_edges | C45 expected to be refuted (temp not cleared) |
| C47 | rule look-up by lower_bound | refuted for negative PUSH weights with label 0, proved otherwise |
| C48-C50, C53 | utilities | direct |
| C51 | get_rule_trace_and_paths | from C12-C15 |
| C52 | CopyModel | states in a heap; reading an object depends only on the addresses it owns |
| C54 | JsonModel, JsonSpec | the handler is followed over the tree; effects on the automaton are typed calls, so C58 gives the rules |
| C64 | AutJsonModel, AutJsonSpec | each state of the document stands for at most one state of the automaton, injectively and stably; what was read is kept as sets of accepting states and edges, so the order of the members does not matter. Refuted for mixed kinds of further states, short edges, a bare number, nested arrays |
| C65 | InstModel, InstSpec | a handler behind the dispatch that stops only at the end of its value gives one callback; embedded handlers agree with the stand-alone ones except at that end. The rules of the grown PDA are those of the document over all labels of the instance, and reachability carries over by the names of states and words. Refuted for array weight types with a length, unknown and nested weight types, a bare number as type, a fifth element that is an array, numbered states without rules |
| C66 | InstModel, InstSpec | C54 and C64 put together; the same statement about the question asked |
| C67 | InstWriteModel | the members of the object and the edges are computed in closed form as a document in the sense of AutJsonSpec, which accepts the language of the automaton by the names of states and labels; then C64. Refuted for automata without accepting states, PDAs without states, the empty label, further states of which only some have names |
| C68 | InstWriteModel | C54 for the rules and C67 for the automata; runs of the PDA and of the document are related over its label set, which is then restricted to the labels of the document; then C65. Refuted for weights of a fixed length and numbered states without rules |
| C69 | fixed-point queries by interleaving | InterProof: each saturation takes the steps it takes alone, so the result is that of the one that ends first; the second phase of post* has a fixed number of rounds. With C61 for pre*. Refuted for post*: a finite weight where the weights are unbounded, and a step that looks for a missing edge |
| C70 | dual search Shortest | DualShortProof: every weight stored in the product is the sum of the weights of two paths with the same word; DualSatProof: whatever the callback does, edges of pre* have derivations and edges of post* come from runs. No termination or optimality. Refuted: verdict no with a run, undefined reads with overlapping languages and with words that begin alike |
| C71 | query texts | QTextProof: the reader accepts exactly the texts of QTextSpec and makes their calls; QBuildProof: the calls build the automaton of the configurations described, with the labels in the order of their first mention; verdict of two texts with C08-C10; PropsQState: which texts name which state, for numbered and for named states. Refuted: unknown quoted states are ignored, quoted numbers are read by std::stoul, labels of the second text are not matched by . in the first |
| C72 | refinement loop | CegarProof: the product under an abstraction is the one of C08-C10; simulation of concrete runs by abstract ones; PropsCegar: a round with C44 and C08-C10, the loop with C41 and C56. Refuted: a negated set splitting a class |
| C73 | report for two texts | VerifyProof: automata of query texts carry no annotations; with C08-C10, C12-C14 and C71's reader. Two fuels: the bound for the trace depends on the instance after saturation |
| C74 | report of a least weight | from short_spec, short_after and trace_spec (C30, C62) with separate fuels for search and trace, and the reader of C71. The result can be false although a run exists: C30_verdict_refuted seen through two query texts |
| C75 | report of best weights by pre* | VerifyText: what two texts give to the solver (from C71's reader); PropsFixTrace.fixed_trace_parts (C60, C61) with separate fuels; two_edges turns the condition on the second text into the two edges that C32 needs. Without it: C32_single_edge_refuted seen through two query texts |
| C76 | fixed point post*: verdicts and finite weights | FixPost1: one step keeps the invariant of post* (PostStarProof.kinv, edges still to be processed being those in either workset) and every finite weight is that of a run (PostShortProof.WSrc); FixPost2: both phases, so at the end nothing is left to be processed; FixPost3: the rounds of the first phase are bounded by the possible edges. The product is as in C60, with the epsilon edges on the other side; C76_post_accepts is the verdict alone, also when no trace can be made or the final automaton has epsilon edges |
| C77 | fixed point post*: traces | FixPost1 and FixPost2 keep, beside the invariants of C76, that the second trace of each edge is that of a given edge or names a rule and edges of the automaton that give it (PostStarProof.justified_post); FixPost4: each step of TraceBack then undoes a rule, and get_path gives an accepting path of the product. Partial correctness: C77 says nothing about queries that fail or whose trace does not end; C77_empty_stack_refuted is such a query (the verdict is right by C76_post_accepts, get_path fails its assertion) |
