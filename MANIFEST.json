{
 "claims": [
  {
   "property": "C01",
   "status": "proved",
   "theorems": [
    "C01_kind_safe"
   ],
   "note": "UNKNOWN answers to base queries are excluded through the ghost flag; see C18 for what happens otherwise"
  },
  {
   "property": "C02",
   "status": "proved",
   "theorems": [
    "C02_kind_unsafe"
   ],
   "note": ""
  },
  {
   "property": "C03",
   "status": "proved",
   "theorems": [
    "C03_kind_witness"
   ],
   "note": ""
  },
  {
   "property": "C04",
   "status": "proved",
   "theorems": [
    "C04_single_query",
    "C04_single_query_total",
    "C04_halving",
    "C04_halving_total",
    "C04_qe"
   ],
   "note": ""
  },
  {
   "property": "C05",
   "status": "proved",
   "theorems": [
    "C05_reverse_steps",
    "C05_reverse_error_path",
    "C05_reverse_wf",
    "C05_reverse_involutive"
   ],
   "note": ""
  },
  {
   "property": "C06",
   "status": "proved",
   "theorems": [
    "C06_imc_safe",
    "C06_imc_unsafe"
   ],
   "note": "SAFE under the condition that the query 'Init and Bad' was decided"
  },
  {
   "property": "C07",
   "status": "proved",
   "theorems": [
    "C07_bmc_unsafe",
    "C07_bmc_explored",
    "C07_bmc_safe"
   ],
   "note": "transition-system BMC; the general linear-graph BMC is C57"
  },
  {
   "property": "C08",
   "status": "proved",
   "theorems": [
    "C08_dar_safe",
    "C08_dar_unsafe",
    "C18_dar_decisive"
   ],
   "note": "for all transition systems without auxiliary variables in init/query, all solver/interpolation oracles meeting their specification; the ghost flag false says no UNKNOWN answer was treated as an answer (never set for a decisive solver: C18_dar_decisive)"
  },
  {
   "property": "C09",
   "status": "proved",
   "theorems": [
    "C09_pdkind_safe",
    "C09_pdkind_unsafe",
    "C09_pdkind_witness",
    "C09_pdkind_throws"
   ],
   "note": "SAFE needs the ghost condition that no ignored query was UNKNOWN (C18_pdkind_unknown_refuted shows why)"
  },
  {
   "property": "C10",
   "status": "proved",
   "theorems": [
    "C10_trl_safe"
   ],
   "note": "for every solver answer sequence, every model-based projection meeting its contract and every loop found; the example run (ExTrl) uses the modelled LIA projection, learns a relation and adds two blocking clauses"
  },
  {
   "property": "C11",
   "status": "proved",
   "theorems": [
    "C11_split_safe",
    "C11_basic_safe",
    "C11_split_unsafe",
    "C11_basic_unsafe",
    "C11_unknown_refuted",
    "C11_same_refuted"
   ],
   "note": "C11_unknown_refuted: houdiniCheck leaves its loop on UNKNOWN and keeps the candidates, so SAFE can be wrong; C11_same_refuted: the `from == to` shortcut answers UNSAFE when the initial and query formulas are the same unsatisfiable formula. Non-vacuity: ExTpa.run_safe, run_unsafe, run_equals."
  },
  {
   "property": "C12",
   "status": "proved",
   "theorems": [
    "C12_spacer_safe"
   ],
   "note": "Whole Spacer engine (array-free): all solver answers, interpolants, projections, queue and set orders; no condition on UNKNOWN."
  },
  {
   "property": "C13",
   "status": "proved",
   "theorems": [
    "C13_spacer_unsafe",
    "C13_proof_found",
    "C13_unknown_refuted",
    "C13_proof_refuted"
   ],
   "note": "Includes the proof reconstruction, which always succeeds when the projection keeps the values of the model (C13_proof_found) but can throw for other projections meeting the contract (C13_proof_refuted: the recorded premises need not be those the projected summary came from). C13_unknown_refuted: without the condition on the solver the verdict UNSAFE can be wrong."
  },
  {
   "property": "C14",
   "status": "proved",
   "theorems": [
    "C14_lawi",
    "C14_implication_cache"
   ],
   "note": "Every run without forced covering, any oracle answers, any child order; SAFE/UNSAFE and both witnesses."
  },
  {
   "property": "C15",
   "status": "partial",
   "theorems": [
    "C15_unsafe_partial",
    "C15_refuted"
   ],
   "note": "UNSAFE answers are right also with forced covering. SAFE answers are not (C15_refuted): the interpolant masks are off by one when the path starts at a common ancestor, a five-clause unsatisfiable system is answered SAFE."
  },
  {
   "property": "C16",
   "status": "proved",
   "theorems": [
    "C16_predicate_abstraction",
    "C16_unknown_refuted"
   ],
   "note": "Every hypergraph (true a source of facts only), any tree interpolation, any traversal order of sets; auxiliary-variable cleaning, covering, refinement, interpolation tree, both witnesses. C16_unknown_refuted shows that the condition on the entailment checks is needed: an unsatisfiable three-clause system is answered SAFE."
  },
  {
   "property": "C17",
   "status": "proved",
   "theorems": [
    "C17_symbolic_execution",
    "C17_verdict",
    "C17_unreachable_refuted"
   ],
   "note": "Forward symbolic execution over linear graphs. The verdict is sound without conditions (C17_verdict); the witness is a solution when every predicate is reachable from entry, and C17_unreachable_refuted shows the condition is needed."
  },
  {
   "property": "C18",
   "status": "partial",
   "theorems": [
    "C18_kind_unknown_refuted",
    "C18_imc_unknown_refuted",
    "C18_dar_unknown_refuted",
    "C18_dar_decisive",
    "C18_pdkind_unknown_refuted",
    "C13_unknown_refuted",
    "C11_unknown_refuted",
    "C16_unknown_refuted",
    "C48_unknown_no_refuted",
    "C48_unknown_yes_refuted"
   ],
   "note": "the full statement is FALSE of the code: the *_refuted theorems exhibit runs of KIND, IMC, DAR, PD-kind, Spacer, TPA (houdini), predicate abstraction and the nontermination checker with a wrong verdict after an UNKNOWN solver answer; the soundness theorems of the engines carry the exact side condition instead"
  },
  {
   "property": "C19",
   "status": "proved",
   "theorems": [
    "C19_shift_eval",
    "C19_shift_compose",
    "C19_shift_back",
    "C19_shift_name",
    "C19_version_zero_name"
   ],
   "note": "version numbers in int range (C++ int)"
  },
  {
   "property": "C20",
   "status": "proved",
   "theorems": [
    "C20_version_roundtrip",
    "C20_source_roundtrip",
    "C20_target_roundtrip",
    "C20_names_injective",
    "C20_generated_names",
    "C20_generated_distinct",
    "C20_unrestricted_refuted"
   ],
   "note": "injectivity for the base names golem generates; the refuted theorem shows the restriction is needed"
  },
  {
   "property": "C21",
   "status": "proved",
   "theorems": [
    "C21_substitution",
    "C21_substitution_vars"
   ],
   "note": ""
  },
  {
   "property": "C22",
   "status": "proved",
   "theorems": [
    "C22_nnf",
    "C22_nnf_total",
    "C22_dnf",
    "C22_dnf_total",
    "C22_top_level_juncts"
   ],
   "note": "NNF/DNF/top-level juncts; Boolean ite, xor, distinct throw (C22_ite_throws) as in the code"
  },
  {
   "property": "C23",
   "status": "proved",
   "theorems": [
    "C23_trivial_qe",
    "C23_exact_when_complete",
    "C23_terminates"
   ],
   "note": "OpenSMT's retrieval of definitions from top-level facts is an oracle with a specification; array terms as keys are not modelled"
  },
  {
   "property": "C24",
   "status": "proved",
   "theorems": [
    "C24_simplify",
    "C24_simplify_no_longer"
   ],
   "note": ""
  },
  {
   "property": "C25",
   "status": "proved",
   "theorems": [
    "C25_keep_only",
    "C25_project",
    "C25_finite",
    "C25_tmp_refuted"
   ],
   "note": "Whole ModelBasedProjection (implicant, Boolean, real Loos-Weispfenning style and integer projection with divisibility constraints) for formulas whose numeric variables are all integer or all real; C25_tmp_refuted shows the reserved-name condition is needed. Arrays are not modelled."
  },
  {
   "property": "C26",
   "status": "proved",
   "theorems": [
    "C26_eliminate",
    "C26_keep_only",
    "C26_terminates"
   ],
   "note": "Exactness and termination of the projection loop for every admissible solver and every model sequence."
  },
  {
   "property": "C27",
   "status": "partial",
   "theorems": [
    "C27_clauses_hold",
    "C27_validated_safe",
    "C27_solutions_accepted",
    "C27_refuted"
   ],
   "note": "Full statement is false of the code (C27_refuted: the definition given to false is never inspected). Proved: accepted witnesses make every clause valid; with true/false defined as usual acceptance implies safety; every solution is accepted unless the solver gives up on a query."
  },
  {
   "property": "C28",
   "status": "partial",
   "theorems": [
    "C28_validated_unsafe",
    "C28_refutations_accepted",
    "C28_refuted"
   ],
   "note": "Full statement is false of the code in release builds (C28_refuted: cyclic premises are accepted). Proved: derivations of the debug-asserted shape using earlier premises only are real refutations; every refutation is accepted unless the solver gives up."
  },
  {
   "property": "C29",
   "status": "proved",
   "theorems": [
    "C29_normalization",
    "C29_clauses",
    "C29_tidy",
    "C29_names_refuted"
   ],
   "note": "Whole Normalizer and ChcGraphBuilder; also gives the well-formedness that all graph theorems assume. C29_names_refuted: a clause variable called |x#0__s##0| is conflated with a normalized argument and changes the verdict."
  },
  {
   "property": "C30",
   "status": "proved",
   "theorems": [
    "C30_remove_unreachable",
    "C30_remove_forward_unreachable",
    "C30_translations_total"
   ],
   "note": "Both transformers, every well-formed graph; verdict, validity and invalidity translation; worklists terminate."
  },
  {
   "property": "C31",
   "status": "proved",
   "theorems": [
    "C31_merge_multi_edges",
    "C31_derivations_total",
    "C31_no_parallel_edges"
   ],
   "note": "For every sound solver; derivations are always translated when the solver is decisive (otherwise the code returns an empty witness)."
  },
  {
   "property": "C32",
   "status": "partial",
   "theorems": [
    "C32_remove_false",
    "C32_refuted"
   ],
   "note": "Full statement is false of the code: a vertex all of whose clauses are false vanishes and its definition is not restored (C32_refuted). Proved: derivable facts, error derivations and solutions covering all vertices are preserved."
  },
  {
   "property": "C33",
   "status": "proved",
   "theorems": [
    "C33_chain_summarization",
    "C33_with_trivial_elimination",
    "C33_solutions_total",
    "C33_refuted"
   ],
   "note": "Any visiting order, any chain lengths, termination included; solutions always translate when every vertex is reachable. C33_refuted: without reachability an isolated cycle of trivial vertices makes the translation of solutions fail (the code looks up a deleted vertex); the default pipeline runs a chain summarization before its first removal of unreachable nodes, so it does not exclude this case."
  },
  {
   "property": "C34",
   "status": "proved",
   "theorems": [
    "C34_node_elimination",
    "C34_predicates",
    "C34_eliminators",
    "C34_terminates",
    "C34_terminates_refuted"
   ],
   "note": "Whole transformer: contractVertex on hyperedges, both predicates, back translation of solutions (interpolation) and of derivations (including expandStepWithHyperEdge). Termination without exception needs every inner vertex to have an incoming edge (C34_terminates_refuted shows the exception otherwise)."
  },
  {
   "property": "C35",
   "status": "partial",
   "theorems": [
    "C35_edge_inlining",
    "C35_versioned",
    "C35_no_loops",
    "C35_loop_refuted",
    "C35_terminates_refuted"
   ],
   "note": "Whole EdgeInliner. Proved: verdicts, derivations, fixpoint reached on return; solutions translate back unless a removed edge is a self-loop with auxiliary variables. The unrestricted claim is false of the code: C35_loop_refuted (the interpolant may keep an auxiliary variable of the loop), C35_terminates_refuted (two queries are inlined into each other for ever)."
  },
  {
   "property": "C36",
   "status": "proved",
   "theorems": [
    "C36_single_loop",
    "C36_engine",
    "C36_direct_edge_refuted",
    "C36_no_query_refuted",
    "C36_aux_refuted"
   ],
   "note": "Proved for graphs with variables not named like the ones the transformation makes up. C36_engine: all branches of the transition-system engines, given an engine right about systems with auxiliary variables. Refuted: an entry-exit edge is ignored, a graph without query edge gets the query true, and k-induction on the single-loop branch (auxiliary variables kept) returns a SAFE witness that violates a clause."
  },
  {
   "property": "C37",
   "status": "proved",
   "theorems": [
    "C37_nested",
    "C37_chained_refuted"
   ],
   "note": "Termination of the transformation (fuel above the number of vertices), every remaining cycle a self-loop, equivalence of derivability of false, and back-translation of every solution when no loop vertex is contracted again (flat).  C37_chained_refuted: if cycles overlap, the vertex made by the first contraction is contracted by the second and translateInvariant throws out_of_range for EVERY witness.  The error-path translation (lines 64-128) is not part of this property."
  },
  {
   "property": "C38",
   "status": "proved",
   "theorems": [
    "C38_pipeline",
    "C38_back_order",
    "C38_unreachable_then_merge_then_prune",
    "C38_default_pipeline",
    "C38_default_solutions",
    "C38_towards_transition_systems",
    "C38_default_terminates",
    "C38_towards_terminates",
    "C38_linear_engines"
   ],
   "note": "C38_linear_engines: what the pipelines return meets the hypotheses of the theorems about engines for linear graphs (C14, C17, C44, C53). The composition lemma for arbitrary transformations, and the two pipelines of golem with all their stages. Solutions are translated back under the conditions of C32 and C35 (C38_default_solutions); a run of all 15 stages in PropPipeline.ExPipeline."
  },
  {
   "property": "C39",
   "status": "proved",
   "theorems": [
    "C39_simplify_constraints",
    "C39_trivial_elimination_ok",
    "C39_well_formed"
   ],
   "note": "OpenSMT's ite/divmod/distinct rewriters are a parameter with a specification. Well-formedness of the result needs that the rewriters' new variables differ between clauses (the code's FIXME)."
  },
  {
   "property": "C40",
   "status": "proved",
   "theorems": [
    "C40_prune_trivial_edges",
    "C40_solutions_total"
   ],
   "note": "For every sound solver, including UNKNOWN answers."
  },
  {
   "property": "C41",
   "status": "partial",
   "theorems": [
    "C41_refuted",
    "C41_reverse_flips_paths",
    "C41_reverse_involutive"
   ],
   "note": "The statement is false of the code: reverse() discards the results of swapTrueFalse, so entry and exit are not swapped (C41_refuted). Proved: paths of the reversed graph are exactly the reversed paths; reversing twice is the identity."
  },
  {
   "property": "C42",
   "status": "proved",
   "theorems": [
    "C42_reverse_post_order",
    "C42_detect_loop",
    "C42_detect_loop_small"
   ],
   "note": "Termination with the number of vertices as fuel included. For graphs with at most three vertices detectLoop does not search; C42_detect_loop_small gives the condition under which that is right."
  },
  {
   "property": "C43",
   "status": "proved",
   "theorems": [
    "C43_adjacency",
    "C43_adjacency_linear"
   ],
   "note": "Hypergraphs (distinct edge ids) and linear graphs."
  },
  {
   "property": "C44",
   "status": "proved",
   "theorems": [
    "C44_extraction",
    "C44_engine",
    "C44_kind_end_to_end",
    "C44_unreachable_refuted"
   ],
   "note": "isTransitionSystem/toTransitionSystem/ensureNoAuxiliaryVariablesInInitAndQuery/fromTransitionSystem/translateTransitionSystemResult/solveTrivial; C44_kind_end_to_end composes extraction with the k-induction model down to solutions/refutations of the hypergraph. The reachability condition is needed: C44_unreachable_refuted."
  },
  {
   "property": "C45",
   "status": "proved",
   "theorems": [
    "C45_error_path"
   ],
   "note": "Both directions: a returned derivation is a refutation using exactly the path's clauses; an exception only if no refutation follows the path or the solver answered UNKNOWN."
  },
  {
   "property": "C46",
   "status": "proved",
   "theorems": [
    "C46_one_by_one",
    "C46_batch",
    "C46_batch_order"
   ],
   "note": "Both helpers; the batch is exact (returned iff implied), ends within one round per candidate plus one, throws only when the solver does not answer. Condition: the activation variables .act<i> do not occur in the input."
  },
  {
   "property": "C47",
   "status": "proved",
   "theorems": [
    "C47_termination_yes",
    "C47_termination_total"
   ],
   "note": "For every sound engine; execution lengths from an initial state are bounded. Condition: no state variable named counter."
  },
  {
   "property": "C48",
   "status": "proved",
   "theorems": [
    "C48_nonterm_yes",
    "C48_nonterm_no",
    "C48_terminating_not_forever",
    "C48_empty_init_refuted",
    "C48_unknown_no_refuted",
    "C48_unknown_yes_refuted",
    "C48_shared_aux_refuted"
   ],
   "note": "For every engine whose SAFE witnesses are models; the initial and the transition formula must share no auxiliary variable (init_apart), which front_system shows of every system the front end builds. Refuted when they do share one. Refutations: NO on a system without initial states (test for an empty sink set comes first), and wrong YES / NO when a query is answered UNKNOWN."
  },
  {
   "property": "C49",
   "status": "proved",
   "theorems": [
    "C49_lasso",
    "C49_find_lasso",
    "C49_lasso_forever"
   ],
   "note": "Exact characterisation of the encoding, soundness of both answers for every sound engine; a lasso gives an infinite execution."
  },
  {
   "property": "C50",
   "status": "proved",
   "theorems": [
    "C50_liveness_yes"
   ],
   "note": "Bounded number of signals on every execution. Condition: no state variable named counter, no auxiliary variables in the signal."
  },
  {
   "property": "C51",
   "status": "proved",
   "theorems": [
    "C51_round_trip",
    "C51_round_trip_atom",
    "C51_layout",
    "C51_file",
    "C51_terminates",
    "C51_whitespace",
    "C51_final_comment_refuted",
    "C51_first_comment_refuted",
    "C51_quoted_refuted",
    "C51_final_atom_refuted"
   ],
   "note": "Any nesting, any layout (white space and comments between items). Refutations of the unrestricted claims: a comment on the last line without newline makes the parser loop forever, a comment at the very first character is not skipped, atoms that need |quotes| are printed without them, an atom at the very end of the input throws."
  },
  {
   "property": "C52",
   "status": "proved",
   "theorems": [
    "C52_print_with_lets",
    "C52_capture_refuted"
   ],
   "note": "Let names must not occur as variable names (C52_capture_refuted otherwise); includes that the printer terminates and every look-up succeeds."
  },
  {
   "property": "C53",
   "status": "proved",
   "theorems": [
    "C53_to_linear"
   ],
   "note": ""
  },
  {
   "property": "C54",
   "status": "partial",
   "theorems": [
    "C54_witness_covers_partial",
    "C54_witness_refuted"
   ],
   "note": "the witness contains all reachable states and is a state formula; that it is a safe inductive invariant is refuted: computeInductiveInvariant applies all learned relations from the first step, ignoring the frames in which they are offered and the blocking clauses"
  },
  {
   "property": "C55",
   "status": "partial",
   "theorems": [
    "C11_split_unsafe",
    "C55_basic_partial",
    "C55_basic_refuted"
   ],
   "note": "exact for the split version (C11_split_unsafe); false for the basic version with quantifier elimination (C55_basic_refuted: 2 reported, every error path has 3 steps)"
  },
  {
   "property": "C56",
   "status": "proved",
   "theorems": [
    "C56_split_invariant",
    "C56_basic_invariant"
   ],
   "note": "left, right and equality fixed points, including the conversion from 2^i-inductive to inductive"
  },
  {
   "property": "C57",
   "status": "proved",
   "theorems": [
    "C57_bmc_graph",
    "C57_finds_errors",
    "C57_bmc_engine"
   ],
   "note": "General linear graphs (one solver, frontier levels, path read off the model) and all branches of BMC::solve."
  },
  {
   "property": "C58",
   "status": "proved",
   "theorems": [
    "C58_dag_split",
    "C58_dag_basic",
    "C58_split_witness",
    "C58_two_loops_refuted"
   ],
   "note": "Network manager with reused solver objects (cores split and basic). Needs one loop per vertex: isTransitionSystemDAG accepts several and only the first is used (C58_two_loops_refuted)."
  },
  {
   "property": "C59",
   "status": "proved",
   "theorems": [
    "C59_engine_split",
    "C59_engine_basic"
   ],
   "note": "all branches of TPAEngine::solve but the one for nested loops (an option); runs through every branch in ExEngine.C59_nonvacuous; a vertex with several loops makes the DAG branch unsound: C58_two_loops_refuted"
  },
  {
   "property": "C60",
   "status": "proved",
   "theorems": [
    "C60_numbers",
    "C60_evaluation"
   ],
   "note": "Int and Bool, condition stated; ExWrong.C60_reals_refuted and ExWrong.C60_chain_refuted: wrong steps for equalities of Reals written differently and for (= a b c)"
  },
  {
   "property": "C61",
   "status": "proved",
   "theorems": [
    "C61_lets"
   ],
   "note": "with the stated condition; ExWrong.C61_nested_refuted: a let in the declaration of a let used as an argument of a predicate changes the meaning"
  },
  {
   "property": "C62",
   "status": "proved",
   "theorems": [
    "C62_sound",
    "C62_proof",
    "C62_unsat"
   ],
   "note": "the constants of the steps are those of the derivation (getInstPairs is not modelled); a run in ExAlethe; ExWrong.C62_unquantified_refuted, C62_nested_refuted, C62_minus_refuted, C62_fact_refuted: wrong or missing proofs"
  },
  {
   "property": "C63",
   "status": "proved",
   "theorems": [
    "C63_output",
    "C63_answers",
    "C63_finite",
    "C63_winner_not_killed",
    "C63_killall",
    "C63_unknown_silent",
    "C63_split",
    "C63_unknown_refuted",
    "C63_crash_refuted",
    "C63_fork_refuted",
    "C63_pending_refuted"
   ],
   "note": "a run in ExPortfolio; refuted readings: all engines unknown prints nothing, a crash of the winner loses the answer, a failed fork ends in kill(-1), unflushed lines are repeated by every child"
  },
  {
   "property": "C64",
   "status": "proved",
   "theorems": [
    "C64_output",
    "C64_answers",
    "C64_maybe",
    "C64_finite",
    "C64_nonlinear_refuted",
    "C64_crash_refuted"
   ],
   "note": "runs in ExPortfolio; refuted: a LANonLinearException inside a child is caught by the child's copy of run, which prints MAYBE and exits with 0; a crash of the winner suppresses MAYBE"
  },
  {
   "property": "C65",
   "status": "proved",
   "theorems": [
    "C65_scopes_restored",
    "C65_meaning",
    "C65_accepts",
    "C65_inner_quantifier",
    "C65_capture_refuted"
   ],
   "note": "OpenSMT's term constructors are parameters with contracts (logic_ok, met by the plain logic of FrontEx); ExFront has lets with shadowing; refuted without the condition: (forall ((p Bool)) p) becomes the fact p"
  },
  {
   "property": "C66",
   "status": "proved",
   "theorems": [
    "C66_clause",
    "C66_accepts",
    "C66_refuses",
    "C66_script",
    "C66_unsat",
    "C66_sat",
    "C66_error_ends",
    "C66_plain_constraint_refuted",
    "C66_false_refuted",
    "C66_nested_refuted",
    "C66_second_logic_refuted"
   ],
   "note": "examples in ExFront (a satisfiable and an unsatisfiable script); refuted: assertions without predicates are rejected, nested predicates and predicates of an earlier set-logic are accepted"
  },
  {
   "property": "C67",
   "status": "proved",
   "theorems": [
    "C67_unsat",
    "C67_sat",
    "C67_one_answer",
    "C67_spacer",
    "C67_lawi"
   ],
   "note": "C67_sat uses two standard axioms (classic, constructive_indefinite_description) to turn the set of derivable facts into a model; the engine is a hypothesis (right_answer), discharged for Spacer by C67_spacer and for LAWI (without forced covering) by C67_lawi; two scripts run from text-level syntax trees to the printed lines in ExPipeline"
  },
  {
   "property": "C68",
   "status": "proved",
   "theorems": [
    "C68_proof",
    "C68_validation"
   ],
   "note": "ExPipeline.unsat_applies: a run with a printed proof of four steps"
  },
  {
   "property": "C69",
   "status": "partial",
   "theorems": [
    "C69_model_partial",
    "C69_validation_partial",
    "C69_refuted"
   ],
   "note": "False of the code: C69_refuted is a run of the whole pipeline with Spacer in which the printed model lacks a predicate and the internal validation fails (FalseClauseRemoval, C32). Proved when the graphs of the run meet the conditions of C32 and C35 (faithful; a decision procedure faithfulb is proved right in ExPipeline)"
  },
  {
   "property": "C70",
   "status": "proved",
   "theorems": [
    "C70_termination_preprocessing",
    "C70_stages",
    "C70_endless_is_infinite",
    "C70_endless_has_prefixes"
   ],
   "note": "the run is a coinductive predicate, shown to be an infinite sequence of steps; ExTermFront.forever and ExTermFront.stops run the pipeline on a system that does not stop and one that does"
  },
  {
   "property": "C72",
   "status": "proved",
   "theorems": [
    "C72_termination_system",
    "C72_no_failure",
    "C72_graph",
    "C72_from_clauses",
    "C72_isolated_entry_refuted",
    "C72_unreached_loop_refuted"
   ],
   "note": "condition on the rewriters: new variables have names of their own (new_names). Refuted without the two exceptions: an entry with no edge left gives an undefined read although the answer is YES; an unreached self-loop that survives preprocessing gives an uncaught exception. ExTermSystem runs four systems through the whole front end"
  },
  {
   "property": "C71",
   "status": "proved",
   "theorems": [
    "C71_its",
    "C71_accepts",
    "C71_text",
    "C71_capture_refuted",
    "C71_numeral_refuted"
   ],
   "note": "specification in ItsSpec.v (meaning of a file of s-expressions, independent of the parser). Refuted without the conditions: a quantified name used outside its scope is captured (a nonterminating system becomes terminating), a number as an argument is a free variable (the other way round). ExIts: a file with a quantified guard that runs forever and one that does not"
  },
  {
   "property": "C73",
   "status": "proved",
   "theorems": [
    "C73_backend",
    "C73_portfolio",
    "front_system",
    "C73_no_start_refuted",
    "C73_race_refuted"
   ],
   "note": "whole way from the s-expressions of the file (C71) over preprocessing (C70, C38), system (C72), analyses (C47-C49) to the printed line, for the three backends and for every schedule of the portfolio (C64). Refuted without an initial state: nontermination-via-safety prints NO for a system whose first step is impossible, and the portfolio then prints YES or NO as the scheduler likes. ExTermAnswer applies the theorems to both files"
  },
  {
   "property": "C74",
   "status": "proved",
   "theorems": [
    "C74_vmt",
    "C74_accepts",
    "C74_answer",
    "C74_atom_body_rejected",
    "C74_index_refuted"
   ],
   "note": "Unbounded in the file. C74_vmt: the three clauses derive false iff the described system is unsafe, and satisfy the conditions of C29; C74_answer: printed answers, through normalization and the constraint simplifier, for every engine that is right about its graph (C67's right_answer). Findings: definitions whose body is an atom are refused (C74_atom_body_rejected), the only property must have index 0 (C74_index_refuted); (assert ...) commands are ignored by the code and excluded by the specification."
  },
  {
   "property": "C75",
   "status": "proved",
   "theorems": [
    "C75_liveness",
    "C75_answers",
    "C75_unversioned_rejected",
    "C75_polarity_refuted",
    "C75_next_names_refuted"
   ],
   "note": "Unbounded in file, executions and engine (engine_ok: soundness on systems of clauses). Findings: an unversioned state variable name makes the program throw (C75_unversioned_rejected); the :next names of the file are replaced by computed ones, so with other names 'valid' can be wrong (C75_next_names_refuted); 'valid' establishes FG not p (C75_polarity_refuted: p is false from some point on), where VMT-LIB defines :live-property as FG p."
  },
  {
   "property": "C76",
   "status": "proved",
   "theorems": [
    "C76_nested_path",
    "C76_overlap_refuted"
   ],
   "note": "Unbounded in graph, models and length; by induction along the contractions (NestedPath.one_step) and along the path. C76_overlap_refuted: with overlapping cycles (a contracted vertex contracted again) the location is searched among the vertices of the input only and not found, for every solver - std::find_if's end iterator is dereferenced (the assertion is off in release builds). Example: a path through a vertex outside the cycle and a turn of the cycle."
  },
  {
   "property": "C77",
   "status": "proved",
   "theorems": [
    "C77_nested_split",
    "C77_nested_basic",
    "C77_engine_split",
    "C77_no_witness",
    "C77_loopless"
   ],
   "note": "The transformed graph has no long cycle and keeps single loops and Boolean labels (NestedEngineProofs.v), so C58's search is right on it; its witnesses are translated back by C37 and C76. C77_no_witness and C77_loopless: the code gives no answer when no witness is asked for (std::bad_variant_access) or when a vertex of the transformed graph has no loop (std::bad_optional_access; the assertion is off in release builds). Examples: a safe and an unsafe cyclic system."
  },
  {
   "property": "C78",
   "status": "proved",
   "theorems": [
    "C78_options",
    "C78_outcome",
    "C78_order",
    "C78_use_qe_refuted",
    "C78_verbose_null"
   ],
   "note": "By induction on the sequence of options delivered by getopt_long (whose own lexing is not modelled; numbers are unbounded and atoi is arbitrary). The last two theorems are defects: --tpa.use-qe=no enables quantifier elimination, and --verbose without a number passes a null pointer to atoi."
  },
  {
   "property": "C79",
   "status": "proved",
   "theorems": [
    "C79_main",
    "C79_detect",
    "C79_declared_first",
    "C79_detection_refuted"
   ],
   "note": "By induction on the commands with the considered prefix as invariant; file extensions by induction on names. OpenSMT's parser is outside the model: the syntax tree is the input, and the text of a node that is not a name is taken to match no sort. C79_detection_refuted: scripts over arrays of reals are always refused without a logic option; a Real declared after the first assertion goes unnoticed."
  }
 ]
}