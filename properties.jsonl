{"id": "C01", "title": "KIND: SAFE means safe", "statement": "When the k-induction engine answers SAFE on a transition system (every SMT query it made having been decided), no state satisfying the query is reachable from an initial state in any number of steps.", "quantifier": "all transition systems, all solver behaviours that meet the SMT specification, every number of unrollings", "why_tests_cant": "infinitely many inputs and solver answers; a test fixes one input and one answer of the SMT solver", "anchors": ["src/engine/Kind.cc:Kind::solveTransitionSystem", "src/engine/Kind.cc:Kind::invariantFromForwardInduction", "src/engine/Kind.cc:Kind::invariantFromBackwardInduction"]}
{"id": "C02", "title": "KIND: UNSAFE k means an error path of length k", "statement": "When the k-induction engine answers UNSAFE with step count k, there is an execution of exactly k steps from an initial state to a query state.", "quantifier": "all transition systems, solver behaviours and unrolling depths", "why_tests_cant": "infinitely many inputs and solver answers; a test fixes one input and one answer of the SMT solver", "anchors": ["src/engine/Kind.cc:Kind::solveTransitionSystem"]}
{"id": "C03", "title": "KIND: the witness of SAFE is an inductive invariant", "statement": "The formula returned with SAFE by the k-induction engine contains all initial states, is closed under the transition relation and excludes every query state.", "quantifier": "all transition systems, all solver and interpolation behaviours meeting their specification, all k", "why_tests_cant": "infinitely many inputs and solver answers; a test fixes one input and one answer of the SMT solver", "anchors": ["src/engine/Kind.cc", "src/TransitionSystem.cc:kinductiveToInductive", "src/TransitionSystem.cc:KTo1Inductive::unfoldSingleQuery"]}
{"id": "C04", "title": "k-inductive to inductive strengthening", "statement": "From any k-inductive invariant (any k) each of the three conversion modes (single query, halving, quantifier elimination) computes a formula that implies the original one, is implied by the initial states and is 1-inductive.", "quantifier": "all systems, all k-inductive formulas, all k, all interpolation/QE procedures meeting their specification", "why_tests_cant": "infinitely many inputs and solver answers; a test fixes one input and one answer of the SMT solver", "anchors": ["src/TransitionSystem.cc:KTo1Inductive::qe", "src/TransitionSystem.cc:KTo1Inductive::unfoldHalving", "src/TransitionSystem.cc:KTo1Inductive::unfoldSingleQuery"]}
{"id": "C05", "title": "Reversing a transition system", "statement": "The reversed transition system has exactly the reversed executions: it has an error path of length n iff the original does, and reversing twice gives an equivalent relation.", "quantifier": "all transition systems and path lengths", "why_tests_cant": "path lengths and systems are unbounded", "anchors": ["src/TransitionSystem.cc:TransitionSystem::reverse", "src/TransitionSystem.cc:TransitionSystem::reverseTransitionRelation"]}
{"id": "C06", "title": "IMC answers are sound", "statement": "When the interpolation-based model checker answers SAFE the query is unreachable and the formula returned is an inductive invariant; when it answers UNSAFE k there is an error path of length k.", "quantifier": "all systems, all interpolants the solver may return, all depths", "why_tests_cant": "infinitely many inputs and solver answers; a test fixes one input and one answer of the SMT solver", "anchors": ["src/engine/IMC.cc:IMC::solveTransitionSystemInternal", "src/engine/IMC.cc:IMC::finiteRun"]}
{"id": "C07", "title": "BMC answers are exact up to the explored bound", "statement": "On a transition system BMC answers UNSAFE k only if there is an error path of length k and none shorter; if it explores all lengths up to k without such an answer no path of length <= k exists; it answers SAFE only if there is no initial state.", "quantifier": "all systems, all bounds", "why_tests_cant": "infinitely many inputs and solver answers; a test fixes one input and one answer of the SMT solver", "anchors": ["src/engine/Bmc.cc:BMC::solveTransitionSystem"]}
{"id": "C08", "title": "DAR answers are sound", "statement": "When the dual-approximated-reachability engine answers SAFE the formula returned is a safe inductive invariant; when it answers UNSAFE n there is an error path of length n.", "quantifier": "all systems, all interpolants, all iterations", "why_tests_cant": "infinitely many inputs and solver answers; a test fixes one input and one answer of the SMT solver", "anchors": ["src/engine/DAR.cc:DualApproximatedReachability::run"]}
{"id": "C09", "title": "PDKIND answers are sound", "statement": "When PD-kind answers SAFE the query is unreachable; when it answers UNSAFE k there is an error path of length k.", "quantifier": "all systems, all interpolants and generalizations, all frames", "why_tests_cant": "infinitely many inputs and solver answers; a test fixes one input and one answer of the SMT solver", "anchors": ["src/engine/PDKind.cc:Context::solve", "src/engine/PDKind.cc:Context::push", "src/engine/PDKind.cc:ReachabilityChecker::reachable"]}
{"id": "C10", "title": "TRL SAFE is sound", "statement": "When transitive relation learning answers SAFE no query state is reachable.", "quantifier": "all systems, all models the solver may return, all learned relations", "why_tests_cant": "infinitely many inputs and solver answers; a test fixes one input and one answer of the SMT solver", "anchors": ["src/engine/TRL.cc:Context::run", "src/engine/TRL.cc:Context::transitiveProjection"]}
{"id": "C11", "title": "TPA answers are sound", "statement": "When (split or basic) transition-power abstraction answers SAFE and the SMT solver answered all its Houdini queries, no query state is reachable; when it answers UNSAFE there is an error path, provided the initial and query formulas are not one and the same unsatisfiable formula (split version; no proviso for the basic version).", "quantifier": "all systems, all powers, all interpolants, models and projections", "why_tests_cant": "infinitely many inputs and solver answers; a test fixes one input and one answer of the SMT solver", "anchors": ["src/engine/TPA.cc:TPASplit::checkPower", "src/engine/TPA.cc:TPABasic::checkPower", "src/engine/TPA.cc:TPABase::houdiniCheck", "src/engine/TPA.cc:TPABase::checkLessThanFixedPoint", "src/engine/TPA.cc:TPASplit::checkExactFixedPoint"]}
{"id": "C12", "title": "Spacer SAFE is sound and its witness is a model of the clauses", "statement": "When Spacer answers SAFE, the interpretation it returns satisfies every clause (every hyperedge) of the input, hence false is not derivable.", "quantifier": "all hypergraphs, all interpolants, bounds and proof-obligation orders", "why_tests_cant": "infinitely many inputs and solver answers; a test fixes one input and one answer of the SMT solver", "anchors": ["src/engine/Spacer.cc:SpacerContext::run", "src/engine/Spacer.cc:SpacerContext::isInductive", "src/engine/Spacer.cc:SpacerContext::boundSafety"]}
{"id": "C13", "title": "Spacer UNSAFE is sound", "statement": "When Spacer answers UNSAFE and the SMT solver answered all its queries, false is derivable from the clauses; a derivation it returns is a derivation of false even if the solver gave up on some queries.", "quantifier": "all hypergraphs, models and projections", "why_tests_cant": "infinitely many inputs and solver answers; a test fixes one input and one answer of the SMT solver", "anchors": ["src/engine/Spacer.cc:SpacerContext::checkMustReachability"]}
{"id": "C14", "title": "LAWI answers are sound (without forced covering)", "statement": "When LAWI answers UNSAFE there is a feasible path from entry to the error location; when it answers SAFE there is none and the returned interpretation satisfies every clause.", "quantifier": "all graphs, interpolants, covering orders", "why_tests_cant": "infinitely many inputs and solver answers; a test fixes one input and one answer of the SMT solver", "anchors": ["src/engine/Lawi.cc:LawiContext::unwind", "src/engine/Lawi.cc:LawiContext::DFS", "src/engine/Lawi.cc:LawiContext::refine"]}
{"id": "C15", "title": "LAWI with forced covering stays sound", "statement": "Turning on forced covering does not change soundness of LAWI's answers.", "quantifier": "all graphs and interpolants", "why_tests_cant": "infinitely many inputs and solver answers; a test fixes one input and one answer of the SMT solver", "anchors": ["src/engine/Lawi.cc:LawiContext::applyForcedCovering", "src/engine/Lawi.cc:LawiContext::getPathInterpolants"]}
{"id": "C16", "title": "Predicate abstraction answers are sound", "statement": "When the ARG-based engine answers SAFE, and the solver left no entailment check of the run undecided, false is not derivable and the returned interpretation satisfies every clause; when it answers UNSAFE false is derivable and the returned derivation is a derivation of false.", "quantifier": "all hypergraphs, abstraction predicates, refinement orders", "why_tests_cant": "infinitely many inputs and solver answers; a test fixes one input and one answer of the SMT solver", "anchors": ["src/engine/ArgBasedEngine.cc:Algorithm::run", "src/engine/ArgBasedEngine.cc:ARG::refine"]}
{"id": "C17", "title": "Symbolic execution answers are sound", "statement": "When forward symbolic execution answers UNSAFE there is a derivation of false; when SAFE there is none and, if every predicate is reachable from entry, the returned interpretation satisfies every clause.", "quantifier": "all linear graphs, all solver behaviours, all exploration orders", "why_tests_cant": "infinitely many inputs and solver answers; a test fixes one input and one answer of the SMT solver", "anchors": ["src/engine/SymbolicExecution.cc"]}
{"id": "C18", "title": "An unknown answer of the solver never becomes SAFE or UNSAFE", "statement": "If the SMT solver answers UNKNOWN to a query the engine does not turn that into a definite verdict that is wrong.", "quantifier": "all engines, all inputs, every query that may be answered UNKNOWN", "why_tests_cant": "timeouts and unknowns of the solver cannot be provoked systematically in tests", "anchors": ["src/engine/Kind.cc", "src/engine/DAR.cc:globalStrengthen", "src/engine/IMC.cc"]}
{"id": "C19", "title": "Shifting formulas in time", "statement": "Sending a formula n steps through time and evaluating it equals evaluating the original on the shifted assignment; shifts compose additively and shifting by 0 is the identity.", "quantifier": "all formulas, assignments and integer offsets", "why_tests_cant": "formulas and offsets are unbounded", "anchors": ["src/TermUtils.h:TimeMachine"]}
{"id": "C20", "title": "Variable names encode versions without collisions", "statement": "Printing base name, tag and version into a variable name and parsing it back returns the same triple, so different versions of variables never share a name.", "quantifier": "all base names produced by the normalizer, all versions (including negative)", "why_tests_cant": "names and versions are unbounded", "anchors": ["src/TermUtils.h:TimeMachine::sendVarThroughTime", "src/TermUtils.h:VersionManager"]}
{"id": "C21", "title": "Substitution is semantic substitution", "statement": "Substituting terms for variables and evaluating equals evaluating in the updated assignment (simultaneous substitution).", "quantifier": "all terms, substitutions and assignments", "why_tests_cant": "all terms", "anchors": ["src/TermUtils.h:TermUtils::varSubstitute"]}
{"id": "C22", "title": "NNF and DNF conversion preserve meaning", "statement": "toNNF returns a formula equivalent to its input with negations only on atoms; toDNF returns an equivalent disjunction of conjunctions of literals.", "quantifier": "all Boolean combinations of atoms", "why_tests_cant": "all formulas", "anchors": ["src/TermUtils.cc:TermUtils::toNNF", "src/TermUtils.cc:TermUtils::toDNF"]}
{"id": "C23", "title": "Trivial quantifier elimination preserves the projection", "statement": "Eliminating variables by equality substitution yields a formula whose projection onto the remaining variables is that of the input.", "quantifier": "all formulas and sets of variables", "why_tests_cant": "all formulas", "anchors": ["src/TermUtils.cc:TrivialQuantifierElimination"]}
{"id": "C24", "title": "Junction simplification preserves meaning", "statement": "Simplifying a conjunction or a disjunction of bounds keeps exactly the same satisfying assignments.", "quantifier": "all lists of bounds and other formulas", "why_tests_cant": "all inputs", "anchors": ["src/TermUtils.cc:simplifyConjunction", "src/TermUtils.cc:simplifyDisjunction"]}
{"id": "C25", "title": "Model-based projection under-approximates and contains the model", "statement": "The projection of a formula w.r.t. a model of it mentions only the variables to keep, implies the existential quantification of the formula, and is satisfied by the model, provided the formula does not use the reserved name MBP_LIA_tmp.", "quantifier": "all formulas, models and variable sets", "why_tests_cant": "all inputs", "anchors": ["src/ModelBasedProjection.cc"]}
{"id": "C26", "title": "Quantifier elimination by projections is exact", "statement": "If the elimination loop terminates, the result is equivalent to the existential quantification of the input over the eliminated variables; the loop ends for every formula whatever models the solver returns.", "quantifier": "all formulas, models returned and variable sets", "why_tests_cant": "all inputs", "anchors": ["src/QuantifierElimination.cc:QuantifierElimination::eliminate"]}
{"id": "C27", "title": "A validated SAFE witness proves safety", "statement": "If the validator accepts a validity witness then the interpretation satisfies all clauses and false is not derivable.", "quantifier": "all clause systems and witnesses", "why_tests_cant": "all witnesses", "anchors": ["src/Validator.cc:Validator::validateValidityWitness"]}
{"id": "C28", "title": "A validated UNSAFE witness proves derivability of false", "statement": "If the validator accepts an invalidity witness then false is derivable from the clauses.", "quantifier": "all clause systems and witnesses", "why_tests_cant": "all witnesses", "anchors": ["src/Validator.cc:Validator::validateInvalidityWitness"]}
{"id": "C29", "title": "Normalization and graph construction preserve satisfiability", "statement": "The normalized system and the hypergraph built from it have a model iff the input clauses have one, and derive false iff the input does (for inputs that do not use the reserved names of normalized variables); every edge infers exactly what its clause infers, and the recorded normalizing equalities map instances of the clause to assignments of the edge and back.", "quantifier": "all clause systems", "why_tests_cant": "all systems", "anchors": ["src/Normalizer.cc", "src/graph/ChcGraphBuilder.cc"]}
{"id": "C30", "title": "Removing unreachable nodes", "statement": "Removing nodes unreachable from entry or not reaching exit preserves (un)satisfiability, and extending a solution of the reduced graph by false/true on removed nodes gives a solution of the original graph.", "quantifier": "all hypergraphs", "why_tests_cant": "all graphs", "anchors": ["src/transformers/RemoveUnreachableNodes.cc"]}
{"id": "C31", "title": "Merging multi-edges", "statement": "Replacing all edges with the same sources and target by one edge labelled with the disjunction preserves models and derivable facts, and witnesses translate back.", "quantifier": "all hypergraphs", "why_tests_cant": "all graphs", "anchors": ["src/transformers/MultiEdgeMerger.cc"]}
{"id": "C32", "title": "Removing false clauses", "statement": "Removing clauses whose constraint is false preserves models, derivable facts and witnesses.", "quantifier": "all hypergraphs", "why_tests_cant": "all graphs", "anchors": ["src/transformers/FalseClauseRemoval.cc"]}
{"id": "C33", "title": "Chain summarization", "statement": "Replacing a chain of simple edges by one summary edge preserves (un)satisfiability; solutions of the summarized graph extend to solutions of the original by interpolation (always, if every vertex is reachable from the entry); error derivations expand to error derivations.", "quantifier": "all graphs, all interpolants", "why_tests_cant": "all graphs", "anchors": ["src/transformers/SimpleChainSummarizer.cc", "src/graph/ChcGraph.cc:mergeChain"]}
{"id": "C34", "title": "Node elimination", "statement": "Eliminating a node by combining its incoming and outgoing edges preserves (un)satisfiability and both kinds of witness translate back.", "quantifier": "all hypergraphs, all interpolants", "why_tests_cant": "all graphs", "anchors": ["src/transformers/NodeEliminator.cc", "src/graph/ChcGraph.cc:contractVertex"]}
{"id": "C35", "title": "Edge inlining", "statement": "Inlining the only feasible incoming edge of a node into an outgoing edge preserves (un)satisfiability and witnesses translate back.", "quantifier": "all hypergraphs", "why_tests_cant": "all graphs", "anchors": ["src/transformers/EdgeInliner.cc"]}
{"id": "C36", "title": "Single-loop transformation", "statement": "For a graph without an entry-exit edge the single-loop transition system reaches its query iff the error location of the graph is reachable; a safe inductive invariant translates back to an interpretation satisfying every clause, an error path (without parallel edges) to a refutation.", "quantifier": "all linear graphs, invariants, error paths and solver answers", "why_tests_cant": "all graphs", "anchors": ["src/transformers/SingleLoopTransformation.cc"]}
{"id": "C37", "title": "Nested-loop contraction", "statement": "Repeatedly contracting the loops with more than one location ends, gives a graph in which every cycle is a self-loop and which derives false exactly when the input does; and a solution of the result is translated back, without exceptions, to a solution of every clause of the input, provided no vertex that replaced a loop was contracted again.", "quantifier": "all linear graphs, name streams and hash orders", "why_tests_cant": "all graphs and nestings of loops", "anchors": ["src/transformers/NestedLoopTransformation.cc:transform", "src/transformers/NestedLoopTransformation.cc:translateInvariant", "src/graph/ChcGraph.cc:contractVertices"]}
{"id": "C38", "title": "Pipelines", "statement": "A composition of transformations whose witness translations are individually correct, translated back in reverse order, is correct. Golem's default pipeline and its pipeline towards transition systems keep the verdict and translate derivations back; they end without an exception unless the edge inlining does not end.", "quantifier": "all sequences of transformations, all graphs of normalized clauses, all solver answers, interpolants and orders", "why_tests_cant": "infinitely many inputs and solver answers; a test fixes one input and one answer of the SMT solver", "anchors": ["src/transformers/TransformationPipeline.cc", "src/transformers/BasicTransformationPipelines.cc"]}
{"id": "C39", "title": "Constraint simplification", "statement": "Simplifying clause constraints keeps the set of derivable facts.", "quantifier": "all hypergraphs", "why_tests_cant": "all graphs", "anchors": ["src/transformers/ConstraintSimplifier.cc"]}
{"id": "C40", "title": "Trivial edge pruning", "statement": "Pruning to one satisfiable entry-exit edge (or removing unsatisfiable ones) preserves the verdict.", "quantifier": "all graphs", "why_tests_cant": "all graphs", "anchors": ["src/transformers/TrivialEdgePruner.cc"]}
{"id": "C41", "title": "Reversing a graph swaps entry and exit", "statement": "The reverse of a directed graph has a path from its entry to its exit exactly when the original has one.", "quantifier": "all directed graphs", "why_tests_cant": "all graphs", "anchors": ["src/graph/ChcGraph.cc:ChcDirectedGraph::reverse"]}
{"id": "C42", "title": "Loop detection and DFS orders", "statement": "The reverse post-order visits every vertex reachable from entry exactly once, and loop detection returns a cycle iff one is reachable.", "quantifier": "all graphs", "why_tests_cant": "all graphs", "anchors": ["src/graph/ChcGraph.cc:reversePostOrder", "src/graph/ChcGraph.cc:detectLoop"]}
{"id": "C43", "title": "Adjacency lists are exact", "statement": "Incoming (outgoing) edge lists contain exactly the edges with the given target (a given source).", "quantifier": "all hypergraphs", "why_tests_cant": "all graphs", "anchors": ["src/graph/ChcGraph.cc:AdjacencyListsGraphRepresentation"]}
{"id": "C44", "title": "Transition-system extraction", "statement": "The transition system extracted from a graph with one loop vertex (every vertex reachable from entry) has an error path iff the graph has a derivation of false; its safe inductive invariants become solutions of the graph and its error paths become refutations of the graph, also after auxiliary variables are eliminated.", "quantifier": "all transition-system-shaped graphs", "why_tests_cant": "all graphs", "anchors": ["src/TransformationUtils.cc:isTransitionSystem", "src/TransformationUtils.cc:toTransitionSystem", "src/Witnesses.cc"]}
{"id": "C45", "title": "Error paths become derivations", "statement": "A feasible error path (with the model of its steps) is turned into a derivation in which every step follows from its premises by its clause.", "quantifier": "all linear graphs, paths and models", "why_tests_cant": "all paths", "anchors": ["src/Witnesses.cc:InvalidityWitness::fromErrorPath"]}
{"id": "C46", "title": "Entailment batches", "statement": "The helper that returns which candidate formulas are implied by a premise returns exactly implied ones only.", "quantifier": "all candidate lists, all solver models", "why_tests_cant": "all inputs", "anchors": ["src/utils/SmtSolver.cc:impliedBy", "src/utils/SmtSolver.cc:checkEntailmentOneByOne"]}
{"id": "C47", "title": "Termination answer is sound", "statement": "When the counter-based termination check answers YES every execution from every initial state is finite.", "quantifier": "all transition systems, all executions", "why_tests_cant": "infinite executions cannot be tested", "anchors": ["src/termination/ReachabilityTerm.cc"]}
{"id": "C48", "title": "Nontermination answer is sound", "statement": "On a system with at least one initial state whose initial and transition formulas share no auxiliary variable (and every SMT query decided), when the recurrent-set check answers NO some initial state starts an infinite execution; when it answers YES every execution from every initial state ends.", "quantifier": "all transition systems", "why_tests_cant": "infinite executions cannot be tested", "anchors": ["src/termination/ReachabilityNonterm.cc"]}
{"id": "C49", "title": "Lasso detection is exact", "statement": "The lasso encoding derives false iff some state reachable from an initial state can reach itself in at least one step.", "quantifier": "all transition systems", "why_tests_cant": "all systems", "anchors": ["src/termination/LassoDetector.cc"]}
{"id": "C50", "title": "Liveness by step counting", "statement": "When the step-counter check answers YES, on every execution the liveness signal is raised only finitely often.", "quantifier": "all transition systems, all infinite executions", "why_tests_cant": "infinite executions cannot be tested", "anchors": ["src/vmt/StepCounter.cc"]}
{"id": "C51", "title": "S-expression round trip", "statement": "Printing an S-expression and parsing it returns the same S-expression (for atoms that need no quoting).", "quantifier": "all S-expressions", "why_tests_cant": "all inputs", "anchors": ["src/utils/SExpressions.cc"]}
{"id": "C52", "title": "Let-printing preserves terms", "statement": "Printing a term with let-bindings for its conjunctions and disjunctions ends, and parsing the text and expanding the bindings gives the original term (let names do not occur as variable names).", "quantifier": "all terms", "why_tests_cant": "all terms", "anchors": ["src/TermUtils.cc:TermUtils::printTermWithLets"]}
{"id": "C53", "title": "Hypergraph to linear graph", "statement": "Turning a clause graph without hyperedges into a linear graph changes neither the derivable facts nor the solutions nor the refutations (clause ids included).", "quantifier": "all well-formed graphs without hyperedges, all interpretations, all derivations", "why_tests_cant": "all graphs and witnesses", "anchors": ["src/graph/ChcGraph.cc:ChcDirectedHyperGraph::toNormalGraph"]}
{"id": "C54", "title": "TRL witness", "statement": "When transitive relation learning answers SAFE and a witness was asked for, the returned formula is over the state variables, contains every reachable state, is inductive and excludes the query states.", "quantifier": "all systems, all models the solver may return, all learned relations", "why_tests_cant": "infinitely many inputs and solver answers; a test fixes one input and one answer of the SMT solver", "anchors": ["src/engine/TRL.cc:Context::computeInductiveInvariant", "src/engine/TRL.cc:Context::run"]}
{"id": "C55", "title": "TPA step counts", "statement": "The number of steps transition-power abstraction reports with UNSAFE is the length of an error path (it is used to rebuild the error path).", "quantifier": "all systems, all powers, all interpolants, models and projections", "why_tests_cant": "infinitely many inputs and solver answers; a test fixes one input and one answer of the SMT solver", "anchors": ["src/engine/TPA.cc:TPASplit::reachabilityQueryLessThan", "src/engine/TPA.cc:TPASplit::reachabilityQueryExact", "src/engine/TPA.cc:TPABasic::reachabilityQuery"]}
{"id": "C56", "title": "TPA invariants", "statement": "When transition-power abstraction answers SAFE, the SMT solver answered all its Houdini queries, and an invariant is computed from the transition invariant, it is a state formula that contains the initial states, is closed under transitions and excludes the query states.", "quantifier": "all systems, all powers, all fixed points (left, right, equality), all interpolants and projections", "why_tests_cant": "infinitely many inputs and solver answers; a test fixes one input and one answer of the SMT solver", "anchors": ["src/engine/TPA.cc:TPABase::getInductiveInvariant", "src/engine/TPA.cc:TPASplit::inductiveInvariantFromEqualsTransitionInvariant"]}
{"id": "C57", "title": "BMC on linear graphs", "statement": "On a linear system of clauses bounded model checking answers UNSAFE only if false is derivable, with a derivation of shortest length (if every query was answered) that is a refutation of the clauses; it answers SAFE only with a solution; and every derivable error is found after enough levels unless the SMT solver gives up on a query.", "quantifier": "all linear graphs, depths, models the solver may return; all branches of the engine", "why_tests_cant": "infinitely many inputs and solver answers; a test fixes one input and one answer of the SMT solver", "anchors": ["src/engine/Bmc.cc:BMC::solveGeneralLinearSystem", "src/engine/Bmc.cc:computeWitness", "src/engine/Bmc.cc:BMC::solve"]}
{"id": "C58", "title": "TPA on DAGs of loops", "statement": "On a linear system of clauses whose graph is a directed acyclic graph of vertices with one loop each, transition power abstraction answers UNSAFE only if false is derivable, with a derivation that is a refutation of the clauses; it answers SAFE only if false is not derivable, with definitions that satisfy every clause (unless the SMT solver gave up on a query of the Houdini procedure); and the split core always knows the right number of iterations of every loop, so that the witness of an UNSAFE answer can be built unless the solver gives up.", "quantifier": "all linear graphs, orders of exploration, models, interpolants and projections the solver may return, both cores, all histories of queries to one reused solver object", "why_tests_cant": "infinitely many inputs and solver answers; a test fixes one input and one answer of the SMT solver", "anchors": ["src/engine/TPA.cc:TransitionSystemNetworkManager::solve", "src/engine/TPA.cc:queryEdge", "src/engine/TPA.cc:queryTransitionSystem", "src/engine/TPA.cc:computeValidityWitness", "src/engine/TPA.cc:computeInvalidityWitness", "src/TransformationUtils.cc:isTransitionSystemDAG"]}
{"id": "C59", "title": "TPA engine: the answer for a clause system, through every branch, is right and carries a checkable witness", "statement": "Run with either version of transition power abstraction on a system of linear clauses, whichever branch is taken (no loop at all, a transition system, a directed acyclic graph of loops, or the reduction to a single loop): UNSAFE carries a derivation of the error in the given clauses; SAFE means that the error is not derivable, and its witness, when there is one, is an interpretation satisfying every given clause. The only exception is a solver that gives up on a query of the Houdini procedure.", "quantifier": "all clause graphs with formula labels and at most one loop per vertex (connected ones for the transition-system branch; the conditions of C36 for the single-loop branch), all orders, all solvers, interpolation, projection and elimination procedures meeting their contracts, all numbers of steps", "why_tests_cant": "infinitely many inputs and solver answers; a test fixes one input and one answer of the SMT solver", "anchors": ["src/engine/TPA.cc: TPAEngine::solve", "src/engine/TPA.cc: TransitionSystemNetworkManager", "src/TransformationUtils.cc: toTransitionSystem, isTransitionSystemDAG", "src/transformers/SingleLoopTransformation.cc"]}
{"id": "C60", "title": "Proofs: evaluation steps derive the equality of a closed term with its value", "statement": "When a proof is printed, every closed Int or Bool term that occurs in an instantiated clause (arithmetic, div and mod, comparisons, Boolean connectives, equalities of two terms, ite; no division by zero in the parts that are evaluated) is evaluated by steps each of which is an instance of its rule, and the last of them equates the term with the text of its value; the text of every number, negative numbers and fractions included, reads back as that number. (Equalities of Real constants written differently and equalities of more than two terms get a wrong step.)", "quantifier": "all closed well-sorted terms of any size, all rational numbers", "why_tests_cant": "infinitely many inputs and solver answers; a test fixes one input and one answer of the SMT solver", "anchors": ["src/proofs/ProofSteps.cc: simplify, shortCircuitSimplifyITE, simplifyOpDirect, smtlib_divmod, numberToString"]}
{"id": "C61", "title": "Proofs: eliminating lets keeps the meaning of an assertion", "statement": "The assertions that a printed proof assumes are let-free, and each means the same as the assertion of the input it comes from, for every interpretation of the predicates, if no let occurs inside a predicate argument or inside the declaration of another let; the loop that eliminates them takes at most as many rounds as there are lets.", "quantifier": "all assertions with any number of lets, nested in any depth in bodies, all interpretations and values", "why_tests_cant": "infinitely many inputs and solver answers; a test fixes one input and one answer of the SMT solver", "anchors": ["src/proofs/ProofSteps.cc: buildAssumptionSteps", "src/proofs/Term.cc: OperateLetTermVisitor, SimplifyVisitor, LetLocatorVisitor"]}
{"id": "C62", "title": "Proofs: the Alethe proof printed for UNSAT checks, and a proof that checks is sound", "statement": "For a derivation of false that uses quantified implications and facts over Int and Bool (bodies: a flat conjunction of predicates and constraints true for the values of the step), the printed list of steps is a proof: step numbers count up, every premise is an earlier step, every name is introduced once and before it is used, every step is an instance of its rule with the stated arguments, and the last step is the empty clause. Whenever a list of steps is such a proof, the assertions have no model. (Unquantified implications, nested conjunctions of predicates, a minus sign in front of a variable and facts that are predicates without arguments break this.)", "quantifier": "all systems of assertions, all derivations of any length, all values of the variables, all interpretations", "why_tests_cant": "infinitely many inputs and solver answers; a test fixes one input and one answer of the SMT solver", "anchors": ["src/proofs/ProofSteps.cc: buildAletheProof, instantiationSteps, derivePredicateFromClause, deriveLHSWithoutConstraint, removeUnusedQuantifiers", "src/proofs/Term.cc: InstantiateVisitor", "src/ChcInterpreter.cc: ASTtoTerm"]}
{"id": "C63", "title": "Engine portfolio prints one engine's output", "statement": "With a comma-separated list of engines, at every moment the standard output of (check-sat) is empty or the beginning of what one of the listed engines with a definite answer prints when run alone: at most one answer, and the witness belongs to the same engine. Every schedule ends; if no fork fails and neither the child of some engine with a definite answer nor the winning child crashes, the complete output of one such engine is printed, the parent returns and no child is left, even if other engines run forever, throw or crash. The child that works on the witness is never killed by the parent.", "quantifier": "all engine lists, all answers of the engines, all interleavings of the processes, all crashes of children at any point and all failing forks", "why_tests_cant": "infinitely many inputs and solver answers; a test fixes one input and one answer of the SMT solver", "anchors": ["src/ChcInterpreter.cc: solveWithMultipleEngines, interpretCheckSat, printAnswer"]}
{"id": "C64", "title": "Termination portfolio prints one answer", "statement": "Without a selected backend the termination front end prints at most one line: YES or NO only if one of the methods came to that answer, MAYBE only at the end and if none claimed an answer. If a method has a definite answer (no failing fork, neither its child nor the winner crashes) every schedule ends with exactly one definite answer; if all methods end without one, every schedule ends with exactly MAYBE. Condition: no method raises the nonlinearity exception.", "quantifier": "all answers of the methods, all interleavings, crashes and failing forks", "why_tests_cant": "infinitely many inputs and solver answers; a test fixes one input and one answer of the SMT solver", "anchors": ["src/termination/Frontend.cc: multiMethodSolve, solve, printAnswer, run"]}
{"id": "C65", "title": "Assertions mean what SMT-LIB says", "statement": "Reading an assertion (numerals, identifiers, applications, nested and shadowing lets, any number of leading universal quantifiers) gives a formula that is true for all values of its variables under an interpretation of the predicates exactly if the assertion holds in it; well-sorted assertions are read, quantifiers further inside are refused, and whatever happens no name stays bound for later assertions. Condition: no quantified Boolean variable has the name of a declared predicate without arguments (such a variable is taken for the predicate).", "quantifier": "all assertions of any size, nesting and shadowing, all declared predicates, all interpretations and values, all ways the reading can end", "why_tests_cant": "infinitely many inputs and solver answers; a test fixes one input and one answer of the SMT solver", "anchors": ["src/ChcInterpreter.cc: parseTopLevelAssertion, parseTerm, addLetFrame", "src/ChcInterpreter.h: LetRecords, LetBinder"]}
{"id": "C66", "title": "Scripts: a check-sat solves exactly the assertions in force", "statement": "At every executed (check-sat) the clauses handed to the solver hold in an interpretation of the predicates exactly if all assertions since the last (set-logic HORN) hold in it; so false derivable from the clauses means that the assertions are unsatisfiable, and a model of the clauses is a model of the assertions. Every disjunction with at most one positive predicate and no predicate inside constraints becomes a clause; one with two different positive predicates is reported and ends the script, so that it is never dropped silently. (Assertions that contain no predicate, such as false, are refused; predicates inside arguments of predicates and predicates declared before a second set-logic are not noticed.)", "quantifier": "all scripts of any length, all orders of commands, all interpretations and values", "why_tests_cant": "infinitely many inputs and solver answers; a test fixes one input and one answer of the SMT solver", "anchors": ["src/ChcInterpreter.cc: interpretSystemAst, interpretCommand, interpretDeclareFun, interpretAssert, chclauseFromPTRef", "src/TermUtils.h: getTopLevelJuncts"]}
{"id": "C67", "title": "The printed answer is right about the script", "statement": "When a (check-sat) prints unsat, no interpretation of the declared predicates satisfies the assertions in force; when it prints sat, some interpretation does. At most one answer is printed, as the first line. This covers the whole way: reading the assertions, making clauses, normalization, the default preprocessing pipeline and the engine, under the condition that the engine's verdict about the graph it is given is right, which is proved for the default engine Spacer (the solver answers, or witnesses are computed).", "quantifier": "all scripts (well sorted, no name clash with golem's variables), all solver answers, interpolants, projections, vertex orders and eliminations, with and without witnesses", "why_tests_cant": "infinitely many inputs and solver answers; a test fixes one input and one answer of the SMT solver", "anchors": ["src/ChcInterpreter.cc: interpretCheckSat, solve, printAnswer", "src/transformers/BasicTransformationPipelines.cc: defaultTransformationPipeline", "src/engine/Spacer.cc"]}
{"id": "C68", "title": "A printed proof is a proof from the clauses", "statement": "A proof that is printed starts from true, ends with false, and every step in between is an instance of the clause it names with earlier steps as premises: the translation of the engine's derivation through all transformations is right. If it is validated internally, the message is that validation succeeded, unless the solver gives up.", "quantifier": "all scripts, all runs of the pipeline, all derivations found by the engine", "why_tests_cant": "infinitely many inputs and solver answers; a test fixes one input and one answer of the SMT solver", "anchors": ["src/ChcInterpreter.cc: doWorkAfterAnswer", "src/transformers/BasicTransformationPipelines.cc", "src/Validator.cc"]}
{"id": "C69", "title": "A printed model is a model of the assertions", "statement": "The model printed after sat defines every predicate once, and with these definitions all assertions in force hold; the internal validation accepts it.", "quantifier": "all scripts, all runs of the pipeline, all witnesses of the engine", "why_tests_cant": "infinitely many inputs and solver answers; a test fixes one input and one answer of the SMT solver", "anchors": ["src/ChcInterpreter.cc: doWorkAfterAnswer", "src/transformers/FalseClauseRemoval.cc", "src/transformers/EdgeInliner.cc", "src/Validator.cc"]}
{"id": "C70", "title": "Preprocessing for termination analysis keeps exactly the infinite runs", "statement": "For a transition system given as clauses (at most one body predicate each, none derives false), the hypergraph that the termination front end obtains by normalization and its nine transformations (constraint simplification, chain summarization, removal of unreachable nodes, node elimination, edge inlining, removal of false clauses, merging of parallel edges, pruning) has an infinite run from its entry if and only if the clauses have one.", "quantifier": "all clause systems of this form, all graphs, all oracles meeting their specification", "why_tests_cant": "infinitely many inputs and solver answers; a test fixes one input and one answer of the SMT solver", "anchors": ["src/termination/Frontend.cc: run", "src/transformers/TransformationPipeline.cc", "src/transformers/RemoveUnreachableNodes.cc: RemoveForwardUnreachableNodes"]}
{"id": "C72", "title": "The transition system given to the termination analyses runs forever iff the input does", "statement": "After preprocessing, the termination front end either answers YES (no edge leaves a location other than the start, or the transition is false), and then the clauses have no infinite run, or it gives the analyses one transition system (directly, or by the single-loop transformation of a graph without error location), and then this system is well formed and some initial state starts an infinite execution if and only if the clauses have an infinite run from the start. It fails (uncaught exception) only if preprocessing leaves a self-loop that cannot be reached, and reads values that do not exist only if preprocessing leaves no edge from the start.", "quantifier": "all linear clause systems without queries, all graphs, all orders of the state variables, all oracles meeting their specification", "why_tests_cant": "infinitely many inputs and solver answers; a test fixes one input and one answer of the SMT solver", "anchors": ["src/termination/Frontend.cc: run, solve, isTriviallyTerminating", "src/transformers/SingleLoopTransformation.cc: transform", "src/TransitionSystem.cc: toTransitionSystem", "src/graph/ChcGraph.cc: toNormalGraph"]}
{"id": "C71", "title": "An integer transition system and its clauses run forever together", "statement": "For every well-formed ITS file (declarations in any order and any layout of the text) the clauses that golem makes of it have an infinite run if and only if the system described by the file has one: a rule applies to a configuration if some values of the variables match its left side and satisfy its guard, the start has arbitrary arguments, and guards may contain existential quantifiers whose names are used in no other conjunct and not by the locations of the rule. Such a file is accepted.", "quantifier": "all ITS files of this form, all guards, all layouts, all constructors of terms meeting their contract", "why_tests_cant": "infinitely many inputs and solver answers; a test fixes one input and one answer of the SMT solver", "anchors": ["src/termination/Frontend.cc: ITS::resolve, ITS::parseFun, ITS::parseLocationInstance, ITS::parseRule, ITS::parseExpr, translate, ITS::asChcs", "src/utils/SExpressions.cc: parseExpression"]}
{"id": "C73", "title": "The termination mode prints YES only for systems that stop, NO only for systems that run forever", "statement": "For an integer transition system in a well-formed file: whatever backend is chosen, or if all run as a portfolio, under every interleaving of the processes, crash of a child and failing fork, golem prints YES only if the described system has no infinite execution, and NO only if it has one - provided that the analysis nontermination-via-safety gets a system with an initial state. In the portfolio at most one line is printed.", "quantifier": "all files, backends, oracle answers and schedules", "why_tests_cant": "termination of a system and all schedules of the portfolio are beyond any finite set of runs", "anchors": ["src/termination/Frontend.cc (run, solve, multiMethodSolve, printAnswer)", "src/termination/ReachabilityTerm.cc", "src/termination/ReachabilityNonterm.cc", "src/termination/LassoDetector.cc"]}
{"id": "C74", "title": "Answers for VMT safety problems", "statement": "For a well-formed VMT file (declared variables of type Int or Real - not both - and Bool; parameterless definitions, sorted as declared, over and, or, not, =, <=, +, -, *; (! x :next y) pairs of declared variables; one formula with :init, one with :trans, one with :invar-property 0) the printed answer is right whenever the engine is right about the graph it is given: 'safe' is only printed if no state that violates the property can be reached from the initial states by the transitions, where variables that are not state variables take any value in each formula, and 'unsafe' only if one can. Such files are accepted. Nothing else but 'safe', 'unsafe', 'unknown' is printed.", "quantifier": "all VMT files (any number of variables, definitions, nesting), all constructors of terms with the meaning of the operators, all engines, all states and executions of the described system", "why_tests_cant": "infinitely many inputs and solver answers; a test fixes one input and one answer of the SMT solver", "anchors": ["src/vmt/FrontEnd.cc (parse, VMTModelBuilder::resolve, build, VMTModel::asChcs, solveSafetyProblem, printAnswer)"]}
{"id": "C75", "title": "Answers for VMT liveness problems", "statement": "For a VMT file with a :live-property (otherwise formed like a safety problem) whose state variables are versioned names v##n with next-state names v##n+1 (or one character and a number, with the next number) and in which nothing is called counter##0 or counter##1: if the engine is sound and golem prints 'valid', then on the executions from each initial state the formula of the property holds in a bounded number of steps, hence on no infinite execution infinitely often. Only 'valid', 'unknown', 'error' are printed. (It does not hold for other names of next-state variables, which are ignored or lead to an exception; and 'valid' is not the FG p of VMT-LIB but FG not p.)", "quantifier": "all VMT files of this form (any number of variables and definitions), all constructors of terms with the meaning of the operators, all sound engines, all finite and infinite executions", "why_tests_cant": "infinitely many inputs and solver answers; a test fixes one input and one answer of the SMT solver", "anchors": ["src/vmt/FrontEnd.cc (VMTModel::asLivenessProblem, printLivenessAnswer, solveLivenessProblem)", "src/vmt/StepCounter.cc (StepCounter::checkLiveness)", "src/TransitionSystem.cc (SystemType::SystemType, isWellFormed)", "src/TermUtils.h (TimeMachine::sendVarThroughTime)"]}
{"id": "C76", "title": "Error paths through the nested-loop transformation", "statement": "For a linear system and any refutation of the graph --simplify-nested turns it into, provided no contracted vertex is contracted again: the translated error path, if there is one, is a refutation of the input of the same length whose facts follow each other along clauses of the input; an exception is only raised if the solver answers UNKNOWN; no witness is returned only if two clauses share body and head predicate; and the search for the location of a loop vertex always succeeds.", "quantifier": "linear systems, fresh names, variable orders, models returned by the solver, refutations of the transformed graph of any length", "why_tests_cant": "infinitely many inputs and solver answers; a test fixes one input and one answer of the SMT solver", "anchors": ["src/transformers/NestedLoopTransformation.cc:64-128"]}
{"id": "C77", "title": "TPA with simplified nested loops", "statement": "With --simplify-nested and witnesses requested, on a linear system in which no contracted vertex is contracted again and every vertex has at most one loop: UNSAFE is right, and its error path is a refutation of the input (it is only missing if two clauses share body and head); SAFE is right and its witness solves every clause of the input, unless the solver answers UNKNOWN on a Houdini query; and the engine never reads the end of a search. Without a request for witnesses, or if a vertex outside all cycles has no loop, there is no answer (an exception).", "quantifier": "linear systems, fresh names, variable orders, solvers, interpolants, projections and quantifier eliminations meeting their contracts, both versions of TPA, all fuels", "why_tests_cant": "infinitely many inputs and solver answers; a test fixes one input and one answer of the SMT solver", "anchors": ["src/engine/TPA.cc: TPAEngine::solve (lines 39-94), TransitionSystemNetworkManager", "src/transformers/NestedLoopTransformation.cc: transform, WitnessBackTranslator::translate"]}
{"id": "C78", "title": "The command line", "statement": "Parsing ends as soon as an option asks for help or the version (exit code 0), is unknown or lacks its argument (abort); otherwise it fails (exit code 1) exactly if there are two file names. If it succeeds: of several --engine, --logic, --input, --flow, --proof-format or --termination-backend options the first counts; --validate and --print-witness are on if they occur; witnesses are computed exactly if one of those two occurs or the last --compute-witness does not say no, false or disable; forced covering follows its last occurrence; the last --lra-itp-algorithm counts; and the verbosity is the last --verbose plus the number of later -v. The order of options of different kinds does not matter. (--tpa.use-qe=no switches it on, and --verbose without a number reads a null pointer.)", "quantifier": "all sequences of options and arguments, all conversions from text to numbers", "why_tests_cant": "infinitely many inputs and solver answers; a test fixes one input and one answer of the SMT solver", "anchors": ["src/Options.cc: CommandLineParser::parse", "src/Options.h: Options"]}
{"id": "C79", "title": "Choice of front end and logic", "statement": "A file is given to the termination front end exactly if its name ends in .ari, to the VMT front end exactly if it ends in .vmt, and to the Horn solver exactly if it ends in .smt2, can be parsed, and the logic is QF_LRA, QF_LIA or QF_ALIA; everything else is an error. Without a logic option, the logic is that of the sorts that occur in the commands up to the first assertion after an Int or a Real: none if both occur, otherwise the linear logic of that sort, with arrays if an array occurs as an argument; if all declarations come first, all of them and only they count. (Arrays of reals are detected but not accepted, and later declarations are not looked at.)", "quantifier": "all file names, options, scripts and declarations", "why_tests_cant": "infinitely many inputs and solver answers; a test fixes one input and one answer of the SMT solver", "anchors": ["src/bin/golem.cpp: main, tryDetectLogic"]}
