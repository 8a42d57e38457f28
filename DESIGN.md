# Formal model of golem in Rocq (Coq 8.16.1)

## Approach

Golem is a solver for constrained Horn clauses built on the OpenSMT library.  Golem's own code (term utilities, clause
graph, transformers, engines, validator, witnesses, proof production, termination and VMT back ends) is modelled as executable Gallina
functions over a deep embedding of terms.  OpenSMT is not part of /repo: its solver, interpolation and model services are
*oracles*, i.e. arguments of the model functions, and theorems quantify over every oracle that meets a small contract.
Each theorem therefore covers every model, interpolant or projection OpenSMT might return, and every history of calls.
An oracle may always answer "unknown" or fail, so every contract can be met (`BoolOracle.v` has complete ones for
propositional queries; the `Prop*.v` files have tables of certified answers for arithmetic examples).

Layout of `rocq/theories`:
* *model files* (`...Model.v`, `Syntax`, `TransSys`, `Graph`, `GraphOps`, `Names`, `ChcSystem`, ...): definitions only,
  each with the file and lines of /repo it models and the simplifications made;
* *specification files*: `Syntax` (meaning of terms), `Solver` (contracts), `TransSys` (paths, safety, safe inductive invariants),
  `GraphSem`, `LinearPath`, `ChcSystem` (derivable facts, derivations, solutions), independent of the code models;
* *proof files*;
* `Prop*.v`: the property theorems, `Print Assumptions` after each, and beside them concrete runs that meet the hypotheses.

Conventions
* A C++ loop is structural recursion or recursion on fuel.  Running out of fuel, an exception, a failed `.at()` and undefined
  behaviour are outcomes of their own that no theorem takes for a verdict; theorems hold for every amount of fuel.
* Terms are `Var | Const | App`, values are Booleans, integers and rationals.  Arrays and uninterpreted functions are not modelled
  (the engines that cannot handle them answer UNKNOWN; that test is an argument of the models).
* Variables are structured (base name, version tag, sort); `Names.v` models the string encoding and proves it injective (C20).
* OpenSMT's `mk*` functions normalise terms; the models use the plain constructors, which mean the same.  Where the *shape* of a term
  decides what the code does (NNF, DNF, MBP, Houdini candidates), the shape assumed is stated in the comment.
* A claim that is false of the faithful model is stated and proved as `..._refuted`, with a concrete run.  The property then
  either carries the needed condition explicitly or is reported as partial.
* A solver may give up.  Soundness theorems do not assume a decisive solver: where an UNKNOWN answer can make a verdict wrong, the
  conclusion has the disjunct "the solver answered UNKNOWN to this kind of query", otherwise there is no condition.

## Trusted base

* The kernel of Coq 8.16.1 (`coqc`, no kernel check switched off, no `native_compute`; examples use `vm_compute`).
* `Print Assumptions` prints "Closed under the global context" for every property theorem except `C67_sat` (and the example that applies it), which
  depends on `classic` (Coq.Logic.Classical_Prop) and `constructive_indefinite_description` (Coq.Logic.ClassicalEpsilon).  The
  other axioms present in the loaded libraries are the seven constants of the module `Coq.ssr.ssrunder` (`Under_rel.*`), which the standard
  library loads with `ZifyBool`/`lia`; no theorem depends on them.
* The reading of the C++ code recorded in the comments of the model files.
* The contracts of the oracles (`Solver.v` unless noted):
  `check_ok` (SAT comes with a model, UNSAT means no model, UNKNOWN always allowed); `itp_ok` (Craig interpolants);
  `pitp_ok` (path interpolants: a chain, each over the shared variables; LAWI's single masks are taken as such a sequence);
  `titp_ok` (tree interpolants, predicate abstraction, `ArgModel.v`); `qe_ok` (quantifier elimination) and `mbp_ok`/`is_mbp` (model-based
  projection), both discharged for golem's own MBP/QE in C25/C26; `elim_ok` (`SimpleTransModel.v`, discharged for TrivialQE in C23);
  `simp_ok` (simplifiers preserve meaning and add no variables, `NontermProofs.v`).
* Hash maps and sets whose iteration order is unspecified are modelled by lists with an arbitrary order; where the order matters it is a
  parameter (`ord`) that ranges over all permutations.

## Plan and outcome per property

| id | property | modelled | proof | status |
|----|----------|----------|-------|--------|
| C01 | KIND: SAFE means safe | KindModel: Kind.cc forward/backward k-induction as a fuelled loop | invariant over the unrolling depth, gluing of paths (KindProofs) | proved |
| C02 | KIND: UNSAFE k means an error path of length k | same | the satisfying model is cut into a path of the reported length | proved |
| C03 | KIND: the witness of SAFE is an inductive invariant | same + KTo1Model | C04 applied to the k-inductive formula | proved |
| C04 | k-inductive to inductive strengthening | KTo1Model: the three modes of the k-to-1 conversion in TransitionSystem.cc | chain of path interpolants; halving by strong induction on k; semantics of QE | proved |
| C05 | Reversing a transition system | TransSys: reverseTransitionRelation | the three substitutions are one permutation of variables | proved |
| C06 | IMC answers are sound | BmcImcModel: IMC.cc | loop invariant: the reached set over-approximates the image, interpolants separate | proved |
| C07 | BMC answers are exact up to the explored bound | BmcImcModel: Bmc.cc on transition systems | induction on the depth | proved |
| C08 | DAR answers are sound | DarModel: DAR.cc | invariant on the forward and backward sequences, local and global strengthening | proved |
| C09 | PDKIND answers are sound | PdkModel: PDKind.cc | invariants of the induction frame, reachability frames and push; model-based generalisation as oracle | proved |
| C10 | TRL SAFE is sound | TrlModel: TRL.cc | greedy relabelling of a concrete path by learned relations, transitivity | proved |
| C11 | TPA answers are sound | TpaModel: TPA.cc (cores split and basic, strengthening, both fixed-point checks, Houdini) | the powers over-approximate bounded reachability; invariants preserved by every refinement | proved |
| C12 | Spacer SAFE is sound and its witness is a model of the clauses | SpacerModel: Spacer.cc | may-summaries are over-approximations level by level; the fixed point is inductive | proved |
| C13 | Spacer UNSAFE is sound | same, with proof reconstruction | must-summaries are derivable facts; the reconstruction finds premises | proved |
| C14 | LAWI answers are sound (without forced covering) | LawiModel: Lawi.cc | invariants of the unwinding (labels, coverings, refinement) | proved |
| C15 | LAWI with forced covering stays sound | same with forced covering | UNSAFE as before; SAFE refuted by an explicit run | partial |
| C16 | Predicate abstraction answers are sound | ArgModel: ArgBasedEngine.cc | invariants of the reachability graph, coverage and re-checking after refinement | proved |
| C17 | Symbolic execution answers are sound | SymExModel: SymbolicExecution.cc | worklist invariants; symbolic states are strongest postconditions | proved |
| C18 | An unknown answer of the solver never becomes SAFE or UNSAFE | all engine models | explicit oracles and runs for the refutations | partial |
| C19 | Shifting formulas in time | TransSys/Names: TimeMachine | structural induction on terms | proved |
| C20 | Variable names encode versions without collisions | Names: VersionManager, TimeMachine on strings | string lemmas; injectivity and round trips | proved |
| C21 | Substitution is semantic substitution | FormulaModel: TermUtils substitution | structural induction | proved |
| C22 | NNF and DNF conversion preserve meaning | FormulaModel: NNF, DNF | structural induction, semantics preserved, shape reached | proved |
| C23 | Trivial quantifier elimination preserves the projection | FormulaModel: TrivialQuantifierElimination | the equalities used are functional; iteration | proved |
| C24 | Junction simplification preserves meaning | FormulaModel: simplifyUnderAssignment / junction simplification | induction over the junction tree | proved |
| C25 | Model-based projection under-approximates and contains the model | Lin, MbpModel: ModelBasedProjection.cc (real, integer, Boolean) | Loos-Weispfenning / Cooper style case analysis by the model | proved |
| C26 | Quantifier elimination by projections is exact | MbpModel: QuantifierElimination.cc | loop invariant over the projections found so far | proved |
| C27 | A validated SAFE witness proves safety | ValidatorModel: Validator.cc (SAFE) | clause by clause | partial |
| C28 | A validated UNSAFE witness proves derivability of false | ValidatorModel: Validator.cc (UNSAFE) | induction over the derivation | partial |
| C29 | Normalization and graph construction preserve satisfiability | NormModel: Normalizer, ChcGraphBuilder | derivations and solutions carried over in both directions | proved |
| C30 | Removing unreachable nodes | SimpleTransModel: RemoveUnreachableNodes | forward/backward reachability closure | proved |
| C31 | Merging multi-edges | SimpleTransModel: MultiEdgeMerger | disjunction of the labels; the step is split by the model | proved |
| C32 | Removing false clauses | SimpleTransModel: FalseClauseRemoval | vertices lost are the exception | partial |
| C33 | Chain summarization | MergeModel: SimpleChainSummarizer | the chain is composed edge by edge; interpolants in between | proved |
| C34 | Node elimination | ElimModel: NodeEliminator | pairwise merge; expansion of derivations; interpolant for the removed vertex | proved |
| C35 | Edge inlining | InlineModel: EdgeInliner | replacement entries undone in reverse order | partial |
| C36 | Single-loop transformation | ContractModel: SingleLoopTransformation, TransitionSystemEngine | bisimulation between graph runs and location-encoded runs | proved |
| C37 | Nested-loop contraction | NestedModel: NestedLoopTransformation | repeated contraction; composition of C36-like steps | proved |
| C38 | Pipelines | PipelineModel: the stages of the two pipelines with their oracles | composition lemma for model and witness translators; stage by stage invariants (well-formed, versioned variables, every inner vertex has an incoming edge) | proved |
| C39 | Constraint simplification | SimpleTransModel: ConstraintSimplifier | label equivalence up to local variables | proved |
| C40 | Trivial edge pruning | SimpleTransModel: TrivialEdgePruner | id restoration | proved |
| C41 | Reversing a graph swaps entry and exit | GraphOps: reverse | refuted; path reversal proved | partial |
| C42 | Loop detection and DFS orders | GraphOps: DFS orders, loop detection | invariants of the depth-first search | proved |
| C43 | Adjacency lists are exact | GraphOps: adjacency lists | index invariants under all updates | proved |
| C44 | Transition-system extraction | LinearModel: isTransitionSystem, toTransitionSystem, witness translation | runs of the system and of the graph coincide | proved |
| C45 | Error paths become derivations | LinearModel: ErrorPath, InvalidityWitness::fromErrorPath | facts read off the model are derivable | proved |
| C46 | Entailment batches | EntailModel: SmtSolver.cc entailment batches | activation literals | proved |
| C47 | Termination answer is sound | TerminationModel: ReachabilityTerm | counter argument | proved |
| C48 | Nontermination answer is sound | TerminationModel: ReachabilityNonterm | recurrent sets | proved |
| C49 | Lasso detection is exact | TerminationModel: LassoDetector | pigeon-free: the saved state is revisited | proved |
| C50 | Liveness by step counting | TerminationModel: StepCounter | ranking by the counter | proved |
| C51 | S-expression round trip | SExprModel: SExpressions.cc | round trip by induction | proved |
| C52 | Let-printing preserves terms | LetModel: printTermWithLets | value preserved by topological order of shared subterms | proved |
| C53 | Hypergraph to linear graph | LinearModel: hypergraph to linear graph | renaming of versions | proved |
| C54 | TRL witness | TrlModel: computeInductiveInvariant | covers reachable states; inductiveness refuted | partial |
| C55 | TPA step counts | TpaModel: step counts | exact for split; refuted for basic | partial |
| C56 | TPA invariants | TpaModel: getInductiveInvariant | k-inductive formula to invariant via C04 | proved |
| C57 | BMC on linear graphs | BmcGraphModel: Bmc.cc on general linear graphs | frontier levels are path lengths; model to path | proved |
| C58 | TPA on DAGs of loops | DagModel: TransitionSystemNetworkManager in TPA.cc | invariants of the search over vertices with reused solver objects | proved |
| C59 | TPA engine: the answer for a clause system, through every branch, is right and carries a checkable witness | TpaEngineModel: TPAEngine::solve | composition of C11, C36, C44, C56, C58 | proved |
| C60 | Proofs: evaluation steps derive the equality of a closed term with its value | Alethe terms with their texts, numbers as canonical rationals; simplify and all operators as a state-passing function that records steps; meaning of terms and rules in AletheSpec.v | induction on terms: the recorded steps satisfy the checker's predicate and end in the equality with the canonical constant; number texts by induction on digits | proved |
| C61 | Proofs: eliminating lets keeps the meaning of an assertion | the visitors that locate and expand lets, with their mutable bindings; the loop with fuel | induction on terms for one round, number of lets decreases | proved |
| C62 | Proofs: the Alethe proof printed for UNSAT checks, and a proof that checks is sound | buildAletheProof with all the steps it records; a separate specification of Alethe steps (names, premises, rules) and of derivations over values | invariant over the recorded steps (checked prefix, names fresh); soundness of every rule by the meaning of terms; sorted instantiation gives canonical constants | proved |
| C63 | Engine portfolio prints one engine's output | parent, children, shared word, buffers and standard output as an interleaving semantics with crash and fork-failure actions; engines are oracles | inductive invariant over all reachable states (what the winner printed as a function of its program counter); a decreasing measure bounds all runs; case analysis of quiescent states | proved |
| C64 | Termination portfolio prints one answer | the same semantics with the MAYBE fallback and the exception handler of the caller | same invariant; fallback only without a winner | proved |
| C65 | Assertions mean what SMT-LIB says | LetRecords as an association list with shadowed values, parseTerm / parseTopLevelAssertion as functions on syntax trees that thread the records | records are restored exactly (induction on the tree); value of the term = SMT-LIB value by induction with an environment; quantifiers by changing one variable at a time | proved |
| C66 | Scripts: a check-sat solves exactly the assertions in force | chclauseFromPTRef with getTopLevelJuncts as a work list, the command loop with declarations, errors and exit | work-list invariant (literals of seen terms are collected or still queued below), partition into head, body and constraint; invariant over the commands relating clauses and assertions in force; coding of names as symbols for the solver's clauses | proved |
| C67 | The printed answer is right about the script | syntax tree to printed line: FrontModel, NormModel, PipelineModel (stages with all their oracles), SpacerModel | composition of C66, C29, the stage theorems and C12/C13; the least set of facts is the model for sat | proved |
| C68 | A printed proof is a proof from the clauses | back translators of all stages, in reverse order; clause_proof in PropPipeline says what a proof from clauses is | each stage maps error derivations to error derivations; normalization maps edges to clauses | proved |
| C69 | A printed model is a model of the assertions | same; model_of reads the printed definitions as functions | each stage maps solutions to solutions under the conditions faithful; refuted without | partial |
| C70 | Preprocessing for termination analysis keeps exactly the infinite runs | the stage list of termination/Frontend.cc over the existing models of the transformers; infinite runs as a coinductive predicate over clause instances | per stage: coinduction with a simulation that maps a step to one or more steps, in both directions; composition | proved |
| C72 | The transition system given to the termination analyses runs forever iff the input does | run/isTriviallyTerminating of termination/Frontend.cc, toTransitionSystem without queries, single_loop on graphs without error edges; the name hygiene of all stages (NamedStages) | per branch: simulation in both directions between runs of the graph and executions of the system (coinduction), over the edge semantics of C36/C44; composed with C70 and the retagging of C38 | proved |
| C71 | An integer transition system and its clauses run forever together | termination/Frontend.cc:47-327 on s-expressions (ItsModel); OpenSMT's mk* functions are parameters with a contract; meaning of files in ItsSpec | induction over s-expressions (guards as terms; quantifiers dropped by choosing the bound values once), effect of each declaration on the parsed system, simulation in both directions, coinduction; text via C51 | proved |
| C73 | The termination mode prints YES only for systems that stop, NO only for systems that run forever | termination/Frontend.cc:329-498 (run, solve, printAnswer, parseMethod) over the models of C64, C70-C72, C47-C49; engines, solver, QE and OpenSMT's simplifications are parameters with contracts | composition; new: the names of the variables of the system (TermNames: initial and transition formula share no auxiliary variable, none is called counter), needed by C47 and C48 | proved |
| C74 | Answers for VMT safety problems | VmtModel.v: the builder, choice of the logic, terms, annotations, the clauses of the safety problem; PropVmt.v: the printed answer (FrontEnd.cc 64-361, 384-400). Specification VmtSpec.v: environments of names, reached states. | Definitions by induction with an agreement between gatherer, valuation and environment (VmtProofs.v); then derivability of the three clauses = reachability; answer by C29 and the soundness of the simplifier stage. | proved |
| C75 | Answers for VMT liveness problems | VmtLiveModel.v: next-state names by text manipulation on the raw names, the well-formedness check, the four clauses with the counter, answers (FrontEnd.cc 344-366, 403-407; StepCounter.cc 15-103; TransitionSystem.cc 16-39, 73-78). Specification VmtLiveSpec.v: executions as sequences of environments, raised counts. | Parsing transferred from C74 by exchanging the two annotations; each execution prefix derives the predicate with the counter lowered by the number of raised steps (PropVmtLive.v); soundness of the engine bounds it; refutations by concrete files. | proved |
| C76 | Error paths through the nested-loop transformation | translateErrorPath of the nested-loop transformation with its three searches; the solver's model, exceptions and the dereferenced end iterator as outcomes (NestedPathModel.v) | every edge of the transformed graph whose label holds at time i gives an edge of the input between the vertices that the location variables resolve to, by induction on the contractions; then induction along the path; an example with overlapping cycles for the refutation | proved |
| C77 | TPA with simplified nested loops | TPAEngine::solve with simplify-nested: the branch, the translation of witnesses, exceptions for a missing witness or loop (NestedEngineModel.v); the search is that of C58, the rest of the engine that of C59 | invariants of the contraction (no long cycle, one loop per vertex, Boolean labels), the soundness of the search on DAGs of loops, and the back translations of C37 and C76 | proved |
| C78 | The command line | CommandLineParser::parse on the options that getopt_long delivers, class Options with emplace; not getopt_long itself, int overflow, the printed texts (OptionsModel.v) | induction on the options, with a specification by first/last occurrences (PropOptions.v) | proved |
| C79 | Choice of front end and logic | main and tryDetectLogic of golem.cpp on syntax trees, file names and options (MainModel.v); not fopen, the parser, the messages | induction on the commands, the prefix that was inspected as invariant; suffixes of names (PropMain.v) | proved |

The theorems of each property, and what is missing in a partial one, are in MANIFEST.json.

## What is modelled and what is not

| source (under /repo/src) | modelled in | not modelled |
|---|---|---|
| TermUtils.{h,cc} | Syntax, Names, FormulaModel, LetModel | array and uninterpreted-function handling, simplification by OpenSMT rewriters |
| graph/ChcGraph.{h,cc}, graph/ChcGraphBuilder.cc | Graph, GraphOps, MergeModel, ElimModel, NormModel, ContractModel | DOT output |
| ChcSystem, Normalizer.{h,cc} | ChcSystem, NormModel | printing |
| TransitionSystem.{h,cc} | TransSys, KTo1Model | |
| TransformationUtils.cc, Witnesses.{h,cc} | LinearModel, DagModel | printing of witnesses (but LetModel, AletheModel) |
| Validator.cc | ValidatorModel | |
| ModelBasedProjection.cc, QuantifierElimination.cc | Lin, MbpModel | arrays |
| utils/SmtSolver.{h,cc}, utils/SExpressions.{h,cc} | Solver, EntailModel, SExprModel | |
| transformers/*.cc | SimpleTransModel, MergeModel, ElimModel, InlineModel, ContractModel, NestedModel, NestedPathModel | the OpenSMT rewriters called by ConstraintSimplifier (an oracle) |
| engine/Kind, IMC, Bmc, DAR, PDKind, TRL | KindModel, BmcImcModel, BmcGraphModel, DarModel, PdkModel, TrlModel | statistics, logging |
| engine/TPA.cc | TpaModel, DagModel, TpaEngineModel | the option that simplifies nested loops inside the engine |
| engine/Spacer.cc, Lawi.cc, ArgBasedEngine.cc, SymbolicExecution.cc | SpacerModel, LawiModel, ArgModel, SymExModel | |
| engine/TransitionSystemEngine.cc, Common.cc | ContractModel, LinearModel | |
| termination/*.cc, vmt/StepCounter.cc | TerminationModel, TermStages (preprocessing) | |
| proofs/*.cc, ChcInterpreter.cc (ASTtoTerm) | AletheModel | getInstPairs (constants of a step are an input), the intermediate format, printing of steps as text |
| ChcInterpreter.cc (portfolio), termination/Frontend.cc (portfolio) | PortfolioModel | reuse of process identifiers |
| ChcInterpreter.{h,cc} (commands, assertions, clauses) | FrontModel | OpenSMT's lexer and parser (syntax trees are the input), argument sorts of declarations |
| transformers/BasicTransformationPipelines.cc, ChcInterpreter.cc (interpretCheckSat, doWorkAfterAnswer, printAnswer) | PipelineModel | several engines (PortfolioModel), printing as text |
| termination/Frontend.cc (parsing, clauses, run) | ItsModel, TermSystem, PipelineModel | options; sorts of locations other than Int (only asserted) |
| vmt/FrontEnd.cc | VmtModel, PropVmt, VmtLiveModel | other sorts, overflow of indices |
| Options.cc, rest of ChcInterpreter.cc, EngineFactory.cc, golem.cpp | OptionsModel (Options.cc), MainModel (golem.cpp); see the model comments | getopt_long |

## Disagreements between code and documentation found while proving

Each has a theorem with suffix `_refuted` (a concrete run of the model) unless marked (read).
* KIND, IMC, DAR, PD-kind, Spacer, TPA's Houdini, predicate abstraction and the nontermination checker can give a wrong verdict after
  an UNKNOWN solver answer (C18 and the theorems listed there).
* LAWI with forced covering is unsound (C15): interpolant masks off by one.
* TRL's witness is not inductive in general (C54); TPA basic reports a wrong number of steps (C55); TPA's shortcut for equal
  initial and query formulas ignores an empty initial set (C11).
* `isTransitionSystemDAG` accepts several loops at a vertex, the network manager follows the first: unsound SAFE (C58).
* `isTransitionSystem` ignores vertices not reachable from entry (C44).
* The single-loop transformation ignores direct entry-to-exit edges, makes "no query" a query, keeps auxiliary variables (C36); nested loops
  with overlapping cycles end in `out_of_range` (C37).
* `ChcDirectedGraph::reverse` does not exchange entry and exit (C41).
* The validator accepts cyclic derivations in release builds (C28) and never inspects the definition of `false` (C27).
* FalseClauseRemoval loses vertices (C32), SimpleChainSummarizer fails on an isolated trivial cycle (C33), NodeEliminator throws on vertices that
  lost all edges (C34), EdgeInliner keeps auxiliary variables of loops and may not end (C35).
* SymbolicExecution gives no definition to unreachable predicates (C17).
* Normalizer: a clause variable whose name is that of an instance variable is captured (C29); printed `let` names may capture (C52).
* Spacer's proof reconstruction may throw although the system is unsafe (C13); MBP's reserved name (C25).
* Alethe proofs: the "implies" step of an unquantified implication cites the wrong premise; nested conjunctions of predicates, a minus sign in front of a variable
  and predicates without arguments as facts give wrong or no proofs (C62); equalities of Reals written differently and of more than two terms are
  evaluated wrongly (C60); a let in a declaration may be expanded in the wrong scope (C61).
* (read) the intermediate proof format and `getInstPairs` look up constants of variables that simplification may have removed.
* Portfolio: if all engines answer UNKNOWN nothing is printed; a failing `fork()` leads to `kill(-1, SIGKILL)`; a winner that crashes after the compare-and-swap
  loses the answer; lines not yet flushed are repeated by the children (C63); LANonLinearException in a child prints a second answer (C64).
* Front end: a quantified Boolean variable with the name of a nullary predicate is taken for the predicate (C65); assertions without predicates, even `false`, are
  rejected as not Horn; predicates inside predicate arguments and predicates declared before a second set-logic pass unnoticed (C66).
* The printed model can lack a predicate all of whose clauses have a constraint that simplifies to false; golem's own validation then rejects it (C69).
* Termination front end: if preprocessing removes every edge from the entry, the single-loop transformation reads an empty vector and undefined maps (the right answer
  would be YES); if a self-loop that cannot be reached survives (removal of false clauses runs after removal of unreachable nodes), `toTransitionSystem`
  throws an exception that nothing catches (C72).
* ITS front end: the quantifier of `exists` is dropped, so a bound name that is used elsewhere in the rule is captured; a number as an argument of a location becomes a
  variable named like the number (C71).
* ReachabilityNonterm gives wrong answers when the initial formula shares an auxiliary variable with the transition formula (C48); the front end never builds
  such a system (TermNames). It answers NO for systems without initial states, before it looks at the initial formula: for a system whose first step is
  impossible `--termination-backend nontermination-via-safety` prints NO, the step counter prints YES, and the portfolio prints either (C73).
* Nested loops with overlapping cycles: translateErrorPath looks for the location among the vertices of the input only, so `std::find_if` returns the end iterator,
  which is dereferenced in release builds (C76). With `--simplify-nested` and no witness requested, TPA.cc 62-73 passes a `NoWitness` to `translate`,
  which calls `getValidityWitness`/`getInvalidityWitness` on it: `std::bad_variant_access`; the option also accepts graphs with vertices without a loop, on which the
  network manager throws `std::bad_optional_access` (C77).
* Command line: `--tpa.use-qe=no` switches the quantifier elimination on, and `--verbose` without a number passes a null pointer to `atoi` (C78).
* Detection of the logic: QF_ALRA is detected but not accepted; declarations after the first assertion are ignored, so a script can be read in QF_LIA although
  it uses Real (C79).
* VMT liveness (C75): state variables of the file are versioned by the text of their names (TermUtils.h 221-232), so an ordinary name such as `x` ends in an exception of
  std::stoi, and declared next-state variables that are not called v##1 for v##0 are ignored (then the answer can be wrong). The step counter counts the states in which p
  holds, so "valid" means FG not p; VMT-LIB defines :live-property p as FG p (the names transitionWithSignalFalse/True in StepCounter.cc 45-46 are exchanged as well).
* VMT front end: a definition whose body is a name or a numeral is refused with an exception, and the only invariant property of a file is looked up at index 0, so
  that any other index ends in `out_of_range` (C74). (read) `assert` commands are ignored; the exception for nonlinear terms is raised while parsing, outside of the
  block that catches it.

## Tests against wrong programs

`seeded/LOG.jsonl` records seeded bugs: the definition edited, the edit, the claim it breaks, the theorems that failed, and the theorems that had
to be tightened because the first version survived.
