{"id": "C01", "title": "IDE results over-approximate every valid path", "statement": "After a completed solve, for every interprocedurally valid path of the exploded super-graph that starts at a seed placed on a function start point (calls and returns matched, special summaries and call-to-return edges taken as offered by the problem) and whose value never becomes top on the way, the value obtained by applying the edge functions along the path is <= (in the join order) resultAt(n,d) for the end (n,d) of the path. This holds although extend/combine may over-approximate.", "quantifier": "for all ICFGs, flow/edge functions, seeds, recursion depths and path lengths, all worklist orders, all monotone edge functions whose extend/combine are sound", "why_tests_cant": "There are infinitely many programs and, with recursion and loops, infinitely many valid paths per program; tests sample a few programs with one deterministic worklist order.", "anchors": ["include/phasar/DataFlow/IfdsIde/Solver/IDESolver.h: processCall, processExit, processNormalFlow, propagate, propagateValueAtStart, propagateValueAtCall, valueComputationTask"]}
{"id": "C02", "title": "IDE results are exactly the join over all valid paths for distributive problems", "statement": "If edge functions distribute over join and extend/combine are exact, then after a completed solve (without followReturnsPastSeeds, no special summaries, single start point per function) every stored resultAt(n,d) equals a finite join of values of valid paths ending in (n,d); together with C01 it is the least upper bound (meet-over-all-valid-paths solution). No value is invented by infeasible (unbalanced) paths.", "quantifier": "for all ICFGs, distributive problems, seeds and worklist orders", "why_tests_cant": "Precision is a statement about the absence of any spurious flow in any program; a test can only show that particular spurious facts are absent in particular programs.", "anchors": ["include/phasar/DataFlow/IfdsIde/Solver/IDESolver.h: processCall, processExit, propagate, computeValues"]}
{"id": "C03", "title": "Jump functions summarise same-level paths soundly and exactly", "statement": "When the worklist is empty, for every same-level valid path from (start,d1) of a reachable fact to (n,d2) there is a jump function (d1,n,d2) at least as large as the composition along the path, and (for exact distributive edge functions) every stored jump function is a finite join of such compositions.", "quantifier": "for all problems, all reachable solver states with an empty worklist, all worklist orders", "why_tests_cant": "Quantifies over unboundedly many paths and over all schedules of the tabulation worklist.", "anchors": ["include/phasar/DataFlow/IfdsIde/Solver/IDESolver.h: processCall, processExit, processNormalFlow, propagate, submitInitialSeeds"]}
{"id": "C04", "title": "The result does not depend on the processing order", "statement": "Two runs of the solver on the same problem that pop worklist items in different orders (e.g. because std::map/unordered_map over pointers iterate differently) and both finish have the same jump-function keys, pointwise equal jump functions and equal result values (followReturnsPastSeeds off).", "quantifier": "for all problems with exact distributive edge functions and all pairs of schedules", "why_tests_cant": "The iteration order depends on heap addresses and ASLR; a test run sees one order. The number of orders is exponential.", "anchors": ["include/phasar/DataFlow/IfdsIde/Solver/IDESolver.h: doNext, propagate", "include/phasar/DataFlow/IfdsIde/InitialSeeds.h: InitialSeeds::getSeeds"]}
{"id": "C05", "title": "The solver terminates on finite problems of finite height", "statement": "If the facts and nodes reachable are finite and edge functions (resp. values) have bounded ascending chains under combine (resp. join), then every schedule of phase I and of phase II reaches an empty worklist; the solver cannot run forever.", "quantifier": "for all finite problems with finite-height function and value lattices, all schedules", "why_tests_cant": "Non-termination cannot be observed by a test, only time-outs; and a bound must hold for all graphs including recursion.", "anchors": ["include/phasar/DataFlow/IfdsIde/Solver/IDESolver.h: doNext, propagate, propagateValue, computeValues"]}
{"id": "C06", "title": "Interrupting and resuming does not change the outcome", "statement": "Calling solve() gives the same final state as initialize(), then any sequence of next()/nextN(k)/solveUntil-with-callback/continueSolving calls whose total number of steps exhausts the work, then finalize(). A cancelled run keeps exactly the state after some number of steps.", "quantifier": "for all problems, all split points, all cancellation callbacks and all step counts", "why_tests_cant": "Cancellation points depend on wall-clock time or another thread; tests hit a handful of points.", "anchors": ["include/phasar/DataFlow/IfdsIde/Solver/IDESolverAPIMixin.h: next, nextN, solve, continueSolving, solveUntil, continueUntil, solveWithTimeout, solveWithAsyncCancellation"]}
{"id": "C07", "title": "A cancelled solve can always be continued", "statement": "Whenever solveUntil/solveWithTimeout/solveWithAsyncCancellation report cancellation (nullopt), calling continueSolving() on the solver, as documented, is well defined (never steps on an empty worklist).", "quantifier": "for all problems and all cancellation callbacks/timings", "why_tests_cant": "The failing schedule (cancellation requested exactly when the worklist ran empty) is a timing window tests do not hit.", "anchors": ["include/phasar/DataFlow/IfdsIde/Solver/IDESolverAPIMixin.h: continueUntilImpl, solveUntilImpl, continueImpl", "include/phasar/DataFlow/IfdsIde/Solver/IDESolver.h: doNext"]}
{"id": "C08", "title": "Time-limited solving makes progress", "statement": "solveUntil/solveWithTimeout with an interval and a callback that never cancels eventually finishes exactly when solve() does: each round of the adaptive loop processes at least one work item.", "quantifier": "for all intervals and all measured round durations", "why_tests_cant": "Depends on measured durations; slow machines or zero intervals are not covered by tests.", "anchors": ["include/phasar/DataFlow/IfdsIde/Solver/IDESolverAPIMixin.h: continueUntilImpl"]}
{"id": "C09", "title": "Seeds are honoured wherever they are placed", "statement": "A seed (n0,d0,v0) added through InitialSeeds at any instruction, not only at a function's first instruction, contributes v0 transformed along every valid path to the results of later instructions.", "quantifier": "for all programs and seed positions", "why_tests_cant": "The API accepts any instruction; only few positions are exercised by tests.", "anchors": ["include/phasar/DataFlow/IfdsIde/Solver/IDESolver.h: submitInitialValues, valueComputationTask", "include/phasar/DataFlow/IfdsIde/InitialSeeds.h: addSeed"]}
{"id": "C10", "title": "followReturnsPastSeeds is deterministic", "statement": "With followReturnsPastSeeds enabled, the set of facts reported does not depend on the order in which seeds/work items are processed.", "quantifier": "for all problems and schedules", "why_tests_cant": "Seeds are kept in a std::map keyed by pointers, so the order varies between process runs.", "anchors": ["include/phasar/DataFlow/IfdsIde/Solver/IDESolver.h: processExit, propagteUnbalancedReturnFlow"]}
{"id": "C11", "title": "IFDS reports exactly the facts reachable over valid paths", "statement": "For an IFDS problem (binary value domain, identity edge functions), ifdsResultsAt(n) contains d iff there is a valid path from a seed to (n,d) (for seeds at start points).", "quantifier": "for all IFDS problems and schedules", "why_tests_cant": "Both inclusion directions quantify over all paths/programs.", "anchors": ["include/phasar/DataFlow/IfdsIde/Solver/IFDSSolver.h: ifdsResultsAt", "include/phasar/DataFlow/IfdsIde/IFDSTabulationProblem.h", "include/phasar/Domain/BinaryDomain.h: join", "include/phasar/DataFlow/IfdsIde/Solver/IDESolver.h"]}
{"id": "C12", "title": "The three jump-function views agree", "statement": "After any sequence of addFunction/removeFunction/clear calls, forwardLookup, reverseLookup and lookupByTarget present the same finite map (d1,n,d2) -> edge function, namely the last function added and not removed.", "quantifier": "for all operation sequences", "why_tests_cant": "Consistency of redundant indices must hold for every history of operations.", "anchors": ["include/phasar/DataFlow/IfdsIde/Solver/JumpFunctions.h: addFunction, removeFunction, forwardLookup, reverseLookup, lookupByTarget, clear"]}
{"id": "C13", "title": "Composition of the built-in edge functions", "statement": "compose(f,g)(x) equals g(f(x)) for EdgeIdentity, ConstantEdgeFunction, EdgeFunctionComposer, JoinEdgeFunction and arbitrary nestings of them; for AllTop/AllBottom as first function it is an over-approximation g(f(x)) <= compose(f,g)(x) for monotone g.", "quantifier": "for all edge functions built from the library's constructors over any join lattice, all arguments", "why_tests_cant": "Nested compositions form an unbounded syntax; the lattice is a template parameter.", "anchors": ["include/phasar/DataFlow/IfdsIde/EdgeFunctionUtils.h: EdgeIdentity, AllTop, AllBottom, ConstantEdgeFunction, EdgeFunctionComposer, JoinEdgeFunction, defaultComposeOrNull", "include/phasar/DataFlow/IfdsIde/EdgeFunction.h: composeWith"]}
{"id": "C14", "title": "Join of the built-in edge functions is an upper bound", "statement": "joinWith(f,g)(x) is an upper bound of f(x) and g(x) for all library edge functions, and joining a stored function again with something it already covers by equality returns an equal function, so the solver's change detection stabilises.", "quantifier": "for all edge functions built from the library's constructors, all arguments, any limit N of JoinEdgeFunction", "why_tests_cant": "Unbounded syntax and a template lattice.", "anchors": ["include/phasar/DataFlow/IfdsIde/EdgeFunctionUtils.h: joins, defaultJoinOrNull, JoinEdgeFunction::create", "include/phasar/DataFlow/IfdsIde/EdgeFunction.h: joinWith"]}
{"id": "C15", "title": "LatticeDomain and BinaryDomain are join semilattices", "statement": "join is commutative, associative, idempotent, has top as unit and bottom as absorbing element, and operator== / operator< are consistent (== an equivalence, < a strict order compatible with it), for LatticeDomain over any value type with decidable equality/order and for BinaryDomain.", "quantifier": "for all value types and values", "why_tests_cant": "Template over arbitrary value types.", "anchors": ["include/phasar/Domain/LatticeDomain.h: operator==, operator<, JoinLatticeTraits<LatticeDomain>::join", "include/phasar/Domain/BinaryDomain.h"]}
{"id": "C16", "title": "Flow-function combinators mean what their documentation says", "statement": "For every fact x, the target sets computed by identityFlow, generateFlow(If), generateManyFlows, killFlow(If), killManyFlows, killAllFlows, generateFlowAndKillAllOthers, generateManyFlowsAndKillAllOthers, transferFlow, unionFlows, Compose, Union and the zero-preserving wrapper are exactly the documented sets; all are distributive by construction; zero is preserved by the wrapper.", "quantifier": "for all facts, sets and sub-functions", "why_tests_cant": "Facts are a template parameter and the combinators nest arbitrarily.", "anchors": ["include/phasar/DataFlow/IfdsIde/FlowFunctions.h"]}
{"id": "C17", "title": "Flow/edge-function caching is transparent", "statement": "With FlowEdgeFunctionCache in front, every query returns the function the problem itself would return for that query (wrapped to keep zero iff autoAddZero), for any sequence of queries; key packing never conflates two different queries.", "quantifier": "for all query sequences of pure problems with fewer than 2^32 nodes/facts", "why_tests_cant": "Aliasing of packed 64-bit keys and stale entries can only appear for particular histories.", "anchors": ["include/phasar/DataFlow/IfdsIde/Solver/FlowEdgeFunctionCache.h"]}
{"id": "C18", "title": "EquivalenceClassMap behaves as a map", "statement": "After any sequence of insertions, find(k)/count(k) return the value under which k was (first) inserted, and keys with equal values share one class.", "quantifier": "for all insertion sequences", "why_tests_cant": "History dependent.", "anchors": ["include/phasar/Utils/EquivalenceClassMap.h"]}
{"id": "C19", "title": "BitVectorSet is a set", "statement": "After any sequence of insert/erase/clear/union/intersection on any number of BitVectorSet objects sharing the global position map, membership, size, emptiness, iteration, equality, inclusion and ordering agree with finite sets of values.", "quantifier": "for all operation histories over all objects of one element type", "why_tests_cant": "The position map is global, so behaviour depends on the history of all sets in the process.", "anchors": ["include/phasar/Utils/BitVectorSet.h"]}
{"id": "C20", "title": "Equal BitVectorSets hash equally", "statement": "If two BitVectorSets compare equal then hash_value returns the same hash.", "quantifier": "for all pairs of reachable sets", "why_tests_cant": "Only particular histories (erase back to empty) break it.", "anchors": ["include/phasar/Utils/BitVectorSet.h: operator==, hash_value"]}
{"id": "C21", "title": "StableVector is a sequence with stable references", "statement": "For any sequence of emplace_back/pop_back/pop_back_n/clear/reserve-like growth, StableVector has the same content, indices, size, front/back and iteration order as an ordinary sequence, and an element's address never changes while it stays in the container; distinct live indices have distinct addresses.", "quantifier": "for all operation sequences and indices", "why_tests_cant": "Block boundaries lie at every power of two; index arithmetic must hold for all indices.", "anchors": ["include/phasar/Utils/StableVector.h"]}
{"id": "C22", "title": "StableVector::shrink_to_fit keeps the vector usable", "statement": "After any history, shrink_to_fit followed by any further operations never touches freed memory and keeps the content.", "quantifier": "for all operation sequences", "why_tests_cant": "Needs the specific history clear + shrink on a multi-block vector.", "anchors": ["include/phasar/Utils/StableVector.h: shrink_to_fit, clear, emplace_back"]}
{"id": "C23", "title": "DFA minimisation preserves the labelled paths", "statement": "minimizeGraph merges only equivalent states: from every surviving entry the set of label sequences readable equals that in the input graph.", "quantifier": "for all finite graphs including cyclic ones", "why_tests_cant": "All graphs, unbounded path lengths.", "anchors": ["include/phasar/Utils/DFAMinimizer.h: minimizeGraph, createEquivalentGraphFrom"]}
{"id": "C24", "title": "Call strings are k-limited", "statement": "After any sequence of push_back/pop_back on CallStringCTX<N,K> with K>=1, the length is <= K and the content is the most recent unreturned call sites, i.e. the last min(K,..) pushes still visible; equality is equality of content.", "quantifier": "for all operation sequences and all K>=1", "why_tests_cant": "Unbounded recursion depth.", "anchors": ["include/phasar/DataFlow/Mono/Contexts/CallStringCTX.h"]}
{"id": "C25", "title": "The intra-procedural monotone solver computes a fixed point above all paths", "statement": "When IntraMonoSolver's worklist is empty, the result satisfies the data-flow equations on every edge and includes the join over all CFG paths from the seeds (for seeds at nodes without predecessors); for distributive problems it is the least such solution; with finite height it terminates.", "quantifier": "for all CFGs, monotone problems and schedules", "why_tests_cant": "All graphs/paths.", "anchors": ["include/phasar/DataFlow/Mono/Solver/IntraMonoSolver.h"]}
{"id": "C26", "title": "The inter-procedural monotone solver covers every callee", "statement": "InterMonoSolver propagates facts into every possible callee of a call site and merges the contributions of all call sites with the same context.", "quantifier": "for all call graphs", "why_tests_cant": "Depends on callee order (declarations first).", "anchors": ["include/phasar/DataFlow/Mono/Solver/InterMonoSolver.h: addCalleesToWorklist, processCall, processExit"]}
{"id": "C27", "title": "Linear constant propagation folds arithmetic as LLVM does", "statement": "Whenever the constant propagation's binary-operation edge function yields a constant for an instruction on constant operands, the constant is the value LLVM's semantics gives; otherwise bottom.", "quantifier": "for all opcodes, bit-widths and operand values", "why_tests_cant": "2^128 operand pairs per opcode and several widths.", "anchors": ["lib/PhasarLLVM/DataFlow/IfdsIde/Problems/IDELinearConstantAnalysis.cpp: executeBinOperation, BinOp"]}
{"id": "C28", "title": "Generalized LCA value arithmetic is sound", "statement": "EdgeValue arithmetic on concrete integers yields the concrete result or top; set-lifted operations contain every pairwise result.", "quantifier": "for all values and value sets", "why_tests_cant": "Infinite value space.", "anchors": ["lib/PhasarLLVM/DataFlow/IfdsIde/Problems/IDEGeneralizedLCA/EdgeValue.cpp: operator+,-,*,..., performBinOp"]}
{"id": "C29", "title": "Bounded value sets form a join semilattice", "statement": "The bounded-set join used by the generalized LCA (sets with at most MaxSize elements, else top) is commutative, associative, idempotent, has the empty set as unit and the top set as absorbing element, and over-approximates union.", "quantifier": "for all sets and all MaxSize", "why_tests_cant": "All sets and bounds.", "anchors": ["lib/PhasarLLVM/DataFlow/IfdsIde/Problems/IDEGeneralizedLCA/EdgeValue.cpp: join", "include/phasar/PhasarLLVM/DataFlow/IfdsIde/Problems/IDEGeneralizedLCA/EdgeValueSet.h"]}
{"id": "C30", "title": "Sanitizer positions join symmetrically", "statement": "The extended taint analysis' edge-domain join is commutative, idempotent, and treats 'not sanitized' as absorbing; joining never claims sanitization at a point that does not follow both sanitizers.", "quantifier": "for all functions/CFGs and sanitizer positions", "why_tests_cant": "All control-flow graphs.", "anchors": ["lib/PhasarLLVM/DataFlow/IfdsIde/Problems/ExtendedTaintAnalysis/EdgeDomain.cpp: join"]}
{"id": "C31", "title": "Type-state edge functions run the protocol automaton", "statement": "Applying the composed type-state edge functions along a sequence of API calls yields exactly the state of the described automaton; table look-ups never leave the table; an error state is never left except where the table says so.", "quantifier": "for all call sequences and starting states of all shipped descriptions", "why_tests_cant": "Unbounded call sequences.", "anchors": ["include/phasar/PhasarLLVM/DataFlow/IfdsIde/Problems/IDETypeStateAnalysis.h: TSEdgeFunction, TSEdgeFunctionComposer, TSConstant", "lib/PhasarLLVM/DataFlow/IfdsIde/Problems/TypeStateDescriptions/"]}
{"id": "C32", "title": "Instruction-interaction edge functions obey the edge-function laws", "statement": "For kill/replace and add-labels edge functions, extend is composition and combine is an upper bound of both arguments.", "quantifier": "for all label sets and function pairs", "why_tests_cant": "Infinite function space.", "anchors": ["include/phasar/PhasarLLVM/DataFlow/IfdsIde/Problems/IDEInstInteractionAnalysis.h: extend, combine, IIAAKillOrReplaceEF, IIAAAddLabelsEF"]}
{"id": "C33", "title": "Call-graph queries are mutually inverse", "statement": "After any sequence of builder operations, cs is in getCallersOf(f) exactly as often as f is in getCalleesOfCallAt(cs); addFunctionVertex/addInstructionVertex never lose edges.", "quantifier": "for all builder histories", "why_tests_cant": "All histories.", "anchors": ["include/phasar/ControlFlow/CallGraph.h: CallGraph, CallGraphBuilder"]}
{"id": "C34", "title": "Call graphs survive JSON serialisation", "statement": "Deserialising the JSON of a call graph, with id look-ups inverse to the id printers, yields a graph with the same edges.", "quantifier": "for all call graphs", "why_tests_cant": "All graphs.", "anchors": ["include/phasar/ControlFlow/CallGraph.h: printAsJson, deserialize"]}
{"id": "C35", "title": "The call-graph builder covers everything reachable", "statement": "The built call graph contains, for every function transitively reachable from the entry points and every call site in it, an edge to every target its resolver reports; functions are processed once and edges are not duplicated.", "quantifier": "for all modules and resolvers (monotone)", "why_tests_cant": "All modules/resolver behaviours.", "anchors": ["lib/PhasarLLVM/ControlFlow/LLVMBasedCallGraphBuilder.cpp"]}
{"id": "C36", "title": "Alias sets are equivalence classes", "statement": "After any sequence of addSingletonAliasSet/introduceAlias operations the alias query is an equivalence relation: exactly the one generated by the introduced pairs, and getAliasSet(v) is exactly v's class.", "quantifier": "for all operation histories", "why_tests_cant": "Union-by-size with shared boxes; all histories.", "anchors": ["lib/PhasarLLVM/Pointer/LLVMAliasSet.cpp: addSingletonAliasSet, mergeAliasSets, introduceAlias, alias, getAliasSet", "include/phasar/Pointer/AliasSetOwner.h"]}
{"id": "C37", "title": "Alias-set ownership is memory safe", "statement": "No operation sequence releases an alias set twice, or leaves a value referring to a released set.", "quantifier": "for all operation histories", "why_tests_cant": "All histories.", "anchors": ["include/phasar/Pointer/AliasSetOwner.h: acquire, release", "lib/PhasarLLVM/Pointer/LLVMAliasSet.cpp: mergeAliasSets"]}
{"id": "C38", "title": "Merging two alias analyses keeps an equivalence relation", "statement": "mergeWith(Other) yields an alias relation that is symmetric and transitive and contains both relations.", "quantifier": "for all pairs of alias informations", "why_tests_cant": "Overlap patterns of partitions.", "anchors": ["lib/PhasarLLVM/Pointer/LLVMAliasSet.cpp: mergeWith"]}
{"id": "C39", "title": "Sub-type queries are the reflexive transitive closure", "statement": "getSubTypes(T)/isSubType return exactly the types reachable from T in the sub-class graph, before and after JSON (de)serialisation.", "quantifier": "for all class hierarchies", "why_tests_cant": "All hierarchies.", "anchors": ["lib/PhasarLLVM/TypeHierarchy/LLVMTypeHierarchy.cpp"]}
{"id": "C40", "title": "RTA never resolves more than CHA; both cover the vtable target", "statement": "For every virtual call, RTA's targets are a subset of CHA's, CHA's targets contain the vtable entry of every subtype of the receiver, and RTA falls back to CHA rather than dropping all targets.", "quantifier": "for all hierarchies, vtables and allocation sets", "why_tests_cant": "All hierarchies.", "anchors": ["lib/PhasarLLVM/ControlFlow/Resolver/CHAResolver.cpp", "lib/PhasarLLVM/ControlFlow/Resolver/RTAResolver.cpp"]}
{"id": "C41", "title": "Generic helper functions meet their contracts", "statement": "computePowerSet returns all subsets; remove_by_index removes exactly the given positions; intersectWith computes the intersection; StringIDLess is a strict weak order that separates different ids.", "quantifier": "for all inputs", "why_tests_cant": "All inputs.", "anchors": ["include/phasar/Utils/Utilities.h", "lib/Utils/Utilities.cpp"]}
{"id": "C42", "title": "MaybeUniquePtr frees owned objects exactly once", "statement": "In any sequence of construct/move/assign/reset/release/assumeOwnership operations on any number of MaybeUniquePtr objects, every object whose ownership was taken is deleted exactly once after all pointers are destroyed and not released, and unowned objects are never deleted.", "quantifier": "for all operation sequences respecting unique initial ownership", "why_tests_cant": "All histories.", "anchors": ["include/phasar/Utils/MaybeUniquePtr.h"]}
{"id": "C43", "title": "Entry points select exactly the requested start instructions", "statement": "Seeds created from entry points cover exactly the start points of the named, defined functions (all functions for __ALL__), unknown names are ignored, and re-adding a seed keeps one entry per fact.", "quantifier": "for all modules and name lists", "why_tests_cant": "All modules.", "anchors": ["include/phasar/DataFlow/IfdsIde/EntryPointUtils.h", "include/phasar/DataFlow/IfdsIde/InitialSeeds.h", "include/phasar/DataFlow/IfdsIde/IDETabulationProblem.h: createDefaultSeeds"]}
{"id": "C44", "title": "Table is a two-key map", "statement": "After any sequence of insert/remove/clear, get/contains/row/column/cellSet/containsRow/containsColumn of Table agree with a finite map from (row,column) pairs.", "quantifier": "for all operation sequences", "why_tests_cant": "All histories.", "anchors": ["include/phasar/Utils/Table.h"]}
{"id": "C45", "title": "Result queries do not lose or invent facts", "statement": "resultsAt(n,strip) returns exactly the stored row of n, without the zero fact when stripping; resultAt agrees with resultsAt; a fact that was never computed is reported as the domain's default value.", "quantifier": "for all value tables", "why_tests_cant": "All tables.", "anchors": ["include/phasar/DataFlow/IfdsIde/SolverResults.h"]}
{"id": "C46", "title": "The forward CFG is the control flow of the function", "statement": "For valid IR, getSuccsOf(n) are exactly the instructions that can execute right after n (debug instructions left out when ignored), getPredsOf is its converse, getAllControlFlowEdges lists exactly these edges, the start point has no predecessor, exit points have no successors, and a successor for which isBranchTarget is false has a single predecessor, so the intra-procedural monotone solver is exact on LLVM functions.", "quantifier": "for all valid functions, instructions and both settings of IgnoreDbgInstructions", "why_tests_cant": "All control-flow graphs.", "anchors": ["lib/PhasarLLVM/ControlFlow/LLVMBasedCFG.cpp", "lib/PhasarLLVM/Utils/LLVMShorthands.cpp: getAllExitPoints"]}
{"id": "C47", "title": "The backward CFG is the converse of the forward CFG", "statement": "The backward successors of an instruction are its forward predecessors and vice versa, start and exit points swap, the artificial return follows exactly the instructions without predecessors, and getAllControlFlowEdges lists these edges.", "quantifier": "for all valid functions and instructions", "why_tests_cant": "All control-flow graphs.", "anchors": ["lib/PhasarLLVM/ControlFlow/LLVMBasedBackwardCFG.cpp"]}
{"id": "C48", "title": "The type graph of DTA holds exactly the reachable types", "statement": "After any sequence of addLink and getTypes calls, getTypes(t) is exactly the set of struct types reachable from t over the links added so far, queries do not influence later answers, and no call fails.", "quantifier": "for all sequences of links and queries, all orders of the in-edges, all struct types", "why_tests_cant": "All link sequences and cyclic graphs with incremental propagation.", "anchors": ["lib/PhasarLLVM/Pointer/TypeGraphs/CachedTypeGraph.cpp", "lib/PhasarLLVM/ControlFlow/Resolver/DTAResolver.cpp: otherInst"]}
{"id": "C49", "title": "EdgeFunction manages memory correctly and behaves like a value", "statement": "After any history of constructions (plain, in place, cached), copies, moves, assignments, swaps and destructions of EdgeFunctions, no dead object is accessed, each object's reference count is the number of EdgeFunctions referring to it, an object is alive iff a client EdgeFunction leads to it, the value of an EdgeFunction changes only when it is assigned itself, operator== is equality of class and value, and equal functions of one cache are one object; equal functions have equal hash codes and operator< is an order.", "quantifier": "for all histories of operations on any number of EdgeFunctions and caches, all concrete classes (small or not, with members or not), all equivalence-like operator==", "why_tests_cant": "Unbounded histories with sharing, nested members, cached and uncached objects; leaks and premature deletion depend on the whole history.", "anchors": ["include/phasar/DataFlow/IfdsIde/EdgeFunction.h: EdgeFunction", "include/phasar/DataFlow/IfdsIde/EdgeFunctionSingletonCache.h", "include/phasar/DataFlow/IfdsIde/DefaultEdgeFunctionSingletonCache.h"]}
{"id": "C50", "title": "Facts cross calls and stores as documented", "statement": "mapFactsAlongsideCallSite, mapFactsToCallee, mapFactsToCaller and strongUpdateStore map each data-flow fact to exactly the set given by their documented formulas (zero, globals, arguments, parameters, returned values, variadic arguments, stores), a fact passed into a parameter comes back to the argument, and the assertions fail only for calls with the wrong number of arguments.", "quantifier": "for all fact types, call sites, callees (declared or defined, variadic or not, with sret or not), predicates, flags and facts", "why_tests_cant": "Combinations of flags, predicates, argument overlap (globals as arguments, repeated arguments) and fact types; the analyses' tests use one combination each.", "anchors": ["include/phasar/PhasarLLVM/DataFlow/IfdsIde/LLVMFlowFunctions.h: mapFactsAlongsideCallSite", "include/phasar/PhasarLLVM/DataFlow/IfdsIde/LLVMFlowFunctions.h: mapFactsToCallee", "include/phasar/PhasarLLVM/DataFlow/IfdsIde/LLVMFlowFunctions.h: mapFactsToCaller", "include/phasar/PhasarLLVM/DataFlow/IfdsIde/LLVMFlowFunctions.h: strongUpdateStore"]}
{"id": "C51", "title": "Linear constant analysis reports only constants that the program computes", "statement": "If IDELinearConstantAnalysis reports a constant for an integer, a local or a global variable at an instruction, then it has that value whenever an execution of the program reaches the instruction; the analysis terminates on every program and never ends in report_fatal_error for a non-linear operation.", "quantifier": "for all programs of an LLVM-like IR (allocas, stores, loads, arithmetic, overflow intrinsics, calls with any number of callees, recursion, loops, globals), all executions, all complete runs of the solver", "why_tests_cant": "Relates infinitely many executions of infinitely many programs to the result of an inter-procedural fixed-point computation.", "anchors": ["lib/PhasarLLVM/DataFlow/IfdsIde/Problems/IDELinearConstantAnalysis.cpp: getNormalFlowFunction", "lib/PhasarLLVM/DataFlow/IfdsIde/Problems/IDELinearConstantAnalysis.cpp: getCallFlowFunction", "lib/PhasarLLVM/DataFlow/IfdsIde/Problems/IDELinearConstantAnalysis.cpp: getNormalEdgeFunction", "lib/PhasarLLVM/DataFlow/IfdsIde/Problems/IDELinearConstantAnalysis.cpp: initialSeeds"]}
{"id": "C52", "title": "Every use of an uninitialised variable is reported", "statement": "Whenever an execution of the program loads from a local variable that has no value yet, or computes with a value derived from one or from undef, then IFDSUninitializedVariables has a use of an undefined value recorded for that instruction; the analysis terminates on every program.", "quantifier": "for all programs of an LLVM-like IR (allocas, stores, loads, casts, phis, operations, direct and indirect calls, recursion, loops, globals), all executions, all complete runs of the solver", "why_tests_cant": "Relates infinitely many executions of infinitely many programs to the result of an inter-procedural fixed-point computation.", "anchors": ["lib/PhasarLLVM/DataFlow/IfdsIde/Problems/IFDSUninitializedVariables.cpp: getNormalFlowFunction", "lib/PhasarLLVM/DataFlow/IfdsIde/Problems/IFDSUninitializedVariables.cpp: getCallFlowFunction", "lib/PhasarLLVM/DataFlow/IfdsIde/Problems/IFDSUninitializedVariables.cpp: getRetFlowFunction", "lib/PhasarLLVM/DataFlow/IfdsIde/Problems/IFDSUninitializedVariables.cpp: getCallToRetFlowFunction"]}
{"id": "C53", "title": "Every leak of tainted data is reported", "statement": "Whenever an execution of the program passes data copied from a source to a sink parameter, directly or in a variable passed by address, IFDSTaintAnalysis reports that argument of that call; sanitized data is not reported; the analysis terminates on every program.", "quantifier": "for all programs of an LLVM-like IR, all taint configurations, alias sets and library summaries, all executions, all complete runs of the solver", "why_tests_cant": "Relates infinitely many executions of infinitely many programs under every configuration to the result of an inter-procedural fixed-point computation.", "anchors": ["lib/PhasarLLVM/DataFlow/IfdsIde/Problems/IFDSTaintAnalysis.cpp: getNormalFlowFunction", "lib/PhasarLLVM/DataFlow/IfdsIde/Problems/IFDSTaintAnalysis.cpp: getSummaryFlowFunction", "lib/PhasarLLVM/DataFlow/IfdsIde/Problems/IFDSTaintAnalysis.cpp: populateWithMayAliases", "include/phasar/PhasarLLVM/TaintConfig/TaintConfigUtilities.h: collectGeneratedFacts"]}
{"id": "C54", "title": "The exploded supergraph records the flows of the analysis", "statement": "After any sequence of saveEdges calls, every reported pair of instruction and fact is found in the graph and its node carries its fact; whatever can be traced back from it over predecessors and alternatives is a path of reported flows that starts at a seed (or at a call that zero was carried past); every reported flow is recorded; following predecessors from any node ends or meets a choice.", "quantifier": "for all sequences of saveEdges calls that a solver run makes, all instructions, facts and basic blocks", "why_tests_cant": "The node of a pair depends on the order in which the solver reports flows and on which earlier pairs were merged into one node; the sequences and program shapes are unbounded.", "anchors": ["include/phasar/DataFlow/PathSensitivity/ExplodedSuperGraph.h: saveEdge", "include/phasar/DataFlow/PathSensitivity/ExplodedSuperGraph.h: saveEdges", "include/phasar/DataFlow/PathSensitivity/ExplodedSuperGraph.h: getNodeOrNull", "include/phasar/DataFlow/IfdsIde/Solver/PathAwareIDESolver.h: saveEdges"]}
{"id": "C55", "title": "The graph of paths holds the traces back from an instruction", "statement": "pathsDagToAll ends; its result has no cycle; each path read in it is a trace through the exploded supergraph back from one of the queried facts, up to the configured depth; each trace that the filter admits is in it, and each queried fact that has a trace gets one; reversal (with and without maximal depth), minimisation and the cycle check are exact.", "quantifier": "for all exploded supergraphs, filters, query instructions, lists of facts, depth thresholds, with and without minimisation; for all graphs", "why_tests_cant": "The memoised depth-first search depends on the order of alternatives and on which nodes are in progress when another one is met; graphs, cycles, filters and the order of queries are unbounded.", "anchors": ["include/phasar/DataFlow/PathSensitivity/PathSensitivityManagerMixin.h: pathsDagToAll", "include/phasar/DataFlow/PathSensitivity/PathSensitivityManagerMixin.h: pathsToImplLAInvoke", "include/phasar/DataFlow/PathSensitivity/PathSensitivityManagerMixin.h: pathsToImplLA", "include/phasar/DataFlow/PathSensitivity/PathSensitivityManagerMixin.h: pathsToImpl", "include/phasar/DataFlow/PathSensitivity/PathSensitivityManagerBase.h: reverseDAG", "include/phasar/DataFlow/PathSensitivity/PathSensitivityManagerBase.h: assertIsDAG", "include/phasar/Utils/GraphTraits.h: reverseGraph"]}
{"id": "C56", "title": "Abstract memory locations stand for the pointers they are made for", "statement": "For every bound and every history of requests to an AbstractMemoryLocationFactory: no assertion fails, there is one object per location, offsets and lifetime stay within the bound; the location of a pointer covers the offsets and loads that lead to it from its base, exactly below the bound; locations derived by indirection, offsets and transfer into and out of a callee cover the derived accesses; equivalence, prefix, difference and must-alias agree with what the locations stand for; objects in the pool lie in their blocks and do not overlap.", "quantifier": "for all values built of loads, casts and getelementptrs over any base, all bounds, all histories of requests, all memories and environments, all numbers of allocations", "why_tests_cant": "Tests check a few leak reports; histories of requests, nestings of loads and offsets, bounds and memories are unbounded, and results depend on the order of requests.", "anchors": ["lib/PhasarLLVM/DataFlow/IfdsIde/Problems/ExtendedTaintAnalysis/AbstractMemoryLocationFactory.cpp: createImpl", "lib/PhasarLLVM/DataFlow/IfdsIde/Problems/ExtendedTaintAnalysis/AbstractMemoryLocationFactory.cpp: withTransferToImpl", "lib/PhasarLLVM/DataFlow/IfdsIde/Problems/ExtendedTaintAnalysis/AbstractMemoryLocationFactory.cpp: withTransferFromImpl", "lib/PhasarLLVM/DataFlow/IfdsIde/Problems/ExtendedTaintAnalysis/AbstractMemoryLocationFactory.cpp: withIndirectionOfImpl", "lib/PhasarLLVM/DataFlow/IfdsIde/Problems/ExtendedTaintAnalysis/AbstractMemoryLocationFactory.cpp: Allocator::create", "lib/PhasarLLVM/DataFlow/IfdsIde/Problems/ExtendedTaintAnalysis/AbstractMemoryLocation.cpp: mustAlias", "lib/PhasarLLVM/DataFlow/IfdsIde/Problems/ExtendedTaintAnalysis/AbstractMemoryLocation.cpp: isProperPrefixOf"]}
{"id": "C57", "title": "Path queries return exactly the realizable paths whose branch conditions can hold together", "statement": "For every acyclic path graph with one end, every set of edge constraints and every solver that meets its contract: filterOutUnreachableNodes removes no feasible path and returns the condition that some path is taken; filterAndFlattenRevDag enumerates the paths in which every return goes back to its call and whose constraints together with the additional one are satisfiable, without undefined behaviour; deduplicatePaths keeps one of each; pathsTo returns exactly these, each with the constraint under which it is taken, and at most as many as the threshold.", "quantifier": "for all path graphs (and all exploded supergraphs), branch constraints, solvers, additional constraints, call and return structures, thresholds", "why_tests_cant": "Tests run z3 on a few programs; the number of paths is exponential in the graph, and the incremental push/pop of solver, call stack and symbolic atoms has unboundedly many interleavings.", "anchors": ["lib/PhasarLLVM/DataFlow/PathSensitivity/Z3BasedPathSensitivityManager.cpp: filterOutUnreachableNodes", "lib/PhasarLLVM/DataFlow/PathSensitivity/Z3BasedPathSensitivityManager.cpp: CallStackPathFilter", "lib/PhasarLLVM/DataFlow/PathSensitivity/Z3BasedPathSensitivityManager.cpp: ConstraintPathFilter", "lib/PhasarLLVM/DataFlow/PathSensitivity/Z3BasedPathSensitivityManager.cpp: filterAndFlattenRevDag", "lib/PhasarLLVM/DataFlow/PathSensitivity/Z3BasedPathSensitivityManager.cpp: deduplicatePaths", "include/phasar/PhasarLLVM/DataFlow/PathSensitivity/Z3BasedPathSensitvityManager.h: pathsTo"]}
{"id": "C58", "title": "The constraint of a branch edge holds exactly if the branch takes the edge", "statement": "For every program, every conditional branch with a condition that is understood, and every execution in whose range unbounded integers are right: LLVMPathConstraints gives both edges a constraint that holds, under an assignment of the values read to the variables, exactly if the execution takes the edge; the memoisation table never changes a constraint; the variables listed are those that occur; hence an executed path in the path graph satisfies its constraints and is not dropped by the path filters.", "quantifier": "for all programs, conditions, executions, assignments, and histories of the table of expressions", "why_tests_cant": "Tests compare the numbers of paths of a few programs; which paths are wrongly dropped depends on values at run time (overflow, sign), on names and on the order in which edges are asked for.", "anchors": ["lib/PhasarLLVM/DataFlow/PathSensitivity/LLVMPathConstraints.cpp: internalGetConstraintAndVariablesFromEdge", "lib/PhasarLLVM/DataFlow/PathSensitivity/LLVMPathConstraints.cpp: handleCondBrInst", "lib/PhasarLLVM/DataFlow/PathSensitivity/LLVMPathConstraints.cpp: handleCmpInst", "lib/PhasarLLVM/DataFlow/PathSensitivity/LLVMPathConstraints.cpp: handleBinaryOperator", "lib/PhasarLLVM/DataFlow/PathSensitivity/LLVMPathConstraints.cpp: handlePhiInstruction", "lib/PhasarLLVM/DataFlow/PathSensitivity/LLVMPathConstraints.cpp: getLoadInstAsZ3"]}
{"id": "C59", "title": "The model of the C runtime calls constructors, entry point and destructors in their order", "statement": "For every module and every non-empty list of entry points, the function that GlobalCtorsDtorsModel::buildModel generates has, for each selected entry point, exactly one execution: all constructors of llvm.global_ctors by ascending priority (in list order for equal priorities), the entry point, and if that is main all destructors of llvm.global_dtors by descending priority and all destructors registered with __cxa_atexit, latest first; a selector that selects nothing has none. The entry points are the definitions of the names given, or with __ALL__ all definitions visible from outside.", "quantifier": "for all modules (lists of constructors, destructors, registrations), entry points and selectors", "why_tests_cant": "The tests build the model of a few small C++ programs with one or two globals; order of equal priorities, several entry points, local statics and parameters of entry points combine without bound.", "anchors": ["lib/PhasarLLVM/ControlFlow/GlobalCtorsDtorsModel.cpp: buildModel", "lib/PhasarLLVM/ControlFlow/GlobalCtorsDtorsModel.cpp: collectRegisteredDtorsForModule", "lib/PhasarLLVM/ControlFlow/GlobalCtorsDtorsModel.cpp: insertGlobalCtorsDtorsImpl", "lib/PhasarLLVM/ControlFlow/EntryFunctionUtils.cpp: getEntryFunctions"]}
{"id": "C60", "title": "Ids of instructions and global variables are positions in the program and can be read back", "statement": "For every module and every sequence of insertFunction calls for different functions, the tables IdToInst and InstToId of LLVMProjectIRDB are inverse to each other and number globals, then instructions in program order; getInstruction returns for every size_t id exactly the instruction with this id; metadata ids of a preprocessed module differ for different values and order values by position; fromMetaDataId(getMetaDataID(V)) is V.", "quantifier": "for all modules, inserted functions, values, 64-bit ids and id strings", "why_tests_cant": "Tests look up some instructions of small modules; names with dots, ids near 2^64, functions inserted later and strings from files are not covered.", "anchors": ["lib/PhasarLLVM/DB/LLVMProjectIRDB.cpp: preprocessModule", "lib/PhasarLLVM/DB/LLVMProjectIRDB.cpp: insertFunction", "lib/PhasarLLVM/DB/LLVMProjectIRDB.cpp: fromMetaDataId", "include/phasar/PhasarLLVM/DB/LLVMProjectIRDB.h: getInstructionImpl", "lib/PhasarLLVM/Utils/LLVMShorthands.cpp: getMetaDataID"]}
{"id": "C61", "title": "The type hierarchy of the debug information is the inheritance of the program", "statement": "For every module whose classes derive from complete classes, DIBasedTypeHierarchy terminates; isSubType/getSubTypes/subTypesOf give exactly the classes that derive from a class directly or indirectly (through typedefs too), the class itself first and once; getType finds classes by identifier; a slot of a virtual table holds the function that the debug information places there; writing the hierarchy to JSON and reading it back gives the same hierarchy.", "quantifier": "for all debug information (types, typedef chains, inheritance graphs including diamonds, virtual functions)", "why_tests_cant": "All inheritance graphs; ranges of shared sub-types are overwritten on every visit of the traversal, which is right only because of how visits nest.", "anchors": ["lib/PhasarLLVM/TypeHierarchy/DIBasedTypeHierarchy.cpp", "include/phasar/PhasarLLVM/TypeHierarchy/DIBasedTypeHierarchy.h"]}
{"id": "C62", "title": "A taint configuration marks what it describes", "statement": "A configuration is read back as it was written and unknown words are rejected; the source, sink and sanitizer values of a module are exactly the parameters, calls and variables that the configuration or the annotations describe; the values generated, leaked and sanitized at an instruction are exactly the operands for the marked parameters of the callee (plus what a callback names), and the boolean queries agree with them; the seeds are the source instructions and the first instructions of the functions with source parameters.", "quantifier": "for all configurations, modules, instructions, callees and callbacks", "why_tests_cant": "The tests cover a handful of configurations; the matching of names against debug information, struct members and users of functions depends on the whole module.", "anchors": ["lib/PhasarLLVM/TaintConfig/TaintConfigBase.cpp", "lib/PhasarLLVM/TaintConfig/LLVMTaintConfig.cpp", "lib/PhasarLLVM/Utils/Annotation.cpp"]}
{"id": "C63", "title": "Full constant propagation reports only values that variables have", "statement": "If the monotone full constant propagation ends with constant c for a value or stack variable after an instruction, then in every execution that value or variable is c after this instruction; merge keeps exactly what both sides agree on; at calls the parameters get exactly the known arguments and constants, and the call gets exactly the known returned value.", "quantifier": "for all functions, control-flow graphs, executions, arguments and containers", "why_tests_cant": "The tests compare a few programs with expected tables; that a constant holds in all executions, through joins and loops, is a statement about infinitely many of them.", "anchors": ["lib/PhasarLLVM/DataFlow/Mono/Problems/IntraMonoFullConstantPropagation.cpp", "lib/PhasarLLVM/DataFlow/Mono/Problems/InterMonoFullConstantPropagation.cpp", "include/phasar/DataFlow/Mono/Solver/IntraMonoSolver.h"]}
{"id": "C64", "title": "Resolution with alias information finds the functions that aliases of the called operand lead to", "statement": "For an indirect call the on-the-fly resolver returns exactly the functions with a fitting signature that are aliases of the called operand or are held by the (possibly cyclic) constants of the globals that the aliases name; the search ends; every called function is among them and no more than without alias information; for a virtual call it returns the entry of each aliased table at the index of the call; and exactly the pointers that a call hands over and returns become aliases.", "quantifier": "for all modules, alias sets, calls and targets", "why_tests_cant": "Tests have a few call sites; the constants of a module form an arbitrary graph and the alias sets are arbitrary.", "anchors": ["lib/PhasarLLVM/ControlFlow/Resolver/OTFResolver.cpp", "lib/PhasarLLVM/TypeHierarchy/LLVMVFTable.cpp", "lib/PhasarLLVM/ControlFlow/Resolver/Resolver.cpp"]}
{"id": "C65", "title": "The secure heap analysis reports exactly what the calls on the way to a statement say", "statement": "At every statement the fact INITIALIZED is reported iff CRYPTO_secure_malloc_init may have been called on the way, with value BOT iff CRYPTO_secure_malloc_done may have been called after it, and with value INITIALIZED otherwise; every execution in which the heap is on or has been shut down is described; the analysis terminates.", "quantifier": "for all programs, statements, executions, interprocedurally valid paths and orders of the solver's work items", "why_tests_cant": "Tests have a few programs; paths with recursion and loops are unbounded.", "anchors": ["lib/PhasarLLVM/DataFlow/IfdsIde/Problems/IDESecureHeapPropagation.cpp", "include/phasar/PhasarLLVM/DataFlow/IfdsIde/Problems/IDESecureHeapPropagation.h", "include/phasar/DataFlow/IfdsIde/EdgeFunctionUtils.h"]}
{"id": "C66", "title": "The constness analysis finds locations that are written by two statements", "statement": "A memory location that one execution writes by two different statements (stores or memory intrinsics) is a data-flow fact at every statement behind one of the two, and is not listed as immutable; a global variable is one behind any write; pointer parameters are mapped to arguments and back; if no two writes alias there are no facts; the analysis terminates.", "quantifier": "for all programs, executions, alias sets that cover the execution, and orders in which the solver asks for flow functions", "why_tests_cant": "The flow functions depend on a set that grows while the solver runs; tests see one order.", "anchors": ["lib/PhasarLLVM/DataFlow/IfdsIde/Problems/IFDSConstAnalysis.cpp", "include/phasar/PhasarLLVM/DataFlow/IfdsIde/Problems/IFDSConstAnalysis.h", "include/phasar/PhasarLLVM/DataFlow/IfdsIde/LLVMFlowFunctions.h", "lib/PhasarLLVM/Utils/LLVMShorthands.cpp"]}
{"id": "C67", "title": "The monotone uninitialised-variables analysis reports variables that no path initialises", "statement": "The solver ends on every function; a variable in the result after an instruction was allocated on every path to it without a store of an integer constant since, without loops exactly those variables are in the result, and no execution has given them a defined content.", "quantifier": "for all functions, control-flow graphs, paths, executions and fuel bounds", "why_tests_cant": "The merge is an intersection while the start is the empty set, so the end of the solver and the exactness depend on the shape of the graph; tests have a few graphs.", "anchors": ["lib/PhasarLLVM/DataFlow/Mono/Problems/IntraMonoUninitVariables.cpp", "include/phasar/DataFlow/Mono/Solver/IntraMonoSolver.h"]}
{"id": "C68", "title": "The monotone taint analysis follows tainted data to the sinks", "statement": "The flow functions pass on exactly the facts of copies, arguments, results, sources and sanitizers, they distribute over the merge, and when an execution gives tainted data to a sink then the facts that flow along its path record that leak.", "quantifier": "for all programs, taint configurations, call depths, paths and executions", "why_tests_cant": "Whether a taint survives depends on what each of the calls on the way generates, sanitizes and erases together; tests have a few short programs.", "anchors": ["lib/PhasarLLVM/DataFlow/Mono/Problems/InterMonoTaintAnalysis.cpp", "include/phasar/PhasarLLVM/TaintConfig/TaintConfigUtilities.h"]}
{"id": "C69", "title": "Library summaries answer with what they were given", "statement": "After any sequence of insertSet, addElement and lookups, a lookup gives the facts that were inserted for the function and parameter and nothing for others; readFromFDFF keeps exactly the facts of the functions of the program; the summaries of the C library have the flows of the copying functions.", "quantifier": "for all histories of calls, functions, parameters, name resolutions and iteration orders", "why_tests_cant": "Tests look up parameters they have inserted before; the order of lookups and insertions and the parameters that were never inserted are not tried, and the summary has 771 hand-written entries.", "anchors": ["include/phasar/PhasarLLVM/DataFlow/IfdsIde/FunctionDataFlowFacts.h", "include/phasar/PhasarLLVM/DataFlow/IfdsIde/LLVMFunctionDataFlowFacts.h", "lib/PhasarLLVM/DataFlow/IfdsIde/LLVMFunctionDataFlowFacts.cpp", "lib/PhasarLLVM/DataFlow/IfdsIde/LibCSummary.cpp"]}
{"id": "C70", "title": "Performance measurements follow the history of calls", "statement": "After any sequence of timer, counter and histogram calls that does not abort, a timer reports the time since its start or between its start and stop, a repeating timer its paused intervals in order, a counter its initial value and what was added, a data point the sum of what was added; stopping all timers ends and leaves none running; stopping a timer is never undefined; the printed parts of a duration recompose it.", "quantifier": "for all histories of calls, ids, clock readings, values and both build modes (with and without asserts)", "why_tests_cant": "Tests run in one build mode and with a few well-ordered calls; misuse of a timer is only visible when asserts are compiled out.", "anchors": ["lib/Utils/PAMM.cpp", "include/phasar/Utils/PAMM.h", "include/phasar/Utils/ChronoUtils.h"]}
{"id": "C71", "title": "Enumerators are read back from their names", "statement": "For every enumeration with names, reading the printed name of an enumerator gives this enumerator, a string is parsed as an enumerator exactly if it is its name or its command-line flag, and any other string gives the invalid value.", "quantifier": "for all enumerations, enumerators and strings", "why_tests_cant": "The functions are generated by macros from included lists; no test reads back all enumerators, and the set of other strings is infinite.", "anchors": ["lib/Pointer/AliasResult.cpp", "lib/Utils/Soundness.cpp", "lib/ControlFlow/CallGraphAnalysisType.cpp", "lib/Pointer/AliasAnalysisType.cpp", "lib/PhasarLLVM/Utils/DataFlowAnalysisType.cpp", "lib/AnalysisStrategy/Strategies.cpp", "lib/ControlFlow/SpecialMemberFunctionType.cpp", "lib/Utils/Logger.cpp"]}
