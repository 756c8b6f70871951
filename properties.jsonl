{"id": "C01", "title": "DisjointSet find/merge is exactly the equivalence generated by the history", "statement": "After any sequence of insert/find/find_or_insert/merge calls (arguments of find and merge having been inserted), find(a) and find(b) return the same set iff a and b are connected by the merge calls made so far; every call terminates.", "quantifier": "every element type, every finite sequence of operations, every pair of elements", "why_tests_cant": "the answer depends on the whole history of merges and on internal path shortening done by earlier finds; tests sample a few histories", "anchors": ["jlm/util/disjointset.hpp: DisjointSet::find, merge, insert, find_or_insert, Set::root"]}
{"id": "C02", "title": "DisjointSet member iteration, sizes and representative iteration are exact", "statement": "In every reachable DisjointSet, iterating a set from its representative visits every member of its class exactly once and terminates, nmembers() is the class size, nvalues()/nsets() count elements/classes and begin()..end() yields exactly one representative per class.", "quantifier": "every reachable state, every class", "why_tests_cant": "the circular member lists are spliced at every merge; a broken splice shows only for particular histories", "anchors": ["jlm/util/disjointset.hpp: MemberIterator, Set::begin, nmembers, DisjointSet::nsets, nvalues, merge"]}
{"id": "C03", "title": "HashSet operations implement finite-set algebra", "statement": "insert, Remove, Contains, UnionWith, IntersectWith, DifferenceWith, RemoveWhere, UnionWithAndClear, IntersectWithAndClear and operator== compute the mathematical set operation, their boolean/size results say whether/how much the set changed, and *AndClear leaves the argument empty.", "quantifier": "all pairs of sets, all predicates", "why_tests_cant": "all pairs of sets; size dependent branches (swap, loop direction)", "anchors": ["jlm/util/HashSet.hpp: HashSet"]}
{"id": "C04", "title": "HashSet::IsSubsetOf decides inclusion", "statement": "a.IsSubsetOf(b) returns true iff every item of a is in b.", "quantifier": "all pairs of sets", "why_tests_cant": "holds for all pairs of sets of any size", "anchors": ["jlm/util/HashSet.hpp: HashSet::IsSubsetOf"]}
{"id": "C05", "title": "BijectiveMap stays bijective", "statement": "After any sequence of Insert/InsertPairs/InsertOrThrow/RemoveKey/RemoveValue/Erase/RemoveWhere/Clear, LookupKey(k)=v iff LookupValue(v)=k, Insert succeeds iff neither key nor value is present, failed operations change nothing, and Size() counts the pairs.", "quantifier": "all key/value types, all operation sequences", "why_tests_cant": "two independent hash maps must be kept mutually inverse along every history", "anchors": ["jlm/util/BijectiveMap.hpp: BijectiveMap"]}
{"id": "C06", "title": "Worklists never lose, duplicate or invent work items", "statement": "For the LIFO, FIFO, least-recently-fired, two-phase LRF worklists: an item is pending iff it was pushed after its last pop; pushing a pending item changes nothing; HasMoreWorkItems is false iff nothing is pending; each pop returns a pending item.", "quantifier": "every item type and every push/pop sequence", "why_tests_cant": "every interleaving of pushes and pops", "anchors": ["jlm/util/Worklist.hpp: LifoWorklist, FifoWorklist, LrfWorklist, TwoPhaseLrfWorklist, Workset"]}
{"id": "C07", "title": "Worklist pop order policies", "statement": "LIFO pops the most recently pushed pending item, FIFO the earliest pushed pending item, LRF an item whose last pop is least recent among pending ones (never popped items first), two-phase LRF drains the current batch before any item pushed meanwhile.", "quantifier": "every push/pop sequence", "why_tests_cant": "order depends on the full history", "anchors": ["jlm/util/Worklist.hpp"]}
{"id": "C08", "title": "FindStronglyConnectedComponents computes SCCs in reverse topological order", "statement": "For every finite graph with unification roots, every root gets an SCC index below the returned count, two roots get equal indices iff each reaches the other, indices never increase along edges, and the order output lists every root exactly once in non-descending SCC index.", "quantifier": "every finite graph, every unification function that is idempotent", "why_tests_cant": "all graphs", "anchors": ["jlm/util/TarjanScc.hpp: FindStronglyConnectedComponents"]}
{"id": "C09", "title": "Integer math helpers are exact on their whole domain", "statement": "log2Floor, RoundUpToPowerOf2, RoundUpToMultipleOf and BitsRequiredToRepresent return the mathematically specified value for every representable argument whose result is representable.", "quantifier": "all 64-bit arguments", "why_tests_cant": "2^64 arguments, boundary overflow", "anchors": ["jlm/util/Math.hpp: log2Floor, RoundUpToPowerOf2, RoundUpToMultipleOf, BitsRequiredToRepresent"]}
{"id": "C10", "title": "truncateAndSignExtend / truncateAndZeroExtend", "statement": "For 1 <= keepBits <= 64 the result is the two's complement (resp. unsigned) value of the low keepBits bits; keepBits = 0 is accepted by the assertion.", "quantifier": "all 64-bit values and all keepBits in 0..64", "why_tests_cant": "2^64*65 inputs including an undefined shift", "anchors": ["jlm/util/Math.hpp: truncateAndSignExtend, truncateAndZeroExtend"]}
{"id": "C11", "title": "Bit constants round-trip with integers", "statement": "BitValueRepresentation(n, v) throws iff v is not representable in n bits; otherwise to_int()/to_uint() give back v (resp. v mod 2^n) whenever the result fits in 64 bits.", "quantifier": "all widths and all 64-bit values", "why_tests_cant": "unbounded widths x 2^64 values", "anchors": ["jlm/rvsdg/bitstring/value-representation.hpp: BitValueRepresentation(size_t,int64_t)", "jlm/rvsdg/bitstring/value-representation.cpp: to_uint, to_int"]}
{"id": "C12", "title": "Bit-vector arithmetic on fully known bitstrings is two's complement arithmetic", "statement": "For known operands of equal width n: add, sub, neg, mul, land, lor, lxor, lnot, shl, shr, ashr, umulh, smulh compute the exact result modulo 2^n for every n.", "quantifier": "all widths, all values", "why_tests_cant": "unbounded widths and values", "anchors": ["jlm/rvsdg/bitstring/value-representation.hpp: add, sub, neg, mul, umulh, smulh, shl, shr, ashr, land, lor, lxor, lnot"]}
{"id": "C13", "title": "Bit-vector division", "statement": "For known operands of equal width and non-zero divisor: udiv/umod give floor quotient and remainder, sdiv/smod truncated quotient and remainder (modulo 2^n); with a zero divisor no exception is raised, udiv is all ones and umod is the dividend.", "quantifier": "all widths, all values", "why_tests_cant": "unbounded widths and values", "anchors": ["jlm/rvsdg/bitstring/value-representation.hpp: udiv, umod, sdiv, smod"]}
{"id": "C14", "title": "Bit-vector comparisons", "statement": "For known operands of equal width eq/ne/ult/ule/ugt/uge/slt/sle/sgt/sge return '1' or '0' according to unsigned / two's complement order.", "quantifier": "all widths, all values", "why_tests_cant": "unbounded widths and values", "anchors": ["jlm/rvsdg/bitstring/value-representation.hpp: ult, slt, ule, sle, ne, eq, sge, uge, sgt, ugt"]}
{"id": "C15", "title": "Compile-time evaluation with unknown bits is sound", "statement": "If operands contain 'D'/'X' bits, every bit of a result that the evaluator reports as '0' or '1' has that value for every way of filling in the unknown bits.", "quantifier": "all widths, all 4-valued operands, all completions", "why_tests_cant": "exponentially many completions at every width", "anchors": ["jlm/rvsdg/bitstring/value-representation.hpp"]}
{"id": "C16", "title": "Bitstring structural operations", "statement": "concat, slice, zext, sext, trunc satisfy the usual value laws, are mutually consistent (slice of concat gives the parts back) and reject out of range slices.", "quantifier": "all widths, all values", "why_tests_cant": "unbounded widths", "anchors": ["jlm/rvsdg/bitstring/value-representation.hpp: concat, slice, zext, sext, trunc, create, Append"]}
{"id": "C17", "title": "Def-use consistency of the RVSDG under every editing history", "statement": "After any sequence of node creation, node removal, input/output/argument/result addition and removal and divert_to/divert_users calls, an input i has origin o iff i is listed exactly once among the users of o; nusers(), numSuccessors() and IsDead() agree with that; calls rejected by type/region checks leave the graph unchanged.", "quantifier": "every finite sequence of editing operations on every region", "why_tests_cant": "invariant over all histories of a mutable cyclic pointer structure", "anchors": ["jlm/rvsdg/node.cpp: Input::divert_to, Output::add_user, Output::remove_user, Node::addInput, Node::RemoveInputs, Node::RemoveOutputs", "jlm/rvsdg/region.cpp: Region::addResult, RemoveResults, RemoveArguments, removeNode"]}
{"id": "C18", "title": "Region top/bottom node lists are exact", "statement": "In every reachable graph the region's TopNodes() are exactly the nodes without inputs and BottomNodes() exactly the dead nodes, each once, and numNodes/numTopNodes/numBottomNodes are the list lengths.", "quantifier": "every finite sequence of editing operations", "why_tests_cant": "incremental bookkeeping over all histories", "anchors": ["jlm/rvsdg/region.cpp: onTopNodeAdded, onTopNodeRemoved, onBottomNodeAdded, onBottomNodeRemoved", "jlm/rvsdg/node.cpp"]}
{"id": "C19", "title": "Region::prune removes exactly the dead nodes", "statement": "prune terminates and afterwards the surviving nodes of the region are exactly those from which some region result is reachable along def-use edges; results, arguments and surviving edges are unchanged.", "quantifier": "every region", "why_tests_cant": "all graphs; iterated removal", "anchors": ["jlm/rvsdg/region.cpp: Region::prune"]}
{"id": "C20", "title": "Top-down traversal visits every node once after its predecessors", "statement": "A TopDownTraverser over an unmodified region returns every node exactly once, each after all nodes it depends on, and then terminates.", "quantifier": "every acyclic region", "why_tests_cant": "all DAGs", "anchors": ["jlm/rvsdg/traverser.cpp: TopDownTraverserGeneric, TraversalTracker"]}
{"id": "C21", "title": "Bottom-up traversal visits every node once after its users", "statement": "A BottomUpTraverser over an unmodified region returns every node exactly once, each after all nodes using its outputs, and then terminates.", "quantifier": "every acyclic region", "why_tests_cant": "all DAGs", "anchors": ["jlm/rvsdg/traverser.cpp: BottomUpTraverserGeneric, TraversalTracker"]}
{"id": "C22", "title": "Traversers stay correct while the region is edited during traversal", "statement": "If nodes are removed, created or inputs are diverted between next() calls, no node is returned twice, a top-down visit returns no node created after the traversal began, and a returned node's predecessors at that time have all been visited.", "quantifier": "every region and every interleaving of next() with edits", "why_tests_cant": "all interleavings", "anchors": ["jlm/rvsdg/traverser.cpp: onNodeCreate, onNodeDestroy, onInputCreate, onInputChange, onInputDestroy"]}
{"id": "C23", "title": "Loop trip count used by unrolling is the real trip count", "statement": "Whenever LoopUnrollInfo::niterations() returns a value, the do-while loop it describes executes exactly that many iterations.", "quantifier": "all widths, all init/step/end values, all comparison operations", "why_tests_cant": "2^(3n) loops per comparison", "anchors": ["jlm/llvm/opt/unroll.cpp: LoopUnrollInfo::niterations, is_eqcmp"]}
{"id": "C24", "title": "Command graph runs commands in dependency order", "statement": "CommandGraph::Run executes every command reachable from the entry exactly once, and never before a command it depends on.", "quantifier": "every acyclic command graph", "why_tests_cant": "all DAGs", "anchors": ["jlm/tooling/CommandGraph.cpp: SortNodesTopological, Run"]}
{"id": "C25", "title": "File path decomposition", "statement": "name, base, suffix, complete_suffix, Dirname split a path as documented for every string; Dirname of a path followed by '/' and name gives back the path whenever it has a non-root directory part and no trailing slash.", "quantifier": "all strings", "why_tests_cant": "all strings", "anchors": ["jlm/util/file.hpp: FilePath"]}
{"id": "C26", "title": "Loop unrolling preserves the loop's results", "statement": "For every theta that LoopUnrolling accepts and every unroll factor, the code it is replaced with ends with the same values of all loop variables as the original loop, for known boundaries (full unrolling, unrolled loop plus remainder) and for run-time boundaries.", "quantifier": "all widths, boundary values, factors, loop bodies and initial values of the other loop variables", "why_tests_cant": "all loops and all executions of them", "anchors": ["jlm/llvm/opt/unroll.cpp: unroll_known_theta, unroll_theta, add_remainder, unroll_unknown_theta, unroll_body"]}
{"id": "C27", "title": "The points-to solver terminates with a solution", "statement": "PointerObjectConstraintSet::SolveNaively terminates, and afterwards IsPointingTo, IsPointingToExternal, HasEscaped and HasPointeesEscaping satisfy every superset, store, load and call constraint, every scalar flag and every escape rule, for pointees tracked explicitly and implicitly; it creates no objects and unifies nothing.", "quantifier": "all PointerObjectSets reachable through the API, all constraint lists, all modules, all hash iteration orders", "why_tests_cant": "soundness of a fixpoint on every constraint system", "anchors": ["jlm/llvm/opt/alias-analyses/PointerObjectSet.cpp: SolveNaively, ApplyDirectly, PropagateEscapedFlagsDirectly, PropagateEscapedFunctionsDirectly, HandleEscapedFunction, MakePointsToSetSuperset"]}
{"id": "C28", "title": "The points-to solution is the least one and does not depend on any order", "statement": "The result of SolveNaively is contained in every solution of the constraints; two runs that differ in constraint order, duplicates or hash iteration order give sets for which HasIdenticalSolAs is true; HasIdenticalSolAs is true exactly when both sets have the same objects, escaped objects, external flags and pointees.", "quantifier": "all constraint systems, all iteration orders", "why_tests_cant": "all systems, all schedules", "anchors": ["jlm/llvm/opt/alias-analyses/PointerObjectSet.cpp: SolveNaively, HasIdenticalSolAs"]}
{"id": "C29", "title": "Unification of pointer objects is sound, and exact on cycles", "statement": "UnifyPointerObjects makes exactly the two classes share root, pointees and flags; every solution after unification is a solution before it; unifying two objects on a cycle of superset constraints does not change the least solution; GetUnificationRoot terminates and its path halving changes no root.", "quantifier": "all sets, all pairs of objects, all constraint lists", "why_tests_cant": "all inputs", "anchors": ["jlm/llvm/opt/alias-analyses/PointerObjectSet.cpp: UnifyPointerObjects, GetUnificationRoot"]}
{"id": "C30", "title": "NormalizeConstraints preserves the solutions", "statement": "NormalizeConstraints yields a duplicate free list over unification roots without self edges, reports how many constraints it removed, and has exactly the same solutions.", "quantifier": "all constraint lists and sets", "why_tests_cant": "all inputs", "anchors": ["jlm/llvm/opt/alias-analyses/PointerObjectSet.cpp: NormalizeConstraints"]}
{"id": "C31", "title": "A points-to set is not changed while it is iterated over", "statement": "The loops over GetPointsToSet(p).Items() in the constraints' ApplyDirectly never insert into the set they iterate over.", "quantifier": "all sets, all constraints", "why_tests_cant": "the undefined behaviour depends on hash table layout", "anchors": ["jlm/llvm/opt/alias-analyses/PointerObjectSet.cpp: StoreConstraint::ApplyDirectly, LoadConstraint::ApplyDirectly, FunctionCallConstraint::ApplyDirectly"]}
{"id": "C32", "title": "Every configuration of the worklist solver is sound", "statement": "Whatever combination of worklist policy, online/hybrid/lazy cycle detection, difference propagation and prefer-implicit-pointees is used, and in whatever order work items are popped and hash sets iterated, when SolveUsingWorklist returns, what IsPointingTo, IsPointingToExternal, HasEscaped and HasPointeesEscaping report is a solution of all the constraints added, contains what was known before, creates no pointer object and never separates unified ones.", "quantifier": "all pointer object sets, constraint lists, modules, all 64 configurations, all work item orders and hash iteration orders, all hybrid cycle detection tables", "why_tests_cant": "64 configurations times unboundedly many constraint graphs and iteration orders; a lost work item only shows for particular interleavings of unification and propagation", "anchors": ["jlm/llvm/opt/alias-analyses/PointerObjectSet.cpp: RunWorklistSolver, SolveUsingWorklist", "jlm/llvm/opt/alias-analyses/DifferencePropagation.hpp", "jlm/llvm/opt/alias-analyses/LazyCycleDetection.hpp", "jlm/llvm/opt/alias-analyses/OnlineCycleDetection.hpp"]}
{"id": "C33", "title": "Worklist solver agrees with the naive solver", "statement": "For every constraint set, iteration order, worklist order and every configuration of online/lazy cycle detection, difference propagation, prefer-implicit-pointees and topological traversal (hybrid cycle detection off), the worklist solver's points-to sets, external flags and escaped set are those of the least solution, hence identical to those of the naive solver and of every other such configuration.", "quantifier": "all well-formed pointer object sets, constraints, hash iteration orders, worklist orders, and 32 configurations without HCD", "why_tests_cant": "there are unboundedly many constraint graphs, iteration orders and interleavings of cycle unification with propagation; the run-time double check only covers the modules that were compiled", "anchors": ["jlm/llvm/opt/alias-analyses/PointerObjectSet.cpp: PointerObjectConstraintSet::SolveUsingWorklist, RunWorklistSolver", "jlm/llvm/opt/alias-analyses/LazyCycleDetection.hpp", "jlm/llvm/opt/alias-analyses/OnlineCycleDetection.hpp", "jlm/llvm/opt/alias-analyses/DifferencePropagation.hpp", "PointerObjectSet::HasIdenticalSolAs"]}
{"id": "C34", "title": "Dead node elimination never fails", "statement": "On every well-formed RVSDG module the dead node elimination pass runs to completion: none of the assertions that removed outputs, arguments and results are unused fails, and the module that is left is well-formed.", "quantifier": "all well-formed modules (any nesting of simple, load, gamma, theta, lambda, phi and delta nodes)", "why_tests_cant": "the order of marking, the redirections of memory states around removed loads and the index sets removed from nested regions interact; tests cover a few graphs", "anchors": ["jlm/llvm/opt/DeadNodeElimination.cpp: DeadNodeElimination::Run, markOutput, sweepRegion, sweepGamma, sweepTheta, sweepLambda, sweepPhi, sweepDelta, removeNode", "jlm/rvsdg/region.cpp: Region::RemoveArguments, RemoveResults"]}
{"id": "C35", "title": "Dead node elimination preserves what the module computes", "statement": "If a result of the module, or a result of a function or global variable that is left, has a value in the old module for given arguments, then it has the same (and only that) value in the new module, for every interpretation of the operations in which a non-volatile load passes its memory states through unchanged.", "quantifier": "all well-formed modules, all interpretations of the operations, all arguments", "why_tests_cant": "values range over all inputs and all programs", "anchors": ["jlm/llvm/opt/DeadNodeElimination.cpp: DeadNodeElimination::Run", "jlm/llvm/ir/operators/Load.hpp: LoadOperation::MapMemoryStateOutputToInput"]}
{"id": "C36", "title": "Dead node elimination removes exactly the dead nodes", "statement": "Every output that the results of the module depend on is kept, except memory state outputs of loads whose value is not needed; every node and import that is left has an output the results depend on; nothing is added.", "quantifier": "all well-formed modules", "why_tests_cant": "reachability through nested regions and loop-carried variables is a property of all graphs", "anchors": ["jlm/llvm/opt/DeadNodeElimination.cpp: DeadNodeElimination::markOutput, sweepRegion"]}
{"id": "C37", "title": "Invariant value redirection preserves what the module computes", "statement": "With gamma, theta and load redirection (call and theta/gamma correlation redirection off), in whatever order the nodes of a region are visited, the pass yields a well-formed module with no new outputs or nodes, whose results, functions, global variables and remaining outputs have every value they had before, for every interpretation of the operations in which a non-volatile load passes its memory states through.", "quantifier": "all well-formed modules, all visit orders, all configurations of the three options, all interpretations of the operations, all arguments", "why_tests_cant": "values range over all inputs and all programs, and the visit order is the order in which nodes were created", "anchors": ["jlm/llvm/opt/InvariantValueRedirection.cpp: InvariantValueRedirection::Run, redirectInRegion, redirectGammaOutputs, redirectThetaOutputs, redirectLoadMemoryStates", "jlm/rvsdg/gamma.cpp: GetGammaInvariantOrigin", "jlm/rvsdg/theta.hpp: ThetaLoopVarIsInvariant"]}
{"id": "C38", "title": "Invariant value redirection leaves no user of an invariant output", "statement": "After the pass, in every region of a function, a loop variable (not of I/O state type) whose post value is its pre value, and an exit variable that is the same entry variable in all branches, have no users; the result does not depend on the order in which the nodes of a region are visited.", "quantifier": "all well-formed modules, all visit orders", "why_tests_cant": "a property of all graphs and orders", "anchors": ["jlm/llvm/opt/InvariantValueRedirection.cpp: redirectInRegion"]}
{"id": "C39", "title": "The gamma invariant variable reduction preserves what the module computes", "statement": "ReduceGammaInvariantVariables diverts the users of an exit variable only if it has the same value as its new origin, and never dereferences a null pointer.", "quantifier": "all gamma nodes in all well-formed modules, all interpretations of the operations", "why_tests_cant": "needs all combinations of entry variables, computed values and match contents in the branches", "anchors": ["jlm/rvsdg/gamma.cpp: ReduceGammaInvariantVariables, perform_invariant_reduction"]}
{"id": "C40", "title": "Common node elimination preserves what the module computes", "statement": "CommonNodeElimination gives a well-formed module with the same nodes in which the results, every function and every global variable compute the same values.", "quantifier": "all well-formed modules, all interpretations of the operations, all orders in which users, followers and hash table entries are tried", "why_tests_cant": "congruences are found by iterating over nested loops and branches; the interaction of re-marking and leader choice only shows in large nests", "anchors": ["jlm/llvm/opt/CommonNodeElimination.cpp: markRegion, markSimpleNode, markSimpleTopNode, markGamma, markTheta, markSubregionsFromInputs, partitionArguments, divertOutput, CommonNodeElimination::Run"]}
{"id": "C41", "title": "Common node elimination succeeds and leaves no duplicate computation", "statement": "Run common node elimination on a well-formed module. The pass completes without exception or crash, and in the resulting module everything that is used is computed once: of two simple nodes in one region with the same operation and the same operands, of two arguments of one region with the same origin, and of two exit variables of one gamma node with the same non-invariant values, at most one is still used (bodies of global variables excepted).", "quantifier": "all well-formed modules, all orders in which candidates are tried", "why_tests_cant": "a test compares a few graphs; a congruence missed for one nesting of regions or one order of users leaves the others untouched", "anchors": ["jlm/llvm/opt/CommonNodeElimination.cpp: markSimpleNode, markSimpleTopNode, partitionArguments, markSubregionsFromInputs, markGamma, tryGetGammaExitVarCongruenceSet, divertRegion"]}
{"id": "C42", "title": "Pairwise reduction of operands keeps the value", "statement": "Reducing neighbouring operands of an associative operation, or any two operands of an associative and commutative one, gives an operand list with the same result; the version for commutative operations always ends and leaves no two operands that could be reduced. Normalizing a binary node never fails and keeps its value, and replaces the node exactly when its two operands can be reduced; normalizing a flattened node keeps its value whenever it replaces the node.", "quantifier": "all operand lists, all reductions of pairs that are right about values, all associative (and commutative) operations", "why_tests_cant": "The operand lists, reductions and operations are unbounded; the loop restarts after each reduction and moves the last operand, so ends and order depend on the whole list", "anchors": ["jlm/rvsdg/reduction-helpers.hpp:pairwise_reduce", "jlm/rvsdg/reduction-helpers.hpp:commutative_pairwise_reduce", "jlm/rvsdg/binary.cpp:NormalizeBinaryOperation", "jlm/rvsdg/binary.cpp:NormalizeFlattenedBinaryOperation"]}
{"id": "C43", "title": "Flattening associative operations and expanding flattened nodes keeps values", "statement": "Flattening a binary node of an associative operation keeps its value, leaves no operand that is a node of the same operation, and replaces the node exactly when an operand is such a node; replacing all flattened nodes of an expression by binary nodes keeps all values and leaves no flattened node.", "quantifier": "all expressions over binary and flattened nodes, all associative operations", "why_tests_cant": "Nesting depth and operand counts are unbounded", "anchors": ["jlm/rvsdg/reduction-helpers.hpp:associative_flatten", "jlm/rvsdg/binary.cpp:FlattenAssociativeBinaryOperation", "jlm/rvsdg/binary.cpp:FlattenedBinaryOperation::reduce"]}
{"id": "C44", "title": "Slice and concatenation normalizations keep the bits", "statement": "Every normalization of a slice (of all bits, of a constant, of a slice, of a concatenation) and of a concatenation (merging neighbouring constants and slices, flattening) yields an output with exactly the bits of the original, for all widths, positions and operands, unknown bits included.", "quantifier": "all bit string expressions built from outputs, constants, slices and concatenations whose value is defined", "why_tests_cant": "Widths, positions, operand counts and nesting are unbounded", "anchors": ["jlm/rvsdg/bitstring/slice.cpp:BitSliceOperation::distributeSlice", "jlm/rvsdg/bitstring/slice.cpp:BitSliceOperation::narrowSlice", "jlm/rvsdg/bitstring/concat.cpp:BitConcatOperation::reduce_operand_pair", "jlm/rvsdg/bitstring/concat.cpp:FlattenBitConcatOperation"]}
{"id": "C45", "title": "Folding integer operations agrees with LLVM", "statement": "Folding any of the integer operations on two constants gives the result LLVM defines for it, at every width, whenever that result is defined; the operations declared associative or commutative are.", "quantifier": "all 23 operations, all widths below 2^64, all constants", "why_tests_cant": "All widths and values", "anchors": ["jlm/llvm/ir/operators/IntegerOperations.cpp:foldBinaryOperation", "jlm/llvm/ir/operators/IntegerOperations.cpp:IntegerAddOperation::flags"]}
{"id": "C46", "title": "Type layout", "statement": "For every type with a size: the alignment is a power of two and the allocation size is the least multiple of it that holds the store size. Array elements and struct fields are laid out one after the other without overlap, aligned (unless packed) and with as little padding as possible; the struct is as aligned as its most aligned field and its size is the least multiple of its alignment that holds the last field.", "quantifier": "all types, nested to any depth, whose parts are at most 2^60 bytes large; all field indices", "why_tests_cant": "Types nest arbitrarily and sizes range over all 64 bit values; three functions call each other", "anchors": ["jlm/llvm/ir/types.cpp:GetTypeStoreSize", "jlm/llvm/ir/types.cpp:GetTypeAllocSize", "jlm/llvm/ir/types.cpp:GetTypeAlignment", "jlm/llvm/ir/types.cpp:StructType::GetFieldOffset"]}
{"id": "C47", "title": "Equality and hash of types", "statement": "Equality of types is an equivalence that distinguishes different types; equal types have equal hashes and equal layouts.", "quantifier": "all pairs of types, all hash functions of the standard library", "why_tests_cant": "Types nest arbitrarily", "anchors": ["jlm/llvm/ir/types.cpp:StructType::operator==", "jlm/llvm/ir/types.cpp:VectorType::operator==", "jlm/llvm/ir/types.cpp:FixedVectorType::ComputeHash", "jlm/rvsdg/FunctionType.cpp:FunctionType::operator==", "jlm/util/Hash.hpp:CombineHashes"]}
{"id": "C48", "title": "Tracing an output is sound, ends and does not crash", "statement": "Tracing an output (with any configuration, after any earlier tracings of the same tracer) ends; the output it arrives at has, at the corresponding point of every execution, the value of the traced output; the given region is not left; functions are left and phi regions entered only if configured. No assertion fails unless a match content argument is used or traced.", "quantifier": "all well-formed modules, all outputs and arguments, all executions including all iterations of loops and all calls, all tracer configurations, all histories of a tracer's cache", "why_tests_cant": "Executions and nestings of gammas, thetas, lambdas and phis are unbounded", "anchors": ["jlm/rvsdg/Trace.cpp:OutputTracer::trace", "jlm/rvsdg/Trace.cpp:OutputTracer::traceStep", "jlm/rvsdg/Trace.cpp:OutputTracer::tryTraceThroughGamma", "jlm/rvsdg/Trace.cpp:OutputTracer::tryTraceThroughTheta", "jlm/llvm/ir/Trace.cpp:OutputTracer::traceStep", "jlm/rvsdg/gamma.cpp:GammaNode::mapBranchArgumentToInput"]}
{"id": "C49", "title": "The trace cache is transparent", "statement": "Whatever a tracer with caching traced before, it gives the output that a tracer without caching gives.", "quantifier": "all well-formed modules, all histories of traced outputs and regions", "why_tests_cant": "The cache is filled by any earlier tracing, with other regions to stay in", "anchors": ["jlm/rvsdg/Trace.cpp:OutputTracer::insertInCache", "jlm/rvsdg/Trace.cpp:OutputTracer::lookupInCache"]}
{"id": "C50", "title": "Where tracing stops", "statement": "Tracing never stops at an entry variable, an unchanged loop variable, an exit variable that all branches pass on, a context variable (inter-procedurally), a recursive function (if phis are entered), an IO barrier or a loaded state (LLVM), unless the region must not be left; tracing from where it stopped stops there.", "quantifier": "all well-formed modules, outputs, configurations and tracer histories", "why_tests_cant": "Where the walk ends depends on chains of unbounded length", "anchors": ["jlm/rvsdg/Trace.hpp:OutputTracer", "jlm/rvsdg/Trace.cpp:traceOutputIntraProcedurally", "jlm/llvm/ir/Trace.cpp:traceOutput"]}
{"id": "C51", "title": "Read and write sets of a function's control-flow tree are correct", "statement": "For every aggregation tree of a function, and every execution of one of its subtrees: a variable outside AllWriteSet keeps its value, and two states that agree on ReadSet lead to final states that agree on FullWriteSet (and on everything they agreed on before).", "quantifier": "all aggregation trees (any nesting of sequences, branches and loops), all executions, all operations", "why_tests_cant": "there are infinitely many trees, and any of them can be executed any number of loop iterations", "anchors": ["jlm/llvm/ir/Annotation.cpp:AnnotateReadWrite", "jlm/llvm/ir/aggregation.hpp"]}
{"id": "C52", "title": "The conversion of a function into a lambda node preserves its meaning", "statement": "Whenever a call of a function, given by its aggregation tree, returns some values, the lambda node that the conversion makes of it returns these values for the same arguments, and no others; the module is a well-formed RVSDG.", "quantifier": "all functions, arguments, initial values of the variables, meanings of the operations, orders in which the elements of sets are visited", "why_tests_cant": "a test compares one graph; that the demanded variables, the undefined values and the routing through gamma and theta nodes are right must hold for every nesting", "anchors": ["jlm/llvm/frontend/InterProceduralGraphConversion.cpp:ConvertAggregationNode, ConvertThreeAddressCode, ConvertAggregationTreeToLambda", "jlm/llvm/ir/Annotation.cpp:AnnotateDemandSet"]}
{"id": "C53", "title": "The conversion of a function into a lambda node never misses a variable", "statement": "For every function whose branches and loops have their branch instructions in place, the conversion finds a value for every variable it looks up, so no assertion fails.", "quantifier": "all functions", "why_tests_cant": "the failing lookups need particular nestings of branches that tests are unlikely to contain", "anchors": ["jlm/llvm/frontend/InterProceduralGraphConversion.cpp:VariableMap::lookup", "jlm/llvm/ir/Annotation.cpp:AnnotateDemandSet"]}
{"id": "C54", "title": "Straightening a control flow graph keeps its behaviour and is exhaustive", "statement": "For every valid control flow graph and every order in which its blocks are visited, straighten succeeds, the result is valid, it reaches the exit with exactly the same variable values from the same start values, and no block is left whose only edge leads to a block without phis that has no other predecessor.", "quantifier": "all valid control flow graphs, all visiting orders, all meanings of the instructions, all start values", "why_tests_cant": "the blocks are in an unordered set, so tests see one order, on the graphs they contain", "anchors": ["jlm/llvm/ir/cfg-structure.cpp:straighten", "jlm/llvm/ir/cfg.cpp:ControlFlowGraph::remove_node", "jlm/llvm/ir/cfg-node.hpp:divert_inedges"]}
{"id": "C55", "title": "Purging empty blocks keeps the behaviour of a control flow graph", "statement": "For every valid control flow graph without phis and every visiting order, purge succeeds, the result is valid, behaves as before and contains no empty block except endless loops. (With phis the check at the end of purge can fail.)", "quantifier": "all valid control flow graphs without phis, all visiting orders, all start values", "why_tests_cant": "the claim is about all graphs, chains and cycles of empty blocks included", "anchors": ["jlm/llvm/ir/cfg-structure.cpp:purge"]}
{"id": "C56", "title": "Pruning removes exactly the unreachable blocks", "statement": "For every valid control flow graph and every visiting order, the marking of live nodes ends, its assertion holds, and it marks exactly the nodes with a path from the entry; prune keeps exactly the reachable blocks, adapts the phis, and the result is valid, every block has a predecessor, and it behaves as before.", "quantifier": "all valid control flow graphs, all orders of the unordered sets, all start values", "why_tests_cant": "reachability in all graphs and all orders cannot be enumerated", "anchors": ["jlm/llvm/ir/cfg-structure.cpp:prune", "jlm/llvm/ir/cfg-structure.cpp:compute_livenodes", "jlm/llvm/ir/cfg-structure.cpp:update_phi_operands", "jlm/llvm/ir/cfg-structure.cpp:remove_deadnodes"]}
{"id": "C57", "title": "SSA destruction keeps the behaviour of a control flow graph", "statement": "For every valid control flow graph whose first block has no phi and is entered from the entry only, and for every order in which the phi blocks are visited, destruct_ssa succeeds, the result is valid and has no phis, and it computes the same values for all variables of the original graph; parallel assignments of the phis of a block do not disturb each other.", "quantifier": "all valid control flow graphs, all visiting orders, all start values", "why_tests_cant": "lost copies and swaps show up only on particular combinations of phis, loops and orders", "anchors": ["jlm/llvm/ir/ssa.cpp:destruct_ssa"]}
{"id": "C58", "title": "The reducibility test decides reducibility", "statement": "is_reducible answers true exactly if the control flow graph can be reduced to a single node by removing self-loops and merging nodes into their only predecessor.", "quantifier": "all control flow graphs, all orders in which nodes are visited", "why_tests_cant": "the two directions range over all graphs", "anchors": ["jlm/llvm/ir/cfg-structure.cpp:is_reducible", "jlm/llvm/ir/cfg-structure.cpp:reduce_T2"]}
{"id": "C59", "title": "Aggregating a control flow graph preserves its meaning", "statement": "If aggregate() succeeds on a valid control flow graph without phis, in which no basic block with more than two successors is its own successor, then the aggregation tree can be executed (every branch node follows a subtree that ends with a branch instruction, every loop body ends with one) and it has exactly the executions of the graph: from every store it reaches the same final stores.", "quantifier": "every valid graph, every function that returns the strongly connected components in any order, every meaning of the instructions, every initial store", "why_tests_cant": "nested loops and branches reduce in an order that depends on the graph and on hash containers; tests check a few shapes and only the shape of the tree", "anchors": ["jlm/llvm/ir/aggregation.cpp aggregate, aggregate_loops, aggregate_acyclic_sese, reduce_linear, reduce_branch, reduceLoop", "jlm/llvm/ir/cfg-structure.cpp StronglyConnectedComponentStructure, find_sccs"]}
{"id": "C60", "title": "Normalizing an aggregation tree preserves its meaning", "statement": "After AggregationNode::normalize no linear node has a linear child, the tree has exactly the executions it had before, and normalizing again changes nothing.", "quantifier": "every aggregation tree that can be executed, every store", "why_tests_cant": "trees of any depth and width", "anchors": ["jlm/llvm/ir/aggregation.cpp AggregationNode::normalize"]}
{"id": "C61", "title": "From a control flow graph to a lambda node", "statement": "If the frontend aggregates a (restructured) control flow graph, normalizes and annotates the tree and converts it, then the module is well-formed, and whenever the graph started with the arguments reaches its exit, the lambda node returns exactly the values of the result variables there.", "quantifier": "every valid graph for which aggregation and conversion succeed, every meaning of the operations, every arguments, every order of the hash sets", "why_tests_cant": "it composes five algorithms; a test looks at one function at a time", "anchors": ["jlm/llvm/frontend/InterProceduralGraphConversion.cpp ConvertControlFlowGraph, AggregateControlFlowGraph", "jlm/llvm/ir/aggregation.cpp", "jlm/llvm/ir/Annotation.cpp"]}
{"id": "C62", "title": "Replacing an output by an equal one changes nothing", "statement": "Diverting the users of an output to another output that carries the same value (or the same memory contents) leaves every other output of the graph with the same value or contents.", "quantifier": "every graph of simple nodes, every meaning of the other operations", "why_tests_cant": "quantifies over all graphs and all meanings", "anchors": ["jlm/rvsdg/node.hpp divert_users", "jlm/rvsdg/NodeNormalization.hpp ReduceNode"]}
{"id": "C63", "title": "Reducing memory state merges and joins", "statement": "The reductions of memory state merges and joins (single operand, duplicate operands, nested merges/joins, merge of splits) replace the node by one state that knows, for every byte of memory, exactly what the old state knew; nesting is fully removed; a merge or join never trips an assertion; equal operations compare equal.", "quantifier": "every list of operands, every iteration order of the hash set, every race free memory", "why_tests_cant": "unbounded nesting and operand lists, all byte contents, all hash orders", "anchors": ["jlm/llvm/ir/operators/MemoryStateOperations.cpp MemoryStateMergeOperation::Normalize*", "MemoryStateOperations.cpp MemoryStateJoinOperation::Normalize*, operator==", "jlm/llvm/opt/NodeReduction.cpp"]}
{"id": "C64", "title": "Reducing memory state splits", "statement": "The reductions of memory state splits replace every output by a state that knows what the old one knew.", "quantifier": "every split, every memory", "why_tests_cant": "all graphs and all byte contents", "anchors": ["jlm/llvm/ir/operators/MemoryStateOperations.cpp MemoryStateSplitOperation::Normalize*"]}
{"id": "C65", "title": "Loads of stored values, duplicate states", "statement": "A load whose states all come from one store to the same address and of the same type is replaced by the stored value and its input states, which is what it computed; removing duplicate states of a load or a store preserves every result, position by position.", "quantifier": "every operand list, every memory contents, every encoding of values as bytes that can be decoded", "why_tests_cant": "all memories, types and operand lists", "anchors": ["jlm/llvm/ir/operators/Load.cpp NormalizeLoadStore, NormalizeDuplicateStates", "jlm/llvm/ir/operators/Store.cpp NormalizeDuplicateStates"]}
{"id": "C66", "title": "Loads from allocas ignore the states of other allocas", "statement": "Removing from a load of an alloca the states of other allocas and of stores to other allocas preserves the loaded value and each state result.", "quantifier": "every graph, every memory in which distinct allocas are disjoint", "why_tests_cant": "all graphs, layouts and contents", "anchors": ["jlm/llvm/ir/operators/Load.cpp NormalizeLoadAlloca, NormalizeLoadStoreState", "jlm/llvm/opt/NodeReduction.cpp"]}
{"id": "C67", "title": "An IO barrier is only removed from accesses within an object", "statement": "If the barrier in front of the address of a load or store is removed, then the accessed bytes lie within the object the address is derived from, and the results are the same.", "quantifier": "every address computation, every access size, every layout of memory", "why_tests_cant": "arithmetic modulo 2^64 over all offsets and sizes", "anchors": ["jlm/llvm/ir/operators/Load.cpp normalizeIOBarrierAddress", "jlm/llvm/ir/operators/Store.cpp normalizeIOBarrierAddress", "jlm/llvm/ir/Trace.cpp TracePointerOriginPrecise"]}
{"id": "C68", "title": "Reducing stores preserves memory", "statement": "The reductions of a store (of a merged state, after a store it overwrites, to an alloca, to an otherwise unused alloca) leave every state that follows it with the same bytes, and never trip an assertion.", "quantifier": "every graph, every memory, every hash order", "why_tests_cant": "all graphs, contents and hash orders", "anchors": ["jlm/llvm/ir/operators/Store.cpp NormalizeStoreMux, normalizeStoreStore, NormalizeStoreAlloca, normalizeStoreAllocaSingleUser", "jlm/rvsdg/node.hpp divert_users"]}
{"id": "C69", "title": "The caller sees the same memory after a reduced lambda exit", "statement": "The reductions of the memory state merge at the end of a function (loads from allocas, stores to allocas, allocas) give the caller a memory state with the same contents at every byte that is not part of an alloca of the function, and never trip an assertion.", "quantifier": "every operand list, every memory", "why_tests_cant": "all graphs and contents", "anchors": ["jlm/llvm/ir/operators/MemoryStateOperations.cpp LambdaExitMemoryStateMergeOperation::Normalize*"]}
{"id": "C70", "title": "Folding of sums of scalar evolutions", "statement": "The term scalar evolution computes for the sum of two terms describes, at every point of every execution and for every integer width up to 64 bits, the sum of the values the two terms describe; on recurrences of one loop over invariant operands the sum is known exactly if both operands are.", "quantifier": "all pairs of SCEV terms, all execution points, all widths up to 64", "why_tests_cant": "Terms are unbounded and nested and the claim is about the values in all iterations", "anchors": ["jlm/llvm/opt/ScalarEvolution.cpp", "ScalarEvolution::ApplyAddFolding"]}
{"id": "C71", "title": "Folding of products of scalar evolutions", "statement": "The term computed for the product of two terms describes the product of the values in every iteration; on recurrences of one loop the computation ends, loses nothing and is deterministic.", "quantifier": "all pairs of SCEV terms, all execution points", "why_tests_cant": "The product rule is recursive and its result must agree with a polynomial identity in every iteration", "anchors": ["jlm/llvm/opt/ScalarEvolution.cpp", "ScalarEvolution::ApplyMulFolding", "ScalarEvolution::ComputeProductOfChrecs"]}
{"id": "C72", "title": "Folding n-ary expressions preserves the value", "statement": "Folding the operands of an n-ary sum or product preserves the value described, ends, and leaves at most one operand that is not an initial value.", "quantifier": "all n-ary expressions and execution points", "why_tests_cant": "Operand lists are unbounded", "anchors": ["jlm/llvm/opt/ScalarEvolution.cpp", "ScalarEvolution::FoldNAryExpression"]}
{"id": "C73", "title": "Chain recurrences of loop variables", "statement": "The chain recurrence the analysis reports for a loop variable describes its value in every iteration of every execution of the loop, and the analysis finds it for every variable updated by adding an expression over earlier variables.", "quantifier": "all loops in dependency order, all start values, all iterations", "why_tests_cant": "Ranges over all loops and all iterations", "anchors": ["jlm/llvm/opt/ScalarEvolution.cpp", "ScalarEvolution::PerformSCEVAnalysis", "ScalarEvolution::GetOrCreateChainRecurrence", "ScalarEvolution::GetOrCreateStepForSCEV", "ScalarEvolution::CanCreateChainRecurrence"]}
{"id": "C74", "title": "Expression trees of outputs", "statement": "The tree built for an integer output from its additions, subtractions, multiplications, constant shifts, extensions and barriers describes its value.", "quantifier": "all expressions and values of the loop variables", "why_tests_cant": "Expressions and values are unbounded", "anchors": ["jlm/llvm/opt/ScalarEvolution.cpp", "ScalarEvolution::GetOrCreateSCEVForOutput", "ScalarEvolution::GetNegativeSCEV"]}
{"id": "C75", "title": "Comparison of scalar evolutions", "statement": "Two terms are reported structurally equal exactly if they are the same term, and a term is reported unknown exactly if some part of it is unknown.", "quantifier": "all pairs of terms", "why_tests_cant": "Terms are unbounded", "anchors": ["jlm/llvm/opt/ScalarEvolution.cpp", "ScalarEvolution::StructurallyEqual", "ScalarEvolution::IsUnknown"]}
{"id": "C76", "title": "Predicted trip count of affine loops", "statement": "When scalar evolution predicts a trip count for a loop controlled by comparing an affine recurrence with a constant, the loop executes exactly that many iterations; when it predicts none, the loop does not end.", "quantifier": "all starts, steps, bounds, comparisons and widths", "why_tests_cant": "Ranges over all start/step/bound values including those near overflow and beyond double precision", "anchors": ["jlm/llvm/opt/ScalarEvolution.cpp", "ScalarEvolution::GetPredictedTripCount", "ScalarEvolution::ComputeBackedgeTakenCountForChrec"]}
{"id": "C77", "title": "Predicted trip count of quadratic loops", "statement": "The same for quadratic recurrences, whose crossing is found with the quadratic formula in integer arithmetic.", "quantifier": "all quadratic recurrences and bounds", "why_tests_cant": "The integer square root, truncation and choice of root must be right for all coefficients", "anchors": ["jlm/llvm/opt/ScalarEvolution.cpp", "ScalarEvolution::SolveQuadraticEquation", "ScalarEvolution::ComputeBackedgeTakenCountForChrec"]}
{"id": "C78", "title": "Local alias analysis answers are right", "statement": "If a query of the local alias analysis about (p1, s1) and (p2, s2) is answered NoAlias, then in every execution the s1 bytes at p1 and the s2 bytes at p2 are disjoint; if it is answered MustAlias, p1 and p2 are the same address.", "quantifier": "all graphs, executions of the function, pairs of pointers, access sizes, collection limits", "why_tests_cant": "wrong answers only show in executions where the traced origins coincide in the wrong way; tests look at a few small graphs", "anchors": ["jlm/llvm/opt/alias-analyses/LocalAliasAnalysis.cpp:Query", "jlm/llvm/ir/Trace.cpp:TraceAllPointerOrigins"]}
{"id": "C79", "title": "Allocas found not to escape stay private", "statement": "If the analysis finds that the address of an alloca is fully traceable, then no load, call, argument or other operation of the function ever yields a pointer to it.", "quantifier": "all graphs and executions", "why_tests_cant": "the claim is about all the ways in which a pointer may travel through the function", "anchors": ["jlm/llvm/opt/alias-analyses/LocalAliasAnalysis.cpp:IsOriginalOriginFullyTraceable"]}
{"id": "C80", "title": "Alias queries are answered, and symmetric", "statement": "Every query of the local alias analysis ends, with pointers that go around loops as well, without failing an assertion, and gives the same answer with the two pointers exchanged.", "quantifier": "all graphs, pointers, sizes and limits", "why_tests_cant": "termination with cyclic dependencies and the order of tracing cannot be covered by examples", "anchors": ["jlm/llvm/opt/alias-analyses/LocalAliasAnalysis.cpp:Query", "jlm/llvm/ir/Trace.cpp:traceAllPointerOriginsInternal"]}
{"id": "C81", "title": "Constant indices and GEP offsets are exact", "statement": "A constant found by looking through extensions and truncations is the value that the program computes; the offset in bytes of a GEP with constant indices is that of plain arithmetic on the layout of the type; a GEP that is removed as idempotent adds nothing to its base address.", "quantifier": "all chains of extensions and truncations, all types that fit, all index lists", "why_tests_cant": "the space of widths, values and types is infinite", "anchors": ["jlm/llvm/ir/Trace.cpp:tryGetConstantSignedInteger", "jlm/llvm/ir/operators/GetElementPtr.cpp:getOffsetInBytes", "jlm/llvm/ir/operators/GetElementPtr.cpp:normalizeIdempotent"]}
{"id": "C82", "title": "Points-to graph and chained alias analyses are right", "statement": "Queries that are answered from a points-to graph that describes the execution are answered rightly; two right analyses are right when chained, and their answers are compatible, so that the check in builds with assertions passes.", "quantifier": "all points-to graphs, executions, pointers and sizes", "why_tests_cant": "the compatibility of two analyses must hold for all programs", "anchors": ["jlm/llvm/opt/alias-analyses/PointsToGraphAliasAnalysis.cpp:Query", "jlm/llvm/opt/alias-analyses/AliasAnalysis.cpp:ChainedAliasAnalysis"]}
{"id": "C83", "title": "Loop unswitching preserves the program", "statement": "Replacing a loop whose body is governed by one gamma node by the unswitched form (and sinking nodes into the gamma node before) leaves what the surrounding region computes unchanged, whatever the values are and however often the loop is repeated.", "quantifier": "all loops, surrounding regions, executions and meanings of operations", "why_tests_cant": "the transformation must be right for every loop shape and any number of iterations", "anchors": ["jlm/llvm/opt/LoopUnswitching.cpp:UnswitchLoop", "jlm/llvm/opt/LoopUnswitching.cpp:IsUnswitchable"]}
{"id": "C84", "title": "Sinking nodes into a gamma node preserves the body", "statement": "Routing loop values through the gamma node and pulling nodes into all of its subregions leaves what the body computes unchanged.", "quantifier": "all bodies and executions", "why_tests_cant": "all graphs and values", "anchors": ["jlm/llvm/opt/LoopUnswitching.cpp:SinkNodesIntoGamma", "jlm/llvm/opt/pull.cpp:pullin_top"]}
{"id": "C85", "title": "Predicate correlations hold in every execution", "statement": "When a correlation between a loop's predicate and a gamma node is reported, then in every execution of the body the loop's predicate is what the reported alternative for the subregion taken says.", "quantifier": "all bodies and executions", "why_tests_cant": "a correlation is a statement on all executions", "anchors": ["jlm/llvm/opt/PredicateCorrelation.cpp:computeThetaGammaPredicateCorrelation"]}
{"id": "C86", "title": "The predicate correlation pass preserves loops and ends", "statement": "Redirecting the predicate of a loop to that of the correlated gamma node, as often as it is possible, does not change what the body computes, and comes to an end.", "quantifier": "all bodies, any number of rounds", "why_tests_cant": "all graphs and executions, termination", "anchors": ["jlm/llvm/opt/PredicateCorrelation.cpp:correlatePredicatesInTheta"]}
{"id": "C87", "title": "Subregion roles are right", "statement": "The subregion reported as exit subregion is taken exactly in the last iteration, that reported as repetition subregion in all others.", "quantifier": "all correlations and executions", "why_tests_cant": "the role is a statement on all executions", "anchors": ["jlm/llvm/opt/PredicateCorrelation.cpp:determineGammaSubregionRoles"]}
{"id": "C88", "title": "Correlation of two gamma nodes", "statement": "A gamma node is reported to be correlated with another one exactly if the other one uses the same match, without failing for any other users.", "quantifier": "all lists of users", "why_tests_cant": "all user lists", "anchors": ["jlm/llvm/opt/PredicateCorrelation.cpp:computeGammaGammaPredicateCorrelation"]}
{"id": "C89", "title": "If-conversion preserves the program", "statement": "Replacing values that are passed through a gamma node by selects leaves what every region and loop computes unchanged, and the pass does not fail on well-formed regions.", "quantifier": "all regions with loops, all values and meanings of operations", "why_tests_cant": "all values of the match operand and all routings", "anchors": ["jlm/llvm/opt/IfConversion.cpp:HandleGammaNode", "jlm/llvm/opt/IfConversion.cpp:HandleRegion"]}
{"id": "C90", "title": "If-conversion is complete", "statement": "After the pass, nothing uses an output of a two-way gamma node that only passes values on, unless its predicate comes from a match with several cases.", "quantifier": "all regions", "why_tests_cant": "all graphs", "anchors": ["jlm/llvm/opt/IfConversion.cpp:HandleGammaNode"]}
{"id": "C91", "title": "Node sinking preserves the program", "statement": "Moving nodes into the alternatives of gamma nodes leaves what every region, alternative and loop computes unchanged, and keeps the graph well-formed.", "quantifier": "all regions with nested gamma and theta nodes, all values and meanings of operations", "why_tests_cant": "all graphs, all routings through entry variables and all inputs", "anchors": ["jlm/llvm/opt/pull.cpp:pull", "jlm/llvm/opt/pull.cpp:pullin_node", "jlm/llvm/opt/pull.cpp:cleanup"]}
{"id": "C92", "title": "Node sinking is complete and terminates", "statement": "After the pass, no node outside a gamma node is needed by exactly one of its alternatives and by nothing else (except for two-way gamma nodes without nodes, which become selects), on every nesting level; the pass terminates.", "quantifier": "all regions with nested gamma and theta nodes", "why_tests_cant": "all graphs and orders in which nodes become movable", "anchors": ["jlm/llvm/opt/pull.cpp:pull", "jlm/llvm/opt/pull.cpp:is_used_in_nsubregions", "jlm/llvm/opt/pull.cpp:isSingleSuccessor"]}
{"id": "C93", "title": "Node hoisting preserves the program", "statement": "Moving an operation to an enclosing region, and routing its results back in through gamma entry variables and loop variables, keeps the graph well-formed and leaves what every region computes unchanged.", "quantifier": "all regions with nested gamma and theta nodes, all paths, all operations, values and meanings of operations, any number of moves in any order", "why_tests_cant": "all graphs and all inputs; also those for which the operation is undefined or memory changes", "anchors": ["jlm/llvm/opt/push.cpp:NodeHoisting::copyNodeToTargetRegion", "jlm/llvm/opt/push.cpp:NodeHoisting::isInvariantMemoryStateLoopVar", "jlm/rvsdg/node.cpp:RouteToRegion"]}
{"id": "C94", "title": "Hoisting out of loops is unconditionally safe", "statement": "If only loops (theta nodes) are between an operation and the region that it is moved to, and its operands are loop-invariant, then the same is computed, also if the operation can be undefined.", "quantifier": "all regions with nested loops, all numbers of iterations, all operations", "why_tests_cant": "all numbers of iterations and nestings", "anchors": ["jlm/llvm/opt/push.cpp:NodeHoisting::copyNodeToTargetRegion", "jlm/llvm/opt/push.cpp:NodeHoisting::getOperandFromTargetRegion"]}
{"id": "C95", "title": "RVSDG to control flow graph preserves the program", "statement": "The control flow graph that is made for a function computes what the function's region does: from the same arguments it reaches the exit with the same results, and it reaches the exit exactly if the region has results.", "quantifier": "all regions with nested gamma and theta nodes, all values of the arguments, all meanings of operations, all numbers of loop iterations, all orders in which straighten visits blocks", "why_tests_cant": "all nestings of loops and branches, all inputs and iteration counts", "anchors": ["jlm/llvm/backend/RvsdgToIpGraphConverter.cpp:RvsdgToIpGraphConverter::CreateControlFlowGraph", "jlm/llvm/backend/RvsdgToIpGraphConverter.cpp:RvsdgToIpGraphConverter::ConvertGammaNode", "jlm/llvm/backend/RvsdgToIpGraphConverter.cpp:RvsdgToIpGraphConverter::ConvertThetaNode"]}
{"id": "C96", "title": "The control flow graph made from an RVSDG is valid", "statement": "The control flow graph that is made for a function is valid: every edge leads to a block or the exit, blocks with several successors end with a branch, every phi has exactly one operand per predecessor, every block has a predecessor; after straightening no two blocks can be merged any more.", "quantifier": "all regions with nested gamma and theta nodes", "why_tests_cant": "all nestings of loops and branches", "anchors": ["jlm/llvm/backend/RvsdgToIpGraphConverter.cpp:RvsdgToIpGraphConverter::CreateControlFlowGraph", "jlm/llvm/ir/cfg-structure.cpp:straighten"]}
{"id": "C97", "title": "RVSDG to control flow graph never fails", "statement": "Every function whose region is well-formed and visited in dependency order is converted without a failed assertion or lookup.", "quantifier": "all regions with nested gamma and theta nodes", "why_tests_cant": "all nestings; also unusual uses such as match content arguments", "anchors": ["jlm/llvm/backend/RvsdgToIpGraphConverter.cpp:RvsdgToIpGraphConverter::ConvertGammaNode", "jlm/llvm/backend/RvsdgToIpGraphConverter.cpp:RvsdgToIpGraphConverter::Context::GetVariable"]}
{"id": "C98", "title": "Inlining a call does not change what the caller computes", "statement": "Whatever the caller computes before one of its calls is replaced by a copy of the callee's body, it computes afterwards, and the other way round, when the arguments that are added to the caller have the values of the callee's context variables; also when the call is in nested gamma and theta nodes, for any sequence of such steps, and for functions that are inlined after calls were inlined into them.", "quantifier": "all regions, callees, nestings of the call, sequences of inlined calls, meanings of the operations", "why_tests_cant": "all functions and all operations; a test compares the graphs of a few modules", "anchors": ["jlm/llvm/opt/inlining.cpp:FunctionInlining::inlineCall", "jlm/llvm/opt/inlining.cpp:routeContextVariablesToRegion", "jlm/rvsdg/node.cpp:RouteToRegion"]}
{"id": "C99", "title": "Inlining a call succeeds and keeps the graph well-formed", "statement": "A call whose operands and results fit its callee can be inlined without a failed assertion or lookup, wherever the call is; the new graph is well-formed and acyclic in all regions, its existing arguments and results stay in place and one argument is added for each context variable of the callee.", "quantifier": "all regions, callees, nestings of the call", "why_tests_cant": "all nestings and all bodies", "anchors": ["jlm/llvm/opt/inlining.cpp:FunctionInlining::inlineCall", "jlm/rvsdg/node.cpp:RouteToRegion", "jlm/rvsdg/substitution.hpp:SubstitutionMap"]}
{"id": "C100", "title": "The dominator tree is right", "statement": "The tree that domtree returns has exactly the nodes of the control flow graph, the entry is its root, the parent of every other node is its immediate dominator and the depths count the edges to the root; a node dominates another one if and only if it is above it in the tree, or the same. The tree does not depend on the order in which the sets are traversed.", "quantifier": "all control flow graphs whose nodes are all reachable, including irreducible ones, and all orders of in-edges and leaves", "why_tests_cant": "dominance is about all paths of all graphs", "anchors": ["jlm/llvm/ir/domtree.cpp:domtree", "jlm/llvm/ir/domtree.cpp:intersect", "jlm/llvm/ir/domtree.cpp:build_domtree", "jlm/llvm/ir/cfg.cpp:reverse_postorder"]}
{"id": "C101", "title": "The computation of the dominator tree ends", "statement": "The iteration over the candidates for dominators reaches a fixed point, no assertion fails and no lookup throws, if all nodes of the control flow graph are reachable from its entry.", "quantifier": "all control flow graphs whose nodes are all reachable, all orders of in-edges", "why_tests_cant": "termination of a fixed point iteration whose chains change while it runs", "anchors": ["jlm/llvm/ir/domtree.cpp:domtree", "jlm/llvm/ir/cfg.cpp:postorder", "jlm/llvm/ir/cfg-structure.cpp:is_closed"]}
{"id": "C102", "title": "Predicate traces answer reachability soundly", "statement": "CheckPredicatesSatisfiable returns true if and only if the target region can be entered in an execution in which the origin region was entered. When it returns false, the predicate value with which the target is entered is not the one the origin region hands on; the range that GetRegionPredicateAssignConstraints reports contains every value of the predicate that leaves the region. Every query ends.", "quantifier": "all acyclic regions of nested gamma and theta nodes, all executions, all earlier queries on the same object", "why_tests_cant": "executions and definition trees of every shape; store value forwarding drops stores on a no", "anchors": ["jlm/rvsdg/RegionPredicateTrace.cpp:RegionPredicateTrace::CheckPredicatesSatisfiable", "jlm/rvsdg/RegionPredicateTrace.cpp:RegionPredicateTrace::ComputeAndRecord", "jlm/rvsdg/RegionPredicateTrace.cpp:RegionPredicateTrace::GetRegionSatRequired", "jlm/rvsdg/RegionPredicateTrace.hpp:PredicateValueRange"]}
{"id": "C103", "title": "Predicate traces follow changes of the graph", "statement": "After any history of queries and changes of edges a RegionPredicateTrace object answers the same as a new object on the graph as it is now.", "quantifier": "all histories of queries and changes of origins, all graphs", "why_tests_cant": "cache invalidation depends on the interleaving of queries and changes", "anchors": ["jlm/rvsdg/RegionPredicateTrace.cpp:RegionPredicateTrace::Observer", "jlm/rvsdg/RegionPredicateTrace.cpp:RegionPredicateTrace::Clear", "jlm/rvsdg/RegionPredicateTrace.cpp:RegionPredicateTrace::ObserveRegion", "jlm/rvsdg/RegionPredicateTrace.cpp:RegionPredicateTrace::GetRegionPredicateAssignConstraints"]}
{"id": "C104", "title": "Breadth-first order", "statement": "breadth_first ends and returns the entry first and every node reachable from the entry exactly once, and no node before a node that is closer to the entry.", "quantifier": "all control flow graphs", "why_tests_cant": "order on all graphs; the conversion to LLVM creates the blocks of this list only", "anchors": ["jlm/llvm/ir/cfg.cpp:breadth_first"]}
{"id": "C105", "title": "Postorder and reverse postorder", "statement": "postorder and reverse_postorder end and return every node reachable from the entry exactly once. In the reverse postorder the entry is first, and an edge leads to a later node unless there is a path back from its sink to its source; without cycles it is a topological order.", "quantifier": "all control flow graphs", "why_tests_cant": "a property of all depth-first traversals", "anchors": ["jlm/llvm/ir/cfg.cpp:postorder", "jlm/llvm/ir/cfg.cpp:reverse_postorder"]}
{"id": "C106", "title": "Redirecting the outputs of a correlated theta-gamma pair preserves the loop", "statement": "When invariant value redirection diverts the post values of a loop's variables around the gamma node that controls whether the loop is repeated, the loop terminates for the same inputs as before, and every loop output that has a user has the same values as before.", "quantifier": "all loops (any body, any number of loop variables, any number of iterations), gamma nodes in them whose subregions have the roles repeat and exit, and all initial values", "why_tests_cant": "tests build a handful of loops and check edges; that no post value diverted for the last iteration is ever read by an earlier one must hold for every loop body and iteration count", "anchors": ["jlm/llvm/opt/InvariantValueRedirection.cpp:InvariantValueRedirection::redirectThetaGammaOutputs", "jlm/rvsdg/gamma.hpp:GammaNode::MapBranchArgument", "jlm/rvsdg/theta.hpp:ThetaNode::LoopVar"]}
{"id": "C107", "title": "Routing values and memory states around a direct call preserves what is read", "statement": "When invariant value redirection diverts the users of a call's outputs to the call's operands, or the users of the memory state of a memory node behind the call to its state before the call, every user reads the same value, or the same contents of the memory node, as before; a call of the function's type is redirected without an error.", "quantifier": "all functions and direct calls of them, all sets of memory nodes at the entry and exit of the function and of the call, with memory nodes missing in the callee represented by the external one, and all executions", "why_tests_cant": "tests redirect a few hand written calls; that no memory node the function changes is routed around it must hold for every pair of memory node sets and every execution", "anchors": ["jlm/llvm/opt/InvariantValueRedirection.cpp:InvariantValueRedirection::redirectCallOutputs", "jlm/llvm/ir/operators/MemoryStateOperations.cpp:LambdaExitMemoryStateMergeOperation::tryMapMemoryNodeIdToInput", "jlm/llvm/ir/operators/call.hpp:CallOperation::tryGetMemoryStateExitSplit"]}
{"id": "C108", "title": "Eliminating IO barriers keeps loads safe", "statement": "A load loses its IO barrier exactly when a load of the same address that has no barrier, or one with the IO state of the function, reads at least as many bytes; and if in no order of execution of a function a load accesses memory it must not access, then there is no such order after the elimination, also when calls do not return.", "quantifier": "all functions (as data-flow regions), all orders in which their nodes can be executed, and all sets of calls that do not return", "why_tests_cant": "tests check which edge is diverted in four functions; that no order of execution becomes unsafe ranges over all schedules and all calls that may not return", "anchors": ["jlm/llvm/opt/IOBarrierElimination.cpp:IOBarrierElimination::markNode", "jlm/llvm/opt/IOBarrierElimination.cpp:IOBarrierElimination::sweepRegion", "jlm/llvm/ir/operators/IOBarrier.hpp:IOBarrierOperation"]}
{"id": "C109", "title": "Separating chains of loads preserves what is read", "statement": "Load chain separation gives consecutive operations that only read memory the same memory state and joins their states; every load, store, loop and call sees the same memory as before, the memory at the end is the same, no operation is lost, and no two reading operations are left one after the other.", "quantifier": "all chains of memory operations, of any length, with loops of any nesting and number of iterations in them, and all effects of stores, calls and gamma nodes", "why_tests_cant": "tests separate a few chains of two or three operations; that an operation taken for a read never changes memory must hold for every loop body", "anchors": ["jlm/llvm/opt/LoadChainSeparation.cpp:LoadChainSeparation::traceModRefChains", "jlm/llvm/opt/LoadChainSeparation.cpp:LoadChainSeparation::extractReferenceSubchains", "jlm/llvm/opt/LoadChainSeparation.cpp:LoadChainSeparation::separateReferenceChains", "jlm/llvm/opt/LoadChainSeparation.cpp:LoadChainSeparation::separateRefenceChainsInTheta"]}
{"id": "C110", "title": "Splitting aggregate allocas keeps where pointers point", "statement": "An alloca of a struct is split only if its address is used for addresses of its elements alone, and these only as addresses of loads and stores; there is then exactly one new alloca for each part of the struct that is not a struct itself, every pointer points to the same element as before, and what is computed from the address of the old alloca is not used any more.", "quantifier": "all functions with allocas, getelementptr nodes, loop variables, gamma nodes and IO barriers, and all struct types of any nesting", "why_tests_cant": "A missed use or a pointer that may come from two allocas shows only in programs that combine them through loops and branches; the tests have a few structs.", "anchors": ["jlm/llvm/opt/AggregateAllocaSplitting.cpp:AggregateAllocaSplitting::isSplitable", "jlm/llvm/opt/AggregateAllocaSplitting.cpp:AggregateAllocaSplitting::checkGetElementPtrUsers", "jlm/llvm/opt/AggregateAllocaSplitting.cpp:AggregateAllocaSplitting::splitAllocaNode", "jlm/llvm/opt/AggregateAllocaSplitting.cpp:createElementAllocaNodes"]}
