{"id": "C01", "title": "Memory manager never hands out a live entry", "statement": "MemoryManager::get() never returns an address that was handed out earlier and has not been returned since; the statistics (used, available, allocated) always agree with the set of outstanding entries.", "quantifier": "every chunk size > 0 and growth history, every interleaving of get() and returnEntry() of outstanding entries", "why_tests_cant": "double hand-out depends on the whole history of gets, returns and chunk growth; tests only run a few short histories", "anchors": ["src/dd/MemoryManager.cpp", "include/mqt-core/dd/MemoryManager.hpp: MemoryManager::get, returnEntry, allocateNewChunk", "include/mqt-core/dd/statistics/MemoryManagerStatistics.hpp"]}
{"id": "C02", "title": "Entries handed out after a reset start with reference count zero", "statement": "After MemoryManager::reset()/Package::reset(), every node handed out for a new diagram carries reference count 0, so that incRef on a new root protects everything below it.", "quantifier": "every history of allocation, incRef, reset, reallocation", "why_tests_cant": "needs a particular leftover reference count in a recycled slot combined with a particular later sharing pattern", "anchors": ["src/dd/MemoryManager.cpp: MemoryManager::reset", "include/mqt-core/dd/Package.hpp: Package::reset, makeDDNode", "include/mqt-core/dd/UniqueTable.hpp: incRef"]}
{"id": "C03", "title": "Unique table: one node per content", "statement": "UniqueTable::lookup returns an equal stored node if there is one, never creates a second node equal to a stored one, and returns a node equal to the one passed in; a discarded duplicate is handed back to the memory manager exactly once.", "quantifier": "every hash function, every number of buckets and every sequence of lookups, reference updates and garbage collections", "why_tests_cant": "uniqueness must hold for every collision pattern and for all histories; a hash collision plus GC ordering is hard to hit by tests", "anchors": ["include/mqt-core/dd/UniqueTable.hpp: lookup, searchTable, garbageCollect", "include/mqt-core/dd/Node.hpp: operator=="]}
{"id": "C04", "title": "Reference counting protects everything reachable from a held edge", "statement": "As long as a client has called incRef more often than decRef on a root edge, garbage collection (forced or not) never frees or recycles any node reachable from this root, and the denotation of the root is unchanged.", "quantifier": "every history of node creation, incRef, decRef and garbage collection on diagrams of any depth and sharing", "why_tests_cant": "use-after-free would need a specific interleaving of sharing, counting and collection", "anchors": ["include/mqt-core/dd/UniqueTable.hpp: incRef, decRef, garbageCollect", "include/mqt-core/dd/Package.hpp: Package::incRef, decRef, garbageCollect"]}
{"id": "C05", "title": "Garbage collection is precise for balanced histories", "statement": "A node survives a forced collection if and only if it is reachable from an edge currently held (more incRef than decRef calls); in particular, when every incRef has been matched by a decRef all nodes are collected.", "quantifier": "every history of node creation, incRef, decRef", "why_tests_cant": "leaks only show up as slow growth over long histories", "anchors": ["include/mqt-core/dd/UniqueTable.hpp: incRef, decRef, garbageCollect"]}
{"id": "C06", "title": "Compute tables return only results of the same operation on the same operands", "statement": "ComputeTable/UnaryComputeTable::lookup(operands) either misses or returns a result that was inserted for equal operands since the last clear().", "quantifier": "every hash function, every table size and every sequence of insert/lookup/clear", "why_tests_cant": "wrong hits need hash collisions that tests do not produce", "anchors": ["include/mqt-core/dd/ComputeTable.hpp", "include/mqt-core/dd/UnaryComputeTable.hpp", "include/mqt-core/dd/DensityNoiseTable.hpp", "include/mqt-core/dd/StochasticNoiseOperationTable.hpp"]}
{"id": "C07", "title": "No cached result survives the collection of its operands", "statement": "After Package::garbageCollect no compute table still holds an entry keyed by the address of a node that has been freed, so that a later diagram reusing this address never receives a stale result.", "quantifier": "every history of operations, collections and re-allocations", "why_tests_cant": "the failure needs a collected operand whose address is re-used by a different diagram for the same operation", "anchors": ["include/mqt-core/dd/Package.hpp: garbageCollect, clearComputeTables, conjugateVector, vectorAddMagnitudes, matrixAddMagnitudes"]}
{"id": "C08", "title": "Real-number table: values within tolerance are shared", "statement": "RealNumberUniqueTable::lookup(v) returns an entry within the tolerance of v, and looking up the same value again returns the same entry, for every sequence of lookups.", "quantifier": "every sequence of looked-up values, every tolerance", "why_tests_cant": "depends on which side of a bucket border earlier values were inserted", "anchors": ["src/dd/RealNumberUniqueTable.cpp: lookupNonNegative, findOrInsert, insert, insertFront, insertBack"]}
{"id": "C09", "title": "Signed-pointer encoding of real numbers is lossless", "statement": "Storing the sign of a real number in the lowest pointer bit and conjugating complex numbers by flipping it is lossless: value, conjugation and negation behave as for mathematical numbers, conjugation is an involution, and immortal zero/one are never sign-tagged wrongly.", "quantifier": "every aligned address and every stored non-negative value", "why_tests_cant": "bit tricks must hold for all addresses", "anchors": ["src/dd/RealNumber.cpp", "include/mqt-core/dd/RealNumber.hpp", "src/dd/ComplexNumbers.cpp: conj, neg"]}
{"id": "C10", "title": "Density-matrix edge flags round trip", "statement": "Applying the temporary density-matrix modifications to two edges and reverting them (dEdge::applyDmChangesToEdges / revertDmChangesToEdges) restores both edges and their nodes exactly, for each combination of flags.", "quantifier": "every pair of density-matrix edges (equal or not), every flag combination", "why_tests_cant": "2^6 flag combinations times aliasing of the two edges", "anchors": ["include/mqt-core/dd/Edge.hpp: applyDmChangesToEdges, revertDmChangesToEdges", "src/dd/Node.cpp: dNode"]}
{"id": "C11", "title": "Normalisation preserves the represented vector or matrix", "statement": "Creating a node through makeDDNode (normalisation, zero-node and identity-node elision) yields an edge that represents exactly the vector/matrix given by the successor edges.", "quantifier": "every choice of successor edges and weights, every level", "why_tests_cant": "depends on all weight patterns (zero weights, ties in magnitude, arbitrary phases)", "anchors": ["src/dd/Node.cpp / include/mqt-core/dd/Edge.hpp: vNode/mNode normalize", "include/mqt-core/dd/Package.hpp: makeDDNode"]}
{"id": "C12", "title": "Decision diagrams are canonical", "statement": "Two (normalised, reduced) vector or matrix decision diagrams built by makeDDNode represent the same vector/matrix over n qubits if and only if they are the same edge; equality of edges is therefore a sound and complete equivalence check.", "quantifier": "every pair of diagrams over any number of qubits (exact arithmetic)", "why_tests_cant": "completeness quantifies over all diagrams", "anchors": ["include/mqt-core/dd/Package.hpp: makeDDNode", "src/dd/Edge.cpp: Edge::normalize"]}
{"id": "C13", "title": "makeGateDD denotes the controlled gate", "statement": "makeGateDD(U, controls, target) represents the operator that applies U to the target if and only if all positive controls are 1 and all negative controls are 0, and is the identity otherwise and on all other qubits.", "quantifier": "every 2x2 matrix, every target and every set of positive/negative controls above and below the target", "why_tests_cant": "controls may be anywhere relative to the target; number of combinations is unbounded", "anchors": ["include/mqt-core/dd/Package.hpp: makeGateDD"]}
{"id": "C14", "title": "makeTwoQubitGateDD denotes the controlled two-qubit gate", "statement": "makeTwoQubitGateDD(U, controls, t0, t1) represents the operator that applies the 4x4 matrix U (t0 most significant) when the controls are satisfied and the identity otherwise.", "quantifier": "every 4x4 matrix, every ordered pair of distinct targets and every set of controls above, between and below", "why_tests_cant": "as before, control/target placement is unbounded", "anchors": ["include/mqt-core/dd/Package.hpp: makeTwoQubitGateDD"]}
{"id": "C15", "title": "Decision-diagram arithmetic is exact linear algebra", "statement": "add, multiply (matrix-vector and matrix-matrix) and conjugateTranspose on decision diagrams with skipped identity levels represent the sum, product and adjoint of the represented operators.", "quantifier": "every pair of diagrams over any number of qubits, including terminal edges and skipped levels", "why_tests_cant": "skipped levels and zero edges in every position", "anchors": ["include/mqt-core/dd/Package.hpp: add2, multiply2, conjugateTranspose"]}
{"id": "C16", "title": "Inner product and fidelity", "statement": "innerProduct(x,y) is the sum over all basis states of conj(x_i)*y_i; fidelity is its squared magnitude; a state has inner product 1 with itself when normalised.", "quantifier": "every pair of vector diagrams with the same number of levels", "why_tests_cant": "quantifies over all states", "anchors": ["include/mqt-core/dd/Package.hpp: innerProduct, fidelity"]}
{"id": "C17", "title": "Basis, zero, GHZ and W state constructors", "statement": "makeZeroState(n), makeBasisState(n, bits), makeGHZState(n) and makeWState(n) represent exactly the named states for each number of qubits.", "quantifier": "every number of qubits n and every bit string", "why_tests_cant": "n is unbounded", "anchors": ["src/dd/Package.cpp / include/mqt-core/dd/Package.hpp: makeZeroState, makeBasisState, makeGHZState, makeWState"]}
{"id": "C18", "title": "Reading amplitudes and matrix entries agrees with the represented object", "statement": "getValueByIndex/getValueByPath return the amplitude/matrix entry of the represented object for every in-range index.", "quantifier": "every diagram and every index", "why_tests_cant": "includes entries below skipped identity levels", "anchors": ["src/dd/Edge.cpp: getValueByPath, getValueByIndex"]}
{"id": "C19", "title": "Kronecker product", "statement": "kronecker(x, y, n) represents the tensor product of x with the n-qubit operator y, independently of which products were computed before.", "quantifier": "every pair of operands, every declared width and every history of earlier calls", "why_tests_cant": "the result must not depend on the cache history", "anchors": ["include/mqt-core/dd/Package.hpp: kronecker, kronecker2"]}
{"id": "C20", "title": "Partial trace is defined for all operators", "statement": "partialTrace(a, eliminate) is well defined (no out-of-range level) and represents the (normalised) partial trace for every operator, also when levels are skipped.", "quantifier": "every operator over n qubits and every set of eliminated qubits", "why_tests_cant": "needs a skipped level among the eliminated ones", "anchors": ["include/mqt-core/dd/Package.hpp: partialTrace, trace"]}
{"id": "C21", "title": "Transferring a diagram between packages preserves it", "statement": "Package::transfer(e) returns an edge representing the same vector/matrix for each valid edge e.", "quantifier": "every edge including those with terminal successors", "why_tests_cant": "depends on the shape of the diagram", "anchors": ["include/mqt-core/dd/Package.hpp: transfer"]}
{"id": "C22", "title": "All gate matrices are unitary", "statement": "For all real parameters each gate matrix produced by the package (single- and two-qubit gates) is unitary.", "quantifier": "every real parameter value", "why_tests_cant": "continuous parameters", "anchors": ["include/mqt-core/dd/GateMatrixDefinitions.hpp", "src/dd/GateMatrixDefinitions.cpp"]}
{"id": "C23", "title": "Inverting an operation yields the inverse operator", "statement": "For every supported gate, parameters, targets and controls, StandardOperation::invert() changes the operation into one whose operator is the inverse, and getInverseDD agrees with it; operations without inverse are rejected.", "quantifier": "every gate type, all real parameters, all control sets", "why_tests_cant": "continuous parameters and unbounded control sets", "anchors": ["src/ir/operations/StandardOperation.cpp: invert", "include/mqt-core/dd/Operations.hpp: getStandardOperationDD, getInverseDD"]}
{"id": "C24", "title": "Inverting a circuit", "statement": "QuantumComputation::invert() yields a circuit that undoes the original circuit exactly, including its global phase, with input and output permutation exchanged.", "quantifier": "every circuit of invertible operations, of any length and nesting", "why_tests_cant": "unbounded circuits", "anchors": ["include/mqt-core/ir/QuantumComputation.hpp: invert", "include/mqt-core/ir/operations/CompoundOperation.hpp: invert"]}
{"id": "C25", "title": "Parameter canonicalisation preserves the operator", "statement": "Constructing a P, U2 or U operation with special angles (which rewrites it to I, Z, S, T, H, V, RX, RY, ... ) preserves the operator up to global phase - exactly where the library claims so.", "quantifier": "all real parameters", "why_tests_cant": "continuous parameters", "anchors": ["src/ir/operations/StandardOperation.cpp: parseU3, parseU2, parseU1, checkUgate"]}
{"id": "C26", "title": "Operation equality is sound", "statement": "If op1.equals(op2) then both operations denote the same operator under the two permutations.", "quantifier": "every pair of operations", "why_tests_cant": "quantifies over all pairs of operations", "anchors": ["src/ir/operations/Operation.cpp: Operation::equals", "include/mqt-core/ir/operations/SymbolicOperation.hpp: equals"]}
{"id": "C27", "title": "Commutation check is sound", "statement": "If commutesAtQubit(op, q) holds for all qubits shared by two operations then the two operators commute.", "quantifier": "every pair of operations on any number of qubits, all parameters", "why_tests_cant": "quantifies over all operator pairs", "anchors": ["src/ir/operations/StandardOperation.cpp: commutesAtQubit"]}
{"id": "C28", "title": "Copies are faithful", "statement": "Copying (clone, copy construction, assignment) an operation yields an operation that behaves identically, including classically controlled ones with any comparison.", "quantifier": "every operation, every classical state", "why_tests_cant": "quantifies over all comparison kinds and classical states", "anchors": ["include/mqt-core/ir/operations/ClassicControlledOperation.hpp: copy constructor, operator=, clone"]}
{"id": "C29", "title": "Comparison kinds and their inversion", "statement": "getInvertedComparisonKind yields the exact negation, and a classically controlled operation executes if and only if the little-endian value of its register satisfies the comparison.", "quantifier": "every register width, every classical state, all six comparison kinds", "why_tests_cant": "quantifies over all register values", "anchors": ["include/mqt-core/ir/operations/ClassicControlledOperation.hpp", "src/dd/Operations.cpp: applyClassicControlledOperation"]}
{"id": "C30", "title": "Symbolic expression arithmetic is exact", "statement": "Sums, differences, products with constants and quotients of symbolic expressions evaluate, under every assignment, to the corresponding combination of the operands' values.", "quantifier": "every pair of expressions and every variable assignment", "why_tests_cant": "quantifies over all expressions and assignments", "anchors": ["include/mqt-core/ir/operations/Expression.hpp"]}
{"id": "C31", "title": "Registers and permutations", "statement": "Register global/local index conversion round-trips; Permutation::apply maps controls and targets consistently (applying a permutation and then its inverse is the identity).", "quantifier": "every register layout, every permutation", "why_tests_cant": "quantifies over all layouts", "anchors": ["include/mqt-core/ir/Register.hpp", "include/mqt-core/ir/Permutation.hpp", "src/ir/Permutation.cpp"]}
{"id": "C32", "title": "Flattening compound operations", "statement": "flattenOperations leaves no compound operation and preserves the sequence of elementary operations exactly.", "quantifier": "every circuit of any nesting depth", "why_tests_cant": "unbounded nesting", "anchors": ["src/circuit_optimizer/CircuitOptimizer.cpp: flattenOperations"]}
{"id": "C33", "title": "SWAP reconstruction and CNOT cancellation preserve the circuit", "statement": "swapReconstruction and cancelCNOTs preserve the unitary of each circuit made of CNOT, SWAP and arbitrary other unitary operations.", "quantifier": "every circuit", "why_tests_cant": "depends on arbitrary circuit context", "anchors": ["src/circuit_optimizer/CircuitOptimizer.cpp: swapReconstruction, cancelCNOTs"]}
{"id": "C34", "title": "SWAP decomposition preserves the circuit", "statement": "decomposeSWAP replaces each SWAP by CNOTs (and H for directed architectures) without changing the circuit's unitary.", "quantifier": "every circuit, including controlled SWAPs", "why_tests_cant": "any control set", "anchors": ["src/circuit_optimizer/CircuitOptimizer.cpp: decomposeSWAP"]}
{"id": "C35", "title": "MCX to MCZ replacement preserves the circuit", "statement": "replaceMCXWithMCZ preserves the unitary of the circuit.", "quantifier": "every circuit, every number of controls of either polarity", "why_tests_cant": "unbounded controls", "anchors": ["src/circuit_optimizer/CircuitOptimizer.cpp: replaceMCXWithMCZ"]}
{"id": "C36", "title": "Permutation elision preserves the circuit", "statement": "elidePermutations removes SWAP gates and relabels all later operations so that circuit plus output permutation still denote the same operator.", "quantifier": "every circuit of (possibly nested) operations", "why_tests_cant": "any number and nesting of SWAPs", "anchors": ["src/circuit_optimizer/CircuitOptimizer.cpp: elidePermutations"]}
{"id": "C37", "title": "Single-qubit gate fusion preserves the circuit", "statement": "singleQubitGateFusion preserves the unitary of each circuit.", "quantifier": "every circuit", "why_tests_cant": "depends on arbitrary circuit context", "anchors": ["src/circuit_optimizer/CircuitOptimizer.cpp: singleQubitGateFusion"]}
{"id": "C38", "title": "Removing diagonal gates before measurement preserves the outcome distribution", "statement": "removeDiagonalGatesBeforeMeasure does not change the joint distribution of measurement outcomes and never touches memory out of range.", "quantifier": "every circuit with final measurements", "why_tests_cant": "depends on arbitrary circuit context", "anchors": ["src/circuit_optimizer/CircuitOptimizer.cpp: removeDiagonalGatesBeforeMeasure, removeDiagonalGate"]}
{"id": "C39", "title": "Removing final measurements keeps all other operations", "statement": "removeFinalMeasurements removes only measurements (and barriers) that nothing depends on.", "quantifier": "every circuit, including compound and classically controlled operations", "why_tests_cant": "depends on arbitrary circuit context", "anchors": ["src/circuit_optimizer/CircuitOptimizer.cpp: removeFinalMeasurements, removeFinalMeasurement"]}
{"id": "C40", "title": "Deferring measurements preserves the outcome distribution", "statement": "deferMeasurements moves all measurements to the end, turns classical into quantum control and preserves the joint distribution of classical outcomes.", "quantifier": "every dynamic circuit accepted by the pass", "why_tests_cant": "depends on arbitrary circuit context", "anchors": ["src/circuit_optimizer/CircuitOptimizer.cpp: deferMeasurements"]}
{"id": "C41", "title": "Eliminating resets preserves the outcome distribution", "statement": "eliminateResets replaces each reset by the use of a fresh qubit and remaps all later operations and measurements consistently.", "quantifier": "every dynamic circuit accepted by the pass", "why_tests_cant": "depends on arbitrary circuit context", "anchors": ["src/circuit_optimizer/CircuitOptimizer.cpp: eliminateResets"]}
{"id": "C42", "title": "Block collection preserves the circuit", "statement": "collectBlocks groups operations into blocks of bounded width without changing the unitary of the circuit.", "quantifier": "every circuit and every block size", "why_tests_cant": "depends on arbitrary circuit context", "anchors": ["src/circuit_optimizer/CircuitOptimizer.cpp: collectBlocks, DSU"]}
{"id": "C43", "title": "Backpropagated output permutation is complete", "statement": "backpropagateOutputPermutation yields an initial layout that assigns each qubit exactly once and is consistent with the output permutation through all SWAPs.", "quantifier": "every circuit and every partial output permutation", "why_tests_cant": "any number of SWAPs and missing entries", "anchors": ["src/circuit_optimizer/CircuitOptimizer.cpp: backpropagateOutputPermutation"]}
{"id": "C44", "title": "Recursive functionality construction equals sequential construction", "statement": "buildFunctionalityRecursive(qc) returns the same operator as buildFunctionality(qc).", "quantifier": "every circuit of any length", "why_tests_cant": "length parity/alignment of the divide-and-conquer tree", "anchors": ["src/dd/FunctionalityConstruction.cpp"]}
{"id": "C45", "title": "Functionality agrees with simulation", "statement": "buildFunctionality(qc) applied to the input state equals simulate(qc, input), including global phase and permutations.", "quantifier": "every unitary circuit, every input state", "why_tests_cant": "unbounded circuits", "anchors": ["src/dd/FunctionalityConstruction.cpp", "src/dd/Simulation.cpp: simulate"]}
{"id": "C46", "title": "changePermutation realises the target permutation", "statement": "changePermutation(e, from, to) permutes the state so that every physical qubit ends on the level requested by 'to' and updates 'from' accordingly.", "quantifier": "every pair of permutations", "why_tests_cant": "n! permutations", "anchors": ["include/mqt-core/dd/Operations.hpp: changePermutation"]}
{"id": "C47", "title": "Sampling reports what the circuit measures", "statement": "sample(qc, shots) returns classical bit strings distributed as prescribed by the circuit's measurement operations, in program order.", "quantifier": "every circuit with measurements anywhere", "why_tests_cant": "distribution over all circuits; needs repeated measurements, compound measurements or output permutations", "anchors": ["src/dd/Simulation.cpp: sample"]}
{"id": "C48", "title": "Measurement collapse", "statement": "measureOneCollapsing returns each outcome with the Born probability and leaves the renormalised projected state; probabilities of both outcomes add up to the squared norm.", "quantifier": "every state, every qubit", "why_tests_cant": "continuous amplitudes", "anchors": ["src/dd/Package.cpp / Package.hpp: determineMeasurementProbabilities, performCollapsingMeasurement, measureOneCollapsing, measureAll"]}
{"id": "C49", "title": "Stochastic noise operators form a channel", "statement": "For all noise probabilities and gate factors the Kraus operators used by StochasticNoiseFunctionality for one and for several qubits are complete (sum of K^dagger K is the identity).", "quantifier": "all probabilities in [0,1] and factors", "why_tests_cant": "continuous parameters", "anchors": ["src/dd/NoiseFunctionality.cpp: StochasticNoiseFunctionality"]}
{"id": "C50", "title": "Deterministic noise implements the same channels as stochastic noise", "statement": "DeterministicNoiseFunctionality's phase-flip, amplitude-damping and depolarising maps on the 2x2 sub-blocks equal the expectation of the corresponding stochastic operations and preserve the trace.", "quantifier": "all probabilities, all density matrices", "why_tests_cant": "continuous parameters", "anchors": ["src/dd/NoiseFunctionality.cpp: DeterministicNoiseFunctionality"]}
{"id": "C51", "title": "Directed graph bookkeeping", "statement": "DirectedGraph reports vertex/edge counts, in-/out-degrees and adjacency consistently with the set of inserted edges; duplicate vertices are rejected.", "quantifier": "every sequence of addVertex/addEdge", "why_tests_cant": "unbounded histories", "anchors": ["include/mqt-core/datastructures/DirectedGraph.hpp"]}
{"id": "C52", "title": "Acyclic graph stays acyclic and answers reachability", "statement": "DirectedAcyclicGraph::addEdge rejects each edge that would close a cycle, isReachable is the reflexive-transitive closure of the edges, and orderTopologically lists each vertex once with all edges pointing forward.", "quantifier": "every sequence of addVertex/addEdge", "why_tests_cant": "needs two longer paths joined by one edge", "anchors": ["include/mqt-core/datastructures/DirectedAcyclicGraph.hpp"]}
{"id": "C53", "title": "Disjoint sets", "statement": "DisjointSet::findSet identifies two elements if and only if they are connected by the unions performed so far.", "quantifier": "every sequence of unionSet/findSet over the given elements", "why_tests_cant": "unbounded histories with path compression and union by rank", "anchors": ["include/mqt-core/datastructures/DisjointSet.hpp"]}
{"id": "C54", "title": "Undirected graph and symmetric matrix", "statement": "SymmetricMatrix and UndirectedGraph treat (u,v) and (v,u) alike; counts, degrees, neighbourhoods and adjacency agree with the inserted edges.", "quantifier": "every sequence of insertions", "why_tests_cant": "unbounded histories", "anchors": ["include/mqt-core/datastructures/SymmetricMatrix.hpp", "include/mqt-core/datastructures/UndirectedGraph.hpp"]}
{"id": "C55", "title": "Layer: executable set is always exact", "statement": "A vertex is in the executable set of a Layer if and only if it is executable under the current execution state, and no schedule executes operations of the circuit out of dependency order.", "quantifier": "every schedule of execute() calls on every dependency graph", "why_tests_cant": "all schedules", "anchors": ["src/datastructures/Layer.cpp", "include/mqt-core/datastructures/Layer.hpp"]}
{"id": "C56", "title": "PiRational arithmetic is arithmetic modulo 2 pi", "statement": "All PiRational operations keep the value in (-1,1] and equal the exact rational operation modulo 2.", "quantifier": "all rationals", "why_tests_cant": "unbounded numerators and denominators", "anchors": ["include/mqt-core/zx/Rational.hpp", "src/zx/Rational.cpp"]}
{"id": "C57", "title": "ZX diagram bookkeeping", "statement": "Vertex and edge counters, vertex re-use and half-edge symmetry stay consistent under all diagram updates.", "quantifier": "every sequence of diagram updates", "why_tests_cant": "unbounded histories", "anchors": ["src/zx/ZXDiagram.cpp", "include/mqt-core/zx/ZXDiagram.hpp"]}
{"id": "C58", "title": "Each ZX rewrite rule preserves the diagram's meaning", "statement": "Identity removal, spider fusion, local complementation, Pauli pivoting, boundary pivoting and gadget pivoting/fusion change the linear map represented by a diagram at most by a non-zero scalar.", "quantifier": "every diagram in which the rule's check succeeds", "why_tests_cant": "diagrams of unbounded size and connectivity", "anchors": ["src/zx/Rules.cpp", "src/zx/ZXDiagram.cpp: addEdgeParallelAware"]}
{"id": "C59", "title": "ZX simplification preserves the diagram's meaning", "statement": "interiorCliffordSimp, cliffordSimp and fullReduce preserve the represented linear map up to a non-zero scalar and terminate.", "quantifier": "every diagram obtained from a circuit", "why_tests_cant": "unbounded diagrams and rewrite sequences", "anchors": ["src/zx/Simplify.cpp", "include/mqt-core/zx/Simplify.hpp"]}
{"id": "C60", "title": "ZX construction denotes the circuit", "statement": "FunctionalityConstruction::buildFunctionality yields a diagram that represents the circuit's unitary up to a non-zero scalar whenever transformableToZX(qc) holds.", "quantifier": "every circuit accepted by transformableToZX", "why_tests_cant": "unbounded circuits", "anchors": ["src/zx/FunctionalityConstruction.cpp"]}
{"id": "C61", "title": "ZX composition, adjoint and identity test", "statement": "concat composes the represented maps, adjoint inverts unitaries (including global phases), and isIdentity() holds only for diagrams representing the identity.", "quantifier": "every pair of diagrams", "why_tests_cant": "unbounded diagrams", "anchors": ["src/zx/ZXDiagram.cpp: concat, invert, adjoint, isIdentity"]}
{"id": "C62", "title": "Integer literals are read with their mathematical value", "statement": "Binary, octal, decimal and hexadecimal integer literals (any letter case, with digit separators) are scanned to their value modulo 2^64.", "quantifier": "every literal", "why_tests_cant": "unbounded length and all digit combinations", "anchors": ["src/qasm3/Scanner.cpp: consumeNumberLiteral, parseIntegerLiteral"]}
{"id": "C63", "title": "Expression parsing respects precedence and associativity", "statement": "Parsing an arithmetic expression yields the tree prescribed by the usual operator precedence.", "quantifier": "every expression", "why_tests_cant": "unbounded expressions", "anchors": ["src/qasm3/Parser.cpp: parseExpression, comparison, term, factor, exponentiation", "src/qasm3/Scanner.cpp: next"]}
{"id": "C64", "title": "Constant evaluation is exact or rejected", "statement": "Constant folding of integer expressions returns the exact value (modulo the type width) or reports an error; it never crashes.", "quantifier": "every expression over integer constants", "why_tests_cant": "all operand values", "anchors": ["src/qasm3/passes/ConstEvalPass.cpp"]}
{"id": "C65", "title": "Nested scopes", "statement": "A name resolves to the innermost binding visible at this point; leaving a scope restores the outer bindings exactly.", "quantifier": "every sequence of scope operations", "why_tests_cant": "unbounded nesting", "anchors": ["include/mqt-core/qasm3/NestedEnvironment.hpp"]}
{"id": "C66", "title": "If/else translation executes exactly the right branch", "statement": "The translation of an if/else statement executes the then-block if the condition holds and the else-block otherwise, for each way of writing the comparison.", "quantifier": "every condition, every register content", "why_tests_cant": "all register values and operand orders", "anchors": ["src/qasm3/Importer.cpp: visitIfStatement, translateCondition"]}
{"id": "C67", "title": "Gate modifiers and broadcasting", "statement": "ctrl/negctrl/inv modifiers and register broadcasting produce exactly the operations prescribed by the language (one operation per register index, inverted body in reverse order, all controls attached).", "quantifier": "every gate call", "why_tests_cant": "unbounded register widths, nesting and modifier lists", "anchors": ["src/qasm3/Importer.cpp: evaluateGateCall, applyQuantumOperation"]}
{"id": "C68", "title": "Gate matrices are the textbook ones", "statement": "The matrix stored for each gate type is the one its name stands for: Pauli matrices, rotations exp(-i t P/2) about Pauli strings, square roots of Z, X and S, permutation gates as compositions of CX, SWAP and X, iSWAP, ECR and the XY interactions by their published decompositions, and all single-qubit gates as special cases of U.", "quantifier": "every gate type, every real angle", "why_tests_cant": "real-valued angles", "anchors": ["src/dd/GateMatrixDefinitions.cpp: opToSingleQubitGateMatrix, opToTwoQubitGateMatrix"]}
{"id": "C69", "title": "GHZ circuits prepare the GHZ state", "statement": "createGHZState(n) applied to the all-zero state gives (|0...0> + |1...1>)/sqrt 2 exactly.", "quantifier": "every number of qubits n > 0", "why_tests_cant": "unbounded number of qubits; tests compare sizes up to a small bound", "anchors": ["src/algorithms/GHZState.cpp: createGHZState"]}
{"id": "C70", "title": "W circuits prepare the W state", "statement": "createWState(n) applied to the all-zero state gives the equal superposition of all basis states with one qubit set, amplitude 1/sqrt n.", "quantifier": "every number of qubits n > 0", "why_tests_cant": "unbounded number of qubits", "anchors": ["src/algorithms/WState.cpp: fGate, createWState"]}
{"id": "C71", "title": "The QFT circuit is the discrete Fourier transform", "statement": "createQFT(n, false) is the discrete Fourier transform of order 2^n on every state (qubit 0 most significant); createQFT(n, true) yields outcome m with the probability of m after the transform.", "quantifier": "every number of qubits, every input state", "why_tests_cant": "unbounded number of qubits and all input states; tests only look at the first row and column, which cannot tell orders of qubits apart", "anchors": ["src/algorithms/QFT.cpp: createQFT"]}
{"id": "C72", "title": "The iterative QFT has the distribution of the QFT", "statement": "The outcomes of createIterativeQFT(n), which uses one qubit, mid-circuit measurements, resets and classically controlled rotations, are distributed like those of createQFT(n, true) from the all-zero state; and with the next qubit of a register in place of every reset the rounds act on every state like createQFT(n, true).", "quantifier": "every n > 0, every outcome", "why_tests_cant": "exact probabilities over all branches", "anchors": ["src/algorithms/QFT.cpp: createIterativeQFT"]}
{"id": "C73", "title": "Bernstein-Vazirani finds the hidden string", "statement": "Both the static and the iterative circuit measure exactly the hidden bit string with probability one; the variant that derives the length from the string loses no bit.", "quantifier": "every hidden string, every length from 1 to 4096", "why_tests_cant": "2^4096 strings; certainty of a random outcome", "anchors": ["src/algorithms/BernsteinVazirani.cpp"]}
{"id": "C74", "title": "Quantum phase estimation has the textbook distribution", "statement": "The outcome of the static and of the iterative circuit for U = P(lambda pi) with n bits of precision has the textbook distribution |sum_k exp(2 pi i k (lambda/2 - y/2^n))|^2 / 4^n; n-bit phases are found with certainty, and every nearest outcome with probability at least 4/pi^2, so both neighbours of the phases of createInexactPhase.", "quantifier": "every real phase, every precision from 1 to 64, every outcome", "why_tests_cant": "real phases, exact probabilities over all branches", "anchors": ["src/algorithms/QPE.cpp"]}
{"id": "C75", "title": "Grover's circuit finds the target", "statement": "With r = computeNumberOfIterations(n) the target is measured with probability sin^2((2r+1) asin(2^(-n/2))) and every other string with equal probability; this is at least 1/2, and at least 1 - 5/2^n for n >= 2.", "quantifier": "every target string, every number of data qubits from 1 to 128", "why_tests_cant": "exponentially many targets and sizes; exact probabilities", "anchors": ["src/algorithms/Grover.cpp"]}
{"id": "C76", "title": "State preparation prepares the given vector", "statement": "createStatePreparationCircuit throws unless the vector has norm 1 up to eps and a power of two many amplitudes; otherwise its circuit takes |0...0> to a unit vector that differs from the given one, global phase included, by at most eps (n |v| + 5 sqrt(2^n)).", "quantifier": "every complex vector, every size, every eps > 0", "why_tests_cant": "infinitely many vectors; the unit tests prepare a few fixed vectors and compare up to a tolerance", "anchors": ["src/algorithms/StatePreparation.cpp"]}
{"id": "C77", "title": "Validated neutral-atom computations obey the AOD constraints", "statement": "NAComputation::validate accepts a computation exactly if atoms are loaded before they are moved or stored, stored before they are loaded again, and the relative order of loaded atoms is preserved; the reported number is that of the first illegal operation; getLocationOfAtomAfterOperation returns the true place; atoms moved together never collide.", "quantifier": "every computation, every number of atoms, every coordinate", "why_tests_cant": "all histories of operations and all coordinates; the unit tests try a dozen", "anchors": ["src/na/NAComputation.cpp", "include/mqt-core/na/NAComputation.hpp", "include/mqt-core/na/operations"]}
{"id": "C78", "title": "Locations are totally ordered", "statement": "The comparison operators of na::Location are one total order: < is a strict total order, > its converse, <= and >= the corresponding non-strict ones.", "quantifier": "all pairs of locations", "why_tests_cant": "all pairs of doubles", "anchors": ["include/mqt-core/na/entities/Location.hpp"]}
{"id": "C79", "title": "Serialised decision diagrams are read back unchanged", "statement": "deserialize(serialize(e)) is e for every canonical vector or matrix diagram, in text and in binary format; the traversal with one stack terminates.", "quantifier": "every canonical diagram, every number of qubits, every pattern of sharing and skipped levels", "why_tests_cant": "all diagrams; a wrong traversal order only shows for particular patterns of sharing", "anchors": ["src/dd/Export.cpp: serialize, serializeMatrix", "include/mqt-core/dd/Package.hpp: deserialize, deserializeNode"]}
{"id": "C80", "title": "Exported OpenQASM is read back as the same circuit", "statement": "The text that dumpOpenQASM writes, in OpenQASM 2 and 3, is accepted by the importer and yields a circuit with the same registers that acts like the original on every state and every classical store.", "quantifier": "every circuit of gates with any controls and parameters, barriers, measurements, resets, conditions and compound operations; every division of the qubits and bits into registers", "why_tests_cant": "all combinations of gates, controls, registers and conditions; round-trip tests cover a handful of circuits", "anchors": ["src/ir/QuantumComputation.cpp: dumpOpenQASM, printSortedRegisters", "src/ir/operations/StandardOperation.cpp: dumpOpenQASM2, dumpOpenQASM3, dumpGateType, dumpControls", "src/ir/operations/NonUnitaryOperation.cpp: dumpOpenQASM", "src/ir/operations/ClassicControlledOperation.cpp: dumpOpenQASM", "src/qasm3/Importer.cpp"]}
{"id": "C81", "title": "The bookkeeping of a circuit stays consistent", "statement": "After any sequence of calls that add registers, mark qubits and append operations, the initial layout is a bijection from the physical qubits to the logical qubits 0, 1, ...; every physical qubit is in exactly one register; outputs are distinct logical qubits; nancillae counts the ancillary flags; no garbage qubit is an output. Adding single qubits, marking qubits and unifying registers keep this.", "quantifier": "every sequence of calls, every size, every choice of names and indices", "why_tests_cant": "an invariant over all histories of calls", "anchors": ["src/ir/QuantumComputation.cpp:75-194, 334-539, 720-730, 818-900, 930-938"]}
{"id": "C82", "title": "Stripping removes exactly the idle qubits that are no outputs", "statement": "stripIdleQubits(false) removes a qubit exactly if no operation acts on it and neither the physical nor the logical qubit is an output; the remaining logical qubits are renumbered in order, and layout, outputs, ancillary and garbage flags, registers and counters move along consistently.", "quantifier": "every consistent circuit", "why_tests_cant": "all combinations of layouts, outputs and registers; the unit tests strip circuits of two or three qubits", "anchors": ["src/ir/QuantumComputation.cpp:118-150, 413-463, 745-786"]}
{"id": "C83", "title": "Measurements determine the outputs", "statement": "After initializeIOMapping the output permutation consists exactly of the pairs (qubit, bit) of the measurements of the circuit (or is unchanged if there are none), and the garbage qubits are exactly the logical qubits that are no outputs.", "quantifier": "every consistent circuit, every previous output permutation", "why_tests_cant": "all orders and groupings of measurements together with all previous permutations", "anchors": ["src/ir/QuantumComputation.cpp:251-332"]}
{"id": "C84", "title": "Layout comments are read back", "statement": "The comments `// i ...` and `// o ...` written by dumpOpenQASM are recognised by the scanner and read back as the initial layout and output permutation of the circuit, with the physical qubits numbered consecutively; other comments have no effect.", "quantifier": "every layout and output permutation, every number of qubits", "why_tests_cant": "all permutations and sizes, all comments", "anchors": ["src/ir/QuantumComputation.cpp:633-663", "src/qasm3/Scanner.cpp:57-90", "src/qasm3/Parser.cpp:901-911", "src/qasm3/Importer.cpp:301-311, 401-416"]}
{"id": "C85", "title": "Reducing ancillary qubits clears their columns", "statement": "For every matrix diagram and every list of ancillary flags, reduceAncillae returns the canonical diagram in which the entries whose column (row, if not regular) has a one at an ancillary qubit are zero and all other entries are unchanged, whether or not the diagram has nodes for these qubits; createInitialMatrix is the identity so reduced, and reducing twice changes nothing.", "quantifier": "every canonical matrix diagram, every list of flags, both modes", "why_tests_cant": "all diagrams, numbers of qubits and sets of ancillary qubits", "anchors": ["src/dd/Package.cpp:1122-1172", "src/dd/Package.cpp:1267-1339"]}
{"id": "C86", "title": "Reducing garbage qubits keeps the probabilities of the others", "statement": "For every vector or matrix diagram, reduceGarbage returns the diagram whose entries are zero where a garbage qubit is one and otherwise sqrt of the sum of |.|^2 over all values of the garbage qubits; with normalised weights two states reduce to the same edge exactly when no measurement of the other qubits tells them apart.", "quantifier": "every canonical diagram, every list of flags, all modes", "why_tests_cant": "all diagrams, numbers of qubits and sets of garbage qubits", "anchors": ["src/dd/Package.cpp:1173-1266", "src/dd/Package.cpp:1340-1481", "include/mqt-core/dd/Package.hpp:850-938"]}
{"id": "C87", "title": "isCloseToIdentity recognises matrices close to the identity", "statement": "isCloseToIdentity answers true for the identity, up to a factor and with the columns of ancillary qubits cleared, and if it answers true then all entries between different values of the qubits that are not garbage are small and the diagonal entries are close to the first one (or to zero); with tolerance zero and no check for ones it decides exactly whether these entries vanish.", "quantifier": "every canonical matrix diagram, tolerance and list of garbage flags", "why_tests_cant": "all diagrams and real tolerances", "anchors": ["src/dd/Package.cpp:1042-1120"]}
{"id": "C88", "title": "Functionality and simulation respect ancillary and garbage qubits", "statement": "With ancillary and garbage flags, buildFunctionality and buildFunctionalityRecursive return the same diagram: zero in the columns with an ancillary one and the rows with a garbage one, elsewhere of the squared magnitude of the circuit's unitary summed over the garbage qubits (exactly its entries if there is no garbage). simulate gives each assignment of the remaining qubits its probability after the circuit, and the two agree on basis states.", "quantifier": "every circuit of unitary operations, every layout, output permutation and list of flags, every input state", "why_tests_cant": "all circuits, sizes, flags and states", "anchors": ["src/dd/FunctionalityConstruction.cpp:23-142", "src/dd/Simulation.cpp:213-244", "src/dd/Package.cpp:1122-1266"]}
{"id": "C89", "title": "Instantiating and inverting symbolic operations", "statement": "Constructing a symbolic operation and then putting in values gives, on the same qubits, the gate with the evaluated parameters up to the tolerance of the canonicalisation; instantiating in place and making an instantiated copy agree and leave no symbol; inverting the symbolic operation and then putting in values gives the inverse operator; equality of operations implies that they denote the same operator for all values.", "quantifier": "every gate type, parameter list of numbers and linear expressions, and assignment", "why_tests_cant": "all real parameters and assignments, all expressions", "anchors": ["src/ir/operations/SymbolicOperation.cpp:42-456", "include/mqt-core/ir/operations/SymbolicOperation.hpp:32-128", "src/ir/operations/StandardOperation.cpp:36-191"]}
{"id": "C90", "title": "Instantiating circuits", "statement": "A circuit built with the gate methods and then instantiated consists, in the order of the calls, of the requested gates with the evaluated parameters and is free of variables; the recorded variables are exactly those that occur, and instantiation removes those of the assignment; a variable without a value raises an error rather than being passed over.", "quantifier": "every sequence of gate calls and every assignment", "why_tests_cant": "all circuits, all real values", "anchors": ["src/ir/QuantumComputation.cpp:541-545, 1081-1115", "src/ir/QuantumComputation.cpp:1343-1528", "src/ir/operations/CompoundOperation.cpp:90-93"]}
{"id": "C91", "title": "Reordering operations keeps the circuit", "statement": "reorderOperations terminates and returns the same operations, with the operations on every qubit in their old order, so the circuit keeps its meaning; the result is a canonical form, the same for two circuits exactly when they differ by exchanges of neighbouring operations without a common qubit; an operation beyond the initial layout raises an exception.", "quantifier": "every circuit and initial layout", "why_tests_cant": "all circuits, sizes and interleavings", "anchors": ["src/ir/QuantumComputation.cpp:1117-1209"]}
{"id": "C92", "title": "isInverseOf on compound operations", "statement": "CompoundOperation::isInverseOf always answers; if it answers true the two operations undo each other on every state, and it answers true whenever the one is the reversed list of the inverses of the other up to exchanges of neighbouring operations without a common qubit.", "quantifier": "every pair of compound operations, nested and conditional ones included", "why_tests_cant": "all lists of operations, parameters and states", "anchors": ["src/ir/operations/CompoundOperation.cpp:131-152, 208-245", "src/ir/QuantumComputation.cpp:547-562, 1117-1209"]}
{"id": "C93", "title": "Depth of a circuit", "statement": "getDepth answers without accessing memory out of range; the number is the length of the longest chain of operations of which each shares a qubit with the next, and also the least number of layers in which the operations can be carried out in order; exchanging neighbouring operations without a common qubit does not change it.", "quantifier": "every circuit", "why_tests_cant": "all circuits, chains and schedules", "anchors": ["src/ir/QuantumComputation.cpp:238-249", "src/ir/operations/Operation.cpp:168-187", "src/ir/operations/CompoundOperation.cpp:174-179", "src/ir/operations/NonUnitaryOperation.cpp:225-230"]}
{"id": "C94", "title": "Dynamic circuits", "statement": "isDynamic accesses no memory out of range for any circuit built through the public functions and answers false exactly if the circuit, unfolded, consists of gates and measurements and no gate acts on a qubit after its measurement; then moving all measurements behind all gates gives the same distribution over outcomes and states.", "quantifier": "every circuit, nested compound operations included", "why_tests_cant": "all circuits, all states and measurement outcomes", "anchors": ["src/ir/QuantumComputation.cpp:1211-1255"]}
{"id": "C95", "title": "Last operations on qubits", "statement": "isLastOperationOnQubit answers true exactly if no later operation uses a qubit of the operation; such an operation can be moved to the end of the circuit without changing the distribution if it shares no classical bits with the later ones.", "quantifier": "every circuit and position", "why_tests_cant": "all circuits and states", "anchors": ["src/ir/QuantumComputation.cpp:901-928"]}
{"id": "C96", "title": "Circuits made of compound operations", "statement": "fromCompoundOperation always succeeds, its circuit has consistent bookkeeping, contains the operations in order and so acts like the compound operation, and has all the qubits and bits its operations refer to.", "quantifier": "every compound operation", "why_tests_cant": "all lists of operations and states", "anchors": ["src/ir/QuantumComputation.cpp:1257-1287"]}
{"id": "C97", "title": "Appended measurements", "statement": "appendMeasurementsAccordingToOutputPermutation appends a barrier and one measurement for each output; afterwards in every possible outcome each output bit shows the value of its qubit; initializeIOMapping recovers the outputs from the result; measureAll does the same with all qubits and a new register, and reaches no error.", "quantifier": "every circuit and every outcome", "why_tests_cant": "all circuits, layouts, states and outcomes", "anchors": ["src/ir/QuantumComputation.cpp:940-959, 1543-1566", "src/ir/QuantumComputation.cpp:251-310"]}
{"id": "C98", "title": "Appended operations refer to qubits and bits of the circuit", "statement": "In a circuit built by any sequence of calls that add registers, marks, gates, measurements, resets, barriers and classically controlled gates, all operations refer to existing qubits and bits only, also after stripping idle qubits; a gate is refused exactly if one of its qubits does not exist.", "quantifier": "every sequence of calls", "why_tests_cant": "all call sequences and indices", "anchors": ["src/ir/QuantumComputation.cpp:961-1012, 1301-1643"]}
{"id": "C99", "title": "Counting operations", "statement": "getNindividualOps is the number of operations that are not compound, and getNsingleQubitOps the number of gates on one qubit without controls, after unfolding compound operations.", "quantifier": "every circuit", "why_tests_cant": "all circuits and nestings", "anchors": ["src/ir/QuantumComputation.cpp:198-236"]}
{"id": "C100", "title": "Tokens of OpenQASM texts", "statement": "Whatever sequence of keywords, names, numbers, timing literals, hardware qubits, strings, operators and layout comments is written down, with any white space and comments between, the scanner returns exactly these tokens with their values, taking the longest operator, followed by Eof.", "quantifier": "every sequence of tokens and every way of writing it", "why_tests_cant": "all texts and spacings", "anchors": ["src/qasm3/Scanner.cpp:56-344", "src/qasm3/Scanner.cpp:346-655"]}
{"id": "C101", "title": "The scanner ends", "statement": "Every call of the scanner ends and uses up at least one character unless it returns Eof, so every text is scanned with at most one token per character and Eof at the end only.", "quantifier": "every text, well-formed or not", "why_tests_cant": "all texts", "anchors": ["src/qasm3/Scanner.cpp:56-103", "src/qasm3/Scanner.cpp:315-344", "src/qasm3/Scanner.cpp:408-643"]}
{"id": "C102", "title": "Random Clifford circuits are Clifford circuits", "statement": "createRandomCliffordCircuit returns a circuit whose operator maps Pauli operators to Pauli operators by conjugation; the k-th number drawn decides the k-th operation, which acts on one pair of neighbours, in the brick pattern of the layers.", "quantifier": "every positive number of qubits, every depth, every sequence of drawn numbers", "why_tests_cant": "all numbers of qubits, depths and draws; conjugation of all Pauli operators", "anchors": ["src/algorithms/RandomCliffordCircuit.cpp:24-204", "src/algorithms/RandomCliffordCircuit.cpp:207-234"]}
{"id": "C103", "title": "The Clifford groups are covered evenly", "statement": "The indices give every Clifford operator on one qubit (24) and on two qubits (11520) exactly once, and the numbers drawn give every operator equally often.", "quantifier": "every index, every pair of qubits, every circuit of Clifford gates on one qubit", "why_tests_cant": "operators are compared up to a factor, on all states", "anchors": ["src/algorithms/RandomCliffordCircuit.cpp:24-204", "src/algorithms/RandomCliffordCircuit.cpp:213-214"]}
{"id": "C104", "title": "Names of accepted OpenQASM statements are declared", "statement": "When the type checker accepts a statement, every name in it (apart from names in the indices of expressions and in the operands of gate calls, which it does not look at) is declared where it occurs, and behind it exactly the names declared so far are known; the parameters of a gate are known in its body only. The checker reports undeclared names instead of crashing.", "quantifier": "every statement with any nesting of blocks, gates and expressions, every state of the checker", "why_tests_cant": "all programs and all states of the shared type objects", "anchors": ["src/qasm3/passes/TypeCheckPass.cpp:33-193", "src/qasm3/passes/TypeCheckPass.cpp:266-399", "include/mqt-core/qasm3/passes/TypeCheckPass.hpp"]}
{"id": "C105", "title": "Types of constant expressions", "statement": "When an expression is accepted behind an accepted program and has a constant value, this value has the kind (unsigned, signed, floating-point, bool) of the type that the checker assigns, up to the implicit conversions; evaluation does not fail with a type error. No statement changes the kind of a variable.", "quantifier": "every program without repeated declarations, every expression", "why_tests_cant": "all programs, all expressions, all values of the constants", "anchors": ["src/qasm3/passes/TypeCheckPass.cpp:33-193", "src/qasm3/passes/TypeCheckPass.cpp:195-323", "src/qasm3/passes/ConstEvalPass.cpp:46-127"]}
{"id": "C106", "title": "Reading vectors and matrices out of diagrams", "statement": "getVector, getSparseVector, addToVector, getMatrix and getSparseMatrix return exactly the entries of the vector or matrix whose magnitude is at least the threshold; the remaining entries are zero or absent, and all arrays have the dimension of the space. Pruning whole subdiagrams by the magnitude of a partial product never drops an entry.", "quantifier": "every canonical diagram over any number of qubits, every threshold", "why_tests_cant": "all diagrams, all thresholds, all skipped levels", "anchors": ["src/dd/Edge.cpp:197-226", "src/dd/Edge.cpp:252-290", "src/dd/Edge.cpp:382-432", "src/dd/Edge.cpp:465-506"]}
{"id": "C107", "title": "Probabilities of density matrices", "statement": "getSparseProbabilityVector and getSparseProbabilityVectorStrKeys return exactly the diagonal entries of a density matrix that are positive and at least the threshold, each under its index or under the binary numeral of its index; multiplying real parts of weights only loses nothing.", "quantifier": "every canonical diagram of a matrix with non-negative 2x2 minors, every threshold", "why_tests_cant": "all density matrices, all thresholds, all skipped levels", "anchors": ["src/dd/Edge.cpp:512-589", "include/mqt-core/dd/DDDefinitions.hpp:101-110"]}
{"id": "C108", "title": "Fractions found for printing", "statement": "getLowestFraction(x, maxDenominator) ends for x below about 2^63/maxDenominator and returns a fraction in lowest terms with a denominator of at most maxDenominator. If any such fraction is at most eps away from x, then the returned one is too, and it has the smallest denominator and numerator of these. Numbers that count as zero give 0/1, and a fraction in lowest terms is found again from every number within eps of it. It is the closest fraction to x, as documented.", "quantifier": "all rational numbers x >= 0, all tolerances and all maximal denominators", "why_tests_cant": "The search walks through a tree of all fractions; tests look at a handful of values with the default tolerance.", "anchors": ["src/dd/ComplexValue.cpp:70-102", "include/mqt-core/dd/ComplexValue.hpp:102-110"]}
{"id": "C109", "title": "Printed numbers can be read back", "statement": "printFormatted and toString print a complex number as a text (fractions, multiples of the root of two or of pi, or decimals, and the short form with (1+i) or (1-i)) which, read as an arithmetic expression, stands for a number whose parts differ from the original by at most the tolerance times pi plus the tolerance. A number is printed as zero only if it counts as zero, and printing ends.", "quantifier": "all complex numbers with rational parts, all tolerances", "why_tests_cant": "Tests compare a few outputs with expected strings; whether an arbitrary output means the right number needs a reader of the printed expressions.", "anchors": ["src/dd/ComplexValue.cpp:104-228"]}
{"id": "C110", "title": "Codes and names of operation types", "statement": "Operation types have different codes in eight bits. Flipping the inverse flag of a code gives either no type or the type of the inverse gate, and a type exactly for the gates where the program does so. The diagonal flag is set exactly for the gates whose matrix is diagonal for all parameters. Every type is found again by its name, names and short names are unambiguous, a leading c does not change the type, every accepted string is a usual name of its type, and short names have at most three characters, as documented.", "quantifier": "all operation types, all gate parameters, all strings", "why_tests_cant": "The flags are read by bit operations in the optimiser and the diagram package; tests do not relate them to the matrices, which depend on real parameters.", "anchors": ["include/mqt-core/ir/operations/OpType.inc:10-71", "include/mqt-core/ir/operations/OpType.hpp:20-46", "src/ir/operations/OpType.cpp:19-146", "src/dd/Operations.cpp:82-100"]}
{"id": "C111", "title": "Fidelity of measurement outcomes", "statement": "fidelityOfMeasurementOutcomes returns the sum of |a_i| sqrt(p_i) over all basis states i of the state, where outcomes that are not listed have probability zero. For a normalised state and a distribution it is at most one, and one exactly if the distribution is that of the state. With a permutation from physical to logical qubits, basis state i is compared with the outcome spelled by its logical qubits.", "quantifier": "all canonical vector diagrams on any number of qubits, all maps of probabilities, all permutations", "why_tests_cant": "The only test uses a GHZ state without a permutation, which looks the same from both ends.", "anchors": ["src/dd/Package.cpp:936-944", "src/dd/Package.cpp:987-1022", "include/mqt-core/dd/Package.hpp:1284-1302"]}
{"id": "C112", "title": "Polar labels can be read back", "statement": "conditionalFormat with formatAsPolar writes a label (0, 1, i, -i, -1, a magnitude with or without a sign, an exponential, or both) which, read as a magnitude and an angle, stands for a magnitude that differs from the original by at most the tolerance times pi and, unless that magnitude is read as zero, for an angle that differs from the original by at most the tolerance times pi squared and whole turns. Printing ends for all phases between minus pi and pi and all magnitudes below about 2^52.", "quantifier": "all rational magnitudes and phases, all tolerances", "why_tests_cant": "Tests of the export only look at a few fixed labels; whether an arbitrary label means the right number needs a reader of labels.", "anchors": ["src/dd/Export.cpp:48-152"]}
{"id": "C113", "title": "Measuring a qubit of a density matrix", "statement": "measureOneCollapsing on a density matrix reports one exactly for draws above the probability of zero (the trace of the matrix projected on zero), so that uniform draws give both outcomes their Born probabilities. The new matrix is the projected one divided by the probability of the outcome, in canonical form; pure states stay pure.", "quantifier": "all canonical density-matrix diagrams on any number of qubits, all qubits, all draws", "why_tests_cant": "The only test measures one state with random draws and has nothing mixed left over; probabilities are not observed.", "anchors": ["src/dd/Package.cpp:786-822", "include/mqt-core/dd/Package.hpp:474-512", "include/mqt-core/dd/Package.hpp:1534-1651"]}
{"id": "C114", "title": "Operations of acousto-optic deflectors", "statement": "invert turns an activation into a deactivation and conversely, exchanges the start and end of every single move, and is its own inverse; distances stay the same and the maximal distance is the largest of them, zero if there are none. The text written by dumpOpenQASM, also after inversions, reads back as the type, the single operations and the targets. Operations that compare equal have the same effect.", "quantifier": "all types, target lists, single operations with rational coordinates, numbers of inversions and register names", "why_tests_cant": "One test prints a few operations with small coordinates and compares them with a fixed text; inverted operations are only asked for their type.", "anchors": ["src/ir/operations/AodOperation.cpp:33-163", "include/mqt-core/ir/operations/AodOperation.hpp:29-90", "src/ir/operations/Operation.cpp:116-166", "src/ir/operations/Operation.cpp:194-196"]}
{"id": "C115", "title": "Iterating over ZX diagrams", "statement": "The loop over the vertices of a ZX diagram ends and visits exactly the vertices that are not deleted, each once and in order. The loop over the edges ends and visits every edge between remaining vertices exactly once, from its smaller vertex, in the order of these, and never a stale half edge of a deleted vertex. The increment operators have the usual values.", "quantifier": "all vectors of vertices with any deletions, all vectors of half edges, hence all diagrams", "why_tests_cant": "Tests only loop over the vertices of two small diagrams; the loop over edges is used by the simplifications, whose tests do not notice edges that are missed or repeated.", "anchors": ["src/zx/Utils.cpp:19-147", "include/mqt-core/zx/Utils.hpp:61-189", "src/zx/ZXDiagram.cpp:180-191"]}
{"id": "C116", "title": "Text of neutral-atom computations", "statement": "The text of a neutral-atom computation declares every atom with its initial location, in ascending order of the locations, and lists the operations in their order, each with its locations, angles, and atoms or zones, so that a reader of the text recovers all of them up to the printed decimals (three for locations, five for angles).", "quantifier": "all sets of atoms and initial locations, all sequences of load, store, move, local and global operations on any number of atoms with rational coordinates and angles", "why_tests_cant": "Tests compare a few fixed texts in which all locations are different and all coordinates short.", "anchors": ["src/na/NAComputation.cpp:56-69", "src/na/operations/LoadOp.cpp:18-38", "src/na/operations/StoreOp.cpp:18-38", "src/na/operations/MoveOp.cpp:18-31", "src/na/operations/LocalOp.cpp:24-51", "src/na/operations/GlobalOp.cpp:24-50", "include/mqt-core/na/entities/Location.hpp:60-95"]}
{"id": "C117", "title": "Rounding of phases in ZX diagrams", "statement": "isPauli, isClifford and isProperClifford recognise exactly the constant multiples of pi, the multiples of pi/2 and the odd ones among these. approximateCliffords changes nothing but constant phases, each by less than the tolerance and to a multiple of pi/2; afterwards every constant phase that was within the tolerance of a multiple of pi/2, on the circle, is the nearest such multiple.", "quantifier": "all diagrams, all tolerances, all exact phases", "why_tests_cant": "The tests round one phase near 0 directly and others only through the simplification; phases near minus pi and large tolerances are not tried.", "anchors": ["src/zx/Utils.cpp:149-175", "src/zx/ZXDiagram.cpp:344-350", "include/mqt-core/zx/Rational.hpp:133-163"]}
