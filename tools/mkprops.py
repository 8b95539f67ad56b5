#!/usr/bin/env python3
"""Writes /verif/properties.jsonl from the table below (one JSON object per line)."""
import json, os
P = []
def p(title, statement, quantifier, why, anchors):
    P.append(dict(id="C%02d" % (len(P) + 1), title=title, statement=statement,
                  quantifier=quantifier, why_tests_cant=why, anchors=anchors))

# ---- decision diagram package: storage, uniqueness, garbage collection ----
p("Memory manager never hands out a live entry",
  "MemoryManager::get() never returns an address that was handed out earlier and has not been returned since; the statistics (used, available, allocated) always agree with the set of outstanding entries.",
  "every chunk size > 0 and growth history, every interleaving of get() and returnEntry() of outstanding entries",
  "double hand-out depends on the whole history of gets, returns and chunk growth; tests only run a few short histories",
  ["src/dd/MemoryManager.cpp", "include/mqt-core/dd/MemoryManager.hpp: MemoryManager::get, returnEntry, allocateNewChunk", "include/mqt-core/dd/statistics/MemoryManagerStatistics.hpp"])
p("Entries handed out after a reset start with reference count zero",
  "After MemoryManager::reset()/Package::reset(), every node handed out for a new diagram carries reference count 0, so that incRef on a new root protects everything below it.",
  "every history of allocation, incRef, reset, reallocation",
  "needs a particular leftover reference count in a recycled slot combined with a particular later sharing pattern",
  ["src/dd/MemoryManager.cpp: MemoryManager::reset", "include/mqt-core/dd/Package.hpp: Package::reset, makeDDNode", "include/mqt-core/dd/UniqueTable.hpp: incRef"])
p("Unique table: one node per content",
  "UniqueTable::lookup returns an equal stored node if there is one, never creates a second node equal to a stored one, and returns a node equal to the one passed in; a discarded duplicate is handed back to the memory manager exactly once.",
  "every hash function, every number of buckets and every sequence of lookups, reference updates and garbage collections",
  "uniqueness must hold for every collision pattern and for all histories; a hash collision plus GC ordering is hard to hit by tests",
  ["include/mqt-core/dd/UniqueTable.hpp: lookup, searchTable, garbageCollect", "include/mqt-core/dd/Node.hpp: operator=="])
p("Reference counting protects everything reachable from a held edge",
  "As long as a client has called incRef more often than decRef on a root edge, garbage collection (forced or not) never frees or recycles any node reachable from this root, and the denotation of the root is unchanged.",
  "every history of node creation, incRef, decRef and garbage collection on diagrams of any depth and sharing",
  "use-after-free would need a specific interleaving of sharing, counting and collection",
  ["include/mqt-core/dd/UniqueTable.hpp: incRef, decRef, garbageCollect", "include/mqt-core/dd/Package.hpp: Package::incRef, decRef, garbageCollect"])
p("Garbage collection is precise for balanced histories",
  "A node survives a forced collection if and only if it is reachable from an edge currently held (more incRef than decRef calls); in particular, when every incRef has been matched by a decRef all nodes are collected.",
  "every history of node creation, incRef, decRef",
  "leaks only show up as slow growth over long histories",
  ["include/mqt-core/dd/UniqueTable.hpp: incRef, decRef, garbageCollect"])
p("Compute tables return only results of the same operation on the same operands",
  "ComputeTable/UnaryComputeTable::lookup(operands) either misses or returns a result that was inserted for equal operands since the last clear().",
  "every hash function, every table size and every sequence of insert/lookup/clear",
  "wrong hits need hash collisions that tests do not produce",
  ["include/mqt-core/dd/ComputeTable.hpp", "include/mqt-core/dd/UnaryComputeTable.hpp", "include/mqt-core/dd/DensityNoiseTable.hpp", "include/mqt-core/dd/StochasticNoiseOperationTable.hpp"])
p("No cached result survives the collection of its operands",
  "After Package::garbageCollect no compute table still holds an entry keyed by the address of a node that has been freed, so that a later diagram reusing this address never receives a stale result.",
  "every history of operations, collections and re-allocations",
  "the failure needs a collected operand whose address is re-used by a different diagram for the same operation",
  ["include/mqt-core/dd/Package.hpp: garbageCollect, clearComputeTables, conjugateVector, vectorAddMagnitudes, matrixAddMagnitudes"])
p("Real-number table: values within tolerance are shared",
  "RealNumberUniqueTable::lookup(v) returns an entry within the tolerance of v, and looking up the same value again returns the same entry, for every sequence of lookups.",
  "every sequence of looked-up values, every tolerance",
  "depends on which side of a bucket border earlier values were inserted",
  ["src/dd/RealNumberUniqueTable.cpp: lookupNonNegative, findOrInsert, insert, insertFront, insertBack"])
p("Signed-pointer encoding of real numbers is lossless",
  "Storing the sign of a real number in the lowest pointer bit and conjugating complex numbers by flipping it is lossless: value, conjugation and negation behave as for mathematical numbers, conjugation is an involution, and immortal zero/one are never sign-tagged wrongly.",
  "every aligned address and every stored non-negative value",
  "bit tricks must hold for all addresses",
  ["src/dd/RealNumber.cpp", "include/mqt-core/dd/RealNumber.hpp", "src/dd/ComplexNumbers.cpp: conj, neg"])
p("Density-matrix edge flags round trip",
  "Applying the temporary density-matrix modifications to two edges and reverting them (dEdge::applyDmChangesToEdges / revertDmChangesToEdges) restores both edges and their nodes exactly, for each combination of flags.",
  "every pair of density-matrix edges (equal or not), every flag combination",
  "2^6 flag combinations times aliasing of the two edges",
  ["include/mqt-core/dd/Edge.hpp: applyDmChangesToEdges, revertDmChangesToEdges", "src/dd/Node.cpp: dNode"])

# ---- decision diagram package: algebra ----
p("Normalisation preserves the represented vector or matrix",
  "Creating a node through makeDDNode (normalisation, zero-node and identity-node elision) yields an edge that represents exactly the vector/matrix given by the successor edges.",
  "every choice of successor edges and weights, every level",
  "depends on all weight patterns (zero weights, ties in magnitude, arbitrary phases)",
  ["src/dd/Node.cpp / include/mqt-core/dd/Edge.hpp: vNode/mNode normalize", "include/mqt-core/dd/Package.hpp: makeDDNode"])
p("Decision diagrams are canonical",
  "Two (normalised, reduced) vector or matrix decision diagrams built by makeDDNode represent the same vector/matrix over n qubits if and only if they are the same edge; equality of edges is therefore a sound and complete equivalence check.",
  "every pair of diagrams over any number of qubits (exact arithmetic)",
  "completeness quantifies over all diagrams",
  ["include/mqt-core/dd/Package.hpp: makeDDNode", "src/dd/Edge.cpp: Edge::normalize"])
p("makeGateDD denotes the controlled gate",
  "makeGateDD(U, controls, target) represents the operator that applies U to the target if and only if all positive controls are 1 and all negative controls are 0, and is the identity otherwise and on all other qubits.",
  "every 2x2 matrix, every target and every set of positive/negative controls above and below the target",
  "controls may be anywhere relative to the target; number of combinations is unbounded",
  ["include/mqt-core/dd/Package.hpp: makeGateDD"])
p("makeTwoQubitGateDD denotes the controlled two-qubit gate",
  "makeTwoQubitGateDD(U, controls, t0, t1) represents the operator that applies the 4x4 matrix U (t0 most significant) when the controls are satisfied and the identity otherwise.",
  "every 4x4 matrix, every ordered pair of distinct targets and every set of controls above, between and below",
  "as before, control/target placement is unbounded",
  ["include/mqt-core/dd/Package.hpp: makeTwoQubitGateDD"])
p("Decision-diagram arithmetic is exact linear algebra",
  "add, multiply (matrix-vector and matrix-matrix) and conjugateTranspose on decision diagrams with skipped identity levels represent the sum, product and adjoint of the represented operators.",
  "every pair of diagrams over any number of qubits, including terminal edges and skipped levels",
  "skipped levels and zero edges in every position",
  ["include/mqt-core/dd/Package.hpp: add2, multiply2, conjugateTranspose"])
p("Inner product and fidelity",
  "innerProduct(x,y) is the sum over all basis states of conj(x_i)*y_i; fidelity is its squared magnitude; a state has inner product 1 with itself when normalised.",
  "every pair of vector diagrams with the same number of levels",
  "quantifies over all states",
  ["include/mqt-core/dd/Package.hpp: innerProduct, fidelity"])
p("Basis, zero, GHZ and W state constructors",
  "makeZeroState(n), makeBasisState(n, bits), makeGHZState(n) and makeWState(n) represent exactly the named states for each number of qubits.",
  "every number of qubits n and every bit string",
  "n is unbounded",
  ["src/dd/Package.cpp / include/mqt-core/dd/Package.hpp: makeZeroState, makeBasisState, makeGHZState, makeWState"])
p("Reading amplitudes and matrix entries agrees with the represented object",
  "getValueByIndex/getValueByPath return the amplitude/matrix entry of the represented object for every in-range index.",
  "every diagram and every index",
  "includes entries below skipped identity levels",
  ["src/dd/Edge.cpp: getValueByPath, getValueByIndex"])
p("Kronecker product",
  "kronecker(x, y, n) represents the tensor product of x with the n-qubit operator y, independently of which products were computed before.",
  "every pair of operands, every declared width and every history of earlier calls",
  "the result must not depend on the cache history",
  ["include/mqt-core/dd/Package.hpp: kronecker, kronecker2"])
p("Partial trace is defined for all operators",
  "partialTrace(a, eliminate) is well defined (no out-of-range level) and represents the (normalised) partial trace for every operator, also when levels are skipped.",
  "every operator over n qubits and every set of eliminated qubits",
  "needs a skipped level among the eliminated ones",
  ["include/mqt-core/dd/Package.hpp: partialTrace, trace"])
p("Transferring a diagram between packages preserves it",
  "Package::transfer(e) returns an edge representing the same vector/matrix for each valid edge e.",
  "every edge including those with terminal successors",
  "depends on the shape of the diagram",
  ["include/mqt-core/dd/Package.hpp: transfer"])

# ---- gates and the circuit IR ----
p("All gate matrices are unitary",
  "For all real parameters each gate matrix produced by the package (single- and two-qubit gates) is unitary.",
  "every real parameter value",
  "continuous parameters",
  ["include/mqt-core/dd/GateMatrixDefinitions.hpp", "src/dd/GateMatrixDefinitions.cpp"])
p("Inverting an operation yields the inverse operator",
  "For every supported gate, parameters, targets and controls, StandardOperation::invert() changes the operation into one whose operator is the inverse, and getInverseDD agrees with it; operations without inverse are rejected.",
  "every gate type, all real parameters, all control sets",
  "continuous parameters and unbounded control sets",
  ["src/ir/operations/StandardOperation.cpp: invert", "include/mqt-core/dd/Operations.hpp: getStandardOperationDD, getInverseDD"])
p("Inverting a circuit",
  "QuantumComputation::invert() yields a circuit that undoes the original circuit exactly, including its global phase, with input and output permutation exchanged.",
  "every circuit of invertible operations, of any length and nesting",
  "unbounded circuits",
  ["include/mqt-core/ir/QuantumComputation.hpp: invert", "include/mqt-core/ir/operations/CompoundOperation.hpp: invert"])
p("Parameter canonicalisation preserves the operator",
  "Constructing a P, U2 or U operation with special angles (which rewrites it to I, Z, S, T, H, V, RX, RY, ... ) preserves the operator up to global phase - exactly where the library claims so.",
  "all real parameters",
  "continuous parameters",
  ["src/ir/operations/StandardOperation.cpp: parseU3, parseU2, parseU1, checkUgate"])
p("Operation equality is sound",
  "If op1.equals(op2) then both operations denote the same operator under the two permutations.",
  "every pair of operations",
  "quantifies over all pairs of operations",
  ["src/ir/operations/Operation.cpp: Operation::equals", "include/mqt-core/ir/operations/SymbolicOperation.hpp: equals"])
p("Commutation check is sound",
  "If commutesAtQubit(op, q) holds for all qubits shared by two operations then the two operators commute.",
  "every pair of operations on any number of qubits, all parameters",
  "quantifies over all operator pairs",
  ["src/ir/operations/StandardOperation.cpp: commutesAtQubit"])
p("Copies are faithful",
  "Copying (clone, copy construction, assignment) an operation yields an operation that behaves identically, including classically controlled ones with any comparison.",
  "every operation, every classical state",
  "quantifies over all comparison kinds and classical states",
  ["include/mqt-core/ir/operations/ClassicControlledOperation.hpp: copy constructor, operator=, clone"])
p("Comparison kinds and their inversion",
  "getInvertedComparisonKind yields the exact negation, and a classically controlled operation executes if and only if the little-endian value of its register satisfies the comparison.",
  "every register width, every classical state, all six comparison kinds",
  "quantifies over all register values",
  ["include/mqt-core/ir/operations/ClassicControlledOperation.hpp", "src/dd/Operations.cpp: applyClassicControlledOperation"])
p("Symbolic expression arithmetic is exact",
  "Sums, differences, products with constants and quotients of symbolic expressions evaluate, under every assignment, to the corresponding combination of the operands' values.",
  "every pair of expressions and every variable assignment",
  "quantifies over all expressions and assignments",
  ["include/mqt-core/ir/operations/Expression.hpp"])
p("Registers and permutations",
  "Register global/local index conversion round-trips; Permutation::apply maps controls and targets consistently (applying a permutation and then its inverse is the identity).",
  "every register layout, every permutation",
  "quantifies over all layouts",
  ["include/mqt-core/ir/Register.hpp", "include/mqt-core/ir/Permutation.hpp", "src/ir/Permutation.cpp"])

# ---- circuit optimiser ----
p("Flattening compound operations",
  "flattenOperations leaves no compound operation and preserves the sequence of elementary operations exactly.",
  "every circuit of any nesting depth",
  "unbounded nesting",
  ["src/circuit_optimizer/CircuitOptimizer.cpp: flattenOperations"])
p("SWAP reconstruction and CNOT cancellation preserve the circuit",
  "swapReconstruction and cancelCNOTs preserve the unitary of each circuit made of CNOT, SWAP and arbitrary other unitary operations.",
  "every circuit",
  "depends on arbitrary circuit context",
  ["src/circuit_optimizer/CircuitOptimizer.cpp: swapReconstruction, cancelCNOTs"])
p("SWAP decomposition preserves the circuit",
  "decomposeSWAP replaces each SWAP by CNOTs (and H for directed architectures) without changing the circuit's unitary.",
  "every circuit, including controlled SWAPs",
  "any control set",
  ["src/circuit_optimizer/CircuitOptimizer.cpp: decomposeSWAP"])
p("MCX to MCZ replacement preserves the circuit",
  "replaceMCXWithMCZ preserves the unitary of the circuit.",
  "every circuit, every number of controls of either polarity",
  "unbounded controls",
  ["src/circuit_optimizer/CircuitOptimizer.cpp: replaceMCXWithMCZ"])
p("Permutation elision preserves the circuit",
  "elidePermutations removes SWAP gates and relabels all later operations so that circuit plus output permutation still denote the same operator.",
  "every circuit of (possibly nested) operations",
  "any number and nesting of SWAPs",
  ["src/circuit_optimizer/CircuitOptimizer.cpp: elidePermutations"])
p("Single-qubit gate fusion preserves the circuit",
  "singleQubitGateFusion preserves the unitary of each circuit.",
  "every circuit",
  "depends on arbitrary circuit context",
  ["src/circuit_optimizer/CircuitOptimizer.cpp: singleQubitGateFusion"])
p("Removing diagonal gates before measurement preserves the outcome distribution",
  "removeDiagonalGatesBeforeMeasure does not change the joint distribution of measurement outcomes and never touches memory out of range.",
  "every circuit with final measurements",
  "depends on arbitrary circuit context",
  ["src/circuit_optimizer/CircuitOptimizer.cpp: removeDiagonalGatesBeforeMeasure, removeDiagonalGate"])
p("Removing final measurements keeps all other operations",
  "removeFinalMeasurements removes only measurements (and barriers) that nothing depends on.",
  "every circuit, including compound and classically controlled operations",
  "depends on arbitrary circuit context",
  ["src/circuit_optimizer/CircuitOptimizer.cpp: removeFinalMeasurements, removeFinalMeasurement"])
p("Deferring measurements preserves the outcome distribution",
  "deferMeasurements moves all measurements to the end, turns classical into quantum control and preserves the joint distribution of classical outcomes.",
  "every dynamic circuit accepted by the pass",
  "depends on arbitrary circuit context",
  ["src/circuit_optimizer/CircuitOptimizer.cpp: deferMeasurements"])
p("Eliminating resets preserves the outcome distribution",
  "eliminateResets replaces each reset by the use of a fresh qubit and remaps all later operations and measurements consistently.",
  "every dynamic circuit accepted by the pass",
  "depends on arbitrary circuit context",
  ["src/circuit_optimizer/CircuitOptimizer.cpp: eliminateResets"])
p("Block collection preserves the circuit",
  "collectBlocks groups operations into blocks of bounded width without changing the unitary of the circuit.",
  "every circuit and every block size",
  "depends on arbitrary circuit context",
  ["src/circuit_optimizer/CircuitOptimizer.cpp: collectBlocks, DSU"])
p("Backpropagated output permutation is complete",
  "backpropagateOutputPermutation yields an initial layout that assigns each qubit exactly once and is consistent with the output permutation through all SWAPs.",
  "every circuit and every partial output permutation",
  "any number of SWAPs and missing entries",
  ["src/circuit_optimizer/CircuitOptimizer.cpp: backpropagateOutputPermutation"])

# ---- simulation, functionality construction, sampling, noise ----
p("Recursive functionality construction equals sequential construction",
  "buildFunctionalityRecursive(qc) returns the same operator as buildFunctionality(qc).",
  "every circuit of any length",
  "length parity/alignment of the divide-and-conquer tree",
  ["src/dd/FunctionalityConstruction.cpp"])
p("Functionality agrees with simulation",
  "buildFunctionality(qc) applied to the input state equals simulate(qc, input), including global phase and permutations.",
  "every unitary circuit, every input state",
  "unbounded circuits",
  ["src/dd/FunctionalityConstruction.cpp", "src/dd/Simulation.cpp: simulate"])
p("changePermutation realises the target permutation",
  "changePermutation(e, from, to) permutes the state so that every physical qubit ends on the level requested by 'to' and updates 'from' accordingly.",
  "every pair of permutations",
  "n! permutations",
  ["include/mqt-core/dd/Operations.hpp: changePermutation"])
p("Sampling reports what the circuit measures",
  "sample(qc, shots) returns classical bit strings distributed as prescribed by the circuit's measurement operations, in program order.",
  "every circuit with measurements anywhere",
  "distribution over all circuits; needs repeated measurements, compound measurements or output permutations",
  ["src/dd/Simulation.cpp: sample"])
p("Measurement collapse",
  "measureOneCollapsing returns each outcome with the Born probability and leaves the renormalised projected state; probabilities of both outcomes add up to the squared norm.",
  "every state, every qubit",
  "continuous amplitudes",
  ["src/dd/Package.cpp / Package.hpp: determineMeasurementProbabilities, performCollapsingMeasurement, measureOneCollapsing, measureAll"])
p("Stochastic noise operators form a channel",
  "For all noise probabilities and gate factors the Kraus operators used by StochasticNoiseFunctionality for one and for several qubits are complete (sum of K^dagger K is the identity).",
  "all probabilities in [0,1] and factors",
  "continuous parameters",
  ["src/dd/NoiseFunctionality.cpp: StochasticNoiseFunctionality"])
p("Deterministic noise implements the same channels as stochastic noise",
  "DeterministicNoiseFunctionality's phase-flip, amplitude-damping and depolarising maps on the 2x2 sub-blocks equal the expectation of the corresponding stochastic operations and preserve the trace.",
  "all probabilities, all density matrices",
  "continuous parameters",
  ["src/dd/NoiseFunctionality.cpp: DeterministicNoiseFunctionality"])

# ---- data structures ----
p("Directed graph bookkeeping",
  "DirectedGraph reports vertex/edge counts, in-/out-degrees and adjacency consistently with the set of inserted edges; duplicate vertices are rejected.",
  "every sequence of addVertex/addEdge",
  "unbounded histories",
  ["include/mqt-core/datastructures/DirectedGraph.hpp"])
p("Acyclic graph stays acyclic and answers reachability",
  "DirectedAcyclicGraph::addEdge rejects each edge that would close a cycle, isReachable is the reflexive-transitive closure of the edges, and orderTopologically lists each vertex once with all edges pointing forward.",
  "every sequence of addVertex/addEdge",
  "needs two longer paths joined by one edge",
  ["include/mqt-core/datastructures/DirectedAcyclicGraph.hpp"])
p("Disjoint sets",
  "DisjointSet::findSet identifies two elements if and only if they are connected by the unions performed so far.",
  "every sequence of unionSet/findSet over the given elements",
  "unbounded histories with path compression and union by rank",
  ["include/mqt-core/datastructures/DisjointSet.hpp"])
p("Undirected graph and symmetric matrix",
  "SymmetricMatrix and UndirectedGraph treat (u,v) and (v,u) alike; counts, degrees, neighbourhoods and adjacency agree with the inserted edges.",
  "every sequence of insertions",
  "unbounded histories",
  ["include/mqt-core/datastructures/SymmetricMatrix.hpp", "include/mqt-core/datastructures/UndirectedGraph.hpp"])
p("Layer: executable set is always exact",
  "A vertex is in the executable set of a Layer if and only if it is executable under the current execution state, and no schedule executes operations of the circuit out of dependency order.",
  "every schedule of execute() calls on every dependency graph",
  "all schedules",
  ["src/datastructures/Layer.cpp", "include/mqt-core/datastructures/Layer.hpp"])

# ---- ZX calculus ----
p("PiRational arithmetic is arithmetic modulo 2 pi",
  "All PiRational operations keep the value in (-1,1] and equal the exact rational operation modulo 2.",
  "all rationals",
  "unbounded numerators and denominators",
  ["include/mqt-core/zx/Rational.hpp", "src/zx/Rational.cpp"])
p("ZX diagram bookkeeping",
  "Vertex and edge counters, vertex re-use and half-edge symmetry stay consistent under all diagram updates.",
  "every sequence of diagram updates",
  "unbounded histories",
  ["src/zx/ZXDiagram.cpp", "include/mqt-core/zx/ZXDiagram.hpp"])
p("Each ZX rewrite rule preserves the diagram's meaning",
  "Identity removal, spider fusion, local complementation, Pauli pivoting, boundary pivoting and gadget pivoting/fusion change the linear map represented by a diagram at most by a non-zero scalar.",
  "every diagram in which the rule's check succeeds",
  "diagrams of unbounded size and connectivity",
  ["src/zx/Rules.cpp", "src/zx/ZXDiagram.cpp: addEdgeParallelAware"])
p("ZX simplification preserves the diagram's meaning",
  "interiorCliffordSimp, cliffordSimp and fullReduce preserve the represented linear map up to a non-zero scalar and terminate.",
  "every diagram obtained from a circuit",
  "unbounded diagrams and rewrite sequences",
  ["src/zx/Simplify.cpp", "include/mqt-core/zx/Simplify.hpp"])
p("ZX construction denotes the circuit",
  "FunctionalityConstruction::buildFunctionality yields a diagram that represents the circuit's unitary up to a non-zero scalar whenever transformableToZX(qc) holds.",
  "every circuit accepted by transformableToZX",
  "unbounded circuits",
  ["src/zx/FunctionalityConstruction.cpp"])
p("ZX composition, adjoint and identity test",
  "concat composes the represented maps, adjoint inverts unitaries (including global phases), and isIdentity() holds only for diagrams representing the identity.",
  "every pair of diagrams",
  "unbounded diagrams",
  ["src/zx/ZXDiagram.cpp: concat, invert, adjoint, isIdentity"])

# ---- OpenQASM ----
p("Integer literals are read with their mathematical value",
  "Binary, octal, decimal and hexadecimal integer literals (any letter case, with digit separators) are scanned to their value modulo 2^64.",
  "every literal",
  "unbounded length and all digit combinations",
  ["src/qasm3/Scanner.cpp: consumeNumberLiteral, parseIntegerLiteral"])
p("Expression parsing respects precedence and associativity",
  "Parsing an arithmetic expression yields the tree prescribed by the usual operator precedence.",
  "every expression",
  "unbounded expressions",
  ["src/qasm3/Parser.cpp: parseExpression, comparison, term, factor, exponentiation", "src/qasm3/Scanner.cpp: next"])
p("Constant evaluation is exact or rejected",
  "Constant folding of integer expressions returns the exact value (modulo the type width) or reports an error; it never crashes.",
  "every expression over integer constants",
  "all operand values",
  ["src/qasm3/passes/ConstEvalPass.cpp"])
p("Nested scopes",
  "A name resolves to the innermost binding visible at this point; leaving a scope restores the outer bindings exactly.",
  "every sequence of scope operations",
  "unbounded nesting",
  ["include/mqt-core/qasm3/NestedEnvironment.hpp"])
p("If/else translation executes exactly the right branch",
  "The translation of an if/else statement executes the then-block if the condition holds and the else-block otherwise, for each way of writing the comparison.",
  "every condition, every register content",
  "all register values and operand orders",
  ["src/qasm3/Importer.cpp: visitIfStatement, translateCondition"])
p("Gate modifiers and broadcasting",
  "ctrl/negctrl/inv modifiers and register broadcasting produce exactly the operations prescribed by the language (one operation per register index, inverted body in reverse order, all controls attached).",
  "every gate call",
  "unbounded register widths, nesting and modifier lists",
  ["src/qasm3/Importer.cpp: evaluateGateCall, applyQuantumOperation"])

p("Gate matrices are the textbook ones",
  "The matrix stored for each gate type is the one its name stands for: Pauli matrices, rotations exp(-i t P/2) about Pauli strings, square roots of Z, X and S, permutation gates as compositions of CX, SWAP and X, iSWAP, ECR and the XY interactions by their published decompositions, and all single-qubit gates as special cases of U.",
  "every gate type, every real angle",
  "real-valued angles",
  ["src/dd/GateMatrixDefinitions.cpp: opToSingleQubitGateMatrix, opToTwoQubitGateMatrix"])

# ---- Algorithms ----
p("GHZ circuits prepare the GHZ state",
  "createGHZState(n) applied to the all-zero state gives (|0...0> + |1...1>)/sqrt 2 exactly.",
  "every number of qubits n > 0",
  "unbounded number of qubits; tests compare sizes up to a small bound",
  ["src/algorithms/GHZState.cpp: createGHZState"])
p("W circuits prepare the W state",
  "createWState(n) applied to the all-zero state gives the equal superposition of all basis states with one qubit set, amplitude 1/sqrt n.",
  "every number of qubits n > 0",
  "unbounded number of qubits",
  ["src/algorithms/WState.cpp: fGate, createWState"])
p("The QFT circuit is the discrete Fourier transform",
  "createQFT(n, false) is the discrete Fourier transform of order 2^n on every state (qubit 0 most significant); createQFT(n, true) yields outcome m with the probability of m after the transform.",
  "every number of qubits, every input state",
  "unbounded number of qubits and all input states; tests only look at the first row and column, which cannot tell orders of qubits apart",
  ["src/algorithms/QFT.cpp: createQFT"])
p("The iterative QFT has the distribution of the QFT",
  "The outcomes of createIterativeQFT(n), which uses one qubit, mid-circuit measurements, resets and classically controlled rotations, are distributed like those of createQFT(n, true) from the all-zero state; and with the next qubit of a register in place of every reset the rounds act on every state like createQFT(n, true).",
  "every n > 0, every outcome",
  "exact probabilities over all branches",
  ["src/algorithms/QFT.cpp: createIterativeQFT"])
p("Bernstein-Vazirani finds the hidden string",
  "Both the static and the iterative circuit measure exactly the hidden bit string with probability one; the variant that derives the length from the string loses no bit.",
  "every hidden string, every length from 1 to 4096",
  "2^4096 strings; certainty of a random outcome",
  ["src/algorithms/BernsteinVazirani.cpp"])
p("Quantum phase estimation has the textbook distribution",
  "The outcome of the static and of the iterative circuit for U = P(lambda pi) with n bits of precision has the textbook distribution |sum_k exp(2 pi i k (lambda/2 - y/2^n))|^2 / 4^n; n-bit phases are found with certainty, and every nearest outcome with probability at least 4/pi^2, so both neighbours of the phases of createInexactPhase.",
  "every real phase, every precision from 1 to 64, every outcome",
  "real phases, exact probabilities over all branches",
  ["src/algorithms/QPE.cpp"])
p("Grover's circuit finds the target",
  "With r = computeNumberOfIterations(n) the target is measured with probability sin^2((2r+1) asin(2^(-n/2))) and every other string with equal probability; this is at least 1/2, and at least 1 - 5/2^n for n >= 2.",
  "every target string, every number of data qubits from 1 to 128",
  "exponentially many targets and sizes; exact probabilities",
  ["src/algorithms/Grover.cpp"])
p("State preparation prepares the given vector",
  "createStatePreparationCircuit throws unless the vector has norm 1 up to eps and a power of two many amplitudes; otherwise its circuit takes |0...0> to a unit vector that differs from the given one, global phase included, by at most eps (n |v| + 5 sqrt(2^n)).",
  "every complex vector, every size, every eps > 0",
  "infinitely many vectors; the unit tests prepare a few fixed vectors and compare up to a tolerance",
  ["src/algorithms/StatePreparation.cpp"])
p("Validated neutral-atom computations obey the AOD constraints",
  "NAComputation::validate accepts a computation exactly if atoms are loaded before they are moved or stored, stored before they are loaded again, and the relative order of loaded atoms is preserved; the reported number is that of the first illegal operation; getLocationOfAtomAfterOperation returns the true place; atoms moved together never collide.",
  "every computation, every number of atoms, every coordinate",
  "all histories of operations and all coordinates; the unit tests try a dozen",
  ["src/na/NAComputation.cpp", "include/mqt-core/na/NAComputation.hpp", "include/mqt-core/na/operations"])
p("Locations are totally ordered",
  "The comparison operators of na::Location are one total order: < is a strict total order, > its converse, <= and >= the corresponding non-strict ones.",
  "all pairs of locations",
  "all pairs of doubles",
  ["include/mqt-core/na/entities/Location.hpp"])
p("Serialised decision diagrams are read back unchanged",
  "deserialize(serialize(e)) is e for every canonical vector or matrix diagram, in text and in binary format; the traversal with one stack terminates.",
  "every canonical diagram, every number of qubits, every pattern of sharing and skipped levels",
  "all diagrams; a wrong traversal order only shows for particular patterns of sharing",
  ["src/dd/Export.cpp: serialize, serializeMatrix", "include/mqt-core/dd/Package.hpp: deserialize, deserializeNode"])
p("Exported OpenQASM is read back as the same circuit",
  "The text that dumpOpenQASM writes, in OpenQASM 2 and 3, is accepted by the importer and yields a circuit with the same registers that acts like the original on every state and every classical store.",
  "every circuit of gates with any controls and parameters, barriers, measurements, resets, conditions and compound operations; every division of the qubits and bits into registers",
  "all combinations of gates, controls, registers and conditions; round-trip tests cover a handful of circuits",
  ["src/ir/QuantumComputation.cpp: dumpOpenQASM, printSortedRegisters", "src/ir/operations/StandardOperation.cpp: dumpOpenQASM2, dumpOpenQASM3, dumpGateType, dumpControls", "src/ir/operations/NonUnitaryOperation.cpp: dumpOpenQASM", "src/ir/operations/ClassicControlledOperation.cpp: dumpOpenQASM", "src/qasm3/Importer.cpp"])

p("The bookkeeping of a circuit stays consistent",
  "After any sequence of calls that add registers, mark qubits and append operations, the initial layout is a bijection from the physical qubits to the logical qubits 0, 1, ...; every physical qubit is in exactly one register; outputs are distinct logical qubits; nancillae counts the ancillary flags; no garbage qubit is an output. Adding single qubits, marking qubits and unifying registers keep this.",
  "every sequence of calls, every size, every choice of names and indices",
  "an invariant over all histories of calls",
  ["src/ir/QuantumComputation.cpp:75-194, 334-539, 720-730, 818-900, 930-938"])
p("Stripping removes exactly the idle qubits that are no outputs",
  "stripIdleQubits(false) removes a qubit exactly if no operation acts on it and neither the physical nor the logical qubit is an output; the remaining logical qubits are renumbered in order, and layout, outputs, ancillary and garbage flags, registers and counters move along consistently.",
  "every consistent circuit",
  "all combinations of layouts, outputs and registers; the unit tests strip circuits of two or three qubits",
  ["src/ir/QuantumComputation.cpp:118-150, 413-463, 745-786"])
p("Measurements determine the outputs",
  "After initializeIOMapping the output permutation consists exactly of the pairs (qubit, bit) of the measurements of the circuit (or is unchanged if there are none), and the garbage qubits are exactly the logical qubits that are no outputs.",
  "every consistent circuit, every previous output permutation",
  "all orders and groupings of measurements together with all previous permutations",
  ["src/ir/QuantumComputation.cpp:251-332"])
p("Layout comments are read back",
  "The comments `// i ...` and `// o ...` written by dumpOpenQASM are recognised by the scanner and read back as the initial layout and output permutation of the circuit, with the physical qubits numbered consecutively; other comments have no effect.",
  "every layout and output permutation, every number of qubits",
  "all permutations and sizes, all comments",
  ["src/ir/QuantumComputation.cpp:633-663", "src/qasm3/Scanner.cpp:57-90", "src/qasm3/Parser.cpp:901-911", "src/qasm3/Importer.cpp:301-311, 401-416"])
p("Reducing ancillary qubits clears their columns",
  "For every matrix diagram and every list of ancillary flags, reduceAncillae returns the canonical diagram in which the entries whose column (row, if not regular) has a one at an ancillary qubit are zero and all other entries are unchanged, whether or not the diagram has nodes for these qubits; createInitialMatrix is the identity so reduced, and reducing twice changes nothing.",
  "every canonical matrix diagram, every list of flags, both modes",
  "all diagrams, numbers of qubits and sets of ancillary qubits",
  ["src/dd/Package.cpp:1122-1172", "src/dd/Package.cpp:1267-1339"])
p("Reducing garbage qubits keeps the probabilities of the others",
  "For every vector or matrix diagram, reduceGarbage returns the diagram whose entries are zero where a garbage qubit is one and otherwise sqrt of the sum of |.|^2 over all values of the garbage qubits; with normalised weights two states reduce to the same edge exactly when no measurement of the other qubits tells them apart.",
  "every canonical diagram, every list of flags, all modes",
  "all diagrams, numbers of qubits and sets of garbage qubits",
  ["src/dd/Package.cpp:1173-1266", "src/dd/Package.cpp:1340-1481", "include/mqt-core/dd/Package.hpp:850-938"])
p("isCloseToIdentity recognises matrices close to the identity",
  "isCloseToIdentity answers true for the identity, up to a factor and with the columns of ancillary qubits cleared, and if it answers true then all entries between different values of the qubits that are not garbage are small and the diagonal entries are close to the first one (or to zero); with tolerance zero and no check for ones it decides exactly whether these entries vanish.",
  "every canonical matrix diagram, tolerance and list of garbage flags",
  "all diagrams and real tolerances",
  ["src/dd/Package.cpp:1042-1120"])
p("Functionality and simulation respect ancillary and garbage qubits",
  "With ancillary and garbage flags, buildFunctionality and buildFunctionalityRecursive return the same diagram: zero in the columns with an ancillary one and the rows with a garbage one, elsewhere of the squared magnitude of the circuit's unitary summed over the garbage qubits (exactly its entries if there is no garbage). simulate gives each assignment of the remaining qubits its probability after the circuit, and the two agree on basis states.",
  "every circuit of unitary operations, every layout, output permutation and list of flags, every input state",
  "all circuits, sizes, flags and states",
  ["src/dd/FunctionalityConstruction.cpp:23-142", "src/dd/Simulation.cpp:213-244", "src/dd/Package.cpp:1122-1266"])
p("Instantiating and inverting symbolic operations",
  "Constructing a symbolic operation and then putting in values gives, on the same qubits, the gate with the evaluated parameters up to the tolerance of the canonicalisation; instantiating in place and making an instantiated copy agree and leave no symbol; inverting the symbolic operation and then putting in values gives the inverse operator; equality of operations implies that they denote the same operator for all values.",
  "every gate type, parameter list of numbers and linear expressions, and assignment",
  "all real parameters and assignments, all expressions",
  ["src/ir/operations/SymbolicOperation.cpp:42-456", "include/mqt-core/ir/operations/SymbolicOperation.hpp:32-128", "src/ir/operations/StandardOperation.cpp:36-191"])
p("Instantiating circuits",
  "A circuit built with the gate methods and then instantiated consists, in the order of the calls, of the requested gates with the evaluated parameters and is free of variables; the recorded variables are exactly those that occur, and instantiation removes those of the assignment; a variable without a value raises an error rather than being passed over.",
  "every sequence of gate calls and every assignment",
  "all circuits, all real values",
  ["src/ir/QuantumComputation.cpp:541-545, 1081-1115", "src/ir/QuantumComputation.cpp:1343-1528", "src/ir/operations/CompoundOperation.cpp:90-93"])

p("Reordering operations keeps the circuit",
  "reorderOperations terminates and returns the same operations, with the operations on every qubit in their old order, so the circuit keeps its meaning; the result is a canonical form, the same for two circuits exactly when they differ by exchanges of neighbouring operations without a common qubit; an operation beyond the initial layout raises an exception.",
  "every circuit and initial layout",
  "all circuits, sizes and interleavings",
  ["src/ir/QuantumComputation.cpp:1117-1209"])
p("isInverseOf on compound operations",
  "CompoundOperation::isInverseOf always answers; if it answers true the two operations undo each other on every state, and it answers true whenever the one is the reversed list of the inverses of the other up to exchanges of neighbouring operations without a common qubit.",
  "every pair of compound operations, nested and conditional ones included",
  "all lists of operations, parameters and states",
  ["src/ir/operations/CompoundOperation.cpp:131-152, 208-245", "src/ir/QuantumComputation.cpp:547-562, 1117-1209"])
p("Depth of a circuit",
  "getDepth answers without accessing memory out of range; the number is the length of the longest chain of operations of which each shares a qubit with the next, and also the least number of layers in which the operations can be carried out in order; exchanging neighbouring operations without a common qubit does not change it.",
  "every circuit",
  "all circuits, chains and schedules",
  ["src/ir/QuantumComputation.cpp:238-249", "src/ir/operations/Operation.cpp:168-187", "src/ir/operations/CompoundOperation.cpp:174-179", "src/ir/operations/NonUnitaryOperation.cpp:225-230"])
p("Dynamic circuits",
  "isDynamic accesses no memory out of range for any circuit built through the public functions and answers false exactly if the circuit, unfolded, consists of gates and measurements and no gate acts on a qubit after its measurement; then moving all measurements behind all gates gives the same distribution over outcomes and states.",
  "every circuit, nested compound operations included",
  "all circuits, all states and measurement outcomes",
  ["src/ir/QuantumComputation.cpp:1211-1255"])
p("Last operations on qubits",
  "isLastOperationOnQubit answers true exactly if no later operation uses a qubit of the operation; such an operation can be moved to the end of the circuit without changing the distribution if it shares no classical bits with the later ones.",
  "every circuit and position",
  "all circuits and states",
  ["src/ir/QuantumComputation.cpp:901-928"])
p("Circuits made of compound operations",
  "fromCompoundOperation always succeeds, its circuit has consistent bookkeeping, contains the operations in order and so acts like the compound operation, and has all the qubits and bits its operations refer to.",
  "every compound operation",
  "all lists of operations and states",
  ["src/ir/QuantumComputation.cpp:1257-1287"])
p("Appended measurements",
  "appendMeasurementsAccordingToOutputPermutation appends a barrier and one measurement for each output; afterwards in every possible outcome each output bit shows the value of its qubit; initializeIOMapping recovers the outputs from the result; measureAll does the same with all qubits and a new register, and reaches no error.",
  "every circuit and every outcome",
  "all circuits, layouts, states and outcomes",
  ["src/ir/QuantumComputation.cpp:940-959, 1543-1566", "src/ir/QuantumComputation.cpp:251-310"])
p("Appended operations refer to qubits and bits of the circuit",
  "In a circuit built by any sequence of calls that add registers, marks, gates, measurements, resets, barriers and classically controlled gates, all operations refer to existing qubits and bits only, also after stripping idle qubits; a gate is refused exactly if one of its qubits does not exist.",
  "every sequence of calls",
  "all call sequences and indices",
  ["src/ir/QuantumComputation.cpp:961-1012, 1301-1643"])
p("Counting operations",
  "getNindividualOps is the number of operations that are not compound, and getNsingleQubitOps the number of gates on one qubit without controls, after unfolding compound operations.",
  "every circuit",
  "all circuits and nestings",
  ["src/ir/QuantumComputation.cpp:198-236"])

p("Tokens of OpenQASM texts",
  "Whatever sequence of keywords, names, numbers, timing literals, hardware qubits, strings, operators and layout comments is written down, with any white space and comments between, the scanner returns exactly these tokens with their values, taking the longest operator, followed by Eof.",
  "every sequence of tokens and every way of writing it",
  "all texts and spacings",
  ["src/qasm3/Scanner.cpp:56-344", "src/qasm3/Scanner.cpp:346-655"])
p("The scanner ends",
  "Every call of the scanner ends and uses up at least one character unless it returns Eof, so every text is scanned with at most one token per character and Eof at the end only.",
  "every text, well-formed or not",
  "all texts",
  ["src/qasm3/Scanner.cpp:56-103", "src/qasm3/Scanner.cpp:315-344", "src/qasm3/Scanner.cpp:408-643"])

p("Random Clifford circuits are Clifford circuits",
  "createRandomCliffordCircuit returns a circuit whose operator maps Pauli operators to Pauli operators by conjugation; the k-th number drawn decides the k-th operation, which acts on one pair of neighbours, in the brick pattern of the layers.",
  "every positive number of qubits, every depth, every sequence of drawn numbers",
  "all numbers of qubits, depths and draws; conjugation of all Pauli operators",
  ["src/algorithms/RandomCliffordCircuit.cpp:24-204", "src/algorithms/RandomCliffordCircuit.cpp:207-234"])
p("The Clifford groups are covered evenly",
  "The indices give every Clifford operator on one qubit (24) and on two qubits (11520) exactly once, and the numbers drawn give every operator equally often.",
  "every index, every pair of qubits, every circuit of Clifford gates on one qubit",
  "operators are compared up to a factor, on all states",
  ["src/algorithms/RandomCliffordCircuit.cpp:24-204", "src/algorithms/RandomCliffordCircuit.cpp:213-214"])

p("Names of accepted OpenQASM statements are declared",
  "When the type checker accepts a statement, every name in it (apart from names in the indices of expressions and in the operands of gate calls, which it does not look at) is declared where it occurs, and behind it exactly the names declared so far are known; the parameters of a gate are known in its body only. The checker reports undeclared names instead of crashing.",
  "every statement with any nesting of blocks, gates and expressions, every state of the checker",
  "all programs and all states of the shared type objects",
  ["src/qasm3/passes/TypeCheckPass.cpp:33-193", "src/qasm3/passes/TypeCheckPass.cpp:266-399", "include/mqt-core/qasm3/passes/TypeCheckPass.hpp"])
p("Types of constant expressions",
  "When an expression is accepted behind an accepted program and has a constant value, this value has the kind (unsigned, signed, floating-point, bool) of the type that the checker assigns, up to the implicit conversions; evaluation does not fail with a type error. No statement changes the kind of a variable.",
  "every program without repeated declarations, every expression",
  "all programs, all expressions, all values of the constants",
  ["src/qasm3/passes/TypeCheckPass.cpp:33-193", "src/qasm3/passes/TypeCheckPass.cpp:195-323", "src/qasm3/passes/ConstEvalPass.cpp:46-127"])
p("Reading vectors and matrices out of diagrams",
  "getVector, getSparseVector, addToVector, getMatrix and getSparseMatrix return exactly the entries of the vector or matrix whose magnitude is at least the threshold; the remaining entries are zero or absent, and all arrays have the dimension of the space. Pruning whole subdiagrams by the magnitude of a partial product never drops an entry.",
  "every canonical diagram over any number of qubits, every threshold",
  "all diagrams, all thresholds, all skipped levels",
  ["src/dd/Edge.cpp:197-226", "src/dd/Edge.cpp:252-290", "src/dd/Edge.cpp:382-432", "src/dd/Edge.cpp:465-506"])
p("Probabilities of density matrices",
  "getSparseProbabilityVector and getSparseProbabilityVectorStrKeys return exactly the diagonal entries of a density matrix that are positive and at least the threshold, each under its index or under the binary numeral of its index; multiplying real parts of weights only loses nothing.",
  "every canonical diagram of a matrix with non-negative 2x2 minors, every threshold",
  "all density matrices, all thresholds, all skipped levels",
  ["src/dd/Edge.cpp:512-589", "include/mqt-core/dd/DDDefinitions.hpp:101-110"])

p("Fractions found for printing",
  "getLowestFraction(x, maxDenominator) ends for x below about 2^63/maxDenominator and returns a fraction in lowest terms with a denominator of at most maxDenominator. If any such fraction is at most eps away from x, then the returned one is too, and it has the smallest denominator and numerator of these. Numbers that count as zero give 0/1, and a fraction in lowest terms is found again from every number within eps of it. It is the closest fraction to x, as documented.",
  "all rational numbers x >= 0, all tolerances and all maximal denominators",
  "The search walks through a tree of all fractions; tests look at a handful of values with the default tolerance.",
  ["src/dd/ComplexValue.cpp:70-102", "include/mqt-core/dd/ComplexValue.hpp:102-110"])

p("Printed numbers can be read back",
  "printFormatted and toString print a complex number as a text (fractions, multiples of the root of two or of pi, or decimals, and the short form with (1+i) or (1-i)) which, read as an arithmetic expression, stands for a number whose parts differ from the original by at most the tolerance times pi plus the tolerance. A number is printed as zero only if it counts as zero, and printing ends.",
  "all complex numbers with rational parts, all tolerances",
  "Tests compare a few outputs with expected strings; whether an arbitrary output means the right number needs a reader of the printed expressions.",
  ["src/dd/ComplexValue.cpp:104-228"])

p("Codes and names of operation types",
  "Operation types have different codes in eight bits. Flipping the inverse flag of a code gives either no type or the type of the inverse gate, and a type exactly for the gates where the program does so. The diagonal flag is set exactly for the gates whose matrix is diagonal for all parameters. Every type is found again by its name, names and short names are unambiguous, a leading c does not change the type, every accepted string is a usual name of its type, and short names have at most three characters, as documented.",
  "all operation types, all gate parameters, all strings",
  "The flags are read by bit operations in the optimiser and the diagram package; tests do not relate them to the matrices, which depend on real parameters.",
  ["include/mqt-core/ir/operations/OpType.inc:10-71", "include/mqt-core/ir/operations/OpType.hpp:20-46", "src/ir/operations/OpType.cpp:19-146", "src/dd/Operations.cpp:82-100"])

p("Fidelity of measurement outcomes",
  "fidelityOfMeasurementOutcomes returns the sum of |a_i| sqrt(p_i) over all basis states i of the state, where outcomes that are not listed have probability zero. For a normalised state and a distribution it is at most one, and one exactly if the distribution is that of the state. With a permutation from physical to logical qubits, basis state i is compared with the outcome spelled by its logical qubits.",
  "all canonical vector diagrams on any number of qubits, all maps of probabilities, all permutations",
  "The only test uses a GHZ state without a permutation, which looks the same from both ends.",
  ["src/dd/Package.cpp:936-944", "src/dd/Package.cpp:987-1022", "include/mqt-core/dd/Package.hpp:1284-1302"])

p("Polar labels can be read back",
  "conditionalFormat with formatAsPolar writes a label (0, 1, i, -i, -1, a magnitude with or without a sign, an exponential, or both) which, read as a magnitude and an angle, stands for a magnitude that differs from the original by at most the tolerance times pi and, unless that magnitude is read as zero, for an angle that differs from the original by at most the tolerance times pi squared and whole turns. Printing ends for all phases between minus pi and pi and all magnitudes below about 2^52.",
  "all rational magnitudes and phases, all tolerances",
  "Tests of the export only look at a few fixed labels; whether an arbitrary label means the right number needs a reader of labels.",
  ["src/dd/Export.cpp:48-152"])

p("Measuring a qubit of a density matrix",
  "measureOneCollapsing on a density matrix reports one exactly for draws above the probability of zero (the trace of the matrix projected on zero), so that uniform draws give both outcomes their Born probabilities. The new matrix is the projected one divided by the probability of the outcome, in canonical form; pure states stay pure.",
  "all canonical density-matrix diagrams on any number of qubits, all qubits, all draws",
  "The only test measures one state with random draws and has nothing mixed left over; probabilities are not observed.",
  ["src/dd/Package.cpp:786-822", "include/mqt-core/dd/Package.hpp:474-512", "include/mqt-core/dd/Package.hpp:1534-1651"])
p("Operations of acousto-optic deflectors",
  "invert turns an activation into a deactivation and conversely, exchanges the start and end of every single move, and is its own inverse; distances stay the same and the maximal distance is the largest of them, zero if there are none. The text written by dumpOpenQASM, also after inversions, reads back as the type, the single operations and the targets. Operations that compare equal have the same effect.",
  "all types, target lists, single operations with rational coordinates, numbers of inversions and register names",
  "One test prints a few operations with small coordinates and compares them with a fixed text; inverted operations are only asked for their type.",
  ["src/ir/operations/AodOperation.cpp:33-163", "include/mqt-core/ir/operations/AodOperation.hpp:29-90", "src/ir/operations/Operation.cpp:116-166", "src/ir/operations/Operation.cpp:194-196"])
p("Iterating over ZX diagrams",
  "The loop over the vertices of a ZX diagram ends and visits exactly the vertices that are not deleted, each once and in order. The loop over the edges ends and visits every edge between remaining vertices exactly once, from its smaller vertex, in the order of these, and never a stale half edge of a deleted vertex. The increment operators have the usual values.",
  "all vectors of vertices with any deletions, all vectors of half edges, hence all diagrams",
  "Tests only loop over the vertices of two small diagrams; the loop over edges is used by the simplifications, whose tests do not notice edges that are missed or repeated.",
  ["src/zx/Utils.cpp:19-147", "include/mqt-core/zx/Utils.hpp:61-189", "src/zx/ZXDiagram.cpp:180-191"])
p("Text of neutral-atom computations",
  "The text of a neutral-atom computation declares every atom with its initial location, in ascending order of the locations, and lists the operations in their order, each with its locations, angles, and atoms or zones, so that a reader of the text recovers all of them up to the printed decimals (three for locations, five for angles).",
  "all sets of atoms and initial locations, all sequences of load, store, move, local and global operations on any number of atoms with rational coordinates and angles",
  "Tests compare a few fixed texts in which all locations are different and all coordinates short.",
  ["src/na/NAComputation.cpp:56-69", "src/na/operations/LoadOp.cpp:18-38", "src/na/operations/StoreOp.cpp:18-38", "src/na/operations/MoveOp.cpp:18-31", "src/na/operations/LocalOp.cpp:24-51", "src/na/operations/GlobalOp.cpp:24-50", "include/mqt-core/na/entities/Location.hpp:60-95"])
p("Rounding of phases in ZX diagrams",
  "isPauli, isClifford and isProperClifford recognise exactly the constant multiples of pi, the multiples of pi/2 and the odd ones among these. approximateCliffords changes nothing but constant phases, each by less than the tolerance and to a multiple of pi/2; afterwards every constant phase that was within the tolerance of a multiple of pi/2, on the circle, is the nearest such multiple.",
  "all diagrams, all tolerances, all exact phases",
  "The tests round one phase near 0 directly and others only through the simplification; phases near minus pi and large tolerances are not tried.",
  ["src/zx/Utils.cpp:149-175", "src/zx/ZXDiagram.cpp:344-350", "include/mqt-core/zx/Rational.hpp:133-163"])

here = os.path.dirname(os.path.abspath(__file__))
with open(os.path.join(here, "..", "properties.jsonl"), "w") as f:
    for x in P:
        f.write(json.dumps(x, ensure_ascii=False) + "\n")
print(len(P))
