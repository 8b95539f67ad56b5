# Formal model of mqt-core: design

Source of truth: `/repo` (C++), read as text, never built. Everything below
`/verif/rocq/theories` is a Rocq/Coq 8.16.1 development.

## Layout

Every area has up to four kinds of file:

* `XxxModel.v`  – Gallina transcription of the C++ functions. Each definition
  carries a comment with file and lines and says what is simplified.
* `XxxSpec.v`   – small independent specification (readable without the model).
* `XxxProofs.v` – lemmas.
* `XxxProps.v`  – property theorems only, each closed with `exact`, with
  `Print Assumptions` underneath and an `Example` that shows the hypotheses can
  be met by a non-trivial case.

Properties that are false of the code are kept: a theorem `..._refuted` gives a
witness, and (where there is one) a theorem `..._partial` proves the strongest
restricted form.

## Trusted base

* Coq's kernel (8.16.1) and the Coq standard library.
* What `Print Assumptions` lists under each property theorem (collected in the
  section "Assumptions" below). Only standard-library axioms
  (the classical reals, functional extensionality) are used.
* The reading of the C++ code that is written down in the model files.

General simplifications (repeated at the definitions):

* `double` is modelled by exact real (or rational) arithmetic, tolerances by
  exact comparison unless the property is about the tolerance.
* Addresses are natural numbers; `std::vector`/`std::map` become lists and
  functions; out-of-range accesses, null dereferences and violated
  preconditions are an explicit error outcome.
* Fixed-width integers are modelled by unbounded ones unless the property is
  about wrap-around.

## What is modelled and what is not

| part of the code | modelled in | not modelled |
|---|---|---|
| `dd/MemoryManager`, `statistics/MemoryManagerStatistics` | `MemModel` | growth factors as floating-point numbers |
| `dd/UniqueTable`, reference counts in `Edge`/`Node`, garbage collection | `HeapModel`, `PkgCacheModel` | hash function (any function), thresholds beyond what the theorems state |
| `dd/ComputeTable`, `UnaryComputeTable`, `DensityNoiseTable` | `CacheModel`, `PkgCacheModel` | statistics |
| `dd/Edge.cpp`: getVector, getSparseVector, addToVector, getMatrix, getSparseMatrix, getSparseProbabilityVector(StrKeys) and their traversals | `TravModel` | printing, tagged edges of density matrices, 64-bit indices |
| `dd/ComplexValue.cpp`: getLowestFraction, printFormatted, toString | `FracModel`, `PrintModel` | rounding (numbers are rationals with exact arithmetic), decimal output beyond one piece per number, infinities and NaN, negative zero |
| `ir/operations/OpType.{inc,hpp,cpp}`: codes, flags, names | `OpNameModel` | stream operators |
| `dd/Package.cpp`: fidelityOfMeasurementOutcomes | `FidModel` (exact reals; a permutation entry out of range is a distinct outcome) | rounding of products and roots |
| `dd/Export.cpp`: printPhaseFormatted, conditionalFormat (polar) | `PolarModel` (exact rationals, magnitude and phase as inputs) | colours, thickness, dot output, decimals |
| `dd/Package.cpp`: measureOneCollapsing and trace of density matrices | `DensModel` (exact numbers, the draw as an argument, untagged edges) | random numbers, reference counts, tags of density edges |
| `ir/operations/AodOperation.cpp` | `AodModel` (rational coordinates, text as tokens, numbers rounded to six digits) | dimensions other than 0 and 1, streams that cannot seek or that hold text after the position |
| `zx/Utils.cpp`: VertexIterator, EdgeIterator; `ZXDiagram.cpp`: getVertices, getEdges | `ZxIterModel` (positions as the rest of a vector; types of edges and data of vertices left out) | comparing positions of different vectors, changes of the vectors during a loop |
| `na/NAComputation.cpp`: toString; `na/operations/*.cpp` | `NaTextModel` (rational coordinates, text as tokens without spaces, names as single tokens) | names with spaces or brackets, the order of the hash map (any order) |
| `zx/Utils.cpp`: roundToClifford and the tests on phases; `ZXDiagram.cpp`: approximateCliffords | `CliffModel` (exact fractions and tolerances) | conversion of fractions to doubles |
| `dd/RealNumber`, `RealNumberUniqueTable`, `ComplexNumbers`, pointer tags in `Node` | `RealTableModel`, `TagModel` | rounding of `double` |
| `dd/Edge`, `CachedEdge`, `Package` (makeDDNode, normalisation, states, gates, add, multiply, kronecker, trace, inner product, expectation values, fidelity, measurement, reduction of ancillary and garbage qubits, identity test, from/to vector and matrix) | `DDModel`, `DDMoreModel`, `DDReduceModel`, `GateModel` | `transposeDensity` variants beyond those cited, statistics, printing |
| `dd/Operations`, `Simulation`, `FunctionalityConstruction` | `SimModel`, `SimReduceModel`, `IRModel` | random sampling (distributions instead) |
| `dd/NoiseFunctionality`, `StochasticNoiseOperationTable` | `NoiseModel` | the random generator |
| `dd/Export`: serialize / deserialize | `SerModel` | graphical output (dot, colours) |
| `ir/QuantumComputation`: bookkeeping, export, mapping, phases, comparison with identity of layouts | `CircModel`, `LayoutModel`, `ExportModel`, `IRModel`, `SymModel`, `ReorderModel`, `QueryModel` | printing of statistics and tables |
| `ir/operations` (standard, symbolic, non-unitary, compound, classically controlled), `Permutation`, `Register`, `Control` | `GateModel`, `IRModel`, `OptModel`, `SymModel` | printing (`AodOperation` has its own row) |
| `ir/operations/Expression` | `ExprModel` | printing, hashing |
| `circuit_optimizer` | `OptModel`, `OptMeasModel`, `OptBlockModel` | passes without a property in the table below |
| `algorithms` | `AlgoModel`, `PrepModel`, `CliffordModel` | the random number generator of `RandomCliffordCircuit` (its numbers are a parameter), random choice of hidden strings and phases |
| `datastructures` | `DsuModel`, `GraphModel`, `UGraphModel`, `LayerModel` | printing |
| `qasm3` (scanner, parser of expressions and statements, constant folding, types, importer, standard gates) | `Qasm*Model`, `LayoutModel` | error texts, `mcx` declarations, file inclusion other than the standard library |
| `zx` (the rest) | `ZXModel`, `ZXBuildModel`, `PiModel` | conversions to and from strings, random choice |
| `na` (the rest) | `NAModel` | zones beyond their names (`Zone::contains`), distances, arithmetic and hashing of locations |
| `python` | – | all of it |

The comment at each definition says which lines it transcribes and where it
deviates.

## Plan per property

| id | model | proof idea |
|----|-------|------------|
| C01, C02 | free list + chunk cursor state machine (`MemModel`) | invariant over all histories; C02 refuted by a concrete history |
| C03–C05 | heap of nodes with unique-table buckets, reference counts, collection (`HeapModel`) | invariant: count = number of parents with positive count + external holds |
| C06 | direct-mapped cache as list of slots (`CacheModel`) | ghost log of insertions |
| C07 | heap model + caches | refuted for the tables that are not cleared; proved for the others |
| C08 | bucketed sorted table (`RealTableModel`) | refuted by border insertion; tolerance of the returned entry proved |
| C09, C10 | pointer tagging on N (`TagModel`) | bit arithmetic |
| C08–C10 | tables of rationals, addresses as binary numbers (`RealTable*`, `Tag*`, `NumProps`) | invariant over histories, bit-level reasoning |
| C11–C21 | tree-shaped decision diagrams over exact complex numbers (`DD*`) | denotational semantics, structural induction |
| C22–C27 | gate matrices over the reals, circuit IR (`Gate*`, `IR*`) | trigonometric identities; operators on functions `(nat->bool)->C` |
| C28, C29 | classically controlled operations (`IRModel`) | case analysis, positional value of the register |
| C30 | expressions as lists of terms (`ExprModel`) | induction over the merge loop |
| C31 | registers/permutations (`IRModel`) | arithmetic, finite maps |
| C32–C43 | circuits as lists of operations, passes as functions (`Opt*`) | operator semantics; refutations by concrete circuits |
| C44–C48 | functionality construction, simulation, sampling (`Sim*`) | induction on circuits; refutations by concrete circuits |
| C49–C50 | noise (`Noise*`) | draws integrated over the unit interval; channels as weighted Kraus operators; induction on levels |
| C51–C55 | graphs, disjoint sets, layer (`Graph*`, `DSU*`, `Layer*`) | invariants over histories |
| C56–C61 | rationals, ZX diagrams with sum-over-assignments semantics (`ZX*`) | algebra of finite sums |
| C62–C67 | scanner, parser, constant evaluation, importer (`Qasm*`) | induction on strings/expressions |
| C68 | gate matrices (`GateModel`, `GateProps`) | matrix identities |
| C69–C75 | circuit generators (`Algo*`) | induction on the number of qubits with the operator semantics of C22–C29; general lemma on measuring all qubits; geometric sums; trigonometric bounds |
| C76 | state preparation (`Prep*`) | the rotations of one round as a multiplexed rotation; each round is a linear isometry that is within eps times a constant of the exact disentangling step; the errors add up along the rounds |
| C77, C78 | neutral-atom computations (`NA*`) | invariant: the variables of `validate` describe the history; order and straight lines over the reals |
| C79 | serialisation (`Ser*`) | what has been written so far can be read back: invariant of the traversals, induction on the diagram |
| C80 | export and import (`Export*`) | statements are read back one by one; text of a gate and importer's gate table agree as matrices; invariant on the widths of the type checker |
| C81–C83 | `QuantumComputation` as a record of counters, registers, layouts and flags (`Circ*`) | one invariant (`well_kept`) over all calls; stripping as a strictly monotone renumbering; swaps of output values keep the entries made before |
| C84 | comments as lists of characters, written and searched (`Layout*`) | the inverse map lists the keys 0, 1, …; decimal numbers are read back |
| C85–C87 | `reduceAncillae`, `reduceGarbage`, `addMagnitudes`, `isCloseToIdentity` on tree-shaped diagrams (`DDReduce*`, `DDGarbage*`, `DDClose*`) | induction on the diagram with sums over flagged qubits; a level without a node is an identity factor |
| C88 | `buildFunctionality`, `buildFunctionalityRecursive` and `simulate` with ancillary and garbage flags (`SimReduce*`), on top of the loops of `SimModel` | the product with the initial matrix has the same reduction as the plain functionality; both relayout alike |
| C89, C90 | constructors, instantiation, inversion and equality of `SymbolicOperation`, the gate methods and `instantiateInplace` (`Sym*`); assertions compiled out, printed names left out | snapping moves each number by at most nine tolerances, then C25; `invert_sym` commutes with evaluation, then C23 |
| C91, C92 | `reorderOperations` with one queue of positions per qubit, as many rounds as operations and one more; `equals` of all operations and `CompoundOperation::isInverseOf` (`Reorder*`); iterators at the end of a queue, moved-from operations and `std::equal` beyond the end are undefined behaviour, assertions compiled out, control registers compared by position instead of name | the queues represent the list of remaining operations; the next operation on a qubit is taken if nothing before it shares a qubit with it, so every step is a sequence of exchanges and depends on the order of operations with common qubits only; two operations without common qubits and classical race commute up to the order of branches; C26 for equality, C28 for inversion |
| C93–C99 | depth, counts, `isDynamic`, `isLastOperationOnQubit`, `fromCompoundOperation`, and the functions that append operations to a circuit (`Query*`); accesses out of range are `None`; one loop of `isDynamic` may stop before an access that counts as out of range here, resets keep the order of their qubits | the depth vector holds, for each qubit, the longest chain ending on it; a measurement moves behind the gates it shares no qubit with (C39); one invariant over all sequences of calls |
| C100, C101 | the scanner without positions, messages and the values of floating-point and timing literals (`QasmLex*`); the loop over an unclosed string is `None` | the specification has its own tables of keywords and operators; one lemma per kind of token, then induction on the text; every branch of `next` drops a character |
| C102, C103 | `Clifford*`; gates on two qubits as linear maps on four amplitudes, Pauli operators as bits and a power of i | conjugation table per gate proved from the matrices; operators are proportional iff their tableaux agree (an operator that commutes with X and Z on both qubits is a number); the 720 tableaux without signs are compared with a binary map, Pauli gates are shown to change signs only, and for each of the 720 the 16 sign patterns are distinct; the computations are small enough for `coqchk`, which has no virtual machine |
| C104, C105 | `QasmType*`; the checker's shared type objects as a heap, names as pointers into it; constant pass first, then the checker | every step keeps names, addresses and kinds (`ext`, `grow`); scopes by induction over statements; kinds of values by induction over expressions; whole programs by an invariant over the declarations |
| C106, C107 | `Trav*`; the callbacks of the traversals as lists of calls, arrays and maps filled from them | membership in the list of calls by induction over the diagram (indices by `k / 2^n`); pruning by magnitudes at most one; for the diagonal: every canonical matrix has an entry one, and with non-negative 2x2 minors it lies on the diagonal, so the weights there are positive reals |
| C108, C109 | `Frac*`, `Print*`; the search with wrapping 64-bit sums and a bound on rounds; output as a list of pieces | bounds of the search are neighbours (determinant one), so every fraction strictly between them has at least the sum of the denominators; number of rounds bounded by floor(x) + 2 maxDen + 2; the specification is a reader of sums, products and quotients with brackets, which rejects ill-formed texts |
| C110 | `OpName*`; codes as numbers with the flag bits | cases over the types; the inverse and the diagonal flag are related to the matrices of `GateModel` |
| C111 | `Fid*`; sum over all basis states | induction over the diagram with the index of the block; the bound from the sum of squared differences |
| C112 | `Polar*`; a reader of polar labels on top of `PrintSpec` | each form is fed to the reader; the error of the search scaled by pi; numerators are not negative |
| C113 | `Dens*`; density edges as matrix edges | the projected matrix from the theorems on gates and products; a vanishing-minors argument shows that pure states skip no level |
| C114 | `Aod*`; own reader of the text | induction on the lists; a value of six digits is an integer at the scale chosen |
| C115 | `ZxIter*`; own model of the iterators, related to `ZXModel.getEdges` | what is still to come is an invariant of the loop; counting pairs |
| C116 | `NaText*`; own reader of the text | every operation is printed from its list of items; sorted insertion keeps all different keys |
| C117 | `Cliff*` on the diagrams of `ZXModel` | the five results of the case distinction; lowest terms for the tests |

## Findings

Properties that the code does not have, each with a machine-checked witness
(theorems ending in `_refuted`).

* C01: a memory manager created with initial size 0 reads past its first chunk.
* C02: `reset()` keeps stale reference counts.
* C06: `UnaryComputeTable::clear` walks `NBUCKET` entries whatever the table size.
* C07: `conjugateVector`, `vectorAddMagnitudes` and `matrixAddMagnitudes` are not
  cleared by garbage collection.
* C52: `DirectedAcyclicGraph::addEdge` does not connect ancestors of the source
  with descendants of the target, so `isReachable` misses paths and cycles are
  accepted.
* C53: `DisjointSet` treats all elements unknown to the constructor as one class
  with the default element.
* C54: `UndirectedGraph::isAdjacent(v, v)` denies self loops.
* C55: `Layer::constructDAG` treats an inverse pair on a qubit as cancelling on
  that qubit although another gate acts between the two on their other qubit.
* C23: `getStandardOperationDD` drops the controls of a `GPhase` operation.
* C25: `checkFractionPi` divides by `round(PI/x)`, which is 0 for angles beyond
  10^13 or so: the parameter becomes infinite.
* C26: `Operation::equals` treats every diagonal gate as symmetric in controls
  and targets; controlled RZ and RZZ are not.
* C24: `QuantumComputation::invert` keeps the global phase; layouts of different
  size are not exchanged.
* C28: the copy constructor of `ClassicControlledOperation` drops the comparison
  kind.
* C29: registers of more than 64 bits shift out of range; a condition nested in a
  conditioned operation is ignored when the operation is applied.
* C30: `Term - Expression` and `constant - Expression` return the negated result,
  `coefficient + Expression` doubles the expression, `constant / Term` divides
  the term by the constant, `Expression ==` ignores the variables.
* C32: compound operations under classical control are not unfolded.
* C33, C36: a compound operation directly under classical control reports no used
  qubits and is not relabelled: CNOTs are cancelled across it, elision leaves it
  on the wrong qubits.
* C34: `decomposeSWAP` drops the controls of a controlled SWAP and does not enter
  compounds nested in compounds.
* C37: `singleQubitGateFusion` copies single-qubit measurements, resets and
  classically controlled gates into `StandardOperation`s, losing their effect; an
  uncontrolled global phase makes it throw.
* C38: `removeDiagonalGatesBeforeMeasure` dereferences `rend()` for CZ(0,1);
  H(1); measure all (`C38_memory_refuted`). Within a compound operation it
  removes a diagonal gate as soon as any qubit of the compound operation is
  ready (`C38_compound_refuted`), and RZZ when only one of its qubits is
  (`C38_two_qubit_refuted`).
* C39: `removeFinalMeasurements` removes measurements whose bit is read later,
  drops gates in front of a measurement in a compound operation, and loops
  forever on nested compound operations.
* C40: `deferMeasurements` inserts the controlled gate too early when other
  operations on its target lie in between, skips the operation behind an erased
  measurement, accepts non-diagonal gates on the measured qubit, treats `!=`
  as `==`, and overlooks classical control inside compound operations.
* C41: `eliminateResets` does not relabel nested or classically controlled
  compound operations, keeps a reset that is the first one and lies in a
  compound operation, and throws if the circuit has ancillary qubits.
* C42: `collectBlocks` with blocks narrower than the circuit moves an operation
  into an older open block past operations that have already been written out.
* C08: a value whose tolerance interval reaches into the next bucket is inserted at
  the wrong end of its bucket (`insertFront` and `insertBack` exchanged in
  `lookupNonNegative`), so the next lookup creates a second entry for it.
* C10: `applyDmChangesToEdges` on two tagged edges to one node modifies the node
  twice; reverting once does not restore it.
* C12: with a positive tolerance the choice of the normalising successor depends
  on the scale, so proportional vectors can get different nodes.
* C16: `innerProduct` of two scalars is 0.
* C17: `makeBasisState` with an offset reads `state[start + k]`.
* C18: `getValueByIndex` of a terminal matrix edge ignores the index.
* C19: the Kronecker compute table is keyed by the two nodes only, although the
  result depends on the declared width of an identity factor; the width of other
  factors is read off their root node, which may lie below the topmost qubit.
* C20: the partial trace adjusts node indices by the number of eliminated nodes
  met so far; a skipped eliminated level makes the index wrap around or shifts
  the operator to another qubit.
* C21: `transfer` compares successors with the top of its stack even when the
  stack is empty, and a successor that was reached earlier hides the ones below
  it on the stack, so that a matrix node is built with null successors.
* C44: `buildFunctionalityRecursive` returns the diagram of a single operation
  without the output permutation and reads `qc.front()` of an empty circuit.
* C45: `buildFunctionality` ignores the circuit's global phase, `simulate` applies
  it; the control of a controlled global phase is dropped.
* C46: `changePermutation` swaps with the first other qubit when the requested
  level is not used by any qubit of `from`; the zero vector returns early.
* C47: `sample` keeps one classical bit per measured qubit, so a qubit measured
  twice loses its first result; without measurements the output permutation is
  applied twice; measurements inside compound operations throw and conditions
  inside them are ignored.
* C48: measuring the zero vector dereferences the terminal as a node.
* C49: `sqrtAmplitudeDampingProbabilityMulti` is `sqrt(gateNoiseProbability) * factor` instead of
  `sqrt(factor * amplitudeDampingProb)`; the two Kraus operators for several qubits are complete exactly when
  `f^2 g = f a` (the default parameters satisfy this by coincidence). The sanity check accepts damping
  probabilities above one when the factor is below one. `stochasticNoiseOperationCache` is keyed by type and
  qubit only, so two simulations with different probabilities on one package share operators.
* C50: `applyNoiseEffects` ignores the index of the node it looks at: a node below a skipped level is treated
  as a node of the next level, which moves the operator to another qubit. `*usedQubits.begin()` is evaluated for
  operations without qubits.
* C56: `modPi` subtracts or adds 2 only once, so `PiRational(5)` is 3, and products and quotients leave
  (-1, 1]; `int - PiRational` and `int / PiRational` compute with swapped operands.
* C57: `removeEdge` decrements the edge counter also when the edge does not exist, and once when it removes several
  parallel edges; `removeVertex` of a vertex with a loop decrements it twice; deleting a vertex twice puts its number
  on the stack twice, after which two new vertices share one number.
* C58: `checkAndFuseGadget` fuses a gadget that sits on a boundary vertex (the phase is put on the boundary and the
  wire is cut); takes a spider with two phase spiders for a gadget on the same vertices; does not check the kind of
  the phase spider. All other rules are sound whenever their check succeeds.
* C59: `fullReduce` inherits the gadget bug: for the state diagram output -H- Z(pi) -H- Z(pi/4) it returns a diagram
  of a different map. `removeDisconnectedSpiders` deletes isolated spiders whose scalar is zero. `getEdges()` of a diagram
  without vertices reads `edges[0]` of an empty vector (undefined; `fullReduce` of a circuit without qubits).
* C60: `parseOp` translates ECR to the identity (the spider between the two RZX has phase 0 instead of pi), gives
  XXplusYY and XXminusYY the wrong sign of the angle, ignores the polarity of controls, and takes
  `getTargets().front()` of a global-phase operation, which has no targets. The output permutation and the circuit's own
  global phase are not used.
* C61: `invert`/`adjoint` leave the global phase as it is, `concat` subtracts the global phase of its argument
  (`addGlobalPhase(-rhs.globalPhase)`), and `isIdentity` accepts a Hadamard edge between an input and its output and
  ignores stray spiders (with phase pi the map is zero). Two joined lines between the same two spiders become parallel
  edges, which the rewriting rules assume not to exist. Witnesses: `C61_*_refuted`.
* C62: capital hexadecimal digits are converted as if they were small ones (`0xA` gives -22), the prefix `0O` is not
  recognised, and `-9223372036854775808` negates an already converted -2^63 (signed overflow). Witnesses: `C62_*_refuted`.
* C63: the expression parser deviates from the usual grammar: `2^3^2` is `(2^3)^2`, `a + b == c` is `a + (b == c)`, `-a*b`
  is `-(a*b)`, `a*-b^c` is `a*(-b)^c`, `a == b < c` is `(a == b) < c`, `-a == b` and `a == !b` are rejected, and `2-1` is
  scanned as the two literals `2` and `-1`. Witnesses: `C63_*_refuted`.
* C64: constant evaluation divides by zero, shifts by 64 and more and overflows signed numbers without a check; the power
  function crashes for 0^n and returns 1 for negative exponents. The declared type of a constant has no influence on its
  value (width, sign, floating point). Witnesses: `C64_*_refuted`.
* C66: `if (1 < c)` is translated to `c < 1`; `if (c[1] == 1)` compares the whole register; the type of a name is shared by
  its uses, so that a use of `c[i]` makes `if (c)` pass for a wide register (assertion failure, or only bit 0 is tested) and
  `if (b == 1)` makes a later `if (b)` fail. Witnesses: `C66_*_refuted`.
* C67: `negctrl @ cx a, b, c` makes `a` a positive and `b` the negative control (built-in controls take the first operands);
  names in gate bodies are looked up in the scopes of the callers, so that a constant is shadowed by a parameter of a calling
  gate; a gate that calls itself is accepted and recurses until the stack is exhausted; the declaration of a gate with the
  name of a built-in one is silently ignored, even without any include. Witnesses: `C67_*_refuted`.
* C71: `createQFT(n, false)` carries out the SWAP gates and sets the reversed output permutation as well. Consumers that
  respect the permutation (`simulate`, `buildFunctionality`) therefore do not get the Fourier transform: entry (x, y) is
  w^(x rev(y)). The unit tests look at the first row and column only, where both agree. Besides, the circuit takes qubit 0
  as the most significant one, while the rest of the library takes it as the least significant one.
  Witness: `C71_simulated_refuted`.
* C74 (not a violation of the property): the phase is stored as global phase `lambda`, although the eigenvalue is
  exp(i pi lambda); `createQPE(0, true)` draws forever; shifts by 64 and more are undefined for more than 64 qubits
  (for `createExactPhase` already for 64).
* C76 (not a violation of the property): `gatesToUncompute` gives the disentangling circuit the global phase `+arg`, although
  it has to undo the phase (`-arg`), and `invert` keeps the global phase instead of negating it (C24). The two errors
  compensate: the prepared state has the right phase, but the intermediate circuit has not.
* C77: `NAComputation::validate` promises that "the relative order of loaded atoms is preserved", but compares only the atoms
  of one operation: a loaded atom can be moved past, or onto, another one. `LoadOp` without targets may name an atom twice.
  `toString` keys a map by location and loses atoms that share their initial location. Witnesses: `C77_*_refuted`.
* C78: `Location::operator>=` is `!(other < *this)`, which is `<=`. Witness: `C78_ge_refuted`.
* C79: `deserialize` starts from an edge of weight 0 and replaces it with the last node read; a diagram without a node (an
  identity matrix, which has none, or a scalar) is therefore read back as zero. Witnesses: `C79_identity_refuted`,
  `C79_scalar_refuted`. Not modelled: the text format writes 16 significant digits, one too few for doubles.
* C80: writing OpenQASM and reading it back changes or loses circuits in these cases, each with a witness:
  `C80_peres_refuted` (StandardOperation.cpp writes a Peres gate as `cx t1,t0; x t1`, the matrix is that of `cx t0,t1; x t0`),
  `C80_measure_refuted` (NonUnitaryOperation.cpp does not advance the bit in the OpenQASM 3 branch: every qubit is measured into
  the first bit), `C80_whole_refuted` (`reset q` is written for qubits 0 and 2 of a register of three: only the first and the last
  target are compared), `C80_empty_if_refuted`, `C80_block_if_refuted`, `C80_negative_if_refuted` (OpenQASM 2 has no blocks; the
  condition holds for the first statement written after it), `C80_block_rejected_refuted` (the importer accepts only gate calls in
  conditional blocks), `C80_width_refuted` (the type checker turns the type of `c` into a single bit once `c[i]` is a condition and
  then rejects `c = measure q`), `C80_move_refuted`. By reading: the global phase of the circuit is not written, and numbers are
  printed with 15 digits.
* C42: `C42_width` – no block is wider than the limit, whatever the circuit.
* C72: `C72_any_input` – the rounds of the iterative transform equal the measured transform for every input state, once every
  reset is replaced by a fresh qubit.
* C81: the bookkeeping is consistent after every sequence of building calls, but these calls break it:
  `addQubit` with a logical index that is in use (`C81_inserted_refuted`; QuantumComputation.cpp:528-537 moves the flags of the
  qubits behind, not their logical indices), `removeQubit` on its own (`C81_removed_refuted`), a register added after qubits were
  stripped (`C81_register_after_strip_refuted`: it starts at `nqubits`, an index in use), `reset` (`C81_reset_refuted`: the
  ancillary and garbage flags stay), `unifyQuantumRegisters` (`C81_unified_refuted`: `nancillae` wraps around when one of the
  former ancillaries is removed), joining the parts of a split register under a name in use (`C81_joined_refuted`).
* C82: a register `q` that is split while `q_l` exists loses its lower part (`C82_names_refuted`); forced stripping leaves outputs
  to logical qubits that do not exist (`C82_force_refuted`).
* C83: QuantumComputation.cpp:273 skips a qubit that was measured before without advancing the bit (`C83_again_refuted`);
  measurements inside compound operations are ignored (`C83_compound_refuted`); measuring a garbage qubit throws
  `std::out_of_range` (`C83_garbage_refuted`); `C83_same_bit_refuted`; an idle ancillary with the number of a measured bit drops
  that output (`C83_dead_refuted`).
* C84: `// o` without qubits is not recognised (`C84_no_output_refuted`), logical outputs are renumbered (`C84_gap_refuted`),
  ordinary comments such as `// rotate by pi 3 times` set the layout or make the import fail (`C84_comment_refuted`), the numbers
  are not checked (`C84_unchecked_refuted`).
* C85: flags for fewer qubits than the diagram are read beyond their end (`C85_short_refuted`).
* C86: addMagnitudes takes the magnitude of the top weight only, so phases below a garbage qubit survive and the entry is not
  the documented `sqrt(|a|^2+|b|^2)` unless weights are normalised (`C86_phase_refuted`); with `normalizeWeights` the zero vector
  and the zero matrix dereference a null pointer (`C86_zero_refuted`) and a multiple of the identity keeps its phase
  (`C86_identity_refuted`).
* C87: isCloseToIdentity does not look at the root weight and accepts the zero matrix (`C87_zero_refuted`), accepts blocks of
  zeros that no ancillary qubit explains, such as diag(1,1,1,0) (`C87_ancilla_refuted`), and a controlled X whose target is
  garbage (`C87_garbage_refuted`).
* C88: buildFunctionalityRecursive returns the plain diagram of a single operation, ancillary columns and garbage rows included
  (`C88_single_refuted`).
* C89: the symbolic gate U(0, 0, x) becomes a P gate with three parameters of which instantiation reads the first, so it is
  instantiated to the identity (`C89_shrunk_P_refuted`; with assertions enabled it aborts); likewise U(pi/2, x, y) becomes
  U2(pi/2, x) instead of U2(x, y) (`C89_shrunk_U2_refuted`). Equality of symbolic operations ignores type, controls, targets,
  numbers and all but the first symbol (`C89_equality_refuted`). A symbolic operation P(pi) made of numbers cannot be
  instantiated (`C89_numbers_refuted`).
* C90: symbols inside compound and classically controlled operations are not instantiated, their variables are forgotten, and
  below a classical condition `isVariableFree` does not see them (`C90_nested_refuted`).
* C91: `reorderOperations` drops operations that report no used qubit, which are global phase gates and, because of a gap in
  `getUsedQubits`, blocks of operations under a condition (`C91_phase_refuted`, `C91_conditional_block_refuted`). It looks at qubits
  only, so `measure q[0] -> c[0]; if (c[0]) x q[1];` is turned around (`C91_classical_control_refuted`). A compound operation
  that contains a conditional block makes it dereference the end of a queue (`C91_nested_refuted`).
* C92: consequently `isInverseOf` ignores phases and takes {gphase(pi), x} for the inverse of {x, gphase(0)}
  (`C92_phase_refuted`), and compares {x, x} with {gphase, x} beyond the end of the second list (`C92_undefined_refuted`).
  Since `clone()` forgets the kind of comparison (C28), `if (c > 1) x` counts as the inverse of `if (c == 1) x`
  (`C92_condition_refuted`).
* C93: `getDepth` counts a block of operations under a condition as nothing, since such an operation has no targets, and a
  conditional barrier as an operation (`C93_block_refuted`, `C93_barrier_refuted`). The vector has one entry per qubit but is
  accessed with physical indices, so after `stripIdleQubits` it is written out of range (`C93_stripped_refuted`). A circuit that
  contains a barrier but no qubits makes it dereference the end of an empty vector (`C93_empty_refuted`).
* C94: a barrier behind a measurement makes a circuit dynamic (`C94_barrier_refuted`).
* C95: after stripping, `isLastOperationOnQubit` does not look at the highest qubits (`C95_stripped_refuted`).
* C96: `fromCompoundOperation` looks for bits in measurements at the top only, and for the qubits of conditional blocks not at
  all, so that the circuit contains operations out of its range (`C96_inner_refuted`, `C96_condition_refuted`,
  `C96_block_refuted`).
* C97: with a garbage qubit below an output, the new register is too small and appending measurements throws
  (`C97_garbage_refuted`); after stripping `measureAll` throws (`C97_stripped_refuted`).
* C98: after stripping `barrier()` covers qubits that do not exist and misses one that does (`C98_barrier_refuted`). A gate whose
  control is its target is accepted (`C98_twice_refuted`).
* C99: compound operations within compound operations are counted as one operation (`C99_nested_refuted`).
* C100: `#dim` is registered as a keyword but `#` cannot begin a name: it is scanned as an unknown token, which takes the `d`
  along, and the imaginary unit `im` (`C100_dim_refuted`). An unknown character always takes the next one along
  (`C100_unknown_refuted`). `10dt` is a timing literal and a name `t` (`C100_dt_refuted`). `2-1` is two numbers
  (`C100_minus_refuted`). A comment containing, say, `pi 3` is taken for an initial layout (`C100_comment_refuted`).
* C101: an unclosed string is read forever, collecting zero characters (`C101_string_refuted`).
* C103: `distribution(0, 11520)` includes 11520, so the identity is drawn more often (`C103_weight1_partial`, `C103_weight2_partial`). The classes with two CNOTs and with a SWAP ignore one digit of the index (a rotation of the target is missing): their operators are drawn three times as often and only 7680 of the 11520 two-qubit Cliffords occur (`C103_missing_refuted`).
* C104: the checker dereferences a null type for `~x`, `!x`, `x[0]` and `c = x` with undeclared `x`, and for `!(1 + true)` and `c = 1 + true` (`C104_crash_refuted`). Parameters of gates are entered with `emplace`, so a variable of the same name keeps its type in the body (`C104_shadow_refuted`). Indices in expressions and operands of gate calls are not checked at all.
* C105: arithmetic and comparisons write the larger width into the type object of an operand, which is the declared type of the variable: behind `if (a == b) {}` the assignment `a = b` of an `int[32]` to an `int[8]` is accepted (`C105_width_refuted`). Literals have 32 bits at least, so `const uint[8] x = 3;`, `int[16] x = 3;` and `float[32] f = 1.0;` are refused (`C105_narrow_refuted`). `1.0 << 2` passes the checker and fails in the evaluation (`C105_excuse_refuted`). A measurement is checked against the whole target register even if the target is indexed: `c[0] = measure q;` passes for registers of the same size (`C105_measure_refuted`).
* C106: the zero vector is a terminal edge, so `getVector` returns one entry whatever the number of qubits, and `getSparseVector` lists a zero; `getSparseMatrix` lists the zeros on the diagonal of the zero matrix with threshold 0 (`C106_zero_refuted`).
* C107: `getSparseProbabilityVectorStrKeys` takes the length of the keys from the topmost node instead of `numQubits`. Levels that look like the identity are skipped in density matrices too: for the maximally mixed state a null pointer is followed, and with a maximally mixed highest qubit different outcomes overwrite each other under a short key (`C107_keys_refuted`).
- C108/C109: `getLowestFraction` is documented to return the closest fraction but does not (0.3 with denominators up to 2 gives 0/1). It never ends for numbers from 2^64 on (also infinity), so printing such a number hangs. `toString` prints `(1+i)` for numbers like 0.7 eps + 1.2 eps i because the real part is skipped as zero but still compared with the imaginary part. Numbers between eps and pi * eps are printed as `0π`.
- C110: `opTypeFromString(toString(t))` throws for the four truth-value types; `shortName` is documented to return at most three characters but returns whole names for many types; the global phase does not carry the diagonal flag.
- C111: `fidelityOfMeasurementOutcomes` applies the permutation to positions of binary numerals, which are written from the highest qubit; exchanging qubits 0 and 1 of three exchanges qubits 2 and 1 instead. With a permutation that leaves qubits out, amplitudes are added and the result can be larger than one.
- C113: `trace` on density matrices assumes that no level is skipped (it adds the two diagonal blocks and does not double skipped ones), but `makeDDNode` skips identity-like nodes of density matrices as well. Measuring a qubit beside a maximally mixed one therefore uses half of the probability and can report an impossible outcome and divide by zero. On the maximally mixed state `e.p->v` is read from the terminal.
- C114: `AodOperation::invert` changes the type but not the name, so an inverted activation is printed as an activation. `setprecision` is applied to the outer stream while `toQASMString` formats into its own, so coordinates are cut to six digits. With no single operations the text starts `aod_move )`, with no targets it has no closing parenthesis. `Operation::equals` does not look at the single operations, so any two moves of the same qubits are equal and each is the inverse of the other.
- C115: `Edges::begin` and `Edges::end` read `es[0]` and `edges.back()` of an empty vector if the diagram has no vertices, for instance in `spiderSimp` of an empty diagram. An edge from a vertex to itself, which `addEdge` accepts and counts once, is visited twice. `operator++()` returns the old iterator and `operator++(int)` the new one; no loop in the repository uses these values.
- C116: `NAComputation::toString` sorts the atoms in a `std::map` with the initial location as key; atoms at the location of another one disappear from the text although operations still name them.
- C117: `roundToClifford` compares a phase with 0, 1/2, -1/2 and 1 as numbers, so a phase of -0.9999 pi, which is within any usual tolerance of pi, is left alone while 0.9999 pi is rounded.

## Mutation tests

`seeded/LOG.jsonl` has one line per edit of the model. How to read it:

* `failed` names the first statement in each file that no longer compiles. An empty list means that the edit went unnoticed;
  16 lines are of this kind, and each has a later line in which the same edit is noticed after the theorems were tightened.
* A failure shows that the proof script no longer works, not by itself that the theorem is false of the edited model. A script
  can also break because of the form of a definition. For instance, "nothing rounded" (C117) broke the proof of `C117_error`,
  which stays true for that edit; `C117_rounded_partial` was restated for diagrams because of this and excludes it.
  Not every failure was examined in this way.
* `property_theorems_lost` lists all theorems of the claim in files that no longer compile, whether or not each of them is
  affected. In some lines, for instance those naming several claims, it is empty because the names were not matched.
* A time limit (the edit of `fGate`, C70, and `swap_parts_sound`, C34) is inconclusive.

## Assumptions

`Print Assumptions` under the theorems of clusters C01–C07 and C51–C55 lists
nothing ("Closed under the global context") or functional extensionality. The
theorems over the complex numbers rest on Coq's standard library reals and list
a subset of:

* `ClassicalDedekindReals.sig_forall_dec`, `ClassicalDedekindReals.sig_not_dec`
  (construction of the reals),
* `FunctionalExtensionality.functional_extensionality_dep`,
* `Classical_Prop.classic` (through the trigonometric functions of `Reals`).
