{
 "claims": [
  {
   "property": "C01",
   "status": "proved",
   "theorems": [
    "C01_get_never_aliases",
    "C01_statistics_exact",
    "C01_entries_in_bounds",
    "C01_zero_initial_size_refuted"
   ],
   "note": "For every initial size > 0 and every get/return/reset history. An initial size of 0 is undefined behaviour (refuted theorem)."
  },
  {
   "property": "C02",
   "status": "partial",
   "theorems": [
    "C02_refuted",
    "C02_fresh_count_zero_partial"
   ],
   "note": "False of the code: reset() leaves old reference counts in memory. Proved for histories in which every reset happens while all counts are zero."
  },
  {
   "property": "C03",
   "status": "proved",
   "theorems": [
    "C03_one_node_per_content",
    "C03_lookup"
   ],
   "note": "Every hash function, bucket count, history of creation, incRef, decRef and collection."
  },
  {
   "property": "C04",
   "status": "proved",
   "theorems": [
    "C04_held_roots_protected",
    "C04_no_internal_error"
   ],
   "note": "Every history without Package::reset (see C02 for resets), including counter saturation."
  },
  {
   "property": "C05",
   "status": "proved",
   "theorems": [
    "C05_collection_precise",
    "C05_balanced_collects_all"
   ],
   "note": "As long as no reference counter is saturated."
  },
  {
   "property": "C06",
   "status": "partial",
   "theorems": [
    "C06_hits_are_sound",
    "C06_hits_are_latest",
    "C06_insert_then_hit",
    "C06_memory_safe",
    "C06_unary_clear_refuted"
   ],
   "note": "Soundness of hits proved for all tables; memory safety refuted for UnaryComputeTable with more than NBUCKET buckets after clear()."
  },
  {
   "property": "C07",
   "status": "partial",
   "theorems": [
    "C07_no_stale_entries_partial",
    "C07_refuted"
   ],
   "note": "Proved for all tables but three; conjugateVector, vectorAddMagnitudes and matrixAddMagnitudes keep entries of freed nodes (refuted)."
  },
  {
   "property": "C51",
   "status": "proved",
   "theorems": [
    "C51_counts",
    "C51_queries",
    "C51_duplicates"
   ],
   "note": "DirectedGraph: every history of addVertex/addEdge calls, no bound."
  },
  {
   "property": "C52",
   "status": "partial",
   "theorems": [
    "C52_sound",
    "C52_order_topologically",
    "C52_rim_histories_partial",
    "C52_refuted"
   ],
   "note": "Reachability answers are sound for every history, but the closure update of DirectedAcyclicGraph::addEdge misses paths, so completeness is false (witness); complete for histories in which every new edge ends in a source or starts in a sink of the graph."
  },
  {
   "property": "C53",
   "status": "proved",
   "theorems": [
    "C53_find_iff_connected",
    "C53_unknown_elements_refuted"
   ],
   "note": "findSet/unionSet over the constructor's elements. Elements not given to the constructor are silently merged with the default element (refuted theorem)."
  },
  {
   "property": "C54",
   "status": "proved",
   "theorems": [
    "C54_counts",
    "C54_queries",
    "C54_rejects",
    "C54_symmetric_matrix",
    "C54_self_loop_refuted"
   ],
   "note": "UndirectedGraph and SymmetricMatrix, every history. isAdjacent(v, v) denies an inserted self loop (refuted theorem); all other queries report it."
  },
  {
   "property": "C55",
   "status": "partial",
   "theorems": [
    "C55_executable_set_exact",
    "C55_order_partial",
    "C55_meaning_partial",
    "C55_inverse_pairs_refuted"
   ],
   "note": "The executable set is exact in every history. Dependency order, preservation of the circuit's meaning and absence of deadlock are proved for circuits without inverse neighbours on a qubit; with such pairs constructDAG admits schedules that change the meaning (witness CX(2,0); CX(0,1); Z(1); CX(0,1))."
  },
  {
   "property": "C22",
   "status": "proved",
   "theorems": [
    "C22_single_qubit_unitary",
    "C22_two_qubit_unitary",
    "C22_every_gate_has_a_matrix"
   ],
   "note": "All single-qubit and two-qubit gate types, all real parameters."
  },
  {
   "property": "C23",
   "status": "partial",
   "theorems": [
    "C23_invert",
    "C23_rejects",
    "C23_inverse_dd_partial",
    "C23_controlled_phase_refuted",
    "C23_is_inverse_of_partial"
   ],
   "note": "invert() proved for every operation with an operator, under any controls; getInverseDD proved except for controlled global phases, whose controls getDD ignores (refuted); isInverseOf proved wherever equality is sound (C26)."
  },
  {
   "property": "C25",
   "status": "partial",
   "theorems": [
    "C25_preserves_matrix",
    "C25_finite_partial",
    "C25_large_angle_refuted"
   ],
   "note": "The rewritten gate is within 24 tolerances of the original in every matrix entry whenever the rewriting yields finite parameters, which it does for all parameters of magnitude up to 10^13; larger ones become infinite (witness 10^14)."
  },
  {
   "property": "C26",
   "status": "partial",
   "theorems": [
    "C26_equality_partial",
    "C26_controlled_rz_refuted"
   ],
   "note": "Equality of standard operations is sound under all injective permutations except for controlled RZ and RZZ, where exchanging control and target changes the operator (witness)."
  },
  {
   "property": "C27",
   "status": "proved",
   "theorems": [
    "C27_commutation"
   ],
   "note": "Standard operations: if commutesAtQubit holds on all shared qubits the operators commute, for any states, targets, controls, parameters."
  },
  {
   "property": "C68",
   "status": "proved",
   "theorems": [
    "C68_pauli_gates",
    "C68_rotations",
    "C68_roots",
    "C68_permutation_gates",
    "C68_iswap_ecr_xy",
    "C68_special_cases_of_U"
   ],
   "note": "All gate types, all angles, exact real arithmetic."
  },
  {
   "property": "C24",
   "status": "partial",
   "theorems": [
    "C24_invert_partial",
    "C24_invert_with_phase",
    "C24_global_phase_refuted",
    "C24_succeeds",
    "C24_layouts_partial",
    "C24_layouts_refuted"
   ],
   "note": "invert() undoes every circuit of invertible operations, of any length and nesting, up to its global phase, which is kept instead of negated (refuted); layouts are exchanged when both have the same size (refuted otherwise)."
  },
  {
   "property": "C28",
   "status": "partial",
   "theorems": [
    "C28_copies_partial",
    "C28_circuit_copies_partial",
    "C28_comparison_lost_refuted"
   ],
   "note": "Copies are identical for operations whose conditions all use Eq; the copy of a ClassicControlledOperation falls back to Eq, so other comparisons are lost (refuted)."
  },
  {
   "property": "C29",
   "status": "partial",
   "theorems": [
    "C29_inverted_comparison",
    "C29_executes_iff_partial",
    "C29_wide_register_refuted",
    "C29_single_bit",
    "C29_applied_operation_partial",
    "C29_nested_condition_refuted"
   ],
   "note": "Inversion of comparisons exact; execution iff the register value satisfies the comparison for registers of up to 64 bits (wider: undefined shift); conditions nested inside a conditioned operation are ignored (refuted)."
  },
  {
   "property": "C30",
   "status": "partial",
   "theorems": [
    "C30_sum_partial",
    "C30_difference_partial",
    "C30_sum_exact",
    "C30_sorted_kept",
    "C30_construct_partial",
    "C30_scalar",
    "C30_term_minus_refuted",
    "C30_constant_minus_refuted",
    "C30_coefficient_plus_refuted",
    "C30_constant_div_term_refuted",
    "C30_equality_refuted"
   ],
   "note": "Sums and differences of expressions within the dropping tolerance, exact when nothing nearly cancels; negation, constants, products, quotients exact. Term - Expression, constant - Expression, coefficient + Expression, constant / Term and operator== are wrong (refuted)."
  },
  {
   "property": "C31",
   "status": "proved",
   "theorems": [
    "C31_register_indices",
    "C31_register_range",
    "C31_permutation_round_trip",
    "C31_permutation_consistent",
    "C31_max"
   ],
   "note": "All registers, all permutations given as injective finite maps."
  },
  {
   "property": "C32",
   "status": "proved",
   "theorems": [
    "C32_flatten",
    "C32_flatten_custom",
    "C32_classical_control_refuted"
   ],
   "note": "All circuits, any nesting, both modes. A compound operation under classical control is an operand, not an element of the circuit, and stays as it is (refuted theorem)."
  },
  {
   "property": "C33",
   "status": "partial",
   "theorems": [
    "C33_swap_reconstruction_partial",
    "C33_cancel_cnots_partial",
    "C33_hidden_compound_refuted"
   ],
   "note": "Both passes preserve every circuit of any well-formed operations (measurement, reset and classical control included) unless a compound operation stands directly under classical control: that reports no used qubits and gates are cancelled across it (witness)."
  },
  {
   "property": "C34",
   "status": "partial",
   "theorems": [
    "C34_decompose_partial",
    "C34_controlled_refuted",
    "C34_nested_refuted"
   ],
   "note": "Sound, total and complete for uncontrolled SWAPs at top level and in compound operations, both variants. Controlled SWAPs lose their controls, SWAPs nested twice are left (witnesses)."
  },
  {
   "property": "C35",
   "status": "proved",
   "theorems": [
    "C35_mcx_mcz"
   ],
   "note": "Every circuit, any controls of either polarity; no controlled X remains outside classical control."
  },
  {
   "property": "C36",
   "status": "partial",
   "theorems": [
    "C36_elide_partial",
    "C36_extension",
    "C36_hidden_compound_refuted"
   ],
   "note": "Operator and output permutation agree for every injective layout and every circuit, except that a compound operation directly under classical control is not relabelled (witness). All uncontrolled SWAPs are gone."
  },
  {
   "property": "C37",
   "status": "partial",
   "theorems": [
    "C37_fusion_partial",
    "C37_measurement_refuted",
    "C37_classical_control_refuted",
    "C37_gphase_refuted"
   ],
   "note": "Sound and total for all circuits in which no single-qubit measurement, reset or classically controlled gate is mistaken for a gate; those lose their effect (witnesses), an uncontrolled global phase throws (witness)."
  },
  {
   "property": "C43",
   "status": "proved",
   "theorems": [
    "C43_complete",
    "C43_trace"
   ],
   "note": "Every circuit, every injective partial output permutation into the circuit's qubits, every choice made by *begin() on the unordered set."
  },
  {
   "property": "C38",
   "status": "partial",
   "theorems": [
    "C38_diagonal_partial",
    "C38_memory_refuted",
    "C38_compound_refuted",
    "C38_two_qubit_refuted"
   ],
   "note": "Whenever the pass ends on a circuit without compound operations whose uncontrolled diagonal gates have one target, all outcome probabilities stay. The pass dereferences an end iterator on ordinary circuits, and is wrong for compound operations and two-qubit diagonal gates (witnesses)."
  },
  {
   "property": "C39",
   "status": "partial",
   "theorems": [
    "C39_final_partial",
    "C39_safe_partial",
    "C39_classical_control_refuted",
    "C39_compound_refuted",
    "C39_termination_refuted"
   ],
   "note": "For circuits without non-unitary compound operations in which a measured bit is neither read nor written again, the rest followed by the removed measurements behaves as before. Otherwise refuted: later classical control, compound operations, non-termination."
  },
  {
   "property": "C40",
   "status": "partial",
   "theorems": [
    "C40_defer_partial",
    "C40_order_refuted",
    "C40_skip_refuted",
    "C40_gate_refuted",
    "C40_comparison_refuted",
    "C40_compound_refuted"
   ],
   "note": "Throws or keeps the distribution of branches if after each measurement its qubit and bit are used only by classically controlled gates comparing with ==; any iteration order. Refuted otherwise (five witnesses)."
  },
  {
   "property": "C41",
   "status": "partial",
   "theorems": [
    "C41_resets_partial",
    "C41_nested_refuted",
    "C41_classical_control_refuted",
    "C41_first_refuted",
    "C41_ancilla_refuted"
   ],
   "note": "All circuits without compound operations and ancillary qubits keep all outcome probabilities, with any number of resets. Refuted for nested or classically controlled compound operations, a first reset in a compound operation, and ancillary qubits."
  },
  {
   "property": "C42",
   "status": "partial",
   "theorems": [
    "C42_blocks_partial",
    "C42_width",
    "C42_order_refuted"
   ],
   "note": "For every circuit and block size the blocks respect the limit (C42_width). The part after deferMeasurements keeps the operator if blocks may be as wide as the circuit. With smaller blocks operations are reordered wrongly (witness)."
  },
  {
   "property": "C11",
   "status": "proved",
   "theorems": [
    "C11_vector_edges",
    "C11_vector_cached",
    "C11_matrix_edges",
    "C11_matrix_cached"
   ],
   "note": "All successors, all tolerances; with the CachedEdge overloads weights within the tolerance of zero count as zero. Exact weights (the rounding of cn.lookup is C08)."
  },
  {
   "property": "C12",
   "status": "proved",
   "theorems": [
    "C12_vectors",
    "C12_matrices",
    "C12_proportional",
    "C12_tolerance_refuted"
   ],
   "note": "Exact arithmetic, all diagrams built by makeDDNode, any number of qubits, skipped identity levels included. For every positive tolerance below 1 two proportional vectors with different nodes exist (refuted theorem)."
  },
  {
   "property": "C13",
   "status": "proved",
   "theorems": [
    "C13_makeGateDD",
    "C13_out_of_range_throws"
   ],
   "note": "Every 2x2 matrix, target, set of controls; stated against the reference action of controlled gates on states."
  },
  {
   "property": "C14",
   "status": "proved",
   "theorems": [
    "C14_makeTwoQubitGateDD"
   ],
   "note": "Every 4x4 matrix, both orders of the targets, controls anywhere."
  },
  {
   "property": "C15",
   "status": "proved",
   "theorems": [
    "C15_add_vectors",
    "C15_add_matrices",
    "C15_multiply_matrix_vector",
    "C15_multiply_matrices",
    "C15_conjugate_transpose",
    "C15_apply_gate"
   ],
   "note": "All canonical diagrams over the same number of qubits, terminal edges and skipped levels included; compute tables are left out (results are canonical, hence equal to what would be cached)."
  },
  {
   "property": "C16",
   "status": "proved",
   "theorems": [
    "C16_inner_product",
    "C16_fidelity",
    "C16_norm",
    "C16_self",
    "C16_scalars_refuted"
   ],
   "note": "Every pair of canonical states over the same number (at least one) of qubits. Without qubits the inner product of 1 with itself is 0 (refuted theorem)."
  },
  {
   "property": "C17",
   "status": "proved",
   "theorems": [
    "C17_zero_state",
    "C17_zero_state_offset",
    "C17_basis_state",
    "C17_product_state",
    "C17_ghz",
    "C17_w",
    "C17_vector",
    "C17_offset_refuted",
    "C17_offset_product_refuted"
   ],
   "note": "All numbers of qubits, all bit strings, also product states and amplitude vectors. With an offset the basis-state constructors read beyond the vector (refuted theorems)."
  },
  {
   "property": "C18",
   "status": "partial",
   "theorems": [
    "C18_vector",
    "C18_matrix_partial",
    "C18_identity_refuted"
   ],
   "note": "All canonical vectors and in-range indices; all matrices except off-diagonal entries of a terminal edge, which answer the weight instead of zero (witness)."
  },
  {
   "property": "C19",
   "status": "partial",
   "theorems": [
    "C19_vectors",
    "C19_matrices_partial",
    "C19_history_refuted",
    "C19_width_refuted"
   ],
   "note": "Vectors: every sequence of calls against one compute table. Matrices: every such sequence in which identities are declared with one width and other right factors have a node for their topmost qubit. Otherwise refuted: stale table entries, wrong shift."
  },
  {
   "property": "C20",
   "status": "partial",
   "theorems": [
    "C20_partial_trace_partial",
    "C20_lowest",
    "C20_trace",
    "C20_skipped_refuted",
    "C20_shifted_refuted"
   ],
   "note": "The full trace and tracing out the lowest qubits are right for every operator; any set of qubits if no eliminated level is skipped above a kept node. Otherwise refuted: wrapped node index, operator on the wrong qubit."
  },
  {
   "property": "C21",
   "status": "partial",
   "theorems": [
    "C21_vectors_partial",
    "C21_three_qubits",
    "C21_unique",
    "C21_small_refuted",
    "C21_matrix_refuted"
   ],
   "note": "Vector diagrams of three or more qubits (any sharing) are transferred faithfully; on one or two qubits the traversal can read the top of an empty stack, and matrices can come out wrong (witnesses)."
  },
  {
   "property": "C08",
   "status": "partial",
   "theorems": [
    "C08_tolerance",
    "C08_entry",
    "C08_repeat_partial",
    "C08_stored_partial",
    "C08_repeat_refuted"
   ],
   "note": "Every table and value: the result is within the tolerance and stored. Repeated lookups give the same entry after every history of lookups and collections of values whose tolerance interval lies in one bucket; at the border of two buckets refuted for the default tolerance. Exact rationals instead of doubles."
  },
  {
   "property": "C09",
   "status": "proved",
   "theorems": [
    "C09_sign",
    "C09_flip",
    "C09_complex",
    "C09_never_signed_zero",
    "C09_lookup_sign",
    "C09_refcount"
   ],
   "note": "All addresses and memories; reference counts through signed pointers and immortal numbers included."
  },
  {
   "property": "C10",
   "status": "partial",
   "theorems": [
    "C10_round_trip_partial",
    "C10_alias_refuted",
    "C10_tags_refuted"
   ],
   "note": "All flag combinations, with and without assertions, unless both edges are tagged and lead to the same node (witness: assertion failure, or a corrupted node in release builds) or an edge is tagged without the density-matrix bit. The two local edges come back without their tags."
  },
  {
   "property": "C44",
   "status": "partial",
   "theorems": [
    "C44_recursive_partial",
    "C44_single_operation_partial",
    "C44_single_operation_refuted",
    "C44_empty_refuted"
   ],
   "note": "Every circuit of two or more unitary operations, any layout; a single operation only if no relabelling of the output is needed (otherwise refuted: the recursive construction of one operation skips the output permutation), no operation is undefined behaviour (refuted)."
  },
  {
   "property": "C45",
   "status": "partial",
   "theorems": [
    "C45_simulate_partial",
    "C45_simulate_meaning",
    "C45_global_phase_refuted",
    "C45_controlled_phase_refuted"
   ],
   "note": "All unitary circuits, layouts and inputs, up to the global phase of the circuit, which only the simulation applies (refuted); simulation is also related to the reference semantics of the circuit. A controlled global phase is applied without its control (refuted)."
  },
  {
   "property": "C46",
   "status": "partial",
   "theorems": [
    "C46_vector_partial",
    "C46_matrix_partial",
    "C46_free_level_refuted",
    "C46_zero_refuted"
   ],
   "note": "All vectors and matrices different from zero and all layouts whose requested levels are in use in 'from'. A requested level that no qubit of 'from' occupies is not reached (refuted); the zero vector leaves 'from' as it is (refuted)."
  },
  {
   "property": "C47",
   "status": "partial",
   "theorems": [
    "C47_sample_partial",
    "C47_no_measurement_partial",
    "C47_total",
    "C47_measured_twice_refuted",
    "C47_outputs_refuted",
    "C47_nested_measurement_refuted",
    "C47_nested_condition_refuted"
   ],
   "note": "Distribution of one shot for all circuits of gates, measurements, resets and classically controlled gates (top level), all layouts; in the static case each qubit and bit measured once. Refuted: qubit measured twice, permuted outputs without measurements, measurements or conditions inside compound operations. Repetition of the shots and the counters are not modelled."
  },
  {
   "property": "C48",
   "status": "proved",
   "theorems": [
    "C48_probabilities",
    "C48_measureOneCollapsing",
    "C48_zero_vector_refuted"
   ],
   "note": "All normalised states of any size and all qubits, stated against Born weights of projected states. The zero vector is outside (it is dereferenced without a node, refuted theorem)."
  },
  {
   "property": "C49",
   "status": "partial",
   "theorems": [
    "C49_single_partial",
    "C49_multi",
    "C49_multi_refuted",
    "C49_sanity_refuted",
    "C49_mixtures",
    "C49_channel_partial",
    "C49_trace",
    "C49_cache_refuted"
   ],
   "note": "Completeness for one qubit for all damping probabilities in [0,1]; for several qubits it holds exactly when f^2 g = f a (C49_multi), so it is refuted in general: the constructor uses the gate noise where the damping probability belongs. Phase flips and depolarisation are complete mixtures realised by the draws (uniform draws integrated over the unit interval). C49_channel_partial: the expected density operator of the whole simulation is the composition of the channels, guarded by the completeness condition and by damping coming first. The shared operator cache makes a second simulation with other probabilities use stale operators (refuted theorem)."
  },
  {
   "property": "C50",
   "status": "partial",
   "theorems": [
    "C50_blocks",
    "C50_blocks_trace",
    "C50_recursion_partial",
    "C50_agrees_partial",
    "C50_skipped_level_refuted",
    "C50_no_qubits_refuted"
   ],
   "note": "The three maps on the 2x2 blocks equal the textbook channels for all probabilities and all canonical sub-diagrams and preserve the trace (C50_blocks, no guard). The recursion around them agrees with the expectation of the stochastic simulation when no level above the lowest used qubit is skipped over a node; without this guard it is refuted (a node of a lower qubit is taken for the next level). Density-matrix flags of the edges are not modelled here."
  },
  {
   "property": "C56",
   "status": "partial",
   "theorems": [
    "C56_modPi",
    "C56_field_ops_partial",
    "C56_integer_ops_partial",
    "C56_division_partial",
    "C56_comparisons",
    "C56_constructor_refuted",
    "C56_multiplication_range_refuted",
    "C56_division_range_refuted",
    "C56_left_subtraction_refuted",
    "C56_left_division_refuted"
   ],
   "note": "Exactness modulo 2 holds for every operation except the two operators with the fraction on the right of an integer (subtraction and division compute with swapped operands: refuted). The range (-1, 1] is kept by addition, subtraction and negation; modPi subtracts 2 only once, so the range fails outside (-3, 3] (constructor, multiplication, division: refuted; C56_modPi states the exact condition). Fractions are rationals of unlimited size, machine overflow is not modelled; conversion from double is not modelled."
  },
  {
   "property": "C57",
   "status": "partial",
   "theorems": [
    "C57_bookkeeping_partial",
    "C57_reuse",
    "C57_remove_missing_edge_refuted",
    "C57_parallel_edges_refuted",
    "C57_loop_refuted",
    "C57_double_removal_refuted"
   ],
   "note": "Every history of the public updates in which edges are added between different, not yet connected vertices and only existing edges and vertices are removed. Otherwise refuted: removing a missing edge, parallel edges, loops, deleting twice."
  },
  {
   "property": "C58",
   "status": "partial",
   "theorems": [
    "C58_identity",
    "C58_fusion",
    "C58_local_complementation",
    "C58_pivot_pauli",
    "C58_pivot",
    "C58_pivot_gadget",
    "C58_gadget_fusion_partial",
    "C58_gadget_on_boundary_refuted",
    "C58_gadget_two_leaves_refuted",
    "C58_gadget_x_spider_refuted"
   ],
   "note": "All well-formed diagrams of any size, symbolic phases included. Every rule is sound as checked except gadget fusion, which is right for diagrams without X spiders when a gadget on a single vertex does not sit on a boundary vertex and the other gadget has one phase spider only; the three excluded cases are refuted."
  },
  {
   "property": "C59",
   "status": "partial",
   "theorems": [
    "C59_interior_clifford",
    "C59_clifford_partial",
    "C59_full_reduce_partial",
    "C59_full_reduce_refuted",
    "C59_zero_map_refuted"
   ],
   "note": "interiorCliffordSimp: preservation and termination for every well-formed diagram. cliffordSimp: preservation whenever it ends (termination not proved). fullReduce: preservation for diagrams with a non-zero map whose gadget fusions are not among the cases refuted in C58; otherwise refuted (a gadget at an output is lost; an isolated pi spider is deleted)."
  },
  {
   "property": "C60",
   "status": "partial",
   "theorems": [
    "C60_build_partial",
    "C60_rejects",
    "C60_negative_control_refuted",
    "C60_ecr_refuted",
    "C60_gphase_refuted",
    "C60_xxplusyy_refuted",
    "C60_xxminusyy_refuted"
   ],
   "note": "Every circuit (nested compound operations, any injective layout, symbolic angles, any number of qubits and gates) of accepted gates other than GPhase, ECR, XXplusYY and XXminusYY and with positive controls: the construction succeeds and the diagram is the operator up to a non-zero scalar. Refuted otherwise: ECR is translated to the identity, the two XX/YY gates get the wrong sign of the angle, negative controls are taken as positive, a global-phase operation reads the front of an empty vector. Angles are exact rational multiples of pi plus symbols (the code approximates doubles)."
  },
  {
   "property": "C61",
   "status": "partial",
   "theorems": [
    "C61_adjoint_partial",
    "C61_identity_partial",
    "C61_concat_partial",
    "C61_adjoint_phase_refuted",
    "C61_identity_hadamard_refuted",
    "C61_identity_zero_refuted",
    "C61_concat_phase_refuted",
    "C61_concat_parallel_refuted"
   ],
   "note": "Adjoint: every well-formed diagram, exact up to twice the global phase (which is not negated: refuted). isIdentity: right for diagrams with a non-zero map whose input-output edges are plain; refuted for a Hadamard edge and for a stray spider with phase pi. concat: for every pair of well-formed diagrams that fit together (composable: one edge at every joined boundary vertex, inputs labelled by position, no two joined lines between the same spiders) the result is well-formed and its map is the composition, up to twice the global phase of the right diagram, which is subtracted instead of added (refuted); joined lines between the same spiders become parallel edges (refuted)."
  },
  {
   "property": "C62",
   "status": "partial",
   "theorems": [
    "C62_literal_partial",
    "C62_negative_partial",
    "C62_capital_refuted",
    "C62_octal_refuted",
    "C62_minimum_refuted"
   ],
   "note": "Every literal of any length with any separators, except capital hexadecimal digits (0xA is read as -22: refuted) and the prefix 0O (refuted). A minus sign belongs to the literal; -2^63 overflows (refuted). Floating-point literals are only recognised, not converted."
  },
  {
   "property": "C64",
   "status": "partial",
   "theorems": [
    "C64_exact_partial",
    "C64_undefined",
    "C64_no_crash_partial",
    "C64_crash_refuted",
    "C64_negative_exponent_refuted",
    "C64_declared_width_refuted",
    "C64_declared_sign_refuted",
    "C64_declared_float_refuted",
    "C64_unsigned_float_refuted"
   ],
   "note": "Every expression over integer and Boolean literals and names: a value is exact modulo 2^64 if no exponent is negative. It crashes exactly for the operand pairs of C64_undefined (division by zero, 0^n, long shifts, signed overflow: refuted). Declared widths, signs and floating-point types of constants are ignored (refuted). Floating-point numbers are rationals in the model; functions on them are left out."
  },
  {
   "property": "C65",
   "status": "proved",
   "theorems": [
    "C65_find",
    "C65_restore"
   ],
   "note": "All histories of opening, closing and binding, for every type of binding. Of several bindings in one scope the first stays."
  },
  {
   "property": "C63",
   "status": "partial",
   "theorems": [
    "C63_parse_partial",
    "C63_power_refuted",
    "C63_comparison_refuted",
    "C63_sign_refuted",
    "C63_rejected_refuted",
    "C63_order_refuted",
    "C63_subtraction_refuted"
   ],
   "note": "Every expression (any length and nesting, redundant parentheses, indices, functions) outside the listed deviations is parsed to its tree. The deviations are all refuted with witnesses: powers associate to the left, comparisons bind tighter than sums, a leading sign covers the whole product, other signs only the base of a power, comparisons after a leading sign and negations inside are rejected, order and equality bind alike, 2-1 is scanned as two literals."
  },
  {
   "property": "C66",
   "status": "partial",
   "theorems": [
    "C66_if_partial",
    "C66_constant_left_refuted",
    "C66_index_refuted",
    "C66_shared_type_refuted",
    "C66_widened_type_refuted",
    "C66_boolean_refuted"
   ],
   "note": "All blocks of gates, registers, contents and states, for conditions that compare a whole register with a constant on its right (for equality also on its left), a single bit or its negation. Refuted otherwise: comparisons with the constant on the left are not turned around, an index in a comparison is ignored; the shared types of the type check let if (c) pass for wide registers after a use of c[i] and reject it for single bits after a comparison."
  },
  {
   "property": "C67",
   "status": "partial",
   "theorems": [
    "C67_call_partial",
    "C67_negctrl_refuted",
    "C67_scope_refuted",
    "C67_recursion_refuted",
    "C67_redeclared_refuted"
   ],
   "note": "All declared gates, calls, registers, modifier lists and nesting depths: the operations of an accepted call are the operators the language prescribes, one per register index. Excluded and refuted: negctrl on gates with built-in controls (the polarity lands on the wrong qubit), constants named like a parameter of a calling gate (dynamic scoping), self-calling gates (endless recursion), redeclared built-in gates (ignored). The translation in the OpenQASM 2 mode (names with leading c) and the canonicalisation of U gates are not covered by the positive theorem."
  },
  {
   "property": "C69",
   "status": "proved",
   "theorems": [
    "C69_ghz"
   ],
   "note": "For n = 0 the generator throws."
  },
  {
   "property": "C70",
   "status": "proved",
   "theorems": [
    "C70_w"
   ],
   "note": "For n = 0 the generator throws. Angles are exact real numbers."
  },
  {
   "property": "C71",
   "status": "proved",
   "theorems": [
    "C71_qft",
    "C71_qft_measured",
    "C71_simulated_refuted"
   ],
   "note": "The operations of the circuit are the transform, with qubit 0 as the most significant one, and the measured circuit has the right distribution. Side finding, refuted: the unmeasured circuit carries out the SWAP gates and declares a reversed output permutation as well, so that simulate (which undoes the permutation) returns a different state."
  },
  {
   "property": "C72",
   "status": "proved",
   "theorems": [
    "C72_iterative_qft",
    "C72_any_input"
   ],
   "note": "Every outcome has probability 2^-n. C72_any_input: with a fresh qubit of a register in place of every reset the rounds equal the measured transform for every input state."
  },
  {
   "property": "C73",
   "status": "proved",
   "theorems": [
    "C73_bernstein_vazirani",
    "C73_iterative",
    "C73_sized_by_string"
   ],
   "note": "All strings and lengths accepted by the generators. The random generation of the string is not modelled (the theorems hold for every string)."
  },
  {
   "property": "C74",
   "status": "proved",
   "theorems": [
    "C74_qpe",
    "C74_iterative",
    "C74_exact",
    "C74_nearest",
    "C74_inexact"
   ],
   "note": "All real phases, precisions 1 to 64 (beyond, the shifts are undefined). createExactPhase and createInexactPhase are modelled as functions of the random number."
  },
  {
   "property": "C75",
   "status": "proved",
   "theorems": [
    "C75_grover",
    "C75_success"
   ],
   "note": "All targets and sizes accepted by the generator; the exact distribution and bounds that follow from the number of iterations chosen by the code."
  },
  {
   "property": "C76",
   "status": "proved",
   "theorems": [
    "C76_accepts",
    "C76_prepares"
   ],
   "note": "All complex vectors, sizes and eps > 0. The error bound is needed because angles and amplitudes below eps are dropped by the code; real arithmetic instead of double."
  },
  {
   "property": "C77",
   "status": "partial",
   "theorems": [
    "C77_validate",
    "C77_first_error",
    "C77_no_collision",
    "C77_location",
    "C77_printed",
    "C77_order_refuted",
    "C77_same_place_refuted",
    "C77_load_twice_refuted",
    "C77_printed_refuted"
   ],
   "note": "Exact characterisation of the accepted computations for all histories. False in general: the relative order is only preserved among the atoms of one operation, loaded atoms can be moved past (or onto) others one at a time; one load may name an atom twice; toString drops atoms that share a location."
  },
  {
   "property": "C78",
   "status": "partial",
   "theorems": [
    "C78_order_partial",
    "C78_total",
    "C78_ge_refuted"
   ],
   "note": "All operators except >=, which is the same function as <= (Location.hpp:104)."
  },
  {
   "property": "C79",
   "status": "partial",
   "theorems": [
    "C79_vectors_partial",
    "C79_matrices_partial",
    "C79_identity_refuted",
    "C79_scalar_refuted"
   ],
   "note": "All canonical diagrams with at least one node. False for diagrams without a node: an identity matrix is read back as zero. Numbers are taken to be written exactly (the text format writes 16 significant digits)."
  },
  {
   "property": "C80",
   "status": "partial",
   "theorems": [
    "C80_export_import_partial",
    "C80_measure_refuted",
    "C80_whole_refuted",
    "C80_empty_if_refuted",
    "C80_block_if_refuted",
    "C80_negative_if_refuted",
    "C80_peres_refuted",
    "C80_block_rejected_refuted",
    "C80_width_refuted",
    "C80_move_refuted"
   ],
   "note": "All circuits admitted by ExportSpec.exportable, in both versions. False in general: Peres gates are written with their qubits exchanged; in OpenQASM 3 a measurement of several qubits that is not one of whole registers writes all of them to the first bit; a list that begins and ends like a register is taken for the whole register; in OpenQASM 2 a condition covers only the first of the statements an operation is written as (or the next operation); conditional blocks with anything but gates, and whole-register measurements after a condition on a bit, are rejected when read; move is not known to the importer. Not covered: the global phase of the circuit (not written), numbers are taken to be written exactly (the code writes 15 digits), symbolic parameters, layout comments."
  },
  {
   "property": "C81",
   "status": "partial",
   "theorems": [
    "C81_built",
    "C81_marked",
    "C81_ancilla_partial",
    "C81_qubit_partial",
    "C81_inserted",
    "C81_inserted_refuted",
    "C81_register_after_strip_refuted",
    "C81_removed_refuted",
    "C81_reset_refuted",
    "C81_unified_refuted",
    "C81_joined_refuted"
   ],
   "note": "Proved for every sequence of calls that build a circuit, and for marking and adding last qubits at any time, registers split by stripping included. False in general: addQubit with a logical index in use duplicates it (C81_inserted: the layout stays a bijection exactly if the index is the next one); removeQubit does not renumber; a register added after stripping overlaps; reset and unifyQuantumRegisters leave the flags; joining the parts of a split register can lose them if their name is taken."
  },
  {
   "property": "C82",
   "status": "partial",
   "theorems": [
    "C82_strip_partial",
    "C82_names_refuted",
    "C82_force_refuted"
   ],
   "note": "All consistent circuits whose register names do not collide with the names of the parts of split registers. False without that (a qubit ends up in no register), and the forced variant leaves outputs that do not exist."
  },
  {
   "property": "C83",
   "status": "partial",
   "theorems": [
    "C83_mapping_partial",
    "C83_again_refuted",
    "C83_compound_refuted",
    "C83_garbage_refuted",
    "C83_same_bit_refuted",
    "C83_dead_refuted"
   ],
   "note": "All consistent circuits that measure each qubit at most once, into different bits, outputs given before included. False in general: a qubit measured again shifts the bits of those after it in the same operation; measurements in compound operations are not seen; measuring a garbage qubit throws; two qubits measured into one bit; a measured qubit is dropped if an idle ancillary has the number of its bit."
  },
  {
   "property": "C84",
   "status": "partial",
   "theorems": [
    "C84_layout_partial",
    "C84_unchanged_partial",
    "C84_recognised",
    "C84_ignored",
    "C84_no_output_refuted",
    "C84_gap_refuted",
    "C84_comment_refuted",
    "C84_unchecked_refuted"
   ],
   "note": "All layouts, and all outputs that are the logical qubits 0, ..., k-1 with k > 0. False in general: an empty output permutation becomes the identity, gaps in the logical outputs are closed, ordinary comments containing 'i ' or 'o ' before a digit are taken for layouts, and layouts are not checked against the number of qubits."
  },
  {
   "property": "C85",
   "status": "proved",
   "theorems": [
    "C85_ancillae",
    "C85_initial",
    "C85_twice",
    "C85_short_refuted"
   ],
   "note": "All canonical matrix diagrams with flags for at least their qubits; with fewer flags the code reads beyond their end (C85_short_refuted)."
  },
  {
   "property": "C86",
   "status": "partial",
   "theorems": [
    "C86_magnitudes",
    "C86_vector_partial",
    "C86_matrix_partial",
    "C86_normalised_partial",
    "C86_normalised_matrix_partial",
    "C86_partial_equivalence",
    "C86_phase_refuted",
    "C86_zero_refuted",
    "C86_identity_refuted"
   ],
   "note": "The squared magnitudes are as claimed for all canonical diagrams; the entries themselves are the documented square roots if weights are normalised and the diagram has a node. False otherwise: phases below a garbage qubit survive, the zero vector or matrix is dereferenced when normalising, and a multiple of the identity is not normalised."
  },
  {
   "property": "C87",
   "status": "partial",
   "theorems": [
    "C87_off_diagonal",
    "C87_diagonal",
    "C87_close_partial",
    "C87_accepts",
    "C87_zero_refuted",
    "C87_ancilla_refuted",
    "C87_garbage_refuted"
   ],
   "note": "Proved relative to the root weight: off-diagonal entries are below the tolerance, diagonal entries close to the root weight or zero. False as a test for the identity: the root weight is not looked at (the zero matrix is accepted), zeros not due to ancillary qubits and a controlled X with a garbage target are accepted."
  },
  {
   "property": "C88",
   "status": "partial",
   "theorems": [
    "C88_functionality",
    "C88_ancillae",
    "C88_recursive_partial",
    "C88_simulate",
    "C88_column",
    "C88_single_refuted"
   ],
   "note": "All circuits of unitary operations (circ_ok, as for C44/C45) with one flag per qubit; the recursive construction for at least two operations: for a single operation it neither relayouts nor reduces (C88_single_refuted), for none see C44."
  },
  {
   "property": "C89",
   "status": "partial",
   "theorems": [
    "C89_instantiate_partial",
    "C89_exact",
    "C89_finite_partial",
    "C89_in_place",
    "C89_invert",
    "C89_equal_self",
    "C89_equal_numbers",
    "C89_shrunk_P_refuted",
    "C89_shrunk_U2_refuted",
    "C89_numbers_refuted",
    "C89_equality_refuted"
   ],
   "note": "All gates and expressions except mixed U gates that the constructor takes for P (theta and phi about 0) or U2 (theta about pi/2): these keep three parameters and are instantiated to the wrong gate (C89_shrunk_*). Equality is false as claimed: it compares the first symbolic parameter only. A symbolic operation with numbers only can lose its parameters and then not be instantiated."
  },
  {
   "property": "C90",
   "status": "partial",
   "theorems": [
    "C90_circuit_partial",
    "C90_variables",
    "C90_unassigned",
    "C90_flat_partial",
    "C90_nested_refuted"
   ],
   "note": "All sequences of gate calls outside the exception of C89, and all circuits without symbols inside compound or classically controlled operations; those are not instantiated although their variables are taken off the record (C90_nested_refuted)."
  },
  {
   "property": "C91",
   "status": "partial",
   "theorems": [
    "C91_reorder_partial",
    "C91_order_partial",
    "C91_rounds_partial",
    "C91_canonical_partial",
    "C91_meaning_partial",
    "C91_unitary_partial",
    "C91_out_of_range",
    "C91_phase_refuted",
    "C91_conditional_block_refuted",
    "C91_classical_control_refuted",
    "C91_nested_refuted"
   ],
   "note": "Termination, order on each qubit and canonical form for all circuits without a block under a condition inside a compound operation (undefined behaviour there, C91_nested_refuted). Operations without qubits of their own are lost: global phase gates and conditional blocks (C91_phase_refuted, C91_conditional_block_refuted). The meaning is kept if operations on different qubits share no classical bit that one of them writes; in general a condition can be read before the measurement (C91_classical_control_refuted)."
  },
  {
   "property": "C92",
   "status": "partial",
   "theorems": [
    "C92_sound_partial",
    "C92_complete_partial",
    "C92_answers_partial",
    "C92_phase_refuted",
    "C92_undefined_refuted",
    "C92_condition_refuted"
   ],
   "note": "All compound operations whose operations use a qubit, contain no block under a condition, no controlled RZ or RZZ (see C26) and no comparison other than equality. Without these: phases are ignored (C92_phase_refuted), the second list is read beyond its end (C92_undefined_refuted), the kind of comparison is ignored (C92_condition_refuted)."
  },
  {
   "property": "C93",
   "status": "partial",
   "theorems": [
    "C93_depth_partial",
    "C93_built_partial",
    "C93_exchange_partial",
    "C93_block_refuted",
    "C93_barrier_refuted",
    "C93_stripped_refuted",
    "C93_empty_refuted"
   ],
   "note": "All circuits whose conditions control single operations other than barriers and whose qubits are below the number of qubits. A conditional block counts as nothing and a conditional barrier as an operation (C93_block_refuted, C93_barrier_refuted); after stripIdleQubits, and for circuits without qubits, memory is accessed out of range (C93_stripped_refuted, C93_empty_refuted)."
  },
  {
   "property": "C94",
   "status": "proved",
   "theorems": [
    "C94_exact",
    "C94_deferred",
    "C94_built",
    "C94_barrier_refuted"
   ],
   "note": "C94_barrier_refuted: the converse fails, a barrier behind a measurement makes a circuit dynamic."
  },
  {
   "property": "C95",
   "status": "partial",
   "theorems": [
    "C95_exact",
    "C95_move",
    "C95_stripped_refuted"
   ],
   "note": "The answer is exact for qubits below the number of qubits; after stripIdleQubits there are others, which are not looked at (C95_stripped_refuted)."
  },
  {
   "property": "C96",
   "status": "partial",
   "theorems": [
    "C96_circuit_partial",
    "C96_inner_refuted",
    "C96_condition_refuted",
    "C96_block_refuted"
   ],
   "note": "Always succeeds with consistent bookkeeping. The same action needs conditions with equality (clone() forgets the others, see C28). Bits of measurements inside inner blocks, bits read by conditions and qubits of conditional blocks are not added to the circuit (C96_inner_refuted, C96_condition_refuted, C96_block_refuted)."
  },
  {
   "property": "C97",
   "status": "partial",
   "theorems": [
    "C97_outputs",
    "C97_runs_partial",
    "C97_back",
    "C97_all",
    "C97_garbage_refuted",
    "C97_stripped_refuted"
   ],
   "note": "What is appended, and what the bits show, for all well-kept circuits. The function raises an exception if the output numbers are not below the number of outputs, as with garbage qubits (C97_garbage_refuted), and measureAll does after stripping (C97_stripped_refuted)."
  },
  {
   "property": "C98",
   "status": "proved",
   "theorems": [
    "C98_built",
    "C98_strip",
    "C98_refused",
    "C98_measure",
    "C98_barrier_refuted",
    "C98_twice_refuted"
   ],
   "note": "All sequences of calls that start with an empty circuit, and stripping afterwards. Continuing after stripping is outside of this: barrier() then covers qubits that are gone (C98_barrier_refuted). A qubit may be both control and target (C98_twice_refuted)."
  },
  {
   "property": "C99",
   "status": "partial",
   "theorems": [
    "C99_individual_partial",
    "C99_single_partial",
    "C99_nested_refuted"
   ],
   "note": "All circuits whose compound operations contain no compound operations; an inner block counts as one operation and its gates are not counted (C99_nested_refuted)."
  },
  {
   "property": "C100",
   "status": "partial",
   "theorems": [
    "C100_tokens_partial",
    "C100_token",
    "C100_unique",
    "C100_blank",
    "C100_dim_refuted",
    "C100_unknown_refuted",
    "C100_dt_refuted",
    "C100_minus_refuted",
    "C100_comment_refuted"
   ],
   "note": "All texts made of the listed tokens (lexeme, written); capital hexadecimal digits and the prefix 0O are excluded (see C62). Not scanned as the language says: #dim (C100_dim_refuted), the unit dt (C100_dt_refuted), a minus sign before a digit always belongs to the number (C100_minus_refuted), an unknown character swallows the next one (C100_unknown_refuted), comments such as 'pi 3' are taken for layouts (C100_comment_refuted)."
  },
  {
   "property": "C101",
   "status": "partial",
   "theorems": [
    "C101_ends_partial",
    "C101_step",
    "C101_plain",
    "C101_string_refuted"
   ],
   "note": "All texts in which no quotation mark is left open; an unclosed string is read forever (C101_string_refuted)."
  },
  {
   "property": "C102",
   "status": "proved",
   "theorems": [
    "C102_clifford",
    "C102_layout",
    "C102_support"
   ],
   "note": "Circuits with at least one qubit; the random numbers are a parameter. For 0 qubits the loop bound nq - 1 wraps around, which is not modelled."
  },
  {
   "property": "C103",
   "status": "partial",
   "theorems": [
    "C103_single",
    "C103_single_all",
    "C103_weight1_partial",
    "C103_weight2_partial",
    "C103_even1_refuted",
    "C103_missing_refuted"
   ],
   "note": "One qubit: the 24 indices give exactly the Clifford operators. Even distribution is false because 0 .. 11520 are 11521 numbers (C103_even1_refuted). Two qubits: the exact number of draws for every operator is proved (C103_weight2_partial); they are 7680 operators, so not all 11520 Cliffords are generated: a rotation of the second qubit is missing in two of the four classes (C103_missing_refuted)."
  },
  {
   "property": "C104",
   "status": "partial",
   "theorems": [
    "C104_scoped",
    "C104_expr",
    "C104_no_crash_partial",
    "C104_crash_refuted",
    "C104_shadow_refuted"
   ],
   "note": "Scopes are proved for all statements. Crash freedom is false: a missing type is dereferenced for ~x, !x, x[0] and c = x with an undeclared x and behind type errors (C104_crash_refuted); without ~, ! and indices of undeclared names expressions never crash (C104_no_crash_partial). Gate parameters do not hide variables of the same name (C104_shadow_refuted)."
  },
  {
   "property": "C105",
   "status": "partial",
   "theorems": [
    "C105_kinds",
    "C105_sound",
    "C105_fails",
    "C105_program",
    "C105_behind",
    "C105_rules",
    "C105_assign",
    "C105_condition",
    "C105_measure",
    "C105_width_refuted",
    "C105_narrow_refuted",
    "C105_excuse_refuted",
    "C105_measure_refuted"
   ],
   "note": "Kinds are proved, and that exactly the expressions, assignments and conditions which follow the typing rules are accepted (variables of number types and bool, no indices). Evaluation of an accepted expression fails only for shifts and bitwise operations of floating-point numbers and overflowing powers of integers (C105_fails, C105_excuse_refuted). Widths are not preserved: comparing variables changes their declared widths (C105_width_refuted)."
  },
  {
   "property": "C106",
   "status": "proved",
   "theorems": [
    "C106_vector",
    "C106_sparse",
    "C106_add",
    "C106_matrix",
    "C106_sparse_matrix",
    "C106_zero_refuted"
   ],
   "note": "For at least one qubit and a non-zero vector. The zero vector is read as a vector of one entry, zeros of the zero matrix are listed with threshold 0, and the threshold is ignored without qubits (C106_zero_refuted)."
  },
  {
   "property": "C107",
   "status": "partial",
   "theorems": [
    "C107_probabilities",
    "C107_weights",
    "C107_keys_partial",
    "C107_keys_refuted",
    "C107_positive_refuted"
   ],
   "note": "Numeric keys are proved for all density matrices. String keys only if the diagram has a node on the highest level (C107_keys_partial): otherwise a null pointer is followed or outcomes share a key (C107_keys_refuted). Positivity is needed (C107_positive_refuted). Tagged edges are not modelled here."
  },
  {
   "property": "C108",
   "status": "partial",
   "theorems": [
    "C108_fraction",
    "C108_zero",
    "C108_recovers",
    "C108_closest_refuted",
    "C108_forever_refuted",
    "C108_den_refuted",
    "C108_coarse_refuted"
   ],
   "note": "Everything except the documented claim to be the closest fraction is proved, with exact arithmetic instead of rounding. The result need not be the closest fraction (C108_closest_refuted: 0.3 with denominators up to 2 gives 0/1). From 2^64 on the search never ends (C108_forever_refuted); denominators up to 0 give 1/0 (C108_den_refuted)."
  },
  {
   "property": "C109",
   "status": "partial",
   "theorems": [
    "C109_print",
    "C109_ends",
    "C109_text_partial",
    "C109_plain",
    "C109_tiny_refuted",
    "C109_zero_refuted",
    "C109_forever_refuted"
   ],
   "note": "Proved with exact arithmetic; the root of two and pi stand for the program's constants, and rounding of decimals is not modelled. toString is wrong for parts of about the size of the tolerance, where it prints (1+i) (C109_tiny_refuted). A number between eps and eps * PI is printed as zero times pi (C109_zero_refuted), and numbers from 2^64 on are printed forever (C109_forever_refuted)."
  },
  {
   "property": "C110",
   "status": "partial",
   "theorems": [
    "C110_codes",
    "C110_inverse",
    "C110_partner",
    "C110_diagonal",
    "C110_phase_refuted",
    "C110_names_partial",
    "C110_names_refuted",
    "C110_distinct",
    "C110_control",
    "C110_meaning",
    "C110_short_partial",
    "C110_short_refuted"
   ],
   "note": "Codes, flags and names are proved. The four truth-value types are not known by their names (C110_names_refuted). The limit of three characters holds for gates (C110_short_partial) and is broken by other types, e.g. aod_deactivate (C110_short_refuted). Global phases do not carry the diagonal flag (C110_phase_refuted)."
  },
  {
   "property": "C111",
   "status": "partial",
   "theorems": [
    "C111_sum",
    "C111_one",
    "C111_permuted_partial",
    "C111_reversed",
    "C111_permuted_refuted",
    "C111_ignored_refuted"
   ],
   "note": "Without a permutation everything is proved. Permutations are applied to numerals written from the highest qubit, so qubits are counted from the wrong end (C111_permuted_refuted: exchanging qubits 0 and 1 of three); C111_reversed says what is computed for every permutation of all qubits, C111_permuted_partial that it is right for permutations that are the same from both ends. With ignored qubits the result can exceed one (C111_ignored_refuted)."
  },
  {
   "property": "C112",
   "status": "proved",
   "theorems": [
    "C112_polar",
    "C112_ends"
   ],
   "note": "Magnitude and phase are given as rationals; decimals are exact."
  },
  {
   "property": "C113",
   "status": "partial",
   "theorems": [
    "C113_collapse_partial",
    "C113_pure",
    "C113_total",
    "C113_skipped_refuted",
    "C113_mixed_refuted"
   ],
   "note": "Proved for pure states and for all states whose projections have a node on every level. Levels that look like the identity are skipped in density matrices, but their trace does not count them twice: for |0><0| and a maximally mixed qubit, one is reported for draws above one half although it is impossible, and the new matrix is not a number (C113_skipped_refuted). The maximally mixed state has no node and its level is read anyway (C113_mixed_refuted)."
  },
  {
   "property": "C114",
   "status": "partial",
   "theorems": [
    "C114_invert",
    "C114_coordinates",
    "C114_max",
    "C114_text_partial",
    "C114_precision",
    "C114_name_refuted",
    "C114_digits_refuted",
    "C114_empty_refuted",
    "C114_equal_partial",
    "C114_equal_refuted"
   ],
   "note": "Inversion and distances are proved in full. The text is right for moves and for operations inverted an even number of times with coordinates of at most six digits (C114_text_partial), and coordinates are always right to half a unit of the sixth digit (C114_precision). An inverted activation is still written as an activation (C114_name_refuted), the precision is set on the wrong stream (C114_digits_refuted), a parenthesis is lost without single operations or targets (C114_empty_refuted), and equals looks at types and targets only (C114_equal_partial), ignoring the single operations (C114_equal_refuted)."
  },
  {
   "property": "C115",
   "status": "partial",
   "theorems": [
    "C115_vertices",
    "C115_edges_partial",
    "C115_diagrams",
    "C115_empty_refuted",
    "C115_loop_refuted",
    "C115_increment_refuted"
   ],
   "note": "Proved for all diagrams with vertices and edges between different vertices; C115_diagrams shows that the lists used in the theorems C57 to C61 are those of the iterators. A diagram without vertices reads an element of an empty vector (C115_empty_refuted), a loop is visited twice (C115_loop_refuted), and the values of the prefix and postfix increments are exchanged (C115_increment_refuted)."
  },
  {
   "property": "C116",
   "status": "partial",
   "theorems": [
    "C116_text_partial",
    "C116_lost_refuted",
    "C116_rounded_refuted",
    "C116_none_refuted"
   ],
   "note": "Proved for all computations whose atoms start at different places (which validate does not check). Atoms are sorted in a map with the locations as keys, so of several atoms at one place all but one are left out (C116_lost_refuted). Numbers are right to half a unit of the last decimal and exact if they end there; others are rounded (C116_rounded_refuted), and the angle of an operation on no atoms is lost (C116_none_refuted)."
  },
  {
   "property": "C117",
   "status": "partial",
   "theorems": [
    "C117_tests",
    "C117_error",
    "C117_rounded_partial",
    "C117_minus_pi_refuted",
    "C117_nearest_refuted"
   ],
   "note": "Proved except for phases close to minus pi: the distance to pi is not taken on the circle, so these are not rounded (C117_minus_pi_refuted). The multiple is the nearest for tolerances up to pi/4; beyond that the first in the order 0, pi/2, -pi/2, pi is taken (C117_nearest_refuted)."
  }
 ]
}