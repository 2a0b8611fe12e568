{
 "claims": [
  {
   "property": "C01",
   "status": "proved",
   "theorems": [
    "C01_add",
    "C01_sub",
    "C01_sub_alt"
   ],
   "note": ""
  },
  {
   "property": "C02",
   "status": "proved",
   "theorems": [
    "C02_mul"
   ],
   "note": ""
  },
  {
   "property": "C03",
   "status": "proved",
   "theorems": [
    "C03_comparisons",
    "C03_length_mismatch"
   ],
   "note": ""
  },
  {
   "property": "C04",
   "status": "proved",
   "theorems": [
    "C04_lshift",
    "C04_rshift"
   ],
   "note": ""
  },
  {
   "property": "C05",
   "status": "proved",
   "theorems": [
    "C05_bitwise",
    "C05_invert",
    "C05_get_bit",
    "C05_flip_bit",
    "C05_bit_size"
   ],
   "note": ""
  },
  {
   "property": "C06",
   "status": "proved",
   "theorems": [
    "C06_create",
    "C06_create_static",
    "C06_roundtrip",
    "C06_coerce"
   ],
   "note": ""
  },
  {
   "property": "C07",
   "status": "proved",
   "theorems": [
    "C07_single_limb_divisor",
    "C07_division_by_zero"
   ],
   "note": ""
  },
  {
   "property": "C08",
   "status": "partial",
   "theorems": [
    "C08_refuted",
    "C08_division_partial",
    "C08_small_quotient_partial",
    "C08_shifted_limb_divisor_partial"
   ],
   "note": "False as stated: C08_refuted gives a division with a wrong quotient and remainder (clipped trial quotient, 64-bit wrap in the correction test). Proved exact whenever no base-2^32 digit of the true quotient exceeds 2^32-4, and for every divisor c*2^(32k)."
  },
  {
   "property": "C09",
   "status": "proved",
   "theorems": [
    "C09_pow"
   ],
   "note": ""
  },
  {
   "property": "C10",
   "status": "partial",
   "theorems": [
    "C10_bi_modinv_partial",
    "C10_bi_extended_euclidean_partial",
    "C10_modinv",
    "C10_modinv_plain",
    "C10_egcd_bezout"
   ],
   "note": "Ints: proved. BigIntegers: proved when the modulus fits in one limb or all Euclid quotients are at most 2^32-4 (the divisions proved exact in C07/C08); outside that range BigInteger division is wrong (C08_refuted)."
  },
  {
   "property": "C11",
   "status": "partial",
   "theorems": [
    "C11_bi_encode_partial",
    "C11_bi_roundtrip_partial",
    "C11_roundtrip",
    "C11_roundtrip_plain",
    "C11_encoder_value",
    "C11_decoder_value",
    "C11_shift_decoder",
    "C11_pow2_mod_N",
    "C11_pow2_mod_N_refuted"
   ],
   "note": "Encoding/decoding proved under the modulus and range hypotheses in the statements; the _refuted theorems give the inputs outside them where the code deviates."
  },
  {
   "property": "C12",
   "status": "proved",
   "theorems": [
    "C12_reduction",
    "C12_find_best_shift",
    "C12_best_shift_sufficient"
   ],
   "note": ""
  },
  {
   "property": "C13",
   "status": "partial",
   "theorems": [
    "C13_digits_exist",
    "C13_convergents_partial",
    "C13_lowest_terms",
    "C13_error",
    "C13_legendre_partial",
    "C13_rejects",
    "C13_convergents_refuted",
    "C13_best_approx_refuted"
   ],
   "note": "Convergents proved for denominators of one limb or partial quotients whose divisions are exact (C08); refuted in general through the division bug. bi_contfrac_best_approx / bi_shor_recover_denominator raise TypeError on every valid input (the ten-parameter loop body is passed to lax.while_loop, which calls it with one tuple)."
  },
  {
   "property": "C14",
   "status": "partial",
   "theorems": [
    "C14_adder_partial",
    "C14_classical_partial",
    "C14_controlled_carry_out_refuted"
   ],
   "note": "Sum, carry and restored registers proved for all sizes; the refuted theorems document the controlled carry-out and the traced classical carry-out."
  },
  {
   "property": "C15",
   "status": "partial",
   "theorems": [
    "C15_quantum_adder",
    "C15_controlled_quantum_adder_partial",
    "C15_controlled_phase_refuted",
    "C15_classical_adder",
    "C15_traced_scalar_adder_partial",
    "C15_traced_carry_out_refuted"
   ],
   "note": "Sum and clean ancillas proved for all sizes and measurement outcomes; the controlled adder's phase is refuted."
  },
  {
   "property": "C16",
   "status": "proved",
   "theorems": [
    "C16_increment",
    "C16_raises",
    "C16_plus_one",
    "C16_carry_in"
   ],
   "note": "increment (any signed or unsigned register and amount), increment_qb_list and lin_incr. There are no controlled variants in the file other than lin_incr's carry-in; without carry-in lin_incr adds 0."
  },
  {
   "property": "C17",
   "status": "partial",
   "theorems": [
    "C17_comparisons_partial",
    "C17_traced_size_refuted"
   ],
   "note": "Proved for all operands of the stated sizes; traced registers of 63 or more qubits are refuted."
  },
  {
   "property": "C18",
   "status": "partial",
   "theorems": [
    "C18_roundtrip_partial",
    "C18_labels_partial",
    "C18_out_of_range_partial",
    "C18_off_grid",
    "C18_off_grid_refuted",
    "C18_large_refuted",
    "C18_rounding_partial"
   ],
   "note": "Proved for at most 53 mantissa qubits and any exponent (C18_large_refuted beyond: labels are float64). Off-grid numbers in range are truncated, not rejected (C18_off_grid_refuted). float64 overflow and underflow of the exponent are outside the model."
  },
  {
   "property": "C19",
   "status": "partial",
   "theorems": [
    "C19_truncate_partial",
    "C19_encodes_partial",
    "C19_large_refuted"
   ],
   "note": "Proved for at most 53 mantissa qubits and every rational x; C19_large_refuted beyond."
  },
  {
   "property": "C20",
   "status": "partial",
   "theorems": [
    "C20_add",
    "C20_sub",
    "C20_mul",
    "C20_square",
    "C20_mul_int_partial",
    "C20_mul_int_refuted",
    "C20_mul_zero_refuted",
    "C20_add_number_partial",
    "C20_add_number_grid",
    "C20_add_number_refuted",
    "C20_dot_partial",
    "C20_dot_refuted"
   ],
   "note": "Sums, differences, products and squares of QuantumFloats of any shapes proved, from the semi-boolean polynomials (the Fourier transform that adds their coefficients is abstracted to addition modulo 2^size). C20_mul_int_refuted (times -1), C20_mul_zero_refuted (never returns), C20_add_number_refuted (keeps the shape), C20_dot_refuted (safe matmul of signed entries)."
  },
  {
   "property": "C21",
   "status": "proved",
   "theorems": [
    "C21_batched",
    "C21_nothing_pending",
    "C21_short_answer_refuted"
   ],
   "note": "Every history from an empty queue, every limit and every backend answering one result per circuit; C21_short_answer_refuted documents what happens otherwise."
  },
  {
   "property": "C22",
   "status": "proved",
   "theorems": [
    "C22_failure"
   ],
   "note": ""
  },
  {
   "property": "C23",
   "status": "proved",
   "theorems": [
    "C23_batched_stable",
    "C23_lazy_stable"
   ],
   "note": ""
  },
  {
   "property": "C24",
   "status": "proved",
   "theorems": [
    "C24_decoded",
    "C24_frequencies",
    "C24_probabilities",
    "C24_multi_partial",
    "C24_multi_refuted"
   ],
   "note": "Single-variable decoding proved for every decoder. MultiMeasurementResult: C24_multi_partial needs injective labels, C24_multi_refuted is the known deviation named in the statement."
  },
  {
   "property": "C25",
   "status": "proved",
   "theorems": [
    "C25_term_product",
    "C25_associative"
   ],
   "note": ""
  },
  {
   "property": "C26",
   "status": "proved",
   "theorems": [
    "C26_commute",
    "C26_commute_qw",
    "C26_qw_implies_commute",
    "C26_commute_pauli"
   ],
   "note": ""
  },
  {
   "property": "C27",
   "status": "proved",
   "theorems": [
    "C27_group_up",
    "C27_commuting_groups"
   ],
   "note": ""
  },
  {
   "property": "C28",
   "status": "proved",
   "theorems": [
    "C28_adjoint",
    "C28_involution",
    "C28_product",
    "C28_operator_adjoint"
   ],
   "note": ""
  },
  {
   "property": "C29",
   "status": "proved",
   "theorems": [
    "C29_anticommutation"
   ],
   "note": ""
  },
  {
   "property": "C30",
   "status": "partial",
   "theorems": [
    "C30_sort_partial",
    "C30_sort_refuted",
    "C30_reduce_partial"
   ],
   "note": "Proved for every product in which no mode occurs more than twice; C30_sort_refuted shows the zero rule is wrong beyond that."
  },
  {
   "property": "C31",
   "status": "proved",
   "theorems": [
    "C31_row_elimination",
    "C31_column_elimination",
    "C31_inverse"
   ],
   "note": ""
  },
  {
   "property": "C32",
   "status": "partial",
   "theorems": [
    "C32_reverse",
    "C32_exists",
    "C32_undoes",
    "C32_twice_partial",
    "C32_twice_rgate_refuted",
    "C32_twice_alloc_refuted"
   ],
   "note": "Reversal, existence and undoing proved for all circuits of U3, Pauli, controlled, phase-tolerant and composite operations of any nesting, over any commutative ring with the angle laws. Inverting twice proved for operations as the constructors build them (C32_twice_partial); refuted for RGate, whose parameter list is lost, and for composite gates with allocations. Parameter-free attributes (is_qfree, permeability) not modelled."
  },
  {
   "property": "C33",
   "status": "partial",
   "theorems": [
    "C33_broadcast",
    "C33_scalars",
    "C33_mismatch",
    "C33_always",
    "C33_integers",
    "C33_integers_out",
    "C33_terminates",
    "C33_atomic_refuted",
    "C33_alias_refuted"
   ],
   "note": "Holds for qubits that are objects of the circuit or have unknown names. C33_atomic_refuted: an error in a later application of a broadcast leaves the earlier ones. C33_alias_refuted: copies of a qubit (same name, other object) bypass the duplicate check."
  },
  {
   "property": "C34",
   "status": "proved",
   "theorems": [
    "C34_resolve_swaps",
    "C34_commute_swaps",
    "C34_arrange_swaps",
    "C34_commute_swaps_classical_refuted"
   ],
   "note": "resolve_swaps, commute_swaps (circuits without classical bits) and arrange_swaps (all-zero input) for every circuit and every gate matrices over any commutative ring; commute_swaps with classical bits is refuted."
  },
  {
   "property": "C35",
   "status": "partial",
   "theorems": [
    "C35_cancel_zero_controls_partial",
    "C35_cancel_zero_controls_refuted"
   ],
   "note": "Proved for circuits whose cp/cz are diag(1,1,1,k) and whose controlled gates respect their ctrl_state; the unconditional claim is refuted by cz with an inverted control."
  },
  {
   "property": "C36",
   "status": "partial",
   "theorems": [
    "C36_fuse_adjacents_partial",
    "C36_rules",
    "C36_fuse_adjacents_refuted"
   ],
   "note": "Proved for every circuit, every topological order and every sound answer of the definition/unitary stages, global phase and order on classical bits included. Missing: the definition- and unitary-based fusion stages are an oracle assumed sound (numerical tolerances), and gates must be what their name says: C36_fuse_adjacents_refuted shows that gates called cz with an inverted control are cancelled wrongly."
  },
  {
   "property": "C37",
   "status": "partial",
   "theorems": [
    "C37_topological_sort",
    "C37_depth_sort",
    "C37_ancestors",
    "C37_ancestors_sparse",
    "C37_delay_allocs",
    "C37_delay_allocs_refuted"
   ],
   "note": "Sorts return every node once, sources first, for every graph, classification and cost function. Hypothesis numbered: the node numbering is topological (mm.py:218 assumes it). delay_allocs needs an instruction between two allocations of a qubit; C37_delay_allocs_refuted shows the loss otherwise."
  },
  {
   "property": "C38",
   "status": "partial",
   "theorems": [
    "C38_reorder_circuit",
    "C38_effect",
    "C38_no_qubits_refuted"
   ],
   "note": "Proved for circuits in which every instruction has a qubit, for every topological order; C38_no_qubits_refuted: an instruction with classical bits only is dropped."
  },
  {
   "property": "C39",
   "status": "proved",
   "theorems": [
    "C39_hybrid_mcx",
    "C39_ancillas",
    "C39_ancilla_tree",
    "C39_gate_actions"
   ],
   "note": "hybrid_mcx (layers of relative-phase gates with any number of permitted ancillas) and jasp_balauca_mcx (ancilla tree), any number of controls and control state. The relative-phase gates act on basis states with phases in units of pi/4; C39_gate_actions derives their action from their Clifford+T circuits. num_dirty_ancilla = 0 only. C39_ancillas: at most the permitted number of ancillas."
  },
  {
   "property": "C40",
   "status": "partial",
   "theorems": [
    "C40_conditionally_clean_partial",
    "C40_three_controls",
    "C40_four_controls_partial",
    "C40_four_controls_refuted"
   ],
   "note": "All numbers of controls but four; for four the target is right but there is a relative phase of -1 on some states (C40_four_controls_refuted): cca_4ctrls uncomputes its relative-phase Toffoli with a different one."
  },
  {
   "property": "C41",
   "status": "partial",
   "theorems": [
    "C41_cyclic_shift_partial",
    "C41_empty_refuted",
    "C41_traced",
    "C41_quantum",
    "C41_permute"
   ],
   "note": "Ladder, reflection and cycle decomposition proved for all lengths, permutations and shift amounts (classical, traced and QuantumFloat). C41_empty_refuted: an empty iterable raises instead of doing nothing. Entries must be distinct."
  },
  {
   "property": "C42",
   "status": "partial",
   "theorems": [
    "C42_demux_partial",
    "C42_long_refuted",
    "C42_indexing",
    "C42_swap_into"
   ],
   "note": "Contents of the entries, on each basis state of the index. C42_long_refuted: with permit_mismatching_size and more outputs than index values the wrong output receives the input. Relative phases of phase-tolerant controls (gray_pt) are not modelled."
  },
  {
   "property": "C43",
   "status": "partial",
   "theorems": [
    "C43_roundtrip",
    "C43_string_roundtrip_partial",
    "C43_string_roundtrip_small",
    "C43_string_refuted"
   ],
   "note": "Integer round trip proved for every pair of distinct primes. String round trip proved with the exact number of trailing NULs; the property without NULs is refuted (7 characters under N = 341)."
  },
  {
   "property": "C44",
   "status": "partial",
   "theorems": [
    "C44_proper_divisor",
    "C44_candidates",
    "C44_success",
    "C44_two_refuted",
    "C44_extract_order_partial",
    "C44_extract_order_refuted",
    "C44_recovers_order",
    "C44_find_order_refuted"
   ],
   "note": "Factors: proved for N > 2 and any measurement outcome; N = 2 returns 2. extract_order: proved for Python-int results and non-overflowing numpy results; refuted for int64 overflow (5^128 mod 21). find_order uses the overwritten base: refuted."
  },
  {
   "property": "C45",
   "status": "partial",
   "theorems": [
    "C45_history",
    "C45_getitem",
    "C45_create",
    "C45_slice_partial",
    "C45_slice_refuted",
    "C45_clear_refuted",
    "C45_pop_empty_refuted",
    "C45_full_init_refuted"
   ],
   "note": "Slices only for bounds in order (C45_slice_partial); C45_slice_refuted, C45_clear_refuted, C45_pop_empty_refuted and C45_full_init_refuted show where Jlist differs from a list."
  },
  {
   "property": "C46",
   "status": "partial",
   "theorems": [
    "C46_definition",
    "C46_decomposition",
    "C46_phase_tolerant",
    "C46_nested",
    "C46_composite",
    "C46_y_sign",
    "C46_y_refuted",
    "C46_gphase_rotated",
    "C46_gphase_refuted",
    "C46_pt_inv_refuted",
    "C46_named_swap_refuted",
    "C46_ctrl_state",
    "C46_ctrl_state_ones",
    "C46_ctrl_state_rejected"
   ],
   "note": "Proved over any commutative ring with the numbers needed for angles (complex numbers as instance): the definition circuit, and its expansion to any depth, is the controlled operation for every control state; phases of the phase tolerant method depend on the controls only; nested controls; integer control states. Refuted: multi-controlled Y (realises -Y), controlled global phase with mixed control state, method gray_pt_inv with a 0 in the control state, other operations named swap."
  },
  {
   "property": "C47",
   "status": "proved",
   "theorems": [
    "C47_split",
    "C47_out_of_range",
    "C47_roundtrip"
   ],
   "note": ""
  },
  {
   "property": "C48",
   "status": "partial",
   "theorems": [
    "C48_accepts",
    "C48_others",
    "C48_meaning",
    "C48_exact_partial",
    "C48_extra_coordinates_refuted"
   ],
   "note": "Records and coordinates proved equal in exact arithmetic, missing coordinates read as the shift. The number of coordinates only if no later SHIFT_COORDS has more entries; C48_extra_coordinates_refuted otherwise."
  },
  {
   "property": "C49",
   "status": "proved",
   "theorems": [
    "C49_permute_axes",
    "C49_injective"
   ],
   "note": "Python integers and machine integers with room for one more bit than the number of axes."
  },
  {
   "property": "C50",
   "status": "partial",
   "theorems": [
    "C50_maxcut_partial",
    "C50_maxcut_refuted",
    "C50_maxsat",
    "C50_maxsat_defined",
    "C50_qubo",
    "C50_e3lin2",
    "C50_independent_set",
    "C50_clique",
    "C50_clique_problem",
    "C50_set_packing",
    "C50_set_cover_partial",
    "C50_set_cover_refuted",
    "C50_coloring"
   ],
   "note": "MaxCut proved up to 32 bits (C50_maxcut_refuted: 33 bits raise). Set cover proved when infeasible outcomes have weight 1 (C50_set_cover_refuted: they are not weighted)."
  },
  {
   "property": "C51",
   "status": "partial",
   "theorems": [
    "C51_smallest_power_of_two",
    "C51_biginteger_refuted"
   ],
   "note": "int overload proved; BigInteger overload refuted on exact powers of two."
  },
  {
   "property": "C52",
   "status": "partial",
   "theorems": [
    "C52_toffoli",
    "C52_gray_synth_toffoli",
    "C52_amy_toffoli",
    "C52_margolus",
    "C52_maslov_mcx_3",
    "C52_maslov_mcx_4",
    "C52_logical_and",
    "C52_logical_and_uncompute",
    "C52_jones_toffoli_refuted",
    "C52_jones_toffoli_partial"
   ],
   "note": "All circuits exact except the jones Toffoli, which is refuted (extra CZ)."
  },
  {
   "property": "C53",
   "status": "proved",
   "theorems": [
    "C53_dirty_ancilla_mcx"
   ],
   "note": ""
  },
  {
   "property": "C54",
   "status": "partial",
   "theorems": [
    "C54_equality_partial",
    "C54_signed_sizes_refuted",
    "C54_gap_refuted"
   ],
   "note": "Proved when at most one operand is signed and the bit ranges overlap or touch, or both are signed with the same shape; the other shapes are refuted."
  },
  {
   "property": "C55",
   "status": "proved",
   "theorems": [
    "C55_arithmetic",
    "C55_to_matrix",
    "C55_round_trip"
   ],
   "note": ""
  },
  {
   "property": "C56",
   "status": "proved",
   "theorems": [
    "C56_add",
    "C56_mul",
    "C56_dagger",
    "C56_jordan_wigner"
   ],
   "note": ""
  },
  {
   "property": "C57",
   "status": "partial",
   "theorems": [
    "C57_equality_refuted",
    "C57_reflexive_partial"
   ],
   "note": "False as stated (C57_equality_refuted); reflexivity proved for operators in sorted form."
  },
  {
   "property": "C58",
   "status": "partial",
   "theorems": [
    "C58_diagonal",
    "C58_operator_partial",
    "C58_operator_refuted"
   ],
   "note": "C58_diagonal: every commuting family is diagonalised up to a sign. C58_operator_partial: the returned operator is exact if the pivot permutation is an involution or no S gate is needed. C58_operator_refuted: in general the code's sign is wrong (line 1237 indexes with perm instead of its inverse; Z0*Y1 + X2)."
  },
  {
   "property": "C59",
   "status": "partial",
   "theorems": [
    "C59_parallelize",
    "C59_effect",
    "C59_clif_refuted"
   ],
   "note": "Proved for every circuit in which classically controlled operations and deallocations have one qubit and two allocations of a qubit are separated by another instruction on it; C59_clif_refuted: a two-qubit c_if gate raises KeyError."
  },
  {
   "property": "C60",
   "status": "partial",
   "theorems": [
    "C60_optimize_allocations",
    "C60_effect",
    "C60_double_alloc_refuted"
   ],
   "note": "As C59, for both sorts and every set iteration order; C60_double_alloc_refuted: one of two consecutive allocations of a qubit is dropped."
  },
  {
   "property": "C61",
   "status": "proved",
   "theorems": [
    "C61_is_permeable",
    "C61_get_perm_dic",
    "C61_implements"
   ],
   "note": "Proved over every commutative ring for nested definitions and controls, given that the attributes of primitive gates and the numerical test (tolerance 1e-4, here exact) tell the truth."
  },
  {
   "property": "C62",
   "status": "proved",
   "theorems": [
    "C62_maxcut",
    "C62_qubo",
    "C62_maxsat",
    "C62_e3lin2",
    "C62_coloring"
   ],
   "note": "Exact rational angles; the square root in the QUBO rescaling and sympy's merging of monomials are outside the model."
  },
  {
   "property": "C63",
   "status": "partial",
   "theorems": [
    "C63_mcp_layers_partial",
    "C63_mcp_one_qubit_refuted",
    "C63_mcp_ancilla_tree",
    "C63_mcp_conditionally_clean"
   ],
   "note": "Proved for the traced tree and the conditionally clean construction; untraced balauca needs two or more qubits: with one it applies nothing (C63_mcp_one_qubit_refuted)."
  },
  {
   "property": "C64",
   "status": "partial",
   "theorems": [
    "C64_gray_synth_partial",
    "C64_two_qubits",
    "C64_multi_controlled_phase",
    "C64_controlled_pair",
    "C64_phase_tolerant_partial",
    "C64_phase_function_partial",
    "C64_control",
    "C64_parity_refuted",
    "C64_phase_function_refuted"
   ],
   "note": "Proved when, for each highest qubit, the least set of qubits with nonzero Walsh coefficient has at most two elements (always so for up to two qubits, multi-controlled phases and controlled rotations). C64_parity_refuted: otherwise a step over several bits is emitted as one CNOT and the circuit is wrong (phase = parity of three qubits). Exact rational phases instead of floats and sympy expressions."
  },
  {
   "property": "C65",
   "status": "proved",
   "theorems": [
    "C65_transform",
    "C65_inverse",
    "C65_undo",
    "C65_defined",
    "C65_jasp"
   ],
   "note": "Over any commutative ring with the numbers needed for angles (complex numbers as instance); angles are exact rational multiples of pi. Options use_gms and inpl_adder not modelled."
  },
  {
   "property": "C66",
   "status": "proved",
   "theorems": [
    "C66_integer",
    "C66_register",
    "C66_phases",
    "C66_defined"
   ],
   "note": "Over any commutative ring with the numbers needed for angles; angles are exact rational multiples of pi, where the code uses floats."
  },
  {
   "property": "C67",
   "status": "partial",
   "theorems": [
    "C67_encoder",
    "C67_rounding",
    "C67_defined",
    "C67_add",
    "C67_sub",
    "C67_mul",
    "C67_square",
    "C67_mul_int",
    "C67_inplace",
    "C67_inplace_defined",
    "C67_inplace_finer",
    "C67_inplace_finer_refuted",
    "C67_inplace_number",
    "C67_inplace_number_grid",
    "C67_add_number",
    "C67_rsub",
    "C67_rsub_refuted"
   ],
   "note": "Over any commutative ring with the numbers needed for angles; angles are exact rational multiples of pi. Refuted: a += b for a signed b with a smaller exponent (insufficient sign extension), k - a if the result does not fit the signed shape of a. a += b with a smaller exponent drops the fraction of an unsigned b (proved). Option use_gms and traced programs not modelled."
  },
  {
   "property": "C68",
   "status": "partial",
   "theorems": [
    "C68_mult",
    "C68_mult_defined",
    "C68_shift_partial",
    "C68_shift_refuted",
    "C68_shift_quantum",
    "C68_inplace_mult",
    "C68_inplace_mult_refuted",
    "C68_inplace_mult_unsigned_partial",
    "C68_inplace_mult_unsigned_refuted",
    "C68_inplace_mult_wrap",
    "C68_inplace_mult_defined",
    "C68_inplace_mult_zero"
   ],
   "note": "Exact for every signed QuantumFloat, every factor and every basis state except smallest value times minus a power of two (C68_inplace_mult, _refuted), with the exact set of accepted factors (C68_inplace_mult_defined, _zero); modulo 2^size without overflow treatment (C68_inplace_mult_wrap). Refuted for unsigned QuantumFloats with the highest qubit set (QuantumFloat(3) 4 *= 3 gives 16: C68_inplace_mult_unsigned_refuted), proved otherwise. Shifts exact except signed shifts to the right, which are refuted (-2 shifted by -1 gives -5: C68_shift_refuted). Angles are exact; CPGate drops angles below 1e-8."
  },
  {
   "property": "C69",
   "status": "proved",
   "theorems": [
    "C69_qubits",
    "C69_floats",
    "C69_qubits_defined",
    "C69_floats_defined"
   ],
   "note": "Coefficients and t are exact rationals in units of pi, floats in the code; symbolic coefficients are not modelled. The multi-controlled phase gate is the ideal one, whose circuits are C63 and C64. Over any commutative ring with the numbers needed for angles."
  },
  {
   "property": "C70",
   "status": "partial",
   "theorems": [
    "C70_mult",
    "C70_factor",
    "C70_wrap",
    "C70_fourier",
    "C70_begin",
    "C70_accumulate",
    "C70_accumulate_refuted",
    "C70_defined",
    "C70_target_refuted"
   ],
   "note": "Exact product for all shapes, integer factors, all combinations of init_op and terminal_op. Refuted: accumulation into a register that is not 0 without phase_tolerant leaves a phase; q_mult ignores target. Outputs coarser than the product are not modelled; the angles are exact."
  },
  {
   "property": "C71",
   "status": "proved",
   "theorems": [
    "C71_nearest",
    "C71_exact",
    "C71_superposition",
    "C71_amplitude",
    "C71_defined"
   ],
   "note": "Exact for phases with n bits, amplitude formula for all rational multiples of 2 pi, and the bound 4/pi^2 for the nearest estimate over the complex numbers (Reals axioms). U is any circuit that does not touch the target; the control environment is modelled as every gate of U getting the control."
  },
  {
   "property": "C72",
   "status": "partial",
   "theorems": [
    "C72_doubled",
    "C72_phase_refuted"
   ],
   "note": "The code applies U 2**(precision-i) times in iteration i, counted from 0, one doubling too many: it returns twice the phase modulo 1, so the documented claim is refuted for every phase with p bits except 0. Measurement is modelled as a relation over possible outcomes."
  },
  {
   "property": "C73",
   "status": "partial",
   "theorems": [
    "C73_operator",
    "C73_state",
    "C73_zero",
    "C73_array_refuted",
    "C73_defined"
   ],
   "note": "Over any commutative ring with the numbers needed for angles and a conjugation (complex numbers as instance). Refuted for a QuantumArray with elements of even size as first argument (gphase on qargs[0][0] is applied once per qubit of the element)."
  },
  {
   "property": "C74",
   "status": "proved",
   "theorems": [
    "C74_iteration",
    "C74_rotation",
    "C74_angle",
    "C74_probability"
   ],
   "note": "One iteration over any commutative ring with a conjugation; the rotation by 2 theta over the complex numbers (Reals axioms). The first argument is a QuantumVariable or an array with elements of odd size; the sign in the other case is C73_array_refuted."
  },
  {
   "property": "C75",
   "status": "partial",
   "theorems": [
    "C75_exact",
    "C75_array_refuted"
   ],
   "note": "Over the complex numbers (Reals axioms). Exact for shares (sin(pi k / 2^n))^2; shares in between are not treated (their two eigenphases are C71_nearest). Refuted for a QuantumArray with elements of even size as first argument."
  },
  {
   "property": "C76",
   "status": "partial",
   "theorems": [
    "C76_nested_environments_partial",
    "C76_inversion_undoes",
    "C76_condition_in_zero_control_refuted",
    "C76_flip_in_nested_control_refuted",
    "C76_inverted_nested_control_refuted",
    "C76_conjugation_in_nested_zero_control_refuted",
    "C76_control_reused_below_refuted"
   ],
   "note": "Proved for all programs of the stated shape (predicate fine: operations off the qubits the environments around depend on, conjugation inside controlled environments has only operations as content). The five combinations the library compiles wrongly are excluded by hypotheses and each is refuted by a theorem."
  },
  {
   "property": "C77",
   "status": "partial",
   "theorems": [
    "C77_tag_state",
    "C77_tag_defined",
    "C77_tag_refuses",
    "C77_amplitudes",
    "C77_probability",
    "C77_default_success",
    "C77_many_winners_refuted",
    "C77_circuit",
    "C77_exact",
    "C77_search"
   ],
   "note": "tag_state over any commutative ring; the algorithm over the complex numbers (Reals axioms), for oracles on the qubits of the arguments. Numbers of iterations and the phase of the exact algorithm are real-number formulas (the default with a tolerance of 1/100 for float rounding). The exact algorithm is proved for the ideal steps with a real phase; C77_circuit shows that the circuits are these steps for phases that are rational multiples of pi. Refuted: the default number of iterations with three quarters of the values winning."
  },
  {
   "property": "C78",
   "status": "partial",
   "theorems": [
    "C78_switch",
    "C78_inverse",
    "C78_defined",
    "C78_list_reuse_refuted"
   ],
   "note": "C78_switch: for both methods, any number of branches, any index size, with or without control, every state: the switch is sum_i |i><i| (x) U_i, identity for missing branches, ancillas restored. C78_inverse: the switch in an inversion environment undoes it. C78_defined: when a circuit is built, and it is well formed. C78_list_reuse_refuted: the part of the statement about reusing the list is false: the call appends a one-argument function to a caller's list of odd length, a second call with another number of operands fails. Not modelled: method 'parallel', tracing."
  },
  {
   "property": "C79",
   "status": "partial",
   "theorems": [
    "C79_lcu",
    "C79_amplified",
    "C79_exact",
    "C79_defined",
    "C79_single_refuted"
   ],
   "note": "The weighted sum for every number of unitaries, state preparation and operand state; oblivious amplitude amplification for every number of iterations; definedness from two unitaries on. C79_single_refuted: a linear combination of one unitary is an exception."
  },
  {
   "property": "C80",
   "status": "partial",
   "theorems": [
    "C80_adder",
    "C80_decoder",
    "C80_iadd",
    "C80_isub",
    "C80_out_of_place",
    "C80_shift_mismatch",
    "C80_float_refuted"
   ],
   "note": "Every modulus from 2 on (odd if a shift is not 0), every operand; the inverse direction too. C80_decoder ties the meaning of a register to the decoder. The adder handed in is one step adding modulo 2^size (its circuits are C14, C15, C66). C80_float_refuted: a QuantumFloat holding a number of at least N leaves a register that is not a residue."
  },
  {
   "property": "C81",
   "status": "partial",
   "theorems": [
    "C81_product",
    "C81_mul",
    "C81_inplace",
    "C81_imul_partial",
    "C81_imul_refuted",
    "C81_negative_factor_refuted",
    "C81_mul_shift_refuted"
   ],
   "note": "C81_mul: q * X for every odd modulus from 3 on, every X >= 0 and every residue, though the documented bound on the sum is exceeded for some. In place: proved for X = 1 and X at least the number of qubits, and in general under the bound on the two sums. Refuted: q *= 3 at modulus 259 (85 is not mapped to 255, the ancilla is left dirty); negative factors; factors with a shifted q (the shift is dropped)."
  },
  {
   "property": "C82",
   "status": "partial",
   "theorems": [
    "C82_product",
    "C82_traced_partial",
    "C82_traced_refuted"
   ],
   "note": "qq_montgomery_multiply for any registers and number of steps; the traced product decodes to the product modulo N if the product of the registers is below N 2^m, otherwise it is only congruent. Refuted: 20 * 20 at modulus 21 leaves 25. The static product is C83."
  },
  {
   "property": "C83",
   "status": "proved",
   "theorems": [
    "C83_ripple",
    "C83_ripple_new",
    "C83_inplace",
    "C83_product"
   ],
   "note": "C83_ripple: any sizes (factors not longer than the target), the inverse too. C83_product: every odd modulus from 3 on, all shifts, all residues; the result is reduced, unlike the traced product (C82_traced_refuted). The adder is one step adding modulo 2^size (its circuits are C14, C15, C66); ceil and log2 are exact in the model, floats in the code."
  },
  {
   "property": "C84",
   "status": "proved",
   "theorems": [
    "C84_product",
    "C84_inplace",
    "C84_not_invertible"
   ],
   "note": "Every integer factor; control on and off; factors that are not invertible are refused. treat_invalid is not modelled. The allocator is a function that hands out qubits for the number of steps chosen by the code."
  },
  {
   "property": "C85",
   "status": "partial",
   "theorems": [
    "C85_floats",
    "C85_number",
    "C85_number_above",
    "C85_rounding_refuted",
    "C85_traced_partial",
    "C85_traced_refuted"
   ],
   "note": "Outside tracing: any two QuantumFloats, and QuantumFloat against number with mantissas up to 53 bits (> and <= need -x-2^e to be exact in float64, refuted otherwise). While tracing only unsigned operands with equal exponents compare correctly (refuted for signed ones and for different exponents)."
  },
  {
   "property": "C86",
   "status": "partial",
   "theorems": [
    "C86_tr_gate",
    "C86_adder",
    "C86_adder_single_refuted",
    "C86_inpl_add",
    "C86_inpl_add_refuses",
    "C86_narrow_refuted"
   ],
   "note": "C86_adder: at least two qubits per list; C86_inpl_add: at least three qubits of the target take part. Refuted for fewer: 0 += 1 with two qubits each gives 3 (the adder for one qubit has a wrong output qubit), with one qubit each there is an IndexError."
  },
  {
   "property": "C87",
   "status": "partial",
   "theorems": [
    "C87_divmod",
    "C87_unique",
    "C87_coarse_divisor_refuted",
    "C87_div_quotient",
    "C87_div_remainder",
    "C87_floor",
    "C87_inverse",
    "C87_truediv_refuted"
   ],
   "note": "C87_divmod: every divisor other than 0, every precision for which the shifted operands are integers. Refuted if the exponent of the divisor exceeds the largest significance of the numerator plus prec: 0 / 4 with QuantumFloat(1) and QuantumFloat(1, 2) gives quotient 1, remainder 2. C87_div_remainder: q_div maps every superposition of results of the division to the one with remainder 0 (amplitudes for states in which the ancilla of hybrid_mult is 0). With its default precision / raises an exception for numerators with a large exponent (C87_truediv_refuted)."
  },
  {
   "property": "C88",
   "status": "partial",
   "theorems": [
    "C88_iadd",
    "C88_iadd_wraps",
    "C88_iadd_signed_refuted",
    "C88_add",
    "C88_add_overflow_refuted",
    "C88_number",
    "C88_number_rounds_refuted",
    "C88_multiplyer",
    "C88_mul",
    "C88_mul_signed_refuted",
    "C88_square",
    "C88_square_exponent_refuted",
    "C88_controlling",
    "C88_pow",
    "C88_pow_exponent_refuted",
    "C88_pow_signed_refuted",
    "C88_pow_qubit_refuted"
   ],
   "note": "Basis states; the adder is one step (its circuit is C15), so phases of controlled additions are not covered. ** 0 and ** -1 are not covered here (the latter is C87_inverse). Refuted: a shorter signed summand, overflow of a + b, numbers off the grid, signs in products, exponents in a * a and **, a ** p of a single qubit outside tracing."
  },
  {
   "property": "C89",
   "status": "proved",
   "theorems": [
    "C89_prepare_amplitudes",
    "C89_prepare_accepts",
    "C89_bit_reverse",
    "C89_xxyy",
    "C89_w_state",
    "C89_w_state_near",
    "C89_w_state_accepts",
    "C89_dicke"
   ],
   "note": "Exact real arithmetic: rounding of floats is not modelled. prepare only with method='qswitch' (method='qiskit' hands over to an external library), outside tracing, where q_switch is one step that applies the case of the number on the index (its circuits are C78). Entries of the vector of at most 2^-26 of the norm are excluded because the code drops their phase. Controlled ry is one step (C46)."
  },
  {
   "property": "C90",
   "status": "partial",
   "theorems": [
    "C90_xy_weight",
    "C90_xy_ring",
    "C90_indep_mixer",
    "C90_independent_sets",
    "C90_independent_sets_reached",
    "C90_cliques",
    "C90_packings",
    "C90_covers",
    "C90_cover_mixer",
    "C90_covers_refuted",
    "C90_cover_cost",
    "C90_cover_cost_refuted",
    "C90_coloring",
    "C90_coloring_start_refuted",
    "C90_portfolio"
   ],
   "note": "Controlled gates are single steps; the automatic uncomputation of the predicate is the inverse gates after the use. Refuted: a set cover problem with an element that is in one set only measures selections that are not covers (mcx without controls does nothing); the default start of graph_coloring_problem contains the state without colours at all angles; the classical cost of set covers is not an expected value if other outcomes occur. constrained_mixer_gen and grover_mixer are C94."
  },
  {
   "property": "C91",
   "status": "partial",
   "theorems": [
    "C91_pprm",
    "C91_gray_pt",
    "C91_gray_one",
    "C91_gray_one_partial",
    "C91_gray_and",
    "C91_gray_partial",
    "C91_gray_one_input",
    "C91_gray_phases_refuted",
    "C91_gray_parity_refuted",
    "C91_sizes",
    "C91_dictionary",
    "C91_dictionary_pt",
    "C91_dictionary_gray_partial",
    "C91_dictionary_tuple_refuted"
   ],
   "note": "Exact phases (no rounding); parallelize_qc is left out (C59), mcx(method='gray') is one step (C64_multi_controlled_phase), the order of the monomials is fixed; the methods 'best' and 'gray_pt_inv' are not covered. Refuted: the default synthesis of several outputs leaves relative phases (residual phases are indexed with the bits of the input reversed); the default synthesis of the parity of three inputs gives wrong values (the defect of C64); a single key whose labels are tuples is refused. C91_gray_partial, C91_gray_one_partial and C91_dictionary_gray_partial give what holds of the default method."
  },
  {
   "property": "C92",
   "status": "partial",
   "theorems": [
    "C92_lots",
    "C92_bands",
    "C92_bands_refuted",
    "C92_defined",
    "C92_zero_lots_refuted",
    "C92_band_0",
    "C92_weights_refuted",
    "C92_cost",
    "C92_cost_partial",
    "C92_cost_refuted",
    "C92_old_refuted",
    "C92_operator",
    "C92_operator_partial",
    "C92_operator_refuted",
    "C92_trading_refuted"
   ],
   "note": "Real arithmetic, integer old positions; controlled ry is one step (C46). The phase of every portfolio, the classical cost, the lots of everything measured and the weight of band 0 are proved. Refuted: bands above the number of lots are never reached; band 1 does not get its weight; with 0 lots nothing that is measured has 0 lots (the slice l[-0:] is the whole register); the classical cost is minus the documented objective, so its minimum is the worst portfolio, and compares with the old positions negated; the phase depends on more than the positions (variances, and ^ in the trading costs is the exclusive or of integers)."
  },
  {
   "property": "C93",
   "status": "partial",
   "theorems": [
    "C93_max",
    "C93_decision",
    "C93_independent",
    "C93_neighbours",
    "C93_progress",
    "C93_packing",
    "C93_optimum_refuted",
    "C93_cost",
    "C93_clique_decision",
    "C93_clique_fixed",
    "C93_clique_partial",
    "C93_clique_cost",
    "C93_clique_refuted",
    "C93_clique_again_refuted",
    "C93_sat",
    "C93_sat_refuted",
    "C93_sat_again_refuted"
   ],
   "note": "Results are lists of outcomes with integer counts in any order; rounding of correlations is not modelled; the order of nodes and edges is that of a list. The cost operator of the satisfiability problem is not modelled. C93_clique_partial needs single nodes to have the largest correlations. Refuted: a negative correlation of a pair removes all neighbours of its first end, not the common ones, and can remove the optimum; accepted cliques need not be cliques; a node accepted twice is deselected; in satisfiability problems the wrong qubit is fixed, once for each clause."
  },
  {
   "property": "C94",
   "status": "proved",
   "theorems": [
    "C94_defined",
    "C94_any_amount",
    "C94_mixer",
    "C94_keeps",
    "C94_reaches",
    "C94_grover_mixer"
   ],
   "note": "Real phases, no rounding. The oracle is one step that applies its phase to the allowed states exactly; the diffuser and mcp with real phases are steps (their circuits are C73 and C64). QuantumVariables only: arrays are not modelled. k is the number of iterations that the exact search takes (exact_iterations)."
  },
  {
   "property": "C95",
   "status": "proved",
   "theorems": [
    "C95_estimate",
    "C95_terminates",
    "C95_result",
    "C95_confidence",
    "C95_shots",
    "C95_effort",
    "C95_amplified",
    "C95_circuits"
   ],
   "note": "Real arithmetic: rounding and integer limits are not modelled. Hoeffding's inequality itself is not proved: the theorem adds up its bounds 2 exp(-2 N E^2) for the numbers of shots requested. eps at most 1/2. Circuits: the first argument is a QuantumVariable or an array with elements of odd size (C73_array_refuted)."
  },
  {
   "property": "C96",
   "status": "partial",
   "theorems": [
    "C96_chebyshev",
    "C96_cheb2poly",
    "C96_poly2cheb",
    "C96_round_trip",
    "C96_rescale",
    "C96_rescale_series",
    "C96_rescale_refuted",
    "C96_approx",
    "C96_unary"
   ],
   "note": "All parts but one are proved. The documented meaning of the rescaling, p(z/alpha), is refuted: the helper returns p(alpha z), which is proved (C96_rescale, C96_rescale_series). Real arithmetic, no rounding; the interpolation of numpy and the linear solver are not modelled (an arbitrary interpolation; any solution of the system)."
  },
  {
   "property": "C97",
   "status": "partial",
   "theorems": [
    "C97_series",
    "C97_cut",
    "C97_inverse",
    "C97_precision",
    "C97_positive",
    "C97_positive_refuted"
   ],
   "note": "The documented positivity is refuted for j0 >= b: the coefficients from b on are 0 (C97_positive). Real arithmetic; the survival function of scipy is modelled by its definition. How small the coefficients left out with the j0 of cks_params are is not proved; max_beta is not modelled."
  }
 ]
}