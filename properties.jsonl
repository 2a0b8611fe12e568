{"id": "C01", "title": "BigInteger addition and subtraction are exact modulo 2^(32n)", "statement": "For two BigIntegers with the same number n of 32-bit limbs, a + b denotes (a + b) mod 2^(32n) and a - b denotes (a - b) mod 2^(32n), and the result again consists of n limbs below 2^32.", "quantifier": "every limb count n and every pair of limb vectors of that length", "why_tests_cant": "carries and borrows can propagate over any number of limbs; the value space has 2^(64n) points for every n", "anchors": ["src/qrisp/alg_primitives/arithmetic/jasp_arithmetic/jasp_bigintiger.py:BigInteger.__add__", "src/qrisp/alg_primitives/arithmetic/jasp_arithmetic/jasp_bigintiger.py:BigInteger.__sub__", "src/qrisp/alg_primitives/arithmetic/jasp_arithmetic/jasp_bigintiger.py:BigInteger.__call__"]}
{"id": "C02", "title": "BigInteger multiplication is exact modulo 2^(32n)", "statement": "For two BigIntegers of n limbs, a * b denotes (a * b) mod 2^(32n); no 64-bit intermediate of the inner loop overflows.", "quantifier": "every limb count n and every pair of limb vectors", "why_tests_cant": "overflow of the 64-bit accumulator would show only for extreme limb patterns at some loop position", "anchors": ["src/qrisp/alg_primitives/arithmetic/jasp_arithmetic/jasp_bigintiger.py:BigInteger.__mul__"]}
{"id": "C03", "title": "BigInteger comparisons are the order of the denoted integers", "statement": "a < b, a <= b, a > b, a >= b, a == b and a != b on BigIntegers of equal limb count return exactly the corresponding relation of the integers they denote.", "quantifier": "every limb count and every pair of limb vectors", "why_tests_cant": "the first differing limb can be at any position and the remaining limbs are arbitrary", "anchors": ["src/qrisp/alg_primitives/arithmetic/jasp_arithmetic/jasp_bigintiger.py:BigInteger.__lt__", "src/qrisp/alg_primitives/arithmetic/jasp_arithmetic/jasp_bigintiger.py:BigInteger.__le__", "src/qrisp/alg_primitives/arithmetic/jasp_arithmetic/jasp_bigintiger.py:BigInteger.__eq__", "src/qrisp/alg_primitives/arithmetic/jasp_arithmetic/jasp_bigintiger.py:BigInteger.__gt__", "src/qrisp/alg_primitives/arithmetic/jasp_arithmetic/jasp_bigintiger.py:BigInteger.__ge__"]}
{"id": "C04", "title": "BigInteger shifts are multiplication and floor division by a power of two", "statement": "a << s denotes (a * 2^s) mod 2^(32n) and a >> s denotes floor(a / 2^s), for every non-negative shift amount s including s = 0, multiples of 32 and s >= 32n.", "quantifier": "every limb vector and every shift amount", "why_tests_cant": "the limb offset and the bit offset interact; multiples of 32 and over-long shifts are separate cases for each n", "anchors": ["src/qrisp/alg_primitives/arithmetic/jasp_arithmetic/jasp_bigintiger.py:BigInteger.__lshift__", "src/qrisp/alg_primitives/arithmetic/jasp_arithmetic/jasp_bigintiger.py:BigInteger.__rshift__", "src/qrisp/alg_primitives/arithmetic/jasp_arithmetic/jasp_bigintiger.py:_shl_bits", "src/qrisp/alg_primitives/arithmetic/jasp_arithmetic/jasp_bigintiger.py:_shr_bits"]}
{"id": "C05", "title": "BigInteger bit operations act on the binary expansion", "statement": "a & b, a | b, a ^ b and ~a act bitwise on the denoted numbers; get_bit(i) is bit i; flip_bit(i) changes exactly bit i; bit_size() is the least k with a < 2^k.", "quantifier": "every limb vector and bit index", "why_tests_cant": "bit indices range over all limbs and the most significant limb can be anywhere", "anchors": ["src/qrisp/alg_primitives/arithmetic/jasp_arithmetic/jasp_bigintiger.py:BigInteger.__and__", "src/qrisp/alg_primitives/arithmetic/jasp_arithmetic/jasp_bigintiger.py:BigInteger.__or__", "src/qrisp/alg_primitives/arithmetic/jasp_arithmetic/jasp_bigintiger.py:BigInteger.__xor__", "src/qrisp/alg_primitives/arithmetic/jasp_arithmetic/jasp_bigintiger.py:BigInteger.__invert__", "src/qrisp/alg_primitives/arithmetic/jasp_arithmetic/jasp_bigintiger.py:BigInteger.get_bit", "src/qrisp/alg_primitives/arithmetic/jasp_arithmetic/jasp_bigintiger.py:BigInteger.flip_bit", "src/qrisp/alg_primitives/arithmetic/jasp_arithmetic/jasp_bigintiger.py:BigInteger.bit_size", "src/qrisp/alg_primitives/arithmetic/jasp_arithmetic/jasp_bigintiger.py:_clz32"]}
{"id": "C06", "title": "BigInteger creation is exact modulo 2^(32n)", "statement": "BigInteger.create_static(v, n) denotes v mod 2^(32n), and converting back to an int returns v whenever 0 <= v < 2^(32n); widening or narrowing to another limb count preserves the value when it fits.", "quantifier": "every integer v, every limb count n", "why_tests_cant": "all integers and all sizes; truncation happens silently", "anchors": ["src/qrisp/alg_primitives/arithmetic/jasp_arithmetic/jasp_bigintiger.py:BigInteger.create_static", "src/qrisp/alg_primitives/arithmetic/jasp_arithmetic/jasp_bigintiger.py:BigInteger.create", "src/qrisp/alg_primitives/arithmetic/jasp_arithmetic/jasp_bigintiger.py:BigInteger.coerce", "src/qrisp/alg_primitives/arithmetic/jasp_arithmetic/jasp_bigintiger.py:BigInteger.__call__"]}
{"id": "C07", "title": "BigInteger division by a one-limb divisor is Euclidean division; division by zero yields (0, 0)", "statement": "For a divisor that occupies a single significant limb, a // b and a % b are the floor quotient and remainder of the denoted integers, for every dividend; dividing by zero returns quotient 0 and remainder 0 instead of failing.", "quantifier": "every dividend of any limb count and every one-limb divisor", "why_tests_cant": "schoolbook division runs one step per limb, with a data dependent 64-bit partial remainder in each", "anchors": ["src/qrisp/alg_primitives/arithmetic/jasp_arithmetic/jasp_bigintiger.py:BigInteger.remainder_division", "src/qrisp/alg_primitives/arithmetic/jasp_arithmetic/jasp_bigintiger.py:_divmod_single_limb", "src/qrisp/alg_primitives/arithmetic/jasp_arithmetic/jasp_bigintiger.py:BigInteger.__floordiv__", "src/qrisp/alg_primitives/arithmetic/jasp_arithmetic/jasp_bigintiger.py:BigInteger.__mod__"]}
{"id": "C08", "title": "BigInteger multi-limb division is Euclidean division", "statement": "For every divisor with two or more significant limbs, a // b and a % b are the floor quotient and remainder. (Known deviation: when a trial quotient has to be clipped to 2^32 - 1 the 64-bit correction test wraps around and the result is wrong; the property holds for every division in which no trial quotient reaches 2^32 - 1.)", "quantifier": "every dividend and every divisor with at least two significant limbs", "why_tests_cant": "the failing correction step is reached with probability about 2^-31 on random operands", "anchors": ["src/qrisp/alg_primitives/arithmetic/jasp_arithmetic/jasp_bigintiger.py:_remainder_division_knuth", "src/qrisp/alg_primitives/arithmetic/jasp_arithmetic/jasp_bigintiger.py:_ms_length"]}
{"id": "C09", "title": "BigInteger power is exact modulo 2^(32n)", "statement": "a ** e denotes a^e mod 2^(32n) for every integer exponent 0 <= e < 2^64 (the exponent is converted to uint64).", "quantifier": "every base, exponent and limb count", "why_tests_cant": "number of square-and-multiply rounds depends on the exponent", "anchors": ["src/qrisp/alg_primitives/arithmetic/jasp_arithmetic/jasp_bigintiger.py:BigInteger.__pow__"]}
{"id": "C10", "title": "Modular inverse on BigIntegers and ints", "statement": "modinv(a, m) for coprime a, m returns the unique x in [0, m) with a * x = 1 (mod m); the loop terminates for all inputs.", "quantifier": "every coprime pair a, m", "why_tests_cant": "the number of Euclid rounds is unbounded and the cofactors change sign", "anchors": ["src/qrisp/alg_primitives/arithmetic/jasp_arithmetic/jasp_bigintiger.py:bi_modinv", "src/qrisp/alg_primitives/arithmetic/jasp_arithmetic/jasp_bigintiger.py:bi_extended_euclidean", "src/qrisp/alg_primitives/arithmetic/jasp_arithmetic/jasp_mod_tools.py:modinv", "src/qrisp/alg_primitives/arithmetic/modular_arithmetic/mod_tools.py:modinv", "src/qrisp/alg_primitives/arithmetic/modular_arithmetic/mod_tools.py:egcd"]}
{"id": "C11", "title": "Montgomery encoding and decoding are inverse to each other", "statement": "montgomery_encoder(x, R, N) is x*R mod N; montgomery_decoder(montgomery_encoder(x, R, N), R, N) = x for every residue x in [0, N) and every R coprime to N.", "quantifier": "every modulus N, every R coprime to N, every residue x", "why_tests_cant": "all moduli; wrong inverses may agree on small cases", "anchors": ["src/qrisp/alg_primitives/arithmetic/modular_arithmetic/mod_tools.py:montgomery_encoder", "src/qrisp/alg_primitives/arithmetic/modular_arithmetic/mod_tools.py:montgomery_decoder", "src/qrisp/alg_primitives/arithmetic/jasp_arithmetic/jasp_mod_tools.py:montgomery_encoder", "src/qrisp/alg_primitives/arithmetic/jasp_arithmetic/jasp_mod_tools.py:montgomery_decoder", "src/qrisp/alg_primitives/arithmetic/jasp_arithmetic/jasp_bigintiger.py:bi_montgomery_encode", "src/qrisp/alg_primitives/arithmetic/jasp_arithmetic/jasp_bigintiger.py:bi_montgomery_decode"]}
{"id": "C12", "title": "Classical Montgomery reduction returns the reduced residue", "statement": "cl_montgomery_reduction(t, N, m) for odd N and 0 <= t < N*2^m returns s in [0, N) with s * 2^m = t (mod N).", "quantifier": "every odd N, every m, every t in range", "why_tests_cant": "the number of halving rounds is m and each round branches on a data dependent bit", "anchors": ["src/qrisp/alg_primitives/arithmetic/modular_arithmetic/modular_multiplication.py:cl_montgomery_reduction"]}
{"id": "C13", "title": "Continued-fraction convergents approximate and stay in lowest terms", "statement": "The convergents p_k/q_k produced for num/den satisfy the determinant identity p_k q_{k-1} - p_{k-1} q_k = +-1, hence are in lowest terms, the last one equals num/den, and the recovered denominator never exceeds the bound requested.", "quantifier": "every fraction and every denominator bound", "why_tests_cant": "number of Euclid rounds is unbounded", "anchors": ["src/qrisp/alg_primitives/arithmetic/jasp_arithmetic/jasp_bigintiger.py:bi_contfrac_convergents", "src/qrisp/alg_primitives/arithmetic/jasp_arithmetic/jasp_bigintiger.py:bi_contfrac_best_approx", "src/qrisp/alg_primitives/arithmetic/jasp_arithmetic/jasp_bigintiger.py:bi_shor_recover_denominator"]}
{"id": "C14", "title": "Cuccaro adder adds in place on every basis state", "statement": "cuccaro_adder(a, b) maps |a>|b> to |a>|a + b mod 2^n> for registers of n qubits, restores its ancilla, and with c_in / c_out adds the carry-in and XORs the carry-out into c_out. (Known deviation: with ctrl and c_out together, c_out is toggled even if the control is off.)", "quantifier": "every register size n, every pair of values, every carry-in, every initial c_out", "why_tests_cant": "the circuit is generated for each n; correctness is an induction over the ripple", "anchors": ["src/qrisp/alg_primitives/arithmetic/adders/cuccaro_adder.py:cuccaro_adder"]}
{"id": "C15", "title": "Gidney adders add a quantum or classical number in place", "statement": "The logical-AND based adders map |b> to |a + b mod 2^n>, leave a quantum summand unchanged, return all ancillas to |0>, add the carry-in, XOR the carry-out, and do nothing if the control is off.", "quantifier": "every register size, classical summand, basis state, control value and carry-in", "why_tests_cant": "all sizes and classical constants; the generated circuit differs per constant and size", "anchors": ["src/qrisp/alg_primitives/arithmetic/adders/gidney_adder.py"]}
{"id": "C16", "title": "Incrementation circuits add one", "statement": "increment / increment_qb_list and the linear-depth incrementers map |b> to |b + 1 mod 2^n> (controlled variants: only if the control is on) and restore borrowed ancillas.", "quantifier": "every register size and basis state", "why_tests_cant": "carry may run over the whole register for any n", "anchors": ["src/qrisp/alg_primitives/arithmetic/adders/incrementation.py"]}
{"id": "C17", "title": "Unsigned register comparison is exact", "statement": "uint_lt/uint_gt/uint_le/uint_ge of a quantum register with another register or with any classical integer (negative and too-large constants included) sets the result bit to the comparison of the two integers and leaves the operands unchanged.", "quantifier": "every register size, basis state and classical integer", "why_tests_cant": "boundaries 2^n - 1, 2^n and negative constants are distinct code paths for each n", "anchors": ["src/qrisp/alg_primitives/arithmetic/uint_clifford_t_comparisons.py"]}
{"id": "C18", "title": "QuantumFloat labels round-trip and out-of-range values are rejected", "statement": "For every size, exponent and signedness, decoding the encoding of a representable number returns it, decoding is injective on basis states, and encoding a number outside the range or off the grid raises an error instead of wrapping.", "quantifier": "every mantissa size, exponent, signedness and number", "why_tests_cant": "infinitely many configurations; two's complement corner at -2^n", "anchors": ["src/qrisp/qtypes/quantum_float.py:_signed_int_iso", "src/qrisp/qtypes/quantum_float.py:_signed_int_iso_inv", "src/qrisp/qtypes/quantum_float.py:QuantumFloat.encoder", "src/qrisp/qtypes/quantum_float.py:QuantumFloat.decoder"]}
{"id": "C19", "title": "QuantumFloat.truncate returns a nearest representable value", "statement": "truncate(x) is representable, and no representable value is closer to x.", "quantifier": "every QuantumFloat shape and rational x", "why_tests_cant": "infinitely many x; clipping at both ends", "anchors": ["src/qrisp/qtypes/quantum_float.py:QuantumFloat.truncate"]}
{"id": "C20", "title": "Result QuantumFloats are large enough for the exact result", "statement": "The register created for the sum or product of two QuantumFloats can hold the exact result for every pair of operand values, so out-of-place arithmetic does not overflow.", "quantifier": "every pair of QuantumFloat shapes and every pair of values they hold", "why_tests_cant": "infinitely many shape pairs; signedness and exponent combinations", "anchors": ["src/qrisp/qtypes/quantum_float.py:create_output_qf"]}
{"id": "C21", "title": "Batched execution hands each caller its own result", "statement": "After dispatch, the result handle returned by the k-th run() call since the last dispatch holds the counts of the k-th circuit with that call's shots, whatever the number of calls, the interleaving of shots values and the chunking limit; no handle is left unresolved when the backend returns one result per circuit.", "quantifier": "every sequence of run and dispatch calls and every limit on circuits per submission", "why_tests_cant": "histories are unbounded and grouping/chunking interacts with the order", "anchors": ["src/qrisp/interface/batched_backend.py:BatchedBackend"]}
{"id": "C22", "title": "Backend failure reaches every pending result and leaves the queue empty", "statement": "If the underlying submission raises, every handle pending in the failed chunk raises that error when read, and the queue is empty afterwards so the next batch is unaffected.", "quantifier": "every history and every failing submission point", "why_tests_cant": "the failing point is arbitrary within an arbitrary batch", "anchors": ["src/qrisp/interface/batched_backend.py:BatchedBackend.dispatch", "src/qrisp/interface/measurement_result.py:MeasurementResult"]}
{"id": "C23", "title": "Lazy measurement results are stable", "statement": "Reading a lazy measurement result triggers at most one evaluation; all later reads (keys, items, len, indexing, iteration, equality) observe the same mapping.", "quantifier": "every sequence of accesses", "why_tests_cant": "every interleaving of accessors counts", "anchors": ["src/qrisp/interface/measurement_result.py:LazyDict", "src/qrisp/interface/measurement_result.py:MeasurementResult"]}
{"id": "C24", "title": "Decoding measurement counts preserves total probability", "statement": "Decoding a counts dictionary with an injective decoder yields a dictionary whose values are the relative frequencies and whose sum is one; when several bit strings decode to the same label their frequencies are added. (Known deviation: the multi-variable result overwrites on collisions instead of adding.)", "quantifier": "every counts dictionary and every decoder", "why_tests_cant": "collisions depend on the decoder and on the outcomes observed", "anchors": ["src/qrisp/interface/measurement_result.py:DecodedMeasurementResult", "src/qrisp/interface/measurement_result.py:MultiMeasurementResult"]}
{"id": "C25", "title": "Pauli-term multiplication is operator multiplication", "statement": "The product of two terms over the alphabet X, Y, Z, A, C, P0, P1 computed by the table equals the matrix product of the operators they denote, on any number of qubits, and is associative as an operator.", "quantifier": "every pair of terms on any number of qubits", "why_tests_cant": "terms have unbounded support; phases accumulate over all common qubits", "anchors": ["src/qrisp/operators/qubit/qubit_term.py:PAULI_TABLE", "src/qrisp/operators/qubit/qubit_term.py:QubitTerm.__mul__"]}
{"id": "C26", "title": "commute and commute_qw decide operator commutation", "statement": "t1.commute(t2) is true exactly when the two operators commute, and t1.commute_qw(t2) exactly when the single-qubit factors commute on each qubit.", "quantifier": "every pair of terms on any number of qubits", "why_tests_cant": "parity of the anticommuting positions over unbounded support", "anchors": ["src/qrisp/operators/qubit/qubit_term.py:QubitTerm.commute", "src/qrisp/operators/qubit/qubit_term.py:QubitTerm.commute_qw"]}
{"id": "C27", "title": "Grouping partitions the terms into pairwise compatible groups", "statement": "group_up (graph colouring) returns groups which together contain every term exactly once and in which any two distinct terms satisfy the requested symmetric compatibility relation.", "quantifier": "every finite family of terms and every symmetric relation", "why_tests_cant": "colouring heuristics behave differently for each graph", "anchors": ["src/qrisp/operators/hamiltonian_tools.py:group_up_iterable", "src/qrisp/operators/hamiltonian_tools.py:rlf_coloring", "src/qrisp/operators/hamiltonian_tools.py:dsatur_coloring"]}
{"id": "C28", "title": "Adjoint of an operator term is the conjugate transpose", "statement": "t.adjoint() denotes the conjugate transpose of the matrix of t; applying it twice gives t back; the adjoint of a product is the reversed product of adjoints.", "quantifier": "every term on any number of qubits", "why_tests_cant": "unbounded support", "anchors": ["src/qrisp/operators/qubit/qubit_term.py:QubitTerm.adjoint", "src/qrisp/operators/qubit/qubit_operator.py:QubitOperator.adjoint"]}
{"id": "C29", "title": "Jordan-Wigner images satisfy the canonical anticommutation relations", "statement": "The qubit operators assigned to a(i) and c(j) satisfy {a_i, c_j} = delta_ij, {a_i, a_j} = {c_i, c_j} = 0 for all indices.", "quantifier": "every pair of indices", "why_tests_cant": "indices are unbounded", "anchors": ["src/qrisp/operators/fermionic/fermionic_term.py:FermionicTerm.to_qubit_term", "src/qrisp/operators/fermionic/transformations.py"]}
{"id": "C30", "title": "Sorting a fermionic term preserves the operator", "statement": "FermionicTerm.sort returns a term and a sign such that sign times the sorted product equals the original product as an operator; reduce keeps the operator. (Known deviation: a product in which one mode occurs three times, e.g. c0 a0 c0 a1, is declared zero although it is not.)", "quantifier": "every ladder list", "why_tests_cant": "permutation sign over lists of any length", "anchors": ["src/qrisp/operators/fermionic/fermionic_term.py:FermionicTerm.sort"]}
{"id": "C31", "title": "GF(2) elimination preserves the row space and inverts invertible matrices", "statement": "gaussian_elimination_mod2 returns a matrix whose row space equals that of the input and which is in the requested echelon form; inverse_mod2 of an invertible matrix is its inverse.", "quantifier": "every binary matrix of every shape", "why_tests_cant": "all shapes and ranks", "anchors": ["src/qrisp/operators/qubit/commutativity_tools.py:gaussian_elimination_mod2", "src/qrisp/operators/qubit/commutativity_tools.py:inverse_mod2"]}
{"id": "C32", "title": "Circuit inversion undoes the circuit", "statement": "qc.inverse() consists of the inverses of the instructions in reverse order on the same qubits; running qc followed by its inverse is the identity whenever each gate's inverse is; inverting twice gives the original instruction list.", "quantifier": "every circuit", "why_tests_cant": "unbounded instruction lists", "anchors": ["src/qrisp/circuit/quantum_circuit.py:QuantumCircuit.inverse", "src/qrisp/circuit/operation.py:Operation.inverse"]}
{"id": "C33", "title": "Broadcasting in append applies the gate to corresponding qubits", "statement": "append with list arguments of equal length applies the gate once per index, in order, with the i-th entry of each list; scalars are repeated; mismatching lengths and duplicate qubits raise without changing the circuit.", "quantifier": "every argument shape and size", "why_tests_cant": "unbounded lists", "anchors": ["src/qrisp/circuit/quantum_circuit.py:QuantumCircuit.append", "src/qrisp/circuit/quantum_circuit.py:QuantumCircuit._apply_broadcast"]}
{"id": "C34", "title": "Swap-resolving compiler passes preserve the circuit up to the reported permutation", "statement": "resolve_swaps removes all swap gates and relabels the remaining gates such that the result equals the original circuit followed by the inverse of the accumulated permutation; commute_swaps on circuits without classical bits preserves the circuit's action.", "quantifier": "every circuit and every gate semantics in which gates on disjoint qubits commute", "why_tests_cant": "all circuits; compiler passes are judged by semantics not by examples", "anchors": ["src/qrisp/circuit/pass_management/passes/resolve_swaps.py", "src/qrisp/circuit/pass_management/passes/commute_swaps.py", "src/qrisp/circuit/pass_management/passes/arrange_swaps.py"]}
{"id": "C35", "title": "Zero-control cancellation preserves the action on the zero state", "statement": "cancel_zero_controls removes only gates that act trivially when all not-yet-touched qubits are |0>. (Known deviation: a diagonal controlled gate with an inverted control is dropped although it acts.)", "quantifier": "every circuit over the gate set", "why_tests_cant": "all circuits", "anchors": ["src/qrisp/circuit/pass_management/passes/cancel_zero_controls.py"]}
{"id": "C36", "title": "Fusing adjacent gates preserves the circuit's action", "statement": "fuse_adjacents replaces pairs of gates by an equivalent gate or nothing; the resulting circuit has the same action. (Known deviation: cz with inverted control is treated as symmetric.)", "quantifier": "every circuit", "why_tests_cant": "all circuits and angles", "anchors": ["src/qrisp/circuit/pass_management/passes/fuse_adjacents.py"]}
{"id": "C37", "title": "Compilation reorderings are dependency-preserving permutations", "statement": "The topological sorts used for allocation optimisation and depth reduction emit every instruction exactly once and never before an instruction it depends on, for every cost function or tie-breaking choice.", "quantifier": "every dependency graph and every tie-breaking choice", "why_tests_cant": "all graphs, all heuristics", "anchors": ["src/qrisp/permeability/qc_transformations/memory_management.py:topological_sort", "src/qrisp/permeability/qc_transformations/memory_management.py:toposort_helper_dense", "src/qrisp/permeability/qc_transformations/qc_parallelization.py:depth_sensitive_topological_sort"]}
{"id": "C38", "title": "Simulator reordering preserves dependencies", "statement": "reorder_circuit (pulling measurements and resets forward) returns every instruction of the circuit exactly once, and any two instructions sharing a qubit or classical bit keep their relative order.", "quantifier": "every circuit, every set of preferred gate names and every topological numbering", "why_tests_cant": "all circuits", "anchors": ["src/qrisp/simulator/circuit_reordering.py:nx_get_causal_graph", "src/qrisp/simulator/circuit_reordering.py:nx_reorder_circuit"]}
{"id": "C39", "title": "Multi-controlled X flips the target exactly when all controls match", "statement": "The ancilla-tree and the layered (hybrid) multi-controlled-X constructions flip the target if and only if the control register equals the control state, restore every control and return every ancilla to zero. The layered construction uses no more ancillas than it was permitted.", "quantifier": "every number of controls, control state, number of permitted ancillas and basis state", "why_tests_cant": "circuits are generated recursively for each size", "anchors": ["src/qrisp/alg_primitives/mcx_algs/balauca.py:hybrid_mcx", "src/qrisp/alg_primitives/mcx_algs/balauca.py:jasp_balauca_mcx"]}
{"id": "C40", "title": "Conditionally-clean multi-controlled X (one ancilla) is correct", "statement": "khattar_mcx flips the target iff all controls match the control state, for every number of controls, restoring controls and ancilla.", "quantifier": "every number of controls and basis state", "why_tests_cant": "index arithmetic with parity cases for each n", "anchors": ["src/qrisp/alg_primitives/mcx_algs/khattar.py"]}
{"id": "C41", "title": "cyclic_shift and permute_iterable realise the requested permutation", "statement": "cyclic_shift(it, k) moves the element at position i to position (i + k) mod N for every length N and integer k; permute_iterable(it, perm) puts the element perm[i] at position i, using only swaps.", "quantifier": "every length, shift amount and permutation", "why_tests_cant": "power-of-two ladders and reflection swaps differ for each N", "anchors": ["src/qrisp/alg_primitives/iterable_processing.py:cyclic_shift", "src/qrisp/alg_primitives/iterable_processing.py:singular_shift", "src/qrisp/alg_primitives/iterable_processing.py:to_cycles", "src/qrisp/alg_primitives/iterable_processing.py:permute_iterable"]}
{"id": "C42", "title": "demux routes the input to the indexed slot and quantum indexing reads it", "statement": "demux(input, ctrl, output) moves the input to position ctrl of the output array, and q_indexing returns a copy of the indexed entry while leaving the array unchanged, for every index basis state.", "quantifier": "every control width, index value and array content", "why_tests_cant": "recursion over all widths", "anchors": ["src/qrisp/alg_primitives/iterable_processing.py:demux", "src/qrisp/alg_primitives/iterable_processing.py:q_indexing", "src/qrisp/alg_primitives/iterable_processing.py:q_swap_into"]}
{"id": "C43", "title": "RSA helpers round-trip", "statement": "Decrypting an encrypted integer message returns the message for every key (e, N = p*q) and message in [0, N); decrypting an encrypted ASCII string returns the string. (Known deviation: trailing NUL characters are appended when the chunk padding reaches seven bits.)", "quantifier": "every key pair, message and message length", "why_tests_cant": "number theoretic, unbounded lengths", "anchors": ["src/qrisp/algorithms/shor/crypto_tools.py"]}
{"id": "C44", "title": "Factors returned by shors_alg are proper divisors", "statement": "Whatever the quantum measurement returns, a value returned by shors_alg(N) divides N and is neither 1 nor N; an order returned by extract_order(res, a, N) satisfies a^r = 1 (mod N). (Known deviation: find_order post-processes with an overwritten base, so its result need not be an order of the requested base.)", "quantifier": "every N and every measurement outcome", "why_tests_cant": "measurement outcomes are arbitrary", "anchors": ["src/qrisp/algorithms/shor/shors_algorithm.py"]}
{"id": "C45", "title": "Jlist behaves like a bounded list", "statement": "Within its capacity a Jlist observes the same contents, length, indexing, slices, pop results and iteration order as a Python list under any sequence of append, prepend, extend, pop. (Known deviation: clear() leaves the receiver unchanged.)", "quantifier": "every operation history within capacity", "why_tests_cant": "histories are unbounded", "anchors": ["src/qrisp/jasp/interpreter_tools/dynamic_list.py:Jlist"]}
{"id": "C46", "title": "Controlled gates with an arbitrary control state act only on that control state", "statement": "op.control(n, ctrl_state) applies the operation exactly when the control qubits are in ctrl_state. (Known deviations: controlled global phase with a mixed control state; multi-controlled Y realises -Y.)", "quantifier": "every number of controls and control state", "why_tests_cant": "all sizes and control states", "anchors": ["src/qrisp/circuit/operation.py:PTControlledOperation", "src/qrisp/circuit/controlled_operations.py"]}
{"id": "C47", "title": "Packing qubit sets into 64-bit words is faithful", "statement": "split_integer(indices, k) returns k words below 2^64 in which bit b of word w is set exactly when 64w+b is one of the indices, an index beyond the words is an error, and reverse_split recovers the set of indices in increasing order.", "quantifier": "every list of qubit indices and every number of words", "why_tests_cant": "all sizes, in particular circuits with more than 64 qubits", "anchors": ["src/qrisp/permeability/qc_transformations/qc_parallelization.py:split_integer", "src/qrisp/permeability/qc_transformations/qc_parallelization.py:reverse_split"]}
{"id": "C48", "title": "Permuting detectors keeps their meaning", "statement": "permute_detectors moves all DETECTOR instructions to the end in the requested order such that each still refers to the same absolute measurement records and, with shifts taken into account, the same coordinates.", "quantifier": "every circuit without REPEAT and every permutation", "why_tests_cant": "all instruction sequences", "anchors": ["src/qrisp/misc/stim_tools/detector_permutation.py"]}
{"id": "C49", "title": "Bit-permutation of simulator indices is a permutation of binary digits", "statement": "permute_axes(index, perm) moves each binary digit of every index to its new position, independent of the interval merging optimisation.", "quantifier": "every width, permutation and index", "why_tests_cant": "all permutations", "anchors": ["src/qrisp/simulator/bi_array_helper.py:permute_axes"]}
{"id": "C50", "title": "Classical cost functions equal the combinatorial objective", "statement": "The classical cost of a measurement result is the weighted mean of the objective of its outcomes: minus the number of cut edges (MaxCut), minus the number of satisfied clauses (MaxSat) or equations (E3Lin2), x^T Q x (QUBO), minus the size of a feasible set and 0 otherwise (independent set, clique, set packing), the size of a cover or the number of sets (set cover), -4^(edges with different colours) (colouring). (Known deviations: MaxCut raises for outcomes of 33 or more bits; set cover does not weight infeasible outcomes.)", "quantifier": "every graph, clause list, matrix, set system and measurement result", "why_tests_cant": "all instances", "anchors": ["src/qrisp/algorithms/qaoa/problems/maxCut.py:create_maxcut_cl_cost_function", "src/qrisp/algorithms/qaoa/problems/maxSat.py:create_maxsat_cl_cost_function", "src/qrisp/algorithms/qaoa/problems/QUBO.py:create_QUBO_cl_cost_function", "src/qrisp/algorithms/qaoa/problems/eThrLinTwo.py", "src/qrisp/algorithms/qaoa/problems/maxIndepSet.py", "src/qrisp/algorithms/qaoa/problems/maxClique.py", "src/qrisp/algorithms/qaoa/problems/maxSetPacking.py", "src/qrisp/algorithms/qaoa/problems/minSetCover.py", "src/qrisp/algorithms/qaoa/problems/maxKColorableSubgraph.py"]}
{"id": "C51", "title": "smallest_power_of_two is the smallest exponent reaching its argument", "statement": "smallest_power_of_two(n) is the least k >= 0 with n <= 2^k, for ints and BigIntegers alike. (Known deviation: the BigInteger overload returns one more on exact powers of two.)", "quantifier": "every n", "why_tests_cant": "all integers", "anchors": ["src/qrisp/alg_primitives/arithmetic/jasp_arithmetic/jasp_mod_tools.py:smallest_power_of_two"]}
{"id": "C52", "title": "Fixed Clifford+T Toffoli circuits implement the gate they stand for", "statement": "The library circuits behind mcx(method=...) act exactly as documented on every input superposition: the Toffoli, Gray-synthesis Toffoli, Amy and Maslov circuits are the exact (multi-)controlled X for any control state and return their ancilla clean; the logical AND computes AND into a clean target without phase and both measurement outcomes of its uncomputation erase it. (Known deviation: the measurement-compiled 'jones' Toffoli carries an extra CZ of its controls.)", "quantifier": "every input superposition, control state and measurement outcome", "why_tests_cant": "basis-state tests cannot see relative phases; all superpositions", "anchors": ["src/qrisp/alg_primitives/mcx_algs/circuit_library.py", "src/qrisp/alg_primitives/mcx_algs/gidney.py", "src/qrisp/alg_primitives/mcx_algs/maslov.py", "src/qrisp/alg_primitives/mcx_algs/jones.py", "src/qrisp/alg_primitives/mcx_algs/amy.py", "src/qrisp/circuit/pass_management/passes/gray_synth_toffoli.py"]}
{"id": "C53", "title": "Dirty-ancilla multi-controlled X is exact for any number of controls", "statement": "mcx(method='yong') flips the target exactly when all controls match the control state, introduces no phase, and restores the borrowed ancilla whatever state it was in.", "quantifier": "every number of controls >= 2, control state, qubit placement and input superposition", "why_tests_cant": "recursive construction, size unbounded, phases invisible to sampling", "anchors": ["src/qrisp/alg_primitives/mcx_algs/yong.py:yong_mcx"]}
{"id": "C54", "title": "Equality of QuantumFloats compares the represented numbers", "statement": "qf_0 == qf_1 on basis states returns True exactly when the two fixed-point numbers (mantissa, exponent, sign) are equal, and leaves both operands unchanged.", "quantifier": "every mantissa size, exponent, signedness and value of the two QuantumFloats", "why_tests_cant": "the overlapping, low and high bit ranges depend on four shape parameters; tests fix a few shapes", "anchors": ["src/qrisp/alg_primitives/arithmetic/comparisons.py:equal"]}
{"id": "C55", "title": "Qubit operator arithmetic and matrix conversion denote the same operator", "statement": "a + b, a - b and a * b of qubit operators denote the sum, difference and product of their matrices; to_array lists the denoted matrix entry by entry; from_matrix followed by to_array returns the original matrix.", "quantifier": "every pair of operators on any number of qubits, every sparse matrix", "why_tests_cant": "all operators, any key iteration order of Python sets", "anchors": ["src/qrisp/operators/qubit/qubit_operator.py:QubitOperator.__add__", "src/qrisp/operators/qubit/qubit_operator.py:QubitOperator.__mul__", "src/qrisp/operators/qubit/qubit_operator.py:QubitOperator.to_sparse_matrix", "src/qrisp/operators/qubit/qubit_operator.py:QubitOperator.from_matrix"]}
{"id": "C56", "title": "Fermionic arithmetic and its Jordan-Wigner image", "statement": "Sums, differences, products and daggers of fermionic operators denote those of the second-quantised operators, and to_qubit_operator has exactly the matrix elements of the fermionic operator in the occupation-number basis.", "quantifier": "every fermionic operator on any number of modes and every pair of basis states", "why_tests_cant": "all operators and basis states; signs depend on all lower modes", "anchors": ["src/qrisp/operators/fermionic/fermionic_operator.py", "src/qrisp/operators/fermionic/fermionic_term.py:FermionicTerm.to_qubit_term"]}
{"id": "C57", "title": "Equality of fermionic operators is equality of the denoted operators", "statement": "O1 == O2 is True exactly when the two fermionic operators denote the same operator; in particular O == O. (Known deviation: a term is identified with its dagger, so a(0) == c(0), and an operator with an unsorted term is unequal to itself.)", "quantifier": "every pair of fermionic operators", "why_tests_cant": "all operators", "anchors": ["src/qrisp/operators/fermionic/fermionic_operator.py:FermionicOperator.__eq__"]}
{"id": "C58", "title": "change_of_basis(method=\"commuting\") diagonalises commuting Pauli terms", "statement": "For every QubitOperator whose terms are pairwise commuting Pauli strings (X, Y, Z letters), change_of_basis(qarg, method=\"commuting\") applies a Clifford circuit U to qarg and returns an operator whose terms contain only Z factors and which equals U O U^-1 exactly, sign included; in particular distinct terms stay distinct and every term becomes plus or minus a product of Z.", "quantifier": "all numbers of qubits, all sets of pairwise commuting Pauli terms and all coefficients", "why_tests_cant": "the number of commuting families grows exponentially with the qubit number, and a wrong sign only shows for families whose pivot permutation is not its own inverse", "anchors": ["src/qrisp/operators/qubit/qubit_operator.py:QubitOperator.change_of_basis", "src/qrisp/operators/qubit/commutativity_tools.py:construct_change_of_basis", "src/qrisp/operators/qubit/qubit_term.py:QubitTerm.binary_representation"]}
{"id": "C59", "title": "parallelize_qc preserves the circuit's action", "statement": "QuantumCircuit parallelisation returns every instruction of the input exactly once, keeps the relative order of any two instructions that do not commute by their permeability types, and so produces the same final state and measurement outcomes on every input state, whatever depth indicator is given.", "quantifier": "all circuits (qubits, classical bits, permeability types, allocations, classically controlled operations), depth indicators and input states", "why_tests_cant": "the reordering depends on the whole dependency graph and on costs supplied by the user; no finite family of circuits covers the interleavings of streaks", "anchors": ["src/qrisp/permeability/permeability_dag.py:dag_from_qc", "src/qrisp/permeability/qc_transformations/qc_parallelization.py:parallelize_qc", "src/qrisp/permeability/qc_transformations/qc_parallelization.py:depth_sensitive_topological_sort"]}
{"id": "C60", "title": "optimize_allocations preserves the circuit's action", "statement": "Moving allocations and deallocations to save qubits (compile) keeps every instruction, keeps the order of instructions that need not commute, and does not change the state the circuit produces, for the dense and the sparse sorting routine.", "quantifier": "all circuits, both sorting routines, all iteration orders of Python sets, all input states", "why_tests_cant": "the result depends on graph size thresholds and set iteration order, which tests do not control", "anchors": ["src/qrisp/permeability/qc_transformations/memory_management.py:optimize_allocations", "src/qrisp/permeability/permeability_dag.py:dag_from_qc"]}
{"id": "C61", "title": "Permeability answers are true of the unitary", "statement": "If an operation is reported permeable on some qubits then its unitary never changes the computational basis value of these qubits; if a qubit is typed X in the permeability graph then the unitary commutes with X on this qubit. The answer is sound for primitive gates, controlled operations and operations defined by circuits of any depth.", "quantifier": "all operations: any nesting of definitions and controls, any unitary, any list of qubit indices", "why_tests_cant": "permeability is a statement about all matrix elements of a unitary of any size and is derived through an arbitrary nesting of definitions", "anchors": ["src/qrisp/permeability/type_checker.py:is_permeable", "src/qrisp/permeability/permeability_dag.py:get_perm_dic"]}
{"id": "C62", "title": "QAOA cost operators multiply each basis state by a phase affine in its objective", "statement": "The cost operators are diagonal and multiply basis state x by exp(i gamma (2 cut(x) - |E|)) (MaxCut), exp(-i gamma' x^T Q x) (QUBO, gamma' the rescaled angle), exp(-i gamma sat(x)) (MaxSat), exp(i gamma (m - 2 sat(x)) / 2) (E3Lin2 with m equations), exp(2 i gamma (number of equally coloured edges)) (colouring, both encodings).", "quantifier": "every instance, angle and basis state", "why_tests_cant": "all instances and all basis states", "anchors": ["src/qrisp/algorithms/qaoa/problems/maxCut.py:create_maxcut_cost_operator", "src/qrisp/algorithms/qaoa/problems/maxSat.py:create_maxsat_cost_operator", "src/qrisp/algorithms/qaoa/problems/QUBO.py:create_QUBO_cost_operator", "src/qrisp/algorithms/qaoa/problems/eThrLinTwo.py:create_e3lin2_cost_operator", "src/qrisp/algorithms/qaoa/problems/maxKColorableSubgraph.py:apply_phase_if_eq", "src/qrisp/alg_primitives/arithmetic/SBP_arithmetic.py:app_sb_phase_polynomial"]}
{"id": "C63", "title": "Multi-controlled phase gates apply the phase to exactly the matching states", "statement": "mcp(phi, qubits, ctrl_state) with the ancilla-based methods multiplies exactly the basis states in which the qubits hold the control state by exp(i phi), leaves all other states alone, and returns every ancilla clean.", "quantifier": "every number of qubits, control state, phase and basis state", "why_tests_cant": "all sizes and control states; relative phases of the compute/uncompute halves cannot be seen by measuring", "anchors": ["src/qrisp/core/gate_application_functions.py:mcp", "src/qrisp/alg_primitives/mcx_algs/balauca.py:hybrid_mcx", "src/qrisp/alg_primitives/mcx_algs/balauca.py:jasp_balauca_mcp", "src/qrisp/alg_primitives/mcx_algs/khattar.py:khattar_mcp"]}
{"id": "C64", "title": "Phase synthesis from a list or function gives every state its phase", "statement": "gray_synth_qc (and gray_phase_synth, app_phase_function, as_hamiltonian, which are built on it) returns a circuit that maps every computational basis state to itself and multiplies it by the phase given for it in the list, or computed by the phase function from the labels of the variables, up to one global phase. In phase-tolerant mode only the phase difference between the two values of the last qubit is guaranteed.", "quantifier": "all numbers of qubits and registers, all lists of phases / phase functions, all basis states", "why_tests_cant": "the traversal is a heuristic that depends on which Walsh coefficients vanish; tests use a few random functions, for which none vanishes", "anchors": ["src/qrisp/alg_primitives/logic_synthesis/gray_synthesis.py:gray_synth_qc", "src/qrisp/alg_primitives/logic_synthesis/gray_synthesis.py:hamming_tsp", "src/qrisp/misc/utility.py:app_phase_function"]}
{"id": "C65", "title": "The quantum Fourier transform is the discrete Fourier transform", "statement": "QFT(qv, ...) maps the amplitudes of the values of the register to their discrete Fourier transform with exp(2 pi i m k y / 2^n), m being inplace_mult, within any larger state; the flags exec_swap and qiskit_endian only change the order in which the qubits are read before and after. inv=True gives the inverse transform. Only even factors are refused. The traced version does the same for m = 1.", "quantifier": "all register sizes and positions, all odd factors, all flags, all states of the whole system", "why_tests_cant": "a unitary on n qubits has 4^n entries and depends on n, the factor and the flags; tests compare a few sizes", "anchors": ["src/qrisp/alg_primitives/qft.py:QFT", "src/qrisp/alg_primitives/qft.py:QFT_inner", "src/qrisp/alg_primitives/qft.py:jasp_qft"]}
{"id": "C66", "title": "The Fourier adder adds modulo 2^n", "statement": "fourier_adder(a, b) turns b into b + a modulo 2^n for every integer a (also negative) and every register a with at most as many qubits as b, leaving a and all other qubits unchanged and producing no relative phases; with perform_QFT=False it applies only the phases exp(2 pi i a y / 2^n). A longer register is refused.", "quantifier": "all integers, all register sizes and positions, all states of the whole system (superpositions included)", "why_tests_cant": "correctness depends on phases that cancel only in sum over all pairs of qubits; tests see measured values of a few sizes", "anchors": ["src/qrisp/alg_primitives/arithmetic/adders/fourier_adder.py:fourier_adder", "src/qrisp/alg_primitives/arithmetic/adders/fourier_adder.py:QuasiRZZ"]}
{"id": "C67", "title": "Quantum arithmetic circuits compute the exact result", "statement": "On every basis state with an empty output register, a + b, a - b, a * b, a * a, n * a, a + k, k - a leave the exact result in the new register, whatever the shapes (sizes, exponents, signs) of the QuantumFloats; a += b, a -= b, a += k, a -= k leave it in a if it is representable there. Inputs and work qubits keep their values and no phase appears, so superpositions stay coherent. Numbers off the grid, and a signed operand for an unsigned in-place target, are refused.", "quantifier": "all shapes and register sizes, all polynomials, all values, all states of the whole system", "why_tests_cant": "the values, the rounding of coefficients and the phases depend on the shapes of three registers; tests measure a few small shapes and see no phases", "anchors": ["src/qrisp/alg_primitives/arithmetic/SBP_arithmetic.py:sb_polynomial_encoder", "src/qrisp/alg_primitives/arithmetic/SBP_arithmetic.py:multi_controlled_U_g", "src/qrisp/alg_primitives/arithmetic/SBP_arithmetic.py:sbp_mult", "src/qrisp/alg_primitives/arithmetic/SBP_arithmetic.py:sbp_add", "src/qrisp/alg_primitives/arithmetic/SBP_arithmetic.py:sbp_sub", "src/qrisp/qtypes/quantum_float.py:__iadd__", "src/qrisp/qtypes/quantum_float.py:__rsub__"]}
{"id": "C68", "title": "In-place multiplication and quantum bit shifts", "statement": "For a signed QuantumFloat of any size, a *= k with an accepted number k leaves every basis state in the state whose value is k times the old value (a grows by fresh qubits as needed), changes no other qubit and introduces no phase; k is accepted exactly if it is an odd integer times 2^s with s >= -31 and not negative for unsigned QuantumFloats. Bit shifts multiply by the power of two, also when the shift amount is an unsigned QuantumFloat. Without overflow treatment an odd factor acts modulo 2^size.", "quantifier": "all register sizes, exponents, factors, shift amounts and basis states", "why_tests_cant": "The circuits depend on the size and the factor; a test runs one size and one factor and typically only a few values.", "anchors": ["src/qrisp/alg_primitives/arithmetic/SBP_arithmetic.py: QFT_inpl_mult, inpl_mult, quantum_bit_shift", "src/qrisp/qtypes/quantum_float.py: QuantumFloat.__imul__, quantum_bit_shift", "src/qrisp/core/quantum_variable.py: extend"]}
{"id": "C69", "title": "Phase polynomials", "statement": "Applying the phase polynomial t P to QuantumFloats multiplies every basis state by exp(i t P(v1, ..., vn)), where vi are the numbers the QuantumFloats stand for, whatever their sizes, exponents and signs, and changes no qubit; on qubits likewise with values 0 and 1, powers included. It is refused exactly if the number of variables does not match.", "quantifier": "all polynomials, all numbers and shapes of QuantumFloats, all basis states, all t", "why_tests_cant": "A test compares the phases of one polynomial on one small register; the expansion into qubit monomials grows with degree and size.", "anchors": ["src/qrisp/alg_primitives/arithmetic/SBP_arithmetic.py: app_sb_phase_polynomial, app_phase_polynomial", "src/qrisp/qtypes/quantum_float.py: QuantumFloat.sb_poly", "src/qrisp/alg_primitives/arithmetic/poly_tools.py: monomial_to_list, filter_pow"]}
{"id": "C70", "title": "Multiplication in the Fourier domain writes the exact product without phases", "statement": "For QuantumFloats a and b of any shapes (signed or not, any exponents), a * b (hybrid_mult, q_mult) leaves the product in the new register: every basis state with the register at 0 becomes the state with the register holding exactly the product, all other contents of the register have amplitude 0, and no phase depending on the factors appears. With a given output and an integer cl_factor the same holds whenever the output can hold the result; otherwise it is reduced modulo 2^size. With init_op/terminal_op None or 'qft' the product is added to what the register holds, up to a stated phase; without phase_tolerant this phase is not 1 when the register was not 0. q_mult ignores its target argument.", "quantifier": "all shapes of both factors, all sizes, all contents of the registers, all superpositions, all integer factors", "why_tests_cant": "Phases are invisible in measured counts, and the number of shapes and input values is unbounded; a test can only run a few small registers.", "anchors": ["src/qrisp/alg_primitives/arithmetic/SBP_arithmetic.py: hybrid_mult, U_g_inpl_adder, q_mult", "src/qrisp/qtypes/quantum_float.py: QuantumFloat.__mul__"]}
{"id": "C71", "title": "Phase estimation finds the phase", "statement": "QPE(args, U, precision or target) on a state, target register at 0, that U multiplies with exp(2 pi i k / 2^n), n being the size of the target: the target holds k modulo 2^n with certainty (every other content has amplitude 0) and the arguments are as before. A superposition of such states gets every part labelled with its own estimate. For any phase exp(i theta) the amplitude of the estimate y is the mean of exp(i j (theta - 2 pi y / 2^n)) over j < 2^n, so the estimate nearest to the phase has probability at least 4 / pi^2. The same holds with iter_spec=True, where U is called with iter = 2**i instead of 2**i times.", "quantifier": "all unitaries U given by circuits off the target, register sizes, phases, states, both values of iter_spec", "why_tests_cant": "the unitary, its eigenstate and the size of the register are arbitrary; tests sample a few phase gates and compare histograms", "anchors": ["src/qrisp/alg_primitives/qpe.py:QPE", "src/qrisp/alg_primitives/qft.py:QFT"]}
{"id": "C72", "title": "Iterative phase estimation returns the phase", "statement": "IQPE(args, U, precision=p) is documented to return the phase of U as a fraction of 2 pi. On a state with phase k / 2^(p+1) every possible run returns the fractional part of twice the phase, (k mod 2^p) / 2^p, and leaves the state alone up to a phase; so for a phase k / 2^p with 0 < k < 2^p no run returns k / 2^p (refuted as documented).", "quantifier": "all unitaries, precisions, eigenstates, measurement histories", "why_tests_cant": "measurement outcomes are random and feed back into later rotations; the claim is about every history", "anchors": ["src/qrisp/alg_primitives/iterative_qpe.py:IQPE"]}
{"id": "C73", "title": "Reflections", "statement": "reflection(args, state_function, phase) acts on every state, in any superposition with other qubits, as the reflection about the prepared state: with phase pi, the component along the state that state_function prepares from 0 stays and everything orthogonal to it is multiplied with -1 (with another phase the component gets exp(i phase) and everything is multiplied with -1), and without state_function it reflects about 0; reflection_indices restricts the reflection to the chosen variables. For a QuantumArray whose elements have an even number of qubits as first argument this is refuted: the result has the opposite sign.", "quantifier": "all numbers and shapes of arguments, all preparation circuits, phases, index lists and states", "why_tests_cant": "the state preparation and the state reflected are arbitrary; a sign is invisible in measured counts unless the reflection is controlled", "anchors": ["src/qrisp/alg_primitives/reflection.py:reflection"]}
{"id": "C74", "title": "Amplitude amplification rotates", "statement": "If state_function prepares good + bad from 0 and the oracle multiplies good with -1 and leaves bad alone, the share of good being (sin theta)^2, then after j iterations of amplitude_amplification the state is a combination of good and bad with coefficients sin((2j+1) theta) / sin theta and cos((2j+1) theta) / cos theta, so the probability of good is (sin((2j+1) theta))^2, whatever the other qubits hold.", "quantifier": "all preparation circuits, oracles, decompositions, iteration numbers, register shapes", "why_tests_cant": "tests run a few oracles and iteration numbers and look at histograms", "anchors": ["src/qrisp/alg_primitives/amplitude_amplification.py:amplitude_amplification", "src/qrisp/alg_primitives/reflection.py:reflection"]}
{"id": "C75", "title": "Amplitude estimation finds the share of the good states", "statement": "QAE(args, state_function, oracle_function, precision or target): if the share of the good part is (sin(pi k / 2^n))^2 for an integer k, n being the size of the target, then every possible outcome y of a measurement of the target is k or -k modulo 2^n, so that (sin(pi y / 2^n))^2 is exactly the share. For a QuantumArray whose elements have an even number of qubits as first argument this is refuted: every outcome gives 1 minus the share.", "quantifier": "all preparation circuits and oracles, target sizes, shares of the given form, outcomes", "why_tests_cant": "the preparation and the oracle are arbitrary, and outcomes of a measurement are random; a test samples a few", "anchors": ["src/qrisp/alg_primitives/qae.py:QAE", "src/qrisp/alg_primitives/qpe.py:QPE", "src/qrisp/alg_primitives/reflection.py:reflection"]}
{"id": "C76", "title": "Nested quantum environments compile to what the program means", "statement": "A program that nests control, condition, inversion, plain and conjugation environments to any depth, with operations that stay off the qubits the environments around depend on, compiles to a circuit that does to the qubits of the program exactly what the nesting says: the content of control and condition environments is applied to the part of the state that meets all conditions around it and nothing happens to the rest, inverted content runs backwards, conjugated content runs between the conjugation and its inverse. All qubits the environments allocate end in state 0, whatever phases the phase-tolerant Toffolis used for the truth values have. A program followed by its inversion is the identity. The library deviates from this for: a condition inside a control on 0, flipping the truth value of a nested environment, an inverted control inside another environment, a conjugation inside a nested control on 0, and an operation two levels below a control environment that uses its control qubit.", "quantifier": "all programs of any size and nesting depth, all control states, all conditions, all operations, all states of the qubits, all phases of the phase-tolerant gates", "why_tests_cant": "nesting is unbounded, and a wrong control in one combination of two environments shows only for superpositions that meet one condition and not the other", "anchors": ["src/qrisp/environments/control_environment.py ControlEnvironment.compile", "src/qrisp/environments/quantum_conditionals.py ConditionEnvironment.compile", "src/qrisp/environments/quantum_inversion.py InversionEnvironment.compile", "src/qrisp/environments/conjugation_environment.py ConjugationEnvironment.compile", "src/qrisp/environments/custom_control_environment.py CustomControlEnvironment.compile", "src/qrisp/misc/utility.py retarget_instructions"]}
{"id": "C77", "title": "Tagging states and Grover's algorithm", "statement": "tag_state(dict, phase) multiplies with exp(i phase) exactly the basis states in which every variable of the dictionary has its value. grovers_alg with k iterations and an oracle that marks M of the 2^m values leaves each winner with the amplitude sin((2k+1) theta) / sqrt M and each loser with cos((2k+1) theta) / sqrt(2^m - M), where sin theta = sqrt(M / 2^m). With the default number of iterations and at most an eighth of the values winning, a winner is measured with a probability of at least 1 - 5 M / 2^m. With exact=True every loser has probability 0 and every winner 1 / M. The default fails for many winners: with three quarters of the values winning, no winner is ever measured.", "quantifier": "all dictionaries, values and phases, all numbers of qubits, all arguments, all oracles and sets of winners, all numbers of iterations, all values of the other qubits", "why_tests_cant": "the probability depends on the number of winners and qubits through a rotation angle; tests see sampled frequencies of a few small searches", "anchors": ["src/qrisp/algorithms/grover/grover_tools.py tag_state", "src/qrisp/algorithms/grover/grover_tools.py diffuser", "src/qrisp/algorithms/grover/grover_tools.py grovers_alg", "src/qrisp/core/gate_application_functions.py mcz", "src/qrisp/core/gate_application_functions.py mcp"]}
{"id": "C78", "title": "A quantum switch applies exactly the branch the index register says", "statement": "q_switch(index, branches, *operands) with a quantum index, methods 'tree' (default) and 'sequential', branches as a list or a function, any branch_amount up to the number of index values: on every basis state of the index the branch with that number is applied to the operands, values without a branch are left alone, superpositions are treated linearly and the ancillas return to 0. Inside a control environment nothing happens where the control is 0; inside an inversion environment the inverse is applied. A list of branches can be used again.", "quantifier": "every index size, number of branches, branch circuits, position of the qubits, control qubit or none, and every state, also entangled with the index", "why_tests_cant": "the walk through the binary tree depends on the bit pattern of every branch number and on the number of missing branches; tests cover a few sizes", "anchors": ["src/qrisp/alg_primitives/program_control/quantum_switch.py:_q_switch_q", "src/qrisp/alg_primitives/program_control/switch_case.py:qswitch", "src/qrisp/jasp/program_control/prefix_control.py:q_switch"]}
{"id": "C79", "title": "A linear combination of unitaries acts as the weighted sum", "statement": "inner_LCU(operand_prep, state_prep, unitaries, num_unitaries, oaa_iter=0) leaves, where the case indicator is 0, the operand in the state sum_i |s_i|^2 U_i psi, where s_i is the amplitude that state_prep gives to case i from 0. If this sum is sin(theta) W with an isometry W, then with oaa_iter = j the operand is left, where the case indicator is 0, in the state sin((2 j + 1) theta) W psi, whatever psi is, and LCU succeeds with probability sin^2((2 j + 1) theta).", "quantifier": "all numbers of unitaries, all state_prep circuits on the case indicator, all unitaries, all operand states (also entangled with others), all numbers of iterations, all angles", "why_tests_cant": "tests run a few combinations of two or four unitaries on a few qubits", "anchors": ["src/qrisp/alg_primitives/lcu.py: inner_LCU, LCU", "src/qrisp/alg_primitives/amplitude_amplification.py: amplitude_amplification", "src/qrisp/alg_primitives/program_control/quantum_switch.py: q_switch"]}
{"id": "C80", "title": "Modular sums and differences are exact, whatever the Montgomery shift", "statement": "For a QuantumModulus q with modulus N and Montgomery shift m, q += o, q -= o, q + o, q - o and o - q leave the register in a state that decodes to the sum or difference modulo N, for integers o (also negative and at least N), other QuantumModulus of the same modulus (for += also of another shift) and QuantumFloats; operands and ancillas are restored, the result is again below N, and a control qubit that is off means nothing happens. Combinations of shifts that are not supported raise an exception.", "quantifier": "every modulus, shift, size and position of the registers, every residue, every integer, with or without control", "why_tests_cant": "correctness rests on the borrow bit for every pair of residues and on modular inverses of powers of two; tests run a few small moduli", "anchors": ["src/qrisp/alg_primitives/arithmetic/modular_arithmetic/modular_qft_addition.py: mod_adder, montgomery_addition", "src/qrisp/qtypes/quantum_modulus.py: QuantumModulus __iadd__ __isub__ __add__ __sub__ __rsub__ encoder decoder"]}
{"id": "C81", "title": "Products of a QuantumModulus with an integer are exact", "statement": "For a QuantumModulus q with modulus N, q * X puts X * q modulo N in a new QuantumModulus; q *= X for X coprime to N multiplies q in place, possibly under a control qubit. All ancillas return to 0. X may be any integer; a Montgomery shift of q is taken into account.", "quantifier": "every modulus, factor and residue, every register size, with or without control", "why_tests_cant": "the number of Montgomery steps is chosen from the factor; whether the intermediate sum stays in range depends on the modulus, the factor and the bits of the residue: the first failure is at modulus 259", "anchors": ["src/qrisp/alg_primitives/arithmetic/jasp_arithmetic/jasp_montgomery.py: cq_montgomery_multiply, cq_montgomery_multiply_inplace, q_montgomery_reduction", "src/qrisp/qtypes/quantum_modulus.py: QuantumModulus __mul__ __imul__", "src/qrisp/alg_primitives/arithmetic/modular_arithmetic/mod_tools.py: best_montgomery_shift"]}
{"id": "C82", "title": "Products of two QuantumModulus while tracing are exact", "statement": "In traced programs p * q of two QuantumModulus with the same modulus gives a new QuantumModulus that decodes to the product modulo N, with the shifts of p and q and the number of Montgomery steps combined in its own shift; p and q keep their values and the ancillas return to 0. The result is below N.", "quantifier": "every odd modulus, all shifts, every pair of residues, every register position", "why_tests_cant": "the range of the reduction depends on both residues; tests multiply small numbers", "anchors": ["src/qrisp/alg_primitives/arithmetic/jasp_arithmetic/jasp_montgomery.py: qq_montgomery_multiply, qq_montgomery_multiply_modulus", "src/qrisp/qtypes/quantum_modulus.py: QuantumModulus __mul__"]}
{"id": "C83", "title": "Products of two registers outside tracing are exact", "statement": "Ripple multiplication adds the exact product of two registers to a given register (modulo 2^size), or puts it in a new one; inside an inversion it subtracts it; multiplication of a register by an odd number in place multiplies modulo 2^size, even numbers are refused. p * q of two QuantumModulus outside tracing gives a new QuantumModulus that holds a reduced number and decodes to the product modulo N. The factors keep their values (they may be the same variable) and every ancilla returns to 0.", "quantifier": "all registers, sizes, positions and values; every odd modulus from 3 on, all Montgomery shifts, every pair of residues", "why_tests_cant": "the reduction depends on every bit of both residues and on the number of Montgomery steps chosen from the modulus; tests multiply small numbers", "anchors": ["src/qrisp/alg_primitives/arithmetic/ripple_mult.py: q_int_mult, inpl_q_int_mult", "src/qrisp/alg_primitives/arithmetic/modular_arithmetic/modular_multiplication.py: montgomery_mod_mul, montgomery_red, QREDC", "src/qrisp/qtypes/quantum_modulus.py: QuantumModulus __mul__"]}
{"id": "C84", "title": "Montgomery products with a number outside tracing are exact", "statement": "montgomery_mod_semi_mul of a QuantumModulus and an integer b puts b times the residue modulo N in the output, with the Montgomery shift of the factor; semi_cl_inpl_mult multiplies in place by every integer X coprime to N, under a control only if the control is on, and raises an exception for all other X. Every ancilla returns to 0.", "quantifier": "every odd modulus from 3 on, every integer factor, residue and Montgomery shift, every register position, with or without control", "why_tests_cant": "the number of Montgomery steps is searched for, the controlled version relies on the multiplication leaving a 0 factor alone for every content of the output", "anchors": ["src/qrisp/alg_primitives/arithmetic/modular_arithmetic/modular_multiplication.py: montgomery_mod_semi_mul, semi_cl_inpl_mult, find_best_montgomery_shift, montgomery_red, QREDC"]}
{"id": "C85", "title": "Comparing QuantumFloats compares the numbers they stand for", "statement": "For QuantumFloats of any mantissa sizes, exponents and signs, a < b, a > b, a <= b and a >= b give a QuantumBool that is true exactly on the basis states where the relation holds between the represented numbers; the same holds if one operand is a Python number. Both operands keep their values, formats and qubits, and every auxiliary qubit is returned in state 0.", "quantifier": "all formats (mantissa size, exponent, signed or not) of both operands, all basis states, all numbers", "why_tests_cant": "the number of inserted qubits depends on both formats; an overflow of the internal subtraction or a missed sign extension only shows for particular pairs of formats and values", "anchors": ["src/qrisp/alg_primitives/arithmetic/comparisons.py:less_than_gate", "src/qrisp/alg_primitives/arithmetic/comparisons.py:less_than", "src/qrisp/alg_primitives/arithmetic/comparisons.py:lt, gt, leq, geq", "src/qrisp/qtypes/quantum_float.py:QuantumFloat.__lt__, __gt__, __le__, __ge__"]}
{"id": "C86", "title": "In-place ripple-carry addition adds", "statement": "The Thapliyal adder on two lists of qubits writes the sum into the second list and adds the carry to the output qubit, leaving everything else alone, and the TR gate it is built from is the stated permutation without a phase. inpl_add(a, b) makes the first QuantumFloat a + b, rounded down to its precision and modulo its range, keeps b and returns all additional qubits in state 0.", "quantifier": "all list lengths, all formats (mantissa size, exponent, signed or not) of both operands for which no rounding or overflow error is raised, all basis states and superpositions", "why_tests_cant": "the circuit has a different structure for the first and last position of the lists, and the sign extension depends on both formats; an error in the carry only shows for particular widths and values", "anchors": ["src/qrisp/alg_primitives/arithmetic/adders/thapliyal_adder.py: TR_gate, thapliyal_procedure", "src/qrisp/alg_primitives/arithmetic/adders/ripple_carry_adder.py: inpl_add"]}
{"id": "C87", "title": "Division yields quotient and remainder with the requested precision", "statement": "q_divmod(n, d, prec) returns a quotient q that is a multiple of 2^-prec and a remainder r with n = q d + r and 0 <= r < |d| 2^-prec, hence |q - n/d| < 2^-prec, for every non-zero divisor of either sign; numerator and divisor keep their values and formats and all additional qubits end in state 0. q_div, / and qf_inversion return that quotient alone, with the remainder uncomputed to 0 on every superposition and without phases; a // b is the integer part of the quotient.", "quantifier": "all formats (mantissa size, exponent, signed or not) of numerator and divisor, all basis states with a non-zero divisor, all precisions for which no error is raised", "why_tests_cant": "non-restoring division takes a different path of additions and subtractions for every pair of operands, and the number of steps, the register sizes and the alignment depend on both formats and the precision", "anchors": ["src/qrisp/alg_primitives/arithmetic/ripple_division.py: q_int_div, q_divmod, q_div, qf_inversion", "src/qrisp/qtypes/quantum_float.py: QuantumFloat.__truediv__, __floordiv__, __pow__", "src/qrisp/alg_primitives/arithmetic/adders/ripple_carry_adder.py: inpl_add"]}
{"id": "C88", "title": "Traced arithmetic of QuantumFloats and powers", "statement": "While tracing, a += b, a -= b, a + b and a - b give the sum or difference whenever it is a number of the format of a; otherwise the summand is rounded down to the grid of a and the result wraps around. Adding a number of the format of a is exact. a * b gives the exact product of unsigned QuantumFloats of any sizes and exponents, leaving the operands as they were; a * a and the product by controlled additions that of unsigned integers; and a ** p the p-th power of an unsigned integer, for every p >= 1. Signed summands that are shorter, signs in products, exponents of squares and powers, and powers of a single qubit outside tracing are shown not to work.", "quantifier": "all formats, basis states, exponents and powers", "why_tests_cant": "Tests use a few small integer formats; rounding, wrap-around, sign extension and exponents only matter for combinations of formats.", "anchors": ["src/qrisp/qtypes/quantum_float.py: QuantumFloat.__iadd__, __isub__, __add__, __sub__, __mul__, __pow__", "src/qrisp/alg_primitives/arithmetic/jasp_arithmetic/jasp_multiplyers.py: jasp_multiplyer, jasp_squaring, jasp_controlling_multiplyer"]}
{"id": "C89", "title": "State preparation produces the requested amplitudes", "statement": "prepare(qv, target_array, reversed, method='qswitch') raises ValueError exactly when the register is empty, the length of the array is not 2**qv.size or its norm is not above 1e-8; otherwise, on a fresh register, it leaves the amplitude target_array[i]/norm on the basis state with number i (with reversed=True the first qubit is the most significant), for arrays whose non-zero entries are larger than 2**-26 of the norm. unbalanced_w_state(qv, a) leaves a[j]/norm on the state with a single 1 at position j and zero elsewhere (exactly when no non-zero entry is below 1e-15 of the norm, and up to 1e-15 per amplitude always). dicke_state(qv, k), applied to k ones on the last k qubits, gives every basis state with k ones the amplitude 1/sqrt(binomial(n, k)) and every other basis state zero. The XXYY gate fixes |00> and |11> and rotates |10>, |01> by phi/2 with the phase beta.", "quantifier": "all register sizes (up to 32 qubits for prepare), all complex target vectors, all n and 1 <= k <= n, all angles", "why_tests_cant": "the number of amplitudes is exponential in the number of qubits and the vectors range over a continuum; tests compare a few random vectors on a few qubits", "anchors": ["src/qrisp/alg_primitives/state_preparation/prepare_func.py: prepare", "src/qrisp/alg_primitives/state_preparation/qswitch_state_preparation.py: prepare_qswitch, _preprocess, _compute_thetas, _compute_u3_params", "src/qrisp/misc/utility.py: bit_reverse, swap_endianness", "src/qrisp/alg_primitives/unbalanced_w_state.py: unbalanced_w_state", "src/qrisp/alg_primitives/dicke_state_prep.py: dicke_state, split_cycle_shift", "src/qrisp/circuit/standard_operations.py: XXYYGate"]}
{"id": "C90", "title": "The mixers of QAOA keep the constraints", "statement": "XY_mixer keeps the number of ones and lets each qubit interact with its successor in the ring exactly once, so graph colouring with one-hot colours that starts from colourings only measures colourings. With max_indep_set_problem, max_clique_problem and max_set_packing_problem, for any number of layers and any angles, only independent sets, cliques and packings are measured, and one mixer reaches every independent set. With min_set_cover_problem only covers are measured. portfolio_mixer keeps the number of ones in both registers.", "quantifier": "all graphs and families of sets, all numbers of layers, all real angles, all numbers of qubits, all input states", "why_tests_cant": "A test runs one small instance with a few angles and samples; a leak into infeasible solutions can be invisible at those angles or depend on the shape of the instance, for instance on an element that is in one set only.", "anchors": ["src/qrisp/algorithms/qaoa/mixers.py: XY_mixer, apply_XY_mixer, controlled_RX_mixer_gen, portfolio_mixer, RZ_mixer", "src/qrisp/algorithms/qaoa/problems/maxIndepSet.py: max_indep_set_problem", "src/qrisp/algorithms/qaoa/problems/maxClique.py: max_clique_problem", "src/qrisp/algorithms/qaoa/problems/maxSetPacking.py: max_set_packing_problem", "src/qrisp/algorithms/qaoa/problems/minSetCover.py: min_set_cover_problem", "src/qrisp/algorithms/qaoa/problems/maxKColorableSubgraph.py: graph_coloring_problem"]}
{"id": "C91", "title": "Truth tables and quantum dictionaries load the right values", "statement": "TruthTable.q_synth adds, on any superposition of inputs and outputs, the row of the table for the input to the output and leaves the input alone: with the methods 'pprm' and 'pprm_pt' exactly, with 'gray_pt' up to phases that depend on the input, and with the default 'gray' without relative phases; registers of the wrong size are refused. QuantumDictionary.load (and qd[key]) with one or several quantum keys adds the encoding of the value of the key, and nothing for keys that are not in the dictionary.", "quantifier": "all tables with any numbers of inputs and outputs, all superpositions, all placements of the qubits, all dictionaries with any numbers, sizes and decoders of keys", "why_tests_cant": "There are 2^(m 2^n) tables; tests measure the values for a few tables, and a measurement of the values does not see relative phases.", "anchors": ["src/qrisp/alg_primitives/logic_synthesis/truth_tables.py: TruthTable, q_synth, synth_poly", "src/qrisp/alg_primitives/logic_synthesis/pprm_synthesis.py: pprm, pprm_synth", "src/qrisp/alg_primitives/logic_synthesis/gray_synthesis.py: gray_logic_synth, gray_logic_synth_single_qb", "src/qrisp/core/quantum_dictionary.py: QuantumDictionary.load", "src/qrisp/misc/utility.py: custom_qv, bin_rep"]}
{"id": "C92", "title": "Portfolio rebalancing keeps the number of lots and optimises the documented objective", "statement": "With portfolio_init, portfolio_mixer and portfolio_cost_operator, for any number of layers and any angles, only portfolios with the given number of lots (long minus short positions) are measured; portfolio_init weights the bands (numbers of short positions) by their numbers of portfolios and reaches all of them. portfolio_cl_cost_function returns the mean over the measurement results of risk-return function plus trading costs, so that minimising it finds the best portfolio; the cost operator gives every portfolio the phase of this objective, which only depends on the positions.", "quantifier": "all numbers of assets and lots, all covariances, returns, old positions, trading costs and risk factors, all layers and angles, all measurement results", "why_tests_cant": "A test runs the optimiser on one data set and sees that it ends; the sign of the objective, the weights of the bands and portfolios that are never reached do not show up in that.", "anchors": ["src/qrisp/algorithms/qaoa/problems/portfolio_rebalancing.py: portfolio_cost_operator, portfolio_cl_cost_function, portfolio_init", "src/qrisp/algorithms/qaoa/mixers.py: portfolio_mixer", "src/qrisp/examples/portfolio_rebalancingExample.py"]}
{"id": "C93", "title": "QIRO decisions: feasible results whatever was measured, and where reductions lose the optimum", "statement": "QIRO fixes, after each recursion, the node or pair of nodes with the largest absolute correlation in the measured results, with its sign; if nothing correlates, nothing is changed. For maximum independent sets (and set packing, whose conflict graph has exactly the packings as independent sets): after any number of recursions with any measured results and any angles, everything that can be measured is an independent set of the graph that was given, contains all nodes that were accepted and none that were excluded; every undecided node keeps exactly its neighbours that are not excluded, so that the mixer never meets a missing node; each recursion decides at least one more node unless all correlations vanish. For maximum cliques, decided nodes are measured as decided provided no node is accepted twice, and accepted nodes form a clique if single nodes had the largest correlations. For satisfiability, the reduced clauses have, for every assignment that agrees with the correlation that was found, the same number of satisfied clauses up to a constant. (The code violates the intent in several places: a negatively correlated pair should exclude the common neighbours of its ends but excludes all neighbours of the first, which can remove the optimum; accepted cliques need not be cliques, and a node accepted twice is deselected; for satisfiability the qubit after that of the variable is fixed, once for each clause.)", "quantifier": "all graphs and set families, all sequences of measurement results, all angles, all assignments", "why_tests_cant": "The results of the recursions are arbitrary distributions; the tests run one instance each and accept any result with a good cost.", "anchors": ["src/qrisp/algorithms/qiro/qiroproblems/qiroMaxIndepSet.py: create_max_indep_replacement_routine, create_max_indep_controlled_mixer_reduced, qiro_max_indep_set_init_function", "src/qrisp/algorithms/qiro/qiroproblems/qiroMaxClique.py: create_max_clique_replacement_routine", "src/qrisp/algorithms/qiro/qiroproblems/qiroMaxSat.py: create_maxsat_replacement_routine", "src/qrisp/algorithms/qiro/qiroproblems/qiroMaxSetPack.py: transform_max_set_pack_to_mis", "src/qrisp/algorithms/qiro/qiroproblems/qiro_utils.py: find_max", "src/qrisp/algorithms/qiro/qiro_mixers.py: qiro_init_function, qiro_rx_mixer", "src/qrisp/algorithms/qiro/qiro_problem.py: QIROProblem"]}
{"id": "C94", "title": "Mixers made from a constraint oracle mix all allowed states and nothing else", "statement": "For a constraint oracle that applies its phase to the allowed states exactly, and the right number of allowed states, the mixer of constrained_mixer_gen leaves the amplitude of every forbidden state as it is, and multiplies the mean of the amplitudes of the allowed states with exp(i beta) while it keeps the deviations from the mean. So QAOA with this mixer and any diagonal phase operator never measures a forbidden state, and one layer connects every two allowed states unless exp(i beta) = 1. With any number of allowed states given, right or wrong, the mixer multiplies the state that the search prepares with exp(i beta) and leaves everything orthogonal to it alone. grover_mixer multiplies the mean of all amplitudes with exp(i beta), and the whole state with -1.", "quantifier": "all numbers of qubits, all constraints with at least one allowed state, all angles, all states, all numbers of layers", "why_tests_cant": "The documentation shows two start states on three qubits; the constraint has to hold for every superposition and angle.", "anchors": ["src/qrisp/algorithms/qaoa/mixers.py: constrained_mixer_gen, grover_mixer", "src/qrisp/algorithms/grover/grover_tools.py: grovers_alg, diffuser"]}
{"id": "C95", "title": "Iterative amplitude estimation: precision, confidence and effort", "statement": "Whatever is measured, IQAE ends, after at most n passes if pi <= 4 eps 3^n; a measurement with k > 0 amplification steps has (2 k + 1) 4 eps < pi; every measurement has at least one shot; and Hoeffding's bounds for the failure of the measurements, with the numbers of shots they get, add up to at most alpha. If every measured share of ones is within the tolerance that these bounds are for, the result is at most eps away from the probability of a one in the state that state_function prepares. In particular a multiple of the angle that fits in a quadrant always exists, so that the search for it never falls back on its first entry. The circuit with k amplification steps gives a one with probability sin^2((2 k + 1) arcsin(sqrt a)).", "quantifier": "all probabilities, all precisions eps up to 1/2 and confidences alpha, all sequences of measured shares, all circuits of state_function", "why_tests_cant": "The result depends on a long random sequence of measurements; tests compare one estimate with a tolerance and cannot distinguish a rare wrong branch from bad luck.", "anchors": ["src/qrisp/alg_primitives/iterative_qae.py: IQAE, quantum_step, compute_thetas, compute_Li", "src/qrisp/alg_primitives/amplitude_amplification.py: amplitude_amplification"]}
{"id": "C96", "title": "Chebyshev series and the unary state of the CKS solver", "statement": "cheb2poly returns the coefficients of the polynomial that has the same value as the given Chebyshev series at every point; poly2cheb solves a system with exactly one solution, which is the series with the values of the given polynomial, and the two conversions are inverse to each other. Rescaling a polynomial or series p with alpha gives the function p(z/alpha), as the documentation of the helper says (it gives p(alpha z)). chebyshev_approx returns the beginning of an interpolation of degree 16 * 2^k <= max_N that differs from the whole interpolation by at most eps on [-1, 1]; without a warning the tail of that interpolation is below eps, and with a warning no degree tried has such a tail. unary_prep turns the zero state into the superposition of the states 10..0, 110..0, ..., 11..1 with amplitudes sqrt(c_k / sum c), and nothing else.", "quantifier": "all lists of coefficients of all lengths, all points, all functions (as arbitrary interpolations), precisions and maximal degrees; all lists of two or more positive coefficients", "why_tests_cant": "Tests convert a few short series and compare numbers; the recurrence, the cut and the recursion of the angles must be right for every length and every list of coefficients.", "anchors": ["src/qrisp/algorithms/gqsp/helper_functions.py: poly2cheb, cheb2poly, _rescale_poly, chebyshev_approx", "src/qrisp/algorithms/cks.py: _unary_angles, unary_prep"]}
{"id": "C97", "title": "Coefficients of the CKS linear solver approximate 1/x", "statement": "The series with odd orders and alternating signs that is made of the coefficients of cks_coeffs(j0, b) is (1 - (1 - x^2)^b) / x if j0 >= b - 1; a shorter one differs from it on [-1, 1] by at most the sum of the coefficients left out. With the b of cks_params it is, for 1/kappa <= |x| <= 1, within eps exp(1/kappa^2) of 1/x, apart from the coefficients left out. All coefficients are positive, as the documentation says (those from the index b on are 0).", "quantifier": "all parameters b and j0, all condition numbers, precisions and points", "why_tests_cant": "Tests solve a few small systems with a loose tolerance; the identity between binomial sums and the inverse must hold for every degree and point.", "anchors": ["src/qrisp/algorithms/cks.py: cks_params, cks_coeffs"]}
