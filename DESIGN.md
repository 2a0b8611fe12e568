# Design

Formal model of parts of eclipse-qrisp/Qrisp (pinned commit in `/repo`) in Rocq/Coq 8.16.1, with machine-checked proofs of the
properties in `properties.jsonl`. `MANIFEST.json` gives the status of every property and the names of its theorems,
`seeded/LOG.jsonl` the wrong programs the theorems were tested against.

## Layout

* `rocq/theories/<Area>/*Model*.v`: executable Gallina model, one definition per modelled function, each with a comment naming the
  file and lines in `/repo/src/qrisp` and every simplification made.
* `rocq/theories/<Area>/*Spec*.v`: small specification vocabulary that does not depend on the algorithm.
* `rocq/theories/<Area>/*Proofs*.v` and the other files: lemmas.
* `rocq/theories/<Area>/*Properties.v`: only the property theorems, with examples that meet their hypotheses and
  `Print Assumptions`. A theorem `Cxx_..._refuted` states that the modelled code violates the property, with the input in its
  proof; `Cxx_..._partial` has hypotheses that the property does not have, named in the comment above it.
* `rocq/theories/Lib/`: shared semantics (basis states with phases, amplitudes, traces, Clifford+T).

## Trusted base

* Coq's kernel (8.16.1) including `vm_compute` conversions.
* Axioms: none, except for the theorems that speak about real or complex numbers (C71_nearest, some of C74, C75; list at the end)
  and the examples that show that the complex numbers satisfy the hypotheses of the theorems on amplitudes (for instance
  `numbers_exist` in CtrlOps/CtrlProperties.v). These use the standard library's real numbers and so its
  axioms `ClassicalDedekindReals.sig_forall_dec`, `ClassicalDedekindReals.sig_not_dec` and
  `FunctionalExtensionality.functional_extensionality_dep`; C71_nearest and C74_angle also `Classical_Prop.classic` (through the
  standard library's lemmas on arcsine and monotonicity). Checking the compiled files with `coqchk` also lists what the
  standard library modules that are loaded declare, used or not: `Coq.Logic.Classical_Prop.classic`, the opaque fields of
  `Coq.Reals.Rdefinitions` (`RbaseSymbolsImpl.*`, `RinvImpl.*`: sealed definitions of the real numbers) and of
  `Coq.ssr.ssrunder.Under_rel` (loaded with Lia).
* The reading of the Python source and of its libraries: nothing in this repository executes the Python code. What numpy, JAX,
  networkx, sympy and Python's containers do is written into the model, as the comments in the model files say.

## Modelling conventions

* Python `int` = `Z` (unbounded). JAX/numpy fixed-width integers: the wrap (`mod 2^32`, `mod 2^64`) is written into the model
  wherever the code computes in that type.
* Floats: exact rationals, unless the file models float64 rounding (labels of QuantumFloats).
* Exceptions are values (`option`/`result` types); a function that raises returns the error value.
* `for` loops are folds or structural recursion over the loop counter; `while` loops take explicit fuel and return an explicit
  out-of-fuel value, and the theorems state a fuel that suffices.
* Circuits of X, CX, CCX, MCX, SWAP are modelled by their action on computational basis states, with a phase where gates have one.
  Every such gate maps a basis state to a phase times a basis state, so this determines the operator.
* Measurement-based uncomputation: the outcome is a universally quantified input, and the sign it leaves is tracked.
* Circuits of general gates: amplitudes over an arbitrary commutative ring with the laws of exp, cos, sin that are needed.
* Compiler passes: circuits are instruction lists; the semantics is amplitudes over a ring, or an arbitrary action of instructions
  constrained by commutation on disjoint wires.
* Random choices, orderings of hash sets, measurement outcomes and backend answers are universally quantified inputs.

## Properties: what is modelled and how it is proved

| id | property | modelled | proof |
|----|----|----|----|
| C01 | BigInteger addition and subtraction are exact modulo 2^(32n) | BigInt: `BigInteger` as list of 32-bit limbs, loops as folds with explicit 2^32/2^64 wrap | value function as specification; induction over the limbs with carry invariants |
| C02 | BigInteger multiplication is exact modulo 2^(32n) | BigInt: `BigInteger` as list of 32-bit limbs, loops as folds with explicit 2^32/2^64 wrap | value function as specification; induction over the limbs with carry invariants |
| C03 | BigInteger comparisons are the order of the denoted integers | BigInt: `BigInteger` as list of 32-bit limbs, loops as folds with explicit 2^32/2^64 wrap | value function as specification; induction over the limbs with carry invariants |
| C04 | BigInteger shifts are multiplication and floor division by a power of two | BigInt: `BigInteger` as list of 32-bit limbs, loops as folds with explicit 2^32/2^64 wrap | value function as specification; induction over the limbs with carry invariants |
| C05 | BigInteger bit operations act on the binary expansion | BigInt: `BigInteger` as list of 32-bit limbs, loops as folds with explicit 2^32/2^64 wrap | value function as specification; induction over the limbs with carry invariants |
| C06 | BigInteger creation is exact modulo 2^(32n) | BigInt: `BigInteger` as list of 32-bit limbs, loops as folds with explicit 2^32/2^64 wrap | value function as specification; induction over the limbs with carry invariants |
| C07 | BigInteger division by a one-limb divisor is Euclidean division; division by zero yields (0, 0) | BigInt: one-limb long division | invariant: remainder below the divisor, quotient digits so far |
| C08 | BigInteger multi-limb division is Euclidean division | BigInt: Knuth division with trial quotient, correction loop and add-back as written | invariant per quotient digit; refutation by computation |
| C09 | BigInteger power is exact modulo 2^(32n) | BigInt: `BigInteger` as list of 32-bit limbs, loops as folds with explicit 2^32/2^64 wrap | value function as specification; induction over the limbs with carry invariants |
| C10 | Modular inverse on BigIntegers and ints | ModTools (ints), BigMod (BigIntegers): extended Euclid with fuel | Bezout invariant, bounds on the cofactors; BigInteger version refines the integer version where division is exact |
| C11 | Montgomery encoding and decoding are inverse to each other | ModTools, BigMod: encoders, decoders, reduction | number theory over Z (inverse of 2^k modulo odd N) |
| C12 | Classical Montgomery reduction returns the reduced residue | ModTools, BigMod: encoders, decoders, reduction | number theory over Z (inverse of 2^k modulo odd N) |
| C13 | Continued-fraction convergents approximate and stay in lowest terms | ContFrac: convergents by the Euclid loop on BigIntegers | recurrence p_k q_(k-1) - p_(k-1) q_k = +-1 as invariant |
| C14 | Cuccaro adder adds in place on every basis state | Adders: gate lists generated by recursion on the register size; temporary ANDs with measured uncomputation | induction over the ripple; phases as signs over all measurement outcomes |
| C15 | Gidney adders add a quantum or classical number in place | Adders: gate lists generated by recursion on the register size; temporary ANDs with measured uncomputation | induction over the ripple; phases as signs over all measurement outcomes |
| C16 | Incrementation circuits add one | Incr: the conditionally clean increment and its ladders, and lin_incr | gate lists run on basis states; induction over the ladders; value of the register modulo 2^n |
| C17 | Unsigned register comparison is exact | Compare: comparison circuits on the adders' carry; equality by alignment of the two floats | carry of the adder specification; case analysis on shapes |
| C18 | QuantumFloat labels round-trip and out-of-range values are rejected | QFloat: encoder/decoder with float64 rounding of the mantissa | rationals scaled by powers of two, round-to-nearest-even as a function on Z |
| C19 | QuantumFloat.truncate returns a nearest representable value | QFloat: encoder/decoder with float64 rounding of the mantissa | rationals scaled by powers of two, round-to-nearest-even as a function on Z |
| C20 | Result QuantumFloats are large enough for the exact result | QFloat: sizes of result floats, semi-boolean polynomials of +, -, *, **2 | interval bounds of the results; the polynomial evaluates to the product modulo 2^size |
| C21 | Batched execution hands each caller its own result | Interface: queue and lazy results as state machine with arbitrary histories | invariants over histories |
| C22 | Backend failure reaches every pending result and leaves the queue empty | Interface: queue and lazy results as state machine with arbitrary histories | invariants over histories |
| C23 | Lazy measurement results are stable | Interface: queue and lazy results as state machine with arbitrary histories | invariants over histories |
| C24 | Decoding measurement counts preserves total probability | Interface: dictionaries as association lists, rational counts | induction over entries |
| C25 | Pauli-term multiplication is operator multiplication | Operators: terms as finite maps; 2x2 matrices over Gaussian integers | finite table check, lifted by induction over qubits |
| C26 | commute and commute_qw decide operator commutation | Operators: terms as finite maps; 2x2 matrices over Gaussian integers | finite table check, lifted by induction over qubits |
| C27 | Grouping partitions the terms into pairwise compatible groups | Operators: colouring algorithms as loops over arbitrary graphs | invariants: partition and no edge within a class |
| C28 | Adjoint of an operator term is the conjugate transpose | Operators: terms as finite maps; 2x2 matrices over Gaussian integers | finite table check, lifted by induction over qubits |
| C29 | Jordan-Wigner images satisfy the canonical anticommutation relations | Operators: ladder products acting on occupation numbers with sign; operators as sums with rational coefficients | anticommutation by induction over modes; refutations by computation |
| C30 | Sorting a fermionic term preserves the operator | Operators: ladder products acting on occupation numbers with sign; operators as sums with rational coefficients | anticommutation by induction over modes; refutations by computation |
| C31 | GF(2) elimination preserves the row space and inverts invertible matrices | Commuting: elimination loops on lists of bool rows | invariants of row operations |
| C32 | Circuit inversion undoes the circuit | Inverse: operations as inductive type (U3, Pauli, controlled, phase-tolerant, composite, opaque), inversion as recursion | amplitudes over a ring; induction over operations |
| C33 | Broadcasting in append applies the gate to corresponding qubits | Append: qubits as objects with identity and name; resolution, duplicate check and broadcast | case analysis and induction over the arguments |
| C34 | Swap-resolving compiler passes preserve the circuit up to the reported permutation | Passes: swap passes as folds with the permutation as state | amplitudes over a ring relabelled by the permutation |
| C35 | Zero-control cancellation preserves the action on the zero state | Passes: set of touched qubits as state | invariant: untouched qubits are 0 |
| C36 | Fusing adjacent gates preserves the circuit's action | Passes: elimination round over any topological order, identity tables of the file | every table entry checked over F17 or generically; trace equivalence |
| C37 | Compilation reorderings are dependency-preserving permutations | Toposort: dense ancestor bit sets, sorts with arbitrary choice functions, word packing | invariant: the emitted prefix is closed under predecessors |
| C38 | Simulator reordering preserves dependencies | SimReorder: causal graph and reordering | the order is a topological sort of a graph containing the conflicts |
| C39 | Multi-controlled X flips the target exactly when all controls match | Mcx: balauca layers and trees generated recursively | gate actions from Clifford+T circuits; induction on the number of controls |
| C40 | Conditionally-clean multi-controlled X (one ancilla) is correct | Mcx: ladders of conditionally clean ancillas | induction over the ladder; the four-control case by computation |
| C41 | cyclic_shift and permute_iterable realise the requested permutation | Iterables: swap networks on a memory of entries | permutation algebra; induction over bits of the index |
| C42 | demux routes the input to the indexed slot and quantum indexing reads it | Iterables: swap networks on a memory of entries | permutation algebra; induction over bits of the index |
| C43 | RSA helpers round-trip | Shor: number theory, bit strings, numpy overflow | Fermat from the standard library; list induction |
| C44 | Factors returned by shors_alg are proper divisors | Shor: number theory, bit strings, numpy overflow | Fermat from the standard library; list induction |
| C45 | Jlist behaves like a bounded list | Jlist: array and counter with JAX out-of-bounds semantics | refinement to lists |
| C46 | Controlled gates with an arbitrary control state act only on that control state | CtrlOps: definition circuits of controlled operations on top of the Gray synthesis model | amplitudes over a ring; block form (matrix on the target depending on the controls) |
| C47 | Packing qubit sets into 64-bit words is faithful | Toposort: dense ancestor bit sets, sorts with arbitrary choice functions, word packing | invariant: the emitted prefix is closed under predecessors |
| C48 | Permuting detectors keeps their meaning | Detectors: permutation of detector lines with coordinates and shifts | invariant over the instruction list |
| C49 | Bit-permutation of simulator indices is a permutation of binary digits | Axes: interval merging and shifts | digits of the result, bit by bit |
| C50 | Classical cost functions equal the combinatorial objective | Costs: cost functions on bit strings; cost operators as diagonal phases | fold over clauses/edges; phase polynomials over Q |
| C51 | smallest_power_of_two is the smallest exponent reaching its argument | ModTools: both overloads | power-of-two bounds |
| C52 | Fixed Clifford+T Toffoli circuits implement the gate they stand for | Synth: circuits as Clifford+T lists over any commutative ring; dirty-ancilla ladders | columns computed symbolically; induction for yong_mcx |
| C53 | Dirty-ancilla multi-controlled X is exact for any number of controls | Synth: circuits as Clifford+T lists over any commutative ring; dirty-ancilla ladders | columns computed symbolically; induction for yong_mcx |
| C54 | Equality of QuantumFloats compares the represented numbers | Compare: comparison circuits on the adders' carry; equality by alignment of the two floats | carry of the adder specification; case analysis on shapes |
| C55 | Qubit operator arithmetic and matrix conversion denote the same operator | Operators: sums of terms with coefficients; sparse matrices as entry functions | matrix entries as products over qubits |
| C56 | Fermionic arithmetic and its Jordan-Wigner image | Operators: ladder products acting on occupation numbers with sign; operators as sums with rational coefficients | anticommutation by induction over modes; refutations by computation |
| C57 | Equality of fermionic operators is equality of the denoted operators | Operators: ladder products acting on occupation numbers with sign; operators as sums with rational coefficients | anticommutation by induction over modes; refutations by computation |
| C58 | change_of_basis(method="commuting") diagonalises commuting Pauli terms | Commuting: change of basis by GF(2) elimination, sign bookkeeping | action of CZ/S/H on Pauli terms with sign |
| C59 | parallelize_qc preserves the circuit's action | PermDag: DAG with permeability groups, both sorts, allocation delay | trace equivalence: every reordering permutes commuting instructions |
| C60 | optimize_allocations preserves the circuit's action | PermDag: DAG with permeability groups, both sorts, allocation delay | trace equivalence: every reordering permutes commuting instructions |
| C61 | Permeability answers are true of the unitary | PermDag: type checker on nested definitions | induction over definitions, amplitudes over a ring |
| C62 | QAOA cost operators multiply each basis state by a phase affine in its objective | Costs: cost functions on bit strings; cost operators as diagonal phases | fold over clauses/edges; phase polynomials over Q |
| C63 | Multi-controlled phase gates apply the phase to exactly the matching states | Mcx: mcp in its traced, balauca and khattar versions | as C39, C40 |
| C64 | Phase synthesis from a list or function gives every state its phase | Gray: phases, Walsh coefficients and traversal of the Gray code | invariant: accumulated parity of each qubit; sum over subsets |
| C65 | The quantum Fourier transform is the discrete Fourier transform | Fourier: the loop with accumulated phases, flags, traced version | induction over the qubits with amplitudes over a ring; orthogonality of characters for the inverse |
| C66 | The Fourier adder adds modulo 2^n | Fourier: phases for integers and registers between the transforms | the phases are a character of the register; shift theorem of the transform |
| C67 | Quantum arithmetic circuits compute the exact result | Sbp: the circuits of the polynomial encoder between Fourier transforms, operators of QuantumFloat | each monomial circuit is diagonal with a character of the output; shift theorem; numbers from C20 |
| C68 | In-place multiplication and quantum bit shifts | Inplace/InplModel.v: QFT_inpl_mult, inpl_mult (splitting of the factor, extension of the register, sign extension), quantum_bit_shift by numbers and by unsigned QuantumFloats; cyclic_shift from Iterables/IterModel.v | Amplitude semantics over any commutative ring with exp(i pi a). The multiplication circuit by induction on the register: the phases of a row add up to the carry of the product, two Hadamards make a bit out of it. Swap circuits act on basis states as the swap lists of C41; two's complement arithmetic of mantissas. |
| C69 | Phase polynomials | PhasePoly: app_sb_phase_polynomial, app_phase_polynomial with substitution and expansion | each monomial circuit is diagonal; the expanded polynomial has the value of the original one at the numbers of the registers |
| C70 | Multiplication in the Fourier domain writes the exact product without phases | hybrid_mult, U_g_inpl_adder, q_mult: every gate of the circuit, over states with amplitudes in any commutative ring | The core moves a basis state through a chain of flipped registers and multiplies it by a phase (invariant of the loop over the mantissa of y); summed up it is the character of the product, independent of the extra qubit, so the two H gates around it cancel; the transforms before and after turn the character into an addition. Refuted: accumulation without phase_tolerant, the target of q_mult |
| C71 | Phase estimation finds the phase | Qpe/QpeModel.v: QPE with control of every gate of U, repeated or with iter, inverse QFT of Fourier/ | A circuit off the target commutes with anything on it (linearity), so every controlled block multiplies the branch j with exp(i j_i 2^i theta); then the transform of a character. The bound: the sum of 2^n phases is a product of cosines, each decreasing, compared with the telescoping product at the extreme angle |
| C72 | Iterative phase estimation returns the phase | Qpe/QpeModel.v: one iteration of IQPE, feedback, measurement as a relation on states; runs as an inductive predicate | Induction over the iterations: the i-th outcome is certain and is a bit of k; the low bits collected so far cancel in the feedback rotation. Refuted: the result is the phase |
| C73 | Reflections | Amplify/AmpModel.v: reflection with arguments, index list, the two inner circuits, conjugation by the inverse preparation, the sign on the first entry | Circuits are isometries for the inner product; the inner circuit is 1 - (1 - e^{i phase}) times the projector on 0; conjugation turns it into the projector on the prepared state, branch by branch of the other qubits. Refuted: sign for arrays with elements of even size |
| C74 | Amplitude amplification rotates | Amplify/AmpModel.v: amplitude_amplification, iterations repeated | good and bad are orthogonal because the oracle is an isometry; one iteration is a 2x2 matrix in good and bad; induction with the addition theorems |
| C75 | Amplitude estimation finds the share of the good states | Amplify/AmpModel.v: QAE as preparation and QPE with iter_spec | the prepared state is the sum of two eigenstates of an iteration, with phases 2 theta and -2 theta (one, if the share is 0 or 1); C71_superposition. Refuted: arrays with elements of even size shift both phases by pi |
| C76 | Nested quantum environments compile to what the program means | Envs/EnvModel.v: programs as trees of environments, their compilation with truth-value qubits, retargeting, custom control of conjugations, inversion of compiled circuits | The compiled circuit of every item is shown, by induction over programs, to act as the meaning on states that satisfy the condition around and as the identity on states that do not (also with the inner evaluation of conditions removed); a truth-value bracket splits the state into two parts; Mcx phases cancel because the content does not write the qubits they depend on. Five refutations for the excluded combinations |
| C77 | Tagging states and Grover's algorithm | Grover/GroverModel.v: tag_state (bit strings, mcz, mcp), diffuser as reflection, grovers_alg with a given number of iterations; default and exact number of iterations and phase as real formulas | bits of the tag against the values of the registers; the uniform superposition splits into winners and losers with share M / 2^m, then the rotation of C74 (with the sign of arrays); sin x >= x - x^3/6 bounds the default; the exact algorithm by a two-term recurrence for the amplitude of losers (Cayley-Hamilton), whose solution is cos((2j+1) beta) / cos beta |
| C78 | A quantum switch applies exactly the branch the index register says | quantum_switch.py _q_switch_q, tree and sequential methods, function and list mode (the list is changed by the call), custom control and inversion, as circuits (Switch/SwitchModel.v) | invariant over the walk: the ancillas are the conjunctions of the index bits along the current path; transition lemmas for up, down, right, bounce; induction over the leaves with the carry of pos + 1 as bit lists; refutation for the reused list |
| C79 | A linear combination of unitaries acts as the weighted sum | inner_LCU outside tracing, for state_prep and unitaries given by the circuits they add: the case indicator of ceil(log2 m) qubits, the conjugated tree switch, and oblivious amplitude amplification about the case indicator (Lcu/LcuModel.v). The measurement and the repetition in LCU are not modelled: the theorems give the amplitudes before the measurement | the state that is prepared splits into a factor for the case indicator and the operand; the adjoint turns the inverse preparation into inner products, summed over the values of the case indicator; amplification: the projection of A* Pi A psi on the case indicator is sin^2(theta) psi because the sum is a multiple of an isometry, then induction over the iterations as for C74. One unitary: refuted, the call fails |
| C80 | Modular sums and differences are exact, whatever the Montgomery shift | mod_adder, montgomery_addition, the operators of QuantumModulus, q_montgomery_reduction, cq_montgomery_multiply (in place too), qq_montgomery_multiply as lists of steps on basis states: addition of a number or a register modulo 2^size, swap, CNOT, NOT, each with controls (Modular/ModModel.v). The adder is a step, not a circuit (C14, C15, C66 are about the circuits). Integers of any size instead of BigIntegers; the float computation 2.0 ** m of the encoder as exact. The static product is C83/C84. Not modelled: modular exponentiation | a register seen as one number under an arbitrary embedding of positions (ViewProofs); invariants of the reduction: after j steps the low j bits are determined by t modulo 2^j; the product of the inverse of N uncomputes them; bounds for the sum of shifted factors by the two halves of the register for C81_mul; witnesses found by search in a port of the model |
| C81 | Products of a QuantumModulus with an integer are exact | mod_adder, montgomery_addition, the operators of QuantumModulus, q_montgomery_reduction, cq_montgomery_multiply (in place too), qq_montgomery_multiply as lists of steps on basis states: addition of a number or a register modulo 2^size, swap, CNOT, NOT, each with controls (Modular/ModModel.v). The adder is a step, not a circuit (C14, C15, C66 are about the circuits). Integers of any size instead of BigIntegers; the float computation 2.0 ** m of the encoder as exact. The static product is C83/C84. Not modelled: modular exponentiation | a register seen as one number under an arbitrary embedding of positions (ViewProofs); invariants of the reduction: after j steps the low j bits are determined by t modulo 2^j; the product of the inverse of N uncomputes them; bounds for the sum of shifted factors by the two halves of the register for C81_mul; witnesses found by search in a port of the model |
| C82 | Products of two QuantumModulus while tracing are exact | mod_adder, montgomery_addition, the operators of QuantumModulus, q_montgomery_reduction, cq_montgomery_multiply (in place too), qq_montgomery_multiply as lists of steps on basis states: addition of a number or a register modulo 2^size, swap, CNOT, NOT, each with controls (Modular/ModModel.v). The adder is a step, not a circuit (C14, C15, C66 are about the circuits). Integers of any size instead of BigIntegers; the float computation 2.0 ** m of the encoder as exact. The static product is C83/C84. Not modelled: modular exponentiation | a register seen as one number under an arbitrary embedding of positions (ViewProofs); invariants of the reduction: after j steps the low j bits are determined by t modulo 2^j; the product of the inverse of N uncomputes them; bounds for the sum of shifted factors by the two halves of the register for C81_mul; witnesses found by search in a port of the model |
| C83 | Products of two registers outside tracing are exact | q_int_mult, inpl_q_int_mult, QREDC, montgomery_red, montgomery_mod_mul, montgomery_mod_semi_mul, semi_cl_inpl_mult as lists of steps on basis states, as in C80 (Modular/StaticModel.v) | ripple multiplication: invariant over the rounds (the target is flipped by the current bit of the first factor). Reduction: u and S after m steps satisfy 2^m S + u N = t; the u register is a multiple of the product modulo 2^(m+1) and is uncomputed. Controlled in place: a 0 factor leaves the output alone |
| C84 | Montgomery products with a number outside tracing are exact | q_int_mult, inpl_q_int_mult, QREDC, montgomery_red, montgomery_mod_mul, montgomery_mod_semi_mul, semi_cl_inpl_mult as lists of steps on basis states, as in C80 (Modular/StaticModel.v) | ripple multiplication: invariant over the rounds (the target is flipped by the current bit of the first factor). Reduction: u and S after m steps satisfy 2^m S + u N = t; the u register is a multiple of the product modulo 2^(m+1) and is uncomputed. Controlled in place: a 0 factor leaves the output alone |
| C85 | Comparing QuantumFloats compares the numbers they stand for | less_than_gate with its loops (fuel), the extension and removal of qubits bit by bit, in-place subtraction through the polynomial encoder of QFloat/ (C67 verifies its circuit), label search, mirrored comparison with float64 rounding; Order/ | normal form of the extended register, exactness of the difference, two induction proofs for extension and removal |
| C86 | In-place ripple-carry addition adds | TR_gate (exact Clifford+T amplitudes), thapliyal_procedure as a circuit of CNOT, Toffoli and TR, inpl_add with its windows and sign extension, q_int_div and q_divmod with the default adder on bit lists (Division/). q_div: the multiplication of C70 with init_op qft, the adder in the Fourier domain and Hadamard gates as a circuit on amplitudes; qf_inversion, / and // with their checks. log_output and other adders are not modelled | the adder by induction over its loops with the carries as invariant; registers as two's complement numbers modulo 2^size for inpl_add; non-restoring division: invariant 2 r = n - (2 q + ...) d with |r| bounded by the shifted divisor, final correction; the sign of the divisor by case. q_div: the phases of product, numerator and remainder cancel, what is left is a uniform superposition |
| C87 | Division yields quotient and remainder with the requested precision | TR_gate (exact Clifford+T amplitudes), thapliyal_procedure as a circuit of CNOT, Toffoli and TR, inpl_add with its windows and sign extension, q_int_div and q_divmod with the default adder on bit lists (Division/). q_div: the multiplication of C70 with init_op qft, the adder in the Fourier domain and Hadamard gates as a circuit on amplitudes; qf_inversion, / and // with their checks. log_output and other adders are not modelled | the adder by induction over its loops with the carries as invariant; registers as two's complement numbers modulo 2^size for inpl_add; non-restoring division: invariant 2 r = n - (2 q + ...) d with |r| bounded by the shifted divisor, final correction; the sign of the divisor by case. q_div: the phases of product, numerator and remainder cancel, what is left is a uniform superposition |
| C88 | Traced arithmetic of QuantumFloats and powers | Traced/TracedModel.v: traced +=, -=, +, - of QuantumFloats and numbers, jasp_multiplyer, jasp_squaring, jasp_controlling_multiplyer, ** on basis states; the adder is a step that adds modulo 2^n | the registers are words of integers; slices are shifts, complementing is -1 - V; invariant of the multiplier: the register holds y (2^n - 2^(i-1) + x mod 2^i) or its complement |
| C89 | State preparation produces the requested amplitudes | StatePrep/PrepModel.v: prepare with the binary tree of angles, bit_reverse on 64-bit words and swap_endianness, unbalanced_w_state, dicke_state and the XX+YY gate as circuits of U3 gates with real angles on complex amplitudes | the tree by induction over the path of a basis state: the product of the factors times the phase of a node is the sub-vector at the node; bit reversal bit by bit (each stage is an exclusive or on positions); W state: invariant of the chain with the rest of the norm on the next qubit; XX+YY by a change of basis to RY; Dicke: invariant of each split and cyclic shift on the two shapes of basis states, with Pascal's absorption identities |
| C90 | The mixers of QAOA keep the constraints | Mixers/MixModel.v: XY_mixer, apply_XY_mixer, controlled_RX_mixer_gen with the predicates of the independent set and set cover problems, portfolio_mixer, RZ_mixer, the colouring operator and the layers of QAOA as circuits on complex amplitudes | support preservation: each gate mixes a basis state only with feasible ones if it is feasible and with infeasible ones otherwise (exchange of two qubits, flip of one bit under the predicate); predicates are classical reversible circuits, evaluated by induction; reachability by induction over the nodes |
| C91 | Truth tables and quantum dictionaries load the right values | Lookup/LookModel.v: synth_poly as lists of monomials, pprm, gray_logic_synth with residual phases on top of the Gray synthesis of C64, q_synth, and QuantumDictionary.load from decoders, encoders and the dictionary to the circuit; circuits of X, controlled X, H and phase gates on complex amplitudes | polynomials: the sum of the minterms evaluates to the cell, equal monomials cancel in pairs; Gray: circuits of CNOTs and phases act by a phase, conjugation by H turns the phase difference into a controlled flip, and the sum of the two phases is constant, which gives the phase of the tolerant circuits; dictionaries: invariant of the loop over the keys, numbering of tuples of keys is injective |
| C92 | Portfolio rebalancing keeps the number of lots and optimises the documented objective | Portfolio/PortModel.v: the cost operator gate by gate, the classical cost function on measurement results, the initial state and the layers of QAOA, with two registers of n qubits | the operator: circuits of CNOTs and RZ gates act by a phase, and the phases add up to a sum over pairs of assets; the lots: the support of the state is followed through X, RY, controlled RY and CNOT gates (invariants on the two registers) and kept by the mixer (C90) and by diagonal gates; band 0: the amplitude of one portfolio through the circuit |
| C93 | QIRO decisions: feasible results whatever was measured, and where reductions lose the optimum | Qiro/QiroModel.v: find_max on results with integer counts, the replacement routines of independent sets, cliques and satisfiability, the conflict graph of set packing, the reduced cost operators, mixers and initial states (not the cost operator of satisfiability), recursions with arbitrary results | find_max: invariant of the search; recursions: the reduced graph is the given one restricted to the nodes that are not excluded, no neighbour of an accepted node is left; circuits: supports as in C90, with the predicates of the reduced graph; satisfiability: the literals that are replaced or removed have known values |
| C94 | Mixers made from a constraint oracle mix all allowed states and nothing else | Constrained/ConsModel.v: the preparation by exact search, its inverse, the phase of the zero state and the inverse of the inverse as lists of steps (Hadamard gates as a circuit; oracle, diffuser and mcp as steps with real phases); grover_mixer as the circuit of C73 | every step preserves inner products and is undone by its inverse (induction over the steps), so the mixer is a reflection with angle beta at the prepared state; with the right number of winners that is the uniform state on the allowed states (C77) |
| C95 | Iterative amplitude estimation: precision, confidence and effort | Estimate/EstModel.v: the constants, compute_thetas, compute_Li, the loop with arbitrary measured shares and the record of the measurements (amplification steps, shots), in real arithmetic; Estimate/EstCircuit.v: the circuits that are measured, on the model of C74 | the angle stays in the quadrant m of its K-fold (invariant); a fitting multiple exists because every interval that contains multiples of pi/6, pi/10 and pi/14 inside is too wide (minimal polynomials of cos(pi/5), cos(pi/7)); K grows by at least 3 and K times the width of the interval is at most pi/2; geometric sums for the confidence; the square of the sine is Lipschitz; C74 for the circuits |
| C96 | Chebyshev series and the unary state of the CKS solver | Cheb/ChebModel.v: the matrix of the recurrence, cheb2poly, the system that poly2cheb solves (any solution), the rescaling, the search for the degree and the cut of chebyshev_approx (the interpolation itself is arbitrary), the angles and the circuit of the unary state | the rows of the matrix are the Chebyshev polynomials (invariant of the recurrence, T_n(cos t) = cos(n t) validates the specification); existence of a solution by multiplication with x in the Chebyshev basis, uniqueness by leading coefficients and because a polynomial that is 0 on an interval has no coefficient but 0; |T_n| <= 1 bounds what is cut; the circuit: invariant over the rotations with the sums of the remaining coefficients |

## What is not modelled

* The jaxpr-level machinery (tracing, Jasp interpreters, Catalyst and MLIR back ends), the simulator's tensor arithmetic, network
  clients, visualisation, and the variational optimisers.
* Functions whose results are numerical approximations (state preparation, Hamiltonian simulation errors, block encodings).
* Symbolic parameters (sympy) of gates: parameters are numbers.
* Numerical tolerances: tests such as "is close to 0" are exact tests in the models that contain them.
* Object identity and hashing of Python objects, except where C33 needs it.
* Within the modelled files: what the comments of the model files name as left out.

## Print Assumptions

Output of `Print Assumptions` for every property theorem (each is also printed in its file during the build).
* `C74_rotation`: ClassicalDedekindReals.sig_forall_dec, ClassicalDedekindReals.sig_not_dec, FunctionalExtensionality.functional_extensionality_dep
* `C74_angle`: ClassicalDedekindReals.sig_forall_dec, ClassicalDedekindReals.sig_not_dec, Classical_Prop.classic, FunctionalExtensionality.functional_extensionality_dep
* `C74_probability`: ClassicalDedekindReals.sig_forall_dec, ClassicalDedekindReals.sig_not_dec, FunctionalExtensionality.functional_extensionality_dep
* `C75_exact`: ClassicalDedekindReals.sig_forall_dec, ClassicalDedekindReals.sig_not_dec, FunctionalExtensionality.functional_extensionality_dep
* `C75_array_refuted`: ClassicalDedekindReals.sig_forall_dec, ClassicalDedekindReals.sig_not_dec, FunctionalExtensionality.functional_extensionality_dep
* `C96_chebyshev`: ClassicalDedekindReals.sig_forall_dec, ClassicalDedekindReals.sig_not_dec, Classical_Prop.classic, FunctionalExtensionality.functional_extensionality_dep
* `C96_cheb2poly`: ClassicalDedekindReals.sig_forall_dec, FunctionalExtensionality.functional_extensionality_dep
* `C96_poly2cheb`: ClassicalDedekindReals.sig_forall_dec, FunctionalExtensionality.functional_extensionality_dep
* `C96_round_trip`: ClassicalDedekindReals.sig_forall_dec, FunctionalExtensionality.functional_extensionality_dep
* `C96_rescale`: ClassicalDedekindReals.sig_forall_dec, FunctionalExtensionality.functional_extensionality_dep
* `C96_rescale_series`: ClassicalDedekindReals.sig_forall_dec, FunctionalExtensionality.functional_extensionality_dep
* `C96_rescale_refuted`: ClassicalDedekindReals.sig_forall_dec, FunctionalExtensionality.functional_extensionality_dep
* `C96_approx`: ClassicalDedekindReals.sig_forall_dec, ClassicalDedekindReals.sig_not_dec, Classical_Prop.classic, FunctionalExtensionality.functional_extensionality_dep
* `C96_unary`: ClassicalDedekindReals.sig_forall_dec, ClassicalDedekindReals.sig_not_dec, Classical_Prop.classic, FunctionalExtensionality.functional_extensionality_dep
* `C94_defined`: ClassicalDedekindReals.sig_forall_dec
* `C94_any_amount`: ClassicalDedekindReals.sig_forall_dec, ClassicalDedekindReals.sig_not_dec, FunctionalExtensionality.functional_extensionality_dep
* `C94_mixer`: ClassicalDedekindReals.sig_forall_dec, ClassicalDedekindReals.sig_not_dec, Classical_Prop.classic, FunctionalExtensionality.functional_extensionality_dep
* `C94_keeps`: ClassicalDedekindReals.sig_forall_dec, ClassicalDedekindReals.sig_not_dec, Classical_Prop.classic, FunctionalExtensionality.functional_extensionality_dep
* `C94_reaches`: ClassicalDedekindReals.sig_forall_dec, ClassicalDedekindReals.sig_not_dec, Classical_Prop.classic, FunctionalExtensionality.functional_extensionality_dep
* `C94_grover_mixer`: ClassicalDedekindReals.sig_forall_dec, ClassicalDedekindReals.sig_not_dec, FunctionalExtensionality.functional_extensionality_dep
* `C95_estimate`: ClassicalDedekindReals.sig_forall_dec, ClassicalDedekindReals.sig_not_dec, Classical_Prop.classic, FunctionalExtensionality.functional_extensionality_dep
* `C95_terminates`: ClassicalDedekindReals.sig_forall_dec, ClassicalDedekindReals.sig_not_dec, Classical_Prop.classic, FunctionalExtensionality.functional_extensionality_dep
* `C95_result`: ClassicalDedekindReals.sig_forall_dec, ClassicalDedekindReals.sig_not_dec, Classical_Prop.classic, FunctionalExtensionality.functional_extensionality_dep
* `C95_confidence`: ClassicalDedekindReals.sig_forall_dec, ClassicalDedekindReals.sig_not_dec, Classical_Prop.classic, FunctionalExtensionality.functional_extensionality_dep
* `C95_shots`: ClassicalDedekindReals.sig_forall_dec, ClassicalDedekindReals.sig_not_dec, Classical_Prop.classic, FunctionalExtensionality.functional_extensionality_dep
* `C95_effort`: ClassicalDedekindReals.sig_forall_dec, ClassicalDedekindReals.sig_not_dec, Classical_Prop.classic, FunctionalExtensionality.functional_extensionality_dep
* `C95_amplified`: ClassicalDedekindReals.sig_forall_dec, ClassicalDedekindReals.sig_not_dec, Classical_Prop.classic, FunctionalExtensionality.functional_extensionality_dep
* `C95_circuits`: ClassicalDedekindReals.sig_forall_dec, ClassicalDedekindReals.sig_not_dec, Classical_Prop.classic, FunctionalExtensionality.functional_extensionality_dep
* `C77_amplitudes`: ClassicalDedekindReals.sig_forall_dec, ClassicalDedekindReals.sig_not_dec, FunctionalExtensionality.functional_extensionality_dep
* `C77_probability`: ClassicalDedekindReals.sig_forall_dec, ClassicalDedekindReals.sig_not_dec, FunctionalExtensionality.functional_extensionality_dep
* `C77_default_success`: ClassicalDedekindReals.sig_forall_dec, ClassicalDedekindReals.sig_not_dec, Classical_Prop.classic, FunctionalExtensionality.functional_extensionality_dep
* `C77_many_winners_refuted`: ClassicalDedekindReals.sig_forall_dec, ClassicalDedekindReals.sig_not_dec, Classical_Prop.classic, FunctionalExtensionality.functional_extensionality_dep
* `C77_circuit`: ClassicalDedekindReals.sig_forall_dec, ClassicalDedekindReals.sig_not_dec, FunctionalExtensionality.functional_extensionality_dep
* `C77_exact`: ClassicalDedekindReals.sig_forall_dec, ClassicalDedekindReals.sig_not_dec, Classical_Prop.classic, FunctionalExtensionality.functional_extensionality_dep
* `C77_search`: ClassicalDedekindReals.sig_forall_dec, ClassicalDedekindReals.sig_not_dec, Classical_Prop.classic, FunctionalExtensionality.functional_extensionality_dep
* `C79_lcu`: ClassicalDedekindReals.sig_forall_dec, ClassicalDedekindReals.sig_not_dec, FunctionalExtensionality.functional_extensionality_dep
* `C79_amplified`: ClassicalDedekindReals.sig_forall_dec, ClassicalDedekindReals.sig_not_dec, FunctionalExtensionality.functional_extensionality_dep
* `C79_exact`: ClassicalDedekindReals.sig_forall_dec, ClassicalDedekindReals.sig_not_dec, FunctionalExtensionality.functional_extensionality_dep
* `C91_pprm`: ClassicalDedekindReals.sig_forall_dec, ClassicalDedekindReals.sig_not_dec, FunctionalExtensionality.functional_extensionality_dep
* `C91_gray_pt`: ClassicalDedekindReals.sig_forall_dec, ClassicalDedekindReals.sig_not_dec, FunctionalExtensionality.functional_extensionality_dep
* `C91_gray_one`: ClassicalDedekindReals.sig_forall_dec, ClassicalDedekindReals.sig_not_dec, FunctionalExtensionality.functional_extensionality_dep
* `C91_gray_one_partial`: ClassicalDedekindReals.sig_forall_dec, ClassicalDedekindReals.sig_not_dec, FunctionalExtensionality.functional_extensionality_dep
* `C91_gray_and`: ClassicalDedekindReals.sig_forall_dec, ClassicalDedekindReals.sig_not_dec, FunctionalExtensionality.functional_extensionality_dep
* `C91_gray_partial`: ClassicalDedekindReals.sig_forall_dec, ClassicalDedekindReals.sig_not_dec, FunctionalExtensionality.functional_extensionality_dep
* `C91_gray_one_input`: ClassicalDedekindReals.sig_forall_dec, ClassicalDedekindReals.sig_not_dec, FunctionalExtensionality.functional_extensionality_dep
* `C91_gray_phases_refuted`: ClassicalDedekindReals.sig_forall_dec, ClassicalDedekindReals.sig_not_dec, FunctionalExtensionality.functional_extensionality_dep
* `C91_gray_parity_refuted`: ClassicalDedekindReals.sig_forall_dec, ClassicalDedekindReals.sig_not_dec, FunctionalExtensionality.functional_extensionality_dep
* `C91_dictionary`: ClassicalDedekindReals.sig_forall_dec, ClassicalDedekindReals.sig_not_dec, FunctionalExtensionality.functional_extensionality_dep
* `C91_dictionary_pt`: ClassicalDedekindReals.sig_forall_dec, ClassicalDedekindReals.sig_not_dec, FunctionalExtensionality.functional_extensionality_dep
* `C91_dictionary_gray_partial`: ClassicalDedekindReals.sig_forall_dec, ClassicalDedekindReals.sig_not_dec, FunctionalExtensionality.functional_extensionality_dep
* `C90_xy_weight`: ClassicalDedekindReals.sig_forall_dec, ClassicalDedekindReals.sig_not_dec, FunctionalExtensionality.functional_extensionality_dep
* `C90_xy_ring`: ClassicalDedekindReals.sig_forall_dec, ClassicalDedekindReals.sig_not_dec, FunctionalExtensionality.functional_extensionality_dep
* `C90_indep_mixer`: ClassicalDedekindReals.sig_forall_dec, ClassicalDedekindReals.sig_not_dec, FunctionalExtensionality.functional_extensionality_dep
* `C90_independent_sets`: ClassicalDedekindReals.sig_forall_dec, ClassicalDedekindReals.sig_not_dec, FunctionalExtensionality.functional_extensionality_dep
* `C90_independent_sets_reached`: ClassicalDedekindReals.sig_forall_dec, ClassicalDedekindReals.sig_not_dec, FunctionalExtensionality.functional_extensionality_dep
* `C90_cliques`: ClassicalDedekindReals.sig_forall_dec, ClassicalDedekindReals.sig_not_dec, FunctionalExtensionality.functional_extensionality_dep
* `C90_packings`: ClassicalDedekindReals.sig_forall_dec, ClassicalDedekindReals.sig_not_dec, FunctionalExtensionality.functional_extensionality_dep
* `C90_covers`: ClassicalDedekindReals.sig_forall_dec, ClassicalDedekindReals.sig_not_dec, FunctionalExtensionality.functional_extensionality_dep
* `C90_cover_mixer`: ClassicalDedekindReals.sig_forall_dec, ClassicalDedekindReals.sig_not_dec, FunctionalExtensionality.functional_extensionality_dep
* `C90_covers_refuted`: ClassicalDedekindReals.sig_forall_dec, ClassicalDedekindReals.sig_not_dec, FunctionalExtensionality.functional_extensionality_dep
* `C90_cover_cost`: ClassicalDedekindReals.sig_forall_dec, FunctionalExtensionality.functional_extensionality_dep
* `C90_cover_cost_refuted`: ClassicalDedekindReals.sig_forall_dec, FunctionalExtensionality.functional_extensionality_dep
* `C90_coloring`: ClassicalDedekindReals.sig_forall_dec, ClassicalDedekindReals.sig_not_dec, FunctionalExtensionality.functional_extensionality_dep
* `C90_coloring_start_refuted`: ClassicalDedekindReals.sig_forall_dec, ClassicalDedekindReals.sig_not_dec, FunctionalExtensionality.functional_extensionality_dep
* `C90_portfolio`: ClassicalDedekindReals.sig_forall_dec, ClassicalDedekindReals.sig_not_dec, Classical_Prop.classic, FunctionalExtensionality.functional_extensionality_dep
* `C92_lots`: ClassicalDedekindReals.sig_forall_dec, ClassicalDedekindReals.sig_not_dec, Classical_Prop.classic, FunctionalExtensionality.functional_extensionality_dep
* `C92_bands`: ClassicalDedekindReals.sig_forall_dec, ClassicalDedekindReals.sig_not_dec, Classical_Prop.classic, FunctionalExtensionality.functional_extensionality_dep
* `C92_bands_refuted`: ClassicalDedekindReals.sig_forall_dec, ClassicalDedekindReals.sig_not_dec, Classical_Prop.classic, FunctionalExtensionality.functional_extensionality_dep
* `C92_defined`: ClassicalDedekindReals.sig_forall_dec, ClassicalDedekindReals.sig_not_dec, Classical_Prop.classic, FunctionalExtensionality.functional_extensionality_dep
* `C92_zero_lots_refuted`: ClassicalDedekindReals.sig_forall_dec, ClassicalDedekindReals.sig_not_dec, Classical_Prop.classic, FunctionalExtensionality.functional_extensionality_dep
* `C92_band_0`: ClassicalDedekindReals.sig_forall_dec, ClassicalDedekindReals.sig_not_dec, Classical_Prop.classic, FunctionalExtensionality.functional_extensionality_dep
* `C92_weights_refuted`: ClassicalDedekindReals.sig_forall_dec, ClassicalDedekindReals.sig_not_dec, Classical_Prop.classic, FunctionalExtensionality.functional_extensionality_dep
* `C92_cost`: ClassicalDedekindReals.sig_forall_dec, FunctionalExtensionality.functional_extensionality_dep
* `C92_cost_partial`: ClassicalDedekindReals.sig_forall_dec, FunctionalExtensionality.functional_extensionality_dep
* `C92_cost_refuted`: ClassicalDedekindReals.sig_forall_dec, FunctionalExtensionality.functional_extensionality_dep
* `C92_old_refuted`: ClassicalDedekindReals.sig_forall_dec, FunctionalExtensionality.functional_extensionality_dep
* `C92_operator`: ClassicalDedekindReals.sig_forall_dec, ClassicalDedekindReals.sig_not_dec, FunctionalExtensionality.functional_extensionality_dep
* `C92_operator_partial`: ClassicalDedekindReals.sig_forall_dec, ClassicalDedekindReals.sig_not_dec, FunctionalExtensionality.functional_extensionality_dep
* `C92_operator_refuted`: ClassicalDedekindReals.sig_forall_dec, ClassicalDedekindReals.sig_not_dec, FunctionalExtensionality.functional_extensionality_dep
* `C92_trading_refuted`: ClassicalDedekindReals.sig_forall_dec, ClassicalDedekindReals.sig_not_dec, FunctionalExtensionality.functional_extensionality_dep
* `C93_independent`: ClassicalDedekindReals.sig_forall_dec, ClassicalDedekindReals.sig_not_dec, FunctionalExtensionality.functional_extensionality_dep
* `C93_optimum_refuted`: ClassicalDedekindReals.sig_forall_dec, ClassicalDedekindReals.sig_not_dec, FunctionalExtensionality.functional_extensionality_dep
* `C93_cost`: ClassicalDedekindReals.sig_forall_dec, ClassicalDedekindReals.sig_not_dec, FunctionalExtensionality.functional_extensionality_dep
* `C93_clique_fixed`: ClassicalDedekindReals.sig_forall_dec, ClassicalDedekindReals.sig_not_dec, FunctionalExtensionality.functional_extensionality_dep
* `C93_clique_partial`: ClassicalDedekindReals.sig_forall_dec, ClassicalDedekindReals.sig_not_dec, FunctionalExtensionality.functional_extensionality_dep
* `C93_clique_cost`: ClassicalDedekindReals.sig_forall_dec, ClassicalDedekindReals.sig_not_dec, FunctionalExtensionality.functional_extensionality_dep
* `C93_clique_again_refuted`: ClassicalDedekindReals.sig_forall_dec, ClassicalDedekindReals.sig_not_dec, FunctionalExtensionality.functional_extensionality_dep
* `C93_sat_refuted`: ClassicalDedekindReals.sig_forall_dec, ClassicalDedekindReals.sig_not_dec, FunctionalExtensionality.functional_extensionality_dep
* `C93_sat_again_refuted`: ClassicalDedekindReals.sig_forall_dec, ClassicalDedekindReals.sig_not_dec, FunctionalExtensionality.functional_extensionality_dep
* `C71_nearest`: ClassicalDedekindReals.sig_forall_dec, ClassicalDedekindReals.sig_not_dec, Classical_Prop.classic, FunctionalExtensionality.functional_extensionality_dep
* `C89_prepare_amplitudes`: ClassicalDedekindReals.sig_forall_dec, ClassicalDedekindReals.sig_not_dec, Classical_Prop.classic, FunctionalExtensionality.functional_extensionality_dep
* `C89_prepare_accepts`: ClassicalDedekindReals.sig_forall_dec, ClassicalDedekindReals.sig_not_dec, Classical_Prop.classic, FunctionalExtensionality.functional_extensionality_dep
* `C89_xxyy`: ClassicalDedekindReals.sig_forall_dec, ClassicalDedekindReals.sig_not_dec, FunctionalExtensionality.functional_extensionality_dep
* `C89_w_state`: ClassicalDedekindReals.sig_forall_dec, ClassicalDedekindReals.sig_not_dec, Classical_Prop.classic, FunctionalExtensionality.functional_extensionality_dep
* `C89_w_state_near`: ClassicalDedekindReals.sig_forall_dec, ClassicalDedekindReals.sig_not_dec, Classical_Prop.classic, FunctionalExtensionality.functional_extensionality_dep
* `C89_w_state_accepts`: ClassicalDedekindReals.sig_forall_dec, ClassicalDedekindReals.sig_not_dec, Classical_Prop.classic, FunctionalExtensionality.functional_extensionality_dep
* `C89_dicke`: ClassicalDedekindReals.sig_forall_dec, ClassicalDedekindReals.sig_not_dec, Classical_Prop.classic, FunctionalExtensionality.functional_extensionality_dep
* `C97_series`: ClassicalDedekindReals.sig_forall_dec, ClassicalDedekindReals.sig_not_dec, Classical_Prop.classic, FunctionalExtensionality.functional_extensionality_dep
* `C97_cut`: ClassicalDedekindReals.sig_forall_dec, ClassicalDedekindReals.sig_not_dec, Classical_Prop.classic, FunctionalExtensionality.functional_extensionality_dep
* `C97_inverse`: ClassicalDedekindReals.sig_forall_dec, ClassicalDedekindReals.sig_not_dec, Classical_Prop.classic, FunctionalExtensionality.functional_extensionality_dep
* `C97_precision`: ClassicalDedekindReals.sig_forall_dec, ClassicalDedekindReals.sig_not_dec, Classical_Prop.classic, FunctionalExtensionality.functional_extensionality_dep
* `C97_positive`: ClassicalDedekindReals.sig_forall_dec, FunctionalExtensionality.functional_extensionality_dep
* `C97_positive_refuted`: ClassicalDedekindReals.sig_forall_dec, FunctionalExtensionality.functional_extensionality_dep

`Closed under the global context` for these 429 theorems:

* C01: `C01_add`, `C01_sub`, `C01_sub_alt`
* C02: `C02_mul`
* C03: `C03_comparisons`, `C03_length_mismatch`
* C04: `C04_lshift`, `C04_rshift`
* C05: `C05_bitwise`, `C05_invert`, `C05_get_bit`, `C05_flip_bit`, `C05_bit_size`
* C06: `C06_create`, `C06_create_static`, `C06_roundtrip`, `C06_coerce`
* C07: `C07_single_limb_divisor`, `C07_division_by_zero`
* C08: `C08_refuted`, `C08_division_partial`, `C08_small_quotient_partial`, `C08_shifted_limb_divisor_partial`
* C09: `C09_pow`
* C10: `C10_bi_modinv_partial`, `C10_bi_extended_euclidean_partial`, `C10_modinv`, `C10_modinv_plain`, `C10_egcd_bezout`
* C11: `C11_bi_encode_partial`, `C11_bi_roundtrip_partial`, `C11_roundtrip`, `C11_roundtrip_plain`, `C11_encoder_value`, `C11_decoder_value`, `C11_shift_decoder`, `C11_pow2_mod_N`, `C11_pow2_mod_N_refuted`
* C12: `C12_reduction`, `C12_find_best_shift`, `C12_best_shift_sufficient`
* C13: `C13_digits_exist`, `C13_convergents_partial`, `C13_lowest_terms`, `C13_error`, `C13_legendre_partial`, `C13_rejects`, `C13_convergents_refuted`, `C13_best_approx_refuted`
* C14: `C14_adder_partial`, `C14_classical_partial`, `C14_controlled_carry_out_refuted`
* C15: `C15_quantum_adder`, `C15_controlled_quantum_adder_partial`, `C15_controlled_phase_refuted`, `C15_classical_adder`, `C15_traced_scalar_adder_partial`, `C15_traced_carry_out_refuted`
* C16: `C16_increment`, `C16_raises`, `C16_plus_one`, `C16_carry_in`
* C17: `C17_comparisons_partial`, `C17_traced_size_refuted`
* C18: `C18_roundtrip_partial`, `C18_labels_partial`, `C18_out_of_range_partial`, `C18_off_grid`, `C18_off_grid_refuted`, `C18_large_refuted`, `C18_rounding_partial`
* C19: `C19_truncate_partial`, `C19_encodes_partial`, `C19_large_refuted`
* C20: `C20_add`, `C20_sub`, `C20_mul`, `C20_square`, `C20_mul_int_partial`, `C20_mul_int_refuted`, `C20_mul_zero_refuted`, `C20_add_number_partial`, `C20_add_number_grid`, `C20_add_number_refuted`, `C20_dot_partial`, `C20_dot_refuted`
* C21: `C21_batched`, `C21_nothing_pending`, `C21_short_answer_refuted`
* C22: `C22_failure`
* C23: `C23_batched_stable`, `C23_lazy_stable`
* C24: `C24_decoded`, `C24_frequencies`, `C24_probabilities`, `C24_multi_partial`, `C24_multi_refuted`
* C25: `C25_term_product`, `C25_associative`
* C26: `C26_commute`, `C26_commute_qw`, `C26_qw_implies_commute`, `C26_commute_pauli`
* C27: `C27_group_up`, `C27_commuting_groups`
* C28: `C28_adjoint`, `C28_involution`, `C28_product`, `C28_operator_adjoint`
* C29: `C29_anticommutation`
* C30: `C30_sort_partial`, `C30_sort_refuted`, `C30_reduce_partial`
* C31: `C31_row_elimination`, `C31_column_elimination`, `C31_inverse`
* C32: `C32_reverse`, `C32_exists`, `C32_undoes`, `C32_twice_partial`, `C32_twice_rgate_refuted`, `C32_twice_alloc_refuted`
* C33: `C33_broadcast`, `C33_scalars`, `C33_mismatch`, `C33_always`, `C33_integers`, `C33_integers_out`, `C33_terminates`, `C33_atomic_refuted`, `C33_alias_refuted`
* C34: `C34_resolve_swaps`, `C34_commute_swaps`, `C34_arrange_swaps`, `C34_commute_swaps_classical_refuted`
* C35: `C35_cancel_zero_controls_partial`, `C35_cancel_zero_controls_refuted`
* C36: `C36_fuse_adjacents_partial`, `C36_rules`, `C36_fuse_adjacents_refuted`
* C37: `C37_topological_sort`, `C37_depth_sort`, `C37_ancestors`, `C37_ancestors_sparse`, `C37_delay_allocs`, `C37_delay_allocs_refuted`
* C38: `C38_reorder_circuit`, `C38_effect`, `C38_no_qubits_refuted`
* C39: `C39_hybrid_mcx`, `C39_ancillas`, `C39_ancilla_tree`, `C39_gate_actions`
* C40: `C40_conditionally_clean_partial`, `C40_three_controls`, `C40_four_controls_partial`, `C40_four_controls_refuted`
* C41: `C41_cyclic_shift_partial`, `C41_empty_refuted`, `C41_traced`, `C41_quantum`, `C41_permute`
* C42: `C42_demux_partial`, `C42_long_refuted`, `C42_indexing`, `C42_swap_into`
* C43: `C43_roundtrip`, `C43_string_roundtrip_partial`, `C43_string_roundtrip_small`, `C43_string_refuted`
* C44: `C44_proper_divisor`, `C44_candidates`, `C44_success`, `C44_two_refuted`, `C44_extract_order_partial`, `C44_extract_order_refuted`, `C44_recovers_order`, `C44_find_order_refuted`
* C45: `C45_history`, `C45_getitem`, `C45_create`, `C45_slice_partial`, `C45_slice_refuted`, `C45_clear_refuted`, `C45_pop_empty_refuted`, `C45_full_init_refuted`
* C46: `C46_definition`, `C46_decomposition`, `C46_phase_tolerant`, `C46_nested`, `C46_composite`, `C46_y_sign`, `C46_y_refuted`, `C46_gphase_rotated`, `C46_gphase_refuted`, `C46_pt_inv_refuted`, `C46_named_swap_refuted`, `C46_ctrl_state`, `C46_ctrl_state_ones`, `C46_ctrl_state_rejected`
* C47: `C47_split`, `C47_out_of_range`, `C47_roundtrip`
* C48: `C48_accepts`, `C48_others`, `C48_meaning`, `C48_exact_partial`, `C48_extra_coordinates_refuted`
* C49: `C49_permute_axes`, `C49_injective`
* C50: `C50_maxcut_partial`, `C50_maxcut_refuted`, `C50_maxsat`, `C50_maxsat_defined`, `C50_qubo`, `C50_e3lin2`, `C50_independent_set`, `C50_clique`, `C50_clique_problem`, `C50_set_packing`, `C50_set_cover_partial`, `C50_set_cover_refuted`, `C50_coloring`
* C51: `C51_smallest_power_of_two`, `C51_biginteger_refuted`
* C52: `C52_toffoli`, `C52_gray_synth_toffoli`, `C52_amy_toffoli`, `C52_margolus`, `C52_maslov_mcx_3`, `C52_maslov_mcx_4`, `C52_logical_and`, `C52_logical_and_uncompute`, `C52_jones_toffoli_refuted`, `C52_jones_toffoli_partial`
* C53: `C53_dirty_ancilla_mcx`
* C54: `C54_equality_partial`, `C54_signed_sizes_refuted`, `C54_gap_refuted`
* C55: `C55_arithmetic`, `C55_to_matrix`, `C55_round_trip`
* C56: `C56_add`, `C56_mul`, `C56_dagger`, `C56_jordan_wigner`
* C57: `C57_equality_refuted`, `C57_reflexive_partial`
* C58: `C58_diagonal`, `C58_operator_partial`, `C58_operator_refuted`
* C59: `C59_parallelize`, `C59_effect`, `C59_clif_refuted`
* C60: `C60_optimize_allocations`, `C60_effect`, `C60_double_alloc_refuted`
* C61: `C61_is_permeable`, `C61_get_perm_dic`, `C61_implements`
* C62: `C62_maxcut`, `C62_qubo`, `C62_maxsat`, `C62_e3lin2`, `C62_coloring`
* C63: `C63_mcp_layers_partial`, `C63_mcp_one_qubit_refuted`, `C63_mcp_ancilla_tree`, `C63_mcp_conditionally_clean`
* C64: `C64_gray_synth_partial`, `C64_two_qubits`, `C64_multi_controlled_phase`, `C64_controlled_pair`, `C64_phase_tolerant_partial`, `C64_phase_function_partial`, `C64_control`, `C64_parity_refuted`, `C64_phase_function_refuted`
* C65: `C65_transform`, `C65_inverse`, `C65_undo`, `C65_defined`, `C65_jasp`
* C66: `C66_integer`, `C66_register`, `C66_phases`, `C66_defined`
* C67: `C67_encoder`, `C67_rounding`, `C67_defined`, `C67_add`, `C67_sub`, `C67_mul`, `C67_square`, `C67_mul_int`, `C67_inplace`, `C67_inplace_defined`, `C67_inplace_finer`, `C67_inplace_finer_refuted`, `C67_inplace_number`, `C67_inplace_number_grid`, `C67_add_number`, `C67_rsub`, `C67_rsub_refuted`
* C68: `C68_mult`, `C68_mult_defined`, `C68_shift_partial`, `C68_shift_refuted`, `C68_shift_quantum`, `C68_inplace_mult`, `C68_inplace_mult_refuted`, `C68_inplace_mult_unsigned_partial`, `C68_inplace_mult_unsigned_refuted`, `C68_inplace_mult_wrap`, `C68_inplace_mult_defined`, `C68_inplace_mult_zero`
* C69: `C69_qubits`, `C69_floats`, `C69_qubits_defined`, `C69_floats_defined`
* C70: `C70_mult`, `C70_factor`, `C70_wrap`, `C70_fourier`, `C70_begin`, `C70_accumulate`, `C70_accumulate_refuted`, `C70_defined`, `C70_target_refuted`
* C71: `C71_exact`, `C71_superposition`, `C71_amplitude`, `C71_defined`
* C72: `C72_doubled`, `C72_phase_refuted`
* C73: `C73_operator`, `C73_state`, `C73_zero`, `C73_array_refuted`, `C73_defined`
* C74: `C74_iteration`
* C76: `C76_nested_environments_partial`, `C76_inversion_undoes`, `C76_condition_in_zero_control_refuted`, `C76_flip_in_nested_control_refuted`, `C76_inverted_nested_control_refuted`, `C76_conjugation_in_nested_zero_control_refuted`, `C76_control_reused_below_refuted`
* C77: `C77_tag_state`, `C77_tag_defined`, `C77_tag_refuses`
* C78: `C78_switch`, `C78_inverse`, `C78_defined`, `C78_list_reuse_refuted`
* C79: `C79_defined`, `C79_single_refuted`
* C80: `C80_adder`, `C80_decoder`, `C80_iadd`, `C80_isub`, `C80_out_of_place`, `C80_shift_mismatch`, `C80_float_refuted`
* C81: `C81_product`, `C81_mul`, `C81_inplace`, `C81_imul_partial`, `C81_imul_refuted`, `C81_negative_factor_refuted`, `C81_mul_shift_refuted`
* C82: `C82_product`, `C82_traced_partial`, `C82_traced_refuted`
* C83: `C83_ripple`, `C83_ripple_new`, `C83_inplace`, `C83_product`
* C84: `C84_product`, `C84_inplace`, `C84_not_invertible`
* C85: `C85_floats`, `C85_number`, `C85_number_above`, `C85_rounding_refuted`, `C85_traced_partial`, `C85_traced_refuted`
* C86: `C86_tr_gate`, `C86_adder`, `C86_adder_single_refuted`, `C86_inpl_add`, `C86_inpl_add_refuses`, `C86_narrow_refuted`
* C87: `C87_divmod`, `C87_unique`, `C87_coarse_divisor_refuted`, `C87_div_quotient`, `C87_div_remainder`, `C87_floor`, `C87_inverse`, `C87_truediv_refuted`
* C88: `C88_iadd`, `C88_iadd_wraps`, `C88_iadd_signed_refuted`, `C88_add`, `C88_add_overflow_refuted`, `C88_number`, `C88_number_rounds_refuted`, `C88_multiplyer`, `C88_mul`, `C88_mul_signed_refuted`, `C88_square`, `C88_square_exponent_refuted`, `C88_controlling`, `C88_pow`, `C88_pow_exponent_refuted`, `C88_pow_signed_refuted`, `C88_pow_qubit_refuted`
* C89: `C89_bit_reverse`
* C91: `C91_sizes`, `C91_dictionary_tuple_refuted`
* C93: `C93_max`, `C93_decision`, `C93_neighbours`, `C93_progress`, `C93_packing`, `C93_clique_decision`, `C93_clique_refuted`, `C93_sat`
