{"id": "C01", "title": "Pauli string product is the matrix product", "statement": "Multiplying two PauliStrings of the same length gives a PauliString whose letter string and complex coefficient represent exactly the product of the two represented matrices (Kronecker products of 2x2 Pauli matrices, scaled by the coefficients), including the phase in {1,i,-1,-i}.", "quantifier": "every number of qubits, every pair of letter strings, every pair of coefficients", "why_tests_cant": "there are 16^n pairs for each n and n is unbounded; the phase is computed with a global symplectic exponent, not letter by letter", "anchors": ["hqca/operators/quantum_strings/_pauli_string.py:PauliString.__mul__", "hqca/operators/quantum_strings/_pauli_string.py:PauliString.__init__", "hqca/operators/quantum_strings/_pauli_string.py:PauliString._construct"]}
{"id": "C02", "title": "Pauli letters and symplectic vectors round-trip", "statement": "Building a PauliString from letters and rebuilding a PauliString from its (l, r) vectors yields the same letters, and conversely any 0/1 vector pair is recovered from the letters built from it.", "quantifier": "every letter string and every pair of equal-length 0/1 vectors", "why_tests_cant": "unbounded length; every product relies on the conversion", "anchors": ["hqca/operators/quantum_strings/_pauli_string.py:PauliString.__init__", "hqca/operators/quantum_strings/_pauli_string.py:PauliString._construct"]}
{"id": "C03", "title": "Operator addition is coefficient-wise up to the cleaning threshold", "statement": "After `A + B` on Operators the coefficient stored for each string is the sum of the two previous coefficients, except that a string whose summed coefficient is at most 1e-12 in modulus is absent; no other string appears, and the strings are distinct.", "quantifier": "every pair of Operators over any of the string classes", "why_tests_cant": "quantifies over all operators and all keys; insertion order, duplicates and cancellation interact", "anchors": ["hqca/operators/_operator.py:Operator.__add__", "hqca/operators/_operator.py:Operator.clean"]}
{"id": "C04", "title": "Operator product is the matrix product up to dropped terms", "statement": "The matrix represented by `A * B` differs from the product of the matrices of A and B exactly by the terms the final clean removed, each of modulus at most 1e-12; in particular it is exact when nothing is dropped.", "quantifier": "every pair of Pauli Operators on n qubits, every n", "why_tests_cant": "unbounded number of terms and qubits, cancellations between arbitrarily many pairs", "anchors": ["hqca/operators/_operator.py:Operator.__mul__", "hqca/operators/_operator.py:Operator.clean"]}
{"id": "C05", "title": "Operators built through the API hold distinct self-keyed strings", "statement": "After any sequence of construction, addition of strings or Operators, subtraction, multiplication, cleaning and removal, each dictionary key equals the letter string of the value stored under it and no key occurs twice; after adding or multiplying Operators no stored coefficient is at most 1e-12 in modulus.", "quantifier": "every finite history of Operator calls", "why_tests_cant": "an invariant over all histories", "anchors": ["hqca/operators/_operator.py:Operator"]}
{"id": "C06", "title": "Operator subtraction yields the difference and leaves the subtrahend alone", "statement": "`A - B` has the coefficient-wise difference (cleaned) and B still denotes the same operator afterwards; `A - A` is zero.", "quantifier": "every pair of Operators, including a pair that is the same object", "why_tests_cant": "effects on aliased operands depend on object identity, which value-level tests of the result do not observe", "anchors": ["hqca/operators/_operator.py:Operator.__sub__", "hqca/operators/_operator.py:Operator.__add__"]}
{"id": "C07", "title": "Operators do not change when other Operators are combined", "statement": "Once B has been added to A, a later operation applied to B (or to another Operator to which B was added) does not change the coefficients held by A.", "quantifier": "every history of additions and subtractions over a heap of string objects", "why_tests_cant": "aliasing: `__add__` stores the argument's string object itself, so the effect appears only for particular histories", "anchors": ["hqca/operators/_operator.py:Operator.__add__", "hqca/operators/_operator.py:Operator.__sub__"]}
{"id": "C08", "title": "Constructing a FermiString from second-quantised operators preserves the operator", "statement": "FermiString(coeff, indices, ops, N) denotes coeff times the product, in the given order, of the listed creation, annihilation, particle and hole operators acting on the fermionic Fock space of N modes; in particular it is the zero coefficient when that product vanishes by a repeated index.", "quantifier": "every list of indices below N with repetitions, every list of +,-,p,h of the same length, every coefficient, every N", "why_tests_cant": "the constructor sorts with sign bookkeeping and merges repeated indices; the number of inputs is unbounded", "anchors": ["hqca/operators/quantum_strings/_fermi_string.py:FermiString._generate_from_sq", "hqca/operators/quantum_strings/_fermi_string.py:FermiString.__init__"]}
{"id": "C09", "title": "FermiString product is the operator product", "statement": "`A * B` of two FermiStrings on N modes denotes the composition of the two Fock-space operators with the product coefficient.", "quantifier": "every pair of FermiStrings over i,+,-,p,h of equal length, every N", "why_tests_cant": "5^(2N) pairs for each N", "anchors": ["hqca/operators/quantum_strings/_fermi_string.py:FermiString.__mul__", "hqca/operators/quantum_strings/_fermi_string.py:FermiString._generate_from_sq"]}
{"id": "C10", "title": "FermiString.H is the adjoint", "statement": "For every FermiString A with a non-zero number of operators, A.H() denotes the Hermitian adjoint of A on Fock space, and H is an involution up to equality of string and coefficient.", "quantifier": "every FermiString, every N", "why_tests_cant": "unbounded strings; reordering signs must come out right", "anchors": ["hqca/operators/quantum_strings/_fermi_string.py:FermiString.H", "hqca/operators/quantum_strings/_fermi_string.py:conj_transpose"]}
{"id": "C11", "title": "QubitString construction and product denote tensor products", "statement": "QubitString(coeff, indices, ops, N) and the product of two QubitStrings denote the ordered matrix product of the local 2x2 operators (+,-,p,h) on the listed qubits; operators on different qubits commute without sign.", "quantifier": "every index list with repetitions and operator list, every N; excluding the empty operator list, which raises", "why_tests_cant": "unbounded inputs; the merge loop rewrites until a fixpoint", "anchors": ["hqca/operators/quantum_strings/_qubit_string.py:QubitString._generate_from_sq", "hqca/operators/quantum_strings/_qubit_string.py:QubitString.__mul__"]}
{"id": "C12", "title": "Jordan-Wigner transform of a string is exact", "statement": "JordanWigner(FermiString) is a Pauli Operator whose matrix equals, entry by entry, the Fock-space matrix of the fermionic string in the occupation basis, provided the string's coefficient divided by 2^k (k non-identity letters) is above the 1e-12 cleaning threshold.", "quantifier": "every FermiString on N modes, every N", "why_tests_cant": "5^N strings for every N and 4^N matrix entries each", "anchors": ["hqca/transforms/_jordan_wigner.py:JordanWignerTransform"]}
{"id": "C13", "title": "Jordan-Wigner images satisfy the canonical anticommutation relations", "statement": "The matrices of the transformed ladder operators satisfy {a_i,a_j}=0, {a_i,a_j^dagger}=delta_ij and (a_i)^dagger = a_i^dagger, for all modes.", "quantifier": "every number of modes and every pair of modes", "why_tests_cant": "unbounded number of modes", "anchors": ["hqca/transforms/_jordan_wigner.py:JordanWignerTransform"]}
{"id": "C14", "title": "Transforming an Operator is the sum of the transformed strings", "statement": "Operator.transform(T) and JordanWigner(Operator) denote the sum of the images of the strings up to the dropped terms, each at most 1e-12 and at most as many as the terms added; the result does not depend on whether the parallel pool or the serial loop computed the images.", "quantifier": "every Operator and every transform that maps strings to Operators", "why_tests_cant": "unbounded sums with intermediate cleaning", "anchors": ["hqca/operators/_operator.py:Operator.transform", "hqca/transforms/_jordan_wigner.py:JordanWigner"]}
{"id": "C15", "title": "Qubit transform is exact", "statement": "Qubit(QubitString) is a Pauli Operator whose matrix equals the tensor product of the local 2x2 operators of the string, provided the coefficient divided by 2^k exceeds the cleaning threshold.", "quantifier": "every QubitString over i,+,-,p,h,z, every number of qubits", "why_tests_cant": "unbounded strings", "anchors": ["hqca/transforms/_qubit.py:QubitTransform"]}
{"id": "C16", "title": "Parity transform denotes the fermionic string in the parity basis", "statement": "Parity(FermiString) has, in the basis where bit j stores the parity of modes 0..j, the matrix of the fermionic string.", "quantifier": "every FermiString and every number of modes", "why_tests_cant": "unbounded; the sign depends on the number and arrangement of ladder letters", "anchors": ["hqca/transforms/_parity.py:ParityTransform"]}
{"id": "C17", "title": "Bravyi-Kitaev transform denotes the fermionic string in the Bravyi-Kitaev basis", "statement": "BravyiKitaev(FermiString) has, in the Bravyi-Kitaev encoding of occupation numbers, the matrix of the fermionic string.", "quantifier": "every FermiString and every number of modes, including sizes that are not powers of two", "why_tests_cant": "unbounded; sets are defined by recursion on the mode number", "anchors": ["hqca/transforms/_bravyi_kitaev.py:BravyiKitaevTransform", "hqca/transforms/_bravyi_kitaev.py:BravyiKitaevMap"]}
{"id": "C18", "title": "Inverse Jordan-Wigner inverts Jordan-Wigner", "statement": "InverseJordanWigner(PauliString) denotes the same operator as the Pauli string under the Jordan-Wigner identification.", "quantifier": "every Pauli string on N qubits, every N", "why_tests_cant": "the Z-chain indices agree with the correct ones on small or boundary cases", "anchors": ["hqca/transforms/_inverse_jordan_wigner.py:InverseJordanWignerTransform"]}
{"id": "C19", "title": "Parity-qubit-particle transform maps ladder letters to ladder matrices", "statement": "ParityQP(string) of a single '+' or '-' is the matrix of a raising or lowering operator (its square is zero).", "quantifier": "every position and number of qubits", "why_tests_cant": "must hold for all sizes and positions", "anchors": ["hqca/transforms/_parity_qp.py:ParityQubitParticleTransform"]}
{"id": "C20", "title": "Tapering preserves the operator on the symmetry sector", "statement": "For a Pauli string S with S[q] = Z and an operator commuting with S, the change of basis by U=(S+X_q)/sqrt2 followed by removal of qubit q with eigenvalue e equals the restriction of the operator to the sector S=e; terms anticommuting with the pivot are dropped by trimming.", "quantifier": "every number of qubits, every symmetry string and position, every Pauli operator commuting with it", "why_tests_cant": "unbounded strings and operators", "anchors": ["hqca/transforms/_functions.py:trim_operator", "hqca/transforms/_functions.py:change_basis", "hqca/transforms/_functions.py:modify", "hqca/transforms/_functions.py:get_transform_from_symmetries"]}
{"id": "C21", "title": "Normal ordering preserves the operator and terminates", "statement": "order_as_D_matrix returns a list of normal ordered terms whose sum is the original fermionic operator, and it returns for every FermiString.", "quantifier": "every FermiString", "why_tests_cant": "termination and sign correctness over unbounded strings", "anchors": ["hqca/operators/quantum_strings/_fermi_string.py:FermiString.order_as_D_matrix"]}
{"id": "C22", "title": "Commutation and qubit-wise commutation tests are right", "statement": "commute(a, b) holds exactly when the matrices of the two Pauli strings commute; qwc(a, b) holds exactly when the letters agree wherever both are non-identity, and implies commute(a, b).", "quantifier": "every pair of Pauli strings of equal length", "why_tests_cant": "16^n pairs for each n", "anchors": ["hqca/tomography/_reduce_circuit.py:commute", "hqca/tomography/_reduce_circuit.py:qwc"]}
{"id": "C23", "title": "Measurement grouping covers every operator", "statement": "When simplify_tomography returns, every requested Pauli string is assigned to a measurement string that agrees with it on all its non-identity positions, for whatever colouring the graph-colouring library produced; and with the default qubit-wise relation it returns (does not exit) when the colouring is proper and numbers its colours from 0.", "quantifier": "every list of Pauli strings, every vertex order and colouring returned by the external library", "why_tests_cant": "the colouring is an external, possibly randomised oracle", "anchors": ["hqca/tomography/_reduce_circuit.py:simplify_tomography", "hqca/tomography/_reduce_circuit.py:compare_tomography"]}
{"id": "C24", "title": "Counts-based expectation values are the signed averages", "statement": "The expectation value computed from a counts dictionary for a Z-type measured string is the parity-weighted average over shots: it lies in [-1,1], equals 1 for the identity string, and equals the weighted average of the eigenvalues, for every counts dictionary with a positive total.", "quantifier": "every counts dictionary with positive total, every measured Pauli string", "why_tests_cant": "all count tables", "anchors": ["hqca/processes/_process_counts.py"]}
{"id": "C25", "title": "Basis-change gates measure the requested Pauli", "statement": "After the gates appended for a measurement string, measuring Z on each qubit measures the requested X, Y or Z: conjugating the Z string by the basis-change circuit gives the requested Pauli string.", "quantifier": "every Pauli measurement string on every number of qubits", "why_tests_cant": "unbounded strings", "anchors": ["hqca/tomography/_tomography.py", "hqca/core/primitives/_base.py"]}
{"id": "C26", "title": "Pauli gadget implements the exponential", "statement": "The circuit emitted for a Pauli string P with at least one non-identity letter and angle t acts as cos(t) + i sin(t) P on every state; it emits nothing for the identity string.", "quantifier": "every Pauli string, every number of qubits, every angle", "why_tests_cant": "unbounded strings; the CNOT ladder is built by a loop over active qubits", "anchors": ["hqca/core/primitives/_pauli_strings.py:pauli_gadget"]}
{"id": "C27", "title": "PauliSet applies each operator term with its own coefficient", "statement": "The circuit built by PauliSet for a list of Pauli terms applies one gadget per term with the angle given by that term's own coefficient.", "quantifier": "every ordered operator with arbitrary complex coefficients", "why_tests_cant": "depends on the order and mix of real, imaginary and complex coefficients", "anchors": ["hqca/instructions/_instruct_pauli.py:PauliSet._applyOp"]}
{"id": "C28", "title": "Applying a Pauli string applies its letters", "statement": "apply_pauli_string acts on each qubit as the corresponding Pauli matrix up to a global phase.", "quantifier": "every Pauli string", "why_tests_cant": "unbounded strings and all states", "anchors": ["hqca/core/primitives/_pauli_strings.py:apply_pauli_string"]}
{"id": "C29", "title": "CNOT resource counts match the emitted circuits", "statement": "The CNOT count reported for an operator is the number of CNOT gates the Pauli gadgets of its terms emit.", "quantifier": "every list of Pauli strings", "why_tests_cant": "unbounded lists and strings", "anchors": ["hqca/tools/_resources.py", "hqca/core/primitives/_pauli_strings.py:pauli_gadget"]}
{"id": "C30", "title": "RDM element enumeration is complete and without duplicates", "statement": "The index lists generated for 1-, 2- and 3-body reduced density matrices contain one representative of every independent element allowed by spin symmetry, and none twice.", "quantifier": "every number of orbitals and partition into alpha and beta groups", "why_tests_cant": "unbounded number of orbitals", "anchors": ["hqca/tomography/_tomography.py"]}
{"id": "C31", "title": "4-RDM element enumeration is complete", "statement": "The index list generated for the 4-body reduced density matrix contains a representative of every independent element.", "quantifier": "every number of orbitals", "why_tests_cant": "unbounded number of orbitals and spin blocks", "anchors": ["hqca/tomography/_tomography.py"]}
{"id": "C32", "title": "RDM observables split into real and imaginary parts", "statement": "The operator measured for an RDM element with the real and imaginary options has the real part (and i times the imaginary part) of the element's expectation value as its expectation value in every state.", "quantifier": "every index list, every state", "why_tests_cant": "all states and all operators", "anchors": ["hqca/tomography/_tomography.py:generate_rdme"]}
{"id": "C33", "title": "Signed permutation enumeration", "statement": "Recursive's unordered enumeration of a list of n distinct indices yields every permutation exactly once, each with its permutation sign.", "quantifier": "every n and every list of distinct indices", "why_tests_cant": "n! permutations for unbounded n; the sign error appears only at n >= 4", "anchors": ["hqca/tools/rdm/_functions.py:Recursive.unordered_permute"]}
{"id": "C34", "title": "Ascending tuple enumeration", "statement": "Recursive's permute enumerates exactly the strictly ascending d-tuples of the given choices, each once.", "quantifier": "every depth and every sorted list of choices", "why_tests_cant": "unbounded sizes", "anchors": ["hqca/tools/rdm/_functions.py:Recursive.permute", "hqca/tools/rdm/_functions.py:Recursive.choose"]}
{"id": "C35", "title": "Hartree-Fock RDM is the determinant", "statement": "The p-RDM built for a Hartree-Fock state has as elements the determinants of the Kronecker deltas over occupied orbitals, is antisymmetric in upper and in lower indices and has trace Ne!/(Ne-p)!.", "quantifier": "every number of orbitals and electrons, p = 1, 2, 3", "why_tests_cant": "unbounded orbital numbers", "anchors": ["hqca/tools/rdm/_spin_rdm.py:RDM._build_hf_spin"]}
{"id": "C36", "title": "RDM order reduction contracts correctly", "statement": "Reducing the order of a p-RDM contracts one index pair with factor 1/(Ne-p+1), preserves antisymmetry and hermiticity, and maps the Hartree-Fock p-RDM to the Hartree-Fock (p-1)-RDM.", "quantifier": "every tensor, every number of orbitals", "why_tests_cant": "unbounded tensors", "anchors": ["hqca/tools/rdm/_spin_rdm.py:RDM.reduce_order"]}
{"id": "C37", "title": "RDM wedge product is the antisymmetrised product", "statement": "The product of two RDM tensors is the normalised antisymmetrised (wedge) product, hence antisymmetric, bilinear and commutative for even-degree factors.", "quantifier": "every pair of tensors", "why_tests_cant": "unbounded tensors, sparse patterns", "anchors": ["hqca/tools/rdm/_spin_rdm.py:RDM.__mul__"]}
{"id": "C38", "title": "Reduced Hamiltonian reproduces the energy", "statement": "Tr(K2 D2) equals sum h D1 + 1/2 sum V D2 for every antisymmetric D2 with D1 the contraction of D2 used by the code.", "quantifier": "every one- and two-electron integral tensor and antisymmetric 2-RDM, every number of orbitals, Ne >= 2", "why_tests_cant": "unbounded tensors", "anchors": ["hqca/hamiltonian/fermionic.py:_build_K2"]}
{"id": "C39", "title": "Fermionic Hamiltonian operator is the second-quantised Hamiltonian", "statement": "The Operator built from the integrals denotes, on Fock space, sum h_pq a+_p a_q + 1/2 sum V_prqs a+_p a+_r a_s a_q up to dropped terms below the threshold.", "quantifier": "every integral tensors and number of orbitals", "why_tests_cant": "unbounded sums", "anchors": ["hqca/hamiltonian/fermionic.py:_build_operator"]}
{"id": "C40", "title": "Stabilizer symmetry generators commute with the Hamiltonian", "statement": "Every Pauli string in the null basis found by the stabilizer routine commutes with every term of the input operator, and the row reduction preserves the row space.", "quantifier": "every list of Pauli terms on every number of qubits", "why_tests_cant": "unbounded matrices over GF(2)", "anchors": ["hqca/tools/_stabilizer.py:Stabilizer"]}
{"id": "C41", "title": "Check vectors encode Pauli strings faithfully", "statement": "Converting a Pauli string to its check vector and back returns the string, and the mod-2 symplectic product of two check vectors is zero exactly when the matrices commute.", "quantifier": "every Pauli string and every pair of them", "why_tests_cant": "4^n strings", "anchors": ["hqca/tools/_stabilizer.py:Stabilizer._pauli_to_check", "hqca/tools/_stabilizer.py:Stabilizer._check_to_pauli"]}
{"id": "C42", "title": "Nelder-Mead never loses its best point", "statement": "During a Nelder-Mead run, the reported best value never increases, equals the objective at the reported best point, and the evaluation counter equals the number of objective evaluations.", "quantifier": "every objective, every starting simplex and any number of steps", "why_tests_cant": "all objectives and step histories", "anchors": ["hqca/opts/simplex/neldermead.py"]}
{"id": "C43", "title": "Nelder-Mead orders its simplex", "statement": "After ordering, the simplex values are sorted ascending and points are paired with their values.", "quantifier": "every list of simplex values", "why_tests_cant": "fails only with at least five vertices", "anchors": ["hqca/opts/simplex/neldermead.py"]}
{"id": "C44", "title": "Line search returns a point satisfying the Wolfe conditions with matching values", "statement": "When the Nocedal-style line search reports success, the returned step satisfies the sufficient decrease and strong curvature conditions and the returned value and gradient are those of the objective at the returned step.", "quantifier": "every objective and gradient oracle, every interpolation result, every iteration limit", "why_tests_cant": "depends on the whole history of oracle answers", "anchors": ["hqca/acse/_line_search_acse.py:line_search_nocedal"]}
{"id": "C45", "title": "Bracketing line searches keep a valid bracket", "statement": "The bisecting line search keeps endpoint values equal to the objective at the endpoints, never increases its best value and halves the bracket each step; the backtracking line search stops only at a step rho^k alpha that satisfies the Armijo condition.", "quantifier": "every objective and every number of steps", "why_tests_cant": "all objectives and histories", "anchors": ["hqca/opts/gradient/linesearch.py"]}
{"id": "C46", "title": "Particle swarm best value belongs to its best point", "statement": "The global best value of the particle swarm never increases and equals the objective at the reported best point.", "quantifier": "every objective and every sequence of random draws", "why_tests_cant": "random schedules; aliasing of numpy views", "anchors": ["hqca/opts/stochastic/gpso.py"]}
{"id": "C47", "title": "ACSE run terminates and reports the lowest energy", "statement": "An ACSE run with max_iter >= 1 performs at most max_iter iterations, and the reported best energy is the minimum of the energies visited.", "quantifier": "every sequence of energies and gradients produced by the back end", "why_tests_cant": "all histories", "anchors": ["hqca/acse/acse.py:ACSE.run", "hqca/acse/acse.py:ACSE._check"]}
{"id": "C48", "title": "Ansatz addition conserves total coefficients and deep layers", "statement": "Adding an operator to an Ansatz changes only accessible layers: for every string the total coefficient over all layers increases by exactly the added coefficient (up to cleaning) and layers deeper than the accessible depth are unchanged.", "quantifier": "every ansatz, every operator and every depth setting", "why_tests_cant": "all histories of additions", "anchors": ["hqca/acse/_ansatz_S.py:Ansatz.__add__"]}
{"id": "C49", "title": "Truncation keeps the step a descent direction", "statement": "Truncating the ACSE residual keeps or zeroes entries in symmetric pairs and leaves a step whose inner product with the gradient keeps the required sign.", "quantifier": "every residual vector and pairing", "why_tests_cant": "all vectors; the comparison uses one entry of the pair twice", "anchors": ["hqca/acse/_tools_acse.py:truncation"]}
{"id": "C50", "title": "Newton step takes the lowest-energy trial", "statement": "The Newton update step evaluates trial steps and continues with the trial of lowest energy, and never fails for any curvature sign.", "quantifier": "every energy function along the search direction", "why_tests_cant": "all energy landscapes", "anchors": ["hqca/acse/_newton_acse.py"]}
{"id": "C51", "title": "Count filtering marginalises", "statement": "Tracing out qubits of a counts dictionary conserves the number of shots and adds the counts of all bitstrings that agree on the remaining qubits.", "quantifier": "every counts dictionary and every list of traced qubits", "why_tests_cant": "all count tables and trace orders", "anchors": ["hqca/tools/_functions.py:filt", "hqca/tools/_functions.py:get_trace"]}
{"id": "C52", "title": "Wavefunction mapping and active-space embedding are faithful", "statement": "Mapping determinants through an orbital permutation is injective and keeps occupation numbers; embedding an active-space wavefunction sets exactly the inactive orbitals plus the occupied active ones, and distinct determinants stay distinct.", "quantifier": "every wavefunction, permutation and active space", "why_tests_cant": "all determinants and spaces; fails only for unequal alpha and beta active spaces", "anchors": ["hqca/tools/_functions.py:map_wf", "hqca/tools/_functions.py:extend_wf"]}
{"id": "C53", "title": "Swap bookkeeping tracks logical qubits", "statement": "After any sequence of Sw calls, later gates address the qubit on which the logical qubit's state lives.", "quantifier": "every sequence of swaps and gates", "why_tests_cant": "all histories; wrong only when swaps share a qubit", "anchors": ["hqca/core/_circuit.py:GenericCircuit.Sw"]}
{"id": "C54", "title": "Number and spin operators denote their textbook matrices", "statement": "The operators returned for particle number, Sz, S+, S- and S^2 act on Fock space as the textbook operators: number counts particles, Sz is half the alpha minus beta count, S^2 = S-S+ + Sz + Sz^2.", "quantifier": "every number of orbitals and every basis state", "why_tests_cant": "unbounded orbital numbers", "anchors": ["hqca/tools/_fermionic_operators.py"]}
{"id": "C55", "title": "Pauli partial trace", "statement": "partial_trace of a PauliString over a set of qubits is the partial trace of its matrix.", "quantifier": "every Pauli string and set of qubits", "why_tests_cant": "unbounded", "anchors": ["hqca/operators/quantum_strings/_pauli_string.py:PauliString.partial_trace"]}
{"id": "C56", "title": "Equality and inequality of strings are complementary", "statement": "For quantum strings x and y, `x != y` is the negation of `x == y`.", "quantifier": "every pair of strings", "why_tests_cant": "all pairs; `!=` is inverted on equal strings", "anchors": ["hqca/operators/quantum_strings/_pauli_string.py:PauliString.__ne__", "hqca/operators/quantum_strings/_fermi_string.py:FermiString.__ne__"]}
{"id": "C57", "title": "Commutator is the commutator", "statement": "A.commutator(B) denotes AB - BA up to dropped terms at most 1e-12, and leaves A and B unchanged.", "quantifier": "every pair of Pauli Operators", "why_tests_cant": "unbounded operators, aliasing through in-place negation", "anchors": ["hqca/operators/_operator.py:Operator.commutator"]}
{"id": "C58", "title": "The initial circuit prepares the occupied determinant", "statement": "The gates applied for the list of initially occupied orbitals (Jordan-Wigner images of a+ - a, multiplied and applied as a Pauli string) map |0...0> to the determinant occupying exactly these orbitals, up to a global phase; the multiplied operator is a single string of modulus one, so the program does not exit.", "quantifier": "every number of orbitals, every list of distinct occupied orbitals", "why_tests_cant": "all subsets of orbitals; the Pauli application is wrong for superpositions (C28) and only right on basis states", "anchors": ["hqca/tomography/_tomography.py:StandardTomography.set", "hqca/core/primitives/_pauli_strings.py:apply_pauli_string"]}
{"id": "C59", "title": "Measured RDM elements rebuild the whole RDM", "statement": "Building the p-RDM (p = 1, 2, 3) from the expectation values of the operators generated for the listed elements gives every element of the RDM of the state, including all permuted and conjugate index tuples.", "quantifier": "every number of orbitals, every state with a definite number of alpha particles, real and imaginary options", "why_tests_cant": "all states and all index tuples; the list, the operators and the symmetrisation must fit together", "anchors": ["hqca/tomography/_tomography.py:StandardTomography._build_fermionic_RDM", "hqca/tomography/_tomography.py:generate_rdme"]}
{"id": "C60", "title": "String sums and multiples denote matrix sums and multiples", "statement": "Adding two PauliStrings with equal letters adds the matrices and stops the program otherwise; multiplying a PauliString by a number scales its matrix; == holds exactly for equal letters.", "quantifier": "every pair of PauliStrings, every number", "why_tests_cant": "all strings and coefficients", "anchors": ["hqca/operators/quantum_strings/_pauli_string.py:PauliString.__add__", "hqca/operators/quantum_strings/_pauli_string.py:PauliString.__mul__", "hqca/operators/quantum_strings/_pauli_string.py:PauliString.__eq__"]}
{"id": "C61", "title": "Nelder-Mead keeps the lowest value it has evaluated", "statement": "The reported best value of a Nelder-Mead run is not above any value the run has evaluated.", "quantifier": "every objective, starting simplex and number of steps", "why_tests_cant": "all objectives; a discarded lower point shows only on objectives where the extension overshoots", "anchors": ["hqca/opts/simplex/neldermead.py:NelderMead.next_step"]}
{"id": "C62", "title": "The optimiser driver stops when the criterion is met", "statement": "Optimizer.run stops after the first step at which the criterion of the chosen optimiser is within the threshold or a step failed, and does not stop before.", "quantifier": "every optimiser offered by Optimizer, every objective and history", "why_tests_cant": "termination over unbounded runs", "anchors": ["hqca/opts/opt.py:Optimizer.run", "hqca/opts/opt.py:Optimizer.check", "hqca/opts/gradient/linesearch.py:BacktrackingLineSearch"]}
{"id": "C63", "title": "Gradient descent reports the objective at its iterate", "statement": "After n steps of gradient descent the reported point is the n+1-th gradient iterate of the start, the reported value is the objective there, the reported best value never increases and the evaluation counter equals the number of evaluations.", "quantifier": "every objective, gradient, step size and number of steps", "why_tests_cant": "unbounded number of steps", "anchors": ["hqca/opts/gradient/gd.py:GradientDescent"]}
{"id": "C64", "title": "Stabilizer decomposition terminates and reproduces every string", "statement": "Gaussian elimination in the stabilizer routine terminates on every input and stores, for every input string other than the identity, a list of reduced strings whose product in the stored order equals the stored coefficient times the input string.", "quantifier": "every list of Pauli strings on every number of qubits", "why_tests_cant": "the loop has no bound of its own and inputs are unbounded", "anchors": ["hqca/tools/_stabilizer.py:Stabilizer.gaussian_elimination"]}
{"id": "C65", "title": "Symmetry generators commute with each other", "statement": "The strings returned as symmetry generators commute pairwise, so that they can be used together as symmetries.", "quantifier": "every list of Pauli strings", "why_tests_cant": "depends on the structure of the null space", "anchors": ["hqca/tools/_stabilizer.py:Stabilizer.find_symmetry_generators"]}
{"id": "C66", "title": "Active-space energy equals the full energy", "statement": "With a frozen core, the reported core energy plus the contraction of the active-space reduced Hamiltonian with the active 2-RDM equals the expectation value of the full Hamiltonian in the corresponding state of all electrons, and the operators built for the same active space give the same energy.", "quantifier": "every number of core, active and empty orbitals, symmetric integral tensors and states with the core occupied", "why_tests_cant": "unbounded tensors and states", "anchors": ["hqca/hamiltonian/molecular.py:_build_K2", "hqca/hamiltonian/molecular.py:_build_operator"]}
{"id": "C67", "title": "BFGS keeps a positive definite matrix and descent directions", "statement": "After every BFGS step of the ACSE the stored inverse Hessian is symmetric, maps the last change of the gradient to the last step, and stays positive definite; every search direction of the run is a descent direction and no update divides by zero, provided each successful line search met the curvature condition and the truncation kept a descent direction. The first trial step always lies between 1/2 and 1.", "quantifier": "every dimension, gradient history, line search outcome and number of steps", "why_tests_cant": "an invariant of unboundedly many updates", "anchors": ["hqca/acse/_bfgs_acse.py:_bfgs_step"]}
{"id": "C68", "title": "L-BFGS directions are those of the stored pairs", "statement": "The limited-memory direction is minus H times the gradient, where H is the BFGS matrix of the stored pairs (including the newest), so it is a descent direction whenever the stored pairs have positive curvature.", "quantifier": "every history length, every stored pairs with positive curvature, every gradient", "why_tests_cant": "all histories; wrong indices agree with right ones for short histories", "anchors": ["hqca/acse/_bfgs_acse.py:_bfgs_step"]}
{"id": "C69", "title": "Conjugate gradient directions are descent directions", "statement": "For every offered update, in every run without truncation whose line searches meet the strong Wolfe conditions with the constant the code passes (1/4), each direction p satisfies 2/5 |g|^2 <= -g.p <= 8/5 |g|^2, and no update divides by zero.", "quantifier": "every dimension, update, gradient history and number of steps", "why_tests_cant": "an invariant of unboundedly many steps, depending on the overlap reset", "anchors": ["hqca/acse/_conjugate_acse.py:_conjugate_gradient_step"]}
{"id": "C70", "title": "Conjugate gradient updates use the named formula", "statement": "The next direction is -g + beta p with beta given by the configured formula (FR, HS, PR, PR+, HZ), or -g when successive gradients overlap by more than one half.", "quantifier": "every offered update, all gradients and directions", "why_tests_cant": "all vectors; a caught exception leaves a valid but different update", "anchors": ["hqca/acse/_conjugate_acse.py:_conjugate_gradient_step"]}
{"id": "C71", "title": "The classical residual is the commutator expectation value", "statement": "The array computed by the classical ACSE solver from the 2-RDM (at most two particles) or the 3-RDM is, element by element, the real part of <[a+_i a+_k a_l a_j, H]> in the measured state; the operator returned is anti-Hermitian for every cutoff, and the first-order change of the energy along it is the sum of squares of the residuals kept.", "quantifier": "every number of modes and particles, every state with that number of particles (complex too), every real symmetric reduced Hamiltonian, every cutoff", "why_tests_cant": "an operator identity over all states and all index combinations", "anchors": ["hqca/acse/_class_A_acse.py:solvecACSE", "hqca/acse/_quant_A_acse.py:solveqACSE"]}
{"id": "C72", "title": "The vector form of the residual means the same operator", "statement": "The operator built from the compact residual vector and the RDM element keys is the operator of the full array: anti-Hermitian, and equal to the one returned without the compact form.", "quantifier": "every number of orbitals, every spin conserving Hamiltonian and state, every cutoff", "why_tests_cant": "all index combinations and multiplicities; a missing adjoint is invisible in real energies to first order", "anchors": ["hqca/acse/_tools_acse.py:vector_to_operator", "hqca/acse/_class_A_acse.py:solvecACSE"]}
{"id": "C73", "title": "Residual solvers return instead of failing their norm check", "statement": "For every residual array and cutoff the internal check comparing the norm of the kept elements with the norm of the array passes.", "quantifier": "every array and cutoff", "why_tests_cant": "all magnitudes of dropped elements; failure appears only near convergence", "anchors": ["hqca/acse/_class_A_acse.py:solvecACSE", "hqca/acse/_quant_A_acse.py:solveqACSE"]}
{"id": "C74", "title": "The coupled cluster ansatz lists every excitation once", "statement": "The ansatz of a unitary coupled cluster calculation lists every spin-conserving single and double excitation from occupied to virtual orbitals exactly once and nothing else; excitation levels that are requested are either included or refused.", "quantifier": "every list of spin-up and spin-down orbitals and every set of occupied orbitals", "why_tests_cant": "all orbital counts, layouts and occupations; a missing excitation only lowers accuracy", "anchors": ["hqca/vqe/_ucc.py:getUCCAnsatz"]}
{"id": "C75", "title": "Ansatz operators are the anti-Hermitian excitation generators", "statement": "For every list of real parameters the operators handed to the circuit are, in order, p(T - T+) for each excitation T with a non-negligible parameter p, with purely imaginary Pauli coefficients, so that their exponential is unitary; they conserve the number of spin-up particles and of particles.", "quantifier": "every number of qubits, every ansatz, every real parameter vector", "why_tests_cant": "an operator identity over all orbital combinations and parameters", "anchors": ["hqca/vqe/_ansatz.py:VariationalAnsatz.assign", "hqca/vqe/_ansatz.py:ADAPTAnsatz.assign_variables", "hqca/vqe/_ucc.py:getUCCAnsatz"]}
{"id": "C76", "title": "The stored density matrix belongs to the reported energy", "statement": "After a variational run the stored density matrix is the one measured at the lowest energy seen, and its energy is the reported best energy.", "quantifier": "every energy function, every optimiser behaviour (points evaluated, best value, criterion) and every number of steps", "why_tests_cant": "depends on the whole history of evaluations including gradient evaluations", "anchors": ["hqca/vqe/vqe.py:RunVQE"]}
{"id": "C77", "title": "A variational run ends", "statement": "A variational run stops at the first step where the convergence criterion is met or the optimiser failed, and in any case after the requested number of iterations.", "quantifier": "every optimiser behaviour, every requested limit", "why_tests_cant": "non-termination cannot be observed by a test", "anchors": ["hqca/vqe/vqe.py:RunVQE.run", "hqca/vqe/vqe.py:RunVQE._check", "hqca/opts/opt.py:Optimizer.check"]}
{"id": "C78", "title": "The numerical gradient is the derivative", "statement": "The numerical gradient has one entry per parameter, in order; the central difference equals the derivative of an energy quadratic in the parameter, and the forward difference differs from it by the second-order coefficient times the step.", "quantifier": "every energy function, parameter vector and non-zero step", "why_tests_cant": "all vectors, lengths and step sizes", "anchors": ["hqca/vqe/vqe.py:RunVQE"]}
{"id": "C79", "title": "Explicit gates are the documented matrices", "statement": "Every single-qubit method of the explicit circuit multiplies its array by the documented 2x2 matrix on the named qubit, CNOT and both Toffoli methods by the permutation that flips the target when all controls are 1, and a qubit outside the register makes the call fail.", "quantifier": "every register size, every qubit, every angle, every current array", "why_tests_cant": "an identity between matrices of every size", "anchors": ["hqca/tools/_gates.py:Circ"]}
{"id": "C80", "title": "Composite two-qubit gates do what they are named after", "statement": "Controlled Z, Y, S, R_y and Hadamard (both forms), the zero-controlled NOT and the exchange rotations SRy and Sh equal the controlled or exchange form of their 2x2 matrix, whatever the two qubits.", "quantifier": "every register size, every pair of different qubits, every angle", "why_tests_cant": "trigonometric identities over all angles in every dimension", "anchors": ["hqca/tools/_gates.py:Circ"]}
{"id": "C81", "title": "Swaps exchange exactly two qubits", "statement": "The swap, controlled swap and doubly controlled swap exchange the two target qubits of every basis state whose controls are all 1 and leave every other basis state alone.", "quantifier": "every register size, all different qubits, every basis state", "why_tests_cant": "must hold for every basis state of every register", "anchors": ["hqca/tools/_gates.py:Circ.Sw", "hqca/tools/_gates.py:Circ.Fred", "hqca/tools/_gates.py:Circ.CCS"]}
{"id": "C82", "title": "Explicit circuits stay unitary", "statement": "After any sequence of gates with unitary matrices on different qubits of the register the array is unitary.", "quantifier": "every sequence of gates of any length", "why_tests_cant": "sequences of unbounded length", "anchors": ["hqca/tools/_gates.py:Circ"]}
{"id": "C83", "title": "The array of an operator is its matrix", "statement": "Converting a Pauli string or an operator to an array gives coefficient times Kronecker product, summed; strings of different lengths and the empty operator are refused.", "quantifier": "every operator, every string length", "why_tests_cant": "all operators of all sizes", "anchors": ["hqca/tools/_operator_tools.py:operator_to_matrix"]}
{"id": "C84", "title": "Arrays convert to operators without loss", "statement": "Converting an array to qubit or Pauli operators gives an operator whose matrix has every entry above the threshold and zeros elsewhere.", "quantifier": "every register size and every array", "why_tests_cant": "all arrays of all sizes", "anchors": ["hqca/tools/_operator_tools.py:matrix_to_qubit", "hqca/tools/_operator_tools.py:matrix_to_pauli"]}
{"id": "C85", "title": "Partial trace of an array", "statement": "The partial trace of a numerical array over a set of qubits is the mathematical partial trace, in whatever order the qubits are listed.", "quantifier": "every array, every set of qubits in every order", "why_tests_cant": "all sizes, subsets and orders", "anchors": ["hqca/tools/_operator_tools.py:partial_trace"]}
{"id": "C86", "title": "Partial traces of symbolic arrays, circuits and operators", "statement": "The partial trace of a symbolic array, a circuit or an operator is the mathematical partial trace (normalised for circuits).", "quantifier": "every object, every set of qubits", "why_tests_cant": "all sizes and subsets; symmetric examples hide a transposition", "anchors": ["hqca/tools/_operator_tools.py:partial_trace", "hqca/tools/_gates.py:Circ.trace_operator"]}
{"id": "C87", "title": "Density matrices: partial trace and averages", "statement": "The partial trace of a density matrix is the mathematical one for every list of qubits, and the average of an observable is trace(rho A).", "quantifier": "every density matrix, list of qubits and observable", "why_tests_cant": "all sizes and orders of the qubit list", "anchors": ["hqca/tools/_state.py:DensityMatrix"]}
{"id": "C88", "title": "Reordering by particle number is a permutation", "statement": "The array reordered by particle number has every basis state once, in order of the number of particles, with the matching entries.", "quantifier": "every register size and array", "why_tests_cant": "all sizes", "anchors": ["hqca/tools/_gates.py:Circ.get_cN"]}
{"id": "C89", "title": "Applying circuits to a state", "statement": "Applying circuits to a state one after another gives the amplitudes of the product of the circuits.", "quantifier": "every sequence of circuits", "why_tests_cant": "sequences of any length", "anchors": ["hqca/tools/_state.py:State"]}
{"id": "C90", "title": "Reshaping calls on an RDM keep every element", "statement": "After any sequence of contract, expand, switch, trace and observable calls an RDM object holds the same elements, as a tensor or as a matrix; trace returns the sum of the diagonal elements and observable the trace of the product with the given matrix.", "quantifier": "every order, every number of orbitals, every array, every sequence of calls", "why_tests_cant": "sequences of unbounded length over arrays of every rank", "anchors": ["hqca/tools/rdm/_spin_rdm.py:RDM.contract", "hqca/tools/rdm/_spin_rdm.py:RDM.expand", "hqca/tools/rdm/_spin_rdm.py:RDM.switch", "hqca/tools/rdm/_spin_rdm.py:RDM.trace", "hqca/tools/rdm/_spin_rdm.py:RDM.observable"]}
{"id": "C91", "title": "Sums, differences and real multiples of RDMs are elementwise", "statement": "Adding or subtracting two RDMs of the same system, in whatever form their arrays are, gives a new object with the elementwise result and leaves the operands' elements alone; multiplying by an int or float scales every element; different systems are refused.", "quantifier": "every order, every array, tensor or matrix form", "why_tests_cant": "all arrays in all combinations of forms", "anchors": ["hqca/tools/rdm/_spin_rdm.py:RDM.__add__", "hqca/tools/rdm/_spin_rdm.py:RDM.__sub__", "hqca/tools/rdm/_spin_rdm.py:RDM.__mul__"]}
{"id": "C92", "title": "Spin of an RDM is the spin of the state", "statement": "The S_z and S^2 computed from the RDMs of a state are the expectation values of the spin operators.", "quantifier": "every state, every number of orbitals, every order of the orbitals, every active space", "why_tests_cant": "an operator identity over all states of all sizes", "anchors": ["hqca/tools/rdm/_functions.py:S2", "hqca/tools/rdm/_functions.py:Sz", "hqca/tools/rdm/_functions.py:get_Sz2_mat", "hqca/tools/rdm/_functions.py:get_SpSm_mat", "hqca/tools/rdm/_spin_rdm.py:RDM.get_spin_properties"]}
{"id": "C93", "title": "Spatial RDMs are sums over spins", "statement": "With spin-up orbitals first, the spatial RDM is the sum over spins, its trace is the trace of the spin RDM and reducing its order commutes with summing spins; exchanging the spins maps every spin-conserving element to the one with all spins flipped.", "quantifier": "every array and every number of orbitals", "why_tests_cant": "all index combinations of all sizes", "anchors": ["hqca/tools/rdm/_functions.py:spin_to_spatial", "hqca/tools/rdm/_functions.py:switch_alpha_beta", "hqca/tools/rdm/_spatial_rdm.py:SpatialRDM.reduce_order", "hqca/tools/rdm/_spin_rdm.py:RDM.spatial_rdm"]}
{"id": "C94", "title": "A singlet 2-RDM is determined by its alpha-beta block", "statement": "The RDM rebuilt from an alpha-beta block has that block, and for a singlet state the RDM rebuilt from the block of its 2-RDM is its 2-RDM.", "quantifier": "every block, every number of orbitals, every singlet state", "why_tests_cant": "a representation-theoretic identity for all singlets of all sizes", "anchors": ["hqca/tools/rdm/_spin_rdm.py:RDM._generate_from_ab_block", "hqca/tools/rdm/_spin_rdm.py:RDM.antisymmetric_block"]}
{"id": "C95", "title": "The cumulant is the connected part and the reconstruction is exact for determinants", "statement": "The cumulant of the 2-RDM of a state is the 2-RDM minus the antisymmetrised product of 1-RDMs, it vanishes for Hartree-Fock, the product of three 1-RDMs is the 3x3 minor, and the reconstructed 3-RDM of Hartree-Fock is its 3-RDM.", "quantifier": "every state with two or more particles, every number of orbitals", "why_tests_cant": "identities between arrays of all sizes", "anchors": ["hqca/tools/rdm/_spin_rdm.py:RDM.cumulant", "hqca/tools/rdm/_spin_rdm.py:RDM.reconstruct", "hqca/tools/rdm/_spin_rdm.py:RDM.__mul__"]}
{"id": "C96", "title": "RDMs can be transposed and multiplied by any number", "statement": "transpose returns the RDM with its axes permuted, and an RDM can be multiplied by any number, complex ones included.", "quantifier": "every RDM, every permutation of axes, every number", "why_tests_cant": "one call on a symmetric array looks right", "anchors": ["hqca/tools/rdm/_spin_rdm.py:RDM.transpose", "hqca/tools/rdm/_spin_rdm.py:RDM.__mul__"]}
{"id": "C97", "title": "Spatial RDMs report the spin of the state in every orbital order", "statement": "The S_z and S^2 reported by a spatial RDM are those of the state, and a spatial RDM can be made for every order of the spin orbitals.", "quantifier": "every state, every order of the orbitals", "why_tests_cant": "correct for closed shells, so that tests on closed shells pass", "anchors": ["hqca/tools/rdm/_spatial_rdm.py:SpatialRDM.get_spin_properties", "hqca/tools/rdm/_functions.py:Sz_spatial", "hqca/tools/rdm/_functions.py:S2_spatial", "hqca/tools/rdm/_functions.py:spin_to_spatial"]}
{"id": "C98", "title": "A particle-qubit RDM element is measured by its generated operator", "statement": "For every element of the particle-qubit RDM the operator generated for it has, in every state, the element (or its real part, or i times its imaginary part, as selected) as expectation value; asking for neither part is refused.", "quantifier": "every pair of index lists of equal length, every number of qubits, every state", "why_tests_cant": "an identity over all states and all index lists, repeated indices included", "anchors": ["hqca/tomography/_qubit_tomography.py:generate_qrdme"]}
{"id": "C99", "title": "Particle-qubit tomography reconstructs the whole RDM", "statement": "For a state with a definite number of spin-up particles, filling the 1- or 2-RDM from the exact values of the generated elements gives every element (its selected part), and the particle-qubit RDM is symmetric under exchange of creators or of annihilators, zero on repeated indices and Hermitian.", "quantifier": "every number of orbitals, every such state, every selection of parts, every element", "why_tests_cant": "the array grows as the fourth power of the size; symmetry errors cancel in single examples", "anchors": ["hqca/tomography/_qubit_tomography.py:QubitTomography._build_qubit_RDM", "hqca/tomography/_qubit_tomography.py:QubitTomography.generate"]}
{"id": "C100", "title": "The particle-qubit Hamiltonian has the integrals as coefficients and its reduced matrix gives the energy", "statement": "The operator is the sum over active modes of h s+ s- and half V s+ s+ s- s-, with the integrals at or below the threshold left out; without an active space, contracting the reduced matrix with the particle-qubit 2-RDM of a state with the right number of particles is the expectation of that Hamiltonian.", "quantifier": "all integrals, every number of orbitals, every active space, every state with N >= 2 particles", "why_tests_cant": "an operator identity over all states and integrals", "anchors": ["hqca/hamiltonian/qubit_particle.py:QubitParticleHamiltonian._build_operator", "hqca/hamiltonian/qubit_particle.py:QubitParticleHamiltonian._build_K2"]}
{"id": "C101", "title": "The particle-qubit ACSE operator is anti-Hermitian whatever is measured", "statement": "The array is the sum over the Hamiltonians of the imaginary part of the measured RDM over the step; the operator has minus its entries at or above the cutoff as coefficients, and for all values measured, noise included, it is anti-Hermitian.", "quantifier": "all measured values, every cutoff, every number of orbitals, every list of Hamiltonians", "why_tests_cant": "noise is arbitrary: no finite set of runs covers it", "anchors": ["hqca/acse/_qubit_A.py:solvepACSE", "hqca/acse/_qubit_A.py:_runexpiH"]}
{"id": "C102", "title": "Spin-orbital integrals are the transformed integrals", "statement": "Transforming basis-function integrals with the spin-up and spin-down coefficient matrices gives, for every pair or quadruple of spin orbitals, the integral between those orbitals: zero between different spins, chemists' (ij|kl) at [i,k,j,l] (zero for i=k or j=l) or, in the third variant, at [i,j,k,l]; symmetric input integrals give symmetric output.", "quantifier": "every number of orbitals, every split into core, active and virtual, all coefficients and integrals", "why_tests_cant": "four nested transformations over four spin blocks; one wrong index agrees on symmetric small examples", "anchors": ["hqca/tools/_chemistry.py:generate_spin_1ei", "hqca/tools/_chemistry.py:generate_spin_2ei", "hqca/tools/_chemistry.py:generate_spin_2ei_phys", "hqca/tools/_chemistry.py:generate_spin_2ei_pyscf"]}
{"id": "C103", "title": "Transformed integrals describe the electronic Hamiltonian", "statement": "The fermionic operator and the reduced Hamiltonian built from the generated integrals are those of the electronic Hamiltonian written in the basis functions: same operator, and same energy from the 2-RDM of any state with N >= 2 electrons.", "quantifier": "every number of orbitals, all coefficient matrices, integrals and states", "why_tests_cant": "an operator identity over all states; the entries the code leaves out matter unless they act as zero", "anchors": ["hqca/tools/_chemistry.py:generate_spin_1ei", "hqca/tools/_chemistry.py:generate_spin_2ei", "hqca/hamiltonian/molecular.py:MolecularHamiltonian"]}
{"id": "C104", "title": "Updating integrals in the active region replaces them", "statement": "Recomputing integrals for new coefficients in the core and active region of an existing array gives the transformed integrals inside the region and leaves everything else as it was.", "quantifier": "every array passed in, all coefficients and integrals, every split of the orbitals", "why_tests_cant": "depends on the earlier contents of the array, i.e. on the history", "anchors": ["hqca/tools/_chemistry.py:generate_spin_1ei", "hqca/tools/_chemistry.py:generate_spin_2ei"]}
{"id": "C105", "title": "Orbital reordering is orthogonal and sorts the occupations", "statement": "The reordering matrix is a signed permutation, leaves sorted orbitals alone and brings the occupations into decreasing order.", "quantifier": "every number of orbitals, all occupations", "why_tests_cant": "errors need three or more orbitals in particular orders", "anchors": ["hqca/tools/_chemistry.py:reorder"]}
{"id": "C106", "title": "Symmetry-projected tomography measures the RDM element", "statement": "If the symmetry projection returns a qubit operator for an RDM element, its expectation value in every state with a definite number of particles and of alpha particles is the value of that element (real part, imaginary part or both), although fewer Pauli strings are measured than in the full transform.", "quantifier": "every element with balanced particle numbers of every order, every number of modes and alpha set, every rank test and every exact solver, all states in a symmetry sector", "why_tests_cant": "the projected operator differs from the element as an operator and agrees with it only in the symmetry sector, so any single state or element proves little", "anchors": ["hqca/tomography/__symmetry_project.py:SymmetryProjection", "hqca/tomography/_constant_tomography.py:generate_sp_rdme"]}
{"id": "C107", "title": "Symmetry post-selection keeps exactly the right outcomes", "statement": "With the diagonal symmetry filter, a measurement in the Z basis keeps exactly the outcomes with the prescribed numbers of alpha and beta electrons, unchanged and in order, other settings are left alone, and the value is the average over the kept shots (an error if none is kept). The parity checks do the same with the ancilla bits.", "quantifier": "every number of orbitals and electrons, every counts dictionary with non-zero counts, every measured string", "why_tests_cant": "a filter that is off for one bit pattern or reverses the bit order biases the averages only in some runs", "anchors": ["hqca/processes/_process_stabilizers.py:StabilizerProcess"]}
{"id": "C108", "title": "The 2-RDM of a determinant expansion is right", "statement": "build_2rdm returns for a wavefunction given by its determinants the fermionic two-particle RDM <a+_a a+_b a_d a_c> in every entry, whenever the determinants leave the virtual orbitals empty and agree in the number of alpha electrons; for other wavefunctions the spin conserving entries are right and the rest is zero. With region='active' only the entries with an active orbital are replaced.", "quantifier": "every wavefunction dictionary, every pair of disjoint orbital lists, every array size, every entry", "why_tests_cant": "the phase is a product of seven factors with many coinciding-index cases, and a sign error shows only for particular quadruples and determinants", "anchors": ["hqca/tools/rdm/_qubit_rdm.py:build_2rdm"]}
{"id": "C109", "title": "BFGS line search returns Wolfe steps", "statement": "A step length returned by the line search of the optimizer 'bfgs' lies strictly between 0 and 5, is reported with the value of the objective there, and meets the sufficient decrease and the strong curvature conditions; the search ends exactly when one of the lengths 1, 3, 4, 9/2, ... fails the decrease or has a flat enough slope.", "quantifier": "every objective and gradient function, point, direction, reference value and slope", "why_tests_cant": "the conditions must hold for every function and along every path through the nested loops", "anchors": ["hqca/opts/gradient/bfgs.py:BFGS._line_search"]}
{"id": "C110", "title": "BFGS matrices stay consistent", "statement": "In every run of the optimizer 'bfgs' the inverse Hessian is symmetric and positive definite, each step is along a descent direction, the inverse maps the last change of the gradient to the last step, and the Hessian and its inverse, which are updated separately, remain inverse to each other (the last two as long as no denominator falls below 1e-30).", "quantifier": "every objective and gradient function (not only consistent ones), start, number of steps", "why_tests_cant": "an invariant over histories of any length and dimension", "anchors": ["hqca/opts/gradient/bfgs.py:BFGS"]}
{"id": "C111", "title": "BFGS makes progress", "statement": "The optimizer 'bfgs' reports the value and gradient of its current point, and every step decreases the objective, strictly unless the gradient vanishes.", "quantifier": "every objective and gradient function, start, number of steps", "why_tests_cant": "depends on the whole history of points through the stuck check", "anchors": ["hqca/opts/gradient/bfgs.py:BFGS"]}
{"id": "C112", "title": "Iterative unitary simulation reads exact averages", "statement": "When circuits are run one after the other on the iterative unitary simulator, each starting from the density matrix left by the one before, the value processed for a Pauli string from the counts of a simulated setting that agrees with it is Tr(P rho), rho being the density matrix of all the circuits in sequence; for a pure initial state it is the average in the evolved state. A setting that was not simulated raises.", "quantifier": "every sequence of circuits, number of qubits, initial density matrix, list of settings, setting and string agreeing with it", "why_tests_cant": "must hold for every circuit history and density matrix, mixed or pure", "anchors": ["hqca/processes/_simulate_iterative_unitary.py:IterativeUnitarySimulator.simulate", "hqca/processes/_process_counts.py:StandardProcess"]}
{"id": "C113", "title": "ADAPT grows the ansatz without changing the state", "statement": "Each growth of an ADAPT ansatz appends the first excitation with the largest residual, keeps the earlier excitations and their optimised parameters in order, and starts the new one at zero, so that the circuit is unchanged by the growth.", "quantifier": "every sequence of residuals and optimiser results, every list of excitations and parameters, any number of steps", "why_tests_cant": "an invariant over runs of any length and every excitation list", "anchors": ["hqca/vqe/adapt.py:RunADAPTVQE", "hqca/vqe/_ansatz.py:ADAPTAnsatz"]}
{"id": "C114", "title": "ADAPT runs stop and energies never rise", "statement": "An ADAPT run with a positive iteration limit ends at the first step whose residual norm is below the threshold and at the latest at the limit; if every optimiser returns one row of parameters with its energy, not above its starting energy, the logged energies never rise and the reported energy is the lowest and that of the final circuit.", "quantifier": "every sequence of residuals and optimiser results, iteration limits, thresholds, energy functions", "why_tests_cant": "quantifies over all run histories and energy functions", "anchors": ["hqca/vqe/adapt.py:RunADAPTVQE", "hqca/vqe/_ansatz.py:ADAPTAnsatz"]}
{"id": "C115", "title": "ADAPT works with every optimiser and limit", "statement": "An ADAPT run works with each of the optimisers on offer, and never exceeds the iteration limit.", "quantifier": "every optimiser result shape and iteration limit", "why_tests_cant": "needs the shape of the result of every optimiser", "anchors": ["hqca/vqe/adapt.py:RunADAPTVQE", "hqca/vqe/_ansatz.py:ADAPTAnsatz"]}
{"id": "C116", "title": "The reference state has the requested particles", "statement": "With the default or the alternating orbital mapping, the spin-up and spin-down groups together are all qubits without repetition, and the state prepared from the stored occupations is one determinant with exactly the requested numbers of spin-up and spin-down particles; more particles of a spin than orbitals are refused.", "quantifier": "every number of orbitals and particles, both mappings", "why_tests_cant": "all sizes and particle numbers", "anchors": ["hqca/storage/_quantum_storage.py:QuantumStorage.set_algorithm"]}
{"id": "C117", "title": "The measurement filter is recalibrated on schedule", "statement": "After measurement mitigation is set up with frequency q, the j-th corrected circuit uses calibration number 1 + floor(j/q), the setup making the first; with a frequency of zero or less the first calibration is kept.", "quantifier": "every frequency and number of uses", "why_tests_cant": "depends on the whole history of uses", "anchors": ["hqca/storage/_quantum_storage.py:QuantumStorage._get_measurement_filter", "hqca/storage/_quantum_storage.py:QuantumStorage.meas_filter"]}
{"id": "C118", "title": "The shift mitigation removes a depth-dependent error", "statement": "On a device whose error in the measured reduced density matrix depends only on the number of ansatz layers, the shift found by the full protocol makes every later measurement of the ansatz equal to the true matrix plus the effects of the damped last layers, and exactly the true matrix when a damped layer has no effect; the current protocol, with coefficient 1, keeps its shift at minus the error of the present depth through first, appended and unchanged layers.", "quantifier": "every ansatz, step operator, damping factor and depth-dependent error", "why_tests_cant": "all ansatz lengths and all error functions", "anchors": ["hqca/acse/_mitigation.py:_find_zo_full", "hqca/acse/_mitigation.py:_find_zo_current", "hqca/tomography/_tomography.py:StandardTomography.construct"]}
{"id": "C119", "title": "A run with the shift mitigation takes its steps", "statement": "When the ansatz shift is switched on with one of its documented protocols, some accepted configuration of the run is built and gets through the start of its first step.", "quantifier": "every protocol, closed parameter, split setting and residual form", "why_tests_cant": "needs all combinations of settings across two modules", "anchors": ["hqca/acse/_mitigation.py:check_mitigation", "hqca/acse/_check_acse.py:check_routine", "hqca/acse/acse.py:RunACSE._get_A", "hqca/acse/acse.py:RunACSE._run_acse"]}
{"id": "C120", "title": "Rewriting qubit operators as fermionic operators keeps the matrix", "statement": "The fermionic operator returned by the parafermion transform for a sum of qubit strings is the same operator on the occupation basis.", "quantifier": "every number of qubits, string and coefficient", "why_tests_cant": "all strings and sizes; a sign error appears only for inner qubits", "anchors": ["hqca/transforms/_para_fermion.py:ParaFermion", "hqca/transforms/_para_fermion.py:ParaFermionTransform"]}
{"id": "C121", "title": "The matrix of a qubit Hamiltonian is its operator", "statement": "A qubit Hamiltonian built from Pauli strings with order equal to the number of qubits stores exactly the matrix of the given operator, shorter strings being completed by identities; a non-identity letter past the last qubit is refused.", "quantifier": "every number of qubits and operator", "why_tests_cant": "all sizes and operators", "anchors": ["hqca/hamiltonian/qubit.py:QubitHamiltonian._matrix_from_pauli"]}
{"id": "C122", "title": "Carrying the density matrix through a closed ansatz loses nothing", "statement": "In an ACSE run on the density-matrix back end with a closed ansatz, after any number of Euler steps the density matrix kept for the next step, and the ones in which energy and residual are measured, equal the density matrix obtained by running the preparation and all layers added so far from the start.", "quantifier": "every sequence of step operators (each with terms, none below the cleaning threshold), number of qubits and circuits of the layers", "why_tests_cant": "all run histories", "anchors": ["hqca/acse/acse.py:RunACSE._generate_circuit", "hqca/acse/acse.py:RunACSE._run_acse", "hqca/acse/acse.py:RunACSE.build", "hqca/acse/_euler_acse.py:_euler_step"]}
{"id": "C123", "title": "Absorbing old layers into the density matrix agrees with the full ansatz", "statement": "With k open layers the density-matrix run keeps at most k layers and absorbs older ones into the density matrix; at every step energy and residual are measured in the state of the full ansatz that the circuit back end would have built from the same operators.", "quantifier": "every k > 0, sequence of step operators during which no layer cancels, circuits of the layers", "why_tests_cant": "all run histories; depends on which layers later operators may merge into", "anchors": ["hqca/acse/acse.py:RunACSE._run_acse", "hqca/acse/_ansatz_S.py:Ansatz.__add__"]}
{"id": "C124", "title": "Resetting a density-matrix run keeps its state", "statement": "After reset a density-matrix ACSE run holds (and measures the residual in) the state of its current ansatz, and a step whose operator has no terms leaves the state alone.", "quantifier": "every run history", "why_tests_cant": "depends on the history of the run", "anchors": ["hqca/acse/acse.py:RunACSE.reset", "hqca/acse/acse.py:RunACSE.build", "hqca/acse/acse.py:RunACSE._generate_circuit"]}
{"id": "C125", "title": "An operator made from a list of strings is their sum", "statement": "The operator constructed from a list of strings has as matrix the sum of the matrices of the listed strings.", "quantifier": "every list of strings with coefficients", "why_tests_cant": "all lists", "anchors": ["hqca/operators/_operator.py:Operator.__init__"]}
{"id": "C126", "title": "The norm of an operator is its normalised Hilbert-Schmidt norm", "statement": "For an operator of distinct N-qubit Pauli strings, the number whose square root norm() returns, times 2^N, is the sum of the squared moduli of all entries of the operator's matrix; so two operators with the same matrix have the same norm.", "quantifier": "every N and operator with complex coefficients", "why_tests_cant": "all operators and sizes", "anchors": ["hqca/operators/_operator.py:Operator.norm"]}
{"id": "C127", "title": "Scaling from the left, truncating and Clifford conjugation of operators work", "statement": "number*operator returns the operator with its coefficients scaled, truncate removes the small terms, clifford(U) returns the operator conjugated by the listed single-qubit Clifford gates.", "quantifier": "every operator, number, threshold and gate list", "why_tests_cant": "all operators", "anchors": ["hqca/operators/_operator.py:Operator.__rmul__", "hqca/operators/_operator.py:Operator.truncate", "hqca/operators/_operator.py:Operator.clifford"]}
{"id": "C128", "title": "The quantum residual tends to the classical residual as the Hamiltonian step goes to 0", "statement": "For every ansatz circuit, number of Trotter steps and Hamiltonian with real coefficients (or non-empty list of them), wherever the 2-RDM element of the prepared state is real, the residual measured after a propagation of length d under the Hamiltonian, divided by d, tends to the real part of <[a+_i a+_k a_l a_j, H]> as d goes to 0; when the qubit operators act on Ne particles as the Hamiltonian plus a constant this is the array the classical solver computes from the RDMs. An empty list of Hamiltonians raises.", "quantifier": "every circuit, initial state, size, Hamiltonian, number of Trotter steps and index", "why_tests_cant": "a limit over a continuous step size, for all states and circuits", "anchors": ["hqca/acse/_quant_A_acse.py:solveqACSE", "hqca/acse/_quant_A_acse.py:_runexpiH", "hqca/instructions/_instruct_pauli.py:PauliSet._applyH", "hqca/acse/_class_A_acse.py:solvecACSE"]}
{"id": "C129", "title": "The quantum residual is meaningful for complex states too", "statement": "The residual measured with the quantum solver tends to the real part of <[a+_i a+_k a_l a_j, H]> for every state, also one with complex amplitudes.", "quantifier": "every state, Hamiltonian and index", "why_tests_cant": "a limit over a continuous step size, for all states", "anchors": ["hqca/acse/_quant_A_acse.py:_runexpiH"]}
{"id": "C130", "title": "The neighbour tables of a device are the graph distances", "statement": "neighbor[k] lists exactly the qubits coupled to k, two_steps[k] exactly those at distance 2 without repetition, three_steps[k] every qubit at distance 3 and otherwise only qubits at distance 2; a coupling map with a qubit number above 15 raises.", "quantifier": "every coupling map and qubit", "why_tests_cant": "all graphs", "anchors": ["hqca/tools/util/Utilities.py:CircuitProperties._neighbors", "hqca/tools/util/Utilities.py:CircuitProperties._more_neighbors"]}
{"id": "C131", "title": "three_steps lists exactly the qubits at distance 3", "statement": "three_steps[k] are the qubits at distance 3 from k.", "quantifier": "every coupling map and qubit", "why_tests_cant": "all graphs", "anchors": ["hqca/tools/util/Utilities.py:CircuitProperties._more_neighbors"]}
{"id": "C132", "title": "Generated qubit sequences are simple paths of the device", "statement": "For all random numbers, a sequence returned by generate_random_sequence consists of N different qubits of which neighbours are coupled; parameter_transfer changes at most the drawn position; full_mutate_sequence keeps the length and every entry comes from the current sequence, from the leader or from the range of qubits.", "quantifier": "every coupling map, length, random schedule and number of iterations", "why_tests_cant": "all random schedules and graphs", "anchors": ["hqca/tools/util/Utilities.py:generate_random_sequence", "hqca/tools/util/Utilities.py:parameter_transfer", "hqca/tools/util/Utilities.py:full_mutate_sequence"]}
{"id": "C133", "title": "Mutation keeps part of the sequence, and the search for a sequence ends", "statement": "mutate_sequence returns a sequence that contains the part it was told to keep; generate_random_sequence returns whenever the device has a path of the requested length.", "quantifier": "every device, sequence and random schedule", "why_tests_cant": "all random schedules", "anchors": ["hqca/tools/util/Utilities.py:mutate_sequence", "hqca/tools/util/Utilities.py:generate_random_sequence"]}
{"id": "C134", "title": "Fitness values are the documented averages and lie in [0,1]", "statement": "fitness_qasm is 1 minus the average over the program's qubits of the product of the success rates of the instructions that touch the qubit; fitness_random_qasm is the mean of it and of 1 minus the product of the inverse distances of consecutive qubits (0 beyond distance 3), and 1 for lists with a repetition; with error rates in [0,1] these and fitness_qubits lie in [0,1]; CNOT errors do not depend on the direction.", "quantifier": "every device, program and list of qubits", "why_tests_cant": "all devices, programs and lists", "anchors": ["hqca/tools/util/Utilities.py:fitness_qubits", "hqca/tools/util/Utilities.py:fitness_qasm", "hqca/tools/util/Utilities.py:fitness_random_qasm", "hqca/tools/util/Utilities.py:CircuitProperties._find_gates"]}
{"id": "C135", "title": "verbose does not change the fitness", "statement": "fitness_qasm with verbose=True returns the same number as without.", "quantifier": "every device, program and list of qubits", "why_tests_cant": "all inputs", "anchors": ["hqca/tools/util/Utilities.py:fitness_qasm"]}
{"id": "C136", "title": "A whole tomography run returns the reduced density matrix of the prepared state", "statement": "On a state vector backend, for every circuit of valid gates whose state has a definite number of spin-up particles, generate, set, simulate and construct with real and/or imag return the real part, the imaginary part times i, or the whole p-RDM (p = 1, 2, 3) of the state the circuit makes from |0..0>, whatever settings the grouping finds; with a proper colouring, or without grouping, the run with real=True does return.", "quantifier": "every circuit, size, order p, option and colouring", "why_tests_cant": "all circuits, sizes and colourings", "anchors": ["hqca/tomography/_tomography.py:StandardTomography.generate", "hqca/tomography/_tomography.py:StandardTomography.set", "hqca/tomography/_tomography.py:StandardTomography.simulate", "hqca/tomography/_tomography.py:StandardTomography.construct", "hqca/tomography/_tomography.py:StandardTomography._generate_pauli_measurements"]}
{"id": "C137", "title": "The energy of a tomography run is the expectation value of the Hamiltonian", "statement": "evaluate of the 2-RDM of a run equals the expectation value of the molecular Hamiltonian in the prepared state plus the constant: for all integrals if real and imag are measured, and with real=True alone for real symmetric integrals.", "quantifier": "every circuit, size, set of integrals and colouring", "why_tests_cant": "all circuits and integrals", "anchors": ["hqca/tomography/_tomography.py:StandardTomography.construct", "hqca/acse/_store_acse.py:StorageACSE.evaluate", "hqca/hamiltonian/_molecule_hamiltonian.py:MolecularHamiltonian"]}
{"id": "C138", "title": "Energies are variational", "statement": "Over the complex numbers with the 1e-12 threshold of the operators, the energy evaluated from a run is real and never below any number that bounds the Hamiltonian from below on normalised states of the same number of particles (plus the constant).", "quantifier": "every circuit, real symmetric Hamiltonian and lower bound", "why_tests_cant": "all circuits and Hamiltonians", "anchors": ["hqca/tomography/_tomography.py:StandardTomography.construct", "hqca/acse/_store_acse.py:StorageACSE.evaluate"]}
{"id": "C139", "title": "The coupled cluster circuit conserves particle number and spin", "statement": "For every list of excitations made by getUCCAnsatz, every list of real parameters and every positive depth, the instructions made from the assigned ansatz give a circuit of valid gates whose matrix connects only basis states with equal numbers of particles and equal numbers in the spin-up orbitals, with the 1e-10, 1e-12 and 1e-14 cutoffs of the code; in general any sequence of blocks of commuting strings whose sums conserve a quantity conserves it.", "quantifier": "every orbital list, option, real parameter list and depth", "why_tests_cant": "all parameters and sizes; exactness of a product formula", "anchors": ["hqca/vqe/_ansatz.py:VariationalAnsatz.assign", "hqca/vqe/_ucc.py:getUCCAnsatz", "hqca/instructions/_instruct_pauli.py:PauliSet._applyOp", "hqca/core/primitives/_pauli_strings.py:generic_Pauli_term"]}
{"id": "C140", "title": "Every evaluation of the variational solver prepares an admissible state", "statement": "With the default mapping, for every number of orbitals, electron numbers not above it, accepted options, real parameters and depth, an evaluation of RunVQE builds its circuit; the prepared state is normalised and has the requested numbers of spin-up and total electrons; tomography of it gives its reduced density matrices; the energy is real and not below any lower bound of the Hamiltonian for that number of electrons.", "quantifier": "every molecule size, electron numbers, options, parameter vector, Hamiltonian and colouring", "why_tests_cant": "all parameters and Hamiltonians", "anchors": ["hqca/vqe/vqe.py:RunVQE.__test_vqe_function", "hqca/instructions/_instruct_pauli.py:PauliSet", "hqca/tomography/_tomography.py:StandardTomography.simulate", "hqca/storage/_quantum_storage.py:QuantumStorage.set_algorithm"]}
{"id": "C141", "title": "The circuit of a number-conserving operator conserves the number of particles", "statement": "The instructions made from any anti-Hermitian Operator that conserves the number of particles give a circuit that conserves it.", "quantifier": "every operator", "why_tests_cant": "all operators and orders of strings", "anchors": ["hqca/instructions/_instruct_pauli.py:PauliSet._applyOp", "hqca/acse/_ansatz_S.py:Ansatz"]}
{"id": "C142", "title": "An Euler step of the ACSE lowers the energy", "statement": "For every real two-body Hamiltonian, every ansatz of any number of layers, every cutoff on the residual array that treats x and -x alike, and every relative threshold: when the residual array is that of the state the circuit prepares, the residual operator is built and the ansatz with the step eps times the truncated operator gives a circuit. The energy of its state equals E - eps*(sum of squared coefficients)/4 up to 4*(sum of |K2|)*eps^2*(sum of |coefficients|)^2, for every real eps. If some kept residual is not zero, every positive eps below 1/(32*(sum of |K2|)*(number of strings)) strictly lowers the energy.", "quantifier": "every Hamiltonian, number of modes, reference determinant, list of layers, cutoff, threshold and step size", "why_tests_cant": "all states, Hamiltonians and step sizes; a strict inequality with an explicit bound", "anchors": ["hqca/acse/_euler_acse.py:_euler_step", "hqca/acse/acse.py:RunACSE._get_A", "hqca/acse/acse.py:RunACSE._generate_circuit", "hqca/acse/_ansatz_S.py:Ansatz", "hqca/instructions/_instruct_pauli.py:PauliSet"]}
{"id": "C143", "title": "The relative threshold of the ACSE keeps a descent direction", "statement": "For every real two-body Hamiltonian, state and relative threshold, the truncated residual operator consists exactly of the strings whose coefficient reaches that fraction of the largest one; its coefficients are real, it is anti-Hermitian, and the derivative of the energy along its negative is minus a quarter of the sum of its squared coefficients.", "quantifier": "every Hamiltonian, state, cutoff and threshold", "why_tests_cant": "all residual arrays; dropping strings one by one could break anti-Hermiticity", "anchors": ["hqca/acse/acse.py:RunACSE._get_A"]}
{"id": "C144", "title": "The energy lies within the sum of the coefficients", "statement": "For every real array of two-body coefficients and every normalised state, the energy lies between minus and plus the sum of the magnitudes of the coefficients.", "quantifier": "every array and normalised state", "why_tests_cant": "all states", "anchors": ["hqca/acse/_store_acse.py:StorageACSE.evaluate"]}
{"id": "C145", "title": "The stuck check of BFGS looks at the right points", "statement": "In every run of the optimizer 'bfgs', for all objective and gradient functions, the step from the i-th point is taken for stuck exactly when the latest point whose number is a multiple of 3 and the latest whose number leaves remainder 2 are closer than 1e-15, a missing point counting as zero; the step then starts half of the previous step back, and otherwise at the i-th point.", "quantifier": "every objective and gradient function, start, earlier use of the object, number of steps", "why_tests_cant": "depends on the whole history of points through a ring buffer", "anchors": ["hqca/opts/gradient/bfgs.py:BFGS.next_step"]}
{"id": "C146", "title": "The ACSE circuit keeps the electron numbers", "statement": "The circuit of an ACSE ansatz, built from the initial determinant and any list of real anti-Hermitian layers that conserve the number of particles and of spin-up particles, prepares a normalised state with exactly the requested numbers of electrons, although the circuit applies the Pauli strings of a layer one after the other; it needs that no coefficient falls below the cutoff or cancels while a layer is transformed.", "quantifier": "every number of orbitals and electrons, every list of layers of any length, every set of modes whose occupation the layers conserve", "why_tests_cant": "a state outside the sector appears only for particular operators and orders of their strings; no finite set of layers covers them", "anchors": ["hqca/acse/acse.py:RunACSE._generate_circuit", "hqca/acse/_ansatz_S.py:Ansatz.transform", "hqca/instructions/_instruct_pauli.py:PauliSet", "hqca/transforms/_jordan_wigner.py:JordanWigner"]}
{"id": "C147", "title": "The step of the ACSE solver conserves particles and spin", "statement": "The layer that the Euler step makes from the residuals of a state with a definite number of spin-up particles is real, anti-Hermitian and conserves the number of particles and of spin-up particles, for every real Hamiltonian that conserves spin and every cutoff, threshold and step size, so that it can be added to the ansatz without leaving the sector.", "quantifier": "every state with a definite spin-up number, real spin-conserving two-body Hamiltonian, cutoff, relative threshold and step", "why_tests_cant": "the statement is about every state the solver can reach and every Hamiltonian", "anchors": ["hqca/acse/_class_A_acse.py:solvecACSE", "hqca/acse/acse.py:RunACSE._get_A", "hqca/acse/_euler_acse.py:_euler_step"]}
{"id": "C148", "title": "An ACSE run lowers the energy at every step and reports the state it prepared", "statement": "A run of the ACSE solver with Euler steps, from building the solver to any number of turns of its loop, never raises; every recorded energy is strictly below the previous one, starting from the energy of the reference determinant; the reported energy and residual norm are those of the state that the current circuit prepares, which keeps the electron numbers; the best energy is the last one; the loop ends exactly when max_iter is reached or the norm is below the threshold, never by the test for a rising average. It needs real symmetric spin-conserving integrals, the convergence type 'norm', electron numbers that the storage accepts, regular residual operators and a step size below a bound set by the integrals. Without the last two, every state of a run still has one logged energy per turn, the best energy is the least of them, and the run ends exactly when max_iter is reached, the norm is below the threshold, or the last turn is at least the third one whose energy is not below the mean of the last three.", "quantifier": "every number of orbitals, electrons and turns, all integrals, tomography groupings, cutoffs, thresholds and step sizes within the bound", "why_tests_cant": "the property is an invariant of the whole loop over every molecule; a test follows one trajectory", "anchors": ["hqca/acse/acse.py:RunACSE.build", "hqca/acse/acse.py:RunACSE.run", "hqca/acse/acse.py:RunACSE._check", "hqca/acse/acse.py:RunACSE._get_A", "hqca/acse/_euler_acse.py:_euler_step", "hqca/acse/_store_acse.py:StorageACSE.evaluate"]}
{"id": "C149", "title": "An ACSE run converges within a number of turns known in advance", "statement": "With steps of at most 1/(64*S*n) (S the sum of the magnitudes of the integrals, n the number of strings of the step operator), a run of the ACSE solver with Euler steps ends within 1+k turns as soon as k*epsilon*(4*opt_thresh^2-r^4*S_min^2) exceeds S*r^4 for r spin orbitals; if max_iter is larger, it ends because the residual norm is below opt_thresh.", "quantifier": "every number of orbitals and electrons, all integrals, thresholds, cutoffs and step sizes within the bound", "why_tests_cant": "termination of the loop for every input cannot be observed by running it", "anchors": ["hqca/acse/acse.py:RunACSE.run", "hqca/acse/acse.py:RunACSE._check", "hqca/acse/_euler_acse.py:_euler_step"]}
{"id": "C150", "title": "One stabilizer circuit gives the averages of a whole qubit-wise commuting group", "statement": "For a group of Pauli strings that share a qubit-wise measurement basis, building the stabilized circuit (elimination, symmetry generators, construct_circuit, simplify) ends without an exception; the recorded gates, as written, map every generator and every Z-type symmetry string to a product of I and Z with sign +, as recorded in T_M; and the average of every string of the group in any state is the average, after the circuit, of the product of the images of its generators, which has only I and Z and coefficient 1.", "quantifier": "every number of qubits, every group of any size whose strings agree with one basis, every state", "why_tests_cant": "the greedy loop's termination and the signs must hold for every group; a test checks a few groups", "anchors": ["hqca/tools/_stabilizer.py:StabilizedCircuit.construct_circuit", "hqca/tools/_stabilizer.py:StabilizedCircuit.simplify", "hqca/tools/_stabilizer.py:StabilizedCircuit._simplify_y_qwc", "hqca/tools/_stabilizer.py:StabilizedCircuit._simplify_xx_zz_qwc", "hqca/tools/_stabilizer.py:StabilizedCircuit._simplify_x_z_qwc", "hqca/tomography/_tomography.py:StandardTomography.build_stabilizer"]}
{"id": "C151", "title": "A stabilizer circuit can be applied to a circuit", "statement": "Applying the recorded gates of a stabilized circuit raises no exception. False: it raises exactly when the group has a string with an X or a Y, because the functions for the S and H gates use a name that their module does not define; without such a string there is no gate.", "quantifier": "every number of qubits, every qubit-wise commuting group", "why_tests_cant": "the exact set of groups for which the call raises is infinite", "anchors": ["hqca/core/primitives/_base.py:apply_si", "hqca/core/primitives/_base.py:apply_h", "hqca/tomography/_tomography.py:StandardTomography._stabilizer"]}
{"id": "C152", "title": "The 'encoded' processing never returns an average", "statement": "Measuring a string with the processing 'encoded' (or 'symmetry') raises for every group, string and counts, because it reads the entry 0 of an operator whose keys are strings. Its filter raises on every outcome when there are more than three Z strings.", "quantifier": "every group, string, table and counts", "why_tests_cant": "a failure for all inputs cannot be shown by running some", "anchors": ["hqca/processes/_process_stabilizers.py:StabilizerProcess._measure_stabilizer_z_string", "hqca/processes/_process_stabilizers.py:StabilizerProcess._filter_encoded_symmetries"]}
{"id": "C153", "title": "The 'encoded' filter keeps the outcomes of states with the right electron number", "statement": "The filter of 'encoded' keeps the outcomes that a determinant with the right number of electrons can produce. False: for the group XX and the doubly occupied determinant every possible outcome is dropped.", "quantifier": "every group and state", "why_tests_cant": "the rule is a fixed table by the number of Z strings; whether it suits a group depends on the state", "anchors": ["hqca/processes/_process_stabilizers.py:StabilizerProcess._filter_encoded_symmetries"]}
{"id": "C154", "title": "Stabilized circuits for any commuting group", "statement": "For a group of mutually commuting strings the images recorded in T_M are products of I and Z. False in general: for XX and YZ they are not (the qubit-wise condition of the previous properties is needed).", "quantifier": "every commuting group", "why_tests_cant": "the claim ranges over all commuting groups", "anchors": ["hqca/tools/_stabilizer.py:StabilizedCircuit.simplify"]}
{"id": "C155", "title": "An ACSE run is built only for small spin excess", "statement": "Building the storage and the run for a molecule or fermionic Hamiltonian succeeds only if the numbers of alpha and beta electrons are equal, differ by one, or there are two more alpha electrons. Any other choice raises, although the orbitals hold the electrons: quartets, and triplets with the beta electrons in excess. For the accepted numbers, and settings as in the property of the whole run, the run is built.", "quantifier": "every number of orbitals and electrons, every integrals and settings", "why_tests_cant": "the accepted set of electron numbers is a statement about all of them", "anchors": ["hqca/acse/_store_acse.py:StorageACSE._get_HF_rdm", "hqca/acse/acse.py:RunACSE.build"]}
{"id": "C156", "title": "The default convergence type ends an ACSE run with an exception", "statement": "A RunACSE with Euler steps that is given no convergence_type is built and raises in its first turn, whatever the molecule and the other settings. With 'trust' it is not built.", "quantifier": "every settings under which the run with 'norm' works, every number of turns", "why_tests_cant": "a failure for all inputs cannot be shown by running some", "anchors": ["hqca/acse/acse.py:RunACSE._check", "hqca/acse/acse.py:RunACSE.__init__", "hqca/acse/_check_acse.py:check_routine"]}
{"id": "C157", "title": "The ADAPT solver prepares states with the requested numbers of electrons", "statement": "For every list of two-body excitations that keep the spin (indices may coincide, as they do in the keys of the tomography), all real parameters of any size and every positive depth, one evaluation of the ADAPT solver builds its circuit. The prepared state is normalised and has exactly the requested numbers of alpha and beta electrons. Its tomography gives its reduced density matrices, and its energy is real and not below any lower bound for that number of particles. This holds for every ansatz a run can build, whatever the residuals and the optimiser.", "quantifier": "every number of orbitals and electrons, every list of excitations and parameters, every history of a run", "why_tests_cant": "excitations, parameters and histories are unbounded, and the cutoffs drop strings depending on the values", "anchors": ["hqca/vqe/adapt.py:RunADAPTVQE", "hqca/vqe/_ansatz.py:FermiStrings", "hqca/instructions/_instruct_pauli.py:PauliSet"]}
{"id": "C158", "title": "The circuit of an ansatz is the product of its excitation rotations", "statement": "For every list of excitations of any rank, real parameters that are zero or above the cutoff of the code, and every positive depth, the circuit of the ansatz equals, as a matrix and without any Trotter error, the product of exp(x(T - T^dagger)) in the order of the list, x being the parameter over the depth. Each factor is 1 + sin(x) G + (1 - cos(x)) G^2. The states of the VQE and ADAPT solvers are these products applied to the reference determinant, up to a power of i. Each parameter has the period 2 pi times the depth.", "quantifier": "every list of excitations, all parameters, depths, numbers of orbitals and electrons", "why_tests_cant": "an identity of matrices for all angles and sizes", "anchors": ["hqca/vqe/_ansatz.py:assign", "hqca/vqe/_ansatz.py:FermiStrings", "hqca/instructions/_instruct_pauli.py:PauliSet", "hqca/vqe/vqe.py:RunVQE", "hqca/vqe/adapt.py:RunADAPTVQE"]}
{"id": "C159", "title": "Numerical gradients approximate the derivatives of the energy", "statement": "For every ansatz, all real parameters that are zero or above the cutoff, and every depth, the energy evaluated by the ADAPT or VQE solver is the expectation value of the Hamiltonian in the state of the excitation rotations plus the constant energy. As a function of one parameter it is a trigonometric polynomial of degree two in the parameter over the depth. Each entry of the numerical gradient is within C*diff of the partial derivative for forward differences and within C*diff^2 for central ones, with C independent of diff.", "quantifier": "every number of orbitals and electrons, every list of excitations, all parameters, Hamiltonians and step sizes", "why_tests_cant": "a bound for all step sizes and all points; tests compare single numbers", "anchors": ["hqca/vqe/vqe.py:__test_vqe_gradient", "hqca/vqe/adapt.py:__test_vqe_gradient", "hqca/vqe/vqe.py:RunVQE", "hqca/vqe/adapt.py:RunADAPTVQE"]}
{"id": "C160", "title": "The adaptive solver appends the excitation with the steepest slope", "statement": "For every Hermitian operator and every ansatz state, the derivative of the energy in the parameter of a newly appended excitation T at zero is -2 Re<[T,H]>/depth. If the residuals handed to the ADAPT solver rank its pool as these values do, the excitation it appends has the largest slope of the pool, and it appends it with parameter zero. A nonzero residual is a descent direction. The numerical gradient of the new parameter is within C*diff of this slope.", "quantifier": "every ansatz, operator, pool of excitations and residuals", "why_tests_cant": "a derivative at every state of every run; pools and states are unbounded", "anchors": ["hqca/vqe/adapt.py:_ADAPT", "hqca/vqe/_ansatz.py:add_term"]}
{"id": "C161", "title": "Pivoted Cholesky decomposition reproduces the integrals within the reported error", "statement": "For every symmetric positive semi-definite matrix, every bound on the rank and every tolerance, the decomposition ends without an exception. The rows it stores reproduce the matrix up to a positive semi-definite rest whose trace is the reported error, so every entry is off by at most that error. The rank is at most the bound and the size of the matrix. The loop stops at the tolerance or at the bound, and with the default bound every entry is within the tolerance. The rows are triangular in the order of the pivots.", "quantifier": "every size, matrix, bound on the rank and tolerance", "why_tests_cant": "an invariant of a loop over matrices of any size; tests decompose single matrices", "anchors": ["hqca/hamiltonian/molecular.py:pivoted_chol"]}
{"id": "C162", "title": "Rotations of a Cholesky vector triangularize its eigenvectors", "statement": "For every matrix of eigenvectors, the loop applies rotations of neighbouring rows with angles between -pi/2 and pi/2, and the strings it collects are the generators of these rotations for both spins, in order. The rotated matrix has the same inner products of columns, and every entry below its diagonal is at most sqrt(n)/10^8.", "quantifier": "every number of orbitals and every real matrix", "why_tests_cant": "the cutoffs of single entries must not add up over later columns, for any number of orbitals", "anchors": ["hqca/hamiltonian/molecular.py:build_cholesky_operator_Vp"]}
{"id": "C163", "title": "Comparing colourings yields measurements that determine every string", "statement": "For every list of Pauli strings of one length and every nonempty list of proper colourings of their conflict graph, the comparison of measurement groupings returns, and each requested string is mapped to one returned measurement that agrees with it on all its non-identity letters.", "quantifier": "every list of strings and every sequence of colourings", "why_tests_cant": "holds for every colouring an external library may return; the result is not checked at run time", "anchors": ["hqca/tomography/_reduce_circuit.py:compare_tomography", "hqca/tomography/__graph.py:Graph.color"]}
{"id": "C164", "title": "A batch of tomographies hands every result back to its owner", "statement": "For every list of tomographies run as one job, with circuit names distinct within each, every tomography receives exactly the results of its own circuits under the names it gave them, and running the same tomographies again does the same.", "quantifier": "every number of tomographies, circuits and names", "why_tests_cant": "depends on the number of tomographies and on earlier runs; tests use a few and run once", "anchors": ["hqca/tomography/_tomography.py:run_multiple"]}
{"id": "C165", "title": "Error estimates use subsamples of the measured counts", "statement": "For all counts, sample sizes and draws, every estimate of the error is computed from a subsample of the measured counts: the same circuits, the sample size as number of shots, no outcome more often than measured. Samples no larger than the number of shots do not raise, and the tomography keeps its measured counts.", "quantifier": "every set of counts, sample size, number of samples and every sequence of random draws", "why_tests_cant": "the draws are random; a test sees a few of them", "anchors": ["hqca/tomography/_tomography.py:evaluate_error", "hqca/tomography/_tomography.py:getRandomRDMFromCounts"]}
{"id": "C166", "title": "Separated Hamiltonians add up to the Hamiltonian", "statement": "For every qubit Hamiltonian and every list of groups of strings, each group holds the listed strings with the coefficients of the Hamiltonian, as often as they are listed. If each string of the Hamiltonian is listed once, the groups add up to the Hamiltonian.", "quantifier": "every Hamiltonian and every grouping", "why_tests_cant": "groupings and operators are unbounded; silently skipped strings cannot be seen in single cases", "anchors": ["hqca/hamiltonian/fermionic.py:build_separable_operator"]}
{"id": "C167", "title": "Measured averages are unbiased and their error shrinks with the number of shots", "statement": "For every state a circuit prepares, every measurement setting, every Pauli string that agrees with it and every number n>0 of independent shots: the value computed from the counts has the expectation value of the string as its mean and (1 - value^2)/n as its variance; the probability of an error of eps or more is at most that variance divided by eps^2.", "quantifier": "every circuit, number of qubits, setting, string, number of shots and every list of outcomes", "why_tests_cant": "a statement about the distribution of random results; a test sees samples of it", "anchors": ["hqca/processes/_process_counts.py:StandardProcess", "hqca/tomography/_tomography.py:StandardTomography.set"]}
{"id": "C168", "title": "Reduced density matrices and energies from counts are unbiased", "statement": "For every circuit, every grouping of the strings into settings and every number n>0 of shots per setting: the tomography returns for all outcomes, the mean of every entry of the array over the outcomes is the entry of the reduced density matrix of the prepared state, and the mean of the energy is the expectation value of the Hamiltonian plus the constant.", "quantifier": "every circuit with a definite number of alpha and beta electrons, grouping, order 1 to 3, number of shots, real symmetric integrals", "why_tests_cant": "averages over all outcomes of all settings; no finite number of runs determines them", "anchors": ["hqca/tomography/_tomography.py:StandardTomography.construct", "hqca/processes/_process_counts.py:StandardProcess", "hqca/acse/_store_acse.py:Storage.evaluate"]}
{"id": "C169", "title": "The variance of the energy vanishes exactly at eigenstates", "statement": "In the iterative mode, after any number of circuits and for every Hermitian matrix, the reported variance is never negative, is zero exactly when the state is an eigenvector, and bounds the weight of each eigenvector by the distance of its energy.", "quantifier": "every sequence of circuits and every Hermitian matrix of any size", "why_tests_cant": "a statement about all states and matrices; a test evaluates single ones", "anchors": ["hqca/acse/acse.py:RunACSE.check_variance", "hqca/processes/_simulate_iterative_unitary.py:IterativeUnitarySimulator"]}
{"id": "C170", "title": "The symmetry projected tomography returns the reduced density matrix", "statement": "For every circuit whose state has definite numbers of electrons and of alpha electrons, every grouping of the strings, rank test and linear solver whose answers solve the system: if ReducedTomography returns an array, every entry is the entry of the p-body reduced density matrix of the prepared state (real part, imaginary part or both), up to terms with coefficients below the thresholds of the projection, and exactly it when none are.", "quantifier": "every circuit, number of orbitals, order 1 to 3, option real/imag, grouping, rank test and solver", "why_tests_cant": "fewer strings are measured than the elements contain; that the others can be recovered from the symmetries must hold for every state and every element", "anchors": ["hqca/tomography/_constant_tomography.py:ReducedTomography", "hqca/tomography/__symmetry_project.py:SymmetryProjection", "hqca/tomography/_tomography.py:StandardTomography.construct"]}
{"id": "C171", "title": "The energy from the symmetry projected tomography is the expectation value of the Hamiltonian", "statement": "For every circuit whose state has definite numbers of electrons and of alpha electrons and for all real symmetric integrals: the energy computed from the array of ReducedTomography is the expectation value of the Hamiltonian in the prepared state plus the constant.", "quantifier": "every circuit, number of orbitals, grouping, solver and real symmetric integrals", "why_tests_cant": "an identity over all states and integrals", "anchors": ["hqca/tomography/_constant_tomography.py:ReducedTomography", "hqca/acse/_store_acse.py:Storage.evaluate"]}
{"id": "C172", "title": "The truncated reduced Hamiltonian gives the energy of the terms that were kept", "statement": "For every number of orbitals, all integrals that are zero when below the threshold, every set of strings discarded because the transform annihilates them, and every state with Ne electrons: FermionicHamiltonian with truncation=True builds a reduced Hamiltonian whose contraction with the 2-RDM of the state is the expectation value of the transposed kept strings, for real amplitudes of the kept strings themselves; if nothing is discarded it is the value of the reduced Hamiltonian without truncation.", "quantifier": "every number of orbitals, integrals, set of discarded strings, state with a fixed number of electrons", "why_tests_cant": "strings are merged, reordered and matched back to integrals; the bookkeeping must be right for every string and every set of discarded strings", "anchors": ["hqca/hamiltonian/fermionic.py:FermionicHamiltonian._build_projected_K2", "hqca/hamiltonian/fermionic.py:FermionicHamiltonian._build_operator", "hqca/operators/quantum_strings/_fermi_string.py:FermiString.order_as_D_matrix"]}
{"id": "C173", "title": "The two-body operator of a Cholesky vector is half the square of the weighted electron number", "statement": "For every number of orbitals and all eigenvalues of a Cholesky vector: the number operator that build_cholesky_operator_Vp builds before the transform is half the square of the sum over the orbitals of the eigenvalue times the number of electrons in the orbital, eigenvalues below 1e-6 counting as zero.", "quantifier": "every number of orbitals and all eigenvalues", "why_tests_cant": "an operator identity over all basis states and sizes", "anchors": ["hqca/hamiltonian/molecular.py:MolecularHamiltonian.build_cholesky_operator_Vp"]}
{"id": "C174", "title": "The operators of the Cholesky decomposition add up to the Hamiltonian", "statement": "For all integrals whose Cholesky decomposition is exact: the one-body operator and the (rotated) two-body operators of the decomposition add up to the Hamiltonian.", "quantifier": "every number of orbitals, all integrals", "why_tests_cant": "an operator identity over all integrals", "anchors": ["hqca/hamiltonian/molecular.py:MolecularHamiltonian.build_cholesky_operator_Hp", "hqca/hamiltonian/molecular.py:MolecularHamiltonian.build_cholesky_operator_Vp"]}
{"id": "C175", "title": "The spectra reported for the RDMs of a state are physical", "statement": "For every state with a definite number of at least two electrons, as many alpha as beta spin orbitals in any order, and an RDM object of order 2 that stores its 2-RDM as a tensor or as a matrix: analysis returns the eigenvalues of the alpha-alpha, beta-beta and alpha-beta blocks of the 2-RDM, each pair of orbitals once, and of the alpha and beta blocks of the 1-RDM of the same state; the blocks are Hermitian, no eigenvalue is negative and those of the 1-RDM are at most 1. With more beta than alpha orbitals the call raises.", "quantifier": "every state of a definite number of electrons, every number and order of orbitals, either storage of the array", "why_tests_cant": "positivity of every eigenvalue for every state cannot be sampled", "anchors": ["hqca/tools/rdm/_spin_rdm.py:RDM.analysis", "hqca/tools/rdm/_spin_rdm.py:RDM.reduce_order"]}
{"id": "C176", "title": "A run of particle-qubit tomography returns the RDM of the prepared state", "statement": "On a state vector backend, for every circuit, every grouping of the measured strings and every choice of real and imaginary parts: when generate, set, simulate and construct of QubitTomography return for order 1 or 2, the array is the particle-qubit RDM of the state the circuit prepares (the part asked for), and the compact vector lists its elements in the order of generation; the energy computed with the reduced Hamiltonian is that of the particle-qubit Hamiltonian. For the 2-RDM with real=True and a proper grouping the run returns; for the 1-RDM with real=True it always raises.", "quantifier": "every circuit of valid gates preparing a state with a definite number of alpha electrons, every number of orbitals, every grouping, real/imaginary options, integrals", "why_tests_cant": "the equality concerns every circuit and every grouping found by a graph colouring", "anchors": ["hqca/tomography/_qubit_tomography.py:QubitTomography", "hqca/tomography/_qubit_tomography.py:generate_qrdme", "hqca/transforms/_qubit.py:Qubit"]}
{"id": "C177", "title": "Tomography of a list of Pauli strings returns their expectation values", "statement": "With tomo_type='pauli', on a state vector backend, for every circuit, every nonempty list of strings and every proper grouping: the run returns, the vector lists the expectation values of the strings in the prepared state, multiplied by i when imag=True (the default), and the operator has the same numbers as coefficients, a string listed several times counting as often. An empty list raises.", "quantifier": "every circuit, every list of Pauli strings of the width of the register, every grouping, both values of imag", "why_tests_cant": "the claim ranges over all circuits and all lists of strings", "anchors": ["hqca/tomography/_qubit_tomography.py:QubitTomography._build_generic_pauli", "hqca/tomography/_qubit_tomography.py:QubitTomography._generate_pauli_set"]}
{"id": "C178", "title": "The analysis of a stored 2-RDM reports the spin, spectra and occupations of the state", "statement": "For the 2-RDM of a state with Ne particles, stored as a tensor or as a matrix, StorageACSE.analysis prints the expectation values of S_z and S^2, and takes the eigenvalues of the whole 2-RDM and of the whole 1-RDM of the state: none is negative and the occupations are at most 1. The object keeps its elements. The number printed as N is Ne(Ne-1): the number of electrons for two electrons, and never for more. RDMs of other orders raise.", "quantifier": "every state with a definite number of at least two particles, every number and labelling of orbitals, both forms of the array, every eigenvalue routine", "why_tests_cant": "positivity and the sum rules concern every state; a test looks at a few molecules, and with two electrons Ne(Ne-1) equals Ne", "anchors": ["hqca/acse/_store_acse.py:StorageACSE.analysis", "hqca/tools/rdm/_spin_rdm.py:RDM.get_spin_properties", "hqca/tools/rdm/_spin_rdm.py:RDM.trace", "hqca/tools/rdm/_spin_rdm.py:RDM.reduce_order"]}
{"id": "C179", "title": "The interpolated steps of the line search minimise the interpolating polynomials", "statement": "For all data: the quadratic step is the minimum of the parabola through the value and slope at one end of the bracket and the value at the other, when it opens upwards, and lies in the half of the bracket next to the end it starts from when the function falls from there and the other end is not lower. The cubic step is the local minimum of the cubic through the data when that lies strictly between a_l and a_h and a_l < a_h; in every other case, in particular in all brackets with a_h < a_l, which the zoom produces, it is the local maximum. Values on a parabola, or of a cubic without stationary points, give no number.", "quantifier": "all real step lengths, values and slopes; brackets in both orders", "why_tests_cant": "an identity of real functions of seven variables; tests look at a few brackets, and usually at those with a_l < a_h", "anchors": ["hqca/acse/_line_search_acse.py:line_search_nocedal", "hqca/acse/_line_search_acse.py:_quadratic_interpolate", "hqca/acse/_line_search_acse.py:_cubic_interpolate"]}
{"id": "C180", "title": "The gates of initial_clifford conjugate Pauli strings as their letters say", "statement": "A list of letters is accepted exactly when each is I, i, H, S or V, the last three at a qubit of the register. Its gates are a unitary, and the average of every Pauli string after them is the signed average, before them, of the string that the Heisenberg rules of the letters give. The strings of the reference then act on the state the gates prepare; and the rules are those of Operator.clifford.", "quantifier": "every register size, letter list, Pauli string and state", "why_tests_cant": "all registers, strings and superposed input states; a test on determinants cannot see the phases that decide it", "anchors": ["hqca/core/primitives/_pauli_strings.py:apply_clifford_operation", "hqca/core/primitives/_pauli_strings.py:apply_pauli_string", "hqca/tomography/_tomography.py:StandardTomography.set", "hqca/operators/_operator.py:Operator.clifford"]}
{"id": "C181", "title": "The two-qubit circuits are the rotations of their names", "statement": "For all angles: h2_hamiltonian is the product of the rotations about ZI, IZ, XX and ZZ by its arguments, xy_yx_simple makes from |00> the state that the rotations about XY and YX by its arguments make, xy_yx_ih_simple is that followed by the four rotations of the Hamiltonian, and xy_yx_gate is the rotations about XY and YX.", "quantifier": "all angles", "why_tests_cant": "equality of matrices for all angles", "anchors": ["hqca/core/primitives/_special.py:h2_hamiltonian", "hqca/core/primitives/_special.py:xy_yx_simple", "hqca/core/primitives/_special.py:xy_yx_ih_simple", "hqca/core/primitives/_special.py:xy_yx_gate"]}
{"id": "C182", "title": "Integrals between left and right orbitals are the double sums", "statement": "For all integrals, left and right coefficients and active spaces, the array returned for the left and right orbitals of a region has the integral <i|h|j> between the left orbital i and the right orbital j of one spin and leaves or sets to zero the rest; with right coefficients transposed from the left ones it is the array of the ordinary transformation.", "quantifier": "all integrals, coefficient matrices, sizes of the inactive, active and virtual spaces, and arrays given", "why_tests_cant": "sums over matrices of any size", "anchors": ["hqca/tools/_chemistry.py:gen_spin_1ei_lr", "hqca/tools/_chemistry.py:generate_spin_1ei"]}
{"id": "C183", "title": "The spin-up block of a 2-RDM is its spin-up entries", "statement": "For every 2-RDM and numbering of the spin-up orbitals, the block returned by symmetric_block has at each four spatial orbitals the entry of the 2-RDM at the corresponding spin-up orbitals; for the 2-RDM of a state it is antisymmetric in each pair, and for a singlet state it is the antisymmetrised alpha-beta block.", "quantifier": "all arrays, states, numbers of orbitals and numberings", "why_tests_cant": "index arithmetic over arrays of any size and identities over all states", "anchors": ["hqca/tools/rdm/_spin_rdm.py:symmetric_block", "hqca/tools/rdm/_spin_rdm.py:antisymmetric_block", "hqca/tools/rdm/_spin_rdm.py:_generate_from_ab_block"]}
