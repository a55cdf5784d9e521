# HQCA: formal model and proofs

The subject is the Python package `hqca` in /repo. The development is in `rocq/theories`
(Coq 8.16.1, standard library only).

## Approach

* Coefficients. The code computes with Python complex floats. The model takes coefficients from any
  structure `K : CoefRing`: a commutative ring with an element i (i*i = -1), an element half
  (half+half = 1), a conjugation, a decidable equality and a predicate `small` that stands for
  `abs(c) <= 1e-12`. The laws assumed of `small` are fields of the record, so every theorem is
  quantified over all such structures. The Gaussian rationals are given as an instance, with
  small c := |c|^2 <= 10^-24. Rounding of floating point is therefore not modelled.
* Strings are lists of letters. Operators are ordered association lists from letter strings to
  coefficients, as OrderedDict. A separate heap model covers aliasing and in-place mutation.
* Specifications are separate files: matrices as functions of row and column bit lists (Kronecker
  product of 2x2 matrices), the textbook action of fermionic operators on occupation lists, and
  standard notions (permutation sign, determinant, sums over ranges).
* Where the code violates the property, the theorem is named `..._refuted` and gives the witness;
  the part that does hold is proved under the suffix `_partial` or under a stated guard.

## Plan per property

- **C01 Pauli string product is the matrix product** — PauliString modelled with 0/1 vectors and integer phase exponent as in the code; matrices as entry functions over bit lists; induction on the number of qubits.
- **C02 Pauli letters and symplectic vectors round-trip** — Letters <-> (l,r) vectors; structural induction.
- **C03 Operator addition is coefficient-wise up to the cleaning threshold** — Operator as ordered association list (OrderedDict); lookup specification independent of the list; induction over the second operand.
- **C04 Operator product is the matrix product up to dropped terms** — Matrix of an operator = sum over its entries; product loop as nested folds; final clean gives a residual list of dropped small terms.
- **C05 Operators built through the API hold distinct self-keyed strings** — Invariant over a history datatype of Operator calls.
- **C06 Operator subtraction yields the difference and leaves the subtrahend alone** — Heap model (addresses -> string objects, operator = dict key -> address); refutation by computation, partial theorem for operands that share no object.
- **C07 Operators do not change when other Operators are combined** — Same heap model; refutation, and a frame theorem for unshared objects.
- **C08 Constructing a FermiString from second-quantised operators preserves the operator** — Constructor modelled loop by loop (bubble pass, merge pass, string assembly); Fock-space action as independent specification; invariants of the two loops.
- **C09 FermiString product is the operator product** — Corollary of C08 plus the flattening lemma.
- **C10 FermiString.H is the adjoint** — Adjoint on matrix entries; reversal lemma.
- **C11 QubitString construction and product denote tensor products** — Same loops without sign; tensor-product specification.
- **C12 Jordan-Wigner transform of a string is exact** — Transform as fold of operator products; explicit tracking of the coefficients shows nothing is dropped; matrix equality with the Fock action.
- **C13 Jordan-Wigner images satisfy the canonical anticommutation relations** — Corollary of C12 and the textbook relations of the Fock action.
- **C14 Transforming an Operator is the sum of the transformed strings** — Residual formulation: exists list of dropped small terms; induction over strings.
- **C15 Qubit transform is exact** — As C12 with tensor-product specification.
- **C16 Parity transform denotes the fermionic string in the parity basis** — Reversed product: sign (-1)^(k(k-1)/2); refutation for two ladder letters; partial with that sign.
- **C17 Bravyi-Kitaev transform denotes the fermionic string in the Bravyi-Kitaev basis** — Sets by the code's recursion; Fenwick-style encoding as specification; same reversal sign.
- **C18 Inverse Jordan-Wigner inverts Jordan-Wigner** — Refutation on 3 qubits; partial for strings without X/Y on interior qubits.
- **C19 Parity-qubit-particle transform maps ladder letters to ladder matrices** — Refutation: the square of the image is not zero.
- **C20 Tapering preserves the operator on the symmetry sector** — Pauli-level algebra: conjugation by (S+X_q)/sqrt2 with an element s, 2 s^2 = 1; trimming as restriction.
- **C21 Normal ordering preserves the operator and terminates** — Fuelled model of the while loop; non-termination shown as 'for every fuel'; wrong sign shown by matrices.
- **C22 Commutation and qubit-wise commutation tests are right** — Parity of anticommuting positions versus matrices; induction.
- **C23 Measurement grouping covers every operator** — Colouring as an oracle argument; invariant over the merge loop.
- **C24 Counts-based expectation values are the signed averages** — Counts as association list with rational totals; bounds by induction.
- **C25 Basis-change gates measure the requested Pauli** — 2x2 conjugation identities lifted to strings.
- **C26 Pauli gadget implements the exponential** — Circuits as gate lists acting on state functions; ladder lemma by induction over active qubits.
- **C27 PauliSet applies each operator term with its own coefficient** — Loop with the stale variable modelled as state; refutation and partial for purely real or purely imaginary coefficients.
- **C28 Applying a Pauli string applies its letters** — Gate action; refutation for Y.
- **C29 CNOT resource counts match the emitted circuits** — Count function versus number of CX gates in the modelled gadget.
- **C30 RDM element enumeration is complete and without duplicates** — Nested loops as list comprehensions; completeness and NoDup.
- **C31 4-RDM element enumeration is complete** — Nested loops with the code's guard; refutation.
- **C32 RDM observables split into real and imaginary parts** — Expectation functional as a linear map; operator identity.
- **C33 Signed permutation enumeration** — Recursion of the code; permutation enumeration proved, sign refuted at n = 4, proved for n <= 3.
- **C34 Ascending tuple enumeration** — Recursion of the code; membership characterisation and NoDup.
- **C35 Hartree-Fock RDM is the determinant** — Loop nest; determinant specification by permutation expansion.
- **C36 RDM order reduction contracts correctly** — Finite sums over index ranges.
- **C37 RDM wedge product is the antisymmetrised product** — Loop nest with the sparse term selection; refutation, antisymmetry partial.
- **C38 Reduced Hamiltonian reproduces the energy** — Finite sums over index ranges; exact rational coefficients.
- **C39 Fermionic Hamiltonian operator is the second-quantised Hamiltonian** — Sum over loops of Fock-space operators; skip conditions lose nothing because the skipped products vanish.
- **C40 Stabilizer symmetry generators commute with the Hamiltonian** — GF(2) matrices as lists of bool lists; elimination invariants.
- **C41 Check vectors encode Pauli strings faithfully** — Structural.
- **C42 Nelder-Mead never loses its best point** — Step function over an arbitrary objective; invariant over steps.
- **C43 Nelder-Mead orders its simplex** — Model of the insertion loop; refutation at five points, proved up to three.
- **C44 Line search returns a point satisfying the Wolfe conditions with matching values** — Oracle objective and interpolation; control flow with fuel; refutation of the exhausted branch.
- **C45 Bracketing line searches keep a valid bracket** — Invariants over the step function.
- **C46 Particle swarm best value belongs to its best point** — View aliasing modelled as a row index; refutation and monotonicity.
- **C47 ACSE run terminates and reports the lowest energy** — Loop with oracle energies; counter invariant.
- **C48 Ansatz addition conserves total coefficients and deep layers** — Layers as list of operators; sum of coefficients over layers.
- **C49 Truncation keeps the step a descent direction** — Loop model over rationals; refutation with witness and partial with equal pair deltas.
- **C50 Newton step takes the lowest-energy trial** — Control-flow model with oracle energies; refutations.
- **C51 Count filtering marginalises** — Association list of counts; multiset specification.
- **C52 Wavefunction mapping and active-space embedding are faithful** — String updates as list updates; refutation for unequal spaces.
- **C53 Swap bookkeeping tracks logical qubits** — Dictionary model; refutation for overlapping swaps, partial for disjoint swaps.
- **C54 Number and spin operators denote their textbook matrices** — Fock action on basis states.
- **C55 Pauli partial trace** — Matrix partial trace; refutation by the factor 2^k, partial with the factor.
- **C56 Equality and inequality of strings are complementary** — Direct model; refutation.
- **C57 Commutator is the commutator** — Heap-free value semantics of product and subtraction of fresh results.

## Trusted base

* The kernel of Coq 8.16.1 (`coqc`). No kernel check is switched off. No plugin is used beyond those of the standard
  library.
* `Print Assumptions` is run after every property theorem, in the `Prop_*.v` files. It answers
  "Closed under the global context" for all of them except C128_limit, C128_classical, C129_no_limit,
  C129_complex_states_refuted, C138_variational, the six theorems of `Prop_Cons.v` (C139_ucc, C139_blocks, C140_state,
  C140_rdm, C140_variational, C141_any_operator_refuted), the four of `Prop_Euler.v` (C142_energy, C142_descent,
  C143_truncated, C144_energy_bounds), three of `Prop_Layer.v` (C146_state, C146_count, C147_layer) the seven of
  `Prop_Iter.v` (C148_run, C148_stop, C149_ends, C155_excess, C155_refused, C156_default_raises, C156_trust_raises), the four of
  `Prop_AdCirc.v` (C157_state, C157_run, C157_rdm, C157_variational), the five of `Prop_Rot.v` (C158_ansatz, C158_group, C158_adapt,
  C158_vqe, C158_period), the nine of `Prop_Trig.v` (C159_adapt_energy, C159_vqe_energy, C159_trig, C159_adapt_gradient, C159_vqe_gradient, C160_slope, C160_steepest,
  C160_descent, C160_gradient), the three of `Prop_Chol.v` (C161_cholesky, C161_indefinite, C162_givens), the eight of `Prop_Shot.v` (C167_value, C167_unbiased,
  C167_variance, C167_error, C167_state, C168_returns, C168_rdm, C168_energy), the three of `Prop_Var.v` (C169_variance, C169_bound, C169_other_backends_raise), C175_spectra, C178_spectra, C178_more_electrons and the six of `Prop_Interp.v` (C179_quadratic, C179_quadratic_bracketed, C179_cubic_partial, C179_cubic_otherwise_maximum, C179_reversed_bracket_refuted, C179_no_number). These sixty-six speak of the real numbers of the standard library
  (`ComplexR.v`), and `Print Assumptions` lists the three axioms of that library's construction of the reals,
  `ClassicalDedekindReals.sig_forall_dec`, `ClassicalDedekindReals.sig_not_dec` and
  `FunctionalExtensionality.functional_extensionality_dep`, and for the six of `Prop_Cons.v`, C142_energy, C142_descent, C146_state, C146_count, C148_run, C149_ends, C156_default_raises, the four of `Prop_AdCirc.v`, those of `Prop_Rot.v` except C158_group and C159_adapt_energy, C159_vqe_energy, C159_adapt_gradient, C159_vqe_gradient, C160_gradient, C162_givens also
  `Classical_Prop.classic`, which the library's trigonometry and mean value theorem use. No other axiom is used anywhere.
* Loading the standard library's `Lia`/`ring` machinery brings the module `Coq.ssr.ssrunder.Under_rel` into the
  environment. Its seven parameters (`Under_rel`, `Under_rel_from_rel`, `Under_relE`, `Over_rel`, `over_rel`,
  `over_rel_done`, `under_rel_done`) belong to an opaque module of the standard library. No theorem depends on them.
* The reading of the Python source. Each definition of a `*Model.v` file (and of `OperatorHeap.v`) cites the file and
  lines it models. The theorems are about these definitions. That they say what the source says is checked by
  reading only: the code is not run.
* The specifications: `MatSpec`, `FockSpec`, `OpSpec`, `HeapSpec`, `TraceSpec`, `EncSpec`, `CircuitSpec`, `RdmSpec`,
  `OptSpec`, `StabSpec`, and those that later files introduce.

### What the model leaves out everywhere

* Floating point: coefficients are exact elements of a `CoefRing`; comparisons with thresholds are the predicate `small`
  or an order argument.
* sympy coefficients (`sym`), printing, timing, logging, and the `multiprocessing` pool beyond the fact that its results
  are collected in the order of the inputs.
* Anything computed by numpy, scipy, sympy, networkx, pyscf or qiskit, except where a comment in the model says which
  exact function stands for it.

### Modelled parts of /repo

| File | Modelled | Coq file |
|---|---|---|
| operators/quantum_strings/_pauli_string.py | constructor, product, scaling, sum, comparison, partial trace | PauliModel |
| operators/quantum_strings/_fermi_string.py, _qubit_string.py | constructor, product, `.H` | FermiModel |
| operators/_operator.py | values: +, -, *, commutator, clean, transform; objects: aliasing and in-place updates | OperatorModel, OperatorHeap |
| transforms/_jordan_wigner.py, _qubit.py, _parity.py, _bravyi_kitaev.py, ParityQP | strings and operators | TransformModel |
| core/_circuit.py, processes, instructions (Pauli gadgets, basis changes, PauliSet, CNOT counts) | gates as matrices acting on states | CircuitModel |
| tools/quantum_strings (commutation tests), tomography grouping, counts | merge loop, expectation values from counts | TomoModel |
| tools/rdm, state tomography | enumeration, element operators, reconstruction, Hartree-Fock, contraction, wedge product | RdmModel |
| opts | Nelder-Mead ('nm', 'lnm'), line searches, gradient descent, particle swarm, the driver `Optimizer` | OptModel |
| transforms/_functions.py | tapering: trim, change of basis, symmetries, parity_free (value level) | TaperModel |
| tools/_stabilizer.py, class Stabilizer | check vectors, elimination, decomposition, null basis | StabModel |
| transforms/_inverse_jordan_wigner.py, products of fermionic Operators | strings and operators | InvModel |
| operators/quantum_strings/_fermi_string.py | `order_as_D_matrix` (rounds of the loop as fuel) | OrderModel |
| hamiltonian/fermionic.py, hamiltonian/molecular.py, tools/_fermionic_operators.py | K2, core energy, operators from given spin-orbital integrals; number and spin operators (integral generation, pyscf not modelled; `_build_projected_K2` in ProjModel) | HamModel |
| tools/_functions.py (get_trace, filt, map_wf, extend_wf), core/_circuit.py (Sw) | bitstring dictionaries; swap table | ToolsModel |
| acse/_ansatz_S.py, acse/_tools_acse.py (truncation), acse/acse.py (run, _check), acse/_newton_acse.py | ansatz layers as operator values; the back end as an arbitrary answer per step | AcseModel |
| acse/_line_search_acse.py | search and wrapper; interpolations arbitrary (they are modelled apart, InterpModel) | LineModel |
| acse/_bfgs_acse.py, _conjugate_acse.py | directions, BFGS and L-BFGS updates, conjugate gradient updates (rational vectors; line search and truncation arbitrary) | BfgsModel |
| acse/_class_A_acse.py (solvecACSE), _quant_A_acse.py (operator and check), _tools_acse.py (vector_to_operator) | RDMs and K2 as arrays; square roots characterised by their squares | ResModel, ResNorm |
| vqe/_ucc.py, vqe/_ansatz.py (assign, assign_variables), vqe/vqe.py (evaluation, gradient, loop) | the optimiser is an arbitrary sequence of answers; importing hqca.vqe as pinned fails (adapt.py imports hqca.acse._class_S_acse and _quant_S_acse, which do not exist; hqca/acse/_store_acse.py imports hqca.cqe._pauli_ansatz, which does not exist), the functions are modelled as if it succeeded | VqeModel |
| tools/_gates.py (Circ), tools/_state.py, tools/_operator_tools.py | arrays are functions of bit strings; gate and qasm counters, printing and the stored program text are left out; trace_operator is meant for real arrays | CircModel, CircModel2 |
| tools/rdm/_spin_rdm.py (shape methods, arithmetic, blocks, cumulant, reconstruct), _spatial_rdm.py, _functions.py (spin, spatial, switch_alpha_beta) | numpy arrays as shape and row-major entries; get_Q_matrix and get_G_matrix (undefined self), get_SmSp_mat (misspelt dtype), _generate_from_spatial (exits) and SpatialRDM(rdm='given') left out | RdmObjModel |
| tomography/_qubit_tomography.py (generate_qrdme, _build_qubit_RDM), hamiltonian/qubit_particle.py (_build_operator, _build_K2), acse/_qubit_A.py | operators as lists of strings with coefficients; circuits replaced by the measured values (whole runs: QtomModel) | QRdmModel |
| tools/_chemistry.py (reorder, generate_spin_1ei, generate_spin_2ei, _phys, _pyscf) | arrays as functions, temporaries and accumulation order kept; the rest calls pyscf or undefined names | IntsModel |
| tomography/__symmetry_project.py, _constant_tomography.py (generate_sp_rdme) | Operators of FermiStrings with the Jordan-Wigner transform; rank test and linear solver are arguments; local_tomography (QubitStrings) left out | SymModel |
| processes/_process_stabilizers.py (diagonal filter, parity checks, process) | Jordan-Wigner transform; counts dictionaries; rounding test is an argument; 'encoded' in ScModel | SfModel |
| tools/rdm/_qubit_rdm.py (build_2rdm) | wavefunction dictionary as a list of items, array as a function of the indices | W2Model |
| opts/gradient/bfgs.py (BFGS: initialize, next_step, _line_search) | vectors and matrices of rationals; objective and gradient arbitrary functions; unused line searches omitted | GBfgsModel |
| processes/_simulate_iterative_unitary.py (simulate) | unitaries as matrices over outcome strings; np.sqrt a parameter; initial-state preparation as in InitProofs (C58) | ItModel |
| vqe/adapt.py (RunADAPTVQE: build, _ADAPT, _run_adapt, _check, run) | residual solver and optimiser are arbitrary sequences of answers; update 'q' only (update 'c' reads self.accept_previous_step, which is never set, and raises); printing left out; like the rest of hqca.vqe not importable as pinned | AdaptModel |
| storage/_quantum_storage.py (set_algorithm: groups and initial occupations; measurement filter schedule) | calibration runs are counted only; backends and noise models are external; for the models 'sq' and 'tq' set_algorithm reads self.alpha before it is set and raises | StoreModel |
| acse/_mitigation.py, acse/_check_acse.py (shift part), shift in tomography/_tomography.py construct | measured matrices are arbitrary functions of the ansatz and the call number; printed energies omitted | MitModel |
| transforms/_para_fermion.py | strings over i, +, -, p, h | ParaModel |
| hamiltonian/qubit.py (Pauli strings, order = number of qubits) | smaller orders raise; eigenvalue not modelled | QHamModel |
| acse/acse.py ('rho' back end: build, _generate_circuit, _run_acse, reset), _euler_acse.py | step operators are an arbitrary sequence; circuits of a layer an arbitrary function | RhoModel |
| operators/_operator.py (norm, null, __rmul__, truncate, clifford) | dictionary look-up with Python's hash and equality of strings, string objects and integers | OpMoreModel |
| acse/_quant_A_acse.py (solveqACSE, _runexpiH), instructions/_instruct_pauli.py (_applyH) | exact circuit and tomography; the step is a real number, the half angles are real cosines and sines | QuantModel |
| tools/util/Utilities.py | device and program given as tables (pickle and QASM files not read); random numbers are arguments; generate_really_random is random.sample itself | UtilModel |
| tomography/_tomography.py: a whole run (plan, set, simulate on a state vector, construct), acse/_store_acse.py evaluate | Jordan-Wigner; no transpilation, ancillas, initial_clifford, simplify='comparison' or post-processing | PlanModel |
| instructions/_instruct_pauli.py PauliSet on an ansatz, vqe/vqe.py evaluation circuit | sym=False items, default mapping, Jordan-Wigner | ConsModel |
| acse/_euler_acse.py, acse/acse.py _get_A (relative threshold) and _generate_circuit | values of the step; closed=1, no splitting, Jordan-Wigner, complex numbers | EulerModel |
| acse/acse.py build, _get_A, _run_acse, run, _check for a whole run with method 'euler' | state-vector circuits and tomographies of PlanModel and EulerModel; update 'classical', convergence type 'norm', no splitting, no max_depth, complex numbers | IterModel |
| tools/_stabilizer.py StabilizedCircuit; the gates of core/primitives/_base.py that it records; tomography _stabilizer and build_stabilizer; 'encoded' in processes/_process_stabilizers.py | rows of booleans; loops with fuel; the branch Z...Z of the filter is that of SfModel | ScModel |
| vqe/adapt.py l.114-131 (circuit of one evaluation) | default mapping, FermiStrings |
| vqe/vqe.py l.124-154, vqe/adapt.py l.141-171 (numerical gradients over the reals) | GradModel.v |
| hamiltonian/molecular.py l.410-442 (pivoted Cholesky loop), l.510-553 (Givens rotations) | CholModel.v, GivModel.v |
| tomography/_reduce_circuit.py l.174-235, __graph.py l.32-78 (dispatch) | CmpModel.v |
| tomography/_tomography.py l.857-914 (resampling), l.946-1071 (batches) | ErrModel.v, BatchModel.v |
| hamiltonian/fermionic.py l.226-247 | SepModel.v |
| tomography/_tomography.py l.246-310, l.840-849 with counts, processes/_process_counts.py l.36-48 | ShotModel.v |
| acse/acse.py l.366-374, l.810-819 | VarModel.v |
| tomography/_constant_tomography.py l.86-150 (ReducedTomography) on a state vector | The inherited parts as in PlanModel; Jordan-Wigner transform | RtomModel |
| hamiltonian/fermionic.py l.116-139 (_build_projected_K2) | The test for discarding a string is a parameter; no active space in the theorem | ProjModel |
| hamiltonian/molecular.py l.461-500, l.554-584 (Cholesky operators) | Up to the transform; the call clean(1e-8) after it raises | CholOpModel |
| tools/rdm/_spin_rdm.py l.215-330 (analysis) | The printing is left out; eigvalsh is a parameter; 1/(Ne-1) is given | AnaModel |
| tomography/_qubit_tomography.py l.102-149, 180-212, 216-333, 335-377 (whole runs) | state vector backend; layout, transpilation, ancillas, initial_clifford, simplify='comparison' left out | QtomModel |
| acse/_store_acse.py l.73-105 (analysis, fermionic models) | Printing, np.real and the cut 1e-10 left out; eigvalsh is a parameter; 1/(Ne-1) is given | ReportModel |
| acse/_line_search_acse.py l.285-337 (the interpolations) | real numbers; nan, infinities and exceptions are None; np.linalg.solve is Cramer's rule | InterpModel |
| core/primitives/_pauli_strings.py l.8-25 (apply_clifford_operation) and its calls before the reference | the handlers that end the program are None | IclModel |
| core/primitives/_special.py (h2_hamiltonian, xy_yx_simple, xy_yx_ih_simple, xy_yx_gate with v2=True) | angles are pairs (cos, sin) of the half angle, products with scaling are given; v2=False left out | SpecialModel |
| tools/_chemistry.py gen_spin_1ei_lr | arrays as functions; regions other than full and active left out | LrModel |
| tools/rdm/_spin_rdm.py symmetric_block | arrays as functions | UpBlockModel |

### Parts of /repo that are not modelled

* Code that cannot run as pinned: `tools/rdm/_compact_rdm.py` and `tools/_statistics.py` (syntax errors), `tools/rdm/_gpc.py`,
  `_hrdm.py`, `_rotations.py` (undefined names, not imported), `hamiltonian/qubit.py:_generate_reduced_hamiltonian` (undefined
  `mapping`), `hamiltonian/single_qubit.py`, `two_qubit.py`, `three_qubit.py` (undefined `QubitOperator`), the qRDM constructor
  (undefined `self.s2s`, `self.v`), `tomography/__graph.py` with 'rlf' (numpy not imported), `tomography/symmetry/_project.py`
  (stub), `tomography/__constant_project.py` (undefined `perm`), `storage/_cqe_storage.py`, `PartialJordanWigner` (undefined
  `QubitZString`), the ordered strings of `transforms/_mixed_transform.py` (undefined `OrderedString`),
  `transforms/_para_bravyi_kitaev.py` (not imported), `instructions/_instruct_tq_restrict.py` (undefined `xy_yx_simple`),
  `instructions/_instruct_stabilizer.py` (missing methods), `instructions/_instruct_exact_unitary.py` (undefined `Operator`),
  `opts/stochastic/sgd.py`, `opts/simplex/hybrid.py` (undefined names), `opts/simplex/lagarias.py` (`AdaptiveNelderMead`, undefined
  `nelder_mead_lagarias`), the lines of `hamiltonian/molecular.py:pivoted_chol` that obtain its matrix (undefined `rotate_spatial_ei2`) and that build
  its operators after the sums modelled in CholOpModel (`clean(1e-8)`: clean takes no argument).
* `hamiltonian/molecular.py:_build_operator` ends in `clean(1e-8)` and raises (clean takes no argument): MolecularHamiltonian can only be built with
  generate_operators=False. The operators of C66 are those it holds before that call.
* Code that only calls other programs: `maple`, the qiskit back ends, pyscf drivers, nevergrad.
* The mixed transform for single strings (a dispatch on the type of the string).

### Properties that are false of the code

Each is a theorem `..._refuted` with a witness, in the `Prop_*.v` file of its group.

* C06 subtraction changes its right operand; C07 combining operators changes earlier ones (shared string objects).
* C16, C17 the parity and Bravyi-Kitaev transforms multiply the letters in reverse order: wrong sign for two or more
  ladder letters.
* C18 the inverse Jordan-Wigner transform uses the wrong Z chain; C21 `order_as_D_matrix` does not return on strings of one
  kind of letter, and gives 1 + n for a hole.
* C19 the parity-qubit-particle transform does not map ladder letters to ladder matrices.
* C27 PauliSet reuses a stale variable; C28 applying Y applies another matrix; C29 CNOT counts disagree with circuits.
* C30, C31 the RDM enumerations miss or repeat elements; C33 permutation signs are wrong from n = 4; C35, C36 for p = 4;
  C37 wedge product.
* C32, C98, C136 the strings shorten an ascending list of indices with equal neighbours in place: the operator of a diagonal
  element of the 1-RDM cannot be built, and a 1-RDM tomography with real=True always raises.
* C42 the 'lnm' variant loses its best point; C43 the simplex is not sorted (4 vertices with ties, 5 distinct);
  C45 line search bracket and step; C46 the particle swarm cannot be initialised; C61 lower values seen are discarded;
  C62 driver with 'ls'; C63 gradient descent counter and monotonicity.
* C55 partial trace misses the factor 2^k; C56 `!=` is not the complement of `==`.
* C66 the operators of a molecular Hamiltonian with a frozen core miss the core mean field.
* C51 filt loses shots for traced qubits in descending order; C52 extend_wf with unequal active spaces; C53 swap table.
* C44 a line search that hits its iteration limit can report success without strong curvature or with the gradient of another
  step; C47 max_iter = 0 and max_depth; C49 truncation can turn descent into ascent; C50 Newton step.
* C68 L-BFGS: with two stored pairs the direction can be an ascent direction; the newest pair is ignored.
* C70 the HZ update never applies its formula.
* C72 the operator built from the compact residual vector lacks the adjoint terms.
* C73 the norm check of the quantum ACSE solver fails near convergence.
* C74 mixed-spin doubles are missing for orbital layouts where a virtual spin-up orbital precedes an occupied one.
* C76 the stored density matrix is not updated for nonnegative energies and can be replaced by one of higher energy.
* C77 RunVQE has no iteration limit: max_iter is ignored and the counter never advanced.
* C86 partial traces of symbolic arrays and circuits are transposed; partial_trace of an Operator returns nothing.
* C87 DensityMatrix.partial_trace is wrong for qubits not in ascending order; DensityMatrix.observable always raises.
* C89 a State can be multiplied by a circuit only once.
* C96 transpose of an RDM returns it unchanged; complex multiples are refused.
* C97 spatial RDMs report S_z = 0 and a wrong S^2; interleaved orbital orders fail.
* C104: `generate_spin_2ei(region='active', new_ei=old)` adds the new integrals onto the old ones (the lines that clear the entries are commented out): recomputing with unchanged coefficients doubles every entry.
* C105: `reorder` compares the original occupations after it has exchanged orbitals: occupations 2, 1, 3 end up as 1, 3, 2.
* C111 BFGS optimizer: a first iterate at the origin is taken for stuck and the next step raises; endless line search on a linear function; stale best value on re-initialisation.
* C115 ADAPT: raises after the first optimisation with simplex optimisers; a zero iteration limit is no limit.
* C119: with the shift mitigation on, `build` raises unless `split_ansatz` is set and the residual is a vector (acse.py l.486-487, _check_acse.py l.11-13); with a vector residual the first statement of each protocol, `currS+testS`, exits. Besides, `acse.log` (read by 'full') and `s1` (read by 'zero') are never defined.
* C120: the parafermion transform uses positions N-2, N-3, ... for its Z chain instead of 0 .. q-1: a + on the middle of three qubits becomes its negative.
* C124: `reset` of a density-matrix run applies only the last layer of a closed ansatz to the initial state, or leaves open layers in the ansatz although they are already in the density matrix; an empty step operator applies the last layer once more.
* C125: `Operator([s, s])` keeps the last of two equal strings instead of adding them.
* C127: `number*operator`, `truncate` and `clifford` raise on every non-empty operator (look-up by string object or by integer index, missing attribute `sym`); the S table of `clifford` maps X to -Y and Y to -X, which no invertible matrix does.
* C129: on states with a complex 2-RDM the quantum residual contains Im<a+a+aa>/step, which has no limit (example 3|110> + i|101>, where the true residual is 0).
* C131 three_steps can contain qubits at distance 2 (ring of five); C133 mutate_sequence ignores the part to keep and the search for a single qubit never ends on a triangle; C135 fitness_qasm raises with verbose=True.
* **C141** (PauliSet): the Operator i pi/4 (XYI + IXY - IYX - YXI), in this order of strings, is the sum of two single excitations and conserves the number of particles. The circuit takes it string by string and moves the state 001 to 111 with amplitude -1/2.
* C151 `apply_si` and `apply_h` of core/primitives/_base.py raise NameError (`pi`), so no stabilizer circuit with an X or Y in its group can be applied.
* C152 `_measure_stabilizer_z_string` always raises KeyError (`fetch[0]`).
* C153 the fixed sign rule of `_filter_encoded_symmetries` drops all outcomes of states with the right electron number.
* C154 stabilized circuits are right for qubit-wise commuting groups only.
* C155 `_get_HF_rdm` looks S^2 up in a dictionary with the keys 0, 0.5, -0.5 and 1: other spin projections raise KeyError.
* C163 comparing measurement groupings raises by default, and returns measurements that do not determine a string for 'mc' or for the strategy 'default' after another.
* C164 a batch of more than one hundred tomographies, or a second run of a batch, returns results under other names or to other tomographies.
* C165 estimating the error replaces the measured counts; the default sample size raises for 1000 shots.
* C170: the symmetry projected 1-RDM with real=True raises (C170_one_body_refuted): the operator of a diagonal element cannot be built, as in C32 and C136.
* C174: the operators of the Cholesky decomposition do not add up to the Hamiltonian (C174_decomposition_refuted): one orbital with all integrals 1.
* C176_one_body_refuted: the run for the 1-RDM with real=True raises (the operators of the diagonal elements cannot be built, C98)
* C178_particle_number_refuted: for a determinant of three electrons analysis prints N = 6 (the trace of the 2-RDM)
* C179_reversed_bracket_refuted: for t^3 - 3t in the bracket from 2 down to 0 the cubic step is the maximum at -1, not the minimum at 1
* C180_reference_refuted: with initial_clifford 'H' and one electron on one qubit the reference operator Y is applied as X: <X> = 1 instead of -1
* C180_table_refuted: the S row of Operator.clifford belongs neither to the gate S that initial_clifford applies nor to its inverse
* C181_gate_refuted: xy_yx_gate ignores its second angle and is not the rotations about XY and YX; it takes |00> in part to |10>
* C182_virtual_refuted: with region='full' gen_spin_1ei_lr leaves the entries of the virtual orbitals at 0
* C183_numbering_refuted: with the spin-up orbitals numbered 0, 2 symmetric_block adds entries of different orbitals together and loses the entry of the pair
* C65 symmetry generators need not commute with each other.
* C23: with the option 'mc' the merge can stop before covering (recorded with the theorem).
