{"claims": [
  {"property": "C01", "status": "proved", "theorems": ["C01_pauli_product_is_matrix_product"], "note": "Every coefficient ring, every number of qubits; unequal lengths excluded."},
  {"property": "C02", "status": "proved", "theorems": ["C02_letters_round_trip", "C02_vectors_round_trip"], "note": "Both directions."},
  {"property": "C03", "status": "proved", "theorems": ["C03_operator_addition"], "note": "For any string class; coefficients are exact (no rounding)."},
  {"property": "C04", "status": "proved", "theorems": ["C04_operator_product"], "note": "Residual list of the dropped terms made explicit."},
  {"property": "C05", "status": "proved", "theorems": ["C05_self_keyed", "C05_no_small", "C05_remove", "C05_clean"], "note": "Object-level (heap) model; all histories of the modelled calls."},
  {"property": "C06", "status": "partial", "theorems": ["C06_subtrahend_refuted", "C06_self_difference_refuted", "C06_difference_partial", "C06_string_difference_partial"], "note": "False in general: the subtrahend is negated in place and A - A is -2A. Proved for operands sharing no string object: result, effect on B, frame."},
  {"property": "C07", "status": "partial", "theorems": ["C07_independence_refuted", "C07_independence_partial"], "note": "False in general (shared string objects are negated by a later subtraction). Proved for every non-subtracting call."},
  {"property": "C08", "status": "proved", "theorems": ["C08_fermi_constructor"], "note": "Includes termination of both loops and the vanishing products."},
  {"property": "C09", "status": "proved", "theorems": ["C09_fermi_product", "C09_operator_product"], "note": "Equal lengths; strings and fermionic Operators."},
  {"property": "C10", "status": "proved", "theorems": ["C10_H_is_adjoint", "C10_H_involution"], "note": "Adjoint for all coefficients (identity included); involution for non-zero coefficients."},
  {"property": "C11", "status": "proved", "theorems": ["C11_qubit_constructor", "C11_qubit_product", "C11_qubit_string_is_tensor_product", "C11_empty_product_raises"], "note": "The empty operator list raises IndexError in the code; shown separately."},
  {"property": "C12", "status": "proved", "theorems": ["C12_jordan_wigner_exact", "C12_jordan_wigner_size"], "note": "Under the stated threshold hypothesis; also size 2^k."},
  {"property": "C13", "status": "proved", "theorems": ["C13_jordan_wigner_CAR"], "note": "All pairs of modes."},
  {"property": "C14", "status": "proved", "theorems": ["C14_transform_is_linear", "C14_pool_equals_serial", "C14_jordan_wigner_operator"], "note": "Pool.map modelled as order-preserving chunked map."},
  {"property": "C15", "status": "proved", "theorems": ["C15_qubit_transform_exact"], "note": "Letters i,z,+,-,p,h."},
  {"property": "C16", "status": "partial", "theorems": ["C16_encoding_is_a_basis_partial", "C16_parity_refuted", "C16_parity_partial"], "note": "Refuted: reversed product order gives sign (-1)^(k(k-1)/2). Proved for every string up to exactly that sign."},
  {"property": "C17", "status": "partial", "theorems": ["C17_encoding_is_a_basis_partial", "C17_bravyi_kitaev_refuted", "C17_bravyi_kitaev_partial"], "note": "Refuted: reversed product order gives sign (-1)^(k(k-1)/2). Proved for every string and every size up to exactly that sign."},
  {"property": "C18", "status": "partial", "theorems": ["C18_inverse_partial", "C18_inverse_operator_partial", "C18_inverse_refuted"], "note": "False: the Z chain is wrong for X or Y strictly inside. Proved (exact coefficients) when X and Y occur only on the first or the last qubit."},
  {"property": "C19", "status": "partial", "theorems": ["C19_ladder_refuted", "C19_without_minus_partial", "C19_plus_is_lowering_partial"], "note": "Refuted: '-' has coefficient 3i/2. Proved: '+' is mapped to the lowering matrix, 'p' and 'h' are right."},
  {"property": "C20", "status": "proved", "theorems": ["C20_trim_is_block", "C20_trim_order", "C20_step", "C20_sector", "C20_parity_free"], "note": "The exact sector theorems assume the cleaning threshold removes only zeros; C20_step holds for any threshold with the dropped terms explicit. initial=True (letters outside the sector kept) is modelled, no theorem. S[q] must be Y or Z, which the code does not check."},
  {"property": "C21", "status": "partial", "theorems": ["C21_order_partial", "C21_identity_partial", "C21_diverges", "C21_termination_refuted", "C21_hole_refuted"], "note": "False: the call does not return on strings with only creators or only annihilators, and a hole gets the wrong sign. Proved for every string without holes and with both kinds of letter, and for identities."},
  {"property": "C22", "status": "proved", "theorems": ["C22_commute", "C22_qwc", "C22_qwc_implies_commute"], "note": "Equal lengths. commute against the matrices, qwc against the letters."},
  {"property": "C23", "status": "proved", "theorems": ["C23_conflict_graph", "C23_grouping_covers", "C23_grouping_returns", "C23_commuting_groups_can_stop"], "note": "The colouring is an arbitrary list of colours. The relation 'mc' can stop (shown)."},
  {"property": "C24", "status": "proved", "theorems": ["C24_counts_average", "C24_counts_bounded", "C24_counts_identity", "C24_statevector_average", "C24_statevector_pipeline"], "note": "Counts and state vector branches; the latter composed with the basis change."},
  {"property": "C25", "status": "proved", "theorems": ["C25_basis_change_measures_the_string", "C25_outcome_average", "C25_rebasing_the_statevector"], "note": "Unitary, conjugation, outcome averages, and re-basing of the stored state vector up to a phase."},
  {"property": "C26", "status": "proved", "theorems": ["C26_gadget_is_the_exponential", "C26_identity_emits_nothing", "C26_gates_in_range", "C26_sequence_of_gadgets"], "note": "Exact, for every angle; also lists of gadgets and qubit ranges."},
  {"property": "C27", "status": "partial", "theorems": ["C27_own_coefficient_partial", "C27_own_coefficient_refuted", "C27_first_complex_stops_refuted"], "note": "False for complex coefficients: the previous term's value is used, or the program stops. Proved for real or imaginary ones."},
  {"property": "C28", "status": "partial", "theorems": ["C28_apply_string_partial", "C28_apply_string_on_basis_states_partial", "C28_apply_string_refuted"], "note": "False: Y acts as X. The matrix actually applied is proved; right on basis states up to a phase."},
  {"property": "C29", "status": "partial", "theorems": ["C29_cnot_count", "C29_cnot_count_of_list_partial", "C29_cnot_count_of_list_refuted"], "note": "One Operator: proved. List of Operators: false with identity terms, proved without."},
  {"property": "C30", "status": "partial", "theorems": ["C30_enumeration_default_layout_partial", "C30_1body_any_layout_partial", "C30_2body_any_layout_partial", "C30_alternating_layout_refuted", "C30_custom_layout_refuted"], "note": "Proved for the default layout, p=1,2,3. False for the alternating layout (3-body) and custom layouts."},
  {"property": "C31", "status": "partial", "theorems": ["C31_4body_refuted", "C31_4body_no_three_alpha", "C31_4body_never_ascending"], "note": "False: the 4-body list misses all elements with three alpha creators and orders the last creators wrongly."},
  {"property": "C32", "status": "partial", "theorems": ["C32_rdme_operator", "C32_ascending_raises", "C32_elements", "C32_diagonal_refuted", "C32_rdm_hermitian"], "note": "Every state, including hermiticity of the element. FermiString and QubitString shorten an ascending list of indices with equal neighbours in place, so the second string of such an element raises IndexError: the theorem covers all other index lists, and all elements of the 2- and 3-RDM; the diagonal of the 1-RDM is refuted."},
  {"property": "C33", "status": "partial", "theorems": ["C33_all_permutations_once", "C33_no_repetition", "C33_signs_up_to_three_partial", "C33_signs_refuted"], "note": "Each permutation once for every length. Signs right up to length 3, wrong at 4."},
  {"property": "C34", "status": "proved", "theorems": ["C34_ascending_tuples", "C34_each_once"], "note": "Both directions and no repetition."},
  {"property": "C35", "status": "partial", "theorems": ["C35_hf_is_the_determinant", "C35_hf_antisymmetric", "C35_hf_trace", "C35_hf_4body_refuted"], "note": "Proved for p=1,2,3 against the determinant state, with trace and antisymmetry. p=4 false (signs)."},
  {"property": "C36", "status": "partial", "theorems": ["C36_reduce_order", "C36_reduce_order_contracts", "C36_reduce_antisymmetric", "C36_reduce_hermitian", "C36_reduce_hf", "C36_reduce_4body_refuted"], "note": "Proved for p=2,3. For p=4 the code returns zeros."},
  {"property": "C37", "status": "partial", "theorems": ["C37_wedge_square_partial", "C37_wedge_covered_partial", "C37_wedge_refuted"], "note": "False in general (terms are dropped). Proved for D1 ^ D1 and under an explicit coverage condition."},
  {"property": "C38", "status": "proved", "theorems": ["C38_functional", "C38_energy"], "note": "Energy identity for every antisymmetric tensor, and with the expectation of the Hamiltonian for the 2-RDM of every state with Ne particles. _build_projected_K2 is in C172."},
  {"property": "C39", "status": "proved", "theorems": ["C39_fermionic_operator", "C39_qubit_operator", "C39_core_outside_arrays"], "note": "Exact after dropping the integrals below the threshold; the qubit operator up to terms below the cleaning threshold. Only the Jordan-Wigner transform. Arrays smaller than the orbital range raise."},
  {"property": "C40", "status": "proved", "theorems": ["C40_generators_commute", "C40_generators_complete", "C40_generators_independent", "C40_row_space"], "note": "Commutation, completeness, independence and row space. The symbolic solution is modelled by its value."},
  {"property": "C41", "status": "proved", "theorems": ["C41_string_round_trip", "C41_vector_round_trip", "C41_symplectic_product"], "note": ""},
  {"property": "C42", "status": "partial", "theorems": ["C42_nelder_mead", "C42_lagarias_partial", "C42_lagarias_step_refuted"], "note": "'nm': all objectives, dimensions >= 1, parameters, draws and steps. 'lnm': holds while no step raises; a step can raise (refuted)."},
  {"property": "C43", "status": "partial", "theorems": ["C43_order_pairs", "C43_order_sorted_partial", "C43_order_refuted", "C43_order_four_refuted"], "note": "Pairing and the smallest value first: every simplex. Sorted for at most three vertices; false at four (ties) and five (no ties)."},
  {"property": "C44", "status": "partial", "theorems": ["C44_success_partial", "C44_strong_wolfe", "C44_trials", "C44_stored_state", "C44_exception_means_nonnegative", "C44_strong_curvature_refuted", "C44_gradient_mismatch_refuted", "C44_nonnegative_energy_refuted"], "note": "Proved: strong Wolfe conditions with matching value and gradient when the iteration limit is not hit; decrease, matching value and weak curvature for every reported success; trial range and count; the stored state. False after the limit: strong curvature, and the gradient may belong to another step. The wrapper raises for non-negative energies."},
  {"property": "C45", "status": "partial", "theorems": ["C45_bisecting", "C45_bisecting_shift_refuted", "C45_bisecting_unbounded", "C45_backtracking", "C45_backtracking_stops", "C45_backtracking_alpha_refuted"], "note": "Bisecting: proved when the left value belongs to the left end; false with a shift. Backtracking: proved with first step 1; the alpha_bar argument is ignored (refuted)."},
  {"property": "C46", "status": "partial", "theorems": ["C46_swarm_initialize_fails", "C46_swarm_partial"], "note": "initialize raises for every input in the module as it is (undefined names). With the names supplied the property holds for every run of swarm steps."},
  {"property": "C47", "status": "partial", "theorems": ["C47_terminates_with_lowest", "C47_stopping", "C47_zero_iterations_refuted", "C47_depth_limit_refuted"], "note": "Proved for every back end and max_iter >= 1. False for max_iter = 0 (never ends) and at max_depth (exception)."},
  {"property": "C48", "status": "proved", "theorems": ["C48_total", "C48_layers", "C48_closed", "C48_deep", "C48_subtract"], "note": "Proved for every ansatz, operator and depth, value level."},
  {"property": "C49", "status": "partial", "theorems": ["C49_pairs", "C49_descent_partial", "C49_descent_refuted"], "note": "Pairing proved for every vector, order and method. Descent proved when both entries of each pair contribute equally; false otherwise (twice one entry is subtracted)."},
  {"property": "C50", "status": "partial", "theorems": ["C50_accepted_step_partial", "C50_trust_radius", "C50_quadratic_minimum", "C50_hardware_always_rejects", "C50_negative_curvature_refuted", "C50_lowest_trial_refuted"], "note": "False: the lowest trial is computed and ignored, negative curvature raises, hardware back ends always reject. Proved: trust radius and stored energy, exact minimum of a quadratic."},
  {"property": "C51", "status": "partial", "theorems": ["C51_filt_partial", "C51_get_trace", "C51_order_refuted", "C51_all_traced_refuted"], "note": "Proved for traced qubits in ascending order (what get_trace returns) that are not all qubits. False otherwise: descending order and tracing all qubits lose shots."},
  {"property": "C52", "status": "partial", "theorems": ["C52_map_wf", "C52_extend_wf_partial", "C52_extend_wf_refuted"], "note": "map_wf proved for every permutation. extend_wf proved for equal numbers of active alpha and beta orbitals and false for unequal numbers."},
  {"property": "C53", "status": "partial", "theorems": ["C53_table_partial", "C53_table_refuted", "C53_gates_ignore_swaps", "C53_gates_refuted"], "note": "False: gates never read the table of swaps, and the table is wrong when swaps share a qubit. Proved: the table for disjoint swaps."},
  {"property": "C54", "status": "proved", "theorems": ["C54_number", "C54_spin_projected", "C54_spin_plus", "C54_spin_minus", "C54_spin_z", "C54_spin_squared"], "note": "Number, Sz, S+ and S- exact; S^2 up to terms below the cleaning threshold, up modes pairwise distinct and down modes pairwise distinct."},
  {"property": "C55", "status": "partial", "theorems": ["C55_partial_trace_refuted", "C55_partial_trace_partial"], "note": "False in general: the factor 2^k is missing. Proved with the factor."},
  {"property": "C56", "status": "partial", "theorems": ["C56_inequality_refuted", "C56_pauli_partial", "C56_fermi_partial"], "note": "False: x != x is True. Exact characterisation proved."},
  {"property": "C57", "status": "proved", "theorems": ["C57_commutator"], "note": "Operator arguments (a bare string raises in the code)."},
  {"property": "C58", "status": "proved", "theorems": ["C58_initial_determinant"], "note": "Jordan-Wigner, no Clifford."},
  {"property": "C59", "status": "proved", "theorems": ["C59_rdm_reconstruction"], "note": "Default layout, p=1,2,3; enumeration, element operators and symmetrisation composed. For p=1 with real=True the hypothesis cannot be met (C32): the operators of the diagonal cannot be built."},
  {"property": "C60", "status": "proved", "theorems": ["C60_string_sum", "C60_string_scale", "C60_string_eq"], "note": ""},
  {"property": "C61", "status": "partial", "theorems": ["C61_lowest_evaluated_partial", "C61_lowest_evaluated_refuted"], "note": "False; exact description of what a step may discard."},
  {"property": "C62", "status": "partial", "theorems": ["C62_driver_stops_partial", "C62_driver_line_search_refuted"], "note": "Proved for optimisers with both attributes; false for 'ls'."},
  {"property": "C63", "status": "partial", "theorems": ["C63_gradient_descent", "C63_evaluation_counter_refuted", "C63_best_monotone_refuted"], "note": "Point and value proved; counter and monotonicity false."},
  {"property": "C64", "status": "proved", "theorems": ["C64_decomposition"], "note": "Three passes of the loop always suffice."},
  {"property": "C65", "status": "partial", "theorems": ["C65_generators_mutually_commute_refuted"], "note": "False: generators of ZI are ZI, IZ, IX."},
  {"property": "C66", "status": "partial", "theorems": ["C66_active_space_energy", "C66_operator_energy_refuted"], "note": "Proved for K2 plus the core energy. False for the operators: they use the bare one-electron integrals and miss the interaction with the core. As pinned MolecularHamiltonian raises while building the operators (clean(1e-8): clean takes no argument), so K2 is only obtained with generate_operators=False."},
  {"property": "C67", "status": "proved", "theorems": ["C67_secant", "C67_descent", "C67_update_keeps", "C67_first_trial"], "note": "Rational arithmetic; divisions by zero are errors of the model and proved absent. Line search and truncation are arbitrary functions meeting the stated conditions (C44, C49)."},
  {"property": "C68", "status": "partial", "theorems": ["C68_one_pair_partial", "C68_ascent_refuted", "C68_newest_pair_refuted", "C68_history", "C68_direction_exists"], "note": "Proved for at most one stored pair. False for two (the first loop uses the newest gradient change for all pairs; ascent witness), and the newest pair is not used for the next direction."},
  {"property": "C69", "status": "proved", "theorems": ["C69_sufficient_descent"], "note": "Rational arithmetic, no truncation; holds for all five updates thanks to the overlap reset."},
  {"property": "C70", "status": "partial", "theorems": ["C70_update_partial", "C70_hz_refuted"], "note": "Proved for FR, HS, PR, PR+. False for HZ: undefined names, the exception is caught and beta is 0."},
  {"property": "C71", "status": "proved", "theorems": ["C71_residual", "C71_antisymmetric", "C71_anti_hermitian", "C71_gradient"], "note": "Exact arithmetic; measured RDMs given. With three or more particles the 3-RDM is required (otherwise ResidualError); a 3-RDM with exactly two particles divides by zero in reduce_order."},
  {"property": "C72", "status": "partial", "theorems": ["C72_vector_operator", "C72_anti_hermitian_refuted"], "note": "Proved: full operator = vector operator minus its adjoint (spin conserving K2 and state, cutoffs that agree). False that the vector operator itself is anti-Hermitian."},
  {"property": "C73", "status": "partial", "theorems": ["C73_classical", "C73_quantum_partial", "C73_quantum_refuted"], "note": "Proved for the classical solver. False for the quantum solver with the default cutoff; it passes when the dropped part has norm below 1e-8."},
  {"property": "C74", "status": "partial", "theorems": ["C74_excitations_partial", "C74_unsorted_refuted", "C74_higher_excitations"], "note": "Proved when every occupied spin-up orbital precedes every virtual one. False otherwise: mixed doubles are dropped by a comparison of the two spin-up indices. Triples and quadruples are refused without singles and silently ignored with them."},
  {"property": "C75", "status": "proved", "theorems": ["C75_ansatz", "C75_generator", "C75_conserves"], "note": "Jordan-Wigner transform, exact arithmetic, real parameters whose sixteenth is not negligible. No residual: terms that cancel cancel exactly."},
  {"property": "C76", "status": "partial", "theorems": ["C76_stored_partial", "C76_positive_refuted", "C76_gradient_refuted"], "note": "Proved when the optimiser's best value is the lowest evaluated energy and negative. False for nonnegative energies (the threshold starts at 0) and when gradient evaluations go below the optimiser's best value."},
  {"property": "C77", "status": "partial", "theorems": ["C77_stops_partial", "C77_limit_refuted"], "note": "Proved that the run stops exactly at the first step meeting a criterion. False that the number of iterations is limited: the counter is never advanced and the requested limit is not used."},
  {"property": "C78", "status": "proved", "theorems": ["C78_gradient", "C78_points"], "note": "Rational arithmetic; exact for quadratic dependence."},
  {"property": "C79", "status": "proved", "theorems": ["C79_single", "C79_controlled_flip", "C79_outside"], "note": "Exact arithmetic; 1/sqrt 2 is any element whose square is 1/2."},
  {"property": "C80", "status": "proved", "theorems": ["C80_controlled", "C80_hadamard", "C80_exchange"], "note": "The angle enters as its cosine and sine with cos^2+sin^2=1, the values the code computes at its half or quarter angle."},
  {"property": "C81", "status": "proved", "theorems": ["C81_swap"], "note": ""},
  {"property": "C82", "status": "proved", "theorems": ["C82_unitary"], "note": ""},
  {"property": "C83", "status": "proved", "theorems": ["C83_string", "C83_operator", "C83_refused"], "note": ""},
  {"property": "C84", "status": "proved", "theorems": ["C84_qubit", "C84_pauli"], "note": "The threshold test is an arbitrary predicate. For Pauli strings: accepted entries divided by 2^n must not be below the cleaning threshold; equality up to strings with coefficients below it."},
  {"property": "C85", "status": "proved", "theorems": ["C85_array"], "note": ""},
  {"property": "C86", "status": "partial", "theorems": ["C86_symbolic_refuted", "C86_circuit_refuted", "C86_operator_refuted", "C86_transposed_partial"], "note": "False: symbolic arrays and circuits give the transposed trace (proved; so correct for symmetric results), circuits further divided by 2^k; partial_trace(Operator) prints a message and returns nothing because the type test compares with type(Operator)."},
  {"property": "C87", "status": "partial", "theorems": ["C87_density_refuted", "C87_density_partial", "C87_observable_refuted", "C87_average_partial"], "note": "Proved for qubits in ascending order. False for other orders (wrong digits are dropped), and observable() always raises: it indexes a number. The number it computes is the average."},
  {"property": "C88", "status": "proved", "theorems": ["C88_order"], "note": ""},
  {"property": "C89", "status": "partial", "theorems": ["C89_repeat_refuted", "C89_once_partial"], "note": "Proved for the first application. False afterwards: the vector is stored transposed and the next product has mismatched shapes."},
  {"property": "C90", "status": "proved", "theorems": ["C90_calls_keep_elements", "C90_contract", "C90_expand", "C90_switch", "C90_trace", "C90_observable"], "note": "r > 0 orbitals and order >= 1; the operator given to observable has the matrix shape."},
  {"property": "C91", "status": "proved", "theorems": ["C91_elementwise", "C91_different_systems_refused", "C91_real_multiples"], "note": "Entrywise exact arithmetic. Products of RDMs are C37; numbers of other types C96."},
  {"property": "C92", "status": "proved", "theorems": ["C92_Sz", "C92_S2", "C92_spin_properties"], "note": "Exact arithmetic. get_spin_properties needs Ne >= 2 (division by Ne-1) and does nothing for order 3."},
  {"property": "C93", "status": "proved", "theorems": ["C93_spatial_2rdm", "C93_spatial_1rdm", "C93_reduce_commutes", "C93_trace", "C93_method", "C93_flip"], "note": "Spin-up orbitals numbered 0..N-1; other orders fail, see C97. switch_alpha_beta: any order."},
  {"property": "C94", "status": "proved", "theorems": ["C94_block_roundtrip", "C94_block", "C94_rebuilt_elements", "C94_singlet_rebuilt"], "note": "The rebuilt array is real in the code, so real blocks are meant."},
  {"property": "C95", "status": "proved", "theorems": ["C95_cumulant", "C95_cumulant_array", "C95_cumulant_hf", "C95_triple_product", "C95_reconstruct_hf"], "note": "reconstruct with the Valdemoro option and Ne >= 3 (it returns zeros below); for other states the product of the cumulant with the 1-RDM is subject to C37."},
  {"property": "C96", "status": "partial", "theorems": ["C96_transpose_refuted", "C96_transpose_does_nothing", "C96_other_numbers_refused"], "note": "False: transpose drops the transposed copy and returns the object itself. False: a complex or numpy scalar is refused."},
  {"property": "C97", "status": "partial", "theorems": ["C97_other_orders_refused", "C97_spatial_Sz_is_zero", "C97_spatial_spin_refuted"], "note": "False: S_z of a spatial RDM is always 0 and S^2 of two parallel spins comes out as 5. False for orders: a spin-up orbital numbered N or higher makes spin_to_spatial fail."},
  {"property": "C98", "status": "partial", "theorems": ["C98_element", "C98_ascending_raises", "C98_diagonal_refuted", "C98_neither"], "note": "QubitString elements before the transform to Pauli strings (the transform is C05-C08's subject). FermiString and QubitString shorten an ascending list of indices with equal neighbours in place, so the second string of such an element raises IndexError; the diagonal of the 1-RDM is refuted."},
  {"property": "C99", "status": "proved", "theorems": ["C99_reconstruction", "C99_symmetry"], "note": "Exact arithmetic; values are exact expectations. Orders above 2 are not generated by the code. For the 1-RDM with real=True the hypothesis cannot be met (C98)."},
  {"property": "C100", "status": "proved", "theorems": ["C100_operator", "C100_energy"], "note": "The contraction uses the transposed integrals, equal to the integrals for real symmetric ones; with an active space the shapes of K2 and of the integrals differ and numpy raises. compact K2 not modelled."},
  {"property": "C101", "status": "proved", "theorems": ["C101_anti_hermitian", "C101_coefficients", "C101_array"], "note": "Arrays filled by tomography of the imaginary part (real=False, imag=True); real step. matrix=True returns minus the compact vector and is not modelled."},
  {"property": "C102", "status": "proved", "theorems": ["C102_one_electron", "C102_two_electron", "C102_two_electron_phys", "C102_two_electron_chem", "C102_symmetry"], "note": "Region full, no array passed. get_spin_ei, get_ei (pyscf) and gen_spin_2ei_QISKit (undefined fx) not modelled."},
  {"property": "C103", "status": "proved", "theorems": ["C103_hamiltonian", "C103_operator", "C103_energy"], "note": "Operator: all orbitals active and only zeros under the threshold (otherwise C39). Energy: real symmetric integrals."},
  {"property": "C104", "status": "partial", "theorems": ["C104_one_electron", "C104_two_electron_partial", "C104_two_electron_refuted"], "note": "One-electron part proved. Two-electron integrals are added to the old ones (the reset lines are commented out), so updating doubles them."},
  {"property": "C105", "status": "partial", "theorems": ["C105_orthogonal", "C105_permutation", "C105_sorted", "C105_order_refuted"], "note": "Signed permutation and the sorted case proved. Ordering fails for occupations 2, 1, 3."},
  {"property": "C106", "status": "proved", "theorems": ["C106_projected_element", "C106_returns", "C106_diagonal_raises"], "note": "Jordan-Wigner transform, FermiStrings. Strings below the thresholds of the code are accounted for in the remainder D. numpy's rank test is arbitrary, its solver is assumed to solve the system. An element with an odd number of ladder letters on alpha sites makes the projection raise KeyError (op[0]). FermiString and QubitString shorten an ascending list of indices with equal neighbours in place, so the second string of such an element raises IndexError (hypothesis intact of C106_returns)."},
  {"property": "C107", "status": "proved", "theorems": ["C107_diagonal_filter", "C107_diagonal_filter_rational", "C107_other_settings", "C107_average", "C107_parity", "C107_spin_parity"], "note": "Jordan-Wigner transform. round(x,5)==m is an argument that decides integers; the theorem is also stated for exact rationals. The default stabilizer (None) and 'custom' set no filter, so process raises AttributeError; the 'encoded' filter is not modelled."},
  {"property": "C108", "status": "proved", "theorems": ["C108_full", "C108_entries", "C108_active"], "note": "Orbital lists without repetitions and inside the determinants and the array."},
  {"property": "C109", "status": "proved", "theorems": ["C109_wolfe", "C109_stops", "C109_trial"], "note": "Rational arithmetic."},
  {"property": "C110", "status": "proved", "theorems": ["C110_positive", "C110_secant", "C110_inverse"], "note": "Rational arithmetic; holds also for runs in which a point is taken for stuck."},
  {"property": "C111", "status": "partial", "theorems": ["C111_progress_partial", "C111_stuck_refuted", "C111_endless_refuted", "C111_reuse_refuted"], "note": "Proved for runs in which no point is taken for stuck. Refuted in general: a first step that lands on the origin is taken for stuck (the history starts as zero rows) and the next call raises; the search does not return on a function decreasing at a constant rate; a second initialize of the same object compares with the old best value."},
  {"property": "C112", "status": "proved", "theorems": ["C112_simulated_average", "C112_steps_compose", "C112_iterated_average", "C112_unlisted_setting"], "note": "The square root of a diagonal entry d is only assumed to satisfy |root d|^2 = d; exact arithmetic; the 1e-14 skip is assumed to hold of zero only. No ancilla qubits."},
  {"property": "C113", "status": "proved", "theorems": ["C113_choice", "C113_terms", "C113_growth_keeps_the_circuit"], "note": "FermiString excitations (update 'q'), Jordan-Wigner transform."},
  {"property": "C114", "status": "proved", "theorems": ["C114_stops", "C114_ends", "C114_energies"], "note": "The optimiser is an arbitrary sequence of results; FermiString excitations, Jordan-Wigner transform. The residual of the initial state is not compared with the threshold."},
  {"property": "C115", "status": "partial", "theorems": ["C115_vector_optimiser_refuted", "C115_zero_limit_refuted"], "note": "False: an optimiser whose best point is a one-dimensional array (simplex methods) makes the first step raise, since its first entry is taken as the parameter list; a limit of zero is never reached."},
  {"property": "C116", "status": "proved", "theorems": ["C116_groups", "C116_prepared", "C116_too_many"], "note": "Jordan-Wigner transform; custom mappings are modelled but not covered by the theorems."},
  {"property": "C117", "status": "proved", "theorems": ["C117_schedule", "C117_never"], "note": "The calibration runs themselves are external."},
  {"property": "C118", "status": "proved", "theorems": ["C118_full", "C118_full_exact", "C118_current"], "note": "About the mitigation functions called with an operator residual; C119 shows a run never reaches that."},
  {"property": "C119", "status": "partial", "theorems": ["C119_shift_runs_refuted"], "note": "Refuted: no configuration works. An operator residual with split_ansatz raises in build, without split_ansatz the routine check raises, and with a vector residual the ansatz addition exits."},
  {"property": "C120", "status": "partial", "theorems": ["C120_parafermion_partial", "C120_parafermion_refuted"], "note": "Proved for strings with + and - only on the first and last qubit; refuted otherwise (the Z chain is built from the wrong end, and flips the sign of a + on the middle of three qubits)."},
  {"property": "C121", "status": "proved", "theorems": ["C121_matrix", "C121_too_long"], "note": "The lowest eigenvalue stored beside it is not modelled; smaller orders raise inside qRDM."},
  {"property": "C122", "status": "proved", "theorems": ["C122_closed"], "note": "The gates of a sequence of strings are taken to be those of its parts; Euler steps."},
  {"property": "C123", "status": "proved", "theorems": ["C123_open_layers"], "note": "Euler steps; ansatz made with closed = -k."},
  {"property": "C124", "status": "partial", "theorems": ["C124_reset_refuted", "C124_reset_open_refuted", "C124_idle_step_refuted"], "note": "Refuted three ways: closed ansatz (only the last layer is applied after reset), open layers (the layers are applied twice when the residual is measured), and an empty step (the last layer is applied again)."},
  {"property": "C125", "status": "partial", "theorems": ["C125_distinct_partial", "C125_list_refuted"], "note": "Holds for lists of distinct strings; refuted otherwise (a repeated string keeps only its last coefficient)."},
  {"property": "C126", "status": "proved", "theorems": ["C126_norm", "C126_null"], "note": "Pauli strings; distinct strings is what the dictionary guarantees."},
  {"property": "C127", "status": "partial", "theorems": ["C127_raises", "C127_clifford_raises", "C127_table", "C127_H", "C127_V", "C127_raise_refuted"], "note": "Refuted: all three raise on every operator with a term, and the table of clifford for S belongs to no change of basis (proved for every matrix); the tables for H and V do."},
  {"property": "C128", "status": "proved", "theorems": ["C128_limit", "C128_classical", "C128_empty"], "note": "Over the standard library's reals (axioms listed in DESIGN.md). Exact circuits and tomography."},
  {"property": "C129", "status": "partial", "theorems": ["C129_no_limit", "C129_complex_states_refuted"], "note": "Refuted: wherever the 2-RDM element has an imaginary part the measured value has no limit, for any Hamiltonian (proved); it grows like 1/step because only the imaginary part of the propagated RDM is read and the unpropagated one is not subtracted."},
  {"property": "C130", "status": "proved", "theorems": ["C130_tables", "C130_large_device"], "note": "Proved for all coupling maps."},
  {"property": "C131", "status": "partial", "theorems": ["C131_three_steps_refuted"], "note": "Refuted: ring of five qubits."},
  {"property": "C132", "status": "proved", "theorems": ["C132_simple_path", "C132_parameter_transfer", "C132_full_mutation"], "note": "Random numbers are arbitrary functions of the iteration; samples are arbitrary permutations."},
  {"property": "C133", "status": "partial", "theorems": ["C133_strand_ignored", "C133_mutation_refuted", "C133_one_qubit_refuted"], "note": "Refuted: the passed strand is thrown away in iteration 0 (proved for all inputs); the search for one qubit on a triangle never ends, for all random numbers."},
  {"property": "C134", "status": "proved", "theorems": ["C134_fitness_qasm", "C134_fitness_random_qasm", "C134_closeness", "C134_range", "C134_direction"], "note": "Rates are rational numbers; lookups that fail raise."},
  {"property": "C135", "status": "partial", "theorems": ["C135_verbose", "C135_verbose_refuted"], "note": "Refuted: verbose=True always raises (undefined f_ro)."},
  {"property": "C136", "status": "partial", "theorems": ["C136_tomography_rdm", "C136_returns", "C136_one_body_refuted", "C136_normalised"], "note": "Jordan-Wigner transform; the amplitude cut-off skips zeros only; exact arithmetic. A 1-RDM tomography with real=True always raises (C32), so the claim is refuted for p=1 with real=True; C136_returns is for p=2, 3."},
  {"property": "C137", "status": "proved", "theorems": ["C137_energy", "C137_energy_real"], "note": "Jordan-Wigner transform, exact arithmetic."},
  {"property": "C138", "status": "proved", "theorems": ["C138_variational"], "note": "Over the reals of the standard library (its three axioms)."},
  {"property": "C139", "status": "proved", "theorems": ["C139_ucc", "C139_blocks"], "note": "Jordan-Wigner transform; real angles of the standard library."},
  {"property": "C140", "status": "proved", "theorems": ["C140_state", "C140_rdm", "C140_variational"], "note": "Default mapping, Jordan-Wigner transform, exact arithmetic, no transpilation."},
  {"property": "C141", "status": "partial", "theorems": ["C141_any_operator_refuted"], "note": "False: exponentials are taken string by string in the order of the Operator; holds for the blocks of C139."},
  {"property": "C142", "status": "proved", "theorems": ["C142_energy", "C142_descent"], "note": "Exact arithmetic, Jordan-Wigner, closed=1 ansatz without splitting; assumes the coefficients of the layers are above the 1e-12 cutoff and the transform of the step drops nothing (shown for the example)."},
  {"property": "C143", "status": "proved", "theorems": ["C143_truncated"], "note": "The settings of _get_A without splitting; the array is the residual of C71."},
  {"property": "C144", "status": "proved", "theorems": ["C144_energy_bounds"], "note": "Two-body reduced Hamiltonian."},
  {"property": "C145", "status": "proved", "theorems": ["C145_window"], "note": "Exact arithmetic; runs in which the line search returns."},
  {"property": "C146", "status": "proved", "theorems": ["C146_state", "C146_count", "C146_transform", "C146_groups"], "note": "State-vector back end, Jordan-Wigner, the default orbital mapping. The layers must be regular: no coefficient below the cutoff 1e-12 and no odd-Y string whose coefficients cancel after a prefix of the layer."},
  {"property": "C147", "status": "proved", "theorems": ["C147_layer"], "note": "Exact arithmetic; the layer must be regular as in C146."},
  {"property": "C148", "status": "proved", "theorems": ["C148_run", "C148_stop"], "note": "C148_run: from the reference determinant, under regular operators and small steps. C148_stop: bookkeeping and the end of the loop for any settings."},
  {"property": "C149", "status": "proved", "theorems": ["C149_ends"], "note": "As C148, with 64*S*n*epsilon <= 1."},
  {"property": "C150", "status": "proved", "theorems": ["C150_group", "C150_symmetries", "C150_mapping"], "note": "Gates as written, with pi the number and exact 1/sqrt(2). The loop ends within 2*N*N+7 turns."},
  {"property": "C151", "status": "partial", "theorems": ["C151_cannot_apply", "C151_applies_refuted"], "note": "C151_cannot_apply says exactly for which groups it raises; C151_applies_refuted is the witness."},
  {"property": "C152", "status": "proved", "theorems": ["C152_never_returns", "C152_many_strings"], "note": ""},
  {"property": "C153", "status": "partial", "theorems": ["C153_keeps_refuted", "C153_rule"], "note": "Refuted with a witness."},
  {"property": "C154", "status": "partial", "theorems": ["C154_commuting_refuted"], "note": "Refuted with a witness."},
  {"property": "C155", "status": "proved", "theorems": ["C155_excess", "C155_refused"], "note": "C155_excess is the limit for all settings; C155_refused has witnesses."},
  {"property": "C156", "status": "proved", "theorems": ["C156_default_raises", "C156_trust_raises"], "note": ""},
  {"property": "C157", "status": "proved", "theorems": ["C157_state", "C157_keys", "C157_ascending_raises", "C157_run", "C157_rdm", "C157_variational"], "note": "The default mapping of orbitals to qubits; FermiStrings ansatz. The keys of the 2-RDM tomography satisfy the hypotheses (C157_keys); an ascending list with an index twice raises."},
  {"property": "C158", "status": "proved", "theorems": ["C158_ansatz", "C158_group", "C158_adapt", "C158_vqe", "C158_period"], "note": "The default mapping of orbitals to qubits; FermiStrings ansatz. The depth divides the angle and does not repeat the circuit, as in the code. Ascending lists with an index twice are excluded: the code raises on them."},
  {"property": "C159", "status": "proved", "theorems": ["C159_adapt_energy", "C159_vqe_energy", "C159_trig", "C159_adapt_gradient", "C159_vqe_gradient"], "note": "The default mapping of orbitals to qubits; exact expectation values; FermiStrings ansatz. The step must not take the parameter below the cutoff, where the code drops the excitation."},
  {"property": "C160", "status": "proved", "theorems": ["C160_slope", "C160_steepest", "C160_descent", "C160_gradient"], "note": "The residuals are arbitrary numbers ranked as the true ones: the call that computes them in the pinned code lacks an argument and cannot run."},
  {"property": "C161", "status": "proved", "theorems": ["C161_cholesky", "C161_indefinite"], "note": "Exact real arithmetic on a given matrix: as pinned the method raises before the loop, because rotate_spatial_ei2 is not defined in any module. C161_indefinite shows that the hypothesis on the matrix is needed."},
  {"property": "C162", "status": "proved", "theorems": ["C162_givens"], "note": "Exact real arithmetic; eigenvectors from numpy are given and real. Strings in the order in which they are added, before equal strings are merged."},
  {"property": "C163", "status": "partial", "theorems": ["C163_comparison", "C163_default_raises", "C163_commuting_refuted", "C163_merged_refuted"], "note": "Proved for colourings with colours 0..k-1 by the strategy 'largest_first'. Refuted: the default method raises (C163_default_raises), relation 'mc' (C163_commuting_refuted) and the strategy 'default' after another (C163_merged_refuted) give wrong measurements silently."},
  {"property": "C164", "status": "partial", "theorems": ["C164_batch", "C164_many_refuted", "C164_twice_refuted", "C164_filter_raises"], "note": "Proved for at most one hundred tomographies run once. Refuted beyond (C164_many_refuted), for a second run (C164_twice_refuted); with a measurement filter every batch raises (C164_filter_raises). The job is external: a circuit has one result, names are looked up."},
  {"property": "C165", "status": "partial", "theorems": ["C165_samples", "C165_raises", "C165_default_refuted", "C165_keeps_refuted"], "note": "Refuted: the tomography keeps the counts and rdm of the last subsample (C165_keeps_refuted), and the default sample size raises for 1000 shots (C165_default_refuted). The reconstruction and the function of the rdm are arbitrary. The interval computed from the estimates is not modelled."},
  {"property": "C166", "status": "proved", "theorems": ["C166_group", "C166_sum", "C166_default_empty"], "note": "C166_default_empty: with the default grouping or another ordering there is no group at all."},
  {"property": "C167", "status": "proved", "theorems": ["C167_value", "C167_unbiased", "C167_variance", "C167_error", "C167_state"], "note": "Shots are independent samples of Born's rule (no noise); counts are any dictionary of the numbers of the outcomes."},
  {"property": "C168", "status": "proved", "theorems": ["C168_returns", "C168_rdm", "C168_energy"], "note": "Jordan-Wigner transform, ideal shots. The post-processing and the measurement filter are left out. Order 1 with real=True never returns (C136); C168_exists is for order 2."},
  {"property": "C169", "status": "proved", "theorems": ["C169_variance", "C169_bound", "C169_other_backends_raise"], "note": "Without a density matrix (other backends) the call raises (C169_other_backends_raise)."},
  {"property": "C170", "status": "partial", "theorems": ["C170_projected_rdm", "C170_exact", "C170_returns", "C170_one_body_refuted"], "note": "Jordan-Wigner transform. For the 1-RDM with real=True the run raises (C170_one_body_refuted), by the shortening of C32."},
  {"property": "C171", "status": "proved", "theorems": ["C171_energy"], "note": "Jordan-Wigner transform, exact comparisons (no coefficient below a threshold other than zero)."},
  {"property": "C172", "status": "proved", "theorems": ["C172_energy", "C172_real", "C172_nothing"], "note": "No active space. The integrals below the threshold are zero; the test which strings are discarded is arbitrary."},
  {"property": "C173", "status": "partial", "theorems": ["C173_square_partial"], "note": "The sum before the transform (C39_qubit_operator covers the Jordan-Wigner transform of an operator). As pinned the method raises afterwards, at clean(1e-8): clean takes no argument."},
  {"property": "C174", "status": "partial", "theorems": ["C174_one_body_partial", "C174_decomposition_refuted"], "note": "As pinned both methods raise at clean(1e-8), after the sums modelled here. False also of the sums: the one-body operator has half of the one-electron integrals and the contraction of the two-electron integrals with the wrong sign and indices. The operator that is summed is given by C174_one_body_partial, without frozen orbitals."},
  {"property": "C175", "status": "proved", "theorems": ["C175_blocks", "C175_spectra", "C175_more_beta"], "note": "np.linalg.eigvalsh is a parameter, assumed to return eigenvalues of Hermitian matrices; arithmetic is exact."},
  {"property": "C176", "status": "partial", "theorems": ["C176_rdm", "C176_compact", "C176_returns", "C176_one_body_refuted", "C176_one_body_raises", "C176_energy"], "note": "For the 1-RDM with real=True the run raises for every number of orbitals (C176_one_body_raises). Arithmetic is exact; simplify='comparison' and transpilation are left out."},
  {"property": "C177", "status": "proved", "theorems": ["C177_values", "C177_operator", "C177_returns", "C177_empty"], "note": "The circuits are gates on a state vector; arithmetic is exact."},
  {"property": "C178", "status": "partial", "theorems": ["C178_report", "C178_spectra", "C178_particle_number_partial", "C178_more_electrons", "C178_particle_number_refuted", "C178_other_orders"], "note": "The number printed as N is the number of electrons only for two electrons (C178_particle_number_partial, C178_more_electrons, C178_particle_number_refuted). Printing, np.real and the cut 1e-10 are left out; eigvalsh is a parameter."},
  {"property": "C179", "status": "partial", "theorems": ["C179_quadratic", "C179_quadratic_bracketed", "C179_cubic_partial", "C179_cubic_otherwise_maximum", "C179_reversed_bracket_refuted", "C179_no_number"], "note": "False for the cubic in brackets with a_h < a_l and when the local minimum is outside of the bracket: the step is then the local maximum (C179_cubic_otherwise_maximum, C179_reversed_bracket_refuted; the safeguards of the zoom, part of C44, then often bisect). Exact real arithmetic; None stands for exceptions and for nan and infinities."},
  {"property": "C180", "status": "partial", "theorems": ["C180_letters", "C180_conjugation", "C180_averages", "C180_reference_partial", "C180_reference_averages_partial", "C180_reference_actual", "C180_run_partial", "C180_reference_refuted", "C180_table_partial", "C180_table_refuted"], "note": "Letters, conjugation and averages are proved in full. A reference with Y on a qubit with letter H or V is not applied: the gates for Y (rz, x, rz) are those of X, which differs from Y by more than a phase on a superposition (C180_reference_refuted, with the code's own reference for one electron). The table of Operator.clifford agrees for H and V, and for S neither with the gate nor with its inverse."},
  {"property": "C181", "status": "partial", "theorems": ["C181_h2", "C181_simple", "C181_combined", "C181_gate", "C181_gate_differs", "C181_gate_refuted"], "note": "True of the first three circuits. xy_yx_gate (v2=True) ignores yx and rotates about YI and YZ: it does not keep the parity (C181_gate, C181_gate_differs, C181_gate_refuted). Not modelled: its branch v2=False."},
  {"property": "C182", "status": "partial", "theorems": ["C182_full_partial", "C182_active", "C182_no_array", "C182_agrees", "C182_virtual_refuted"], "note": "region='full' leaves the virtual orbitals at 0 (C182_full_partial, C182_virtual_refuted), so the agreement with generate_spin_1ei needs a space without virtual orbitals (C182_agrees). region='active' with an array is C182_active; without one the call raises (C182_no_array)."},
  {"property": "C183", "status": "partial", "theorems": ["C183_block_partial", "C183_state", "C183_rebuilt", "C183_singlet", "C183_numbering_refuted"], "note": "Proved for the spin-up orbitals 0..R-1. With alternating spins the reduction of the indices modulo R makes entries fall together (C183_numbering_refuted)."}
]}
