{
 "claims": [
  {
   "property": "C01",
   "status": "proved",
   "theorems": [
    "C01_normal_order_terminates",
    "C01_mul_terminates",
    "C01_dagger_terminates",
    "C01_normal_order_succeeds",
    "C01_length_one_raises",
    "C01_index_error_only_length_one_refuted"
   ],
   "note": "Termination for every dictionary, product and adjoint; the originally expected characterisation of IndexError (only for length-one strings) is refuted by a_0*(a_0^+ a_1)."
  },
  {
   "property": "C02",
   "status": "proved",
   "theorems": [
    "C02_normal_order_action",
    "C02_normal_order_action_exact",
    "C02_normal_order_dict_action",
    "C02_identity_lost"
   ],
   "note": "Deleted sub-threshold coefficients appear as the explicit list drops; exact version for exact zero tests."
  },
  {
   "property": "C03",
   "status": "proved",
   "theorems": [
    "C03_normal_order_canonical",
    "C03_mul_canonical",
    "C03_dagger_canonical",
    "C03_sum_canonical",
    "C03_canonical_unique"
   ],
   "note": "Shape, absence of duplicate keys, and uniqueness (linear independence of normal-ordered strings)."
  },
  {
   "property": "C04",
   "status": "proved",
   "theorems": [
    "C04_add_action",
    "C04_sub_action",
    "C04_add_sub_exact",
    "C04_neg_scale_action"
   ],
   "note": "In-place versions with a different object share the same model function."
  },
  {
   "property": "C05",
   "status": "proved",
   "theorems": [
    "C05_mul_composition",
    "C05_mul_general"
   ],
   "note": ""
  },
  {
   "property": "C06",
   "status": "proved",
   "theorems": [
    "C06_dagger_adjoint",
    "C06_dagger_adjoint_general",
    "C06_dagger_involution"
   ],
   "note": "Coefficients are not conjugated by the code; the theorem is the real (transpose) adjoint."
  },
  {
   "property": "C07",
   "status": "proved",
   "theorems": [
    "C07_isub_self_raises",
    "C07_sub_self_is_zero",
    "C07_iadd_self_doubles"
   ],
   "note": ""
  },
  {
   "property": "C08",
   "status": "proved",
   "theorems": [
    "C08_folding_preserves_matrix_elements",
    "C08_embed_meaning",
    "C08_folding_unbalanced_refuted"
   ],
   "note": "Unbalanced strings are refuted (wrong sign)."
  },
  {
   "property": "C09",
   "status": "proved",
   "theorems": [
    "C09_Epq_action",
    "C09_Epq_commutator",
    "C09_Epq_dagger",
    "C09_epqrs_action",
    "C09_Eminuspq"
   ],
   "note": ""
  },
  {
   "property": "C10",
   "status": "proved",
   "theorems": [
    "C10_commutator",
    "C10_double_commutator",
    "C10_double_commutator_symmetrized",
    "C10_symmetrized_is_average"
   ],
   "note": ""
  },
  {
   "property": "C11",
   "status": "proved",
   "theorems": [
    "C11_generator_action",
    "C11_generator_antihermitian",
    "C11_generator_cube"
   ],
   "note": ""
  },
  {
   "property": "C12",
   "status": "proved",
   "theorems": [
    "C12_singlet_operators_conserve",
    "C12_spin_adapted_generators_conserve",
    "C12_hamiltonians_conserve",
    "C12_property_operators_conserve",
    "C12_generators_conserve"
   ],
   "note": ""
  },
  {
   "property": "C13",
   "status": "proved",
   "theorems": [
    "C13_hamiltonian_action",
    "C13_hamiltonian_hermitian"
   ],
   "note": ""
  },
  {
   "property": "C14",
   "status": "proved",
   "theorems": [
    "C14_active_hamiltonian_projection",
    "C14_active_hamiltonian_expectation"
   ],
   "note": ""
  },
  {
   "property": "C15",
   "status": "proved",
   "theorems": [
    "C15_integer_encoding_bijective",
    "C15_get_indexing",
    "C15_unique_index",
    "C15_dimension",
    "C15_infeasible_is_empty",
    "C15_no_active_orbitals"
   ],
   "note": "All orbital and electron numbers; the zero-orbital case raises ValueError and is stated separately."
  },
  {
   "property": "C16",
   "status": "proved",
   "theorems": [
    "C16_get_indexing_extended",
    "C16_order_above_two_rejected",
    "C16_contains_reference"
   ],
   "note": "Membership is characterised exactly for orders up to 2; larger orders raise."
  },
  {
   "property": "C17",
   "status": "proved",
   "theorems": [
    "C17_propagate_state_serial",
    "C17_propagate_state_threaded",
    "C17_unsafe_drops_outside",
    "C17_spin_sector",
    "C17_folded_action"
   ],
   "note": "Serial, threaded, unsafe, spin-sector and folded forms; threshold amplitudes count as zero."
  },
  {
   "property": "C18",
   "status": "proved",
   "theorems": [
    "C18_serial_threaded_agree",
    "C18_schedule_independent",
    "C18_sign_of_unbalanced_labels",
    "C18_error_conditions_agree_refuted"
   ],
   "note": "Vectors agree for number-conserving labels and every schedule; sign law for other labels; the KeyError conditions differ (refuted theorem)."
  },
  {
   "property": "C19",
   "status": "proved",
   "theorems": [
    "C19_matrix_elements",
    "C19_matrix_keyerror",
    "C19_matrix_times_state",
    "C19_expectation_value",
    "C19_state_averaged_rows",
    "C19_state_averaged_expectation"
   ],
   "note": "Entries, matrix times state, expectation values as products in order, state-averaged rows."
  },
  {
   "property": "C20",
   "status": "proved",
   "theorems": [
    "C20_bitcount_terminates",
    "C20_bitcount_stable",
    "C20_parity_check"
   ],
   "note": "Termination and value of bitcount, parity masks."
  },
  {
   "property": "C21",
   "status": "proved",
   "theorems": [
    "C21_closed_form",
    "C21_gate_exponential"
   ],
   "note": "Abstract closed form for any T with T^3=-T, and the gates single..sextuple, sa_single, sa_double_1 on every spin sector: power series of exp(theta T), group law, inverse, derivative (= get_grad_action), norm."
  },
  {
   "property": "C22",
   "status": "proved",
   "theorems": [
    "C22_interpolation_polynomials",
    "C22_sa_double_exponential"
   ],
   "note": "For any operator annihilated by the design polynomial, and for the actual sa_double_2..5 generators (whose minimal polynomials are proved for all distinct indices) on every spin sector."
  },
  {
   "property": "C23",
   "status": "proved",
   "theorems": [
    "C23_dagger_is_inverse",
    "C23_scalar_product",
    "C23_propagate_unitary",
    "C23_state_averaged",
    "C23_parameter_derivative"
   ],
   "note": "Dagger is the inverse for every layout; scalar products preserved; propagate_unitary step by step; state-averaged rows; parameter derivative."
  },
  {
   "property": "C24",
   "status": "proved",
   "theorems": [
    "C24_spin_orbital_iterators",
    "C24_spin_adapted_iterators",
    "C24_pair_iterators",
    "C24_generalized_iterators",
    "C24_generalized_doubles_refuted"
   ],
   "note": "Completeness, soundness and no duplication for all duplicate-free index lists; generalized doubles shown incomplete (finding)."
  },
  {
   "property": "C25",
   "status": "proved",
   "theorems": [
    "C25_counts_and_names",
    "C25_arity_partial",
    "C25_sds_pair_arity_refuted",
    "C25_layouts_are_valid",
    "C25_layouts_invertible",
    "C25_ucc_structure",
    "C25_tiled_parameter_count"
   ],
   "note": "Counts and names for every history; arity/R for every history without the SDS pD branch (C25_arity_partial), whose entries are shown ill-typed (C25_sds_pair_arity_refuted); layouts valid and invertible; tiled parameter counts."
  },
  {
   "property": "C26",
   "status": "proved",
   "theorems": [
    "C26_RDM1",
    "C26_RDM2"
   ],
   "note": "RDM1/RDM2 equal the full-space expectation values for all orbital indices, any normalised real active-space state."
  },
  {
   "property": "C27",
   "status": "proved",
   "theorems": [
    "C27_energy",
    "C27_energy_paths"
   ],
   "note": "Energy from density matrices is <H> over all orbitals; agrees with the expectation value of the active-space Hamiltonian computed by the state-vector code."
  },
  {
   "property": "C28",
   "status": "proved",
   "theorems": [
    "C28_rdm1_rdm2",
    "C28_state"
   ],
   "note": "rdm1/rdm2 loops fill every entry with the expectation value (end to end through operators and kernels)."
  },
  {
   "property": "C29",
   "status": "proved",
   "theorems": [
    "C29_cache_coherence",
    "C29_read_is_fresh",
    "C29_rdm3_before_thetas_refuted",
    "C29_rejected_kappa_refuted",
    "C29_short_kappa_refuted"
   ],
   "note": "Every history of reads and assignments (kappa values of the right length; thetas of any length) returns what a machine without caches returns. Refuted outside: rdm3/rdm4 on a new object raise AttributeError; a kappa of wrong length is kept although rejected, or silently accepted when it has length one."
  },
  {
   "property": "C30",
   "status": "proved",
   "theorems": [
    "C30_step",
    "C30_commuting_path",
    "C30_single_step",
    "C30_path_dependence_refuted",
    "C30_orthonormality"
   ],
   "note": "Real matrix exponential defined as the power series. Step theorem, commuting paths, one step, path dependence (two paths to the same kappa with different orbitals), and orthonormality preserved by every history."
  },
  {
   "property": "C31",
   "status": "proved",
   "theorems": [
    "C31_spin_partition",
    "C31_spatial_partition",
    "C31_shifted",
    "C31_requested_size",
    "C31_pairs",
    "C31_hf_like",
    "C31_odd_electrons_refuted",
    "C31_odd_cas_refuted",
    "C31_ucc_parity_refuted"
   ],
   "note": "Spin-orbital partition for all inputs; spatial partition and rotation lists for an even number of electrons. The statement is false for odd electron counts, for odd cas[0] above the electron count, and for odd active electrons in WaveFunctionUCC: shown by the _refuted theorems."
  },
  {
   "property": "C32",
   "status": "proved",
   "theorems": [
    "C32_reconstruction_exact",
    "C32_exact_on_circle",
    "C32_interpolates",
    "C32_energy_evals",
    "C32_evals_reconstruct",
    "C32_optimized_evals",
    "C32_state_averaged",
    "C32_state_average_scale_refuted",
    "C32_state_averaged_order"
   ],
   "note": "Exact for every trigonometric polynomial of degree at most R (through get_energy_evals as well), defined on all of [-pi, pi], interpolates arbitrary samples. State-averaged values are divided by 2R+1 rather than by the number of states (refuted), which keeps the order."
  },
  {
   "property": "C33",
   "status": "proved",
   "theorems": [
    "C33_derivative",
    "C33_derivative_error",
    "C33_objective_derivative",
    "C33_state_averaged",
    "C33_cutoff_refuted"
   ],
   "note": "Derivative of the reconstruction exactly away from the 1e-12 cut-off, and within an explicit bound everywhere; exactness inside the cut-off is refuted. State-averaged branch included."
  },
  {
   "property": "C34",
   "status": "proved",
   "theorems": [
    "C34_returns_best",
    "C34_no_iteration_refuted",
    "C34_angle",
    "C34_beats_grid",
    "C34_update_global",
    "C34_monotone",
    "C34_wrap"
   ],
   "note": "Loop invariant over all runs; maxiter=0 reports 1e20 (refuted). The angle claim, the grid claim, and monotone descent for trigonometric objectives with a global search of the reconstruction."
  },
  {
   "property": "C35",
   "status": "proved",
   "theorems": [
    "C35_lookup",
    "C35_distribution",
    "C35_heads",
    "C35_batch_order",
    "C35_groups"
   ],
   "note": ""
  },
  {
   "property": "C36",
   "status": "proved",
   "theorems": [
    "C36_provenance",
    "C36_new_heads",
    "C36_add_raises"
   ],
   "note": ""
  },
  {
   "property": "C37",
   "status": "proved",
   "theorems": [
    "C37_measurement"
   ],
   "note": "pure states on any number of qubits; real and imaginary part"
  },
  {
   "property": "C38",
   "status": "proved",
   "theorems": [
    "C38_consistent",
    "C38_update",
    "C38_key_injective",
    "C38_enabled",
    "C38_all_false"
   ],
   "note": ""
  },
  {
   "property": "C39",
   "status": "proved",
   "theorems": [
    "C39_postselection",
    "C39_nothing_kept"
   ],
   "note": ""
  },
  {
   "property": "C40",
   "status": "proved",
   "theorems": [
    "C40_equal_numbers",
    "C40_unequal_numbers_refuted"
   ],
   "note": "true for equal electron numbers; C40_unequal_numbers_refuted shows that every physical bitstring is rejected otherwise"
  },
  {
   "property": "C41",
   "status": "proved",
   "theorems": [
    "C41_find_swaps",
    "C41_layout_correction",
    "C41_bit_move_exists",
    "C41_mass_kept",
    "C41_v1_applies_inverse_permutation",
    "C41_v1_agrees_on_involutions",
    "C41_v1_refuted"
   ],
   "note": "find_swaps: succeeds exactly on rearrangements. _v2 = conjugation by the bit permutation for all sizes/matrices/layouts; v1 applies the inverse permutation, agrees on involutions and is refuted on a 3-cycle."
  },
  {
   "property": "C42",
   "status": "proved",
   "theorems": [
    "C42_shortest_path",
    "C42_simple_path"
   ],
   "note": "Shortest path for all edge lists (edges are used in both directions by the code); ValueError exactly when no path exists; path is simple."
  },
  {
   "property": "C43",
   "status": "proved",
   "theorems": [
    "C43_realises_permutation",
    "C43_undoes_routing",
    "C43_size_mismatch",
    "C43_returns_on_lines",
    "C43_connected_never_raises",
    "C43_termination_refuted",
    "C43_docstring_refuted"
   ],
   "note": "Partial correctness for all maps/permutations/rounds; returns on ordered lines and all-to-all maps; never raises on connected maps; does not terminate on a five-ring (refuted); docstring direction refuted."
  },
  {
   "property": "C44",
   "status": "proved",
   "theorems": [
    "C44_f2q_bijection",
    "C44_reordering_sign",
    "C44_reordering_intertwines"
   ],
   "note": "f2q bijection, reordering sign against Fock-space creation order, and compatibility of the relabelling with every operator."
  },
  {
   "property": "C45",
   "status": "proved",
   "theorems": [
    "C45_determinant_reference",
    "C45_superposition",
    "C45_same_electrons",
    "C45_MAnsatz0"
   ],
   "note": "Determinant and superposition circuits from |0...0>, with exact failure conditions."
  },
  {
   "property": "C46",
   "status": "proved",
   "theorems": [
    "C46_single_excitation",
    "C46_sa_single_excitation",
    "C46_sa_single_docstring_refuted"
   ],
   "note": "Single-excitation circuits equal the exponential; the spin-adapted one uses the full angle, so the factor announced in its docstring is refuted."
  },
  {
   "property": "C47",
   "status": "proved",
   "theorems": [
    "C47_history",
    "C47_assignment",
    "C47_change_max",
    "C47_raise_max_refuted",
    "C47_average"
   ],
   "note": ""
  },
  {
   "property": "C48",
   "status": "proved",
   "theorems": [
    "C48_expansion",
    "C48_zero",
    "C48_exchange"
   ],
   "note": "Every entry of the table, for every angular momentum; expansion in derivatives of the product Gaussian, vanishing beyond i+j, exchange symmetry, independence from memory."
  },
  {
   "property": "C49",
   "status": "proved",
   "theorems": [
    "C49_hermite_coulomb",
    "C49_boys_derivative",
    "C49_independent"
   ],
   "note": "The returned slice is the family of partial derivatives of the zeroth Boys function for every family of functions with F_n' = -F_(n+1); the mathematical Boys functions have that property; nothing of the unset memory or the table size reaches the slice. The float implementation boys_function itself is C75."
  },
  {
   "property": "C50",
   "status": "proved",
   "theorems": [
    "C50_every_index",
    "C50_driver_fills",
    "C50_eightfold",
    "C50_screening",
    "C50_cauchy_schwarz",
    "C50_compound_not_injective"
   ],
   "note": "Every index is covered; every element is the integral; the integrals of the code are eight-fold symmetric for any Boys function; with exact Boys functions the screening matrix satisfies Cauchy-Schwarz, so only integrals below the threshold are dropped."
  },
  {
   "property": "C51",
   "status": "proved",
   "theorems": [
    "C51_defining_sums",
    "C51_compose",
    "C51_symmetry",
    "C51_identity"
   ],
   "note": "Both einsum transforms equal their defining sums, compose, preserve the permutational symmetry and are the identity for C = 1; any coefficient ring."
  },
  {
   "property": "C52",
   "status": "proved",
   "theorems": [
    "C52_renaming",
    "C52_label",
    "C52_key_error",
    "C52_injective",
    "C52_form"
   ],
   "note": "Renaming is a permutation; labels read back by an independent parser; labels injective; KeyError exactly for indices outside; the form has one entry per term in order."
  },
  {
   "property": "C53",
   "status": "proved",
   "theorems": [
    "C53_matrix_element",
    "C53_without_saving",
    "C53_errors",
    "C53_descending_refuted",
    "C53_empty_determinant_refuted"
   ],
   "note": "Real parts of matrix elements for any history of the saver, and without saving; two departures: descending order raises for nested determinants, and a determinant without electrons shares its saver key."
  },
  {
   "property": "C54",
   "status": "proved",
   "theorems": [
    "C54_log_never_changes",
    "C54_log_refuted",
    "C54_printed"
   ],
   "note": "The English property is false: C54_log_never_changes and C54_log_refuted show that the log stays empty whatever is logged (the result of str.join is discarded). C54_printed: what is printed."
  },
  {
   "property": "C55",
   "status": "proved",
   "theorems": [
    "C55_lists",
    "C55_matrices",
    "C55_gradient_check"
   ],
   "note": "The constructor of the naive parametrisation, for real orbitals and states, pools of every combination of the letters s d t q 5 6, and orbital lists satisfying orbs_ok; C55_lists shows the lists of a constructed wave function do. Exact arithmetic; the size test on the gradients is a parameter."
  },
  {
   "property": "C56",
   "status": "proved",
   "theorems": [
    "C56_orbital_gradient"
   ],
   "note": "Real integrals with the two permutational symmetries used."
  },
  {
   "property": "C57",
   "status": "proved",
   "theorems": [
    "C57_response_gradient",
    "C57_hessian_block",
    "C57_hessian_block_bounds"
   ],
   "note": "Includes the out-of-bounds case of the Hessian block."
  },
  {
   "property": "C58",
   "status": "proved",
   "theorems": [
    "C58_metric",
    "C58_norm",
    "C58_property_gradient"
   ],
   "note": "Norm under the no active-active pairs condition, which the rotation lists of the wave function satisfy."
  },
  {
   "property": "C59",
   "status": "proved",
   "theorems": [
    "C59_rdm3_rdm4"
   ],
   "note": "All entries, any number of active orbitals."
  },
  {
   "property": "C60",
   "status": "proved",
   "theorems": [
    "C60_history",
    "C60_postselected"
   ],
   "note": "M-mitigated values are not covered (the calibration matrix is abstract); histories may contain them"
  },
  {
   "property": "C61",
   "status": "proved",
   "theorems": [
    "C61_double_excitation",
    "C61_shared_index_refuted"
   ],
   "note": "Double-excitation circuit for four distinct orbitals; with a shared orbital the code accepts and the circuit is not the exponential (refuted)."
  },
  {
   "property": "C62",
   "status": "proved",
   "theorems": [
    "C62_circuit_is_ansatz",
    "C62_state_circuit"
   ],
   "note": "Efficient (Jordan-Wigner) circuits; indices of each excitation distinct; at most 10^9 parameters (names sort as numbers)."
  },
  {
   "property": "C63",
   "status": "proved",
   "theorems": [
    "C63_calibration_states",
    "C63_mitigation_exact",
    "C63_mitigation_exact_with_layout",
    "C63_size_limit",
    "C63_mass_lost_refuted"
   ],
   "note": "Exact for infinite shots; np.linalg.inv is a parameter assumed to return a left inverse."
  },
  {
   "property": "C64",
   "status": "proved",
   "theorems": [
    "C64_pp_valid",
    "C64_reference_indexed",
    "C64_orbital_exchange"
   ],
   "note": "Closed-shell counts (the constructor has already rejected odd numbers of active electrons); at least one active orbital for the index lookup."
  },
  {
   "property": "C65",
   "status": "proved",
   "theorems": [
    "C65_fUCC_layout",
    "C65_tiled_layout",
    "C65_SDS_layout",
    "C65_ucc_layout",
    "C65_fUCC_options"
   ],
   "note": "Exact gate lists of create_fUCC, create_SDSfUCC, create_tiled and UccStructure as functions of the options; accepted option dictionaries of create_fUCC."
  },
  {
   "property": "C66",
   "status": "proved",
   "theorems": [
    "C66_theta_gradient"
   ],
   "note": "Derivative in the sense of derivable_pt_lim over the reals; the energy is the object's own expectation value of the active-space Hamiltonian."
  },
  {
   "property": "C67",
   "status": "proved",
   "theorems": [
    "C67_object_gradient"
   ],
   "note": "All four flag combinations; uses C23 (gate derivatives), C51 (integral transform composition), C56 (commutator form of the orbital gradient) and the closed form of the exponential of a plane rotation."
  },
  {
   "property": "C68",
   "status": "proved",
   "theorems": [
    "C68_run_1step",
    "C68_theta_run"
   ],
   "note": "Exact-real model of the object state and of the calls an optimiser makes; the optimiser is an arbitrary function from the starting vector to a finite list of calls plus the returned point and value (scipy itself is not modelled)."
  },
  {
   "property": "C69",
   "status": "proved",
   "theorems": [
    "C69_second_run_refuted",
    "C69_orbitals_left_refuted"
   ],
   "note": "The English statement is false for the code, both parts are refuted: with ansatz parameters the second orbital-optimising run always raises ValueError (numpy addition of kappa and thetas), and the orbitals left behind are those of the last evaluation, shown on a two-orbital object."
  },
  {
   "property": "C70",
   "status": "proved",
   "theorems": [
    "C70_multipole",
    "C70_multipole_matrix"
   ],
   "note": "Iterated improper Riemann integrals."
  },
  {
   "property": "C71",
   "status": "proved",
   "theorems": [
    "C71_kinetic",
    "C71_kinetic_matrix"
   ],
   "note": ""
  },
  {
   "property": "C72",
   "status": "proved",
   "theorems": [
    "C72_coulomb_kernel",
    "C72_nuclear_attraction",
    "C72_nuclear_matrix"
   ],
   "note": "1/r is expressed as the integral over w of a Gaussian (C72_coulomb_kernel); the integral over w is taken last. Exact Boys functions."
  },
  {
   "property": "C73",
   "status": "proved",
   "theorems": [
    "C73_electron_repulsion"
   ],
   "note": "Same form of 1/r as in C72. Exact Boys functions."
  },
  {
   "property": "C74",
   "status": "proved",
   "theorems": [
    "C74_primitive",
    "C74_contracted",
    "C74_overlap_diagonal"
   ],
   "note": ""
  },
  {
   "property": "C75",
   "status": "proved",
   "theorems": [
    "C75_zeroth_exact",
    "C75_small",
    "C75_series",
    "C75_long_range",
    "C75_sp_accuracy",
    "C75_early_break",
    "C75_accuracy_refuted"
   ],
   "note": "Error bounds for all four branches and a uniform bound 1e-9 for n <= 4. The claim for every n is false: C75_early_break and C75_accuracy_refuted show that from n = 12 on the series stops after its first term, with an error above 9e-4 at n = 12, z = 1."
  },
  {
   "property": "C76",
   "status": "proved",
   "theorems": [
    "C76_orbitals",
    "C76_energy",
    "C76_diis",
    "C76_iterations",
    "C76_odd_electrons_refuted",
    "C76_energy_refuted"
   ],
   "note": "Proved for any eigh that diagonalises symmetric matrices and any solve that returns solutions. Two parts of the English claim are false and refuted: an odd electron number is silently rounded down (C76_odd_electrons_refuted), and E is computed with the Fock matrix of the previous density, so it is the Hartree-Fock energy of D only at self-consistency (C76_energy gives the exact difference, C76_energy_refuted a run)."
  },
  {
   "property": "C77",
   "status": "proved",
   "theorems": [
    "C77_extrapolation",
    "C77_first"
   ],
   "note": "Minimality of the residual norm, window of six, first matrix and two-basis-function case."
  },
  {
   "property": "C78",
   "status": "proved",
   "theorems": [
    "C78_orbitals",
    "C78_spin_contamination",
    "C78_mixing",
    "C78_mixing_refuted",
    "C78_full_shell"
   ],
   "note": "Both spins, spin contamination, mixing of occupied orbitals. The mixed virtual orbital is not orthogonal to the mixed occupied one (C78_mixing_refuted): the second assignment reads the row overwritten by the first. C78_full_shell: IndexError exactly when alpha and beta fill all orbitals."
  },
  {
   "property": "C79",
   "status": "proved",
   "theorems": [
    "C79_electrons",
    "C79_nuclear_repulsion",
    "C79_order",
    "C79_isometry"
   ],
   "note": "Counts over all integers; half-sum formula, permutation and isometry invariance."
  },
  {
   "property": "C80",
   "status": "proved",
   "theorems": [
    "C80_one_electron",
    "C80_two_electron",
    "C80_present_threshold",
    "C80_other_molecule_refuted",
    "C80_mixed_basis_refuted",
    "C80_threshold_refuted"
   ],
   "note": "C80_one_electron, C80_two_electron and C80_present_threshold for all histories. The last sentence of the English claim is false for older objects: C80_mixed_basis_refuted (a Hartree-Fock object made before set_basis_set mixes two basis sets), C80_other_molecule_refuted (set_molecule without basis), C80_threshold_refuted (threshold assigned after the first read is ignored)."
  },
  {
   "property": "C81",
   "status": "proved",
   "theorems": [
    "C81_manager",
    "C81_repeat"
   ],
   "note": "deepcopy is modelled as a copy of the whole state; the PySCF branch is not modelled."
  },
  {
   "property": "C82",
   "status": "proved",
   "theorems": [
    "C82_hamiltonian_1i_1a",
    "C82_hamiltonian_2i_2a",
    "C82_one_electron"
   ],
   "note": "Exact arithmetic."
  },
  {
   "property": "C83",
   "status": "proved",
   "theorems": [
    "C83_norm",
    "C83_normalised",
    "C83_transition_dipoles",
    "C83_excitations",
    "C83_oscillator_strength"
   ],
   "note": "The eigensolver, argsort and the square root are parameters: C83_excitations assumes the solver returns solutions of E v = w S v and argsort a permutation of the indices. The other theorems hold for every vector. Exact arithmetic, real orbitals and states."
  },
  {
   "property": "C84",
   "status": "proved",
   "theorems": [
    "C84_matrices",
    "C84_gradient_check",
    "C84_killers",
    "C84_mixed_refuted"
   ],
   "note": "All blocks exact, including the terms the code leaves out of the mixed blocks; C84_mixed_refuted shows that those terms matter when the gradient check lets an orbital gradient through."
  },
  {
   "property": "C85",
   "status": "proved",
   "theorems": [
    "C85_grouped",
    "C85_independent_saver",
    "C85_independent_device",
    "C85_single",
    "C85_no_coeffs_refuted",
    "C85_duplicates_refuted"
   ],
   "note": "Grouped and independent modes for any history; no_coeffs in the grouped mode and duplicated strings are refuted separately."
  },
  {
   "property": "C86",
   "status": "proved",
   "theorems": [
    "C86_shift_gradient",
    "C86_state_averaged",
    "C86_energy_trigonometric",
    "C86_layout_objective",
    "C86_missing_order_refuted",
    "C86_circuit_gradient",
    "C86_rotosolve_energies",
    "C86_rotosolve_state_averaged"
   ],
   "note": "Exact expectation values (no sampling noise), real arithmetic. SaDouble2-5 excitations have no recorded shift order and are not covered by the degree statement."
  },
  {
   "property": "C87",
   "status": "proved",
   "theorems": [
    "C87_matrices",
    "C87_gradient_check",
    "C87_stationary",
    "C87_mixed_refuted"
   ],
   "note": "All blocks exact with the explicit terms the code leaves out of the mixed blocks; C87_mixed_refuted shows that those terms matter when the gradient check lets an orbital gradient through; C87_stationary gives exactness at stationary points."
  },
  {
   "property": "C88",
   "status": "proved",
   "theorems": [
    "C88_projected_norm",
    "C88_all_projected_norm",
    "C88_projected_dipoles",
    "C88_all_projected_dipoles",
    "C88_same_dipoles",
    "C88_normalised"
   ],
   "note": "Exact arithmetic; the eigensolver is not involved (vectors are arbitrary). Real symmetric property integrals."
  },
  {
   "property": "C89",
   "status": "proved",
   "theorems": [
    "C89_state_ci",
    "C89_average",
    "C89_transition_property",
    "C89_oscillator_strengths",
    "C89_energy",
    "C89_orthonormal",
    "C89_gradient"
   ],
   "note": "The eigensolver and argsort are parameters: the theorems assume that they solve the subspace problem with normalised vectors and sort. C89_average also assumes that the vectors resolve the identity (scipy's eig does not promise this for degenerate energies). Energies and gradients are about one set of parameters; the orbital part of the gradient and the caches of the object are not modelled here."
  },
  {
   "property": "C90",
   "status": "proved",
   "theorems": [
    "C90_rdms",
    "C90_rdm_energy",
    "C90_kappa_gradient"
   ],
   "note": "The kappa gradient is the true derivative of sa_energy_opt with the orbital coefficients rotated by the matrix exponential of the kappa matrix; the states are rows of length dim with unit norm."
  },
  {
   "property": "C91",
   "status": "proved",
   "theorems": [
    "C91_matrices",
    "C91_gradient_check",
    "C91_kets",
    "C91_ups_unitary",
    "C91_metric_refuted"
   ],
   "note": "For a unitary ansatz and a reference whose excitations are orthonormal. C91_ups_unitary: every UPS ansatz is unitary in the sense used. C91_metric_refuted: with the perfect-pairing reference some excitations annihilate the reference and the metric written (1) is not the commutator (0)."
  },
  {
   "property": "C92",
   "status": "proved",
   "theorems": [
    "C92_matrices",
    "C92_gradient_check",
    "C92_configuration_interaction"
   ],
   "note": "For a unitary ansatz and a reference whose excitations are orthonormal (hypotheses shared with C91; C91_ups_unitary and C91_kets discharge them for UPS ansatzes). No stationarity is assumed. C92_configuration_interaction: A is the Hamiltonian between the states made by the operators minus overlap times energy, Sigma their overlap."
  },
  {
   "property": "C93",
   "status": "proved",
   "theorems": [
    "C93_transfer_norm",
    "C93_projected_transfer_norm",
    "C93_normalised",
    "C93_dipoles"
   ],
   "note": "Hypotheses as C91 and C92; the normalisation factor is an abstract square root, as in C83."
  },
  {
   "property": "C94",
   "status": "proved",
   "theorems": [
    "C94_run_2step",
    "C94_ansatz_only",
    "C94_again",
    "C94_no_iterations_refuted",
    "C94_no_parameters_refuted"
   ],
   "note": "The last sentence fails: C94_no_iterations_refuted (maxiter = 0 ends in UnboundLocalError) and C94_no_parameters_refuted (an ansatz without parameters raises ValueError). The orbitals kept are those of the last evaluation. The RotoSolve branch is not modelled."
  },
  {
   "property": "C95",
   "status": "proved",
   "theorems": [
    "C95_layout",
    "C95_letters",
    "C95_counts",
    "C95_unknown_type"
   ],
   "note": "Strings of eight-bit characters. Reuses the block descriptions of C65."
  },
  {
   "property": "C96",
   "status": "proved",
   "theorems": [
    "C96_read",
    "C96_no_atom",
    "C96_unknown_shell",
    "C96_higher_shell_refuted",
    "C96_truncated_refuted"
   ],
   "note": "The last sentence fails: shells above f and a shell cut off by the end of the file are dropped without an error (theorems named _refuted); combined shells such as sp raise ValueError as claimed. Opening the file and the conversions float and int of one word are parameters."
  }
 ]
}