# Formal model of SlowQuant: design

Target: erikkjellgren/SlowQuant at the pinned commit in /repo (read as text only).
Tool: Coq 8.16.1, files under `rocq/theories`, logical name `Verif`.

## Conventions

* One `*Model.v` file per Python module (or part of it). Python functions become
  small total Gallina functions with the same branch structure; exceptions are
  values (`Res`, `option`); loops are structural recursion, folds or explicitly
  fuelled iteration with a distinguished out-of-fuel value that is proved
  unreachable. Every definition cites the file and lines it models.
* `*Spec.v` files hold the independent specification (Fock-space action,
  trigonometric polynomials, n-qubit states ...), written without reference to the
  model's helpers.
* `*Proofs.v` files contain lemmas; `Props_*.v` files contain the property theorems
  (`Theorem Cxx_...`), each followed by `Print Assumptions` and by an `Example`
  that instantiates its hypotheses on a concrete non-trivial case.
* `_partial` marks a theorem weaker than the English property; `_refuted` marks a
  theorem exhibiting an input for which the English property (or the docstring)
  is false.
* Coefficients: Python floats are modelled by an arbitrary commutative ring with a
  boolean `small` test (the `abs(x) < 10**-14` deletion). Rounding is not modelled.
  Theorems either keep the deleted terms explicitly, or assume that only exact
  zeros are `small`. Analytic parts (sin, cos, sqrt) use Coq's `R`.

## Files

| model | models in /repo/slowquant | specification / proofs | property theorems |
|---|---|---|---|
| `FermiModel.v` | `unitary_coupled_cluster/fermionic_operator.py`: keys, normal ordering, algebra, dagger, commutator, folding | `Fock.v` (creation and annihilation operators on determinants), `FermiProofs`, `FermiAlgebra`, `FermiUnique`, `FermiFold` | `Props_Fermi` C01-C08 |
| `OperatorsModel.v` | `operators.py`: all generators, Hamiltonians and spin operators | `OperatorsProofs`, `OperatorsSums`, `OperatorsActs`, `OperatorsActive`, `OperatorsGen`, `OperatorsKeys`, `FockMore` | `Props_Operators` C09-C14 |
| `CIModel.v` | `ci_spaces.py` | `CIProofs`, `CIExtended` | `Props_CI` C15-C16 |
| `StateModel.v` | `operator_state_algebra.py`: serial and threaded kernels, propagate_state, expectation_value and their state-averaged versions | `StateBits`, `StateProofs`, `StateMore` | `Props_State` C17-C20 |
| `UPSModel.v` | `operator_state_algebra.py`: construct_ups_state, propagate_unitary, get_grad_action (and state-averaged) | `RRing`, `ModeEmbed`, `SaPoly`, `GateAlgebra`, `UPS*` | `Props_UPS` C21-C23 |
| `StructModel.v` | `util.py`: iterators, UccStructure, UpsStructure | `StructProofs`, `StructInv` | `Props_Struct` C24-C25, `Props_Ansatz` C64-C65 |
| `DensityModel.v` | `density_matrix.py`, rdm1 to rdm4 of `ups_wavefunction.py` | `FockInner`, `Density*` | `Props_Density` C26-C28, C56-C60 |
| `SpaceModel.v` | orbital spaces in the three wave-function constructors | `SpaceProofs` | `Props_Space` C31 |
| `MatModel.v`, `MatExp.v` | integral transforms; matrix exponential as its power series | `MatProofs` | `Props_Transform` C51 |
| `WaveModel.v` | `ups_wavefunction.py`: setters, caches, energy, `_calc_energy_optimization`, `_calc_gradient_optimization`, `run_wf_optimization_1step` | `WaveProofs`, `GradProofs` | `Props_Wave` C29-C30, `Props_Gradient` C66-C67, `Props_Optimise` C68-C69 |
| `TwoStepModel.v` | `ups_wavefunction.py` `run_wf_optimization_2step` 799-918 (RotoSolve branch excepted) | (reuses `WaveProofs`, `Props_Optimise`) | `Props_TwoStep` C94 |
| `UccLayoutModel.v` | `ucc_wavefunction.py` excitation string 211-230, parameter counts of both optimisations 741-777, 871-908 | (reuses `StructModel`, `StructInv`) | `Props_UccLayout` C95 |
| `RotoModel.v` | `optimizers.py`: RotoSolve, reconstruction, root finding driver | `RotoProofs` | `Props_Roto` C32-C34 |
| `CliqueModel.v` | `qiskit_interface/util.py`: cliques, Pauli strings, postselection; sampler bookkeeping of `interface.py` | `CliqueProofs`, `CliquePost`, `CliqueSampler` | `Props_Clique` C35-C40, C47 |
| `QubitModel.v` | `operators_circuits.py` 100-341, `circuits.py`, Hadamard-test and superposition circuits | `QubitProofs`, `QubitCirc`, `QubitRef`, `QubitDouble` | `Props_Qubit` C44-C46, C61-C63 |
| `CircuitModel.v` | `operators_circuits.py` 16-97, 441-475 | `CircuitProofs` | `Props_Circuit` |
| `LayoutModel.v` | `qiskit_interface/util.py` 98-149, 595-783; calibration matrix | `LayoutPath`, `LayoutProofs` | `Props_Layout` C41-C43 |
| `IntegralModel.v` | `molecularintegrals/*.py` (recursions, shell integrals, drivers, screening), `molecule/moleculefunctions.py`, shell construction of `moleculeclass.py` | `IntegralProofs` (tables), `GaussProofs` (improper integrals), `OneElectron`, `TwoElectron`, `Coulomb`, `CoulombInt`, `Normalise` | `Props_Integral` C48-C50, C70-C74 |
| `BasisModel.v` | `molecule/basis_reader.py` 6-75 (lines of the file given; `float` and `int` of a word are parameters) | | `Props_Basis` C96 |
| `BoysModel.v` | `integralfunctions.py` 75-97 | `BoysProofs` | `Props_Boys` C75 |
| `HFModel.v` | `hartreefock/hartreefock_in_memory.py`, `unrestricted_hartreefock_in_memory.py`, `diis.py`, `hartreefockclass.py` 112-138, `moleculeclass.py` 132-189 | `HFProofs` | `Props_HF` C76-C79 |
| `ObjectModel.v` | `logger.py`, `SlowQuant.py`, `integralclass.py`, `integral_manager.py` (SlowQuant branch) | `ObjectProofs` | `Props_Object` C54, C80-C81 |
| `QFormModel.v` | `fermionic_operator.py` 7-24, 357-377: labels as Coq strings | | `Props_QForm` C52 |
| `CsfModel.v` | `interface.py` `quantum_expectation_value_csfs` 718-960 (no ISA, no `do_M_ansatz0_plus`), `_sampler_quantum_expectation_value` 978-1080 with its saver key, `..._nosave` 1082-1166; qiskit_nature's `HartreeFock` as X gates | `CsfProofs` | `Props_Csf` C53 |
| `LRModel.v` | `linear_response/lr_baseclass.py` `__init__` 33-108 and `linear_response/naive.py` `__init__` 26-304 | `OperatorsOne` (truncated Hamiltonians), `LRAlgebra`, `LRPools` (operator pools and their specification), `LRProofs` | `Props_Response` C55, C82 |
| `LRPropModel.v` | `lr_baseclass.py` 110-216, `naive.py` `get_transition_dipole` 306-429 | | `Props_Excited` C83 |
| `LRProjModel.v` | `linear_response/projected.py` `__init__` 25-285 | `LRProjProofs` (loops as lists of writes, operators whose adjoints annihilate the state) | `Props_Projected` C84 |
| `LRAllProjModel.v` | `linear_response/allprojected.py` `__init__` 26-286 | (reuses `LRProjProofs`, `Props_Projected`) | `Props_AllProjected` C87 |
| `LRProjPropModel.v` | `linear_response/projected.py` `get_transition_dipole` 285-396, `linear_response/allprojected.py` `get_transition_dipole` 288-486 | (reuses `Props_Excited`, `Props_Projected`, `Props_AllProjected`) | `Props_ProjExcited` C88 |
| `LRTransferModel.v` | `linear_response/statetransfer.py` `__init__` 25-156 | (reuses `LRProofs`, `LRProjProofs`, `Props_UPS`) | `Props_Transfer` C91 |
| `LRProjTransferModel.v` | `linear_response/projected_statetransfer.py` `__init__` 25-145 | (reuses `LRProofs`, `LRProjProofs`, `Props_Transfer`, `Props_AllProjected`) | `Props_ProjTransfer` C92 |
| `LRTransferPropModel.v` | `linear_response/statetransfer.py` `get_transition_dipole` 157-279, textually the same in `projected_statetransfer.py` 147-269 | (reuses `Props_ProjExcited`, `Props_Transfer`, `Props_ProjTransfer`) | `Props_TransferExcited` C93 |
| `VarModel.v` | `qiskit_interface/interface.py` `quantum_variance` 1169-1271, `_sampler_distribution_p1`; `util.py` `pauliop_to_dict` | `VarProofs` (products of compatible strings, groups) | `Props_Variance` C85 |
| `ShiftModel.v` | `circuit_wavefunction.py` 1200-1243, `sa_circuit_wavefunction.py` 899-952 (parameter shift); `ups_wavefunction.py` 1144-1194, `sa_ups_wavefunction.py` 1005-1082 (energies for RotoSolve) | `ShiftTrig` (trigonometric polynomials, shift rule), `ShiftProofs`, `ShiftRows` | `Props_Shift` C86 |
| `SAModel.v` | `sa_ups_wavefunction.py` `sa_energy` 495-515, `_do_state_ci` 741-769, `excitation_energies` 782-795, `get_transition_property` 797-833, `get_oscillator_strenghts` 835-853, `_calc_energy_optimization` 884-914, `_calc_gradient_optimization` 949-998 (ansatz parameters) | (reuses `UPSRows`, `GradProofs`, `Props_Gradient`) | `Props_SA` C89 |
| `SARdmModel.v` | `sa_ups_wavefunction.py` `rdm1`, `rdm2` 397-480, `_calc_gradient_optimization` 939-948 (orbital rotations) | (reuses `DensityFill`, `Props_Gradient`, `Props_SA`) | `Props_SARdm` C90 |

The table lists the main files; the `properties.jsonl` anchors and the comments in the
model files give the exact lines. `MANIFEST.json` maps every property to its theorems.

## Trusted base

* The Coq 8.16.1 kernel (`coqc`, `coqchk`), and the reading of the Python source that the
  comments in the model files describe. No extraction, no OCaml plugin, no kernel check
  switched off.
* Standard-library axioms, only where real numbers are used: the four names that appear in the
  list below (decidability facts behind the Dedekind reals, excluded middle, functional
  extensionality). Coquelicot is used for derivatives and series and adds none.
* Statements: the theorems speak about the Gallina models, not about compiled Python.

Output of `Print Assumptions` for every theorem named in `MANIFEST.json`:

<!-- assumptions:begin -->

* No axioms ("Closed under the global context") (251 theorems): C01_normal_order_terminates, C01_mul_terminates, C01_dagger_terminates, C01_normal_order_succeeds, C01_length_one_raises, C01_index_error_only_length_one_refuted, C02_normal_order_action, C02_normal_order_action_exact, C02_normal_order_dict_action, C02_identity_lost, C03_normal_order_canonical, C03_mul_canonical, C03_dagger_canonical, C03_sum_canonical, C03_canonical_unique, C04_add_action, C04_sub_action, C04_add_sub_exact, C04_neg_scale_action, C05_mul_composition, C05_mul_general, C06_dagger_adjoint, C06_dagger_adjoint_general, C06_dagger_involution, C07_isub_self_raises, C07_sub_self_is_zero, C07_iadd_self_doubles, C08_folding_preserves_matrix_elements, C08_embed_meaning, C08_folding_unbalanced_refuted, C09_Epq_action, C09_Epq_commutator, C09_Epq_dagger, C09_epqrs_action, C09_Eminuspq, C10_commutator, C10_double_commutator, C10_double_commutator_symmetrized, C10_symmetrized_is_average, C11_generator_action, C11_generator_antihermitian, C11_generator_cube, C12_singlet_operators_conserve, C12_spin_adapted_generators_conserve, C12_hamiltonians_conserve, C12_property_operators_conserve, C12_generators_conserve, C13_hamiltonian_action, C13_hamiltonian_hermitian, C14_active_hamiltonian_projection, C14_active_hamiltonian_expectation, C15_integer_encoding_bijective, C15_get_indexing, C15_unique_index, C15_dimension, C15_infeasible_is_empty, C15_no_active_orbitals, C16_get_indexing_extended, C16_order_above_two_rejected, C16_contains_reference, C17_propagate_state_serial, C17_propagate_state_threaded, C17_unsafe_drops_outside, C17_spin_sector, C17_folded_action, C18_serial_threaded_agree, C18_schedule_independent, C18_sign_of_unbalanced_labels, C18_error_conditions_agree_refuted, C19_matrix_elements, C19_matrix_keyerror, C19_matrix_times_state, C19_expectation_value, C19_state_averaged_rows, C19_state_averaged_expectation, C20_bitcount_terminates, C20_bitcount_stable, C20_parity_check, C24_spin_orbital_iterators, C24_spin_adapted_iterators, C24_pair_iterators, C24_generalized_iterators, C24_generalized_doubles_refuted, C25_counts_and_names, C25_arity_partial, C25_layouts_are_valid, C25_ucc_structure, C25_tiled_parameter_count, C26_RDM1, C26_RDM2, C27_energy, C27_energy_paths, C28_rdm1_rdm2, C28_state, C31_spin_partition, C31_spatial_partition, C31_shifted, C31_requested_size, C31_pairs, C31_hf_like, C31_odd_electrons_refuted, C31_odd_cas_refuted, C31_ucc_parity_refuted, C35_lookup, C35_distribution, C35_heads, C35_batch_order, C35_groups, C36_provenance, C36_new_heads, C36_add_raises, C37_measurement, C38_consistent, C38_update, C38_key_injective, C38_enabled, C38_all_false, C39_postselection, C39_nothing_kept, C40_equal_numbers, C40_unequal_numbers_refuted, C41_find_swaps, C41_layout_correction, C41_bit_move_exists, C41_mass_kept, C41_v1_applies_inverse_permutation, C41_v1_agrees_on_involutions, C41_v1_refuted, C42_shortest_path, C42_simple_path, C43_realises_permutation, C43_undoes_routing, C43_size_mismatch, C43_returns_on_lines, C43_connected_never_raises, C43_termination_refuted, C43_docstring_refuted, C44_f2q_bijection, C44_reordering_sign, C44_reordering_intertwines, C45_determinant_reference, C45_superposition, C45_same_electrons, C45_MAnsatz0, C47_history, C47_assignment, C47_change_max, C47_raise_max_refuted, C47_average, C50_compound_not_injective, C51_defining_sums, C51_compose, C51_symmetry, C51_identity, C52_renaming, C52_label, C52_key_error, C52_injective, C52_form, C53_matrix_element, C53_without_saving, C53_errors, C53_descending_refuted, C53_empty_determinant_refuted, C54_log_never_changes, C54_log_refuted, C54_printed, C55_lists, C55_matrices, C55_gradient_check, C56_orbital_gradient, C57_response_gradient, C57_hessian_block, C57_hessian_block_bounds, C58_metric, C58_norm, C58_property_gradient, C59_rdm3_rdm4, C60_history, C60_postselected, C63_calibration_states, C63_mitigation_exact, C63_mitigation_exact_with_layout, C63_size_limit, C63_mass_lost_refuted, C64_pp_valid, C64_reference_indexed, C64_orbital_exchange, C65_fUCC_layout, C65_tiled_layout, C65_SDS_layout, C65_ucc_layout, C65_fUCC_options, C79_electrons, C80_one_electron, C80_two_electron, C80_present_threshold, C80_other_molecule_refuted, C80_mixed_basis_refuted, C80_threshold_refuted, C81_manager, C81_repeat, C82_hamiltonian_1i_1a, C82_hamiltonian_2i_2a, C82_one_electron, C83_norm, C83_normalised, C83_transition_dipoles, C83_excitations, C83_oscillator_strength, C84_matrices, C84_gradient_check, C84_killers, C84_mixed_refuted, C85_grouped, C85_independent_saver, C85_independent_device, C85_single, C85_no_coeffs_refuted, C85_duplicates_refuted, C87_matrices, C87_gradient_check, C87_stationary, C87_mixed_refuted, C88_projected_norm, C88_all_projected_norm, C88_projected_dipoles, C88_all_projected_dipoles, C88_same_dipoles, C88_normalised, C91_matrices, C91_gradient_check, C91_kets, C91_metric_refuted, C92_matrices, C92_gradient_check, C92_configuration_interaction, C93_transfer_norm, C93_projected_transfer_norm, C93_normalised, C93_dipoles, C94_no_iterations_refuted, C95_layout, C95_letters, C95_counts, C95_unknown_type, C96_read, C96_no_atom, C96_unknown_shell, C96_higher_shell_refuted, C96_truncated_refuted.

* Axioms `ClassicalDedekindReals.sig_forall_dec` (2 theorems): C29_rejected_kappa_refuted, C77_first.

* Axioms `ClassicalDedekindReals.sig_forall_dec`, `FunctionalExtensionality.functional_extensionality_dep` (8 theorems): C77_extrapolation, C89_state_ci, C89_average, C89_transition_property, C89_oscillator_strengths, C89_energy, C90_rdms, C90_rdm_energy.

* Axioms `ClassicalDedekindReals.sig_forall_dec`, `ClassicalDedekindReals.sig_not_dec`, `FunctionalExtensionality.functional_extensionality_dep` (40 theorems): C23_propagate_unitary, C23_state_averaged, C25_sds_pair_arity_refuted, C29_rdm3_before_thetas_refuted, C29_short_kappa_refuted, C32_reconstruction_exact, C32_exact_on_circle, C32_interpolates, C32_energy_evals, C32_evals_reconstruct, C32_optimized_evals, C32_state_averaged, C32_state_average_scale_refuted, C32_state_averaged_order, C34_returns_best, C34_no_iteration_refuted, C34_angle, C34_beats_grid, C34_update_global, C34_monotone, C34_wrap, C48_zero, C48_exchange, C49_independent, C76_orbitals, C76_energy, C76_diis, C76_iterations, C76_odd_electrons_refuted, C76_energy_refuted, C78_orbitals, C78_spin_contamination, C78_mixing, C78_mixing_refuted, C78_full_shell, C79_nuclear_repulsion, C79_order, C79_isometry, C86_missing_order_refuted, C90_kappa_gradient.

* Axioms `ClassicalDedekindReals.sig_forall_dec`, `ClassicalDedekindReals.sig_not_dec`, `Classical_Prop.classic`, `FunctionalExtensionality.functional_extensionality_dep` (73 theorems): C21_closed_form, C21_gate_exponential, C22_interpolation_polynomials, C22_sa_double_exponential, C23_dagger_is_inverse, C23_scalar_product, C23_parameter_derivative, C25_layouts_invertible, C29_cache_coherence, C29_read_is_fresh, C30_step, C30_commuting_path, C30_single_step, C30_path_dependence_refuted, C30_orthonormality, C33_derivative, C33_derivative_error, C33_objective_derivative, C33_state_averaged, C33_cutoff_refuted, C46_single_excitation, C46_sa_single_excitation, C46_sa_single_docstring_refuted, C48_expansion, C49_hermite_coulomb, C49_boys_derivative, C50_every_index, C50_driver_fills, C50_eightfold, C50_screening, C50_cauchy_schwarz, C61_double_excitation, C61_shared_index_refuted, C62_circuit_is_ansatz, C62_state_circuit, C66_theta_gradient, C67_object_gradient, C68_run_1step, C68_theta_run, C69_second_run_refuted, C69_orbitals_left_refuted, C70_multipole, C70_multipole_matrix, C71_kinetic, C71_kinetic_matrix, C72_coulomb_kernel, C72_nuclear_attraction, C72_nuclear_matrix, C73_electron_repulsion, C74_primitive, C74_contracted, C74_overlap_diagonal, C75_zeroth_exact, C75_small, C75_series, C75_long_range, C75_sp_accuracy, C75_early_break, C75_accuracy_refuted, C86_shift_gradient, C86_state_averaged, C86_energy_trigonometric, C86_layout_objective, C86_circuit_gradient, C86_rotosolve_energies, C86_rotosolve_state_averaged, C89_orthonormal, C89_gradient, C91_ups_unitary, C94_run_2step, C94_ansatz_only, C94_again, C94_no_parameters_refuted.
<!-- assumptions:end -->

## Modelling decisions that affect every theorem

* No floating-point rounding. Tests such as `abs(x) < 10**-14` are kept as a boolean function
  on coefficients; the theorems say what they assume about it.
* Determinants are unbounded integers (the code uses int64: at most 31 orbitals).
* Python integers that index arrays are natural numbers; where a negative index could occur the
  comment says so.
* Integrals over space are iterated improper Riemann integrals (Coquelicot `is_RInt_gen`); the
  Coulomb kernel 1/r is written as 2/sqrt(pi) times the integral of exp(-w^2 r^2) over w > 0, and
  the integral over w is taken last. `math.erf` is taken to be exact.
* `eigh`, `solve`, `scipy.optimize.minimize`, Qiskit samplers and transpilers are parameters
  or arbitrary functions.

## Not modelled

`qiskit_interface`: Trotterised circuits (`operators_circuits.py` 342-438),
`layout_conserving_compose`. `unitary_coupled_cluster`: the optimisation
drivers of the UCC and state-averaged classes beyond what C31, C57-C60 and C95 use, the RotoSolve
branch of the two-step driver. `linear_response`: the all-state-transfer and
self-consistent parametrisations; the printing methods. Opening files, printing,
timing.

## Where the code departs from the property (theorems named `_refuted`)

Operator algebra and kernels: strings of odd length with a contraction can raise IndexError in
`do_extended_normal_ordering`; folding gives a wrong sign for unbalanced strings; serial and
threaded kernels raise KeyError under different conditions.

CI spaces: zero active orbitals with zero electrons raises ValueError.

Ansatz: `iterate_t2_generalized` is incomplete and yields zero operators; the SDS layout with
pair doubles creates a two-index gate typed "double", which raises ValueError; the efficient
spin-adapted single excitation does not contain the 1/sqrt 2 of its docstring.

Density matrices: the orbital-rotation block of the response Hessian is sized by one index list
and indexed by another (IndexError).

Wave-function object: `rdm3`/`rdm4` raise AttributeError before the first assignment of thetas;
`c_mo` depends on the path of kappa assignments, not on kappa alone; a rejected kappa is kept, a
kappa of length one is broadcast; an odd number of electrons makes the orbital lists overlap;
a second orbital-optimising run raises ValueError, and such a run can leave the orbitals of its
last evaluation instead of those of the returned point; the two-step driver ends in
UnboundLocalError for maxiter = 0 and raises ValueError for an ansatz without parameters (C94).

Basis-set reader: shells above f and a shell cut off by the end of the file are dropped without an
error (C96).

RotoSolve: the state-averaged branch divides by 2R+1 energies; maxiter = 0 reports 1e20; the
derivative of sinc is set to zero in a small interval.

Qiskit interface: layout v1 applies the inverse permutation; the routing loop does not
terminate on a five-ring; correct_distribution loses probability mass; raising the shot limit
keeps the reduced number of shots; the double-excitation circuit accepts a shared index; a matrix
element with a determinant without electrons reads saved data of another state (the saver key of
the pair is the key of its second determinant), and in descending order nested determinants
raise ValueError.

Integrals: the series loop of `boys_function` compares the increment before multiplication by
(2n-1)!!, so from n = 12 on it stops after one term (error above 9e-4 at n = 12, z = 1); the
compound index of the two-electron driver is not injective on the pairs it is used for, which
does no harm (C50).

Objects: the logger never stores anything (C54); a Hartree-Fock object made before
`set_basis_set` mixes integrals of two basis sets; `set_molecule` without a basis leaves the
integrals of the previous molecule; a screening threshold assigned after the first read has no
effect (C80).

Read but not covered by a theorem: `create_fUCC` with spin-adapted doubles leaves
`grad_param_R` without the new names; `create_tiled` ignores `do_pp`; the ansatz dispatch accepts
"fuccpd" and tests "fuccspd"; the parity branch of postselection is right only for equal
numbers of alpha and beta electrons (C40 states the condition); `redo_M_mitigation` keeps
cached mitigated distributions.

Hartree-Fock: an odd number of electrons is rounded down in the restricted code; the returned
energy uses the Fock matrix of the previous density; the unrestricted frontier mixing writes
through views, so the mixed virtual orbital is not orthogonal (harmless, it is not occupied);
unrestricted runs with as many alpha as beta electrons and no virtual orbital raise IndexError;
zero iterations end in UnboundLocalError.

Linear response: the mixed blocks of the projected and all-projected parametrisations leave
out terms proportional to the orbital gradient, which the threshold of the gradient check lets
through (C84, C87). The state-transfer one writes 1 on the diagonal of the metric whatever the norm of
the excited reference; with `do_pp` the excitations are still taken out of the Hartree-Fock
orbitals, so some annihilate the perfect-pairing reference and the metric is wrong (C91).

Variances: `quantum_variance` ignores `no_coeffs` in the grouped mode, counts a string listed
twice with its last coefficient both times (C85), and ignores `custom_parameters` whenever
cliques are used, because the distributions come from the saver.

Gradients: the state-averaged energies computed for RotoSolve are sums over the states, where
the objective is their mean; spin-adapted doubles have no entry in `grad_param_R`, so RotoSolve
and the parameter-shift gradient raise KeyError for layouts that contain them (C86).

## Seeded bugs: what seeded/LOG.jsonl does and does not show

Each line is one edit of a model definition, made in a scratch copy and rebuilt. The field
`outcome` says how strong the evidence is.

- `refuted`: the conclusion of the property theorem named in `statement_refuted` was proved
  false for the edited model on a concrete input, and the same Coq text was checked to fail
  for the unedited model. This is evidence about the statement.
- `property_proof_broken`: the build stopped inside a property theorem or its example.
- `helper_proof_broken_only`: the build stopped in an auxiliary lemma. Several of these lemmas
  repeat the text of a definition, so any edit breaks them. The property theorems above them
  were then not rebuilt. Such a line does not show that the statement excludes the bug.
- `equivalent_mutant`: the edit turned out not to break the claim.
- `proof_broken_only`, `survived`: written by the current script for weaker results.

The first 138 lines come from an earlier script with two defects. It did not distinguish the
first three cases; the `outcome` of those lines was added afterwards from the `failed` field,
and most are `helper_proof_broken_only`. It also wrote a line only when something failed, so
attempts that survived would be missing; none is known, but the log cannot exclude it. An
entry whose edited model was ill-typed had been removed earlier. When the stronger check was
first applied, to the nine edits of SpaceModel.v, one of them proved to be an equivalent
mutant that the earlier script had reported as caught. Older lines should be read with that
in mind until they are re-run.
