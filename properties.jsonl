{"id": "C01", "title": "Normal ordering terminates on every operator", "statement": "Multiplying two FermionicOperators, or taking .dagger, always returns after finitely many steps or raises IndexError; it never loops. Strings of even length, and strings of length other than one in which no annihilator stands left of the creator of the same spin orbital, never raise; a string of length one always raises.", "quantifier": "every operator: any number of strings of any length over any spin-orbital indices", "why_tests_cant": "The sort re-queues contracted strings while it runs; a test only shows termination for the strings tried.", "anchors": ["slowquant/unitary_coupled_cluster/fermionic_operator.py: do_extended_normal_ordering"]}
{"id": "C02", "title": "Normal ordering preserves the operator up to its vacuum expectation value", "statement": "The reordered operator acts on every determinant as the original string minus <vac|string|vac> times the identity; so it is the same operator whenever the string has zero vacuum expectation value, and `a_p * a_p^dagger` is wrong by exactly the identity.", "quantifier": "every creation/annihilation string of length other than one and every occupation of every number of spin orbitals", "why_tests_cant": "Equality of operators ranges over all strings and all determinants; existing tests compare a handful of energies in which the lost scalar never shows.", "anchors": ["slowquant/unitary_coupled_cluster/fermionic_operator.py: do_extended_normal_ordering"]}
{"id": "C03", "title": "Normal-ordered canonical form", "statement": "Every key produced by multiplication or .dagger has all creation operators before all annihilation operators, each block strictly descending in spin-orbital index, and no key occurs twice. This canonical form is unique: two operators with the same matrix elements have the same coefficients.", "quantifier": "every pair of operators", "why_tests_cant": "It is an invariant of all reachable operators, on which state application and folding rely.", "anchors": ["slowquant/unitary_coupled_cluster/fermionic_operator.py: do_extended_normal_ordering, FermionicOperator.__mul__, FermionicOperator.dagger"]}
{"id": "C04", "title": "Sum, difference, negation and scalar multiples are the vector-space operations", "statement": "A+B, A-B, -A and c*A act on every state as the corresponding combination of the actions of A and B, up to the coefficients below 1e-14 that are deleted; A+=B and A-=B give the same value as A+B and A-B when A and B are different objects.", "quantifier": "all operators, all scalars, all states", "why_tests_cant": "Universal over operators; deletion of cancelled keys is where a missed case would hide.", "anchors": ["slowquant/unitary_coupled_cluster/fermionic_operator.py: __add__, __iadd__, __sub__, __isub__, __neg__, __rmul__"]}
{"id": "C05", "title": "Product of operators is composition of actions", "statement": "For operators whose strings each contain an annihilation operator in last place (every excitation operator, Hamiltonian and property operator the library builds), (A*B) acts on every state as first B then A. For arbitrary operators the product is off by <vac|AB|vac> times the identity.", "quantifier": "all pairs of operators, all states on any number of orbitals", "why_tests_cant": "Needs the canonical anticommutation relations for all orbitals at once.", "anchors": ["slowquant/unitary_coupled_cluster/fermionic_operator.py: FermionicOperator.__mul__, __imul__"]}
{"id": "C06", "title": "dagger is the Hermitian adjoint and an involution in effect", "statement": "<x|A.dagger|y> = <y|A|x> for all determinants x, y, for every operator with strings of length at least two and zero vacuum expectation value; .dagger twice acts as A.", "quantifier": "all operators and all pairs of determinants", "why_tests_cant": "Matrix-element equality over unboundedly many determinants.", "anchors": ["slowquant/unitary_coupled_cluster/fermionic_operator.py: FermionicOperator.dagger"]}
{"id": "C07", "title": "In-place update with an aliased argument", "statement": "A -= A raises RuntimeError for every operator with at least one string (dictionary changes size while iterated), whereas A - A returns the zero operator; A += A never raises for non-negligible coefficients and doubles A.", "quantifier": "every non-empty operator", "why_tests_cant": "An aliasing property of all operators; tests never alias.", "anchors": ["slowquant/unitary_coupled_cluster/fermionic_operator.py: __isub__, __iadd__"]}
{"id": "C08", "title": "Folding onto the active space preserves expectation values", "statement": "For every operator with normal-ordered number-conserving strings and every pair of active-space states, the matrix element of the folded operator between the active states equals that of the full operator between the states with all inactive orbitals filled and all virtual orbitals empty.", "quantifier": "all orbital partitions, all number-conserving normal-ordered operators, all pairs of active determinants", "why_tests_cant": "The sign rules for moving inactive operators past active ones depend on the parity of arbitrary-length blocks.", "anchors": ["slowquant/unitary_coupled_cluster/fermionic_operator.py: get_folded_operator"]}
{"id": "C09", "title": "Singlet excitation operator algebra", "statement": "The operators returned by Epq satisfy [E_pq, E_rs] = delta_qr E_ps - delta_ps E_rq, E_pq.dagger = E_qp, and epqrs = E_pq E_rs - delta_qr E_ps = epqrs with the pairs exchanged, as actions on every state.", "quantifier": "all spatial orbitals p, q, r, s and all states", "why_tests_cant": "Identity over all index coincidences.", "anchors": ["slowquant/unitary_coupled_cluster/operators.py: Epq, epqrs, commutator"]}
{"id": "C10", "title": "Commutator helpers", "statement": "commutator(A,B) acts as AB-BA and double_commutator(A,B,C) as [A,[B,C]], for all operators the library builds (every string ends in an annihilation operator); the symmetrised variant acts as ABC + CBA - 1/2(ACB + BCA + CAB + BAC).", "quantifier": "all triples of such operators and all states", "why_tests_cant": "Universal over operators.", "anchors": ["slowquant/unitary_coupled_cluster/operators.py: commutator, double_commutator"]}
{"id": "C11", "title": "Excitation generators are anti-Hermitian and satisfy T^3 = -T", "statement": "For G1..G6 with pairwise distinct spin-orbital indices and return_anti_hermitian=True the returned T satisfies T^dagger = -T and T*T*T acts as -T on every determinant.", "quantifier": "all excitation ranks, all pairwise distinct spin orbitals, all determinants", "why_tests_cant": "The closed-form exponential used for every ansatz gate is only valid under this identity.", "anchors": ["slowquant/unitary_coupled_cluster/operators.py: G1, G2, G3, G4, G5, G6"]}
{"id": "C12", "title": "Library operators conserve particle number and spin projection", "statement": "Every Epq, G1_sa, G2_sa, Hamiltonian and property operator maps a determinant with Na alpha and Nb beta electrons to determinants with the same Na and Nb; so does a G1..G6 whose indices carry balanced spin.", "quantifier": "all index choices, all determinants", "why_tests_cant": "State application looks results up in a fixed-(Na,Nb) table and fails on any leak.", "anchors": ["slowquant/unitary_coupled_cluster/operators.py: Epq, epqrs, G1..G6, G1_sa, G2_sa, hamiltonian_full_space"]}
{"id": "C13", "title": "Hamiltonian of the full space", "statement": "hamiltonian_full_space acts as sum_pq h_pq E_pq + 1/2 sum_pqrs g_pqrs e_pqrs with terms below threshold omitted, and is Hermitian when h and g have the symmetries of real integrals.", "quantifier": "all integral arrays of every size", "why_tests_cant": "Sum over all integral arrays; tests have specific molecules only.", "anchors": ["slowquant/unitary_coupled_cluster/operators.py: hamiltonian_full_space"]}
{"id": "C14", "title": "Active-space Hamiltonian has the same expectation value as the full one", "statement": "For every state with inactive orbitals doubly occupied and virtual orbitals empty, the expectation value of hamiltonian_0i_0a equals that of hamiltonian_full_space.", "quantifier": "all partitions, all integrals, all active-space states", "why_tests_cant": "Index ranges of six loops must cover exactly the contributing terms for all sizes.", "anchors": ["slowquant/unitary_coupled_cluster/operators.py: hamiltonian_0i_0a, hamiltonian_full_space"]}
{"id": "C15", "title": "CI indexing is an exact bijection", "statement": "get_indexing enumerates every determinant with the requested alpha and beta electron counts exactly once, idx2det and det2idx are mutually inverse, and no other determinant appears; infeasible electron numbers give an empty space.", "quantifier": "all orbital counts and electron counts", "why_tests_cant": "Completeness and uniqueness for every size.", "anchors": ["slowquant/unitary_coupled_cluster/ci_spaces.py: get_indexing, generate_spin_strings"]}
{"id": "C16", "title": "Extended CI indexing is an exact bijection with the documented space", "statement": "get_indexing_extended lists without repetition determinants with the total alpha and beta electron counts, idx2det and det2idx are mutually inverse, a determinant is listed exactly when its holes in the inactive and particles in the virtual orbitals follow the documented pattern (at most one of each per spin for order 1, in one spin only; up to two for order 2), and order > 2 raises ValueError.", "quantifier": "all partitions and electron counts, orders 1 and 2", "why_tests_cant": "Exact characterisation over all sizes.", "anchors": ["slowquant/unitary_coupled_cluster/ci_spaces.py: get_indexing_extended, generate_singles, generate_doubles"]}
{"id": "C17", "title": "Applying an operator to a CI vector is the second-quantised action", "statement": "propagate_state with a number-conserving normal-ordered operator returns the vector of amplitudes of the operator acting on the state, for every state on the CI space; it raises KeyError exactly when some reached determinant lies outside the space (and do_unsafe drops exactly those).", "quantifier": "all CI spaces, operators and states", "why_tests_cant": "Bit-mask screening plus phase counting must be right for all determinants at once.", "anchors": ["slowquant/unitary_coupled_cluster/operator_state_algebra.py: apply_operator_serial, propagate_state, bitcount"]}
{"id": "C18", "title": "Serial and threaded kernels agree", "statement": "The serial (scatter) and threaded (gather) kernels give the same vector for every number-conserving normal-ordered string; for strings that do not conserve particle number they differ by a sign.", "quantifier": "all strings, spaces and states, every interleaving of the parallel loop", "why_tests_cant": "Schedule independence and the index-order difference are universal claims.", "anchors": ["slowquant/unitary_coupled_cluster/operator_state_algebra.py: apply_operator_serial, apply_operator_threaded"]}
{"id": "C19", "title": "Matrix, propagation and expectation value agree", "statement": "build_operator_matrix times a state equals propagate_state, expectation_value(bra, ops, ket) is the bilinear form of the matrices of ops in order, and state-averaged variants equal the single-state ones row by row.", "quantifier": "all spaces, operator lists, states, numbers of states", "why_tests_cant": "Agreement for all inputs of separately written kernels.", "anchors": ["slowquant/unitary_coupled_cluster/operator_state_algebra.py: build_operator_matrix, add_operator_matrix, propagate_state, propagate_state_SA, expectation_value, expectation_value_SA"]}
{"id": "C20", "title": "Popcount and parity masks", "statement": "bitcount(x) is the number of one bits of every non-negative x, and bitcount(det & parity_check[k]) is the number of occupied spin orbitals with index below k.", "quantifier": "all non-negative integers, all k", "why_tests_cant": "Termination and correctness of the bit trick for every integer.", "anchors": ["slowquant/unitary_coupled_cluster/operator_state_algebra.py: bitcount, build_operator_matrix"]}
{"id": "C21", "title": "Ansatz gates are exact exponentials", "statement": "For T with T^3 = -T the closed form 1 + sin(theta) T + (1-cos(theta)) T^2 used by construct_ups_state is a one-parameter group, with derivative T U(theta), inverse U(-theta), and it preserves the norm when T is antisymmetric.", "quantifier": "all angles, all states, all generators with T^3=-T", "why_tests_cant": "Real-analysis identity for all angles.", "anchors": ["slowquant/unitary_coupled_cluster/operator_state_algebra.py: construct_ups_state"]}
{"id": "C22", "title": "Spin-adapted double gates use the right interpolation polynomials", "statement": "The polynomial in T used for sa_double_2 ... sa_double_5 equals exp(theta T) for every T whose spectrum is in the set the polynomial was designed for (minimal polynomial annihilates T): the coefficients interpolate sin and cos at every eigenvalue.", "quantifier": "all angles and all operators with the given minimal polynomial", "why_tests_cant": "Real-number identity for all angles; numeric tests check a few angles to 1e-6.", "anchors": ["slowquant/unitary_coupled_cluster/operator_state_algebra.py: construct_ups_state"]}
{"id": "C23", "title": "Applying the ansatz and then its dagger restores the state", "statement": "construct_ups_state(..., dagger=True) applied to construct_ups_state(...) returns the original state for every layout and parameter vector, and applying the gates one by one with propagate_unitary gives the same state as construct_ups_state.", "quantifier": "all layouts (sequences of gate types and indices), all parameters, all states", "why_tests_cant": "Induction over the gate sequence.", "anchors": ["slowquant/unitary_coupled_cluster/operator_state_algebra.py: construct_ups_state, propagate_unitary"]}
{"id": "C24", "title": "Excitation iterators enumerate each excitation exactly once", "statement": "iterate_t1 ... iterate_t6 yield each unordered spin-conserving excitation from occ to unocc exactly once, iterate_t1_sa/iterate_t2_sa each unordered pair pattern with its spin-adapted cases exactly once, iterate_pair_t2 each pair; indices drawn from the given lists. The generalized iterators yield exactly the ordered patterns i<=j<a<=b; the generalized doubles are therefore not complete (refuted: the exchange of orbitals {0,3} and {1,2} is never produced).", "quantifier": "all lists of occupied and unoccupied indices of every length", "why_tests_cant": "Completeness and no-duplication for every list.", "anchors": ["slowquant/unitary_coupled_cluster/util.py: iterate_t1_sa, iterate_t2_sa, iterate_t1, iterate_t2, iterate_t3, iterate_pair_t2"]}
{"id": "C25", "title": "Ansatz structure invariants", "statement": "After any sequence of UccStructure.add_* or UpsStructure.create_* calls: number of excitation types = number of index tuples = n_params, parameter names are p000000000, p000000001, ... without repetition; every entry has the arity and grad_param_R its type requires, except the first entry of each pD block of create_SDSfUCC, which is typed double with two indices and makes the ansatz raise; every other layout built from disjoint lists consists of valid gates.", "quantifier": "all histories of calls with all option dictionaries", "why_tests_cant": "History invariant.", "anchors": ["slowquant/unitary_coupled_cluster/util.py: UccStructure, UpsStructure.create_tiled, create_fUCC, create_SDSfUCC"]}
{"id": "C26", "title": "Reduced density matrices of the full space are expectation values", "statement": "RDM1(p,q) and RDM2(p,q,r,s) computed from active density matrices equal <E_pq> and <e_pqrs> for every state with filled inactive and empty virtual orbitals.", "quantifier": "all partitions, all active states, all full-space indices", "why_tests_cant": "Sixteen index cases must each be right for every state.", "anchors": ["slowquant/unitary_coupled_cluster/density_matrix.py: RDM1, RDM2"]}
{"id": "C27", "title": "Energy from density matrices equals the expectation value", "statement": "get_electronic_energy(h, g, n_inactive, n_active, rdm1, rdm2) equals <H> for the state giving rdm1 and rdm2.", "quantifier": "all integrals, partitions and states", "why_tests_cant": "Loop ranges must cover exactly the non-zero terms.", "anchors": ["slowquant/unitary_coupled_cluster/density_matrix.py: get_electronic_energy"]}
{"id": "C28", "title": "Symmetric fill of density matrices covers every entry", "statement": "The loops that compute rdm2 over a symmetry-reduced index set assign every entry exactly the expectation value <e_pqrs> for real states; no entry is left at zero.", "quantifier": "all active space sizes", "why_tests_cant": "Coverage of index loops for every size.", "anchors": ["slowquant/unitary_coupled_cluster/ups_wavefunction.py: WaveFunctionUPS.rdm2"]}
{"id": "C29", "title": "Wave-function caches are coherent", "statement": "For every history of assignments to kappa and thetas and of reads, h_mo, g_mo, rdm1, rdm2, ci_coeffs and energy_elec equal what a fresh recomputation from the current orbitals and parameters would give.", "quantifier": "all histories of setter calls and property reads", "why_tests_cant": "History property over unboundedly many interleavings.", "anchors": ["slowquant/unitary_coupled_cluster/ups_wavefunction.py: kappa, thetas, h_mo, g_mo, rdm1, rdm2, energy_elec"]}
{"id": "C30", "title": "Orbital coefficients are history dependent", "statement": "Setting kappa multiplies the accumulated orbital coefficients by exp(-(kappa_new - kappa_old)); the result equals C exp(-kappa_new) when all steps commute (in particular for one step from the start), but assigning the same final kappa along different paths may give different orbitals.", "quantifier": "all sequences of kappa assignments", "why_tests_cant": "Path dependence is invisible to a single-step test.", "anchors": ["slowquant/unitary_coupled_cluster/ups_wavefunction.py: c_mo, kappa"]}
{"id": "C31", "title": "Orbital index lists partition all orbital pairs", "statement": "For every active space the inactive, active and virtual indices partition the orbitals, and every pair p<q of spatial orbitals is in exactly one of the non-redundant and redundant rotation lists; the active-active-free list contains exactly the inter-space pairs.", "quantifier": "all numbers of inactive, active, virtual orbitals", "why_tests_cant": "Partition for all sizes.", "anchors": ["slowquant/unitary_coupled_cluster/ups_wavefunction.py: WaveFunctionUPS.__init__"]}
{"id": "C32", "title": "RotoSolve trigonometric reconstruction is exact", "statement": "For every energy function that is a trigonometric polynomial of degree at most R in the optimised angle, the reconstruction from the 2R+1 shifted evaluations equals the function at every angle where it is defined, and it interpolates the samples.", "quantifier": "all R, all trigonometric polynomials of degree at most R, all angles", "why_tests_cant": "Identity of functions for all R and angles.", "anchors": ["slowquant/unitary_coupled_cluster/optimizers.py: RotoSolve.minimize, reconstructed_f, get_energy_evals"]}
{"id": "C33", "title": "RotoSolve derivative is the derivative of the reconstruction", "statement": "reconstructed_f_derivative is the derivative of reconstructed_f at every angle where it is smooth.", "quantifier": "all R, samples, angles", "why_tests_cant": "Calculus identity.", "anchors": ["slowquant/unitary_coupled_cluster/optimizers.py: reconstructed_f_derivative, _sinc_derivative"]}
{"id": "C34", "title": "RotoSolve returns its best point", "statement": "The value reported by RotoSolve is the objective at the reported parameters, and it is at most the convergence tolerance above the smallest objective seen at the end of any sweep; reported angles lie in (-pi, pi] after every coordinate update and are congruent mod 2 pi to the minimiser found.", "quantifier": "all objectives, starting points, tolerances, iteration limits", "why_tests_cant": "Loop invariant over arbitrary objectives.", "anchors": ["slowquant/unitary_coupled_cluster/optimizers.py: RotoSolve.minimize"]}
{"id": "C35", "title": "Measurement cliques are sound for every history", "statement": "After any history of add_paulis calls with equal-length strings, every string added has a head whose non-identity letters agree with it, looking up its distribution never raises the 'mutated head' or 'not found' errors, heads are pairwise conflicting, and the first head is all Z.", "quantifier": "all histories of batches of Pauli strings of any length", "why_tests_cant": "History invariant of a greedy mutable structure.", "anchors": ["slowquant/qiskit_interface/util.py: Clique.add_paulis, get_distr, get_head, fit_in_clique"]}
{"id": "C36", "title": "Stored distributions always belong to the current head", "statement": "For every history of add_paulis / update_distr calls the distribution returned for a Pauli string was stored for exactly the head now assigned to it; changing a head discards the stored data, and add_paulis returns exactly the heads without data.", "quantifier": "all histories", "why_tests_cant": "Staleness can only be excluded over all interleavings.", "anchors": ["slowquant/qiskit_interface/util.py: Clique, CliqueHead, CliqueSaver"]}
{"id": "C37", "title": "Clique grouping loses no measurement information", "statement": "For every state, the sign-weighted sum of the outcome probabilities measured in a head's rotated basis equals the expectation value of every Pauli string that fits the head.", "quantifier": "all numbers of qubits, all Pauli strings, all heads they fit, all pure states", "why_tests_cant": "n-qubit identity for all n.", "anchors": ["slowquant/qiskit_interface/util.py: to_CBS_measurement, get_bitstring_sign, fit_in_clique"]}
{"id": "C38", "title": "Mitigation flags stay consistent", "statement": "After any sequence of construction, update_flags and all_to_false calls that do not raise, do_M_ansatz0_plus implies do_M_ansatz0 implies do_M_mitigation, and distinct flag settings have distinct integer keys.", "quantifier": "all histories of calls", "why_tests_cant": "History invariant.", "anchors": ["slowquant/qiskit_interface/util.py: MitigationFlags"]}
{"id": "C39", "title": "Post-selection under Jordan-Wigner keeps exactly the physical bitstrings", "statement": "postselection with the Jordan-Wigner mapper keeps exactly the bitstrings with the requested alpha and beta counts, and the result sums to one whenever the kept weight is non-zero.", "quantifier": "all distributions, register sizes, electron numbers", "why_tests_cant": "All bitstrings of all lengths.", "anchors": ["slowquant/qiskit_interface/util.py: postselection"]}
{"id": "C40", "title": "Post-selection under the parity mapping", "statement": "With the two-qubit-reduced parity mapper the kept bitstrings are exactly the encodings of determinants with the requested electron numbers - true when Nalpha = Nbeta, false otherwise.", "quantifier": "all register sizes and electron numbers", "why_tests_cant": "Encoding argument for all lengths.", "anchors": ["slowquant/qiskit_interface/util.py: postselection"]}
{"id": "C41", "title": "Qubit layout correction applies the calibration matrix in the right order", "statement": "correct_distribution_with_layout_v2 equals conjugating the calibration matrix with the permutation of bits that takes the circuit layout to the calibration layout; swaps found always turn one layout into the other. The older correct_distribution_with_layout agrees with it only when the permutation is an involution.", "quantifier": "all permutations, all matrices, all distributions, all register sizes", "why_tests_cant": "All permutations of all sizes; tests use transpositions.", "anchors": ["slowquant/qiskit_interface/util.py: find_swaps, swap_indices, correct_distribution_with_layout_v2, correct_distribution_with_layout"]}
{"id": "C42", "title": "Fixed-layout routing finds a shortest path", "statement": "find_best_path returns a path along coupling edges from start to target with the fewest possible edges, and raises exactly when none exists.", "quantifier": "all finite directed coupling maps, all start/target", "why_tests_cant": "Graph-universal.", "anchors": ["slowquant/qiskit_interface/util.py: find_best_path"]}
{"id": "C43", "title": "Permutation routing realises the permutation with legal swaps", "statement": "Whenever add_permutation_gate returns, the emitted swaps are along coupling-map edges and realise the requested permutation; on line-shaped maps it always returns.", "quantifier": "all coupling maps and permutations", "why_tests_cant": "Unbounded loop with a graph-dependent exit condition.", "anchors": ["slowquant/qiskit_interface/util.py: add_permutation_gate"]}
{"id": "C44", "title": "Spin reordering sign and index map", "statement": "f2q is a bijection from interleaved to blocked spin orbitals, and get_reordering_sign(det) is the sign relating the interleaved-order determinant to the blocked-order determinant.", "quantifier": "all numbers of orbitals and all determinants", "why_tests_cant": "Permutation sign for all determinants.", "anchors": ["slowquant/qiskit_interface/util.py: f2q, get_reordering_sign"]}
{"id": "C45", "title": "Superposition reference circuit", "statement": "get_determinant_superposition_reference prepares exactly (|det1> + |det2>)/sqrt(2) for every pair of determinants with the same number of electrons and det1 != det2; it raises exactly when det2 has no orbital occupied that is empty in det1.", "quantifier": "all registers and determinant pairs", "why_tests_cant": "All pairs of all sizes.", "anchors": ["slowquant/qiskit_interface/util.py: get_determinant_superposition_reference"]}
{"id": "C46", "title": "Single-excitation circuit is the exact exponential", "statement": "The gate sequence of the efficient single-excitation circuit acts on every n-qubit state as exp(theta (a_k^dagger a_i - a_i^dagger a_k)) under Jordan-Wigner with blocked ordering.", "quantifier": "all register sizes, all i<k in the blocked ordering, all angles, all states", "why_tests_cant": "The CNOT ladder length depends on k-i without bound.", "anchors": ["slowquant/qiskit_interface/operators_circuits.py: _single_excitation_efficient"]}
{"id": "C47", "title": "Shot accounting", "statement": "After any history of shots and max_shots_per_run assignments, shots per run never exceed the maximum and the number of repetitions times shots per run never exceeds the requested shots and misses it by less than one run; averaging repeated runs gives the mean of the runs.", "quantifier": "all histories of assignments", "why_tests_cant": "History property with integer division.", "anchors": ["slowquant/qiskit_interface/interface.py: shots, max_shots_per_run"]}
{"id": "C48", "title": "Gaussian product expansion coefficients", "statement": "The table filled by expansion_coefficients expands every product of Cartesian Gaussians (x-A)^i (x-B)^j in Hermite Gaussians at the product centre: sum_t E_t^{ij} Lambda_t = (x-A)^i (x-B)^j K.", "quantifier": "all angular momenta, centres, exponents with a+b != 0, all x", "why_tests_cant": "Recursion correctness for every angular momentum.", "anchors": ["slowquant/molecularintegrals/integralfunctions.py: expansion_coefficients"]}
{"id": "C49", "title": "Hermite Coulomb table satisfies its recursion", "statement": "hermite_coulomb_integral fills a table whose n=0 slice equals the mathematical recursion R^0_{tuv}, although entries with n+t+u+v beyond the table are computed from zeros.", "quantifier": "all angular momenta and centres", "why_tests_cant": "Shows the truncated table never contaminates the returned slice, for every size.", "anchors": ["slowquant/molecularintegrals/integralfunctions.py: hermite_coulomb_integral"]}
{"id": "C50", "title": "Two-electron integral driver fills every element", "statement": "electron_repulsion_integral_driver fills every element of the tensor with the corresponding integral (given eight-fold symmetric shell integrals), even though its compound index i(i+1)/2+j is not injective on the pairs it is used for; screening drops only integrals below threshold when the Cauchy-Schwarz bound holds.", "quantifier": "all shell structures, all symmetric integral functions, all thresholds", "why_tests_cant": "Coverage of a triangular loop for every number of shells.", "anchors": ["slowquant/molecularintegrals/electronrepulsion.py: electron_repulsion_integral_driver"]}
{"id": "C51", "title": "Integral transformation", "statement": "one_electron_integral_transform and two_electron_integral_transform with the fixed contraction order equal the defining sums, compose (transforming by C then D equals transforming by C D) and preserve the permutational symmetry of the integrals.", "quantifier": "all matrices and tensors of all sizes", "why_tests_cant": "Linear-algebra identities of all sizes.", "anchors": ["slowquant/molecularintegrals/integralfunctions.py: one_electron_integral_transform, two_electron_integral_transform"]}
{"id": "C52", "title": "Qiskit form of operators", "statement": "get_qiskit_form renames spin orbitals by the bijection interleaved->blocked, sends distinct strings to distinct keys, and its key parses back to the operator string.", "quantifier": "all operators and numbers of orbitals covering their indices", "why_tests_cant": "Injectivity over all strings.", "anchors": ["slowquant/unitary_coupled_cluster/fermionic_operator.py: get_qiskit_form, operator_to_qiskit_key"]}
{"id": "C53", "title": "Matrix elements between configuration state functions", "statement": "quantum_expectation_value_csfs combines superposition and diagonal expectation values to exactly the real part of <bra|U^dagger O U|ket> for every pair of expansions in determinants with at least one electron, every ansatz circuit and every real combination of Pauli strings, whatever was saved by earlier calls; it raises for other mappers, missing coefficients and, in descending order, nested determinants.", "quantifier": "all CSF expansions, observables, ansatz circuits and histories of calls", "why_tests_cant": "Bilinear identity for all expansions and an invariant of the saver over all histories.", "anchors": ["slowquant/qiskit_interface/interface.py: quantum_expectation_value_csfs"]}
{"id": "C54", "title": "Logger keeps what is logged", "statement": "After any sequence of add_to_log calls the log contains the messages in order. (It does not: the log stays empty for ever.)", "quantifier": "all sequences of messages", "why_tests_cant": "History property; nothing in the tests reads the log.", "anchors": ["slowquant/logger.py: _Logger.add_to_log", "slowquant/hartreefock/hartreefockclass.py: _HartreeFock.log"]}
{"id": "C55", "title": "Naive linear response blocks", "statement": "The A, B and Sigma blocks assembled by naive linear response equal the (symmetrised) double-commutator and commutator expectation values of the response equations for every pair of excitation operators.", "quantifier": "all operator pools and real states", "why_tests_cant": "Operator identity for all pools.", "anchors": ["slowquant/unitary_coupled_cluster/linear_response/naive.py: LinearResponse.__init__"]}
{"id": "C56", "title": "Orbital gradient", "statement": "get_orbital_gradient returns, for each pair (m,n) of the rotation list, the expectation value <[E_mn - E_nm, H]> over all orbitals, for every real Hamiltonian and active-space state.", "quantifier": "all orbital partitions, pair lists inside the orbital space, real integrals with permutational symmetry, states", "why_tests_cant": "Commutator identity over arbitrary orbital spaces; tests check a few molecules by energies only.", "anchors": ["slowquant/unitary_coupled_cluster/density_matrix.py: get_orbital_gradient"]}
{"id": "C57", "title": "Response gradient and orbital Hessian block", "statement": "get_orbital_gradient_response returns <[q,H]> for excitations then de-excitations, and each entry of get_orbital_response_hessian_block is 1/2 <[E_tu,[H,E_mn]]>; a second index list longer than the first is out of bounds.", "quantifier": "all partitions, lists, integrals, states", "why_tests_cant": "Double commutator identity with many index branches.", "anchors": ["slowquant/unitary_coupled_cluster/density_matrix.py: get_orbital_gradient_response, get_orbital_response_hessian_block"]}
{"id": "C58", "title": "Orbital metric, norm and property gradient", "statement": "The metric entries are 1/2 <[E_pq,E_mn]>, the vector norm is <[O,O+]> and the property gradient <[O,X]> for the excitation operator O the response vector describes.", "quantifier": "all partitions, lists without active-active pairs (norm), response vectors, real symmetric properties", "why_tests_cant": "Operator identities for all vectors.", "anchors": ["slowquant/unitary_coupled_cluster/density_matrix.py: get_orbital_response_metric_sigma, get_orbital_response_vector_norm, get_orbital_response_property_gradient"]}
{"id": "C59", "title": "Three- and four-electron density matrices", "statement": "The rdm3 and rdm4 loops with their reduced index ranges, contraction corrections and symmetric writes fill every entry with the expectation value of the normal-ordered singlet excitation string.", "quantifier": "all orbital partitions and CI vectors", "why_tests_cant": "Coverage of the permutation images and correctness of fourteen correction terms over all index tuples.", "anchors": ["slowquant/unitary_coupled_cluster/ups_wavefunction.py: WaveFunctionUPS.rdm3, WaveFunctionUPS.rdm4"]}
{"id": "C60", "title": "Pauli saving is exact over any history of calls", "statement": "With a device that answers with exact outcome distributions, every expectation value computed by the sampler interface equals the coefficient-weighted sum of Pauli expectation values for the current parameters, whatever calls (expectation values, parameter changes, flag changes, resets) came before; with post-selection the same holds for states with the configured numbers of electrons.", "quantifier": "all numbers of qubits, all histories, all observables, all states", "why_tests_cant": "The saved distributions depend on the whole history of calls; tests run a handful of short histories.", "anchors": ["slowquant/qiskit_interface/interface.py: _sampler_quantum_expectation_value, parameters setter, update_mitigation_flags, _reset_cliques", "slowquant/qiskit_interface/util.py: Clique, CliqueSaver"]}
{"id": "C61", "title": "Double-excitation circuit", "statement": "The efficient double-excitation circuit equals the exponential of the double-excitation generator for every ordering of its four qubits, and is refused exactly when a creation orbital is not above an annihilation orbital or spin does not balance.", "quantifier": "all angles, all numbers of orbitals, all four distinct orbitals, all states", "why_tests_cant": "The circuit has 26+ gates and its signs and parity ladders depend on the relative order and distance of four qubits; tests use a few small molecules.", "anchors": ["slowquant/qiskit_interface/operators_circuits.py: _double_excitation_efficient, double_excitation"]}
{"id": "C62", "title": "Circuit of a layout equals the state-vector ansatz", "statement": "The circuit of upslayout2circuit, with parameters bound by their names, maps the encoding of a CI vector to the encoding of construct_ups_state of that vector, for every sequence of supported excitations; preceded by the determinant circuit it prepares the encoded ansatz state from |0...0>.", "quantifier": "all layouts of any length, all angles, all CI spaces of fixed electron numbers", "why_tests_cant": "The two implementations share no code and use different orbital orderings and sign conventions; tests compare energies of a few small molecules.", "anchors": ["slowquant/qiskit_interface/operators_circuits.py: upslayout2circuit", "slowquant/unitary_coupled_cluster/operator_state_algebra.py: construct_ups_state", "slowquant/qiskit_interface/util.py: get_determinant_reference, get_reordering_sign"]}
{"id": "C63", "title": "Read-out mitigation is exact for a device with a fixed read-out channel", "statement": "The calibration circuits of _make_Minv prepare each basis state, the calibration matrix is the read-out channel, and correcting the distribution of any circuit gives its ideal probabilities on every observed outcome (on all outcomes with correct_distribution_with_layout_v2). Outcomes never observed are not restored by correct_distribution, so total weight is not conserved.", "quantifier": "all register sizes up to the limit of eight qubits, all invertible channels, all circuits, all layouts", "why_tests_cant": "Every channel and circuit; tests use a fixed simulator noise model and finite shots.", "anchors": ["slowquant/qiskit_interface/interface.py: _make_Minv, _apply_M_mitigation", "slowquant/qiskit_interface/util.py: correct_distribution, correct_distribution_with_layout_v2"]}
{"id": "C64", "title": "Perfect-pairing reference determinant and orbital exchange", "statement": "For every number of active electrons and orbitals the perfect-pairing loop ends with a valid closed-shell determinant (its ValueError is unreachable), which like the Hartree-Fock determinant is a key of the determinant index, and the exchange of molecular-orbital columns is a permutation of the active columns after which the occupied positions of the perfect-pairing determinant hold exactly the columns occupied in the Hartree-Fock determinant.", "quantifier": "all numbers of active electrons, active orbitals, inactive orbitals and all coefficient matrices", "why_tests_cant": "The loop has three branches whose interplay depends on the electron/orbital ratio; tests use a couple of active spaces.", "anchors": ["slowquant/unitary_coupled_cluster/ups_wavefunction.py: WaveFunctionUPS.__init__ lines 217-262"]}
{"id": "C65", "title": "Ansatz layouts contain exactly the documented gates", "statement": "create_fUCC appends n_layers copies of one layer that consists, in the order S, GS, SAS, SAGS, D, GD, pD, GpD, T, Q, 5, 6, SAD, of one block per switched-on option; each block contains every excitation of its class exactly once (spin-conserving excitations of k electrons from occupied to unoccupied spin orbitals, spatial pairs for the spin-adapted classes, index-ordered pairs for the generalized classes), with the emptied orbitals listed first. create_SDSfUCC appends layers in which every double is enclosed between the two singles that realise it. create_tiled appends, per layer, the tUPS or QNP blocks at the even and then at the odd positions below num_active_orbs - 1, without the closing singles of the last column of the last layer when skip_last_singles is set. UccStructure.add_* append the corresponding blocks. create_fUCC accepts exactly the option dictionaries with documented names, n_layers and a switch equal to 1.", "quantifier": "all orbital lists without repetition, all option dictionaries, all numbers of layers and orbitals, all earlier structures", "why_tests_cant": "tests compare energies of a few molecules for a few ansatz options; a missing or repeated gate in another class changes no tested number", "anchors": ["slowquant/unitary_coupled_cluster/util.py:547-1073"]}
{"id": "C66", "title": "Ansatz-parameter gradient is the derivative of the energy", "statement": "For an ansatz made of valid gates and any parameter vector, the loop of _calc_gradient_optimization over the ansatz parameters returns one number per parameter, and each is the derivative of the energy expectation value, as a function of that parameter, at the current point.", "quantifier": "all determinant sectors, gate lists, parameter vectors, reference vectors and symmetric integrals", "why_tests_cant": "Finite-difference tests compare a few entries to a few digits at one point; the bra/ket recursion is correct only if every gate is propagated in the same order in both vectors, for every position in the ansatz.", "anchors": ["slowquant/unitary_coupled_cluster/ups_wavefunction.py:1089-1142", "slowquant/unitary_coupled_cluster/operator_state_algebra.py: propagate_unitary, get_grad_action"]}
{"id": "C67", "title": "The gradient function of the optimisation returns derivatives of the reported energy", "statement": "After any history of kappa and thetas assignments and reads, calling _calc_gradient_optimization with a parameter vector of the right length succeeds and returns a vector of that length; entry i of the orbital part is the derivative of the energy the object reports when kappa_i alone is assigned a different value, and entry i of the theta part is the derivative of the reported energy in theta_i.", "quantifier": "all histories, all parameter vectors, all four combinations of the two optimisation flags, all molecular-orbital coefficients, symmetric integrals and normalised reference vectors", "why_tests_cant": "Involves the interplay of caches, the incremental orbital rotation and two independently coded derivative formulas; a stale cache or a sign error in one class of rotation shows only for particular call sequences and orbital spaces.", "anchors": ["slowquant/unitary_coupled_cluster/ups_wavefunction.py:1060-1142", "slowquant/unitary_coupled_cluster/density_matrix.py: get_orbital_gradient"]}
{"id": "C68", "title": "One-step optimisation: what the optimiser is told and what the object holds afterwards", "statement": "run_wf_optimization_1step, started on an object with any history, answers every energy call with the exact energy at the requested point (or the stored energy of the last evaluated point when every parameter differs by less than 1e-14) and every gradient call with the exact gradient; afterwards thetas is the returned point, kappa is zero after orbital optimisation, the stored energy is the returned value, and if that value is the energy at the held orbitals and parameters then every later read is coherent. Without orbital optimisation the orbitals do not move.", "quantifier": "all histories, all optimisers making any finite sequence of calls of the right size, all returned points and values", "why_tests_cant": "A test runs one optimiser on one molecule; the memo of the last evaluated point, the in-place reset of kappa and the cache invalidation interact over arbitrary call sequences.", "anchors": ["slowquant/unitary_coupled_cluster/ups_wavefunction.py:920-1058", "slowquant/unitary_coupled_cluster/ups_wavefunction.py:1060-1142"]}
{"id": "C69", "title": "Repeating an orbital-optimising run, and the orbitals it leaves behind", "statement": "run_wf_optimization_1step with orbital optimisation can be called again on the same object, and it leaves the object at the orbitals of the returned point.", "quantifier": "all histories, all numbers of rotations and ansatz parameters, all optimisers", "why_tests_cant": "Tests call the driver once per object and use an optimiser whose last evaluation happens to be the returned point.", "anchors": ["slowquant/unitary_coupled_cluster/ups_wavefunction.py:976-1017"]}
{"id": "C70", "title": "Multipole matrix elements are the integrals over the basis functions", "statement": "Each element returned by multipole_integral_driver is the three-dimensional integral over all space of the product of two contracted Gaussian basis functions and the Cartesian moment about the origin of coordinates passed in, and the matrix is symmetric; the overlap matrix is the case of moment zero.", "quantifier": "all basis sets with positive exponents, all angular momenta, contraction lengths, centres and multipole orders", "why_tests_cant": "Tests compare a few reference matrices; a wrong term for an untested angular momentum or multipole order goes unnoticed.", "anchors": ["slowquant/molecularintegrals/multipole.py:10-135", "slowquant/molecularintegrals/integralfunctions.py:15-72", "slowquant/molecularintegrals/integralfunctions.py:150-211"]}
{"id": "C71", "title": "Kinetic energy matrix elements are integrals of minus half the Laplacian", "statement": "Each element returned by kinetic_energy_integral_driver is the integral over all space of -1/2 (Laplacian of one basis function) times the other, and the matrix is symmetric.", "quantifier": "all basis sets with positive exponents, all angular momenta, contraction lengths and centres", "why_tests_cant": "Tests compare a few reference matrices.", "anchors": ["slowquant/molecularintegrals/kineticenergy.py:10-133"]}
{"id": "C72", "title": "Nuclear attraction matrix elements are Coulomb integrals", "statement": "With exact Boys functions, each nuclear attraction integral is the sum over the nuclei of minus the charge times the integral of the product of two basis functions with 1/|r-C|, and the matrix filled by the driver contains these values and is symmetric.", "quantifier": "all basis sets with positive exponents, all angular momenta, all nuclei", "why_tests_cant": "Tests compare a few reference matrices.", "anchors": ["slowquant/molecularintegrals/nuclearattraction.py:10-135", "slowquant/molecularintegrals/integralfunctions.py:98-148"]}
{"id": "C73", "title": "Electron repulsion integrals are Coulomb integrals", "statement": "With exact Boys functions, each electron repulsion integral is the six-dimensional integral of the product of two charge distributions with 1/|r-r'|.", "quantifier": "all basis sets with positive exponents, all angular momenta", "why_tests_cant": "Tests compare a few reference tensors.", "anchors": ["slowquant/molecularintegrals/electronrepulsion.py:10-339"]}
{"id": "C74", "title": "Primitive and contracted Gaussians are normalised", "statement": "primitive_normalization makes every primitive Cartesian Gaussian a unit vector, and every basis function of a constructed shell has unit norm (diagonal of the overlap matrix is one) unless the contraction of the primitives vanishes.", "quantifier": "all exponents, angular momenta, contraction lengths and centres", "why_tests_cant": "Tests use standard basis sets, whose contractions are already nearly normalised and whose angular momenta are low.", "anchors": ["slowquant/molecule/moleculefunctions.py:8-120", "slowquant/molecule/moleculeclass.py"]}
{"id": "C75", "title": "boys_function agrees with the Boys function", "statement": "boys_function(n, z) equals the integral of s^(2n) exp(-z s^2) over [0,1] up to the tolerances written in the code, in each of its four branches (closed form for n = 0, long-range form above z = 25, limit below 1e-10, series otherwise), for every n.", "quantifier": "all n, all z >= 0", "why_tests_cant": "Tests use basis sets with low angular momentum, where the early break of the series is harmless; the error depends on n.", "anchors": ["slowquant/molecularintegrals/integralfunctions.py:75-97"]}
{"id": "C76", "title": "Restricted Hartree-Fock returns orbitals, density and energy that belong together", "statement": "Whatever the integrals, thresholds and number of iterations, when run_hartree_fock returns (E, C, F, D): the orbitals are orthonormal in the overlap metric, D is twice the projector on the lowest N/2 of them (D S D = 2 D, trace N), they solve F C = S C eps with ascending eps, F is the Fock matrix of (an affine combination of) earlier densities, and E is the Hartree-Fock energy of D.", "quantifier": "all numbers of basis functions, all symmetric integrals with positive definite overlap, all electron numbers, thresholds, iteration limits, with and without DIIS", "why_tests_cant": "Tests compare converged energies of small molecules with even electron numbers with reference values.", "anchors": ["slowquant/hartreefock/hartreefock_in_memory.py:7-94"]}
{"id": "C77", "title": "DIIS returns the affine combination with the smallest residual", "statement": "The DIIS object keeps the last six offered pairs; the extrapolated Fock matrix is the affine combination of the kept Fock matrices whose residual F D S - S D F, combined with the same coefficients, has the smallest norm among all affine combinations; the first offered matrix is returned unchanged.", "quantifier": "all histories, sizes, symmetric matrices, any solver that returns solutions", "why_tests_cant": "Convergence to the right energy does not show whether the extrapolation is the minimiser; a wrong one only changes the number of iterations.", "anchors": ["slowquant/hartreefock/diis.py:18-66"]}
{"id": "C78", "title": "Unrestricted Hartree-Fock: both spins, mixing and spin contamination", "statement": "Returned orbitals of both spins are orthonormal, solve their Roothaan equations, give idempotent densities with the right traces; the frontier mixing of equal spin numbers keeps orbitals orthonormal; the spin contamination is between 0 and the number of beta electrons, equals n_beta - Tr(Da S Db S), and is 0 when both spins share orbitals.", "quantifier": "all sizes, symmetric integrals, electron numbers, mixing angles, thresholds", "why_tests_cant": "Tests run a few open-shell molecules and look at energies.", "anchors": ["slowquant/hartreefock/unrestricted_hartreefock_in_memory.py:7-125", "slowquant/hartreefock/hartreefockclass.py:112-138"]}
{"id": "C79", "title": "Electron counts and nuclear repulsion", "statement": "number_electrons_alpha + number_electrons_beta = number_electrons = sum of nuclear charges minus the charge, with alpha - beta in {0, 1}; nuclear_repulsion is half the sum over ordered pairs of different nuclei of Z Z / R, independent of the order of the atoms and of any rigid motion.", "quantifier": "all molecules and charges (also negative electron counts)", "why_tests_cant": "Tests use one orientation and order of a few molecules.", "anchors": ["slowquant/molecule/moleculeclass.py:132-189"]}
{"id": "C80", "title": "The integral object returns integrals of its molecule", "statement": "After any history of set_molecule, set_basis_set, init_hartree_fock, reads, and assignments of store flags, force_recompute and threshold, the matrices read through the SlowQuant object are those of the geometry and basis last given together; the two-electron tensor is screened with the Schwarz matrix of the same molecule. Objects created before a change keep referring to the molecule they were made for.", "quantifier": "all histories", "why_tests_cant": "Caches and shared references only matter in histories longer than those of a test.", "anchors": ["slowquant/SlowQuant.py:8-49", "slowquant/molecularintegrals/integralclass.py:16-108", "slowquant/molecule/moleculeclass.py:78-108"]}
{"id": "C81", "title": "The integral manager is a snapshot", "statement": "An IntegralManager answers every read, in any order and any number of times, with the integrals of the geometry and basis in force when it was made; h_ao is the sum of nuclear attraction and kinetic energy.", "quantifier": "all histories before creation, all sequences of reads", "why_tests_cant": "History property.", "anchors": ["slowquant/unitary_coupled_cluster/integral_manager.py:9-125"]}
{"id": "C82", "title": "Truncated Hamiltonians are exact for single holes and particles", "statement": "hamiltonian_1i_1a (and one_elec_op_1i_1a) has the matrix elements of the full-space operator between the active space and the determinants with at most one empty inactive and at most one occupied virtual spin orbital; hamiltonian_2i_2a has them between any two such determinants; one_elec_op_0i_0a has them inside the active space.", "quantifier": "all partitions, integrals and determinants", "why_tests_cant": "The index tests must drop only terms that vanish, for every index quadruple and pair of determinants.", "anchors": ["slowquant/unitary_coupled_cluster/operators.py: hamiltonian_1i_1a, hamiltonian_2i_2a, one_elec_op_0i_0a, one_elec_op_1i_1a"]}
{"id": "C83", "title": "Excited states of naive linear response", "statement": "calc_excitation_energies returns one energy and one vector per excitation, the upper half of the sorted solutions, each energy paired with its own vector, solving the response equations before and after normalisation, and refuses an unstable Hessian; the norm computed from two diagonal blocks of the metric is <[T, T^+]>, so a normalised vector has <[T, T^+]> = 1; each component of the transition dipole is <[mu, T]> with the full-space dipole operator; the oscillator strength is 2/3 w times the squared dipole.", "quantifier": "all pools, real states and orbitals, vectors, symmetric dipole integrals and eigensolvers returning solutions", "why_tests_cant": "The block slicing, the density-matrix expression of the orbital part and the neglected off-diagonal blocks must be right for every pool and vector.", "anchors": ["slowquant/unitary_coupled_cluster/linear_response/lr_baseclass.py: calc_excitation_energies, get_excited_state_norm, get_normed_excitation_vectors, get_oscillator_strength", "slowquant/unitary_coupled_cluster/linear_response/naive.py: get_transition_dipole"]}
{"id": "C84", "title": "Matrices of projected linear response", "statement": "LinearResponse of projected.py returns matrices exactly when no gradient (orbital gradients, and <[H,R]>, <[R^+,H]> for the projected excitations) is large, and raises ValueError otherwise. With R_i the orbital rotations and the projected excitations A|0><0| - <A>: the metric is <[R_i^+, R_j]>, Delta is zero, the blocks of two rotations are the double commutators, the blocks of two excitations are the symmetrised double commutators, and the mixed entries differ from the symmetrised double commutators by half <A> times the orbital gradient in A and minus <A> times the gradient in B. The adjoint of every R_i annihilates the state.", "quantifier": "all real normalised states, real symmetric integrals, active spaces, excitation ranks and thresholds", "why_tests_cant": "The working equations replace double commutators by products of overlaps; a dropped factor or a missing term is invisible at one geometry and shows only away from the tested state.", "anchors": ["slowquant/unitary_coupled_cluster/linear_response/projected.py: LinearResponse.__init__ 25-285"]}
{"id": "C85", "title": "Variance of sampled expectation values", "statement": "After any history of calls on an ideal device, quantum_variance without mitigation gives, for an observable of distinct strings that were measured: in the grouped mode the sum over measurement groups of <G^2> - <G>^2, where the groups partition the observable, have distinct heads, and every head measures its strings; with do_no_corr or without cliques the sum of c^2 (1 - <P>^2) over the strings, with unit coefficients if no_coeffs is set. A finite number of shots divides the result. (The grouped mode ignores no_coeffs, and counts a string that is listed twice with its last coefficient both times.)", "quantifier": "all numbers of qubits, states, histories of calls, observables, coefficients, shots and flag values of the method", "why_tests_cant": "Tests compare one molecule with stored numbers; that grouping reproduces the covariances of the quantum observable for every state and every order of measurements needs a proof.", "anchors": ["slowquant/qiskit_interface/interface.py:1169-1271", "slowquant/qiskit_interface/interface.py:1511-1530", "slowquant/qiskit_interface/util.py:1119-1132"]}
{"id": "C86", "title": "Parameter-shift gradient and the energies of RotoSolve", "statement": "The energy of a product ansatz is, in each parameter, a trigonometric polynomial of degree two (four for spin-adapted singles), which is the order that the layouts and upslayout2circuit record for it. Hence the parameter-shift sums of circuit_wavefunction.py, with exact expectation values, give for every accepted layout exactly the list that the state-vector gradient computes, the derivatives of the energy; the state-averaged version gives the derivative of the mean energy. The energies that the state-vector classes compute at once for RotoSolve are the energies of the ansatz with one parameter replaced by each value. (The state-averaged class hands RotoSolve the sum over the states, not the mean; layouts with spin-adapted doubles have no recorded order and raise KeyError.)", "quantifier": "all layouts, numbers of parameters, angles, Hamiltonians, reference states, active spaces, numbers of states and of sampled values", "why_tests_cant": "Tests compare the energy after an optimisation; that 2R shifted energies give the exact derivative, with the recorded R for each kind of excitation, is an identity for all angles.", "anchors": ["slowquant/qiskit_interface/circuit_wavefunction.py:1178-1243", "slowquant/qiskit_interface/sa_circuit_wavefunction.py:884-952", "slowquant/unitary_coupled_cluster/ups_wavefunction.py:1144-1194", "slowquant/unitary_coupled_cluster/sa_ups_wavefunction.py:1005-1082", "slowquant/qiskit_interface/operators_circuits.py:441-475"]}
{"id": "C87", "title": "The all-projected linear response matrices are double commutators of projected operators", "statement": "LinearResponse of linear_response/allprojected.py replaces every operator X, orbital rotations included, by R = X|0><0| - <0|X|0>. The metric it builds is <0|[R_i+, R_j]|0>, its Delta is zero, the Hessian blocks A and B of two rotations and of two excitations are the symmetrised double commutators with the full Hamiltonian, and in the blocks between a rotation and an excitation each entry differs from the symmetrised double commutator by half the product of <X> and the orbital gradient, so all agree at a stationary point. The constructor raises ValueError exactly when the gradient along some projected operator is large.", "quantifier": "for all orbital partitions, electron numbers, real symmetric integrals, normalised states, excitation strings, ansatz functions and thread schedules", "why_tests_cant": "The code evaluates the commutators with truncated Hamiltonians and pre-contracted formulas; tests compare a few excitation energies of small molecules at convergence, where the omitted terms vanish.", "anchors": ["slowquant/unitary_coupled_cluster/linear_response/allprojected.py:LinearResponse.__init__", "slowquant/unitary_coupled_cluster/operators.py:hamiltonian_2i_2a"]}
{"id": "C88", "title": "Norms and transition dipoles of the projected linear response classes are commutators of projected operators", "statement": "For the projected and the all-projected LinearResponse classes, with T = sum_i Z_i R_i+ + Y_i R_i over the projected operators R_i of the class, get_excited_state_norm is <0|[T, T+]|0>, the normalised vectors have norm one whenever the norm is not tiny, and every component of get_transition_dipole is <0|[mu, T]|0> with the dipole operator of all orbitals. Both classes return the same transition dipole for the same vector.", "quantifier": "for all orbital partitions, electron numbers, normalised states, symmetric property integrals, excitation vectors, excitation strings, ansatz functions and thread schedules", "why_tests_cant": "The code evaluates the rotations through a one-electron density matrix and the excitations through overlaps of propagated kets with an operator restricted to the active space; tests compare a few oscillator strengths, which are insensitive to the sign and mostly to the products of expectation values.", "anchors": ["slowquant/unitary_coupled_cluster/linear_response/projected.py:LinearResponse.get_transition_dipole", "slowquant/unitary_coupled_cluster/linear_response/allprojected.py:LinearResponse.get_transition_dipole", "slowquant/unitary_coupled_cluster/linear_response/lr_baseclass.py:LinearResponseBaseClass.get_excited_state_norm"]}
{"id": "C89", "title": "State-averaged energies, subspace states, transition properties and gradient", "statement": "For orthonormal reference states the state-averaged unitary-product wave function keeps its states orthonormal; its energy is the mean of the expectation values of the Hamiltonian of all orbitals; diagonalising in the subspace yields, in ascending order, normalised states whose expectation values are the energies, which satisfy the projected eigenvalue equation, and which are orthogonal and non-interacting when the energies differ; the energies sum up to the energies of the given states; transition properties and oscillator strengths are those of these states for operators over all orbitals; and the gradient over the ansatz parameters is the derivative of the state-averaged energy.", "quantifier": "all orbital spaces and particle sectors, all numbers of reference states, all lists of valid gates and parameters, all symmetric integrals, every eigensolver that solves the subspace problem", "why_tests_cant": "Tests compare a few molecules with stored energies; the identity of the averaged gradient with a derivative, and of the subspace quantities with those of the full space, is a statement about all states, gates and integrals.", "anchors": ["slowquant/unitary_coupled_cluster/sa_ups_wavefunction.py:495-515", "slowquant/unitary_coupled_cluster/sa_ups_wavefunction.py:741-853", "slowquant/unitary_coupled_cluster/sa_ups_wavefunction.py:884-1003"]}
{"id": "C90", "title": "State-averaged density matrices give the state-averaged energy and its orbital gradient", "statement": "For a state-averaged wave function with any positive number of states in any active space, rdm1 and rdm2 succeed, and every entry is the mean over the states of the expectation value of the excitation operators. If the states are normalised, the energy formula evaluated with these matrices equals the state-averaged energy, and the kappa part of the state-averaged gradient consists of the derivatives of the state-averaged energy with respect to the entries of kappa.", "quantifier": "all numbers of inactive, active and virtual orbitals, all numbers of states, all coefficients, all integrals with the symmetries of real orbitals, all orbital coefficients, all lists of rotation pairs, serial and threaded propagation", "why_tests_cant": "Tests compare one energy or one gradient with a reference value for one molecule and two or three states; an index error in the loops that fill the arrays, or an average over the wrong number of states, only shows for other sizes.", "anchors": ["slowquant/unitary_coupled_cluster/sa_ups_wavefunction.py:397-480", "slowquant/unitary_coupled_cluster/sa_ups_wavefunction.py:939-948", "slowquant/unitary_coupled_cluster/density_matrix.py"]}
{"id": "C91", "title": "State-transfer linear response builds the double commutators of the transfer operators", "statement": "The constructor of the state-transfer linear response, for excitations U G_i |CSF><0| and orbital rotations as they are, raises ValueError exactly when the orbital gradient or one of the gradients <[R_i^dagger,H]>, <[R_i,H]> is large. Otherwise the metric entries are <[R_i^dagger,R_j]>, the A entries are the double commutators <[R_i^dagger,[H,R_j]]> and the B entries are the (symmetrised) double commutators <[R_i^dagger,[H,R_j^dagger]]>.", "quantifier": "all numbers of inactive, active and virtual orbitals, all normalised states, all unitary ansatzes (in particular every unitary product state), all integrals with the symmetries of real orbitals, all excitation levels, all references whose excitations are orthonormal", "why_tests_cant": "Tests compare a few excitation energies of one molecule with reference values; the constructor writes the metric and the B block as constants, which is right only under conditions on the reference that no test varies.", "anchors": ["slowquant/unitary_coupled_cluster/linear_response/statetransfer.py:25-156", "slowquant/unitary_coupled_cluster/ups_wavefunction.py:215-264"]}
{"id": "C92", "title": "Projected state-transfer linear response is configuration interaction among the states its operators make", "statement": "The constructor of the projected state-transfer linear response, for rotations q_i |0><0| and excitations U G_i |CSF><0|, raises ValueError exactly when one of the gradients <[R_i^dagger,H]>, <[R_i,H]> is large. Otherwise every entry of A, B, Sigma and Delta is the commutator expectation value of the response equations, with either nesting of the double commutator and without the state being stationary; B and Delta vanish, A is the Hamiltonian among the states relative to the energy, and Sigma is their overlap.", "quantifier": "all numbers of inactive, active and virtual orbitals, all normalised states, all unitary ansatzes, all integrals with the symmetries of real orbitals, all excitation levels, all references whose excitations are orthonormal", "why_tests_cant": "Tests compare excitation energies of one molecule at a converged state; the metric of the excitations and the vanishing blocks are constants of the code, and the orbital gradient check uses the working equations of another method.", "anchors": ["slowquant/unitary_coupled_cluster/linear_response/projected_statetransfer.py:25-145"]}
{"id": "C93", "title": "Norms and transition dipoles of the state-transfer linear response classes are commutators of their operators", "statement": "For the state-transfer and the projected state-transfer LinearResponse classes, with T = sum_i Z_i R_i+ + Y_i R_i over the operators R_i of the class (U G_i |CSF><0| for the excitations, the rotations as they are or projected), get_excited_state_norm is <0|[T, T+]|0>, the normalised vectors have norm one whenever the norm is not tiny, and every component of get_transition_dipole is <0|[mu, T]|0> with the dipole operator of all orbitals, the same number for both classes.", "quantifier": "for all orbital partitions, electron numbers, normalised states produced by a unitary ansatz, excitations that are orthonormal on the reference, symmetric property integrals, excitation vectors, excitation strings and thread schedules", "why_tests_cant": "The code sandwiches the dipole operator between a propagated excited reference and a back-propagated ket, and takes the rotations from a density matrix; a sign, a missing dagger of the ansatz or a shifted slice of the response vector leaves many oscillator strengths of small molecules unchanged.", "anchors": ["slowquant/unitary_coupled_cluster/linear_response/statetransfer.py:LinearResponse.get_transition_dipole", "slowquant/unitary_coupled_cluster/linear_response/projected_statetransfer.py:LinearResponse.get_transition_dipole", "slowquant/unitary_coupled_cluster/linear_response/lr_baseclass.py:LinearResponseBaseClass.get_excited_state_norm"]}
{"id": "C94", "title": "Two-step optimisation: rounds, stopping, what is left behind, and repetition", "statement": "run_wf_optimization_2step, started on an object with any history, alternates an ansatz optimisation (from the parameters held, told exact energies and gradients at the orbitals held) and an orbital optimisation (from no rotation, told exact energies and gradients at the parameters just kept) until the energy changes by less than tol or maxiter rounds are made, no earlier and no later; without orbital optimisation or rotations it makes one ansatz optimisation and leaves the orbitals alone. Afterwards thetas is the last returned point, kappa is zero, the stored energy is the last returned value, later reads are coherent if that is the energy of what is held, and the run can be repeated. It works for every maxiter and for every ansatz.", "quantifier": "for all histories, numbers of rotations and ansatz parameters, tolerances, iteration limits and optimisers making any finite sequences of calls", "why_tests_cant": "Tests run the driver once on a few molecules with thousands of allowed iterations and a non-empty ansatz and look at the final energy; they never see a stale energy, a skipped stopping test or maxiter = 0.", "anchors": ["slowquant/unitary_coupled_cluster/ups_wavefunction.py:799-918"]}
{"id": "C95", "title": "UCC excitation string and parameter counts", "statement": "The UCC wave function holds, for each of the letters s, d, t, q, 5 and 6 that occurs in the excitation string in either case, every excitation of that kind exactly once (spin-adapted singles and doubles on the spatial orbitals, spin-conserving triples to sextuples on the spin orbitals), in that fixed order; order and repetition of the letters and all other characters do not matter. The counting at the start of both optimisations never fails on such a wave function: the six numbers are the numbers of operators of each rank and with the orbital parameters they add up to the number of parameters; it raises ValueError exactly when some operator has another type.", "quantifier": "for all excitation strings, index lists, lists of operator types, numbers of orbital parameters", "why_tests_cant": "Tests use the strings SD and a few others on two molecules; the printed counts are never read, and that no type produced by the structure is missing from the list of the counting needs all strings and sizes.", "anchors": ["slowquant/unitary_coupled_cluster/ucc_wavefunction.py:211-230", "slowquant/unitary_coupled_cluster/ucc_wavefunction.py:741-777", "slowquant/unitary_coupled_cluster/ucc_wavefunction.py:871-908"]}
{"id": "C96", "title": "Basis-set reader", "statement": "read_basis returns, for an atom of the file, exactly its shells in the order of the file: the exponents and coefficients of all primitives (with D read as e) and all Cartesian components of the angular momentum for s, p, d and f; lines before the atom, starred lines and everything from the next atom on have no influence. An atom that is not in the file and a shell the reader does not know raise ValueError; no shell is lost silently.", "quantifier": "for all files, atoms, numbers of shells and primitives, texts of the numbers", "why_tests_cant": "Tests read two or three installed basis sets for light atoms without g functions; a dropped shell only changes the energy.", "anchors": ["slowquant/molecule/basis_reader.py:6-75"]}
