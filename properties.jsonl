{"id": "C01", "title": "Occupation queries agree with the bit string", "statement": "For every Slater determinant given as a nonnegative integer, occ_indices lists exactly the set bit positions in strictly increasing order, vir_indices(sd, n) lists exactly the clear positions below n in strictly increasing order, occ(sd,i) is truthy iff i is listed, and total_occ is the number of listed orbitals; None is treated as having no orbitals.", "quantifier": "every integer Slater determinant (unbounded size), every orbital index, every number of orbitals", "why_tests_cant": "Integers are unbounded and the code goes through string conversion; tests fix a handful of bit strings.", "anchors": ["fanpy/tools/slater.py:occ", "fanpy/tools/slater.py:occ_indices", "fanpy/tools/slater.py:vir_indices", "fanpy/tools/slater.py:total_occ"]}
{"id": "C02", "title": "create/annihilate are partial set operations", "statement": "annihilate(sd, i1..ik) succeeds iff the indices are distinct and all occupied, and then removes exactly those orbitals; create(sd, i1..ik) succeeds iff the indices are distinct and all unoccupied, and then adds exactly those orbitals; in every other case (including None input) the result is None; successful results do not depend on the order of the indices; create undoes annihilate and conversely.", "quantifier": "every determinant or None, every finite index list in any order with any repetitions", "why_tests_cant": "Index lists and determinants are unbounded; failure depends on interactions between repeated indices.", "anchors": ["fanpy/tools/slater.py:create", "fanpy/tools/slater.py:annihilate"]}
{"id": "C03", "title": "excite conserves particle number and is exact", "statement": "excite with an odd number of indices raises ValueError; otherwise it returns a determinant iff the first half are distinct occupied orbitals and the second half are distinct orbitals that are empty after the removal, the result has exactly those changes and the same number of electrons, and swapping the two halves takes it back.", "quantifier": "every determinant or None and every index list", "why_tests_cant": "Same reason: needs all index lists, including overlapping creators/annihilators.", "anchors": ["fanpy/tools/slater.py:excite"]}
{"id": "C04", "title": "ground is the aufbau determinant", "statement": "ground(nocc, norbs) returns a determinant exactly when 0 < nocc <= norbs and norbs is even (otherwise ValueError); the returned determinant occupies the ceil(nocc/2) lowest alpha and floor(nocc/2) lowest beta orbitals in block ordering and nothing else, so it has nocc electrons, all below norbs.", "quantifier": "every integer nocc and norbs", "why_tests_cant": "Infinite family of sizes; the construction concatenates strings of digits whose lengths depend on the inputs.", "anchors": ["fanpy/tools/slater.py:ground"]}
{"id": "C05", "title": "shared/different orbitals decompose a pair of determinants", "statement": "shared_orbs and diff_orbs partition the occupied orbitals of the two determinants: occupied(sd1) is the disjoint union of shared and the first difference, occupied(sd2) of shared and the second; exciting sd1 from the first difference to the second gives sd2 whenever they have equal electron number.", "quantifier": "every pair of determinants", "why_tests_cant": "All pairs of unbounded integers.", "anchors": ["fanpy/tools/slater.py:shared_sd", "fanpy/tools/slater.py:shared_orbs", "fanpy/tools/slater.py:diff_orbs"]}
{"id": "C06", "title": "Spin splitting and combining are inverse", "statement": "For nspatial > 0, split_spin then combine_spin is the identity for every determinant, and combine_spin then split_spin is the identity when the alpha part fits below nspatial; alpha part holds exactly the orbitals below nspatial and beta part the others shifted by nspatial; electrons are conserved; nspatial <= 0 raises ValueError.", "quantifier": "every determinant, every pair of alpha/beta bit strings, every nspatial", "why_tests_cant": "All sizes; tests only try small ones.", "anchors": ["fanpy/tools/slater.py:split_spin", "fanpy/tools/slater.py:combine_spin"]}
{"id": "C07", "title": "Interleaving is the orbital relabelling it claims to be", "statement": "interleave moves orbital i of the block ordering to position interleave_index(i), deinterleave moves orbital i of the shuffled ordering to deinterleave_index(i), the two index maps are mutually inverse bijections of [0, 2*nspatial) and raise ValueError outside, and interleave/deinterleave are mutually inverse on determinants that fit in 2*nspatial orbitals.", "quantifier": "every nspatial, every determinant with fewer than 2*nspatial+1 bits, every index", "why_tests_cant": "The implementation pads and zips digit strings; correctness depends on the length relation for every size.", "anchors": ["fanpy/tools/slater.py:interleave", "fanpy/tools/slater.py:deinterleave", "fanpy/tools/slater.py:interleave_index", "fanpy/tools/slater.py:deinterleave_index"]}
{"id": "C08", "title": "Spin/spatial index conversions are consistent and reject invalid indices", "statement": "For every valid spin orbital, spin_index(spatial_index(i)) with the spin given by is_alpha gives back i, and every valid spatial orbital has exactly two spin orbitals; indices outside [0, 2*nspatial) are rejected.", "quantifier": "every index and nspatial", "why_tests_cant": "The rejection boundary needs all indices; tests do not try the boundary i == 2*nspatial.", "anchors": ["fanpy/tools/slater.py:is_alpha", "fanpy/tools/slater.py:spatial_index", "fanpy/tools/slater.py:spin_index", "fanpy/tools/slater.py:spatial_to_spin_indices"]}
{"id": "C09", "title": "Spin and seniority laws", "statement": "get_spin is half the difference between numbers of alpha and beta electrons, get_seniority is the number of singly occupied spatial orbitals; |2*spin| <= seniority <= nelec, seniority, 2*spin and nelec have the same parity, seniority is zero iff alpha and beta parts coincide, and seniority is even/odd with nelec.", "quantifier": "every determinant and nspatial > 0", "why_tests_cant": "Relations between two functions over all determinants.", "anchors": ["fanpy/tools/slater.py:get_spin", "fanpy/tools/slater.py:get_seniority"]}
{"id": "C10", "title": "sign_perm is the signature of the permutation", "statement": "For a list of distinct integers, sign_perm with is_decreasing=False equals (-1)^k for every k for which the list can be sorted into increasing order with k adjacent transpositions (decreasing order when is_decreasing=True); a not strictly increasing ordered_set raises ValueError.", "quantifier": "every finite list of distinct integers, every sequence of adjacent transpositions that sorts it", "why_tests_cant": "n! lists for every n.", "anchors": ["fanpy/tools/slater.py:sign_perm"]}
{"id": "C11", "title": "sign_swap is the parity of jumped electrons", "statement": "For an occupied pos_current, sign_swap(sd, cur, fut) is (-1)^m with m the number of other electrons that orbital cur passes when moved to position fut; errors are raised exactly for None, negative positions and unoccupied pos_current.", "quantifier": "every determinant and pair of positions", "why_tests_cant": "All determinants and positions.", "anchors": ["fanpy/tools/slater.py:sign_swap"]}
{"id": "C12", "title": "sign_excite is the fermionic sign", "statement": "sign_excite(sd, annihilators, creators) equals the coefficient produced by applying the annihilation and creation operators, in the given order, to the occupation-number state under the canonical anticommutation relations; it raises ValueError exactly when some operator gives zero; swapping two creators or two annihilators flips the sign.", "quantifier": "every determinant, every list of annihilators and creators", "why_tests_cant": "Must hold for all operator strings; sign conventions cannot be settled by examples.", "anchors": ["fanpy/tools/slater.py:sign_excite"]}
{"id": "C13", "title": "excite_bulk enumerates every excitation exactly once", "statement": "excite_bulk(sd, occ_indices(sd), vir_indices(sd, n), k) contains each determinant obtained from sd by moving exactly k electrons to orbitals below n, once, and nothing else, in the order (annihilator combination major, creator combination minor) of itertools.combinations; excite_bulk_two_ab does the same for one alpha and one beta electron.", "quantifier": "every determinant, every orbital count, every excitation order", "why_tests_cant": "Completeness and duplicate-freeness over unbounded combinatorial sets.", "anchors": ["fanpy/tools/slater.py:excite_bulk", "fanpy/tools/slater.py:excite_bulk_two_ab"]}
{"id": "C14", "title": "Vectorised excitation signs agree with sign_excite", "statement": "sign_excite_one, sign_excite_two and sign_excite_two_ab return, entry by entry in the order of excite_bulk / excite_bulk_two_ab, the value of sign_excite(sd, annihilators, reversed creators) for that excitation.", "quantifier": "every sorted occupied/virtual list (every determinant and orbital count)", "why_tests_cant": "Relates two independently written algorithms over all inputs; the vectorised one skips work using bin counts.", "anchors": ["fanpy/tools/slater.py:sign_excite_one", "fanpy/tools/slater.py:sign_excite_two", "fanpy/tools/slater.py:sign_excite_two_ab"]}
{"id": "C15", "title": "sign_excite_array agrees with sign_excite", "statement": "For M annihilators and M creators (each list increasing), sign_excite_array agrees entrywise with sign_excite applied to the annihilators in order and the creators in reverse order.", "quantifier": "every occupied list, every batch of annihilators and creators of equal order", "why_tests_cant": "Needs all orders M; tests fix M = 1, 2.", "anchors": ["fanpy/tools/slater.py:sign_excite_array"]}
{"id": "C16", "title": "sd_list is sound", "statement": "Every determinant returned by sd_list has nelec electrons, fits in nspin orbitals, has the requested spin, and has seniority at most (with hierarchy: exactly) the requested one, and differs from the ground determinant by a requested excitation order.", "quantifier": "every nelec, nspin, limits, orders, spin, seniority and hierarchy flag", "why_tests_cant": "Combinatorially many configurations.", "anchors": ["fanpy/tools/sd_list.py:sd_list", "fanpy/tools/sd_list.py:satisfies_conditions"]}
{"id": "C17", "title": "sd_list is complete and duplicate free", "statement": "Without a limit, sd_list with default orders returns every determinant of nelec electrons in nspin orbitals that satisfies the conditions exactly once (so C(nspin, nelec) of them with no condition); with distinct positive orders it returns exactly those within the requested excitation orders.", "quantifier": "every nelec, nspin, conditions", "why_tests_cant": "Completeness over all sizes.", "anchors": ["fanpy/tools/sd_list.py:sd_list"]}
{"id": "C18", "title": "num_limit of sd_list is respected", "statement": "With num_limit = m, sd_list returns a prefix of the unlimited list with at most m determinants, and exactly min(m, length) of them.", "quantifier": "every limit and configuration", "why_tests_cant": "Depends on whether the ground determinant satisfies the conditions, for every limit.", "anchors": ["fanpy/tools/sd_list.py:sd_list"]}
{"id": "C19", "title": "Complete-graph perfect matchings are enumerated once with the right sign", "statement": "For an increasing even-length index list, generate_complete_pmatch yields every perfect matching exactly once ((n-1)!! of them), and each reported sign is the signature of the permutation obtained by flattening the pairs.", "quantifier": "every index list", "why_tests_cant": "Double factorial many matchings for every n.", "anchors": ["fanpy/tools/graphs.py:generate_complete_pmatch"]}
{"id": "C20", "title": "Bipartite perfect matchings are enumerated once with the right sign", "statement": "For two disjoint lists of equal length n without repetitions, generate_biclique_pmatch yields all n! matchings exactly once and the sign is the signature of the flattened pairing scheme.", "quantifier": "every pair of disjoint lists", "why_tests_cant": "n! matchings; the in-place permutation generator has loop-carried state.", "anchors": ["fanpy/tools/graphs.py:generate_biclique_pmatch"]}
{"id": "C21", "title": "Unordered partitions are enumerated exactly once", "statement": "For a strictly increasing collection and bins (size, number) with distinct positive sizes whose capacities sum to the length, generate_unordered_partition yields every partition of the collection into bins of those sizes exactly once.", "quantifier": "every collection and bin specification", "why_tests_cant": "Exponentially many partitions; the generator skips bins using index arithmetic.", "anchors": ["fanpy/tools/graphs.py:generate_unordered_partition"]}
{"id": "C22", "title": "Coin partitions are sound, complete and duplicate free", "statement": "int_partition_recursive(coins, n, total) for distinct positive coins yields exactly the non-increasing (in coin order) multisets of the first n coins that sum to total, each once, and terminates.", "quantifier": "every coin list, every count and total", "why_tests_cant": "Unbounded recursion over integers.", "anchors": ["fanpy/tools/graphs.py:int_partition_recursive"]}
{"id": "C23", "title": "General-graph matchings use only edges of the graph", "statement": "generate_general_pmatch yields exactly the perfect matchings all of whose pairs are edges of the connectivity matrix, with the signature of the flattened pairing.", "quantifier": "every index list and connectivity matrix", "why_tests_cant": "All graphs; the base case is reached only at the bottom of the recursion.", "anchors": ["fanpy/tools/graphs.py:generate_general_pmatch"]}
{"id": "C24", "title": "permanent_combinatoric computes the permanent", "statement": "permanent_combinatoric equals the sum over all injections of the shorter side into the longer side of the product of entries; transposing the matrix does not change it.", "quantifier": "every rectangular matrix over any commutative ring", "why_tests_cant": "All shapes and entries.", "anchors": ["fanpy/tools/math_tools.py:permanent_combinatoric"]}
{"id": "C25", "title": "permanent_ryser computes the same permanent", "statement": "permanent_ryser agrees with the definition of the permanent for every square matrix, and for rectangular matrices after padding.", "quantifier": "every matrix", "why_tests_cant": "Algebraic identity over all matrices; subset order and signs are loop-carried.", "anchors": ["fanpy/tools/math_tools.py:permanent_ryser"]}
{"id": "C26", "title": "permanent_borchardt computes the permanent of a Cauchy-like matrix", "statement": "For parameters with distinct lambdas/epsilons, permanent_borchardt equals the permanent of the matrix zeta_i eta_j/(lambda_i - eps_j) for square matrices (Borchardt identity).", "quantifier": "every parameter vector for which the matrix is defined", "why_tests_cant": "Algebraic identity for all n.", "anchors": ["fanpy/tools/math_tools.py:permanent_borchardt"]}
{"id": "C28", "title": "Generalized Hamiltonian matrix elements are the second-quantised ones", "statement": "integrate_sd_sd of the generalized Hamiltonian equals <m| sum h_ij a+_i a_j + 1/2 sum g_ijkl a+_i a+_j a_l a_k |n> for all determinants, for any integrals with g_ijkl = g_jilk.", "quantifier": "every pair of determinants over the orbitals, every number of orbitals, every integral tensor", "why_tests_cant": "Slater-Condon rules: case analysis on all pairs of determinants, all signs.", "anchors": ["fanpy/ham/generalized_chemical.py:integrate_sd_sd_decomposed", "fanpy/ham/generalized_chemical.py:integrate_sd_sd"]}
{"id": "C29", "title": "Matrix elements are Hermitian", "statement": "integrate_sd_sd(m, n) equals integrate_sd_sd(n, m) for real integrals with h_ij = h_ji and g_ijkl = g_klij.", "quantifier": "every pair of determinants, every symmetric integrals", "why_tests_cant": "All pairs.", "anchors": ["fanpy/ham/generalized_chemical.py:integrate_sd_sd"]}
{"id": "C30", "title": "Restricted Hamiltonian agrees with the generalized one on spin-expanded integrals", "statement": "For spatial integrals, the restricted Hamiltonian's integrate_sd_sd equals the generalized Hamiltonian's on the spin-orbital integrals obtained by block expansion.", "quantifier": "every pair of determinants, every number of orbitals, every integrals", "why_tests_cant": "All pairs; separate code with alpha/beta case splits.", "anchors": ["fanpy/ham/restricted_chemical.py:integrate_sd_sd_decomposed"]}
{"id": "C31", "title": "Unrestricted Hamiltonian agrees with the generalized one", "statement": "For alpha/beta blocks of integrals, the unrestricted Hamiltonian's integrate_sd_sd equals the generalized one's on the block-assembled spin-orbital integrals.", "quantifier": "every pair of determinants, every number of orbitals, every integrals", "why_tests_cant": "Same.", "anchors": ["fanpy/ham/unrestricted_chemical.py:integrate_sd_sd_decomposed"]}
{"id": "C32", "title": "Seniority-zero Hamiltonian is the restriction of the restricted one", "statement": "On pairs of seniority-zero determinants the seniority-zero Hamiltonian's integrate_sd_sd equals the restricted Hamiltonian's; on all other pairs it is zero.", "quantifier": "every pair of determinants", "why_tests_cant": "All pairs; the specialised code drops signs and uses spatial indices.", "anchors": ["fanpy/ham/senzero.py:integrate_sd_sd_decomposed", "fanpy/ham/senzero.py:integrate_sd_wfn"]}
{"id": "C33", "title": "integrate_sd_wfn is the full projection <m|H|Psi>", "statement": "For every wavefunction (an arbitrary coefficient function), the vectorised integrate_sd_wfn equals the sum over all determinants n of integrate_sd_sd(m, n) * overlap(n).", "quantifier": "every determinant, every coefficient function, every number of orbitals", "why_tests_cant": "All determinants; relies on exact enumeration order matching between signs, integrals and overlaps.", "anchors": ["fanpy/ham/generalized_chemical.py:integrate_sd_wfn", "fanpy/ham/base.py:integrate_sd_wfn"]}
{"id": "C34", "title": "Orbital-rotation parameter layout is a bijection", "statement": "param_ind_to_rowcol_ind maps [0, n(n-1)/2) bijectively onto pairs x < y < n, in the row-major upper-triangle order used to build the antihermitian matrix.", "quantifier": "every number of orbitals and parameter index", "why_tests_cant": "All n.", "anchors": ["fanpy/ham/generalized_chemical.py:param_ind_to_rowcol_ind", "fanpy/tools/math_tools.py:unitary_matrix"]}
{"id": "C35", "title": "Hamiltonian parameter derivative is the derivative along the orbital rotation", "statement": "The derivative of integrate_sd_sd with respect to orbital-rotation parameter (x,y) equals the matrix element of the first-order change of the integrals under that rotation.", "quantifier": "every pair of determinants, every rotation parameter, every real symmetric integrals", "why_tests_cant": "All pairs and parameters with many index coincidences.", "anchors": ["fanpy/ham/generalized_chemical.py:_integrate_sd_sd_deriv_decomposed"]}
{"id": "C36", "title": "Hamiltonian parameter assignment depends on the reference only as documented", "statement": "After any sequence of set_ref_ints/assign_params calls the integrals equal the reference integrals rotated by the unitary of the last assigned parameters (times the previously folded rotations when update_prev_params is set).", "quantifier": "every history of assignments", "why_tests_cant": "Quantifies over call histories.", "anchors": ["fanpy/ham/generalized_chemical.py:assign_params", "fanpy/ham/generalized_chemical.py:set_ref_ints"]}
{"id": "C37", "title": "Jacobi rotation equals rotation by the Jacobi matrix", "statement": "orb_rotate_jacobi(p, q, theta) leaves the integrals equal to orb_rotate_matrix with the corresponding Givens matrix.", "quantifier": "every pair of orbitals, angle and integrals", "why_tests_cant": "All index pairs; in-place slice updates alias views of the array.", "anchors": ["fanpy/ham/generalized_base.py:orb_rotate_jacobi", "fanpy/ham/unrestricted_base.py:orb_rotate_jacobi", "fanpy/ham/generalized_base.py:orb_rotate_matrix"]}
{"id": "C38", "title": "density_matrix gives the reduced density matrices of the CI vector", "statement": "With zero threshold and generalized orbitals, density_matrix returns Gamma_ij = <Psi|a+_i a_j|Psi> and Gamma_ijkl = <Psi|a+_i a+_j a_l a_k|Psi>.", "quantifier": "every list of distinct determinants and coefficients", "why_tests_cant": "All pairs of determinants and orbital quadruples.", "anchors": ["fanpy/ham/density.py:density_matrix"]}
{"id": "C39", "title": "CI overlap is the coefficient of the determinant and its gradient is one-hot", "statement": "get_overlap(sd) is the coefficient of sd (0 if absent) and get_overlap(sd, deriv) is the vector whose entry for parameter k is 1 exactly when k is the position of sd.", "quantifier": "every CI wavefunction, determinant and index array", "why_tests_cant": "All lists of determinants.", "anchors": ["fanpy/wfn/ci/base.py:get_overlap"]}
{"id": "C40", "title": "CI 1-RDM has the right trace and symmetry", "statement": "compute_1rdm is symmetric for real coefficients, its trace is nelec times the squared norm, and it equals <Psi|a+_i a_j|Psi>.", "quantifier": "every CI vector", "why_tests_cant": "All CI vectors.", "anchors": ["fanpy/wfn/ci/base.py:compute_1rdm"]}
{"id": "C41", "title": "Default CI spaces are constructible and are the documented spaces", "statement": "FCI, DOCI, CISD, CIPairs and hCI with default determinants construct successfully and contain exactly the determinants of the documented excitation/seniority sets.", "quantifier": "every nelec, nspin (spin, seniority, hierarchy)", "why_tests_cant": "All sizes and options.", "anchors": ["fanpy/wfn/ci/base.py:assign_sds", "fanpy/wfn/ci/doci.py", "fanpy/wfn/ci/cisd.py", "fanpy/wfn/ci/fci.py", "fanpy/wfn/ci/ci_pairs.py", "fanpy/wfn/ci/hci.py"]}
{"id": "C42", "title": "Orbital-pair/column bookkeeping is a bijection", "statement": "For the geminal wavefunctions get_col_ind and get_orbpair are mutually inverse between orbital pairs and column indices, and invalid pairs/indices raise ValueError.", "quantifier": "every number of orbitals, every pair", "why_tests_cant": "The inverse uses a floating-point square root; correctness for all sizes.", "anchors": ["fanpy/wfn/geminal/apg.py:get_col_ind", "fanpy/wfn/geminal/apg.py:get_orbpair", "fanpy/wfn/geminal/base.py:get_col_ind", "fanpy/wfn/geminal/apsetg.py:get_col_ind"]}
{"id": "C43", "title": "Geminal overlap is the coefficient in the antisymmetrised product of geminals", "statement": "The APG overlap of a determinant equals its coefficient in the product of the geminal creation operators acting on the vacuum; APIG and the set-divided geminals give the same function of embedded coefficients (up to the documented sign convention).", "quantifier": "every coefficient matrix, determinant and number of geminals", "why_tests_cant": "Pfaffian-like sum over all pairing schemes.", "anchors": ["fanpy/wfn/geminal/base.py:get_overlap", "fanpy/wfn/geminal/apg.py:generate_possible_orbpairs", "fanpy/wfn/geminal/apig.py:generate_possible_orbpairs", "fanpy/wfn/geminal/apsetg.py:generate_possible_orbpairs"]}
{"id": "C44", "title": "Geminal derivative is the derivative of the overlap", "statement": "get_overlap(sd, deriv)[k] is the partial derivative of get_overlap(sd) with respect to parameter deriv[k].", "quantifier": "every coefficient matrix, determinant and index", "why_tests_cant": "All inputs.", "anchors": ["fanpy/wfn/geminal/base.py:compute_permanent", "fanpy/wfn/geminal/base.py:_olp_deriv"]}
{"id": "C45", "title": "AP1roG overlap equals the APIG overlap with identity reference block", "statement": "The AP1roG overlap equals the APIG overlap whose coefficient matrix has the identity in the reference columns, and its derivative is the derivative.", "quantifier": "every coefficient matrix, reference and determinant", "why_tests_cant": "All excitation degrees.", "anchors": ["fanpy/wfn/geminal/ap1rog.py:get_overlap"]}
{"id": "C46", "title": "Coupled-cluster excitation-operator bookkeeping is a bijection", "statement": "assign_exops gives every excitation operator exactly one index, get_ind and get_exop are mutually inverse and reject unknown operators/indices.", "quantifier": "every rank set, orbital count and reference", "why_tests_cant": "All sizes.", "anchors": ["fanpy/wfn/cc/base.py:assign_exops", "fanpy/wfn/cc/base.py:get_ind", "fanpy/wfn/cc/base.py:get_exop"]}
{"id": "C47", "title": "Coupled-cluster overlap is the coefficient of exp(T) on the reference", "statement": "get_overlap(sd) equals the coefficient of sd in exp(T)|ref> for the operators of the wavefunction; derivatives are derivatives.", "quantifier": "every amplitude vector, every determinant, every rank set", "why_tests_cant": "Sum over all partitions of the excitation; sign of every term.", "anchors": ["fanpy/wfn/cc/base.py:_olp", "fanpy/wfn/cc/base.py:generate_possible_exops"]}
{"id": "C48", "title": "Caching never changes results", "statement": "After any interleaving of get_overlap, assign_params, clear_cache and enable_cache calls, get_overlap returns the value an uncached wavefunction with the current parameters would return.", "quantifier": "every history of calls", "why_tests_cant": "Quantifies over call histories.", "anchors": ["fanpy/wfn/base.py:enable_cache", "fanpy/wfn/base.py:clear_cache", "fanpy/wfn/geminal/ap1rog.py:assign_ref_sd"]}
{"id": "C49", "title": "Matrix product state indexing and overlap", "statement": "get_matrix blocks tile the parameter vector exactly, decompose_index inverts the layout, the overlap is the ordered matrix product for the occupation pattern and get_overlap(deriv) is its gradient.", "quantifier": "every number of orbitals, dimension, parameter vector, determinant", "why_tests_cant": "All sizes.", "anchors": ["fanpy/wfn/network/mps.py"]}
{"id": "C50", "title": "Composite wavefunctions: linear combination, product, embedding", "statement": "The overlap of a linear combination/product wavefunction is the combination/product of component overlaps and its derivative with respect to the selected parameters is the derivative, in the order of the requested indices; embedding with disjoint subsystems splits a determinant without losing electrons.", "quantifier": "every family of component wavefunctions, every index selection", "why_tests_cant": "All selections and determinants.", "anchors": ["fanpy/wfn/composite/lincomb.py:get_overlap", "fanpy/wfn/composite/product.py:get_overlap", "fanpy/wfn/composite/embedding.py:split_sd"]}
{"id": "C51", "title": "Parameter selection keeps sorted, unique, in-range indices", "statement": "After any sequence of ComponentParameterIndices assignments, every stored selection is strictly increasing, non-negative and lookups of unknown components give an empty selection; invalid assignments leave the state unchanged.", "quantifier": "every history of assignments and lookups", "why_tests_cant": "History property.", "anchors": ["fanpy/eqn/utils.py:ComponentParameterIndices"]}
{"id": "C52", "title": "assign_params/active_params round trip", "statement": "BaseSchrodinger.assign_params(p) followed by active_params returns p, changes no unselected parameter, and rejects vectors of the wrong length; the objective slices of different components are disjoint and cover the vector.", "quantifier": "every selection over every list of components, every parameter vector", "why_tests_cant": "All selections.", "anchors": ["fanpy/eqn/base.py:assign_params", "fanpy/eqn/base.py:active_params", "fanpy/eqn/base.py:indices_objective_params"]}
{"id": "C53", "title": "Saving parameters never overwrites another component's file", "statement": "save_params writes one file per component and the file names are pairwise distinct.", "quantifier": "every list of component classes", "why_tests_cant": "Any multiset of class names.", "anchors": ["fanpy/eqn/base.py:save_params", "fanpy/wfn/composite/lincomb.py:save_params"]}
{"id": "C54", "title": "Wrapped derivatives scatter to the right slots", "statement": "wrapped_get_overlap/wrapped_integrate_sd_wfn with deriv=True return the full-length gradient with each component's derivative in exactly its own slots and zeros elsewhere.", "quantifier": "every selection", "why_tests_cant": "All selections.", "anchors": ["fanpy/eqn/base.py:wrapped_get_overlap", "fanpy/eqn/base.py:wrapped_integrate_sd_wfn"]}
{"id": "C55", "title": "Energy gradients are gradients of the energies", "statement": "get_energy_one_proj(deriv)/get_energy_two_proj(deriv) are the partial derivatives of the energies wherever the norm does not vanish.", "quantifier": "every wavefunction with differentiable overlaps, every projection space, every parameter point", "why_tests_cant": "Calculus statement over all inputs.", "anchors": ["fanpy/eqn/base.py:get_energy_one_proj", "fanpy/eqn/base.py:get_energy_two_proj"]}
{"id": "C56", "title": "Projected equations: layout, values and Jacobian", "statement": "objective returns one weighted residual per projection determinant followed by the weighted constraints, and jacobian is its Jacobian.", "quantifier": "every projection space, reference, constraint list and parameter vector", "why_tests_cant": "All sizes.", "anchors": ["fanpy/eqn/projected.py:objective", "fanpy/eqn/projected.py:jacobian", "fanpy/eqn/projected.py:num_eqns"]}
{"id": "C57", "title": "Least-squares objective/gradient and exception safety", "statement": "LeastSquaresEquations.objective is the sum of squares of the projected equations, gradient is its gradient, and the number of equations reported stays 1 after any sequence of calls including calls that raise.", "quantifier": "every history of calls, with exceptions at any point", "why_tests_cant": "Crash-point property of class-level patching.", "anchors": ["fanpy/eqn/least_squares.py:objective", "fanpy/eqn/least_squares.py:gradient"]}
{"id": "C58", "title": "Energy constraint reference only moves as documented", "statement": "EnergyConstraint keeps at most queue_size history entries, and the reference energy changes only when the energy is at or below it (moving down) or when the last queue_size positive differences stay within one order of magnitude (moving up but staying below the energy).", "quantifier": "every sequence of energies", "why_tests_cant": "History property.", "anchors": ["fanpy/eqn/constraints/energy.py:objective"]}
{"id": "C59", "title": "Norm constraint and local energy gradients are gradients", "statement": "NormConstraint.gradient and LocalEnergy.gradient are the derivatives of their objectives.", "quantifier": "every wavefunction/projection space", "why_tests_cant": "Calculus statement.", "anchors": ["fanpy/eqn/constraints/norm.py:gradient", "fanpy/eqn/local_energy.py:gradient"]}
{"id": "C60", "title": "Rotation matrices are truncated exponentials", "statement": "unitary_matrix returns the sum of the terms X^k/k! of the antisymmetric matrix X of its arguments up to (excluding) the first term whose norm is below the threshold, at most 100 terms, or scipy's expm(X) if a term's norm exceeds the upper threshold; zero arguments give the identity, opposite arguments the transpose, and a number of arguments that is not n(n-1)/2 is rejected.", "quantifier": "every vector of arguments", "why_tests_cant": "All sizes and values; the number of terms depends on the values.", "anchors": ["fanpy/tools/math_tools.py:unitary_matrix"]}
{"id": "C61", "title": "Default and copied parameters of geminal wavefunctions", "statement": "Without parameters a geminal wavefunction assigns pair (r, r+nspatial) to geminal r, so that with nelec/2 geminals its only nonzero overlap is with the ground state determinant; parameters copied from another geminal wavefunction keep the coefficients of all common orbital pairs and set the others to zero, and the overlaps are kept when no pair is lost.", "quantifier": "every class, basis, number of electrons and geminals, every orbital pairing", "why_tests_cant": "All sizes and pairings.", "anchors": ["fanpy/wfn/geminal/base.py:assign_params"]}
{"id": "C62", "title": "Pair coupled-cluster wavefunctions", "statement": "The operators of PCCD and its ten subclasses are the documented excitations, numbered without gaps; the overlap is the coefficient of the exponential restricted to products in which no single excitation empties one orbital of a pair whose other orbital is emptied too, which for eight of the classes is a product over spatial orbitals; derivatives are the slopes of the overlap; the tables kept between calls do not change any result.", "quantifier": "every class, basis, reference and amplitudes, every determinant with at least the electrons of the reference, every sequence of calls", "why_tests_cant": "All amplitudes, determinants and call histories; the overlap and its derivative filter the stored tables in different ways.", "anchors": ["fanpy/wfn/cc/pccd_ap1rog.py", "fanpy/wfn/cc/ap1rog_spin.py", "fanpy/wfn/cc/ap1rog_generalized.py", "fanpy/wfn/cc/apset1rog_d.py", "fanpy/wfn/cc/apset1rog_sd.py", "fanpy/wfn/cc/apg1ro_d.py", "fanpy/wfn/cc/apg1ro_sd.py", "fanpy/wfn/cc/ccsd_sen0.py", "fanpy/wfn/cc/ccsdq_sen0.py", "fanpy/wfn/cc/ccsdtq_sen0.py", "fanpy/wfn/cc/ccsdt_sen2_q_sen0.py"]}
{"id": "C63", "title": "Wavefunctions with two rotated orbitals", "statement": "The overlap of a JacobiWavefunction with a determinant is that of the wrapped wavefunction with the determinant whose orbitals p and q (of both spins if restricted) are rotated by the angle, that is with the determinant of the orbitals given by jacobi_rotation; the matrices are orthogonal, angle zero changes nothing, rotating twice adds the angles, spin is kept unless the orbitals are generalized, and the derivative is that with respect to the angle. The cached overlaps agree with recomputed ones for every sequence of calls of get_overlap, assign_params and clear_cache.", "quantifier": "every wrapped wavefunction, orbital type, pair of indices, angle and determinant, every sequence of calls", "why_tests_cant": "Signs of moving electrons past all others, for all numbers of orbitals; nine branches in the restricted case.", "anchors": ["fanpy/wfn/composite/jacobi.py:assign_jacobi_indices", "fanpy/wfn/composite/jacobi.py:_olp", "fanpy/wfn/composite/jacobi.py:_olp_deriv", "fanpy/wfn/composite/jacobi.py:get_overlap", "fanpy/wfn/composite/jacobi.py:jacobi_rotation", "fanpy/wfn/composite/base_one.py:assign_wfn"]}
{"id": "C64", "title": "Wavefunctions in nonorthogonal orbitals", "statement": "The overlap of a NonorthWavefunction with a determinant is that of the wrapped wavefunction with the antisymmetrised product of the orbitals given by the rows of the parameter matrices (one spatial matrix, one for each spin, or one of spin orbitals, recognised by their shapes). Identity matrices change nothing, matrices from jacobi_rotation give the overlaps of JacobiWavefunction, transforming twice multiplies the matrices, and spin is kept unless the matrix is one of spin orbitals. The derivatives asked for all parameters are those of the overlap with respect to the entries, zero for rows of empty orbitals; the overlap is at most quadratic in an entry. Cached answers agree with recomputed ones for every sequence of calls of get_overlap, assign_params and clear_cache.", "quantifier": "every wrapped wavefunction, matrices of matching shapes, determinant of the right number of electrons, every sequence of calls", "why_tests_cant": "The Cauchy-Binet sums and their signs are needed for all numbers of electrons and orbitals; tests use one or two electrons, for which the signs that are missing in the derivatives do not matter.", "anchors": ["fanpy/wfn/composite/nonorth.py:assign_params", "fanpy/wfn/composite/nonorth.py:orbtype", "fanpy/wfn/composite/nonorth.py:_olp", "fanpy/wfn/composite/nonorth.py:_olp_deriv", "fanpy/wfn/composite/nonorth.py:get_overlap", "fanpy/wfn/composite/base_one.py:assign_wfn"]}
{"id": "C65", "title": "Geminals with a coefficient matrix of rank two (APr2G)", "statement": "The overlap of APr2G is the overlap of APIG with the full matrix zeta_j / (lambda_i - epsilon_j) returned by fullrank_params, for every number of geminals and orbital pairs, when lambdas, epsilons and all their differences are distinct from zero; the returned derivatives are those of the overlap with respect to every zeta, epsilon and every lambda of the geminals in use. Determinants with another number of electrons raise ValueError. full_to_rank2 finds parameters of every matrix of rank two if its linear solver is exact. Multiplying all parameters by a number changes no overlap. Cached answers agree with recomputed ones for every sequence of calls of get_overlap, assign_params and clear_cache with accepted parameters.", "quantifier": "every even number of electrons, number of geminals, set of orbital pairs and array of parameters without zero denominators; every sequence of calls", "why_tests_cant": "Borchardt's identity and its derivatives have to hold for every size of matrix and every combination of pairs; the tests use square cases with two geminals, where the missing lambdas never occur.", "anchors": ["fanpy/wfn/geminal/rank2_approx.py:full_to_rank2", "fanpy/wfn/geminal/rank2_approx.py:RankTwoApprox.assign_params", "fanpy/wfn/geminal/rank2_approx.py:RankTwoApprox.compute_permanent", "fanpy/wfn/geminal/rank2_approx.py:RankTwoApprox._olp_deriv", "fanpy/wfn/geminal/rank2_approx.py:RankTwoApprox.fullrank_params", "fanpy/wfn/geminal/apr2g.py:APr2G"]}
{"id": "C66", "title": "Products of creation operators (CreationCC)", "statement": "The overlap of a CreationCC with a determinant of the right number of electrons all of whose pairs of orbitals are listed is the Pfaffian of the parameters, the sum over all perfect matchings of its occupied spin orbitals of the products of the parameters with the sign of the matching, i.e. the coefficient of the determinant in the exponential of the pair creation operators acting on the vacuum. Parameters of pairs of the reference are set to one, the other parameters are kept; derivatives are those of the overlap with respect to every parameter. get_permutations returns each matching once with its sign.", "quantifier": "every even number of electrons, number of spin orbitals, list of orbital pairs, parameters and determinant", "why_tests_cant": "The number of matchings grows factorially and the sign depends on all of them; tests compare two and four electrons.", "anchors": ["fanpy/wfn/creation_cc.py:CreationCC.assign_params", "fanpy/wfn/creation_cc.py:CreationCC._olp", "fanpy/wfn/creation_cc.py:CreationCC._olp_deriv", "fanpy/wfn/creation_cc.py:CreationCC.get_permutations", "fanpy/wfn/creation_cc.py:CreationCC.assign_orbpairs"]}
{"id": "C67", "title": "Ratios of products of determinants (DeterminantRatio)", "statement": "The overlap of a DeterminantRatio with a determinant of the right number of electrons within the basis is the product of the overlaps of the Slater determinants formed by the rows of the matrices of the numerator, divided by the product of those of the denominator; the matrices follow each other in the parameters, row by row. Wherever the denominator does not vanish the derivatives returned are the derivatives of the overlap with respect to each selected parameter. With the default parameters the wavefunction is the ground state determinant. decompose_index inverts the numbering. Answers of the caching instance are those of its parameters at that time.", "quantifier": "every number of electrons and spin orbitals, mask, parameters, determinant, selection of derivatives and history of calls", "why_tests_cant": "The sign and the position of a derivative depend on the matrix, the row and the column at once, and on whether the matrix is in the denominator; tests compare with finite differences for one small wavefunction.", "anchors": ["fanpy/wfn/quasiparticle/det_ratio.py:DeterminantRatio.get_overlap", "fanpy/wfn/quasiparticle/det_ratio.py:DeterminantRatio._olp", "fanpy/wfn/quasiparticle/det_ratio.py:DeterminantRatio._olp_deriv", "fanpy/wfn/quasiparticle/det_ratio.py:DeterminantRatio.assign_params", "fanpy/wfn/quasiparticle/det_ratio.py:DeterminantRatio.get_matrix", "fanpy/wfn/quasiparticle/det_ratio.py:DeterminantRatio.decompose_index"]}
{"id": "C68", "title": "Products of quasiparticles and of tetrets (BaseQuasiparticle, Tetrets)", "statement": "A Tetrets wavefunction with n quasiparticles is accepted exactly for a number of electrons that is 4n and an even number of spin orbitals; its coefficient matrix has one row for each quasiparticle and one column for each four spin orbitals in lexicographic order (get_col_ind and get_orbsubset are inverse to each other). The overlap with a determinant of 4h <= 4n electrons is the coefficient of the determinant in the product of the first h quasiparticles, each the sum of the coefficients times four creation operators, acting on the vacuum; the returned derivatives are those with respect to the selected coefficients. The same holds for any disjoint-partition generator when all orbital subsets have even size. With default parameters the wavefunction is the ground state determinant. Copying from another wavefunction keeps the coefficients of every subset. Answers of any sequence of calls are those of the parameters at that time.", "quantifier": "every number of electrons and spin orbitals, coefficients, determinant, selection of derivatives and history of calls", "why_tests_cant": "The number of partitions into blocks of four grows factorially and each has its own sign; the tests compare with one or two partitions.", "anchors": ["fanpy/wfn/quasiparticle/base.py:BaseQuasiparticle.assign_orbsubsets", "fanpy/wfn/quasiparticle/base.py:BaseQuasiparticle.assign_params", "fanpy/wfn/quasiparticle/base.py:BaseQuasiparticle.compute_permsum", "fanpy/wfn/quasiparticle/base.py:BaseQuasiparticle._process_subsets", "fanpy/wfn/quasiparticle/base.py:BaseQuasiparticle._olp", "fanpy/wfn/quasiparticle/base.py:BaseQuasiparticle._olp_deriv", "fanpy/wfn/quasiparticle/base.py:BaseQuasiparticle.get_overlap", "fanpy/wfn/quasiparticle/tetret.py:Tetrets"]}
{"id": "C69", "title": "Overlaps and derivatives of a restricted Boltzmann machine (RestrictedBoltzmannMachine)", "statement": "The weights are cut from an array of nparams numbers, layer by layer and unit by unit; a shorter array raises ValueError. The overlap with a nonempty determinant of the basis is the value of the feed-forward network with these weights: the inputs are the products of occupation numbers of each order, each layer applies 1 + exp to its linear combinations, and the scaled values of the last layer are multiplied. The returned derivatives are those with respect to the selected weights, also through all further layers. get_overlaps gives for determinants with the same number of electrons what get_overlap gives for each. With default parameters all overlaps are one. With a positive scale all overlaps are positive and normalize makes the sum of their squares one, multiplying all overlaps by the same positive number.", "quantifier": "every number of units, layers and orders, weights, determinant, list of determinants and selection of derivatives", "why_tests_cant": "The tests use one or two layers with small orders and finite differences at a few points; the number of weights grows as a power of the number of orbitals.", "anchors": ["fanpy/wfn/network/rbm.py:RestrictedBoltzmannMachine.assign_params", "fanpy/wfn/network/rbm.py:RestrictedBoltzmannMachine.nparams", "fanpy/wfn/network/rbm.py:RestrictedBoltzmannMachine.get_overlap", "fanpy/wfn/network/rbm.py:RestrictedBoltzmannMachine._olp_helper", "fanpy/wfn/network/rbm.py:RestrictedBoltzmannMachine._olp_deriv", "fanpy/wfn/network/rbm.py:RestrictedBoltzmannMachine.get_overlaps", "fanpy/wfn/network/rbm.py:RestrictedBoltzmannMachine.normalize"]}
{"id": "C70", "title": "Solvers: full diagonalization, systems of equations and single equations (brute, root, least_squares, minimize, cma)", "statement": "brute returns eigenvalues and orthonormal eigenvectors of the Hamiltonian in the space of the determinants of a CI wavefunction, using each integral of the upper triangle once; with params from any returned column all projected equations hold with the eigenvalue as energy, the energies that the objectives compute are the eigenvalue, and no coefficients give an energy below the returned one. A different number of spin orbitals raises ValueError and exceptions of the integrals are passed on. root raises ValueError if there are fewer equations than active parameters; if there are more it keeps as many as there are parameters, the first determinants and all constraints, with unchanged values and derivatives. params, residuals, function and energy that are returned belong together, and at the end of an iteration the Hamiltonian is refreshed such that its integrals stay and further parameters rotate the present orbitals. minimize and cma raise ValueError for more than one equation.", "quantifier": "every list of determinants and Hamiltonian, system of equations and constraints, optimizer (any sequence of evaluations of the objective and the Jacobian, adaptive), history of the Hamiltonian", "why_tests_cant": "The tests run a few optimizations of small systems and compare the energies to reference values within tolerances; they cannot vary what the optimizer does, e.g. whether it rejects its last step.", "anchors": ["fanpy/solver/ci.py:brute", "fanpy/solver/system.py:least_squares", "fanpy/solver/system.py:root", "fanpy/solver/equation.py:minimize", "fanpy/solver/equation.py:cma", "fanpy/solver/wrappers.py:wrap_scipy"]}
{"id": "C71", "title": "Perturbation theory (FANPT): the order of the residuals of the updated parameters", "statement": "With the energy as a parameter and responses that solve their linear equations, the wavefunction parameters and energy of the updater of order M solve the projected equations at lambda + t up to the power M+1 of t if the overlaps are linear in the parameters. If the overlaps are quadratic, the error is of the second power for order one, and stays of the second power for higher orders unless the second derivatives are used, in which case it is of the third power; the leading error of the third order is given exactly. Constrained overlaps (linear) and parameters and frozen parameters stay the same, the norm changes by the squares of the changes of the overlaps. With the energy of a reference determinant, the vector and matrices are the derivatives of the energy-free equations with respect to lambda, to the parameters and to both; the equation of the reference is empty.", "quantifier": "every field of characteristic zero, Hamiltonian operator linear in lambda, objective with any masks and constraints, order, step and starting point that solves the equations", "why_tests_cant": "The tests compare matrices and vectors of a few systems with finite differences or stored values within tolerances; an error in the coefficient of one term of a high order changes them below the tolerances and nothing checks the order of the residual.", "anchors": ["fanpy/fanpt/updater.py:FANPTUpdater", "fanpy/fanpt/constant_terms.py:FANPTConstantTerms.gen_constant_terms", "fanpy/fanpt/containers/energy_param.py:FANPTContainerEParam", "fanpy/fanpt/containers/energy_free.py:FANPTContainerEFree", "fanpy/fanpt/containers/base.py:FANPTContainer"]}
{"id": "C72", "title": "PyCI interface (legacy ProjectedSchrodinger): projected equations, constraints, Jacobian and masks", "statement": "compute_jacobian holds the derivatives of compute_objective with respect to each active parameter, the energy last, including the rows of the constraints on the norm, on overlaps of determinants and on parameters; it has nequation rows of nactive columns; the gradient of the norm does not depend on the available memory and its chunks are not larger than it. The norm is constrained by default exactly if neither constraints nor determinants are given. Freezing and unfreezing the energy changes only the energy. Assignment through a mask changes the active parameters only.", "quantifier": "every wavefunction with derivatives of its overlaps, operator, mask, list of constraints, vector of parameters, memory", "why_tests_cant": "The tests evaluate single wavefunctions with the default masks and one memory limit; they do not combine frozen parameters with constraints.", "anchors": ["fanpy/interface/fanci/legacy.py:FanCI.compute_objective", "fanpy/interface/fanci/legacy.py:FanCI.compute_jacobian", "fanpy/interface/fanci/legacy.py:FanCI.make_norm_constraint", "fanpy/interface/fanci/legacy.py:FanCI.freeze_parameter"]}
{"id": "C73", "title": "Perturbation theory (FANPT): Hamiltonians, options, steps and resummation", "statement": "The interpolated Hamiltonian is the ideal one at lambda 0 and the given one at lambda 1; the ideal one keeps exactly the two-electron integrals with l = j or k = j. The options of FANPT are kept or refused as documented; the updater needs l < final_l <= 1 and a non-negative order; order zero changes no parameters. optimize runs from lambda_i to lambda_f in equal steps, its result is of the Hamiltonian at lambda_f and its energy is the last parameter; in every step the objective is that of the Hamiltonian at the lambda of the container. A resummation solves (C + t D) x = - t g, which a series of order M solves up to the power M+1 of the step t.", "quantifier": "every Hamiltonian, objective, solver of the projected equations, inverse, options, number of steps, order, field of characteristic zero", "why_tests_cant": "The tests run a few molecules with the default options and compare energies within tolerances; explicit zeros, other starting lambdas, given solvers and resummation are not run.", "anchors": ["fanpy/fanpt/fanpt.py:FANPT", "fanpy/fanpt/updater.py:FANPTUpdater", "fanpy/fanpt/utils.py:linear_comb_ham", "fanpy/fanpt/utils.py:reduce_to_fock"]}
{"id": "C74", "title": "Coupled cluster of restricted seniority (SeniorityCC): overlaps, derivatives and references", "statement": "The overlap with a determinant is its coefficient in exp(T)|ref>, where T is the amplitude-weighted sum of the excitation operators and each operator acts only if the partners (opposite spin) of the orbitals it empties are occupied and the partners of those it fills are empty; derivatives are the slopes of overlaps in the amplitudes. The number of electrons must be even, a reference must have this number of electrons, and a CI reference must have the same electrons and orbitals and seniority zero. Stored tables of excitations never change values.", "quantifier": "every number of electrons and orbitals, ranks, lists of orbitals, amplitudes in any field of characteristic zero, reference, determinant, history of overlaps, derivatives and assignments", "why_tests_cant": "The tests compare a few overlaps of four electrons with values written by hand; the meaning of the checks of partners, the sign and the derivative at the reference are not compared with an independent expansion.", "anchors": ["fanpy/wfn/cc/seniority_cc.py:SeniorityCC._olp", "fanpy/wfn/cc/seniority_cc.py:SeniorityCC._olp_deriv", "fanpy/wfn/cc/seniority_cc.py:SeniorityCC.generate_possible_exops", "fanpy/wfn/cc/seniority_cc.py:SeniorityCC.assign_refwfn"]}
{"id": "C75", "title": "Embedded coupled cluster (EmbeddedCC): operators, amplitudes and overlaps of the whole from those of the subsystems", "statement": "Orbital j of a subsystem is the j-th smallest of its list of orbitals. Every excitation operator of the coupled-cluster wavefunction of a subsystem is, on the orbitals of the whole, an operator of the embedding with the same amplitude; the given operators between subsystems come last with the given amplitudes or zero; there are no other operators, and operators and amplitudes are in bijection. The reference is the ground determinant of all electrons. The overlap with a determinant is its coefficient in exp(T)|ref>, T the sum of all operators with their amplitudes; derivatives are the slopes of the overlaps. Lists of orbitals that do not partition the orbitals of the whole and repeated operators are refused.", "quantifier": "every number of subsystems, their electrons, lists of orbitals, classes, ranks and references, operators between subsystems, amplitudes in any field of characteristic zero, determinant", "why_tests_cant": "The tests embed two subsystems of few orbitals and compare dictionaries and single overlaps with values written by hand; interleaved lists of orbitals, unequal subsystems and products of operators of different subsystems are hardly combined.", "anchors": ["fanpy/wfn/cc/embedding.py:EmbeddedCC.__init__", "fanpy/wfn/cc/base.py:BaseCC._olp", "fanpy/wfn/cc/base.py:BaseCC._olp_deriv"]}
{"id": "C76", "title": "The default projection spaces of the objectives are complete, given ones are checked, and the energies in the default spaces are expectation values bounded from below", "statement": "assign_refwfn of the one-sided energy accepts exactly None, a determinant or list of determinants with the electrons and spin orbitals of the wavefunction, or a CI wavefunction of the same electrons and orbitals; the first element that does not fit decides between ValueError and TypeError. The two-sided, variational and local energies accept exactly None or lists of such determinants. The default space contains every determinant of the electrons, spin and seniority of the wavefunction exactly once; for the projected equations it contains the ground determinant and its excitations of the requested orders. If the overlaps with all other determinants vanish, the one-sided, two-sided and variational energies in the default spaces are all equal to <f|H|f>/<f|f> over the full determinant space. The variational energy in any space is at least the energy that brute finds there.", "quantifier": "every number of electrons and spin orbitals, spin, seniority, orders of excitation, argument, wavefunction and Hamiltonian", "why_tests_cant": "The tests assign a few spaces for two or four orbitals and compare the objectives with the methods they call; they neither check completeness of the default space for other sizes nor that the different energies agree or are bounded.", "anchors": ["fanpy/eqn/energy_variational.py:EnergyVariational.assign_pspace", "fanpy/eqn/energy_twoside.py:EnergyTwoSideProjection.assign_pspaces", "fanpy/eqn/energy_oneside.py:EnergyOneSideProjection.assign_refwfn", "fanpy/eqn/local_energy.py:LocalEnergy.assign_pspace", "fanpy/eqn/projected.py:ProjectedSchrodinger.assign_pspace", "fanpy/eqn/projected.py:ProjectedSchrodinger.assign_refwfn"]}
{"id": "C77", "title": "Natural orbitals of a CI wavefunction diagonalize its density matrix and have proper occupations", "statement": "compute_natural_orbitals returns, for each spin, orthonormal orbitals that diagonalize the block <a+_p a_q> of the one-electron density matrix of that spin, with occupations in non-increasing order; the occupations and orbitals reproduce the block. The occupations of both spins sum to the number of electrons times the squared norm and lie between zero and the squared norm. With a square matrix of molecular orbital coefficients the occupations are the same and the orbitals reproduce the transformed density matrices. It raises an error only if the diagonalization does or the coefficients do not have as many rows and columns as there are spatial orbitals.", "quantifier": "every CI wavefunction with distinct determinants within its spin orbitals, every coefficients, every diagonalization routine that returns an orthonormal eigensystem and every sorting routine", "why_tests_cant": "The tests compare the occupations of a few small molecules with reference numbers; they can neither show the bounds, the sum and the reconstruction for all coefficients nor independence of the order in which the routine returns eigenvalues.", "anchors": ["fanpy/analysis/orbitals/natural_orbitals/ci.py:compute_natural_orbitals", "fanpy/wfn/ci/base.py:CIWavefunction.compute_1rdm"]}
{"id": "C78", "title": "Hamiltonians made by ham_factory project wavefunctions onto every determinant of the given orders once", "statement": "integrate_sd_wfn of the Hamiltonian that ham_factory returns, without a given integrate_sd_wfn, is the sum of the overlaps (or of each derivative of the overlaps) times the integrate_sd_sd elements over the given determinant and all its excitations of the given orders, every determinant once. If the elements with all other determinants vanish it is the projection on the whole space; given the components of the generalized chemical Hamiltonian and orders with 1 and 2 it is that Hamiltonian's projection. integrate_sd_sd is the sum of the components. Negative orders raise ValueError; a given integrate_sd_wfn is called instead of the loop.", "quantifier": "every function for the components, every integrals, numbers of spin orbitals, orders, determinants, overlaps and derivatives", "why_tests_cant": "The tests use a constant element and a constant overlap, so that only the number of terms for one determinant is checked; they cannot show which determinants are counted, with which elements and overlaps, for all orders and sizes.", "anchors": ["fanpy/ham/utils.py:ham_factory"]}
{"id": "C79", "title": "adjugate returns the transposed cofactors; eigh and power_symmetric of math_tools do not return", "statement": "For every square matrix whose determinant exceeds the threshold adjugate returns the transposed matrix of cofactors; its products with the matrix from both sides are the determinant times the unit matrix. Matrices without entries raise ValueError; matrices that are not square, or with a smaller determinant, raise LinAlgError. The eigh of math_tools is documented to return the eigenvalues above a threshold and power_symmetric the power of a matrix; instead they raise TypeError for every square (symmetric) matrix, because eigh negates an array of booleans, and OrthogonalizationError for those that are not square.", "quantifier": "every size, every matrix over a field, every routine for the inverse that inverts matrices with determinant other than zero, every threshold", "why_tests_cant": "The tests of adjugate cover one, two and three rows with random numbers; eigh and power_symmetric have no tests.", "anchors": ["fanpy/tools/math_tools.py:adjugate", "fanpy/tools/math_tools.py:eigh", "fanpy/tools/math_tools.py:power_symmetric"]}
{"id": "C80", "title": "Wavefunctions made by wfn_factory follow their parameters, and derivatives of projections are exact", "statement": "get_overlap of the wavefunction that wfn_factory returns is the given function at the parameters assigned last; with deriv it selects the entries of the given derivatives, negative indices from the end, and raises IndexError for others. Without parameters assign_params raises NotImplementedError. If the given olp_deriv is the derivative of olp, integrate_sd_wfn of a Hamiltonian made by ham_factory with wfn_deriv is the derivative of integrate_sd_wfn with respect to each selected parameter.", "quantifier": "every pair of functions, parameters, selections of derivatives, determinants, orders and elements", "why_tests_cant": "The tests use dummy functions and compare single values; they cannot show that the derivatives of projections are exact for all functions and selections.", "anchors": ["fanpy/wfn/utils.py:wfn_factory", "fanpy/ham/utils.py:ham_factory"]}
