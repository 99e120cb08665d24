{
 "claims": [
  {
   "property": "C01",
   "status": "proved",
   "theorems": [
    "C01_occ_indices",
    "C01_vir_indices",
    "C01_occ_total",
    "C01_none"
   ],
   "note": ""
  },
  {
   "property": "C02",
   "status": "proved",
   "theorems": [
    "C02_annihilate",
    "C02_create",
    "C02_defined",
    "C02_order",
    "C02_inverse"
   ],
   "note": ""
  },
  {
   "property": "C03",
   "status": "proved",
   "theorems": [
    "C03_excite",
    "C03_excite_total",
    "C03_excite_none",
    "C03_electrons",
    "C03_reverse"
   ],
   "note": ""
  },
  {
   "property": "C04",
   "status": "proved",
   "theorems": [
    "C04_ground",
    "C04_vacuum_refuted"
   ],
   "note": "the vacuum (nocc=0) is rejected by the code: C04_vacuum_refuted"
  },
  {
   "property": "C05",
   "status": "proved",
   "theorems": [
    "C05_membership",
    "C05_sorted",
    "C05_excitation"
   ],
   "note": ""
  },
  {
   "property": "C06",
   "status": "proved",
   "theorems": [
    "C06_split",
    "C06_combine",
    "C06_split_combine",
    "C06_combine_split",
    "C06_electrons"
   ],
   "note": ""
  },
  {
   "property": "C07",
   "status": "proved",
   "theorems": [
    "C07_index",
    "C07_interleave",
    "C07_deinterleave",
    "C07_roundtrip",
    "C07_errors"
   ],
   "note": ""
  },
  {
   "property": "C08",
   "status": "partial",
   "theorems": [
    "C08_roundtrip",
    "C08_spin_index",
    "C08_rejects_spin_index",
    "C08_rejects_partial",
    "C08_rejects_refuted",
    "C08_spatial_to_spin"
   ],
   "note": "the functions accept the out-of-range index 2*nspatial: C08_rejects_refuted gives the witness, C08_rejects_partial the guarded statement"
  },
  {
   "property": "C09",
   "status": "proved",
   "theorems": [
    "C09_spin_seniority",
    "C09_errors"
   ],
   "note": ""
  },
  {
   "property": "C10",
   "status": "proved",
   "theorems": [
    "C10_sign_perm",
    "C10_sign_perm_decreasing",
    "C10_ordered_set",
    "C10_sortable",
    "C10_bad_ordered_set",
    "C10_antisymmetric"
   ],
   "note": ""
  },
  {
   "property": "C11",
   "status": "proved",
   "theorems": [
    "C11_sign_swap",
    "C11_errors"
   ],
   "note": ""
  },
  {
   "property": "C12",
   "status": "proved",
   "theorems": [
    "C12_anticommutation",
    "C12_sign_excite",
    "C12_state",
    "C12_errors",
    "C12_none",
    "C12_swap_annihilators",
    "C12_swap_creators"
   ],
   "note": ""
  },
  {
   "property": "C13",
   "status": "partial",
   "theorems": [
    "C13_entries",
    "C13_exact",
    "C13_electrons",
    "C13_two_ab_exact",
    "C13_two_ab_entries",
    "C13_negative_order",
    "C13_large_refuted"
   ],
   "note": "proved for up to 63 orbitals (int64 masks); C13_large_refuted shows the failure beyond"
  },
  {
   "property": "C14",
   "status": "proved",
   "theorems": [
    "C14_one",
    "C14_two",
    "C14_any_virtuals",
    "C14_two_ab"
   ],
   "note": ""
  },
  {
   "property": "C15",
   "status": "proved",
   "theorems": [
    "C15_array"
   ],
   "note": ""
  },
  {
   "property": "C16",
   "status": "partial",
   "theorems": [
    "C16_sound",
    "C16_hierarchy_spin_refuted"
   ],
   "note": "with hierarchy=True and spin=1 the spin condition is ignored by the code: C16_hierarchy_spin_refuted; the specification wanted_h says so"
  },
  {
   "property": "C17",
   "status": "proved",
   "theorems": [
    "C17_complete",
    "C17_orders",
    "C17_listing_order",
    "C17_count",
    "C17_errors",
    "C17_order_zero_refuted"
   ],
   "note": "order 0 in exc_orders duplicates the ground determinant (C17_order_zero_refuted); distinct positive orders proved"
  },
  {
   "property": "C18",
   "status": "partial",
   "theorems": [
    "C18_prefix",
    "C18_length_partial",
    "C18_length_refuted"
   ],
   "note": "when the aufbau determinant is filtered out one determinant fewer than the limit is returned: C18_length_refuted, exact lengths in C18_length_partial"
  },
  {
   "property": "C19",
   "status": "proved",
   "theorems": [
    "C19_sound",
    "C19_complete",
    "C19_once",
    "C19_sign",
    "C19_odd"
   ],
   "note": ""
  },
  {
   "property": "C20",
   "status": "proved",
   "theorems": [
    "C20_matchings",
    "C20_order",
    "C20_sign",
    "C20_ordered_set",
    "C20_degenerate",
    "C20_error"
   ],
   "note": ""
  },
  {
   "property": "C21",
   "status": "proved",
   "theorems": [
    "C21_distributions",
    "C21_partitions",
    "C21_ordered",
    "C21_size_zero_refuted",
    "C21_no_bins_refuted",
    "C21_equal_sizes_refuted"
   ],
   "note": "positive sizes and numbers, distinct sizes; C21_size_zero_refuted, C21_no_bins_refuted and C21_equal_sizes_refuted show that these hypotheses are needed"
  },
  {
   "property": "C22",
   "status": "proved",
   "theorems": [
    "C22_payments",
    "C22_order",
    "C22_too_many"
   ],
   "note": ""
  },
  {
   "property": "C23",
   "status": "partial",
   "theorems": [
    "C23_exact",
    "C23_complete",
    "C23_once",
    "C23_NoDup",
    "C23_odd",
    "C23_edges_refuted"
   ],
   "note": "the last pair is not checked against the connectivity matrix (C23_edges_refuted); C23_exact characterises the output exactly"
  },
  {
   "property": "C24",
   "status": "proved",
   "theorems": [
    "C24_value",
    "C24_unique",
    "C24_transpose",
    "C24_permute",
    "C24_expand",
    "C24_error"
   ],
   "note": ""
  },
  {
   "property": "C25",
   "status": "proved",
   "theorems": [
    "C25_agrees",
    "C25_value",
    "C25_rational"
   ],
   "note": ""
  },
  {
   "property": "C26",
   "status": "proved",
   "theorems": [
    "C26_value",
    "C26_error",
    "C26_agrees"
   ],
   "note": ""
  },
  {
   "property": "C28",
   "status": "proved",
   "theorems": [
    "C28_cache",
    "C28_elements",
    "C28_elements_ring",
    "C28_one_electron",
    "C28_components_same",
    "C28_components_single",
    "C28_components_double",
    "C28_zero",
    "C28_index_error",
    "C28_vacuum_refuted"
   ],
   "note": ""
  },
  {
   "property": "C29",
   "status": "proved",
   "theorems": [
    "C29_hermitian"
   ],
   "note": ""
  },
  {
   "property": "C30",
   "status": "proved",
   "theorems": [
    "C30_cache",
    "C30_restricted",
    "C30_elements",
    "C30_hermitian"
   ],
   "note": ""
  },
  {
   "property": "C31",
   "status": "proved",
   "theorems": [
    "C31_cache",
    "C31_unrestricted",
    "C31_elements"
   ],
   "note": ""
  },
  {
   "property": "C32",
   "status": "proved",
   "theorems": [
    "C32_equal",
    "C32_elements",
    "C32_zero",
    "C32_projection_components",
    "C32_projection",
    "C32_projection_equal",
    "C32_projection_zero",
    "C32_components_deriv_refuted"
   ],
   "note": ""
  },
  {
   "property": "C33",
   "status": "proved",
   "theorems": [
    "C33_projection",
    "C33_components",
    "C33_base",
    "C33_linear",
    "C33_deriv",
    "C33_unrestricted_components",
    "C33_unrestricted",
    "C33_restricted_components",
    "C33_restricted",
    "C33_restricted_64_refuted"
   ],
   "note": ""
  },
  {
   "property": "C34",
   "status": "proved",
   "theorems": [
    "C34_position",
    "C34_bijection",
    "C34_order",
    "C34_antihermitian",
    "C34_antisymmetric",
    "C34_dimension",
    "C34_dimension_rejects",
    "C34_range_refuted",
    "C34_unrestricted"
   ],
   "note": "indices past the last parameter are not rejected: C34_range_refuted"
  },
  {
   "property": "C35",
   "status": "proved",
   "theorems": [
    "C35_generalized_columns",
    "C35_generalized",
    "C35_restricted",
    "C35_restricted_columns",
    "C35_unrestricted",
    "C35_generalized_derivative",
    "C35_restricted_derivative",
    "C35_unrestricted_derivative",
    "C35_slope_unique",
    "C35_generator",
    "C35_taylor_path",
    "C35_linear_path",
    "C35_rejects",
    "C35_spin_rejects",
    "C35_far",
    "C35_array_refuted",
    "C35_symmetric_refuted"
   ],
   "note": "_integrate_sd_sd_deriv of the three molecular Hamiltonians (real integrals); with several indices it returns the sum over the indices, against its documentation: C35_array_refuted; it assumes symmetric integrals: C35_symmetric_refuted"
  },
  {
   "property": "C36",
   "status": "proved",
   "theorems": [
    "C36_history",
    "C36_last",
    "C36_update",
    "C36_new",
    "C36_rejects",
    "C36_accepts",
    "C36_default",
    "C36_save",
    "C36_elements",
    "C36_set_ref",
    "C36_unrestricted_history",
    "C36_unrestricted_last",
    "C36_unrestricted_rejects"
   ],
   "note": "norm tests and expm are oracles; set_ref_ints keeps the folded rotation: C36_set_ref"
  },
  {
   "property": "C37",
   "status": "proved",
   "theorems": [
    "C37_matrix",
    "C37_matrix_rejects",
    "C37_compose",
    "C37_jacobi",
    "C37_jacobi_symmetric",
    "C37_jacobi_rejects",
    "C37_jacobi_inverse",
    "C37_unrestricted_alpha",
    "C37_unrestricted_beta",
    "C37_unrestricted_rejects",
    "C37_stale_cache_refuted"
   ],
   "note": "the rotation methods leave the cached integrals stale: C37_stale_cache_refuted"
  },
  {
   "property": "C38",
   "status": "proved",
   "theorems": [
    "C38_generalized",
    "C38_restricted",
    "C38_unrestricted",
    "C38_contraction",
    "C38_trace",
    "C38_rejects",
    "C38_outside",
    "C38_chemist",
    "C38_documented_refuted",
    "C38_repeated_refuted",
    "C38_truncated"
   ],
   "note": ""
  },
  {
   "property": "C39",
   "status": "proved",
   "theorems": [
    "C39_overlap",
    "C39_inner",
    "C39_deriv",
    "C39_deriv_errors",
    "C39_is_derivative",
    "C39_import"
   ],
   "note": "exact arithmetic; negative derivative indices count from the end as in numpy"
  },
  {
   "property": "C40",
   "status": "proved",
   "theorems": [
    "C40_rdm",
    "C40_trace",
    "C40_density",
    "C40_outside",
    "C40_repeated_refuted"
   ],
   "note": "distinct determinants; C40_repeated_refuted shows the failure with a repeated determinant"
  },
  {
   "property": "C41",
   "status": "proved",
   "theorems": [
    "C41_space",
    "C41_rejects",
    "C41_fci",
    "C41_doci",
    "C41_cisd",
    "C41_cipairs",
    "C41_hartree_fock",
    "C41_given",
    "C41_seniority_refuted",
    "C41_hci",
    "C41_hci_even",
    "C41_hci_warns",
    "C41_hci_odd_refuted",
    "C41_hci_rejects",
    "C41_hci_overshoot_refuted"
   ],
   "note": "a requested seniority that some listed determinants undershoot makes the constructor fail (C41_seniority_refuted); hCI of the default version rejects every odd electron number for three of the four patterns (C41_hci_odd_refuted) and rounds the hierarchy up (C41_hci_overshoot_refuted)"
  },
  {
   "property": "C42",
   "status": "proved",
   "theorems": [
    "C42_assign",
    "C42_base",
    "C42_base_default",
    "C42_apg",
    "C42_set",
    "C42_apig",
    "C42_apig_default"
   ],
   "note": ""
  },
  {
   "property": "C43",
   "status": "proved",
   "theorems": [
    "C43_overlap",
    "C43_other_number",
    "C43_odd",
    "C43_range",
    "C43_embedding",
    "C43_electrons_refuted"
   ],
   "note": ""
  },
  {
   "property": "C44",
   "status": "proved",
   "theorems": [
    "C44_derivative",
    "C44_single_refuted"
   ],
   "note": ""
  },
  {
   "property": "C45",
   "status": "proved",
   "theorems": [
    "C45_reference",
    "C45_assign",
    "C45_product",
    "C45_ref_one",
    "C45_apig",
    "C45_electrons",
    "C45_derivative",
    "C45_sign_refuted"
   ],
   "note": ""
  },
  {
   "property": "C46",
   "status": "proved",
   "theorems": [
    "C46_bijection",
    "C46_ranks",
    "C46_standard",
    "C46_generalized",
    "C46_indices",
    "C46_copy",
    "C46_reference",
    "C46_reference_electrons"
   ],
   "note": "BaseCC, StandardCC, GeneralizedCC and CCS; construction with the keyword arguments of the constructors"
  },
  {
   "property": "C47",
   "status": "proved",
   "theorems": [
    "C47_singles_refuted",
    "C47_ci_reference_refuted",
    "C47_given_combinations_refuted",
    "C47_derivative",
    "C47_hessian",
    "C47_overlap",
    "C47_standard",
    "C47_indices",
    "C47_generalized_refuted",
    "C47_electrons_refuted"
   ],
   "note": "operators none of which fills an orbital another empties, determinants with at least the electrons of the reference; C47_generalized_refuted, C47_electrons_refuted, C47_singles_refuted, C47_ci_reference_refuted and C47_given_combinations_refuted show what happens otherwise"
  },
  {
   "property": "C48",
   "status": "proved",
   "theorems": [
    "C48_cc",
    "C48_transparent",
    "C48_size",
    "C48_values",
    "C48_geminal",
    "C48_ap1rog",
    "C48_enable_twice_refuted",
    "C48_enable_derivative_refuted",
    "C48_reference_refuted"
   ],
   "note": "any class, memory size and history, as long as no parameters are assigned after a second enable_cache and no method that changes the configuration without clearing is used; C48_enable_twice_refuted, C48_enable_derivative_refuted (inner caches are never cleared) and C48_reference_refuted (AP1roG.assign_ref_sd) give the stale values"
  },
  {
   "property": "C49",
   "status": "proved",
   "theorems": [
    "C49_constructor",
    "C49_matrix",
    "C49_decompose",
    "C49_decompose_outside",
    "C49_occupation",
    "C49_overlap",
    "C49_derivative",
    "C49_derivative_outside",
    "C49_olp_deriv",
    "C49_default",
    "C49_single_orbital_refuted",
    "C49_size_refuted",
    "C49_olp_deriv_refuted"
   ],
   "note": "Matrix product states over any commutative ring: layout of the parameters, decompose_index, occupation numbers, overlap as the sum over all bond indices, derivatives as slopes, default parameters. Refuted parts: one spatial orbital does not work, the number of given parameters is not checked, _olp_deriv (unused) ignores the occupation."
  },
  {
   "property": "C50",
   "status": "proved",
   "theorems": [
    "C50_polynomials",
    "C50_lincomb_constructor",
    "C50_lincomb_overlap",
    "C50_lincomb_default",
    "C50_lincomb_derivative",
    "C50_lincomb_self",
    "C50_lincomb_errors",
    "C50_product_constructor",
    "C50_product_overlap",
    "C50_product_derivative",
    "C50_product_errors",
    "C50_product_batch",
    "C50_embedded_constructor",
    "C50_split",
    "C50_split_pairs",
    "C50_split_outside",
    "C50_split_electrons",
    "C50_split_injective",
    "C50_embedded_overlap",
    "C50_embedded_derivative",
    "C50_embedded_batch",
    "C50_fixed_overlap",
    "C50_fixed_derivative",
    "C50_fixed_batch",
    "C50_self_indices_refuted",
    "C50_lincomb_params_refuted",
    "C50_lincomb_empty_refuted",
    "C50_embedded_shared_refuted",
    "C50_fixed_empty_refuted"
   ],
   "note": "linear combinations, products, embeddings and embeddings with fixed electron numbers over any commutative ring and any notion of derivative that is affine-linear; component gradients are hypotheses; components of an embedding must be different objects (C50_embedded_shared_refuted), derivatives with respect to the own parameters of a combination ignore the indices (C50_self_indices_refuted), the number of its parameters is not checked (C50_lincomb_params_refuted)"
  },
  {
   "property": "C51",
   "status": "proved",
   "theorems": [
    "C51_lookup",
    "C51_stored",
    "C51_accepts",
    "C51_rejects",
    "C51_unknown",
    "C51_equal",
    "C51_equal_refuted"
   ],
   "note": ""
  },
  {
   "property": "C52",
   "status": "proved",
   "theorems": [
    "C52_slices",
    "C52_active",
    "C52_assign",
    "C52_length",
    "C52_identity",
    "C52_failure",
    "C52_constructor"
   ],
   "note": ""
  },
  {
   "property": "C53",
   "status": "proved",
   "theorems": [
    "C53_distinct",
    "C53_count",
    "C53_disabled",
    "C53_classes",
    "C53_distinct_refuted"
   ],
   "note": ""
  },
  {
   "property": "C54",
   "status": "proved",
   "theorems": [
    "C54_overlap_slots",
    "C54_integral_slots",
    "C54_sd_sd_slots",
    "C54_mismatch",
    "C54_gradients",
    "C54_coordinates",
    "C54_vector"
   ],
   "note": ""
  },
  {
   "property": "C55",
   "status": "proved",
   "theorems": [
    "C55_one",
    "C55_two",
    "C55_oneside",
    "C55_twoside",
    "C55_normalize_refuted",
    "C55_normalized"
   ],
   "note": ""
  },
  {
   "property": "C56",
   "status": "proved",
   "theorems": [
    "C56_values",
    "C56_solutions",
    "C56_weights",
    "C56_jacobian",
    "C56_norm_constraint",
    "C56_jacobian_alone",
    "C56_jacobian_ignores",
    "C56_normalize_refuted"
   ],
   "note": ""
  },
  {
   "property": "C57",
   "status": "proved",
   "theorems": [
    "C57_objective",
    "C57_history",
    "C57_count",
    "C57_step_print",
    "C57_constraint",
    "C57_nested_refuted",
    "C57_gradient",
    "C57_count_refuted",
    "C57_zero"
   ],
   "note": ""
  },
  {
   "property": "C58",
   "status": "proved",
   "theorems": [
    "C58_step",
    "C58_down",
    "C58_simple",
    "C58_zero_refuted",
    "C58_queue",
    "C58_invariant",
    "C58_up",
    "C58_only"
   ],
   "note": ""
  },
  {
   "property": "C59",
   "status": "proved",
   "theorems": [
    "C59_norm",
    "C59_local"
   ],
   "note": ""
  },
  {
   "property": "C60",
   "status": "proved",
   "theorems": [
    "C60_series",
    "C60_zero",
    "C60_transpose",
    "C60_rejects"
   ],
   "note": "Frobenius-norm tests and scipy expm are oracles with the hypotheses stated in the theorems"
  },
  {
   "property": "C61",
   "status": "proved",
   "theorems": [
    "C61_default",
    "C61_default_defined",
    "C61_default_overlap",
    "C61_ground",
    "C61_copy",
    "C61_copy_defined",
    "C61_copy_overlap",
    "C61_copy_set_refuted"
   ],
   "note": "copies between APIG, APG and APsetG with the orbital pairings of both; C61_copy_set_refuted: copying from APsetG fails for APG and APsetG and is silently zero for APIG"
  },
  {
   "property": "C62",
   "status": "proved",
   "theorems": [
    "C62_arguments",
    "C62_quadruples_electrons",
    "C62_operators",
    "C62_sizes",
    "C62_derivative",
    "C62_history",
    "C62_overlap",
    "C62_ordered",
    "C62_unordered",
    "C62_quadruples_refuted",
    "C62_doubles",
    "C62_product",
    "C62_documented",
    "C62_given_refuted",
    "C62_documented_refuted",
    "C62_sen0_refuted",
    "C62_reference_refuted",
    "C62_stale_refuted",
    "C62_indices_refuted"
   ],
   "note": "references within the basis, for CCSDsen0 and the classes with quadruples the ground state reference; determinants with at least the electrons of the reference; as many amplitudes as operators. C62_stale_refuted, C62_reference_refuted, C62_indices_refuted, C62_given_refuted, C62_quadruples_refuted, C62_documented_refuted and C62_sen0_refuted show what happens otherwise and where the documentation differs"
  },
  {
   "property": "C63",
   "status": "proved",
   "theorems": [
    "C63_constructor",
    "C63_overlap",
    "C63_orbitals",
    "C63_rotation",
    "C63_zero",
    "C63_compose",
    "C63_spin",
    "C63_arguments",
    "C63_program",
    "C63_assign",
    "C63_history",
    "C63_stale_refuted",
    "C63_unrestricted_refuted",
    "C63_orbtype_refuted",
    "C63_documented_refuted",
    "C63_seniority_refuted",
    "C63_derivative",
    "C63_real"
   ],
   "note": "cos and sin are any functions with the identities stated in each theorem; C63_real instantiates the real ones. C63_stale_refuted (setters other than assign_params leave the cache), C63_unrestricted_refuted (orbitals beyond nspin accepted), C63_orbtype_refuted, C63_documented_refuted (formula of the docstring) and C63_seniority_refuted are the places where the code differs from its documentation"
  },
  {
   "property": "C64",
   "status": "proved",
   "theorems": [
    "C64_constructor",
    "C64_orbtype",
    "C64_orbtype_rows",
    "C64_conserved",
    "C64_nparams",
    "C64_overlap",
    "C64_identity",
    "C64_jacobi",
    "C64_product",
    "C64_spin",
    "C64_arguments",
    "C64_gradient",
    "C64_indices_refuted",
    "C64_program",
    "C64_history",
    "C64_stale_refuted",
    "C64_electrons_refuted",
    "C64_quadratic",
    "C64_restricted_both_refuted",
    "C64_restricted_beta_refuted",
    "C64_unrestricted_beta_refuted",
    "C64_nspatial_refuted",
    "C64_seniority_refuted",
    "C64_derivative"
   ],
   "note": "derivatives: generalized orbitals, alpha orbitals, beta orbitals if there is one beta electron, restricted rows without beta electron or with the only electrons; C64_restricted_both_refuted, C64_restricted_beta_refuted and C64_unrestricted_beta_refuted show that they are wrong otherwise. C64_nspatial_refuted: restricted and unrestricted overlaps need as many orbitals as the wrapped wavefunction; C64_indices_refuted, C64_electrons_refuted, C64_stale_refuted and C64_seniority_refuted are further places where the code differs from its documentation"
  },
  {
   "property": "C65",
   "status": "proved",
   "theorems": [
    "C65_constructor",
    "C65_copy",
    "C65_fullrank",
    "C65_apig",
    "C65_overlap",
    "C65_electrons",
    "C65_derivative",
    "C65_extra_refuted",
    "C65_single_refuted",
    "C65_convert",
    "C65_normalize_refuted",
    "C65_length_refuted",
    "C65_history",
    "C65_program",
    "C65_assign_refuted",
    "C65_extra_witness_refuted",
    "C65_equal_refuted",
    "C65_real"
   ],
   "note": "derivatives: the lambdas of geminals beyond the number of pairs are excluded, where C65_extra_refuted and C65_extra_witness_refuted show that the returned number belongs to a zeta; one pair with several geminals raises IndexError (C65_single_refuted). C65_length_refuted, C65_equal_refuted, C65_assign_refuted and C65_normalize_refuted are further places where the code does not do what it documents. The solver np.linalg.lstsq is an argument"
  },
  {
   "property": "C66",
   "status": "proved",
   "theorems": [
    "C66_constructor",
    "C66_errors",
    "C66_parameters",
    "C66_assign",
    "C66_permutations",
    "C66_overlap",
    "C66_exponential",
    "C66_missing",
    "C66_fewer",
    "C66_derivative",
    "C66_default",
    "C66_overwrite_refuted",
    "C66_electrons_refuted",
    "C66_calculus"
   ],
   "note": "determinants all of whose pairs of occupied orbitals are listed (C66_missing: ValueError otherwise, even if the missing pair could be taken as zero). C66_overwrite_refuted: parameters given for reference pairs are replaced by one in the array of the caller; C66_electrons_refuted: with more electrons only the lowest nelec orbitals are read, with fewer IndexError"
  },
  {
   "property": "C67",
   "status": "proved",
   "theorems": [
    "C67_constructor",
    "C67_errors",
    "C67_copy",
    "C67_assign",
    "C67_matrix",
    "C67_overlap",
    "C67_electrons_refuted",
    "C67_outside",
    "C67_short_refuted",
    "C67_default",
    "C67_program",
    "C67_history",
    "C67_stale_refuted",
    "C67_derivative"
   ],
   "note": "C67_electrons_refuted: for determinants with another number of electrons the derivatives are the number 0 and not an array; C67_short_refuted: the number of parameters is not checked by the constructor and get_overlap fails instead; C67_stale_refuted: assign_numerator_mask leaves the caches filled. With a mask that is false everywhere the default parameters are not those of the ground state (C67_default_ex)"
  },
  {
   "property": "C68",
   "status": "proved",
   "theorems": [
    "C68_constructor",
    "C68_assign",
    "C68_copy",
    "C68_subsets",
    "C68_given_subsets",
    "C68_general",
    "C68_overlap",
    "C68_other",
    "C68_derivative",
    "C68_single_refuted",
    "C68_default",
    "C68_errors",
    "C68_fermions",
    "C68_fermion_sign_refuted",
    "C68_program",
    "C68_history",
    "C68_mixed_refuted",
    "C68_electrons_refuted"
   ],
   "note": "derivatives: not for one block with several quasiparticles, where C68_single_refuted shows IndexError. C68_electrons_refuted: determinants with 4h < nelec electrons do not have overlap zero; C68_other: the vacuum and more than nelec electrons raise IndexError, other numbers ValueError. C68_mixed_refuted: with odd and even subsets together the overlap is wrong beyond a sign; C68_fermion_sign_refuted: derivatives of products of odd subsets lack the sign of the cofactor (C68_fermions: their sums are the determinants)"
  },
  {
   "property": "C69",
   "status": "proved",
   "theorems": [
    "C69_assign",
    "C69_nparams",
    "C69_constructor",
    "C69_errors",
    "C69_shaped",
    "C69_overlap",
    "C69_network",
    "C69_other",
    "C69_scale_refuted",
    "C69_derivative",
    "C69_derivative_outside",
    "C69_overlaps",
    "C69_ragged_refuted",
    "C69_axes_refuted",
    "C69_default",
    "C69_electrons_refuted",
    "C69_normalize",
    "C69_normalize_empty_refuted",
    "C69_reset_refuted",
    "C69_real",
    "C69_positive",
    "C69_normalize_real"
   ],
   "note": "the arrays have the shapes of params_shape (C69_shaped: true after construction, assignment of arrays and normalization; lists of arrays are stored unchecked by the code). C69_scale_refuted: with parameters given to the constructor every overlap raises AttributeError; C69_electrons_refuted, C69_ragged_refuted, C69_axes_refuted, C69_normalize_empty_refuted and C69_reset_refuted are further places where the code does not do what it documents. np.exp is an argument with its derivative as a contract; C69_real, C69_positive, C69_normalize_real are over the reals with exp"
  },
  {
   "property": "C70",
   "status": "proved",
   "theorems": [
    "C70_root_few",
    "C70_root_same",
    "C70_root_square",
    "C70_root_multi_refuted",
    "C70_root_negative_refuted",
    "C70_residuals",
    "C70_root_residuals",
    "C70_single",
    "C70_minimize",
    "C70_cma",
    "C70_energy",
    "C70_root_energy",
    "C70_energy_refuted",
    "C70_brute",
    "C70_brute_projected",
    "C70_brute_upper",
    "C70_brute_errors",
    "C70_brute_saved",
    "C70_brute_save_refuted",
    "C70_refresh",
    "C70_callback_refuted",
    "C70_brute_minimum"
   ],
   "note": "scipy.linalg.eigh is an argument with its contract (eigen_system for the symmetric completion of the upper triangle; ascending eigenvalues for C70_brute_minimum, over the reals); the optimizers are arbitrary strategies, assumed to report a point they evaluated (truthful) or the last one (ends_at). Refuted in the code: C70_brute_save_refuted (saves the old parameters), C70_root_multi_refuted and C70_root_negative_refuted (truncation leaves a system that cannot be evaluated), C70_energy_refuted (energy and parameters of the objective are those of the last evaluation, not of the solution), C70_callback_refuted (misspelled attribute)"
  },
  {
   "property": "C71",
   "status": "proved",
   "theorems": [
    "C71_linear_all_orders",
    "C71_first_order",
    "C71_second_order",
    "C71_second_order_missing",
    "C71_third_order",
    "C71_constraint_rows",
    "C71_third_order_refuted",
    "C71_overlap_constraint_kept",
    "C71_parameter_constraint_kept",
    "C71_norm_change",
    "C71_frozen_kept",
    "C71_norm_kept_refuted",
    "C71_free_lambda",
    "C71_free_parameters",
    "C71_free_mixed",
    "C71_free_reference",
    "C71_free_resum_refuted",
    "C71_free_second_order_refuted"
   ],
   "note": "residuals as polynomials in the step; the least squares solver is an argument and its solutions are assumed exact (exact_orders), the starting point is assumed to solve the equations at its lambda (settled); orders of the residuals with the energy as a parameter and overlaps linear or quadratic in the parameters; for the energy-free container the derivatives (C71_free_lambda, C71_free_parameters, C71_free_mixed). Refuted in the code: C71_third_order_refuted (the third order takes the second response for the first in one term), C71_norm_kept_refuted (the norm is only kept to first order), C71_free_second_order_refuted (energy-free: the second order lacks the second derivatives with respect to the parameters, also for linear overlaps), C71_free_resum_refuted (the matrix of an energy-free resummation has no inverse)"
  },
  {
   "property": "C72",
   "status": "proved",
   "theorems": [
    "C72_jacobian",
    "C72_shapes",
    "C72_chunks",
    "C72_default_norm",
    "C72_norm_det",
    "C72_energy_mask",
    "C72_masks",
    "C72_change_constraints_refuted",
    "C72_feed",
    "C72_feed_refuted"
   ],
   "note": "pyci operators, overlaps and their derivatives are arguments. C72_shapes: rows of constraints given by the user are what the user gives. Refuted in the code: C72_change_constraints_refuted (add_constraint and remove_constraint always raise TypeError), C72_feed_refuted (with a selection that is not the first parameters the overlaps and their derivatives are evaluated at different parameters)"
  },
  {
   "property": "C73",
   "status": "proved",
   "theorems": [
    "C73_hamiltonians",
    "C73_options",
    "C73_refusals",
    "C73_updater_accepts",
    "C73_solver_refuted",
    "C73_resum_dropped_refuted",
    "C73_container_accepts",
    "C73_constant_terms",
    "C73_energy",
    "C73_order_zero",
    "C73_lambdas",
    "C73_optimize_result",
    "C73_later_steps",
    "C73_first_step",
    "C73_zero_arguments_refuted",
    "C73_resummed",
    "C73_series",
    "C73_fock_symmetry_refuted",
    "C73_first_step_refuted",
    "C73_resummed_refuted"
   ],
   "note": "interface and optimizer of the projected equations are arguments. The statement about every step holds from the second step on (C73_later_steps), and for the first if lambda_i is 0 (C73_first_step, C73_first_step_refuted). Refuted in the code: C73_fock_symmetry_refuted (the ideal Hamiltonian loses the symmetry of exchanging the electrons), C73_solver_refuted (a given solver raises AttributeError), C73_resum_dropped_refuted, C73_zero_arguments_refuted (explicit zeros are replaced by the options of the constructor), C73_resummed_refuted (the step of a resummation is counted from lambda 0); C73_refusals: the documented None for the order of the quasi approximation is refused, and a resummation with a constrained reference always raises"
  },
  {
   "property": "C74",
   "status": "proved",
   "theorems": [
    "C74_accepts",
    "C74_refuses",
    "C74_ci_reference_refuted",
    "C74_given_combinations_refuted",
    "C74_reference",
    "C74_reference_derivative_refuted",
    "C74_derivative",
    "C74_overlap",
    "C74_indices",
    "C74_history",
    "C74_default_refuted"
   ],
   "note": "determinants within the spin orbitals, at least as many electrons as the reference; operators whose annihilated and created orbitals are apart (C74_indices: disjoint lists of orbitals; C74_default_refuted: false for the default operators). Refuted in the code: C74_ci_reference_refuted (AttributeError), C74_given_combinations_refuted (AttributeError), C74_reference_derivative_refuted (TypeError)."
  },
  {
   "property": "C75",
   "status": "proved",
   "theorems": [
    "C75_operators",
    "C75_partition",
    "C75_reference",
    "C75_given_combinations_refuted",
    "C75_subsystems",
    "C75_inter",
    "C75_no_others",
    "C75_derivative",
    "C75_hessian",
    "C75_overlap",
    "C75_overlap_default",
    "C75_standard",
    "C75_product_reference_refuted",
    "C75_ranks_refuted",
    "C75_inter_order_refuted",
    "C75_lists_refuted",
    "C75_ranks"
   ],
   "note": "one list of orbitals per subsystem (C75_lists_refuted: more are accepted and amplitudes are lost). C75_overlap: operators whose emptied and filled orbitals are apart, sorted, with ranks of the whole; C75_standard: subsystems of StandardCC, default ranks, no operators between subsystems, no such assumption. Determinants have at least as many electrons as the reference. Refuted in the code: C75_product_reference_refuted (the reference is not the product of the references of the subsystems, whose overlap can be zero), C75_ranks_refuted (a list of ranks starting with None drops ranks above two), C75_inter_order_refuted (operators between subsystems that are not sorted are ignored), C75_given_combinations_refuted (AttributeError)"
  },
  {
   "property": "C76",
   "status": "proved",
   "theorems": [
    "C76_reference",
    "C76_refused",
    "C76_spaces",
    "C76_default",
    "C76_projected_default",
    "C76_expectation",
    "C76_generalized",
    "C76_projected_electrons_refuted",
    "C76_projected",
    "C76_ci_list_refuted",
    "C76_single",
    "C76_projected_reference",
    "C76_lower_bound"
   ],
   "note": "proper: more than zero and at most nspin electrons, an even number of spin orbitals, |2 spin| at most the seniority. C76_expectation: overlaps vanish for determinants that do not have the electrons, spin and seniority of the wavefunction; C76_generalized adds the generalized Hamiltonian with symmetric integrals (characteristic not 2, at most 63 spin orbitals). C76_lower_bound: over the reals, eigh returns a complete orthonormal eigensystem with the lowest eigenvalue first, not all overlaps zero. Refuted in the code: C76_projected_electrons_refuted (projected equations with constraints take determinants of other electrons or orbitals), C76_ci_list_refuted (documented lists of CI wavefunctions raise TypeError)."
  },
  {
   "property": "C77",
   "status": "proved",
   "theorems": [
    "C77_natural",
    "C77_runs",
    "C77_electrons",
    "C77_atomic",
    "C77_rectangular_refuted",
    "C77_columns",
    "C77_mixed_refuted",
    "C77_expectation_bounds",
    "C77_bounds"
   ],
   "note": "distinct determinants within the spin orbitals, as many coefficients as determinants; eigh returns a complete orthonormal eigensystem of a symmetric matrix, argsort a permutation that sorts. C77_expectation_bounds and C77_bounds over the reals. Refuted in the code: C77_rectangular_refuted (coefficients with another number of atomic orbitals raise ValueError, a single row is repeated), C77_mixed_refuted (elements between the spins are ignored: the occupations are not those of the whole density matrix)."
  },
  {
   "property": "C78",
   "status": "proved",
   "theorems": [
    "C78_reach",
    "C78_projection",
    "C78_generalized",
    "C78_orders",
    "C78_negative",
    "C78_given",
    "C78_orders_refuted"
   ],
   "note": "the determinant lies within the spin orbitals; overlaps and elements are defined for all determinants. C78_reach and C78_projection: distinct positive orders; C78_orders: any orders that are not negative, with multiplicities. C78_generalized: symmetric two-electron integrals, caches as made by cache_two_ints, characteristic not 2, at least one electron. Refuted in the code: C78_orders_refuted (an order 0 or a repeated order counts determinants twice)."
  },
  {
   "property": "C79",
   "status": "proved",
   "theorems": [
    "C79_adjugate",
    "C79_products",
    "C79_refused",
    "C79_eigh_refuted",
    "C79_power_refuted",
    "C79_inverse"
   ],
   "note": "numpy.linalg.inv returns a right inverse of every matrix with determinant other than zero (C79_inverse: the contract can be met); the determinant is exact. Refuted in the code: C79_eigh_refuted, C79_power_refuted (TypeError for every square symmetric matrix that numpy.linalg.eigh accepts; numpy 1.13 or later, setup.py asks for 1.25)."
  },
  {
   "property": "C80",
   "status": "proved",
   "theorems": [
    "C80_assigned",
    "C80_selected",
    "C80_gradient"
   ],
   "note": "parameters in an array of one dimension, no given assign_params. C80_gradient: any calculus (laws of derivatives; satisfied by real_calculus), olp and olp_deriv defined for all determinants within the spin orbitals, orders that are not negative, selected indices in range."
  }
 ]
}
