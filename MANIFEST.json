{
 "claims": [
  {
   "property": "C01",
   "status": "proved",
   "theorems": [
    "C01_alias_dict_is_ordered_map",
    "C01_keys_resolve",
    "C01_lookup_finds_equal_key"
   ],
   "note": ""
  },
  {
   "property": "C02",
   "status": "proved",
   "theorems": [
    "C02_overwrite_in_place"
   ],
   "note": ""
  },
  {
   "property": "C03",
   "status": "proved",
   "theorems": [
    "C03_equality_is_shared_string",
    "C03_equality_reflexive_symmetric",
    "C03_equality_transitive_refuted",
    "C03_equal_keys_equal_hash_refuted"
   ],
   "note": "The two negative clauses (not transitive, equal but different hashes) are the _refuted theorems."
  },
  {
   "property": "C04",
   "status": "proved",
   "theorems": [
    "C04_default_names_unique",
    "C04_lookup_returns_owner",
    "C04_lookup_by_default_name_refuted",
    "C04_legacy_systems_unique_names_refuted",
    "C04_counters_count_creations"
   ],
   "note": "C04_lookup_by_default_name_refuted shows the proviso on colliding aliases is needed; C04_legacy_systems_unique_names_refuted shows the hypothesis on labels is needed (the legacy compQSystem and qSystem classes share a label)."
  },
  {
   "property": "C05",
   "status": "proved",
   "theorems": [
    "C05_alias_rejected_iff_taken",
    "C05_names_and_aliases_exclusive",
    "C05_alias_exclusive_refuted"
   ],
   "note": "The proviso is needed: C05_alias_exclusive_refuted."
  },
  {
   "property": "C06",
   "status": "proved",
   "theorems": [
    "C06_nested_list_is_sequence_of_calls",
    "C06_returns_last_value",
    "C06_returns_last_value_refuted",
    "C06_failure_keeps_prefix"
   ],
   "note": "Return value: proved for lists without empty sub-lists; C06_returns_last_value_refuted for a trailing empty sub-list."
  },
  {
   "property": "C07",
   "status": "proved",
   "theorems": [
    "C07_container_is_ordered_set",
    "C07_add",
    "C07_remove",
    "C07_assign_list"
   ],
   "note": ""
  },
  {
   "property": "C08",
   "status": "proved",
   "theorems": [
    "C08_flag_reaches_exactly_dependents",
    "C08_propagation_completes_iff_acyclic",
    "C08_setter_exact"
   ],
   "note": ""
  },
  {
   "property": "C09",
   "status": "proved",
   "theorems": [
    "C09_delMatrices_clears_visited",
    "C09_fresh_list_means_reachable"
   ],
   "note": ""
  },
  {
   "property": "C10",
   "status": "proved",
   "theorems": [
    "C10_default_call_exact",
    "C10_second_call_clears_nothing",
    "C10_repeated_call_clears_again_refuted"
   ],
   "note": "The default call is characterised exactly; the claim that a second default call clears again is false (C10_repeated_call_clears_again_refuted): the shared default list keeps every visited system."
  },
  {
   "property": "C11",
   "status": "proved",
   "theorems": [
    "C11_index_decomposition_bijective",
    "C11_flat_order_is_lexicographic"
   ],
   "note": ""
  },
  {
   "property": "C12",
   "status": "proved",
   "theorems": [
    "C12_sweeps_form_groups",
    "C12_number_of_points",
    "C12_point_assigns_selected_values"
   ],
   "note": ""
  },
  {
   "property": "C13",
   "status": "proved",
   "theorems": [
    "C13_first_combinatorial_always_fails",
    "C13_first_combinatorial_harmless_refuted"
   ],
   "note": "A finding: the claim that the flag is harmless on the first sweep is refuted, and the failure is proved for every sweep list."
  },
  {
   "property": "C14",
   "status": "proved",
   "theorems": [
    "C14_linear_values",
    "C14_values_beyond_max",
    "C14_list_is_stable",
    "C14_list_follows_bounds_refuted"
   ],
   "note": "C14_list_follows_bounds_refuted: the list is computed once."
  },
  {
   "property": "C15",
   "status": "proved",
   "theorems": [
    "C15_results_match_points",
    "C15_results_without_sweep",
    "C15_partial_recording_fails"
   ],
   "note": ""
  },
  {
   "property": "C16",
   "status": "proved",
   "theorems": [
    "C16_average_is_mean"
   ],
   "note": ""
  },
  {
   "property": "C17",
   "status": "proved",
   "theorems": [
    "C17_multiprocess_equals_single",
    "C17_calculated_refuted"
   ],
   "note": "C17_calculated_refuted shows why 'calculated' is excepted."
  },
  {
   "property": "C18",
   "status": "proved",
   "theorems": [
    "C18_reads_end_of_chain",
    "C18_hierarchy_never_cyclic",
    "C18_set_affects_exactly_bound",
    "C18_assignment_breaks_bound_refuted",
    "C18_no_cycles_refuted"
   ],
   "note": "C18_assignment_breaks_bound_refuted and C18_no_cycles_refuted are the two negative clauses."
  },
  {
   "property": "C19",
   "status": "proved",
   "theorems": [
    "C19_count_is_floor_plus_one",
    "C19_total_and_size",
    "C19_assigned_count_reads_one_more",
    "C19_count_reads_back_refuted",
    "C19_count_then_total_unreadable",
    "C19_time_list"
   ],
   "note": "Numbers are exact rationals; float rounding is not modelled."
  },
  {
   "property": "C20",
   "status": "proved",
   "theorems": [
    "C20_observed_at_every_time",
    "C20_stored_states",
    "C20_simulation_compute"
   ],
   "note": ""
  },
  {
   "property": "C21",
   "status": "proved",
   "theorems": [
    "C21_ordered_product",
    "C21_request_returns_product"
   ],
   "note": ""
  },
  {
   "property": "C22",
   "status": "proved",
   "theorems": [
    "C22_unitaries_are_fresh",
    "C22_adjoint_step_refuted",
    "C22_step_of_two_protocols_refuted",
    "C22_update_leaks_to_copy_refuted",
    "C22_ratio_refuted"
   ],
   "note": "Positive theorem over all histories plus four refutations showing that each proviso is needed."
  },
  {
   "property": "C23",
   "status": "proved",
   "theorems": [
    "C23_updates_undone",
    "C23_same_parameter_twice_refuted",
    "C23_several_systems_refuted",
    "C23_shared_update_refuted"
   ],
   "note": "Positive theorem plus three refutations (same parameter twice, several systems, shared update object)."
  },
  {
   "property": "C24",
   "status": "proved",
   "theorems": [
    "C24_flat_composite"
   ],
   "note": "C24_flat_composite; concrete example beside it."
  },
  {
   "property": "C25",
   "status": "proved",
   "theorems": [
    "C25_nested_bookkeeping",
    "C25_every_system_placed",
    "C25_large_dimensions_refuted"
   ],
   "note": "Invariant over histories (allFine). The failure beyond 2^53 is C25_large_dimensions_refuted."
  },
  {
   "property": "C26",
   "status": "proved",
   "theorems": [
    "C26_growing_nested_refuted"
   ],
   "note": "Expected property refuted with a witness."
  },
  {
   "property": "C27",
   "status": "proved",
   "theorems": [
    "C27_remove_single",
    "C27_removed_loses_dimension_refuted",
    "C27_remove_composite_refuted",
    "C27_readd_composite_refuted"
   ],
   "note": "Proved for single systems removed through their own composite; the expected claims about the removed system's dimension and about removed composites are refuted."
  },
  {
   "property": "C28",
   "status": "proved",
   "theorems": [
    "C28_no_mutual_containment",
    "C28_mutual_rejected",
    "C28_self_refuted",
    "C28_indirect_refuted",
    "C28_fine_histories_terminate"
   ],
   "note": "Self-containment and indirect cycles are refuted by witnesses (self-add for every recursion limit)."
  },
  {
   "property": "C29",
   "status": "proved",
   "theorems": [
    "C29_total_is_sum_of_terms",
    "C29_terms_of_tree",
    "C29_read_is_sum"
   ],
   "note": ""
  },
  {
   "property": "C30",
   "status": "proved",
   "theorems": [
    "C30_read_is_current",
    "C30_read_returns_value",
    "C30_term_read_is_current",
    "C30_same_system_refuted",
    "C30_fixed_evolution_refuted",
    "C30_rejected_operators_refuted",
    "C30_reattached_term_refuted"
   ],
   "note": "The counterexamples are the _refuted theorems; the positive theorems hold for all other calls."
  },
  {
   "property": "C31",
   "status": "proved",
   "theorems": [
    "C31_removeTerm_removes",
    "C31_resetTerms_refuted"
   ],
   "note": "resetTerms and terms = [] leave the cached Hamiltonian in place: C31_resetTerms_refuted."
  },
  {
   "property": "C32",
   "status": "proved",
   "theorems": [
    "C32_operator_rejected",
    "C32_term_rejected",
    "C32_coupling_rejected",
    "C32_dimension_rejected",
    "C32_dimension_accepted",
    "C32_second_term_refuted"
   ],
   "note": "C32_second_term_refuted shows the gap for later terms."
  },
  {
   "property": "C33",
   "status": "proved",
   "theorems": [
    "C33_copy",
    "C33_last_term",
    "C33_terms_refuted",
    "C33_initial_refuted",
    "C33_vector_refuted",
    "C33_nested_refuted",
    "C33_open_refuted",
    "C33_empty_refuted",
    "C33_default_refuted",
    "C33_input_refuted",
    "C33_rmul"
   ],
   "note": "Keyword arguments of copy and time dependencies of terms (which are not copied) are not modelled."
  },
  {
   "property": "C34",
   "status": "proved",
   "theorems": [
    "C34_index_bijection",
    "C34_entries",
    "C34_no_arguments",
    "C34_ints_are_identities",
    "C34_associative",
    "C34_mixed_product",
    "C34_adjoint",
    "C34_trace",
    "C34_multilinear",
    "C34_adjoint_of_product",
    "C34_trace_cyclic"
   ],
   "note": ""
  },
  {
   "property": "C35",
   "status": "proved",
   "theorems": [
    "C35_entries",
    "C35_homomorphism",
    "C35_different_systems_commute",
    "C35_product_of_all"
   ],
   "note": ""
  },
  {
   "property": "C36",
   "status": "proved",
   "theorems": [
    "C36_entries",
    "C36_specification",
    "C36_ket",
    "C36_trace",
    "C36_density",
    "C36_product",
    "C36_linear",
    "C36_order",
    "C36_keep_all",
    "C36_operators",
    "C36_local_operators",
    "C36_stages",
    "C36_purities",
    "C36_errors",
    "C36_bad_keep",
    "C36_negative_refuted"
   ],
   "note": "Negative indices refuted by C36_negative_refuted; numpy's limit of 32 axes and length-1 broadcasting are not modelled."
  },
  {
   "property": "C37",
   "status": "proved",
   "theorems": [
    "C37_round_trip",
    "C37_column_stacking",
    "C37_linear",
    "C37_inner_product",
    "C37_bad_length"
   ],
   "note": ""
  },
  {
   "property": "C38",
   "status": "proved",
   "theorems": [
    "C38_superoperators",
    "C38_composition",
    "C38_default_is_same_operator"
   ],
   "note": ""
  },
  {
   "property": "C39",
   "status": "proved",
   "theorems": [
    "C39_lindblad",
    "C39_super_operators",
    "C39_default_rates",
    "C39_empty_rates",
    "C39_no_hamiltonian",
    "C39_errors",
    "C39_pairs_refuted",
    "C39_trace_hermiticity",
    "C39_exponential"
   ],
   "note": "pairs: C39_pairs_refuted; exponential: expm is any function fixing left null vectors and commuting with conjugation and similarity"
  },
  {
   "property": "C40",
   "status": "proved",
   "theorems": [
    "C40_open_gate_action",
    "C40_right_iff_hermitian",
    "C40_trace_refuted",
    "C40_explicit_adjoint",
    "C40_closed_gate_unitary",
    "C40_closed_flip_unitary"
   ],
   "note": "the expected claim (rho to U rho U^+, trace preserved) is false: C40_trace_refuted, C40_right_iff_hermitian"
  },
  {
   "property": "C41",
   "status": "proved",
   "theorems": [
    "C41_ladder_operators",
    "C41_commutators"
   ],
   "note": ""
  },
  {
   "property": "C42",
   "status": "proved",
   "theorems": [
    "C42_matrices",
    "C42_algebra",
    "C42_total_spin",
    "C42_not_a_spin_refuted"
   ],
   "note": "the last sentence is C42_not_a_spin_refuted (witness j = 3/4)"
  },
  {
   "property": "C43",
   "status": "proved",
   "theorems": [
    "C43_pauli_algebra",
    "C43_spin_half"
   ],
   "note": ""
  },
  {
   "property": "C44",
   "status": "proved",
   "theorems": [
    "C44_basis",
    "C44_basis_range",
    "C44_orthonormal",
    "C44_complete",
    "C44_composite",
    "C44_composite_truncates"
   ],
   "note": ""
  },
  {
   "property": "C45",
   "status": "proved",
   "theorems": [
    "C45_populations",
    "C45_amplitudes",
    "C45_list",
    "C45_int",
    "C45_errors",
    "C45_composite"
   ],
   "note": ""
  },
  {
   "property": "C46",
   "status": "proved",
   "theorems": [
    "C46_pure",
    "C46_mixture",
    "C46_default_weights",
    "C46_truncates",
    "C46_empty",
    "C46_every_density_matrix",
    "C46_purity"
   ],
   "note": ""
  },
  {
   "property": "C47",
   "status": "proved",
   "theorems": [
    "C47_expectation",
    "C47_expectation_real",
    "C47_expectation_ket_real",
    "C47_fidelity_forms",
    "C47_fidelity_range",
    "C47_fidelity_mixed",
    "C47_one_level_refuted"
   ],
   "note": "C47_one_level_refuted: with one level the functions cannot tell a ket from a density matrix. The rounding in the code is not modelled: expectation drops an imaginary part below about 10^-12 and fidelityPure rounds the overlap of two kets to 20 decimals, so its result 1 for kets equal up to a phase only is exact in the model."
  },
  {
   "property": "C48",
   "status": "proved",
   "theorems": [
    "C48_rotations_unitary",
    "C48_rotations_compose",
    "C48_rotation_entries",
    "C48_unknown_axis",
    "C48_CNOT",
    "C48_CPHASE",
    "C48_Hadamard"
   ],
   "note": "The model takes the cosine and sine as given numbers with c^2+s^2=1, so the rounding of spinRotations.py to 15 decimals is left out. C67_rounded bounds its effect; C67_rounded_refuted shows that the rounded gates are not all exactly unitary."
  },
  {
   "property": "C49",
   "status": "proved",
   "theorems": [
    "C49_entries",
    "C49_hermitian",
    "C49_conserved",
    "C49_rabi_not_conserved",
    "C49_sum",
    "C49_documented_refuted",
    "C49_UJC_evolves",
    "C49_UJC_unitary",
    "C49_UJC_undefined",
    "C49_UJC_no_cavity"
   ],
   "note": ""
  },
  {
   "property": "C50",
   "status": "proved",
   "theorems": [
    "C50_states",
    "C50_step_count",
    "C50_trace_hermiticity",
    "C50_closed_refuted"
   ],
   "note": "last sentence: C50_closed_refuted"
  },
  {
   "property": "C51",
   "status": "proved",
   "theorems": [
    "C51_general",
    "C51_saved",
    "C51_one_long_level",
    "C51_overwritten_refuted",
    "C51_flat_refuted",
    "C51_dropped_refuted",
    "C51_saveCSV",
    "C51_results",
    "C51_names_refuted",
    "C51_stops"
   ],
   "note": "The text format of numbers is an argument with the round-trip law (satisfied by the concrete decimal instance in PropsCsv.v); the time-stamp default name and directory creation are not modelled."
  },
  {
   "property": "C52",
   "status": "proved",
   "theorems": [
    "C52_window",
    "C52_unset",
    "C52_sum",
    "C52_order",
    "C52_inactive",
    "C52_integral",
    "C52_exact",
    "C52_rotation",
    "C52_square",
    "C52_add",
    "C52_shape",
    "C52_shape_pulse",
    "C52_pulse_flag"
   ],
   "note": "Exact arithmetic in an ordered field; pi is an argument. One drive is modelled at a time."
  },
  {
   "property": "C53",
   "status": "proved",
   "theorems": [
    "C53_rerun_without_sweeps_refuted",
    "C53_point_count_depends_on_current_sweeps"
   ],
   "note": "A finding: the naive claim is refuted when all sweeps were removed between two runs."
  },
  {
   "property": "C54",
   "status": "proved",
   "theorems": [
    "C54_remove_system_from_all_sweeps",
    "C54_missing_system_stops_removal",
    "C54_remove_from_some_sweeps_refuted"
   ],
   "note": "Proved when every sweep has the system; refuted otherwise."
  },
  {
   "property": "C55",
   "status": "proved",
   "theorems": [
    "C55_rerun_without_reset_keeps_old",
    "C55_rerun_keeps_both_refuted"
   ],
   "note": "A finding: the documented behaviour is refuted, the actual one is proved for every one-sweep run."
  },
  {
   "property": "C56",
   "status": "proved",
   "theorems": [
    "C56_read_cost"
   ],
   "note": ""
  },
  {
   "property": "C57",
   "status": "proved",
   "theorems": [
    "C57_system_sees_first_protocol"
   ],
   "note": ""
  },
  {
   "property": "C58",
   "status": "proved",
   "theorems": [
    "C58_fixed_never_recomputed",
    "C58_first_request_refuted"
   ],
   "note": ""
  },
  {
   "property": "C59",
   "status": "proved",
   "theorems": [
    "C59_parity"
   ],
   "note": ""
  },
  {
   "property": "C60",
   "status": "proved",
   "theorems": [
    "C60_unitary_evolution",
    "C60_displacement_squeeze",
    "C60_spin_rotation"
   ],
   "note": ""
  },
  {
   "property": "C61",
   "status": "proved",
   "theorems": [
    "C61_matPower",
    "C61_operatorPow"
   ],
   "note": ""
  },
  {
   "property": "C62",
   "status": "proved",
   "theorems": [
    "C62_density",
    "C62_ket",
    "C62_uncertainty"
   ],
   "note": "The expectation value used by standardDev is modelled without its rounding of small imaginary parts (12 decimals), which does not matter for Hermitian operators in exact arithmetic."
  },
  {
   "property": "C63",
   "status": "proved",
   "theorems": [
    "C63_computational",
    "C63_basis",
    "C63_agree",
    "C63_phase",
    "C63_zero",
    "C63_documented_refuted"
   ],
   "note": ""
  },
  {
   "property": "C64",
   "status": "proved",
   "theorems": [
    "C64_kets",
    "C64_reduced",
    "C64_stabilisers",
    "C64_circuit",
    "C64_unknown_refuted"
   ],
   "note": ""
  },
  {
   "property": "C65",
   "status": "proved",
   "theorems": [
    "C65_exponential",
    "C65_channel",
    "C65_evolution"
   ],
   "note": ""
  },
  {
   "property": "C66",
   "status": "proved",
   "theorems": [
    "C66_group",
    "C66_commuting",
    "C66_conserved",
    "C66_eigenstate",
    "C66_local",
    "C66_open_semigroup",
    "C66_stationary",
    "C66_open_closed"
   ],
   "note": ""
  },
  {
   "property": "C67",
   "status": "proved",
   "theorems": [
    "C67_qubit_rotation",
    "C67_rotation_angles",
    "C67_spin_rotation",
    "C67_phases",
    "C67_rounded",
    "C67_rounded_refuted"
   ],
   "note": "The identities are about the exact cosine and sine (rotationBy); C67_rounded bounds what the code's rounding to 15 decimals changes and C67_rounded_refuted shows that the rounded gates are not all unitary. Floating-point error is not modelled."
  },
  {
   "property": "C68",
   "status": "proved",
   "theorems": [
    "C68_UJC"
   ],
   "note": ""
  },
  {
   "property": "C69",
   "status": "proved",
   "theorems": [
    "C69_nbar",
    "C69_nbar_monotone",
    "C69_polarisation",
    "C69_documented_refuted",
    "C69_relation",
    "C69_edges"
   ],
   "note": ""
  },
  {
   "property": "C70",
   "status": "proved",
   "theorems": [
    "C70_distance",
    "C70_triangle",
    "C70_measurement",
    "C70_range",
    "C70_unitary",
    "C70_pure",
    "C70_errors"
   ],
   "note": ""
  },
  {
   "property": "C71",
   "status": "proved",
   "theorems": [
    "C71_sorted",
    "C71_hermitian",
    "C71_errors"
   ],
   "note": ""
  },
  {
   "property": "C72",
   "status": "proved",
   "theorems": [
    "C72_norm"
   ],
   "note": ""
  },
  {
   "property": "C73",
   "status": "proved",
   "theorems": [
    "C73_value",
    "C73_range",
    "C73_ket",
    "C73_unitary",
    "C73_additive",
    "C73_bipartite"
   ],
   "note": ""
  },
  {
   "property": "C74",
   "status": "proved",
   "theorems": [
    "C74_minimum",
    "C74_ket",
    "C74_product",
    "C74_separable",
    "C74_local",
    "C74_errors"
   ],
   "note": ""
  },
  {
   "property": "C75",
   "status": "proved",
   "theorems": [
    "C75_step",
    "C75_evolution"
   ],
   "note": ""
  },
  {
   "property": "C76",
   "status": "proved",
   "theorems": [
    "C76_spectrum",
    "C76_steady",
    "C76_limit"
   ],
   "note": ""
  },
  {
   "property": "C77",
   "status": "proved",
   "theorems": [
    "C77_components",
    "C77_symplectic",
    "C77_ket",
    "C77_populations",
    "C77_documented_refuted"
   ],
   "note": ""
  },
  {
   "property": "C78",
   "status": "proved",
   "theorems": [
    "C78_wigner",
    "C78_ket",
    "C78_parity",
    "C78_rotation",
    "C78_linear",
    "C78_vacuum",
    "C78_triangle"
   ],
   "note": ""
  },
  {
   "property": "C79",
   "status": "proved",
   "theorems": [
    "C79_raises",
    "C79_value",
    "C79_documented_refuted"
   ],
   "note": ""
  },
  {
   "property": "C80",
   "status": "proved",
   "theorems": [
    "C80_spacings",
    "C80_otherBeta",
    "C80_poisson",
    "C80_range",
    "C80_orthogonal",
    "C80_unitary",
    "C80_symplectic_documented_refuted"
   ],
   "note": ""
  },
  {
   "property": "C81",
   "status": "proved",
   "theorems": [
    "C81_covariance",
    "C81_free_evolution",
    "C81_parity_action",
    "C81_group",
    "C81_parityEXP_number",
    "C81_parityEXP"
   ],
   "note": ""
  },
  {
   "property": "C82",
   "status": "proved",
   "theorems": [
    "C82_assign",
    "C82_whole",
    "C82_alone",
    "C82_follows",
    "C82_nested",
    "C82_deepStale",
    "C82_shape",
    "C82_normalised",
    "C82_protocol",
    "C82_product_refuted",
    "C82_nestedFollows_refuted",
    "C82_level_refuted",
    "C82_atomic_refuted",
    "C82_protocolLevel_refuted"
   ],
   "note": ""
  },
  {
   "property": "C83",
   "status": "proved",
   "theorems": [
    "C83_keys",
    "C83_add",
    "C83_addList",
    "C83_addProtocol",
    "C83_otherSystem",
    "C83_run",
    "C83_runOrder",
    "C83_qEvolutions",
    "C83_runTwice",
    "C83_own",
    "C83_runSystems",
    "C83_remove",
    "C83_removeProtocol",
    "C83_removeSwept",
    "C83_removeKeeps",
    "C83_removeProtocolSwept",
    "C83_removeProtocolKeeps",
    "C83_removeAbsent",
    "C83_removeAfterRun",
    "C83_removeByName",
    "C83_replaceByName",
    "C83_silent",
    "C83_listProtocol",
    "C83_removable_refuted",
    "C83_sweptElsewhere_refuted",
    "C83_byNameOrder_refuted",
    "C83_ownAlways_refuted",
    "C83_evolutions_refuted"
   ],
   "note": ""
  },
  {
   "property": "C84",
   "status": "proved",
   "theorems": [
    "C84_nbar",
    "C84_rate",
    "C84_rateReads",
    "C84_assigned",
    "C84_ownTemperature",
    "C84_handed",
    "C84_notHanded",
    "C84_system",
    "C84_kept",
    "C84_constructor",
    "C84_constructorRateFirst",
    "C84_opFirst",
    "C84_opTwice",
    "C84_opSet",
    "C84_collapse",
    "C84_lost",
    "C84_back",
    "C84_again",
    "C84_sameNumber",
    "C84_handsOver",
    "C84_toldRate",
    "C84_toldBath",
    "C84_lastOnly",
    "C84_nonneg",
    "C84_follows_refuted",
    "C84_toldOwn_refuted",
    "C84_collapse_refuted"
   ],
   "note": ""
  },
  {
   "property": "C85",
   "status": "proved",
   "theorems": [
    "C85_total",
    "C85_hermitian",
    "C85_exchange",
    "C85_parity",
    "C85_call",
    "C85_errors",
    "C85_outside",
    "C85_operator",
    "C85_levels",
    "C85_default_refuted",
    "C85_given_refuted",
    "C85_toolboxJC",
    "C85_toolboxRabi",
    "C85_toolboxDicke",
    "C85_frequency"
   ],
   "note": ""
  },
  {
   "property": "C86",
   "status": "proved",
   "theorems": [
    "C86_time",
    "C86_timeBefore",
    "C86_timeUnset",
    "C86_timeElsewhere",
    "C86_add",
    "C86_break",
    "C86_run",
    "C86_again",
    "C86_frozen",
    "C86_protocolSimulation_refuted",
    "C86_ownSize_refuted",
    "C86_samples_refuted",
    "C86_twoSimulations_refuted",
    "C86_subSystemStep_refuted",
    "C86_noSystem_refuted",
    "C86_update_refuted"
   ],
   "note": ""
  },
  {
   "property": "C87",
   "status": "proved",
   "theorems": [
    "C87_alone",
    "C87_stored",
    "C87_sweep",
    "C87_parallel",
    "C87_states",
    "C87_timed_refuted"
   ],
   "note": ""
  },
  {
   "property": "C88",
   "status": "proved",
   "theorems": [
    "C88_end",
    "C88_unknown",
    "C88_sweep",
    "C88_single",
    "C88_forgets",
    "C88_others",
    "C88_others_first",
    "C88_trajectories",
    "C88_empty_refuted"
   ],
   "note": ""
  },
  {
   "property": "C89",
   "status": "proved",
   "theorems": [
    "C89_memory",
    "C89_positive",
    "C89_default",
    "C89_off",
    "C89_on",
    "C89_wrong",
    "C89_leak",
    "C89_fork",
    "C89_results",
    "C89_coreCount_refuted",
    "C89_oneCore_refuted"
   ],
   "note": ""
  },
  {
   "property": "C90",
   "status": "proved",
   "theorems": [
    "C90_chain",
    "C90_append",
    "C90_pair",
    "C90_last",
    "C90_dropped",
    "C90_ambiguous_refuted",
    "C90_assoc_refuted",
    "C90_minus",
    "C90_plusMinus_refuted"
   ],
   "note": ""
  },
  {
   "property": "C91",
   "status": "proved",
   "theorems": [
    "C91_created",
    "C91_unknown",
    "C91_auxiliary",
    "C91_raises",
    "C91_rejected",
    "C91_typo_refuted",
    "C91_order_refuted",
    "C91_session"
   ],
   "note": ""
  },
  {
   "property": "C92",
   "status": "proved",
   "theorems": [
    "C92_own",
    "C92_forward",
    "C92_unknown",
    "C92_session",
    "C92_masked",
    "C92_early",
    "C92_own_refuted",
    "C92_time",
    "C92_time_read",
    "C92_time_count",
    "C92_alias_read_refuted",
    "C92_parameters"
   ],
   "note": ""
  },
  {
   "property": "C93",
   "status": "proved",
   "theorems": [
    "C93_terms",
    "C93_history",
    "C93_first_two",
    "C93_three_refuted",
    "C93_endless",
    "C93_stale",
    "C93_stale_refuted",
    "C93_remove",
    "C93_lost_refuted",
    "C93_named"
   ],
   "note": ""
  },
  {
   "property": "C94",
   "status": "proved",
   "theorems": [
    "C94_flat",
    "C94_nested",
    "C94_removed_refuted",
    "C94_late_refuted",
    "C94_inner_refuted",
    "C94_deep_refuted"
   ],
   "note": ""
  },
  {
   "property": "C95",
   "status": "proved",
   "theorems": [
    "C95_fresh",
    "C95_history",
    "C95_removeTerm_refuted",
    "C95_stale_refuted",
    "C95_order_refuted"
   ],
   "note": ""
  },
  {
   "property": "C96",
   "status": "proved",
   "theorems": [
    "C96_sum",
    "C96_chain",
    "C96_copy",
    "C96_times",
    "C96_same",
    "C96_minus",
    "C96_order_refuted",
    "C96_zero_refuted",
    "C96_empty_refuted"
   ],
   "note": ""
  },
  {
   "property": "C97",
   "status": "proved",
   "theorems": [
    "C97_density",
    "C97_sparse",
    "C97_returns_refuted"
   ],
   "note": ""
  }
 ]
}