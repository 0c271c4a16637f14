# What Print Assumptions lists for each theorem

Generated by `tools/gen_assumptions.py` by running Print Assumptions on every theorem of MANIFEST.json.

## Closed under the global context (no axioms)

C01_name_roundtrip, C02_index_bijection, C03_basis_enumeration, C04_lookup_history_sound_partial, C04_short_history_order_partial, C04_order_refuted, C04_malformed_refuted, C04_foreign_name_refuted, C29_dictionary, C29_order, C29_initial_state, C29_identifier_first, C29_identifier_missing, C47_strings, C50_names, C50_strings_distinct, C50_two_digits_refuted, C54_no_channel, C56_dictionary, C56_classical_values, C56_equals_number, C56_equals_state, C56_no_components, C56_lists, C58_optical_node, C58_rejected_sizes, C58_size_refuted, C58_non_linear_type_refuted, C59_order, C59_apart, C59_draws, C59_shown, C59_beam_splitters_refuted, C59_empty_page_refuted, C59_order_refuted, C59_shown_refuted, C59_spacing_refuted, C60_nodes, C60_links, C60_both_sides, C60_marks, C60_kinds, C60_link_text, C60_labels, C60_draws, C60_room, C60_selection, C60_selection_refuted, C60_kinds_refuted, C60_empty_station_refuted, C60_joined_gates_refuted, C60_marks_refuted

## `ClassicalDedekindReals.sig_forall_dec`

C30_default_collection, C31_changing_the_copy_partial, C31_changing_the_original_partial, C32_different_objects, C38_outer, C38_tensor_raises, C38_tensor_list, C38_tensor_dict, C39_accepted, C39_empty_refuted, C56_unknown_component, C56_unknown_component_refuted

## `ClassicalDedekindReals.sig_forall_dec`, `FunctionalExtensionality.functional_extensionality_dep`

C15_when_correct, C16_roundtrip, C16_vector_roundtrip, C29_filters, C30_fresh_state, C31_history_refuted, C32_distinct_partial, C32_no_other_state, C32_refuted, C32_same_object_refuted, C33_density_matrix, C33_trace_is_weight, C35_extend, C35_default_is_vacuum, C35_total_weight, C35_does_not_raise, C36_adjust_length, C36_does_not_raise, C38_inner, C38_inner_laws, C38_tensor, C38_tensor_inner, C39_shift, C39_c_shift, C39_c_shift_separate, C39_same_channel_refuted, C42_gate_ready, C50_merged_values, C50_digit, C55_correlation_value, C55_correlation_range, C56_superposition, C56_probability, C56_bool_state, C56_constructor, C56_constructor_unknown_component_refuted, C56_setters_keep_valid, C56_setter_valid_refuted, C56_equality_refuted, C56_collection, C56_from_dict, C56_other_keys, C62_probability, C82_exchange

## `ClassicalDedekindReals.sig_forall_dec`, `ClassicalDedekindReals.sig_not_dec`, `FunctionalExtensionality.functional_extensionality_dep`

C05_gate_acts_on_its_channels_partial, C05_last_pairs_misplaced, C05_refuted, C05_history_refuted, C06_photon_conservation, C07_unitary_gates, C08_gates_compose, C08_identity_gate, C09_single_photon_row, C09_single_photon_partial, C09_refuted, C10_overfull_pairs_identity_partial, C17_reduced_matrices_suffice, C17_evaluate, C18_evaluation_is_the_matrix, C18_norm_preserved, C19_two_calls, C19_one_by_one, C19_whole_circuit, C19_decreasing_list_drops_nodes, C20_outcome_distribution, C20_not_normalised, C20_total_weight, C20_does_not_raise, C21_collapse, C22_repeat, C23_identifiers, C24_classical_function, C24_set_classical_channels, C24_objects_agree, C25_input_unchanged_partial, C25_classical_first, C25_refuted, C26_recorded_values_partial, C26_record_is_overwritten, C26_refuted, C27_per_state, C27_does_not_raise, C28_reshape, C28_total_weight, C28_evaluates_next, C28_same_sizes, C28_compound, C28_sequential, C28_channel_order_refuted, C28_no_classical_refuted, C30_evaluate_without_collection, C31_measured_refuted, C33_conjugated_refuted, C34_reduce, C34_all_channels, C34_does_not_raise, C34_empty_collection_refuted, C34_partial_trace, C36_too_short_refuted, C37_clean_up, C37_total_weight, C37_weight_lost, C37_label_order, C37_classical_values_refuted, C37_small_components_refuted, C39_evaluate_shift, C39_evaluate_c_shift, C39_does_not_raise, C40_shift_direct, C40_c_shift_direct, C40_shift, C40_reversed, C40_separate_partial, C40_does_not_raise, C40_refuted, C41_transition, C41_single, C41_commuting_partial, C41_later_channels_refuted, C41_maximum_power_refuted, C41_order_refuted, C41_state, C41_evaluate, C41_evaluate_partial, C41_does_not_raise, C41_photon_number, C41_accepted, C41_channel_numbers_refuted, C42_gate, C42_gate_superposition_refuted, C43_delay_states, C43_delay_conserves, C43_delays_add, C43_delays_commute, C43_state_weights_refuted, C44_single_photon_states, C44_condense_restores, C44_group_roundtrip_partial, C44_columns_roundtrip_partial, C44_single_component, C44_phase_refuted, C44_other_components_dropped, C45_one_pair, C45_full_and_none, C45_unitary_refuted, C48_elements_exist, C48_permanent, C48_one_photon, C50_histogram, C50_total, C50_other_values_refuted, C50_after_measurement, C50_any_values, C51_correlations, C51_range, C51_mirrored, C51_right_refuted, C52_histogram, C53_classical_control_does_not_raise, C54_all_channels, C54_after_delay, C54_selected, C55_first_state_only, C55_empty_raises, C56_invalid_raises, C56_collection_valid_refuted, C57_one_leg, C58_fock_node, C58_matrix_roundtrip, C58_product, C58_nonlinear_node, C62_branches, C62_exact, C62_density, C62_only_the_mixture_matters, C62_mixture, C62_weights, C63_no_signalling, C64_two_steps, C64_order, C64_twice, C65_elements, C65_measurement, C66_compose, C66_undo, C67_deferred, C71_compound, C71_weights, C72_tsirelson, C72_product, C76_helstrom, C76_similar, C76_continuous, C76_certain, C77_overlap, C77_no_information, C77_no_cloning, C78_which_lists, C78_custom_node, C78_one_after_the_other, C78_evaluation, C78_whole_circuit, C78_whole_circuit_refuted, C78_mixed_list_refuted, C79_not_negative, C79_no_channel, C79_from_the_end_partial, C79_one_channel, C79_same_channel_twice, C79_same_channel_refuted, C79_first_two_misplaced, C79_swap_refuted, C81_rows, C81_wrong_columns, C81_not_more_rows, C81_more_rows_refuted, C82_no_more_products, C82_threshold_refuted, C83_capacity, C83_perfect

## `ClassicalDedekindReals.sig_forall_dec`, `ClassicalDedekindReals.sig_not_dec`, `Classical_Prop.classic`, `FunctionalExtensionality.functional_extensionality_dep`

C11_builtin_nodes_unitary, C11_builtin_circuits_unitary, C12_swap_exchanges, C12_polarizing_beamsplitter, C13_phase_shift_partial, C13_refuted, C14_mix_50_50_partial, C14_length_two_refuted, C15_actual_probabilities, C15_refuted, C19_threshold_refuted, C27_phase_shift, C27_wave_plate, C41_converges, C41_limit_unique, C42_probability, C42_range, C42_total, C42_no_signalling_A, C42_no_signalling_B, C42_quantum_conjugated, C42_quantum_partial, C42_quantum_refuted, C42_entanglement_check_refuted, C42_measurement, C42_measured_weight, C42_gate_and_detectors, C42_optics, C42_experiment, C43_overlap, C43_quick_overlap, C43_overlap_squared, C43_quick_states, C43_quick_conserves, C46_algebraic_bound, C46_tsirelson, C46_value, C46_superquantum, C46_limit, C47_measurement, C47_strings_merged, C47_strings_refuted, C49_experiment, C49_outcomes_total, C49_same_arrival, C49_two_photons, C49_hong_ou_mandel, C49_counting, C49_without_delays, C49_weights, C52_experiment, C53_quadratic, C53_wave_plate, C53_wave_plate_limit, C53_circuit, C53_classical_control, C53_overfull_refuted, C54_all_channels_unusable_refuted, C55_experiment, C55_boxes, C55_independent_of_input_refuted, C55_plotted, C57_experiment, C57_single_photon, C57_widths_refuted, C57_outcomes_total, C57_weights, C61_experiment, C61_weights, C61_two_photons, C61_one_photon, C61_quick_is_full_refuted, C62_program, C63_programs, C63_phase_shift_refuted, C63_calls, C68_bell_test, C68_correlation, C68_chsh, C69_teleportation, C69_success, C70_ghz, C70_histograms, C72_reached, C72_calls, C72_product_calls, C73_accepted, C73_valid_circuit, C73_refused, C73_unavailable_channel_refuted, C73_beam_splitters_refuted, C74_undo, C74_inside, C75_no_new_photons, C75_detected, C75_photon_number, C75_phases_between_numbers, C76_reached, C77_numbers_copied, C79_phase_shift, C80_listed_measurement, C80_no_list, C80_listed_part, C80_all_listed, C80_none_listed, C80_plain, C80_plain_refuted, C82_program, C82_calls, C82_phase_shift_refuted, C83_reached
