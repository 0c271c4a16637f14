{
 "claims": [
  {
   "property": "C01",
   "status": "proved",
   "theorems": [
    "C01_name_roundtrip"
   ],
   "note": "All shapes and all valid tuples, fresh tables."
  },
  {
   "property": "C02",
   "status": "proved",
   "theorems": [
    "C02_index_bijection"
   ],
   "note": "All shapes."
  },
  {
   "property": "C03",
   "status": "proved",
   "theorems": [
    "C03_basis_enumeration"
   ],
   "note": "All shapes, fresh circuit."
  },
  {
   "property": "C04",
   "status": "partial",
   "theorems": [
    "C04_lookup_history_sound_partial",
    "C04_short_history_order_partial",
    "C04_order_refuted",
    "C04_malformed_refuted",
    "C04_foreign_name_refuted"
   ],
   "note": "Soundness of every cached answer after any history (C04_lookup_history_sound_partial) and enumeration order while histories are short (C04_short_history_order_partial) are proved; the full statement is false of the code: refutations C04_order_refuted, C04_malformed_refuted, C04_foreign_name_refuted."
  },
  {
   "property": "C05",
   "status": "partial",
   "theorems": [
    "C05_gate_acts_on_its_channels_partial",
    "C05_last_pairs_misplaced",
    "C05_refuted",
    "C05_history_refuted"
   ],
   "note": "Proved for every node placed on channels for which the tensor list is correct; false of the code for (h>=2, v=0): C05_refuted, C05_history_refuted, and what the code does instead: C05_last_pairs_misplaced."
  },
  {
   "property": "C06",
   "status": "proved",
   "theorems": [
    "C06_photon_conservation"
   ],
   "note": "All shapes, channels, matrices."
  },
  {
   "property": "C07",
   "status": "proved",
   "theorems": [
    "C07_unitary_gates"
   ],
   "note": "All shapes, channels, unitary 2x2 matrices."
  },
  {
   "property": "C08",
   "status": "proved",
   "theorems": [
    "C08_gates_compose",
    "C08_identity_gate"
   ],
   "note": "All shapes; composition below the cut-off, identity matrix."
  },
  {
   "property": "C09",
   "status": "partial",
   "theorems": [
    "C09_single_photon_row",
    "C09_single_photon_partial",
    "C09_refuted"
   ],
   "note": "The code applies the transposed matrix (C09_refuted); row statement and the statement for symmetric matrices are proved."
  },
  {
   "property": "C10",
   "status": "partial",
   "theorems": [
    "C10_overfull_pairs_identity_partial"
   ],
   "note": "Proved for pairs of channels where C05 holds."
  },
  {
   "property": "C11",
   "status": "proved",
   "theorems": [
    "C11_builtin_nodes_unitary",
    "C11_builtin_circuits_unitary"
   ],
   "note": "All angles; all built-in nodes; whole circuits of them."
  },
  {
   "property": "C12",
   "status": "proved",
   "theorems": [
    "C12_swap_exchanges",
    "C12_polarizing_beamsplitter"
   ],
   "note": "All shapes; swap and polarizing beam splitter."
  },
  {
   "property": "C13",
   "status": "partial",
   "theorems": [
    "C13_phase_shift_partial",
    "C13_refuted"
   ],
   "note": "Proved below the cut-off with the partner channel; refuted above it (C13_refuted)."
  },
  {
   "property": "C14",
   "status": "partial",
   "theorems": [
    "C14_mix_50_50_partial",
    "C14_length_two_refuted"
   ],
   "note": "Proved for L >= 3 (two photons fit); for L = 2 refuted (C14_length_two_refuted)."
  },
  {
   "property": "C15",
   "status": "partial",
   "theorems": [
    "C15_actual_probabilities",
    "C15_when_correct",
    "C15_refuted"
   ],
   "note": "False of the code: probabilities are those of C15_actual_probabilities; C15_when_correct characterises when the request is met; C15_refuted."
  },
  {
   "property": "C16",
   "status": "proved",
   "theorems": [
    "C16_roundtrip",
    "C16_vector_roundtrip"
   ],
   "note": "All shapes and well-formed states."
  },
  {
   "property": "C17",
   "status": "proved",
   "theorems": [
    "C17_reduced_matrices_suffice",
    "C17_evaluate"
   ],
   "note": "All states, all circuits of optical nodes."
  },
  {
   "property": "C18",
   "status": "proved",
   "theorems": [
    "C18_evaluation_is_the_matrix",
    "C18_norm_preserved"
   ],
   "note": "All circuits of optical nodes."
  },
  {
   "property": "C19",
   "status": "partial",
   "theorems": [
    "C19_two_calls",
    "C19_one_by_one",
    "C19_whole_circuit",
    "C19_decreasing_list_drops_nodes",
    "C19_threshold_refuted"
   ],
   "note": "Proved for increasing lists at threshold 0 (and unconditionally for what is executed); decreasing lists drop nodes (C19_decreasing_list_drops_nodes) and thresholds > 0 break splitting (C19_threshold_refuted)."
  },
  {
   "property": "C20",
   "status": "proved",
   "theorems": [
    "C20_outcome_distribution",
    "C20_not_normalised",
    "C20_total_weight",
    "C20_does_not_raise"
   ],
   "note": "All shapes, channel lists, collections. C20_not_normalised: what happens to states that are not exactly normalised."
  },
  {
   "property": "C21",
   "status": "proved",
   "theorems": [
    "C21_collapse"
   ],
   "note": "All shapes, channel lists, collections."
  },
  {
   "property": "C22",
   "status": "proved",
   "theorems": [
    "C22_repeat"
   ],
   "note": "All shapes, channel lists, collections."
  },
  {
   "property": "C23",
   "status": "proved",
   "theorems": [
    "C23_identifiers"
   ],
   "note": "All shapes, channel lists, collections."
  },
  {
   "property": "C24",
   "status": "proved",
   "theorems": [
    "C24_classical_function",
    "C24_set_classical_channels",
    "C24_objects_agree"
   ],
   "note": "All user functions (a parameter, including functions that write into their argument list), all collections. C24_objects_agree shows that the model with object identities (HeapModel) gives the same results when no state shares its classical list with another one or with a recorded result."
  },
  {
   "property": "C25",
   "status": "partial",
   "theorems": [
    "C25_input_unchanged_partial",
    "C25_classical_first",
    "C25_refuted"
   ],
   "note": "On a heap model with object identities: proved for every run whose first node is not a classical node (C25_input_unchanged_partial). False of the code when the first node is classical: the caller's own State objects get the new classical values (C25_classical_first says exactly what happens, C25_refuted is a witness). The input collection's reference to the circuit, which every optical node overwrites, is not part of the model."
  },
  {
   "property": "C26",
   "status": "partial",
   "theorems": [
    "C26_recorded_values_partial",
    "C26_record_is_overwritten",
    "C26_refuted"
   ],
   "note": "On a heap model with object identities: proved while the classical functions run before the next copying node do not write into their argument, or the list is not a recorded one (C26_recorded_values_partial). False of the code otherwise: a measurement records the list object that stays the state's classical list (C26_record_is_overwritten, C26_refuted)."
  },
  {
   "property": "C27",
   "status": "proved",
   "theorems": [
    "C27_per_state",
    "C27_does_not_raise",
    "C27_phase_shift",
    "C27_wave_plate"
   ],
   "note": "All control functions, all collections."
  },
  {
   "property": "C28",
   "status": "partial",
   "theorems": [
    "C28_reshape",
    "C28_total_weight",
    "C28_evaluates_next",
    "C28_same_sizes",
    "C28_compound",
    "C28_sequential",
    "C28_channel_order_refuted",
    "C28_no_classical_refuted"
   ],
   "note": "Reshaping (C28_reshape, C28_total_weight), evaluation of the next circuit (C28_evaluates_next), equal sizes (C28_same_sizes, C28_sequential) and compound circuits (C28_compound) are proved when photon numbers fit and, for growing circuits, weights are at or above a positive threshold. False of the code otherwise: a next circuit with another channel_0_left reads the channels mirrored (C28_channel_order_refuted); surplus classical channels are not dropped when the next circuit has none (C28_no_classical_refuted). Nodes after a bridge are never executed (part of C28_evaluates_next)."
  },
  {
   "property": "C29",
   "status": "proved",
   "theorems": [
    "C29_dictionary",
    "C29_order",
    "C29_initial_state",
    "C29_identifier_first",
    "C29_identifier_missing",
    "C29_filters"
   ],
   "note": "All operation arguments."
  },
  {
   "property": "C30",
   "status": "proved",
   "theorems": [
    "C30_default_collection",
    "C30_fresh_state",
    "C30_evaluate_without_collection"
   ],
   "note": "All shapes. C30_evaluate_without_collection: what the first node of a circuit evaluated without a collection gets."
  },
  {
   "property": "C31",
   "status": "partial",
   "theorems": [
    "C31_changing_the_copy_partial",
    "C31_changing_the_original_partial",
    "C31_history_refuted",
    "C31_measured_refuted"
   ],
   "note": "On a heap model with object identities: all sequences of updates of the copy (resp. original) that do not write into recorded result lists (C31_changing_the_copy_partial, C31_changing_the_original_partial). False of the code for writes into recorded results, which are shared (C31_history_refuted, C31_measured_refuted)."
  },
  {
   "property": "C32",
   "status": "partial",
   "theorems": [
    "C32_distinct_partial",
    "C32_no_other_state",
    "C32_refuted",
    "C32_different_objects",
    "C32_same_object_refuted"
   ],
   "note": "Proved when the generated identifiers are distinct (C32_distinct_partial, C32_no_other_state) and the State objects are different (C32_different_objects); refuted otherwise (C32_refuted, C32_same_object_refuted)."
  },
  {
   "property": "C33",
   "status": "proved",
   "theorems": [
    "C33_density_matrix",
    "C33_trace_is_weight",
    "C33_conjugated_refuted"
   ],
   "note": "Hermitian, PSD, trace, purity; note the matrix is the conjugate of the textbook one (C33_conjugated_refuted)."
  },
  {
   "property": "C34",
   "status": "proved",
   "theorems": [
    "C34_reduce",
    "C34_all_channels",
    "C34_does_not_raise",
    "C34_empty_collection_refuted",
    "C34_partial_trace"
   ],
   "note": "All non-empty collections; reduce is the partial trace of the density matrix. Empty collections keep their shape (C34_empty_collection_refuted)."
  },
  {
   "property": "C35",
   "status": "proved",
   "theorems": [
    "C35_extend",
    "C35_default_is_vacuum",
    "C35_total_weight",
    "C35_does_not_raise"
   ],
   "note": "All collections, distributions and identifier oracles that do not clash."
  },
  {
   "property": "C36",
   "status": "proved",
   "theorems": [
    "C36_adjust_length",
    "C36_does_not_raise",
    "C36_too_short_refuted"
   ],
   "note": "When photon numbers fit; otherwise C36_too_short_refuted."
  },
  {
   "property": "C37",
   "status": "partial",
   "theorems": [
    "C37_clean_up",
    "C37_total_weight",
    "C37_classical_values_refuted",
    "C37_small_components_refuted",
    "C37_weight_lost",
    "C37_label_order"
   ],
   "note": "Complete description of clean_up (C37_clean_up) and weight conservation when no weight is below the threshold (C37_total_weight); in general at most the threshold is lost for each state that disappears (C37_weight_lost); the order in which Python's set enumerates the initial states does not matter (C37_label_order); 'same classical values' is false of the code (C37_classical_values_refuted, as its docstring warns), and so is the removal of low-probability components: they may stay with amplitude 0 in a state that is not renormalized (C37_small_components_refuted)."
  },
  {
   "property": "C38",
   "status": "proved",
   "theorems": [
    "C38_inner",
    "C38_inner_laws",
    "C38_outer",
    "C38_tensor",
    "C38_tensor_raises",
    "C38_tensor_inner",
    "C38_tensor_list",
    "C38_tensor_dict"
   ],
   "note": "All well-formed states."
  },
  {
   "property": "C39",
   "status": "partial",
   "theorems": [
    "C39_shift",
    "C39_c_shift",
    "C39_c_shift_separate",
    "C39_accepted",
    "C39_evaluate_shift",
    "C39_evaluate_c_shift",
    "C39_does_not_raise",
    "C39_same_channel_refuted",
    "C39_empty_refuted"
   ],
   "note": "shift and c_shift move amplitudes along the documented map, are unitary (c_shift: if no pair uses the same channel twice), and evaluation of the node on any collection has that effect. Refuted: control = target is accepted although documented as an error and gives a non-unitary matrix; empty lists raise."
  },
  {
   "property": "C40",
   "status": "partial",
   "theorems": [
    "C40_shift_direct",
    "C40_c_shift_direct",
    "C40_shift",
    "C40_reversed",
    "C40_separate_partial",
    "C40_does_not_raise",
    "C40_refuted"
   ],
   "note": "shift = shift_direct proved. c_shift = c_shift_direct proved if no channel is both a control and a target; in general c_shift is c_shift_direct with both lists reversed (C40_reversed), and C40_refuted shows that for chained pairs the two nodes give different states. The comparison assumes that no component probability lies strictly between 0 and the threshold (the matrix version drops those)."
  },
  {
   "property": "C41",
   "status": "partial",
   "theorems": [
    "C41_transition",
    "C41_single",
    "C41_commuting_partial",
    "C41_later_channels_refuted",
    "C41_maximum_power_refuted",
    "C41_order_refuted",
    "C41_state",
    "C41_evaluate",
    "C41_evaluate_partial",
    "C41_does_not_raise",
    "C41_photon_number",
    "C41_accepted",
    "C41_channel_numbers_refuted",
    "C41_converges",
    "C41_limit_unique"
   ],
   "note": "Refuted as documented: the LAST Hamiltonian acts first (C41_order_refuted for every power >= 2), operator_channels of later Hamiltonians are ignored, and power p only gives the terms up to p-1. Proved instead: the transition matrix is the composition, in reversed order, of the first p terms of each exponential series written with ladder operators on wave functions (C41_transition, C41_single), in the documented order when the series commute (C41_commuting_partial); the node transforms every state of a collection accordingly (C41_state, C41_evaluate: with the matrix from which the coefficients whose absolute value, rounded to the nearest multiple of 1/10000, has a square not above the threshold are removed; C41_evaluate_partial: without cut if no coefficient is that small), does not raise for existing channels, and conserves the photon number when every string does. C41_accepted: which lists of Hamiltonians are accepted; C41_channel_numbers_refuted: operator channels are not only labels, a + or - at a channel number that is not below the number of different channels raises. C41_converges: for every accepted list of Hamiltonians the operators converge, when the number of terms grows, to the exponentials: the solutions of psi' = H psi after one unit of time each (explicit error bounds for quadratic Hamiltonians: C53). C41_limit_unique: these equations have only one solution. Missing: negative channel numbers."
  },
  {
   "property": "C42",
   "status": "partial",
   "theorems": [
    "C42_probability",
    "C42_range",
    "C42_total",
    "C42_no_signalling_A",
    "C42_no_signalling_B",
    "C42_quantum_conjugated",
    "C42_quantum_partial",
    "C42_quantum_refuted",
    "C42_entanglement_check_refuted",
    "C42_measurement",
    "C42_measured_weight",
    "C42_gate",
    "C42_gate_ready",
    "C42_gate_and_detectors",
    "C42_optics",
    "C42_experiment",
    "C42_gate_superposition_refuted"
   ],
   "note": "Any number of pairs, any unitary settings, any positive quantumness: probability of an outcome, range, total and marginals (C42_probability, _range, _total, _no_signalling_*), and end to end: the circuit gate - optical elements behind the sides - detectors reports for every input state every outcome with weight (input weight x that probability) (C42_experiment; its parts C42_gate, C42_optics, C42_measurement). Amplitudes must be 0 or reach the positive threshold. Missing: the claim 'quantumness 1 = quantum mechanics' holds for linear settings on one side of each pair (C42_quantum_partial) and is refuted in general (C42_quantum_refuted: circular analysers). The gate on superpositions in the pair channels does not keep the norm (C42_gate_superposition_refuted); the entanglement check (line 311) is refuted for one pair."
  },
  {
   "property": "C43",
   "status": "partial",
   "theorems": [
    "C43_overlap",
    "C43_quick_overlap",
    "C43_overlap_squared",
    "C43_quick_states",
    "C43_quick_conserves",
    "C43_delay_states",
    "C43_delay_conserves",
    "C43_delays_add",
    "C43_delays_commute",
    "C43_state_weights_refuted"
   ],
   "note": "Both time-delay gates modelled in ColumnModel.v. Overlap: 1 at delay 0, even, decreasing in the delay (C43_overlap, C43_quick_overlap), and the squared overlap (C43_overlap_squared). The exact resulting states of both gates are given for every delayable collection (C43_quick_states, C43_delay_states), the weights of the groups are conserved per label (C43_quick_conserves, C43_delay_conserves), delays add and commute (C43_delays_add, C43_delays_commute). False of the code for the cumulative_probability stored in the states: every photon state gets the weight of the whole state (C43_state_weights_refuted). Partial because the positive theorems need a collection meeting `delayable` (normalised states with nonzero components)."
  },
  {
   "property": "C44",
   "status": "partial",
   "theorems": [
    "C44_single_photon_states",
    "C44_condense_restores",
    "C44_group_roundtrip_partial",
    "C44_columns_roundtrip_partial",
    "C44_single_component",
    "C44_phase_refuted",
    "C44_other_components_dropped"
   ],
   "note": "Split into columns, single-photon states and condensing modelled in ColumnModel.v. Photon numbers are always restored (C44_condense_restores), and a whole normalised state with at least two nonzero components is returned (C44_group_roundtrip_partial, C44_columns_roundtrip_partial). False of the code for a state with one component: the phase of its amplitude is lost (C44_single_component, C44_phase_refuted); the input check of single_photon_states never raises (C44_other_components_dropped)."
  },
  {
   "property": "C45",
   "status": "partial",
   "theorems": [
    "C45_one_pair",
    "C45_full_and_none",
    "C45_unitary_refuted"
   ],
   "note": "Strength 0 and 1 and the entries for one pair proved; C45_unitary_refuted: for every strength strictly between 0 and 1 and all sizes the matrix is not unitary."
  },
  {
   "property": "C46",
   "status": "proved",
   "theorems": [
    "C46_algebraic_bound",
    "C46_tsirelson",
    "C46_value",
    "C46_superquantum",
    "C46_limit"
   ],
   "note": "From the pair probabilities of C42: Tsirelson's bound for quantumness 1, the algebraic bound 4, the value at the standard angles and its limit."
  },
  {
   "property": "C47",
   "status": "partial",
   "theorems": [
    "C47_measurement",
    "C47_strings",
    "C47_strings_merged",
    "C47_strings_refuted"
   ],
   "note": "C47_measurement: exact outcome probabilities, weights, classical values, results and new groups for every collection that carries photon-resolved groups, whenever the decimal strings by which the code sorts the outcomes tell them apart (outcomes_clear: at most ten photon numbers, or one measured channel, or eleven numbers and two channels). C47_strings: this condition is exact. C47_strings_merged: otherwise outcomes with the same string are reported as one; C47_strings_refuted: (|11,1> + |1,11>)/sqrt 2, where both outcomes have probability 1/2 and all resulting states report the same outcome. Partial because the hypothesis `carries` describes collections as the code builds them."
  },
  {
   "property": "C48",
   "status": "proved",
   "theorems": [
    "C48_elements_exist",
    "C48_permanent",
    "C48_one_photon"
   ],
   "note": "C48_permanent for every sequence of two-channel elements and every pair of tuples below the photon-number bound; above the bound elements are not applied at all (C05_, finding 22)."
  },
  {
   "property": "C49",
   "status": "partial",
   "theorems": [
    "C49_experiment",
    "C49_outcomes_total",
    "C49_same_arrival",
    "C49_two_photons",
    "C49_hong_ou_mandel",
    "C49_counting",
    "C49_without_delays",
    "C49_weights"
   ],
   "note": "C49_experiment: the full circuit delay, elements, measurement from plain states to outcome weights; C49_outcomes_total / C49_weights: conservation; C49_same_arrival / C49_without_delays: agreement with the circuit without delays; C49_counting: no elements; C49_two_photons / C49_hong_ou_mandel: closed formulas; C49_hong_ou_mandel_runs evaluates one experiment for all delays and widths. Partial: one delay node in front, measured channels whose outcome strings are distinct (exact condition in C47_strings), one-photon amplitudes 0 or above the threshold (otherwise the code drops them, see C13)."
  },
  {
   "property": "C50",
   "status": "proved",
   "theorems": [
    "C50_histogram",
    "C50_total",
    "C50_names",
    "C50_strings_distinct",
    "C50_other_values_refuted",
    "C50_merged_values",
    "C50_two_digits_refuted",
    "C50_after_measurement",
    "C50_digit",
    "C50_any_values"
   ],
   "note": "C50_histogram / C50_total / C50_names / C50_strings_distinct for ordinary collections and any listing of sets; C50_after_measurement: measurement node followed by the histogram shows the Born probabilities. C50_any_values: the histogram for arbitrary (negative, fractional, large) classical values: every value is shown as the remainder modulo L of its part before the decimal point (C50_digit: exactly one digit), and equal strings are counted together. C50_merged_values says exactly which values are merged; C50_other_values_refuted: values that are not photon numbers below the length of the Fock state are merged (3 is counted as 0, 1/2 as 0); C50_two_digits_refuted: with channel 0 on the right and two-digit photon numbers the string is the name of other photon numbers."
  },
  {
   "property": "C51",
   "status": "proved",
   "theorems": [
    "C51_correlations",
    "C51_range",
    "C51_mirrored",
    "C51_right_refuted"
   ],
   "note": "C51_correlations and C51_range for channel 0 on the left. C51_mirrored: with channel 0 on the right (one-digit photon numbers) the value for (a,b) is that of the channels counted from the other end; C51_right_refuted: channels that always agree get the value -1."
  },
  {
   "property": "C52",
   "status": "proved",
   "theorems": [
    "C52_histogram",
    "C52_experiment"
   ],
   "note": "C52_histogram for all collections that carry groups with weights in [0,1] and amplitudes of norm 1 whose states show the same photon numbers; C52_experiment: these hypotheses hold after the whole experiment of C49, and the entries are the interference probabilities (same restrictions as C49 on that circuit); C52_hong_ou_mandel evaluates the histogram for all delays and widths."
  },
  {
   "property": "C53",
   "status": "partial",
   "theorems": [
    "C53_quadratic",
    "C53_wave_plate",
    "C53_wave_plate_limit",
    "C53_circuit",
    "C53_classical_control",
    "C53_classical_control_does_not_raise",
    "C53_overfull_refuted"
   ],
   "note": "Proved on all pairs with fewer than L photons: C53_quadratic (any list of quadratic Hamiltonians, explicit error bound against the optical gate with the matrix exp(G1)exp(G2)...), C53_wave_plate and C53_wave_plate_limit (the wave plate from Hamiltonians against the wave plate node: explicit bound, and convergence when the number of terms grows), C53_circuit (the states after the node are close to what the wave plate node makes of them, with the error of 25 terms plus the coefficient cut), C53_classical_control (each state with the angles of its own classical channels) and C53_classical_control_does_not_raise. Refuted for pairs with L or more photons (C53_overfull_refuted: the two matrices differ by at least 1/3). Missing: nothing beyond the refuted case; the constructor's checks of the channel numbers and negative channel numbers are not modelled."
  },
  {
   "property": "C54",
   "status": "partial",
   "theorems": [
    "C54_no_channel",
    "C54_all_channels",
    "C54_after_delay",
    "C54_selected",
    "C54_all_channels_unusable_refuted"
   ],
   "note": "Proved: no channels (C54_no_channel), all channels (C54_all_channels), some channels of a collection without photon resolution (C54_selected, up to the order of the states), some channels after a time delay (C54_after_delay). Refuted: a collection whose width was set on all channels cannot be used afterwards, because every later delay, selective width or photon-resolved measurement raises KeyError (C54_all_channels_unusable_refuted). Missing: some channels after an arbitrary sequence of spectral nodes, the lists with channel numbers out of range."
  },
  {
   "property": "C55",
   "status": "partial",
   "theorems": [
    "C55_first_state_only",
    "C55_empty_raises",
    "C55_experiment",
    "C55_correlation_value",
    "C55_correlation_range",
    "C55_boxes",
    "C55_independent_of_input_refuted",
    "C55_plotted"
   ],
   "note": "Proved for template states that are number states: C55_first_state_only, C55_empty_raises, C55_experiment (outcomes of node, elements and measurement), C55_boxes (the deprecated functions: correlations between every two channels), C55_correlation_value and C55_correlation_range (any histogram), C55_plotted (plot_correlations shows the same). Refuted: C55_independent_of_input_refuted (label, weight and the other channels of the first input state do appear in the outcome). Missing: template states in superposition and settings whose squared amplitudes fall below the collection's threshold without being zero."
  },
  {
   "property": "C56",
   "status": "partial",
   "theorems": [
    "C56_superposition",
    "C56_unknown_component",
    "C56_unknown_component_refuted",
    "C56_dictionary",
    "C56_classical_values",
    "C56_probability",
    "C56_bool_state",
    "C56_constructor",
    "C56_constructor_unknown_component_refuted",
    "C56_setters_keep_valid",
    "C56_setter_valid_refuted",
    "C56_equals_number",
    "C56_equals_state",
    "C56_no_components",
    "C56_equality_refuted",
    "C56_collection",
    "C56_from_dict",
    "C56_invalid_raises",
    "C56_collection_valid_refuted",
    "C56_other_keys",
    "C56_lists"
   ],
   "note": "Proved: list setter (C56_superposition; C56_unknown_component for up to 10 photon numbers), dictionary setter, classical and probability setters, constructor (C56_constructor, iff), bool(state), validity kept by the setters, comparison with numbers and states (C56_equals_number, C56_equals_state), collections from dictionaries (C56_collection, C56_from_dict, C56_other_keys, C56_invalid_raises). Refuted: two-digit names of the wrong length are accepted (C56_unknown_component_refuted), the constructor accepts unknown names (C56_constructor_unknown_component_refuted), the setter accepts amplitudes that make the state invalid (C56_setter_valid_refuted), different states compare equal (C56_equality_refuted), bool(collection) and collection_from_dict accept invalid states (C56_collection_valid_refuted). Missing: values of the wrong Python type, states of another circuit in a dictionary."
  },
  {
   "property": "C57",
   "status": "partial",
   "theorems": [
    "C57_experiment",
    "C57_one_leg",
    "C57_single_photon",
    "C57_widths_refuted",
    "C57_outcomes_total",
    "C57_weights"
   ],
   "note": "C57_experiment: evaluates and gives every outcome the probability of the sum over histories, for any number of delay / pulse-width nodes with elements between them; C57_one_leg: agreement with C49; C57_single_photon: closed formula for two delays; C57_interferometer_runs: Mach-Zehnder visibility. C57_outcomes_total / C57_weights: the probabilities of all outcomes are non-negative and add up to one, and the weight of every input state is kept, whenever the last change of timing is a delay (which sets one width for all photons). Refuted in general: with a pulse width set in one arm only the probabilities add up to 9/8 (C57_widths_refuted; the overlap of pulses of different width lacks the normalisation). Partial: measured channels whose outcome strings are distinct (exact condition in C47_strings), one-photon amplitudes 0 or above the threshold, pulse width not set in all channels at once (C54 shows that this raises later)."
  },
  {
   "property": "C58",
   "status": "partial",
   "theorems": [
    "C58_fock_node",
    "C58_matrix_roundtrip",
    "C58_product",
    "C58_optical_node",
    "C58_rejected_sizes",
    "C58_size_refuted",
    "C58_non_linear_type_refuted",
    "C58_nonlinear_node"
   ],
   "note": "Proved: C58_optical_node (2x2 matrices), C58_rejected_sizes (exactly which sizes raise), C58_fock_node, C58_matrix_roundtrip (any threshold), C58_product (threshold 0), C58_nonlinear_node. Refuted: 'raises if the matrix is not 2x2' (C58_size_refuted: the check uses `and`; a third row is ignored, two rows of length one are accepted and make every evaluation raise) and the documented node type 'optical non-linear' (C58_non_linear_type_refuted). Missing: Fock matrices whose size is not that of the basis."
  },
  {
   "property": "C59",
   "status": "partial",
   "theorems": [
    "C59_order",
    "C59_apart",
    "C59_draws",
    "C59_shown",
    "C59_beam_splitters_refuted",
    "C59_empty_page_refuted",
    "C59_order_refuted",
    "C59_shown_refuted",
    "C59_spacing_refuted"
   ],
   "note": "C59_order, C59_apart: whenever draw succeeds and no run of nodes with the same combined gate is longer than two per column of a line. C59_draws: it succeeds on every such circuit with at least two nodes per line, existing channels and no empty circuit. C59_shown: all nodes on channels stay visible if there are no combined gates, or there is one circuit without bridges whose gates are at least one column shorter than a line. Refuted: C59_beam_splitters_refuted (eleven non-polarizing beam splitters in a row raise), C59_order_refuted (a gate longer by one node is drawn on top of the next node), C59_empty_page_refuted, C59_shown_refuted (a page is deleted after ten nodes without channel), C59_spacing_refuted (more nodes per line than units). Not modelled: the drawing commands of matplotlib, texts and colours, negative channel numbers, the check of the keys of node_info."
  },
  {
   "property": "C60",
   "status": "partial",
   "theorems": [
    "C60_nodes",
    "C60_links",
    "C60_both_sides",
    "C60_marks",
    "C60_kinds",
    "C60_link_text",
    "C60_labels",
    "C60_draws",
    "C60_room",
    "C60_selection",
    "C60_selection_refuted",
    "C60_kinds_refuted",
    "C60_empty_station_refuted",
    "C60_joined_gates_refuted",
    "C60_marks_refuted"
   ],
   "note": "Proved for all circuits and stations: C60_nodes, C60_links, C60_both_sides, C60_kinds, C60_link_text, C60_marks (markers of one circuit are different), C60_labels (channels belong to one station), C60_draws (every circuit has a node at the station, no too long combined gates), C60_selection, C60_room (the filtered circuit keeps an empty column after every linked node). Refuted: C60_selection_refuted (a list of stations is ignored, all are drawn), C60_kinds_refuted (with three stations the kind differs between the two ends of a link), C60_empty_station_refuted (a station without nodes raises), C60_joined_gates_refuted (gates separated by another station's node are joined; a drawable circuit can then not be drawn by station), C60_marks_refuted (markers are repeated in a chain of circuits). Not modelled: labels given by the user, the title, the mutation of the caller's dictionary (missing lists are added)."
  },
  {
   "property": "C61",
   "status": "partial",
   "theorems": [
    "C61_experiment",
    "C61_weights",
    "C61_two_photons",
    "C61_one_photon",
    "C61_quick_is_full_refuted"
   ],
   "note": "C61_experiment: the full circuit quick delay, elements, measurement from plain states to the weight of every outcome, and the two values of the delay each group stems from; C61_weights: conservation; C61_two_photons / C61_hong_ou_mandel_runs: two photons; C61_one_photon: one photon in two channels. Refuted: C61_quick_is_full_refuted (one photon in two arms: the full delay leaves visibility 1/2, the quick delay 1/4: the probabilities are mixed with the square of the overlap). Partial: one delay node in front, measured channels whose outcome strings are distinct (exact condition in C47_strings), amplitudes between photon numbers 0 or above the threshold, and for superpositions no phases on photon numbers routed with certainty (the code loses such phases, finding 72)."
  },
  {
   "property": "C62",
   "status": "proved",
   "theorems": [
    "C62_branches",
    "C62_exact",
    "C62_density",
    "C62_only_the_mixture_matters",
    "C62_mixture",
    "C62_weights",
    "C62_probability",
    "C62_program"
   ],
   "note": "C62_program: circuits built by the calls of the package; C62_branches: the branches of the result for every threshold all amplitudes stay above, C62_exact: a small enough threshold always exists; C62_density, C62_probability: density matrices and probabilities of classical values; C62_only_the_mixture_matters, C62_mixture: linearity; C62_weights: conservation. The specification (CircuitSpec.v) is a fold over branches that does not use the model. Not covered by this property: spectral nodes (C43, C47, C49, C57, C61), PR gates (C42, C46), bridges (C28), thresholds that cut amplitudes (C19_threshold_refuted)."
  },
  {
   "property": "C63",
   "status": "partial",
   "theorems": [
    "C63_no_signalling",
    "C63_programs",
    "C63_phase_shift_refuted",
    "C63_calls"
   ],
   "note": "C63_no_signalling for arbitrary nodes, C63_programs and C63_calls for circuits as built by the calls: the calls of each party name channels of that party only, including shifts, controlled shifts and matrices for the whole state that happen in these channels. Refuted for phase_shift_single_channel: C63_phase_shift_refuted (the shift of a channel of Bob acts on the pair of it and channel 0, and does nothing if the two hold as many photons as the length or more: Bob's detector shows with certainty what Alice did with her photon)."
  },
  {
   "property": "C64",
   "status": "proved",
   "theorems": [
    "C64_two_steps",
    "C64_order",
    "C64_twice"
   ],
   "note": "C64_two_steps, C64_order, C64_twice; the results are compared by all density matrices per initial state and classical values."
  },
  {
   "property": "C65",
   "status": "proved",
   "theorems": [
    "C65_elements",
    "C65_measurement"
   ],
   "note": "C65_elements, C65_measurement."
  },
  {
   "property": "C66",
   "status": "proved",
   "theorems": [
    "C66_compose",
    "C66_undo"
   ],
   "note": "C66_compose, C66_undo. The order of the product follows the transposition of C09."
  },
  {
   "property": "C67",
   "status": "proved",
   "theorems": [
    "C67_deferred"
   ],
   "note": "C67_deferred; photon_controlled is proved unitary."
  },
  {
   "property": "C68",
   "status": "proved",
   "theorems": [
    "C68_bell_test",
    "C68_correlation",
    "C68_chsh"
   ],
   "note": "C68_bell_test, C68_correlation, C68_chsh: through the model of the circuit-building calls (ProgramModel) and evaluate_circuit, for every small enough threshold."
  },
  {
   "property": "C69",
   "status": "proved",
   "theorems": [
    "C69_teleportation",
    "C69_success"
   ],
   "note": "C69_teleportation, C69_success: the whole circuit of the notebook, including its three classical functions. The notebook reads channels 7 and 8 instead of 6 and 7; channel 8 has to start at 0 (hypothesis)."
  },
  {
   "property": "C70",
   "status": "proved",
   "theorems": [
    "C70_ghz",
    "C70_histograms"
   ],
   "note": "C70_ghz, C70_histograms: the whole circuit of the notebook."
  },
  {
   "property": "C71",
   "status": "proved",
   "theorems": [
    "C71_compound",
    "C71_weights"
   ],
   "note": "C71_compound, C71_weights (PropCompound) over CompoundSpec; the border where the order of the channels in the names differs and the step to a circuit without classical channels are excluded: there the code deviates, see C28_channel_order_refuted and C28_no_classical_refuted. C71_case: three channels, length 3 to two channels, length 2."
  },
  {
   "property": "C72",
   "status": "proved",
   "theorems": [
    "C72_tsirelson",
    "C72_product",
    "C72_reached",
    "C72_calls",
    "C72_product_calls"
   ],
   "note": "C72_tsirelson (bound 2 sqrt 2), C72_product (bound 2 for product inputs), C72_reached (the Bell test of the test-suite reaches the bound); C72_calls and C72_product_calls state the bounds for circuits built by calls that name channels of one party only. Local operations include shifts, controlled shifts and matrices for the whole state that happen in the channels of a party. C72_case, C72_calls_case: the hypotheses hold for the Bell test; C72_product_case: two photons with arbitrary polarisations."
  },
  {
   "property": "C73",
   "status": "partial",
   "theorems": [
    "C73_accepted",
    "C73_valid_circuit",
    "C73_refused",
    "C73_unavailable_channel_refuted",
    "C73_beam_splitters_refuted"
   ],
   "note": "C73_accepted / C73_refused: exactly which calls and programs are refused; C73_valid_circuit: valid calls build a circuit that evaluates on every collection with the meaning of the calls. Not as documented ('exception if the requested channels are not available'): C73_unavailable_channel_refuted (a control channel one above the last is accepted, every evaluation then raises), C73_beam_splitters_refuted (the polarizing beam splitter does not look at two of its channels, the non-polarizing one accepts the same pair twice). Negative channel numbers, which Python counts from the end: C79 for single elements; not part of the programs here."
  },
  {
   "property": "C74",
   "status": "proved",
   "theorems": [
    "C74_undo",
    "C74_inside"
   ],
   "note": "C74_undo: every state comes back exactly (same_branches); C74_inside: inside any circuit. Controlled wave plates must take angle and phase from different channels."
  },
  {
   "property": "C75",
   "status": "proved",
   "theorems": [
    "C75_no_new_photons",
    "C75_detected",
    "C75_photon_number",
    "C75_phases_between_numbers"
   ],
   "note": "C75_no_new_photons, C75_photon_number, C75_detected, C75_phases_between_numbers; shifts, which create photons, are excluded. C75_case: two collections that differ in such a phase."
  },
  {
   "property": "C76",
   "status": "proved",
   "theorems": [
    "C76_helstrom",
    "C76_similar",
    "C76_continuous",
    "C76_certain",
    "C76_reached"
   ],
   "note": "C76_helstrom: the bound for all circuits, states and (randomised) guesses; C76_similar, C76_continuous: events; C76_certain: certainty needs orthogonal states; C76_reached: the bound is attained for photons of linear polarisation. Example C76_case: overlap 1/2."
  },
  {
   "property": "C77",
   "status": "proved",
   "theorems": [
    "C77_overlap",
    "C77_no_information",
    "C77_no_cloning",
    "C77_numbers_copied"
   ],
   "note": "C77_overlap, C77_no_cloning, C77_no_information: all circuits of the nodes of C62; C77_numbers_copied: the orthogonal case is possible. C77_case: two polarisations no circuit copies; C77_undisturbed_case: a measurement that disturbs neither."
  },
  {
   "property": "C78",
   "status": "partial",
   "theorems": [
    "C78_which_lists",
    "C78_custom_node",
    "C78_one_after_the_other",
    "C78_evaluation",
    "C78_whole_circuit",
    "C78_whole_circuit_refuted",
    "C78_mixed_list_refuted"
   ],
   "note": "Proved: C78_which_lists (exactly which lists have a matrix), C78_custom_node, C78_one_after_the_other (product), C78_evaluation (evaluating the list is the matrix, for any order of the list), C78_whole_circuit. False of the code, proved as such: C78_whole_circuit_refuted (a circuit of one node with a matrix of the user has a matrix for the list [0] but get_fock_state_matrix() raises: len('all') is 3) and C78_mixed_list_refuted (lists that mix elements and such nodes evaluate but have no matrix)."
  },
  {
   "property": "C79",
   "status": "partial",
   "theorems": [
    "C79_not_negative",
    "C79_no_channel",
    "C79_from_the_end_partial",
    "C79_one_channel",
    "C79_phase_shift",
    "C79_same_channel_twice",
    "C79_same_channel_refuted",
    "C79_first_two_misplaced",
    "C79_swap_refuted"
   ],
   "note": "Proved: C79_from_the_end_partial (all pairs of different channels except channels 1 and 0 with one of them counted from the end), C79_one_channel, C79_phase_shift (all channels), C79_no_channel (out of range raises), C79_not_negative (agreement with the model of natural numbers). False of the code: C79_same_channel_twice says what two numbers for the same channel do (not refused; the element acts on that channel and channel 0), C79_same_channel_refuted: channels 2 and -1 of three move a photon to channel 0; C79_first_two_misplaced: channels 1 and 0 are exchanged if one is counted from the end; C79_swap_refuted: swap(0, -1) exchanges channels 1 and 2 of three."
  },
  {
   "property": "C80",
   "status": "partial",
   "theorems": [
    "C80_listed_measurement",
    "C80_no_list",
    "C80_listed_part",
    "C80_all_listed",
    "C80_none_listed",
    "C80_plain",
    "C80_plain_refuted"
   ],
   "note": "Proved for photon-resolved collections (C80_listed_measurement and the comparison with the measurement without a list). False of the code for collections that are not photon-resolved: the list is ignored there (C80_plain, C80_plain_refuted). Model: all measurement nodes of a circuit share one list."
  },
  {
   "property": "C81",
   "status": "partial",
   "theorems": [
    "C81_rows",
    "C81_wrong_columns",
    "C81_not_more_rows",
    "C81_more_rows_refuted"
   ],
   "note": "Proved for every number of rows and columns (C81_rows, C81_wrong_columns, C81_not_more_rows). False of the code for more rows than basis states: not refused, rows wrap around and overwrite (C81_more_rows_refuted)."
  },
  {
   "property": "C82",
   "status": "partial",
   "theorems": [
    "C82_no_more_products",
    "C82_program",
    "C82_exchange",
    "C82_calls",
    "C82_phase_shift_refuted",
    "C82_threshold_refuted"
   ],
   "note": "Proved for all circuits of local operations and detectors when no threshold removes a component (C82_no_more_products), and for all programs of C62 at every small threshold (C82_program, C82_calls, C82_exchange). False of the code for phase_shift on one channel (C82_phase_shift_refuted) and for thresholds that remove components (C82_threshold_refuted)."
  },
  {
   "property": "C83",
   "status": "proved",
   "theorems": [
    "C83_capacity",
    "C83_perfect",
    "C83_reached"
   ],
   "note": "For all circuits of C62 at every small threshold; the bound is reached by counting photons (C83_reached)."
  }
 ]
}