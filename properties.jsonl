{"id": "C01", "title": "Component names and photon numbers translate back and forth without loss", "statement": "For a fresh circuit, looking up the name of a valid tuple of photon numbers and then the photon numbers of that name gives the tuple back; different tuples have different names; a name has (number of channels) x (digits of L-1) digits.", "quantifier": "every length_of_fock_state L>=1, number of channels, channel-0-left/right setting, and every valid tuple", "why_tests_cant": "the number of (L, channels, tuple) combinations is unbounded; multi-digit padding and reversal only interact for large L", "anchors": ["src/fock_state_circuit/nodes/nodelist/optical_values_component_names.py:ComponentNames.__getitem__", "src/fock_state_circuit/nodes/nodelist/optical_values_component_names.py:OpticalValues.__getitem__"]}
{"id": "C02", "title": "Basis index is a bijection with channel 0 least significant", "statement": "index_of and at_index are mutually inverse between the valid tuples and 0..L^n-1, and the index of a tuple is sum of photon_number(c)*L^c.", "quantifier": "every L>=1, n and every valid tuple / index below L^n", "why_tests_cant": "unbounded basis sizes", "anchors": ["src/fock_state_circuit/nodes/nodelist/optical_values_component_names.py:index_of", "src/fock_state_circuit/nodes/nodelist/optical_values_component_names.py:at_index", "src/fock_state_circuit/nodes/nodelist/optical_values_component_names.py:_values_from_index"]}
{"id": "C03", "title": "The circuit basis lists every component exactly once in index order", "statement": "On a fresh circuit the keys of the basis are exactly the L^n valid component names, each once, the i-th being the name at index i.", "quantifier": "every L>=1, n, left/right setting", "why_tests_cant": "unbounded basis sizes", "anchors": ["src/fock_state_circuit/nodes/nodelist/optical_values_component_names.py:ComponentNames.__iter__", "src/fock_state_circuit/nodes/nodelist/optical_values_component_names.py:keys", "src/fock_state_circuit/circuit.py:basis"]}
{"id": "C04", "title": "Look-up history never changes what a name or a tuple means", "statement": "After any sequence of look-ups, membership tests and basis enumerations on one circuit, translating a valid name or tuple and enumerating the basis still give the answers a fresh circuit gives.", "quantifier": "every finite sequence of API look-ups (including membership tests on arbitrary digit strings) on the shared name tables", "why_tests_cant": "the tables are caches mutated by every look-up, so the property is over histories; tests run short ones", "anchors": ["src/fock_state_circuit/nodes/nodelist/optical_values_component_names.py:ComponentNames", "src/fock_state_circuit/nodes/nodelist/optical_values_component_names.py:OpticalValues"]}
{"id": "C05", "title": "A two-channel gate acts on exactly the channels it is given", "statement": "A gate added on channels (h,v) changes the photon numbers of channels h and v only, as the two-channel gate would with h first and v second; every other channel is untouched and only labels the block.", "quantifier": "every circuit size, every pair of distinct channels, every optical matrix, every pair of input/output components", "why_tests_cant": "needs all channel pairs of all circuit sizes and all Fock components", "anchors": ["src/fock_state_circuit/nodes/nodelist/node_list.py:_translate_channels_numbers_to_tensor_list", "src/fock_state_circuit/circuit.py:__generate_single_node_fock_matrix_from_optical_matrix"]}
{"id": "C06", "title": "Optical gates conserve photon number", "statement": "The transition amplitude of an optical node between two components with a different total photon number is zero.", "quantifier": "every L, n, 2x2 optical matrix, valid tensor list, pair of components", "why_tests_cant": "amplitudes over all components of all sizes", "anchors": ["src/fock_state_circuit/circuit.py:__generate_single_node_fock_matrix_from_optical_matrix"]}
{"id": "C07", "title": "Unitary optical matrices give unitary Fock matrices", "statement": "If the 2x2 optical matrix is unitary then the Fock matrix built for the whole circuit is unitary, including the truncated high photon-number part, so it preserves the norm of every state.", "quantifier": "every L, n, unitary 2x2 matrix, channel pair, state vector", "why_tests_cant": "unitarity is an identity between infinitely many matrices; tests check a few floats", "anchors": ["src/fock_state_circuit/circuit.py:__generate_single_node_fock_matrix_from_optical_matrix"]}
{"id": "C08", "title": "Optical gates on the same channel pair compose like their optical matrices", "statement": "Putting two optical nodes after each other on the same channels has the same Fock matrix as one node with the product of the optical matrices (below the photon-number cut-off, and the identity matrix gives the identity).", "quantifier": "every L, pair of 2x2 matrices, components with fewer than L photons in the pair", "why_tests_cant": "identity over all matrices and all photon numbers", "anchors": ["src/fock_state_circuit/circuit.py:__generate_fock_state_matrix"]}
{"id": "C09", "title": "A single photon is transformed by the optical matrix itself", "statement": "For a component with one photon in the gate's channels the transition amplitudes are the entries of the 2x2 optical matrix.", "quantifier": "every L>=2, matrix, spectators", "why_tests_cant": "all matrices and spectators", "anchors": ["src/fock_state_circuit/circuit.py:__generate_single_node_fock_matrix_from_optical_matrix", "src/fock_state_circuit/nodes/custom_nodes.py:custom_optical_node"]}
{"id": "C10", "title": "Pairs of channels holding L or more photons pass a gate unchanged", "statement": "If the two channels of a gate together hold L or more photons the gate acts as the identity on that component (truncation rule).", "quantifier": "every L, matrix and component", "why_tests_cant": "all photon numbers", "anchors": ["src/fock_state_circuit/circuit.py:__generate_single_node_fock_matrix_from_optical_matrix (make_unitary)"]}
{"id": "C11", "title": "Wave plates, phase shifts and mixers are unitary for every angle", "statement": "The optical matrix of wave_plate for any angle and phase is unitary and symmetric; so are all nodes derived from it.", "quantifier": "all real angles and phases, all reflection/transmission ratios", "why_tests_cant": "real-valued parameters", "anchors": ["src/fock_state_circuit/nodes/optical_nodes.py:_generate_generic_optical_matrix", "src/fock_state_circuit/nodes/optical_nodes.py:wave_plate", "src/fock_state_circuit/nodes/optical_nodes.py:mix_generic_refl_transm"]}
{"id": "C12", "title": "swap exchanges the photons of two channels", "statement": "A swap node maps every component (with fewer than L photons in the two channels together) to the component with the two photon numbers exchanged, with amplitude of modulus 1 and no other amplitude.", "quantifier": "all L, channel pairs, components", "why_tests_cant": "all photon numbers", "anchors": ["src/fock_state_circuit/nodes/optical_nodes.py:swap"]}
{"id": "C13", "title": "phase_shift_single_channel multiplies by a phase per photon in that channel only", "statement": "phase_shift on channel c with phase phi multiplies the amplitude of a component with k photons in c by exp(i*k*phi) and does nothing else.", "quantifier": "all phases, channels and components (below the cut-off)", "why_tests_cant": "all photon numbers and real phases", "anchors": ["src/fock_state_circuit/nodes/optical_nodes.py:phase_shift_single_channel"]}
{"id": "C14", "title": "mix_50_50 sends one photon either way with probability one half and bunches pairs", "statement": "One photon entering a 50/50 mixer leaves each output with probability 1/2; for two photons entering one per channel the coincidence amplitude is 0 (Hong-Ou-Mandel).", "quantifier": "all L>=3, spectator contents, channel pairs", "why_tests_cant": "exact cancellation is not decidable with floats", "anchors": ["src/fock_state_circuit/nodes/optical_nodes.py:mix_50_50"]}
{"id": "C15", "title": "mix_generic_refl_transm reflects with the requested probability", "statement": "With reflection R and transmission T, R+T=1, a single photon is transmitted (stays in its channel) with probability T and changes channel with probability R.", "quantifier": "all R in [0,1]", "why_tests_cant": "real parameter", "anchors": ["src/fock_state_circuit/nodes/optical_nodes.py:mix_generic_refl_transm", "src/fock_state_circuit/nodes/optical_nodes.py:non_polarizing_beamsplitter"]}
{"id": "C16", "title": "State to vector and back is lossless", "statement": "Writing a state as a vector over the basis and reading it back with set_state_components_from_vector leaves the same amplitude for every component, except that components with probability below the threshold disappear.", "quantifier": "all states, all thresholds", "why_tests_cant": "all vectors/basis sizes", "anchors": ["src/fock_state_circuit/state.py:translate_state_components_to_vector", "src/fock_state_circuit/state.py:set_state_components_from_vector"]}
{"id": "C17", "title": "Photon-number grouping does not change results", "statement": "Evaluating optical nodes with matrices reduced to the photon numbers present in a state ('=N' or '<=N') gives the same output state as with the full Fock matrix.", "quantifier": "all collections, circuits of optical nodes", "why_tests_cant": "all states x all node lists", "anchors": ["src/fock_state_circuit/circuit.py:__apply_node_or_nodes_to_collection", "src/fock_state_circuit/collection_of_states.py:_group_states_together_by_photon_number", "src/fock_state_circuit/state.py:photon_number"]}
{"id": "C18", "title": "Optical evaluation preserves norm, weights and classical data", "statement": "Evaluating unitary optical nodes with threshold 0 preserves each state's norm; in all cases it keeps identifiers and their order, initial_state labels, cumulative probabilities, classical values and measurement history.", "quantifier": "all collections and lists of unitary optical nodes", "why_tests_cant": "all states x all node lists", "anchors": ["src/fock_state_circuit/circuit.py:evaluate_circuit", "src/fock_state_circuit/circuit.py:__apply_node_or_nodes_to_collection"]}
{"id": "C19", "title": "evaluate_circuit on an increasing node list runs exactly those nodes in that order", "statement": "For an increasing list of node indices the output is the result of applying the listed nodes one by one; splitting the list in two successive calls gives the same result.", "quantifier": "all circuits, all node lists", "why_tests_cant": "all circuits and lists; the recursion with optical grouping has several boundary cases", "anchors": ["src/fock_state_circuit/circuit.py:evaluate_circuit"]}
{"id": "C20", "title": "Measurement outcome probabilities are a probability distribution", "statement": "Measuring a normalised state yields one new state per distinct outcome; the cumulative probabilities of the results add up to the cumulative probability of the measured state and each result is normalised.", "quantifier": "all states and channel lists", "why_tests_cant": "all superpositions", "anchors": ["src/fock_state_circuit/circuit.py:_perform_measurement"]}
{"id": "C21", "title": "Measurement writes the observed photon numbers to the classical channels and collapses consistently", "statement": "In every resulting state the classical channels listed contain the photon numbers that every remaining component has in the measured optical channels; other classical channels keep their value and unmeasured coherence is preserved (amplitudes scaled by a common factor).", "quantifier": "all states and channel lists", "why_tests_cant": "all superpositions", "anchors": ["src/fock_state_circuit/circuit.py:_perform_measurement", "src/fock_state_circuit/nodes/measurement_nodes.py:measure_optical_to_classical"]}
{"id": "C22", "title": "Repeating a measurement is deterministic", "statement": "Measuring the same optical channels again on a resulting state gives one state, with the same values, probability one.", "quantifier": "all states and channel lists", "why_tests_cant": "all superpositions", "anchors": ["src/fock_state_circuit/circuit.py:_perform_measurement"]}
{"id": "C23", "title": "Measurement results get distinct identifiers", "statement": "In the collection returned by a measurement node no state is lost: every outcome of every input state is present under its own identifier.", "quantifier": "all collections, any number of outcomes", "why_tests_cant": "marker generation wraps after 26 outcomes, 702 outcomes, ...", "anchors": ["src/fock_state_circuit/circuit.py:evaluate_circuit (measurement branch)", "src/fock_state_circuit/circuit.py:__next_state_marker", "src/fock_state_circuit/circuit.py:__get_identifier_for_measurement"]}
{"id": "C24", "title": "Classical nodes apply the user function to each state's own classical values", "statement": "A classical node replaces in each state the list of classical values by function(values, new_input_values, affected_channels) computed from that state's own values and changes nothing else (it raises if the new list has the wrong length); set_classical_channels writes exactly the listed values to the listed channels.", "quantifier": "all collections, functions, channel lists", "why_tests_cant": "all functions and collections", "anchors": ["src/fock_state_circuit/circuit.py:evaluate_circuit (classical branch)", "src/fock_state_circuit/nodes/classical_nodes.py:classical_channel_function", "src/fock_state_circuit/nodes/classical_nodes.py:set_classical_channels"]}
{"id": "C25", "title": "evaluate_circuit does not modify the collection passed in", "statement": "The input collection (its states, classical values, components) is the same before and after evaluate_circuit.", "quantifier": "all circuits and collections", "why_tests_cant": "aliasing property over all node sequences", "anchors": ["src/fock_state_circuit/circuit.py:evaluate_circuit", "src/fock_state_circuit/collection_of_states.py:copy"]}
{"id": "C26", "title": "The measurement history is immutable", "statement": "The values recorded in measurement_results by a measurement stay what they were at the measurement whatever nodes run later.", "quantifier": "all node sequences after a measurement", "why_tests_cant": "aliasing property over all histories", "anchors": ["src/fock_state_circuit/circuit.py:_perform_measurement", "src/fock_state_circuit/state.py:copy"]}
{"id": "C27", "title": "Classically controlled optical nodes act per state with that state's classical values", "statement": "A controlled node applies, to each state separately, the gate computed from that state's own classical values, independent of the other states in the collection.", "quantifier": "all collections and functions", "why_tests_cant": "all collections", "anchors": ["src/fock_state_circuit/circuit.py:evaluate_circuit (controlled branch)", "src/fock_state_circuit/nodes/controlled_nodes.py"]}
{"id": "C28", "title": "Bridges carry states to the next circuit", "statement": "A bridge extends missing channels with vacuum/zero, drops surplus channels, adapts the Fock length, and then evaluates the next circuit; when the sizes agree it is plain sequential evaluation.", "quantifier": "all pairs of circuits and collections", "why_tests_cant": "all size combinations", "anchors": ["src/fock_state_circuit/circuit.py:evaluate_circuit (bridge branch)", "src/fock_state_circuit/nodes/bridge_nodes.py", "src/fock_state_circuit/compound_circuit.py"]}
{"id": "C29", "title": "Collections behave like dictionaries of states", "statement": "add_state/get_state/delete_state/filter: a state added under a fresh identifier can be read back, others are untouched, deleting removes only the matching ones, filters keep exactly the matching states in order.", "quantifier": "all collections and operation sequences", "why_tests_cant": "all histories", "anchors": ["src/fock_state_circuit/collection_of_states.py:add_state", "src/fock_state_circuit/collection_of_states.py:get_state", "src/fock_state_circuit/collection_of_states.py:delete_state", "src/fock_state_circuit/collection_of_states.py:filter_on_initial_state"]}
{"id": "C30", "title": "The default collection has every basis state once", "statement": "CollectionOfStates(circuit) without input holds L^n states with distinct identifiers, the i-th being the pure basis state i with weight 1 and classical zeros.", "quantifier": "all L, n", "why_tests_cant": "unbounded sizes", "anchors": ["src/fock_state_circuit/collection_of_states.py:initialize_to_default"]}
{"id": "C31", "title": "copy of a state or collection is independent", "statement": "Changing a copied state or collection never changes the original and vice versa.", "quantifier": "all states and update sequences", "why_tests_cant": "aliasing over all histories", "anchors": ["src/fock_state_circuit/state.py:copy", "src/fock_state_circuit/collection_of_states.py:copy"]}
{"id": "C32", "title": "set_collection_as_statistical_mixture keeps every state and its relative weight", "statement": "The mixture contains every listed (state, probability) pair with the probability as weight.", "quantifier": "all lists", "why_tests_cant": "all lists, identifier clashes", "anchors": ["src/fock_state_circuit/collection_of_states.py:set_collection_as_statistical_mixture"]}
{"id": "C33", "title": "Density matrices are Hermitian, positive and have the total weight as trace", "statement": "For every initial state label the density matrix is Hermitian, positive semidefinite, and its trace is the sum over the states of weight times norm.", "quantifier": "all collections", "why_tests_cant": "all superpositions", "anchors": ["src/fock_state_circuit/collection_of_states.py:density_matrix", "src/fock_state_circuit/state.py:outer"]}
{"id": "C34", "title": "reduce keeps the kept channels and the total probability", "statement": "Reducing the collection to a subset of channels keeps photon numbers in the kept channels, sums the probability, and does not let different values in traced-out channels interfere.", "quantifier": "all collections and channel subsets", "why_tests_cant": "all superpositions", "anchors": ["src/fock_state_circuit/collection_of_states.py:reduce"]}
{"id": "C35", "title": "extend adds independent channels", "statement": "Extending a collection with extra channels gives each state the tensor product with the extra state: probabilities multiply, norm is kept, original channels keep position.", "quantifier": "all collections", "why_tests_cant": "all sizes", "anchors": ["src/fock_state_circuit/collection_of_states.py:extend"]}
{"id": "C36", "title": "adjust_length_of_fock_state keeps the physical state", "statement": "Changing the Fock length keeps every component's photon numbers and amplitudes (provided the photon numbers fit).", "quantifier": "all collections and lengths", "why_tests_cant": "all lengths (digit counts change)", "anchors": ["src/fock_state_circuit/collection_of_states.py:adjust_length_of_fock_state"]}
{"id": "C37", "title": "clean_up merges only equal states and keeps total probability", "statement": "clean_up keeps the summed cumulative probability of every initial state and merges only states with the same label, components and classical values. Components below the threshold are removed and the remaining ones renormalized. The result does not depend on the order in which the initial states are treated.", "quantifier": "all collections", "why_tests_cant": "all collections", "anchors": ["src/fock_state_circuit/collection_of_states.py:clean_up"]}
{"id": "C38", "title": "Inner product and tensor product laws", "statement": "inner is conjugate symmetric, inner(s,s) is the squared norm; the tensor product of two states has the product amplitudes and inner products multiply.", "quantifier": "all states", "why_tests_cant": "all superpositions", "anchors": ["src/fock_state_circuit/state.py:inner", "src/fock_state_circuit/state.py:tensor"]}
{"id": "C39", "title": "shift nodes permute the basis", "statement": "shift and c_shift: the Fock matrix is a permutation of the basis: the photon number in each target channel is increased, modulo the length of the Fock state, by the given shift or by the value of the control channel, and nothing else changes; hence it is unitary and evaluation moves amplitudes without changing them.", "quantifier": "all lengths, numbers of channels, lists of targets, shifts and controls", "why_tests_cant": "all sizes", "anchors": ["src/fock_state_circuit/nodes/custom_nodes.py:shift", "src/fock_state_circuit/nodes/custom_nodes.py:c_shift"]}
{"id": "C40", "title": "c_shift and c_shift_direct are the same gate", "statement": "For the same control and target lists the matrix version and the direct version give the same result.", "quantifier": "all control/target lists", "why_tests_cant": "all lists of pairs", "anchors": ["src/fock_state_circuit/nodes/custom_nodes.py:c_shift", "src/fock_state_circuit/nodes/custom_nodes.py:c_shift_direct"]}
{"id": "C41", "title": "Quantum-operator nodes apply the product of exponentials in the documented order", "statement": "The list of Hamiltonians is applied with index 0 first; each as the truncated exponential series of the Hamiltonian in ladder-operator form. The operator channels of a Hamiltonian only say which characters of a string act on the same channel.", "quantifier": "all operator lists", "why_tests_cant": "all operators", "anchors": ["src/fock_state_circuit/quantum_operator_functionality/quantum_operators.py"]}
{"id": "C42", "title": "Popescu-Rohrlich correlations are non-signalling", "statement": "For a pair of PR photons measured behind arbitrary polarisation rotations the outcome probabilities are in [0,1], sum to the weight, and each photon's marginal does not depend on the other's setting or on the quantumness; for quantumness 1 they are the quantum predictions.", "quantifier": "all unitary settings and all quantumness values >= 1", "why_tests_cant": "real parameters", "anchors": ["src/fock_state_circuit/popescu_rohrlich_correlation_functionality/popescu_rohrlich_correlations.py:_probability_from_stokes_vectors", "src/fock_state_circuit/popescu_rohrlich_correlation_functionality/popescu_rohrlich_correlations.py:_measure_collection_with_pr_correlation"]}
{"id": "C43", "title": "Time-delay splitting conserves probability", "statement": "Splitting a photon's amplitude between a delayed and an undelayed state conserves total probability for every delay and pulse width; overlap is 1 at delay 0, symmetric and decreasing in the delay.", "quantifier": "all delays and widths", "why_tests_cant": "real parameters", "anchors": ["src/fock_state_circuit/temporal_and_spectral_gate_functionality/temporal_functions.py:add_quick_time_delay_generic", "src/fock_state_circuit/temporal_and_spectral_gate_functionality/temporal_functions.py:photon_probability_function"]}
{"id": "C44", "title": "Decomposition into single-photon columns is lossless", "statement": "Splitting a component in single-photon states and condensing them again returns the photon numbers, and the boson factor equals the product of square roots of factorials.", "quantifier": "all components", "why_tests_cant": "all photon numbers", "anchors": ["src/fock_state_circuit/temporal_and_spectral_gate_functionality/column_of_states.py:single_photon_states", "src/fock_state_circuit/temporal_and_spectral_gate_functionality/column_of_states.py:generate_single_state_from_column"]}
{"id": "C45", "title": "channel_coupling interpolates between nothing and a controlled shift", "statement": "channel_coupling with strength 0 changes nothing and with strength 1 is c_shift; for one pair and a strength s in between, tuples with control value 0 are unchanged and every other amplitude stays with factor sqrt(1-s) and moves with factor sqrt(s); as documented for a gate, probability should be conserved for every strength.", "quantifier": "all sizes, pairs and strengths", "why_tests_cant": "real parameter and all sizes", "anchors": ["src/fock_state_circuit/nodes/custom_nodes.py:channel_coupling"]}
{"id": "C46", "title": "CHSH values of Popescu-Rohrlich pairs", "statement": "In a CHSH experiment with PR photon pairs quantumness 1 never exceeds 2*sqrt(2), every quantumness above 1 exceeds it for the standard angles, no quantumness exceeds 4, and 4 is approached when the quantumness grows.", "quantifier": "all unitary settings of both sides and all positive quantumness values", "why_tests_cant": "bounds over real parameters and a limit", "anchors": ["src/fock_state_circuit/popescu_rohrlich_correlation_functionality/popescu_rohrlich_correlations.py:_probability_from_stokes_vectors"]}
{"id": "C47", "title": "Measuring partially distinguishable photons", "statement": "Measuring optical channels of a collection with photon timings gives every outcome the probability of multi-photon interference: the sum over all pairs of components and all assignments of photons to detectors, each pair weighted with the overlap of the pulses, divided by the factorials of the photon numbers. The outcome is written to the classical channels and reported in the measurement results, the weights of the resulting groups are the old weights times these probabilities, and in the resulting groups only the measured outcome can be found again.", "quantifier": "all collections of photon-resolved groups, all channels, all outcomes", "why_tests_cant": "sums over all photon assignments, real timings and widths", "anchors": ["src/fock_state_circuit/temporal_and_spectral_gate_functionality/interference_group.py:measure_interference_group", "src/fock_state_circuit/temporal_and_spectral_gate_functionality/interference_group.py:_calculate_probability_for_photon_sequence", "src/fock_state_circuit/temporal_and_spectral_gate_functionality/collection_of_state_columns.py:perform_measurement"]}
{"id": "C48", "title": "Several photons: permanents of the one-photon amplitudes", "statement": "For a circuit of two-channel optical elements the amplitude from one photon-number tuple to another with the same total below the photon number of the circuit is the permanent of the one-photon amplitudes (all ways to assign the incoming photons to the places of the outgoing tuple), divided by the square roots of the factorials of the photon numbers; the one-photon amplitudes are the sum over all ways through the elements and form a unitary matrix.", "quantifier": "all sequences of unitary elements, all sizes, all pairs of tuples with the same total number of photons below the length of the Fock state", "why_tests_cant": "all circuits, matrices and photon numbers", "anchors": ["src/fock_state_circuit/circuit.py:get_fock_state_matrix", "src/fock_state_circuit/nodes/optical_nodes.py", "src/fock_state_circuit/nodes/nodelist/node_list.py"]}
{"id": "C49", "title": "Interference experiments with delayed photons", "statement": "A circuit that delays the photons of some channels, sends the state through optical elements and measures it, evaluates without an error and gives every outcome the probability of multi-photon interference of the delayed photons (elements acting on each photon by its one-photon amplitudes). The probabilities of all outcomes add up to one and the weights of the resulting groups to the weights of the states sent. Without relative delays the probabilities are those of the same circuit without delays; without elements the delays do not matter; two photons on a beam splitter show the Hong-Ou-Mandel dip with the Gaussian overlap of the pulses.", "quantifier": "all collections of normalised states with fewer photons than the length of the Fock state, all sequences of unitary two-channel elements whose amplitudes stay above the threshold, all delays, pulse widths, measured channels and outcomes", "why_tests_cant": "real delays and widths, all circuits, states and photon numbers", "anchors": ["src/fock_state_circuit/circuit.py:evaluate_circuit", "src/fock_state_circuit/temporal_and_spectral_gate_functionality/temporal_functions.py", "src/fock_state_circuit/temporal_and_spectral_gate_functionality/collection_of_state_columns.py", "src/fock_state_circuit/temporal_and_spectral_gate_functionality/interference_group.py"]}
{"id": "C50", "title": "Histograms show the weights of the outcomes", "statement": "plot(..., histo_output_instead_of_plot=True) of an ordinary collection returns one entry per selected initial-state label, each listing every combination of classical values that occurs for the selected labels exactly once, with the sum of the cumulative probabilities of the states with that label and those values; the entries of a label add up to its total weight and are named like the optical components with these photon numbers. After a measurement node the histogram of the written channels shows the Born probabilities. Classical values that are not photon numbers are shown as the remainder modulo the length of the Fock state of their part before the decimal point, and states that show the same are counted together.", "quantifier": "all collections (any real classical values), all channel lists, all label selections, all orders in which Python lists a set", "why_tests_cant": "all collections, weights and channel selections; the order of a set is not specified", "anchors": ["src/fock_state_circuit/visualization/plot.py:plot", "src/fock_state_circuit/visualization/plot.py:_create_state_name_from_list_of_photon_numbers"]}
{"id": "C51", "title": "Correlations between classical channels", "statement": "plot_correlations(..., correlation_output_instead_of_plot=True) returns for every selected label and every pair of channels the weight of the states in which the two channels agree minus the weight of those in which they differ, divided by the total weight of the label. The value is between -1 and 1; it is 1 (-1) exactly if the channels agree (differ) in every state with a positive weight.", "quantifier": "all collections whose classical values are photon numbers, all channel pairs, all label selections, both orders of the channels in names", "why_tests_cant": "all collections and weights", "anchors": ["src/fock_state_circuit/visualization/plot.py:_correlation_from_collection", "src/fock_state_circuit/visualization/plot.py:plot_correlations", "src/fock_state_circuit/visualization/plot.py:_create_list_of_values_from_name"]}
{"id": "C52", "title": "Histograms of photon-resolved collections", "statement": "For a photon-resolved collection (after time delays and a photon-resolved measurement) plot(..., histo_output_instead_of_plot=True) shows for every label and combination of classical values the sum of the weights of the interference groups with this label and these values. After the circuit 'time delay, optical elements, measurement' the histogram of the written channels shows, for every initial label, the detection probabilities of the interfering photons; for two photons on a beam splitter these are the Hong-Ou-Mandel probabilities.", "quantifier": "all collections that carry normalised groups, all channel lists and label selections; all element sequences, delays, pulse widths and input states of the experiment", "why_tests_cant": "all collections, groups, delays and elements", "anchors": ["src/fock_state_circuit/visualization/plot.py:_pre_plot", "src/fock_state_circuit/visualization/plot.py:plot", "src/fock_state_circuit/temporal_and_spectral_gate_functionality/column_of_states.py:generate_single_state_from_column"]}
{"id": "C53", "title": "Wave plates and quadratic gates written with Hamiltonians agree with the optical elements", "statement": "A wave plate built from Hamiltonians (wave_plate_from_hamiltonian) acts like the wave plate element (wave_plate) with the same orientation and phase shift: the amplitudes after the node differ from those after the element by at most the error of the truncated exponential series and of the cut of small coefficients, and the difference of the matrices goes to zero when the number of terms grows. With classical control each state gets the wave plate whose angles are in its own classical channels. More generally a list of Hamiltonians quadratic in the ladder operators acts, up to the error of the series, like the optical gate with the matrix exponential of their coefficients.", "quantifier": "all channel numbers and lengths, pairs of channels, angles, number of terms, input photon numbers and states", "why_tests_cant": "ranges over all angles, photon numbers, dimensions and numbers of terms", "anchors": ["src/fock_state_circuit/nodes/quantum_operator_nodes.py:wave_plate_from_hamiltonian", "src/fock_state_circuit/nodes/quantum_operator_nodes.py:wave_plate_from_hamiltonian_classical_control"]}
{"id": "C54", "title": "Setting the pulse width", "statement": "set_pulse_width(channels, w): without channels the collection is returned unchanged; for all channels every state gets the pulse width w, keeps its time delay (0 if there was none), and nothing else changes; for some of the channels the collection is resolved in photons, the photons in these channels get the width w and the photons in the other channels keep their width (1 if there was none), all time delays, weights, amplitudes, labels and classical values are kept. A collection whose pulse width was set can be delayed and measured afterwards.", "quantifier": "all collections, all channel lists, all widths; also after any time delay on any channels", "why_tests_cant": "the operation regroups every component of every state by photon; the claim ranges over all superpositions, channel subsets and earlier delays", "anchors": ["src/fock_state_circuit/temporal_and_spectral_gate_functionality/temporal_functions.py:set_pulse_width", "src/fock_state_circuit/nodes/spectral_nodes.py:set_pulse_width"]}
{"id": "C55", "title": "No-signalling boxes (deprecated interface)", "statement": "The circuit node create_no_signalling_boxes replaces the collection by the no-signalling pairs built on its first state: running the circuit is the same as running the Popescu-Rohrlich gate with the same boxes on the collection holding only that first state, and on an empty collection it raises. With optical elements and a measurement behind it the outcomes have the probabilities of the boxes' stretched correlations at the settings of the elements. create_collection_with_NS_boxes, the elements, measure_collection_with_NS_boxes and correlations_from_measured_collection_with_NS_boxes return, for every two channels, the mean agreement of the photon numbers, which lies between -1 and 1: the stretched correlation for the horizontal channels of one pair, its opposite for a horizontal and a vertical one, -1 inside one photon, 0 between different pairs; plot_correlations after a measurement shows the same numbers. The documentation claims that the input collection has no influence on the outcome.", "quantifier": "all box lists, stretch factors, elements on the box channels, template states that are number states, weights, channel lists and channel combinations", "why_tests_cant": "ranges over all numbers of boxes, all settings and all stretch factors", "anchors": ["src/fock_state_circuit/nodes/superquantum_nodes.py:create_no_signalling_boxes", "src/fock_state_circuit/popescu_rohrlich_correlation_functionality/popescu_rohrlich_correlations.py:create_collection_with_NS_boxes", "src/fock_state_circuit/popescu_rohrlich_correlation_functionality/popescu_rohrlich_correlations.py:measure_collection_with_NS_boxes", "src/fock_state_circuit/popescu_rohrlich_correlation_functionality/popescu_rohrlich_correlations.py:correlations_from_measured_collection_with_NS_boxes"]}
{"id": "C56", "title": "Creating, changing and comparing states", "statement": "A state built from a dictionary has the given keys and the documented defaults for the others, and the constructor raises exactly for invalid states (probabilities outside 0..1 beyond the threshold, wrong number of classical values, incomplete components). Assigning a list of (name, amplitude) to optical_components gives every named component the sum of its amplitudes and the squared modulus as probability, changes nothing else, and raises for a name that is not a component of the circuit; the other setters store what is given or raise and keep the state valid. bool(state) says whether the state is valid; bool(collection), collection_from_dict and the collection constructor accept exactly valid dictionaries. state == number compares with the number of photons of the largest component; states that differ are not equal.", "quantifier": "all states, dictionaries, lists of components, channel numbers and Fock lengths", "why_tests_cant": "ranges over all dictionaries, superposition lists and component names", "anchors": ["src/fock_state_circuit/state.py:State.__init__", "src/fock_state_circuit/state.py:State.optical_components", "src/fock_state_circuit/state.py:State.__eq__", "src/fock_state_circuit/state.py:State.__bool__", "src/fock_state_circuit/collection_of_states.py:CollectionOfStates.collection_from_dict", "src/fock_state_circuit/collection_of_states.py:CollectionOfStates.__check_valid_dictionary"]}
{"id": "C57", "title": "Delays and pulse widths anywhere in the circuit", "statement": "A circuit may delay the photons of some channels, or set the pulse width of some channels, several times with optical elements in between, and measure at the end. It evaluates without an error, and every outcome has the probability that follows from adding the amplitudes of all histories of the photons (which channel every photon takes between the elements, and what timing it collects there), interfering as far as the pulses overlap. With a single delay this is the experiment of C49; an interferometer with a delay in one arm shows the visibility given by the overlap of the pulses. The probabilities of all outcomes add up to one.", "quantifier": "all collections of normalised states with fewer photons than the length of the Fock state, all sequences of delays, pulse widths and unitary two-channel elements whose amplitudes stay above the threshold, all measured channels and outcomes", "why_tests_cant": "arbitrarily long sequences of delays and elements, real delays and widths, all states and photon numbers", "anchors": ["src/fock_state_circuit/nodes/spectral_nodes.py:time_delay_full", "src/fock_state_circuit/nodes/spectral_nodes.py:set_pulse_width", "src/fock_state_circuit/circuit.py:FockStateCircuit.evaluate_circuit", "src/fock_state_circuit/temporal_and_spectral_gate_functionality/temporal_functions.py", "src/fock_state_circuit/temporal_and_spectral_gate_functionality/collection_of_state_columns.py", "src/fock_state_circuit/temporal_and_spectral_gate_functionality/interference_group.py"]}
{"id": "C58", "title": "Custom nodes given as matrices", "statement": "custom_optical_node adds an element with the given 2x2 matrix to two different channels and raises for every other matrix size or channel list; custom_fock_state_node multiplies the state vector (columns = incoming, rows = outgoing components in the order of the basis) with its matrix, so that a circuit of optical elements can be replaced by one such node with the matrix from get_fock_state_matrix, and two such nodes by one with the matrix product; nonlinear_optical_node changes nothing.", "quantifier": "all matrices, circuit sizes, channels, collections and thresholds", "why_tests_cant": "ranges over all matrices of all sizes and all collections", "anchors": ["src/fock_state_circuit/nodes/custom_nodes.py:custom_optical_node", "src/fock_state_circuit/nodes/custom_nodes.py:custom_fock_state_node", "src/fock_state_circuit/nodes/nonlinear_optical_nodes.py:nonlinear_optical_node", "src/fock_state_circuit/circuit.py:get_fock_state_matrix"]}
{"id": "C59", "title": "The drawing of a circuit", "statement": "draw() of a circuit, or of circuits connected by bridges, puts every node at a place in the figure such that nodes that share a channel are read (page by page, left to right) in the order of execution, nodes of a later circuit come after those of an earlier one, and two nodes in the same column do not overlap: one lies above the other with a free line in between (nodes of one combined gate excepted). It does not fail for any number of nodes, and every node that acts on a channel is visible in the final figure.", "quantifier": "all circuits and chains of circuits of any length, all channels, combined gates, links to other stations, and settings for the number of nodes on a line", "why_tests_cant": "ranges over all circuits; existing tests compare pictures by eye", "anchors": ["src/fock_state_circuit/visualization/draw.py:draw", "src/fock_state_circuit/visualization/draw.py:generate_compound_circuit_settings"]}
{"id": "C60", "title": "Drawing a circuit by station", "statement": "draw_station() shows for every station exactly the nodes that act on its channels (and the bridges), in order, on the lines of its own channels; a node has a link to another station exactly if it connects the two (for a measurement: if an optical channel and the classical channel it is written to belong to the two stations), the link is seen from both sides with the same marker, its kind follows from the channels on both sides, and its text names the linked stations; lines are labelled with the station and the local number, also in the total circuit; the selected stations are drawn, and drawing does not fail.", "quantifier": "all circuits and chains of circuits, all assignments of channels to stations, any number of stations", "why_tests_cant": "ranges over all circuits and stations; the tests compare one picture", "anchors": ["src/fock_state_circuit/visualization/draw.py:draw_station", "src/fock_state_circuit/visualization/draw.py:create_settings_for_drawing_stations", "src/fock_state_circuit/visualization/draw.py:_filter_on_station"]}
{"id": "C61", "title": "Interference experiments with the quick time delay", "statement": "A circuit that delays photons with the quick time delay, sends the state through optical elements and measures it, evaluates without an error. Every outcome gets the probability of photons that arrive together, weighted with the Gaussian overlap of the delayed pulses, plus that of photons that arrive far apart (200 widths), weighted with the rest; the weights of the resulting groups are probabilities. For two photons this is the interference of the full time delay, up to the overlap at 200 widths. The quick time delay approximates the full time delay for every state.", "quantifier": "all collections of normalised states with fewer photons than the length of the Fock state, all sequences of unitary two-channel elements whose amplitudes stay above the threshold, all delays, pulse widths, delayed and measured channels and outcomes", "why_tests_cant": "real delays and widths, all circuits, states and photon numbers", "anchors": ["src/fock_state_circuit/nodes/spectral_nodes.py:time_delay", "src/fock_state_circuit/temporal_and_spectral_gate_functionality/temporal_functions.py:add_quick_time_delay_generic", "src/fock_state_circuit/circuit.py:FockStateCircuit.evaluate_circuit", "src/fock_state_circuit/temporal_and_spectral_gate_functionality/interference_group.py"]}
{"id": "C62", "title": "A circuit does to a collection what its nodes mean one after the other", "statement": "Evaluating a circuit gives exactly the ensemble quantum mechanics prescribes: every state of the collection is a branch (a classical register and a wave function); elements, also those controlled by the register, and custom matrices transform the wave function, classical nodes the register, a measurement splits a branch according to the Born rule and notes the result. States with zero weight do not occur, nothing else is lost or added, the evaluation raises no error, and the weight per initial state is conserved. The probability of classical values and everything later circuits can show depend on the collection only through its density matrices; a mixture gives the mixture of the results.", "quantifier": "all circuits of optical elements, classically controlled elements, unitary custom Fock matrices, classical nodes and measurements, all collections of normalised states, all thresholds below a positive bound that depends on both", "why_tests_cant": "all lengths of circuits, all angles, all states, and every interleaving of measurement and feed-forward", "anchors": ["src/fock_state_circuit/circuit.py:FockStateCircuit.evaluate_circuit", "src/fock_state_circuit/nodes/optical_nodes.py", "src/fock_state_circuit/nodes/controlled_nodes.py", "src/fock_state_circuit/nodes/classical_nodes.py", "src/fock_state_circuit/nodes/measurement_nodes.py", "src/fock_state_circuit/nodes/custom_nodes.py"]}
{"id": "C63", "title": "What is done in one part of a circuit cannot be seen in another part", "statement": "If two circuits differ only in what happens in the optical channels and classical channels of one party (elements, shifts, custom matrices, measurements and computations in these channels; elements may be controlled by anything), the values in the other classical channels have the same distribution, for every initial state.", "quantifier": "all circuits of optical elements, classically controlled elements, unitary custom Fock matrices, classical nodes and measurements, all collections of normalised states, all thresholds below a positive bound that depends on both; all divisions of the channels; all differences in the actions of the party", "why_tests_cant": "all strategies of both parties, with classical feed-forward, on all entangled states", "anchors": ["src/fock_state_circuit/circuit.py:FockStateCircuit.evaluate_circuit", "src/fock_state_circuit/nodes/optical_nodes.py", "src/fock_state_circuit/nodes/controlled_nodes.py", "src/fock_state_circuit/nodes/classical_nodes.py", "src/fock_state_circuit/nodes/measurement_nodes.py", "src/fock_state_circuit/nodes/custom_nodes.py"]}
{"id": "C64", "title": "Measurements can be split, reordered and repeated", "statement": "Measuring two groups of channels one after the other cannot be distinguished from measuring them together, nor from measuring them in the other order; a measurement repeated at once into the same classical channels changes nothing. This holds at any place in a circuit.", "quantifier": "all circuits of optical elements, classically controlled elements, unitary custom Fock matrices, classical nodes and measurements, all collections of normalised states, all thresholds below a positive bound that depends on both before and after; all groups of measured channels", "why_tests_cant": "all circuits around the measurements", "anchors": ["src/fock_state_circuit/circuit.py:FockStateCircuit.evaluate_circuit", "src/fock_state_circuit/nodes/measurement_nodes.py:measure_optical_to_classical"]}
{"id": "C65", "title": "Nodes in different channels commute", "statement": "Two elements in different optical channels can be exchanged anywhere in a circuit, also when they are controlled by classical channels. An element can be exchanged with a measurement of other optical channels if the measurement does not write the classical channels the element is controlled by.", "quantifier": "all circuits of optical elements, classically controlled elements, unitary custom Fock matrices, classical nodes and measurements, all collections of normalised states, all thresholds below a positive bound that depends on both before and after; all elements and channels", "why_tests_cant": "all circuits around, all angles and photon numbers", "anchors": ["src/fock_state_circuit/circuit.py:FockStateCircuit.evaluate_circuit", "src/fock_state_circuit/nodes/optical_nodes.py", "src/fock_state_circuit/nodes/controlled_nodes.py", "src/fock_state_circuit/nodes/classical_nodes.py", "src/fock_state_circuit/nodes/measurement_nodes.py", "src/fock_state_circuit/nodes/custom_nodes.py"]}
{"id": "C66", "title": "Elements in a row can be merged or cancelled inside a circuit", "statement": "Anywhere in a circuit, two elements in the same channels can be replaced by one with the product of the matrices, and an element followed by its inverse can be left out, for every number of photons (including those at and above the length of the Fock state).", "quantifier": "all circuits of optical elements, classically controlled elements, unitary custom Fock matrices, classical nodes and measurements, all collections of normalised states, all thresholds below a positive bound that depends on both before and after; all unitary matrices", "why_tests_cant": "all circuits around, all angles and photon numbers", "anchors": ["src/fock_state_circuit/circuit.py:FockStateCircuit.evaluate_circuit", "src/fock_state_circuit/nodes/optical_nodes.py", "src/fock_state_circuit/nodes/controlled_nodes.py", "src/fock_state_circuit/nodes/classical_nodes.py", "src/fock_state_circuit/nodes/measurement_nodes.py", "src/fock_state_circuit/nodes/custom_nodes.py"]}
{"id": "C67", "title": "A measurement can be deferred", "statement": "A measurement whose result controls an element in other channels cannot be distinguished from letting the photon number itself control the element (a custom Fock matrix) and measuring afterwards.", "quantifier": "all circuits of optical elements, classically controlled elements, unitary custom Fock matrices, classical nodes and measurements, all collections of normalised states, all thresholds below a positive bound that depends on both before and after; all controlled elements and channels", "why_tests_cant": "all circuits around, all functions from photon number to element", "anchors": ["src/fock_state_circuit/circuit.py:FockStateCircuit.evaluate_circuit", "src/fock_state_circuit/nodes/optical_nodes.py", "src/fock_state_circuit/nodes/controlled_nodes.py", "src/fock_state_circuit/nodes/classical_nodes.py", "src/fock_state_circuit/nodes/measurement_nodes.py", "src/fock_state_circuit/nodes/custom_nodes.py"]}
{"id": "C68", "title": "The Bell experiment gives the quantum correlations", "statement": "Two photons in any polarisation state pass two wave plates with angles and phase taken from classical channels and are counted: every pair of counts has the probability |amplitude|^2 of quantum mechanics. For the entangled state with half wave plates the correlation is cos 4(a-b), so that no angles exceed 2 sqrt 2 in the CHSH inequality and the angles of the test reach it.", "quantifier": "all two-photon states, all angles and phases, all lengths of the Fock state, both channel orders, any other states in the collection", "why_tests_cant": "a test evaluates the four settings that violate the inequality and compares with a tolerance", "anchors": ["src/fock_state_circuit/circuit.py:FockStateCircuit.evaluate_circuit", "src/fock_state_circuit/nodes/controlled_nodes.py:wave_plate_classical_control", "src/fock_state_circuit/nodes/measurement_nodes.py:measure_optical_to_classical", "tests/test_fock_state_circuit_applications.py: Bell test"]}
{"id": "C69", "title": "Teleportation teleports", "statement": "In the teleportation circuit of the documentation (a 50/50 beam splitter, four detectors, classical functions and controlled wave plates) the sender reports success with probability 1/2, and then the readings of the receiver's photon and of everything the source photon was entangled with have the same joint distribution as for the source photon itself.", "quantifier": "all polarisation states of the source photon, also entangled with any photons in two other channels; all angles and phases of the analysing plates; all lengths of at least 3", "why_tests_cant": "the notebook shows histograms for a few states", "anchors": ["src/fock_state_circuit/circuit.py:FockStateCircuit.evaluate_circuit", "src/fock_state_circuit/nodes/optical_nodes.py:non_polarizing_50_50_beamsplitter", "src/fock_state_circuit/nodes/classical_nodes.py:classical_channel_function", "docs/Quantum Teleportation with FockStateCircuit.ipynb"]}
{"id": "C70", "title": "The GHZ experiment gives the three-photon correlations", "statement": "In the circuit of the GHZ notebook (two photon pairs, polarizing and 50/50 beam splitters, wave plates, eight detectors) a coincidence of the trigger with one photon at each of the three detectors has a quarter of the probability it has for the state (|HHV> + |VVH>)/sqrt 2 behind the same wave plates; in particular the two histograms of the notebook are exact.", "quantifier": "all settings of the controlled wave plate, all lengths of at least 3, both channel orders, any other states in the collection, all small enough thresholds", "why_tests_cant": "the notebook shows two settings as histograms", "anchors": ["src/fock_state_circuit/circuit.py:FockStateCircuit.evaluate_circuit", "src/fock_state_circuit/nodes/optical_nodes.py:polarizing_beamsplitter", "src/fock_state_circuit/nodes/optical_nodes.py:half_wave_plate_225", "docs/GHZ simulation with FockStateCircuit.ipynb"]}
{"id": "C71", "title": "A chain of circuits of different sizes computes the chain of their operations", "statement": "For any number of circuits linked by bridges (a compound circuit), with any numbers of optical and classical channels and any photon-number lengths that the photons that occur fit into, evaluation does not raise for sufficiently small thresholds, and the states of the resulting collection are exactly the branches of non-zero weight produced by applying the operations of the circuits one after the other, where at each border the channels the next circuit does not have are traced out (one branch per content), new channels are empty, and the classical values are cut or filled up with zeros. For each initial state the total weight after the last circuit equals the weight before the first.", "quantifier": "for all lists of circuits of optical, controlled, custom, classical and measurement nodes, all sizes, all input collections of normalised states, all thresholds below a positive bound", "why_tests_cant": "tests link two or three circuits of fixed sizes; the claim is about every chain of circuits and every input", "anchors": ["src/fock_state_circuit/compound_circuit.py:CompoundFockStateCircuit", "src/fock_state_circuit/circuit.py:FockStateCircuit.evaluate_circuit", "src/fock_state_circuit/circuit.py:FockStateCircuit.bridge"]}
{"id": "C72", "title": "No Bell experiment beats quantum mechanics", "statement": "Two parties hold different optical channels of a circuit, each acts and measures only in their own channels (in any order, also through one joint measurement node), computes only with classical channels the other party does not write, and finally reads a number between -1 and 1 off the classical channels they look at. With two settings for each party, given by different nodes or by different values in the classical channels, the combination E00+E01+E10-E11 of the means of the product is at most 2*sqrt(2) times the weight of the input; it is at most 2 times that weight if the input state is a product of a state of one party's channels and a state of the rest; and the Bell test of the test-suite reaches 2*sqrt(2).", "quantifier": "every basis size, number of channels, partition of optical and classical channels, circuit built from optical elements (fixed or classically controlled), shifts and custom matrices in the channels of one party, classical computations and measurements, interleaving, initial state, setting and verdict function; every threshold below a positive bound", "why_tests_cant": "a test evaluates a few settings of one circuit; the bound is over all local circuits, states and post-processings", "anchors": ["src/fock_state_circuit/circuit.py:FockStateCircuit.evaluate_circuit", "src/fock_state_circuit/nodes/measurement_nodes.py:measure_optical_to_classical", "src/fock_state_circuit/nodes/controlled_nodes.py:wave_plate_classical_control", "src/fock_state_circuit/nodes/classical_nodes.py:classical_channel_function"]}
{"id": "C73", "title": "Which calls are accepted while a circuit is built", "statement": "Adding an optical element, a classically controlled element, an assignment, a measurement, a shift or a matrix of the user's own raises exactly if the two channels are equal or do not exist, a list is empty or does not match its partner, fractions do not add up to one, or there are too few channels for a beam splitter of polarised light; a circuit built from calls with valid arguments can always be built, and evaluated on every collection with the effect the calls mean.", "quantifier": "every call with every argument (channel numbers are natural numbers), every sequence of calls, every basis size and number of channels, every collection of proper states", "why_tests_cant": "tests try a handful of wrong arguments; the claim separates all accepted from all refused calls", "anchors": ["src/fock_state_circuit/nodes/node_list.py:NodeList._translate_channels_numbers_to_tensor_list", "src/fock_state_circuit/nodes/optical_nodes.py:OpticalNodes", "src/fock_state_circuit/nodes/controlled_nodes.py:wave_plate_classical_control", "src/fock_state_circuit/nodes/measurement_nodes.py:measure_optical_to_classical", "src/fock_state_circuit/nodes/classical_nodes.py:set_classical_channels", "src/fock_state_circuit/nodes/custom_nodes.py:shift", "src/fock_state_circuit/nodes/custom_nodes.py:custom_optical_node"]}
{"id": "C74", "title": "A circuit can be undone", "statement": "A circuit without measurements and assignments, followed by the calls that undo its calls in reverse order (wave plates with opposite phase, half wave plates, crossings and mixers again, controlled elements with the opposite control value, shifts by the opposite numbers, controlled shifts as often as there are photon numbers, matrices of the user's own by their adjoints), returns every state of every collection with exactly its amplitudes, weight, label and classical values; in the middle of any circuit such a pair of parts leaves no observable trace.", "quantifier": "every sequence of reversible calls, every circuit around it, every basis size (also for photon numbers at which elements do nothing), every collection of proper states, every threshold below a positive bound", "why_tests_cant": "tests undo a few single gates; the claim is about all sequences of calls and all states", "anchors": ["src/fock_state_circuit/circuit.py:FockStateCircuit.evaluate_circuit", "src/fock_state_circuit/nodes/optical_nodes.py:wave_plate", "src/fock_state_circuit/nodes/controlled_nodes.py:phase_shift_single_channel_classical_control", "src/fock_state_circuit/nodes/custom_nodes.py:shift", "src/fock_state_circuit/nodes/custom_nodes.py:c_shift", "src/fock_state_circuit/nodes/custom_nodes.py:custom_fock_state_node"]}
{"id": "C75", "title": "Whole circuits conserve the number of photons", "statement": "In a circuit of optical elements (also with the user's own two-channel matrices), classically controlled elements, classical functions and measurements every component of a result has as many photons as a component of an input state with the same label; the probability of every number of photons is the same before and after; detectors at the end never count more photons than the input state has; and phases between components with different numbers of photons have no influence on any detector result.", "quantifier": "every circuit of such calls, every basis size and number of channels, every collection of proper states, every threshold below a positive bound", "why_tests_cant": "tests look at the photons after single gates; the claim is about all circuits with measurements and feed-forward", "anchors": ["src/fock_state_circuit/circuit.py:FockStateCircuit.evaluate_circuit", "src/fock_state_circuit/nodes/optical_nodes.py:OpticalNodes", "src/fock_state_circuit/nodes/measurement_nodes.py:measure_optical_to_classical"]}
{"id": "C76", "title": "How well a circuit can tell two states apart", "statement": "Whatever circuit is built, with measurements and feed-forward: whoever sees only the classical values of the results guesses which of two states with the weights p and q was the input with a probability of at most (p + q + sqrt((p + q)^2 - 4 p q |<st1|st2>|^2)) / 2, whatever the rule, also a randomised one; the probabilities of any event differ for two states of weight w at most by w sqrt(1 - |<st1|st2>|^2), hence at most by w times the distance of the states; only orthogonal states are told apart with certainty; and a half wave plate and a detector reach the bound for photons of the linear polarisations t and -t, for every t.", "quantifier": "every circuit of nodes with a meaning (all elements, measurements, classical functions, feed-forward), every pair of proper states with equal classical values, every rule for guessing, every threshold below a positive bound", "why_tests_cant": "a bound on what every possible circuit can achieve: tests try single circuits", "anchors": ["src/fock_state_circuit/circuit.py:FockStateCircuit.evaluate_circuit", "src/fock_state_circuit/nodes/measurement_nodes.py:measure_optical_to_classical", "src/fock_state_circuit/collection_of_states.py:CollectionOfStates"]}
{"id": "C77", "title": "No cloning, and no information without disturbance", "statement": "Whatever circuit is built, with measurements and feed-forward, and whatever else is in its channels: if every result of each of two states in the first n channels holds two copies of that state, the two states are orthogonal or equal up to a phase; if every result of two states that are not orthogonal is the state itself up to a phase, the classical values say nothing about which of them was the input: every event has the same conditional probability for both. Some result of the one and some result of the other with the same classical values overlap at least as much as the two inputs. All number states can be copied: one call of c_shift does it.", "quantifier": "every circuit of nodes with a meaning (all elements, measurements, classical functions, feed-forward), every pair of proper states with equal classical values and any weights, every number of channels copied and every basis size, every threshold below a positive bound", "why_tests_cant": "says that no circuit exists: tests try single circuits", "anchors": ["src/fock_state_circuit/circuit.py:FockStateCircuit.evaluate_circuit", "src/fock_state_circuit/nodes/measurement_nodes.py:measure_optical_to_classical", "src/fock_state_circuit/nodes/custom_nodes.py:c_shift"]}
{"id": "C78", "title": "The Fock matrix of part of a circuit", "statement": "get_fock_state_matrix(list) gives a matrix exactly for one node with a matrix of the user (that matrix itself) and for non-empty lists of optical elements, in any order and with repetitions; it raises for everything else. The matrix of a list is the product of the matrices of its parts, later parts on the left, and evaluating the circuit for the same list of nodes multiplies every state of the collection with that matrix. Without a list it is the matrix of all nodes.", "quantifier": "every circuit, every list of node numbers, every matrix of the elements (unitary or not), every collection of well-formed states and threshold", "why_tests_cant": "quantifies over all circuits, lists of nodes and states; a test compares the matrix of one list", "anchors": ["src/fock_state_circuit/circuit.py:FockStateCircuit.get_fock_state_matrix", "src/fock_state_circuit/circuit.py:FockStateCircuit.__generate_fock_state_matrix", "src/fock_state_circuit/circuit.py:FockStateCircuit.evaluate_circuit"]}
{"id": "C79", "title": "Negative channel numbers", "statement": "Optical elements count negative channel numbers from the end, as Python does: an element on two channels given in either way is the element on the channels they name, phase shifts included; numbers that name no channel raise; and two numbers that name the same channel raise.", "quantifier": "every number of channels and basis size, every 2x2 matrix, every pair of integers", "why_tests_cant": "the tests only use non-negative channel numbers; the claim ranges over all integers and sizes", "anchors": ["src/fock_state_circuit/nodes/nodelist/node_list.py:NodeList._translate_channels_numbers_to_tensor_list", "src/fock_state_circuit/nodes/optical_nodes.py:OpticalNodes.swap", "src/fock_state_circuit/nodes/optical_nodes.py:OpticalNodes.phase_shift_single_channel"]}
{"id": "C80", "title": "A list of projections selects measurement outcomes", "statement": "measure_optical_to_classical accepts list_of_projections, names of the photon numbers of all channels that the detection considers. Measuring a photon-resolved collection with such a list gives, for every label and every outcome in the measured channels, the total weight of the listed photon numbers that read this outcome in the measurement without a list: nothing is renormalised, every state that is left has listed photon numbers only, and outcomes none of whose photon numbers is listed do not occur. A list that holds all possible photon numbers changes nothing. Every measurement with a list considers the listed projections only (false: collections that are not photon-resolved are measured as if there were no list).", "quantifier": "all photon-resolved collections of any number of groups, columns and photons; all lists of projections; all measured channels; all amplitudes, delays and pulse widths; all plain collections", "why_tests_cant": "The probabilities of the listed outcomes are sums over all pairs of columns and all assignments of photons, for every list; a test compares a few lists for a few collections.", "anchors": ["src/fock_state_circuit/nodes/measurement_nodes.py:MeasurementNodes.measure_optical_to_classical", "src/fock_state_circuit/temporal_and_spectral_gate_functionality/interference_group.py:InterferenceGroup.measure_interference_group_alternative", "src/fock_state_circuit/nodes/spectral_nodes.py:SpectralNodes.perform_measurement_photon_resolved", "src/fock_state_circuit/circuit.py:FockStateCircuit.evaluate_circuit"]}
{"id": "C81", "title": "Custom Fock-state matrices of any size", "statement": "custom_fock_state_node takes any matrix without a check. When the matrix has one column for every basis state, evaluating the node computes for every state of the collection the product of every row with the amplitudes; row k gives the amplitude of basis state number k, basis states without a row get amplitude zero, values below the threshold are dropped, and everything else of the states is kept. With any other number of columns (no rows, or rows of different lengths) the evaluation raises, unless the collection is empty. A matrix with more rows than there are basis states is refused (false: row k is written to the basis state k modulo the number of basis states, and later rows overwrite earlier ones; at threshold 0 only the last full block of rows counts).", "quantifier": "all numbers of channels and photons, all thresholds, all matrices of any number of rows and columns, all collections", "why_tests_cant": "Holds for every matrix size and all amplitudes; a test tries a few sizes.", "anchors": ["src/fock_state_circuit/nodes/custom_nodes.py:CustomNodes.custom_fock_state_node", "src/fock_state_circuit/circuit.py:FockStateCircuit.evaluate_circuit", "src/fock_state_circuit/state.py:State.set_state_components_from_vector", "src/fock_state_circuit/nodes/nodelist/optical_values_component_names.py:ComponentNames.at_index"]}
{"id": "C82", "title": "Local operations and classical communication create no entanglement", "statement": "Divide the optical channels into two groups. A circuit in which every element and transformation works inside one group, in which photons may be counted anywhere and the counts may be processed and decide what is done later in either group, never raises the number of products (of a factor for one group and a factor for the other) needed to write the states: if every input state with a given label is a sum of k products, then so is every output state with that label, whatever the measurement results. In particular unentangled inputs give unentangled outputs: the amplitudes keep their product when two tuples exchange the photon numbers of one group. The calls of the library that name channels of one group only are such operations. (False for phase_shift on a single channel, which reads channel 0, and for circuits whose threshold removes components: both turn products into entangled states.)", "quantifier": "all circuits made of the library's calls, all divisions of the channels into two groups, all numbers of products, all collections, all measurement results", "why_tests_cant": "Quantifies over all states, all programs and all divisions of the channels; the number of products is a rank no test can bound for every input.", "anchors": ["src/fock_state_circuit/circuit.py:FockStateCircuit.evaluate_circuit", "src/fock_state_circuit/nodes/optical_nodes.py:OpticalNodes", "src/fock_state_circuit/nodes/controlled_nodes.py:ControlledNodes", "src/fock_state_circuit/nodes/measurement_nodes.py:MeasurementNodes", "src/fock_state_circuit/circuit.py:FockStateCircuit._perform_measurement"]}
{"id": "C83", "title": "A circuit carries no more messages than basis states", "statement": "Someone encodes messages in optical states that use only a given list of photon-number tuples (superpositions and mixtures allowed), and someone else sees only the classical channel values after the circuit, with measurements, feed-forward and calculations, and guesses the message, possibly at random. Summed over the messages, the probabilities of guessing right are at most the number of tuples; so if every message is always understood there are at most as many messages as tuples (one photon in n channels: n messages). The bound is reached: messages written as different tuples are all read without a mistake by counting the photons in all channels.", "quantifier": "all circuits with a meaning in C62, all collections, all numbers of messages, all lists of tuples, all (random) ways to read the results", "why_tests_cant": "Quantifies over all circuits, all encodings and all decoders.", "anchors": ["src/fock_state_circuit/circuit.py:FockStateCircuit.evaluate_circuit", "src/fock_state_circuit/circuit.py:FockStateCircuit._perform_measurement", "src/fock_state_circuit/nodes/measurement_nodes.py:MeasurementNodes.measure_optical_to_classical", "src/fock_state_circuit/nodes/optical_nodes.py:OpticalNodes"]}
