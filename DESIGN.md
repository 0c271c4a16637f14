# Formal model of FockStateCircuit: design

## Approach

* The Python source in `/repo/src/fock_state_circuit` is modelled, function by function, in
  Coq 8.16.1 (`rocq/theories/`).
  - `*Model.v`: definitions only; every definition cites the file and lines it models and says
    what is simplified. These follow the loops, dictionaries and exceptions of the code.
  - `*Spec.v`: the small independent specifications the theorems are stated with (Born rule,
    permanents, partial trace, histories of photons, ...). They do not mention the model's helpers.
  - `*Proofs.v`: lemmas.
  - `Prop*.v`: the theorems `Cxx_...` and, beside them, concrete cases (`Example`, or theorems about
    named circuits such as `C49_hong_ou_mandel_runs`) which meet the hypotheses.
* If the code violates a property, the theorem is a refutation (`*_refuted`) with a concrete
  execution of the model as witness, next to a theorem for the part that is true (and, where
  possible, a theorem that says exactly what the code does instead).
* `properties.jsonl` states the properties in terms of the API. `MANIFEST.json` (generated by
  `tools/gen_manifest.py` from `tools/notes.json`) lists the theorems of every property, its status,
  and for partial ones what is missing. `seeded/LOG.jsonl` is the log of wrong programs tried.

### Modelling decisions

* Photon numbers, channels and indices are `nat`; amplitudes are Coquelicot's complex numbers over
  Coq's `Reals`; angles, delays, weights are reals. Floating point (csingle, float64) is not
  modelled: numbers are exact. Where the code rounds explicitly (`np.round(x,3)` in the measurement,
  `np.round(.,4)` in the operators) the rounding is modelled.
* Where numpy would give nan or inf (division by zero) the model raises (`None`).
* A Python dictionary is an association list in insertion order with in-place update.
  A Python string is the list of its character codes; a component name the list of its digits.
* An exception is `None` (or `Raise` for `evaluate_circuit`). The recursion of `evaluate_circuit`
  is fuelled by a bound on the size of the circuits; running out of fuel is a third result and
  `EvalProofs` shows that the fuel used never runs out.
* `random` identifiers (`add_state` without identifier) are an oracle argument `rnd`; theorems hold for
  every oracle, or name the collisions they exclude.
* The iteration order of Python sets (histograms) is an arbitrary listing function.
* Values and objects: `StateModel`/`CollectionModel`/`EvalModel` treat states as values.
  `HeapModel` models object identity (State objects, lists of classical values, recorded result lists)
  for the properties about aliasing (C25, C26, C31, C32), and C24_objects_agree relates the two.
* User functions (classical nodes, functions on collections) are arbitrary Coq functions; in the heap
  model they may also write into the list they are given.

## Trusted base

* Coq's kernel (8.16.1) and the standard library's axioms that `Print Assumptions` lists. Over all
  theorems these are only
  `ClassicalDedekindReals.sig_forall_dec`, `ClassicalDedekindReals.sig_not_dec`,
  `FunctionalExtensionality.functional_extensionality_dep` (the construction of the reals) and
  `Classical_Prop.classic` (through Coquelicot's analysis and decidability of real comparisons).
  `ASSUMPTIONS.md` (generated by `tools/gen_assumptions.py`) lists them for each theorem; the theorems
  of `PropNames.v` and other combinatorial ones are closed under the global context.
  No axioms of our own, no Admitted, no functors or module types, no kernel check switched off.
* The faithfulness of the hand-written model. It was checked by reading (citations) and by the seeded
  changes (`seeded/LOG.jsonl`), not by running the code.
* Libraries used: Coq's standard library, Coquelicot (complex numbers, series, limits), no plugins.

## What is modelled

| Source | Modelled in | Not modelled |
|---|---|---|
| `nodes/nodelist/optical_values_component_names.py` | NamesModel (tables with their caches, look-up histories) | |
| `nodes/nodelist/node_list.py` | NamesModel, FockModel (tensor lists, shapes) | settings for drawing |
| `circuit.py` | FockModel, MatrixModel (matrices), NegativeModel (negative channel numbers), StateModel (application per photon number), EvalModel (`evaluate_circuit`, measurement, markers), HeapModel (objects) | `about`, `__str__`, printed messages, time-outs |
| `nodes/optical_nodes.py` | OpticalModel (all methods) | checks of Python types |
| `nodes/classical_nodes.py`, `measurement_nodes.py`, `controlled_nodes.py`, `bridge_nodes.py` | EvalModel, HeapModel, CompoundModel | `node_info` for drawing |
| `nodes/custom_nodes.py` | CustomModel, SizedModel (matrices of any size), EvalModel (custom nodes) | `generic_function_on_collection` beyond calling the function |
| the calls that build a circuit (all node methods in a row) | ProgramModel: lists of calls with the checks they make, including wave plates under classical control, calculations on classical values, custom elements and custom matrices | calls that take functions on whole collections |
| `nodes/nonlinear_optical_nodes.py` | CustomModel | |
| `nodes/quantum_operator_nodes.py`, `quantum_operators.py` | OperatorModel | |
| `nodes/superquantum_nodes.py`, `popescu_rohrlich_*` | PRModel, BoxesModel | `plot_correlations_for_NS_boxes` (figure) |
| `nodes/spectral_nodes.py`, `temporal_and_spectral_gate_functionality/*` | ColumnModel, ProjectionModel (lists of projections) | the code after the `return` in `measure_interference_group` and `total_probability_for_group_all_outcomes` (never executed), `set_photon_information` |
| `state.py` | StateModel, CollectionModel (inner, outer, tensor), SettersModel (constructor, setters, comparison), HeapModel | `__str__`, printing |
| `collection_of_states.py` | CollectionModel, SettersModel, HeapModel | `__str__` |
| `compound_circuit.py` | CompoundModel | drawing |
| `visualization/plot.py` | PlotModel (the dictionaries that are drawn or returned) | the figures |
| `visualization/draw.py` (93-394, 840-892, 914-1000) | DrawModel (the layout: pages and columns of the nodes, what is covered at the end) | matplotlib commands, texts, colours |
| `visualization/draw.py` (1068-1335, stations) | StationModel | user-defined labels, titles, names of the circuits |

Assumptions made throughout: a collection is evaluated on circuits of its own shape (bridges and
`extend`/`reduce`/`adjust_length` change the shape and are modelled); the states of a collection use the naming
tables of their circuit, which C01-C04 show to be the translation itself except for the histories refuted in C04;
lists handed in are well typed. Each theorem names its other hypotheses (well-formed states = distinct, valid
component names).

## Per property: what is modelled and how it is proved

| | Model and specification | Method |
|---|---|---|
| C01-C03 | NamesModel / NamesSpec: digits, tuples, indices | induction over channels and digits (mixed radix) |
| C04 | NamesModel: the two shared caches, any history of calls | invariant over histories; refutations by witness histories |
| C05-C10 | FockModel: the binomial loops, Kronecker products and re-ordering of `__generate_..._fock_matrix` / FockSpec: amplitudes between tuples | loops refined to boson polynomials (BosonProofs); homomorphism and unitarity from the Pascal recursion; the misplaced tensor list of C05 refuted and characterised |
| C11-C15 | OpticalModel: trigonometric matrices | real trigonometry, on top of C05-C10 |
| C16-C18 | StateModel / StateSpec | vectors over the enumerated basis; grouping by photon number is a partition |
| C19 | EvalModel: recursion over node lists | induction over the list; `evalR` as fuel-free reference |
| C20-C23 | EvalModel / MeasureSpec: outcome grouping in dictionaries | grouping lemma on association lists, Born rule; markers injective |
| C24, C27 | EvalModel | per-state map; agreement with HeapModel |
| C25, C26, C31 | HeapModel / HeapSpec | reachability and separation invariants over executions; refutations of aliasing |
| C28 | CompoundModel, EvalModel bridges / BridgeSpec | extend/reduce laws composed |
| C29, C30, C32 | CollectionModel, HeapModel | dictionary lemmas |
| C33, C38 | CollectionModel | finite sums over the basis |
| C34-C36 | CollectionModel / ReshapeSpec (partial trace, product states) | sums over extended tuples |
| C37 | CollectionModel / CleanupSpec | loop invariant of the merging scan; weight lost per disappearing state; order of labels: frame argument (the round of one label only touches the states of that label), rounds of different labels commute |
| C39, C40, C45 | CustomModel / CustomSpec | matrices of 0/1 entries as permutations; chains of pairs |
| C41 | OperatorModel / OperatorSpec: ladder operators on wave functions | powers of the limited matrix equal iterated operators; PropAccepted: which Hamiltonians are accepted; PropConverge, PropUnique: power series of the matrices converge to the solution of psi' = H psi, which is unique |
| C42, C46 | PRModel / PRSpec: Stokes vectors, signed roots | outcome words; end-to-end experiment by composing gate, optics, measurement; CHSH by real inequalities |
| C43 | ColumnModel / TemporalSpec | groups, exact resulting states, conservation; both delay gates |
| C44 | ColumnModel / ColumnSpec | expansion of products of sums; factorial weights of condensing |
| C47 | ColumnModel / InterferenceSpec: sum over assignments of photons to detectors with pulse overlaps | arrangements vs. permutations; measurement loop |
| C48 | FockModel / ExperimentSpec | permanents: circuit matrix between tuples, by induction on elements |
| C49 | ColumnModel + EvalModel / ExperimentSpec | symbolic execution of delay, optics, measurement for all collections; mode decomposition of the overlap for conservation |
| C50-C52 | PlotModel / PlotSpec | dictionary loops; with C20/C49 for circuits; PropDigits: any classical values |
| C53 | OperatorModel / ExponentialSpec | truncated exponential series against matrix exponentials, explicit error bound and limit |
| C54 | ColumnModel / WidthSpec | as C43 |
| C55 | BoxesModel / BoxesSpec | via C42 |
| C56 | SettersModel / SettersSpec | case analysis, iff-characterisations |
| C57 | ColumnModel + EvalModel / RouteSpec: sums over histories of the photons | a "situation" invariant kept by every leg of the circuit; conservation by unitarity of the Gram matrix of histories and positivity of the Gaussian kernel (power series) |
| C58 | CustomModel: the checks and node constructors | cases on the sizes; vectors over the basis (as C18, C39) |
| C59 | DrawModel: the loop over the nodes with the bit mask of every column | invariant: every placed node keeps its bits in its columns until a bridge covers all lines; budget of columns for the number of pages |
| C60 | StationModel: the filtered circuit, links, labels, selection | lists and booleans; drawing reduced to C59 |
| C61 | ColumnModel + EvalModel / QuickSpec | symbolic execution of the quick delay, optics, measurement; the pieces of a column sent separately add up to the permanent of the whole (multinomial expansion) |
| C62 | EvalModel + ProgramModel / CircuitSpec, ProgramSpec: branches with register and unnormalised wave function | a collection tracks the branches of the specification; simulation node by node (block by block for optical nodes); thresholds: finitely many amplitudes, so a smallest one exists |
| C63-C67 | as C62 / ProtocolSpec | Heisenberg picture: observables are pulled back through the operations; two circuits agree if the pulled-back observables do |
| C68-C70 | ProgramModel / ApplicationSpec: experiments as lists of calls | sparse waves: a list of amplitudes is pushed through the operations of CircuitSpec (SparseProofs), then trigonometry |
| C71 | CompoundSpec.v: what arrives of a branch at the border (`moved`, `handed_on`), the stages and `run_stages`; CompoundProofs.v: extend/reduce/adjust_length keep collections proper, so bridge_reshape does not raise; PropCompound.v: induction over the list of circuits with the invariant of C62 (`tracks`), permutation and zero-weight arguments at each border. |
| C72 | PartiesSpec.v, PropParties.v: the parties in terms of the calls they make (also for C63). TsirelsonSpec.v: what it means to act and look locally, interleavings, verdicts, product states; TsirelsonProofs.v: in the Heisenberg picture the observable of the product of the verdicts is the product of an observable of Alice and one of Bob (they commute), both are contractions; SeparableProofs.v: for product states the expectation value of the product factorises; PropTsirelson.v: the theorems, and the Bell test of C68 as an instance that reaches the bound. |
| C73 | BuildSpec.v: valid and accepted arguments of each call, written without the model's checks; PropBuild.v: case analysis over the calls against `nodes_of`, then C62. |
| C74 | UndoSpec.v: the calls that undo a call; PropUndo.v: kernels of element and inverse compose to the identity (C08/C66), shifts in modular arithmetic, iteration for controlled shifts, nesting by induction over the program. |
| C75 | PhotonSpec.v: number of photons, its distribution; PropPhotons.v: induction over the operations (support of amplitudes), Heisenberg picture for the distribution and for block-diagonal observables. |
| C76 | DistinguishSpec.v: overlap, distance, probability of a correct guess; PropDistinguish.v: the verdict pulled back through the circuit is a Hermitian contraction (Heisenberg picture of C62/C72), Cauchy–Schwarz by scaling; the attained case by symbolic execution. |
| C77 | CloneSpec.v: states held once or twice, undisturbed states; PropClone.v: the two runs of a circuit are followed side by side, branch by branch; the sum of the inner products of paired branches is conserved (isometry, readings partition the basis); Cauchy–Schwarz over the branches. |
| C78 | MatrixModel.v: get_fock_state_matrix for lists of nodes; MatrixSpec.v: optical_at, after, moved_by; PropMatrix.v: the matrix of a list is nodes_matrix of its elements, product lemmas, C19/C58 for the evaluation. Refuted for a circuit of one custom Fock node and for mixed lists. |
| C79 | NegativeModel.v: the tensor list with integers and Python indexing; NegativeSpec.v: names_channel, names_none; PropNegative.v: the list is the one of the named channels (case analysis on the comparisons), C05 for what the element does. Refuted for one channel given twice, for channels 1 and 0, and for swap. |
| C80 | ProjectionModel.v: photon-resolved measurement of the columns whose photon numbers are listed; ProjectionSpec.v: listed_detection, after_listed; PropProjection.v: the columns that are left form groups of their own (columns as rays), C47's lemmas apply to them and their detection probabilities are those of the whole group for listed photon numbers, zero otherwise. Refuted for plain collections. |
| C81 | SizedModel.v: matmul with a list of rows, set_state_components_from_vector for a vector of any length (at_index wraps, dict.update overwrites); SizedSpec.v: row_times, last_written; PropSized.v: at_index i = at_index j iff i = j modulo the basis size, loop invariant of the dictionary. Refused sizes refuted by stacking. |
| C82 | EntangleSpec.v: sum_of_products (rank at most k between two groups of channels), acts_in, local_operation, on_one_side; PropEntangle.v: each operation of C62 maps sums of k products to sums of k products (matrices factor over the two sides; the test of a reading factors into two tests), induction over the operations and over the branches, then C62_branches/C62_program. Refutations: phase_shift on channel 1; a node that does nothing at threshold 1/10 |
| C83 | CapacitySpec.v: decoder, understood, uses_only, encoded; PropCapacity.v: the observable "the receiver says m" pulled back through the circuit is a positive form; a positive form on a normalised state is at most its trace over the tuples that occur; the traces of all messages add up to at most one per tuple; reached by Detectors on all channels |

What remains open in each partial property is said in its note in `MANIFEST.json`. Most partial properties are
partial because the statement is false of the code (a `_refuted` theorem shows it); the others state the
hypotheses under which the proof applies (for example at most 9 photons per channel for photon-resolved
measurements, because the outcome strings of the code are ambiguous from 10 on).

## Defects of the code found on the way

Proved as refutations or exact characterisations: the tensor list for (h>=2, v=0) (C05); the transposed
single-photon matrix (C09); phases not applied to full pairs (C13); `mix_generic_refl_transm` (C15); node lists
that decrease (C19); classical nodes writing into the caller's states (C25) and into recorded results (C26, C31);
mixtures with colliding identifiers (C32); conjugated density matrices (C33); `clean_up` ignoring classical values
(C37); `c_shift` vs `c_shift_direct` on chains and equal channels (C39, C40); `channel_coupling` not unitary
(C45); order, channels and power of Hamiltonians (C41, C53); PR correlations for complex settings and
superpositions (C42); lost phases in the column round trip (C44); cumulative probabilities after delays (C43);
pulse widths on all channels (C54) and unequal widths (C57); histogram strings and mirrored correlations
(C50, C51); no-signalling boxes using only the first state (C55); state comparison and input checks (C56);
bridges between circuits with different channel order (C28); phase shifts that signal through channel 0 (C63);
the Fock matrix of a circuit of one custom node or of mixed lists of nodes (C78); channels named twice or in
reverse order by negative numbers (C79); lists of projections ignored by plain measurements (C80); matrices with too many rows overwriting amplitudes (C81); phase shifts of one channel and thresholds that remove components turning products into entangled states (C82); controlled nodes one channel too far (C73).
