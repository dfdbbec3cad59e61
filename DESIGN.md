# Formal model of plaquette: design

Source: `/repo` (FranciscoRevson/plaquette, pinned commit), read as text only.
Prover: Coq 8.16.1, sources in `rocq/theories`, one namespace `Verif`.

## Trusted base

* Coq's kernel (and `vm_compute`, used only for concrete examples/witnesses).
* The axioms printed by `Print Assumptions` under every property theorem. This is
  "Closed under the global context" everywhere, except for the two theorems about real
  logarithms, `C37_weight` and `C37_rounded`, which use axioms of the Stdlib:
  `ClassicalDedekindReals.sig_not_dec`, `ClassicalDedekindReals.sig_forall_dec`,
  `FunctionalExtensionality.functional_extensionality_dep` and `Classical_Prop.classic`.
* The faithfulness of the model to the Python text. Every model definition cites the
  file and lines it models and states its simplifications. Nothing was executed.

General simplifications, valid for the whole model:

* numpy uint8 0/1 arrays are lists of booleans; in-place mutation of the tableau is
  modelled as returning the new tableau (aliasing of arrays is not modelled).
* Python exceptions are values (`Err e`), so "does not raise" is part of the theorems.
* Random number generators are explicit input streams of draws.
* Floating point numbers: probabilities are rationals; complex phases are exact
  Gaussian integers. (`1j**k` in CPython is exact only for |k| <= 100.)
* Not modelled: Plotly, Matplotlib (`draw_lattice_mpl`) and Qiskit, command line, the parsing of TOML files, the syntax of CSV files (files with qubit errors are tables of numbers or lists of named columns, C83 to C86), the Stim, pymatching and fusion-blossom libraries. The pandas
  tables of errors are lists of rows and columns (TablesModel.v).
* The decoders which call pymatching and fusion-blossom are modelled for an arbitrary solver. What the
  libraries are trusted to do is a hypothesis of the theorems C61 (`pm_contract`, `fb_contract` in
  MatchingSpec.v: a set of edges of minimum weight with the given syndrome), which some solver satisfies
  (`pm_brute_ok`, `fb_brute_ok` in MatchingBrute.v). PyMatching itself rounds weights, which the
  contract ignores.

* Configurations (FrontendModel.v) are Python values without cycles; other objects than None, booleans,
  integers, floats, strings, lists and dictionaries are one value `PObj`. Of the file system only the
  existence of folders and files is modelled (`files`). The order in which a Python set of names is
  read is an argument, and the theorems hold for every order. The JSON schema is modelled for the keywords
  it uses.
* Experiments (InstantiateModel.v): contents of the CSV files and normal random numbers are arguments. Values which
  are not numbers in the place of numbers are not modelled (`Unmodelled`), nor is the Stim library.

## Plan, property by property

Files: `*Model.v` = model only, `*Spec.v` = independent specification, `*Proofs.v` =
lemmas, `Props_*.v` = property theorems only (`exact lemma`, `Print Assumptions`,
non-vacuity `Example`).

| id | modelled | how proved |
|----|----------|------------|
| C01 | row-wise gate updates of pauli.py | explicit 2x2/4x4 matrices over Gaussian integers acting on vectors `list bool -> Z[i]`; induction on qubit position, U P = P' U |
| C02 | `_g`, `multiply` (n-ary recursion included) | per-qubit phase lemma, induction on length; witness for >= 3 operators |
| C03 | `commutator_sign` with the mod-256 sum | operator (anti)commutation of the vector semantics; induction |
| C04 | whole tableau functions | invariant by induction over an operation type |
| C05-C08 | `measure`, `reset_qubits_to_eigenstate`, `single_qubit_pauli_operator` | vector semantics, projector identity, norm identity; deterministic case via a pigeonhole proof that a symplectic basis spans |
| C09 | `CircuitSimulator` | simulation relation tableau/vector, induction on the gate list |
| C10, C11 | string and dict conversions on ASCII strings | induction, decimal numeral round trip |
| C12 | `tensor_product` | block structure, induction |
| C41, C42 | `string_to_state` (both lists given), `state_to_stabiliser_string` | round trip from C10; check loop as a conjunction |
| C13-C15 | `Circuit.append`, `append_from_str`, `__str__`, simulator error state machine | parsing/printing round trip; invariants of the state machine |
| C16 | `circuit_to_openqasm` | induction over the gates |
| C17-C19 | `_append_equiprobable`, `circuit_to_stim`, batch logic of `StimSimulator` | rational arithmetic; induction; Stim itself is an input stream |
| C43 | `Device.run`/`get_sample` with the Stim backend, objects by identity | induction over the calls |
| C44 | `circuit_to_stim` against Stim's documented instruction meanings | weighted branch lists; ancilla simulation on state vectors (`lifted`) |
| C20-C24, C45 | the constructors of latticeinstances.py, running on the lattice model of C25; `from_codelattice` | a description `built vs es` of the lattice after each statement (BuildProofs.v), then arithmetic on coordinates for a symbolic size |
| C46 | `StabilizerCode.check` | list induction, C03 |
| C25, C26 | lattice edit operations | invariant by induction over operations; symmetric difference algebra |
| C27, C28, C48 | circuit generator, check of error data, sample unpacking | `gspec`: the text each method writes (GeneratorProofs.v); list-layout lemmas |
| C29, C47 | the same with the Clifford backend | refinement C09, then an invariant over the rounds: the state is an eigenvector of all generators and logical operators up to a recorded frame (StabTrack, RoundProofs, MemoryProofs, GeneratorSem, MemorySem) |
| C49 | code constructors and `from_operators` as experiment codes | Hoare triples over the constructors (ExperimentCodes.v), FromOperators.v |
| C30-C32, C50 | `SyndromeGraph` completely (construction, weights, parallel edges, search of components, syndrome, erasure, results, Pauli frame) without statistics and the manager | the graph as the list `the_edges` (SyngraphBuild.v); one lemma for each method: parallel edges (SyngraphDup.v), components (SyngraphComp.v, SyngraphObjs.v), `ready` objects (SyngraphProofs.v, SyngraphOps.v); parity sums over edges (SyngraphErrors.v) |
| C33 | `unionfind_erasure.py` completely (graph object, spanning forest, peeling) | an inductive description of forests (GraphProofs.v), invariants of the peeling loop (ErasurePeel.v) and of the construction (ErasureForest.v), components as label classes (GraphComponents.v) |
| C34, C35 | `unionfind_decoder.py` without `split_edges` (C76) and `choose_growth_increment` (C79; switched off in all classes); growth as rationals | one invariant of vertices, clusters and handled edges (`uinv`, UnionFindInv.v) kept by every method; the number of times an edge can still grow as termination measure (UnionFindStep.v); then C33 |
| C36 | `check_success` | symplectic algebra (DecoderCheck.v) |
| C51, C52 | `ComponentDecoder`, `DecoderInterface` (constructor, `decode`) and both union-find classes, on top of C30-C35 | each component with C35, the whole graph with C50 (DecoderProofs.v), interface objects by induction over calls (DecoderObjects.v), selections of edges as error histories (DecoderHistory.v) |
| C53 | the chain generator, simulator, unpacking, decoder, success check | C47, C51 and C36 together |
| C54 | graph-likeness of every built-in code, and the chain of C53 for all of them | GraphlikeCodes.v; C30, C49, C52, C53 |
| C37 | weights.py completely, with the logarithm as a parameter (`log_like`: signs and infinite values; C37_rounded says that every accurate enough rounding of the real logarithm is one) | induction over lists of rationals; the loops over the dictionaries in WeightsProofs.v; real logarithm in LogWeights.v |
| C55 | `SyndromeGraphManager` constructor, `DecoderInterface.from_code` with the filling of the dictionary by default values | the dictionary before and after (`fills`, WeightsProofs.v), then C37, C51-C53 |
| C39 | code equality | list reasoning, witnesses |
| C38 | `ErrorData.gate_errors_dict`, `add_gate_error` | the last row as a relation (`last_with`), one lemma for each row (TablesProofs.v) |
| C56 | `ErrorData.qubit_errors_dict`, `error_data_dict`, `add_qubit_error`, `update_qubit_error`, `from_lattice` without configurations | cells as a relation (`holds`); dictionary after some enabled columns (`columns_of`, TablesQubits.v); rows of a lattice (TablesLattice.v); then C47 |
| C57 | `assimilate_gate_errors`, `from_lattice` with a configuration of gate errors | rows of one gate, then C38 (Props_GateConfig.v) |
| C58 | `UnionFindNoWeights.step`, `UnionFind.set_weights`, `UnionFindDecoder.decode` | counters of half steps (UnionFindDistance.v); invariant of a growth process: clusters of the grown edges with the error are trees of distances whose total is paid by the errors inside (`flat`, UnionFindMetric.v, `grown`, UnionFindGrowth.v); disjoint cuts bound the distance (GraphCuts.v) |
| C59 | the interfaces of union-find decoders with syndrome graphs, as in C51 | the bound of C58 applied to every component of the syndrome graph (`call_limit`, DecoderDistance.v): errors on parallel edges are moved to the active edge, edges which cannot change the logical value are not counted; closed selections of edges are operators which commute with the generators (DecoderFaults.v); all edges have the same length (DecoderEven.v) |
| C60 | the lattices and codes of C20-C24, the memory experiments of C47, the decoders of C59 | every logical operator has d representatives on disjoint sets of qubits, two neighbouring ones differ by a product of generators (`representatives_distance`, CodeDistance.v; the generators are chosen by position: CodeDistance.v, CodeDistanceToric.v, CodeDistanceRotated.v), so an operator which changes its value acts on each set; the conjugate logical operator acts on d qubits; small codes by inspection of the operators on two qubits (CodeDistanceSmall.v) |
| C61 | `PyMatchingDecoder`, `FusionBlossomDecoder` (`set_syngraph`, `update_weights`, `decode`), their interfaces, `ComponentDecoder`, `DecoderInterface` | the graph given to the library has the same explanations and costs as the component (MatchingComp.v); calls for whole graphs as in C51 (MatchingProofs.v); errors on parallel edges are moved to the active one, which does not cost more (MatchingGraph.v, MatchingDecode.v); errors and result together cost less than the distance, so they commute with the logical operator (MatchingMain.v); brute-force solvers show that the hypotheses about the libraries can be satisfied (MatchingBrute.v) |
| C62 | `_measure_base`, `measure_x_base`, `measure_z_base`, `_ptrace`, `insert_qubit_at`, `append_qubit` | the sorted loop is a sequence of the measurements of C07 (PtraceProofs.v, `bases_fold`); after the measurement the state is a product with an eigenstate of the measured qubit (`eigen_product`), the loop of `_ptrace` leaves one generator which acts on this qubit, and the other ones describe the state of the rest (`ptrace_ok`); the destabilisers can be repaired without change of any later result (DestabProofs.v) |
| C63 | `CodeConfig`, `DeviceConfig`, `DecoderConfig`, `CircuitConfig`, `QubitErrorsConfig`, `GateErrorsConfig`, `ErrorsConfig`, `ExperimentConfig`: `from_dict`, `as_dict`, `update`, `simulated_errors`; `load_toml`, `load_json`, `validate_config`, the schema | characterisation of `get` after `setdefault` and assignment (FrontendProofs.v), of loops over keys in any order (FrontendConf.v), of the schema keyword by keyword (FrontendSchema.v) |
| C64 | `instantiate` of the configurations, `ExperimentConfig.build` and `run`, `ErrorData.from_lattice` with configurations | the columns of the table by induction over the labels (InstantiateTable.v); the rows of gate errors channel by channel (InstantiateGates.v); the dictionary of errors from C38, circuits from C46-C47, weights from C37, decoders from C36, C61 (InstantiateBuild.v); induction over shots (InstantiateRun.v) |
| C65 | the lattices and codes of C20-C24, `check_success`, the memory experiments of C54 | independence: a product of generators which is the identity has no generator, by induction over rows or columns of the lattice (GroupLattices.v); independent and commuting operators have a dual family (`indep_dual`, GroupAlg.v), so n - k independent generators on n qubits leave no room for other commuting operators (`complete_code`, GroupCodes.v); C60 for the distance |
| C66 | `CircuitSimulator`: `run`, `_handle_gate`, `_handle_error`; `measure`, `reset_qubits` | means over sequences of random numbers (DistMean.v): the mean over the first number of means over the others; every step of the simulator depends only on the numbers from its counter on, and turns means of what follows into means of what follows the gate (`cont`, `good_gate_law`, `good_block`, `good_items`, DistSim.v); a measurement is either certain or decided by one bit (`measure_cases`) |
| C67 | `generate_qec_circuit`, `CircuitSimulator`, `MeasurementSample` together | C66 for the generated circuit; the expected value splits into a sum over all choices of errors, in which each error becomes a fixed operator (HistorySums.v) and each flip a fixed flip (`split_all`); a circuit without random errors gives results with known parities, whatever the random outcomes are (HistoryPaths.v, HistoryExp.v), so every history shows one syndrome with certainty (`shows_exact`, HistoryShow.v) |
| C68 | `memory_experiment`, `UnionFindNoWeights`, `UnionFind`, `PyMatchingDecoder`, `FusionBlossomDecoder`, `check_success` together | C67 with the indicator of a failed decoding as function of the results; C59, C60 and C61 for each history, whose chance is 0 if results of the last round are wrong (`last_perfect`); the sum of chance times y to the number of faults factorises over rounds, qubits and results (`history_sum`, RateProofs.v) |
| C69 | `SyndromeGraph.get_statistics`, `format_statistics` | the edges of C30 counted by kind and by number of flipped generators; the components of C50 counted label by label (`count_labels`, Props_Stats.v); a component without edges is a single vertex (`isolated_alone`) |
| C70 | `CircuitSimulator.__iter__`, `__next__`, `run`, `reset` | the loop over `next` as an inductive relation, which is deterministic and equals the fold over the gates (`finishes_from`); simulation relation between states which differ in flags only (`both_fold`) |
| C71 | `delimited_string_list_to_series`, `from_csv`, `update_from_csv`, `save_to_csv` for gate errors | induction over texts; columns of numbers and of texts by cases. What pandas and `float` make of a text is an argument with a contract (`readable`), which a concrete reader satisfies for the file of the tests (`test_readable`) |
| C72 | `apply_operator`, `pprint_state` | case analysis; C02 row by row; C41 and the uniqueness of splitting (C71) |
| C73 | `LatticeVisualizer` with Plotly, the program of `CircuitVisualizer` | tables of C25 lattices by induction over the vertices; `groupby` is a permutation (`grouped_by`, Props_Visual.v); state of the object as a value, so that an exception between `_set_grey` and `_reset_grey` is visible; C16 for circuits |
| C74 | circuits with errors, memory experiments with gate errors | FrameSpec.v carries frames without state vectors; FrameProofs.v relates the state with errors to the state without by a Pauli operator and a phase (Born's rule keeps the chances up to the flip), by induction over items backwards from the statistic; FrameMemory.v: the clean instructions of the noisy circuit are the circuit without errors (C27 lists), C29 makes the noiseless sample zero, samples are linear in the results |
| C75 | memory experiments with gate errors | GateRuns.v: a run with errors is a run without errors up to a Pauli operator and a phase (frames of C74 along one run); the run without errors keeps generators and logical operators between the two perfect rounds; GateHistory.v: what the Pauli operator does to the last round is put into one error of the last round and all other differences into wrong results, then C47's layout of samples; decoding by C51's theorem as in C53 |
| C76 | `split_edges` of union find (SplitModel.v) | the split graph is a well-formed graph, so the invariant of C34 applies (adjacency lists in any order); sets of vertices which no complete edge leaves are extended to the additional vertices (SplitProofs.v) |
| C77 | `ExperimentConfig.build` and the loop of shots with gate errors | rows of gate errors from C64_gates, dictionaries from C38 and C56 (GateBuild.v); induction over shots with C75 instead of C47 (GateShots.v). Decoders with weights refuse gate errors (C64_weighted_refuted) |
| C78 | `string_to_state` without destabilisers (AloneModel.v) | `np.linalg.pinv` is an argument; its contract (AloneSpec.v) is to be near the dual rows, which are unique (AloneProofs.v); rows without common ones have the dual s/w, which the cast to integers makes zero for w >= 2 |
| C79 | `choose_growth_increment` of union find (ChooseModel.v) | the invariant of C34; the edge which lacks least is complete after its cluster has grown, so the number of incomplete edges decreases (ChooseProofs.v); all functions commute with forgetting the increments of the edges (ChooseWeights.v). Growth is rational, not in floating point |
| C80 | `normalization_coefficient` (ScaleModel.v), `set_weights` (UnionFindModel.v) | all functions of union find commute with, or respect, reduction of the fractions in the growth of edges (GrowthFree.v, ScaleProofs.v). Weights are rational, not in floating point; the coefficient is not infinite or NaN |
| C81 | `generate_gaussian_errors` (CacheModel.v) | inequalities over rational numbers. scipy's `truncnorm` is a parameter: its standard variates are assumed to lie between the bounds (premise `draws`), nothing is said about their distribution; rounding is not modelled |
| C82 | `cache_full_code_indices` (CacheModel.v) | consistency of C25: positions are distinct; no step of `apply_fabrication_errors` changes positions or classes of vertices or adds vertices (CacheProofs.v) |
| C83 | `ErrorData.update`, `update_from_csv` for qubit errors without overwriting (QubitFileModel.v) | induction over the columns of the file (QubitFileProofs.v). Files are tables of optional numbers; a new column without a number in some row and changed qubit types are not modelled; `overwrite=True` is in C84 |
| C84 | `update_from_csv` with `overwrite=True`, then `qubit_errors_dict` (OverwriteModel.v) | `qubit_errors_dict` depends only on the rows which labels give (OverwriteProofs.v). A number is in each cell of the file |
| C85 | `save_to_csv` and `from_csv` for qubit errors (SaveModel.v) | The file as a list of named columns; the renaming of a repeated name by `read_csv` (`X`, `X.1`) is modelled for a name which occurs twice; this is an assumption about pandas, which is not in the sandbox and was not checked. Numbers are read as written; the index is `qubit_id` (so not after `overwrite=True`). The theorem is about one saving: a second one, where the name `qubit_id.1` is taken, is not modelled |
| C86 | `generate_empty_qubit_errors_csv`, then `from_csv` (EmptyFileModel.v) | As C85, with the rows of a lattice from C56. The texts of the column `fabrication` are not modelled |
| C40 | sequential/parallel stabiliser measurement | permutation of gate lists |

## Findings

Behaviour of the code that contradicts its documentation or the expected property, each
proved in the model (theorem in brackets).

1. `multiply` of three or more operators counts signs twice (`C02_multiply_three_refuted`).
2. `cx`/`cz` with control = target does not preserve validity (`C01_control_equals_target_refuted`).
3. `measure` of the identity raises IndexError (`C06_identity_raises`).
4. `number_of_qubits` is not least when an E_* gate is nested in an error instruction
   (`C14_least_nested_refuted`).
5. The OpenQASM export silently drops `R` (`C16_reset_dropped_refuted`).
6. `string_to_pauli` accepts unknown characters (as identities), enlarges a too small
   `qubits` in canonical form and accepts mixed forms, all against its docstring
   (`C10_unknown_character_refuted`, `C10_too_few_qubits_refuted`, `C10_mixed_forms_refuted`);
   it cannot parse an identity (`C10_identity_raises`).
7. `dict_to_pauli` uses substring tests: the value "" becomes Y (`C11_unknown_value_refuted`).
8. `string_to_state` never checks stabilisers against destabilisers of another index, so it
   accepts invalid tableaus (`C42_cross_relations_refuted`).
9. The Stim conversion writes DEPOLARIZE, which is not a Stim instruction
   (`C18_depolarize_refuted`), and the records of circuits without any measurement cannot be
   processed (`C18_no_measurement_refuted`).
10. `Device.run` compares the stored Circuit with the argument by identity: a CircuitBuilder
   rebuilds the backend on every run, so with a fixed `stim_seed` all samples are equal
   (`C43_builder_repeats_refuted`); a Circuit extended after its first run is not converted
   again (`C43_stale_circuit_refuted`).
11. Fabrication errors: with `fabrication_err_boundary_join` the generators left after removing a
   corner qubit do not commute (`C26_boundary_join_refuted`); the documented value "no" of
   `keep_gauge` is rejected (`C26_keep_gauge_no_refuted`); `LatticeCode.apply_fabrication_errors`
   leaves the operators of the code unchanged (`C26_code_not_updated_refuted`). Merging two equal
   generators leaves an operator which cannot be read (`C26_superstab`, case IndexError).
12. `add_edge` does not look whether its vertices are in the lattice (`C25_dangling_refuted`).
13. The rotated planar lattice swaps time steps 1 and 2 on one sublattice whatever the order of the
   edges is; with an order other than the default one two gates of one time step share a qubit
   (`C24_rotated_other_order_refuted`). Planar codes of size 1 raise IndexError (`C20_size_one`).
14. Memory experiments: with `n_rounds = 0` the generators are measured twice and the results cannot be
   unpacked (`C27_no_rounds_refuted`). In the default mode (logical operators read on the data qubits)
   a logical X is read by H and M without H afterwards, so that it seems to change without errors
   (`C29_default_mode_refuted`), and operators whose weight differs from the first one cannot be
   unpacked, e.g. Z of the repetition code (`C28_repetition_Z_refuted`). Erasure rates for only some
   data qubits give results which cannot be unpacked (`C47_partial_erasure_refuted`).
15. `from_operators` drops the signs of its operators (`C49_from_operators_signs_refuted`).
16. The erasure decoder returns a correction with the wrong boundary, without any exception, if no
   correction inside the erasure exists (`C33_undecodable_reported_refuted`).
17. The weights given to `update_weights` of the union-find decoder are not checked; with a negative
   weight the growth need not end (`C34_negative_weights_refuted`).
18. Syndrome graph: with a weight of minus infinity (error probability 1) all parallel edges are
   disabled, since the edge itself counts as impossible and the other ones as heavier
   (`C31_one_refuted`).
19. `UnionFindNoWeights` is documented to ignore weights, but raises ValueError for every weighted graph
   (`C52_noweights`, `C52_noweights_refuted`). Weights which are all zero (error probability 1/2) raise
   ValueError in the class with weights (`C52_example`).
20. `from_code` of the decoder interfaces: the argument `weights` always raises ValueError, since
   there is always error data when the graph is made (`C55_weights_refuted`); with default arguments
   `UnionFindNoWeights.from_code` raises ValueError for every code, since the graph gets weights
   (`C55_noweights_refuted`); the error dictionary of the caller is changed (`C55_dictionary`); error data
   with gate errors is refused (`C37_refused`).
21. Codes: `__eq__` compares only the common prefix of the lists of operators, so that it is not
   transitive (`C39_transitive_refuted`) and codes with different numbers of generators can be equal
   (`C39_numbers_refuted`).
22. Error data: `from_lattice` uses probability 0.1 where its documentation says 0.01
   (`C56_default_refuted`). A gate with several error channels in a configuration, as documented, gets
   only the last one, since each channel becomes a row and the last row wins (`C57_channels_refuted`).
   A Gaussian distribution for CX or CZ makes the table unreadable, since the name of the error is not
   put into a list (`C57_gaussian_refuted`).
23. The union-find decoder does not correct all errors on fewer than half of the distance, which is what
   the literature promises for union-find decoders: seven errors on a line of fifteen qubits are decoded wrongly
   (`C58_half_distance_refuted`). What holds is a third of the distance (`C58_few_errors`).
24. `FusionBlossomDecoder` multiplies weights by `100 / max(weights)` and truncates them, so that the result
   need not be a most likely error: with weights 50.9, 100 and 49.9 it takes errors of weight 100.8
   instead of 100 (`C61_fusion_weights_refuted`). The loss is at most a hundredth of the largest weight
   per fault (`C61_fusion_weights`). If all weights of a component are zero it divides by zero.
25. `PyMatchingDecoder` raises a `ValueError` for every erased qubit with an error which can be told apart from all
   others (`C61_erasures`), although erasures are part of the interface of decoders.
26. Destructive measurements of two or more qubits always raise a `ValueError`: the operators are made for the
   number of qubits before the first partial trace (`C62_destructive_several_refuted`), although the loop is written for several targets.
27. `_ptrace` multiplies the destabiliser of the measured qubit instead of the other ones, so that the destabilisers of the
   result need not commute (`C62_destabilisers_refuted`). No later result depends on it (`C62_destructive`).
28. `insert_qubit_at` raises `IndexError` for all positions other than 1, and for 1 the row of the new stabiliser is the identity, so
   the result is never a valid state; the same holds for `append_qubit` (`C62_insert_refuted`).
29. Configurations: a size or number of rounds 0 is accepted, and the small codes accept any number of rounds (`C63_code_refuted`).
   An update which is refused has changed the object, and updates of devices, circuits and gate errors are not checked at
   all (`C63_update_refuted`). The defaults of `from_dict` are not those of the classes (`C63_defaults_refuted`).
30. Gate errors: any string is accepted as distribution, as are parameters for user distributions and the channel II; fewer distributions
   than channels make `simulated_errors` raise IndexError, more of them `from_dict` (`C63_gate_refuted`). Fabrication errors
   of gates are dropped (`C63_fabrication_refuted`).
31. `ExperimentConfig.from_dict` changes the dictionary of the caller such that it cannot be used again
   (`C63_twice_refuted`); `as_dict` and `validate` of an experiment always raise AttributeError (`C63_as_dict_refuted`).
32. The schema does not look at the contents of qubit and gate errors, since `items` has no meaning for objects
   (`C63_schema_errors_refuted`), and accepts configurations which cannot be loaded (`C63_schema_refuted`).
33. `ExperimentConfig.run` always returns None: it looks for the class of the device in a list of strings
   (`C64_run_refuted`). What the loop would compute is right (`C64_shots`, `C64_rate`).
34. Building experiments: if no errors are sampled, X, Y and Z errors with probability 0.1 are used (`C64_sample_refuted`);
   constants may be any number, as the check of `generate_constant_errors` is not used (`C64_range_refuted`);
   gate errors together with a weighted decoder raise (`C64_weighted_refuted`); without general options there
   is a TypeError (`C64_general_refuted`). Normal random numbers come from new generators without a seed, so that the seed of the
   configuration does not determine the errors (read from the text, modelled by `su_z`).
   General options without a seed raise KeyError (`C64_seed_refuted`).
35. `CircuitSimulator.reset` keeps the flags of error blocks: after a run of a circuit which ends within an error block the simulator accepts
   a circuit which begins with ERROR_CONTINUE and which a new simulator refuses (`C70_reset_refuted`). `_instruction_pointer` is the index of the
   last executed instruction, not of the next one as documented (`C70_steps`).
36. CSV files of gate errors: if every row has one qubit (or every row one probability), pandas reads the column as numbers, and `from_csv`
   raises AttributeError (`C71_read`, `C71_read_refuted`). Files written by `save_to_csv` can never be read again, as they have one more column
   and lists in Python's notation (`C71_saved_refuted`). `update_from_csv` enables all gates of the table again (`C71_load`).
37. `apply_operator` raises TypeError for every numpy array, as the check of the type is inverted (`C72_apply_refuted`). Without the check it would
   multiply rows, which is not the state after the operator: X on |0> gives no state at all (`C72_rest`, `C72_rest_refuted`).
38. `LatticeVisualizer` has no style for Y: codes with a Y factor (which `from_operators` accepts) raise KeyError. If the figure is grey (the default
   of `draw_latticedata`), the exception comes between `_set_grey` and `_reset_grey`, and every later grey figure raises AssertionError, even one
   without edges (`C73_y`, `C73_example_y`). Errors and corrections must be given as matrices with one row (`C73_refuses`).
39. Split edges and weights do not go together: `_set_weights` compares the number of weights with the
    number of halves (unionfind_decoder.py:714), so one weight for each edge raises
    `AssertionError` whenever `split_edges` is set (`C76_split_weights_refuted`). No class of the
    repository sets it.
40. `string_to_state` computes destabilisers with a pseudo-inverse over the reals, not modulo two, and cuts
    off fractions (pauli.py:1127-1129). For stabilisers without common entries, one of which has two
    (`["XX", "ZZ"]`, `["Y"]`, ...), the computed destabiliser is the identity and ValueError is raised, although
    destabilisers exist (`C78_several`, `C78_bell_refuted`; in general `C78_refused`). A pseudo-inverse which is
    less than one by a rounding error makes even `["Z"]` fail (`C78_rounding_refuted`). The documentation
    promises "an appropriate set of destabilisers".
41. Chosen growth increments make weights ineffective: `_set_weights` puts a weight into the increment of the edge
    and sets the same maximum for all edges (unionfind_decoder.py:712-717), and `Edge.grow` uses the chosen increment
    instead (255-267). So a class which switched the choice on would grow all edges alike
    (`C79_weights_ignored`, `C79_weights_refuted`). No class of the repository does.
42. The coefficient zero is accepted: `normalization_coefficient` refuses only negative numbers
    (unionfind_decoder.py:588-595). With zero, all normalised weights are zero and all increments infinite, so that
    the weights which are given have no effect (`C80_zero_refuted`).
43. `generate_gaussian_errors` accepts the deviation zero (errors/__init__.py:227-230), as its documentation says, and
    then divides by it: ZeroDivisionError with Python floats (`C81_zero_refuted`).
44. `ErrorData.update` cannot be used: `if qubit_errors:` and `if gate_errors:` (errors/__init__.py:750, 761) ask for the
    truth value of a DataFrame, which is a ValueError (`C83_update_refuted`). `update_from_csv` enables the gates of a
    file, but not the columns of a file with qubit errors, so that new kinds of errors are ignored
    (`C83_new_column_refuted`).
45. `update_from_csv(..., overwrite=True)` keeps the index which `read_csv` makes (errors/__init__.py:789-790), whereas
    `__post_init__` sets it to `qubit_id` (398-399) and `qubit_errors_dict` relies on that. So a file with some of the
    qubits raises KeyError later (`C84_some_refuted`), and one with the qubits in another order mixes up qubits
    (`C84_order_refuted`).
46. `save_to_csv` writes the index and the column `qubit_id` (errors/__init__.py:864; the index is set with `drop=False`
    in 399). The loaded table has a column `qubit_id.1`, `qubit_type` counts as an enabled error, and errors which had been
    disabled are enabled again, because the file does not tell (`C85_disabled_refuted`).
