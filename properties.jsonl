{"id": "C01", "title": "Clifford gates act as exact conjugation", "statement": "Applying hadamard, phase_gate, control_not_gate, control_phase_gate, x, y or z to a tableau replaces every row P by the Pauli row denoting the operator U P U^-1, sign included, where U is the corresponding gate acting on 2^n-dimensional state vectors. For two-qubit gates this needs control != target; with control == target the tableau can become invalid.", "quantifier": "every number of qubits, every row, every (in-range, distinct) choice of target/control qubits, every state vector", "why_tests_cant": "The claim is about operators on a 2^n-dimensional space for all n; tests sample a few rows on 1-3 qubits.", "anchors": ["src/plaquette/pauli.py: hadamard, phase_gate, control_not_gate, control_phase_gate, x, y, z"]}
{"id": "C02", "title": "Product of two Pauli operators", "statement": "pauli.multiply(a, b) of two commuting Pauli operators is exactly the operator product a.b, including the sign; for anticommuting operators it is the operator product up to the factor +-i the tableau cannot store. The claim does not extend to three or more operators: the accumulated sign is then counted twice.", "quantifier": "every number of qubits, every pair of Pauli operators", "why_tests_cant": "4^n x 4^n pairs for unbounded n; the sign is the sum of n local phases modulo 4.", "anchors": ["src/plaquette/pauli.py: multiply, _g"]}
{"id": "C03", "title": "commutator_sign decides commutation", "statement": "commutator_sign(a, b) is 0 exactly when the two operators commute as operators and 1 exactly when they anticommute, for any number of qubits (also above 255 qubits, where the integer sum wraps modulo 256); it is symmetric, ignores signs, and is additive over products.", "quantifier": "every pair of Pauli operators of equal length", "why_tests_cant": "Unbounded number of qubits; overflow of the 8-bit accumulator only matters for sizes tests never reach.", "anchors": ["src/plaquette/pauli.py: commutator_sign"]}
{"id": "C04", "title": "Tableau stays a valid stabiliser tableau", "statement": "Starting from zero_state(n), every sequence of gates, measurements (random or forced outcomes) and resets keeps the tableau valid: stabilisers commute pairwise, destabilisers commute pairwise, destabiliser i anticommutes with stabiliser j exactly when i = j, and all rows keep their length.", "quantifier": "every finite sequence of operations on in-range qubits with distinct control and target, every outcome history", "why_tests_cant": "An invariant over unbounded histories.", "anchors": ["src/plaquette/pauli.py: zero_state, hadamard, phase_gate, control_not_gate, control_phase_gate, measure, reset_qubits_to_eigenstate", "src/plaquette/device/__init__.py: QuantumState"]}
{"id": "C05", "title": "Measurement projects the state", "statement": "When measure(op) takes the random branch on a state with vector psi, the new tableau stabilises psi + (-1)^m op psi for the reported outcome m; each outcome has Born probability exactly 1/2, and any former stabiliser commuting with op is still a stabiliser of the new state.", "quantifier": "every valid tableau, every Hermitian Pauli operator that anticommutes with some stabiliser, both outcomes", "why_tests_cant": "Quantifies over all states and operators; outcomes are random.", "anchors": ["src/plaquette/pauli.py: measure", "src/plaquette/device/__init__.py: QuantumState.measure"]}
{"id": "C06", "title": "Deterministic measurement is correct and non-disturbing", "statement": "When measure(op) finds that op commutes with all stabilisers, the state is returned unchanged and the outcome m satisfies op psi = (-1)^m psi for every vector psi stabilised by the tableau; the outcome does not depend on the random stream or on a forced outcome. For the identity operator the function raises instead.", "quantifier": "every valid tableau, every non-identity Pauli operator commuting with all stabilisers", "why_tests_cant": "The outcome depends on a product over an arbitrary subset of stabilisers of an arbitrary state.", "anchors": ["src/plaquette/pauli.py: measure"]}
{"id": "C07", "title": "Measurements are repeatable", "statement": "Measuring the same operator again right after a measurement always takes the deterministic branch, leaves the state unchanged and returns the same outcome, whatever the random stream or forced outcome of the second call.", "quantifier": "every valid tableau, every operator, every outcome of the first measurement", "why_tests_cant": "All states and histories.", "anchors": ["src/plaquette/pauli.py: measure", "src/plaquette/device/__init__.py: QuantumState.measure"]}
{"id": "C08", "title": "Reset yields the +1 Z eigenstate and nothing else", "statement": "After resetting qubits, a Z measurement of each of these qubits is deterministic with outcome 0, for every hidden outcome of the internal measurements; resetting does not disturb stabilisers acting trivially on those qubits.", "quantifier": "every valid tableau, every list of qubits, every internal outcome history", "why_tests_cant": "All states and histories.", "anchors": ["src/plaquette/pauli.py: reset_qubits_to_eigenstate", "src/plaquette/device/_circuitsim.py: CircuitSimulator._handle_gate"]}
{"id": "C09", "title": "Circuit simulator refines Born-rule quantum mechanics", "statement": "Running any circuit on the Clifford backend with any stream of random decisions yields measurement results m_1..m_k that have non-zero Born probability on the exact state-vector semantics of the circuit, and the final tableau stabilises the exact post-measurement state vector; each random result is one whose two outcomes have equal Born probability.", "quantifier": "every circuit accepted by Circuit (control != target), every stream of random decisions", "why_tests_cant": "Unbounded circuits, exponentially many outcome histories.", "anchors": ["src/plaquette/device/_circuitsim.py: CircuitSimulator", "src/plaquette/pauli.py: measure", "src/plaquette/device/__init__.py: QuantumState"]}
{"id": "C10", "title": "Pauli string round trip", "statement": "string_to_pauli(pauli_to_string(p), n) == p for every non-identity Pauli operator p on n qubits in both string formats, sign included, and padded with identities for larger n; the string of an identity raises ValueError in both formats; spaces and underscores may be inserted anywhere. Unknown characters, too few qubits and mixed forms are not rejected although the docstring says so.", "quantifier": "every number of qubits, every Pauli operator", "why_tests_cant": "Unbounded strings, multi-digit qubit numbers.", "anchors": ["src/plaquette/pauli.py: string_to_pauli, pauli_to_string, dict_to_pauli, pauli_to_dict"]}
{"id": "C11", "title": "Pauli dictionary round trip", "statement": "dict_to_pauli(pauli_to_dict(p), n) == p up to the sign, which becomes plus, for every non-identity operator p; pauli_to_dict(dict_to_pauli(d)) gives back d without identity factors; padding an operator keeps its sign and dictionary. Values that are no Pauli letter are not rejected.", "quantifier": "every number of qubits, every Pauli operator, every dictionary", "why_tests_cant": "Unbounded sizes.", "anchors": ["src/plaquette/pauli.py: dict_to_pauli, pauli_to_dict, pad_operator"]}
{"id": "C12", "title": "Tensor product of states", "statement": "tensor_product(s, t) is a valid tableau whose stabilisers are exactly those of s padded on the right and those of t padded on the left, and it stabilises the tensor product of the two state vectors; the same for any number of states; it is associative; products of operators act factor by factor; mixing raises ValueError.", "quantifier": "every pair of valid tableaus", "why_tests_cant": "Unbounded sizes.", "anchors": ["src/plaquette/pauli.py: tensor_product"]}
{"id": "C13", "title": "Circuit text round trip", "statement": "Circuit.from_str(str(c)) == c for every circuit built with Circuit.append; a circuit refused by append is refused by from_str.", "quantifier": "every sequence of append calls (any gate set, any arguments)", "why_tests_cant": "Unbounded circuits and numerals.", "anchors": ["src/plaquette/circuit/__init__.py: Circuit.append, Circuit.append_from_str, Circuit.from_str, Circuit.__str__"]}
{"id": "C14", "title": "number_of_qubits bounds every index; measurement count", "statement": "For each accepted circuit, every qubit index used by any gate, including inside error instructions, is below number_of_qubits and this is the least such number (at least 1); a run of the Clifford backend produces exactly the number of results equal to the number of unconditional M arguments plus those of the M instructions executed as errors.", "quantifier": "every accepted circuit, every random stream", "why_tests_cant": "Unbounded circuits.", "anchors": ["src/plaquette/circuit/__init__.py: Circuit.number_of_qubits, Circuit.number_measured_qubits", "src/plaquette/device/_circuitsim.py: CircuitSimulator.run"]}
{"id": "C15", "title": "Error blocks choose at most one branch", "statement": "In a block ERROR / ERROR_CONTINUE* / (ERROR_ELSE / ERROR_CONTINUE*)*, at most one branch is executed, all instructions of that branch are executed in order, and the chosen branch is the first whose random draw falls below its probability; ERROR_ELSE or ERROR_CONTINUE outside a block is rejected.", "quantifier": "every error block of any length, every random stream, any surrounding circuit", "why_tests_cant": "Unbounded block structure times all draws.", "anchors": ["src/plaquette/device/_circuitsim.py: CircuitSimulator._handle_error, __next__"]}
{"id": "C16", "title": "OpenQASM export preserves the measurement order", "statement": "The OpenQASM export declares as many classical bits as the circuit has measured qubits, writes the k-th measurement to classical bit k, and emits the unitary gates in order with the same qubits; it silently drops R instructions.", "quantifier": "every circuit without probabilistic gates", "why_tests_cant": "Unbounded circuits.", "anchors": ["src/plaquette/circuit/openqasm.py: circuit_to_openqasm"]}
{"id": "C17", "title": "Equiprobable branch chain for Stim", "statement": "The ELSE_CORRELATED_ERROR chain that the Stim conversion writes for k equiprobable branches of probability p (k p <= 1) triggers every branch with total probability exactly p, and none with probability 1 - k p.", "quantifier": "every k and rational p with k p <= 1", "why_tests_cant": "Holds for all k and p; statistical tests only estimate it.", "anchors": ["src/plaquette/device/_stimsim.py: _append_equiprobable"]}
{"id": "C18", "title": "Stim conversion keeps measurements and erasures apart", "statement": "In the converted circuit the k-th plaquette measurement and the k-th erasure record can be recovered: the conversion marks each measurement record as erasure or not so that splitting the Stim record returns erasure flags in E_ERASE order and results in M order, and the erasure ancilla is never a qubit of the circuit.", "quantifier": "every circuit", "why_tests_cant": "Unbounded circuits.", "anchors": ["src/plaquette/device/_stimsim.py: circuit_to_stim, StimSimulator.process_results"]}
{"id": "C19", "title": "Stim batches are enumerated exactly once and in order", "statement": "For any batch size >= 1 and any number of run calls, the samples returned are precisely the rows of the successive batches, each exactly once and in order.", "quantifier": "every batch size and number of calls", "why_tests_cant": "Unbounded histories of calls.", "anchors": ["src/plaquette/device/_stimsim.py: StimSimulator.run"]}
{"id": "C20", "title": "Planar code is a valid CSS code for every size", "statement": "For every size d >= 2 the planar code has d^2+(d-1)^2 data qubits and 2d(d-1) stabiliser generators, all generators commute, logical X and Z commute with all generators and anticommute with each other.", "quantifier": "every size", "why_tests_cant": "All sizes; tests only instantiate small ones.", "anchors": ["src/plaquette/codes/latticeinstances.py: LatticeCodePlanar / make_planar", "src/plaquette/codes/__init__.py: StabilizerCode.check"]}
{"id": "C21", "title": "Toric code is a valid CSS code for every size", "statement": "For every size d >= 2 the toric code has 2d^2 data qubits and 2d^2 generators (two of them redundant), all generators commute, the logical operators commute with the generators, and logical operators (anti)commute pairwise as two encoded qubits require.", "quantifier": "every size", "why_tests_cant": "All sizes.", "anchors": ["src/plaquette/codes/latticeinstances.py: LatticeCodeToric"]}
{"id": "C22", "title": "Rotated planar and XZZX codes are valid for every size", "statement": "For every size d >= 2 (as accepted) the rotated planar code has d^2 data qubits and d^2-1 generators, all generators commute, and the logical operators commute with them and anticommute with each other; this also holds for the XZZX variant.", "quantifier": "every size, both variants", "why_tests_cant": "All sizes.", "anchors": ["src/plaquette/codes/latticeinstances.py: LatticeCodeRotatedPlanar"]}
{"id": "C23", "title": "Repetition code is valid for every size", "statement": "For every accepted size d (odd, at least 3) the repetition code has d data qubits, d-1 commuting generators, and logical operators that commute with the generators and anticommute with each other; even sizes are refused with ValueError.", "quantifier": "every size", "why_tests_cant": "All sizes.", "anchors": ["src/plaquette/codes/latticeinstances.py: LatticeCodeRepetition"]}
{"id": "C24", "title": "Parallel measurement schedule is conflict free", "statement": "For each built-in code with a parallel schedule, in every time step every qubit (data or ancilla) is touched by at most one two-qubit gate, and every stabiliser edge is scheduled in exactly one time step.", "quantifier": "every size, every time step", "why_tests_cant": "All sizes.", "anchors": ["src/plaquette/codes/latticeinstances.py: instances", "src/plaquette/circuit/generator.py: QECCircuitGenerator._measure_stabgens_pl"]}
{"id": "C25", "title": "Lattice editing keeps the graph consistent", "statement": "Any sequence of add/remove vertex and edge operations keeps the code lattice consistent: edges and vertices refer to each other symmetrically, removed items leave no dangling references, and assign_indices numbers data qubits, stabilisers and logicals contiguously without collision.", "quantifier": "every finite sequence of operations", "why_tests_cant": "Unbounded histories.", "anchors": ["src/plaquette/codes/latticebase.py: CodeLattice.add_data, add_stabgen, add_logical, add_edge, remove_edge, remove_vertex, assign_indices"]}
{"id": "C26", "title": "Superstabiliser is the product of its parts", "statement": "create_superstab merges two stabilisers into one whose operator is the product of the two up to sign, and multiply_logical_with_stab replaces the logical operator with the product; hence commutation with any operator commuting with both parts is preserved, and applying fabrication errors keeps generators and logicals commuting.", "quantifier": "every lattice, every pair of stabilisers", "why_tests_cant": "All lattices, unbounded defect patterns.", "anchors": ["src/plaquette/codes/latticebase.py: create_superstab, multiply_logical_with_stab, remove_dataqubit, apply_fabrication_errors"]}
{"id": "C27", "title": "Generated circuit has the documented measurement layout", "statement": "For every code with at least one round the generated circuit performs the measurements in the order: logical, then n_rounds + 1 times all stabiliser generators, then logical; with ancilla one result per logical operator, without ancilla one per qubit of it.", "quantifier": "every code, number of rounds >= 1, error model with gate errors, choice of logical operators", "why_tests_cant": "Unbounded codes and rounds.", "anchors": ["src/plaquette/circuit/generator.py: QECCircuitGenerator.get_circuit, measure_stabgens, measure_logical_ops"]}
{"id": "C28", "title": "Unpacking raw results inverts the layout", "statement": "MeasurementSample.from_code_and_raw_results splits raw results of the documented length so that the syndrome entry (t, s) is the XOR of the results of generator s in rounds t and t+1 and the logical toggle is the XOR of initial and final logical results; results of any other length are refused with ValueError.", "quantifier": "every raw result vector, every code and number of rounds", "why_tests_cant": "Unbounded sizes.", "anchors": ["src/plaquette/device/__init__.py: MeasurementSample.from_code_and_raw_results"]}
{"id": "C29", "title": "Noise-free memory experiment is silent", "statement": "Running the generated circuit without errors on the Clifford backend and unpacking ends with a sample with zero syndrome in all rounds and zero logical toggle (logical operators measured with ancillas, or on the data qubits for operators without X), whatever random outcomes occur.", "quantifier": "every valid stabiliser code, number of rounds, random stream", "why_tests_cant": "All codes and all random histories.", "anchors": ["src/plaquette/circuit/generator.py: QECCircuitGenerator", "src/plaquette/device/_circuitsim.py: CircuitSimulator", "src/plaquette/device/__init__.py: MeasurementSample"]}
{"id": "C30", "title": "Syndrome graph edges are exactly the detectable errors", "statement": "In the syndrome graph each single-qubit X or Z error on a data qubit in a round gives an edge whose endpoints are exactly the generators anticommuting with the error, and each measurement error joins the two consecutive rounds of its generator; so the XOR of endpoint sets of an error pattern is its syndrome.", "quantifier": "every code (each error anticommuting with one or two generators), number of rounds, error pattern", "why_tests_cant": "Unbounded codes and patterns.", "anchors": ["src/plaquette/syngraph/__init__.py: SyndromeGraph._init_qubit_error_edges, _init_measurement_error_edges"]}
{"id": "C31", "title": "Duplicate edge elimination keeps the lightest edge", "statement": "Among all edges joining the same vertices exactly one stays active, it has minimal weight and is the first with that weight, and no edge of a different vertex pair is affected.", "quantifier": "every multigraph and weights", "why_tests_cant": "Unbounded graphs.", "anchors": ["src/plaquette/syngraph/__init__.py: SyndromeGraph._check_edges_duplicate, _select_lightest_edge"]}
{"id": "C32", "title": "Decoder result to Pauli frame", "statement": "The Pauli frame computed from a decoder result is the XOR over rounds of the selected error operators, and if the selected edges reproduce the syndrome then the frame anticommutes with generator s exactly when the XOR of the syndrome of s over the rounds is 1.", "quantifier": "every syndrome graph and selection of edges", "why_tests_cant": "Unbounded.", "anchors": ["src/plaquette/syngraph/__init__.py: SyndromeGraph.result_as_error_op_selection, result_as_pauli_frame"]}
{"id": "C33", "title": "Erasure decoder returns a correction inside the erasure with exactly the given syndrome", "statement": "If each connected component of the erased subgraph contains an even number of syndrome vertices or a dangling edge, then the erasure decoder terminates without assertion failure, selects only erased edges, and the boundary of the selected edges is exactly the syndrome.", "quantifier": "every graph, erasure and syndrome fulfilling the condition", "why_tests_cant": "All graphs.", "anchors": ["src/plaquette/decoders/unionfind_erasure.py: ErasureDecoder.decode, construct_forest, peel_forest; Graph"]}
{"id": "C34", "title": "Union-find growth terminates with decodable clusters", "statement": "If the graph component has a dangling edge or the syndrome has even parity, cluster growth terminates, every final cluster is even or has a dangling edge, and grown edges form a decodable erasure; also for arbitrary positive weights.", "quantifier": "every graph, syndrome, erasure and positive weights", "why_tests_cant": "All graphs; termination.", "anchors": ["src/plaquette/decoders/unionfind_decoder.py: UnionFindNoWeights.union_find, step, handle_new_edges; Graph; Cluster; UnionFind"]}
{"id": "C35", "title": "Union-find decoding reproduces the syndrome", "statement": "For every decodable syndrome, the union-find decoder (growth followed by erasure decoding) selects edges whose boundary is exactly the syndrome.", "quantifier": "every decodable syndrome graph and syndrome", "why_tests_cant": "All graphs.", "anchors": ["src/plaquette/decoders/unionfind_decoder.py: UnionFindDecoder.decode", "src/plaquette/decoders/unionfind_interfaces.py: UnionFindInterface"]}
{"id": "C36", "title": "Success check is equality of logical toggles", "statement": "check_success reports success exactly when, for every logical operator, the correction's commutation sign with the operator equals the measured toggle; it is invariant under multiplying the correction by stabiliser generators.", "quantifier": "every code, correction and toggle", "why_tests_cant": "All codes.", "anchors": ["src/plaquette/decoders/decoderbase.py: check_success"]}
{"id": "C37", "title": "Effective edge probabilities", "statement": "Combining independent error probabilities with (1-q)p + q(1-p) gives exactly the probability of an odd number of errors, is order independent, stays in [0,1] (in [0,1/2] when all inputs are), and the weight -log(p/(1-p)) is positive exactly when p < 1/2 and strictly decreasing.", "quantifier": "every finite list of probabilities", "why_tests_cant": "Real numbers, unbounded lists.", "anchors": ["src/plaquette/syngraph/weights.py: WeightComputation._update_p_eff, get_edge_weights"]}
{"id": "C38", "title": "Gate error rows: the last one wins", "statement": "The dictionary made from the gate error table contains for each gate and qubit exactly the probabilities of the last row mentioning this gate and qubit; earlier rows have no influence.", "quantifier": "every gate error table", "why_tests_cant": "Unbounded tables.", "anchors": ["src/plaquette/errors/__init__.py: ErrorData.gate_errors_dict, add_gate_error"]}
{"id": "C39", "title": "Code equality is not an equivalence", "statement": "StabilizerCode.__eq__ is reflexive and symmetric, but it compares only the common prefix of the operator lists, so that it is not transitive and codes with different numbers of generators can compare equal.", "quantifier": "every pair/triple of codes", "why_tests_cant": "Relational law over all codes.", "anchors": ["src/plaquette/codes/__init__.py: StabilizerCode.__eq__"]}
{"id": "C40", "title": "Parallel and sequential stabiliser measurement agree", "statement": "For a code with a conflict-free schedule the parallel circuit consists of the same instructions (preparations, two-qubit gates, gate errors, measurements) as the sequential circuit in another order, with the same order of measurements.", "quantifier": "every code with a complete schedule", "why_tests_cant": "All codes and sizes.", "anchors": ["src/plaquette/circuit/generator.py: _measure_stabgens_seq, _measure_stabgens_pl"]}
{"id": "C41", "title": "State string round trip", "statement": "string_to_state applied to the strings made by state_to_stabiliser_string gives back the same tableau, in both string formats.", "quantifier": "every valid tableau of every size", "why_tests_cant": "Unbounded sizes and all stabiliser states.", "anchors": ["src/plaquette/pauli.py: string_to_state, state_to_stabiliser_string"]}
{"id": "C42", "title": "What string_to_state checks", "statement": "If string_to_state accepts stabilisers and destabilisers then the stabilisers commute, the destabilisers commute and each destabiliser anticommutes with its stabiliser; but the relations between different indices are never checked, so that invalid tableaus are accepted.", "quantifier": "every pair of lists of strings", "why_tests_cant": "All inputs; the dead branch is invisible to tests of accepted inputs.", "anchors": ["src/plaquette/pauli.py: string_to_state"]}
{"id": "C43", "title": "Device.run continues one sampler per Circuit object", "statement": "Successive Device.run calls on one Circuit object return the successive records of one Stim sampler; running another circuit restarts; a CircuitBuilder restarts on every call (so a fixed seed repeats one sample for ever) and gates appended after the first run are ignored.", "quantifier": "every circuit, batch size, seed and number of runs", "why_tests_cant": "Unbounded sequences of calls; a test with a single run sees nothing.", "anchors": ["src/plaquette/device/__init__.py: Device.run, Device.get_sample", "src/plaquette/device/_stimsim.py: StimSimulator"]}
{"id": "C44", "title": "The Stim circuit means the same as the plaquette circuit", "statement": "The converted circuit, read with Stim's rules, is the same probability distribution over sequences of gates, Paulis, measurements and erasures as the plaquette circuit; for every such sequence both produce the same results, flags and final state, the erasure flags being read off the ancilla.", "quantifier": "every circuit of supported instructions, every probability, every size", "why_tests_cant": "Statistical tests estimate a few probabilities on a few circuits; correlations and states of all circuits are out of reach.", "anchors": ["src/plaquette/device/_stimsim.py: circuit_to_stim, _append_equiprobable"]}
{"id": "C45", "title": "Interleaved parity measurements do not disturb each other", "statement": "With the default edge orders of the planar, toric and rotated planar lattices, for every two generators s and t the number of data qubits on which their factors anticommute and on which the gate of s is scheduled before the gate of t is even (the condition under which measuring all generators at once in the parallel circuit measures each of them).", "quantifier": "every size, every pair of generators, both rotated variants", "why_tests_cant": "All sizes and pairs; a wrong order gives random syndromes only in parallel circuits and only with anticommuting overlaps.", "anchors": ["src/plaquette/codes/latticeinstances.py: default orders, inverted_order", "src/plaquette/codes/latticebase.py: assign_stab_edge_order"]}
{"id": "C46", "title": "StabilizerCode.check accepts exactly the valid codes", "statement": "For operators of one width, check returns without exception if and only if all generators commute, logical operators commute with the generators, and logical X_i and Z_j anticommute exactly if i = j while X_i, X_j and Z_i, Z_j commute; otherwise it raises AssertionError.", "quantifier": "every list of generators and logical operators", "why_tests_cant": "Both directions for all operator lists; tests only run it on valid codes.", "anchors": ["src/plaquette/codes/__init__.py: StabilizerCode.check"]}
{"id": "C47", "title": "Samples of memory experiments show the errors that happened", "statement": "A memory experiment (generate, run on the Clifford backend, unpack) ends with a sample; there is a history of Pauli errors, erasures and wrong results, each of positive probability in the given error data, such that the syndrome of a round is the commutation of the errors of the round with the generators plus wrong results before and after, a logical operator toggles if an odd number of errors anticommute with it, and the reported erasures are those of the history.", "quantifier": "every code, error data without gate errors, number of rounds, stream of random numbers", "why_tests_cant": "Unbounded codes, rounds, error rates and all random histories.", "anchors": ["src/plaquette/circuit/generator.py: generate_qec_circuit", "src/plaquette/device/_circuitsim.py: CircuitSimulator", "src/plaquette/device/__init__.py: MeasurementSample.from_code_and_raw_results"]}
{"id": "C48", "title": "Error data is accepted exactly if it names existing qubits and known errors", "statement": "The generator accepts error data exactly if its entries are for existing data qubits and ancillas and its parameters have known names; with probabilities as values the circuit exists and the Clifford backend runs it without exception.", "quantifier": "every code, error data of all kinds, choice of logical operators", "why_tests_cant": "All error dictionaries and codes.", "anchors": ["src/plaquette/errors/__init__.py: check_against_code", "src/plaquette/circuit/generator.py: generate_qec_circuit"]}
{"id": "C49", "title": "Built-in codes and codes from operators can be used for memory experiments", "statement": "The planar, toric, rotated, repetition, five-qubit and Shor codes of every size satisfy what the theorems on memory experiments need (lattice and operators agree, generators commute, interleaved schedules do not disturb each other); from_operators returns a code with exactly the given operators up to signs.", "quantifier": "every size; every list of operators", "why_tests_cant": "Unbounded sizes; all lists of operators.", "anchors": ["src/plaquette/codes/__init__.py: LatticeCode, from_operators", "src/plaquette/codes/latticeinstances.py"]}
{"id": "C50", "title": "Components of the syndrome graph are connected components and can be decoded separately", "statement": "The components of a syndrome graph are exactly the connected components of its active edges, each with the right vertices, edges, weights, syndrome and erasure; a selection of active edges explains a syndrome exactly if it does so in every component, and the results of the components become the results of the edges.", "quantifier": "every code with graph-like errors, number of rounds, weights, syndrome, erasure and decoder results", "why_tests_cant": "Unbounded graphs and all decoder results.", "anchors": ["src/plaquette/syngraph/__init__.py: SyndromeGraph._init_conn_components, _init_components_objects, _find_connected_component, set_syndrome, set_erasure"]}
{"id": "C51", "title": "The union-find decoder interface finds a correction exactly when there is one", "statement": "Decoding with an interface object, new or used, returns a correction exactly if the syndrome is caused by some errors with weights which are not infinite; the correction is then the product of errors which cause the syndrome, so that it anticommutes with a generator exactly if the syndrome bits of the generator have odd parity. Otherwise there is a ValueError, and an AssertionError for arrays of the wrong shape. The object can be used again.", "quantifier": "every list of graph-like generators, number of rounds, weights, interface object after any number of calls, erasure and syndrome", "why_tests_cant": "Unbounded graphs, syndromes and histories of calls.", "anchors": ["src/plaquette/decoders/decoderbase.py: ComponentDecoder, DecoderInterface", "src/plaquette/decoders/unionfind_interfaces.py: UnionFindBase"]}
{"id": "C52", "title": "Which weights the decoder interfaces accept", "statement": "The interface object is made exactly if the weights of every connected component with edges are all missing or, for the class with weights, finite, nonnegative and not all zero; otherwise there is a ValueError. So both classes work without weights, the class with weights works with positive weights, and UnionFindNoWeights refuses every weighted graph, although it is documented to ignore weights.", "quantifier": "every list of graph-like generators, number of rounds and weights", "why_tests_cant": "All weights and graphs.", "anchors": ["src/plaquette/decoders/unionfind_interfaces.py: UnionFindBase.set_syngraph", "src/plaquette/decoders/decoderbase.py: check_weights_sane", "src/plaquette/decoders/unionfind_interfaces.py: UnionFindNoWeights"]}
{"id": "C53", "title": "Memory experiments can be decoded and the success check is right", "statement": "For every sample of a memory experiment with a Clifford simulator the decoder finds a correction which together with the errors that happened commutes with all generators, and check_success is true exactly if errors and correction together commute with the logical operators of the experiment.", "quantifier": "every code with graph-like generators, errors on data qubits and results, number of rounds, stream of random numbers, weights allowing the errors", "why_tests_cant": "All codes, error histories and random numbers.", "anchors": ["src/plaquette/decoders/decoderbase.py: DecoderInterface.decode, check_success", "src/plaquette/device/__init__.py: Device.run", "src/plaquette/circuit/generator.py: generate_qec_circuit"]}
{"id": "C54", "title": "Every built-in code can be decoded", "statement": "Every single X or Z error of the planar, toric, rotated (CSS and XZZX) and repetition codes of every size and of the five-qubit and Shor codes flips at most two generators, so the syndrome graph and a union-find decoder exist for every number of rounds, and every memory experiment on these codes is decoded and checked correctly.", "quantifier": "every size, number of rounds, errors on data qubits and results, stream of random numbers", "why_tests_cant": "All sizes, numbers of rounds and error histories.", "anchors": ["src/plaquette/codes/__init__.py: make_planar, make_toric, make_rotated_planar, make_repetition, make_five_qubit, make_shor", "src/plaquette/syngraph/__init__.py: SyndromeGraph.__init__", "src/plaquette/decoders/decoderbase.py: DecoderInterface"]}
{"id": "C55", "title": "Decoders made from a code and error data", "statement": "DecoderInterface.from_code replaces exactly the missing and zero Pauli probabilities of the data qubits in the dictionary it is given by 1e-15. For error data without gate errors whose effective probabilities are below 1/2 it gives a decoder with weights which decodes and checks every memory experiment with this error data correctly; without weights there is a decoder for every graph-like code. The argument weights is never accepted, and the default arguments never work for UnionFindNoWeights.", "quantifier": "every code with graph-like generators, error data, number of rounds, stream of random numbers, rounding of the logarithm", "why_tests_cant": "All codes, probabilities and error histories.", "anchors": ["src/plaquette/decoders/decoderbase.py: DecoderInterface.from_code", "src/plaquette/syngraph/__init__.py: SyndromeGraphManager", "src/plaquette/syngraph/weights.py"]}
{"id": "C56", "title": "Tables of qubit errors", "statement": "The dictionary made from the table of qubit errors contains exactly the enabled columns: Pauli errors and erasures of data qubits, measurement errors of ancillas; the probabilities used in circuits are the cells of the table and 0 for disabled errors. An enabled error without column raises KeyError. add_qubit_error and update_qubit_error change exactly the given cells, the last value for a qubit winning, and refuse existing respectively missing columns and arguments of different kinds or lengths. Tables of probabilities for the qubits of a code, in particular the default table of from_lattice, pass the checks, so that every memory experiment with them works.", "quantifier": "every table, set of enabled errors, code, stream of random numbers", "why_tests_cant": "Unbounded tables and codes.", "anchors": ["src/plaquette/errors/__init__.py: ErrorData.qubit_errors_dict, error_data_dict, add_qubit_error, update_qubit_error, from_lattice"]}
{"id": "C57", "title": "Gate errors from configurations", "statement": "A configuration of gate errors gives every ancilla (for H, M, R) or every pair of an ancilla and a data qubit joined by an edge (for CX, CZ) exactly the last channel of the gate, and other qubits none; with a Gaussian distribution for H, M, R each ancilla gets its own number. Constants which are probabilities with the right names pass the checks. It is false that several channels of one gate act together, and that Gaussian distributions work for CX and CZ.", "quantifier": "every lattice and configuration", "why_tests_cant": "Unbounded lattices and lists of channels.", "anchors": ["src/plaquette/errors/__init__.py: assimilate_gate_errors, ErrorData.from_lattice", "src/plaquette/frontend/__init__.py: _GateErrorMetadata"]}
{"id": "C58", "title": "Union-find decoding corrects few errors", "statement": "Let each selection of edges which causes no syndrome but changes the logical value have at least d edges. If the syndrome comes from an error on t edges which are not erased and any of s erased edges, and 3t + s < d, then the correction of the union-find decoder without weights changes the logical value in the same way as the error. With weights, the same holds if the lengths of the erased edges, and for each other error two more than twice its length, sum up to less than the shortest length of a logical error, where the length of an edge is the number of half steps which it needs to grow. It is false that 2t < d is enough.", "quantifier": "every graph with dangling edges, logical operator, error, erasure, weights, and every object of the decoder however often used", "why_tests_cant": "The guarantee is about all graphs and all errors up to a weight that grows with the distance.", "anchors": ["src/plaquette/decoders/unionfind_decoder.py: UnionFindNoWeights.step, union_find, UnionFind.set_weights, UnionFindDecoder.decode"]}
{"id": "C59", "title": "Union-find decoders correct few faults of a code", "statement": "For generators of any code, any number of rounds and any history of errors and wrong results (explained by the syndrome), a union-find decoder object without weights finds a correction, and if the faults which can change the value of a logical operator l cost less than the distance of the code with respect to l (3 for each unannounced X or Z error and each wrong result, 1 for each erased qubit, 3 if the error on an erased qubit cannot be told apart from another single error), errors and correction together commute with l. For decoders with the same weight for all errors, unannounced faults cost 5/2. Without erasures it is enough that fewer than a third of the distance faults happen. For CSS codes only one letter and the generators which detect it count. A memory experiment whose sample is shown by such a history is decoded with success.", "quantifier": "every list of generators with at most two detectors for each error, number of rounds, syndrome, erasure, error history, logical operator, and every decoder object however often used before", "why_tests_cant": "The guarantee covers all codes and all histories of faults up to a number which grows with the distance; the number of such histories is exponential.", "anchors": ["src/plaquette/decoders/decoderbase.py: ComponentDecoder, DecoderInterface.decode, check_success", "src/plaquette/decoders/unionfind_interfaces.py: UnionFindBase.decode, UnionFindNoWeights, UnionFindDecoder", "src/plaquette/decoders/unionfind_decoder.py: UnionFindNoWeights.step, UnionFind.set_weights", "src/plaquette/syngraph/__init__.py: SyndromeGraph"]}
{"id": "C60", "title": "The built-in codes have the distance of their size, and decoding corrects that many faults", "statement": "For every size d >= 2 (and both kinds of rotated codes), every operator which commutes with all generators of the planar, toric or rotated planar code but anticommutes with one of its logical operators acts on at least d qubits, and one acts on exactly d. The repetition code has distance d for its logical operator Z and 1 for X; the five-qubit code and the code of Shor have distance 3. The generators and logical operators of the CSS codes have letters of one kind, so only one kind of errors can change the value of a logical operator. Consequently every memory experiment on these codes with union-find decoders without weights, whose faults cost less than the distance (3 for an unannounced error or wrong result, 1 for an erased qubit), is decoded with success.", "quantifier": "every built-in code and every size, all operators on its data qubits; every run of the simulator, number of rounds, error probabilities without gate errors, choice of logical operators", "why_tests_cant": "The distance is a minimum over exponentially many operators, for infinitely many sizes, and the success of decoding is claimed for all histories of faults below it.", "anchors": ["src/plaquette/codes/latticeinstances.py: PlanarCodeLattice, ToricCodeLattice, RotatedPlanarCodeLattice, RepetitionCodeLattice, FiveQubitCodeLattice, ShorCodeLattice", "src/plaquette/codes/__init__.py: LatticeCode.make_planar, make_toric, make_rotated_planar, make_repetition, make_five_qubit, make_shor", "src/plaquette/decoders/decoderbase.py: check_success, DecoderInterface.decode", "src/plaquette/decoders/unionfind_interfaces.py: UnionFindNoWeights"]}
{"id": "C61", "title": "Matching decoders return most likely errors and correct fewer faults than half of the distance", "statement": "Given a library which finds minimum weight matchings, a PyMatching decoder without erased qubits returns the product of the errors of a history which explains the syndrome and has minimum weight among all which do, and raises ValueError if there is none. If twice the weight of the faults which can change the value of a logical operator is less than the weight of every operator which commutes with the generators but not with the logical operator, errors and correction together commute with it; without weights: if the number of faults is less than half of the distance. Erased qubits are refused with ValueError. Fusion Blossom decoders without weights or with equal weights correct faults which cost less than the distance (2 for an unannounced fault, 1 for an erased qubit); with other weights the result exceeds the minimum by at most a hundredth of the largest weight per fault. Decoders can be made for all weights which are not negative (Fusion Blossom: positive). Every memory experiment on a built-in code with fewer faults than half of its distance is decoded with success.", "quantifier": "every solver which satisfies the contract of the library, every code with a syndrome graph, weights, numbers of rounds, syndromes, erasures, error histories, calls in any order; every run of the simulator for the built-in codes", "why_tests_cant": "Minimality is a statement about all of the exponentially many histories which explain a syndrome, and correction is claimed for all codes and histories below the bound.", "anchors": ["src/plaquette/decoders/matching.py: PyMatchingDecoder", "src/plaquette/decoders/fusionblossom.py: FusionBlossomDecoder", "src/plaquette/decoders/interfaces.py: PyMatchingDecoder, FusionBlossomDecoder", "src/plaquette/decoders/decoderbase.py: ComponentDecoder, DecoderInterface, check_weights_sane"]}
{"id": "C62", "title": "Measurements of single qubits in the X or Z base, and their destructive form", "statement": "A measurement of a list of qubits in the X or Z base measures them one after the other, the largest index first, each outcome being the one the state determines, the asked one, or a random bit, and returns the outcomes in the order of the list; afterwards every qubit has its outcome, and operators which commute with the measured ones keep their values. A destructive measurement of one qubit gives the same outcome and leaves a tableau of the other qubits; the measured state is the product of an eigenstate of the measured qubit and the state which this tableau describes. Although its destabilisers need not commute, all later operations and measurements give the same stabilisers, outcomes and draws as those of a valid tableau. Destructive measurements of several qubits always raise ValueError, and insertion of a qubit never returns a valid tableau.", "quantifier": "every number of qubits, valid state, list of targets (in any order, with repetitions), forced outcomes and random numbers; every later sequence of operations", "why_tests_cant": "The claims compare state vectors of every size and all later executions; tests of the package look at a few tableaux of few qubits.", "anchors": ["src/plaquette/pauli.py: _measure_base, measure_x_base, measure_z_base, _ptrace, insert_qubit_at, append_qubit"]}
{"id": "C63", "title": "Configurations of experiments are what dictionaries say, and invalid ones are refused", "statement": "An experiment can be made from a dictionary if and only if each section satisfies the stated conditions (names among the valid ones, sizes and rounds not negative, shots positive, paths of existing folders and files, distributions with the right number of parameters), and then every attribute is the value of its entry or the default. This does not depend on the order in which sets of names are read. The simulated errors are exactly the enabled errors which are not empty. An object made from the dictionary of an object is the same object. An update sets the given attributes and raises if and only if the result is invalid. The schema accepts exactly the stated configurations, and a file is loaded if and only if the schema accepts it and an experiment can be made. Where the documentation promises more (positive sizes, checks of gate errors and updates, defaults, dictionaries of experiments, checks of error sections by the schema) this is refuted.", "quantifier": "every dictionary of Python values of any depth, every state of the file system, every order of the names, every list of updates", "why_tests_cant": "Configurations are an infinite set of nested values; tests try a few of them, and the interplay of defaults, mutation and validation shows only for the others.", "anchors": ["src/plaquette/frontend/__init__.py: CodeConfig, QubitErrorsConfig, GateErrorsConfig, ErrorsConfig, CircuitConfig, DeviceConfig, DecoderConfig, ExperimentConfig, load_toml, load_json", "src/plaquette/frontend/schemas.py"]}
{"id": "C64", "title": "Experiments are built and run as configured", "statement": "For usable configurations the table of errors has one row for each qubit of the lattice, a column exactly for each enabled error, and in each cell the value which the constant, normal or user-defined distribution gives; the table of gate errors has exactly the rows which the channels of the enabled gates or the file give. Building an experiment ends without an error for every built-in code, valid probabilities, readable logical operators and every decoder; the dictionary of errors has the configured probabilities, the circuit is the one of the memory experiment with these errors, and the decoder has their weights or none. The loop over any number of shots ends without an error; a shot is a success if and only if errors and correction together commute with the logical operators, and the rate is the share of failures. Refuted: run returns a rate (it always returns None), no sampling means no errors, numbers outside of [0, 1] are refused, gate errors can be combined with weights, general options are optional.", "quantifier": "every configuration, file of errors, normal random numbers, order of sets, built-in code, size, number of rounds and shots, state of the simulator and sequence of random draws", "why_tests_cant": "There are infinitely many configurations and random sequences, and a test of a rate cannot tell whether each shot was judged correctly.", "anchors": ["src/plaquette/frontend/__init__.py: instantiate methods, ExperimentConfig.build, ExperimentConfig.run", "src/plaquette/errors/__init__.py: ErrorData.from_lattice, assimilate_qubit_errors, assimilate_gate_errors"]}
{"id": "C65", "title": "The stabiliser groups of the built-in codes are complete", "statement": "For every built-in code an operator commutes with all generators and all logical operators if and only if it is a product of generators; an operator which commutes with all generators and with some logical operators is a product of generators and of logical operators which commute with these. Planar, toric and rotated codes of size d have distance d: an operator which no generator detects is a product of generators or acts on d qubits or more, and one which is not a product acts on exactly d. The distance is 3 for the five-qubit and Shor codes and 1 for the repetition code. No generator is a product of the others, except for the toric code, where each generator is. A correction with the syndrome of the error is judged a success for all logical operators exactly if it is the error up to generators, and after a successful memory experiment errors and correction differ by generators and logical operators which do not change what was read.", "quantifier": "every built-in code of every size, every operator, correction and error, every memory experiment", "why_tests_cant": "The number of operators grows exponentially with the number of qubits and there are infinitely many sizes.", "anchors": ["src/plaquette/codes/__init__.py: StabilizerCode, LatticeCode", "src/plaquette/codes/latticeinstances.py: the lattices of the built-in codes", "src/plaquette/decoders/decoderbase.py: check_success"]}
{"id": "C66", "title": "The simulator gives every result with its chance by Born's rule", "statement": "Over all values of the random numbers which the simulator draws, the share of those with which a circuit gives a list of measurement results and of erasures is exactly the chance of these: each measurement or reset has the chances of Born's rule, DEPOLARIZE each Pauli operator with 1/3, E_PAULI, E_PAULI2 and E_ERASE the probabilities of their arguments and an erasure each Pauli operator with 1/4, and the branches of an error block are chosen with their probabilities, the later ones only if no earlier one was. More generally the mean of every function of the results is its expected value. Every circuit which runs without an exception and has probabilities between 0 and 1 is covered.", "quantifier": "every valid circuit with rational probabilities, every function of the results, every earlier state of the simulator, every number of calls of the random generator which suffices", "why_tests_cant": "A test estimates a few frequencies with a statistical error; exact distributions over all random numbers and all circuits cannot be sampled.", "anchors": ["src/plaquette/device/_circuitsim.py: CircuitSimulator", "src/plaquette/pauli.py: measure, reset_qubits_to_eigenstate"]}
{"id": "C67", "title": "Memory experiments give every result with the chance of the errors which show it", "statement": "Over all values of the random numbers which the simulator draws, the mean of every function of the syndrome, the changes of the logical operators and the erasures of a memory experiment is the sum over all histories of errors of the chance of the history times the value for the syndrome, changes and erasures which the history shows. A history names for every round and data qubit the Pauli error and, if it is erased, the random Pauli operator, and for every round the flipped results; its chance is the product of the probabilities of the error data (1/4 for each operator on an erased qubit), with no flipped results in the last round. The chances of the histories are not negative and their sum is 1. So the share of the random numbers with which a decoder of any kind succeeds is the chance of the histories which it corrects.", "quantifier": "every code with valid stabiliser generators and logical operators, all error data on data qubits and measurements with rational probabilities, every choice of compatible logical operators, with and without ancillas, every number of rounds, every function of the results", "why_tests_cant": "A test compares a sampled rate with an expectation for one code and one noise strength, with a statistical error; the exact distribution over all histories, random numbers and codes cannot be enumerated.", "anchors": ["src/plaquette/circuit/generator.py: QECCircuitGenerator, generate_qec_circuit", "src/plaquette/device/__init__.py: MeasurementSample.from_code_and_raw_results", "src/plaquette/device/_circuitsim.py: CircuitSimulator"]}
{"id": "C68", "title": "The logical error rate is the chance of uncorrected errors and falls with the distance", "statement": "Over all values of the random numbers, the share of the runs of a memory experiment after which the decoder does not restore the logical operators is exactly the sum of the chances of the histories of errors on which decoding fails, whatever the decoder. For the planar, toric, rotated planar and repetition codes of every size, the five-qubit code and the code of Shor this rate is at most the chance of the histories whose faults cost as much as the distance of the code: an erased qubit costs 1, an error or wrong result costs 3 with the Union-Find decoders without weights and 2 with Fusion Blossom and, without erasures, PyMatching. Without erasures, for every y >= 1 and every k with 3(k-1) < distance (Union-Find) or 2(k-1) < distance (matching), the rate times y^k is at most the product over rounds, qubits and results of the mean of y to the power of the number of faults, so it is of the order of the error probability to the power of a third or half of the distance.", "quantifier": "every built-in code, size, number of rounds, decoder class without weights, minimum-weight matching library, all error data on data qubits and measurements, with and without ancillas, every choice of compatible logical operators, every y and k", "why_tests_cant": "Tests sample error rates for a few sizes with statistical errors and cannot see rates like 10^-8 or 10^-12 at all; the bound holds for all sizes and probabilities.", "anchors": ["src/plaquette/decoders/unionfind_interfaces.py: UnionFindNoWeights", "src/plaquette/decoders/interfaces.py: PyMatchingDecoder, FusionBlossomDecoder", "src/plaquette/decoders/decoderbase.py: check_success", "src/plaquette/circuit/generator.py: generate_qec_circuit", "src/plaquette/device/_circuitsim.py: CircuitSimulator"]}
{"id": "C69", "title": "The statistics of the syndrome graph count errors, generators and connected components", "statement": "For every code whose X and Z errors flip at most two generators each, every number of rounds and all admissible weights: the graph has rounds times generators vertices, 2 n edges of qubit errors per round and one edge per generator between two rounds; the numbers of 2-, 1- and 0-edges are the numbers of errors which flip two, one or no generators (plus the measurement errors) and add up to all edges. The disabled edges are the inactive ones. n_comp is the number of connected components of the active edges; the lists give the numbers of vertices and active edges of the components with edges, in the same order; the trivial components are exactly the vertices without active edges; the sums of the lists and these vertices give all vertices and all active edges with vertices.", "quantifier": "all codes, numbers of rounds and weights accepted by SyndromeGraph, before and after any use of the object", "why_tests_cant": "Tests compare the printed numbers for a few small codes; they cannot show that the bookkeeping of components agrees with connectivity for every code and choice of weights.", "anchors": ["src/plaquette/syngraph/__init__.py: SyndromeGraph.get_statistics, format_statistics, _init_conn_components"]}
{"id": "C70", "title": "Running a circuit step by step equals running it at once", "statement": "run executes the instructions in order, each one once, up to the first exception, and always ends. k steps of a new iterator execute exactly the first k instructions. An interrupted iteration which is continued with next, even after more instructions were appended to the circuit, gives the same as a run of the whole circuit; a new iterator begins with the first instruction again and keeps the state. After the last instruction next changes nothing but the pointer. After reset the results do not depend on earlier uses, only on the position of the random generator, if the circuit does not begin within an error block; otherwise they do.", "quantifier": "all circuits, states of the simulator, random numbers, numbers of steps and ways to divide the run", "why_tests_cant": "Tests step through single circuits; the equality holds for all circuits, interruptions and continuations.", "anchors": ["src/plaquette/device/_circuitsim.py: CircuitSimulator.__iter__, __next__, run, reset"]}
{"id": "C71", "title": "Files with gate errors are read as the tables which they describe", "statement": "Splitting at a delimiter is the inverse of joining. A documented CSV file of gate errors (lists separated by bars) is read as exactly the table it describes if some row has several qubits and some row has several probabilities, and raises AttributeError otherwise, as pandas turns a column of single numbers into numbers. from_csv and update_from_csv replace or extend the table and enable all its gates. A file which save_to_csv has written never can be read again if there are gate errors.", "quantifier": "all tables of gate errors, all readers of numbers with the stated contract", "why_tests_cant": "The tests read one file, in which all columns happen to have lists; they never read a file with single qubits or one which was saved.", "anchors": ["src/plaquette/errors/__init__.py: delimited_string_list_to_series, ErrorData.from_csv, ErrorData.update_from_csv, ErrorData.save_to_csv"]}
{"id": "C72", "title": "apply_operator never works; pprint_state prints the state", "statement": "apply_operator raises an exception for all arguments, TypeError for the documented ones. The lines after the wrong check would multiply every row of the state by the operator (or by its own operator), and raise ValueError for wrong sizes; even so the result would not be a state in general. The lines of the text printed by pprint_state are the headings and the generators, from which the state can be read again.", "quantifier": "all arrays; all states of any number of qubits, both forms of text", "why_tests_cant": "There is no test of apply_operator; the round trip holds for all states.", "anchors": ["src/plaquette/pauli.py: apply_operator, pprint_state"]}
{"id": "C73", "title": "Figures show the lattice, the syndrome, errors and corrections", "statement": "For every consistent lattice with X and Z factors, draw_latticedata returns a figure with one marker for every vertex (for every data qubit, without stabilisers) in the style of its kind, group and syndrome bit, or coloured by its own error probability; one marker for every wanted X or Z factor of the error and of the correction, beside its qubit; one line for every edge; every entry of the legend once; and leaves the visualizer as it was. draw_lattice is the same without data. Wrong syndromes and frames with one dimension are refused. With a Y factor nothing can be drawn, and after an attempt in grey no grey figure any more. The program which CircuitVisualizer loads does what the circuit does.", "quantifier": "all consistent lattices, probabilities, syndromes, errors, corrections and options", "why_tests_cant": "Tests only call the functions; what is in the figure is checked by nobody, and never for more than a few codes.", "anchors": ["src/plaquette/visualizer/__init__.py: LatticeVisualizer, CircuitVisualizer.__init__"]}
{"id": "C74", "title": "Errors act on results as Pauli frames, also in memory experiments with gate errors", "statement": "For every circuit whose error blocks contain only Pauli operators, depolarising and error channels, the results have the distribution of the results of the same circuit without its errors, each flipped if the frame (which X and Z the errors leave on each qubit, carried through H, CX, CZ and removed by resets) has an X on the measured qubit; the erasures are those of the channels. Parities of results which are certain without errors therefore have the distribution of the parities of the flips. For every memory experiment with any errors of data qubits, erasures, measurement errors and errors of the gates R, H, M, CX and CZ, the circuit without its errors is the circuit generated without errors, and syndrome, logical changes and erasures have the distribution of the sample read from the flips alone.", "quantifier": "all circuits of any size with probabilities which are multiples of 1/N, all functions of results; all codes, numbers of rounds, error data, logical operators and modes of reading", "why_tests_cant": "The claim is about the exact distribution over all sequences of random numbers, for circuits and codes of every size; statistical tests of single circuits neither see small deviations nor other circuits.", "anchors": ["src/plaquette/device/_circuitsim.py", "src/plaquette/circuit/generator.py:149-195", "src/plaquette/device/__init__.py:215-285"]}
{"id": "C75", "title": "Samples of memory experiments with gate errors are explained by data errors and wrong results, and can be decoded", "statement": "For every code, every configured errors (data qubits, erasures, measurements and the gates R, H, M, CX and CZ, which spread over several qubits) and every stream of random numbers: the syndromes and logical changes of the sample are those of some Pauli errors on data qubits and some wrong results of generators, with no wrong results in the first and last round. So one Pauli operator on the data qubits decides both the parity of the syndromes of every generator over all rounds and the change of every logical operator; generators whose product is the identity have an even number of ones; and the union-find decoder ends with a correction that makes the residual operator commute with all generators, with the success check telling whether it commutes with the logical operators.", "quantifier": "all experiment codes of any size, numbers of rounds, error data with gate errors, logical operators, ways of reading them, random streams, decoder weights which are not infinite", "why_tests_cant": "Gate errors spread over qubits in the middle of a round in exponentially many ways; tests see some of them for some codes.", "anchors": ["src/plaquette/circuit/generator.py:149-195", "src/plaquette/device/__init__.py:215-285", "src/plaquette/decoders/unionfind_interfaces.py", "src/plaquette/device/_circuitsim.py"]}
{"id": "C76", "title": "Union find with split edges", "statement": "For every graph with ordinary and dangling edges, an object of a union-find class with split_edges set can be made; its growth ends for all erasures and syndromes, and if some selection of edges explains the syndrome, the edges both of whose halves are complete contain the erased ones and each of their components has a dangling edge or an even number of syndrome bits, so that the decoder returns a correction which explains the syndrome; otherwise AssertionError is raised. This holds for new objects (at most 4 m + 1 steps) and for objects after any number of calls. Setting one weight for each edge, as for other objects, always raises AssertionError (refuted claim).", "quantifier": "all well-formed graphs of any size, all erasures and syndromes, all sequences of calls", "why_tests_cant": "No class of the repository sets split_edges, so no test runs these branches; graphs and call sequences are unbounded.", "anchors": ["src/plaquette/decoders/unionfind_decoder.py:305-353", "src/plaquette/decoders/unionfind_decoder.py:388-416", "src/plaquette/decoders/unionfind_decoder.py:560-615"]}
{"id": "C77", "title": "Experiments with gate errors from configuration to shots", "statement": "An experiment whose configuration has errors of gates, preparations or measurements with valid names and probabilities (constants between 0 and 1 with Pauli names of the right length are enough) and a decoder without weights is built, the errors of its circuit are those of the tables, and any number of shots ends with every decoder: each sample is what some errors on data qubits and some wrong results of generators give, and the shot is a success if and only if these errors and the correction together commute with the logical operators.", "quantifier": "all usable configurations, codes, rounds, random draws, decoders satisfying their contracts, and numbers of shots", "why_tests_cant": "Gate errors spread over several qubits in ways which depend on draws; configurations, sizes and sequences of shots are unbounded.", "anchors": ["src/plaquette/frontend/__init__.py:2144-2276", "src/plaquette/circuit/generator.py:149-239", "src/plaquette/errors/__init__.py:813-852"]}
{"id": "C78", "title": "States from stabilisers alone", "statement": "Without destabilisers, string_to_state computes them by a pseudo-inverse and cuts off fractions. An accepted state has the given stabilisers, which commute, and as many destabilisers as qubits, which commute and anticommute with their stabilisers. For as many commuting X and Z operators on single qubits as there are qubits and an exact pseudo-inverse, the destabilisers are the same operators with X and Z exchanged and the tableau is valid. The claim that appropriate destabilisers are computed is refuted otherwise: if all entries of a row of the pseudo-inverse are less than one, the state is never accepted; operators without common entries one of which has two entries (Bell state, a single Y) raise ValueError; and so does a single Z if the pseudo-inverse is less than one by a rounding error.", "quantifier": "all lists of stabilisers on any number of qubits, all pseudo-inverses within the stated error", "why_tests_cant": "The doctests use single operators only; stabiliser lists and numbers of qubits are unbounded, and rounding depends on the linear algebra library.", "anchors": ["src/plaquette/pauli.py:1059-1160"]}
{"id": "C79", "title": "Union find with chosen growth increments", "statement": "With choose_growth_increment_enabled and weights set, the increment of a cluster is the least that an incomplete edge at its boundary lacks, and every step of union find completes an edge, so that for each graph with m edges at most m + 1 steps are made, whatever the weights are. If some selection of edges explains the syndrome, the grown edges contain the erased ones, each of their components has a dangling edge or an even number of syndrome bits, and the decoder returns a correction which explains the syndrome; otherwise AssertionError is raised. This holds for objects after any sequence of calls and changes of weights. The claim that weights determine the growth is refuted: the chosen increment replaces the one of the edge, so that the weights have no effect.", "quantifier": "all well-formed graphs of any size, all weights which are not negative, all erasures and syndromes, all sequences of calls", "why_tests_cant": "No class of the repository switches the choice on, so no test runs it; graphs, weights and sequences of calls are unbounded.", "anchors": ["src/plaquette/decoders/unionfind_decoder.py:617-679"]}
{"id": "C80", "title": "Normalisation of the weights of union find", "statement": "Weights multiplied by any positive number are accepted or refused alike, and union find then grows the same edges and returns the same correction or raises the same exception, for every graph, erasure and syndrome: only ratios of weights matter. The setter of normalization_coefficient keeps exactly the numbers which are not negative. The claim that an accepted coefficient keeps the effect of the weights is refuted: zero is accepted, and then any two arrays of weights give the same decoder.", "quantifier": "all graphs of any size in any state, all coefficients, all rational weights, all erasures and syndromes, all numbers of steps", "why_tests_cant": "Tests use a few fixed weights on small codes; graphs, weights and factors are unbounded, and no test sets the coefficient to zero.", "anchors": ["src/plaquette/decoders/unionfind_decoder.py:583-611", "src/plaquette/decoders/unionfind_decoder.py:709-717"]}
{"id": "C81", "title": "Gaussian errors are probabilities", "statement": "For each mean from 0 to 1, each deviation above 0 and up to 1 and any number of qubits, generate_gaussian_errors returns one number for each qubit, all of them from 0 to 1, if the library draws standard variates between the bounds it is given; the bounds are in the right order and cut off no probability. ValueError is raised exactly for a mean or a deviation which is not from 0 to 1. The documented range of the deviation is refuted: zero is accepted by the check, and then ZeroDivisionError is raised.", "quantifier": "all means and deviations, all numbers of qubits, all libraries which draw between the bounds", "why_tests_cant": "The test draws random numbers for 400 pairs of positive parameters; parameters and draws are unbounded, and a deviation of zero is not tried.", "anchors": ["src/plaquette/errors/__init__.py:201-235"]}
{"id": "C82", "title": "Cached indices of the full code", "statement": "For each lattice reached by any operations whose indices are assigned, cache_full_code_indices maps the position of each data qubit and ancilla to the number of the qubit and has no other entries. After any fabrication errors, whether they raise an exception or not, the position of each remaining data qubit and ancilla gives the number which that qubit had in the full code.", "quantifier": "all lattices of any size reached by any sequence of operations, all fabrication errors and settings", "why_tests_cant": "No test calls the method; lattices, sequences of operations and sets of faulty qubits are unbounded.", "anchors": ["src/plaquette/errors/__init__.py:1120-1133", "src/plaquette/codes/latticebase.py:781-831"]}
{"id": "C83", "title": "Updates of the table of qubit errors", "statement": "update_from_csv without overwriting replaces the numbers of the table by those which the file has for the same qubit and error, keeps all others, adds the new columns of the file and never adds rows, changes gate errors or enables errors; a file with distinct qubits and known columns is always accepted. Two claims are refuted: a new column of the file has an effect (it is not enabled, so that the errors do not contain it), and update changes the object (with any table it raises ValueError, because a DataFrame has no truth value).", "quantifier": "all tables with distinct labels and columns, all files, any number of qubits, rows and columns", "why_tests_cant": "Tables and files are unbounded, and the tests of both methods are skipped.", "anchors": ["src/plaquette/errors/__init__.py:735-796"]}
{"id": "C84", "title": "Overwriting the table of qubit errors", "statement": "After update_from_csv with overwrite=True, a file which has the qubits 0, 1, 2 and so on in this order gives the errors of its table. The claim for other files is refuted: rows are then found by their position instead of the number of the qubit. If some qubit has a number which is not less than the number of rows and an error is enabled, KeyError is raised when the errors are read; if the qubits are in another order, qubits get the probabilities of other qubits and ancillas are taken for data qubits.", "quantifier": "all files of any size, all enabled errors", "why_tests_cant": "The test of the method is skipped; files are unbounded, and those which are written by this package have the qubits in order.", "anchors": ["src/plaquette/errors/__init__.py:770-790", "src/plaquette/errors/__init__.py:868-911", "src/plaquette/errors/__init__.py:397-401"]}
{"id": "C85", "title": "Saving and loading the table of qubit errors", "statement": "A table of qubit errors which is saved by save_to_csv can be loaded by from_csv: the loaded table is well-formed, qubits, their types and all numbers are the same, and the errors are those of the saved table with all columns enabled, although the file has the column qubit_id twice. The claim that disabled errors stay disabled is refuted, and the loaded table has one column more.", "quantifier": "all well-formed tables of any size whose error columns are not called qubit_id, qubit_id.1 or qubit_type", "why_tests_cant": "Tables are unbounded; a test can only save some of them.", "anchors": ["src/plaquette/errors/__init__.py:848-865", "src/plaquette/errors/__init__.py:408-455", "src/plaquette/errors/__init__.py:397-401", "src/plaquette/errors/__init__.py:868-911"]}
{"id": "C86", "title": "Generated files of qubit errors", "statement": "The file which generate_empty_qubit_errors_csv writes for a lattice can be loaded by from_csv: the loaded table has all data qubits and then all ancillas in order, zero for each of them in each given column, and exactly the given errors are enabled. In general a table written without its index is loaded unchanged. Names of errors which are not known raise ValueError.", "quantifier": "all lattices with consistent indices and some stabilisers, all sets of distinct names of errors with numbers", "why_tests_cant": "Lattices are unbounded; the docstring has one example of five qubits.", "anchors": ["src/plaquette/errors/__init__.py:260-298", "src/plaquette/errors/__init__.py:301-354", "src/plaquette/errors/__init__.py:408-455", "src/plaquette/errors/__init__.py:397-401"]}
