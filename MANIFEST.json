{
 "claims": [
  {
   "property": "C01",
   "status": "proved",
   "theorems": [
    "C01_gates_conjugate",
    "C01_control_equals_target_refuted"
   ],
   "note": "All seven gates; control = target refuted by a witness."
  },
  {
   "property": "C02",
   "status": "proved",
   "theorems": [
    "C02_multiply",
    "C02_multiply_three_refuted"
   ],
   "note": "Two operators, phase exact; three or more refuted."
  },
  {
   "property": "C03",
   "status": "proved",
   "theorems": [
    "C03_commutator_sign"
   ],
   "note": ""
  },
  {
   "property": "C04",
   "status": "proved",
   "theorems": [
    "C04_validity",
    "C04_validity_step"
   ],
   "note": ""
  },
  {
   "property": "C05",
   "status": "proved",
   "theorems": [
    "C05_random_measurement"
   ],
   "note": ""
  },
  {
   "property": "C06",
   "status": "proved",
   "theorems": [
    "C06_deterministic_measurement",
    "C06_identity_raises"
   ],
   "note": ""
  },
  {
   "property": "C07",
   "status": "proved",
   "theorems": [
    "C07_repeatable"
   ],
   "note": ""
  },
  {
   "property": "C08",
   "status": "proved",
   "theorems": [
    "C08_reset"
   ],
   "note": ""
  },
  {
   "property": "C09",
   "status": "proved",
   "theorems": [
    "C09_run_refines_born",
    "C09_run_total"
   ],
   "note": "All gates incl. error blocks; each result certain or a fair coin (SimSpec.outcome). Totality for valid circuits."
  },
  {
   "property": "C10",
   "status": "proved",
   "theorems": [
    "C10_round_trip",
    "C10_round_trip_padded",
    "C10_identity_raises",
    "C10_separators",
    "C10_unknown_character_refuted",
    "C10_too_few_qubits_refuted",
    "C10_mixed_forms_refuted"
   ],
   "note": "Both forms; identity raises ValueError in both. Docstring promises about rejected inputs refuted."
  },
  {
   "property": "C11",
   "status": "proved",
   "theorems": [
    "C11_operator_round_trip",
    "C11_identity_raises",
    "C11_dictionary_round_trip",
    "C11_padding",
    "C11_unknown_value_refuted"
   ],
   "note": "The dictionary discards the sign."
  },
  {
   "property": "C12",
   "status": "proved",
   "theorems": [
    "C12_tensor_states",
    "C12_tensor_many",
    "C12_tensor_operators",
    "C12_operator_action",
    "C12_associative",
    "C12_mixed_raises"
   ],
   "note": ""
  },
  {
   "property": "C13",
   "status": "proved",
   "theorems": [
    "C13_text_round_trip",
    "C13_text_is_append_calls"
   ],
   "note": "Float text is a parameter pair with the round-trip hypothesis."
  },
  {
   "property": "C14",
   "status": "proved",
   "theorems": [
    "C14_number_of_qubits",
    "C14_number_of_qubits_least",
    "C14_result_count",
    "C14_number_measured",
    "C14_least_nested_refuted"
   ],
   "note": "Leastness refuted when an E_* gate is nested in an error instruction."
  },
  {
   "property": "C15",
   "status": "proved",
   "theorems": [
    "C15_one_branch",
    "C15_outside_rejected"
   ],
   "note": ""
  },
  {
   "property": "C16",
   "status": "proved",
   "theorems": [
    "C16_export_meaning",
    "C16_unsupported_refused",
    "C16_reset_dropped_refuted"
   ],
   "note": ""
  },
  {
   "property": "C17",
   "status": "proved",
   "theorems": [
    "C17_equiprobable_chain"
   ],
   "note": "Floats are rationals."
  },
  {
   "property": "C18",
   "status": "proved",
   "theorems": [
    "C18_marks",
    "C18_split",
    "C18_names",
    "C18_error_blocks_refused",
    "C18_depolarize_refuted",
    "C18_no_measurement_refuted"
   ],
   "note": "Stim itself is not modelled."
  },
  {
   "property": "C19",
   "status": "proved",
   "theorems": [
    "C19_batches_in_order",
    "C19_batches_once",
    "C19_reset_repeats",
    "C19_refused"
   ],
   "note": "A sampler is a function of circuit, seed and call number."
  },
  {
   "property": "C20",
   "status": "proved",
   "theorems": [
    "C20_planar_code"
   ],
   "note": "Every size from 2 on; size 1 raises IndexError (C20_size_one)."
  },
  {
   "property": "C21",
   "status": "proved",
   "theorems": [
    "C21_toric_code"
   ],
   "note": "Every size from 2 on."
  },
  {
   "property": "C22",
   "status": "proved",
   "theorems": [
    "C22_rotated_code"
   ],
   "note": "Every size from 2 on, both variants."
  },
  {
   "property": "C23",
   "status": "proved",
   "theorems": [
    "C23_repetition_code",
    "C23_even_size_refused"
   ],
   "note": "Odd sizes from 3 on; even sizes are refused by the constructor."
  },
  {
   "property": "C24",
   "status": "proved",
   "theorems": [
    "C24_planar_schedule",
    "C24_toric_schedule",
    "C24_rotated_schedule",
    "C24_rotated_other_order_refuted"
   ],
   "note": "Planar and toric: any order which contains the four directions. Rotated: the default order; another admissible order has a conflict (refuted theorem). The repetition code has no parallel schedule."
  },
  {
   "property": "C25",
   "status": "proved",
   "theorems": [
    "C25_reachable_consistent",
    "C25_symmetric",
    "C25_effects",
    "C25_indices",
    "C25_dangling_refuted"
   ],
   "note": "Any sequence of the thirteen editing operations, also after operations which raised half-way. Arguments have the annotated classes and are in the lattice; the refuted theorem shows that add_edge with a removed data qubit makes a dangling edge."
  },
  {
   "property": "C26",
   "status": "proved",
   "theorems": [
    "C26_superstab",
    "C26_multiply_logical",
    "C26_superstab_commutes",
    "C26_fabrication",
    "C26_boundary_join_refuted",
    "C26_keep_gauge_no_refuted",
    "C26_code_not_updated_refuted"
   ],
   "note": "create_superstab and multiply_logical_with_stab: succeed exactly if no data qubit has two different factors, result is the operator product. Fabrication errors with keep_gauge none/half and boundary_join false keep all commutation relations; with boundary_join the claim is false (refuted)."
  },
  {
   "property": "C27",
   "status": "proved",
   "theorems": [
    "C27_layout",
    "C27_no_rounds_refuted"
   ],
   "note": "At least one round; with no rounds the layout is not the documented one (refuted theorem)."
  },
  {
   "property": "C28",
   "status": "proved",
   "theorems": [
    "C28_unpack",
    "C28_unpack_refused",
    "C28_widths",
    "C28_other_weights_refused",
    "C28_repetition_Z_refuted"
   ],
   "note": "Both modes; operators of other weights are refused in the default mode."
  },
  {
   "property": "C29",
   "status": "proved",
   "theorems": [
    "C29_noise_free",
    "C29_default_mode_refuted"
   ],
   "note": "Ancilla mode for all operators, default mode for operators without X; default mode for X refuted by a witness."
  },
  {
   "property": "C30",
   "status": "proved",
   "theorems": [
    "C30_edges",
    "C30_history",
    "C30_total"
   ],
   "note": "At least one generator and one round; generators on the same number of qubits."
  },
  {
   "property": "C31",
   "status": "proved",
   "theorems": [
    "C31_parallel",
    "C31_one",
    "C31_mixed",
    "C31_one_refuted"
   ],
   "note": "Exactly one edge stays active if no weight is infinite; with the weight minus infinity none does (refuted theorem)."
  },
  {
   "property": "C32",
   "status": "proved",
   "theorems": [
    "C32_frame",
    "C32_not_updated"
   ],
   "note": "The sign bit of the frame is not part of the claim."
  },
  {
   "property": "C33",
   "status": "proved",
   "theorems": [
    "C33_erasure_decoder",
    "C33_finds_correction",
    "C33_condition",
    "C33_missing_edge",
    "C33_undecodable_reported_refuted"
   ],
   "note": "Also proved: the decoder finds a correction whenever one exists. Undecodable input is not reported (refuted theorem)."
  },
  {
   "property": "C34",
   "status": "proved",
   "theorems": [
    "C34_union_find",
    "C34_union_find_weighted",
    "C34_condition",
    "C34_negative_weights_refuted"
   ],
   "note": "Weights may be any rationals which are not negative. Negative weights are not excluded by update_weights and the growth need not end (refuted theorem)."
  },
  {
   "property": "C35",
   "status": "proved",
   "theorems": [
    "C35_union_find_decoder",
    "C35_without_weights"
   ],
   "note": "For objects of the decoder however often they have been used."
  },
  {
   "property": "C36",
   "status": "proved",
   "theorems": [
    "C36_success",
    "C36_wrong_sizes",
    "C36_stabilisers"
   ],
   "note": "Codes without logical operators are not part of the claim."
  },
  {
   "property": "C37",
   "status": "proved",
   "theorems": [
    "C37_odd",
    "C37_computation",
    "C37_channel",
    "C37_refused",
    "C37_weight",
    "C37_rounded"
   ],
   "note": "C37_weight and C37_rounded use axioms of the Stdlib real numbers: sig_not_dec, sig_forall_dec, functional_extensionality_dep, classic. The other theorems use no axioms."
  },
  {
   "property": "C38",
   "status": "proved",
   "theorems": [
    "C38_last_row",
    "C38_total",
    "C38_used",
    "C38_add"
   ],
   "note": ""
  },
  {
   "property": "C39",
   "status": "proved",
   "theorems": [
    "C39_compare",
    "C39_reflexive",
    "C39_symmetric",
    "C39_same_numbers",
    "C39_transitive_refuted",
    "C39_numbers_refuted"
   ],
   "note": "The claim that equality is an equivalence is refuted; for codes with equal numbers of operators it is one."
  },
  {
   "property": "C40",
   "status": "proved",
   "theorems": [
    "C40_parallel_sequential"
   ],
   "note": "All error data, gate errors included."
  },
  {
   "property": "C41",
   "status": "proved",
   "theorems": [
    "C41_state_round_trip"
   ],
   "note": ""
  },
  {
   "property": "C42",
   "status": "proved",
   "theorems": [
    "C42_accepted_state",
    "C42_cross_relations_refuted"
   ],
   "note": "Both lists given; the pseudo-inverse branch is C78."
  },
  {
   "property": "C43",
   "status": "proved",
   "theorems": [
    "C43_circuit_object",
    "C43_builder_repeats_refuted",
    "C43_switching_restarts",
    "C43_stale_circuit_refuted"
   ],
   "note": ""
  },
  {
   "property": "C44",
   "status": "proved",
   "theorems": [
    "C44_distribution",
    "C44_same_results",
    "C44_split_is_process",
    "C44_agrees_with_simulator_spec"
   ],
   "note": "Stim's instruction semantics is specified in StimSem.v from its gate reference; DEPOLARIZE excluded (see C18_depolarize_refuted)."
  },
  {
   "property": "C45",
   "status": "proved",
   "theorems": [
    "C45_planar_interleaves",
    "C45_toric_interleaves",
    "C45_rotated_interleaves",
    "C45_other_order_refuted"
   ],
   "note": "The default orders; another order of the planar code does not have the property."
  },
  {
   "property": "C46",
   "status": "proved",
   "theorems": [
    "C46_check_decides"
   ],
   "note": "All operators of one width."
  },
  {
   "property": "C47",
   "status": "proved",
   "theorems": [
    "C47_memory_history",
    "C47_memory_total",
    "C47_partial_erasure_refuted"
   ],
   "note": "No gate errors. Erasure rates for some but not all data qubits give results which cannot be unpacked (refuted theorem)."
  },
  {
   "property": "C48",
   "status": "proved",
   "theorems": [
    "C48_error_data",
    "C48_generate_and_run",
    "C48_letters_compatible",
    "C48_incompatible_refused"
   ],
   "note": ""
  },
  {
   "property": "C49",
   "status": "proved",
   "theorems": [
    "C49_builtin_codes",
    "C49_builtin_codes_exist",
    "C49_from_operators",
    "C49_from_operators_signs_refuted"
   ],
   "note": "from_operators drops signs (refuted theorem)."
  },
  {
   "property": "C50",
   "status": "proved",
   "theorems": [
    "C50_components",
    "C50_inputs",
    "C50_update"
   ],
   "note": ""
  },
  {
   "property": "C51",
   "status": "proved",
   "theorems": [
    "C51_decode",
    "C51_signs"
   ],
   "note": "Weights of minus infinity are excluded (finding 18)."
  },
  {
   "property": "C52",
   "status": "proved",
   "theorems": [
    "C52_construct",
    "C52_unweighted",
    "C52_positive",
    "C52_noweights",
    "C52_sane",
    "C52_noweights_refuted"
   ],
   "note": "The documentation of UnionFindNoWeights is refuted."
  },
  {
   "property": "C53",
   "status": "proved",
   "theorems": [
    "C53_memory_decoded"
   ],
   "note": "Errors on data qubits and on results as in C47; weights allow the errors which have positive probability."
  },
  {
   "property": "C54",
   "status": "proved",
   "theorems": [
    "C54_graph_like",
    "C54_decoders"
   ],
   "note": "Sizes of at least 2 (odd sizes for the repetition code, since even ones are refused)."
  },
  {
   "property": "C55",
   "status": "proved",
   "theorems": [
    "C55_dictionary",
    "C55_weights_refuted",
    "C55_unweighted",
    "C55_memory_decoded",
    "C55_noweights_refuted"
   ],
   "note": "The logarithm is any function with the right signs and infinite values (C37_rounded). The claims that weights can be given and that the default arguments work for UnionFindNoWeights are refuted."
  },
  {
   "property": "C56",
   "status": "proved",
   "theorems": [
    "C56_dictionary",
    "C56_missing",
    "C56_values",
    "C56_valid",
    "C56_memory",
    "C56_add",
    "C56_update",
    "C56_from_lattice",
    "C56_default",
    "C56_default_refuted"
   ],
   "note": "Qubits given to add_qubit_error and update_qubit_error are in the table (new labels are not modelled). The documented default probability is refuted."
  },
  {
   "property": "C57",
   "status": "proved",
   "theorems": [
    "C57_constant_one",
    "C57_gaussian_one",
    "C57_constant_two",
    "C57_channels_refuted",
    "C57_gaussian_refuted",
    "C57_valid"
   ],
   "note": "The random numbers of Gaussian distributions are arguments. The claims that all channels count and that Gaussian distributions work for CX and CZ are refuted."
  },
  {
   "property": "C58",
   "status": "proved",
   "theorems": [
    "C58_few_errors",
    "C58_weighted",
    "C58_line",
    "C58_half_distance_refuted"
   ],
   "note": "The claim that fewer errors than half the distance are corrected is refuted; the bound which holds is a third of the distance."
  },
  {
   "property": "C59",
   "status": "proved",
   "theorems": [
    "C59_few_faults",
    "C59_same_weights",
    "C59_third",
    "C59_memory"
   ],
   "note": "Decoders without weights or with one weight for all errors. The bound for different weights is C58_weighted, for graphs."
  },
  {
   "property": "C60",
   "status": "proved",
   "theorems": [
    "C60_distance",
    "C60_repetition",
    "C60_small_codes",
    "C60_one_letter",
    "C60_experiment",
    "C60_third",
    "C60_half_refuted"
   ],
   "note": "Distance with respect to each logical operator. The success of decoding is proved for decoders without weights; the claim that fewer faults than half the distance are corrected is refuted."
  },
  {
   "property": "C61",
   "status": "proved",
   "theorems": [
    "C61_most_likely",
    "C61_weighted",
    "C61_half",
    "C61_erasures",
    "C61_fusion",
    "C61_fusion_weights",
    "C61_fusion_weights_refuted",
    "C61_new",
    "C61_fusion_new",
    "C61_update",
    "C61_memory",
    "C61_fusion_memory",
    "C61_experiment",
    "C61_half_example"
   ],
   "note": "The libraries are arbitrary solvers which satisfy a contract (hypotheses pm_contract and fb_contract, satisfied by brute-force solvers). The claim that Fusion Blossom decoders find a minimum for all weights is refuted."
  },
  {
   "property": "C62",
   "status": "proved",
   "theorems": [
    "C62_bases",
    "C62_destructive",
    "C62_destabilisers_refuted",
    "C62_destructive_several_refuted",
    "C62_insert_refuted"
   ],
   "note": "The claims that destructive measurements of several qubits work, that the traced tableau is a valid one, and that qubits can be inserted are refuted."
  },
  {
   "property": "C63",
   "status": "proved",
   "theorems": [
    "C63_code",
    "C63_code_refuted",
    "C63_code_update",
    "C63_updates",
    "C63_update_refuted",
    "C63_device",
    "C63_decoder",
    "C63_qubits",
    "C63_gates",
    "C63_simulated_qubits",
    "C63_simulated_gates",
    "C63_gate_refuted",
    "C63_fabrication_refuted",
    "C63_defaults_refuted",
    "C63_round_trip",
    "C63_experiment",
    "C63_twice_refuted",
    "C63_as_dict_refuted",
    "C63_schema",
    "C63_load",
    "C63_schema_errors_refuted",
    "C63_schema_refuted"
   ],
   "note": "The claims of the documentation which do not hold are refuted. Parsing of TOML files is not modelled."
  },
  {
   "property": "C64",
   "status": "proved",
   "theorems": [
    "C64_table",
    "C64_gates",
    "C64_build",
    "C64_shots",
    "C64_rate",
    "C64_run_refuted",
    "C64_sample_refuted",
    "C64_range_refuted",
    "C64_general_refuted",
    "C64_weighted_refuted",
    "C64_seed_refuted"
   ],
   "note": "C64_build and C64_shots without gate errors; PyMatching without erasures. The claims that run returns a rate, that no sampling means no errors, that numbers are checked, and that gate errors go with weights are refuted."
  },
  {
   "property": "C65",
   "status": "proved",
   "theorems": [
    "C65_complete",
    "C65_normaliser",
    "C65_distance",
    "C65_repetition_distance",
    "C65_small_distance",
    "C65_independent",
    "C65_toric_dependent",
    "C65_success",
    "C65_memory"
   ],
   "note": "Operators are taken up to their sign."
  },
  {
   "property": "C66",
   "status": "proved",
   "theorems": [
    "C66_distribution",
    "C66_chances",
    "C66_circuits"
   ],
   "note": "Uniform random numbers are multiples of 1/N for an N which is a multiple of all denominators; random integers are below 12 and used by their remainders modulo 3 and 4."
  },
  {
   "property": "C67",
   "status": "proved",
   "theorems": [
    "C67_distribution",
    "C67_share",
    "C67_chances",
    "C67_grid"
   ],
   "note": "Without errors of gates; erasures are possible on all data qubits or on none. Random numbers as in C66."
  },
  {
   "property": "C68",
   "status": "proved",
   "theorems": [
    "C68_exact",
    "C68_bound",
    "C68_matching",
    "C68_tail",
    "C68_power"
   ],
   "note": "Without errors of gates; all but C68_exact and C68_tail for decoders without weights, the matching libraries through their contracts (C61). The decoder starts every run fresh; C51 shows that its earlier runs do not matter."
  },
  {
   "property": "C69",
   "status": "proved",
   "theorems": [
    "C69_sizes",
    "C69_components"
   ],
   "note": "The text of format_statistics is modelled and shown by an example."
  },
  {
   "property": "C70",
   "status": "proved",
   "theorems": [
    "C70_run",
    "C70_steps",
    "C70_resume",
    "C70_again",
    "C70_exhausted",
    "C70_reset",
    "C70_rewind",
    "C70_reset_refuted"
   ],
   "note": "The state of the simulator after an exception is not modelled. C70_reset_refuted: reset does not forget that the last circuit ended within an error block."
  },
  {
   "property": "C71",
   "status": "proved",
   "theorems": [
    "C71_split",
    "C71_read",
    "C71_load",
    "C71_read_refuted",
    "C71_saved_refuted"
   ],
   "note": "Texts of numbers through the contract readable. The refuted theorems show which files cannot be read."
  },
  {
   "property": "C72",
   "status": "proved",
   "theorems": [
    "C72_apply_refuted",
    "C72_rest",
    "C72_rest_refuted",
    "C72_pprint"
   ],
   "note": "The documentation of apply_operator is refuted."
  },
  {
   "property": "C73",
   "status": "proved",
   "theorems": [
    "C73_draw",
    "C73_lattice",
    "C73_refuses",
    "C73_y",
    "C73_circuit",
    "C73_circuit_refuses"
   ],
   "note": "Coordinates are rational numbers instead of floats; Matplotlib figures are not modelled."
  },
  {
   "property": "C74",
   "status": "proved",
   "theorems": [
    "C74_frames",
    "C74_detectors",
    "C74_memory"
   ],
   "note": "Probabilities are multiples of 1/N for any N, as in C66. Error blocks which contain measurements, resets or Clifford gates are not covered (C66 covers them)."
  },
  {
   "property": "C75",
   "status": "proved",
   "theorems": [
    "C75_memory_history",
    "C75_one_operator",
    "C75_redundant_generators",
    "C75_memory_decoded"
   ],
   "note": "Any errors the generator accepts, with gate errors. The errors on data qubits are shown to exist; their probabilities are those of C74."
  },
  {
   "property": "C76",
   "status": "proved",
   "theorems": [
    "C76_split_union_find",
    "C76_split_decode",
    "C76_split_new",
    "C76_split_weights_refuted"
   ],
   "note": "Weights for split edges are refuted (finding 39)."
  },
  {
   "property": "C77",
   "status": "proved",
   "theorems": [
    "C77_shots",
    "C77_build",
    "C77_experiment",
    "C77_constants"
   ],
   "note": "Experiments without weights; with weights gate errors raise ValueError (C64_weighted_refuted). Decoders of other libraries are arguments with contracts, as in C61."
  },
  {
   "property": "C78",
   "status": "proved",
   "theorems": [
    "C78_accepted",
    "C78_single",
    "C78_refused",
    "C78_several",
    "C78_bell_refuted",
    "C78_rounding_refuted"
   ],
   "note": "np.linalg.pinv is an argument whose contract is stated in AloneSpec.v; casts to other numbers than 0 and 1 (fractions of -1 and below, 2 and above) are not modelled. Appropriate destabilisers for all states are refuted (finding 40)."
  },
  {
   "property": "C79",
   "status": "proved",
   "theorems": [
    "C79_union_find",
    "C79_decode",
    "C79_choice",
    "C79_weights_ignored",
    "C79_weights_refuted"
   ],
   "note": "Growth is modelled by rational numbers. An effect of weights is refuted (finding 41)."
  },
  {
   "property": "C80",
   "status": "proved",
   "theorems": [
    "C80_scale",
    "C80_coefficient",
    "C80_zero_refuted"
   ],
   "note": "Weights are modelled by rational numbers. An effect of weights with coefficient zero is refuted (finding 42)."
  },
  {
   "property": "C81",
   "status": "proved",
   "theorems": [
    "C81_gaussian",
    "C81_reached",
    "C81_refused",
    "C81_zero_refuted"
   ],
   "note": "The draws of scipy are a parameter which is assumed to keep its bounds. The documented range of the deviation is refuted (finding 43)."
  },
  {
   "property": "C82",
   "status": "proved",
   "theorems": [
    "C82_cache",
    "C82_fabrication"
   ],
   "note": "Two-dimensional lattices."
  },
  {
   "property": "C83",
   "status": "proved",
   "theorems": [
    "C83_update_from_csv",
    "C83_accepted",
    "C83_new_column_refuted",
    "C83_update_refuted"
   ],
   "note": "New columns with missing numbers are not modelled. An effect of new columns and of update is refuted (finding 44)."
  },
  {
   "property": "C84",
   "status": "proved",
   "theorems": [
    "C84_in_order",
    "C84_some_refuted",
    "C84_order_refuted"
   ],
   "note": "Files with a number in each cell. The claim for files with other orders or sets of qubits is refuted (finding 45)."
  },
  {
   "property": "C85",
   "status": "proved",
   "theorems": [
    "C85_saved",
    "C85_disabled_refuted"
   ],
   "note": "One saving and loading of a table whose index is qubit_id; numbers are read as written. The claim that disabled errors stay disabled is refuted (finding 46)."
  },
  {
   "property": "C86",
   "status": "proved",
   "theorems": [
    "C86_columns",
    "C86_generated",
    "C86_names"
   ],
   "note": "Columns of numbers; the texts of the column fabrication are not modelled."
  }
 ]
}