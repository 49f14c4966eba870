{
 "claims": [
  {
   "property": "C01",
   "status": "proved",
   "theorems": [
    "C01_xor_sharing_roundtrip",
    "C01_xor_sharing_hiding"
   ],
   "note": ""
  },
  {
   "property": "C02",
   "status": "proved",
   "theorems": [
    "C02_additive_sharing_roundtrip",
    "C02_additive_sharing_hiding"
   ],
   "note": ""
  },
  {
   "property": "C03",
   "status": "proved",
   "theorems": [
    "C03_scalar_and_layer"
   ],
   "note": ""
  },
  {
   "property": "C04",
   "status": "proved",
   "theorems": [
    "C04_simd_and_layer"
   ],
   "note": "both parties cut their triple storage at the same head offset"
  },
  {
   "property": "C05",
   "status": "partial",
   "theorems": [
    "C05_mixed_layer_refuted",
    "C05_pure_scalar_layer_partial",
    "C05_pure_simd_layer_partial"
   ],
   "note": "false of the code for layers with both kinds of gates (witness); proved for layers of one kind"
  },
  {
   "property": "C06",
   "status": "proved",
   "theorems": [
    "C06_scalar_message_masked"
   ],
   "note": ""
  },
  {
   "property": "C07",
   "status": "partial",
   "theorems": [
    "C07_mul_layer_refuted",
    "C07_mul_exact_condition",
    "C07_mul_layer_partial"
   ],
   "note": "the statement is false of the code: refuted with a witness, the exact set of triples for which the code is right is proved, and the positive part for those triples"
  },
  {
   "property": "C08",
   "status": "proved",
   "theorems": [
    "C08_bool_local_gate",
    "C08_bool_constant",
    "C08_bool_local_gate_simd",
    "C08_arith_local_gate",
    "C08_arith_constant"
   ],
   "note": "SIMD statement is for equal bit offsets; other offsets are C53"
  },
  {
   "property": "C09",
   "status": "proved",
   "theorems": [
    "C09_layers_complete_and_ordered",
    "C09_sub_layers_complete_and_ordered",
    "C09_wired_circuits_meet_hypotheses",
    "C09_wired_gate_parent_order"
   ],
   "note": "For every circuit reachable through the construction API that is acyclic and whose roots are inputs/constants."
  },
  {
   "property": "C10",
   "status": "proved",
   "theorems": [
    "C10_layer_is_depth",
    "C10_rounds_equal_depth"
   ],
   "note": "Layer number equals multiplicative depth; number of interactive layers equals circuit depth."
  },
  {
   "property": "C11",
   "status": "proved",
   "theorems": [
    "C11_execution_computes_circuit",
    "C11_plaintext_unique",
    "C11_simd_output_operand_refuted"
   ],
   "note": "Single circuits (scalar or SIMD with whole words), any valid provider, any buffer content. For SIMD circuits output gates must not be operands; the refuted theorem shows the claim fails otherwise."
  },
  {
   "property": "C12",
   "status": "proved",
   "theorems": [
    "C12_executor_reuse"
   ],
   "note": "Single circuits, any finite list of runs."
  },
  {
   "property": "C13",
   "status": "proved",
   "theorems": [
    "C13_requests_total",
    "C13_exact_preprocessing_suffices",
    "C13_calls_total"
   ],
   "note": ""
  },
  {
   "property": "C14",
   "status": "proved",
   "theorems": [
    "C14_no_deadlock_any_protocol",
    "C14_boolean_execution_schedule_independent"
   ],
   "note": "Setup providers are local to a party in this model; providers that communicate use their own channels."
  },
  {
   "property": "C15",
   "status": "partial",
   "theorems": [
    "C15_inlining_partial",
    "C15_too_few_inputs_panic",
    "C15_boolean_inlining",
    "C15_arith_inlining_partial",
    "C15_inlining_refuted"
   ],
   "note": "add_sub_circuit reverses the operand order of every inlined gate: proved for gates whose value is invariant under reversal (all boolean gates; arithmetic circuits without Sub), refuted in general by a Sub gate."
  },
  {
   "property": "C16",
   "status": "partial",
   "theorems": [
    "C16_bristol_circuit_partial",
    "C16_bristol_sub_circuit_partial",
    "C16_bristol_execution_partial",
    "C16_bristol_outcomes",
    "C16_header_panic_refuted",
    "C16_overwrite_refuted"
   ],
   "note": "Missing: descriptions in which a gate overwrites one of its own operand wires or in which the header's totals exceed the wire count (both refuted with a witness)."
  },
  {
   "property": "C17",
   "status": "partial",
   "theorems": [
    "C17_fashion_text_parses",
    "C17_accepted_text",
    "C17_fashion_unambiguous",
    "C17_print_parse",
    "C17_basic_text_parses_partial",
    "C17_basic_misread_refuted",
    "C17_basic_rejected_refuted",
    "C17_huge_count_panics_refuted",
    "C17_text_to_execution_partial"
   ],
   "note": "Fashion format: proved for every spacing of the tokens. Basic format: proved when the first input size is at least the count of numbers following it before the first gate name; refuted for small inputs, which are misread as the fashion format."
  },
  {
   "property": "C18",
   "status": "proved",
   "theorems": [
    "C18_program",
    "C18_execution"
   ],
   "note": "Every straight-line program of operators, constants and reductions over secrets in any builder state; success exactly when operands share a circuit. connect_to_main_circuit (which takes its own lock twice) is not modelled."
  },
  {
   "property": "C19",
   "status": "proved",
   "theorems": [
    "C19_fold",
    "C19_depth",
    "C19_empty"
   ],
   "note": "Also proves that no nesting of the same items is shallower."
  },
  {
   "property": "C20",
   "status": "partial",
   "theorems": [
    "C20_lookup_exact",
    "C20_lookup_sound",
    "C20_connections_partial",
    "C20_nested_refuted",
    "C20_subrange_refuted"
   ],
   "note": "Lookups are exact if and only if no inserted range starts before and ends after another of the same circuit; lookups never return a wrong gate. Refuted for nested ranges (a connection is missed) and for a call on a strict sub-range of the previous one (panic). The call-level theorem assumes input gates of input size 1, which holds for the gates created by the library."
  },
  {
   "property": "C21",
   "status": "partial",
   "theorems": [
    "C21_concat",
    "C21_exact",
    "C21_merged_panics",
    "C21_refuted"
   ],
   "note": "The groups always concatenate to the original gates; each group is a range exactly when no two adjacent runs start with the same gate; otherwise connecting panics (witness: the same secret passed twice)."
  },
  {
   "property": "C22",
   "status": "partial",
   "theorems": [
    "C22_once_partial",
    "C22_order_partial",
    "C22_kinds_partial",
    "C22_all_gates_partial",
    "C22_built_partial",
    "C22_repeated_input_refuted"
   ],
   "note": "For circuits in which no sub-circuit input is the target of two wires: iteration terminates without panic, emits exactly the executed gates once, operands first (in a strictly earlier layer across circuits), and all gates when nothing is cyclic or unconnected. Refuted beyond that: two gates wired to one input (how lanes of a SIMD sub-circuit are filled from a scalar circuit) make the iterator panic."
  },
  {
   "property": "C23",
   "status": "partial",
   "theorems": [
    "C23_same_layers_partial",
    "C23_alike_partial",
    "C23_same_counts_partial",
    "C23_execution_partial",
    "C23_exact_triples_partial",
    "C23_order_refuted",
    "C23_panic_refuted",
    "C23_split_refuted",
    "C23_simd_refuted",
    "C23_empty_refuted",
    "C23_count_refuted"
   ],
   "note": "For every program whose circuits get their first layers in the order of their numbers and before copies of one circuit part, and whose parting copies are told apart by the parting layer: the precomputation succeeds and its iteration gives the same layers, gates, parents, SIMD and scalar halves and (where all circuits are called and have a gate) counts; the two-party boolean GMW execution on the precomputed layers ends with shares of the values of the circuit with all calls inlined, also where SIMD gates are read both inside and outside their circuit. False in general (witnesses): circuits called out of order lose gates; three copies whose arguments arrive in different orders make the precomputation panic or run another copy's layers; a SIMD circuit called after copies part loses its SIMD size; a circuit without gates makes the counts panic or be wrong."
  },
  {
   "property": "C24",
   "status": "proved",
   "theorems": [
    "C24_bool_storage_history",
    "C24_bool_storage_total",
    "C24_arith_storage_history",
    "C24_arith_split_off_last",
    "C24_arith_remove_first"
   ],
   "note": ""
  },
  {
   "property": "C25",
   "status": "partial",
   "theorems": [
    "C25_matching_bool",
    "C25_conserved_bool",
    "C25_matching_arith",
    "C25_conserved_arith",
    "C25_written",
    "C25_batch_sizes_refuted"
   ],
   "note": "proved for every request history when both files were written with the same batch sizes (always the case unless set_batch_size is changed between the writes); for boolean files with different write batch sizes it is false (C25_batch_sizes_refuted)."
  },
  {
   "property": "C26",
   "status": "partial",
   "theorems": [
    "C26_balanced_partial",
    "C26_seed_balanced_partial",
    "C26_refuted"
   ],
   "note": "proved for schedules in which no party asks twice for a batch before the other has asked; a party that asks twice gets both shares (C26_refuted)."
  },
  {
   "property": "C27",
   "status": "proved",
   "theorems": [
    "C27_seed_triples",
    "C27_random_pair_valid"
   ],
   "note": "for every generator, seeds, amount and schedule in which each party asks once per batch."
  },
  {
   "property": "C28",
   "status": "proved",
   "theorems": [
    "C28_history",
    "C28_amount"
   ],
   "note": "for every call history, generator, hash function and arrival order of rows."
  },
  {
   "property": "C29",
   "status": "partial",
   "theorems": [
    "C29_first_batch_partial",
    "C29_precomputed_refuted",
    "C29_second_batch_refuted"
   ],
   "note": "the first directly requested batch is valid for every width and amount; using precomputed triples panics and the second batch is invalid."
  },
  {
   "property": "C30",
   "status": "proved",
   "theorems": [
    "C30_extension",
    "C30_history",
    "C30_base_state",
    "C30_offset_refuted"
   ],
   "note": "for every generator, hash function, number of base OTs, choice vector starting at a word boundary and row order, also for several extensions in a row; C30_offset_refuted shows that a choice slice with a bit offset inside a word (accepted by the API) breaks it."
  },
  {
   "property": "C31",
   "status": "partial",
   "theorems": [
    "C31_errors_partial",
    "C31_never_reported",
    "C31_refuted"
   ],
   "note": "receive errors and unexpected messages are reported; a closed channel is not (C31_never_reported: at every crash point the sender returns outputs; C31_refuted: they are wrong)."
  },
  {
   "property": "C32",
   "status": "proved",
   "theorems": [
    "C32_correlated",
    "C32_extension",
    "C32_no_message"
   ],
   "note": "for every correlation function, width and correct random OT, and composed with the extension."
  },
  {
   "property": "C33",
   "status": "proved",
   "theorems": [
    "C33_keys",
    "C33_receiver_rejects",
    "C33_sender_rejects",
    "C33_opening_last"
   ],
   "note": "for every group with the stated laws, all scalars and hash functions."
  },
  {
   "property": "C34",
   "status": "partial",
   "theorems": [
    "C34_point",
    "C34_tree",
    "C34_expand",
    "C34_depth",
    "C34_domain_two_refuted",
    "C34_odd_domain_refuted"
   ],
   "note": "For every pair of fixed-key functions, hash, value, seed, base OTs, choices, number of trees (a multiple of 8), domain and depth accepted by the format, and every order in which groups are sent and taken, the outputs differ by the value exactly at the reported points. Partial: sizes outside sizes_ok panic (odd domain with format Interleaved and a domain of two elements are proved to panic; a last group of less than eight trees cannot be received)."
  },
  {
   "property": "C35",
   "status": "partial",
   "theorems": [
    "C35_correct",
    "C35_leak",
    "C35_secrecy_refuted"
   ],
   "note": "The correlation at gap positions holds. The hiding part of the property is false of the code: the AES result is dropped, so the message is the sender's string xor delta in clear, and a receiver with a zero gap choice computes delta."
  },
  {
   "property": "C36",
   "status": "partial",
   "theorems": [
    "C36_remainder_partial",
    "C36_odd",
    "C36_panic",
    "C36_refuted"
   ],
   "note": "modp computes the remainder modulo x^p-1 for every input whose later multi-block chunks do not start at a block boundary (always so for odd p with at most p blocks, C36_odd); otherwise it panics (shift by 128 in bit_shift_xor), so the unconditional statement is refuted."
  },
  {
   "property": "C37",
   "status": "partial",
   "theorems": [
    "C37_injective",
    "C37_inside_partial",
    "C37_surjective_partial",
    "C37_refuted"
   ],
   "note": "Injectivity holds in both formats without condition; positions are inside the output in the plain interleaved format and, in the transposed format, when 16 divides the domain; for other domains a position outside the output is exhibited."
  },
  {
   "property": "C38",
   "status": "proved",
   "theorems": [
    "C38_fast",
    "C38_rejects",
    "C38_transpose",
    "C38_agree",
    "C38_involution",
    "C38_pprf_block"
   ],
   "note": "For every size and content: the vectorised transposition, the bitwise one and the dispatch between them."
  },
  {
   "property": "C39",
   "status": "partial",
   "theorems": [
    "C39_product",
    "C39_exact",
    "C39_identity",
    "C39_rejects",
    "C39_chain_refuted"
   ],
   "note": "The product is right for every dimension with at least one inner column and every exact right operand. Partial: a product whose entries do not fill whole elements carries dead bits and cannot be used as right operand (C39_chain_refuted); an inner dimension of zero does not terminate and is excluded."
  },
  {
   "property": "C40",
   "status": "proved",
   "theorems": [
    "C40_new_in_step",
    "C40_share_round_trip",
    "C40_reconstruct",
    "C40_sharing_hides",
    "C40_local_gates",
    "C40_constants"
   ],
   "note": "Sharing by either party, the conversion of the received delta, reconstruction (succeeds exactly on shares with equal public parts, gives the carried value), re-synchronisation of the generators, hiding of the shared bits, XOR, inversion, forwarding gates and constants. Random streams are arbitrary bit functions."
  },
  {
   "property": "C41",
   "status": "partial",
   "theorems": [
    "C41_fan_in_two",
    "C41_equal_masks_partial",
    "C41_fan_in_three_refuted",
    "C41_astra_execution",
    "C41_gmw_setup_data",
    "C41_gmw_execution"
   ],
   "note": "The statement is false of the code for every fan-in n >= 3 (refuted with a witness for each n: compute_delta_share folds the products with AND instead of XOR). Proved: fan-in at most two, for all shares and all correct setup data; any fan-in other than two when both parties hold equal masks; the GMW setup phase computes shares of the products of all subsets for every fan-in; complete two-party executions with the GMW setup (fan-in at most two) and with the helper-party setup (binary AND gates)."
  },
  {
   "property": "C42",
   "status": "partial",
   "theorems": [
    "C42_a2b_partial",
    "C42_other_widths_panic",
    "C42_u128_refuted"
   ],
   "note": "Proved for ring widths 8, 16, 32 and 64: every value, every sharing, every setup provider that answers requests correctly, as complete two-party executions. For u128 the gadget always panics because no 128-bit adder is embedded (refuted)."
  },
  {
   "property": "C43",
   "status": "proved",
   "theorems": [
    "C43_adder_adds",
    "C43_adder_depth",
    "C43_other_widths_panic"
   ],
   "note": "The embedded Bristol texts are parsed and converted by the modelled parser inside Coq; a carry-annotation checker, proved sound for all operand values, is run on the four resulting circuits. Widths other than 8, 16, 32, 64 panic (proved)."
  },
  {
   "property": "C44",
   "status": "proved",
   "theorems": [
    "C44_b2a",
    "C44_single_conversion",
    "C44_insecure_setup_serves"
   ],
   "note": "Complete two-party executions of a B2A conversion, for every word width, every value, sharing and correct shared random bits. The insecure setup of the repository is proved to be such a provider."
  },
  {
   "property": "C45",
   "status": "partial",
   "theorems": [
    "C45_programs_partial",
    "C45_two_a2b_refuted",
    "C45_a2b_b2a_refuted",
    "C45_two_b2a_refuted"
   ],
   "note": "The statement is false of the code: two A2B in a layer mix their operands, an A2B before a B2A in a layer panics, and two B2A in a layer read the same arithmetic random bits (three refutations with witnesses). Proved: every straight-line mixed program whose compiled layers hold at most one conversion each computes its values."
  },
  {
   "property": "C46",
   "status": "partial",
   "theorems": [
    "C46_extend",
    "C46_get",
    "C46_set",
    "C46_collect_partial",
    "C46_collect_panics_iff",
    "C46_collect_refuted"
   ],
   "note": "Extending, reading and writing proved for all sequences. Collecting panics exactly for sequences with both kinds of shares (proved, with a witness), so the statement holds only for sequences of one kind."
  },
  {
   "property": "C47",
   "status": "proved",
   "theorems": [
    "C47_delivery",
    "C47_no_loss"
   ],
   "note": "All party counts, all schedules of sends and receives of the channels built by new_local."
  },
  {
   "property": "C48",
   "status": "proved",
   "theorems": [
    "C48_unknown_sends_nothing",
    "C48_nothing_received"
   ],
   "note": "All destination maps and channel states."
  },
  {
   "property": "C49",
   "status": "partial",
   "theorems": [
    "C49_accounting",
    "C49_final_totals",
    "C49_phase_gets_body",
    "C49_switch_has_no_effect",
    "C49_previous_refuted"
   ],
   "note": "The accounting half is proved for every interleaving of traffic with the atomic steps of the calls. The second half is false of the code: prev_phase is never assigned, so the switch never has an effect (proved, with a witness). Durations and counter overflow are not modelled."
  },
  {
   "property": "C50",
   "status": "partial",
   "theorems": [
    "C50_memory_safe_partial",
    "C50_within_bounds",
    "C50_clone_refuted",
    "C50_realloc_refuted"
   ],
   "note": "Proved for all call histories, both overflow profiles, all allocation failures and panicking element clones, provided elements have no destructor or vectors are never cloned, and requests fit the address space. Both exceptions are real: clone copies elements with destructors bit by bit (double drop), and reserve on a non-empty vector passes sizes above isize::MAX to realloc; each has a refutation."
  },
  {
   "property": "C51",
   "status": "partial",
   "theorems": [
    "C51_freed_gates_not_needed_partial",
    "C51_several_circuits_partial",
    "C51_read_after_release_refuted"
   ],
   "note": "Proved inside one circuit, and across circuits when SIMD gates read by other circuits have no readers in their own circuit. False otherwise (witness, every hash map order): a SIMD gate with readers of both kinds is released before the other circuit reads it and the program computes wrong values."
  },
  {
   "property": "C52",
   "status": "proved",
   "theorems": [
    "C52_floor",
    "C52_ceil",
    "C52_zero"
   ],
   "note": "for every word size; zero panics."
  },
  {
   "property": "C53",
   "status": "partial",
   "theorems": [
    "C53_simd_xor_refuted",
    "C53_simd_xor_partial"
   ],
   "note": "false of the code (witness); proved for outputs at equal offsets modulo the word size"
  },
  {
   "property": "C54",
   "status": "partial",
   "theorems": [
    "C54_simd_mask_refuted",
    "C54_cut_batch_unmasked_bits",
    "C54_simd_mask_partial"
   ],
   "note": "false of the code for cuts off word boundaries; proved for aligned cuts"
  },
  {
   "property": "C55",
   "status": "partial",
   "theorems": [
    "C55_calls_as_inlined_partial",
    "C55_inlined_is_executable",
    "C55_same_outputs_partial",
    "C55_exact_triples_partial"
   ],
   "note": "For boolean GMW programs of any number of circuits in which every sub-circuit input has one wire and all circuits share one SIMD size: the two-party execution, for every hash map order, provider, sharing and reused executor, ends with shares of the values of the single circuit with all calls inlined, and executing that circuit instead gives the same values. Missing: several wires into one sub-circuit input (C22_repeated_input_refuted), circuits of different SIMD sizes, SIMD gates with consumers both inside and outside of their circuit (C51)."
  },
  {
   "property": "C56",
   "status": "proved",
   "theorems": [
    "C56_same_layers",
    "C56_same_circuit"
   ],
   "note": "For every rearrangement of the hash map before every call of next."
  },
  {
   "property": "C57",
   "status": "partial",
   "theorems": [
    "C57_correlated",
    "C57_packed",
    "C57_random",
    "C57_sampled",
    "C57_qc_config_partial",
    "C57_qc_config_sections",
    "C57_lib_config",
    "C57_qc_panic",
    "C57_qc_refuted",
    "C57_exconv_count"
   ],
   "note": "The correlation, the choices and the selected messages for every encoder whose parameters fit together (enc_ok), all inputs and orders; all libOTe configurations with at least one OT fit, quasi-cyclic ones (weight 176) when the prime fits into the blocks, e.g. for section sizes divisible by 16. Refuted beyond that: 17590 OTs with scaler 2 make every send panic; ExConv does not truncate, so it gives out at least twice the requested number, with raw noise positions as choices from the code size on. The matrices of libOTe are arbitrary matrices here; the least prime is specified, not computed."
  },
  {
   "property": "C58",
   "status": "partial",
   "theorems": [
    "C58_triples",
    "C58_exconv_refuted"
   ],
   "note": "Validity of all triples and of equal requests, for every code and all inputs; the a-shares are the codeword. The last part is false for the default code: ExConv leaves noise positions at the end of its output and requests are served from the end, so e.g. for 100 triples two of the handed-out a-shares are never both 1, for all codes, seeds and choices."
  },
  {
   "property": "C59",
   "status": "partial",
   "theorems": [
    "C59_share_reconstruct",
    "C59_and_gate",
    "C59_matmult_gate",
    "C59_xor_gate",
    "C59_matrix_constant",
    "C59_inv_refuted",
    "C59_constant_refuted"
   ],
   "note": "Sharing and reconstruction, AND, XOR and matrix multiplication gates and matrix constants for all dimensions with a positive multiple of 8 entries (the ones BitMatrix<u8> accepts), all values and randomness. False for the inverter (party 0 negates the public part, party 1 does not, so the reconstruction panics for all shares) and for scalar constants (put into both private parts, always reconstructed as 0). Shares of the variant Vec have no implementation of sharing."
  },
  {
   "property": "C60",
   "status": "partial",
   "theorems": [
    "C60_execution",
    "C60_plain_unique",
    "C60_unsupported_refuted",
    "C60_matrix_xor_refuted",
    "C60_small_product_refuted"
   ],
   "note": "Setup and online phase for all circuits without SIMD and sub-circuits made of inputs, XOR and AND gates on bits, matrix multiplications and outputs with agreeing dimensions, all owners, seeds, inputs and triple sources: both parties build the same setup circuit, nothing panics, outputs are the plain values, which are unique. False beyond that: circuits with a constant, inverter, AND3, AND4 or Combine/Select gate panic in the setup for all seeds, so does the XOR of matrices and a product whose number of entries is not a multiple of 8."
  },
  {
   "property": "C61",
   "status": "partial",
   "theorems": [
    "C61_runs_compose",
    "C61_messages_uniform",
    "C61_same_view",
    "C61_calls_uniform"
   ],
   "note": "For all circuits built with the API without SIMD or with lanes of whole words, and for all programs with sub-circuit calls covered by C55, all inputs, roles and setup data: the two-party executions of C11-C13 are exactly the pairs of single-party executions that read what the other sends; each transcript is received for exactly one choice of the other party's masks (up to triples not used); two executions with different secrets of the other party and equal outputs look identical. SIMD layers need triples that start at a word; otherwise message bits are not masked at all (C54_simd_mask_refuted). Missing: programs that mix SIMD sizes."
  },
  {
   "property": "C62",
   "status": "partial",
   "theorems": [
    "C62_connect_complete",
    "C62_connect_early",
    "C62_connect_terminates",
    "C62_connect_order_refuted",
    "C62_connect_duplicate_refuted",
    "C62_connect_repeated_refuted"
   ],
   "note": "For all lists of distinct addresses common to all parties and all interleavings: no panic, no duplicate error, a step is possible until all calls have returned, at most 3n(n-1) steps, complete wiring at the end; a party that returns early already has complete maps. Refuted without the common order: the keys of senders and receivers disagree or a listener reports DuplicateInitialMsg; refuted for a repeated address: a call waits forever. Missing: broken connections and time limits during set-up."
  },
  {
   "property": "C63",
   "status": "partial",
   "theorems": [
    "C63_retry",
    "C63_zero_timeout_refuted"
   ],
   "note": "Proved for all attempts: success, last error and panic are characterised exactly. The panic-free part is false: without any attempt before the limit (for example a limit of zero) last_err.unwrap() panics."
  },
  {
   "property": "C64",
   "status": "partial",
   "theorems": [
    "C64_fuse_partial",
    "C64_fuse_one_conversion_partial",
    "C64_constant_refuted",
    "C64_offset_refuted",
    "C64_call_refuted",
    "C64_missing_entry_refuted"
   ],
   "note": "For all modules of one circuit without calls, with zero offsets and constants true and one, with at most one conversion per layer (always so with one Split or Merge): the conversion succeeds and the executed circuit outputs the values of the module. False otherwise: the payload of constants is ignored, offsets are ignored (every reader of a Split gets bit 0), inlined calls reverse operands (C15), a missing entry point gives the empty circuit. Missing: CallMode::CallCircuits."
  },
  {
   "property": "C65",
   "status": "partial",
   "theorems": [
    "C65_calls_partial",
    "C65_one_builder",
    "C65_panic_sticks",
    "C65_panic_refuted",
    "C65_shared_refuted",
    "C65_kept_refuted"
   ],
   "note": "All histories in which unfinished builders do not share functions (in particular all histories with one builder): every finished circuit holds the circuits of its calls, shared exactly between equal calls. False otherwise: two unfinished builders calling the same function share the cached circuit and finishing one empties it for the other; into_circuit of a builder returned by install does not clear the caches, so the next call gets an empty circuit; after a panic EVALUATING_SUB_CIRCUIT stays set and all later calls panic."
  },
  {
   "property": "C66",
   "status": "proved",
   "theorems": [
    "C66_stream",
    "C66_stretches",
    "C66_no_reuse",
    "C66_blocks",
    "C66_split",
    "C66_split_refuted",
    "C66_hash",
    "C66_block_bytes",
    "C66_thread_keys"
   ],
   "note": "The refuted theorem shows that the restriction to multiples of four bytes is needed: the rest of a word is lost. rand_core's BlockRng is modelled from its source, which is not in the repository; little-endian memory."
  },
  {
   "property": "C67",
   "status": "proved",
   "theorems": [
    "C67_wiring",
    "C67_fresh",
    "C67_calls",
    "C67_barrier",
    "C67_progress",
    "C67_complete",
    "C67_bound",
    "C67_finishes",
    "C67_errors",
    "C67_sync_refuted",
    "C67_cycle_refuted",
    "C67_order_refuted"
   ],
   "note": "The refuted theorems show that the restrictions are needed: sync also returns when the peer leaves without having called it (the comment in the code says that a None is ignored), pairwise calls in a cyclic order block three parties for ever, and calls of different types in different orders return UnexpectedMessage errors."
  },
  {
   "property": "C68",
   "status": "partial",
   "theorems": [
    "C68_masked_refuted",
    "C68_leak",
    "C68_messages_exact",
    "C68_odd_partial",
    "C68_first_operand"
   ],
   "note": "False of the code: compute_msg masks the second operand with the component c instead of b of the triple. The second number reveals the last k bits of the sender's share of the second operand whenever the shared a is a multiple of 2^k (all of it if a is 0). The messages that can occur are characterised exactly; masking holds if the shared a is odd in all gates, and for the first operand alone."
  },
  {
   "property": "C69",
   "status": "partial",
   "theorems": [
    "C69_same_view_partial",
    "C69_sessions",
    "C69_sub_circuit_refuted"
   ],
   "note": "Proved for all main circuits, with the existence and correctness of the sessions. False for circuits with sub-circuits: setup_gate_outputs looks up the generator for a mask by the gate id alone, so an AND gate of a sub-circuit whose id is that of an input of the peer in the main circuit gets its mask from the stream the peer knows; a circuit is given where party 0 computes the AND of the two inputs of party 1 in every session."
  },
  {
   "property": "C70",
   "status": "proved",
   "theorems": [
    "C70_search",
    "C70_one_answer",
    "C70_panics"
   ],
   "note": "Base64 decoding and reading the files are external: the theorems start from decoded bytes. The order of the mails is the order in which the directory is read (fs::read_dir), which the example assumes to be the same at both parties."
  },
  {
   "property": "C71",
   "status": "partial",
   "theorems": [
    "C71_cbc",
    "C71_whole_blocks",
    "C71_padding",
    "C71_key_bits",
    "C71_key_order",
    "C71_key_msb_refuted",
    "C71_example_partial"
   ],
   "note": "Proved for the circuit and for the data. False for the key and the IV: since the change to BitVec<usize> the bytes of each half of 8 reach the circuit in reverse order (a TODO in the code suspects this), so the ciphertext is that of another key unless both halves are palindromes, and validate compares with the key in order. C71_example_partial says what the example computes. The variant with --use-sc is C72. The Bristol file of AES itself is not checked, it is an arbitrary cipher."
  },
  {
   "property": "C72",
   "status": "proved",
   "theorems": [
    "C72_cbc_calls",
    "C72_second_build_panics"
   ],
   "note": "The AES circuit is an arbitrary circuit loaded from a Bristol file. imax bounds gate indices; the theorem needs it at least as large as the two circuits. The key order finding of C71 applies to this variant too, as key and data reach the circuit in the same way. The second build panics because into_circuit takes the circuit out of the static; the example builds once per process."
  },
  {
   "property": "C73",
   "status": "proved",
   "theorems": [
    "C73_bristol_tool"
   ],
   "note": "imax bounds gate indices; the theorem needs it at least as large as the circuits. Parsing the file, and writing and reading the compiled circuit, are not part of the model. The file is assumed to have at least one input and one output."
  },
  {
   "property": "C74",
   "status": "proved",
   "theorems": [
    "C74_insecure_provider",
    "C74_setters",
    "C74_bench_bristol",
    "C74_second_run_panics",
    "C74_second_run_empty",
    "C74_interleave_refuted"
   ],
   "note": "The parties have to agree on interleave_setup: with the insecure provider they otherwise get different triples and wrong outputs (C74_interleave_refuted); nothing in the code compares the options. A benchmark with stored triples opens the same file in every run, so the triples are reused; the runs being equal is part of C74_bench_bristol. Connecting, TLS, statistics and mixed protocol benchmarks are not part of the model."
  },
  {
   "property": "C75",
   "status": "proved",
   "theorems": [
    "C75_mean",
    "C75_totals",
    "C75_run",
    "C75_equal_runs"
   ],
   "note": "Metadata, which mean drops, and overflow are not modelled. Every phase missing in a run counts as zero, so a phase recorded in some runs only has a mean below the mean of the runs that recorded it. setup_ms leaves out custom phases by definition."
  },
  {
   "property": "C76",
   "status": "proved",
   "theorems": [
    "C76_memory",
    "C76_values",
    "C76_product",
    "C76_reduce",
    "C76_lengths_refuted"
   ],
   "note": "The C functions are parameters: C76_memory assumes only that the transform fills the buffer it is given, the other theorems that there is a notion of a buffer representing a polynomial for which the functions do what they are documented to do (lib_ok; simple_lib_ok shows that it can be met). C76_reduce shows that qc_reduce of SilentModel is what the code computes. C76_lengths_refuted is the last sentence of the statement."
  },
  {
   "property": "C77",
   "status": "proved",
   "theorems": [
    "C77_read_write",
    "C77_frames",
    "C77_balance",
    "C77_sent_refuted"
   ],
   "note": "C77_read_write needs a reader that only appends to the buffer (the contract of poll_read); the wrapped reader and writer are any state machines otherwise. C77_sent_refuted is the last sentence of the statement. Wakers and overflow of counters are not modelled."
  },
  {
   "property": "C78",
   "status": "proved",
   "theorems": [
    "C78_and_tree",
    "C78_execution",
    "C78_no_tree"
   ],
   "note": "C78_execution combines the tree with C11 for boolean GMW on scalar inputs."
  },
  {
   "property": "C79",
   "status": "proved",
   "theorems": [
    "C79_inputs",
    "C79_execute_circuit",
    "C79_execute_bristol",
    "C79_hidden_refuted"
   ],
   "note": "Boolean GMW; the additive and mixed variants of IntoShares are not modelled. C79_hidden_refuted: truth values are not hidden from the second party (test code). C79_execute_bristol builds on C16_bristol_execution_partial and has its side conditions on the file."
  },
  {
   "property": "C80",
   "status": "partial",
   "theorems": [
    "C80_execution_partial",
    "C80_insecure_provider",
    "C80_execution_refuted"
   ],
   "note": "Holds for triples that reconstruct to (0,0,0) or (1,1,1), in particular for the insecure provider. For other valid triples it is false (C80_execution_refuted), since multiplication is wrong (C07)."
  }
 ]
}