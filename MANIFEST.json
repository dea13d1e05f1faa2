{
 "claims": [
  {
   "property": "C01",
   "status": "proved",
   "theorems": [
    "C01_evaluate",
    "C01_operators",
    "C01_add_sorted",
    "C01_constructor_from_terms"
   ],
   "note": "All operators and constructors; UB outside the range is also characterised."
  },
  {
   "property": "C02",
   "status": "proved",
   "theorems": [
    "C02_r1cs_is_satisfied",
    "C02_r1cs_wrong_sizes",
    "C02_r1cs_accept_sound",
    "C02_constraint_of_lists",
    "C02_uscs_is_satisfied",
    "C02_uscs_wrong_sizes"
   ],
   "note": "R1CS and USCS."
  },
  {
   "property": "C03",
   "status": "proved",
   "theorems": [
    "C03_is_valid_exact",
    "C03_is_valid_refuted",
    "C03_r1cs_is_valid_refuted",
    "C03_r1cs_is_valid_sound"
   ],
   "note": "The stated ideal is refuted (C03_is_valid_refuted, C03_r1cs_is_valid_refuted); the exact behaviour is C03_is_valid_exact."
  },
  {
   "property": "C04",
   "status": "proved",
   "theorems": [
    "C04_swap_AB",
    "C04_swap_AB_out_of_range"
   ],
   "note": ""
  },
  {
   "property": "C05",
   "status": "proved",
   "theorems": [
    "C05_linear_combination",
    "C05_r1cs_constraint",
    "C05_r1cs",
    "C05_uscs",
    "C05_bacs",
    "C05_tbcs",
    "C05_several",
    "C05_unambiguous"
   ],
   "note": "Formats of field elements are a parameter: all that is assumed is that an element reads back, in text mode when white space follows."
  },
  {
   "property": "C06",
   "status": "proved",
   "theorems": [
    "C06_bacs_is_satisfied",
    "C06_bacs_to_r1cs_complete",
    "C06_bacs_to_r1cs_sound"
   ],
   "note": ""
  },
  {
   "property": "C07",
   "status": "proved",
   "theorems": [
    "C07_tbcs_is_satisfied",
    "C07_tbcs_to_uscs_complete",
    "C07_tbcs_to_uscs_sound",
    "C07_all_wires_boolean_refuted",
    "C07_sound_in_small_characteristic_refuted"
   ],
   "note": "Soundness for characteristic other than 2,3,5,7. That every wire is forced boolean, and soundness in characteristic 3, are refuted."
  },
  {
   "property": "C08",
   "status": "proved",
   "theorems": [
    "C08_qap_complete"
   ],
   "note": "For every evaluation domain with at least the requested number of points; libfqfft transforms are modelled by their mathematical meaning (Domain.v)."
  },
  {
   "property": "C09",
   "status": "proved",
   "theorems": [
    "C09_qap_divisibility",
    "C09_qap_sound"
   ],
   "note": "Divisibility iff satisfaction, and at most 2m accepting points for any adversarial witness."
  },
  {
   "property": "C10",
   "status": "proved",
   "theorems": [
    "C10_qap_columns",
    "C10_sap_columns",
    "C10_ssp_columns"
   ],
   "note": "For QAP, SAP and SSP."
  },
  {
   "property": "C11",
   "status": "proved",
   "theorems": [
    "C11_sap_complete",
    "C11_sap_extension",
    "C11_sap_sound"
   ],
   "note": "Completeness in every characteristic; soundness for characteristic other than 2."
  },
  {
   "property": "C12",
   "status": "proved",
   "theorems": [
    "C12_ssp_complete",
    "C12_ssp_divisibility",
    "C12_ssp_sound"
   ],
   "note": "Nonempty domain."
  },
  {
   "property": "C13",
   "status": "proved",
   "theorems": [
    "C13_r1cs_ppzksnark_complete",
    "C13_r1cs_generator_total",
    "C13_r1cs_generator_abort_bound",
    "C13_r1cs_verdict"
   ],
   "note": "For every bilinear group and evaluation domain satisfying the contracts of Pairing.v and Domain.v. Also: how often the generator can abort, and the exact verdict on arbitrary proofs under honest keys."
  },
  {
   "property": "C14",
   "status": "proved",
   "theorems": [
    "C14_groth16_complete",
    "C14_groth16_accepts",
    "C14_groth16_prover_total_refuted",
    "C14_groth16_generator_total",
    "C14_groth16_verdict"
   ],
   "note": "For every bilinear group and evaluation domain satisfying the contracts of Pairing.v and Domain.v. The exact abort condition of the honest prover, and an instance on which it always aborts."
  },
  {
   "property": "C15",
   "status": "proved",
   "theorems": [
    "C15_se_complete",
    "C15_se_generator_total",
    "C15_se_verdict"
   ],
   "note": "For every bilinear group and evaluation domain satisfying the contracts of Pairing.v and Domain.v."
  },
  {
   "property": "C16",
   "status": "proved",
   "theorems": [
    "C16_uscs_ppzksnark_complete",
    "C16_uscs_generator_total_refuted",
    "C16_uscs_generator_abort_bound",
    "C16_uscs_generator_total",
    "C16_uscs_verdict"
   ],
   "note": "For every bilinear group and evaluation domain satisfying the contracts of Pairing.v and Domain.v. The generator aborts for every randomness when an input occurs in no constraint; otherwise for a bounded number of points."
  },
  {
   "property": "C17",
   "status": "proved",
   "theorems": [
    "C17_bacs_ppzksnark_complete",
    "C17_bacs_generator_abort_bound",
    "C17_tbcs_ppzksnark_complete",
    "C17_tbcs_generator_abort_bound"
   ],
   "note": "For every bilinear group and evaluation domain satisfying the contracts of Pairing.v and Domain.v."
  },
  {
   "property": "C18",
   "status": "proved",
   "theorems": [
    "C18_r1cs_verifiers",
    "C18_groth16_verifiers",
    "C18_se_verifiers",
    "C18_uscs_verifiers",
    "C18_short_input_refuted"
   ],
   "note": "Arbitrary keys and proofs. Shorter inputs are zero-extended by the R1CS and Groth16 verifiers; for the SE and USCS verifiers this is refuted (C18_short_input_refuted)."
  },
  {
   "property": "C19",
   "status": "proved",
   "theorems": [
    "C19_kc_batch_exp",
    "C19_kc_multi_exp"
   ],
   "note": "libff's windowed_exp and multi_exp are taken by contract. Non-trivial example: three chunks."
  },
  {
   "property": "C20",
   "status": "proved",
   "theorems": [
    "C20_get",
    "C20_equality",
    "C20_accumulate",
    "C20_accumulate_gap_refuted",
    "C20_is_valid_refuted",
    "C20_equality_dense_refuted",
    "C20_equality_dense_prefix"
   ],
   "note": "operator[], sparse equality and gap-free accumulation proved; is_valid, equality with a dense vector and accumulation across an index gap refuted with their exact behaviour."
  },
  {
   "property": "C21",
   "status": "proved",
   "theorems": [
    "C21_chunks",
    "C21_dense"
   ],
   "note": "general sparse rests without gap, and the dense query vectors used by the verifiers."
  },
  {
   "property": "C22",
   "status": "proved",
   "theorems": [
    "C22_merkle_history",
    "C22_merkle_out_of_range",
    "C22_merkle_boundary_refuted"
   ],
   "note": "The refusal of address 2^depth is refuted (C22_merkle_boundary_refuted)."
  },
  {
   "property": "C23",
   "status": "proved",
   "theorems": [
    "C23_merkle_of_map",
    "C23_vector_values_refuted",
    "C23_vector_root_refuted",
    "C23_vector_full_root"
   ],
   "note": "Map constructor equal to repeated writes; vector constructor refuted (values and root), its root is right for a full tree."
  },
  {
   "property": "C24",
   "status": "proved",
   "theorems": [
    "C24_set_commitment",
    "C24_set_commitment_root",
    "C24_set_overflow_refuted"
   ],
   "note": "Overflow refuted (C24_set_overflow_refuted)."
  },
  {
   "property": "C25",
   "status": "proved",
   "theorems": [
    "C25_constructors",
    "C25_get_set",
    "C25_is_valid",
    "C25_inverse",
    "C25_slice"
   ],
   "note": "next_permutation is a call of std::next_permutation and is not modelled"
  },
  {
   "property": "C26",
   "status": "proved",
   "theorems": [
    "C26_topology",
    "C26_routing_realises_every_permutation",
    "C26_other_sizes_abort",
    "C26_validity_check",
    "C26_validity_check_exact_refuted"
   ],
   "note": "the sentence that the validity check is exact for every routing is refuted by C26_validity_check_exact_refuted; everything else is proved for every dimension"
  },
  {
   "property": "C27",
   "status": "proved",
   "theorems": [
    "C27_topology",
    "C27_routing_realises_every_permutation",
    "C27_validity_check_exact",
    "C27_computed_routing_accepted",
    "C27_fewer_than_two"
   ],
   "note": "Unbounded n. The validity check is characterised on routings with an entry for each switch and no other; entries at wires are outside the statement. A single packet makes the routing function read routing[0] of an empty vector (reported as undefined behaviour)."
  },
  {
   "property": "C28",
   "status": "proved",
   "theorems": [
    "C28_protoboard_history",
    "C28_set_input_sizes"
   ],
   "note": ""
  },
  {
   "property": "C29",
   "status": "proved",
   "theorems": [
    "C29_packing_iff",
    "C29_packing_unique",
    "C29_packing_from_packed",
    "C29_packing_from_bits",
    "C29_multipacking_iff",
    "C29_multipacking_sizes",
    "C29_multipacking_from_bits",
    "C29_multipacking_from_packed",
    "C29_packing_beyond_capacity_refuted"
   ],
   "note": "The last sentence of the statement (uniqueness is lost beyond the capacity) is the _refuted theorem."
  },
  {
   "property": "C30",
   "status": "proved",
   "theorems": [
    "C30_disjunction_sound",
    "C30_conjunction_sound",
    "C30_disjunction_complete",
    "C30_conjunction_complete",
    "C30_disjunction_too_many_refuted"
   ],
   "note": "The last sentence of the statement (failure with as many inputs as the characteristic) is the _refuted theorem."
  },
  {
   "property": "C31",
   "status": "proved",
   "theorems": [
    "C31_comparison_sound",
    "C31_comparison_complete",
    "C31_comparison_width0"
   ],
   "note": ""
  },
  {
   "property": "C32",
   "status": "proved",
   "theorems": [
    "C32_inner_product_sound",
    "C32_inner_product_complete",
    "C32_loose_mux_sound",
    "C32_loose_mux_complete",
    "C32_loose_mux_flag_not_forced_refuted",
    "C32_field_vector_copy_iff",
    "C32_field_vector_copy_complete",
    "C32_bit_vector_copy_sound",
    "C32_bit_vector_copy_bitness",
    "C32_bit_vector_copy_complete",
    "C32_linear_combination"
   ],
   "note": "The _refuted theorem records that the multiplexer does not force its success flag to 1 for an index in range."
  },
  {
   "property": "C33",
   "status": "proved",
   "theorems": [
    "C33_compression_sound",
    "C33_compression_complete",
    "C33_compression_size",
    "C33_two_to_one_sound",
    "C33_two_to_one_complete",
    "C33_two_to_one_block",
    "C33_two_to_one_size",
    "C33_get_hash",
    "C33_get_hash_length",
    "C33_digest_bits",
    "C33_digest_roundtrip",
    "C33_digest_padding"
   ],
   "note": "Against an independent transcription of FIPS 180-4 (Sha256Spec.v, checked on the standard test vector). Field order at least 2^35. Completeness of the two-to-one gadget assumes that the value slots of the initial value, filled by the constructor, are not overwritten."
  },
  {
   "property": "C34",
   "status": "proved",
   "theorems": [
    "C34_read_sound_sha256",
    "C34_read_tree_sha256",
    "C34_read_sound_knapsack",
    "C34_read_complete_sha256",
    "C34_read_complete_knapsack",
    "C34_read_knapsack_refuted"
   ],
   "note": "For the SHA-256 two-to-one gadget (field order at least 2^35) and the knapsack gadget; the hash parameter is a record of the operations the template uses. C34_read_knapsack_refuted: with a two-row knapsack a satisfying assignment exists whose root is no digest of the block (finding)."
  },
  {
   "property": "C35",
   "status": "proved",
   "theorems": [
    "C35_update_sound_sha256",
    "C35_update_tree_sha256",
    "C35_update_sound_knapsack"
   ],
   "note": "Soundness for both hashes (any knapsack dimension), and its consequence for trees with SHA-256 with collisions made explicit; witness generation is exercised in an example only."
  },
  {
   "property": "C36",
   "status": "proved",
   "theorems": [
    "C36_as_waksman_new",
    "C36_as_waksman_sound",
    "C36_as_waksman_complete",
    "C36_benes_new",
    "C36_benes_sound",
    "C36_benes_complete",
    "C36_as_waksman_repeated_packets_refuted",
    "C36_benes_repeated_packets_refuted"
   ],
   "note": "Both networks: constructor, soundness, witness generation. AS-Waksman packets of more than one field element need no distinctness. With repeated packets the outputs are refuted to be a permutation: AS-Waksman for packets of one field element, Benes for packets of any size."
  },
  {
   "property": "C37",
   "status": "proved",
   "theorems": [
    "C37_plain_history",
    "C37_delegated_history",
    "C37_agreement",
    "C37_plain_write_unchecked",
    "C37_wide_values_refuted",
    "C37_range_refuted",
    "C37_delegated_out_of_range",
    "C37_word_size_refuted",
    "C37_trace_entries",
    "C37_trace_contents"
   ],
   "note": "The constructor of the delegated memory from a vector is ill-formed C++ (it can never be instantiated) and is not modelled. The _refuted theorems are findings included in the statement."
  },
  {
   "property": "C38",
   "status": "proved",
   "theorems": [
    "C38_encode_decode",
    "C38_encode_injective",
    "C38_initial_memory",
    "C38_boot_trace",
    "C38_initial_state",
    "C38_initial_pc",
    "C38_bound_refuted",
    "C38_overlap_refuted",
    "C38_small_words_refuted"
   ],
   "note": "The text formats (load_preprocessed_program, load_tape) are not modelled. int_list_to_bits is external. The _refuted theorems are findings included in the statement."
  },
  {
   "property": "C39",
   "status": "proved",
   "theorems": [
    "C39_words",
    "C39_and",
    "C39_or",
    "C39_xor",
    "C39_not",
    "C39_add",
    "C39_sub",
    "C39_mov",
    "C39_cmov",
    "C39_cmp",
    "C39_cmps",
    "C39_umul",
    "C39_smulh",
    "C39_smulh_defined",
    "C39_divmod_partial",
    "C39_divmod_flags_refuted",
    "C39_shr_partial",
    "C39_jmp",
    "C39_cjmp",
    "C39_cnjmp",
    "C39_shr_refuted",
    "C39_shl_refuted",
    "C39_udiv_refuted",
    "C39_umod_refuted",
    "C39_and_complete",
    "C39_or_complete",
    "C39_xor_complete",
    "C39_not_complete",
    "C39_add_complete",
    "C39_sub_complete",
    "C39_mov_complete",
    "C39_cmov_complete",
    "C39_jmp_complete",
    "C39_cjmp_cnjmp_complete",
    "C39_cmp_complete",
    "C39_cmps_complete",
    "C39_umul_complete",
    "C39_divmod_complete",
    "C39_smulh_complete",
    "C39_shift_complete"
   ],
   "note": "Soundness for every ALU gadget but the division and shift ones is full: and, or, xor, not, add, sub, mov, cmov, cmpe/cmpa/cmpae, cmpg/cmpge, mull/umulh, smulh, jmp, cjmp, cnjmp. udiv/umod are right only when quotient and remainder are known to be words, and shr only for shifts by at most 3 or oversized ones; beyond that the property is false of the code (C39_udiv_refuted, C39_umod_refuted, C39_divmod_flags_refuted, C39_shr_refuted, C39_shl_refuted). Witness generation satisfies the constraints of every gadget (the C39_*_complete theorems), smulh for words below 63 bits, where its constraints are defined."
  },
  {
   "property": "C40",
   "status": "proved",
   "theorems": [
    "C40_checker_sound",
    "C40_checker_complete",
    "C40_ordered_consistent",
    "C40_any_load_refuted",
    "C40_consistency_refuted",
    "C40_honest_passes",
    "C40_one_address_refuted"
   ],
   "note": "Checker sound and complete; honest permutation; soundness of the checks given the time order. C40_any_load_refuted, C40_consistency_refuted: the time order is not enforced, so loads can return any value (DESIGN.md, findings). C40_one_address_refuted: incompleteness for one-address traces."
  },
  {
   "property": "C41",
   "status": "proved",
   "theorems": [
    "C41_fp2_mul",
    "C41_fp2_sqr",
    "C41_fp2_mul_by_lc",
    "C41_fp2_linear",
    "C41_fp3_mul",
    "C41_fp3_sqr",
    "C41_fp3_mul_by_lc",
    "C41_fp3_linear",
    "C41_fp4_tower_mul",
    "C41_fp4_direct_mul",
    "C41_fp4_sqr",
    "C41_fp6_mul",
    "C41_fp6_sqr",
    "C41_fp4_Frobenius_map",
    "C41_fp6_Frobenius_map",
    "C41_fp4_cyclotomic_sqr",
    "C41_fp6_cyclotomic_sqr",
    "C41_fp2_exponentiation",
    "C41_fp3_exponentiation",
    "C41_fp4_exponentiation",
    "C41_fp6_cyclotomic_exponentiation",
    "C41_exponentiation_power_zero",
    "C41_exponentiation_zero_base_refuted",
    "C41_fp6_mul_by_2345",
    "C41_fp6_mul_by_2345_refuted"
   ],
   "note": "The side conditions (2, 3, 5 and the non-residue non-zero in the field, where the formulas divide by them) are hypotheses. C41_exponentiation_zero_base_refuted, C41_exponentiation_power_zero and C41_fp6_mul_by_2345(_refuted) are findings. libff's find_wnaf is outside the repository: the digits are a parameter."
  },
  {
   "property": "C42",
   "status": "proved",
   "theorems": [
    "C42_checker",
    "C42_add",
    "C42_add_closed",
    "C42_dbl",
    "C42_multiscalar_defined",
    "C42_multiscalar",
    "C42_multiscalar_zero_scalar_refuted",
    "C42_multiscalar_no_bits",
    "C42_checker_fp2",
    "C42_checker_fp3"
   ],
   "note": "Characteristic not 2 (and not 3, non-residue non-zero, over Fp3), as the formulas divide by these. C42_multiscalar_zero_scalar_refuted and C42_multiscalar_no_bits are findings."
  },
  {
   "property": "C43",
   "status": "proved",
   "theorems": [
    "C43_cache_history",
    "C43_field_iff",
    "C43_field_complete",
    "C43_bit_iff",
    "C43_bit_complete",
    "C43_get_hash",
    "C43_digest_unique_refuted"
   ],
   "note": "All dimensions, with the static table of coefficients as explicit state. C43_digest_unique_refuted records that the bit digest is not unique (finding)."
  },
  {
   "property": "C44",
   "status": "proved",
   "theorems": [
    "C44_from_r1cs_iff",
    "C44_from_r1cs_complete",
    "C44_from_r1cs_sizes"
   ],
   "note": ""
  },
  {
   "property": "C45",
   "status": "proved",
   "theorems": [
    "C45_satisfied",
    "C45_satisfied_sizes",
    "C45_wires_unambiguous",
    "C45_handler_predicate",
    "C45_handler_assembles",
    "C45_handler_witness",
    "C45_handler_too_many_messages_refuted",
    "C45_serialization"
   ],
   "note": "Message and local-data classes enter through their vectors of field elements; derived handler constructors are modelled in the documented allocation order. The PCD proof systems built on top are not modelled."
  },
  {
   "property": "C46",
   "status": "proved",
   "theorems": [
    "C46_complete",
    "C46_generator_total",
    "C46_auth",
    "C46_verifiers_agree",
    "C46_verdict",
    "C46_label_count_refuted",
    "C46_debug_build_refuted"
   ],
   "note": "Signatures and the pseudorandom function enter through their interface and the correctness of honest signatures. Of the DEBUG-only assertions only the failing one is modelled."
  },
  {
   "property": "C47",
   "status": "proved",
   "theorems": [
    "C47_linear_combinations",
    "C47_polynomials",
    "C47_operations_total",
    "C47_eval",
    "C47_eval_total",
    "C47_is_satisfied",
    "C47_is_satisfied_sound",
    "C47_small_field_refuted",
    "C47_overflow_refuted",
    "C47_conversion",
    "C47_conversion_constraints",
    "C47_conversion_assignment",
    "C47_conversion_shape",
    "C47_and2_or2",
    "C47_and",
    "C47_or",
    "C47_equals",
    "C47_toggle",
    "C47_conditional_flag",
    "C47_implication",
    "C47_packing",
    "C47_packing_unique",
    "C47_inner_product",
    "C47_loose_mux",
    "C47_comparison",
    "C47_toggle_witness",
    "C47_unpacking_witness",
    "C47_packing_witness",
    "C47_inner_product_witness",
    "C47_loose_mux_witness",
    "C47_and2_or2_witness",
    "C47_and_or_witness",
    "C47_equals_witness",
    "C47_conditional_flag_witness",
    "C47_implication_witness",
    "C47_comparison_witness",
    "C47_implication_unassigned_refuted",
    "C47_mux_index_refuted",
    "C47_set_bits_refuted",
    "C47_set_bits",
    "C47_set_packed"
   ],
   "note": "Values, constraints, conversion to R1CS, and soundness and completeness of the gadgets are for every field (with the stated bound on the characteristic where integers are compared). Sentences marked refuted in the property are the *_refuted theorems."
  },
  {
   "property": "C48",
   "status": "proved",
   "theorems": [
    "C48_sound_sha256",
    "C48_sound_knapsack",
    "C48_complete_sha256",
    "C48_complete_knapsack",
    "C48_accumulator_sha256"
   ],
   "note": "Both hashes (knapsack soundness with one row); C48_accumulator_sha256 composes with the model of the accumulator (C24). Membership at depth 0 ignores check_successful, as in the code."
  },
  {
   "property": "C49",
   "status": "proved",
   "theorems": [
    "C49_vector",
    "C49_sparse_vector",
    "C49_accumulation_vector",
    "C49_knowledge_commitment",
    "C49_set_membership_proof",
    "C49_tinyram_parameters",
    "C49_r1cs_ppzksnark",
    "C49_r1cs_gg_ppzksnark",
    "C49_r1cs_se_ppzksnark",
    "C49_uscs_ppzksnark",
    "C49_circuit_proving_keys",
    "C49_ram_keys",
    "C49_se_proving_key",
    "C49_se_proving_key_text_refuted"
   ],
   "note": "Group-element formats are a parameter as in C05. The SE proving key needs elements that read back whatever follows; without that it is refuted."
  },
  {
   "property": "C50",
   "status": "proved",
   "theorems": [
    "C50_bacs_wire_depths",
    "C50_tbcs_wire_depths_refuted"
   ],
   "note": "BACS depth characterised; TBCS depth refuted (out-of-bounds read)."
  },
  {
   "property": "C51",
   "status": "proved",
   "theorems": [
    "C51_r1cs_zero_knowledge",
    "C51_groth16_zero_knowledge",
    "C51_se_zero_knowledge",
    "C51_uscs_zero_knowledge"
   ],
   "note": "For every bilinear group and evaluation domain satisfying the contracts of Pairing.v and Domain.v. Soundness and knowledge extraction are computational and outside the model."
  },
  {
   "property": "C52",
   "status": "proved",
   "theorems": [
    "C52_path_binding",
    "C52_root_binding"
   ],
   "note": ""
  },
  {
   "property": "C53",
   "status": "proved",
   "theorems": [
    "C53_arguments",
    "C53_step",
    "C53_registers"
   ],
   "note": "The register indices of the decoder are constrained to be binary; for the enforcer they are a hypothesis (it packs them without checking, relying on the decoder), discharged in C53_registers."
  },
  {
   "property": "C54",
   "status": "proved",
   "theorems": [
    "C54_bar",
    "C54_bar_complete",
    "C54_step"
   ],
   "note": "The words are hypotheses: the checker packs its inputs and outputs without checking that they are bits."
  },
  {
   "property": "C55",
   "status": "proved",
   "theorems": [
    "C55_masking",
    "C55_load",
    "C55_cpu_memory",
    "C55_store_byte_refuted"
   ],
   "note": "The last sentence is a refutation, proved for the constraints of the CPU checker in which the subcontents, the low bits of the destination's value or the double word after occur, together with any further constraints that do not mention them; that no other constraint of the checker mentions them is read off the code."
  },
  {
   "property": "C56",
   "status": "proved",
   "theorems": [
    "C56_decode",
    "C56_opcode",
    "C56_accept",
    "C56_tapes"
   ],
   "note": "The bits of the instruction and the opcode are hypotheses: they are the memory's double word. Acceptance and tapes speak of the packed value of the second argument."
  }
 ]
}