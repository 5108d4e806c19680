{
 "claims": [
  {
   "property": "C01",
   "status": "proved",
   "theorems": [
    "C01_decrypt_encrypt",
    "C01_public_key_matches"
   ],
   "note": ""
  },
  {
   "property": "C02",
   "status": "proved",
   "theorems": [
    "C02_homomorphic"
   ],
   "note": ""
  },
  {
   "property": "C03",
   "status": "proved",
   "theorems": [
    "C03_table_exact",
    "C03_decrypt_with_table",
    "C03_zero_always_found"
   ],
   "note": ""
  },
  {
   "property": "C04",
   "status": "proved",
   "theorems": [
    "C04_keypair_matched",
    "C04_public_key_expressions",
    "C04_public_key_expressions_total",
    "C04_key_equality",
    "C04_parsed_key_equality"
   ],
   "note": ""
  },
  {
   "property": "C05",
   "status": "proved",
   "theorems": [
    "C05_from_bytes",
    "C05_roundtrip"
   ],
   "note": ""
  },
  {
   "property": "C06",
   "status": "proved",
   "theorems": [
    "C06_secret_key_roundtrip",
    "C06_secret_key_exact",
    "C06_log_equality_roundtrip",
    "C06_log_equality_exact",
    "C06_candidate_decryption_roundtrip",
    "C06_candidate_decryption_exact",
    "C06_ciphertext_parts",
    "C06_ring_proof_roundtrip",
    "C06_ring_proof_exact",
    "C06_ring_proof_lengths",
    "C06_log_equality_layout",
    "C06_ring_proof_layout"
   ],
   "note": ""
  },
  {
   "property": "C07",
   "status": "proved",
   "theorems": [
    "C07_complete",
    "C07_prover_never_panics"
   ],
   "note": ""
  },
  {
   "property": "C08",
   "status": "proved",
   "theorems": [
    "C08_verify_exact",
    "C08_accepts_iff"
   ],
   "note": ""
  },
  {
   "property": "C09",
   "status": "proved",
   "theorems": [
    "C09_one_challenge",
    "C09_sound",
    "C09_extract"
   ],
   "note": ""
  },
  {
   "property": "C10",
   "status": "proved",
   "theorems": [
    "C10_commitment_binding",
    "C10_log_equality_binding",
    "C10_possession_binding",
    "C10_range_binding",
    "C10_ring_binding",
    "C10_ring_equation_binding",
    "C10_sum_of_squares_binding"
   ],
   "note": ""
  },
  {
   "property": "C11",
   "status": "proved",
   "theorems": [
    "C11_prover_uniform",
    "C11_simulator_uniform",
    "C11_prover_is_new"
   ],
   "note": ""
  },
  {
   "property": "C12",
   "status": "proved",
   "theorems": [
    "C12_complete",
    "C12_prover_never_panics",
    "C12_sound"
   ],
   "note": ""
  },
  {
   "property": "C13",
   "status": "proved",
   "theorems": [
    "C13_complete",
    "C13_prover_never_panics",
    "C13_accepts_iff",
    "C13_length_mismatch",
    "C13_extract"
   ],
   "note": ""
  },
  {
   "property": "C14",
   "status": "proved",
   "theorems": [
    "C14_complete",
    "C14_prover_never_panics"
   ],
   "note": ""
  },
  {
   "property": "C15",
   "status": "proved",
   "theorems": [
    "C15_accepts_iff",
    "C15_wrong_length",
    "C15_otherwise_mismatch"
   ],
   "note": ""
  },
  {
   "property": "C16",
   "status": "proved",
   "theorems": [
    "C16_sound",
    "C16_bool_sound"
   ],
   "note": ""
  },
  {
   "property": "C17",
   "status": "proved",
   "theorems": [
    "C17_complete",
    "C17_never_panics",
    "C17_wrong_length"
   ],
   "note": ""
  },
  {
   "property": "C18",
   "status": "proved",
   "theorems": [
    "C18_optimal_covers",
    "C18_optimal_total",
    "C18_overflow"
   ],
   "note": ""
  },
  {
   "property": "C19",
   "status": "proved",
   "theorems": [
    "C19_decompose",
    "C19_prepared",
    "C19_prepared_total"
   ],
   "note": ""
  },
  {
   "property": "C20",
   "status": "proved",
   "theorems": [
    "C20_minimal",
    "C20_estimate_irrelevant",
    "C20_log_estimate_valid",
    "C20_int_estimate_valid"
   ],
   "note": ""
  },
  {
   "property": "C21",
   "status": "proved",
   "theorems": [
    "C21_display_injective",
    "C21_optimal_ranges"
   ],
   "note": ""
  },
  {
   "property": "C22",
   "status": "proved",
   "theorems": [
    "C22_encrypt_range_complete",
    "C22_encrypt_range_panics",
    "C22_from_ciphertext_complete",
    "C22_from_ciphertext_panics"
   ],
   "note": ""
  },
  {
   "property": "C23",
   "status": "proved",
   "theorems": [
    "C23_sound",
    "C23_wrong_lengths",
    "C23_verify_never_panics"
   ],
   "note": ""
  },
  {
   "property": "C24",
   "status": "proved",
   "theorems": [
    "C24_complete",
    "C24_prover_never_panics"
   ],
   "note": ""
  },
  {
   "property": "C25",
   "status": "proved",
   "theorems": [
    "C25_accepts_iff",
    "C25_extract",
    "C25_statement_decrypts",
    "C25_sound",
    "C25_length_mismatch"
   ],
   "note": ""
  },
  {
   "property": "C26",
   "status": "proved",
   "theorems": [
    "C26_complete",
    "C26_prover_never_panics"
   ],
   "note": ""
  },
  {
   "property": "C27",
   "status": "proved",
   "theorems": [
    "C27_accepts_iff",
    "C27_extract"
   ],
   "note": ""
  },
  {
   "property": "C28",
   "status": "proved",
   "theorems": [
    "C28_complete",
    "C28_prover_never_panics",
    "C28_sound"
   ],
   "note": ""
  },
  {
   "property": "C29",
   "status": "proved",
   "theorems": [
    "C29_combine_correct",
    "C29_none_iff_too_few",
    "C29_panics_iff_out_of_bounds"
   ],
   "note": ""
  },
  {
   "property": "C30",
   "status": "proved",
   "theorems": [
    "C30_repeated_share",
    "C30_repeated_indexes_refuted"
   ],
   "note": "The naive safety statement is false of the code; the refutation and the exact result for t copies of a share are proved."
  },
  {
   "property": "C31",
   "status": "proved",
   "theorems": [
    "C31_any_secret_possible",
    "C31_unique_polynomial"
   ],
   "note": ""
  },
  {
   "property": "C32",
   "status": "proved",
   "theorems": [
    "C32_honest_dealing",
    "C32_dealing_never_panics",
    "C32_params",
    "C32_key_set_determined",
    "C32_share_accepted_iff"
   ],
   "note": ""
  },
  {
   "property": "C33",
   "status": "proved",
   "theorems": [
    "C33_accepts_iff",
    "C33_count_mismatch",
    "C33_malformed",
    "C33_agrees_with_new"
   ],
   "note": ""
  },
  {
   "property": "C34",
   "status": "proved",
   "theorems": [
    "C34_share_complete",
    "C34_share_never_panics",
    "C34_possession_complete",
    "C34_share_accepts_iff",
    "C34_possession_accepts_iff",
    "C34_share_sound",
    "C34_context_binding"
   ],
   "note": ""
  },
  {
   "property": "C35",
   "status": "proved",
   "theorems": [
    "C35_threshold_decryption",
    "C35_every_participant_can_contribute"
   ],
   "note": ""
  },
  {
   "property": "C36",
   "status": "proved",
   "theorems": [
    "C36_honest_agreement",
    "C36_honest_agreement_sec1",
    "C36_polynomial_sum",
    "C36_start_never_panics"
   ],
   "note": ""
  },
  {
   "property": "C37",
   "status": "proved",
   "theorems": [
    "C37_completed_consistent",
    "C37_share_verdict",
    "C37_complete_ok_iff",
    "C37_complete_ok_unless_replaced",
    "C37_completed_participants_decrypt",
    "C37_key_set_accepted"
   ],
   "note": ""
  },
  {
   "property": "C38",
   "status": "proved",
   "theorems": [
    "C38_missing_lists_exact",
    "C38_finish_panics_iff_missing",
    "C38_complete_panics_iff_missing",
    "C38_commitments_cannot_be_replaced",
    "C38_rejected_inserts_change_nothing",
    "C38_accepted_inserts_change_one_entry"
   ],
   "note": ""
  },
  {
   "property": "C39",
   "status": "proved",
   "theorems": [
    "C39_accepts_iff",
    "C39_invalid_commitment_iff",
    "C39_malformed_proof_iff"
   ],
   "note": ""
  },
  {
   "property": "C40",
   "status": "proved",
   "theorems": [
    "C40_constant_term_final",
    "C40_final_refuted"
   ],
   "note": "The naive finality statement is false of the code; the refutation (all backends, all thresholds >= 2) and what remains true are proved."
  },
  {
   "property": "C41",
   "status": "proved",
   "theorems": [
    "C41_multi_complete",
    "C41_single_complete",
    "C41_single_index_complete",
    "C41_never_panics",
    "C41_documented_panics"
   ],
   "note": ""
  },
  {
   "property": "C42",
   "status": "proved",
   "theorems": [
    "C42_accepts_iff",
    "C42_errors",
    "C42_multi_sound",
    "C42_single_sound",
    "C42_single_wrong_count"
   ],
   "note": ""
  },
  {
   "property": "C43",
   "status": "proved",
   "theorems": [
    "C43_isqrt"
   ],
   "note": ""
  },
  {
   "property": "C44",
   "status": "proved",
   "theorems": [
    "C44_new",
    "C44_new_total",
    "C44_set_max_votes"
   ],
   "note": ""
  },
  {
   "property": "C45",
   "status": "proved",
   "theorems": [
    "C45_accepted",
    "C45_rejected",
    "C45_release_refuted"
   ],
   "note": "The documented panic is missing in builds without overflow checks; the refutation and the exact behaviour otherwise are proved."
  },
  {
   "property": "C46",
   "status": "proved",
   "theorems": [
    "C46_complete",
    "C46_never_panics",
    "C46_panics",
    "C46_release_refuted"
   ],
   "note": "Completeness and totality for all builds; the overspending panic is refuted for builds without overflow checks (wrapping sum)."
  },
  {
   "property": "C47",
   "status": "proved",
   "theorems": [
    "C47_accepts_iff",
    "C47_errors",
    "C47_sound",
    "C47_overspending_rejected"
   ],
   "note": ""
  },
  {
   "property": "C48",
   "status": "proved",
   "theorems": [
    "C48_proofs",
    "C48_applications",
    "C48_sharing",
    "C48_dkg",
    "C48_sec1_log_equality",
    "C48_sec1_refuted"
   ],
   "note": "Proved for backends which encode every element; refuted for SEC1 backends, whose identity cannot be serialized (all-zero proofs)."
  },
  {
   "property": "C49",
   "status": "proved",
   "theorems": [
    "C49_verifiers",
    "C49_messages",
    "C49_debug_results_kept",
    "C49_debug_encodings_kept",
    "C49_in_contract",
    "C49_refuted"
   ],
   "note": "Equality within the contract for any two builds, and debug results are kept by every build; unrestricted equality is refuted (set_max_votes)."
  },
  {
   "property": "C50",
   "status": "proved",
   "theorems": [
    "C50_base64",
    "C50_round_trip_basic",
    "C50_round_trip_proofs",
    "C50_round_trip_sharing",
    "C50_round_trip_voting",
    "C50_api_keys",
    "C50_accepted_choices",
    "C50_accepted_ballots",
    "C50_empty_sum_refuted",
    "C50_identity_key_refuted",
    "C50_sec1_refuted"
   ],
   "note": "Round trips for all valid values; proofs over zero ciphertexts encode but do not decode (C50_empty_sum_refuted)."
  },
  {
   "property": "C51",
   "status": "proved",
   "theorems": [
    "C51_documents",
    "C51_scalars",
    "C51_secret_keys",
    "C51_elements",
    "C51_public_keys",
    "C51_vectors",
    "C51_messages",
    "C51_secrets",
    "C51_sec1_refuted"
   ],
   "note": ""
  },
  {
   "property": "C52",
   "status": "proved",
   "theorems": [
    "C52_provided_methods_lawful",
    "C52_multi_mul",
    "C52_multi_mul_truncates",
    "C52_invert_scalars",
    "C52_mul_generator"
   ],
   "note": ""
  },
  {
   "property": "C53",
   "status": "proved",
   "theorems": [
    "C53_odd_items",
    "C53_size_hint"
   ],
   "note": ""
  },
  {
   "property": "C54",
   "status": "proved",
   "theorems": [
    "C54_totals",
    "C54_totals_decoded",
    "C54_honest_choices",
    "C54_single_choices",
    "C54_multi_choices",
    "C54_quadratic",
    "C54_threshold_from_participants",
    "C54_threshold",
    "C54_election"
   ],
   "note": ""
  },
  {
   "property": "C55",
   "status": "proved",
   "theorems": [
    "C55_protocols",
    "C55_transcripts",
    "C55_disjoint",
    "C55_no_interference",
    "C55_contexts"
   ],
   "note": ""
  },
  {
   "property": "C56",
   "status": "not_applicable",
   "theorems": [],
   "note": "Memory erasure and timing are not observable in a functional model of the code. The parts visible at the level of calls are C80 (secrets never reach variable-time group operations) and C81 (randomness drawn is independent of secrets)."
  },
  {
   "property": "C57",
   "status": "proved",
   "theorems": [
    "C57_verifiers",
    "C57_verifier_cost",
    "C57_hash_functions",
    "C57_finite_domain",
    "C57_log_equality",
    "C57_zero",
    "C57_decryption",
    "C57_share",
    "C57_sum_of_squares"
   ],
   "note": ""
  },
  {
   "property": "C58",
   "status": "proved",
   "theorems": [
    "C58_ring",
    "C58_bool",
    "C58_range",
    "C58_multi_choice",
    "C58_single_choice",
    "C58_quadratic"
   ],
   "note": ""
  },
  {
   "property": "C59",
   "status": "proved",
   "theorems": [
    "C59_decoder_exact",
    "C59_torsion_rejected",
    "C59_accepted_keys"
   ],
   "note": ""
  },
  {
   "property": "C60",
   "status": "proved",
   "theorems": [
    "C60_ristretto",
    "C60_curve25519",
    "C60_generic",
    "C60_generic_decoding"
   ],
   "note": ""
  },
  {
   "property": "C61",
   "status": "proved",
   "theorems": [
    "C61_scalars",
    "C61_no_scalar_preferred"
   ],
   "note": ""
  },
  {
   "property": "C62",
   "status": "proved",
   "theorems": [
    "C62_decrypt_encrypt",
    "C62_zero_complete",
    "C62_zero_sound",
    "C62_decryption_sound",
    "C62_multi_choice_sound",
    "C62_single_choice_sound",
    "C62_quadratic_sound",
    "C62_threshold_decryption",
    "C62_outside_refuted",
    "C62_simulation_keys_encryption",
    "C62_simulation_proofs",
    "C62_simulation_sharing",
    "C62_simulation_apps",
    "C62_simulation_encodings",
    "C62_curve25519",
    "C62_parsed",
    "C62_closed"
   ],
   "note": "All guarantees hold for values inside of the prime-order subgroup, which is what the parsers return; without that hypothesis soundness is refuted (C62_outside_refuted)."
  },
  {
   "property": "C63",
   "status": "proved",
   "theorems": [
    "C63_keypair",
    "C63_encrypt_element",
    "C63_encrypt",
    "C63_log_equality",
    "C63_encrypt_zero",
    "C63_verifiable_decryption",
    "C63_possession",
    "C63_commitment_equivalence",
    "C63_sum_of_squares",
    "C63_ring",
    "C63_encrypt_bool",
    "C63_multi_choice",
    "C63_single_choice",
    "C63_encrypt_range",
    "C63_from_ciphertext",
    "C63_quadratic_ballot",
    "C63_dealer",
    "C63_decryption_share",
    "C63_participant_possession"
   ],
   "note": ""
  },
  {
   "property": "C64",
   "status": "proved",
   "theorems": [
    "C64_verifiers",
    "C64_hash_functions",
    "C64_knowledge_error",
    "C64_possession",
    "C64_dealer",
    "C64_participant",
    "C64_log_equality",
    "C64_zero",
    "C64_decryption",
    "C64_share",
    "C64_sum_of_squares",
    "C64_commitment",
    "C64_commitment_base_refuted"
   ],
   "note": ""
  },
  {
   "property": "C65",
   "status": "proved",
   "theorems": [
    "C65_curve25519_code",
    "C65_curve25519_ballots",
    "C65_curve25519_ranges",
    "C65_curve25519_shares",
    "C65_environments",
    "C65_byte_strings",
    "C65_uniform",
    "C65_dalek",
    "C65_ristretto_zero",
    "C65_ristretto_single_choice",
    "C65_ristretto_possession",
    "C65_generic",
    "C65_generic_zero"
   ],
   "note": ""
  },
  {
   "property": "C66",
   "status": "proved",
   "theorems": [
    "C66_base64",
    "C66_strict",
    "C66_writes_values",
    "C66_writes_proofs",
    "C66_writes_sharing",
    "C66_writes_voting",
    "C66_reads_values",
    "C66_reads_proofs",
    "C66_reads_sharing",
    "C66_reads_voting"
   ],
   "note": ""
  },
  {
   "property": "C67",
   "status": "proved",
   "theorems": [
    "C67_std_estimate_valid",
    "C67_same_as_no_std",
    "C67_std_minimal",
    "C67_ulp_refuted"
   ],
   "note": ""
  },
  {
   "property": "C68",
   "status": "proved",
   "theorems": [
    "C68_encrypt_element",
    "C68_encrypt",
    "C68_not_unconditional"
   ],
   "note": ""
  },
  {
   "property": "C69",
   "status": "proved",
   "theorems": [
    "C69_encrypt_bool",
    "C69_multi_choice",
    "C69_single_choice",
    "C69_encrypt_range",
    "C69_hash_inputs"
   ],
   "note": ""
  },
  {
   "property": "C70",
   "status": "proved",
   "theorems": [
    "C70_encrypt_element",
    "C70_encrypt_bool",
    "C70_multi_choice",
    "C70_single_choice",
    "C70_encrypt_range",
    "C70_hash_inputs",
    "C70_decryption_shares"
   ],
   "note": ""
  },
  {
   "property": "C71",
   "status": "proved",
   "theorems": [
    "C71_encryptions",
    "C71_bools",
    "C71_multi_choice",
    "C71_single_choice",
    "C71_ranges",
    "C71_shared_encryptions",
    "C71_shared_bools",
    "C71_shared_multi_choice",
    "C71_shared_single_choice",
    "C71_shared_ranges"
   ],
   "note": ""
  },
  {
   "property": "C72",
   "status": "proved",
   "theorems": [
    "C72_ballots",
    "C72_shared_ballots",
    "C72_hash_inputs"
   ],
   "note": ""
  },
  {
   "property": "C73",
   "status": "proved",
   "theorems": [
    "C73_multi_choice",
    "C73_single_choice",
    "C73_hash_inputs",
    "C73_quadratic",
    "C73_quadratic_hash_inputs"
   ],
   "note": ""
  },
  {
   "property": "C74",
   "status": "proved",
   "theorems": [
    "C74_key_unbiased",
    "C74_key_unpredictable",
    "C74_cases",
    "C74_hash_inputs"
   ],
   "note": "SHA-256 as a random function, exact counting; only completed key generations have a key (refusing to complete is possible and outside the claim)."
  },
  {
   "property": "C75",
   "status": "proved",
   "theorems": [
    "C75_same_key_set",
    "C75_threshold",
    "C75_talliers",
    "C75_election",
    "C75_multi_election",
    "C75_quadratic_election",
    "C75_same_commitments_same_key",
    "C75_equivocation_refuted"
   ],
   "note": "Proved for participants with the same polynomials; with the same commitments only, the shared keys agree but joint decryption is refuted (equivocation)."
  },
  {
   "property": "C76",
   "status": "proved",
   "theorems": [
    "C76_keys",
    "C76_panics",
    "C76_extended_ciphertext",
    "C76_ciphertext_with_value_refuted",
    "C76_dealer",
    "C76_active_participant",
    "C76_third_stage",
    "C76_second_stage",
    "C76_first_stage_refuted",
    "C76_ring_refuted",
    "C76_builder"
   ],
   "note": "Refuted for three types (values, first stage of the key generation, rings); proved for all others."
  },
  {
   "property": "C77",
   "status": "proved",
   "theorems": [
    "C77_encryptions",
    "C77_bools",
    "C77_multi_choice",
    "C77_single_choice",
    "C77_ranges"
   ],
   "note": "The attacker queries the Fiat-Shamir hash during the key generation for dealers' proofs only; the t checking participants have the same polynomials (broadcast)."
  },
  {
   "property": "C78",
   "status": "proved",
   "theorems": [
    "C78_log_equality",
    "C78_zero_encryption",
    "C78_decryption",
    "C78_share",
    "C78_possession",
    "C78_dealer",
    "C78_participant",
    "C78_sum_of_squares",
    "C78_commitment",
    "C78_commitment_identity_base_refuted",
    "C78_ring_proof",
    "C78_single_value_refuted",
    "C78_bool_encryption",
    "C78_range_proof",
    "C78_multi_choice_ballot",
    "C78_single_choice_ballot",
    "C78_quadratic_ballot"
   ],
   "note": "Refuted for the blinding response with the identity as commitment base and for rings with a single value (not reachable through the public API)."
  },
  {
   "property": "C79",
   "status": "proved",
   "theorems": [
    "C79_knowledge_error",
    "C79_ring_proof",
    "C79_bool_encryption",
    "C79_range_proof",
    "C79_multi_choice_ballot",
    "C79_single_choice_ballot",
    "C79_quadratic_ballot"
   ],
   "note": ""
  },
  {
   "property": "C80",
   "status": "proved",
   "theorems": [
    "C80_keys_and_encryption",
    "C80_decryption",
    "C80_proofs",
    "C80_ring_and_range",
    "C80_ballots",
    "C80_sharing",
    "C80_dkg"
   ],
   "note": ""
  },
  {
   "property": "C81",
   "status": "proved",
   "theorems": [
    "C81_basic",
    "C81_bool_and_range",
    "C81_choice_ballots",
    "C81_quadratic_ballots",
    "C81_votes_not_visible",
    "C81_sharing"
   ],
   "note": ""
  },
  {
   "property": "C82",
   "status": "proved",
   "theorems": [
    "C82_multi_choice_refuted",
    "C82_single_choice_refuted",
    "C82_quadratic_refuted",
    "C82_rerandomized"
   ],
   "note": "Secrecy of the copied ballot is refuted for elections which accept copies; all three kinds of ballots."
  },
  {
   "property": "C83",
   "status": "proved",
   "theorems": [
    "C83_chain_complete",
    "C83_one_place",
    "C83_order",
    "C83_no_replay"
   ],
   "note": ""
  },
  {
   "property": "C84",
   "status": "proved",
   "theorems": [
    "C84_module",
    "C84_tally_order",
    "C84_tally_split",
    "C84_tally_remove"
   ],
   "note": ""
  },
  {
   "property": "C85",
   "status": "proved",
   "theorems": [
    "C85_logarithmic",
    "C85_range_proofs",
    "C85_other_proofs",
    "C85_choices",
    "C85_quadratic"
   ],
   "note": ""
  },
  {
   "property": "C86",
   "status": "proved",
   "theorems": [
    "C86_rogue_keys_refuted",
    "C86_possession_protects"
   ],
   "note": ""
  },
  {
   "property": "C87",
   "status": "proved",
   "theorems": [
    "C87_messages_identify_errors",
    "C87_sources",
    "C87_option_number"
   ],
   "note": ""
  },
  {
   "property": "C88",
   "status": "proved",
   "theorems": [
    "C88_encryptions_refuted",
    "C88_log_equality_refuted",
    "C88_decryption_shares_refuted",
    "C88_possession_refuted",
    "C88_ballots_refuted",
    "C88_single_choices_refuted"
   ],
   "note": ""
  },
  {
   "property": "C89",
   "status": "proved",
   "theorems": [
    "C89_every_share_counts",
    "C89_one_wrong_share",
    "C89_chosen_result_refuted"
   ],
   "note": ""
  },
  {
   "property": "C90",
   "status": "proved",
   "theorems": [
    "C90_robust_decryption",
    "C90_election",
    "C90_multi_election",
    "C90_quadratic_election"
   ],
   "note": ""
  },
  {
   "property": "C91",
   "status": "proved",
   "theorems": [
    "C91_ciphertexts_bind",
    "C91_range_ciphertexts_bind",
    "C91_choices_bind",
    "C91_single_choices_bind",
    "C91_quadratic_bind",
    "C91_without_key_refuted"
   ],
   "note": ""
  },
  {
   "property": "C92",
   "status": "proved",
   "theorems": [
    "C92_chosen_keys",
    "C92_multi_chosen_keys",
    "C92_quadratic_chosen_keys",
    "C92_curve25519_code",
    "C92_curve25519_elections",
    "C92_curve25519_chosen_keys",
    "C92_ristretto_elections",
    "C92_ristretto_chosen_keys",
    "C92_election",
    "C92_multi_election",
    "C92_quadratic_election"
   ],
   "note": ""
  }
 ]
}