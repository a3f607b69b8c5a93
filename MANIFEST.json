{
 "claims": [
  {
   "property": "C01",
   "status": "proved",
   "theorems": [
    "C01_inverse_correct",
    "C01_inverse_bad_modulus",
    "C01_inverse_terminates",
    "C01_inverse_negative_refuted"
   ],
   "note": ""
  },
  {
   "property": "C02",
   "status": "proved",
   "theorems": [
    "C02_mod_exp_nonneg_exponent",
    "C02_mod_exp_neg_exponent",
    "C02_mod_exp_modulus_one",
    "C02_mod_exp_modulus_zero"
   ],
   "note": ""
  },
  {
   "property": "C03",
   "status": "proved",
   "theorems": [
    "C03_modulus_canonical",
    "C03_mod_mul_sub",
    "C03_mod_div"
   ],
   "note": ""
  },
  {
   "property": "C04",
   "status": "proved",
   "theorems": [
    "C04_exp",
    "C04_exp_zero_zero_refuted"
   ],
   "note": ""
  },
  {
   "property": "C05",
   "status": "proved",
   "theorems": [
    "C05_bytes_roundtrip",
    "C05_to_bytes_are_bytes",
    "C05_from_bytes_value",
    "C05_bytes_canonical",
    "C05_sign_lost"
   ],
   "note": ""
  },
  {
   "property": "C06",
   "status": "proved",
   "theorems": [
    "C06_dec_hex_roundtrip",
    "C06_dec_foreign_char",
    "C06_hex_foreign_char",
    "C06_empty_rejected"
   ],
   "note": ""
  },
  {
   "property": "C07",
   "status": "proved",
   "theorems": [
    "C07_bits",
    "C07_num_bits",
    "C07_shifts",
    "C07_bitwise_or"
   ],
   "note": ""
  },
  {
   "property": "C08",
   "status": "proved",
   "theorems": [
    "C08_prime_in_range",
    "C08_prime_in_range_rejects",
    "C08_v_prime_prime"
   ],
   "note": ""
  },
  {
   "property": "C09",
   "status": "proved",
   "theorems": [
    "C09_u32_bytes",
    "C09_u32_injective"
   ],
   "note": ""
  },
  {
   "property": "C10",
   "status": "proved",
   "theorems": [
    "C10_no_framing",
    "C10_collision_refuted",
    "C10_same_shape_injective"
   ],
   "note": ""
  },
  {
   "property": "C11",
   "status": "proved",
   "theorems": [
    "C11_reconstruct",
    "C11_reconstruct_bytes",
    "C11_leading_zero_refuted"
   ],
   "note": ""
  },
  {
   "property": "C12",
   "status": "proved",
   "theorems": [
    "C12_zero_share_rejected",
    "C12_honest_zero_share_refuted"
   ],
   "note": ""
  },
  {
   "property": "C13",
   "status": "proved",
   "theorems": [
    "C13_perfect_secrecy",
    "C13_small_field_leak_refuted"
   ],
   "note": ""
  },
  {
   "property": "C14",
   "status": "proved",
   "theorems": [
    "C14_split_validation",
    "C14_combine_validation",
    "C14_combine_accepts"
   ],
   "note": ""
  },
  {
   "property": "C15",
   "status": "proved",
   "theorems": [
    "C15_share_codec",
    "C15_reduces",
    "C15_empty_panics"
   ],
   "note": ""
  },
  {
   "property": "C16",
   "status": "proved",
   "theorems": [
    "C16_reconstruct_field",
    "C16_reconstruct_group",
    "C16_scheme_arguments",
    "C16_combine_rejects",
    "C16_instance_contract"
   ],
   "note": ""
  },
  {
   "property": "C17",
   "status": "proved",
   "theorems": [
    "C17_feldman_complete",
    "C17_feldman_sound",
    "C17_feldman_accepted_combine",
    "C17_extra_commitments_refuted"
   ],
   "note": ""
  },
  {
   "property": "C18",
   "status": "proved",
   "theorems": [
    "C18_pedersen_complete",
    "C18_pedersen_binding",
    "C18_pedersen_hiding",
    "C18_pedersen_accepts_iff"
   ],
   "note": ""
  },
  {
   "property": "C19",
   "status": "proved",
   "theorems": [
    "C19_zero_share_refused",
    "C19_honest_zero_share_refuted",
    "C19_split_iff"
   ],
   "note": ""
  },
  {
   "property": "C20",
   "status": "proved",
   "theorems": [
    "C20_feldman_codec",
    "C20_pedersen_codec",
    "C20_feldman_roundtrip_refuted",
    "C20_pedersen_roundtrip_refuted",
    "C20_recoded_verifier_refuses_refuted",
    "C20_pedersen_short_panics_refuted",
    "C20_share_to_bytes_diverges_refuted",
    "C20_share_try_from"
   ],
   "note": ""
  },
  {
   "property": "C21",
   "status": "proved",
   "theorems": [
    "C21_four_squares",
    "C21_four_squares_negative",
    "C21_four_squares_16_bits"
   ],
   "note": ""
  },
  {
   "property": "C22",
   "status": "proved",
   "theorems": [
    "C22_delta_sign",
    "C22_delta_exact",
    "C22_delta_sign_refuted",
    "C22_delta_prime"
   ],
   "note": ""
  },
  {
   "property": "C23",
   "status": "proved",
   "theorems": [
    "C23_honest_key_accepted",
    "C23_empty_schema",
    "C23_key_structure",
    "C23_names_rejected",
    "C23_refuted_master_secret_unchecked"
   ],
   "note": ""
  },
  {
   "property": "C24",
   "status": "proved",
   "theorems": [
    "C24_blinded_secrets_accepted"
   ],
   "note": ""
  },
  {
   "property": "C25",
   "status": "proved",
   "theorems": [
    "C25_issued_signature_valid",
    "C25_e_invertible",
    "C25_issued_presentable"
   ],
   "note": ""
  },
  {
   "property": "C26",
   "status": "proved",
   "theorems": [
    "C26_equality_recomputed",
    "C26_valid_signature"
   ],
   "note": ""
  },
  {
   "property": "C27",
   "status": "proved",
   "theorems": [
    "C27_predicate_recomputed",
    "C27_false_refused"
   ],
   "note": ""
  },
  {
   "property": "C28",
   "status": "proved",
   "theorems": [
    "C28_presentation_accepted"
   ],
   "note": ""
  },
  {
   "property": "C29",
   "status": "proved",
   "theorems": [
    "C29_accept_iff",
    "C29_names_and_predicates",
    "C29_common_values_agree"
   ],
   "note": ""
  },
  {
   "property": "C30",
   "status": "proved",
   "theorems": [
    "C30_refuted_credential_needed"
   ],
   "note": ""
  },
  {
   "property": "C31",
   "status": "proved",
   "theorems": [
    "C31_refuted_predicates_bound"
   ],
   "note": ""
  },
  {
   "property": "C32",
   "status": "proved",
   "theorems": [
    "C32_refuted_nonrevocation_required"
   ],
   "note": ""
  },
  {
   "property": "C33",
   "status": "proved",
   "theorems": [
    "C33_second_response_rejected",
    "C33_refuted_verify_stateless"
   ],
   "note": ""
  },
  {
   "property": "C34",
   "status": "proved",
   "theorems": [
    "C34_accumulator_history",
    "C34_revoke",
    "C34_recover",
    "C34_update",
    "C34_revoke_recover",
    "C34_double_revoke_refuted",
    "C34_failed_single_unchanged",
    "C34_failed_update_changes_refuted"
   ],
   "note": ""
  },
  {
   "property": "C35",
   "status": "proved",
   "theorems": [
    "C35_witness_iff",
    "C35_witness_unique",
    "C35_issue_process",
    "C35_prover_check_iff",
    "C35_accepted_credential_unusable_refuted"
   ],
   "note": ""
  },
  {
   "property": "C36",
   "status": "proved",
   "theorems": [
    "C36_update_equals_recompute"
   ],
   "note": ""
  },
  {
   "property": "C37",
   "status": "proved",
   "theorems": [
    "C37_merge_iff_consecutive",
    "C37_merge_composes",
    "C37_merge_associative"
   ],
   "note": ""
  },
  {
   "property": "C38",
   "status": "proved",
   "theorems": [
    "C38_tails",
    "C38_simple_accessor",
    "C38_large_registry_refuted",
    "C38_revoked_still_proves_refuted"
   ],
   "note": ""
  },
  {
   "property": "C39",
   "status": "proved",
   "theorems": [
    "C39_non_revocation_complete",
    "C39_large_challenge_refused"
   ],
   "note": ""
  },
  {
   "property": "C40",
   "status": "proved",
   "theorems": [
    "C40_xlist_roundtrip",
    "C40_xlist_roundtrip_list",
    "C40_lengths",
    "C40_from_list_iff",
    "C40_legacy_rms",
    "C40_legacy_m1"
   ],
   "note": ""
  },
  {
   "property": "C41",
   "status": "proved",
   "theorems": [
    "C41_schema_exact",
    "C41_schema_order",
    "C41_values_last_wins",
    "C41_values_order",
    "C41_bad_number",
    "C41_decimal",
    "C41_request_exact",
    "C41_request_order",
    "C41_unknown_type",
    "C41_known_type"
   ],
   "note": ""
  },
  {
   "property": "C42",
   "status": "proved",
   "theorems": [
    "C42_sign_then_verify",
    "C42_unique_signature",
    "C42_other_message",
    "C42_other_key",
    "C42_refuted_infinity_rejected",
    "C42_bytes_roundtrip",
    "C42_hash_first_point",
    "C42_key_bytes"
   ],
   "note": ""
  },
  {
   "property": "C43",
   "status": "proved",
   "theorems": [
    "C43_aggregate_verifies",
    "C43_unique_multi_signature",
    "C43_order",
    "C43_missing_signer",
    "C43_single",
    "C43_refuted_empty_rejected",
    "C43_rogue_key"
   ],
   "note": ""
  },
  {
   "property": "C44",
   "status": "proved",
   "theorems": [
    "C44_pop_verifies",
    "C44_pop_unique",
    "C44_rogue_key_needs_secret",
    "C44_refuted_pop_excludes_rogue_keys",
    "C44_pop_value"
   ],
   "note": ""
  },
  {
   "property": "C45",
   "status": "proved",
   "theorems": [
    "C45_special_soundness"
   ],
   "note": ""
  },
  {
   "property": "C46",
   "status": "proved",
   "theorems": [
    "C46_refuted_nonce_binding"
   ],
   "note": ""
  },
  {
   "property": "C47",
   "status": "proved",
   "theorems": [
    "C47_refuted_predicate_true",
    "C47_wrapped_false"
   ],
   "note": ""
  },
  {
   "property": "C48",
   "status": "proved",
   "theorems": [
    "C48_refuted_committed_attribute_presentable"
   ],
   "note": ""
  },
  {
   "property": "C49",
   "status": "proved",
   "theorems": [
    "C49_instances",
    "C49_sign_then_verify",
    "C49_unique_signature",
    "C49_other_message",
    "C49_other_key",
    "C49_default_contexts_disjoint",
    "C49_refuted_context_binding",
    "C49_signature_is_pop",
    "C49_refuted_infinity_rejected",
    "C49_pop_complete_and_unique",
    "C49_pop_hashed_string"
   ],
   "note": ""
  },
  {
   "property": "C50",
   "status": "proved",
   "theorems": [
    "C50_aggregate_complete",
    "C50_aggregate_unique",
    "C50_missing_signer_rejected",
    "C50_index_out_of_range",
    "C50_no_rk_complete",
    "C50_refuted_no_rk_participation",
    "C50_refuted_empty_rejected",
    "C50_exponents",
    "C50_combine"
   ],
   "note": ""
  },
  {
   "property": "C51",
   "status": "proved",
   "theorems": [
    "C51_multi_decision",
    "C51_multi_complete",
    "C51_repeated_message_rejected",
    "C51_single_and_empty"
   ],
   "note": ""
  },
  {
   "property": "C52",
   "status": "proved",
   "theorems": [
    "C52_batch_complete",
    "C52_batch_sound",
    "C52_equal_exponents_insufficient"
   ],
   "note": ""
  },
  {
   "property": "C53",
   "status": "proved",
   "theorems": [
    "C53_round_trip",
    "C53_seed_keypair",
    "C53_verify_iff",
    "C53_errors",
    "C53_seed_secret"
   ],
   "note": ""
  },
  {
   "property": "C54",
   "status": "proved",
   "theorems": [
    "C54_sign_then_verify",
    "C54_sign_outcomes",
    "C54_short_message_list",
    "C54_verify_decision",
    "C54_accepted_form",
    "C54_message_binding"
   ],
   "note": ""
  },
  {
   "property": "C55",
   "status": "proved",
   "theorems": [
    "C55_complete_proof_decision",
    "C55_complete_proof",
    "C55_signs_only_verified",
    "C55_blind_issuance",
    "C55_context_decision",
    "C55_context_extract",
    "C55_hidden_index",
    "C55_known_index_out_of_range",
    "C55_complete_signature"
   ],
   "note": ""
  },
  {
   "property": "C56",
   "status": "proved",
   "theorems": [
    "C56_reported_status",
    "C56_disclosure_complete",
    "C56_verifies_for_every_challenge",
    "C56_joint_challenge",
    "C56_init_requires_signature"
   ],
   "note": ""
  },
  {
   "property": "C57",
   "status": "proved",
   "theorems": [
    "C57_special_soundness"
   ],
   "note": ""
  },
  {
   "property": "C58",
   "status": "proved",
   "theorems": [
    "C58_request_indices",
    "C58_refuted_request_enforced",
    "C58_refuted_reveals_nothing"
   ],
   "note": ""
  },
  {
   "property": "C59",
   "status": "proved",
   "theorems": [
    "C59_refuted_revealed_signed"
   ],
   "note": ""
  },
  {
   "property": "C60",
   "status": "proved",
   "theorems": [
    "C60_indistinguishable",
    "C60_one_randomness_per_transcript"
   ],
   "note": ""
  },
  {
   "property": "C61",
   "status": "proved",
   "theorems": [
    "C61_derived_key",
    "C61_inputs_separated",
    "C61_secret_validated"
   ],
   "note": ""
  },
  {
   "property": "C62",
   "status": "proved",
   "theorems": [
    "C62_response_of_message",
    "C62_equal_iff_equal_messages",
    "C62_index_out_of_range",
    "C62_accepted_proof_no_panic"
   ],
   "note": ""
  },
  {
   "property": "C63",
   "status": "proved",
   "theorems": [
    "C63_signature",
    "C63_public_key",
    "C63_proof_of_values",
    "C63_blind_context",
    "C63_signature_proof",
    "C63_bit_vector",
    "C63_proof_request"
   ],
   "note": ""
  },
  {
   "property": "C64",
   "status": "proved",
   "theorems": [
    "C64_no_panic",
    "C64_refuted_request_no_panic",
    "C64_refuted_signature_proof_no_panic",
    "C64_refuted_truncated_proof"
   ],
   "note": ""
  },
  {
   "property": "C65",
   "status": "proved",
   "theorems": [
    "C65_commit_index",
    "C65_complete",
    "C65_decision",
    "C65_special_soundness",
    "C65_one_blinding_per_transcript",
    "C65_bytes",
    "C65_bytes_no_panic"
   ],
   "note": ""
  },
  {
   "property": "C66",
   "status": "proved",
   "theorems": [
    "C66_sign_outcomes",
    "C66_sign_then_verify",
    "C66_verify_decision",
    "C66_message_binding",
    "C66_rerandomise"
   ],
   "note": ""
  },
  {
   "property": "C67",
   "status": "proved",
   "theorems": [
    "C67_blind_issuance",
    "C67_paper_variant",
    "C67_errors",
    "C67_issuance_sound",
    "C67_refuted_known_messages_enforced"
   ],
   "note": ""
  },
  {
   "property": "C68",
   "status": "proved",
   "theorems": [
    "C68_disclosure_complete",
    "C68_response_of_hidden",
    "C68_equal_responses",
    "C68_errors"
   ],
   "note": ""
  },
  {
   "property": "C69",
   "status": "proved",
   "theorems": [
    "C69_special_soundness",
    "C69_signed_messages"
   ],
   "note": ""
  },
  {
   "property": "C70",
   "status": "proved",
   "theorems": [
    "C70_indistinguishable",
    "C70_one_randomness_per_proof"
   ],
   "note": ""
  },
  {
   "property": "C71",
   "status": "proved",
   "theorems": [
    "C71_refuted_other_group_bytes",
    "C71_refuted_index_checked",
    "C71_refuted_response_total",
    "C71_accepted_proof_has_responses"
   ],
   "note": ""
  },
  {
   "property": "C72",
   "status": "proved",
   "theorems": [
    "C72_reads_the_last_write"
   ],
   "note": ""
  },
  {
   "property": "C73",
   "status": "proved",
   "theorems": [
    "C73_old_roots_stay_readable"
   ],
   "note": ""
  },
  {
   "property": "C74",
   "status": "proved",
   "theorems": [
    "C74_proofs_verify",
    "C74_proofs_are_binding",
    "C74_accepted_value_is_stored"
   ],
   "note": ""
  },
  {
   "property": "C75",
   "status": "proved",
   "theorems": [
    "C75_root_depends_on_contents_only",
    "C75_equal_roots_equal_contents"
   ],
   "note": ""
  },
  {
   "property": "C76",
   "status": "proved",
   "theorems": [
    "C76_congruent_indices_share_a_leaf",
    "C76_refuted_indices_are_distinct_leaves"
   ],
   "note": ""
  },
  {
   "property": "C77",
   "status": "proved",
   "theorems": [
    "C77_update_root",
    "C77_missing_nodes_are_reported",
    "C77_short_proofs_panic",
    "C77_extra_nodes_are_ignored",
    "C77_get_appends_its_proof"
   ],
   "note": ""
  },
  {
   "property": "C78",
   "status": "proved",
   "theorems": [
    "C78_lc_arithmetic",
    "C78_simplify"
   ],
   "note": ""
  },
  {
   "property": "C79",
   "status": "proved",
   "theorems": [
    "C79_same_system",
    "C79_verifier_total",
    "C79_fresh",
    "C79_gates_hold",
    "C79_multiply",
    "C79_multiply_sound"
   ],
   "note": ""
  },
  {
   "property": "C80",
   "status": "proved",
   "theorems": [
    "C80_bounded_num_sound",
    "C80_bounded_num_complete",
    "C80_refuted_any_width",
    "C80_short_commitments",
    "C80_needs_randomness"
   ],
   "note": ""
  },
  {
   "property": "C81",
   "status": "proved",
   "theorems": [
    "C81_non_zero_sound",
    "C81_non_zero_complete"
   ],
   "note": ""
  },
  {
   "property": "C82",
   "status": "proved",
   "theorems": [
    "C82_membership_sound",
    "C82_membership_complete",
    "C82_non_membership_sound",
    "C82_non_membership_complete"
   ],
   "note": ""
  },
  {
   "property": "C83",
   "status": "proved",
   "theorems": [
    "C83_set_membership_alt_complete",
    "C83_set_membership_alt_sound",
    "C83_refuted_zero_in_any_set"
   ],
   "note": ""
  },
  {
   "property": "C84",
   "status": "proved",
   "theorems": [
    "C84_mimc_sound",
    "C84_mimc_complete",
    "C84_native_agrees"
   ],
   "note": ""
  },
  {
   "property": "C85",
   "status": "proved",
   "theorems": [
    "C85_permutation_sound",
    "C85_permutation_complete",
    "C85_poseidon_sound",
    "C85_poseidon_complete"
   ],
   "note": ""
  },
  {
   "property": "C86",
   "status": "proved",
   "theorems": [
    "C86_refuted_inverse_any_image",
    "C86_inverse_pending_panics"
   ],
   "note": ""
  },
  {
   "property": "C87",
   "status": "proved",
   "theorems": [
    "C87_sound_4",
    "C87_sound_8",
    "C87_complete_4",
    "C87_complete_8",
    "C87_tree_proofs_accepted_4",
    "C87_tree_proofs_accepted_8",
    "C87_accepted_value_is_stored_4",
    "C87_accepted_value_is_stored_8",
    "C87_blinding_count"
   ],
   "note": ""
  },
  {
   "property": "C88",
   "status": "proved",
   "theorems": [
    "C88_refuted_root_is_a_leaf_4",
    "C88_refuted_root_is_a_leaf_8",
    "C88_refuted_inner_nodes_are_leaves_4",
    "C88_refuted_inner_nodes_are_leaves_8",
    "C88_refuted_depth_bound_4",
    "C88_node_count_4",
    "C88_node_count_8"
   ],
   "note": ""
  },
  {
   "property": "C89",
   "status": "proved",
   "theorems": [
    "C89_attribute_encoding",
    "C89_context_value",
    "C89_signed_context",
    "C89_signed_context_with_revocation",
    "C89_context_binds",
    "C89_index_number_injective",
    "C89_refuted_max_index"
   ],
   "note": ""
  },
  {
   "property": "C90",
   "status": "proved",
   "theorems": [
    "C90_c_list_is_published_values",
    "C90_refuted_c_list_checked"
   ],
   "note": ""
  },
  {
   "property": "C91",
   "status": "proved",
   "theorems": [
    "C91_accepted_is_signature",
    "C91_refuted_failure_leaves_signature_unchanged",
    "C91_refuted_idempotent"
   ],
   "note": ""
  },
  {
   "property": "C92",
   "status": "proved",
   "theorems": [
    "C92_failed_add",
    "C92_refuted_failed_add_harmless"
   ],
   "note": ""
  },
  {
   "property": "C93",
   "status": "proved",
   "theorems": [
    "C93_ex",
    "C93_complete",
    "C93_statement_unique",
    "C93_verification_scalars"
   ],
   "note": ""
  },
  {
   "property": "C94",
   "status": "proved",
   "theorems": [
    "C94_ex",
    "C94_create_lengths",
    "C94_refuted_wrong_rounds",
    "C94_refuted_unequal_lists"
   ],
   "note": ""
  },
  {
   "property": "C95",
   "status": "proved",
   "theorems": [
    "C95_ex",
    "C95_complete",
    "C95_end_to_end",
    "C95_one_phase"
   ],
   "note": ""
  },
  {
   "property": "C96",
   "status": "proved",
   "theorems": [
    "C96_accepts_iff",
    "C96_bad_draws",
    "C96_short_G",
    "C96_wrong_rounds",
    "C96_refuted_short_H",
    "C96_refuted_unequal_lists",
    "C96_ex"
   ],
   "note": ""
  },
  {
   "property": "C97",
   "status": "proved",
   "theorems": [
    "C97_sign_then_verify_1",
    "C97_sign_then_verify_2",
    "C97_accepts_exactly_1",
    "C97_accepts_exactly_2",
    "C97_randomize_1",
    "C97_randomize_2",
    "C97_too_many"
   ],
   "note": ""
  },
  {
   "property": "C98",
   "status": "proved",
   "theorems": [
    "C98_batch_complete",
    "C98_batch_sound_1",
    "C98_batch_sound_2"
   ],
   "note": ""
  },
  {
   "property": "C99",
   "status": "proved",
   "theorems": [
    "C99_binds_messages_1",
    "C99_binds_messages_2",
    "C99_refuted_binds_length",
    "C99_refuted_short_signature_error",
    "C99_decides"
   ],
   "note": ""
  },
  {
   "property": "C100",
   "status": "proved",
   "theorems": [
    "C100_setup",
    "C100_bases_separate"
   ],
   "note": ""
  },
  {
   "property": "C101",
   "status": "proved",
   "theorems": [
    "C101_key_proof_complete",
    "C101_key_proof_sound",
    "C101_malformed"
   ],
   "note": ""
  },
  {
   "property": "C102",
   "status": "proved",
   "theorems": [
    "C102_delegate_then_verify_odd",
    "C102_delegate_then_verify_even",
    "C102_too_many",
    "C102_issuer_levels"
   ],
   "note": ""
  },
  {
   "property": "C103",
   "status": "proved",
   "theorems": [
    "C103_link_sound",
    "C103_link_errors",
    "C103_refuted_delegatee_fixed",
    "C103_refuted_empty_link_error"
   ],
   "note": ""
  },
  {
   "property": "C104",
   "status": "proved",
   "theorems": [
    "C104_built_levels",
    "C104_truncate",
    "C104_truncate_valid"
   ],
   "note": ""
  },
  {
   "property": "C105",
   "status": "proved",
   "theorems": [
    "C105_complete",
    "C105_sound",
    "C105_shape",
    "C105_wrong_counts",
    "C105_refuted_no_panic"
   ],
   "note": ""
  },
  {
   "property": "C106",
   "status": "proved",
   "theorems": [
    "C106_batched_complete",
    "C106_one_link",
    "C106_sound_given_even",
    "C106_refuted_batched_sound"
   ],
   "note": ""
  },
  {
   "property": "C107",
   "status": "proved",
   "theorems": [
    "C107_refuted_any_params",
    "C107_accepted",
    "C107_complete",
    "C107_precomputed_same"
   ],
   "note": ""
  },
  {
   "property": "C108",
   "status": "proved",
   "theorems": [
    "C108_special_sound"
   ],
   "note": ""
  },
  {
   "property": "C109",
   "status": "proved",
   "theorems": [
    "C109_indistinguishable"
   ],
   "note": ""
  },
  {
   "property": "C110",
   "status": "proved",
   "theorems": [
    "C110_refuted_shown_is_signed",
    "C110_refuted_asked_is_shown",
    "C110_refuted_needs_credential"
   ],
   "note": ""
  },
  {
   "property": "C111",
   "status": "proved",
   "theorems": [
    "C111_refuted_order_independent",
    "C111_refuted_levels_bound"
   ],
   "note": ""
  },
  {
   "property": "C112",
   "status": "proved",
   "theorems": [
    "C112_refuted_reusable"
   ],
   "note": ""
  },
  {
   "property": "C113",
   "status": "proved",
   "theorems": [
    "C113_refuted_no_panic",
    "C113_counts_checked"
   ],
   "note": ""
  },
  {
   "property": "C114",
   "status": "proved",
   "theorems": [
    "C114_refuted_any_generator",
    "C114_keygen",
    "C114_roundtrip",
    "C114_exact",
    "C114_too_many",
    "C114_refuted_any_message"
   ],
   "note": ""
  },
  {
   "property": "C115",
   "status": "proved",
   "theorems": [
    "C115_accepts_iff",
    "C115_other_label"
   ],
   "note": ""
  },
  {
   "property": "C116",
   "status": "proved",
   "theorems": [
    "C116_refuted_any_challenge",
    "C116_complete",
    "C116_counts_checked"
   ],
   "note": ""
  },
  {
   "property": "C117",
   "status": "proved",
   "theorems": [
    "C117_special_sound",
    "C117_refuted_zero_ciphertext",
    "C117_refuted_negated_v",
    "C117_refuted_extra_component",
    "C117_refuted_no_panic"
   ],
   "note": ""
  },
  {
   "property": "C118",
   "status": "proved",
   "theorems": [
    "C118_refuted_label_binding",
    "C118_refuted_response_hides"
   ],
   "note": ""
  },
  {
   "property": "C119",
   "status": "proved",
   "theorems": [
    "C119_ex",
    "C119_ipp_queries",
    "C119_r1cs_queries",
    "C119_ipp_binding",
    "C119_r1cs_binding"
   ],
   "note": ""
  },
  {
   "property": "C120",
   "status": "proved",
   "theorems": [
    "C120_direct",
    "C120_refuted_roundtrip"
   ],
   "note": ""
  },
  {
   "property": "C121",
   "status": "proved",
   "theorems": [
    "C121_easy",
    "C121_refuted_roundtrip",
    "C121_buffer"
   ],
   "note": ""
  },
  {
   "property": "C122",
   "status": "proved",
   "theorems": [
    "C122_tag_checked",
    "C122_same_length_aad",
    "C122_only_shifts",
    "C122_refuted_truncation",
    "C122_refuted_extension"
   ],
   "note": ""
  },
  {
   "property": "C123",
   "status": "proved",
   "theorems": [
    "C123_any_input",
    "C123_refuted_no_panic",
    "C123_serialize"
   ],
   "note": ""
  },
  {
   "property": "C124",
   "status": "proved",
   "theorems": [
    "C124_names",
    "C124_decrypt_outcome",
    "C124_encrypt_outcome",
    "C124_roundtrip",
    "C124_refuted_null_algorithm",
    "C124_wasm",
    "C124_by_name"
   ],
   "note": ""
  },
  {
   "property": "C125",
   "status": "proved",
   "theorems": [
    "C125_x25519_agreement",
    "C125_ecdh_agreement",
    "C125_reload",
    "C125_seed",
    "C125_refuted_seed_hashed",
    "C125_refuted_contributory",
    "C125_refuted_length_checked",
    "C125_refuted_session_key_hashed"
   ],
   "note": ""
  },
  {
   "property": "C126",
   "status": "proved",
   "theorems": [
    "C126_verify_exact",
    "C126_complete",
    "C126_sign_rfc8032",
    "C126_unique_s",
    "C126_refuted_small_order",
    "C126_refuted_halves_checked",
    "C126_convert_keys",
    "C126_refuted_signer_no_panic"
   ],
   "note": ""
  },
  {
   "property": "C127",
   "status": "proved",
   "theorems": [
    "C127_verify_exact",
    "C127_complete",
    "C127_normalize",
    "C127_no_malleability",
    "C127_public_keys",
    "C127_refuted_no_panic"
   ],
   "note": ""
  },
  {
   "property": "C128",
   "status": "proved",
   "theorems": [
    "C128_verify",
    "C128_keys_and_signatures",
    "C128_errors",
    "C128_refuted_seed_required"
   ],
   "note": ""
  },
  {
   "property": "C129",
   "status": "proved",
   "theorems": [
    "C129_correct_rounding",
    "C129_exact",
    "C129_refuted_exact",
    "C129_refuted_any_size",
    "C129_complete",
    "C129_refuted_honest_accepted"
   ],
   "note": ""
  },
  {
   "property": "C130",
   "status": "proved",
   "theorems": [
    "C130_ex_honest",
    "C130_ex_relation",
    "C130_extract"
   ],
   "note": ""
  },
  {
   "property": "C131",
   "status": "proved",
   "theorems": [
    "C131_ex",
    "C131_gates_and_constraints",
    "C131_satisfied"
   ],
   "note": ""
  },
  {
   "property": "C132",
   "status": "proved",
   "theorems": [
    "C132_ex",
    "C132_bounded_num",
    "C132_non_zero",
    "C132_set_membership",
    "C132_set_non_membership",
    "C132_honest_proof"
   ],
   "note": ""
  },
  {
   "property": "C133",
   "status": "proved",
   "theorems": [
    "C133_ex",
    "C133_bounded_num",
    "C133_non_zero",
    "C133_set_membership",
    "C133_set_non_membership",
    "C133_knowledge"
   ],
   "note": ""
  },
  {
   "property": "C134",
   "status": "proved",
   "theorems": [
    "C134_faithful",
    "C134_no_leak"
   ],
   "note": ""
  },
  {
   "property": "C135",
   "status": "proved",
   "theorems": [
    "C135_refused"
   ],
   "note": ""
  },
  {
   "property": "C136",
   "status": "proved",
   "theorems": [
    "C136_code",
    "C136_refuted_from_bytes"
   ],
   "note": ""
  },
  {
   "property": "C137",
   "status": "proved",
   "theorems": [
    "C137_failed_call",
    "C137_error_code"
   ],
   "note": ""
  },
  {
   "property": "C138",
   "status": "proved",
   "theorems": [
    "C138_refuted_null_slot",
    "C138_refuted_retry",
    "C138_refuted_delta_to_json",
    "C138_refuted_delta_from_json",
    "C138_refuted_merge",
    "C138_refuted_merge_same",
    "C138_refuted_null_element"
   ],
   "note": ""
  },
  {
   "property": "C139",
   "status": "proved",
   "theorems": [
    "C139_last_error"
   ],
   "note": ""
  },
  {
   "property": "C140",
   "status": "proved",
   "theorems": [
    "C140_releasable"
   ],
   "note": ""
  },
  {
   "property": "C141",
   "status": "proved",
   "theorems": [
    "C141_arithmetic_agrees",
    "C141_words_and_signs_agree",
    "C141_nonnegative_agrees",
    "C141_increment_boundary",
    "C141_set_bit_any_sign",
    "C141_from_u32_boundary",
    "C141_rshift1_boundary",
    "C141_exp_boundary"
   ],
   "note": ""
  },
  {
   "property": "C142",
   "status": "proved",
   "theorems": [
    "C142_inverse_any_sign",
    "C142_agree_nonnegative",
    "C142_mod_exp_any_base",
    "C142_refuted_negative_agrees",
    "C142_refuted_zero_modulus_agrees",
    "C142_modulus_one"
   ],
   "note": ""
  },
  {
   "property": "C143",
   "status": "proved",
   "theorems": [
    "C143_bytes_agree",
    "C143_refuted_zero_hash_agrees"
   ],
   "note": ""
  },
  {
   "property": "C144",
   "status": "proved",
   "theorems": [
    "C144_dec_agrees",
    "C144_exchange",
    "C144_hex_padding",
    "C144_plain_text_agrees",
    "C144_refuted_native_strict",
    "C144_refuted_same_number"
   ],
   "note": ""
  },
  {
   "property": "C145",
   "status": "proved",
   "theorems": [
    "C145_prime_in_range",
    "C145_safe_prime",
    "C145_refuted_same_safe_prime_size",
    "C145_refuted_range_agrees"
   ],
   "note": ""
  },
  {
   "property": "C146",
   "status": "proved",
   "theorems": [
    "C146_verify_same",
    "C146_prove_same",
    "C146_interoperate",
    "C146_keys_same",
    "C146_request_same",
    "C146_issue_same",
    "C146_process_same",
    "C146_scalars_agree"
   ],
   "note": ""
  },
  {
   "property": "C147",
   "status": "proved",
   "theorems": [
    "C147_refuted_zero_nonce",
    "C147_refuted_negative_proof"
   ],
   "note": ""
  },
  {
   "property": "C148",
   "status": "proved",
   "theorems": [
    "C148_context_window",
    "C148_refuted_context_hidden",
    "C148_refuted_unlinkable",
    "C148_refuted_holder_anonymous"
   ],
   "note": ""
  },
  {
   "property": "C149",
   "status": "proved",
   "theorems": [
    "C149_refuted_blinding_hidden",
    "C149_refuted_blindings_exchangeable",
    "C149_refuted_predicate_blinding_hidden"
   ],
   "note": ""
  },
  {
   "property": "C150",
   "status": "proved",
   "theorems": [
    "C150_presentation_hides",
    "C150_edges_rare"
   ],
   "note": ""
  },
  {
   "property": "C151",
   "status": "proved",
   "theorems": [
    "C151_answers_give_relation",
    "C151_answers_contain_credential",
    "C151_exponent_range",
    "C151_sub_proof",
    "C151_extraction_exact"
   ],
   "note": ""
  },
  {
   "property": "C152",
   "status": "proved",
   "theorems": [
    "C152_predicate_true_or_relation",
    "C152_extraction_exact"
   ],
   "note": ""
  },
  {
   "property": "C153",
   "status": "proved",
   "theorems": [
    "C153_refuted_bound_to_credential",
    "C153_refuted_revoked_refused"
   ],
   "note": ""
  },
  {
   "property": "C154",
   "status": "proved",
   "theorems": [
    "C154_accepted_for_one_challenge",
    "C154_bound_to_nonce_and_request",
    "C154_challenge_binds_claims",
    "C154_refuted_claims_separate",
    "C154_refuted_joint_and_claims_verify"
   ],
   "note": ""
  },
  {
   "property": "C155",
   "status": "proved",
   "theorems": [
    "C155_accepted_for_one_challenge",
    "C155_bytes_bind",
    "C155_revealed_part_fixed",
    "C155_revealed_message_fixed"
   ],
   "note": ""
  },
  {
   "property": "C156",
   "status": "proved",
   "theorems": [
    "C156_refuted_bases_powers_of_s",
    "C156_refuted_exponents_hidden",
    "C156_negated_power_is_no_power",
    "C156_refuted_names_bound",
    "C156_refuted_s_bound"
   ],
   "note": ""
  }
 ]
}