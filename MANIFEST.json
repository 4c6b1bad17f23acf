{
 "claims": [
  {
   "property": "C01",
   "status": "proved",
   "theorems": [
    "C01_lookup_verifies_universal",
    "C01_lookup_verifies_append"
   ],
   "note": "histories: universal tree with update/delete/forget/remember; append-only and light-weight trees with build/extend/push/forget/remember"
  },
  {
   "property": "C02",
   "status": "proved",
   "theorems": [
    "C02_membership_sound_universal",
    "C02_membership_sound_append"
   ],
   "note": "collision-freeness is a hypothesis about the hash queries of this tree and this verification; range and proof length are conclusions"
  },
  {
   "property": "C03",
   "status": "proved",
   "theorems": [
    "C03_lookup_is_map",
    "C03_lookup_is_map_in_memory",
    "C03_update_total",
    "C03_update_forgotten",
    "C03_out_of_range_refuted"
   ],
   "note": "keys in range; out-of-range keys alias (refuted)"
  },
  {
   "property": "C04",
   "status": "partial",
   "theorems": [
    "C04_commitment_of_contents",
    "C04_after_remember_refuted"
   ],
   "note": "holds for histories of updates, deletions and forgetting; refuted once remember is in the history"
  },
  {
   "property": "C05",
   "status": "proved",
   "theorems": [
    "C05_num_leaves"
   ],
   "note": ""
  },
  {
   "property": "C06",
   "status": "proved",
   "theorems": [
    "C06_persistent_update"
   ],
   "note": "both run the same traversal; immutability of the old tree is inherent in the model"
  },
  {
   "property": "C07",
   "status": "proved",
   "theorems": [
    "C07_append_order_determines",
    "C07_batches_equal_build",
    "C07_lookup_by_position"
   ],
   "note": ""
  },
  {
   "property": "C08",
   "status": "proved",
   "theorems": [
    "C08_extend_exact",
    "C08_build_exact",
    "C08_build_auto_height"
   ],
   "note": "a full tree answers ExistingLeaf (append-only) or ExistingLeaf/ForgottenLeaf (light-weight), not ExceedCapacity"
  },
  {
   "property": "C09",
   "status": "proved",
   "theorems": [
    "C09_light_weight_commitment",
    "C07_append_order_determines"
   ],
   "note": ""
  },
  {
   "property": "C10",
   "status": "proved",
   "theorems": [
    "C10_forget_append",
    "C10_forget_universal"
   ],
   "note": ""
  },
  {
   "property": "C11",
   "status": "proved",
   "theorems": [
    "C10_forget_append",
    "C11_remember_universal",
    "C11_remember_append",
    "C11_remember_rejects",
    "C11_short_proof_panics_refuted"
   ],
   "note": "finding: remember panics on a verifying proof shorter than the height"
  },
  {
   "property": "C12",
   "status": "proved",
   "theorems": [
    "C12_non_membership_complete",
    "C12_universal_forget_proof_refuted"
   ],
   "note": "finding: the proof returned by universal_forget for an absent key need not verify"
  },
  {
   "property": "C13",
   "status": "partial",
   "theorems": [
    "C13_non_membership_sound_partial",
    "C13_any_length_refuted"
   ],
   "note": "needs a proof of the height of the tree, which the code does not check; refuted without"
  },
  {
   "property": "C14",
   "status": "partial",
   "theorems": [
    "C14_non_membership_remember_partial",
    "C14_success_certifies_absence",
    "C14_empty_level_refuted"
   ],
   "note": "needs full proof levels; refuted for honest proofs with empty levels"
  },
  {
   "property": "C15",
   "status": "proved",
   "theorems": [
    "C15_iterate_append",
    "C15_iterate_universal",
    "C15_collect_proofs_verify"
   ],
   "note": ""
  },
  {
   "property": "C16",
   "status": "proved",
   "theorems": [
    "C16_range_complete"
   ],
   "note": ""
  },
  {
   "property": "C17",
   "status": "proved",
   "theorems": [
    "C17_decode_inverts_encode",
    "C17_codeword",
    "C17_decode_interpolates",
    "C17_decode_domain",
    "C17_prime_field_points",
    "C17_long_codeword_refuted"
   ],
   "note": "needs the share positions to be distinct field elements (codeword shorter than the characteristic); refuted without"
  },
  {
   "property": "C18",
   "status": "proved",
   "theorems": [
    "C18_decode_errs_iff",
    "C18_domain_refusals"
   ],
   "note": ""
  },
  {
   "property": "C19",
   "status": "proved",
   "theorems": [
    "C19_round_trip",
    "C19_trailing_elements_ignored",
    "C19_injective",
    "C19_decode_total",
    "C19_spare_byte_refuted"
   ],
   "note": "for moduli whose top byte is the top byte of their limbs; for other fields above 64 bits decoding always panics (finding)"
  },
  {
   "property": "C20",
   "status": "proved",
   "theorems": [
    "C20_scalar_round_trip",
    "C20_base_to_scalar",
    "C20_mask_exact",
    "C20_mask_multiple_of_8_refuted",
    "C20_switching_exact",
    "C20_switching_wide_refuted"
   ],
   "note": "the masked conversion is exact unless the target bit length is a multiple of 8 (refuted there)"
  },
  {
   "property": "C21",
   "status": "proved",
   "theorems": [
    "C21_add",
    "C21_sub",
    "C21_mul",
    "C21_add_constant",
    "C21_mul_constant",
    "C21_lc",
    "C21_mul_add",
    "C21_gen_quad_poly",
    "C21_sum",
    "C21_power_11",
    "C21_create_constant",
    "C21_enforce_equal",
    "C21_enforce_constant",
    "C21_add_gate",
    "C21_sub_gate",
    "C21_mul_gate",
    "C21_power_11_gate"
   ],
   "note": "for every circuit state reachable by the builder and every field"
  },
  {
   "property": "C22",
   "status": "proved",
   "theorems": [
    "C22_enforce_bool",
    "C22_create_boolean",
    "C22_logic_neg",
    "C22_logic_and",
    "C22_logic_or",
    "C22_logic_or_gate",
    "C22_logic_and_all",
    "C22_enforce_true",
    "C22_enforce_false",
    "C22_conditional_select",
    "C22_public_boolean_refuted"
   ],
   "note": "a public Boolean variable gets no Boolean constraint (refuted)"
  },
  {
   "property": "C23",
   "status": "proved",
   "theorems": [
    "C23_is_zero",
    "C23_is_equal",
    "C23_non_zero"
   ],
   "note": ""
  },
  {
   "property": "C24",
   "status": "proved",
   "theorems": [
    "C24_unpack",
    "C24_unpack_refuses",
    "C24_enforce_in_range",
    "C24_is_in_range",
    "C24_unpack_wide_refuted",
    "C24_is_in_range_full_refuted"
   ],
   "note": "bit lengths up to the modulus size; beyond it decomposition is not canonical and is_in_range fails (refuted)"
  },
  {
   "property": "C25",
   "status": "proved",
   "theorems": [
    "C25_is_lt",
    "C25_is_leq",
    "C25_is_gt",
    "C25_is_geq",
    "C25_enforce_lt",
    "C25_enforce_leq",
    "C25_enforce_gt",
    "C25_enforce_geq",
    "C25_is_lt_constant",
    "C25_is_leq_constant",
    "C25_is_gt_constant",
    "C25_is_geq_constant",
    "C25_enforce_lt_constant",
    "C25_enforce_leq_constant",
    "C25_enforce_gt_constant",
    "C25_enforce_geq_constant"
   ],
   "note": ""
  },
  {
   "property": "C26",
   "status": "proved",
   "theorems": [
    "C26_wire_permutation"
   ],
   "note": "for circuits reached by the builder whose tables start after the public inputs"
  },
  {
   "property": "C27",
   "status": "proved",
   "theorems": [
    "C27_finalize",
    "C27_finalize_again",
    "C27_no_domain",
    "C27_early_table_refuted",
    "C27_unchecked_public_refuted"
   ],
   "note": "tables must start at a gate index not below the number of public inputs; refuted without"
  },
  {
   "property": "C28",
   "status": "proved",
   "theorems": [
    "C28_finalized_is_frozen",
    "C28_frozen_history",
    "C28_tables_refuted"
   ],
   "note": "61 building calls; create_table_and_lookup_variables modifies a finalized circuit (refuted)"
  },
  {
   "property": "C29",
   "status": "proved",
   "theorems": [
    "C29_permutation_product"
   ],
   "note": "all assignments, challenges with nonzero denominators"
  },
  {
   "property": "C30",
   "status": "proved",
   "theorems": [
    "C30_permutation_sound"
   ],
   "note": "counts the bad challenges"
  },
  {
   "property": "C31",
   "status": "proved",
   "theorems": [
    "C31_merge"
   ],
   "note": ""
  },
  {
   "property": "C32",
   "status": "proved",
   "theorems": [
    "C32_sorted_vector",
    "C32_lookup_product",
    "C32_lookup_product_sound",
    "C32_circuit_complete",
    "C32_circuit_sound",
    "C32_last_row_refuted",
    "C32_stuck_table_refuted"
   ],
   "note": "tables must end two rows before the domain end; refuted without (both directions)"
  },
  {
   "property": "C33",
   "status": "partial",
   "theorems": [
    "C33_create_variable",
    "C33_mul",
    "C33_mul_constant",
    "C33_add",
    "C33_sub",
    "C33_add_constant",
    "C33_sub_constant",
    "C33_mul_exact",
    "C33_mul_constant_exact",
    "C33_add_exact",
    "C33_sub_exact",
    "C33_add_constant_exact",
    "C33_sub_constant_exact",
    "C33_mul_gate_exact",
    "C33_add_gate_exact",
    "C33_mul_sound_partial",
    "C33_add_sound_partial",
    "C33_mul_forged_refuted",
    "C33_add_forged_refuted",
    "C33_add_rejects_honest_refuted",
    "C33_bn254_forged_refuted",
    "C33_bls377_forged_refuted"
   ],
   "note": "the values a prover can give to a result are characterised exactly: products are enforced modulo 2^T*p with a quotient below 2^T, sums modulo 2^T; so products are right modulo q if q is below the native modulus, but can be forged in both shipped configurations; sums can be forged everywhere, and the computed sum is rejected when a limb sum is 2^B-1 and a carry comes in"
  },
  {
   "property": "C34",
   "status": "partial",
   "theorems": [
    "C34_modulus",
    "C34_new",
    "C34_mod_mul",
    "C34_mod_mul_constant",
    "C34_mod_add_exact",
    "C34_mod_add_vec_exact",
    "C34_mod_add_constant_exact",
    "C34_mod_negate_exact",
    "C34_mod_add_sound_partial",
    "C34_power_5",
    "C34_power_11",
    "C34_linear",
    "C34_instance_params",
    "C34_instance",
    "C34_mod_add_forged_refuted",
    "C34_mod_negate_forged_refuted",
    "C34_sum_then_product_refuted",
    "C34_negate_zero"
   ],
   "note": "products and powers are proved; sums are refuted: their limbs are not range checked, and the exact set of accepted limbs is proved instead"
  },
  {
   "property": "C35",
   "status": "partial",
   "theorems": [
    "C35_law_complete",
    "C35_law_group",
    "C35_select4",
    "C35_select2",
    "C35_equal",
    "C35_is_equal",
    "C35_inverse",
    "C35_is_neutral",
    "C35_on_curve",
    "C35_add_gate",
    "C35_add",
    "C35_instance",
    "C35_run",
    "C35_incomplete_curve_refuted",
    "C35_incomplete_panic_refuted",
    "C35_complete_law",
    "C35_subgroup_law",
    "C35_subgroup_instance"
   ],
   "note": "Proved for native twisted Edwards curves on any set of points in which the law does not divide by zero and which is closed under it: all points of a curve with A a square and D not a square, a finite subgroup of any other curve. There the group law is constructed and ecc_add computes it for every accepted assignment. For all points of curves that are not complete (Bandersnatch, the Edwards form of BLS12-377) the claim is refuted. The additions over emulated fields are C88."
  },
  {
   "property": "C36",
   "status": "partial",
   "theorems": [
    "C36_binary",
    "C36_fixed_base",
    "C36_msm_naive",
    "C36_msm_turbo",
    "C36_pippenger",
    "C36_pippenger_exact",
    "C36_pippenger_instance",
    "C36_pippenger_wraps_refuted",
    "C36_shipped_windows_wrap_refuted",
    "C36_msm_empty_panics_refuted"
   ],
   "note": "Proved on complete curves, and on subgroups of others (C35), for fixed bases, for bit decompositions, for the naive algorithm of circuits without lookups, and for the windowed algorithm of circuits with lookups, whose tables and lookups are covered: the multiple accepted is that of some integer within the windows congruent to the scalar, so the right one when the windows stay below the modulus. When they exceed it another multiple is accepted: refuted."
  },
  {
   "property": "C37",
   "status": "proved",
   "theorems": [
    "C37_round_keys_bijection",
    "C37_prp_bijection",
    "C37_shipped_parameters",
    "C37_shipped_round_keys",
    "C37_shipped_fields",
    "C37_mock_parameters_refuted"
   ],
   "note": "bijection for any parameters with inverse exponents and nonsingular MDS, and for the five non-mock parameter files, whose moduli are proved prime (C37_shipped_fields); the two mock files (all-zero) are not permutations (refuted); precomputed round keys = zero-key schedule is re-checked for one file only"
  },
  {
   "property": "C38",
   "status": "proved",
   "theorems": [
    "C38_output_length",
    "C38_variable_length_collision",
    "C38_fixed_length_collision",
    "C38_last_block_injective",
    "C38_prf_shifted_key",
    "C38_lengths_not_separated_refuted"
   ],
   "note": "collisions reduce to the sponge; the fixed-length variant does not separate lengths (refuted)"
  },
  {
   "property": "C39",
   "status": "proved",
   "theorems": [
    "C39_squeeze_prefix",
    "C39_absorb_calls",
    "C39_successive_squeezes_refuted"
   ],
   "note": "one squeeze call is prefix-consistent; successive squeeze calls repeat output (refuted)"
  },
  {
   "property": "C40",
   "status": "proved",
   "theorems": [
    "C40_commit_verify",
    "C40_binding"
   ],
   "note": "binding up to a sponge collision"
  },
  {
   "property": "C41",
   "status": "proved",
   "theorems": [
    "C41_permutation_bijection",
    "C41_external_matrix",
    "C41_internal_matrix",
    "C41_shipped_parameters",
    "C41_singular_diagonal",
    "C41_small_diagonal_ignored_refuted"
   ],
   "note": "at sizes 2 and 3 the supplied diagonal is ignored (refuted)"
  },
  {
   "property": "C42",
   "status": "proved",
   "theorems": [
    "C42_verify_exact",
    "C42_sign_verify",
    "C42_randomized_key",
    "C42_unique_response",
    "C42_nonce_reuse_reveals_key",
    "C42_challenge_binds",
    "C42_nonce_input_injective",
    "C42_key_bytes",
    "C42_zero_key_refuted",
    "C42_identifier_zero_bytes_refuted",
    "C42_mixed_order_key_refuted"
   ],
   "note": "the zero key, identifiers differing by trailing zero bytes and keys with a small-order component are refuted"
  },
  {
   "property": "C43",
   "status": "proved",
   "theorems": [
    "C43_verify_exact",
    "C43_other_message",
    "C43_aggregate",
    "C43_aggregate_exact",
    "C43_aggregate_complete",
    "C43_aggregate_order",
    "C43_refusals",
    "C43_multi_sig_exact",
    "C43_multi_sig_complete",
    "C43_rogue_key_refuted",
    "C43_identity_key_refuted",
    "C43_identifier_refuted"
   ],
   "note": "over an abstract bilinear pairing; rogue keys, the identity key and the unseparated identifier are recorded as refuted expectations"
  },
  {
   "property": "C44",
   "status": "proved",
   "theorems": [
    "C44_decrypt_encrypt",
    "C44_stream_blocks_distinct",
    "C44_scalars",
    "C44_malleable",
    "C44_no_integrity",
    "C44_invalid_point_panics_refuted"
   ],
   "note": "the scheme gives no integrity (C44_malleable); decoding an off-curve point panics (refuted)"
  },
  {
   "property": "C45",
   "status": "proved",
   "theorems": [
    "C45_complete",
    "C45_unique",
    "C45_verdict",
    "C45_other_input",
    "C45_degenerate"
   ],
   "note": "blst is a parameter"
  },
  {
   "property": "C46",
   "status": "proved",
   "theorems": [
    "C46_trim",
    "C46_open_verify",
    "C46_batch_open"
   ],
   "note": ""
  },
  {
   "property": "C47",
   "status": "proved",
   "theorems": [
    "C47_verify_exact",
    "C47_wrong_value",
    "C47_two_values"
   ],
   "note": "algebraic provers; the computational assumption itself is not modelled"
  },
  {
   "property": "C48",
   "status": "proved",
   "theorems": [
    "C48_refuses",
    "C48_every_coefficient",
    "C48_binding",
    "C48_top_degree_refuted"
   ],
   "note": "up to the supported degree; the degree check is off by one (refuted at supported degree + 1)"
  },
  {
   "property": "C49",
   "status": "proved",
   "theorems": [
    "C49_complete",
    "C49_sound_one",
    "C49_single_invalid",
    "C49_sound",
    "C49_truncates_refuted"
   ],
   "note": "for lists of equal length; other lengths are silently cut (refuted)"
  },
  {
   "property": "C50",
   "status": "proved",
   "theorems": [
    "C50_complete",
    "C50_wrong_values",
    "C50_refusals"
   ],
   "note": "a repeated point panics"
  },
  {
   "property": "C51",
   "status": "proved",
   "theorems": [
    "C51_multi_open",
    "C51_multi_open_rou",
    "C51_eval_domain",
    "C51_many_points_refuted",
    "C51_exact_trim_refuted"
   ],
   "note": "multi_open below the cutoff of two-adicity squared points (it panics above) and with FFT-sized parameters"
  },
  {
   "property": "C52",
   "status": "proved",
   "theorems": [
    "C52_value_at_vertex",
    "C52_setup",
    "C52_open_verify",
    "C52_refusals",
    "C52_verify_exact",
    "C52_two_values",
    "C52_proof_length_refuted"
   ],
   "note": "a proof of the wrong length panics instead of being refused"
  },
  {
   "property": "C53",
   "status": "partial",
   "theorems": [
    "C53_batch_open_partial",
    "C53_reversed_point_refuted",
    "C53_degree_bound_refuted",
    "C53_larger_key_refuted"
   ],
   "note": "complete when the key has exactly the merged number of variables and the composed polynomial fits the chosen domain; values are those at the reversed points; all three restrictions are refuted in general"
  },
  {
   "property": "C54",
   "status": "proved",
   "theorems": [
    "C54_mask_values"
   ],
   "note": ""
  },
  {
   "property": "C55",
   "status": "proved",
   "theorems": [
    "C55_split_recombines",
    "C55_split_total",
    "C55_split_needs",
    "C55_zero_slice_refuted"
   ],
   "note": "splitting succeeds exactly when no lower slice of the quotient ends in a zero coefficient; otherwise the prover panics (refuted)"
  },
  {
   "property": "C56",
   "status": "proved",
   "theorems": [
    "C56_first",
    "C56_last",
    "C56_first_and_last",
    "C56_range",
    "C56_basis",
    "C56_single_refuted"
   ],
   "note": "radix-2 domains and their cosets; the combined function is wrong on the one-point domain (refuted)"
  },
  {
   "property": "C57",
   "status": "proved",
   "theorems": [
    "C57_batch_prove_verifies",
    "C57_prove_verifies",
    "C57_solidity",
    "C57_standard",
    "C57_rescue"
   ],
   "note": "for radix-2 domains and transcripts whose commitment and challenge steps are total; the prover itself may return an error"
  },
  {
   "property": "C58",
   "status": "proved",
   "theorems": [
    "C58_batch_complete",
    "C58_bad_proof_bound",
    "C58_open_keys_refuted"
   ],
   "note": "for keys with one opening key; refuted for keys from different reference strings, because the first opening key is used for all"
  },
  {
   "property": "C59",
   "status": "proved",
   "theorems": [
    "C59_round_trip",
    "C59_injective",
    "C59_wrong_length",
    "C59_decoded",
    "C59_infinity_refuted",
    "C59_lookup_refuted",
    "C59_off_curve_refuted"
   ],
   "note": "for proofs whose commitments are finite points; refuted for commitments at infinity, on which decoding panics, and for coordinates off the curve"
  },
  {
   "property": "C60",
   "status": "proved",
   "theorems": [
    "C60_solidity_binding",
    "C60_solidity_fresh",
    "C60_rescue_binding",
    "C60_rescue_fresh",
    "C60_standard_binding",
    "C60_absent_message_refuted",
    "C60_message_boundary_refuted",
    "C60_lookup_key_refuted",
    "C60_rescue_key_refuted",
    "C60_rescue_dummy_refuted"
   ],
   "note": "for sessions of the same shape; refuted for the lookup part of a verifying key (bound by no transcript), for most of the key with the Rescue transcript, for message boundaries, and for the curves with dummy conversion constants"
  },
  {
   "property": "C61",
   "status": "proved",
   "theorems": [
    "C61_pi_eval",
    "C61_pi_eval_merged"
   ],
   "note": ""
  },
  {
   "property": "C62",
   "status": "proved",
   "theorems": [
    "C62_range_sound_append",
    "C62_position_blind_refuted"
   ],
   "note": "needs a leaf digest that depends on the position; refuted for the SHA3/Keccak digests, which ignore it"
  },
  {
   "property": "C63",
   "status": "proved",
   "theorems": [
    "C63_commitment_binds"
   ],
   "note": ""
  },
  {
   "property": "C64",
   "status": "proved",
   "theorems": [
    "C64_pad_with_zeros",
    "C64_hadamard"
   ],
   "note": ""
  },
  {
   "property": "C65",
   "status": "proved",
   "theorems": [
    "C65_create_variable_good",
    "C65_insert_gate_good",
    "C65_set_variable_public_good",
    "C65_range_check_good",
    "C65_check_is_satisfaction"
   ],
   "note": ""
  },
  {
   "property": "C66",
   "status": "proved",
   "theorems": [
    "C66_lookup_tables",
    "C66_lookup_tables_only"
   ],
   "note": ""
  },
  {
   "property": "C67",
   "status": "proved",
   "theorems": [
    "C67_variable_length_collision",
    "C67_fixed_length",
    "C67_empty_input_refuted"
   ],
   "note": "the empty input is not padded to INPUT_SIZE and panics at INPUT_SIZE 0 (refuted)"
  },
  {
   "property": "C68",
   "status": "proved",
   "theorems": [
    "C68_round_trip",
    "C68_wrong_mode",
    "C68_truncated",
    "C68_never_panics",
    "C68_validated",
    "C68_sizes_refuted"
   ],
   "note": "announced sizes are wrong (refuted)"
  },
  {
   "property": "C69",
   "status": "proved",
   "theorems": [
    "C69_hash_to_curve",
    "C69_hash_to_curve_total",
    "C69_hash_to_curve_canonical"
   ],
   "note": ""
  },
  {
   "property": "C70",
   "status": "proved",
   "theorems": [
    "C70_mask_hides"
   ],
   "note": ""
  },
  {
   "property": "C71",
   "status": "partial",
   "theorems": [
    "C71_malformed_proof_refuted"
   ],
   "note": "refuted: a proof with missing evaluations makes the verifier panic"
  },
  {
   "property": "C72",
   "status": "proved",
   "theorems": [
    "C72_meaning",
    "C72_compose",
    "C72_variables",
    "C72_read",
    "C72_arithmetic",
    "C72_logic",
    "C72_range",
    "C72_compare_constant",
    "C72_tables",
    "C72_emulated",
    "C72_emulated_points",
    "C72_finalize",
    "C72_preprocess",
    "C72_keys",
    "C72_transfer",
    "C72_rescue"
   ],
   "note": "for every call in the model, and for every program composed of them"
  },
  {
   "property": "C73",
   "status": "partial",
   "theorems": [
    "C73_truncate_gate_exact",
    "C73_truncate_exact",
    "C73_truncate_gate_rejects",
    "C73_truncate_partial",
    "C73_transcript_sizes",
    "C73_instance",
    "C73_unchecked_refuted",
    "C73_aligned_refuted",
    "C73_not_truncated_refuted"
   ],
   "note": "the exact set of accepted results is proved; it is the truncation only when both parts are range checked, and then up to one wrap around the modulus"
  },
  {
   "property": "C74",
   "status": "proved",
   "theorems": [
    "C74_permutation",
    "C74_keyed_permutation",
    "C74_sponge",
    "C74_sponge_padded",
    "C74_keyed_sponge",
    "C74_prf",
    "C74_commit",
    "C74_commit_verify",
    "C74_refused",
    "C74_empty_input_refuted",
    "C74_shipped",
    "C74_shipped_all",
    "C74_case_parameters",
    "C74_case_runs",
    "C74_other_exponent"
   ],
   "note": "for non-empty inputs; the gadgets refuse the empty input that the off-circuit functions accept (C74_empty_input_refuted)"
  },
  {
   "property": "C75",
   "status": "proved",
   "theorems": [
    "C75_membership",
    "C75_is_member",
    "C75_non_membership",
    "C75_is_non_member",
    "C75_membership_exact",
    "C75_membership_sound_universal",
    "C75_membership_sound_append",
    "C75_membership_sound_at_key",
    "C75_non_membership_sound",
    "C75_non_membership_sound_at_key",
    "C75_membership_complete_universal",
    "C75_membership_complete_append",
    "C75_non_membership_complete",
    "C75_case_tree",
    "C75_case_member",
    "C75_case_non_member",
    "C75_empty_left_sibling_refuted",
    "C75_index_not_bound_refuted",
    "C75_index_wrap_refuted",
    "C75_zero_level_refuted",
    "C75_short_level_panics",
    "C72_merkle",
    "C72_non_membership_refuted"
   ],
   "note": "completeness for stored pairs holds in a sparse tree exactly when no leftmost block on the path is empty, and is false otherwise (C75_empty_left_sibling_refuted); keys are told apart only below the field size (C75_index_wrap_refuted); the constraints of non-membership circuits depend on the proof (C72_non_membership_refuted)"
  },
  {
   "property": "C76",
   "status": "proved",
   "theorems": [
    "C76_verify",
    "C76_check",
    "C76_circuit",
    "C76_signed",
    "C76_case_parameters",
    "C76_case_runs",
    "C76_small_order_key_refuted",
    "C76_response_not_unique_refuted",
    "C76_off_curve_refuted"
   ],
   "note": "under the stated conditions on key and points, which the circuit does not check itself (C76_small_order_key_refuted, C76_off_curve_refuted)"
  },
  {
   "property": "C77",
   "status": "partial",
   "theorems": [
    "C77_stream",
    "C77_encrypt_partial",
    "C77_decrypts_partial",
    "C77_case_parameters",
    "C77_case_runs",
    "C77_lookup_not_decryptable_refuted"
   ],
   "note": "proved for circuits without lookups and keys in the prime-order subgroup; false in circuits with lookups (C77_lookup_not_decryptable_refuted)"
  },
  {
   "property": "C78",
   "status": "partial",
   "theorems": [
    "C78_call",
    "C78_session_partial",
    "C78_session_sizes_partial",
    "C78_session_large",
    "C78_new",
    "C78_run",
    "C78_challenge_exact",
    "C78_values_partial",
    "C78_rejects",
    "C78_second_challenge_refuted",
    "C78_aligned_table_refuted",
    "C78_instance_parameters",
    "C78_instance"
   ],
   "note": "sessions of any length; exact characterisation of the accepted challenges. The full statement is false: when the hash plus the modulus still fits the bit length of the modulus a second challenge is accepted (C78_second_challenge_refuted), and with a range table whose size divides 248 the challenge is free up to multiples of 2^248 (C78_aligned_table_refuted). It holds when every hash is large (C78_session_large)"
  },
  {
   "property": "C79",
   "status": "partial",
   "theorems": [
    "C79_round_trip",
    "C79_decrypt_exact",
    "C79_enc_key_ignored",
    "C79_wrong_aad",
    "C79_wrong_key",
    "C79_keypair_codec",
    "C79_ciphertext_codec",
    "codec_inj",
    "codec_prefix",
    "C79_bincode_partial",
    "C79_bincode_shifted_refuted",
    "C79_json_refuted",
    "C79_json_read_exact",
    "C79_json_read_instance",
    "C79_equal_keys_refuted",
    "C79_default_refuted",
    "C79_instance_cipher",
    "C79_instance",
    "C79_default_instance"
   ],
   "note": "encryption, decryption and the canonical encodings are proved. Refusal assumes that the cipher binds key and associated data, and needs the key pair to be consistent. False of the serde encodings (a wrong nonce length panics, C79_bincode_shifted_refuted; JSON is never read back, C79_json_refuted), of equal and of default key pairs (C79_equal_keys_refuted, C79_default_refuted)"
  },
  {
   "property": "C80",
   "status": "partial",
   "theorems": [
    "C80_opening_claim_partial",
    "C80_prepare",
    "C80_accepted_inputs",
    "C80_instance",
    "C80_instance_run",
    "C80_challenge_square_refuted",
    "C80_zeta_one_panics"
   ],
   "note": "proved for every accepted assignment that keeps the limbs of the unchecked elements in range and has zeta outside the domain. Missing: the code does not range check the limbs of challenges, sums and negations, and without it the claim is false (C80_challenge_square_refuted). The transcript that produces the challenge variables is C78, the final multi-scalar multiplications are C36."
  },
  {
   "property": "C81",
   "status": "partial",
   "theorems": [
    "C81_calls",
    "C81_lengths",
    "C81_challenges_partial",
    "C81_challenges_reached",
    "C81_prepare_partial",
    "C81_instance"
   ],
   "note": "calls, refusals and honest challenges are proved in full. For accepted assignments each challenge is proved to be that of the verifier outside or the low 248 bits of hash plus modulus, the second value being admitted by the code (C78). Missing: assignments whose input limbs are not canonical, and batches with lookups, which the circuit does not support. The instance leaves open whether the drawn zeta lies in the domain, since this depends on the hash over the large field."
  },
  {
   "property": "C82",
   "status": "proved",
   "theorems": [
    "C82_merge",
    "C82_merge_refuses",
    "C82_aggregate",
    "C82_aggregate_length",
    "C82_parameters",
    "C82_instance"
   ],
   "note": "the instance merges keys over the field with 131 elements."
  },
  {
   "property": "C83",
   "status": "partial",
   "theorems": [
    "C83_partial_verify_partial",
    "C83_points",
    "C83_pairing",
    "C83_accepted_keys",
    "C83_refuses",
    "C83_instance",
    "C83_instance_whole"
   ],
   "note": "the honest half and the refusals are proved in full. For accepted assignments the equivalence is proved when each challenge variable holds the value drawn outside (the code also admits a second value, C78), the limbs of unchecked elements are in range (C80_challenge_square_refuted) and the input points are on the curve and in a set where its law is defined (C35). The points of C83_instance are those of a group with 11 elements over the field with 131 elements; those of C83_instance_whole, in the fields of BLS12-377, are neutral, since a run with other points cannot be computed in the kernel."
  },
  {
   "property": "C84",
   "status": "partial",
   "theorems": [
    "C84_decomposition",
    "C84_decomposition_instance",
    "C84_gate_exact",
    "C84_gate_sound_partial",
    "C84_gate_honest",
    "C84_gate_instance",
    "C84_wrong_multiple_refuted",
    "C84_scalar_refused_refuted",
    "C84_endomorphism",
    "C84_image_unique",
    "C84_endomorphism_on_curve",
    "C84_endomorphism_outside",
    "C84_endomorphism_free_refuted",
    "C84_endomorphism_panics_refuted",
    "C84_endomorphism_instance"
   ],
   "note": "the set of halves that the gates accept is characterised exactly; it contains halves of other scalars, since the number of multiples is not range checked, so that \"the halves make up the scalar\" holds only when the equation does not wrap (C84_gate_sound_partial, C84_wrong_multiple_refuted). The honest assignment is refused for some scalars (C84_scalar_refused_refuted). That the endomorphism multiplies by lambda on the subgroup, and the sum of the two multiples (additions on a curve without complete formulas, see C35), are not covered."
  },
  {
   "property": "C85",
   "status": "proved",
   "theorems": [
    "C85_preprocess_succeeds",
    "C85_preprocess_too_short",
    "C85_preprocess_boundary",
    "C85_preprocess_open",
    "C85_batch_verify_refuses",
    "C85_batch_proof_refuses",
    "C85_public_input_count",
    "C85_lookup_part",
    "C85_batch_prove_refuses",
    "C85_prove_other_key",
    "C85_preprocess_instance",
    "C85_refusals_instance"
   ],
   "note": "for reference strings with at least two powers in the second group; the search for coset representatives is assumed to succeed; with exactly two powers more than the domain the error is that of the commitment scheme, not IndexTooLarge"
  },
  {
   "property": "C86",
   "status": "partial",
   "theorems": [
    "C86_create_state",
    "C86_permutation",
    "C86_sponge",
    "C86_sponge_padded",
    "C86_keyed_sponge",
    "C86_prf",
    "C86_keyed_permutation_partial",
    "C86_stands_in_range",
    "C86_refused",
    "C86_moduli_differ",
    "C86_other_exponent",
    "C86_instance_params",
    "C86_instance"
   ],
   "note": "complete for the permutation and the sponges; for the keyed permutation the sums of states and round keys that enter the odd rounds have limbs that no gate checks, and so has the output, so that the equality is proved for assignments with these limbs in range (C86_keyed_permutation_partial, C86_stands_in_range). Fields with room for M*M*(2B+8) below the modulus, as for the shipped curves."
  },
  {
   "property": "C87",
   "status": "proved",
   "theorems": [
    "C87_defined",
    "C87_on_curve",
    "C87_injective",
    "C87_negation",
    "C87_homomorphism",
    "C87_subgroup",
    "C87_odd_subgroup",
    "C87_odd_instance",
    "C87_dummy_panics",
    "C87_square_coefficient",
    "C87_shipped",
    "C87_shipped_not_complete",
    "C87_panics_refuted",
    "C87_instance",
    "C87_subgroup_instance"
   ],
   "note": "the sum of two points must not be the point of order two at -NEG_ALPHA, which has an Edwards image but makes the code divide by zero (C87_panics_refuted)."
  },
  {
   "property": "C88",
   "status": "partial",
   "theorems": [
    "C88_is_equal",
    "C88_is_zero",
    "C88_enforce_equal",
    "C88_select",
    "C88_canonical_equal",
    "C88_sw_is_equal",
    "C88_sw_enforce_equal",
    "C88_sw_select",
    "C88_te_add_gate",
    "C88_sw_add_gate",
    "C88_te_meaning",
    "C88_sw_meaning",
    "C88_te_ecc_add",
    "C88_sw_ecc_add",
    "C88_opposite_refused_refuted",
    "C88_sw_ecc_add_opposite_refuted",
    "C88_opposite_any_refuted",
    "C88_infinity_claimed_refuted",
    "C88_sw_instance",
    "C88_sw_double_instance",
    "C88_te_instance",
    "C88_sw_opposite_instance",
    "C88_opposite_instance",
    "C88_infinity_instance"
   ],
   "note": "comparison, zero test and selection are proved in full. For the additions, an accepted assignment satisfies the equations with the relations that emulated multiplication and addition enforce, which are weaker than arithmetic modulo q (C33); C88_te_meaning and C88_sw_meaning show that with exact relations they are the group law. The honest direction asks that no addition meets a limb of all ones (C33). For short Weierstrass points the claim is false when the sum is infinite (the four _refuted theorems)."
  },
  {
   "property": "C89",
   "status": "proved",
   "theorems": [
    "C89_public_values",
    "C89_public_element",
    "C89_public_sw",
    "C89_public_te",
    "C89_instance"
   ],
   "note": "Later extensions may add variables, gates, range checks and further public inputs, but not reorder the declared ones. The reading of an element needs the inputs to be limbs of an element: the code itself puts no range check on public limbs, so a verifier who builds the inputs in another way gets no such guarantee."
  }
 ]
}