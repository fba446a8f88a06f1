{
 "claims": [
  {
   "property": "C01",
   "status": "proved",
   "theorems": [
    "C01_signed_add_sub_exact",
    "C01_signed_operators",
    "C01_signed_sum_exact"
   ],
   "note": "All widths, bounds and values; overflow refusal characterised exactly."
  },
  {
   "property": "C02",
   "status": "proved",
   "theorems": [
    "C02_signed_mul_exact",
    "C02_signed_mul_wide_exact"
   ],
   "note": "Checked and widening multiplication, all widths."
  },
  {
   "property": "C03",
   "status": "proved",
   "theorems": [
    "C03_constructors_bounded",
    "C03_constructors_value",
    "C03_new_positive_exact",
    "C03_new_positive_bound_refuted"
   ],
   "note": "Holds for every constructor except the positive secret constructor, for which the exact characterisation is proved together with a counterexample (_refuted)."
  },
  {
   "property": "C04",
   "status": "proved",
   "theorems": [
    "C04_range_check_exact",
    "C04_range_check_edges",
    "C04_ensure_range_exact"
   ],
   "note": "Both secret and public checks, plus edge behaviour (zero exponent panics, oversize exponent)."
  },
  {
   "property": "C05",
   "status": "proved",
   "theorems": [
    "C05_sampling_bijective",
    "C05_sampling_draw_limit",
    "C05_sampling_scaled_bijective",
    "C05_challenge_in_interval"
   ],
   "note": "Draw-to-value map is a bijection onto the documented interval; the uniformity of the underlying draw is assumed."
  },
  {
   "property": "C06",
   "status": "proved",
   "theorems": [
    "C06_centred_reduction",
    "C06_centred_unique"
   ],
   "note": "Total on its documented domain; value is the unique centred representative."
  },
  {
   "property": "C07",
   "status": "proved",
   "theorems": [
    "C07_pow_correct",
    "C07_pow_public_panics",
    "C07_pow_secret_panics",
    "C07_pow_unsigned"
   ],
   "note": "Correct on units, exact panic characterisation for non-units."
  },
  {
   "property": "C08",
   "status": "proved",
   "theorems": [
    "C08_value_preserved",
    "C08_narrowing_exact"
   ],
   "note": "Widening, publishing, absolute value, negation and narrowing."
  },
  {
   "property": "C09",
   "status": "proved",
   "theorems": [
    "C09_signed_wire_round_trip",
    "C09_signed_wire_adversarial",
    "C09_signed_wire_rejects",
    "C09_signed_wire_stable"
   ],
   "note": "Round trip, adversarial decoding, exact rejection condition."
  },
  {
   "property": "C10",
   "status": "proved",
   "theorems": [
    "C10_uint_wire_round_trip",
    "C10_uint_wire_decode"
   ],
   "note": "Limb-level big-endian codec; bijection with exact-length byte strings."
  },
  {
   "property": "C11",
   "status": "proved",
   "theorems": [
    "C11_bitvec_round_trip",
    "C11_bitvec_accepts",
    "C11_bitvec_trailing_ignored",
    "C11_bitvec_injective_refuted"
   ],
   "note": "Round trip and exact acceptance; decoding is not injective (trailing bytes ignored, _refuted)."
  },
  {
   "property": "C12",
   "status": "proved",
   "theorems": [
    "C12_transcript_injective"
   ],
   "note": "Framing injective for fields shorter than 2^64 bytes; collision resistance of the hash itself is outside."
  },
  {
   "property": "C13",
   "status": "proved",
   "theorems": [
    "C13_xof_uint_range",
    "C13_xof_uint_surjective",
    "C13_xof_uint_value",
    "C13_xof_residue",
    "C13_xof_residue_below_modulus_refuted",
    "C13_xof_scalar_range",
    "C13_xof_scalar_value",
    "C13_digest_length"
   ],
   "note": "Range, surjectivity and exact value; the documented bound below N fails for invertible residues (_refuted) and the exact bound is proved."
  },
  {
   "property": "C14",
   "status": "proved",
   "theorems": [
    "C14_scalar_round_trip_public",
    "C14_scalar_round_trip_secret",
    "C14_signed_to_scalar",
    "C14_wide_signed_to_scalar",
    "C14_conversion_morphism"
   ],
   "note": "Conversions for any order/limb sizes satisfying conv_params_ok."
  },
  {
   "property": "C15",
   "status": "proved",
   "theorems": [
    "C15_xor_order_independent",
    "C15_xor_bijective",
    "C15_xor_panics"
   ],
   "note": "Order independence, one-time-pad bijectivity and exact panic condition on unequal lengths."
  },
  {
   "property": "C16",
   "status": "proved",
   "theorems": [
    "C16_enc_elg_fits",
    "C16_aff_g_fits",
    "C16_aff_gs_fits",
    "C16_dec_fits",
    "C16_fac_fits",
    "C16_shipped_sets",
    "C16_predicate_one_bit_short_refuted"
   ],
   "note": "Provers return normally for every self-consistent set; fac needs one bit more than SELF_CONSISTENT demands (refuted with real 320-bit primes); shipped sets have that bit."
  },
  {
   "property": "C17",
   "status": "proved",
   "theorems": [
    "C17_threshold_reconstructs",
    "C17_threshold_reconstructs_in_exponent",
    "C17_public_values_reconstruct",
    "C17_evaluation_points_distinct"
   ],
   "note": "Any field, any distinct ids, any subset with at least t members; scalar and in-the-exponent versions."
  },
  {
   "property": "C18",
   "status": "proved",
   "theorems": [
    "C18_below_threshold_secrecy",
    "C18_nonzero_coefficients_exclude_few",
    "C18_share_never_equals_secret",
    "C18_perfect_secrecy_refuted"
   ],
   "note": "Exact: unique completion for arbitrary coefficients; with the code's non-zero coefficients at most t-1 candidates are excluded, and perfect secrecy is refuted."
  },
  {
   "property": "C19",
   "status": "proved",
   "theorems": [
    "C19_public_polynomial_matches",
    "C19_short_public_polynomial_aborts"
   ],
   "note": "Equality plus exact panic condition (fewer than two coefficients)."
  },
  {
   "property": "C20",
   "status": "proved",
   "theorems": [
    "C20_additive_split",
    "C20_additive_split_hiding"
   ],
   "note": "Sum, part count, panic for zero parts, hiding of any n-1 parts."
  },
  {
   "property": "C21",
   "status": "proved",
   "theorems": [
    "C21_centralized_threshold_keygen",
    "C21_threshold_too_large_refused",
    "C21_zero_threshold_accepted"
   ],
   "note": "Any party count smaller than the field characteristic (big_field)."
  },
  {
   "property": "C22",
   "status": "proved",
   "theorems": [
    "C22_threshold_to_additive",
    "C22_debug_assertions",
    "C22_returned_share_has_key",
    "C22_wrong_set_yields_other_key_refuted"
   ],
   "note": "Positive result for any set with at least t members (exactly t in debug builds); exact panic condition; release-build misuse shown by a witness (_refuted)."
  },
  {
   "property": "C23",
   "status": "proved",
   "theorems": [
    "C23_additive_to_threshold",
    "C23_verifying_key_preserved",
    "C23_centralized_additive_keygen"
   ],
   "note": "Round trip and key preservation."
  },
  {
   "property": "C24",
   "status": "proved",
   "theorems": [
    "C24_follows_path",
    "C24_shares_follow_path",
    "C24_bip32_consistent",
    "C24_bip32_succeeds_iff"
   ],
   "note": "Chain-code hash and tweak reading are arbitrary functions; success characterised exactly."
  },
  {
   "property": "C25",
   "status": "proved",
   "theorems": [
    "C25_update_keeps_key",
    "C25_update_refuses",
    "C25_update_shifts_key"
   ],
   "note": "Preservation, exact refusal condition, and what happens when changes do not cancel."
  },
  {
   "property": "C26",
   "status": "proved",
   "theorems": [
    "C26_keygen_succeeds",
    "C26_equal_primes_panic",
    "C26_encryption_textbook",
    "C26_decrypt_inverts",
    "C26_decrypt_total",
    "C26_other_key_panics",
    "C26_public_key_checked"
   ],
   "note": "Distinct 3-mod-4 primes with both top bits set; equal primes (never excluded by the code) panic, proved separately."
  },
  {
   "property": "C27",
   "status": "proved",
   "theorems": [
    "C27_add",
    "C27_sub",
    "C27_mul",
    "C27_add_key_mismatch_panics",
    "C27_sub_noninvertible_panics",
    "C27_mul_panics_exactly"
   ],
   "note": "Exact panic conditions proved beside the homomorphisms."
  },
  {
   "property": "C28",
   "status": "proved",
   "theorems": [
    "C28_randomizer_recovered",
    "C28_ciphertext_opened"
   ],
   "note": "Every invertible ciphertext is opened by plaintext and recovered randomizer."
  },
  {
   "property": "C29",
   "status": "proved",
   "theorems": [
    "C29_sigma_reencryption"
   ],
   "note": "Secret/public encryption agreement is C26_encryption_textbook."
  },
  {
   "property": "C30",
   "status": "proved",
   "theorems": [
    "C30_rns_roundtrip",
    "C30_sqrt_exact",
    "C30_nonsquare_sampler"
   ],
   "note": "Primes congruent to 3 modulo 4."
  },
  {
   "property": "C31",
   "status": "proved",
   "theorems": [
    "C31_commit_correct",
    "C31_homomorphic",
    "C31_generated_parameters",
    "C31_commit_panics_exactly"
   ],
   "note": "Received bases are not checked for invertibility; exact panic condition proved."
  },
  {
   "property": "C32",
   "status": "proved",
   "theorems": [
    "C32_honest",
    "C32_acceptance",
    "C32_wrong_secret",
    "C32_extraction"
   ],
   "note": "Completeness, exact acceptance, extraction, rejection of wrong secrets; any field and group."
  },
  {
   "property": "C33",
   "status": "proved",
   "theorems": [
    "C33_honest",
    "C33_acceptance",
    "C33_extraction"
   ],
   "note": "Completeness, exact acceptance, extraction of both witnesses."
  },
  {
   "property": "C34",
   "status": "proved",
   "theorems": [
    "C34_honest",
    "C34_acceptance",
    "C34_extraction",
    "C34_empty_accepted",
    "C34_soundness_refuted"
   ],
   "note": "Completeness, exact acceptance, extraction; the verifier accepts an empty proof vector, so soundness is refuted as the code stands."
  },
  {
   "property": "C35",
   "status": "proved",
   "theorems": [
    "C35_honest",
    "C35_acceptance",
    "C35_empty_accepted"
   ],
   "note": "Completeness for Blum moduli, exact acceptance; an empty proof vector is accepted for any odd composite modulus with a Jacobi commitment."
  },
  {
   "property": "C36",
   "status": "proved",
   "theorems": [
    "C36_honest",
    "C36_acceptance",
    "C36_extraction"
   ],
   "note": "Completeness up to range, exact acceptance, extraction equations."
  },
  {
   "property": "C37",
   "status": "proved",
   "theorems": [
    "C37_honest",
    "C37_acceptance",
    "C37_extraction"
   ],
   "note": "Completeness up to range, exact acceptance, extraction equations."
  },
  {
   "property": "C38",
   "status": "proved",
   "theorems": [
    "C38_honest",
    "C38_acceptance",
    "C38_wrong_key",
    "C38_extraction"
   ],
   "note": "Completeness up to range, exact acceptance, extraction; wrong-key ciphertexts panic."
  },
  {
   "property": "C39",
   "status": "proved",
   "theorems": [
    "C39_honest",
    "C39_acceptance",
    "C39_extraction"
   ],
   "note": "Completeness up to range, exact acceptance, extraction per differing repetition."
  },
  {
   "property": "C40",
   "status": "proved",
   "theorems": [
    "C40_honest",
    "C40_acceptance",
    "C40_extraction",
    "C40_slack",
    "C40_single_party_aborts"
   ],
   "note": "Completeness up to range, exact acceptance, extraction, per-party slack; one party panics."
  },
  {
   "property": "C41",
   "status": "proved",
   "theorems": [
    "C41_margin",
    "C41_enc_elg_complete",
    "C41_aff_g_complete",
    "C41_fac_complete",
    "C41_perfect_completeness_refuted"
   ],
   "note": "Masks outside an explicit margin always give accepted proofs; perfect completeness is refuted by a witness."
  },
  {
   "property": "C42",
   "status": "proved",
   "theorems": [
    "C42_honest_run"
   ],
   "note": "All party counts, randomness and delivery orders; the only failing outcome is a zero key sum, which every party reports as a LocalError. Random contributions are assumed to have one common length (as BitVec::random gives)."
  },
  {
   "property": "C43",
   "status": "proved",
   "theorems": [
    "C43_finished_party"
   ],
   "note": "All peer messages and delivery orders. The peers' values are pinned to the commitment hashes they sent in round 1 and to Schnorr proofs verified under the combined randomness."
  },
  {
   "property": "C44",
   "status": "proved",
   "theorems": [
    "C44_hash_evidence",
    "C44_schnorr_evidence",
    "C44_honest_hash_safe",
    "C44_honest_schnorr_safe"
   ],
   "note": "Receiver rejects with the error iff the assembled evidence verifies; honest parties are never convicted. The evidence is what manul assembles from required_messages (manul itself is not modelled)."
  },
  {
   "property": "C45",
   "status": "proved",
   "theorems": [
    "C45_finished_party",
    "C45_round2_evidence",
    "C45_round3_evidence",
    "C45_judge_trusts_named_reporter",
    "C45_honest_sender_framed_refuted"
   ],
   "note": "All parameters, peer messages and delivery orders. Receiver's verdict equals the first check confirmed by the evidence (or it panics). That an honest sender cannot be framed is refuted: the reporter named in the evidence is not bound to the message."
  },
  {
   "property": "C46",
   "status": "proved",
   "theorems": [
    "C46_start_succeeds",
    "C46_honest_run",
    "C46_honest_update",
    "C46_finished_party",
    "C46_finished_keeps_key"
   ],
   "note": "Honest runs for all parameters, parties, draws within their ranges and delivery orders; a finished party's guarantees against arbitrary peers, including that its share with the change applied stays consistent and keeps the key."
  },
  {
   "property": "C47",
   "status": "proved",
   "theorems": [
    "C47_round2_evidence",
    "C47_round3_evidence",
    "C47_honest_sender_framed_refuted"
   ],
   "note": "Receiver's verdict equals the first check confirmed by the evidence (or it panics). That an honest sender cannot be framed is refuted: the reporter named in the evidence is not bound to the direct message."
  },
  {
   "property": "C48",
   "status": "proved",
   "theorems": [
    "C48_honest_run",
    "C48_any_t_new_shares_give_the_old_secret"
   ],
   "note": "All old and new party sets, thresholds (new one at least 2), polynomials, subsets and delivery orders; the new shares are a threshold sharing of the old secret."
  },
  {
   "property": "C49",
   "status": "proved",
   "theorems": [
    "C49_finished_party",
    "C49_self_not_listed_refuted",
    "C49_degree_unchecked_refuted",
    "C49_short_polynomial_aborts",
    "C49_threshold_one_aborts",
    "C49_wrong_key_aborts",
    "C49_no_evidence"
   ],
   "note": "What a finished new holder can rely on, for all messages; _refuted theorems exhibit runs where a missing check (polynomial length, own id among the old holders) gives inconsistent shares; short polynomials, threshold 1 and a wrong key end in a panic; evidence is unimplemented!()."
  },
  {
   "property": "C50",
   "status": "proved",
   "theorems": [
    "C50_honest_session_signs",
    "C50_degenerate_session_stops"
   ],
   "note": "for every number of parties, ordering of ids, key shares, keys of the declared size, messages and delivery orders; draws in the range that never makes an honest proof fail (C41) and invertible randomizers; the degenerate joint values (k*gamma, r, s or the key zero) are shown to end in a local error for everybody"
  },
  {
   "property": "C51",
   "status": "proved",
   "theorems": [
    "C51_output_is_valid",
    "C51_accepted_shares_suffice"
   ],
   "note": "Every signature a party outputs verifies for its message under the joint key with low s and correct recovery id, whatever the peers send; and accepted shares always suffice unless r, s or the key is zero. The curve backend's x coordinate and point recovery are assumed to satisfy xcoord_ok/lift_ok."
  },
  {
   "property": "C52",
   "status": "proved",
   "theorems": [
    "C52_own_share_accepted",
    "C52_only_own_share_accepted"
   ],
   "note": "For two parties with the same echo broadcasts of rounds 2 and 3: the share the sender computed is accepted, and any other share is reported as InvalidSignatureShare (the latter needs a nonce point other than infinity)."
  },
  {
   "property": "C53",
   "status": "proved",
   "theorems": [
    "C53_no_wrap",
    "C53_half_modulus",
    "C53_wrapped",
    "C53_product_shared",
    "C53_shares_add_up"
   ],
   "note": "half-modulus condition, its sufficiency and what happens outside it, the guarantee from the crate's parameter checks for all values in the proved ranges, and the round trip sender/receiver for honest draws; that an accepted proof implies the ranges is C38 (two transcripts)"
  },
  {
   "property": "C54",
   "status": "proved",
   "theorems": [
    "C54_round2_fault_confirmed",
    "C54_round2_no_false_evidence",
    "C54_invalid_share_confirmed"
   ],
   "note": "Round 2 (wrong ids of D, F and psi, affine proof for gamma, El-Gamal dlog proof) and invalid signature shares: rejected implies confirmed, accepted implies not confirmed. The reporting party is consistent (entry_ok) and the echoes in the evidence are those it saw itself."
  },
  {
   "property": "C55",
   "status": "proved",
   "theorems": [
    "C55_round5_decryption_evidence",
    "C55_round6_decryption_evidence",
    "C55_no_decryption_evidence_alone",
    "C55_honest_party_framed_refuted",
    "C55_framed_in_error_rounds_refuted",
    "C55_cheater_escapes_refuted",
    "C55_never_confirmed",
    "C55_round5_affine_never_confirmed"
   ],
   "note": "False as one would wish it: sessions in which evidence against a party that follows the protocol is confirmed (R1EncElg0/1, R2AffGHatPsi, R3Elog, R5Dec, R6Dec), a cheater whose fault is not confirmed, and universal theorems that R5/R6WrongIds and R6AffGStar evidence is never confirmed and R5AffGStar only for equal moduli. What confirmed R5Dec and R6Dec evidence does say is proved for all evidence."
  },
  {
   "property": "C56",
   "status": "proved",
   "theorems": [
    "C56_missing_proofs_unattributable"
   ],
   "note": "For every acceptable round 2 message and every set of entries of the second proof family left out."
  },
  {
   "property": "C57",
   "status": "proved",
   "theorems": [
    "C57_assembled_signature_valid",
    "C57_valid_pair_assembled",
    "C57_normalisation_keeps_validity"
   ],
   "note": "from_scalars returns exactly for valid pairs and a finite key; what it returns is valid with low s and a recovery id for its nonce point."
  },
  {
   "property": "C58",
   "status": "proved",
   "theorems": [
    "C58_key_init",
    "C58_aux_gen",
    "C58_key_refresh",
    "C58_signing"
   ],
   "note": "For every round of the four protocols with evidence, every receiver state and every message: a complaint about a part is confirmed by the matching check, a message with a part that a check confirms is refused for one of its parts (the first one in the code's order when several are bad), no check panics, and no check confirms anything for round numbers the protocol does not have. KeyResharing is excluded: its checks are unimplemented!()."
  },
  {
   "property": "C59",
   "status": "proved",
   "theorems": [
    "C59_new_exact",
    "C59_start_refused",
    "C59_start_even_modulus_panics",
    "C59_subset_exact",
    "C59_public_subset_exact",
    "C59_caller_is_party",
    "C59_caller_is_party_refuted"
   ],
   "note": "new, make_round, AuxInfo::subset and PublicAuxInfo subsets, exact acceptance conditions; that the caller is one of the parties is not checked (refuted) but holds for data from AuxInfo::subset."
  },
  {
   "property": "C60",
   "status": "proved",
   "theorems": [
    "C60_sid_binds",
    "C60_epid_binds",
    "C60_contexts_differ",
    "C60_keygen_contexts_differ",
    "C60_message_not_bound"
   ],
   "note": "Collisions are exhibited: the two given hash inputs differ and have the same value. The message is not bound (shown as a theorem)."
  },
  {
   "property": "C61",
   "status": "proved",
   "theorems": [
    "C61_start_succeeds",
    "C61_honest_run"
   ],
   "note": "All parameters, parties, draws within their ranges (masks away from the ends, C41) and delivery orders; the primality test is an oracle assumed to reject composites."
  },
  {
   "property": "C63",
   "status": "proved",
   "theorems": [
    "C63_sch",
    "C63_elog",
    "C63_prm",
    "C63_mod",
    "C63_fac",
    "C63_enc_elg",
    "C63_aff_g",
    "C63_aff_g_star",
    "C63_dec"
   ],
   "note": "All nine proofs; collisions are exhibited as two explicit transcripts. DecProof leaves out the number of parties and the keys of its ciphertexts."
  },
  {
   "property": "C64",
   "status": "proved",
   "theorems": [
    "C64_round_trip",
    "C64_encode_panics",
    "C64_encode_injective",
    "C64_decode_exact",
    "C64_decoded_is_encodable_refuted",
    "C64_encoding_unique_refuted"
   ],
   "note": "The curve library is a record of functions with its documented behaviour as hypotheses (backend_ok), instantiated by a toy group of order 7. The naive claims 'a decoded point can be encoded' and 'encodings are unique' are refuted by witnesses."
  },
  {
   "property": "C65",
   "status": "proved",
   "theorems": [
    "C65_key_init_crash",
    "C65_key_init_otherwise",
    "C65_key_refresh_crash",
    "C65_key_refresh_otherwise",
    "C65_signing_crash",
    "C65_signing_otherwise",
    "C65_no_crash_refuted"
   ],
   "note": "The models of the three receiving functions are repeated with the serialisation of hashed points made explicit; each theorem pair says exactly when they differ from the plain models. no_crash is refuted by a witness starting from the byte string 00."
  },
  {
   "property": "C62",
   "status": "proved",
   "theorems": [
    "C62_key_init",
    "C62_without_binding_refuted",
    "C62_aux_gen",
    "C62_key_refresh",
    "C62_resharing",
    "C62_signing"
   ],
   "note": "The agreement of the echo parts is a hypothesis (it is what manul's echo rounds provide); collisions are excluded only for the explicit pairs of opened transcripts. A witness shows that the commitments are needed."
  },
  {
   "property": "C66",
   "status": "proved",
   "theorems": [
    "C66_branch_rule",
    "C66_same_messages_same_round",
    "C66_one_party_splits_session"
   ],
   "note": "The split theorem is a finding (DESIGN.md, finding 28): it is stated for every honest session of C50 with a non-degenerate nonce. The session layer's handling of the resulting mixture of rounds is not modelled."
  },
  {
   "property": "C67",
   "status": "proved",
   "theorems": [
    "C67_any_product_accepted",
    "C67_small_products_pinned"
   ],
   "note": "A finding (DESIGN.md, finding 29): the property one would want is refuted for all parameter sets; the second theorem shows what a narrower interval would give."
  },
  {
   "property": "C68",
   "status": "proved",
   "theorems": [
    "C68_error_round_checks",
    "C68_reported_fault",
    "C68_honest_message_passes",
    "C68_wrong_delta_unattributed",
    "C68_wrong_s_unattributed"
   ],
   "note": "The last two theorems are a finding (DESIGN.md, finding 30). The bound of 2^18 parties is what the library's self-consistency test guarantees for the range of the honest prover's secret in the worst admissible parameter set."
  },
  {
   "property": "C69",
   "status": "proved",
   "theorems": [
    "C69_elog",
    "C69_prm",
    "C69_sch"
   ],
   "note": "Perfect secrecy as a bijection between nonces and accepted proofs. The uniform distribution of the nonces is not modelled; it is the scalar backend's and the random generator's (DESIGN.md, unmodelled parts)."
  },
  {
   "property": "C70",
   "status": "proved",
   "theorems": [
    "C70_dec",
    "C70_dec_inner",
    "C70_aff_gs",
    "C70_aff_gs_inner"
   ],
   "note": "Secrecy as a bijection between draws and accepted proofs with inner answers. The declared bit bounds of the answers, which travel with them, are those computed from the declared bounds of mask and secret. The uniform distribution of the draws is not modelled."
  },
  {
   "property": "C71",
   "status": "proved",
   "theorems": [
    "C71_threshold_sequence",
    "C71_refresh_sequence",
    "C71_centralized_threshold",
    "C71_centralized"
   ],
   "note": "The composition of C42, C23, C48, C24, C22, C61, C59 and C50, and of C42, C46, C25 and C50, on each other's outputs. The composite-number test of the Paillier-Blum proof is assumed not to fail on honest moduli, as in C61. Scalars and the integers of the signing model are related by the canonical representative."
  },
  {
   "property": "C72",
   "status": "proved",
   "theorems": [
    "C72_refreshed_shares_uniform",
    "C72_reshared_shares_uniform"
   ],
   "note": "Stated as a bijection between one party's draws and the outcomes; the uniform distribution of the draws is not modelled. Polynomial::random draws no zero coefficients (finding 5), so for resharing the code's distribution is that of the theorem up to the excluded draws."
  },
  {
   "property": "C73",
   "status": "proved",
   "theorems": [
    "C73_commitment_hides",
    "C73_enc_elg",
    "C73_enc_elg_inner",
    "C73_aff_g",
    "C73_aff_g_inner",
    "C73_fac",
    "C73_fac_inner"
   ],
   "note": "Stated as bijections between draws and accepted proofs, for a fixed challenge function; the uniform distribution of the draws and the programming of the random oracle are not modelled. Proofs with an answer next to the end of its interval (a fraction of about 2^-eps) are outside the statement. For fac the hypothesis l + eps + bits(N * hat N) + 1 < width of the extra-wide integers is the one of C36."
  },
  {
   "property": "C74",
   "status": "proved",
   "theorems": [
    "C74_made_without_factors",
    "C74_challenges_once",
    "C74_commitments_once",
    "C74_two_roots_give_a_factor",
    "C74_one_root_per_number"
   ],
   "note": "Stated as equality of proofs and as bijections for a hash function that returns the chosen challenges; the uniform distribution of the draws and the programming of the random oracle are not modelled. That a commitment is a square modulo exactly one prime is stated with the primes; it is the Jacobi symbol being -1, which the simulator would compute without them."
  },
  {
   "property": "C75",
   "status": "proved",
   "theorems": [
    "C75_sent_once",
    "C75_mostly_inner",
    "C75_margin",
    "C75_two_factors"
   ],
   "note": "About the ciphertext under the peer's key only, and against a peer who holds that key. The ciphertext of the mask under the sender's key and the accompanying proof are separate (the proof: C73; the ciphertext rests on the secrecy of Paillier encryption, which is not modelled). Stated as a bijection between draws and ciphertexts; the uniform distribution of the draws is not modelled."
  },
  {
   "property": "C76",
   "status": "proved",
   "theorems": [
    "C76_key_init",
    "C76_key_init_no_copy",
    "C76_aux_gen",
    "C76_aux_gen_no_copy",
    "C76_key_refresh",
    "C76_key_refresh_no_copy"
   ],
   "note": "Hash collisions are excluded only for the explicit pairs of opened transcripts. What a peer commits to may depend on the honest party's own commitment, which is a hash of data containing a fresh random string; that the hash hides this data is not modelled."
  },
  {
   "property": "C77",
   "status": "proved",
   "theorems": [
    "C77_search",
    "C77_paillier_key",
    "C77_safe_primes",
    "C77_order",
    "C77_value_base",
    "C77_product_fits"
   ],
   "note": "What crypto_primes delivers (primes with the two top bits set, safe primes) is the hypothesis of the theorems; its sieve and primality test are not modelled. Debug assertions count as panics."
  },
  {
   "property": "C78",
   "status": "proved",
   "theorems": [
    "C78_all_answerable",
    "C78_half",
    "C78_residue_vectors",
    "C78_value_vectors"
   ],
   "note": "The hash is arbitrary; the statement counts challenge vectors for which some accepted proof of full length exists. The verifier itself does not require the full length (C35_empty_accepted). That N is odd is the invariant of the modulus type; that it is composite stands for the verifier's primality test."
  },
  {
   "property": "C79",
   "status": "proved",
   "theorems": [
    "C79_part",
    "C79_nonce"
   ],
   "note": "The soundness error of the proof is made explicit: the conclusion holds for peers whose proof could have answered a second challenge."
  },
  {
   "property": "C80",
   "status": "proved",
   "theorems": [
    "C80_presignature",
    "C80_pledge_binds"
   ],
   "note": "As in C79, the peers' proofs are those that could have answered a second challenge; the S of round 3 are not individually proved by the protocol, so only their sum is pinned."
  },
  {
   "property": "C81",
   "status": "proved",
   "theorems": [
    "C81_aux_gen",
    "C81_key_refresh",
    "C81_modulus_refuted"
   ],
   "note": "The modulus is odd and has the right size because the run finished: the conversion of a received modulus panics when it is even, round 2 checks the lower bound on the size, and the verifier panics above the upper bound. Primes are assumed to be recognised by the verifier's primality test; that it never calls a prime composite is a fact about the external crate. The refutation is about AuxGen; KeyRefresh has the same check."
  }
 ]
}