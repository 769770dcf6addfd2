{
 "claims": [
  {
   "property": "C01",
   "status": "proved",
   "theorems": [
    "C01_degree_check_complete"
   ],
   "note": "For every engine, polynomial, point, length t+2 <= n < q, profile and generator state."
  },
  {
   "property": "C02",
   "status": "proved",
   "theorems": [
    "C02_degree_check_sound"
   ],
   "note": "Exact count of accepting draws; the verdict is shown to depend on the drawn scalars only."
  },
  {
   "property": "C03",
   "status": "partial",
   "theorems": [
    "C03_degree_check_answers_refuted",
    "C03_full_refuted",
    "C03_degree_check_answers_partial"
   ],
   "note": "False as stated: the call panics at n = t (both profiles) and n = t+1 (overflow checks on). The partial theorem gives the outcome for every length."
  },
  {
   "property": "C04",
   "status": "proved",
   "theorems": [
    "C04_interpolation_simple"
   ],
   "note": "Whatever follows the first t+1 entries."
  },
  {
   "property": "C05",
   "status": "proved",
   "theorems": [
    "C05_interpolation_g1",
    "C05_interpolation_g2",
    "C05_subset_independent"
   ],
   "note": "Both source groups, any order of points, and the corollary that two qualified lists agree."
  },
  {
   "property": "C06",
   "status": "proved",
   "theorems": [
    "C06_interpolation_contract"
   ],
   "note": "All four functions, each outcome characterised by an equivalence."
  },
  {
   "property": "C07",
   "status": "proved",
   "theorems": [
    "C07_interpolation_gt"
   ],
   "note": "Points are u64 values distinct modulo q."
  },
  {
   "property": "C08",
   "status": "proved",
   "theorems": [
    "C08_honest_share_accepted"
   ],
   "note": "Every generator state of dealer and verifier. That the dealer's key pair works on the digest it signs is a hypothesis (works_on); shown for the example, and made exact for Ed25519 in C118."
  },
  {
   "property": "C09",
   "status": "proved",
   "theorems": [
    "C09_dealing"
   ],
   "note": "All outcomes of share_pvss: the dealt vectors, the missing-key error, each panic."
  },
  {
   "property": "C10",
   "status": "proved",
   "theorems": [
    "C10_shamir_privacy",
    "C10_secrets_equally_likely"
   ],
   "note": "Counting over all draws of the t+1 coefficients."
  },
  {
   "property": "C11",
   "status": "proved",
   "theorems": [
    "C11_share_verify_exact"
   ],
   "note": "Equivalence; the degree check occurs as its own verdict, characterised by C01/C02."
  },
  {
   "property": "C12",
   "status": "partial",
   "theorems": [
    "C12_other_slots_partial",
    "C12_own_slot_unique_partial",
    "C12_every_slot_decryptable_refuted",
    "C12_own_slot_partial",
    "C12_full_refuted"
   ],
   "note": "False as stated: only the sender's own slot is checked; the witness is an accepted share with a garbled slot. What holds: the sender's slot is the encryption of the committed evaluation and is determined by the rest of the share, and the answer does not depend on any other slot."
  },
  {
   "property": "C13",
   "status": "partial",
   "theorems": [
    "C13_proof_binds_vector_refuted",
    "C13_proof_binds_secret_partial",
    "C13_full_refuted",
    "C13_exact_partial"
   ],
   "note": "False as stated: the proof covers only the constant term; the witness is a second accepted share. The partial theorem: the committed secret is bound. C13_exact_partial: exactly which vectors are accepted with the signed proof of a given share (commitments shifted by x r(x), r unique with t coefficients, own slot matching)."
  },
  {
   "property": "C14",
   "status": "proved",
   "theorems": [
    "C14_aggregation_verify_exact"
   ],
   "note": "Equivalence with a stated list of conditions; every transcript, map, profile and generator state."
  },
  {
   "property": "C15",
   "status": "partial",
   "theorems": [
    "C15_slots_traded_refuted",
    "C15_full_refuted",
    "C15_product_partial",
    "C15_sum_partial",
    "C15_exact_partial"
   ],
   "note": "False as stated: the verifier multiplies the sum of all pairing defects by one scalar, so errors in two slots can cancel. The refutation moves value between two slots of an honest transcript, for all coins. What holds: the product over all slots is correct; the answer depends on the encryptions only through their number and sum, and (non-zero draw) an accepted transcript stays accepted under exactly the vectors of the same sum."
  },
  {
   "property": "C16",
   "status": "proved",
   "theorems": [
    "C16_core_aggregate"
   ],
   "note": "All lengths; empty core included."
  },
  {
   "property": "C17",
   "status": "proved",
   "theorems": [
    "C17_associative",
    "C17_commutative",
    "C17_identity"
   ],
   "note": "Associative and identity exactly; commutative up to which of two signed proofs with equal gs is kept."
  },
  {
   "property": "C18",
   "status": "proved",
   "theorems": [
    "C18_transcript_errors",
    "C18_core_errors"
   ],
   "note": "Each error characterised by an equivalence, the overflow panic of the debug profile included."
  },
  {
   "property": "C19",
   "status": "proved",
   "theorems": [
    "C19_failed_receive"
   ],
   "note": "Every failing outcome, panics included."
  },
  {
   "property": "C20",
   "status": "proved",
   "theorems": [
    "C20_structural_invariant"
   ],
   "note": "Every history of arbitrary calls starting from a new aggregator."
  },
  {
   "property": "C21",
   "status": "proved",
   "theorems": [
    "C21_commitments_balanced"
   ],
   "note": "Histories without weight wrap-around; registered ids below n, or shares only."
  },
  {
   "property": "C22",
   "status": "proved",
   "theorems": [
    "C22_weights_count"
   ],
   "note": "Histories of individual shares shorter than 2^64."
  },
  {
   "property": "C23",
   "status": "proved",
   "theorems": [
    "C23_order_independent"
   ],
   "note": "Stated for permutations of the accepted messages."
  },
  {
   "property": "C24",
   "status": "proved",
   "theorems": [
    "C24_honest_transcript_accepted",
    "C24_honest_history"
   ],
   "note": "Transcripts built by any tree of merges from honest shares, and transcripts of receive histories."
  },
  {
   "property": "C25",
   "status": "partial",
   "theorems": [
    "C25_accepted_shares_refuted",
    "C25_good_shares_partial",
    "C25_exact_partial"
   ],
   "note": "False as stated: share_verify checks one slot only, so an accepted share can poison the transcript. The partial theorem assumes every slot of each share is right. C25_exact_partial gives the exact condition: a peer accepts the transcript of accepted shares iff the degree test passes on the summed commitments and the product of pairings holds, or the random scalar is 0."
  },
  {
   "property": "C26",
   "status": "proved",
   "theorems": [
    "C26_end_to_end"
   ],
   "note": "Any t+1 distinct recipients, any order, any honest history."
  },
  {
   "property": "C27",
   "status": "proved",
   "theorems": [
    "C27_decryption"
   ],
   "note": "Success value, both panics, and consistency with the pairing check."
  },
  {
   "property": "C28",
   "status": "partial",
   "theorems": [
    "C28_always_panics",
    "C28_errors_reported_refuted",
    "C28_only_conflicts_partial"
   ],
   "note": "False as stated: every failing input panics (C28_always_panics). The partial theorem says which inputs are reported as Err."
  },
  {
   "property": "C29",
   "status": "proved",
   "theorems": [
    "C29_dlk_complete"
   ],
   "note": "Any hash function, any generator."
  },
  {
   "property": "C30",
   "status": "proved",
   "theorems": [
    "C30_dlk_exact",
    "C30_dlk_unique",
    "C30_dlk_extract"
   ],
   "note": "Exactness, uniqueness and extraction from two conversations."
  },
  {
   "property": "C31",
   "status": "partial",
   "theorems": [
    "C31_full_refuted",
    "C31_exact_partial",
    "C31_dlk_statement_fixed_first_refuted",
    "C31_dlk_statement_unique_partial"
   ],
   "note": "False as stated: the DLK challenge hashes only the commitment, so the statement can be chosen last. The partial theorem: at most one statement verifies for a given proof with non-zero challenge. C31_full states the false claim and C31_full_refuted disproves it for every engine. C31_exact_partial: exactly which statements a proof verifies for."
  },
  {
   "property": "C32",
   "status": "proved",
   "theorems": [
    "C32_dleq_complete"
   ],
   "note": "Any hash function, any generator."
  },
  {
   "property": "C33",
   "status": "proved",
   "theorems": [
    "C33_dleq_exact",
    "C33_dleq_extract",
    "C33_dleq_one_challenge"
   ],
   "note": "Exactness, extraction, and at most one challenge for a false statement."
  },
  {
   "property": "C34",
   "status": "proved",
   "theorems": [
    "C34_dlk_hvzk",
    "C34_dleq_hvzk"
   ],
   "note": "Stated as a bijection between prover coins and simulator coins for each challenge, plus the version with the hash programmed."
  },
  {
   "property": "C35",
   "status": "proved",
   "theorems": [
    "C35_schnorr_complete"
   ],
   "note": "Any hash function, any generator."
  },
  {
   "property": "C36",
   "status": "proved",
   "theorems": [
    "C36_schnorr_exact",
    "C36_schnorr_binding",
    "C36_nonce_reuse"
   ],
   "note": "Exactness, key binding, and secret-key recovery from a reused nonce."
  },
  {
   "property": "C37",
   "status": "proved",
   "theorems": [
    "C37_batch_complete",
    "C37_batch_lengths"
   ],
   "note": "Any alpha, empty batch included; length mismatch gives the documented error."
  },
  {
   "property": "C38",
   "status": "proved",
   "theorems": [
    "C38_batch_sound"
   ],
   "note": "At most k-1 accepting alphas, by counting roots."
  },
  {
   "property": "C39",
   "status": "proved",
   "theorems": [
    "C39_round_trip",
    "C39_bytes_and_sizes",
    "C39_injective",
    "C39_total",
    "C39_try_from"
   ],
   "note": "Holds for every value and every following bytes; the byte layout is stated explicitly."
  },
  {
   "property": "C40",
   "status": "partial",
   "theorems": [
    "C40_truncated_refuted",
    "C40_full_refuted",
    "C40_ok_iff_long_partial"
   ],
   "note": "False as stated: the four deserialisers unwrap each byte, so every short input panics. The partial theorem says when they return Ok."
  },
  {
   "property": "C41",
   "status": "proved",
   "theorems": [
    "C41_encode_rfc4648",
    "C41_public_key_text",
    "C41_secret_key_text",
    "C41_signature_text_injective",
    "C41_display"
   ],
   "note": "The encoder is related to an independent reading of RFC 4648; keys round-trip; Display shows the first 16 characters."
  },
  {
   "property": "C42",
   "status": "partial",
   "theorems": [
    "C42_exact_partial",
    "C42_short_refuted",
    "C42_long_refuted",
    "C42_full_refuted",
    "C42_accepted_partial",
    "C42_malformed_partial"
   ],
   "note": "False as stated: short keys panic on the slice and extra bytes are ignored. The partial theorems describe the accepted strings and say that malformed text is Err. C42_exact_partial: exactly when the result is a key, an error and a panic."
  },
  {
   "property": "C43",
   "status": "proved",
   "theorems": [
    "C43_round_trip",
    "C43_exact_size",
    "C43_unambiguous"
   ],
   "note": "For all values whose ids, weights and lengths fit their machine types; the point and scalar codecs of arkworks are assumed to round-trip (record fields of the engine)."
  },
  {
   "property": "C44",
   "status": "partial",
   "theorems": [
    "C44_any_order_refuted",
    "C44_second_encoding_refuted",
    "C44_sorted_partial",
    "C44_other_types_partial",
    "C44_full_refuted",
    "C44_exact_partial"
   ],
   "note": "False as stated: contributions may come in any order and with repetitions. Partial: with sorted entries, and for the types without a map, the encoding is the only one, given that the point and scalar encodings are. C44_exact_partial: exactly which byte strings read as a given transcript."
  },
  {
   "property": "C45",
   "status": "proved",
   "theorems": [
    "C45_decomp_preimage",
    "C45_message_bytes",
    "C45_dlk_preimage",
    "C45_dleq_preimage",
    "C45_schnorr_preimage",
    "C45_personas",
    "C45_personas_no_panic"
   ],
   "note": "Preimages are injective; the three personalisation blocks differ."
  },
  {
   "property": "C46",
   "status": "proved",
   "theorems": [
    "C46_field_first_block",
    "C46_field_deterministic",
    "C46_field_diverges",
    "C46_long_persona_panics",
    "C46_group_first_block",
    "C46_group_not_zero",
    "C46_group_deterministic",
    "C46_group_long_persona_panics"
   ],
   "note": "For arbitrary Blake2s, ChaCha and from_random_bytes; the loop is modelled with fuel and the theorems quantify over it."
  },
  {
   "property": "C47",
   "status": "proved",
   "theorems": [
    "C47_sign_verify",
    "C47_new_contract",
    "C47_verify_exact",
    "C47_batch_exact",
    "C47_batch_no_panic"
   ],
   "note": "For an arbitrary EdDSA implementation; working_key says that the key pair signs correctly."
  },
  {
   "property": "C48",
   "status": "partial",
   "theorems": [
    "C48_lists_partial",
    "C48_exact_partial",
    "C48_free_rider_refuted",
    "C48_full_refuted",
    "C48_positive_weights_partial"
   ],
   "note": "False as stated: a contributor with weight zero passes verification. What holds: weights stay positive along every history whose received transcripts have positive weights; an accepted transcript stays accepted under exactly the validly signed lists of the same weighted sum, so a contributor can be dropped exactly when q divides the weight or the contribution is the commitment to zero."
  },
  {
   "property": "C49",
   "status": "partial",
   "theorems": [
    "C49_exact_partial",
    "C49_forged_weight_refuted",
    "C49_full_refuted",
    "C49_merge_sound_partial"
   ],
   "note": "False as stated: a scaled transcript with weight 2^64-1 is accepted, and merging it panics or yields a transcript nobody accepts. What holds: sound transcripts without conflict or overflow merge into a sound one; in general the merge of two sound transcripts is accepted exactly when the contributions outside the range and the multiples of 2^64 lost from the weights sum to zero."
  },
  {
   "property": "C50",
   "status": "proved",
   "theorems": [
    "C50_transcript_soundness"
   ],
   "note": "Counting over all draws; the conditions are stated without coins."
  },
  {
   "property": "C51",
   "status": "proved",
   "theorems": [
    "C51_share_soundness"
   ],
   "note": "Counting over all draws; the conditions are stated without coins."
  },
  {
   "property": "C52",
   "status": "partial",
   "theorems": [
    "C52_exact_partial",
    "C52_full_refuted",
    "C52_dropped_refuted",
    "C52_contributors_kept_partial"
   ],
   "note": "False as stated: a registered contributor with id >= n passes verification and is dropped by the merge, after which no peer accepts the transcript. What holds: exactly the ids below the aggregator's length are kept (C52_exact_partial), so all of them when the registered ids are those below n."
  },
  {
   "property": "C53",
   "status": "partial",
   "theorems": [
    "C53_share_panics_refuted",
    "C53_cut_share_refuted",
    "C53_cut_participant_refuted",
    "C53_full_refuted",
    "C53_no_byte_array_partial",
    "C53_exact_partial"
   ],
   "note": "False as stated: shares, transcripts, signed proofs and participants panic exactly when cut inside a byte array. The partial theorem covers the types without byte arrays. C53_exact_partial: exactly which byte strings make reading a signed proof, a participant or a transcript panic (shares: C53_share_panics_refuted)."
  },
  {
   "property": "C54",
   "status": "proved",
   "theorems": [
    "C54_prefix_free"
   ],
   "note": "base_streaming: the point and scalar decoders of arkworks do not depend on the bytes behind what they read."
  },
  {
   "property": "C55",
   "status": "proved",
   "theorems": [
    "C55_share_fits",
    "C55_transcript_fits",
    "C55_reencode"
   ],
   "note": "No hypothesis beyond successful decoding."
  },
  {
   "property": "C56",
   "status": "partial",
   "theorems": [
    "C56_replay_refuted",
    "C56_full_refuted",
    "C56_counted_sum_partial",
    "C56_exact_partial"
   ],
   "note": "False as stated: k deliveries of a sound share are all accepted and give weight k and k times its secret. The partial theorem: the transcript shares the sum of the secrets of the accepted deliveries, repetitions included. C56_exact_partial: after any history of shares the weight of a dealer is exactly the number of its accepted shares, so every dealer counts at most once iff no two of its shares were accepted."
  },
  {
   "property": "C57",
   "status": "partial",
   "theorems": [
    "C57_derived_share_refuted",
    "C57_public_function_refuted",
    "C57_signed_proofs_partial",
    "C57_exact_partial"
   ],
   "note": "False as stated, for every engine and signature scheme: neither proof nor vectors name their dealer, so anybody with a registered key can re-sign a share, also a rescaled and shifted one, without knowing its secret. The partial theorem: an accepted share carries a decomposition proof that its sender's key signed, up to a hash collision. C57_exact_partial: a copy of an accepted share under another identity and signature is accepted iff that identity is registered, its slot is right and the signature is one on the copied proof."
  },
  {
   "property": "C58",
   "status": "partial",
   "theorems": [
    "C58_loopback_refuted",
    "C58_full_refuted",
    "C58_loopback_sound_partial",
    "C58_exact_partial"
   ],
   "note": "False as stated: every weight doubles; the 64th turn overflows (panic in debug, all weights zero in release). The partial theorem: below 2^63 the result is twice the transcript and every peer accepts it. C58_exact_partial: exactly when the own transcript is accepted, in both build profiles, and the resulting weights modulo 2^64."
  },
  {
   "property": "C59",
   "status": "partial",
   "theorems": [
    "C59_exact_partial",
    "C59_network_partial",
    "C59_short_partial",
    "C59_pingpong_refuted",
    "C59_full_refuted"
   ],
   "note": "False without a bound: two nodes that keep exchanging transcripts reach Fibonacci weights, and the 94th event overflows (panic in debug; in release a transcript no peer accepts). The partial theorems: the full conclusion as long as no count reaches 2^64, and success of every schedule of at most 64 events. C59_exact_partial: in debug, every event succeeds iff all final counts fit in 64 bits."
  },
  {
   "property": "C60",
   "status": "proved",
   "theorems": [
    "C60_share_verdicts",
    "C60_unique"
   ],
   "note": "Verdicts as a relation with one constructor per answer; the SCRAPE sum, the slot equation, the interpolation and the proof/signature conditions are stated from the specification. Shown functional, so the relation pins the answer and the number of draws."
  },
  {
   "property": "C61",
   "status": "proved",
   "theorems": [
    "C61_transcript_verdicts",
    "C61_unique"
   ],
   "note": "As C60, with the first bad contribution in key order deciding which panic is raised."
  },
  {
   "property": "C62",
   "status": "proved",
   "theorems": [
    "C62_dealing_verdicts",
    "C62_unique",
    "C62_receive_draws"
   ],
   "note": "Closed form of every field of a dealt share. The kind of panic for n = 0 is not fixed (it differs between build profiles)."
  },
  {
   "property": "C63",
   "status": "proved",
   "theorems": [
    "C63_set_up",
    "C63_fresh_network"
   ],
   "note": "The recipe of the crate's tests as a function over any number of parties. That the key pairs of the seeds load and their signatures on the n digests of the session verify is a hypothesis (good_for); the toy instance satisfies it, and C118 makes it exact for Ed25519."
  },
  {
   "property": "C64",
   "status": "proved",
   "theorems": [
    "C64_blinded_check"
   ],
   "note": "The check exists only in the crate's test (node.rs:432-461); it is modelled as a function."
  },
  {
   "property": "C65",
   "status": "partial",
   "theorems": [
    "C65_quorums_agree_partial",
    "C65_exact_partial",
    "C65_full_refuted",
    "C65_checked_partial"
   ],
   "note": "False: slots of other participants are not checked by share_verify (C12), so an accepted share can split the quorums. Partial: quorums of decryptions that pass the check of C64 against low-degree commitments agree, on the unique point matching the committed secret. Exact (C65_exact_partial): all quorums decrypt and agree iff the decryptions lie on one polynomial of degree at most t."
  },
  {
   "property": "C66",
   "status": "partial",
   "theorems": [
    "C66_forged_share_refuted",
    "C66_full_refuted",
    "C66_what_is_bound_partial"
   ],
   "note": "False: the signature covers the knowledge proof only, not degree, commitments or encryptions. From the signed proof alone anybody makes an accepted share in every session of degree at least 1 with the same g2 and the same EdDSA key under the same id. Partial: a proof gets some share accepted exactly when it is valid; what it binds is the secret point and (response not zero) g2."
  },
  {
   "property": "C67",
   "status": "partial",
   "theorems": [
    "C67_commitment_partial",
    "C67_unknown_secret_refuted",
    "C67_full_refuted"
   ],
   "note": "False: the challenge of the knowledge proof does not hash the statement, so the statement is solved for afterwards. The dealer is explicit; shown for every engine and key that loads, for degree at least 1. C67_commitment_partial: with non-zero challenge, knowing the secret amounts to knowing the logarithm of the proof's commitment; with challenge 0 the proof says nothing."
  },
  {
   "property": "C68",
   "status": "proved",
   "theorems": [
    "C68_deliver",
    "C68_history",
    "C68_network",
    "C68_honest_network"
   ],
   "note": "Proved. The deserialisation step before the receive calls is the codec model; rejecting truncated messages takes base_streaming (reading a point or scalar looks at no byte beyond it) as a hypothesis."
  },
  {
   "property": "C69",
   "status": "partial",
   "theorems": [
    "C69_recorded_for_good",
    "C69_split_refuted",
    "C69_full_refuted",
    "C69_exact_partial"
   ],
   "note": "False: a dealer that deals twice and gives the two shares to two nodes splits them for good; whatever they receive later, each refuses the other's transcript. Also proved: what is recorded of a contributor is recorded for good. The partial theorem is exact: accepted iff no dealer is recorded by both with different secret points, else the call panics and changes nothing."
  },
  {
   "property": "C70",
   "status": "proved",
   "theorems": [
    "C70_uniform_secret"
   ],
   "note": "For every nonce. Of the signing key only that it can be read. The count excludes the all-zero sequence, for which dealing panics."
  },
  {
   "property": "C71",
   "status": "proved",
   "theorems": [
    "C71_one_honest_dealer",
    "C71_at_most_one",
    "C71_equally_likely"
   ],
   "note": "The other contributions are fixed first. The statement is about the decryptions and the secret; the commitments determine the secret point and hide it only computationally, which is outside the model. C71_equally_likely is the usual reading. C71_one_honest_dealer and C71_equally_likely assume signatures that verify (party_of); C71_at_most_one, the upper bound, does not."
  },
  {
   "property": "C72",
   "status": "partial",
   "theorems": [
    "C72_exact_partial",
    "C72_last_word_refuted",
    "C72_full_refuted",
    "C72_honest_last_partial",
    "C72_honest_bound_partial"
   ],
   "note": "False: a dealer that has seen the other share picks between two polynomials, and every non-trivial set of secrets becomes more likely; shown for every engine and group, for degree at least 1 (C72_full_refuted). Partial: if the honest share comes last, every set is hit as often as by a uniform choice, up to one coefficient sequence. C72_exact_partial: if the late dealer's secret is one of given candidates, the honest secrets for which it can hit a set are exactly those from which a candidate leads into the set: an upper bound for every strategy, reached by an explicit one. With all candidates, every set of two secrets is hit for every honest share. C72_honest_bound_partial: the upper bound without any assumption on signatures or on what the dealer contributed before."
  },
  {
   "property": "C73",
   "status": "partial",
   "theorems": [
    "C73_display_partial",
    "C73_debug",
    "C73_same_display_refuted",
    "C73_full_refuted"
   ],
   "note": "False: Display shows exactly the first 12 bytes; for every value another one prints alike. Partial: exact characterisation; Debug shows everything."
  },
  {
   "property": "C74",
   "status": "partial",
   "theorems": [
    "C74_read_back_refuted",
    "C74_full_refuted",
    "C74_shape_partial"
   ],
   "note": "False: Debug prints the base64 form, which from_base64 reads back. Partial: its shape."
  },
  {
   "property": "C75",
   "status": "partial",
   "theorems": [
    "C75_two_dealings_refuted",
    "C75_mixing_refuted",
    "C75_full_refuted",
    "C75_same_secret_partial",
    "C75_one_dealing_partial",
    "C75_exact_partial"
   ],
   "note": "False: a dealer that deals two polynomials with one constant term under one signed proof gives two nodes different transcripts with the same contributions; a quorum that mixes decryptions of the two reconstructs another point. Partial: the committed secret is the same after any histories; if every dealer dealt one share the transcripts are equal. C75_exact_partial: a quorum whose members decrypt from different transcripts reconstructs the same point iff the weighted differences of the slots read cancel."
  },
  {
   "property": "C76",
   "status": "partial",
   "theorems": [
    "C76_tail_refuted",
    "C76_full_refuted",
    "C76_each_counts_partial",
    "C76_exact_partial",
    "C76_any_result_refuted"
   ],
   "note": "False: only the first t+1 values are looked at. Partial: each of these counts; changing one changes the result, which is still Ok. C76_exact_partial: exactly which other values give the same result; C76_any_result_refuted: one wrong value yields any chosen result."
  },
  {
   "property": "C77",
   "status": "partial",
   "theorems": [
    "C77_identity_refuted",
    "C77_full_refuted",
    "C77_set_up_partial"
   ],
   "note": "False: from_generator takes the identity, and then anybody signs for every key. Partial: set-up is total, deterministic and gives usable parameters; so does from_generator on any other point."
  },
  {
   "property": "C78",
   "status": "proved",
   "theorems": [
    "C78_functions",
    "C78_histories",
    "C78_exact"
   ],
   "note": "Proved for every function that adds or subtracts integers, for histories and, exactly, for one message."
  },
  {
   "property": "C79",
   "status": "proved",
   "theorems": [
    "C79_dlk",
    "C79_dleq",
    "C79_dleq_benchmark",
    "C79_schnorr",
    "C79_one_failing_draw"
   ],
   "note": "The verdict of every test as an exact condition on the draws; the failing draws are counted for the knowledge-proof tests."
  },
  {
   "property": "C80",
   "status": "proved",
   "theorems": [
    "C80_poly",
    "C80_decomp",
    "C80_different_sets"
   ],
   "note": "The verdict of every test as an exact condition on the draws, for every degree at least 1 that fits in a u64 and below the group order."
  },
  {
   "property": "C81",
   "status": "proved",
   "theorems": [
    "C81_core",
    "C81_one_share",
    "C81_transcript_of_two",
    "C81_signed_proof"
   ],
   "note": "The verdict of every test as an exact condition on the draws and keys."
  },
  {
   "property": "C82",
   "status": "proved",
   "theorems": [
    "C82_one",
    "C82_four_nodes",
    "C82_double_aggregation"
   ],
   "note": "The verdict of every test as an exact condition on the draws; keys are those whose signatures on the shares of the test verify (deals_well), except in test_one."
  },
  {
   "property": "C83",
   "status": "proved",
   "theorems": [
    "C83_decimal",
    "C83_equation",
    "C83_nizk",
    "C83_signature",
    "C83_pvss"
   ],
   "note": "The texts of ark-serialize and of curve points are parameters; the payload of EvaluationsCheckError (never constructed) is one fixed text."
  },
  {
   "property": "C84",
   "status": "proved",
   "theorems": [
    "C84_unique",
    "C84_answers"
   ],
   "note": "A relation between state, message, verdict of the verification (C60, C61) and answer, shown total on reachable states and functional."
  },
  {
   "property": "C85",
   "status": "proved",
   "theorems": [
    "C85_commented_out",
    "C85_in_force",
    "C85_own_coefficients",
    "C85_one_coefficient",
    "C85_reconstructs"
   ],
   "note": "The commented-out block and the check with separate coefficients are modelled in PropsSlots.v; they are not executed by /repo. C85_in_force ties the latter to aggregation_verify."
  },
  {
   "property": "C86",
   "status": "proved",
   "theorems": [
    "C86_simulated",
    "C86_reduction"
   ],
   "note": "About what share_pvss returns. Computational hardness itself is not formalised."
  },
  {
   "property": "C87",
   "status": "proved",
   "theorems": [
    "C87_same_coins",
    "C87_shares",
    "C87_transcripts"
   ],
   "note": "Composes the invariance of configuration and participants (HistProofs) with completeness of the degree test."
  },
  {
   "property": "C88",
   "status": "proved",
   "theorems": [
    "C88_schnorr",
    "C88_dlk",
    "C88_dleq",
    "C88_shares"
   ],
   "note": "Same generator state stands for a repeated nonce."
  },
  {
   "property": "C89",
   "status": "proved",
   "theorems": [
    "C89_signed",
    "C89_honest_part",
    "C89_no_conflict",
    "C89_one_commitment"
   ],
   "note": "Unforgeability and collision resistance are stated of the delivered messages (no_forgery, no_collision), not assumed of the signature scheme or hash."
  },
  {
   "property": "C90",
   "status": "proved",
   "theorems": [
    "C90_oracle",
    "C90_simulated",
    "C90_reduction"
   ],
   "note": "share_is ties the oracle form share_if to share. Reprogramming the oracle for a distinguisher that queries it itself, and computational hardness, are not formalised."
  },
  {
   "property": "C91",
   "status": "proved",
   "theorems": [
    "C91_share",
    "C91_accepted_share",
    "C91_transcript",
    "C91_accepted_transcript",
    "C91_growth"
   ],
   "note": "Lengths of points and scalars are those of the curve (pt_len, fr_len)."
  },
  {
   "property": "C92",
   "status": "proved",
   "theorems": [
    "C92_sum",
    "C92_order",
    "C92_any_order"
   ],
   "note": "Extends C22 and C23 from shares to all messages, without a bound on the number of calls. Hypothesis: weights in received messages are u64 values."
  },
  {
   "property": "C93",
   "status": "partial",
   "theorems": [
    "C93_shifted_key_refuted",
    "C93_other_message_refuted",
    "C93_same_nonce_partial",
    "C93_same_bytes_partial",
    "C93_batch_refuted",
    "C93_full_refuted"
   ],
   "note": "Refuted as stated (C93_full_refuted). The exact extent of the malleability is proved: C93_same_nonce_partial and C93_same_bytes_partial are equivalences."
  },
  {
   "property": "C94",
   "status": "proved",
   "theorems": [
    "C94_order",
    "C94_total_order",
    "C94_digest",
    "C94_defaults",
    "C94_wiped",
    "C94_systems"
   ],
   "note": "The wiping theorem is about the value left in memory by the written loop. That a compiler may drop stores to dead memory, and that clones keep their own bytes, is not modelled."
  },
  {
   "property": "C95",
   "status": "proved",
   "theorems": [
    "C95_interpolation",
    "C95_decryption",
    "C95_reconstruction"
   ],
   "note": "C95_interpolation: all four interpolation functions, equality of outcomes (results, errors and panics). C95_decryption: one slot of an aggregate. C95_reconstruction: a whole quorum, with no hypothesis except that the aggregation succeeds. Example: two dealings of the toy network, a working quorum and one that panics."
  },
  {
   "property": "C96",
   "status": "proved",
   "theorems": [
    "C96_session",
    "C96_session_code",
    "C96_reduction"
   ],
   "note": "C96_session: hash as an oracle with one answer per dealer; C96_session_code: the hash function of the code, counting the simulated sessions whose challenges are right; C96_reduction: the consequence for attacks on the sum of the secrets."
  },
  {
   "property": "C97",
   "status": "proved",
   "theorems": [
    "C97_share_verify",
    "C97_aggregation_verify",
    "C97_share",
    "C97_decryption_key_unused",
    "C97_decrypt",
    "C97_receive"
   ],
   "note": "Equalities of outcome and generator state. C97_receive: the answer and the new transcript depend besides only on the transcript held. The example shows that g2, degree and both keys of the sender do matter."
  },
  {
   "property": "C98",
   "status": "proved",
   "theorems": [
    "C98_schnorr_same",
    "C98_schnorr_key",
    "C98_schnorr",
    "C98_dlk",
    "C98_dleq",
    "C98_dleq_sound"
   ],
   "note": "Counting form of the forking lemma. The extractor gets the public key and the attacker only; C98_schnorr_same ties the game to schnorr_verify with the real hash. Key-only attack for Schnorr; with signing requests C99. For DLK the statement must be fixed before the attack: the preimage leaves it out (C67)."
  },
  {
   "property": "C99",
   "status": "proved",
   "theorems": [
    "C99_simulation",
    "C99_schnorr"
   ],
   "note": "Strong unforgeability, reduced to discrete logarithms by counting: in probabilities (eps - C(n,2)/q)^2 <= N (delta + eps/q). The signer in the game is schnorr_sign, the verifier schnorr_verify, each with the table of hashes as hash function. The examples: an insider always wins, one that replays never does."
  },
  {
   "property": "C100",
   "status": "proved",
   "theorems": [
    "C100_digest",
    "C100_public_key",
    "C100_decomp",
    "C100_any_hasher",
    "C100_system"
   ],
   "note": "The pieces written by points and scalars (ark-ec, ark-ff) are parameters, with the law that they determine the value; the instance shows one."
  },
  {
   "property": "C101",
   "status": "proved",
   "theorems": [
    "C101_order_prime",
    "C101_engine",
    "C101_config",
    "C101_points",
    "C101_lists",
    "C101_soundness",
    "C101_small_order"
   ],
   "note": "Pratt.v proves Lucas' test and checks a certificate for the order by computation in the kernel (vm_compute). The engine of this order has easy discrete logarithms: it shows that the laws are consistent, not that they hold of the curve."
  },
  {
   "property": "C102",
   "status": "proved",
   "theorems": [
    "C102_value",
    "C102_running",
    "C102_unbiased",
    "C102_group",
    "C102_bls_hits",
    "C102_bls_misses",
    "C102_bls"
   ],
   "note": "The generator (ChaCha) is outside the model: the theorem counts byte streams. from_random_bytes of the BLS12-381 scalars (ark-ff) is written out in the theorem file."
  },
  {
   "property": "C103",
   "status": "partial",
   "theorems": [
    "C103_override_refuted",
    "C103_unlucky_count",
    "C103_lucky_refuted",
    "C103_bls",
    "C103_in_order",
    "C103_full_refuted",
    "C103_statement_hashed_partial"
   ],
   "note": "False as worded: C103_override_refuted (the attack, any engine), C103_lucky_refuted and C103_unlucky_count (how many hash answers allow it), C103_bls (five dealers at the order of BLS12-381), C103_full_refuted (orders up to 2^64, one dealer). What would hold: C103_statement_hashed_partial, with the statement hashed too a response independent of the unknown logarithm fits one challenge only. That the weights can be found quickly (lattice reduction) is not modelled."
  },
  {
   "property": "C104",
   "status": "proved",
   "theorems": [
    "C104_counting",
    "C104_work",
    "C104_prefix",
    "C104_holds"
   ],
   "note": "C104_counting ties the counting readers to the model's readers; C104_work bounds their count; C104_holds bounds what a message holds; C104_prefix is the generic statement about length prefixes. That points and scalars are read at full width is a hypothesis on arkworks' readers (full_width), met by the concrete instance."
  },
  {
   "property": "C105",
   "status": "proved",
   "theorems": [
    "C105_session",
    "C105_held",
    "C105_bls"
   ],
   "note": "C105_session is the union bound over an adaptive session, C105_held what the aggregator then holds (Debug builds, where a wrapped weight panics), C105_bls the bound at the order of BLS12-381. The generator is a tape of uniform scalars. Soundness of one message is that of C12 and C13 (sound_share, sound_transcript)."
  },
  {
   "property": "C106",
   "status": "proved",
   "theorems": [
    "C106_share",
    "C106_transcript",
    "C106_stuck",
    "C106_exact_fit"
   ],
   "note": "C106_share and C106_transcript extend the verdicts of C60 and C61 to n <= t+1; C106_stuck is the consequence for histories, C106_exact_fit what remains of soundness and completeness at n = t+1 in release builds."
  },
  {
   "property": "C107",
   "status": "proved",
   "theorems": [
    "C107_counting",
    "C107_bound",
    "C107_outsider",
    "C107_session",
    "C107_wire"
   ],
   "note": "C107_counting ties the counted functions to the model; C107_bound, C107_outsider and C107_session are the bounds; C107_wire adds the readers of C104."
  },
  {
   "property": "C108",
   "status": "partial",
   "theorems": [
    "C108_deviation",
    "C108_ruined",
    "C108_clean",
    "C108_poison",
    "C108_no_way_back_refuted",
    "C108_full_refuted"
   ],
   "note": "False as titled: C108_no_way_back_refuted (every engine) and C108_full_refuted. What holds: C108_deviation (the exact factor after any history), C108_ruined, C108_clean, C108_poison."
  },
  {
   "property": "C109",
   "status": "partial",
   "theorems": [
    "C109_blinded_refuted",
    "C109_full_refuted",
    "C109_compare_partial"
   ],
   "note": "False as titled: C109_blinded_refuted (every engine, with a disguised copy) and C109_full_refuted (a plain copy). What holds: C109_compare_partial, an exact public test for pairs of transcripts and a given relation. That a later session with one fresh honest dealing reveals nothing is C71."
  },
  {
   "property": "C110",
   "status": "partial",
   "theorems": [
    "C110_known_coins_refuted",
    "C110_full_refuted",
    "C110_exact_partial"
   ],
   "note": "False as titled: C110_known_coins_refuted (every engine) and C110_full_refuted. What holds: C110_exact_partial, an equivalence."
  },
  {
   "property": "C111",
   "status": "partial",
   "theorems": [
    "C111_few_refuted",
    "C111_full_refuted",
    "C111_exact_partial"
   ],
   "note": "False as titled: C111_few_refuted (every engine and set) and C111_full_refuted. What holds: C111_exact_partial, an equivalence."
  },
  {
   "property": "C112",
   "status": "proved",
   "theorems": [
    "C112_verify_exact",
    "C112_generated",
    "C112_good_for",
    "C112_good_seed"
   ],
   "note": "C112_verify_exact for any group; C112_generated, C112_good_for (one digest) and C112_good_seed (all digests) for groups of the real size. The scheme is written from RFC 8032 and the published behaviour of ed25519-dalek 1.0.1, whose source is not in /repo."
  },
  {
   "property": "C113",
   "status": "partial",
   "theorems": [
    "C113_two_halves_refuted",
    "C113_full_refuted",
    "C113_exact_partial"
   ],
   "note": "False as titled: C113_two_halves_refuted and C113_full_refuted. What holds: C113_exact_partial, an equivalence."
  },
  {
   "property": "C114",
   "status": "partial",
   "theorems": [
    "C114_honest_partial",
    "C114_exact_partial",
    "C114_sound_partial",
    "C114_identity_key_refuted",
    "C114_cancel_refuted",
    "C114_mixed_refuted",
    "C114_full_refuted",
    "C114_count_partial"
   ],
   "note": "False as titled: C114_identity_key_refuted, C114_cancel_refuted, C114_mixed_refuted, C114_full_refuted. What holds: C114_honest_partial, C114_exact_partial, C114_sound_partial, C114_count_partial."
  },
  {
   "property": "C115",
   "status": "proved",
   "theorems": [
    "C115_second_part",
    "C115_valid_exact",
    "C115_nonce_reuse"
   ],
   "note": "C115_second_part for any group and key; C115_valid_exact and C115_nonce_reuse for groups of the real size."
  },
  {
   "property": "C116",
   "status": "proved",
   "theorems": [
    "C116_zero_bytes",
    "C116_single",
    "C116_batch"
   ],
   "note": "C116_zero_bytes is about the real field (2^255 - 19, proved prime by certificate), curve equation and addition formula. C116_single and C116_batch work over the group of EdModel.v and take the point of order four as a hypothesis (zero_point)."
  },
  {
   "property": "C117",
   "status": "partial",
   "theorems": [
    "C117_one_key_refuted",
    "C117_exact_partial",
    "C117_full_refuted",
    "C117_zero_key"
   ],
   "note": "Refuted as worded by C117_one_key_refuted and C117_full_refuted (a key under t + 1 ids); C117_exact_partial gives the exact condition, C117_zero_key the case of a key that is zero. Transcripts are cores with commitments of degree t and right slots; for which accepted shares and transcripts these hold is C12, C15, C50, C51 and C85."
  },
  {
   "property": "C118",
   "status": "proved",
   "theorems": [
    "C118_accepted_exact",
    "C118_deals",
    "C118_session"
   ],
   "note": "C118_accepted_exact is an equivalence for one share, C118_deals the dealing, C118_session the network of C63 with its hypothesis on keys replaced by n inequalities on nonces. The scheme is that of C112 (RFC 8032 and ed25519-dalek 1.0.1 as published)."
  },
  {
   "property": "C119",
   "status": "proved",
   "theorems": [
    "C119_odds",
    "C119_session",
    "C119_network"
   ],
   "note": "C119_odds counts answers with a nonce that is zero, C119_session answers with which some share is missing or rejected; C119_network: outside a set of that size, every short schedule succeeds and every quorum reconstructs. SHA-512 is idealised only at the n questions for nonces; its other values are fixed and arbitrary. Those questions are 64 bytes long, so they differ from the seeds (32 bytes); the challenges that verification hashes are longer as well."
  }
 ]
}