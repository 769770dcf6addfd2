{"id": "C01", "title": "Degree check never rejects an honest commitment vector", "statement": "ensure_degree returns Ok(()) on the vector (p(1)*g, ..., p(n)*g) for every polynomial p of degree at most t, every group element g and every state of the random generator, whenever n >= t+2.", "quantifier": "every polynomial, degree bound t, length n with t+2 <= n < field order, group element g, generator and generator state", "why_tests_cant": "The check is randomised: a test samples a few polynomials and a few generator states; completeness must hold for all of them.", "anchors": ["src/modified_scrape/poly.rs::ensure_degree"]}
{"id": "C02", "title": "Degree check rejects a bad vector except with probability exactly 1/q", "statement": "If a commitment vector is not the vector of evaluations at 1..n of any polynomial of degree at most t, then among all q^(n-t-1) sequences of field draws the check can make exactly q^(n-t-2) let it pass, so a uniform generator accepts it with probability 1/q.", "quantifier": "every commitment vector of length n that is not of degree t; every t with t+2 <= n < q; all draw sequences counted", "why_tests_cant": "A probability of 1/q (2^-255) cannot be sampled; only counting the accepting draws over the whole space settles it.", "anchors": ["src/modified_scrape/poly.rs::ensure_degree"]}
{"id": "C03", "title": "Degree check answers on every vector length", "statement": "ensure_degree returns Ok or Err (it does not panic) for every vector length, in both build profiles.", "quantifier": "every vector length, degree bound, build profile and generator", "why_tests_cant": "The failing lengths are n = t and n = t+1, which depend on u64 underflow and differ between debug and release builds; unit tests run one profile at comfortable sizes.", "anchors": ["src/modified_scrape/poly.rs::ensure_degree"]}
{"id": "C04", "title": "Interpolation at 1..t+1 recovers the committed constant term", "statement": "For every polynomial p of degree at most t and every vector of at least t+1 commitments whose first t+1 entries are p(1)*g, ..., p(t+1)*g, lagrange_interpolation_simple returns Ok(p(0)*g), whatever the remaining entries are.", "quantifier": "every polynomial, degree t < q-1, group element g, vector", "why_tests_cant": "Correctness is an algebraic identity over all polynomials and all degrees; tests check a handful.", "anchors": ["src/modified_scrape/poly.rs::lagrange_interpolation_simple"]}
{"id": "C05", "title": "Reconstruction does not depend on which t+1 points are used", "statement": "lagrange_interpolation_g1 and lagrange_interpolation_g2, given evaluations p(x_i)*g at pairwise distinct points x_i with p of degree at most t, return p(0)*g; so any two qualified subsets give the same result.", "quantifier": "every polynomial, every list of pairwise distinct points, every list order, both source groups", "why_tests_cant": "There are exponentially many subsets and q-many points; the identity must hold for all.", "anchors": ["src/modified_scrape/poly.rs::lagrange_interpolation_g1", "src/modified_scrape/poly.rs::lagrange_interpolation_g2"]}
{"id": "C06", "title": "Interpolation error contract", "statement": "Each interpolation function returns Err(InsufficientEvaluationsError) exactly when fewer than degree+1 evaluations are given, Err(DifferentPointsEvalsError) exactly when enough evaluations but a different number of points are given, panics exactly when two of the first degree+1 points coincide, and otherwise returns Ok.", "quantifier": "every evaluation list, point list and degree below 2^64-1", "why_tests_cant": "The panic case needs colliding points (modulo q for u64 points), which random tests never produce.", "anchors": ["src/modified_scrape/poly.rs::lagrange_interpolation_g1", "src/modified_scrape/poly.rs::lagrange_interpolation_g2", "src/modified_scrape/poly.rs::lagrange_interpolation_gt", "src/modified_scrape/poly.rs::lagrange_interpolation_simple"]}
{"id": "C07", "title": "Target-group reconstruction", "statement": "lagrange_interpolation_gt, given target-group values e(p(x_i)*g, h) at u64 points that are pairwise distinct modulo q, returns e(p(0)*g, h); exponents taken as canonical representatives do not change the result.", "quantifier": "every polynomial of degree at most t, every source points g, h, every list of points", "why_tests_cant": "The step from field exponents to integer exponents is only right because the values have order q; tests cannot cover all representatives.", "anchors": ["src/modified_scrape/poly.rs::lagrange_interpolation_gt"]}
{"id": "C08", "title": "An honestly dealt share is accepted by every honest aggregator", "statement": "If a node whose dealer key pair works and is registered under its id deals a share successfully, then share_verify of every aggregator with the same configuration and participant map returns Ok(()) on it, for every generator state of dealer and verifier.", "quantifier": "every configuration with t+2 <= n < q, participant map, dealer id below n, generator states of both sides, build profile", "why_tests_cant": "Completeness quantifies over all randomness of two parties; a failure for one unlucky draw would never be hit by tests.", "anchors": ["src/modified_scrape/node.rs::share", "src/modified_scrape/aggregator.rs::share_verify", "src/modified_scrape/aggregator.rs::core_verify"]}
{"id": "C09", "title": "What a dealt share contains, and when dealing fails", "statement": "share_pvss returns commitments p(i+1)*g2 and encryptions p(i+1)*pk_i for one and the same random polynomial p of degree at most t, with p_0 = p(0) and my_secret = p(id+1)*g1; it returns Err(InvalidParticipantId(j)) for the first missing key j < n, and panics exactly when n = 0, the dealer id is not below n, or all drawn coefficients are zero.", "quantifier": "every configuration, participant map, dealer and generator state", "why_tests_cant": "The failure cases (zero polynomial, n = 0, foreign id) have probability near 0 or are never configured in tests.", "anchors": ["src/modified_scrape/node.rs::share_pvss", "src/modified_scrape/node.rs::share"]}
{"id": "C10", "title": "t shares reveal nothing about the secret (Shamir privacy)", "statement": "For any set of t distinct recipients, any values for their evaluations and any secret s, exactly one draw of the dealer's t+1 coefficients is consistent with them; hence all secrets are equally likely given t evaluations.", "quantifier": "every set of t distinct non-zero points, every tuple of values, every secret", "why_tests_cant": "Privacy is a statement about the distribution over the whole coefficient space.", "anchors": ["src/modified_scrape/node.rs::share_pvss", "src/modified_scrape/poly.rs::Polynomial"]}
{"id": "C11", "title": "share_verify accepts exactly the shares satisfying its stated conditions", "statement": "share_verify returns Ok(()) if and only if: the sender is registered, both vectors have length n, the degree check passes, the interpolated point equals the proof's gs, the sender's own slot satisfies e(pk, comm) = e(enc, g2), the knowledge proof verifies and the EdDSA signature on the proof digest verifies under the sender's key.", "quantifier": "every share, aggregator, generator state and build profile", "why_tests_cant": "An iff over all malformed shares cannot be enumerated by tests.", "anchors": ["src/modified_scrape/aggregator.rs::share_verify", "src/modified_scrape/aggregator.rs::core_verify", "src/modified_scrape/share.rs::SignedProof::verify"]}
{"id": "C12", "title": "Every recipient of an accepted share can decrypt its evaluation", "statement": "If share_verify returns Ok on a share then for every recipient i the encryption in slot i is p(i+1)*pk_i for the committed polynomial p, i.e. the sharing is publicly verifiable.", "quantifier": "every accepted share and every recipient index", "why_tests_cant": "Tests only exercise honest dealers; a malicious dealer chooses the other n-1 encryptions freely.", "anchors": ["src/modified_scrape/aggregator.rs::share_verify"]}
{"id": "C13", "title": "The signed proof binds the dealer to the shared vector", "statement": "Two accepted shares from the same dealer carrying the same signed proof have the same commitments and encryptions.", "quantifier": "every pair of accepted shares with equal signed proof", "why_tests_cant": "Needs an adversary that modifies an honest share in transit.", "anchors": ["src/modified_scrape/aggregator.rs::share_verify", "src/modified_scrape/decomp.rs::DecompProof::digest"]}
{"id": "C14", "title": "aggregation_verify accepts exactly the transcripts satisfying its conditions", "statement": "aggregation_verify returns Ok(()) if and only if both vectors have length n, the degree check passes, r times the sum of pairing defects vanishes for the one drawn r, every contributor is registered with a verifying signed proof, and the interpolated point equals the weighted sum of the contributions' gs.", "quantifier": "every transcript, aggregator with all n participants registered, generator state and build profile", "why_tests_cant": "An iff over all transcripts cannot be enumerated by tests.", "anchors": ["src/modified_scrape/aggregator.rs::aggregation_verify"]}
{"id": "C15", "title": "A verified transcript has every encryption correct", "statement": "If aggregation_verify returns Ok then (except with probability 1/q over its coins) every slot satisfies e(pk_i, comm_i) = e(enc_i, g2).", "quantifier": "every transcript and every draw of the verifier", "why_tests_cant": "The comment in the code promises independent r_i per slot; whether the batching is sound is a statement about all transcripts and all draws.", "anchors": ["src/modified_scrape/aggregator.rs::aggregation_verify"]}
{"id": "C16", "title": "Core aggregation is slotwise addition with a neutral element", "statement": "PVSSCore::aggregate of two cores of equal non-zero vector lengths returns the slotwise sums; it is commutative and associative, and the empty core is neutral.", "quantifier": "every pair / triple of cores", "why_tests_cant": "Algebraic laws over all vectors and lengths.", "anchors": ["src/modified_scrape/pvss.rs::PVSSCore::aggregate", "src/modified_scrape/pvss.rs::PVSSCore::empty"]}
{"id": "C17", "title": "Transcript aggregation is associative and commutative", "statement": "PVSSAggregatedShare::aggregate on transcripts of one configuration is associative, commutative up to which of two equal-gs signed proofs is kept, and has the empty transcript as identity on transcripts whose contributor ids are below n.", "quantifier": "every triple of transcripts whose pairwise merges succeed without weight overflow", "why_tests_cant": "Merge-order independence over all transcripts is what lets nodes gossip; tests check one order.", "anchors": ["src/modified_scrape/share.rs::PVSSAggregatedShare::aggregate", "src/modified_scrape/share.rs::PVSSAggregatedShare::empty"]}
{"id": "C18", "title": "Aggregation error contract", "statement": "aggregate returns Err(TranscriptDifferentConfig) exactly on different degree or participant number, Err(TranscriptDifferentCommitments) exactly when (same configuration) some common contributor below n has different gs before any weight overflow, and otherwise Ok or a panic with a stated cause; PVSSCore::aggregate returns the documented error for each length mismatch.", "quantifier": "every pair of transcripts or cores", "why_tests_cant": "Which check fires first depends on the combination of defects.", "anchors": ["src/modified_scrape/share.rs::PVSSAggregatedShare::aggregate", "src/modified_scrape/pvss.rs::PVSSCore::aggregate"]}
{"id": "C19", "title": "A failed receive leaves the transcript unchanged", "statement": "When receive_share or receive_aggregated_share does not return Ok, the aggregator's transcript, configuration and participants are exactly what they were.", "quantifier": "every aggregator state, every input, every failure path including panics", "why_tests_cant": "Atomicity must hold on every failing path at every state.", "anchors": ["src/modified_scrape/aggregator.rs::receive_share", "src/modified_scrape/aggregator.rs::receive_aggregated_share"]}
{"id": "C20", "title": "Structural invariant of the transcript in every history", "statement": "After any sequence of receive_share / receive_aggregated_share calls with arbitrary (malicious) inputs, starting from a new aggregator, the transcript's degree and participant number equal the configuration's, both vectors have length n, every contributor id is below n and registered, and every contribution's signed proof verifies.", "quantifier": "every finite history of arbitrary inputs and generator states, both build profiles", "why_tests_cant": "Unbounded adversarial histories.", "anchors": ["src/modified_scrape/aggregator.rs::receive_share", "src/modified_scrape/aggregator.rs::receive_aggregated_share", "src/modified_scrape/aggregator.rs::new"]}
{"id": "C21", "title": "Transcript commitments always match the weighted contributions", "statement": "After any history of arbitrary inputs in which no weight addition wraps, interpolating the transcript's commitments at 0 gives the sum over contributors of weight times gs.", "quantifier": "every finite history of arbitrary inputs; release builds need the no-wrap condition, debug builds do not", "why_tests_cant": "An invariant over unbounded adversarial histories; the failing case needs 2^64-scale weights.", "anchors": ["src/modified_scrape/aggregator.rs::receive_share", "src/modified_scrape/aggregator.rs::receive_aggregated_share", "src/modified_scrape/share.rs::PVSSAggregatedShare::aggregate"]}
{"id": "C22", "title": "A contributor's weight counts how often its share was aggregated", "statement": "After any history of accepted individual shares the weight recorded for participant i equals the number of accepted shares from i, contributors are exactly the participants with at least one accepted share, and the transcript core is the slotwise sum of the accepted cores.", "quantifier": "every finite history of receive_share calls on arbitrary shares with fewer than 2^64 calls", "why_tests_cant": "Holds for unbounded histories.", "anchors": ["src/modified_scrape/aggregator.rs::receive_share", "src/modified_scrape/share.rs::PVSSAggregatedShare::aggregate_pvss_share"]}
{"id": "C23", "title": "Order independence of aggregation", "statement": "Two aggregators that accept the same multiset of shares in different orders end with the same commitments, encryptions, contributor set, weights and gs values, and with the identical transcript when each contributor uses one signed proof.", "quantifier": "every list of shares and every permutation of it", "why_tests_cant": "Factorially many orders.", "anchors": ["src/modified_scrape/aggregator.rs::receive_share", "src/modified_scrape/share.rs::PVSSAggregatedShare::aggregate"]}
{"id": "C24", "title": "Honest transcripts are accepted by every peer", "statement": "A transcript obtained by an aggregator from honestly dealt shares (any number, any order, repeated or not, from any dealers) passes aggregation_verify of every aggregator with the same configuration and participant map, for every generator state.", "quantifier": "every history of honest shares without weight overflow; every verifier coin", "why_tests_cant": "Quantifies over all histories and all randomness.", "anchors": ["src/modified_scrape/aggregator.rs::aggregation_verify", "src/modified_scrape/node.rs::share"]}
{"id": "C25", "title": "A transcript built only from accepted shares is accepted by peers", "statement": "If every share an aggregator received was accepted by its share_verify, then its transcript passes aggregation_verify at a peer with the same configuration.", "quantifier": "every history of accepted (possibly malicious) shares", "why_tests_cant": "Needs a malicious dealer whose share passes individually but poisons the aggregate.", "anchors": ["src/modified_scrape/aggregator.rs::share_verify", "src/modified_scrape/aggregator.rs::aggregation_verify"]}
{"id": "C26", "title": "End to end: any t+1 honest recipients reconstruct the aggregated secret", "statement": "After aggregating honest shares, any t+1 recipients that decrypt their slots with their secret keys and interpolate obtain (sum of the dealt secrets, counted with weight)*g1, which is consistent with the transcript's commitments.", "quantifier": "every history of honest shares, every set of t+1 distinct recipients with non-zero keys", "why_tests_cant": "Composes dealing, aggregation, decryption and interpolation over all histories and subsets.", "anchors": ["src/modified_scrape/node.rs::share_pvss", "src/modified_scrape/share.rs::PVSSAggregatedShare::aggregate", "src/modified_scrape/decryption.rs::DecryptedShare::generate", "src/modified_scrape/poly.rs::lagrange_interpolation_g1"]}
{"id": "C27", "title": "Decryption correctness and failure modes", "statement": "DecryptedShare::generate on a vector whose slot my_id is a*(sk*g1) returns a*g1 with origin my_id; it panics exactly when my_id is out of range or sk is zero; and if the slot passes the pairing check then the decryption d satisfies e(d, g2) = e(g1, comm).", "quantifier": "every vector, index, key", "why_tests_cant": "The zero key and out-of-range index are never tested; correctness is algebraic.", "anchors": ["src/modified_scrape/decryption.rs::DecryptedShare::generate"]}
{"id": "C28", "title": "Malformed network input is reported as Err, not as a panic", "statement": "receive_share, receive_aggregated_share and SignedProof::verify return Err on every input that fails verification.", "quantifier": "every input", "why_tests_cant": "A remote peer chooses the input; the signature promises a Result.", "anchors": ["src/modified_scrape/aggregator.rs::receive_share", "src/modified_scrape/aggregator.rs::receive_aggregated_share", "src/modified_scrape/share.rs::SignedProof::verify"]}
{"id": "C29", "title": "Knowledge proofs verify (DLK completeness)", "statement": "For every witness w, generator point g and generator state, the proof produced by prove verifies against the statement w*g; the pair functions return w together with w*g.", "quantifier": "every witness, base point, generator state and hash function", "why_tests_cant": "All randomness and all hash outputs.", "anchors": ["src/nizk/dlk/mod.rs::prove", "src/nizk/dlk/mod.rs::verify", "src/nizk/dlk/mod.rs::from_witness", "src/nizk/dlk/mod.rs::generate_pair"]}
{"id": "C30", "title": "DLK verification is exact and responses are unique and extractable", "statement": "verify returns Ok iff the proof's challenge is the hash and z*g + c*stmt = commitment, and otherwise Err(DLKVerify); for fixed g, statement and commitment at most one (c, z) verifies; two accepting conversations with the same commitment and different challenges determine the witness.", "quantifier": "every statement and proof", "why_tests_cant": "Special soundness is an algebraic fact over all transcripts.", "anchors": ["src/nizk/dlk/mod.rs::verify"]}
{"id": "C31", "title": "A verifying DLK proof was made for its statement", "statement": "A DLK proof that verifies for a statement cannot be produced without first fixing the statement: a proof (commitment, c, z) determined before the statement verifies for no more than a negligible set of statements.", "quantifier": "every commitment and response, every hash function with non-zero challenge", "why_tests_cant": "Soundness of the Fiat-Shamir transform against an adversary choosing the statement last.", "anchors": ["src/nizk/dlk/mod.rs::prove", "src/nizk/dlk/mod.rs::verify"]}
{"id": "C32", "title": "DLEQ completeness", "statement": "For every witness w, base points g, h and generator state, the proof produced by prove verifies against (w*g, w*h).", "quantifier": "every witness, base points, generator state and hash function", "why_tests_cant": "All randomness and hash outputs.", "anchors": ["src/nizk/dleq/mod.rs::prove", "src/nizk/dleq/mod.rs::verify", "src/nizk/dleq/mod.rs::from_witness", "src/nizk/dleq/mod.rs::generate_pair"]}
{"id": "C33", "title": "DLEQ soundness", "statement": "verify is exact; if the statement's two discrete logarithms differ then for each commitment pair at most one challenge value admits an accepting response, and two accepting conversations with equal commitments and different challenges give a common witness.", "quantifier": "every statement, proof and pair of non-zero bases", "why_tests_cant": "Statistical soundness is a counting statement over all challenges.", "anchors": ["src/nizk/dleq/mod.rs::verify"]}
{"id": "C34", "title": "Sigma protocols are honest-verifier zero knowledge", "statement": "For every witness and challenge, the map from the prover's nonce to (commitment, response) and the simulator's map from the response to (commitment, response) have the same image and are injective in their coin, so simulated and real conversations are identically distributed.", "quantifier": "every witness, challenge and base point, all coins", "why_tests_cant": "Equality of distributions.", "anchors": ["src/nizk/dlk/mod.rs::prove", "src/nizk/dleq/mod.rs::prove", "src/signature/schnorr/mod.rs::sign"]}
{"id": "C35", "title": "Schnorr signatures verify", "statement": "For every key pair from generate_keypair or from_sk, every message and every generator state, verify accepts the signature produced by sign.", "quantifier": "every key, message, base point, generator state and hash function", "why_tests_cant": "All randomness and all messages.", "anchors": ["src/signature/schnorr/mod.rs::sign", "src/signature/schnorr/mod.rs::verify", "src/signature/schnorr/mod.rs::generate_keypair", "src/signature/schnorr/mod.rs::from_sk"]}
{"id": "C36", "title": "Schnorr verification is exact and key-binding", "statement": "verify accepts iff r*g + H(m, g, R)*pk = R; for a given message and nonce commitment with non-zero challenge a signature verifies under at most one public key and with exactly one response, and two signatures with one nonce commitment and different challenges reveal the secret key.", "quantifier": "every key, message, signature", "why_tests_cant": "Algebraic fact over all inputs.", "anchors": ["src/signature/schnorr/mod.rs::verify"]}
{"id": "C37", "title": "Batch verification accepts every batch of valid signatures", "statement": "batch_verify returns Ok on every batch in which each signature verifies individually, whatever alpha is drawn, including the empty batch; on lists of different lengths it returns Err(BatchVerification) with the three lengths.", "quantifier": "every batch and generator state", "why_tests_cant": "All batches and all alpha.", "anchors": ["src/signature/schnorr/mod.rs::batch_verify"]}
{"id": "C38", "title": "Batch verification rejects a bad batch except for few alpha", "statement": "If some signature of a batch of k does not verify individually, at most k-1 of the q values of alpha make batch_verify accept.", "quantifier": "every batch with an invalid signature; all alpha counted", "why_tests_cant": "The bound (k-1)/q cannot be sampled.", "anchors": ["src/signature/schnorr/mod.rs::batch_verify"]}
{"id": "C39", "title": "Byte-array types round-trip through their codec", "statement": "For Digest, PublicKey, SecretKey and Signature: deserialize of serialize followed by any bytes gives back the value and leaves exactly those bytes; serialized_size is the number of bytes written (32, 32, 64, 64); serialize is injective and every string of that length decodes.", "quantifier": "every value and every trailing input", "why_tests_cant": "2^256 and more values.", "anchors": ["src/lib.rs::Digest", "src/lib.rs::PublicKey", "src/lib.rs::SecretKey", "src/lib.rs::Signature"]}
{"id": "C40", "title": "Truncated input is reported as Err", "statement": "Deserializing Digest, PublicKey, SecretKey or Signature from too few bytes returns Err(SerializationError).", "quantifier": "every input shorter than the type's size", "why_tests_cant": "Depends on unwrap inside array::from_fn at every cut point.", "anchors": ["src/lib.rs::Digest::deserialize", "src/lib.rs::PublicKey::deserialize", "src/lib.rs::SecretKey::deserialize", "src/lib.rs::Signature::deserialize"]}
{"id": "C41", "title": "Base64 text form round-trips", "statement": "PublicKey::from_base64(to_base64(k)) = Ok(k) and likewise for SecretKey; to_base64 of a Signature is injective; Display of keys and digests never panics and shows the first 16 characters.", "quantifier": "every value", "why_tests_cant": "2^256 values; needs correctness of base64 encode/decode including padding.", "anchors": ["src/lib.rs::PublicKey::to_base64", "src/lib.rs::PublicKey::from_base64", "src/lib.rs::SecretKey::from_base64", "src/lib.rs::Signature::to_base64"]}
{"id": "C42", "title": "from_base64 accepts exactly encodings of the right length", "statement": "from_base64 returns Err on every string that is not the base64 encoding of exactly 32 (64) bytes.", "quantifier": "every string", "why_tests_cant": "Short and long encodings of every length.", "anchors": ["src/lib.rs::PublicKey::from_base64", "src/lib.rs::SecretKey::from_base64"]}
{"id": "C43", "title": "Composite messages round-trip through their codec", "statement": "For shares, transcripts, cores, signed proofs, decomposition proofs, participants, configurations and the SRS types: deserialize of serialize followed by any bytes returns the value and leaves those bytes, and serialized_size equals the number of bytes written; serialize is injective.", "quantifier": "every value, every trailing input", "why_tests_cant": "All values of recursive, variable-length types.", "anchors": ["src/modified_scrape/share.rs::PVSSShare", "src/modified_scrape/share.rs::PVSSAggregatedShare", "src/modified_scrape/pvss.rs::PVSSCore", "src/modified_scrape/decomp.rs::DecompProof", "src/modified_scrape/config.rs::Config", "src/modified_scrape/participant.rs::Participant", "src/modified_scrape/srs.rs::SRS"]}
{"id": "C44", "title": "Transcript encoding is canonical", "statement": "Each transcript has exactly one byte encoding that deserialize accepts.", "quantifier": "every byte string accepted by deserialize", "why_tests_cant": "Needs adversarial encodings (unordered or repeated map keys).", "anchors": ["src/modified_scrape/share.rs::PVSSAggregatedShare"]}
{"id": "C45", "title": "Hash inputs bind their contents and are domain separated", "statement": "The byte string hashed for a decomposition digest determines the proof and gs; the DLEQ challenge input determines bases, statement and commitments; the Schnorr input determines message and commitment for a given base; the three personalisation strings give different Blake2s parameter blocks and never hit the length assertion.", "quantifier": "every pair of inputs", "why_tests_cant": "Injectivity over all inputs.", "anchors": ["src/modified_scrape/decomp.rs::DecompProof::digest", "src/nizk/dlk/mod.rs::prove", "src/nizk/dleq/mod.rs::prove", "src/signature/schnorr/mod.rs::sign", "src/nizk/utils/hash.rs::hash_to_field", "src/signature/utils/hash.rs::hash_to_field"]}
{"id": "C46", "title": "Hash-to-field and hash-to-group rejection sampling", "statement": "hash_to_field returns the first acceptable block of the generator's stream and hash_to_group the first acceptable block scaled by the cofactor, never the zero point; both are deterministic in personalisation and message, and they return iff an acceptable block exists; a personalisation longer than 8 bytes panics.", "quantifier": "every byte stream, personalisation and message", "why_tests_cant": "An unbounded loop over an arbitrary stream.", "anchors": ["src/nizk/utils/hash.rs::hash_to_field", "src/nizk/utils/hash.rs::hash_to_group", "src/signature/utils/hash.rs::hash_to_field", "src/signature/utils/hash.rs::hash_to_group"]}
{"id": "C47", "title": "EdDSA wrapper contract", "statement": "Signature::new followed by verify accepts for every working key pair; verify and verify_batch never panic, return Err when a key or signature does not parse (for the batch: at the first such vote), and otherwise return what the underlying verifier says on exactly the given digest and inputs.", "quantifier": "every digest, key, signature and vote list", "why_tests_cant": "All vote lists, all malformed keys.", "anchors": ["src/lib.rs::Signature::new", "src/lib.rs::Signature::verify", "src/lib.rs::Signature::verify_batch"]}
{"id": "C48", "title": "Every listed contributor contributed", "statement": "Each participant listed in a verified transcript's contributions has a positive weight and really influences the aggregated secret.", "quantifier": "every transcript accepted by aggregation_verify", "why_tests_cant": "Needs an adversarial transcript.", "anchors": ["src/modified_scrape/aggregator.rs::aggregation_verify"]}
{"id": "C49", "title": "Weights of a verified transcript are genuine counts", "statement": "Merging two verified transcripts yields a transcript that verifies; weights do not overflow.", "quantifier": "every pair of verified transcripts, both build profiles", "why_tests_cant": "Needs weights near 2^64 or scaled transcripts.", "anchors": ["src/modified_scrape/share.rs::PVSSAggregatedShare::aggregate", "src/modified_scrape/aggregator.rs::receive_aggregated_share"]}
{"id": "C50", "title": "aggregation_verify is sound up to one draw in q", "statement": "Whether aggregation_verify accepts depends only on the n-t scalars it draws; a transcript whose vectors have the right lengths, low degree, matching slot product, valid contributions and matching weighted commitments is accepted for every draw; any other transcript is accepted for at most q^(n-t-1) of the q^(n-t) draws.", "quantifier": "every transcript, configuration, participant map, draw sequence and build profile", "why_tests_cant": "A statement about the number of accepting coins for every transcript.", "anchors": ["src/modified_scrape/aggregator.rs::aggregation_verify"]}
{"id": "C51", "title": "share_verify is sound up to one draw in q", "statement": "Whether share_verify accepts depends only on the n-t-1 scalars it draws; a share with a registered sender, right lengths, low degree, correct own slot, matching gs and a valid signed proof is accepted for every draw; any other share is accepted for at most q^(n-t-2) of the q^(n-t-1) draws.", "quantifier": "every share, configuration, participant map, draw sequence and build profile", "why_tests_cant": "A statement about the number of accepting coins for every share.", "anchors": ["src/modified_scrape/aggregator.rs::share_verify"]}
{"id": "C52", "title": "Receiving a transcript keeps every contributor", "statement": "After receive_aggregated_share returns Ok, every contributor of the received transcript is a contributor of the aggregator's transcript.", "quantifier": "every aggregator state, transcript and draw sequence", "why_tests_cant": "Needs participant maps with ids at or above n.", "anchors": ["src/modified_scrape/aggregator.rs::receive_aggregated_share", "src/modified_scrape/share.rs::PVSSAggregatedShare::aggregate"]}
{"id": "C53", "title": "Reading hostile bytes never panics", "statement": "deserialize of every wire type (shares, transcripts, cores, signed proofs, decomposition proofs, participants, configurations, SRS types) returns Ok or Err on every byte string.", "quantifier": "every byte string", "why_tests_cant": "Needs every truncation and every malformed string.", "anchors": ["src/modified_scrape/share.rs::PVSSShare", "src/modified_scrape/share.rs::PVSSAggregatedShare", "src/lib.rs::Signature::deserialize", "src/lib.rs::PublicKey::deserialize"]}
{"id": "C54", "title": "A truncated message never reads as a message", "statement": "No strict prefix of an encoding of a value is accepted by deserialize, for any wire type, provided the field and curve decoders have that property.", "quantifier": "every value and every truncation length", "why_tests_cant": "All values and all truncation points.", "anchors": ["src/modified_scrape/share.rs::PVSSShare", "src/modified_scrape/share.rs::PVSSAggregatedShare"]}
{"id": "C55", "title": "What was decoded can be re-encoded and decoded again", "statement": "Every share and transcript that deserialize returns has ids, weights and lengths within their machine types, and serialising it and deserialising the result gives it back with nothing left over.", "quantifier": "every byte string that decodes", "why_tests_cant": "Hostile byte strings with duplicate or unsorted map entries.", "anchors": ["src/modified_scrape/share.rs::PVSSShare", "src/modified_scrape/share.rs::PVSSAggregatedShare"]}
{"id": "C56", "title": "A dealer's share counts once", "statement": "However often a dealer's share is delivered to a new aggregator, the transcript records that dealer with weight at most one.", "quantifier": "every history of deliveries, configuration, participant map, draw sequence and build profile", "why_tests_cant": "Needs every history, including replays of one accepted share.", "anchors": ["src/modified_scrape/aggregator.rs::receive_share", "src/modified_scrape/share.rs::PVSSAggregatedShare::aggregate"]}
{"id": "C57", "title": "A dealer knows what it shares", "statement": "No public function of an honest dealer's share and another registered signing key yields an accepted share under that other identity whose secret depends linearly on the honest dealer's secret.", "quantifier": "every engine, signature scheme, honest share and registered signing key", "why_tests_cant": "A statement about every function an adversary might compute.", "anchors": ["src/modified_scrape/aggregator.rs::share_verify", "src/modified_scrape/share.rs::PVSSShare", "src/modified_scrape/decomp.rs::DecompProof::verify"]}
{"id": "C58", "title": "An aggregator's own transcript brings nothing new", "statement": "Handing an aggregator the transcript it already holds succeeds and leaves it unchanged.", "quantifier": "every aggregator state with a sound transcript, every draw sequence and build profile", "why_tests_cant": "Needs every state, including long loops that reach the weight's machine bound.", "anchors": ["src/modified_scrape/aggregator.rs::receive_aggregated_share", "src/modified_scrape/share.rs::PVSSAggregatedShare::aggregate"]}
{"id": "C59", "title": "Honest nodes exchanging shares and transcripts never fail", "statement": "Whatever honest nodes with one configuration deliver to each other (dealers' shares or the transcripts they hold), in any order and any number of times, every receive call returns Ok, each node records how often each dealer's share reached it, every peer accepts its transcript, and any t+1 recipients reconstruct the sum of the secrets counted that often.", "quantifier": "every number of nodes, every schedule of deliveries, every set of honest dealers, draw sequences and build profile", "why_tests_cant": "Needs every schedule of a network of any size.", "anchors": ["src/modified_scrape/aggregator.rs::receive_share", "src/modified_scrape/aggregator.rs::receive_aggregated_share", "src/modified_scrape/share.rs::PVSSAggregatedShare::aggregate"]}
{"id": "C60", "title": "Every answer of share verification, and what it consumes", "statement": "On a configuration with t+2 <= n < q, share_verify answers, in this order: InvalidParticipantId(id) for an unregistered sender; an index panic if the sender's id is beyond either vector; EncryptionCorrectnessError if the sender's own slot fails its pairing equation; MismatchedCommitsEncryptionsParticipantsError with the two lengths and n if a length is not n, all without drawing; then, after drawing exactly n-t-1 scalars, DualCodeError if the SCRAPE sum with these scalars as coefficients is not zero, GSCheckError if the first t+1 commitments do not interpolate to gs, an unwrap panic if the knowledge proof or the signature is invalid, and Ok otherwise. The cases are mutually exclusive.", "quantifier": "every aggregator, share, generator, generator state and build profile", "why_tests_cant": "Tests hit one failing check at a time; which check answers when several fail, and how many draws were made, needs every combination.", "anchors": ["src/modified_scrape/aggregator.rs::share_verify", "src/modified_scrape/aggregator.rs::core_verify", "src/modified_scrape/poly.rs::ensure_degree", "src/modified_scrape/decomp.rs::DecompProof::verify"]}
{"id": "C61", "title": "Every answer of transcript verification, and what it consumes", "statement": "On a configuration with t+2 <= n < q, aggregation_verify answers, in this order: the mismatch error with the lengths, drawing nothing; DualCodeError after n-t-1 scalars; then after n-t scalars: an unwrap panic if some id below n is unregistered; EncryptionCorrectnessError if the last scalar is not zero and the product of the slots' pairing equations fails; the panic of the first bad contribution in id order (unwrap of None if its author is unregistered, of Err if its proof or signature is invalid); AggregationReconstructionMismatchError if the weighted sum of the gs is not the interpolated commitment; and Ok otherwise. The cases are mutually exclusive.", "quantifier": "every aggregator, transcript, generator, generator state and build profile", "why_tests_cant": "Same as for shares: the order of the checks matters only when several fail, and maps have unboundedly many contributions.", "anchors": ["src/modified_scrape/aggregator.rs::aggregation_verify", "src/modified_scrape/poly.rs::ensure_degree"]}
{"id": "C62", "title": "Dealing is a fixed function of the next t+2 scalars", "statement": "share draws t+1 scalars as coefficients and, if dealing the core succeeds, one more as the nonce of the knowledge proof. Its outcome is then determined: a panic if n = 0; InvalidParticipantId(j) for the first unregistered j < n; an index panic if the dealer's id is at least n or all coefficients are zero; an unwrap panic if the dealer's secret key does not load; otherwise the share whose every field is the stated function of these scalars. Receiving draws exactly what verifying draws.", "quantifier": "every node, generator, generator state and build profile; degrees whose coefficient vector fits in memory", "why_tests_cant": "A test with one seed cannot see a dealer drawing in another order, reusing a scalar or drawing more than it should.", "anchors": ["src/modified_scrape/node.rs::share", "src/modified_scrape/node.rs::share_pvss", "src/modified_scrape/decomp.rs::Decomp::generate", "src/modified_scrape/aggregator.rs::receive_share", "src/modified_scrape/aggregator.rs::receive_aggregated_share"]}
{"id": "C63", "title": "A fresh set-up works", "statement": "Setting up as the crate's tests do (SRS::setup, one Schnorr and one EdDSA key pair per party, the map of participants, Node::new) draws three points and one scalar per party, gives every node the same configuration, the same map and the empty transcript; with EdDSA keys that work and t+2 <= n < q, every delivery of a schedule of at most 64 events succeeds and any t+1 parties with non-zero keys reconstruct the sum of the drawn secrets.", "quantifier": "every number of parties, degree, generator, seeds, dealing coins, schedule and build profile", "why_tests_cant": "The test fixes four parties, one degree and one schedule.", "anchors": ["src/modified_scrape/srs.rs::SRS::setup", "src/signature/schnorr/mod.rs::SchnorrSignature::generate_keypair", "src/lib.rs::generate_keypair", "src/modified_scrape/node.rs::new", "src/modified_scrape/aggregator.rs::new"]}
{"id": "C64", "title": "A blinded decryption can be checked by everybody", "statement": "The published pair (r g2, dec - r g1) passes the three-pairing check against comms[id] exactly when e(dec, g2) = e(g1, comms[id]), whatever r; what passes is the right decryption blinded by some r, and its first half determines the second; the owner of the slot's key passes exactly when the slot is well encrypted; the check panics exactly when id is beyond the vector.", "quantifier": "every configuration, vector of commitments, decryption, blinding scalar and received pair", "why_tests_cant": "One run with honest values cannot show that nothing else passes.", "anchors": ["src/modified_scrape/decryption.rs::DecryptedShare::generate", "src/modified_scrape/node.rs::test"]}
{"id": "C65", "title": "All quorums reconstruct the same secret", "statement": "Any two sets of t+1 key holders decrypting the same accepted share and interpolating get the same point.", "quantifier": "every engine, configuration, accepted share, keys and pair of quorums", "why_tests_cant": "Needs every accepted share and every pair of quorums.", "anchors": ["src/modified_scrape/decryption.rs::DecryptedShare::generate", "src/modified_scrape/poly.rs::lagrange_interpolation_g1", "src/modified_scrape/aggregator.rs::share_verify"]}
{"id": "C66", "title": "A signed proof only counts inside the share it was made for", "statement": "Two accepted shares of one participant carrying the same signed proof were dealt for the same degree and carry the same commitments.", "quantifier": "every pair of sessions, honest share and share accepted with its signed proof", "why_tests_cant": "Needs every share an outsider could assemble around a signed proof it has seen.", "anchors": ["src/modified_scrape/share.rs::PVSSShare", "src/modified_scrape/aggregator.rs::share_verify", "src/modified_scrape/decomp.rs::DecompProof::verify"]}
{"id": "C67", "title": "The dealer of an accepted share knows its secret", "statement": "From a point of unknown logarithm, a dealer that only adds and scales points makes no accepted share whose secret involves that point.", "quantifier": "every such dealer, engine, configuration of degree at least one and registered working key", "why_tests_cant": "A statement about every dealer an adversary might run.", "anchors": ["src/modified_scrape/aggregator.rs::share_verify", "src/modified_scrape/decomp.rs::DecompProof::verify", "src/nizk/dlk/mod.rs::DLKProof::verify"]}
{"id": "C68", "title": "Nodes exchanging bytes behave like nodes exchanging values", "statement": "Deserialising what a peer serialised and receiving it has exactly the effect of receiving the value, whatever bytes follow it; bytes that cannot be read, or are read and rejected, change nothing; a message cut short is never accepted; whatever byte strings a new aggregator is fed, its state is that of some history of well-formed messages, and its transcript can be written and is read back unchanged by every peer; a network exchanging bytes produces the same outcomes and states as one exchanging values.", "quantifier": "every aggregator, byte string, sequence of byte strings, schedule of a network of any size, draw sequence and build profile", "why_tests_cant": "Hostile bytes of every length in every order.", "anchors": ["src/modified_scrape/share.rs::PVSSShare", "src/modified_scrape/share.rs::PVSSAggregatedShare", "src/modified_scrape/aggregator.rs::receive_share", "src/modified_scrape/aggregator.rs::receive_aggregated_share"]}
{"id": "C69", "title": "Nodes can always agree again", "statement": "Whatever honest shares two nodes with one configuration have received, each accepts the transcript of the other.", "quantifier": "every pair of histories of shares made by share, draw sequences and build profile", "why_tests_cant": "Needs every pair of histories, including a dealer that runs share twice.", "anchors": ["src/modified_scrape/aggregator.rs::receive_aggregated_share", "src/modified_scrape/aggregator.rs::receive_share", "src/modified_scrape/share.rs::PVSSAggregatedShare::aggregate"]}
{"id": "C70", "title": "The secret a party deals is uniform", "statement": "With uniformly drawn coefficients every secret other than 0 is dealt by exactly q^t of the q^(t+1) coefficient sequences, and dealing fails for exactly one sequence, whatever the nonce.", "quantifier": "every engine, group, registered party, nonce and secret", "why_tests_cant": "A count over all q^(t+1) coefficient sequences.", "anchors": ["src/modified_scrape/poly.rs::DensePolynomial::rand", "src/modified_scrape/node.rs::share_pvss", "src/modified_scrape/node.rs::share"]}
{"id": "C71", "title": "One honest dealer hides the secret of the transcript", "statement": "Whatever an aggregator received before, once it takes the share of a party that had not contributed, any t recipients' decryptions and any secret of the transcript are produced by exactly one coefficient sequence of that party (by none if they are what they were before): t decryptions say nothing about the secret.", "quantifier": "every history of the aggregator, set of t recipients, decrypted points, secret, nonce and draw sequence", "why_tests_cant": "A count over all coefficient sequences, for every adversarial history.", "anchors": ["src/modified_scrape/aggregator.rs::receive_share", "src/modified_scrape/node.rs::share", "src/modified_scrape/decryption.rs::DecryptedShare::generate", "src/modified_scrape/poly.rs::lagrange_interpolation_simple"]}
{"id": "C72", "title": "No dealer can bias the secret of the transcript", "statement": "If one honest dealer contributes, no set of secrets is hit more often than by a uniform choice, whatever another dealer does after seeing the honest share.", "quantifier": "every engine, group, pair of parties, strategy of the second dealer and set of secrets", "why_tests_cant": "A claim about every strategy and every set of secrets.", "anchors": ["src/modified_scrape/aggregator.rs::receive_share", "src/modified_scrape/node.rs::share", "src/modified_scrape/share.rs::PVSSAggregatedShare::aggregate"]}
{"id": "C73", "title": "A printed digest or key identifies it", "statement": "Digests and public keys whose Display output is the same are equal.", "quantifier": "every pair of digests and of public keys", "why_tests_cant": "A statement about all pairs of 2^256 values.", "anchors": ["src/lib.rs::Digest", "src/lib.rs::PublicKey"]}
{"id": "C74", "title": "Printing a secret key does not give it away", "statement": "No function of the Debug output recovers every secret key.", "quantifier": "every function from texts to keys, every key", "why_tests_cant": "Ranges over all functions of the output.", "anchors": ["src/lib.rs::SecretKey", "src/lib.rs::SecretKey::from_base64"]}
{"id": "C75", "title": "Nodes that record the same contributions hold the same transcript", "statement": "Two nodes with one configuration whose transcripts list the same signed proofs with the same weights hold equal transcripts, so that recipients may decrypt from either.", "quantifier": "every pair of histories of shares, configuration, draw sequences and build profile", "why_tests_cant": "Needs every pair of histories, including shares made by a dishonest dealer.", "anchors": ["src/modified_scrape/aggregator.rs::receive_share", "src/modified_scrape/share.rs::PVSSAggregatedShare::aggregate", "src/modified_scrape/poly.rs::lagrange_interpolation_g1"]}
{"id": "C76", "title": "Interpolation notices values that do not fit together", "statement": "An interpolation function returns Ok only if all values given lie on one polynomial of degree at most t.", "quantifier": "every degree, list of values and list of distinct points", "why_tests_cant": "Tests use consistent values.", "anchors": ["src/modified_scrape/poly.rs::lagrange_interpolation_simple", "src/modified_scrape/poly.rs::lagrange_interpolation_g1", "src/modified_scrape/poly.rs::lagrange_interpolation_g2", "src/modified_scrape/poly.rs::lagrange_interpolation_gt"]}
{"id": "C77", "title": "Parameters handed out by the crate are usable", "statement": "Every base point returned by SRS::setup or SRS::from_generator of the knowledge proof, the equality proof and the Schnorr signature is one to which every point has exactly one logarithm.", "quantifier": "every curve, generator state and point", "why_tests_cant": "Tests use one curve and the fixed generator.", "anchors": ["src/nizk/dlk/srs.rs::SRS::setup", "src/nizk/dleq/srs.rs::SRS::setup", "src/signature/schnorr/srs.rs::SRS::setup", "src/signature/schnorr/srs.rs::SRS::from_generator"]}
{"id": "C78", "title": "Debug and release builds differ only where debug reports an overflow", "statement": "The release build never panics with an arithmetic overflow, and every function and every history of messages gives the same results and states in both builds unless the debug build panics with an arithmetic overflow. In a proper configuration the two part exactly when a verified message makes a weight reach 2^64 with no conflict before it.", "quantifier": "every input, generator, aggregator and history", "why_tests_cant": "Tests are run in one build, with small weights.", "anchors": ["src/modified_scrape/poly.rs::ensure_degree", "src/modified_scrape/poly.rs::lagrange_interpolation_simple", "src/modified_scrape/aggregator.rs::PVSSAggregator::receive_share", "src/modified_scrape/share.rs::PVSSAggregatedShare::aggregate", "src/modified_scrape/node.rs::Node::share"]}
{"id": "C79", "title": "The unit tests of the proofs and signatures fail only by coincidence", "statement": "For every draw of the random generator the honest tests of nizk/dlk, nizk/dleq and signature/schnorr pass, and each should_panic test panics unless the scalar it redraws happens to be the one it replaces (or, for the wrong statement or key, the challenge is zero); with a uniform generator each knowledge-proof test fails for exactly one value of the last draw.", "quantifier": "every curve, random generator, draw and, for the benchmark, number of runs", "why_tests_cant": "A test run sees one draw of the generator.", "anchors": ["src/nizk/dlk/mod.rs::test", "src/nizk/dleq/mod.rs::test", "src/signature/schnorr/mod.rs::test"]}
{"id": "C80", "title": "The unit tests of polynomials and decomposition proofs fail only on degenerate draws", "statement": "For every degree the tests of poly.rs and decomp.rs pass for every draw, except that those which read p(0) by index panic exactly when all coefficients drawn are zero, the target-group test panics exactly when a decryption key is zero, and the tampered decomposition proof is accepted exactly when the new challenge is the old one.", "quantifier": "every degree, random generator, draw, key seeds and epoch generator", "why_tests_cant": "A test run sees one draw and one random degree.", "anchors": ["src/modified_scrape/poly.rs::test", "src/modified_scrape/decomp.rs::test"]}
{"id": "C81", "title": "The unit tests of vectors and shares fail only on degenerate draws or keys", "statement": "The tests of pvss.rs pass for every draw except test_neq, which fails exactly when the two pairs of points drawn are equal; adding vectors of any lengths fails unless all four lengths are equal and positive. Each test of share.rs panics exactly when a random polynomial is zero or a key cannot be loaded from its own bytes; the signed-proof test passes exactly when the signature verifies.", "quantifier": "every random generator, draw, build profile, key seed and vector length", "why_tests_cant": "A test run sees one draw.", "anchors": ["src/modified_scrape/pvss.rs::test", "src/modified_scrape/share.rs::test"]}
{"id": "C82", "title": "The unit tests of nodes fail only on degenerate draws", "statement": "For keys that work, test_one and the four-node test panic exactly when a dealt polynomial or the decryption key of the first node is zero, and the double-aggregation test exactly when the polynomial is zero or the share consists of zero points only.", "quantifier": "every group of order above 4, random generator, draw, build profile and four working key seeds", "why_tests_cant": "A test run sees one draw.", "anchors": ["src/modified_scrape/node.rs::test"]}
{"id": "C83", "title": "The text of an error tells which error it is", "statement": "Within each of PVSSError, SignatureError, NIZKError and VerifyProofEquation, two errors that print the same text are equal: same variant and same numbers in every field. A usize field is printed as the decimal digits of its value, without leading zeros.", "quantifier": "every pair of errors of an enumeration and every usize payload, for any pairwise distinct texts of the wrapped SerializationError", "why_tests_cant": "Two of the 32 variants and 2^64-valued fields would have to be compared pairwise.", "anchors": ["src/modified_scrape/errors.rs::PVSSError", "src/signature/utils/errors.rs::SignatureError", "src/signature/utils/errors.rs::VerifyProofEquation", "src/nizk/utils/errors.rs::NIZKError"]}
{"id": "C84", "title": "Every answer of receiving a message", "statement": "In every state a node can reach, receive_share and receive_aggregated_share answer and act as follows. A failed verification, or a transcript whose degree or number of participants differs, makes the call panic. Otherwise the participants are merged in increasing order and the first problem decides: two different commitments of one participant give Err(TranscriptDifferentCommitments) for a share and a panic for a transcript; weights that together reach 2^64 panic in debug builds. In all these cases the node is unchanged. Otherwise the call returns Ok, every slot is the sum of the two slots, a participant known to both sides keeps its recorded proof with the sum of the weights modulo 2^64, and participants numbered n or more are dropped. These answers exclude one another.", "quantifier": "every history of a node, message, generator and build profile", "why_tests_cant": "The answer depends on the whole state of the node and on which of several problems comes first; tests exercise single messages on fresh nodes.", "anchors": ["src/modified_scrape/aggregator.rs::PVSSAggregator::receive_share", "src/modified_scrape/aggregator.rs::PVSSAggregator::receive_aggregated_share", "src/modified_scrape/share.rs::PVSSAggregatedShare::aggregate"]}
{"id": "C85", "title": "The slot checks the comments describe would catch every wrong slot", "statement": "The block commented out in aggregation_verify accepts exactly the vectors whose slots are all right; if it accepts vectors whose commitments have low degree, every quorum reconstructs the one point that belongs to the committed secret. The batched check with a coefficient for each slot, as its comment describes it, lets vectors with a wrong slot pass for exactly q^(n-1) of the q^n coefficient vectors. The check in force is the batched one on n copies of one draw: it passes for every draw if the wrong slots cancel, and otherwise only for the draw zero.", "quantifier": "every aggregator whose participants are all registered, pair of vectors of length n, coefficient vector, key set, quorum and build profile", "why_tests_cant": "The difference shows only on vectors whose wrong slots cancel each other; the tests have none.", "anchors": ["src/modified_scrape/aggregator.rs::PVSSAggregator::aggregation_verify"]}
{"id": "C86", "title": "What a dealing publishes can be made without the secret", "statement": "For any t participants there is a simulator that makes the commitments and encryptions of a dealing from the points s g2 and s Y (Y a point of which the other participants' keys are known multiples) and freely chosen values for the t participants, without s. Any test of the published vectors and the secret holds for as many of the coefficient sequences share_pvss may draw as of the simulator's outputs. So finding the secret p(0) g1 from a dealing with the help of t participants is at least as hard as finding s g1 from g1, g2, s g2, Y, s Y.", "quantifier": "every configuration, t participants, values, attack and test", "why_tests_cant": "It is a statement about all ways of computing on what is published.", "anchors": ["src/modified_scrape/node.rs::Node::share_pvss"]}
{"id": "C87", "title": "Everybody reaches the same verdict", "statement": "Two aggregators made for the same configuration and participants give the same answers to every share and transcript on the same coins, whatever they received before. With coins of their own, in either build, they give the same answer to every share whose commitments have low degree, and to every such transcript unless one draws zero after the degree check.", "quantifier": "every configuration, participant list, pair of histories, generator, share and transcript", "why_tests_cant": "Tests verify with one node.", "anchors": ["src/modified_scrape/aggregator.rs::PVSSAggregator::share_verify", "src/modified_scrape/aggregator.rs::PVSSAggregator::aggregation_verify"]}
{"id": "C88", "title": "What a nonce used twice gives away", "statement": "Two Schnorr signatures made from the same generator state with different challenges determine the signing key, by a formula anybody can evaluate; so do two equality proofs for one witness. Two knowledge proofs made with one nonce for two secrets have the same challenge and determine the difference of the secrets, and the second is a function of the first and this difference; the same holds of two shares of a dealer.", "quantifier": "every curve, key, message, secret and generator state", "why_tests_cant": "Tests draw every nonce from one thread_rng.", "anchors": ["src/signature/schnorr/mod.rs::sign", "src/nizk/dlk/mod.rs::prove", "src/nizk/dleq/mod.rs::prove", "src/modified_scrape/node.rs::Node::share"]}
{"id": "C89", "title": "Without forged signatures a transcript lists what its contributors signed", "statement": "Whatever messages a node receives: if no delivered signature is a forgery and no two signed digests collide, every participant its transcript lists has signed exactly the listed knowledge proof, and the honest participants enter the committed secret only through secrets they dealt. A participant whose signed proofs are all for one commitment cannot be made the cause of a conflict; if that holds of all participants, a message is refused only for a failed verification, a foreign header or (debug builds) a weight of 2^64.", "quantifier": "every configuration, participant list, history of messages, set of honest participants and set of signed proofs", "why_tests_cant": "It is about everything an adversary may send; tests exchange honest messages.", "anchors": ["src/modified_scrape/aggregator.rs::PVSSAggregator::receive_share", "src/modified_scrape/aggregator.rs::PVSSAggregator::receive_aggregated_share", "src/modified_scrape/share.rs::SignedProof::verify", "src/modified_scrape/share.rs::PVSSAggregatedShare::aggregate", "src/modified_scrape/decomp.rs::DecompProof::digest"]}
{"id": "C90", "title": "A whole share can be made without the secret", "statement": "For any t participants there is a simulator that makes complete shares (vectors, knowledge proof and signature) from the points s g2 and s Y and freely chosen values, response and challenge, with the dealer's signing key but without the secret s and without a nonce. With the hash function as an oracle, any test of a share and its secret holds for as many triples of coefficients, nonce and answer as choices of the simulator; with the hash function of the code, for as many pairs of coefficients and nonce as choices whose challenge is the hash. So finding the secret point of a dealer from its share with the help of t participants is as hard as finding s g1 from g1, g2, s g2, Y, s Y.", "quantifier": "every configuration, t participants, values, attack and test", "why_tests_cant": "It is a statement about all ways of computing on what is published.", "anchors": ["src/modified_scrape/node.rs::Node::share", "src/modified_scrape/node.rs::Node::share_pvss", "src/modified_scrape/decomp.rs::Decomp::generate", "src/nizk/dlk/mod.rs::prove"]}
{"id": "C91", "title": "How long messages are", "statement": "Every share a node makes and every share it accepts takes exactly the same number of bytes, linear in n. The transcript of a node takes exactly the number of bytes that belongs to the number of its contributors, whatever it received; there are at most n of them, and the transcript never becomes shorter. The same holds of every transcript it accepts, if the ids of its participants are below n.", "quantifier": "every history, configuration, share, transcript, generator and build profile", "why_tests_cant": "Tests serialize a few messages and compare them after reading them back; none looks at the length after a history.", "anchors": ["src/modified_scrape/node.rs::Node::share", "src/modified_scrape/aggregator.rs::PVSSAggregator::receive_share", "src/modified_scrape/aggregator.rs::PVSSAggregator::receive_aggregated_share", "src/modified_scrape/share.rs::PVSSShare", "src/modified_scrape/share.rs::PVSSAggregatedShare"]}
{"id": "C92", "title": "The order of delivery does not matter", "statement": "After any history the transcript of a node is the sum of the shares and transcripts it took: vectors slot by slot, for each participant the first proof given and the sum of its weights modulo 2^64. Two nodes that took the same messages, in any order, hold the same transcript up to which of several proofs for one commitment is kept. If a sequence of calls all succeed then they all succeed in every other order.", "quantifier": "every configuration, history of shares and transcripts, permutation, generator and build profile", "why_tests_cant": "The tests deliver messages in one fixed order; no test compares orders, and none mixes shares with transcripts.", "anchors": ["src/modified_scrape/aggregator.rs::PVSSAggregator::receive_share", "src/modified_scrape/aggregator.rs::PVSSAggregator::receive_aggregated_share", "src/modified_scrape/share.rs::PVSSAggregatedShare::aggregate", "src/modified_scrape/share.rs::PVSSAggregatedShare::aggregate_pvss_share"]}
{"id": "C93", "title": "A Schnorr signature belongs to one signer", "statement": "No public function turns every valid Schnorr signature into a valid one of the same message under another key. False: the challenge hashes the message, the generator and the nonce point but not the key. For every scalar d, subtracting c*d from the response gives a signature under pk + d*g, and batches take it too; the same bytes sign any other message under a key at a known ratio. What holds: with the same nonce point and a challenge other than zero the other key is exactly pk + ((z-z')/c)*g; the same bytes fit another message under exactly the keys with c'*pk' = c*pk.", "quantifier": "every engine, curve, generator, key, message, signature and scalar; every batch", "why_tests_cant": "The test signs and verifies with one key; related keys are never tried.", "anchors": ["src/signature/schnorr/mod.rs::sign", "src/signature/schnorr/mod.rs::verify", "src/signature/schnorr/mod.rs::batch_verify"]}
{"id": "C94", "title": "Order, views and wiping of keys", "statement": "The derived order of public keys is the order of the keys as big-endian numbers: it is total, agrees with equality and puts the default key first. The views of a digest are what is sent for it and read back to the same digest. The derived defaults of digests, public keys and signatures are sent as zero bytes. A dropped secret key is 64 zero bytes whatever it was. What a DLK, DLEQ or Schnorr system built from parameters proves or signs is accepted by everybody who holds them.", "quantifier": "every pair of keys, digest, secret key, generator and message", "why_tests_cant": "No test compares keys or looks at a key after it is dropped.", "anchors": ["src/lib.rs::PublicKey", "src/lib.rs::Digest::to_vec", "src/lib.rs::Digest::size", "src/lib.rs::SecretKey::drop", "src/nizk/dlk/mod.rs::from_srs", "src/nizk/dleq/mod.rs::from_srs", "src/signature/schnorr/mod.rs::from_srs"]}
{"id": "C95", "title": "Decryption and reconstruction are linear", "statement": "For every pair of PVSS cores that PVSSCore::aggregate accepts, decrypting any slot of the aggregate gives the sum of the decryptions of the two parts, and interpolating the decrypted slots of any quorum gives the sum of what the same quorum gets from the parts. The interpolation functions are themselves additive (multiplicative in GT) and the G1 one commutes with scalar multiples. Where one side fails or panics the other does too, in the same way.", "quantifier": "all pairs of cores, whatever points they hold; all keys (also zero), all quorums (also too short, with repetitions, or naming slots that do not exist), all degrees, both build profiles", "why_tests_cant": "a test adds two particular sharings and reconstructs with one valid quorum; that the sums agree on ill-formed vectors and on failing inputs too is outside what it samples", "anchors": ["src/modified_scrape/decryption.rs::DecryptedShare::generate", "src/modified_scrape/poly.rs::lagrange_interpolation_g1", "src/modified_scrape/poly.rs::lagrange_interpolation_g2", "src/modified_scrape/poly.rs::lagrange_interpolation_gt", "src/modified_scrape/poly.rs::lagrange_interpolation_simple", "src/modified_scrape/pvss.rs::PVSSCore::aggregate"]}
{"id": "C96", "title": "A session of several dealers can be made without their secrets", "statement": "In a session with any number of honest dealers and at most t curious participants, everything the dealers publish together is distributed as what a simulator makes that is given, instead of each secret s_i, only the points s_i*g2 and s_i*Y. Hence whoever computes the point of the sum of the secrets from all shares and t decryption keys computes it, at least as often, from these points.", "quantifier": "every configuration with t < n < q, every list of dealers and keys, every set of t participants, every test or attack on the whole session, over all coins of all dealers and all answers of the hash function (as an oracle, or the code's own)", "why_tests_cant": "The claim compares numbers of coin sequences over the whole scalar field and quantifies over all attacks.", "anchors": ["src/modified_scrape/node.rs::Node::share", "src/modified_scrape/node.rs::Node::share_pvss", "src/modified_scrape/decomp.rs::Decomp::generate", "src/nizk/dlk/mod.rs::prove"]}
{"id": "C97", "title": "What each operation depends on", "statement": "share_verify depends only on g2, degree, number of participants and the two keys registered under the sender's id; aggregation_verify besides on the encryption keys of all slots and the signing keys of the contributors, and of the transcript only on vectors and contributions; share only on g2, degree, number of participants, the encryption keys of the slots and the dealer's id and signing key; decryption only on its slot. So g1, g2_prime, the ids stored in participants, the keys of uninvolved participants, what was received before and the dealer's decryption key influence none of these answers.", "quantifier": "all pairs of aggregators, nodes, shares and transcripts that agree on what is listed, every generator state, both builds", "why_tests_cant": "Independence is a statement about all pairs of states; a test compares a few.", "anchors": ["src/modified_scrape/aggregator.rs::PVSSAggregator::share_verify", "src/modified_scrape/aggregator.rs::PVSSAggregator::aggregation_verify", "src/modified_scrape/aggregator.rs::PVSSAggregator::receive_share", "src/modified_scrape/aggregator.rs::PVSSAggregator::receive_aggregated_share", "src/modified_scrape/node.rs::Node::share", "src/modified_scrape/decryption.rs::DecryptedShare::generate"]}
{"id": "C98", "title": "A forger knows the secret, in the random-oracle model", "statement": "With the challenge hash replaced by random answers (same string, same answer), an attacker that asks n strings and then has a Schnorr signature, a DLK proof of a statement fixed beforehand, or a DLEQ proof of a statement of its own choice accepted by the verifiers of the code, can be run twice to compute the witness without knowing it: with N = n+1, S successes among q^N answers and F pairs of answers from which the witness comes out, S^2 <= N (F + S q^n); likewise when the key and coins of the attacker are drawn too. A DLEQ statement with different logarithms is accepted for at most N q^n of the q^N answers, i.e. with probability N/q.", "quantifier": "every engine, curves, generators, key or statement, number of questions, attacker (any function of the answers it has seen), finite type of coins", "why_tests_cant": "A statement about all attackers and all hash functions; no test enumerates either.", "anchors": ["src/signature/schnorr/mod.rs::verify", "src/nizk/dlk/mod.rs::verify", "src/nizk/dleq/mod.rs::verify"]}
{"id": "C99", "title": "Schnorr signatures withstand chosen messages, in the random-oracle model", "statement": "An attacker that has hashes and signatures of its choice made, n requests in all, and then has a signature accepted that the signer did not make (a new message or another signature of a signed one) can be run twice without the secret key to compute that key: among the draws of key, coins, nonces and hashes let R be the successes against schnorr_sign and F the pairs from which the key comes out; with M keys and coins, N = n+1 and e = q^(n+N), (R - M C(n,2) e)^2 <= M N (F + R e). Without the key the signatures are simulated by choosing the response first, and the runs agree up to those in which a nonce comes up whose hash was given out before.", "quantifier": "every engine, curve, non-zero generator, number of requests, attacker (any function of the replies it has seen), finite type of coins", "why_tests_cant": "A statement about all attackers and all hash functions; no test enumerates either.", "anchors": ["src/signature/schnorr/mod.rs::sign", "src/signature/schnorr/mod.rs::verify", "src/signature/schnorr/mod.rs::from_sk"]}
{"id": "C100", "title": "The std hash of a proof or key covers all of it", "statement": "What DecompProof, Digest and PublicKey write into a std Hasher determines the value, whatever was written before, and equal values write the same; so a hasher that forgets nothing tells two proofs apart exactly when they differ in commitment, challenge, response or gs, and every hasher sees nothing else. The same holds of the generator in a DLK system.", "quantifier": "every engine, all proofs, digests and keys, every hasher and state; every implementation of Hash for points and scalars that writes a fixed number of pieces determining the value", "why_tests_cant": "A test hashes a few values with one hasher; two values that collide because a field was left out are found only by comparing all pairs.", "anchors": ["src/modified_scrape/decomp.rs::DecompProof::hash", "src/lib.rs::Digest", "src/lib.rs::PublicKey"]}
{"id": "C101", "title": "With the order of BLS12-381 ids and weights never wrap", "statement": "The order of the scalar field of BLS12-381 is prime, and the laws assumed of the crates can be met at this order and with the sizes of its encodings. At this order every configuration with t + 2 <= n that fits in memory is one the scheme is meant for; distinct machine words are distinct evaluation points; an accepted transcript stays accepted without a contributor, or under another weight of it, only if that weight is 0, respectively equal, or the contribution is the commitment to zero; and the verifiers accept what is not sound for fewer than one draw in 2^254. With an order of at most n, in contrast, the participant with id q - 1 is dealt the secret.", "quantifier": "every engine of this order, all configurations, ids, weights, shares, transcripts and draws", "why_tests_cant": "The tests use this curve but only ids below 10 and weights of 1; that no pair of 64-bit words meets modulo the order is a statement about all of them, and a soundness error of 2^-254 is never observed.", "anchors": ["src/modified_scrape/node.rs::share_pvss", "src/modified_scrape/aggregator.rs::aggregation_verify", "src/modified_scrape/aggregator.rs::share_verify", "src/modified_scrape/poly.rs::ensure_degree"]}
{"id": "C102", "title": "Hashing to the field favours no value", "statement": "If the bytes the generator returns are uniform, hash_to_field returns values that the same number of blocks stand for equally often, after any number of turns; the number of streams that return a given value in k turns and of those that keep the loop running are given exactly. For the scalars of BLS12-381 every value has two blocks, so the result is uniform, and fewer than one stream in 2^k keeps the loop running for k turns. The same holds of hash_to_group.", "quantifier": "every persona of at most 8 bytes, message, block length, decoder of blocks, number of turns and value; the BLS12-381 part for every engine of that order", "why_tests_cant": "A bias of a few values in 2^255 is invisible in any sample, and the loop is never seen to run long.", "anchors": ["src/nizk/utils/hash.rs::hash_to_field", "src/nizk/utils/hash.rs::hash_to_group", "src/signature/utils/hash.rs::hash_to_field"]}
{"id": "C103", "title": "Dealers that come last cannot choose the secret", "statement": "Once an aggregator holds contributions of honest dealers, no transcript that other dealers send can make it hold a secret of their choice. (False: the knowledge proof does not hash its statement, so a late dealer can contribute a multiple of the secret it does not know, the multiple being fixed by the hash; and the weights of a transcript are free. When the weighted multiples add up to -1, the aggregator ends with exactly the vectors of a polynomial the late dealers chose, all earlier contributions still listed with their weights. At orders up to 2^64 one dealer is enough; at the order of BLS12-381 five are, for all but one in 2^63 of the answers the hash may give them.)", "quantifier": "every engine, signature scheme, configuration, aggregator state holding a sound transcript, set of late dealers, polynomial, build and coin; the counting part for every number of dealers and every bound on the weights", "why_tests_cant": "The weights come from solving a modular equation over the answers of a hash, and the outcome is an accepted transcript like any other; no test looks at what the others know of the secret.", "anchors": ["src/modified_scrape/aggregator.rs::receive_aggregated_share", "src/modified_scrape/aggregator.rs::aggregation_verify", "src/modified_scrape/share.rs::PVSSAggregatedShare::aggregate", "src/modified_scrape/decomp.rs::DecompProof::verify", "src/nizk/dlk/mod.rs::verify"]}
{"id": "C104", "title": "A length prefix buys no work", "statement": "Reading a message from untrusted bytes costs at most one primitive read (byte, integer, point or scalar) for each byte that is there, and one more, whatever lengths the bytes announce; the vectors and the map of a message that is read are paid for in full by its bytes; and a length prefix that promises more elements than the bytes can hold is never read as a vector, with the same outcome for every such prefix.", "quantifier": "every engine whose points and scalars are read at full width, every byte string, both kinds of message, every element codec and every prefix below 2^64", "why_tests_cant": "A test tries a few prefixes; the claim is a bound on the number of steps over all byte strings, and the dangerous prefixes (2^64 - 1) are those for which a wrong reader does not come back.", "anchors": ["src/modified_scrape/share.rs::PVSSShare", "src/modified_scrape/share.rs::PVSSAggregatedShare", "src/modified_scrape/pvss.rs::PVSSCore", "src/lib.rs::Signature"]}
{"id": "C105", "title": "A whole session lets a bad message in for at most N draws in q", "statement": "An aggregator that handles N messages one after another with one generator accepts only sound messages, except for a set of tapes of the generator which is at most N in q of all tapes, q being the order of the scalar field; the sender may choose each message after seeing everything drawn, answered and stored so far. Outside that set a fresh aggregator holds, at the end, the commitments of one polynomial of degree at most t, whose value at zero is what the listed contributions add up to. With the order of BLS12-381, 2^64 messages succeed on fewer than one tape in 2^190.", "quantifier": "every engine, every signature scheme, every number N of messages, every adaptive sender, every aggregator with a valid configuration and its participants registered, every tape long enough for N calls", "why_tests_cant": "The claim counts over all tapes of a field of 2^255 elements and over all strategies of a sender; a test runs one strategy on one tape and never meets a bad one.", "anchors": ["src/modified_scrape/aggregator.rs::PVSSAggregator::receive_share", "src/modified_scrape/aggregator.rs::PVSSAggregator::receive_aggregated_share", "src/modified_scrape/aggregator.rs::PVSSAggregator::share_verify", "src/modified_scrape/aggregator.rs::PVSSAggregator::aggregation_verify", "src/modified_scrape/poly.rs::ensure_degree"]}
{"id": "C106", "title": "A session with fewer than t+2 participants", "statement": "Nothing in the crate compares the degree with the number of participants when a session is set up. With n <= t+1 verification goes as usual up to the degree check and draws nothing: with n < t it answers DualCodeError, with n = t it panics in both builds, with n = t+1 it panics in debug builds and skips the check in release builds. So, but for the last case, no message is ever accepted, whatever it is, and the aggregator stays as it was; in the last case nothing is lost, since every vector of t+1 points is of degree at most t, and honest shares are accepted.", "quantifier": "every engine, signature scheme, aggregator with n <= t+1 and n below the field order, every share and transcript, every generator state, both build profiles, every history of calls", "why_tests_cant": "The tests of the crate use proper sessions only; the claim is about all messages of a session that nobody meant to set up.", "anchors": ["src/modified_scrape/poly.rs::ensure_degree", "src/modified_scrape/aggregator.rs::PVSSAggregator::share_verify", "src/modified_scrape/aggregator.rs::PVSSAggregator::aggregation_verify", "src/modified_scrape/aggregator.rs::PVSSAggregator::core_verify"]}
{"id": "C107", "title": "A message cannot make the aggregator work more than the session allows", "statement": "Counting every operation of the fields and groups, every pairing, hash, signature operation, draw, comparison and access, the calls receive_share and receive_aggregated_share take at most 12 n^2 + 32 n + 14 p + 6 m + 44 steps, with n the configured number of participants, p the number of registered ones and m the size of the aggregator's own transcript, however long the message is and whatever it contains. A share under an unregistered identity costs one lookup, a transcript of the wrong length two comparisons. So a history of k calls takes at most k times the bound. From the bytes on, k byte strings of any kind take at most k times the bound and one read for each byte and each string.", "quantifier": "every engine, signature scheme, aggregator, message of any length, generator state, both build profiles, every history of calls", "why_tests_cant": "A test measures the messages it sends; the bound has to hold for every message an attacker can write, also for those with vectors and maps of any length.", "anchors": ["src/modified_scrape/aggregator.rs::PVSSAggregator::receive_share", "src/modified_scrape/aggregator.rs::PVSSAggregator::receive_aggregated_share", "src/modified_scrape/aggregator.rs::PVSSAggregator::share_verify", "src/modified_scrape/aggregator.rs::PVSSAggregator::aggregation_verify", "src/modified_scrape/aggregator.rs::PVSSAggregator::core_verify", "src/modified_scrape/poly.rs::ensure_degree", "src/modified_scrape/poly.rs::lagrange_interpolation_simple", "src/modified_scrape/share.rs::PVSSAggregatedShare::aggregate"]}
{"id": "C108", "title": "A node can always get back to a transcript its peers accept", "statement": "Refuted. A share with one foreign slot changed is accepted by every node, and the product of pairings of the receiving transcript is off by a factor from then on: the factor of a transcript is the product of the factors of all accepted messages, in every history. Honest messages, and transcripts that passed verification with a non-zero scalar, have factor 1. So after one bad share nothing that honest nodes send brings the node back: every peer refuses its transcript unless the scalar it draws is 0. Only whoever sends the opposite error can put it right.", "quantifier": "every engine, signature scheme, configuration with t+2 <= n < q, every history before and after the bad message, every honest message, every peer, every generator state with a non-zero draw", "why_tests_cant": "A test sees one refusal; the claim is that no later sequence of honest messages, of any length, leads to acceptance.", "anchors": ["src/modified_scrape/aggregator.rs::PVSSAggregator::receive_share", "src/modified_scrape/aggregator.rs::PVSSAggregator::share_verify", "src/modified_scrape/aggregator.rs::PVSSAggregator::aggregation_verify", "src/modified_scrape/share.rs::PVSSAggregatedShare::aggregate", "src/modified_scrape/pvss.rs::PVSSCore::aggregate"]}
{"id": "C109", "title": "Opening one session does not reveal a dealing of another", "statement": "Refuted. Nothing in a share names its session or its dealer, and keys are reused. Out of an honest share of an earlier session any registered participant makes a share of a later one, with a multiplier and an offset of its choice, so that it looks unrelated. Every node accepts it and the transcript that holds nothing else, in which the honest dealer is not listed. Whatever quorum opens the later session hands that participant the secret of the honest dealing. What holds: without opening anything one can tell from the commitments whether two transcripts open to the same point, or to points related by a given multiplier and offset.", "quantifier": "every engine and signature scheme, configuration with t+2 <= n < q, honest share, multiplier, offset polynomial, quorum and coins", "why_tests_cant": "A test would have to compare sessions; the claim is about every honest dealing and every quorum.", "anchors": ["src/modified_scrape/aggregator.rs::PVSSAggregator::receive_share", "src/modified_scrape/aggregator.rs::PVSSAggregator::share_verify", "src/modified_scrape/aggregator.rs::PVSSAggregator::aggregation_verify", "src/modified_scrape/decomp.rs::DecompProof::verify", "src/modified_scrape/share.rs::SignedProof::verify", "src/modified_scrape/decryption.rs::DecryptedShare::generate", "src/modified_scrape/poly.rs::lagrange_interpolation_g1"]}
{"id": "C110", "title": "Verification does not rely on unpredictable coins", "statement": "Refuted. A registered dealer who knows the state of the verifier's generator, in a session with at least t+3 participants, makes a share of a polynomial of degree above t that this verifier accepts, alone and inside a transcript; every slot is encrypted correctly, so nothing but the degree check could catch it. Exactly: such a share exists if and only if n > t+2 or the one scalar drawn is zero. So with n = t+2 the coins may be known as long as they are not zero.", "quantifier": "every engine, signature scheme, configuration with t+2 <= n < q, generator and generator state, dealer with a working key", "why_tests_cant": "A test passes some generator and never solves for a vector that fits its next draws; the claim is that one exists for every state.", "anchors": ["src/modified_scrape/poly.rs::ensure_degree", "src/modified_scrape/aggregator.rs::PVSSAggregator::share_verify", "src/modified_scrape/aggregator.rs::PVSSAggregator::core_verify", "src/modified_scrape/aggregator.rs::PVSSAggregator::aggregation_verify"]}
{"id": "C111", "title": "An accepted transcript has more than t contributors", "statement": "Refuted. Verification counts nobody. Any set of parties whose signing keys work, of any size, makes a transcript that lists just them, each of weight one with a secret of its choice, and whose slots hold the values of a polynomial of their choice whose constant is the sum of these secrets. Everybody accepts it whatever the coins, and every quorum opens it to that sum. One party is enough to fix the secret; with no party at all the slots can still be filled, with the secret zero. What the verdict does say about a list of contributors, exactly: an accepted transcript with just that list exists if and only if each of them is registered and some valid signed proof of it exists.", "quantifier": "every engine, signature scheme, configuration with t+2 <= n < q, full set of participants, duplicate-free list of ids, secrets and polynomial", "why_tests_cant": "A test aggregates the shares of all dealers and never asks which smaller sets would pass.", "anchors": ["src/modified_scrape/aggregator.rs::PVSSAggregator::aggregation_verify", "src/modified_scrape/aggregator.rs::PVSSAggregator::receive_aggregated_share", "src/modified_scrape/share.rs::PVSSAggregatedShare"]}
{"id": "C112", "title": "Signatures made with a generated key verify", "statement": "Down to the equations of Ed25519 (RFC 8032): Signature::verify accepts exactly the signatures whose two parts and whose key decode, with R and A not of small order, and that satisfy s B = R + H(R,A,M) A; it never panics. For every seed, the generated key loads and signs every digest, and the signature verifies unless the hash that gives the nonce is zero modulo the order, in which case it is refused. So the seeds that the theorems on whole sessions call good are exactly those that give no digest a zero nonce.", "quantifier": "every curve group of the shape of edwards25519 and of its size, hash function, seed and digest", "why_tests_cant": "A test signs one digest with one key; that no seed gives a zero signing scalar and that a zero nonce is refused needs the arithmetic.", "anchors": ["src/lib.rs::generate_keypair", "src/lib.rs::Signature::new", "src/lib.rs::Signature::verify"]}
{"id": "C113", "title": "A stored secret key with a tampered public half does not leak the key", "statement": "Refuted. SecretKey holds the secret and the public half, and Signature::new loads both without comparing them. Whoever can have one message signed once with the true half and once with any other half that decompresses to a point, the two challenges being different, computes the signing scalar from the two signatures, and from it valid signatures on all messages. What holds, exactly: a signature made with another public half is valid under that half if and only if the nonce is not zero, the half is not of small order, and the challenge takes both points to the same point.", "quantifier": "every curve group of the shape and size of edwards25519, hash function, seed, second half and digest", "why_tests_cant": "A test signs with keys from generate_keypair, whose halves match.", "anchors": ["src/lib.rs::Signature::new", "src/lib.rs::SecretKey", "src/lib.rs::generate_keypair"]}
{"id": "C114", "title": "A batch of signatures verifies exactly if each of them does", "statement": "Refuted, in both directions. Under the key that encodes the identity no signature verifies on its own, but in a batch one can be made for every digest without any secret, and it is accepted whatever the coefficients. Two signatures whose errors cancel are accepted together if their coefficients are equal. A signature under a key with a component of order eight that verifies on its own is refused in a batch unless the coefficient happens to fit. What holds: signatures that verify on their own, under keys in the subgroup of the base point, form a batch that verifies whatever the coefficients; for such keys the batch verifies exactly if everything decodes and the errors, weighted by the coefficients, cancel; and for all keys, a signature whose equation fails after multiplication by eight is let through for at most one value of its coefficient, the others being fixed, so for at most K^(n-1) of the K^n lists of n coefficients out of K <= l values.", "quantifier": "every curve group of the shape of edwards25519, hash function, digest, list of votes and list of coefficients", "why_tests_cant": "A test puts two honest signatures into a batch; small-order keys, mixed keys and chosen errors do not occur by chance.", "anchors": ["src/lib.rs::Signature::verify_batch", "src/lib.rs::Signature::verify"]}
{"id": "C115", "title": "The valid signatures under a generated key are those its holder can make", "statement": "Down to the equations of Ed25519: a signature is valid under the key generated from a seed if and only if its first part encodes r B for some 0 < r < l and its second part is the number (k a + r) mod l, with a the clamped number of the seed and k the challenge. Under any key, generated or not, a digest and a first part leave at most one valid second part, so nobody can change a valid signature and keep its first part. Two valid signatures with the same first part on digests with different challenges give away the key: they yield valid signatures on all digests.", "quantifier": "every curve group of the shape and size of edwards25519, hash function, seed, digest and pair of 32-byte parts", "why_tests_cant": "A test verifies signatures that were just made; it cannot enumerate the other valid ones.", "anchors": ["src/lib.rs::Signature::verify", "src/lib.rs::Signature::new", "src/lib.rs::generate_keypair"]}
{"id": "C116", "title": "What an unset key and an unset signature pass for", "statement": "The derived default of a public key, 32 zero bytes, is the point of edwards25519 with y = 0, which exists and has order four. If zero bytes stand for a point of order four then: single verification refuses every signature under the default key, and the default signature under every key; batch verification, behind any valid votes under keys in the subgroup of the base point, accepts the default key with the default signature if and only if four divides z + (k z mod l), with z the coefficient of this vote and k the hash of 64 zero bytes and the digest.", "quantifier": "every curve group of the shape of edwards25519, hash function, digest, list of valid votes and coefficients", "why_tests_cant": "No test verifies a default value, and whether one passes in a batch depends on the coefficients drawn.", "anchors": ["src/lib.rs::Signature::verify_batch", "src/lib.rs::Signature::verify", "src/lib.rs::PublicKey"]}
{"id": "C117", "title": "No single decryption key opens a transcript", "statement": "With degree t > 0, no party finds the secret of every correct transcript from what it decrypts with its own key: one key opens less than the threshold. (False: nothing is checked about the map of participants an aggregator or node is created with. A key registered under t + 1 ids decrypts t + 1 slots and the interpolation of the code gives the secret. Exactly: a key opens every correct transcript if and only if it is registered under more than t ids. A party registered with the zero point decrypts zero from every correct transcript, whatever its key.)", "quantifier": "every engine, configuration, map of participants, key and transcript with commitments of degree t and right slots", "why_tests_cant": "Tests register one fresh key per id; the claim is about every registration, and its exact form about every function of what a party decrypts.", "anchors": ["src/modified_scrape/aggregator.rs::PVSSAggregator::new", "src/modified_scrape/node.rs::Node::new", "src/modified_scrape/decryption.rs::DecryptedShare::generate", "src/modified_scrape/poly.rs::lagrange_interpolation_g1"]}
{"id": "C118", "title": "Sessions over Ed25519: every share is accepted but for a zero nonce", "statement": "In a fresh set-up with keys generated for the real signature scheme, every party can deal unless its coefficients are all zero, and every aggregator accepts the share exactly if the nonce of the one signature in it, a hash of the seed and the digest reduced modulo the order, is not zero. If the n nonces of a session are not zero, every delivery of shares and transcripts succeeds (up to 64 of them) and every quorum reconstructs the weighted sum of the secrets.", "quantifier": "every engine, Edwards curve group of the real size, seeds, generators and their states, degree t <= n-2, and schedule of at most 64 events", "why_tests_cant": "A nonce of zero cannot be hit by testing, and the acceptance concerns every seed and every share.", "anchors": ["src/modified_scrape/node.rs::Node::share", "src/modified_scrape/aggregator.rs::PVSSAggregator::receive_share", "src/modified_scrape/aggregator.rs::PVSSAggregator::share_verify", "src/lib.rs::generate_keypair", "src/lib.rs::Signature::new", "src/lib.rs::Signature::verify"]}
{"id": "C119", "title": "The odds that Ed25519 spoils a session", "statement": "In a session of n parties whose coefficients are not all zero, for at most n in 2^251 of the answers that SHA-512 may give to the n questions for nonces, some party has no share or one that an aggregator of the session rejects; with all other answers every delivery of a schedule of at most 64 events succeeds and every quorum reconstructs. The bound holds for all seeds and digests, also if parties share a seed.", "quantifier": "every engine, Edwards curve group of the real size, n seeds, generators and their states, degree t <= n-2 and aggregator; answers of SHA-512 counted over all n-tuples of 64-byte strings", "why_tests_cant": "The failing answers cannot be found by testing, and the bound is a count over all of them.", "anchors": ["src/modified_scrape/node.rs::Node::share", "src/modified_scrape/aggregator.rs::PVSSAggregator::share_verify", "src/lib.rs::generate_keypair", "src/lib.rs::Signature::new", "src/lib.rs::Signature::verify"]}
