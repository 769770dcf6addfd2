# Design

Formal model and proofs about `optrand_pvss` (`/repo`), in Rocq (Coq 8.16.1, mathcomp).

## Trusted base

* Coq's kernel (and `coqchk`).
* Axioms: none. `Print Assumptions` under each property theorem (files `Props*.v`) prints
  "Closed under the global context". `coqchk` reports, for the whole library, the constants that
  mathcomp and `Coq.ssr.ssrunder` seal behind module types; they have definitions and no theorem depends on
  an axiom.
* The reading of /repo. Nothing ties the model to the code mechanically; every definition of
  a `*Model.v` file cites the file and lines it models.
* The laws assumed of the external crates. They are fields of the records in `Engine.v`, not axioms:
  every theorem is quantified over all records, and `Instance.v` builds one (so the laws are consistent).

### Laws assumed of external crates (fields of `engine` and `curve`)

* The scalar field is the field of integers modulo a prime (`'F_modulus`).
* `G1`, `G2` are vector spaces over it, cyclic, with a non-zero generator. (Groups of prime order.)
* `GT` is a field; the pairing is bilinear, non-zero and non-degenerate.
* The codecs of points and scalars write a fixed number of bytes and decode what they wrote, leaving the rest.
* Hash functions (`hash_to_field`, SHAKE-256) are arbitrary functions. Nothing about collision resistance is assumed.
* EdDSA is five arbitrary functions. A theorem that needs a working key pair has that as a hypothesis, where possible only for the digests signed in the run (see C118).
* The random generator is an arbitrary state machine. A theorem about probabilities counts draws explicitly.
* `DensePolynomial` of ark-poly 0.2 is modelled as code (`PolyModel.v`: `poly_rand`, `truncate`, `evaluate`), from memory
  of that crate. `rand(d)` is taken to loop over `0..(d + 1)`. Were it `0..=d`, only a call with `d = 2^64 - 1` would
  differ: `ensure_degree` with n = t+1 in a release build, which here accepts and would run out of memory there.
* `std_hash` (StdHashModel.v): what points and scalars write into a `std::hash::Hasher` has a fixed number of pieces and
  determines the value. Used by C100 only.

### What is modelled

| Code | Model |
|---|---|
| poly.rs | `PolyModel.v` |
| nizk/dlk, nizk/dleq, signature/schnorr | `SigmaModel.v` |
| lib.rs types, EdDSA wrapper | `LibModel.v` |
| srs.rs, config.rs, participant.rs, dealer.rs, decomp.rs, pvss.rs, share.rs, aggregator.rs, node.rs, decryption.rs | `PvssModel.v` |
| lib.rs accessors, order of keys, wiping of secrets; `from_srs` of the sigma protocols | `KeyModel.v` |
| `std::hash::Hash`: derived ones and that of `DecompProof` | `StdHashModel.v` |
| derived and hand-written CanonicalSerialize/Deserialize | `CodecModel.v` |
| base64 text forms (crate base64 0.13, standard alphabet) | `Base64Model.v` |
| hash.rs (both copies) | `HashModel.v` |
| lib.rs key generation, the three `SRS::setup` of the sigma protocols, the set-up recipe and the blinded-decryption check of the tests of node.rs | `SetupModel.v` |
| the unit tests: every `#[test]` of nizk, signature/schnorr, decomp.rs, poly.rs, pvss.rs, share.rs and node.rs | `TestModel.v` |
| the three errors.rs: enumerations in `Errors.v`, texts (thiserror, decimal `usize`) | `DisplayModel.v` |

A call returns `Ok`, `Err` or `Panic` with the cause. `u64` arithmetic has both build profiles
(`Debug`: overflow panics; `Release`: wraps). A method with `&mut self` returns the new value also when it fails.

### What is not modelled

* The bodies of arkworks, blake2s_simd, rand_chacha, sha3, ed25519-dalek (see the laws above).
  For ed25519-dalek, `EdModel.v` gives an instance of those laws at the level of equations, after RFC 8032 and the
  published behaviour of version 1.0.1; the source of that crate is not in /repo, so C112–C114 trust this reading.
* Affine/projective representations: a point is one abstract value.
* Points outside the prime-order subgroup (checked deserialisation excludes them).
* What the compiler keeps of `SecretKey::drop` (the loop is modelled, in `KeyModel.v`), and copies of secrets made elsewhere.
* `usize` is `nat`; theorems that depend on the machine width say so (`vec_fits`, `u64_bound`).
* Of the unit tests: the seeding of `thread_rng` (each test runs from any generator state), the random choice of a
  degree (any degree), printing and timing in the benchmarks.
* Timing, allocation failure, stack use; `ParticipantState`; traits without implementation.

## Properties: plan

Each line: what is modelled, how it is proved. "refuted" means the full statement is false of the code;
then the theorem `..._refuted` gives the counterexample, in general form where possible, and `..._partial` gives what does hold.

* C01 `ensure_degree`. Dual-code identity: the divided difference of order n-1 of a polynomial of size < n vanishes.
* C02 `ensure_degree`. The sum is a linear functional of the drawn coefficients; non-zero if the vector is not of degree t; the kernel has exactly q^(m-1) elements.
* C03 refuted at n = t (both profiles) and n = t+1 (debug); partial: exact outcome for every length.
* C04-C07 the four interpolation functions. Lagrange interpolation over `{poly F}`; order of pairing values for GT.
* C08, C09 `share`, `share_pvss`, `share_verify`. Composition of C01, C04, C29 and EdDSA correctness.
* C10 counting on coefficient tuples: evaluation at t+1 distinct points is a bijection.
* C11 `share_verify`. Iff, by case analysis; the right-hand side is a predicate in Spec.v that does not use the model.
* C12 refuted: any other slot of an accepted share may be replaced. Partial: the dealer's own slot is right.
* C13 refuted: adding a polynomial vanishing at 0 to an accepted share keeps it accepted with the same proof.
* C14 `aggregation_verify`. Iff.
* C15 refuted: the code clones one r. Partial: the sum of all slots is right when r is not 0.
* C16-C18 `PVSSCore::aggregate`, `PVSSAggregatedShare::aggregate`. Extensionality of sorted maps.
* C19 case analysis. C20-C22 induction over histories. C23 permutations.
* C24 honest transcripts: invariant over honest histories, then C14.
* C25 refuted, from C12.
* C26 composition of C09, C22, C27, C05.
* C27 algebra and pairing.
* C28 refuted in general form: which errors can come out at all.
* C29-C38 sigma protocols and batch verification; polynomial root counting for C38.
* C39, C40 (refuted), C43, C44 (refuted): codec round trips.
* C41, C42 (refuted): base64 codec.
* C45 injectivity of hash inputs. C46 rejection loops over a stream.
* C47 EdDSA wrapper.
* C48, C49 refuted with general attacks.
* C50, C51 counting the draws for which a bad transcript or share is accepted.
* C52 refuted: contributors with ids at or above n are dropped silently.
* C53-C55 codecs on hostile bytes: totality, prefix-freeness (under `base_streaming`/`base_canonical`, laws of the
  point and scalar codecs that the theorem takes as hypotheses), well-formedness of what decodes.
* C56-C58 refuted: replay, derived shares, loopback. Each with a general attack and a partial theorem.
* C59 refuted without a bound (Fibonacci weights); partial: any schedule below the bound.
* C60-C62 every answer of verification and dealing as a relation, with draws consumed; the relation is shown functional.
* C63 set-up, composition of C62 and C59. C64 algebra of pairings. C65 refuted from C12; partial by C05 and C64; the exact condition (PropsQuorum.v) by
  interpolating the common result together with the first t decryptions.
* C66, C67 refuted by explicit shares made from a signed proof, or from a point of unknown logarithm.
* C68 codec round trips composed with the receive calls; invariant: weights and lengths of a transcript stay within
  their machine types.
* C69 refuted: two dealings of one dealer; invariant: the recorded proof of a contributor never changes. Exact partial.
* C70-C72 counting coefficient sequences with the verdicts of C62 and Lagrange interpolation; C72 refuted by a dealer
  that speaks last.
* C73, C74 base64 of a prefix of 3k bytes is a prefix of the base64 text. Both refuted.
* C75 refuted with the shifted share of C13; partial from C21-C23. C76 refuted: extensionality of the loops; partial:
  Lagrange coefficients at non-zero points are not zero. C77 refuted by the identity.
* C78 a relation between the outcomes of the two builds, closed under bind; where they part, by the first
  offending identifier of the merge.
* C79-C82 the verdict of each unit test as a function of the draws, from the completeness and soundness theorems and,
  for the nodes, the invariant of C59.
* C83 injectivity of the error texts: literals differ before the first field, fields end where the next literal starts.
* C84 receiving as a relation, total on reachable states and functional; composes C18 with the structural invariant.
* C85 the slot checks described in the comments of aggregator.rs (one block commented out, one with a coefficient per slot) are modelled in PropsSlots.v and compared with the one in force; all three as a linear form of the coefficients.
* C86 a simulator for the output of `share_pvss`: Lagrange interpolation in the exponent, and a bijection between coefficient sequences and pairs of secret and values.
* C87 verdicts do not depend on the history, nor (low degree, non-zero draw) on the coins or the build.
* C88 repeated nonces: explicit formulas for the key or the difference of secrets.
* C89 what signatures guarantee: every recorded contribution was delivered in the name of its participant (induction over the history), so it is one the participant signed; composes with C21 and C84.
* C90 extends C86 to the output of `share`: the bijection also maps nonce and hash answer to response and challenge.
* C91 lengths from the codec model, the sizes in C11, C14 and C20, and the number of keys of a sorted map.
* C12, C15, C48, C49 and C52 are sharpened in PropsFree.v: which changes of a message leave the answer unchanged, as equivalences where possible.
* C92 order of delivery: the transcript in closed form by induction over C84's relation; totals of weights are permutation invariant.
* C93 related keys for Schnorr: the challenge does not bind the key; transformation of keys and signatures, and its converse.
* C94 order of keys and small accessors of lib.rs (KeyModel.v): comparison against the big-endian value; wiping; from_srs.
* C95 C95 (PropsLinear.v) states that decryption and interpolation are linear as equalities of outcomes. `both` runs two computations and combines the results; `reconstruct` is what a quorum does (decrypt each slot, interpolate). No well-formedness is assumed.
* Exact forms of C13, C31, C58 and C76 are in PropsSharp.v, of C42, C44 and C53 in PropsSharpText.v. They say, as equivalences, where the worded property fails and where it holds.
* Exact forms of C56, C57, C72 and C75 are in PropsSharpRace.v: weights as counts, which copies are accepted, how many secrets the last dealer can steer, and when mixed quorums agree.
* C96 (PropsSession.v) extends C90 from one share to a session: the coins are functions from dealers to coefficients, nonce and answer, the simulator works dealer by dealer, and tests see all outcomes together, failed dealings included.
* C97 (PropsFrame.v) frame conditions: each operation gives equal outcomes on inputs that agree on the fields it reads. By congruence of the loops.
* C98 (Forking.v, PropsForking.v) attackers against the three sigma protocols, with the hash replaced by a lazily sampled table (`with_log` on top of `with_hash`). Forking.v is the counting lemma (Cauchy-Schwarz over common prefixes), PropsForking.v relates runs of the attacker that share a prefix.
* C99 (PropsCma.v) the attack game with signing requests, its simulation without the key, a bijection of the coins between the two, and the count of nonce collisions; then the lemma of Forking.v.
* C100 (StdHashModel.v, PropsStdHash.v) `Hash for DecompProof` and the derived ones, as sequences of `write` calls; injectivity by fixed numbers of pieces.
* C101 (Pratt.v, PropsCurve.v) primality by certificate; existence of an engine of that order; the conditions modulo q of C48, C50, C51 and config_ok at that order. `C101_small_order` is what happens for n >= q.
* C102 (PropsUnbiased.v) counting blocks: a value is returned if it is hit after some misses. It is the premise on which C98 and C99 take the answers of the hash to be uniform.
* C103 (PropsOverride.v, Weights.v) existence of weights by a second-moment count over the answers: two different weight vectors are satisfied together by at most q^(k-2) answers, so by Cauchy-Schwarz few answers are satisfied by none. Weights.v models no code.
* C104 (PropsWork.v) the readers once more with a counter, shown equal to the readers of CodecModel.v; the bound goes through sequencing, so it holds of every reader built from the combinators.
* C105 (PropsAdaptive.v) one call reads a prefix of the tape, and the set of tapes that agree with a given past and are unlucky for the message then sent is at most one in q; by induction on the number of calls the union is at most N in q. Soundness of a message does not depend on what the aggregator holds, so the union can be taken over the calls.
* C106 (PropsSmall.v) the verdicts of C60 and C61 for the configurations these leave out; the specification reuses their relations with a degree test that always fails or always passes.
* C107 (PropsCost.v) counted versions of the verification functions and of the merge: the outcome is proved to be that of the model, the number of steps is bounded. The price list (which operation counts how many steps) is in the definitions; code without loops is paid in full.
* C108 (PropsRuin.v) the deviation of a pair of vectors is a quotient of two products of pairings, independent of the verifier; C108 follows it through histories.
* C109 (PropsReuse.v) the derived share of C57 is followed to the end of a later session: opens_to is what a quorum computes with decrypted_share_generate and lagrange_interpolation_g1.
* C110 (PropsCoins.v) shares made for a known generator state; the share is checked by share_verify and aggregation_verify themselves, the degree by the low_degree of Spec.v.
* C111 (PropsCoalition.v) all_accept and opens_to of PropsReuse.v; the list of contributors is read off the map of the transcript; can_sign asks for a working signing key of the registered public key.
* C112 (PropsEd.v) ed_valid is the equation of RFC 8032 with the two points not of small order; full_size says that the group is as large as the real one. EdInstance.v gives a group of the real order (with a proof that it is prime).
* C113 (PropsEd.v) recover and forge use only the two signatures, the message and the two public halves.
* C114 (PropsEdBatch.v) defect is what the verification equation of one vote lacks; the coefficients of the batch verifier are a parameter.
* C115 (PropsEdUnique.v) seed_number is the clamping of RFC 8032 written with division; the statement speaks of numbers and multiples of the base point only.
* C116 (PropsEdDefault.v) on_curve and ed_add are the equation and the addition of RFC 8032, section 5.1. That the addition makes a group is not proved; the group of EdModel.v is any group of the right shape.
* C117 (PropsSybil.v) good_core: sizes, commitments of degree t over the generator, right slots. view: what a key decrypts in the slots registered with it. F in C117_exact_partial is any Coq function of the view, with unbounded running time; it does not see the commitments (from which an unbounded F would find the secret).
* C118 (PropsEdSession.v) nonce is the number r of the signature, before it is taken as a scalar. Honest keys are assumed to work on the digests that are signed in the run (works_on, can_prove, good_for), not on all digests: there are 2^256 digests and fewer than 2^253 nonces, so a real key need not work on all. The exact counts of C71 and C72 (party_of) and the examples still ask for a key that works on every digest; their upper bounds (C71_at_most_one, C72_honest_bound_partial) and C70 ask only for a key that can be read.
* C119 (PropsEdOdds.v) reprogram replaces the answers of SHA-512 at the questions; equal questions get one answer. Nothing else of the curve or of the scheme changes, and the dealings (core, proof, digest) do not depend on SHA-512, so the digests in the questions are those of the session.

A refuted property `Cxx` has its wording as a `Definition Cxx_full : Prop`, and `Cxx_full_refuted : ~ Cxx_full`,
where the general-form theorem alone would not show it.

## Seeded bugs

`seeded/LOG.jsonl` lists edits of the model made in a scratch copy, one at a time, and the theorems that stop proving.
A theorem counts as failing also when a lemma it uses stops proving.
