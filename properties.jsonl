{"id": "C01", "title": "Decryption inverts encryption", "statement": "For a keypair (sk, pk): sk.decrypt_to_element(pk.encrypt(v, rng)) == [v]G, and sk.decrypt_to_element(pk.encrypt_element(M, rng)) == M. CiphertextWithValue::new(v, pk, rng) yields a ciphertext that decrypts the same way.", "quantifier": "every secret key (including zero-like edge scalars), every value / group element, every RNG and RNG state, every prime-order group backend", "why_tests_cant": "Keys, values and randomness range over groups of ~2^252 elements; a test samples a few.", "anchors": ["src/keys/impls.rs: PublicKey::encrypt, PublicKey::encrypt_element, SecretKey::decrypt_to_element", "src/encryption.rs: ExtendedCiphertext::new, CiphertextWithValue::new"]}
{"id": "C02", "title": "Ciphertext arithmetic is homomorphic", "statement": "Any expression built from ciphertexts with zero(), non_blinded(), +, -, unary -, * scalar and * u64 decrypts to the group element obtained by evaluating the same expression on the plaintexts.", "quantifier": "every expression tree of any depth over ciphertexts under one key, every key and value", "why_tests_cant": "Unbounded expression depth and scalar values.", "anchors": ["src/encryption.rs: Ciphertext::zero, Ciphertext::non_blinded, impl Add/Sub/Neg/Mul for Ciphertext"]}
{"id": "C03", "title": "DiscreteLogTable answers exactly", "statement": "DiscreteLogTable::new(values).get([x]G) returns Some(x) whenever x is 0 or occurs in values, and None for every group element that is not [v]G for such a v; sk.decrypt(pk.encrypt(v), table) == Some(v) for every tabulated v.", "quantifier": "every list of u64 values (with repetitions, in any order), every group element, every group of order above 2^64", "why_tests_cant": "The table ranges over arbitrary value lists and lookups over the whole group.", "anchors": ["src/encryption.rs: DiscreteLogTable::new, DiscreteLogTable::get", "src/keys/impls.rs: SecretKey::decrypt", "src/decryption.rs: VerifiableDecryption::decrypt"]}
{"id": "C04", "title": "Key arithmetic keeps secret and public parts matched", "statement": "Every Keypair reachable through generate, From<SecretKey>, and * scalar has public element [secret]G and public bytes equal to the serialization of that element; PublicKey +, * scalar, * u64 applied to PublicKey::from(&sk_i) equal PublicKey::from of the same SecretKey expression.", "quantifier": "every sequence of key operations, every scalar", "why_tests_cant": "Unbounded operation histories and scalar values.", "anchors": ["src/keys/mod.rs: SecretKey, PublicKey, Keypair and their operator impls"]}
{"id": "C05", "title": "PublicKey::from_bytes accepts exactly valid non-identity encodings", "statement": "from_bytes(b) is Err(InvalidByteSize) iff len differs from ELEMENT_SIZE, Err(InvalidGroupElement) iff the group rejects the buffer, Err(IdentityKey) iff it decodes to identity, and otherwise Ok with exactly that element and those bytes; as_bytes/from_bytes round-trip for every key that is not the identity.", "quantifier": "every byte string of every length", "why_tests_cant": "The input space is all byte strings.", "anchors": ["src/keys/mod.rs: PublicKey::from_bytes, PublicKey::from_element, PublicKeyConversionError"]}
{"id": "C06", "title": "Byte codecs round-trip and reject malformed input", "statement": "SecretKey, LogEqualityProof, RingProof, Ciphertext component and CandidateDecryption byte encodings satisfy from_bytes(to_bytes(x)) == Some(x); from_bytes returns None on every buffer of wrong length (not SCALAR_SIZE, not 2*SCALAR_SIZE, not a multiple or shorter than 3*SCALAR_SIZE, not ELEMENT_SIZE) and, when it returns Some, re-encoding gives the same scalar bytes. Encoded LogEqualityProofs and RingProofs have the documented layout: the challenge first, then the response(s) in order, each in SCALAR_SIZE bytes.", "quantifier": "every proof with any number of responses, every byte string", "why_tests_cant": "All lengths and contents.", "anchors": ["src/keys/mod.rs: SecretKey::from_bytes", "src/proofs/log_equality.rs: to_bytes, from_bytes", "src/proofs/ring.rs: RingProof::to_bytes, from_bytes", "src/decryption.rs: VerifiableDecryption::to_bytes, CandidateDecryption::from_bytes", "src/encryption.rs: Ciphertext::to_bytes"]}
{"id": "C07", "title": "LogEqualityProof is complete", "statement": "LogEqualityProof::new(K, r, ([r]G, [r]K), T, rng) verifies against the same base, powers and transcript state, and afterwards prover and verifier transcripts are in the same state.", "quantifier": "every log base, secret, transcript history, RNG state and hash function", "why_tests_cant": "Transcript histories and scalars are unbounded.", "anchors": ["src/proofs/log_equality.rs: LogEqualityProof::new, verify"]}
{"id": "C08", "title": "LogEqualityProof acceptance is exactly the sigma-protocol equation", "statement": "verify accepts (c, s) iff c equals the transcript hash of: prior context, dom-sep log_eq, K, [r]G, [r]K and the unique commitments X_G = [s]G - [c]P0, X_K = [s]K - [c]P1, in that order; otherwise it returns ChallengeMismatch.", "quantifier": "every proof, statement, transcript history and hash function", "why_tests_cant": "Needs all proofs, including adversarial ones.", "anchors": ["src/proofs/log_equality.rs: LogEqualityProof::verify", "src/proofs/mod.rs: TranscriptForGroup"]}
{"id": "C09", "title": "LogEqualityProof is sound", "statement": "If the powers have different discrete logs w.r.t. G and K, then for every pair of commitments at most one challenge value has any accepting response; so verify can accept only if the hash of the transcript hits one value fixed by the hash input. From two accepting responses for the same commitments and different challenges the secret is computable and satisfies both equations.", "quantifier": "every false statement, every adversarial commitment and response, every hash function", "why_tests_cant": "A universally quantified negative statement over adversarial proofs.", "anchors": ["src/proofs/log_equality.rs: LogEqualityProof::verify"]}
{"id": "C10", "title": "Proofs are bound to their whole context", "statement": "The hash input queried when verifying a LogEqualityProof, ProofOfPossession, RingProof, RangeProof, SumOfSquaresProof or CommitmentEquivalenceProof determines the preceding transcript, the receiver key, the statement and the commitments: two verifications that query the same input agree on all of these. (For the ring proof the common challenge only binds terminal commitments; admissible values are not bound, as documented; for the commitment proof the blinding base is not bound.)", "quantifier": "every pair of contexts and statements of the same protocol", "why_tests_cant": "Quantifies over all pairs of transcripts.", "anchors": ["src/proofs/mod.rs: TranscriptForGroup", "src/proofs/log_equality.rs", "src/proofs/possession.rs", "src/proofs/ring.rs", "src/proofs/mul.rs", "src/proofs/commitment.rs", "src/proofs/range.rs"]}
{"id": "C11", "title": "LogEqualityProof reveals nothing beyond the statement (honest-verifier ZK)", "statement": "For every challenge value, the prover's conversations over its one random scalar are in exact one-to-one correspondence with the conversations of a simulator that knows no secret; every accepting conversation is produced by exactly one random scalar.", "quantifier": "every true statement, every challenge", "why_tests_cant": "A statement about whole distributions.", "anchors": ["src/proofs/log_equality.rs: LogEqualityProof::new"]}
{"id": "C12", "title": "Zero encryption: complete and sound", "statement": "pk.encrypt_zero(rng) returns a ciphertext decrypting to the identity and a proof that pk.verify_zero accepts; a ciphertext that does not decrypt to the identity is accepted only if the transcript hash equals the single challenge determined by the commitments.", "quantifier": "every key, RNG state, ciphertext, proof", "why_tests_cant": "All ciphertexts and adversarial proofs.", "anchors": ["src/keys/impls.rs: encrypt_zero, verify_zero"]}
{"id": "C13", "title": "ProofOfPossession: complete, length-checked, and knowledge-sound", "statement": "ProofOfPossession::new over any list of keypairs verifies for their public keys in order; verification with a different number of keys returns LenMismatch with the two lengths; two accepting response vectors for equal commitments and different challenges yield the secret of every key.", "quantifier": "every number of keypairs, every transcript and RNG state, every adversarial proof", "why_tests_cant": "Unbounded number of keys.", "anchors": ["src/proofs/possession.rs: ProofOfPossession::new, from_keys, verify"]}
{"id": "C14", "title": "Ring proofs are complete for every shape", "statement": "A RingProofBuilder fed any sequence of (admissible values, value index) rings with a response buffer of the total size yields a proof that RingProof::verify accepts for the produced ciphertexts, whatever the number of rings, ring sizes and chosen indexes; each ciphertext encrypts the admissible value chosen.", "quantifier": "every number of rings, every ring size >= 1, every value index, all RNGs, transcripts and hash functions", "why_tests_cant": "Unbounded rings and sizes.", "anchors": ["src/proofs/ring.rs: RingProofBuilder, Ring::new, Ring::aggregate, Ring::finalize, RingProof::verify"]}
{"id": "C15", "title": "Ring proof acceptance is exactly the ring equations", "statement": "RingProof::verify accepts iff the number of responses equals the total ring size and, for every ring, walking the ring from the common challenge through all equations gives terminal commitments whose hash, taken over all rings in order, equals the common challenge; a wrong number of responses gives LenMismatch.", "quantifier": "every proof, statement and transcript", "why_tests_cant": "All adversarial proofs.", "anchors": ["src/proofs/ring.rs: RingProof::verify"]}
{"id": "C16", "title": "Ring proofs are sound", "statement": "If an accepted ring proof contains a ring whose ciphertext encrypts none of its admissible values, then every hash link of that ring hits the unique challenge determined by the next equation's commitments (the common challenge for equation 0, the per-equation hash for the rest). In particular an accepted pk.verify_bool implies the plaintext is 0 or 1 unless such a hit occurs.", "quantifier": "every adversarial ring proof of any shape", "why_tests_cant": "Quantifies over adversarial proofs.", "anchors": ["src/proofs/ring.rs: RingProof::verify", "src/keys/impls.rs: verify_bool"]}
{"id": "C17", "title": "Boolean encryption works", "statement": "pk.encrypt_bool(b, rng) gives a ciphertext that decrypts to [b]G with a proof of exactly 3 scalars that pk.verify_bool accepts; proof with another number of responses is rejected with LenMismatch.", "quantifier": "every key, both values, every RNG state", "why_tests_cant": "All keys and randomness.", "anchors": ["src/keys/impls.rs: encrypt_bool, verify_bool"]}
{"id": "C18", "title": "RangeDecomposition::optimal covers exactly the requested range", "statement": "For every n >= 2 optimal(n).upper_bound() == n; every ring has size >= 2 and step >= 1; the set of sums of one admissible value per ring is exactly {0, .., n-1}; optimal panics for n < 2.", "quantifier": "every u64 n from 2 up to the documented overflow limit, for any pruning estimate", "why_tests_cant": "The search is run per n; tests check a handful.", "anchors": ["src/proofs/range.rs: RangeDecomposition::optimal, optimize, just, combine_mul, upper_bound"]}
{"id": "C19", "title": "Range values decompose correctly", "statement": "For a decomposition produced by optimal(n) and every v < n, decomposition yields one index per ring, each smaller than the ring's size, with sum of index*step equal to v; PreparedRange panics exactly for v >= n.", "quantifier": "every n and every v < n", "why_tests_cant": "All pairs (n, v).", "anchors": ["src/proofs/range.rs: RangeDecomposition::decompose, PreparedRange::decompose"]}
{"id": "C20", "title": "RangeDecomposition::optimal minimises proof size", "statement": "No decomposition of the documented form has a smaller proof_size() than optimal(n), and among those of equal size none has fewer rings; the memo table and the pruning by the logarithmic lower bound never change the result; the integer lower bound used without std is a valid lower bound.", "quantifier": "every n, every alternative decomposition", "why_tests_cant": "Optimality ranges over all alternatives.", "anchors": ["src/proofs/range.rs: RangeDecomposition::optimize, lower_len_estimate, proof_size"]}
{"id": "C21", "title": "The printed decomposition identifies the range", "statement": "Two valid range decompositions have equal Display output (the string committed to the transcript) only if they are equal.", "quantifier": "every pair of decompositions with positive steps, of any length", "why_tests_cant": "All pairs of decompositions.", "anchors": ["src/proofs/range.rs: impl Display for RangeDecomposition"]}
{"id": "C22", "title": "Range proofs are complete", "statement": "pk.encrypt_range(range, v, rng) for v below the bound returns a ciphertext decrypting to [v]G and a proof that pk.verify_range accepts; RangeProof::new / from_ciphertext + verify likewise under any shared transcript; out-of-range values panic.", "quantifier": "every decomposition from optimal, every in-range value, all keys, RNGs, transcripts", "why_tests_cant": "All ranges and values.", "anchors": ["src/proofs/range.rs: RangeProof::new, from_ciphertext, verify", "src/keys/impls.rs: encrypt_range, verify_range"]}
{"id": "C23", "title": "Range proofs are sound", "statement": "If RangeProof::verify accepts then either the ciphertext decrypts to [v]G with 0 <= v < upper_bound, or some ring is false and all its hash links hit their unique bad challenge; a proof with a wrong number of partial ciphertexts or responses is rejected with LenMismatch.", "quantifier": "every adversarial range proof and ciphertext", "why_tests_cant": "Adversarial inputs.", "anchors": ["src/proofs/range.rs: RangeProof::verify"]}
{"id": "C24", "title": "SumOfSquaresProof is complete", "statement": "For ciphertexts of x_1..x_n and a ciphertext of x_1^2+..+x_n^2 under one key, SumOfSquaresProof::new yields a proof that verify accepts, leaving equal transcripts.", "quantifier": "every n, every value vector, all randomness", "why_tests_cant": "Unbounded n.", "anchors": ["src/proofs/mul.rs: SumOfSquaresProof::new, verify"]}
{"id": "C25", "title": "SumOfSquaresProof is sound", "statement": "Two accepting conversations with equal commitments and different challenges give openings x_i of every ciphertext with the sum ciphertext encrypting the sum of x_i^2; if the sum is wrong at most one challenge per commitment can be answered; response count mismatch gives LenMismatch.", "quantifier": "every adversarial proof, any number of ciphertexts", "why_tests_cant": "Adversarial inputs, unbounded n.", "anchors": ["src/proofs/mul.rs: SumOfSquaresProof::verify, OddItems"]}
{"id": "C26", "title": "CommitmentEquivalenceProof is complete", "statement": "CommitmentEquivalenceProof::new returns the Pedersen commitment [v]G + [r]H to the encrypted value and a proof that verify accepts.", "quantifier": "every ciphertext-with-value, secret, base H, RNG, transcript", "why_tests_cant": "All inputs.", "anchors": ["src/proofs/commitment.rs: CommitmentEquivalenceProof::new, verify"]}
{"id": "C27", "title": "CommitmentEquivalenceProof is knowledge-sound", "statement": "Two accepting conversations with equal commitments and different challenges give (r, v, r_c) with R=[r]G, B=[v]G+[r]K and C=[v]G+[r_c]H, i.e. the same v opens both.", "quantifier": "every adversarial proof", "why_tests_cant": "Adversarial inputs.", "anchors": ["src/proofs/commitment.rs: CommitmentEquivalenceProof::verify"]}
{"id": "C28", "title": "Verifiable decryption is complete and sound", "statement": "VerifiableDecryption::new(ct, keypair) gives a decryption with decrypt_to_element(ct) equal to the secret-key decryption and a proof accepted by CandidateDecryption::verify; a candidate with the wrong element is accepted only on a unique-challenge hash hit.", "quantifier": "every ciphertext, key, RNG, transcript, candidate", "why_tests_cant": "Adversarial candidates.", "anchors": ["src/decryption.rs: VerifiableDecryption::new, decrypt_to_element, CandidateDecryption::verify"]}
{"id": "C29", "title": "Any threshold of valid shares decrypts", "statement": "combine_shares over any t distinct valid participant shares, in any order and followed by anything, returns Some(decryption) equal to the decryption under the shared secret; it returns None iff fewer than t shares are given and panics iff one of the first t indexes is out of bounds.", "quantifier": "every (n, t), every polynomial, every t-subset in every order, every ciphertext", "why_tests_cant": "Combinatorially many subsets and all polynomials.", "anchors": ["src/sharing/mod.rs: Params::combine_shares, lagrange_coefficients"]}
{"id": "C30", "title": "Combining a repeated index gives a wrong decryption (expected safety is false)", "statement": "Expected: combine_shares never returns a wrong decryption when one participant's valid share is supplied more than once. This is FALSE of the code and the refutation is the claim: repeated indexes are not detected, t copies of the share (i, D) combine to Some(D * t) for every i, D and t (instead of None or the right decryption), and there are valid shares for which the combined decryption differs from the plaintext.", "quantifier": "every list of valid shares, possibly with repeated indexes", "why_tests_cant": "All lists of shares.", "anchors": ["src/sharing/mod.rs: Params::combine_shares, lagrange_coefficients"]}
{"id": "C31", "title": "Fewer than threshold shares reveal nothing about the secret", "statement": "For any set of fewer than t participant shares and any candidate secret there is a dealer polynomial consistent with both; with exactly t-1 shares it is unique.", "quantifier": "every t, every set of up to t-1 shares, every candidate secret", "why_tests_cant": "Information-theoretic statement over all polynomials.", "anchors": ["src/sharing/participant.rs: Dealer::new, Dealer::secret_share_for_participant"]}
{"id": "C32", "title": "Honest dealing succeeds", "statement": "For Dealer::new(params) PublicKeySet::new(params, poly, proof) is Ok, its shared key is [P(0)]G, participant i's key is [P(i+1)]G, and ActiveParticipant::new accepts the dealt share for every i < n; a share is accepted iff it is the discrete log of the participant key.", "quantifier": "every 1 <= t <= n, every RNG", "why_tests_cant": "All parameters and randomness.", "anchors": ["src/sharing/participant.rs: Dealer, ActiveParticipant::new", "src/sharing/key_set.rs: PublicKeySet::new, validate", "src/sharing/mod.rs: PublicPolynomial::value_at"]}
{"id": "C33", "title": "PublicKeySet::from_participants accepts exactly degree-<t key vectors", "statement": "from_participants(params, keys) is Err(ParticipantCountMismatch) iff the count differs from n; otherwise Ok iff there is a polynomial with t coefficients such that keys[i] = [P(i+1)]G for all i, and then the shared key is [P(0)]G; otherwise Err(MalformedParticipantKeys). It agrees with PublicKeySet::new on the same polynomial.", "quantifier": "every (n, t) and every key vector", "why_tests_cant": "All key vectors, all sizes.", "anchors": ["src/sharing/key_set.rs: PublicKeySet::from_participants"]}
{"id": "C34", "title": "Share proofs are complete and bind to the participant", "statement": "participant.decrypt_share(ct) yields a share accepted by key_set.verify_share for the participant's index, equal to [share]R; participant.proof_of_possession is accepted by verify_participant; a share different from [share_i]R is accepted only on a unique-challenge hash hit; the verified hash input contains n, t, the shared key and the index.", "quantifier": "every key set, participant, ciphertext, candidate share", "why_tests_cant": "Adversarial shares.", "anchors": ["src/sharing/key_set.rs: verify_share, verify_participant, commit", "src/sharing/participant.rs: decrypt_share, proof_of_possession"]}
{"id": "C35", "title": "Threshold decryption end to end", "statement": "After honest dealing, encrypting v under the shared key, producing decryption shares by any t participants, verifying and combining them in any order yields v.", "quantifier": "all (n,t), subsets, values, randomness", "why_tests_cant": "Whole-protocol universal statement.", "anchors": ["src/sharing", "src/decryption.rs"]}
{"id": "C36", "title": "DKG: all honest participants agree", "statement": "When all participants follow the DKG and messages of each phase are delivered to each participant in any order, every insert succeeds, every complete() is Ok, and all participants get identical key sets whose shared key is the sum of the dealers' keys; each participant's share is the discrete log of its participant key, and any t of them decrypt.", "quantifier": "every n, t, all RNGs, every delivery order per participant and phase", "why_tests_cant": "Delivery orders are factorial in n, and n is unbounded.", "anchors": ["src/dkg.rs"]}
{"id": "C37", "title": "DKG: a completed participant is always consistent", "statement": "Under arbitrary (adversarial) inputs, if complete() returns Ok(p) then p's secret share is the discrete log of its participant key in its key set, and every accepted secret share matched the sender's published polynomial; complete() is Ok whenever the participant's own polynomial was not replaced. The key set of p passes PublicKeySet::from_participants, which restores it from the participant keys, and p is the only participant ActiveParticipant::new restores from the key set and its index.", "quantifier": "every sequence of inserts with any arguments", "why_tests_cant": "Adversarial histories.", "anchors": ["src/dkg.rs: ParticipantCollectingPolynomials::insert_public_polynomial, ParticipantExchangingSecrets::insert_secret_share, complete"]}
{"id": "C38", "title": "DKG: phase bookkeeping is exact", "statement": "missing_commitments / missing_public_polynomials / missing_shares list exactly the indexes not yet supplied, finish_* panics iff that list is non-empty, rejected inserts leave the state unchanged, a repeated secret share gives DuplicateShare, and commitments cannot be replaced.", "quantifier": "every history of inserts", "why_tests_cant": "Histories are unbounded.", "anchors": ["src/dkg.rs: missing_*, insert_*, finish_*"]}
{"id": "C39", "title": "DKG: published polynomials match earlier commitments", "statement": "insert_public_polynomial(i, info) succeeds only if SHA-256(serialized constant term || opening) equals the commitment stored for i and the polynomial's possession proof is valid; otherwise InvalidCommitment / MalformedParticipantProof.", "quantifier": "every commitment and public info", "why_tests_cant": "Adversarial inputs.", "anchors": ["src/dkg.rs: insert_public_polynomial, create_commitment"]}
{"id": "C40", "title": "DKG: only the constant term of a published polynomial is final (expected finality is false)", "statement": "Expected: once a participant's polynomial has been accepted it cannot be replaced. This is FALSE of the code for every threshold >= 2, every participant and even for the receiver's own index: a second insert_public_polynomial with the same constant term and opening but other coefficients is accepted and replaces the first. What holds: two accepted polynomials for the same commitment agree in the constant term and the opening, unless SHA-256 collides.", "quantifier": "every history of insert_public_polynomial calls", "why_tests_cant": "Histories.", "anchors": ["src/dkg.rs: insert_public_polynomial"]}
{"id": "C41", "title": "EncryptedChoice is complete", "statement": "EncryptedChoice::single(params, k) / new(params, choices) verifies under the same params and returns one ciphertext per option decrypting to the chosen bits (for single-choice params: if exactly one option is chosen); they return for all arguments within documented bounds; zero options, an index out of bounds and a wrong number of choices panic as documented. A wrong number of selected options with single-choice params yields a value that does not verify (see C42).", "quantifier": "every options count, every choice vector, all RNGs", "why_tests_cant": "Unbounded options and randomness.", "anchors": ["src/app/choice.rs: EncryptedChoice::single, new, verify"]}
{"id": "C42", "title": "EncryptedChoice is sound", "statement": "If verify accepts with single-choice params then, unless a unique-challenge hash hit occurs, every ciphertext decrypts to 0 or 1 and exactly one decrypts to 1; with multi-choice every one decrypts to 0 or 1; a wrong number of ciphertexts is reported as OptionsLenMismatch. An honestly produced single-choice value with a number of selected options other than one is accepted only upon such a hash hit.", "quantifier": "every adversarial encrypted choice, options count below the group order", "why_tests_cant": "Adversarial inputs.", "anchors": ["src/app/choice.rs: EncryptedChoice::verify, SingleChoice, MultiChoice"]}
{"id": "C43", "title": "Integer square root is exact", "statement": "The default maximum number of votes per option equals floor(sqrt(credits)) and its computation never overflows.", "quantifier": "every u64", "why_tests_cant": "2^64 inputs.", "anchors": ["src/app/quadratic_voting.rs: isqrt, QuadraticVotingParams::new"]}
{"id": "C44", "title": "QuadraticVotingParams report what was configured", "statement": "For 1 <= credits in the supported range, new(..).credits() == credits and max_votes() == floor(sqrt(credits)); after set_max_votes(m) succeeds max_votes() == m and credits() is unchanged.", "quantifier": "every credit amount and vote limit in range", "why_tests_cant": "All u64 values.", "anchors": ["src/app/quadratic_voting.rs: QuadraticVotingParams"]}
{"id": "C45", "title": "set_max_votes refuses limits whose square exceeds the credits", "statement": "For a limit m >= 1, set_max_votes(m) succeeds iff m*m <= credits, and panics otherwise, in builds with overflow checks or when m*m < 2^64. The documented panic is FALSE in builds without overflow checks: m*m wraps, so e.g. set_max_votes(2^32) succeeds for every amount of credits. set_max_votes(0) always panics although 0*0 <= credits.", "quantifier": "every m, credits, build profile", "why_tests_cant": "Overflow is only visible for large inputs in release builds.", "anchors": ["src/app/quadratic_voting.rs: QuadraticVotingParams::set_max_votes"]}
{"id": "C46", "title": "Quadratic voting ballots are complete", "statement": "For votes within max_votes and with sum of squares at most credits, QuadraticVotingBallot::new returns and verify accepts, returning ciphertexts decrypting to the votes; too-large votes panic; overspending panics in builds with overflow checks or when the sum of squares is below 2^64. In builds without overflow checks an overspending sum of squares may wrap so that new returns (such ballots do not verify, see C47).", "quantifier": "every options count, every vote vector within limits, all RNGs", "why_tests_cant": "Unbounded.", "anchors": ["src/app/quadratic_voting.rs: QuadraticVotingBallot::new, verify"]}
{"id": "C47", "title": "Quadratic voting ballots are sound", "statement": "If verify accepts then, unless a unique-challenge hash hit occurs, each vote decrypts to an integer within 0..=max_votes and the sum of squares (over the integers) is at most credits, provided options*max_votes^2 is below the group order.", "quantifier": "every adversarial ballot", "why_tests_cant": "Adversarial inputs; wrap-around modulo the group order must be excluded.", "anchors": ["src/app/quadratic_voting.rs: QuadraticVotingBallot::verify"]}
{"id": "C48", "title": "Verification never panics on untrusted input", "statement": "Verifying any proof / ballot / share received from another party returns Ok or Err and never panics, for any parsed contents, on backends that can encode every element (Ristretto, Curve25519 subgroup). On the generic SEC1 backend the claim is false (a proof with all-zero scalars crashes every verifier); there verification panics only if a recomputed commitment is the identity.", "quantifier": "every parsed proof object, every backend", "why_tests_cant": "Adversarial inputs.", "anchors": ["src/proofs", "src/app", "src/sharing/key_set.rs", "src/group/generic.rs: serialize_element"]}
{"id": "C49", "title": "Debug and release builds agree", "statement": "Build profile (debug assertions, overflow checks) never changes a result: all verifiers and parsers are the same function in every build; whatever a debug build returns, every build returns; and calls within the documented contract (boolean and range encryption, choices, quadratic-voting parameters and ballots, completing key generation) have equal outcomes in any two builds. Outside the contract profiles do differ: set_max_votes(2^32) panics with overflow checks and succeeds without them.", "quantifier": "every environment, every two build profiles, all arguments of every verifier, parser, prover and encoder", "why_tests_cant": "Needs all inputs under both profiles.", "anchors": ["src/proofs/ring.rs: Ring::new debug_assert", "src/proofs/range.rs: optimize debug_assert", "src/sharing/mod.rs: PublicPolynomial::add_assign"]}
{"id": "C50", "title": "Serde representations round-trip", "statement": "Deserializing the serialization of every serializable type returns an equal value in both human-readable and binary formats (also when flattening makes serde report a human-readable format), and base64-url text decoding accepts only the canonical text of a byte string. Everything a verifier accepts can be serialized. Exceptions, proved as such: public keys of the zero secret are rejected when reread, a sum-of-squares proof about zero ciphertexts panics (debug) or is rejected when reread (release), and SEC1 backends panic when serializing the identity element.", "quantifier": "every value of every serializable type, both formats", "why_tests_cant": "All values and lengths.", "anchors": ["src/serde.rs", "serde derives across src"]}
{"id": "C51", "title": "Deserialization rejects malformed scalars, elements, keys and short vectors", "statement": "Strings that are not canonical unpadded base64url, buffers of a wrong size, non-canonical scalars, invalid elements, identity public keys and vectors shorter than the declared minimum are rejected; everything accepted satisfies the corresponding invariants; no document makes deserialization panic. Exception, proved as such: with SEC1 backends a zero secret makes deserialization of Keypair panic.", "quantifier": "every serialized document", "why_tests_cant": "All inputs.", "anchors": ["src/serde.rs: ScalarHelper, ElementHelper, VecHelper, impl Deserialize for PublicKey / SecretKey / Keypair"]}
{"id": "C52", "title": "Default group operations equal their definitions", "statement": "The provided Group methods mul_generator, multi_mul, vartime_double_mul_generator, vartime_multi_mul and invert_scalars equal sums of products / elementwise inverses for inputs of any length.", "quantifier": "every list of scalars and elements of any length, every backend", "why_tests_cant": "Unbounded lengths.", "anchors": ["src/group/mod.rs: ScalarOps, Group"]}
{"id": "C53", "title": "Odd-item iterator is exact", "statement": "The iterator over value responses yields exactly the elements at odd positions and its size_hint equals the exact number of remaining items in every reachable state, so multi-scalar multiplication always receives equally long inputs.", "quantifier": "every list, after any number of next() calls", "why_tests_cant": "All lengths and iterator states.", "anchors": ["src/proofs/mul.rs: OddItems"]}
{"id": "C54", "title": "Tallying verified ballots", "statement": "Summing ciphertexts from accepted ballots per option and decrypting the totals (directly or by threshold shares and a discrete log table) gives the exact vote totals.", "quantifier": "any number of ballots and options, any t-subset of talliers", "why_tests_cant": "Unbounded ballots.", "anchors": ["src/encryption.rs: impl AddAssign", "src/app/choice.rs", "src/sharing/mod.rs: combine_shares"]}
{"id": "C55", "title": "Domain separation between protocols", "statement": "Every proof (log equality, possession, ring, range, sum of squares, commitment equivalence, verifiable decryption) hashes only inputs that start with its context followed by its own name: replacing the hash function on all other inputs changes no prover or verifier result. These domains are pairwise disjoint, as are the contexts of the library's own uses of proofs, so nothing that happens to the hashes of one protocol affects another.", "quantifier": "every hash function, context, statement, proof and RNG state", "why_tests_cant": "It quantifies over all replacements of the hash function and all inputs.", "anchors": ["src/proofs/mod.rs: start_proof", "src/proofs/*.rs: start_proof calls", "Transcript::new calls in src/keys/impls.rs, src/app/*.rs, src/sharing/*.rs"]}
{"id": "C56", "title": "Secret scalars are erased and operations are constant time", "statement": "Secrets are zeroed on drop; secret-dependent operations run in constant time.", "quantifier": "all executions", "why_tests_cant": "Not visible to tests at the value level.", "anchors": ["src/keys/mod.rs: impl Zeroize, Drop", "src/encryption.rs: SecretKey wrapping of random scalars"]}
{"id": "C57", "title": "Error bound for single-challenge proofs (random oracle model)", "statement": "An adversary of unbounded computing power who chooses keys, contexts, ciphertexts and proofs adaptively and asks the Fiat-Shamir hash at most Q times makes verify_zero, LogEqualityProof::verify, CandidateDecryption::verify, PublicKeySet::verify_share or SumOfSquaresProof::verify accept a false statement with probability at most (Q+1) times the largest probability of a challenge (1/order for uniform challenges; C65 for the bytes actually hashed), over a random hash function.", "quantifier": "every adaptive adversary, every number of queries, every backend group", "why_tests_cant": "It bounds the success of all adversaries over all hash functions; tests run one adversary with one hash.", "anchors": ["src/proofs/log_equality.rs: verify", "src/encryption.rs: verify_zero", "src/decryption.rs: CandidateDecryption::verify", "src/sharing/key_set.rs: verify_share", "src/proofs/mul.rs: verify"]}
{"id": "C58", "title": "Error bound for ring proofs, range proofs and ballots (random oracle model)", "statement": "An adversary as in C57 makes verify_bool, RangeProof::verify or EncryptedChoice::verify (multi choice) accept a ciphertext with an inadmissible value with probability at most N(N-1)/2 times the largest probability of a challenge, where N counts the hash computations of the adversary and the verifier; EncryptedChoice::verify (single choice) accepts a ballot without exactly one selected option, and QuadraticVotingBallot::verify one whose votes exceed the vote limit or the credit, with probability at most N(N+1)/2 times it.", "quantifier": "every adaptive adversary, every number of queries, options, range, credit and vote limit, every backend group", "why_tests_cant": "It bounds the success of all adversaries over all hash functions.", "anchors": ["src/proofs/ring.rs: verify", "src/proofs/range.rs: verify", "src/app/choice.rs: verify", "src/app/quadratic_voting.rs: verify"]}
{"id": "C59", "title": "Only points of the prime-order subgroup enter", "statement": "With the Curve25519Subgroup backend, deserialize_element returns exactly the decompressed points of 32-byte strings which vanish under multiplication by the group order. The encoding of a point with a torsion component (small-order points included) is rejected by PublicKey::from_bytes with InvalidGroupElement and by CandidateDecryption::from_bytes; every accepted public key is a non-zero multiple of the generator.", "quantifier": "every byte string, every point, every torsion component, every curve meeting the laws of the curve crate", "why_tests_cant": "The eight torsion points combine with every point of the subgroup; tests try a few.", "anchors": ["src/group/curve25519.rs: deserialize_element", "src/keys/mod.rs: PublicKey::from_bytes", "src/decryption.rs: CandidateDecryption::from_bytes"]}
{"id": "C60", "title": "The backends meet the contract of Group", "statement": "Given the algebraic laws of the external curve crates, the glue in src/group makes Ristretto, the subgroup of Curve25519Subgroup and Generic<C> prime-order groups with serialization that is injective and inverse to deserialization; no operation of Curve25519Subgroup leaves the subgroup; Generic::serialize_element panics exactly for the identity and Generic::invert_scalar exactly for zero. Generic::deserialize_element refuses whatever the SEC1 decoder refuses or is not on the curve, and (for a canonical SEC1 decoder) accepts only byte strings of the right length that serialize_element writes; Generic::deserialize_scalar accepts exactly the serialized scalars.", "quantifier": "every curve crate meeting its laws, every element, scalar and byte string", "why_tests_cant": "Laws over all elements and scalars.", "anchors": ["src/group/ristretto.rs", "src/group/curve25519.rs", "src/group/generic.rs", "src/group/mod.rs"]}
{"id": "C61", "title": "Secret keys and challenges are close to uniform", "statement": "In the dalek backends, the scalar of SecretKey::generate and of Fiat-Shamir challenges comes from 64 random bytes; for every set S of scalars the number of 64-byte strings leading into S differs from the ideal |S| 256^64 / order by at most |S|. No scalar is impossible and none is preferred.", "quantifier": "every set of scalars, every RNG and hash function", "why_tests_cant": "It counts all 256^64 strings.", "anchors": ["src/group/ristretto.rs: generate_scalar", "src/group/curve25519.rs: generate_scalar, scalar_from_random_bytes", "src/proofs/mod.rs: challenge_scalar"]}
{"id": "C62", "title": "Curve25519Subgroup gives the guarantees of a prime-order group", "statement": "The element type of Curve25519Subgroup also contains points outside of the prime-order subgroup. Nevertheless no value parsed from bytes or through serde contains such a point, no operation on values inside of the subgroup produces one, and on such values every public function returns what it returns over the prime-order group; so decryption inverts encryption, zero, boolean, choice and voting proofs are sound and threshold decryption recovers the plaintext there too. For points outside of the subgroup the guarantees fail.", "quantifier": "every implementation of curve25519-dalek meeting its contract, every RNG and hash function, all inputs", "why_tests_cant": "It relates all functions of the crate on all inputs over two groups.", "anchors": ["src/group/curve25519.rs: Curve25519Subgroup", "src/group/mod.rs: Group", "src/encryption.rs", "src/serde.rs"]}
{"id": "C63", "title": "Provers reveal nothing beyond the statement", "statement": "Key generation, encryption, zero and boolean encryption, range encryption, verifiable decryption, decryption shares, proofs of possession, ring, commitment-equivalence and sum-of-squares proofs, choices, quadratic voting ballots and dealers all draw a number of random scalars that does not depend on the secret, return only what the matching verifier accepts, and return each accepted output for exactly one sequence of scalars. So with a uniform RNG the output is uniform over the accepted outputs for the same plaintexts: it carries no further information about secret keys, randomness or the position of a choice in a ring. A fixed or reused nonce would break this.", "quantifier": "every group with total serialization, every RNG and hash function, all secrets, plaintexts, ring sizes, numbers of options and ranges", "why_tests_cant": "It is a bijection between all random sequences and all accepted outputs.", "anchors": ["src/encryption.rs: ExtendedCiphertext::new", "src/proofs/log_equality.rs: LogEqualityProof::new", "src/proofs/possession.rs: ProofOfPossession::from_keys", "src/proofs/ring.rs: Ring::new, RingProofBuilder", "src/proofs/range.rs: RangeProof::new, from_ciphertext", "src/proofs/commitment.rs: CommitmentEquivalenceProof::new", "src/proofs/mul.rs: SumOfSquaresProof::new", "src/app/choice.rs: EncryptedChoice::new", "src/app/quadratic_voting.rs: QuadraticVotingBallot::new", "src/sharing/participant.rs: Dealer::new, ActiveParticipant::decrypt_share"]}
{"id": "C64", "title": "Accepted proofs are proofs of knowledge", "statement": "Whoever produces an accepted proof of possession, dealer proof, participant proof, log-equality proof, zero-encryption proof, verifiable decryption, decryption share, sum-of-squares proof or commitment-equivalence proof (for a blinding base fixed in advance) can be made to reveal the witness: if they are accepted for a fraction e of all hash functions and ask the hash Q times, running them a second time with new answers from the challenge on, and dividing differences of responses by differences of challenges, yields the secret keys, polynomial, share, randomness or values with probability at least e^2/(Q+1) - e*d, where d is the largest probability of a challenge. In particular keys with a proof of possession are not chosen as functions of other participants' keys without knowing their secrets (no rogue keys). With a blinding base chosen by the prover, commitment equivalence does not give this.", "quantifier": "every lawful group, every adaptive adversary with unbounded computation and any number Q of queries, every finite set of hash inputs, all hash functions on it", "why_tests_cant": "It quantifies over all adversaries and counts pairs of hash functions.", "anchors": ["src/proofs/possession.rs: ProofOfPossession::verify", "src/sharing/key_set.rs: PublicKeySet::validate, verify_participant, verify_share", "src/proofs/log_equality.rs: LogEqualityProof::verify", "src/encryption.rs: PublicKey::verify_zero", "src/decryption.rs: CandidateDecryption::verify", "src/proofs/mul.rs: SumOfSquaresProof::verify", "src/proofs/commitment.rs: CommitmentEquivalenceProof::verify"]}
{"id": "C65", "title": "Hashed bytes are good enough challenges", "statement": "Challenges are made of bytes squeezed from the transcript: 64 bytes reduced modulo the group order (Ristretto, Curve25519Subgroup) or 32 bytes that seed a generator (Generic). When the squeezed bytes are random, no challenge of the 64-byte backends is more likely than 1/order + 1/256^64, so the error bounds of C57 and C58 and the extraction bound of C64 hold for the shipped Ristretto backend with this value: a forged zero encryption is accepted with probability at most (Q+1)(1/order + 1/256^64), a ballot without exactly one selected option with N(N+1)/2 times it, and a prover of possession accepted with more than (Q+1) times it can be made to reveal all secret keys. For Curve25519Subgroup, whose code computes with all points of the curve, the bounds for zero encryptions, Boolean encryptions, decryptions, range proofs, decryption shares and ballots with one or several choices hold for all points received in the subgroup. For Generic the bounds hold with the number of seeds of the most frequent scalar over 256^32.", "quantifier": "every curve library satisfying the documented laws, every adaptive adversary, every number of queries and options, all functions from hash inputs to byte strings", "why_tests_cant": "It counts functions to 64-byte strings and bounds all adversaries.", "anchors": ["src/group/ristretto.rs: scalar_from_random_bytes", "src/group/curve25519.rs: scalar_from_random_bytes", "src/group/mod.rs: ScalarOps::scalar_from_random_bytes", "src/proofs/mod.rs: TranscriptForGroup::challenge_scalar"]}
{"id": "C66", "title": "The wire format is fixed and strictly checked", "statement": "The serde representation of every serializable type is the documented one: structs are maps of their fields under the field names and in declaration order, scalars, elements, keys and openings are base64url strings without padding (RFC 4648 section 5) in human-readable formats and raw bytes otherwise, DKG commitments are sequences of 32 numbers, the ring proof inside a range proof is flattened. A document is accepted if and only if it is such a map with every field exactly once (in any order, unknown entries ignored) or the sequence of the fields, with canonical leaves of the right size and vectors of the least length, and then it is read as the value it describes. So a duplicated or missing field is rejected, and two implementations of this layout interoperate.", "quantifier": "every serializable type, every value, every document of the serde data model, human-readable and binary formats, every group", "why_tests_cant": "Snapshot tests fix a few documents; the claim describes all produced and all accepted documents.", "anchors": ["src/serde.rs", "src/encryption.rs: Ciphertext", "src/decryption.rs", "src/proofs/*.rs", "src/sharing/*.rs", "src/dkg.rs", "src/app/choice.rs: EncryptedChoice", "src/app/quadratic_voting.rs: QuadraticVotingBallot"]}
{"id": "C67", "title": "The floating-point pruning estimate never cuts off an optimal decomposition", "statement": "With the std feature, RangeDecomposition::optimal(n) prunes with ((n as f64).log2() * 3.0).ceil(). If log2 errs by at most 1/100 and does not exceed k for arguments up to 2^k, then this estimate, including the rounding of the u64-to-f64 conversion and of the multiplication, never exceeds the length of any decomposition of the documented form; so optimal returns without tripping its debug assertion, returns a shortest decomposition, and returns the same one as builds without std. A log2 that is one ulp too large at 4.0 trips the assertion.", "quantifier": "every u64 n >= 2 up to the overflow limit, every log2 with the stated accuracy, both build profiles", "why_tests_cant": "The repository's tests compare the two estimates on a few bounds and on one platform's mathematical library; rounding matters for arguments above 2^53, which no test can enumerate.", "anchors": ["src/proofs/range.rs: RangeDecomposition::lower_len_estimate, optimize, optimal"]}
{"id": "C68", "title": "Telling encryptions of two messages apart is solving decisional Diffie-Hellman", "statement": "Let any distinguisher see a freshly generated public key and a ciphertext of one of two messages of its choice (from encrypt or encrypt_element). The difference between its probabilities of answering true for the two messages equals q/(q-1) times the difference of the advantages of two explicit attackers on the decisional Diffie-Hellman problem, each of which runs the distinguisher once. So ciphertexts hide messages as well as the group resists DDH attacks, with no loss. The assumption is needed: a distinguisher with unlimited computation always succeeds.", "quantifier": "every group with total serialization, every RNG that can yield all sequences of scalars, all pairs of messages (also chosen depending on the key), every distinguisher", "why_tests_cant": "A statement about probabilities over keys and randomness for all adversaries; no test can enumerate adversaries.", "anchors": ["src/keys/impls.rs: PublicKey::encrypt, encrypt_element", "src/keys/mod.rs: Keypair::generate", "src/encryption.rs: ExtendedCiphertext::new"]}
{"id": "C69", "title": "Ballots with their proofs keep votes secret as long as DDH is hard", "statement": "Let any distinguisher see a freshly generated public key and what a client publishes for one of two inputs: an encrypted boolean with its proof, an encrypted value with its range proof, or an encrypted choice (single or multiple choice) with its proofs; it may query the hash function and outputs a bit. In the random oracle model the difference between its probabilities of answering true equals q/(q-1) times the difference of the advantages of two explicit attackers on DDH, which run the distinguisher once and make up the proofs without knowing the randomness. So the proofs leak nothing about votes.", "quantifier": "every group with total serialization, every RNG that can yield all sequences of scalars, all pairs of admissible votes or values (also chosen depending on the key), any number of options, any range, every distinguisher, all hash functions on any finite set that contains the verifiers' inputs", "why_tests_cant": "A statement about probabilities over keys, randomness and hash functions for all adversaries.", "anchors": ["src/keys/impls.rs: PublicKey::encrypt_bool, encrypt_range", "src/app/choice.rs: EncryptedChoice::new, single", "src/proofs/ring.rs: RingProofBuilder", "src/proofs/range.rs: RangeProof::new"]}
{"id": "C70", "title": "Fewer than t participants learn nothing about ballots cast for a shared key", "statement": "A dealer shares a key among n participants with threshold t and publishes the polynomial with its proof; a client publishes an encryption, an encrypted boolean, an encrypted value in a range or a choice ballot (with proofs) for the shared key. Let any distinguisher see all public data and the secret shares of any t - 1 participants. In the random oracle model, telling apart two inputs of the client is breaking DDH: the difference between the probabilities of answering true equals q/(q-1) times the difference of the advantages of two explicit attackers on DDH. Moreover, given a plaintext, t - 1 participants can compute the decryption share of every other participant from their own shares, so published decryption shares tell them nothing beyond the plaintext.", "quantifier": "every group with total serialization and order at least 2^64, all valid parameters n and t, every coalition of t - 1 participants, all pairs of inputs (also chosen depending on the key), any number of options, any range, every distinguisher, all hash functions on any finite set that contains the verifiers' inputs", "why_tests_cant": "A statement about probabilities over dealings, randomness and hash functions, for all coalitions and all adversaries.", "anchors": ["src/sharing/participant.rs: Dealer::new, Dealer::public_info, Dealer::secret_share_for_participant, ActiveParticipant::decrypt_share", "src/sharing/key_set.rs: PublicKeySet::new", "src/app/choice.rs: EncryptedChoice::new, single", "src/keys/impls.rs: PublicKey::encrypt_bool, encrypt_range"]}
{"id": "C71", "title": "An election keeps all ballots secret", "statement": "Any number of voters cast encryptions, encrypted booleans, encrypted values in a range, or single or multiple choice ballots under one key, and a distinguisher sees all of them (and, if the key is shared by a dealer with threshold t, the dealer's public data and the secret shares of any t - 1 participants). In the random oracle model, telling apart any two lists of votes is breaking DDH: the difference between the probabilities of answering true equals q/(q-1) times a sum over the voters, each term being the difference of the advantages of two explicit attackers on DDH, which run the honest client for the other voters and the distinguisher once.", "quantifier": "every group with total serialization (of order at least 2^64 for shared keys), any number of voters, all pairs of lists of votes of the same length (also depending on the key), any number of options, any range, all parameters n and t and coalitions, every distinguisher, all hash functions on any finite set that contains the verifiers' inputs", "why_tests_cant": "A statement about probabilities over keys, randomness and hash functions, for all adversaries and any number of voters.", "anchors": ["src/app/choice.rs: EncryptedChoice::new, single", "src/keys/impls.rs: PublicKey::encrypt, encrypt_bool, encrypt_range", "src/sharing/participant.rs: Dealer::new, Dealer::public_info, Dealer::secret_share_for_participant", "src/sharing/key_set.rs: PublicKeySet::new"]}
{"id": "C72", "title": "Quadratic voting ballots keep the votes secret", "statement": "Any number of voters cast quadratic voting ballots under one key (any number of options, any credits and vote limit accepted by the API), and a distinguisher sees all ballots with all their proofs (and, if the key is shared by a dealer with threshold t, the dealer's public data and the secret shares of any t - 1 participants). In the random oracle model, telling apart any two lists of votes within the limits is breaking DDH: the difference between the probabilities of answering true equals q/(q-1) times a sum over the voters and over the encrypted numbers of a ballot (one per option and the spent credits), each term being the difference of the advantages of two explicit attackers on DDH, which make up one encrypted number with its range proof and the sum-of-squares proof, and run the honest client for everything else.", "quantifier": "every group with total serialization (of order at least 2^64 for shared keys), any number of voters and options, all credits below 2^64 - 65 and all limits, all pairs of lists of allowed votes of the same length, all parameters n and t and coalitions, every distinguisher, all hash functions on any finite set that contains the verifiers' inputs", "why_tests_cant": "A statement about probabilities over keys, randomness and hash functions, for all adversaries and any number of voters and options.", "anchors": ["src/app/quadratic_voting.rs: QuadraticVotingParams::new, set_max_votes, QuadraticVotingBallot::new", "src/proofs/range.rs: RangeProof::new", "src/proofs/mul.rs: SumOfSquaresProof::new", "src/sharing/participant.rs: Dealer::new", "src/sharing/key_set.rs: PublicKeySet::new"]}
{"id": "C73", "title": "Publishing the result of an election reveals the result only", "statement": "A dealer shares a key, voters cast single-choice, multi-choice or quadratic voting ballots for it, and any participants publish their decryption shares of the totals of all options with the proofs of correctness. A distinguisher sees the dealer's public data, all ballots, all published shares and proofs, and the secret shares of any t - 1 participants. In the random oracle model, for two lists of votes with the same totals, telling the two elections apart is breaking DDH: the difference between the probabilities of answering true equals q/(q-1) times a sum over the voters (over all encrypted numbers, for quadratic voting), each term being the difference of the advantages of two explicit attackers on DDH, which compute the decryption shares from the result, make up their proofs and one ballot or encrypted number, and run the honest client for the rest.", "quantifier": "every group of order at least 2^64 with total serialization, any number of voters and options, all pairs of lists of allowed votes with the same totals, all parameters n and t, coalitions of t - 1 participants and lists of publishing participants, every distinguisher, all hash functions on any finite set that contains the verifiers' inputs", "why_tests_cant": "A statement about probabilities over keys, randomness and hash functions, for all adversaries and any number of voters, options and participants.", "anchors": ["src/app/choice.rs: EncryptedChoice::new, EncryptedChoice::single", "src/app/quadratic_voting.rs: QuadraticVotingBallot::new", "src/encryption.rs: Add for Ciphertext", "src/sharing/participant.rs: Dealer::new, ActiveParticipant::new, ActiveParticipant::decrypt_share", "src/sharing/key_set.rs: PublicKeySet::new, PublicKeySet::verify_share", "src/proofs/log_equality.rs: LogEqualityProof::new"]}
{"id": "C74", "title": "Nobody chooses the key of a distributed key generation", "statement": "One participant of a distributed key generation is honest, all others are controlled by an attacker, which sees the honest messages first in each phase (commitment, then polynomial, proof and opening, then secret shares) and answers with arbitrary messages in any order, also replaced or invalid ones. If SHA-256 is a random function and the honest participant draws uniform scalars and a uniform opening, the probability that the key generation is completed with a shared key in a given set of k keys is at most k/q + (Q1*(Q1+1) + (Q2+M)*n)/2^256, with Q1 and Q2 hash queries of the attacker before it commits and between the revelation of the honest polynomial and its own, and M polynomials sent. In particular no attacker makes a chosen key likely. This is the attack on Pedersen's key generation that the module documentation says the commitments prevent.", "quantifier": "every group of order at least 2^64 with total serialization, all parameters n and t, every honest index, every attacker (unlimited computation, adaptive hash queries, no limit on queries in the last phase), every set of keys, all hash functions on any finite set that contains the attack's hash inputs", "why_tests_cant": "A statement about probabilities over the honest randomness and the hash function, for all adversaries.", "anchors": ["src/dkg.rs: module documentation, create_commitment, ParticipantCollectingCommitments::new, insert_commitment, finish_commitment_phase", "src/dkg.rs: ParticipantCollectingPolynomials::insert_public_polynomial, finish_polynomials_phase", "src/dkg.rs: ParticipantExchangingSecrets::insert_secret_share, complete"]}
{"id": "C75", "title": "Elections with a distributed key; equivocation in the key generation", "statement": "Participants that completed the distributed key generation and had accepted the same polynomials have the same key set, whatever else was sent. For the key of such a participant, decryption shares of any t of them never panic and are accepted, and combining them over the totals of accepted single-choice, multi-choice or quadratic-voting ballots gives the exact numbers of ballots (or sums of votes) per option, unless some voter cheated in a proof. Participants that only have the same commitments still get the same shared key (or exhibit a SHA-256 collision). Full statement refuted: they need not be able to decrypt together, since the commitments cover constant terms only: a participant may send different polynomials to the others, everybody completes with the same shared key, but the honest participants reject each other's shares and combining them gives a wrong result.", "quantifier": "all groups of order at least 2^64, all parameters, all sequences of API calls with arbitrary messages, any number of ballots and options, any t participants", "why_tests_cant": "Arbitrary messages of malicious participants, unbounded numbers of participants, ballots and options.", "anchors": ["src/dkg.rs: create_commitment, insert_public_polynomial, complete", "src/sharing/mod.rs: combine_shares", "src/sharing/participant.rs: decrypt_share", "src/app/choice.rs: EncryptedChoice::verify"]}
{"id": "C76", "title": "What Debug output reveals", "statement": "Printing secret keys, key pairs, ciphertexts with their randomness, dealers, active participants and participants in the last stage of the key generation with {:?} shows a list of values that is determined by public data: the numbers of the parameters, public keys in base64, the ciphertext, the public polynomials, and the proof of possession; no secret scalar is printed. Printing panics only where the public key has no encoding. Full statement refuted: CiphertextWithValue prints the plaintext, a participant in the first stage of the key generation prints the constant term and the opening that its commitment hides, and a ring proof under construction prints responses of which exactly those after the encrypted value are set.", "quantifier": "all groups, all keys, values, parameters and random choices, all participants and rings of any size", "why_tests_cant": "Tests can look for one secret in one string; that nothing but public data is printed is a statement about all secrets.", "anchors": ["src/keys/mod.rs: fmt::Debug for SecretKey, PublicKey, Keypair", "src/encryption.rs: ExtendedCiphertext, CiphertextWithValue", "src/proofs/ring.rs: fmt::Debug for Ring, RingProofBuilder", "src/sharing/participant.rs: Dealer, ActiveParticipant", "src/dkg.rs: Opening, ParticipantCollectingCommitments, ParticipantExchangingSecrets"]}
{"id": "C77", "title": "Ballots for a key from a distributed key generation with a malicious coalition are secret", "statement": "An attacker controls t-1 participants of a distributed key generation, sends all messages of all participants but one honest one, and sees each honest message before it chooses its own (also the polynomials). If the honest participant completes the key generation and t participants accept the secret shares they get, then what the attacker can tell about the ballots cast for the shared key (encryptions, encrypt_bool, encrypt_range, multi-choice and single-choice ballots, any number of voters) is exactly what explicit attackers on DDH achieve, two per voter, which run the key generation attacker and the distinguisher once each. So for any two lists of votes the views cannot be told apart unless DDH is easy.", "quantifier": "every group of order at least 2^64 with total serialization, all parameters n and t, every honest index, every coalition of t-1, every t checking participants, every attacker with unlimited computation whose hash queries in the key generation are about dealers' proofs, every distinguisher, any number of voters and options, any finite set of hash inputs that contains those of the simulation", "why_tests_cant": "A statement about probabilities over keys, randomness and hash functions, for all adversaries in the key generation and all distinguishers.", "anchors": ["src/dkg.rs: ParticipantCollectingCommitments, ParticipantCollectingPolynomials, ParticipantExchangingSecrets::insert_secret_share, complete", "src/sharing/participant.rs: Dealer::new, secret_share_for_participant", "src/sharing/key_set.rs: PublicKeySet::validate", "src/encryption.rs: PublicKey::encrypt, encrypt_bool, encrypt_range", "src/app/choice.rs: EncryptedChoice::new, single"]}
{"id": "C78", "title": "Accepted proofs and ballots cannot be altered without hashing anew", "statement": "Two proofs (log equality, encryption of zero, decryption, decryption share, possession, dealer's and participant's proofs, sum of squares, commitment equivalence with a base other than the identity, ring proofs with at least two values per ring, encrypt_bool, range proofs) or ballots (multi-choice, single-choice, quadratic) are accepted under the same Fiat-Shamir hash, and everything that is hashed when the second is verified has been hashed when the first was verified (for quadratic ballots: the same inputs in the same order). Then they are the same proof, byte for byte, for the same statement (key, ciphertexts, context, parameters, index). So no accepted proof or ballot can be altered, moved to another key, context, index or parameters, or recombined from parts, unless the hash answers a new question. Not so for the blinding response with the identity as commitment base, nor for rings with a single value, whose ciphertext is never hashed.", "quantifier": "every group backend that satisfies the group laws, every hash function, all proofs, keys, ciphertexts, contexts, numbers of options and ranges", "why_tests_cant": "A statement about all pairs of accepted proofs and all hash functions; tests try a few alterations of a few proofs.", "anchors": ["src/proofs/log_equality.rs: LogEqualityProof::verify", "src/proofs/ring.rs: RingProof::verify", "src/proofs/range.rs: RangeProof::verify", "src/proofs/possession.rs: ProofOfPossession::verify", "src/proofs/mul.rs: SumOfSquaresProof::verify", "src/proofs/commitment.rs: CommitmentEquivalenceProof::verify", "src/sharing/key_set.rs: PublicKeySet::validate, verify_participant, verify_share", "src/app/choice.rs: EncryptedChoice::verify", "src/app/quadratic_voting.rs: QuadraticVotingBallot::verify"]}
{"id": "C79", "title": "Whoever makes an accepted ring proof, range proof or ballot knows the encrypted values and their randomness", "statement": "In the random oracle model: an adversary asks the Fiat-Shamir hash at most Q times and outputs ciphertexts with a ring proof, an encrypt_bool proof, a range proof, or a multi-choice, single-choice or quadratic ballot (choosing keys and contexts where the verifier is given them). If the output is accepted with probability e, then from two runs of the adversary, with hash functions that agree up to a challenge determined by the first run, the admissible value in any chosen ciphertext and the randomness of its encryption are computed, with probability at least e^2/(Q+v)^2 - e*m/size, where v is the number of hash inputs of the verifier and m/size the maximal probability of one challenge. For a range proof and for the votes and credits of a quadratic ballot this holds for the ciphertext of every ring of the range decomposition.", "quantifier": "every group backend that satisfies the group laws, every distribution of challenges derived from digests, every adversary with a bounded number of hash queries, all numbers of rings, ring sizes, ranges and options", "why_tests_cant": "A statement about all adversaries and the distribution of all hash functions.", "anchors": ["src/proofs/ring.rs: RingProof::verify", "src/proofs/range.rs: RangeProof::verify", "src/keys/impls.rs: PublicKey::verify_bool", "src/app/choice.rs: EncryptedChoice::verify", "src/app/quadratic_voting.rs: QuadraticVotingBallot::verify"]}
{"id": "C80", "title": "Secret data never reaches the variable-time group operations", "statement": "Group::vartime_mul_generator, vartime_double_mul_generator and vartime_multi_mul need not be constant-time, so only public data may be passed to them. Replacing them by arbitrary other functions, even ones that panic, changes nothing about the result of any operation that handles secrets: key generation, encryption, decryption, creation of every proof (log equality, possession, commitment equivalence, sum of squares, ring, range), creation of every ballot, dealing and computing shares, decryption shares, and the stages of distributed key generation. The only exception is the check of a received share in ParticipantExchangingSecrets::insert_secret_share, which uses vartime_multi_mul on the powers of the participant's public index and a public polynomial; there the result is the same if the replacement agrees on these public operands.", "quantifier": "every environment (backend, RNG, hash, build profile), all replacements, all keys, values, ciphertexts, proofs, ballots and states; no assumption on the backend", "why_tests_cant": "The variable-time and constant-time operations return equal values, so no test of results tells them apart.", "anchors": ["src/group/mod.rs: Group::vartime_mul_generator, vartime_double_mul_generator, vartime_multi_mul", "src/encryption.rs: ExtendedCiphertext::new", "src/proofs/log_equality.rs: LogEqualityProof::new", "src/proofs/ring.rs: Ring::new, Ring::finalize", "src/proofs/mul.rs: SumOfSquaresProof::new", "src/sharing/participant.rs: Dealer, ActiveParticipant", "src/dkg.rs: ParticipantExchangingSecrets::insert_secret_share"]}
{"id": "C81", "title": "The amount of randomness drawn does not depend on secret data", "statement": "Each operation draws a number of random scalars that is a function of public parameters: 1 for encrypt, encrypt_element, Keypair::generate, LogEqualityProof::new and decryption shares; 2 for encrypt_zero; 3 for encrypt_bool; n + (sum of ring sizes) for encrypt_range with n rings; 3n + 1 for a single-choice and 3n for a multi-choice ballot with n options; n(rv + 2) + rc + 1 for a quadratic ballot, where rv and rc are the numbers for its ranges; 2t for a dealer with threshold t. So voters who start from equal RNG states end in equal states whatever they vote, although the position of a value in its ring decides how many scalars are drawn before the common challenge.", "quantifier": "every environment, all keys, values, votes, numbers of options, ranges, ring sizes and thresholds", "why_tests_cant": "A statement about all values and all RNGs; the result of an operation does not show how often the RNG was called.", "anchors": ["src/proofs/ring.rs: Ring::new, Ring::finalize, RingProofBuilder", "src/proofs/range.rs: RangeProof::new", "src/keys/impls.rs: PublicKey::encrypt_bool, encrypt_range", "src/app/choice.rs: EncryptedChoice::new, single", "src/app/quadratic_voting.rs: QuadraticVotingBallot::new", "src/sharing/participant.rs: Dealer::new"]}
{"id": "C82", "title": "Ballots are not tied to voters, and ciphertexts are malleable", "statement": "A ballot carries nothing that identifies its voter or makes it unusable a second time. If an election with honest voters accepts copies, somebody who casts m copies of another voter's ballot (m larger than the largest total of the others) reads that voter's votes off the published totals: total divided by m, for every option; this holds for single-choice, multi-choice and quadratic ballots, and all copies are accepted by the verifier. Likewise adding an encryption of zero to a ciphertext gives a different ciphertext with the same plaintext, so a service that decrypts ciphertexts for others, refusing only the given one, reveals its plaintext. (So secrecy as in C71 and C73 needs an application that rejects repeated ballots; by C78 whatever is accepted without new hash queries is an exact copy, and by C79 everybody else knows their votes.)", "quantifier": "every environment with the group laws, all keys, numbers of voters and options, votes, all numbers m of copies above the bound and below the order of the group", "why_tests_cant": "A statement about all elections and votes; it is about what the verifier and tally do not prevent.", "anchors": ["src/app/choice.rs: EncryptedChoice::verify", "src/app/quadratic_voting.rs: QuadraticVotingBallot::verify", "src/encryption.rs: Add for Ciphertext", "src/lib.rs: note on chosen-ciphertext attacks"]}
{"id": "C83", "title": "Several proofs can share one transcript, and each is good in its place only", "statement": "Proofs of any kinds (log equality, possession, range, sum of squares, commitment equivalence) made one after the other in one transcript are accepted when verified one after the other, and prover and verifier end with the same transcript. A proof accepted in two different transcripts (so in another place of the conversation, after leaving out or swapping earlier proofs, or a second time) carries a challenge that is the hash of two different inputs.", "quantifier": "every environment with the group laws; all sequences of any length of all kinds of honest proofs; all adversarial proofs and claims", "why_tests_cant": "A statement about all sequences of proofs and all transcripts.", "anchors": ["src/proofs/mod.rs: TranscriptForGroup", "src/proofs/log_equality.rs: new, verify", "src/proofs/possession.rs: new, verify", "src/proofs/range.rs: from_ciphertext, verify", "src/proofs/mul.rs: new, verify", "src/proofs/commitment.rs: new, verify"]}
{"id": "C84", "title": "Ciphertexts form a module; totals do not depend on the order of ballots", "statement": "Addition, subtraction, negation, multiplication by scalars and by u64 and non-blinded ciphertexts satisfy the laws of a module over the scalars as equations between ciphertexts (not only between plaintexts). So the totals of an election do not depend on the order of the ballots, ballots may be tallied in parts whose totals are added, and a ballot may be taken out of the totals by subtraction.", "quantifier": "every environment with the group laws; all ciphertexts, scalars, numbers of ballots and options, all permutations", "why_tests_cant": "Equations for all ciphertexts and all permutations of any number of ballots.", "anchors": ["src/encryption.rs: Add, AddAssign, Sub, SubAssign, Mul, Neg for Ciphertext, zero, non_blinded"]}
{"id": "C85", "title": "Proofs and ballots have the documented sizes; range proofs are logarithmic", "statement": "For every n, proof_size() of optimal(n) is at least 3 floor(log2 n) - 1 and at most 4.5 floor(log2 n) - 0.5. Every range proof accepted for optimal(n), honest or not, consists of exactly proof_size() scalars and group elements. Accepted ring proofs have one scalar more than values in all rings, accepted proofs of possession one more than keys, accepted sum-of-squares proofs of n values 2n + 2. Accepted choice ballots with n options have n ciphertexts and 2n + 1 scalars in the range proof. Accepted quadratic voting ballots have options * (sv + 4) + sc + 4 scalars and elements, where sv and sc are the sizes of range proofs for votes and credits.", "quantifier": "all groups, all ranges with n + 4 < 2^64, all numbers of rings, keys, options, all accepted proofs and ballots", "why_tests_cant": "The documentation shows the sizes for eight ranges; the bound is about all of them, and accepted proofs include adversarial ones.", "anchors": ["src/proofs/range.rs: RangeDecomposition::proof_size, documentation of RangeDecomposition", "src/proofs/ring.rs: RingProof::verify", "src/proofs/possession.rs: ProofOfPossession::verify", "src/proofs/mul.rs: SumOfSquaresProof::verify", "src/app/choice.rs: EncryptedChoice::verify", "src/app/quadratic_voting.rs: QuadraticVotingBallot::verify"]}
{"id": "C86", "title": "Keys announced last can decide the shared key, unless all participants prove possession", "statement": "PublicKeySet::from_participants(params, keys) takes public keys only. Given the keys of any t - 1 participants and any scalar x, the remaining n - t + 1 participants can compute keys, without any secret of the others, such that the whole vector is accepted, the others' shares are accepted by ActiveParticipant::new, and the shared key is the public key of x; x alone then decrypts everything encrypted for the shared key (for t = n a single participant does this). If the secret keys of all participants but one are known, as their proofs of possession show, then the secret key of an accepted shared key gives the secret key of the remaining participant by an explicit formula, so that the attack amounts to computing the discrete logarithm of an honest key.", "quantifier": "all groups of order at least 2^64, all parameters, all keys of t - 1 others, all x; all accepted key vectors and all participants for the second part", "why_tests_cant": "Tests build key sets from honest dealers only; the claim is about arbitrary keys of the others and about every accepted vector.", "anchors": ["src/sharing/key_set.rs: PublicKeySet::from_participants, PublicKeySet::verify_participant", "src/sharing/participant.rs: ActiveParticipant::new, ActiveParticipant::proof_of_possession"]}
{"id": "C87", "title": "Messages of errors tell the errors apart", "statement": "For each public error type (VerificationError, PublicKeyConversionError, ChoiceVerificationError, QuadraticVotingError, sharing::Error, dkg::Error), two errors with the same Display text are equal, including the numbers, collection names and nested errors in them. If source() returns an error then the text ends with a colon and the text of that error. When QuadraticVotingBallot::verify fails, the Display text is produced without a panic, and it names option k exactly if the range proof of the k-th option, counted from 1, fails with the given error and those of all options before it pass.", "quantifier": "all errors (all collection names, all usize values; option indexes below usize::MAX), all environments, all ballots", "why_tests_cant": "Texts contain arbitrary numbers, names and nested texts, so ambiguity (such as between a name with a number in parentheses and the counts) is not excluded by examples.", "anchors": ["src/proofs/mod.rs: Display for VerificationError", "src/keys/mod.rs: Display for PublicKeyConversionError", "src/app/choice.rs: Display and Error for ChoiceVerificationError", "src/app/quadratic_voting.rs: Display and Error for QuadraticVotingError, QuadraticVotingBallot::verify", "src/sharing/mod.rs: Display and Error for Error", "src/dkg.rs: Display and Error for Error"]}
{"id": "C88", "title": "Repeated random numbers reveal messages, votes and secret keys (hedging is absent)", "statement": "Operations called with the same state of the random number generator: two encryptions for one key have equal random elements and the difference of their blinded elements is [v - v']G, so they are equal iff the messages are; two choice ballots have equal ciphertexts up to the first option where the choices differ, and the ciphertexts of that option give the difference of the votes (for single choices i < j they tell which voter chose i); from two proofs of possession, log equality proofs or decryption shares (for any contexts, bases and ciphertexts) with different challenges, the secret key, the logarithm or the secret share is (s - s') / (c - c').", "quantifier": "all groups, keys, values, choices, contexts, ciphertexts and generator states", "why_tests_cant": "Tests use fresh randomness; the claim is about every pair of calls with equal generator states.", "anchors": ["src/encryption.rs: PublicKey::encrypt, ExtendedCiphertext::new", "src/app/choice.rs: EncryptedChoice::new, EncryptedChoice::single", "src/proofs/log_equality.rs: LogEqualityProof::new", "src/proofs/possession.rs: ProofOfPossession::new", "src/sharing/participant.rs: ActiveParticipant::decrypt_share"]}
{"id": "C89", "title": "Unchecked shares: a single wrong decryption share changes the result, and an unverified one chooses it", "statement": "Params::combine_shares with at least t shares and all else fixed: two results are equal iff the share at any given used position is equal. If the other t - 1 used shares are those of the secret, the ciphertext decrypts correctly iff the remaining one (taken with CandidateDecryption::into_unchecked) is correct; otherwise a wrong result is returned and no error. Whoever sends a used share without verification, knowing the others, can make the ciphertext decrypt to any element.", "quantifier": "all groups, parameters, positions, shares, ciphertexts and target elements", "why_tests_cant": "Quantifies over all wrong shares and all targets; tests only try a few.", "anchors": ["src/decryption.rs: CandidateDecryption::into_unchecked", "src/sharing/mod.rs: Params::combine_shares, lagrange_coefficients"]}
{"id": "C90", "title": "Cheating participants can neither spoil nor change a threshold decryption whose shares are verified", "statement": "Talliers who take messages (participant, share, proof) in any order, ignore unknown participants and repeated indexes, pass the rest to PublicKeySet::verify_share and give what was accepted to Params::combine_shares: this never panics; if there is a result it is the decryption with the shared secret, or some message contains a wrong share whose proof hits the hash at the only challenge that can be answered; and if t participants are honest there is a result, whatever the other messages are and wherever they come in the order. An election with arbitrary single-choice ballots and arbitrary decryption shares: honest ballots are accepted; the numbers published for the options count, for each accepted ballot, one option, which is the chosen one for honest ballots, or a ballot or share hits the hash. The same holds for multi-choice and quadratic voting ballots.", "quantifier": "all groups, key sets accepted by PublicKeySet::from_participants, ciphertexts, message sequences and honest sets", "why_tests_cant": "Quantifies over all message sequences of cheating participants.", "anchors": ["src/sharing/key_set.rs: PublicKeySet::verify_share", "src/sharing/mod.rs: Params::combine_shares", "src/sharing/participant.rs: ActiveParticipant::decrypt_share", "src/app/choice.rs: EncryptedChoice::verify", "src/app/quadratic_voting.rs: QuadraticVotingBallot::verify"]}
{"id": "C91", "title": "Ciphertexts and ballots can be opened in one way only", "statement": "For a given public key, no two calls of encrypt, encrypt_element, encrypt_bool, encrypt_range (and encrypt versus encrypt_zero) with different messages give the same ciphertext, whatever the states of the generators; two calls of EncryptedChoice::new, EncryptedChoice::single or QuadraticVotingBallot::new whose ballots have the same ciphertexts were called with the same choices or votes. So the generator state is a receipt for the vote. Without the key nothing is bound: for every ciphertext with a non-identity random element and every message there is a key for which it encrypts this message.", "quantifier": "all groups, keys, messages, choices, votes and generator states", "why_tests_cant": "Binding is the absence of a second opening among all messages and all generator states.", "anchors": ["src/keys/impls.rs: PublicKey::encrypt, encrypt_element, encrypt_bool, encrypt_range", "src/app/choice.rs: EncryptedChoice::new, EncryptedChoice::single", "src/app/quadratic_voting.rs: QuadraticVotingBallot::new"]}
{"id": "C92", "title": "An election with cheating voters and talliers announces a wrong result with negligible probability", "statement": "Take a key set accepted by PublicKeySet::from_participants and ballots for its shared key: single-choice or multi-choice with n options, or quadratic voting. Adversaries who know all secrets, compute without bound and ask the Fiat-Shamir hash at most Q times send at most B ballots and M messages with decryption shares. Ballots are checked by EncryptedChoice::verify or QuadraticVotingBallot::verify and totalled, shares are checked by PublicKeySet::verify_share and combined by Params::combine_shares. Then, for all but a fraction m N (N + 1) / (2 size) of the hash functions, every accepted ballot encrypts admissible votes (one option; 0 or 1 for each option; votes up to the limit and within the credit), and every number obtained for an option is the sum of these votes for it. N = Q + B c + M, where c is the number of hash evaluations in checking a ballot: n + 2, n + 1 or quadratic_queries. The same holds if the keys of the participants are chosen by the adversaries, depending on answers of the hash. With the Ristretto backend, or the Curve25519 backend when keys, ballots and shares consist of points of its prime-order subgroup (as everything parsed does), and N at most 2^60, the fraction is at most 2^-132.", "quantifier": "all groups of order at least 2^64, key sets, numbers of options, ballots and messages, all adaptive adversaries, all sources of challenges with at most m preimages of a scalar", "why_tests_cant": "The claim is about all adversaries and counts hash functions; a test runs one hash function and one attack.", "anchors": ["src/app/choice.rs: EncryptedChoice::verify", "src/app/quadratic_voting.rs: QuadraticVotingBallot::verify", "src/sharing/key_set.rs: PublicKeySet::from_participants, verify_share", "src/sharing/mod.rs: Params::combine_shares", "src/decryption.rs: VerifiableDecryption::decrypt_to_element"]}
