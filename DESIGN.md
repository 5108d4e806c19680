# Formal model of slowli/elastic-elgamal in Rocq (Coq 8.16.1)

## Approach

The Rust crate is modelled function by function as total Gallina functions (`rocq/theories/Model/*.v`).
Every definition cites the file and lines it models. Properties are stated over those functions and over
small independent specifications (`rocq/theories/Spec/*.v`), proved in `rocq/theories/Proofs/*.v`, and
collected as the final theorems in `rocq/theories/Properties/*.v` (each is `exact lemma`, followed by
`Print Assumptions`), next to an `Example` showing a concrete instance that meets the hypotheses.

### Modelling conventions

* **Group backend.** The `Group` trait (`src/group/mod.rs`) is a Coq record `Group` of carriers and operations;
  its contract ("prime-order group, scalars form the prime field Z_q") is a record `GroupLaws`. Theorems quantify
  over every `Group` satisfying `GroupLaws`. The contract is instantiated in `Instance/{Fermat,Primality,Zq}.v`, with the scalar
  field Z_q (q the order of Ristretto / Curve25519, primality proved in Coq) and the additive group Z_q in two
  serialization styles: "total" (Ristretto-like) and "SEC1-like" (serializing the identity panics, as
  `copy_from_slice` does in `src/group/generic.rs` 87-90). Curve arithmetic of the external crates is not modelled.
* **Panics** are explicit: functions that may panic return `outcome A := Ret a | Panic kind`. `Result`/`Option`
  stay data. Build profile (`debug_assertions`, `overflow_checks`) is a parameter; `u64`/`usize` (64-bit)
  arithmetic that can overflow is written with explicit wrap / panic.
* **Randomness**: an arbitrary RNG state type with arbitrary `generate_scalar` / `fill_bytes` functions; every theorem
  quantifies over all of them, so it holds for all random choices.
* **Fiat-Shamir transcript** (merlin): a transcript is the list of operations applied to it (labelled messages,
  challenges); a challenge scalar is an arbitrary function `oracle` of the transcript and label. merlin/STROBE
  itself and SHA-256 (`sha256 : bytes -> bytes` arbitrary) are outside the model.
* `&mut` arguments are returned as new values (transcripts, RNG, DKG states).
* Zeroization, constant-time behaviour and memory layout are outside the model. What can be said about side channels at the
  level of calls is in C80 (secrets never reach the variable-time group operations) and C81 (number of scalars drawn).

### Layout

| directory | content |
|-----------|---------|
| `Model/` | the code: `Base` (outcome, build profile, u64/usize), `Group`, `Transcript` (also the `Env` record: group + oracle + RNG + SHA-256 + build), then one file per Rust module |
| `Spec/` | independent vocabulary used in statements (sigma relations, ring equations, "bad hit" predicates, decompositions, DKG events, tallies, replaced hashes, serde well-formedness) |
| `Proofs/` | lemmas |
| `Instance/` | primality certificates (Pocklington) of the order of Ristretto and of the 65-bit example prime `qx`; concrete groups and environments |
| `Properties/` | final theorems `CNN_...`, each followed by `Print Assumptions`, and `Example`s |

Data types (keys, ciphertexts, proofs) depend on the `Group` only, functions on the `Env`. So results of two
environments which differ in the build profile or in the hash function can be compared directly (C49, C55).

Examples run on the group Z_q for the 65-bit prime `qx`: large enough for all u64 values to be different scalars
(so every size hypothesis of the theorems is met), small enough for the checker. The same instances exist for the
real group order (`ristretto_env`, `k256_env`).

### How soundness is stated

The core statements need no probabilities: for a false statement the commitments determine at most one challenge
that can be answered, so acceptance implies that the oracle's answer at a query equals a value which is a function of
that very query ("bad hit"). Knowledge soundness is stated as extraction from two accepting conversations.

C57 and C58 turn this into explicit error bounds in the random oracle model. An adversary is an arbitrary adaptive
tree of hash queries (`Spec/Rom.v`), with no bound on computation and free choice of keys, contexts, ciphertexts and
proofs. The verifiers are restated as such trees (`Spec/Verifiers.v`), and `C57_verifiers` proves that running a tree
with the hash `o` is the modelled verifier with the hash `o`. A `source` (`Spec/Rom.v`) says which values the hash has
and how a challenge is made of one; `balanced S m` says that no challenge is made of more than `m` values. Probability is
counting: among the `size ^ |D|` hash functions on a finite set of inputs, those for which the adversary wins are at most
`(Q + 1) m / size` of all (single-challenge proofs) or `N (N - 1) m / (2 size)` of all (rings, N = number of hash
computations). For uniform scalars `m / size` is `1 / order`; C65 computes it for the byte strings that the backends
really use. Only the group and the hash occur: no computational assumption is made.

Knowledge (C64) counts pairs of hash functions: `rewound T o o'` answers as `o` up to the last input hashed in the run
with `o` and as `o'` from there on, and the pairs for which the witness can be computed from the two outputs are
bounded below (`extractable`). C64 covers the single-challenge proofs; for rings see C79.

### How hiding is stated

The RNG of the model is an arbitrary state machine, so C63 describes distributions through the scalars drawn:
`uniform_over n run P` says that `run` draws exactly `n` scalars, that all it returns satisfies `P`, and that each value
which satisfies `P` is returned for one and only one sequence of scalars. `P` speaks about the plaintexts and the public
verifier only. So outputs for the same plaintexts have the same distribution whatever the secret key, the randomness of
the ciphertexts or the position in the ring. The digits of a value in a range proof are a function of the value.

That the ciphertexts hide their plaintexts is the decisional Diffie-Hellman assumption (DDH), which no theorem can
prove. C68 and C69 reduce to it, with no loss and no error term: for every distinguisher `D` of what a client publishes
for two inputs (it sees the public key, may query the hash, and outputs a bit), they give two attackers on DDH
(`attacker` in `Spec/Secrecy.v`) and prove an identity between integers, which reads `(q - 1) (Pr[D(v)] - Pr[D(w)]) =
q (Adv(v) - Adv(w))` after division. The attackers are explicit functions: they run `D` once on ciphertexts made from
the DDH triple, with random proof scalars, and change the hash at the challenge so that the proofs verify. Running
time is not modelled; that the attackers are efficient relative to `D` has to be read off their definition. The
distinguisher gets the hash only together with the ballots, so a change of the hash cannot be noticed; experiments with
hash queries before the ballots (say, votes chosen depending on the hash) would need an error term and are not covered.
Quadratic voting ballots are the subject of C72.

C70 is the same identity for a key shared by an honest dealer: the distinguisher also sees the dealer's polynomial and
proof and the secret shares of `t - 1` participants. The attackers choose the shares at random, compute the polynomial
that fits them and the key by interpolation in the group, and make up the dealer's proof. Decryption shares of other
participants are covered by `C70_decryption_shares`, which computes them from the plaintext.

C71 extends both to an election: all voters cast ballots under one key, and the distinguisher sees all of them. The
attackers make up the ballot of one voter and run the client for the others, so there are two attackers per voter and
still no error term. The published result is not part of what the distinguisher sees, see C73.

C72 does the same for quadratic voting ballots, in two levels: one voter at a time, and within a ballot one encrypted
number at a time. The sum-of-squares proof ties the numbers together, and while one number is replaced it proves a false
statement; so first the proof is made up in all ballots (it is uniform among accepted ones, and its hash input starts with
its own domain), then the numbers are replaced, then the proof is put back.

C73 adds the published result to C71 and C72 (shared keys, all kinds of ballots): the distinguisher also sees decryption shares of
the totals, with their proofs, of any participants. For votes with the result `R`, the shares are computed from `R` and
the shares of the coalition (as in `C70_decryption_shares`) and the proofs are made up from random scalars, all in one go:
this is an exact count over all answers of the hash at the (possibly equal) hash inputs. Then the votes are changed one
voter at a time as in C71; the made-up shares still are those for `R`, although the totals in between may be different.
All voters are honest here: a voter who can copy the ballot of another one (nothing in a ballot names its voter) learns
more from the result, and this has to be prevented by the users of the crate.

C74 is about the claim in the documentation of src/dkg.rs that commitments prevent participants from biasing the key. SHA-256
is replaced by a random function here (`with_sha256`; the Fiat-Shamir hash stays as it is), the attacker is a strategy with
three phases and plays all participants but one. The proof: unless a hash value is hit by chance (a new value equals an
older one or a commitment, or the input of the honest commitment is guessed: this is the second summand), the commitments
determine the constant terms when they are made. If the attacker commits to `m` copies of the honest commitment, the key is
`C + (m + 1) * P` with `C` fixed and `P` the honest constant term, and `m + 1 < q` is invertible, so all keys are equally
likely. Only completed key generations have a key: an attacker that sees the honest polynomial knows the key before it opens
its own commitments, and may refuse to do so. The crate cannot prevent this; who restarts a key generation with the same
participants gives them another chance, so bounds for single executions add up.

C77 joins the key generation and C71: ballots are cast for the key that a key generation with a malicious coalition has
produced. The honest participant's constant term is the `X` of the DDH instance. The attacker on DDH plays this
participant without knowing its secret (as in C70), and gets the sum `w` of the secrets of all other dealers by interpolation from
the shares that `t` participants have accepted; the shared key is `X + [w]G`, and ciphertexts for `X` are moved to this key.
So every dealer may choose its polynomial after it has seen the honest one; commitments are not needed for secrecy.
What is assumed: the `t` participants that check their shares have got the same polynomials as the honest one (a broadcast; C75
shows that the crate does not detect if they have not); the honest participant ignores messages in its own name; in the key generation the attacker
queries the Fiat-Shamir hash for inputs of dealers' proofs only (it could otherwise prepare inputs of ballot proofs
before the key is known; the simulation of C71 needs the key first); SHA-256 is any function, and the opening of the
honest commitment is any value.

C78 and C79 are about the verifiers as algorithms that ask the hash. C78 needs no probabilities: an accepted proof is determined
by what was hashed. C79 is the statement of C64 for ring proofs. A ring proof has many challenges, so the prover can hash the
inputs of a ring in any order, start anywhere, and prepare parts of it before it decides on the ciphertexts of other rings. The
extractor looks at the order in which the inputs of the ring were hashed in the first run and rewinds to the challenge of the first
equation whose commitments had been hashed before. The bound loses a factor `Q + v` against C64 because the second run must put its
commitments at the same position. Ciphertexts are extracted one at a time (for another one, the prover is rewound to another
challenge), and the context and the key are hashed, so they are the same in both runs.

## Trusted base

* Coq 8.16.1's kernel (with `vm_compute` in primality certificates and in `Example`s), and `coqchk`.
* `Print Assumptions` is printed after every theorem in `Properties/*.v`; each one prints
  `Closed under the global context`: no theorem depends on any axiom, neither ours nor the standard library's.
* The compiled files contain 7 axiom-like items of the standard library loaded through `Coq.ssr.ssrunder`
  (`Under_rel.Over_rel`, `Under_rel.Under_rel`, `Under_rel.Under_relE`, `Under_rel.Under_rel_from_rel`,
  `Under_rel.over_rel`, `Under_rel.over_rel_done`, `Under_rel.under_rel_done`): parameters of a sealed module of the
  `under` tactic. They are loaded, not used.
* Only Coq's standard library is used. Its `SpecFloat` is taken as the definition of IEEE 754 binary64 arithmetic (C67).
* That the Gallina functions say what the Rust functions do. Each one cites the lines it models.
* That the external curve crates meet the laws in `Spec/Backends.v`: `DalekLaws` (curve25519-dalek: prime scalar field,
  points form an abelian group, the base point generates the subgroup of torsion-free points, compression is inverted
  by decompression, ...) and `CurveLaws` (elliptic-curve: cyclic group, SEC1 encodings). From these laws C60 derives
  `GroupLaws`, the hypothesis of all other theorems, for the crate's three backends. Both sets of laws are met by the
  curves of `Instance/Curves.v`, one of them with a cofactor (and, with the group order of Ristretto itself, that of `Instance/FullSize.v`).

### Curve25519Subgroup

C01-C58 assume `GroupLaws`, which `Curve25519Subgroup` does not meet as a whole (finding 16). `Spec/Transfer.v`
defines a relation between the values of two environments (every data type of the model has an instance), and
`Proofs/Transfer.v` shows for each of the 185 model functions that related arguments give related results. This is
applied to the prime-order subgroup, for which `GroupLaws` is proved (C60), and `Curve25519Subgroup`. So every theorem
about `GroupLaws` can be carried over to values with points inside of the subgroup; C62 states this for encryption,
zero proofs, verifiable and threshold decryption, choices and quadratic voting.

## What is modelled

| source | modelled in | not modelled |
|--------|-------------|--------------|
| `src/group/mod.rs` | `Model/Group.v`: traits as a record, contract as `GroupLaws`, provided methods (C52); `RandomBytesProvider` is the argument `squeeze` of the environments in `Model/Backends.v` | - |
| `src/group/{ristretto,curve25519,generic}.rs` | `Model/Backends.v`: the glue around the external curve crate (see the file); encoders which panic on the identity | the curve crates |
| `src/keys/{mod,impls}.rs` | `Model/Keys.v`: all constructors, parsers, operators | zeroization |
| `src/encryption.rs` | `Model/Encryption.v`, `Model/LogEquality.v`, `Model/Ring.v`, `Model/Range.v`: ciphertexts, operators, `DiscreteLogTable`, all `encrypt_*`/`verify_*` | the hash table (an association list with the same lookups) |
| `src/decryption.rs` | `Model/LogEquality.v`, `Model/Unchecked.v` | - |
| `src/proofs/mod.rs` | `Model/Transcript.v`, error types in `Model/Base.v` | merlin's STROBE |
| `src/proofs/log_equality.rs` | `Model/LogEquality.v` | - |
| `src/proofs/possession.rs` | `Model/Possession.v` | - |
| `src/proofs/ring.rs` | `Model/Ring.v`: rings, builder, proof, buffers as lists with bounds checks | constant-time selection is a plain lookup |
| `src/proofs/range.rs` | `Model/Range.v`: ring specs, `optimal` with memo and pruning, `PreparedRange`, `RangeProof`, `Display` | the pruning estimate is a parameter, of which C20 needs only that it is a lower bound; the integer version of `no_std` builds is modelled and proved to be one; the floating-point version of `std` builds is modelled in `Model/Float.v` over the standard library's `SpecFloat` (IEEE 754 binary64 with the conversion, the multiplication and the rounding), with `f64::log2` as a parameter, and proved to be one if `log2` is accurate (C67) |
| `src/proofs/mul.rs` | `Model/Mul.v` incl. `OddItems` as a state machine | - |
| `src/proofs/commitment.rs` | `Model/Commitment.v` | - |
| `src/sharing/{mod,key_set,participant}.rs` | `Model/Sharing.v` | - |
| `src/dkg.rs` | `Model/Dkg.v`: three phases as state types | - |
| `src/app/{choice,quadratic_voting}.rs` | `Model/Choice.v`, `Model/Quadratic.v` | - |
| `src/serde.rs` and derives | `Model/Serde.v`: serde data model (values of formats that are human-readable or not), base64url, helpers, derived implementations incl. `flatten` | concrete formats (JSON text, ...) |
| `fmt::Debug` of all types with secrets, in `src/keys/mod.rs`, `src/encryption.rs`, `src/proofs/ring.rs`, `src/sharing/*.rs`, `src/dkg.rs` | `Model/Debug.v`: the tree of printed names and values | the layout of the text; how the back end prints scalars and elements (they are leaves) |
| `fmt::Display` and `source` of all error types | `Model/Messages.v`: the texts | `Display` of serde errors |

Simplifications, all of them stated where they occur:

* `usize` is 64 bits wide. Lists have unbounded length; capacities and allocation failure are not modelled.
* A buffer which the code fills through `&mut [_]` is a returned list; slices become sublists with explicit index
  panics.
* A transcript is the list of operations on it, so merlin's framing is assumed to be injective; a challenge is an
  arbitrary function of that list. Likewise `sha256` is an arbitrary function of bytes.
* Secrets that Rust wraps in `SecretKey`/`Zeroizing` are plain scalars.

## Findings

Every item is a theorem or an example in the development, unless marked otherwise.

1. `sharing::Params::combine_shares` accepts repeated indexes and returns a wrong decryption (`C30_*_refuted`).
   Indexes are compared with the bound only for the first t shares.
2. `QuadraticVotingParams::set_max_votes`: `m * m` wraps without overflow checks, so the documented panic is missing
   (`C45`, `C49_*_refuted`); `set_max_votes(0)` always panics. The sum of squares in `QuadraticVotingBallot::new`
   can wrap likewise (`C46_release_refuted`); such ballots do not verify (C47). Credits close to `u64::MAX` overflow.
3. `DiscreteLogTable::get(identity)` is `Some(0)` even if 0 was not tabulated (C03 states it so).
4. DKG: `insert_public_polynomial` may be called again for the same index, also for the own index, after which
   `complete` fails (`C40_*_refuted`). The hash commitment covers only the constant term and no index.
   A polynomial without coefficients makes it panic (index out of bounds).
5. `CommitmentEquivalenceProof` does not hash the blinding base (C10 states it so). A prover who chooses the base
   together with the proof can pass off a commitment to one value as equivalent to an encryption of another
   (`C64_commitment_base_refuted`); callers must fix the base in advance. With the identity as base, the response for
   the blinding can be replaced at will (`C78_commitment_identity_base_refuted`).
6. Generic (SEC1) backends cannot encode the identity: a proof with zero scalars panics in every verifier
   (`C48_sec1_refuted`), as does deserializing a `Keypair` with zero secret (`C51_sec1_refuted`).
7. `RangeDecomposition::optimal(n)` for n >= 2^64 - 2 overflows in builds with overflow checks.
8. `RangeProof::from_ciphertext` given a ciphertext of another key panics with debug assertions, otherwise it yields
   a proof that does not verify.
9. `PublicKey` equality compares the stored bytes; with a decoder that accepts several encodings of one element, equal
   elements may compare different.
10. The common challenge of `RingProof` does not bind the ciphertext of rings with a single admissible value
    (C58_ring and C78_ring_proof require two values; no public API produces such rings).  One hash input is good for
    as many ciphertexts as there are scalars, none of which contains the value (`C78_single_value_refuted`), although
    the documentation says that the proof commits to the encrypted values.
11. A `SumOfSquaresProof` about zero ciphertexts is accepted but cannot be reread (`C50_empty_sum_refuted`).
12. `sharing::Params` and other structs with derived `Deserialize` are read unchecked; threshold 0 or above the number
    of shares leads to panics later.
13. `#[serde(flatten)]` on `RangeProof` makes serde buffer the inner value, which reports a human-readable format.
14. `EncryptedChoice::new` with a wrong number of selected options returns a value that never verifies, without panic.
15. The public key of a zero secret serializes but is rejected when reread.
16. `Curve25519Subgroup` has all Edwards points as elements, so the type does not ensure the prime order. All parsers
    ensure it (C59), and all operations preserve it (C60, C62), but a caller that builds ciphertexts or keys from
    elements made with curve25519-dalek itself can bring in torsion components (`C59_check_needed` shows the damage).
    `C62_outside_refuted`: `verify_zero` accepts a ciphertext with a component of order 2 that does not encrypt
    zero for half of all challenges.
17. The estimate of builds with `std` relies on the platform's `f64::log2`, whose precision is unspecified according
    to its documentation. C67 shows that an error of 1/100 is harmless except at powers of two, where the result may
    not be too large at all. `C67_ulp_refuted`: one unit in the last place at 4.0 makes the debug assertion in
    `optimize` fail for `optimal(4)`. (Common mathematical libraries are exact at powers of two.)
18. DKG: equivocation is not detected. The commitments cover constant terms only, so a participant may send polynomials
    with different other coefficients (and matching shares) to the others. All complete without error and with the same
    shared key, but have different key sets, reject each other's decryption shares, and cannot decrypt together
    (`C75_equivocation_refuted`). Participants should compare their key sets before the shared key is used.
19. `Debug` output of three types reveals secrets, although `SecretKey` and `Keypair` take care not to. A
    `CiphertextWithValue` prints its plaintext (`Zeroizing` derives `Debug`). A participant in the first stage of the
    DKG prints its constant term and the opening, which its commitment is to hide (C74 relies on it). A ring proof
    under construction (`Ring`, `RingProofBuilder`; hidden from the documentation) prints the responses computed so
    far, whose number tells the encrypted value (`C76_*_refuted`).
20. Ballots are not tied to voters, which the documentation of the ballots does not mention. Copies of a ballot are
    accepted, and enough copies of one ballot make its votes readable in the totals (`C82_*_refuted`). The context of
    the proofs is a constant of the crate, so that an application cannot bind a ballot to a voter (only to an election,
    by using another key); it has to reject repeated ballots itself. Comparing ballots for equality catches everything
    that is accepted without new hash queries (C78). The crate's general note on chosen-ciphertext attacks covers the
    malleability of single ciphertexts (`C82_rerandomized`).
21. The documentation of `PublicKeySet::verify_participant` calls proofs of possession "not required for protocol
    correctness". That holds if a dealer made the shares. `PublicKeySet::from_participants` also accepts keys that
    participants generated themselves (all vectors of n keys if t = n), and there the participants who announce their
    keys last can make the shared key one whose secret key they know (`C86_rogue_keys_refuted`). With proofs of possession of
    everyone this amounts to a discrete logarithm (`C86_possession_protects`).
22. Random numbers are taken from the `rng` argument alone, and merlin's `TranscriptRng`, which would mix secrets and the
    context into them, is not used. If a generator repeats a state then messages, votes and secret keys are revealed
    (`C88_*_refuted`).

## Plan per property

| id | what is modelled | how it is proved |
|----|------------------|------------------|
| C01 | `ExtendedCiphertext::new`, `encrypt*`, `decrypt_to_element` | group algebra, via discrete logs and `ring` |
| C02 | ciphertext operators; expression trees | induction on the expression |
| C03 | table as association list keyed by serialized elements | induction on the value list, injectivity of serialization |
| C04 | key types and operators; operation lists | induction over operations |
| C05 | `PublicKey::from_bytes` | case analysis (iff per outcome) |
| C06 | byte codecs | list induction, chunking lemmas |
| C07-C11 | `LogEqualityProof` | exact acceptance characterisation; completeness and soundness are corollaries; ZK by explicit bijection |
| C12 | `encrypt_zero` / `verify_zero` | from C07-C09 |
| C13 | `ProofOfPossession` | list induction |
| C14-C17 | rings, builder, verification | induction along the ring; exact characterisation by an inductive relation |
| C18-C21 | `RangeDecomposition` incl. memoised search with pruning, Display | invariants over loops; strong induction on the bound; printing injectivity by parsing argument |
| C22-C23 | `RangeProof` | from ring theorems + C18/C19 |
| C24-C25 | `SumOfSquaresProof` | list induction |
| C26-C27 | `CommitmentEquivalenceProof` | algebra |
| C28 | `VerifiableDecryption`, `CandidateDecryption` | from C07-C09 |
| C29 | `lagrange_coefficients`, `combine_shares` | polynomial interpolation developed in `Proofs/Poly.v` |
| C30 | same | expected to be refuted (no distinctness check): `_refuted` |
| C31 | polynomial evaluation of dealer shares | interpolation existence and uniqueness |
| C32-C35 | `Dealer`, `ActiveParticipant`, `PublicKeySet` | interpolation + C07/C13 |
| C36-C40 | the three DKG state types | per-participant invariants over histories; order independence by permutation; completed key sets pass `from_participants`, so C90 and C92 apply to them |
| C40 | `insert_public_polynomial` | expected to be refuted (overwriting is possible): `_refuted` |
| C41-C42 | `EncryptedChoice` | from ring and log-equality theorems, counting |
| C43-C45 | `isqrt`, params | loop invariant; C45 expected to be refuted for release builds (wrap-around) |
| C46-C47 | ballots | from range / sum-of-squares theorems, no-wrap arithmetic |
| C48 | all verifiers with explicit panics | totality for backends whose serialization is total; refuted for SEC1-like backends |
| C49 | build-profile parameter | equality of results between profiles |
| C50-C51 | serde data model, base64url, helpers | round-trip by induction |
| C52-C53 | default group methods, `OddItems` | list induction |
| C54 | accumulation of ballots | homomorphism + C41/C35 |
| C55 | transcripts of all proofs | the hash is replaced outside a domain (`hashed_by`); every prover and verifier is shown to return the same |
| C57-C58 | verifiers as algorithms with oracle access (`Spec/Verifiers.v`) | a winning run asks a query whose answer is one of few values determined by earlier queries; induction over the query tree counts hash functions (`hits_count`) |
| C59-C60 | `Model/Backends.v` over records of the operations of the curve crates | multiples in abelian groups, Bezout; transport of the laws |
| C61 | `generate_scalar`, `scalar_from_random_bytes` | counting fibres of the reduction modulo the order |
| C56 | none | cannot be expressed: memory erasure and timing are not observable in a functional model; C80 and C81 prove the parts that are: which group operations secrets reach, and how much randomness is drawn |
| C62 | `Curve25519Subgroup` and all functions of the crate | relational parametricity: every function maps related inputs over two corresponding environments to related outputs; the prime-order subgroup corresponds to `Curve25519Subgroup` |
| C63 | all provers | each prover is an injective image of the scalars it draws onto the accepted outputs; composed with a rule for sequences of draws (`uniform_bind`) |
| C64 | proofs of knowledge | the forking lemma by induction on the adversary's decision tree, counting pairs of hash functions (`fork_count`), then special soundness with the witness computed from two proofs; ring proofs (Boolean, choice, range) are not covered by extraction, only by C58 |
| C65 | challenges from bytes | the hash values are listed (`byte_strings 64`), the fibres of reduction modulo the order are those of C61; C57, C58, C64 are stated for any source of challenges and instantiated; for `Generic` the quality of the seeded generator is a parameter; `C65_curve25519_code`, `C65_curve25519_ranges`, `C65_curve25519_shares` and `C65_curve25519_ballots` state the bounds for zero encryptions, Boolean encryptions, decryptions, ranges, shares and ballots with one or several choices over the code for the whole curve, with the received points assumed to be in the prime-order subgroup as all parsed ones are (C62) |
| C66 | wire format | one layout per type over abstract parts, instantiated for writing (exact map of the fields) and for reading (maps with each field once, or sequences); base64url is specified on bits; both directions are equivalences with the codecs |
| C67 | `lower_len_estimate` with `std` | rounding lemmas for `SpecFloat` (conversion of a `u64`, multiplication by 3); a decomposition either has rings of size 4 only or its length exceeds `3 * log2 n` by a constant; corollaries with C18 and C20 |
| C68-C69 | encryptions, `encrypt_bool`, `encrypt_range`, choices | C63 turns the provers into uniform choices among accepted outputs; random self-reducibility of DDH; the hash is programmed at the verifier's last query, counted over all hash functions on a finite set of inputs (which exists, `C69_hash_inputs`) |
| C70 | `Dealer`, `PublicKeySet::new`, ballots for the shared key | the run after the first scalar is a prover for the key (shares determine the polynomial, Newton interpolation); its hash input is fresh for the client's proofs, so the simulation of C69 extends |
| C71 | all ballots of an election, also for a shared key | one voter at a time: the scalars of the other voters are moved to the coins of the attacker, which runs their clients with the changed hash |
| C72 | quadratic voting ballots, also for a shared key | the sum-of-squares proof made up from random scalars (an exact count), then one encrypted number at a time as in C71, numbers of different sizes weighted |
| C73 | `ActiveParticipant::decrypt_share` for the totals of an election | shares by interpolation from the result, proofs from random challenges and responses (the first of several proofs with one hash input counts, `program_all` changes the hash at all inputs), then C71 or, for quadratic voting, C72 |
| C74 | the key generation with one honest participant, run with an attacker (`attacked`) | completed runs open each stored commitment (C37, C39); chance hits counted along the tree of queries (`wtree`, `lucky_count`), the honest commitment replaced by an independent value (`resample`), then for each hash function the key is a bijective function of the honest constant term |
| C75 | key generation with arbitrary messages, then C54 | C37 gives the polynomial of the key set, which `complete` computes from the accepted polynomials; C39 for constant terms; the counterexample is computed |
| C76 | `Debug` implementations as trees of printed values | the leaves are computed exactly from the public data; C63's description of a ring for the ring |
| C77 | key generation with a malicious coalition, then an election for its key | the honest participant with unknown secret by the simulation of C70; its execution does not depend on the secret (`hollow`, `exchange`); the other secrets by interpolation; C71's hybrids with ciphertexts moved to the shared key |
| C78 | all verifiers as algorithms that ask the hash (`asked`) | the exact list of inputs of an accepted ring proof (`ring_verifier_asked`); inputs determine statement and commitments (C10's injectivity), the common challenge is an answer to one of them, and commitments and challenges determine the responses |
| C79 | ring, range and ballot verifiers as algorithms that ask the hash | a forking lemma with labels (`labelled`): the challenges of a ring form a cycle, so in every accepted run some equation's commitments are hashed before its challenge (`open_found`); the second run is rewound to that challenge, and must also agree on when the commitments were hashed (hence the factor `(Q + v) ^ 2` instead of `Q + v`); the two responses give the randomness (`two_openings`) |
| C80 | all operations on secrets | the three variable-time operations of the backend are replaced by arbitrary functions (`env_vartime`) and the result stays the same; the values are carried over field by field (`cv_*`), since record types mention the backend. `combine_shares`, the verifiers, `DiscreteLogTable_new` and `PreparedRange_new` do use them, on public data; `C80_example` shows that a verifier notices the replacement |
| C81 | all operations that take an RNG | exact number of calls of `generate_scalar` (`draws`) in terms of public parameters; `fill_bytes` for the opening in distributed key generation |
| C82 | tally of verified ballots with repetitions; sums of ciphertexts | totals of honest ballots and m copies of one of them; division by m; uniqueness of totals below the order of the group |
| C83 | all proofs with an explicit transcript | lists of claims and proofs of mixed kinds; completeness by the theorems of each kind; an accepted proof determines its hash input up to collisions (C10) |
| C84 | operators of ciphertexts, `tally` | discrete logarithms; `tally` as a sum in a commutative monoid |
| C85 | `proof_size`, length checks of all verifiers | a base-4 decomposition of every range of the documented form, compared with the optimal one (C20); lengths from the exact acceptance conditions |
| C86 | `from_participants`, `ActiveParticipant::new`, encryption | the keys of the rest are values of the interpolating polynomial through the others' keys and the chosen shared key (C33, C70); second part: Lagrange interpolation with the shared key as one of the points |
| C87 | `Display` and `source` of the error types, `QuadraticVotingBallot::verify` | texts are read from the right: digits after the last parenthesis are unique; exact error conditions (C47) |
| C88 | encryption, choice ballots, log equality and possession proofs, decryption shares | unfolding two calls with the same generator state; ballots by induction over the common part of the choices |
| C89 | `into_unchecked`, `combine_shares` | the result is an affine function of every used share with a non-zero factor (inverse denominator times the product of the nodes) |
| C90 | `verify_share`, `combine_shares`, honest participants; the talliers' loop (`Spec/Collect.v`) is ours, the crate leaves it to its users | invariant of the loop (distinct indexes, every entry verified), then C29, C33, C34 and C48 |
| C91 | all `encrypt_*`, choice and quadratic voting ballots | decryption with the logarithm of the key gives back the message (C01, C12, C17, C22, C46); the other key is computed from the message |
| C92 | `EncryptedChoice::verify`, `QuadraticVotingBallot::verify`, `verify_share`, `combine_shares`; adversaries, the order of the checks and the talliers' loop are specification (`Spec/RomElection.v`, `Spec/Collect.v`); the key set is fixed before the attack, or chosen in it (`C92_chosen_keys` and its variants for the other ballots; `C92_ristretto_chosen_keys` and `C92_curve25519_chosen_keys` give the numbers) | union of the bad events of C57 and C58 over all ballots and messages; otherwise all votes and shares are right and C29 applies; `C92_ristretto_elections` and `C92_curve25519_elections` give the numbers for Ristretto and for the prime-order subgroup of Curve25519, with `Instance/FullSize.v` (stand-ins for the crate, with the order and the cofactors of Ristretto and Curve25519) as the concrete case; `C92_curve25519_code` carries the latter to the code over all points of the curve: attackers, checks and talliers work with points of the curve, and keys, ballots and messages consist of points of the subgroup (as everything parsed does, C62) |
