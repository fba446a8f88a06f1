# Formal model of synedrion: design

## What this is

`/verif/rocq/theories` contains a Rocq (Coq 8.16.1) model of the `synedrion`
threshold-ECDSA crate (sources in `/repo`, read as text) together with
machine-checked proofs of the properties listed in `properties.jsonl`.
`MANIFEST.json` maps each property to the theorems that settle it.

Each model file transcribes Rust functions one by one.  Every definition cites
the file and lines it transcribes; simplifications are stated in the comment.
Panics (`expect`, `assert!`, `unwrap`, arithmetic underflow, `unimplemented!`)
are explicit values (`None` / an error constructor), never totalised away.
`Result`/`Option` results stay data.

## Layers

1. **Integers** (stdlib `Z`).  A machine integer `Uint<L>` of `BITS` bits is a
   `Z` in `[0, 2^BITS)`; wrapping operations carry an explicit `mod 2^BITS`.
   Signed/bounded integers, wire encodings, bit vectors, hash transcripts,
   parameters, scalar/integer conversions, Paillier, ring-Pedersen and the
   integer side of the zero-knowledge proofs live here.  Fermat's little
   theorem is obtained from mathcomp and transported to `Z`.
2. **Algebra** (mathcomp).  The curve group is an arbitrary `lmodType F` over an
   arbitrary field `F`, with an arbitrary `x_coordinate : V -> F`; Shamir
   sharing, threshold keys, BIP-32, Schnorr/El-Gamal proofs and the protocols'
   scalar/point logic live here.  Where integers and scalars meet (`enc_elg`,
   `aff_g`, `aff_g*`, `dec`, signing), `F` is `'F_q` and integers are mapped
   through the ring morphism `Z -> 'F_q`.
3. **Protocols**.  Rounds are functions of the party's state and the received
   messages (association lists keyed by party).  A malicious peer is an
   arbitrary message.  Evidence checks are transcribed next to the receive
   checks they are supposed to mirror.

External components as parameters (universally quantified, no axioms): the hash
function (any function of the transcript), the RNG (explicit draws as
arguments), primality (a hypothesis on the key), the curve group.

## Trusted base

* Coq 8.16.1's kernel (and `vm_compute` where used for examples).
* What `Print Assumptions` prints for each theorem (listed per theorem in the
  section "Assumptions" below; aim: `Closed under the global context`).
* The transcription itself (each definition cites its source lines).
* Not modelled: constant-time behaviour, zeroization, serde formats beyond the
  field level, the `manul` session layer (signatures, echo-broadcast
  consistency, message delivery), `crypto-bigint`/`k256` internals (taken at
  their documented mathematical meaning), prime generation, the quality of the
  RNG, computational hardness statements (DDH, strong RSA ...) and probabilities:
  C69, C70, C73 and C74 state secrecy of proofs, C75 that of masked products, and
  C72 freshness of shares, as
  bijections between the draws and the results, not as a distance of
  distributions.
  Special soundness is stated as algebraic extraction, not as a probability.

## Coverage by source file

Which definitions transcribe which part of `/repo/src`, and what is left out.
Test, benchmark and misbehaviour-test code is not modelled anywhere.

| source | modelled in | not modelled |
|--------|-------------|--------------|
| `uint/secret_signed.rs`, `uint/public_signed.rs`, `uint/secret_unsigned.rs` | `SignedModel.v` | accessors; `Debug`, `Zeroize` |
| `uint/traits.rs`, `uint/public_uint.rs` | `SignedModel.v`, `EncodingModel.v`, `ZkBase.v` | Montgomery form (a residue is its canonical representative) |
| `tools/secret.rs` | nowhere as such: `Secret<T>` is read as `T` | the wrapper, its operator impls, zeroization |
| `tools/bitvec.rs`, `tools/hashing.rs` | `EncodingModel.v`, `CrashModel.v` | the digest itself (any function); the binary serializer below the level of fields |
| `tools/sss.rs` | `ShamirModel.v` | the sampling of coefficients (arguments) |
| `tools/protocol_shortcuts.rs` | `ProtoBase.v` | `downcast_all` (messages are typed) |
| `curve/arithmetic.rs` | `AlgBase.v` (a field and a module over it), `PointModel.v` (encodings) | k256 internals; operator impls are the module operations |
| `curve/bip32.rs` | `ThresholdModel.v` | the tweak derivation inside the `bip32` crate (any function of key, chain code and index) |
| `curve/ecdsa.rs` | `SigningModel.v` | the external `ecdsa` verifier beyond its equation |
| `params/conversion.rs` | `ConversionModel.v` | |
| `params/traits.rs`, `params/k256.rs`, `params/dev.rs` | `ZkBase.v`, `PaillierModel.v` (checks), `PropsParams.v` (the numbers) | type-level limb counts beyond their values |
| `paillier/rsa.rs`, `keys.rs`, `encryption.rs`, `ring_pedersen.rs`, `params.rs` | `PaillierModel.v`, `KeygenModel.v` (the random constructors) | the sieve and primality test of `crypto_primes` (what it delivers is a hypothesis); precomputed Montgomery parameters |
| `zk/prm.rs`, `mod_.rs`, `fac.rs`, `enc_elg.rs`, `aff_g.rs`, `aff_g_star.rs`, `dec.rs` | `ZkModel.v` | the primality test of `mod_.rs` (an oracle) |
| `zk/elog.rs`, `zk/sch.rs` | `ElogModel.v`, `SchModel.v` | |
| `entities/full.rs`, `entities/threshold.rs` | `ThresholdModel.v`, `CentralModel.v`, `EntryModel.v` | accessors |
| `protocols/key_init.rs` | `KeyInitModel.v` | `transition_info`, `communication_info` (all parties talk to all others) |
| `protocols/aux_gen.rs` | `AuxGenModel.v` | the same |
| `protocols/key_refresh.rs` | `KeyRefreshModel.v` | the same |
| `protocols/key_resharing.rs` | `ReshareModel.v` (with destinations and expected senders) | `transition_info`, the echo-round roles |
| `protocols/interactive_signing.rs` | `SigningModel.v`, `EntryModel.v`, `CrashModel.v` | `transition_info`, `communication_info` |
| `lib.rs` and the re-exporting modules | nothing to model | |

## Plan per property

| id | model | proof |
|----|-------|-------|
| C01 | `SignedModel.v`: checked add/sub on words mod 2^BITS | value = exact sum by modular arithmetic + bounds; refusal iff bound |
| C02 | `SignedModel.v`: checked_mul, mul_wide_public | same |
| C03 | `SignedModel.v`: all constructors | well-formedness for each; witness for new_positive |
| C04 | `SignedModel.v`: both range checks | bit-mask reasoning to interval; agreement |
| C05 | `SignedModel.v`: samplers with the RNG draw as argument | bijection draw <-> interval |
| C06 | `SignedModel.v`: new_modulo | uniqueness of centred representative |
| C07 | `SignedModel.v`/`ModArith.v`: three pow functions, inverse as extended Euclid | laws of modular inverse |
| C08 | `SignedModel.v`: to_wide, to_public, abs, neg, Extendable | value preservation |
| C09 | `EncodingModel.v`: PackedSigned | round trip, adversarial decoder invariant |
| C10 | `EncodingModel.v`: big-endian codec on byte lists | bijection by induction |
| C11 | `EncodingModel.v`: BitVec | round trip by induction; non-injectivity witness |
| C12 | `EncodingModel.v`: chain_bytes framing | injectivity by induction over fields |
| C13 | `EncodingModel.v`: from_xof_reader | range and surjectivity; witness >= N |
| C14 | `ConversionModel.v` | congruence mod q |
| C15 | `EncodingModel.v`: xor fold | permutation invariance, bijection |
| C16 | `ZkBase.v`, `ParamSets.v`: SELF_CONSISTENT and the provers' width demands | linear arithmetic on exponents; bounds of every operation |
| C17 | `ShamirModel.v` | Lagrange interpolation over any field |
| C18 | `ShamirModel.v` | existence/uniqueness of interpolating polynomial; witness |
| C19 | `ShamirModel.v` | linearity |
| C20 | `ShamirModel.v`: secret_split | induction |
| C21-C25 | `ThresholdModel.v` | Lagrange + linearity; witnesses for degenerate input; `BipPath.v` specifies the child keys along a path |
| C26-C29 | `PaillierModel.v` | binomial mod N^2, Fermat mod p and q |
| C30 | `PaillierModel.v` | CRT, Euler criterion for p = 3 mod 4 |
| C31 | `PaillierModel.v` | power laws modulo N |
| C32-C40 | `ZkModel.v`, `ElogModel.v`, `SchModel.v` | completeness by power laws, extraction equations, binding by definition of the challenge as hash of the framed transcript, malformed-proof behaviour |
| C41 | `ZkLemmas.v` | interval arithmetic |
| C42-C44 | `ProtoBase.v`, `KeyInitModel.v` | per-round invariants; evidence iff receive check |
| C45 | `AuxGenModel.v` | same |
| C46-C47 | `KeyRefreshModel.v` | same, composed with C25 |
| C48-C49 | `ReshareModel.v` | composition of sharings; witnesses |
| C50-C53 | `SigningModel.v` | invariants; soundness from the checks only |
| C54-C56 | `SigningModel.v` (`sg_evidence`) | iff theorems / witnesses; `DecEvidence.v` says what confirmed decryption evidence means |
| C57 | `SigningModel.v` (`from_scalars`) | algebra of ECDSA verification |
| C58 | all protocol models | case analysis over the receive functions and the evidence tables |
| C59 | `EntryModel.v`, `SigningModel.v` | set reasoning |
| C60 | `ProtoBase.v`, `SigningModel.v` | transcript injectivity |
| C63 | `ZkModel.v`, `ElogModel.v`, `SchModel.v` | the two transcripts given explicitly; injectivity of their items |
| C61 | `AuxGenModel.v` | composition of the completeness lemmas of C34-C36 |
| C64 | `PointModel.v` | case analysis on the tag byte |
| C65 | `CrashModel.v` | the receiving functions with serialisation, compared with those without |
| C62 | `AgreeSpec.v` | two parties of one session that finish agree, given equal echo parts of one round |
| C66 | `SigningBranchSpec.v` | the next round as a function of the values of round 3; sessions can be split |
| C67 | `DecForgeSpec.v` | an explicit dishonest prover against the model's verifier |
| C68 | `SigningErrorSpec.v` | both sides of an error round after an honest session: exact checks, completeness, an unexposed liar |
| C69 | in the statements | accepted Schnorr, dlog and ring-Pedersen proofs = honest proofs, one nonce each |
| C70 | `HideSpec.v` | accepted inner proofs of dec and aff_g_star = honest proofs, one list of draws each; the margin |
| C71 | `LifeSpec.v` | KeyInit, resharing, child derivation, AuxGen / KeyInit, refresh / the centralized constructors; then signing: every step succeeds, the signature is valid under the key |
| C72 | `FreshSpec.v` | one party's draws against the new shares: every outcome, one list of draws each |
| C73 | `HideRpSpec.v` | inner proofs against the honest prover's draws for enc-elg, aff-g and fac; commitments against randomizers |
| C74 | `HideModSpec.v` | a Paillier-Blum proof made backwards from the modulus; equal to the honest one; commitments and challenges against choices |
| C75 | `HideMtaSpec.v` | inner ciphertexts of round 2 against masks and randomizers; the margin; two factors |
| C76 | `CommitSpec.v` | one party in two worlds with equal round 1 echoes of the peers; commitments of two parties differ |
| C77 | `KeygenSpec.v` | prime draws of a given length; safe primes; order of the base; which exponent gives which value base |
| C78 | `ModSoundSpec.v` | k-th powers and k-th roots of 1 in the unit group; eight fourth roots unless the modulus is of Blum form |
| C79 | `NonceSpec.v` | one party signing in two worlds with equal round 1 echoes of the peers; a proof that is not a guess can answer a second challenge |
| C80 | `PresignSpec.v` | El-Gamal pledges of round 1; the deltas fit the product of the pledged sums exactly if round 5 is avoided |
| C81 | `ModPeerSpec.v` | C78 applied to a finished AuxGen or KeyRefresh; the size and oddness of the modulus follow from the run, proof length is a hypothesis, and a refutation without it |

The signing model works over a group of prime order presented by `curve_ok`
(`ZkSpec.v`), with integers modulo the order as scalars.  Two facts about the
curve backend are hypotheses where needed (`SigningSpec.v`): `xcoord_ok` (the x
coordinate is a residue, the same for a point and its negative) and `lift_ok`
(point recovery from an x coordinate and a recovery id finds the points with
that coordinate).  Serialisation is modelled as typed values with an explicit
flag `positional` for formats in which the two error-round messages, having
the same fields, can be decoded as each other.

## Assumptions

Every theorem in the `Props*.v` files is followed by `Print Assumptions`.  All
of them print `Closed under the global context`: no axioms, neither of the
standard library nor of any other library.

## Findings

Claims that are false as one would naturally state them get a positive exact
characterisation plus a witness (theorems named `..._refuted`, or `..._panics`).

1. `SecretSigned::new_positive` does not enforce the declared bound (C03).
2. `SecretSigned::in_range` and `PublicSigned::in_range` disagree for exponents
   above the width, and underflow for exponent 0 (C04).
3. `BitVec` decoding ignores trailing bytes, so encodings are not unique (C11).
   `BitVec` xor panics on unequal lengths, and peers' lengths are not checked (C15).
4. Hash-derived "invertible residues" may be at least `N` (C13).  One repetition of
   the Paillier-Blum proof then catches a bad modulus less often than half of
   the time (C78_values_over_half: 23 of 43 challenges answerable).
5. Shamir coefficients are drawn nonzero, so for threshold 2 no share ever
   equals the secret (C18).
6. `PublicPolynomial::evaluate` asserts that the polynomial has more than one
   coefficient: a peer's short polynomial panics the receiver, and resharing to
   threshold 1 panics (C19).
7. `ThresholdKeyShare::to_key_share` accepts wrong or ownerless identifier sets
   in release builds, and threshold 0 is accepted (C21, C22).
8. `KeyShare::update` does not check that the changes cancel (C25).
9. Key generation never checks that the two primes differ; equal primes panic in
   `SecretKeyPaillier::new` (C26).
10. Ciphertexts received from peers need not be invertible; negating them, or
    multiplying them by a negative public or any nonzero secret number, panics (C27).
11. Ring-Pedersen bases received from peers need not be invertible; committing
    under such bases panics the prover (C31).
12. `PrmProof::verify` and `ModProof::verify` iterate over the received vectors
    with `zip` semantics and never check their lengths, so a proof with empty
    vectors is accepted for any statement (C34, C35).  In AuxGen a peer with the
    modulus 3 * 7 * 23 is accepted that way (C81).
13. `SchemeParams::SELF_CONSISTENT` is one bit too weak for `FacProof::new`: a
    set of parameters passing it can still make every prover panic (C16).  The
    shipped sets have the extra bit.
14. The provers' masked responses leave the verifier's interval for a
    negligible set of draws: completeness of the range proofs holds only up to
    an explicit margin (C41).
15. `DecProof` panics for a single party: the range exponent is computed with
    `ilog2(n - 1)` (C40).
16. KeyInit, AuxGen: the length of a peer's random contribution is never
    validated; a contribution of another length panics the receiver in
    `BitVec`'s xor (C42-C45).
17. Resharing: the length of a received public polynomial is not compared with
    the new threshold, so a too long one yields shares of a higher degree
    (C49_degree_unchecked_refuted); a new holder who is also an old holder counts its own
    contribution even if it is not listed among the old holders
    (C49_self_not_listed_refuted); a short polynomial, threshold 1 or a wrong verifying key
    panics the receiver (C49_*_aborts); evidence is `unimplemented!()`;
    `old_threshold` is never read.
18. AuxGen: an even modulus in a message panics the receiver, and panics the
    judge of the evidence (C45: the `RPanic` alternative).
19. AuxGen: evidence for a failed factor proof names its reporter, but a direct
    message is not bound to its destination.  Anybody holding an honest party's
    valid message can name another reporter and have that party convicted
    (C45_honest_sender_framed_refuted).
20. KeyRefresh: the same for its factor proof, and, with the help of the party
    named, for the share-change mismatch (C47_honest_sender_framed_refuted).
21. KeyInit, AuxGen and KeyRefresh commit under the same domain separator
    "KeyInit"; they are told apart only by the shape of the hashed data.
22. Signing: neither `InteractiveSigning::new` nor `make_round` checks that the
    caller is among the parties of the key share and the auxiliary data
    (C59_caller_is_party_refuted); an even modulus in the auxiliary data makes
    `make_round` panic (C59_start_even_modulus_panics).
23. Signing: the session identifier and all proof contexts leave out the message;
    up to round 3 a run is the same whatever is being signed
    (C60_message_not_bound).  The decryption proof does not hash the number of
    parties it is checked with, nor compare the keys of its ciphertexts (C63_dec).
24. Signing, evidence checked against other data than the receiver used, so that
    a party that follows the protocol can be convicted
    (C55_honest_party_framed_refuted, C55_framed_in_error_rounds_refuted):
    `R1EncElg0Failed`/`R1EncElg1Failed` take the ring-Pedersen parameters of the
    accused instead of the receiver; `R2AffGHatPsiFailed` the public share of the
    party the proof is for instead of the accused; `R3ElogFailed` the accused's
    own nonce share instead of the combined nonce; `R5DecFailed` and `R6DecFailed`
    the wrong products and, in round 5, the wrong point.  For the same reason a
    fault the receiver found need not be confirmed (C55_cheater_escapes_refuted).
25. Signing, evidence that can never be confirmed (C55_never_confirmed,
    C55_round5_affine_never_confirmed): `R5WrongIdsPsi`/`R6WrongIdsPsi` decode a
    normal broadcast although the rounds send an echo broadcast;
    `R6AffGStarFailed` reads a round 2 message that `required_messages` does not
    ask for; `R5AffGStarFailed` swaps the two keys, which an assertion in the
    verifier turns into a panic of the judge unless both moduli are equal.
26. Signing: `Round2::receive_message` checks the ids of `cap_ds`, `cap_fs` and
    `psis` but not of the `hat_` maps (C56).
27. The point at infinity can be read from the wire (one zero byte), but
    `Point::to_compressed_array` panics on it.  Hashing serialises, so a peer that
    puts it into its first message with points crashes every receiver
    (C65_no_crash_refuted) and the judge of the evidence (C65_key_init_crash).
    Points are also accepted in uncompressed and compact form
    (C64_encoding_unique_refuted).  Apart from `CrashModel.v` the models hash
    points as they are: their theorems speak about runs in which no point at
    infinity is hashed.  `C65_*_otherwise` makes this precise for the three
    functions concerned.
28. Signing: the point S of round 3 is sent in the normal broadcast and no proof
    comes with it, so one party can give a single other party a different S.  That
    party goes to round 6 alone while the others go to round 4; rounds 5 and 6
    declare no sibling rounds, round 4 declares both
    (C66_one_party_splits_session).
29. Signing: `DecProof::verify` (zk/dec.rs:253-260) accepts responses `w` up to
    2^(LP + 2 EPS + ceil log2 n).  In every parameter set that passes
    `SELF_CONSISTENT` this is wider than the Paillier modulus N, while a
    ciphertext determines its plaintext only modulo N.  A signer that adds a
    suitable multiple of N to its plaintext can therefore prove any product
    (C67_any_product_accepted), so rounds 5 and 6 need not expose the signer that
    sent a wrong delta or S in round 3.
30. Signing: the error rounds expose nobody.  After two honest rounds a signer can
    announce any other delta (or any other multiple of Gamma as its S) in round 3
    and then send a message that every other party accepts in round 5 (6).  All
    of them stop in `finalize` with the local error "One of the messages should
    have been missing or invalid" (interactive_signing.rs:2295-2297, 2540-2542),
    and there is no evidence against the liar (C68_wrong_delta_unattributed,
    C68_wrong_s_unattributed).  This is finding 29 carried through the protocol.
    Related: a receiver skips the affine-operation proof addressed to itself
    (C68_error_round_checks), and the honest prover is only guaranteed to stay in
    range for up to 2^18 parties in the worst parameter set `SELF_CONSISTENT`
    admits, while the comment in params/traits.rs speaks of 2^20.
