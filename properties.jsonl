{"id": "C01", "title": "Signed addition and subtraction are exact", "statement": "Adding or subtracting two bounded signed integers either reports failure or returns an integer equal to the mathematical sum/difference, whose declared bound really bounds its absolute value; failure is reported exactly when the result's bound would not fit the machine width.", "quantifier": "every machine width, every pair of well-formed signed values with any declared bounds", "why_tests_cant": "Two's-complement wrap-around is a property of all 2^BITS x 2^BITS operand pairs; tests sample a handful", "anchors": ["src/uint/secret_signed.rs: CheckedAdd, CheckedSub for SecretSigned", "src/uint/secret_signed.rs: Add, Sub, Sum"]}
{"id": "C02", "title": "Signed multiplication is exact, including widening", "statement": "Multiplying two bounded signed integers (same width or into a wider type) either reports failure or returns the exact mathematical product with a valid bound; no silent wrap-around.", "quantifier": "every width, every pair of well-formed values", "why_tests_cant": "Universal over all operand pairs and all bounds", "anchors": ["src/uint/secret_signed.rs: CheckedMul, mul_wide_public"]}
{"id": "C03", "title": "Signed constructors respect the declared bound", "statement": "Every way of constructing a bounded signed integer from raw words yields a value whose absolute value is below 2^bound with bound < width, or refuses; the one exception is the positive secret constructor, which accepts values above the bound, and the converse conversion to a public value then aborts.", "quantifier": "all raw machine words, all requested bounds, all widths", "why_tests_cant": "Bound invariant must hold for all raw inputs; the exception is only visible on inputs unit tests do not use", "anchors": ["src/uint/secret_signed.rs: new_from_unsigned, new_from_abs, new_positive, zero, neg, to_public", "src/uint/public_signed.rs: new_from_abs, new_positive, new_from_unsigned, one, zero, neg"]}
{"id": "C04", "title": "Range check is exactly the paper interval", "statement": "For e > 0 the check 'value is in +-2^e' accepts exactly the integers v with -2^(e-1)+1 <= v <= 2^(e-1); the constant-time secret check and the public check agree on every value.", "quantifier": "all widths, all exponents, all values", "why_tests_cant": "Boundary behaviour of two differently implemented checks must agree for every value and exponent", "anchors": ["src/uint/secret_signed.rs: is_in_exponent_range, assert_exponent_range, ensure_exponent_range", "src/uint/public_signed.rs: is_in_exponent_range"]}
{"id": "C05", "title": "Sampling covers exactly the interval, uniformly", "statement": "Sampling in +-2^e (and in +-2^e*scale) maps the RNG's draws one-to-one onto the integers of the documented interval, and the declared bound holds for every draw; the scaled sampler's interval is [-scale*2^(e-1)+1, scale*2^(e-1)].", "quantifier": "all exponents, scales, widths and RNG draws", "why_tests_cant": "Uniformity/bijectivity is a statement about the entire draw space", "anchors": ["src/uint/secret_signed.rs: random_in_exponent_range, random_in_exponent_range_scaled, random_in_exponent_range_scaled_wide", "src/uint/public_signed.rs: from_xof_reader_in_exponent_range"]}
{"id": "C06", "title": "Centred reduction", "statement": "Interpreting a residue in [0, m) as a signed value returns the unique representative congruent to it with -m/2 < v <= m/2 and a valid bound.", "quantifier": "all moduli that fit the width, all residues", "why_tests_cant": "All residues of all moduli", "anchors": ["src/uint/secret_signed.rs: new_modulo"]}
{"id": "C07", "title": "Modular exponentiation with signed exponents", "statement": "Raising a residue to a signed exponent returns base^|x| for x >= 0 and the modular inverse of it for x < 0; the public-exponent and secret-exponent versions agree on invertible bases; on a non-invertible base the secret version always aborts (even for positive exponents) and the public version aborts exactly for negative exponents.", "quantifier": "all odd moduli, bases, signed exponents", "why_tests_cant": "Quantifies over all bases including non-invertible ones supplied by a malicious peer", "anchors": ["src/uint/traits.rs: Exponentiable::pow (three impls)"]}
{"id": "C08", "title": "Widening, narrowing and publishing preserve the value", "statement": "Converting a signed integer to a wider type, taking its absolute value, negating it, or converting a secret value to a public one never changes the integer it denotes; narrowing an unsigned value succeeds exactly when it fits.", "quantifier": "all widths W >= L, all well-formed values", "why_tests_cant": "All values; sign-extension errors only show at specific bit patterns", "anchors": ["src/uint/secret_signed.rs: to_wide, to_public, abs, neg", "src/uint/public_signed.rs: to_wide, abs, neg", "src/uint/traits.rs: Extendable"]}
{"id": "C09", "title": "Signed integer wire format", "statement": "Encoding a public signed integer and decoding the result returns the same value and bound; decoding arbitrary untrusted bytes either fails or returns a value satisfying its declared bound; whatever is accepted re-encodes and decodes to itself.", "quantifier": "all values, all attacker-chosen byte strings, bounds and sign flags", "why_tests_cant": "Adversarial decoder input space is unbounded", "anchors": ["src/uint/public_signed.rs: PackedSigned, From<PublicSigned>, TryFrom<PackedSigned>"]}
{"id": "C10", "title": "Fixed-width integer wire format is a bijection", "statement": "Big-endian encoding of an unsigned integer has exactly the declared length, decoding inverts it, and decoding accepts a byte string iff its length is right.", "quantifier": "all widths (bytes), all integers, all byte strings", "why_tests_cant": "All byte strings of all lengths", "anchors": ["src/uint/traits.rs: BoxedEncoding", "src/uint/public_uint.rs: Serialize, Deserialize"]}
{"id": "C11", "title": "Bit vector wire format", "statement": "Packing a bit vector and unpacking it is the identity; unpacking accepts exactly inputs with enough bytes; unpacking is not injective (trailing bytes and padding bits are ignored), so distinct wire encodings can denote the same vector.", "quantifier": "all bit vectors, all packed byte strings and declared lengths", "why_tests_cant": "All lengths including non multiples of 8 and adversarial encodings", "anchors": ["src/tools/bitvec.rs: PackedBitVec, TryFrom, From, from_bytes_unchecked"]}
{"id": "C12", "title": "Transcript framing is injective", "statement": "Two different sequences of byte fields absorbed with length-prefixed chaining never produce the same input to the hash (for fields shorter than 2^64 bytes), so moving bytes between adjacent fields always changes the transcript.", "quantifier": "all field sequences of all lengths", "why_tests_cant": "Injectivity quantifies over all pairs of transcripts", "anchors": ["src/tools/hashing.rs: Chain::chain_bytes, Hasher::new_with_dst", "src/params/traits.rs: chain_scheme_params"]}
{"id": "C13", "title": "Hash-derived integers are in range", "statement": "An n-bit integer derived from the extensible-output hash is always in [0, 2^n) and every value is attained; the challenge derived in +-2^e is in that interval; the hash-derived invertible residue is coprime to N and below 2^bits(N) but can exceed N.", "quantifier": "all hash outputs, all bit sizes, all moduli", "why_tests_cant": "All hash output streams", "anchors": ["src/uint/traits.rs: FromXofReader::from_xof_reader", "src/paillier/rsa.rs: invertible_residue_from_xof_reader"]}
{"id": "C14", "title": "Scalar/integer conversions", "statement": "Converting a curve scalar to an integer (either non-negative or centred) and back is the identity; converting any signed integer to a scalar yields its residue modulo the curve order, so integer sums and products map to scalar sums and products.", "quantifier": "all curve orders that fit, all scalars, all signed integers", "why_tests_cant": "Universal over the scalar field and all integers", "anchors": ["src/params/conversion.rs: public_signed_from_scalar, secret_signed_from_scalar, scalar_from_signed, scalar_from_wide_signed, secret_scalar_from_signed"]}
{"id": "C15", "title": "Combining randomness contributions by XOR", "statement": "The combined session randomness is the same for every party regardless of the order in which contributions are processed, and for any fixed contributions of the others it is a bijective function of an honest party's contribution; combining contributions of different lengths aborts the process.", "quantifier": "all numbers of parties, all contribution values and lengths, all processing orders", "why_tests_cant": "All orderings and all adversarial contributions", "anchors": ["src/tools/bitvec.rs: BitXorAssign", "src/protocols/key_init.rs: Round2::finalize", "src/protocols/aux_gen.rs: reconstruct_rid", "src/protocols/key_refresh.rs: reconstruct_rid"]}
{"id": "C16", "title": "Self-consistent parameters never overflow", "statement": "For every parameter set satisfying the crate's self-consistency predicate (in particular the three shipped ones), none of the integer operations performed while creating the zero-knowledge proofs can exceed its declared machine width, for any secret inputs within the asserted ranges and any randomness.", "quantifier": "all self-consistent parameter sets, all secrets in range, all randomness", "why_tests_cant": "Overflow depends on extreme values that random tests hit with negligible probability", "anchors": ["src/params/traits.rs: SELF_CONSISTENT", "src/paillier/params.rs: SELF_CONSISTENT", "src/zk/*.rs: new"]}
{"id": "C17", "title": "Any threshold subset reconstructs the secret", "statement": "Splitting a secret with threshold t over distinct non-zero share ids and joining any t (or more) of the shares returns the secret; the same holds in the exponent for public shares.", "quantifier": "all secrets, thresholds, coefficient choices, id sets and subsets", "why_tests_cant": "Exponentially many subsets; all polynomials", "anchors": ["src/tools/sss.rs: shamir_split, shamir_join_scalars, shamir_join_points, interpolation_coeff, Polynomial::evaluate"]}
{"id": "C18", "title": "Below-threshold secrecy of secret splitting", "statement": "For arbitrary coefficients, any t-1 shares are consistent with every possible secret in exactly one way; because the implementation samples coefficients non-zero, this is not perfect: with t = 2 a share never equals the secret, so one share excludes one candidate.", "quantifier": "all share values, all sets of t-1 distinct non-zero ids, all candidate secrets", "why_tests_cant": "A counting statement over all polynomials", "anchors": ["src/tools/sss.rs: Polynomial::random, shamir_split"]}
{"id": "C19", "title": "Public polynomial matches the secret polynomial", "statement": "Evaluating the published polynomial at a share id equals the generator times the secret polynomial's value there; evaluation of a published polynomial with fewer than two coefficients aborts the process.", "quantifier": "all polynomials, all share ids", "why_tests_cant": "All polynomials, including malformed received ones", "anchors": ["src/tools/sss.rs: Polynomial::public, PublicPolynomial::evaluate, evaluate_polynomial, coeff0"]}
{"id": "C20", "title": "Additive splitting sums to the secret", "statement": "Splitting a scalar into n >= 1 additive parts yields n parts whose sum is the scalar, for any randomness; splitting into zero parts aborts.", "quantifier": "all scalars, all n, all randomness", "why_tests_cant": "All randomness and all n", "anchors": ["src/curve/arithmetic.rs: secret_split"]}
{"id": "C21", "title": "Centralized threshold key generation", "statement": "For 1 <= t <= n, generated threshold shares agree on ids and public shares, each public share is the generator times the secret share, and every share reports the verifying key of the given signing key; t > n is refused; t = 0 is accepted but yields shares with no usable verifying key.", "quantifier": "all id sets, thresholds, keys and randomness", "why_tests_cant": "All subsets/thresholds including degenerate ones", "anchors": ["src/entities/threshold.rs: new_centralized, verifying_key_as_point, verifying_key"]}
{"id": "C22", "title": "Threshold shares convert to signing shares", "statement": "For any t-subset of parties, converting each member's threshold share gives additive shares that sum to the secret key, with consistent public shares and the same verifying key; a set of the wrong size or lacking the owner is only rejected in debug builds and yields shares of a different key.", "quantifier": "all threshold sharings, all subsets", "why_tests_cant": "Exponentially many subsets", "anchors": ["src/entities/threshold.rs: to_key_share", "src/entities/full.rs: KeyShare::new"]}
{"id": "C23", "title": "Signing shares convert to threshold shares", "statement": "Converting additive key shares to t-of-t threshold shares preserves the verifying key and the secret/public correspondence, and converting back on the full party set returns the original shares.", "quantifier": "all key shares, all party sets smaller than the curve order", "why_tests_cant": "All key shares", "anchors": ["src/entities/threshold.rs: from_key_share, to_key_share"]}
{"id": "C24", "title": "BIP-32 derivation is consistent across shares", "statement": "Deriving every threshold share along a path gives a valid threshold sharing of the child secret key: the derived shares' verifying key equals the child verifying key derived publicly, and every derived public share matches its secret share. The child key is the one reached by taking the path elements one after the other, each tweak being made from the key and chain code reached so far, and the shares are shifted by the sum of these tweaks.", "quantifier": "all sharings, all derivation paths (tweak sequences), all subsets", "why_tests_cant": "All tweak sequences and subsets", "anchors": ["src/entities/threshold.rs: derive_bip32, derive_verifying_key_bip32", "src/curve/bip32.rs: apply_tweaks_public, derive_tweaks"]}
{"id": "C25", "title": "Applying a refresh keeps the key", "statement": "Updating key shares with a refresh result whose public changes sum to zero keeps the verifying key, keeps secret/public correspondence, and is refused when the owner or the party set differs.", "quantifier": "all key shares and all refresh results", "why_tests_cant": "All shares and changes, including mismatching ones", "anchors": ["src/entities/full.rs: KeyShare::update"]}
{"id": "C26", "title": "Paillier decryption inverts encryption", "statement": "Decrypting an encryption of a signed plaintext with |m| < N/2 under any invertible randomizer returns m; larger plaintexts decrypt to their centred residue modulo N.", "quantifier": "all pairs of distinct odd primes with gcd(N, phi(N)) = 1, all plaintexts and randomizers", "why_tests_cant": "All keys, plaintexts and randomizers", "anchors": ["src/paillier/encryption.rs: new_with_randomizer, decrypt", "src/paillier/keys.rs: SecretKeyPaillier::new"]}
{"id": "C27", "title": "Paillier homomorphisms", "statement": "Adding ciphertexts, subtracting them and multiplying by a signed integer correspond exactly to the same operations on plaintexts (mod N) and the matching operations on randomizers.", "quantifier": "all moduli, plaintexts, randomizers and multipliers", "why_tests_cant": "All ciphertext combinations", "anchors": ["src/paillier/encryption.rs: homomorphic_add, homomorphic_mul, homomorphic_neg_ref, Sub"]}
{"id": "C28", "title": "Randomizer recovery", "statement": "From an honestly formed ciphertext the key owner recovers exactly the randomizer used; any valid ciphertext is the encryption of its decryption under the recovered randomizer.", "quantifier": "all keys and all invertible ciphertexts", "why_tests_cant": "All ciphertexts", "anchors": ["src/paillier/encryption.rs: derive_randomizer"]}
{"id": "C29", "title": "Masked randomizers and public re-encryption", "statement": "Encrypting a response integer with a masked randomizer rho^e*r equals the homomorphic combination of the original ciphertext raised to e and the commitment ciphertext; secret and public encryption functions agree.", "quantifier": "all moduli, plaintexts, randomizers, exponents of either sign", "why_tests_cant": "All exponents including negative ones", "anchors": ["src/paillier/encryption.rs: to_masked, new_public_with_randomizer, new_public_wide_with_randomizer"]}
{"id": "C30", "title": "RNS representation and square roots modulo N", "statement": "Splitting modulo p and q and joining returns the original residue; for primes congruent to 3 mod 4 the square-root routine succeeds exactly on squares and returns a root that is itself a square; the non-square sampler returns an invertible element that is not a square and for every invertible y exactly one of +-y, +-wy has a fourth root.", "quantifier": "all prime pairs congruent to 3 mod 4, all residues", "why_tests_cant": "All keys and residues", "anchors": ["src/paillier/keys.rs: rns_split, rns_join, rns_sqrt, sqrt_part, random_nonsquare_residue, SecretKeyPaillier::new"]}
{"id": "C31", "title": "Ring-Pedersen commitments are homomorphic", "statement": "The product of two commitments commits to the sum of values and randomizers, raising to a signed power multiplies both, and generated parameters satisfy s = t^lambda with s, t invertible squares.", "quantifier": "all parameters, values, randomizers and exponents", "why_tests_cant": "All values of either sign", "anchors": ["src/paillier/ring_pedersen.rs: commit, RPCommitment::pow, mul, random_with_secret"]}
{"id": "C32", "title": "Schnorr proof", "statement": "An honest proof verifies for the same statement and context; two accepting answers to different challenges for one commitment reveal the discrete logarithm; acceptance forces the proof's challenge to be the hash of exactly this context, statement and commitment.", "quantifier": "all secrets, randomness, contexts, statements, proofs and hash functions", "why_tests_cant": "Extractability is a property of all pairs of transcripts", "anchors": ["src/zk/sch.rs: SchProof::new, verify"]}
{"id": "C33", "title": "El-Gamal dlog proof", "statement": "An honest proof verifies; two accepting transcripts with equal commitments and different challenges reveal y and lambda with L = g*lambda, M = g*y + X*lambda and Y = h*y.", "quantifier": "all inputs, randomness, contexts", "why_tests_cant": "All pairs of transcripts", "anchors": ["src/zk/elog.rs: ElogProof::new, verify"]}
{"id": "C34", "title": "Ring-Pedersen parameter proof", "statement": "An honest proof verifies; if the vectors have the full length and two transcripts with equal commitments and different challenges are accepted, s is a power of t up to inverse; but verification never checks vector lengths: a proof with empty vectors and a matching challenge is accepted for every parameter set, including invalid ones.", "quantifier": "all parameters, randomness, contexts, attacker-chosen proofs", "why_tests_cant": "Malformed proofs are never produced by the prover used in tests", "anchors": ["src/zk/prm.rs: PrmProof::new, verify"]}
{"id": "C35", "title": "Paillier-Blum modulus proof", "statement": "For primes congruent to 3 mod 4 an honest proof exists for every challenge and verifies; each verified element certifies an N-th root and a fourth root of the challenge; but verification never checks the proof length, so an empty proof with a matching challenge is accepted for any composite modulus.", "quantifier": "all keys, challenges, contexts, attacker-chosen proofs", "why_tests_cant": "All challenges; malformed proofs not in tests", "anchors": ["src/zk/mod_.rs: ModProof::new, verify"]}
{"id": "C36", "title": "No-small-factor proof", "statement": "An honest proof whose masked responses are in range verifies for N = p*q; two accepting transcripts with equal commitments give integer openings of the commitments for the difference challenge and the product relation in the exponent.", "quantifier": "all keys, setups, randomness", "why_tests_cant": "All inputs and transcripts", "anchors": ["src/zk/fac.rs: FacProof::new, verify"]}
{"id": "C37", "title": "Encryption-in-range proof with El-Gamal commitment", "statement": "An honest proof whose masked response is in range verifies; acceptance implies the response is in range and all four equations hold for the hash-derived challenge; two accepting transcripts give the consistent difference equations across ciphertext, curve and commitment.", "quantifier": "all inputs, setups, randomness, contexts", "why_tests_cant": "All inputs and transcripts", "anchors": ["src/zk/enc_elg.rs: EncElgProof::new, verify"]}
{"id": "C38", "title": "Affine-operation proof", "statement": "For D = C*x + enc(-y) the honest proof with in-range responses verifies, including the sign deviations from the paper; acceptance implies both range bounds; verification aborts when the ciphertexts' keys differ from the stated ones.", "quantifier": "all inputs, setups, randomness, contexts", "why_tests_cant": "All inputs and sign combinations", "anchors": ["src/zk/aff_g.rs: AffGProof::new, verify"]}
{"id": "C39", "title": "Setup-less affine-operation proof", "statement": "An honest proof with in-range responses verifies; a proof whose vectors do not have the full length is rejected; for a repetition answered for both challenge bits the difference opens the statement D = C*x + enc(-y), X = g*x, Y = enc(y).", "quantifier": "all inputs, randomness, proofs", "why_tests_cant": "All inputs and malformed proofs", "anchors": ["src/zk/aff_g_star.rs: AffGStarProof::new, verify"]}
{"id": "C40", "title": "Decryption-in-the-exponent proof", "statement": "An honest proof with in-range responses verifies for enc(y) = K*x + D, S = G*y; a proof whose vectors do not have the full length is rejected; both-bit answers open the statement; the party-count slack is ceil(log2 n) for n >= 2 and the computation aborts for n = 1.", "quantifier": "all inputs, randomness, proofs and party counts", "why_tests_cant": "All inputs, counts and malformed proofs", "anchors": ["src/zk/dec.rs: DecProof::new, verify"]}
{"id": "C41", "title": "Honest range failures are confined to a thin margin", "statement": "An honest prover's response alpha + e*x passes the verifier's range check whenever the mask is at least 2^(l+k-1) away from the interval ends; outside that margin honest proofs can be rejected, so completeness is statistical, not perfect.", "quantifier": "all masks, secrets and challenges in their ranges", "why_tests_cant": "The failing masks have probability about 2^-eps and are never sampled in tests", "anchors": ["src/zk/enc_elg.rs, src/zk/aff_g.rs, src/zk/aff_g_star.rs, src/zk/dec.rs, src/zk/fac.rs: range checks"]}
{"id": "C42", "title": "KeyInit honest run", "statement": "If all parties follow the protocol, every received message is accepted and all parties output shares with the same public shares and verifying key, whose discrete log is the sum of the secret shares; the only failure is a zero sum.", "quantifier": "all numbers of parties, all randomness, all delivery orders", "why_tests_cant": "All randomness and party counts", "anchors": ["src/protocols/key_init.rs: make_round, Round1, Round2, Round3", "src/entities/full.rs: KeyShare::new"]}
{"id": "C43", "title": "KeyInit against misbehaving peers", "statement": "Whatever the peers send, a party that finishes holds a share whose own public share matches its secret, whose verifying key is not the identity, and every peer's public share was committed to in round 1 and carries a Schnorr proof that verified under the combined randomness.", "quantifier": "all peer messages", "why_tests_cant": "All adversarial messages", "anchors": ["src/protocols/key_init.rs: Round2::receive_message, Round3::receive_message, finalize"]}
{"id": "C44", "title": "KeyInit evidence is sound and complete", "statement": "Evidence for a KeyInit error verifies if and only if the receiving party itself would have rejected those messages with that error; in particular evidence built from an honest party's messages never verifies, and combined randomness reconstructed from echoes equals the receiver's.", "quantifier": "all messages, all guilty parties, all evidence", "why_tests_cant": "All message combinations", "anchors": ["src/protocols/key_init.rs: verify_messages_constitute_error"]}
{"id": "C45", "title": "AuxGen acceptance and evidence", "statement": "Messages accepted in AuxGen carry a matching round-1 commitment, moduli of at least the minimum size and verified proofs; for every error kind, evidence verifies if and only if the receiver's own check fails on the same messages.", "quantifier": "all messages and parties", "why_tests_cant": "All adversarial messages", "anchors": ["src/protocols/aux_gen.rs: receive_message, verify_messages_constitute_error, reconstruct_rid"]}
{"id": "C46", "title": "KeyRefresh preserves the key", "statement": "In an honest refresh run all checks pass, all parties output the same public share changes, the changes sum to zero, and after the update every party's public share matches its secret share and the verifying key is unchanged; a finished party's own secret change matches its published change even if peers misbehave.", "quantifier": "all party counts, randomness, peer messages", "why_tests_cant": "All randomness and adversarial messages", "anchors": ["src/protocols/key_refresh.rs: make_round, Round2, Round3", "src/entities/full.rs: KeyShare::update"]}
{"id": "C47", "title": "KeyRefresh evidence", "statement": "Evidence for each KeyRefresh error verifies if and only if the receiver's own check fails on the same messages, including the share-change mismatch where the reporter's published Diffie-Hellman secret lets a third party recompute the mask.", "quantifier": "all messages, parties, error kinds", "why_tests_cant": "All adversarial messages", "anchors": ["src/protocols/key_refresh.rs: verify_messages_constitute_error, Round3::receive_message"]}
{"id": "C48", "title": "Resharing preserves the key", "statement": "When old holders (at least the old threshold of them, with distinct share ids) run resharing honestly with new threshold t >= 2, every new holder obtains a threshold share of the same key: any t new shares reconstruct the old secret, and all new holders agree on public shares.", "quantifier": "all old/new party sets and thresholds, randomness, subsets", "why_tests_cant": "All subsets and polynomials", "anchors": ["src/protocols/key_resharing.rs: make_round, receive_message, finalize"]}
{"id": "C49", "title": "Resharing acceptance and its gaps", "statement": "A new holder that finishes has a secret share matching its own public share and old shares that interpolate to the expected verifying key; however the degree of received polynomials is not checked, so a single malicious old holder can make the finished shares inconsistent with the threshold; a new threshold of 1 aborts; evidence verification is unimplemented.", "quantifier": "all peer messages", "why_tests_cant": "Requires adversarial messages and unusual thresholds", "anchors": ["src/protocols/key_resharing.rs: receive_message, finalize, verify_messages_constitute_error"]}
{"id": "C50", "title": "Honest signing produces a valid signature", "statement": "If all parties follow the protocol, both consistency checks of the presigning pass, every signature share check passes, no party enters an error round, and the sum of the shares is an ECDSA signature valid for the message under the joint verifying key (unless a random combination is zero).", "quantifier": "all party counts, key shares, nonces, masks, messages", "why_tests_cant": "All randomness and counts", "anchors": ["src/protocols/interactive_signing.rs: Round1..Round4"]}
{"id": "C51", "title": "Only valid signatures are output", "statement": "Whatever the other parties send, if a party's run gets through the presigning checks and accepts all signature shares then the assembled pair (r, s) satisfies the ECDSA verification equation for the requested message and the joint key.", "quantifier": "all peer messages and all histories leading to the final round", "why_tests_cant": "All adversarial messages", "anchors": ["src/protocols/interactive_signing.rs: Round3::finalize, Round4::receive_message, Round4::finalize", "src/curve/ecdsa.rs: from_scalars"]}
{"id": "C52", "title": "A rejected signature share exposes its sender", "statement": "A party whose signature share fails the check did not compute it from its own published presignature values: an honest party's share always passes at every receiver that got the same broadcasts.", "quantifier": "all honest parties, all behaviours of the others", "why_tests_cant": "All adversarial behaviours of other parties", "anchors": ["src/protocols/interactive_signing.rs: Round4::receive_message"]}
{"id": "C53", "title": "Multiplication-to-addition shares", "statement": "For every ordered pair of parties the decrypted share alpha and the mask beta satisfy alpha + beta = k_j*gamma_i (and k_j*x_i) as scalars whenever the masked product stays within half the Paillier modulus, and self-consistent parameters guarantee that it does.", "quantifier": "all secrets in range, masks, keys", "why_tests_cant": "Wrap-around only at extreme values", "anchors": ["src/protocols/interactive_signing.rs: Round1::finalize, Round2::receive_message, Round2::finalize"]}
{"id": "C54", "title": "Signing evidence consistent with the receiver's check", "statement": "For the signing errors about missing ids, the affine proof for gamma, the El-Gamal dlog proof of round 2 and an invalid signature share, evidence verifies if and only if the receiver's own check fails on the same messages.", "quantifier": "all messages, parties, error kinds listed", "why_tests_cant": "All adversarial messages", "anchors": ["src/protocols/interactive_signing.rs: verify_messages_constitute_error, Round2::receive_message, Round4::receive_message"]}
{"id": "C55", "title": "Signing evidence inconsistent with the receiver's check", "statement": "For the errors R1EncElg0/1Failed, R2AffGHatPsiFailed, R3ElogFailed and R5/R6DecFailed the evidence check evaluates the proof against different public inputs than the receiver did, so evidence built from a fully honest party's messages is accepted (an honest party can be framed); R5/R6WrongIds evidence can never be verified; R5/R6AffGStar evidence verification aborts or lacks a required message. Confirmed R5/R6DecFailed evidence says exactly that the decryption proof of the accused fails, for the product of the ciphertexts it sent to all others and those they made for it, counting every party; without other parties there is no such evidence and the check does not panic.", "quantifier": "existence of honest runs and messages; all parties with distinct keys", "why_tests_cant": "The unit tests only check that evidence from real faults verifies, never that evidence against honest messages is refused", "anchors": ["src/protocols/interactive_signing.rs: verify_messages_constitute_error, required_messages"]}
{"id": "C56", "title": "Unattributable aborts in presigning", "statement": "A round-2 message whose second family of proofs lacks entries is not rejected as an attributable fault: if the receiver's own entry is missing the receiver stops with a local error naming nobody, and if another party's entry is missing the message is accepted.", "quantifier": "all round-2 messages", "why_tests_cant": "Needs malformed messages", "anchors": ["src/protocols/interactive_signing.rs: Round2::receive_message"]}
{"id": "C57", "title": "Signature assembly", "statement": "The assembled signature is returned only if r and s are non-zero; replacing s by -s (normalisation) keeps the signature valid, so every returned signature verifies under the joint key with low s.", "quantifier": "all scalars r, s, keys, messages", "why_tests_cant": "All scalars", "anchors": ["src/curve/ecdsa.rs: RecoverableSignature::from_scalars"]}
{"id": "C58", "title": "Message part rules match", "statement": "For every protocol with evidence support, a message part is rejected on receipt as malformed exactly when the corresponding 'part is invalid' evidence check accepts it, for every round.", "quantifier": "all rounds, all message parts", "why_tests_cant": "All rounds x parts x malformed contents", "anchors": ["src/protocols/key_init.rs, aux_gen.rs, key_refresh.rs, interactive_signing.rs: verify_*_is_invalid, receive_message"]}
{"id": "C59", "title": "Entry-point validation", "statement": "Signing can only be started with key share and auxiliary data of the same owner over the same party set that includes the caller; restricting auxiliary data to a subset succeeds exactly when the subset consists of known parties including the owner.", "quantifier": "all inputs to the constructors", "why_tests_cant": "All mismatching combinations", "anchors": ["src/protocols/interactive_signing.rs: InteractiveSigning::new, make_round", "src/entities/full.rs: AuxInfo::subset, PublicAuxInfos::subset"]}
{"id": "C60", "title": "Session binding", "statement": "The session identifiers of key generation and signing are hashes of inputs that determine the scheme parameters, the shared randomness, and the party set (signing: the public shares and auxiliary data); proofs made for one (session, prover) context are accepted in another context only if the hash collides; the message to be signed is not bound.", "quantifier": "all sessions, party sets and contexts", "why_tests_cant": "All pairs of sessions", "anchors": ["src/entities/internal.rs: Sid::new", "src/protocols/interactive_signing.rs: Epid::new", "src/zk/*.rs: aux"]}
{"id": "C61", "title": "An honest auxiliary-data run completes", "statement": "When every party draws proper primes, bases and masks and follows AuxGen, nobody's start fails, every check of every round passes for every delivery order, and all parties finish with the same table of Paillier keys and ring-Pedersen parameters and their own secret key.", "quantifier": "all parameter sets, party sets, draws within their ranges, delivery orders and hash functions", "why_tests_cant": "All draws of large primes and masks, all delivery orders", "anchors": ["src/protocols/aux_gen.rs: AuxGen::make_round, Round1, Round2, Round3", "src/zk/prm.rs, src/zk/mod_.rs, src/zk/fac.rs"]}
{"id": "C63", "title": "Challenges bind statement, setup and context", "statement": "For every zero-knowledge proof in the crate: if one and the same proof is accepted for two different (statement, verifier setup, context) triples, then two explicitly given, different transcripts have the same hash value.", "quantifier": "all proofs, statements, setups, contexts and hash functions", "why_tests_cant": "All pairs of statements and contexts", "anchors": ["src/zk/*.rs: the XofHasher chains in new and verify"]}
{"id": "C64", "title": "Encodings of curve points", "statement": "Every point but the one at infinity is written as a tag byte and one coordinate and read back as itself; different points are written differently; the byte strings read as a given point are exactly its compressed, uncompressed and compact forms and, for the point at infinity, a single zero byte. Writing the point at infinity panics. (Naive versions refuted: whatever is read can be written again; a point has one encoding.)", "quantifier": "all points, all byte strings, all curve backends with the documented behaviour", "why_tests_cant": "All byte strings and all points of the curve", "anchors": ["src/curve/arithmetic.rs: Point::try_from_compressed_bytes, Point::to_compressed_array, AsRef/TryFrom for serialisation"]}
{"id": "C65", "title": "Which peer messages crash the receiver through hashing", "statement": "In the first round in which a peer's points are hashed (KeyInit round 2, KeyRefresh round 2, signing round 1) a message with the point at infinity among the hashed points makes the receiver panic, and in KeyInit also the judge of the evidence; any other message is treated as by the model that hashes points without serialising them. (The claim that no peer message crashes the receiver is refuted.)", "quantifier": "all receiver states, all messages, all hash functions, all curve backends with the documented behaviour", "why_tests_cant": "All messages an adversary may send", "anchors": ["src/tools/hashing.rs: Chain, chain", "src/curve/arithmetic.rs: Point::to_compressed_array", "src/protocols/key_init.rs: Round2::receive_message", "src/protocols/key_refresh.rs: Round2::receive_message", "src/protocols/interactive_signing.rs: Round1::receive_message", "src/zk/enc_elg.rs: verify"]}
{"id": "C62", "title": "Parties that finish a session agree", "statement": "Two parties of one session that both finish, whatever the others send to each of them, agree on the public outcome, provided only that the echo parts of one round reached both alike (which the session layer guarantees): the public shares and verifying key after key generation, the auxiliary data, the public share changes and auxiliary data after a refresh, the public shares, share ids and threshold after resharing, and the very signature after signing. In the first three the round 1 commitments are used, so the two openings in front of the two parties must not be a hash collision; with a colliding hash the parties can end with different keys (witness).", "quantifier": "all parties, all messages to either party in all rounds, all delivery orders, all hash functions", "why_tests_cant": "Malicious peers may send different normal and direct parts to different parties in every round", "anchors": ["src/protocols/key_init.rs: Round2::receive_message, Round3::finalize", "src/protocols/aux_gen.rs: Round2::receive_message, Round3::finalize", "src/protocols/key_refresh.rs: Round2::receive_message, Round3::finalize", "src/protocols/key_resharing.rs: Round1::finalize", "src/protocols/interactive_signing.rs: Round2::finalize, Round4::finalize"]}
{"id": "C66", "title": "Where a signing session goes after round 3", "statement": "After round 3 the next round is decided by the values in the round 3 messages alone: round 5 if the sum of the deltas times the generator is not the sum of the Deltas, otherwise round 6 if the sum of the S is not delta times the verifying key, otherwise round 4. Parties that saw the same messages go to the same round. This needs the same messages: S is sent in the normal broadcast without a proof, so in an otherwise honest session any single party can send one other party any other S, who accepts it, goes to round 6 while everybody else goes to round 4, and never obtains a signature.", "quantifier": "all parties, all messages of rounds 1 to 3, all delivery orders; for the split: all honest sessions, all pairs of parties, all wrong points", "why_tests_cant": "Tests run honest sessions or single fixed faults; the rule is about all messages and the split about every session and every pair of parties", "anchors": ["src/protocols/interactive_signing.rs: Round3::receive_message, Round3::finalize", "src/protocols/interactive_signing.rs: Round4, Round5, Round6 transition_info"]}
{"id": "C67", "title": "What a decryption proof says about the claimed product", "statement": "The decryption proof of signing's error rounds should force the announced point to be the plaintext of a ciphertext everybody can compute. It does not: for every parameter set that passes the library's self-consistency test, the verifier's interval for the response w is wider than the Paillier modulus, so whoever can open the ciphertext truthfully can also produce an accepted proof for any claimed product. Products below a quarter of the modulus would be pinned down, so the interval is the only cause.", "quantifier": "all self-consistent parameter sets, all key-generation primes, all ciphertexts, all claimed products, all challenge functions, all masks in the stated intervals", "why_tests_cant": "Tests run the honest prover; the claim is about provers that do not run the program, and about all parameter sets", "anchors": ["src/zk/dec.rs: DecProof::verify", "src/params/traits.rs: SchemeParams::SELF_CONSISTENT", "src/paillier/params.rs"]}
{"id": "C68", "title": "The error rounds of signing blame neither the honest nor the liar", "statement": "In a session whose first two rounds were honest, the exact content of the checks of error rounds 5 and 6 is known: the right message parts, a decryption proof about the product of the sender's ciphertexts and the announced result, and one affine-operation proof for each other party except that the proof addressed to the checking party itself is not checked. The message of a party that followed the protocol passes these checks at every party that got its round 3 message. But a party that announced a wrong delta (or a wrong multiple S of the joint nonce point) in round 3 has a message that passes everywhere too, so all honest parties end with a local error naming nobody, although the code states that one of the messages must have been missing or invalid.", "quantifier": "all self-consistent parameter sets, curves, hash and challenge functions, party sets up to 2^18 parties, keys, draws, arrival orders, round 3 messages, wrong values and verifiers", "why_tests_cant": "Tests run one honest session with fixed parties or one hand-made fault; the claim is about all faulty round 3 messages and about a dishonest prover that does not run the program", "anchors": ["src/protocols/interactive_signing.rs: Round5", "src/protocols/interactive_signing.rs: Round6", "src/zk/dec.rs: DecProof", "src/zk/aff_g_star.rs: AffGStarProof"]}
{"id": "C69", "title": "Schnorr, El-Gamal dlog and ring-Pedersen proofs reveal nothing", "statement": "For a true statement, the proofs a verifier accepts are exactly the proofs the honest prover outputs, and each is output for exactly one choice of the prover's nonces in the range they are drawn from. So with uniform nonces the proof sent is uniform among the accepted ones, whatever the secret behind the statement: it could have been made from the statement, the answers and the challenge alone.", "quantifier": "all scalars, groups, hash functions, contexts, statements, secrets and proofs (for the ring-Pedersen proof: all setups the library generates, all proofs with full-length fields in range)", "why_tests_cant": "Secrecy is a statement about the set of all nonces and all accepted proofs; a test sees one proof for one nonce, and a prover that leaks its secret in a verifying proof passes every test", "anchors": ["src/zk/sch.rs: SchProof::new, verify", "src/zk/elog.rs: ElogProof::new, verify", "src/zk/prm.rs: PrmProof::new, verify"]}
{"id": "C70", "title": "The setup-less proofs of the error rounds reveal nothing but with a chance of about 2^-epsilon", "statement": "The decryption proof and the affine-operation proof published in the error rounds of signing answer with integers, a mask plus a secret. For a true statement, the accepted proofs whose answers all lie in an inner interval, which depends on the parameters but not on the secrets, are exactly those the honest prover outputs, each for exactly one list of draws. The honest prover's answers do lie there unless one of its masks was drawn among 2^(k+1)+1 values out of 2^(k+epsilon), where 2^k is the width of the secret's interval.", "quantifier": "all self-consistent parameter sets, curves, hash functions, moduli, ciphertexts, secrets in range, contexts and proofs with inner answers", "why_tests_cant": "Secrecy is about all draws and all proofs: a prover whose masks are too short, or that reuses them, makes proofs that verify in every test", "anchors": ["src/zk/dec.rs: DecProof::new, verify", "src/zk/aff_g_star.rs: AffGStarProof::new, verify"]}
{"id": "C71", "title": "The protocols fit together: a key stays usable from generation to signature", "statement": "Parties following the code run KeyInit, turn their key shares into a threshold key, reshare it to new holders with a new threshold t, optionally derive a BIP-32 child, pick t signers and restrict their key shares and the auxiliary data made by AuxGen to them, and sign. Every step succeeds on the outputs of the step before, every share along the way carries the verifying key made at the start, and every signer ends with the same signature, in the lower half, valid for the message under the child of that key derived from the verifying key alone. Likewise KeyInit, KeyRefresh, update of the shares, and signing by all under the key made at the start. Key shares, threshold key shares and auxiliary data made in one place (new_centralized) serve as well.", "quantifier": "all fields of prime order, curves, hash functions, parameter sets, old and new parties, thresholds, signers, derivation paths, secrets, primes, draws in range, messages and message arrival orders; excluding only the degenerate draws the code refuses (zero joint nonce, r = 0, s = 0, zero key)", "why_tests_cant": "The integration test runs one chain for one set of parties, one threshold and one set of draws; the claim is about all chains", "anchors": ["src/tests/threshold.rs: full_sequence", "src/entities/threshold.rs: ThresholdKeyShare::from_key_share, to_key_share, derive_bip32", "src/entities/full.rs: KeyShare::update, KeyShare::new_centralized, AuxInfo::subset, AuxInfo::new_centralized", "src/protocols/key_init.rs", "src/protocols/key_resharing.rs", "src/protocols/aux_gen.rs", "src/protocols/key_refresh.rs", "src/protocols/interactive_signing.rs"]}
{"id": "C72", "title": "Refreshed and reshared shares are fresh", "statement": "After an honest KeyRefresh and KeyShare::update the new key shares do not depend on the old ones beyond their sum: for any old additive sharing, any choices of the other parties and any target list of shares with the same sum, exactly one list of parts of zero drawn by one party leads to the targets. After an honest KeyResharing with new threshold t the same holds for the shares of any t - 1 new holders and the polynomial coefficients of one old holder: any values can be reached, in exactly one way. So one party drawing uniformly suffices to make the new shares uniform, and knowledge of old shares does not help.", "quantifier": "all fields, curves, hash functions, parameter sets, sets of parties, thresholds, old sharings, draws of the other parties, target shares, message arrival orders", "why_tests_cant": "The claim counts the draws leading to each outcome; tests see one outcome for one list of draws", "anchors": ["src/protocols/key_refresh.rs: KeyRefresh::make_round, Round3::finalize", "src/protocols/key_resharing.rs: KeyResharing::make_round, Round1::finalize", "src/curve/arithmetic.rs: secret_split", "src/entities/full.rs: KeyShare::update"]}
{"id": "C73", "title": "Proofs relative to ring-Pedersen parameters reveal nothing", "statement": "A ring-Pedersen commitment says nothing about the committed value: whatever the value, every window of randomizers as long as the order of the base t contains exactly one randomizer explaining the commitment. For the enc-elg, aff-g and fac proofs of a true statement, and for each way to explain the commitments to the secrets, the accepted proofs whose answers all lie in an inner interval that does not depend on the secrets are exactly those the honest prover outputs, each for exactly one choice of its other draws. And if the masks are not next to the ends of their intervals, the honest prover's answers lie in the inner intervals.", "quantifier": "all consistent parameter sets, curves, hash functions, moduli, setups, witnesses, proofs and draws", "why_tests_cant": "The claim counts the draws behind each possible proof; a test sees one proof for one list of draws", "anchors": ["src/zk/enc_elg.rs: EncElgProof::new, EncElgProof::verify", "src/zk/aff_g.rs: AffGProof::new, AffGProof::verify", "src/zk/fac.rs: FacProof::new, FacProof::verify", "src/paillier/ring_pedersen.rs: RPParams::commit"]}
{"id": "C74", "title": "The Paillier-Blum proof reveals nothing about the factors", "statement": "The Paillier-Blum modulus proof can be made from the modulus alone by choosing the commitment as an N-th power and, for each repetition, the flags and a random square first, and letting them determine the challenge. For those challenges the honest prover, who knows the factors, outputs exactly that proof. Every commitment the sampler can return arises from exactly one choice, and from exactly one square and sign drawn by the sampler; every challenge arises from exactly one choice of flags and square. In particular a party never shows two different fourth roots of one number, which would reveal the factors.", "quantifier": "all consistent parameter sets, Blum primes of the declared size, hash functions, commitments, challenges and choices", "why_tests_cant": "The claim counts the choices behind each possible commitment and challenge; a test sees one proof for one list of draws and cannot tell whether two proofs for one key would together give its factors", "anchors": ["src/zk/mod_.rs: ModProof::new", "src/paillier/keys.rs: SecretKeyPaillier::random_nonsquare_residue, rns_sqrt, rns_join"]}
{"id": "C75", "title": "A masked product hides the sender's factor", "statement": "In round 2 of signing each signer sends each peer an encryption, under the peer's key, of the peer's nonce share times the signer's own secret (gamma or the key share) minus a mask. The peer can decrypt it. For every ciphertext whose decryption lies in an inner interval that depends on the parameters only, whatever the signer's secret is, there is exactly one mask and one randomizer for which the signer sends that ciphertext, so it says nothing about the secret. The masks for which the ciphertext is not of this kind are at most one in 2^(l-1), and this holds for every nonce share in the range that the peer's proof of round 1 establishes.", "quantifier": "all consistent parameter sets, keys, secrets, encrypted values in the proved range, ciphertexts, draws and hash functions", "why_tests_cant": "The claim counts the draws behind each possible ciphertext; a test sees one ciphertext for one draw and a mask that is too short still decrypts correctly", "anchors": ["src/protocols/interactive_signing.rs: Round1::finalize", "src/paillier/encryption.rs: homomorphic operations", "src/params/traits.rs: SchemeParams::LP_BOUND"]}
{"id": "C76", "title": "Nobody chooses their contribution after seeing the others'", "statement": "In key generation, auxiliary data generation and refresh every party commits in round 1 to what it reveals in round 2. Take one party in the same session in two worlds: its own secrets and draws differ arbitrarily, and so does everything the peers send in rounds 2 and 3; only the peers' commitments of round 1 are the same. If the party finishes in both, the peers' contributions are the same unless somebody found a collision of the hash among the openings. So the key is a point fixed by the peers' commitments plus the party's own share, different secrets of the party give different keys, the auxiliary parameters of the peers are fixed, and a refresh changes every public share by a fixed point plus the party's own part. Two parties' commitments always differ, again up to a collision, so nobody can repeat the commitment of somebody else.", "quantifier": "all fields, groups, hash functions, party sets, own secrets and draws, messages of the peers and delivery orders", "why_tests_cant": "The adversary picks the revealed values after seeing the others'; a commitment that leaves out one field, or the party id, passes every honest run", "anchors": ["src/protocols/key_init.rs: PublicData::hash, Round2::receive_message", "src/protocols/aux_gen.rs: PublicData::hash, Round2::receive_message", "src/protocols/key_refresh.rs: PublicData::hash, Round2::receive_message"]}
{"id": "C77", "title": "Drawn primes make working keys", "statement": "The search for a Paillier prime returns the first candidate that is 3 modulo 4 and goes on as long as there is none. Two searches among primes of the right length give a secret key whose modulus has exactly the advertised length, unless both end in the same prime, in which case the constructor panics. Safe primes other than 5 pass the constructor's assertion. With two different safe primes the randomizer base of the ring-Pedersen parameters, unless it is 1 modulo one of the primes, has order a quarter of the totient, and every invertible square is the value base for exactly one secret exponent in the range the code draws from, so a uniform exponent gives a uniform value base. The product of two primes of half width fits the modulus type.", "quantifier": "all candidate sequences, parameter widths, safe primes, draws and exponents", "why_tests_cant": "Key generation is random and slow; a filter that lets through one bad residue or an exponent range off by one shows up in a negligible share of runs", "anchors": ["src/paillier/rsa.rs: random_paillier_blum_prime, SecretPrimesWire::new, random_paillier_blum, random_safe", "src/paillier/keys.rs: SecretKeyPaillierWire::random", "src/paillier/ring_pedersen.rs: RPSecret::random, RPParams::random"]}
{"id": "C78", "title": "A bad Paillier modulus fails half of the Paillier-Blum challenges", "statement": "If a Paillier-Blum proof with the full number of repetitions is accepted, every hash-derived challenge has an N-th root, and a fourth root up to a sign and the commitment. An odd composite modulus that is not a product of two different primes congruent to 3 modulo 4 and coprime to its totient allows this for at most half of the invertible residues, whatever the commitment; so at most one in 2^k of the vectors of k challenge residues can be answered. The hash delivers values below the next power of two, of which at most two thirds can be answered, and more than half in some cases.", "quantifier": "all parameter sets, moduli, commitments, hash functions and proofs", "why_tests_cant": "Tests only make proofs for good moduli; how many challenges a bad modulus survives is a counting statement over all of them", "anchors": ["src/zk/mod_.rs: ModProof::verify, ModChallenge::new", "src/paillier/rsa.rs: invertible_residue_from_xof_reader"]}
{"id": "C79", "title": "Nobody chooses the nonce of a signature", "statement": "The nonce point of a signature is the sum of one part per party. A party's part is pledged in the echo broadcast of round 1 and revealed in round 2, together with a proof that it is the pledged one. Take one party that signs in two worlds: its own draws, the data to sign, keys and everything the peers send apart from their round 1 echo broadcasts may differ. If both runs end in a signature, then the first components are the x-coordinates of P plus the party's own part, with the same point P in both, unless some peer's proof was a lucky guess, that is one whose commitments left exactly one challenge of the whole range that could be answered. So a coalition of all peers cannot steer the nonce after seeing the honest party's part.", "quantifier": "all curves, hash functions, party sets, draws, messages of the peers and delivery orders", "why_tests_cant": "The adversary picks its part of the nonce after seeing the others'; a proof tied to the wrong commitment or the wrong base point passes every honest run", "anchors": ["src/protocols/interactive_signing.rs: Round1::make_echo_broadcast, Round2::receive_message, Round2::finalize", "src/zk/elog.rs: ElogProof::verify"]}
{"id": "C80", "title": "A presignature that passes round 3 is made of the pledged values", "statement": "In the echo broadcast of round 1 every party pledges its k and gamma, and such a broadcast pledges at most one pair modulo the curve order. If a party gets through round 3 with arbitrary messages from its peers, none of whose dlog proofs was a lucky guess, there are pledged values k and gamma of all parties, its own being its draws, such that: the combined nonce point is the sum of the gammas times the generator; the party enters the error round for delta exactly if the announced deltas do not add up to the product of the sum of the k and the sum of the gammas; and if it goes on to sign, the announced S add up to this product times the verifying key.", "quantifier": "all curves, hash functions, party sets, draws, messages of the peers and delivery orders", "why_tests_cant": "A check against the wrong commitment or base point accepts all honest sessions; only quantifying over cheating peers shows that the check pins the product down", "anchors": ["src/protocols/interactive_signing.rs: Round1::make_echo_broadcast, Round2::receive_message, Round3::receive_message, Round3::finalize", "src/zk/elog.rs: ElogProof::verify"]}
{"id": "C81", "title": "A finished setup vouches for the peers' Paillier moduli only if the proofs were long enough", "statement": "A party that finishes auxiliary data generation or key refresh holds a Paillier modulus for every peer. If the peer's modulus proof had as many repetitions as the scheme parameters say and the primality test of the verifier recognises primes, then the modulus is not prime; and it is a product of two different primes congruent to 3 modulo 4, coprime to its totient, unless the hash, asked once, returned one of the challenge vectors that can be answered without this, which are at most (2/3)^k of all vectors of k admissible challenges. Without the condition on the length this is false: a peer that sends a proof without repetitions gets the modulus 3*7*23 recorded by an honest party.", "quantifier": "all curves, hash functions, scheme parameters, party sets, messages of the peers and delivery orders", "why_tests_cant": "Tests run honest provers whose proofs have the right length; the claim is about every message a cheating peer could send", "anchors": ["src/protocols/aux_gen.rs: Round3::receive_message", "src/protocols/key_refresh.rs: Round3::receive_message", "src/zk/mod_.rs: ModProof::verify"]}
