{"id": "C01", "title": "Modular inverse is correct", "statement": "BigNumber::inverse(a, n) for a non-negative a and a modulus n other than 0, 1 (or -1) returns Ok(x) exactly when gcd(a,n)=1, and then 0<=x<|n| and a*x = 1 (mod n); it always terminates, and it returns Err for n=0 and n=1. For negative a the claim is false of the code (the returned value can be the inverse of -a, and non-invertible negatives are accepted).", "quantifier": "every pair of integers (a,n), of any size", "why_tests_cant": "the extended-Euclid loop runs a data-dependent number of rounds over unbounded integers", "anchors": ["libursa/src/bn/rust.rs: BigNumber::inverse"]}
{"id": "C02", "title": "Modular exponentiation is correct", "statement": "BigNumber::mod_exp(b, e, n) for a modulus n>1 and e>=0 returns the canonical residue of b^e; for e<0 and b>=0 it returns the canonical residue of (b^-1)^|e| exactly when b is invertible and an error otherwise; for n=1 it returns 0.", "quantifier": "every base, exponent (of either sign) and modulus", "why_tests_cant": "the exponents are thousands of bits long and the negative-exponent branch goes through inverse", "anchors": ["libursa/src/bn/rust.rs: BigNumber::mod_exp"]}
{"id": "C03", "title": "Reduction is canonical", "statement": "BigNumber::modulus(a, n), mod_mul, mod_sub and mod_div return a value in [0,|n|) congruent to the mathematical result for every sign of the operands, and an error exactly when n=0 (and, for mod_div, when the divisor is not invertible).", "quantifier": "every operand and modulus of either sign", "why_tests_cant": "sign handling of truncated remainder has to be right for every sign combination", "anchors": ["libursa/src/bn/rust.rs: modulus, mod_mul, mod_sub, mod_div"]}
{"id": "C04", "title": "Integer power and its edge cases", "statement": "BigNumber::exp(a, e) returns a^e for every 0<=e<2^64 except that 0^0 is returned as 0 instead of 1, and an error for negative or larger exponents.", "quantifier": "every base and exponent", "why_tests_cant": "infinitely many inputs; the deviating point is a single corner", "anchors": ["libursa/src/bn/rust.rs: exp"]}
{"id": "C05", "title": "Byte encoding round-trip", "statement": "BigNumber::from_bytes(to_bytes(x)) = x for every x >= 0; to_bytes(from_bytes(b)) is b without its leading zero bytes; from_bytes never yields a negative number; to_bytes of x and -x coincide (the sign is lost).", "quantifier": "every integer, every byte string", "why_tests_cant": "unbounded lengths", "anchors": ["libursa/src/bn/rust.rs: to_bytes, from_bytes"]}
{"id": "C06", "title": "Decimal / hexadecimal / serde round-trip", "statement": "from_dec(to_dec(x)) = x and from_hex(to_hex(x)) = x for every integer x, so that serde serialisation of any structure of BigNumbers is lossless; a string with a character that is not a digit is rejected.", "quantifier": "every integer; every digit string", "why_tests_cant": "unbounded lengths", "anchors": ["libursa/src/bn/rust.rs: to_dec, from_dec, to_hex, from_hex, Serialize, Deserialize"]}
{"id": "C07", "title": "Bit operations", "statement": "set_bit, is_bit_set, lshift1, rshift1, rshift, num_bits and the helper bitwise_or_big_int compute the corresponding bit-level functions on every non-negative integer; in particular the helper used for v'' sets every bit that either operand has and no other.", "quantifier": "every non-negative integer and bit position", "why_tests_cant": "unbounded widths", "anchors": ["libursa/src/bn/rust.rs: set_bit, is_bit_set, lshift1, rshift1, rshift, num_bits", "libursa/src/cl/helpers.rs: bitwise_or_big_int"]}
{"id": "C08", "title": "Blinding number v'' and prime e ranges", "statement": "The v'' generated for a credential has exactly the prescribed bit length (top bit 2^2723 set, below 2^2724), and generate_prime_in_range never returns a value outside [start,end] and returns only values accepted by the primality test, whatever the random source returns.", "quantifier": "every output of the random number generator", "why_tests_cant": "randomised, rejection-sampling loop", "anchors": ["libursa/src/cl/helpers.rs: generate_v_prime_prime", "libursa/src/bn/rust.rs: generate_prime_in_range, rand_range"]}
{"id": "C09", "title": "u32 big-endian encoding is injective", "statement": "transform_u32_to_array_of_u8 returns 4 bytes which determine the u32 and decode to it big-endian.", "quantifier": "all 2^32 values", "why_tests_cant": "2^32 inputs", "anchors": ["libursa/src/cl/helpers.rs: transform_u32_to_array_of_u8"]}
{"id": "C10", "title": "Hash preimages are concatenations without framing", "statement": "get_hash_as_int / hash_array hash the plain concatenation of the byte strings: two lists with the same concatenation always give the same challenge (so the challenge does not determine the list), and lists of equal shape with different entries are distinguished before hashing.", "quantifier": "every list of byte strings and every hash function", "why_tests_cant": "needs the equality for all hash functions", "anchors": ["libursa/src/bn/rust.rs: hash_array", "libursa/src/cl/hash.rs"]}
{"id": "C11", "title": "Shamir: any threshold subset reconstructs the secret", "statement": "libursa Shamir: if split_secret(t, n, secret, field) succeeded with a prime field larger than n, then combine_shares on any list of at least t of the distinct shares, in any order, returns the secret (as an integer), provided no chosen share has value 0.", "quantifier": "every prime field, threshold, number of shares, secret, polynomial and subset/order of shares", "why_tests_cant": "exponentially many subsets, unbounded field", "anchors": ["libursa/src/sharing/shamir.rs: split_secret, combine_shares, Polynomial::interpolate"]}
{"id": "C12", "title": "Shamir: honest shares can be rejected", "statement": "combine_shares returns an error whenever one of the supplied shares has the value 0, although split_secret does output such shares; for every threshold there are secrets and random coefficients for which honest shares are not accepted.", "quantifier": "every share list; existence of the bad run for every threshold", "why_tests_cant": "probability 1/p event with cryptographic p", "anchors": ["libursa/src/sharing/shamir.rs: combine_shares"]}
{"id": "C13", "title": "Shamir: fewer than threshold shares reveal nothing", "statement": "For a prime field p and any t-1 distinct nonzero identifiers: for every observed share values and every candidate secret there is exactly one choice of the remaining polynomial coefficients that produces those shares (perfect secrecy).", "quantifier": "every prime, threshold, identifiers, share values, candidate secret", "why_tests_cant": "a statement about all polynomials of a field", "anchors": ["libursa/src/sharing/shamir.rs: split_secret, Polynomial::new", "ursa_sharing/src/shamir.rs"]}
{"id": "C14", "title": "Shamir: argument validation", "statement": "split_secret fails (without panic) exactly when total<threshold, threshold<2, the secret is empty, the field is smaller than 2 or the secret is not below the field; otherwise it returns exactly total shares with identifiers 1..total and values below the field. combine_shares fails on fewer than 2 shares, on zero values, zero identifiers and duplicate identifiers.", "quantifier": "every argument tuple", "why_tests_cant": "full decision table over unbounded data", "anchors": ["libursa/src/sharing/shamir.rs: split_secret, combine_shares"]}
{"id": "C15", "title": "Shamir share byte codec", "statement": "Share::from_bytes(to_bytes(s)) gives back the identifier and value of every share, for every field; from_bytes of an empty slice panics.", "quantifier": "every share / byte string", "why_tests_cant": "unbounded lengths", "anchors": ["libursa/src/sharing/shamir.rs: Share::to_bytes, Share::from_bytes"]}
{"id": "C16", "title": "Generic sharing crate: reconstruction in field and group", "statement": "ursa_sharing Shamir scheme: for any field F and any F-module R, combining any >= t distinct valid shares of a split (or the group images of those shares) returns the secret (or its group image), independent of order.", "quantifier": "every field, module, threshold, limit, secret, random coefficients, share subset and order", "why_tests_cant": "quantifies over abstract fields and groups", "anchors": ["ursa_sharing/src/shamir.rs: Scheme::combine_shares, Scheme::interpolate", "ursa_sharing/src/lib.rs: Polynomial"]}
{"id": "C17", "title": "Feldman verification is complete and sound", "statement": "verify_share accepts every honest, nonzero share; and with a generator of a faithful module a share with valid identifier is accepted iff its value is the committed polynomial evaluated at its identifier. Hence any t accepted shares with distinct identifiers reconstruct the discrete log of the first commitment.", "quantifier": "every field, group, commitment vector, share", "why_tests_cant": "for all malicious shares", "anchors": ["ursa_sharing/src/feldman.rs: split_secret, verify_share"]}
{"id": "C18", "title": "Pedersen verification is complete, binding and hiding", "statement": "verify_share accepts every honest share/blind share pair; two different accepted openings for the same identifier yield the discrete logarithm of h to base g; and for any t-1 share pairs and any secret there is a consistent choice of coefficients giving the same commitments (hiding).", "quantifier": "every field, group, generators, secrets, coefficients", "why_tests_cant": "algebraic, for all adversarial values", "anchors": ["ursa_sharing/src/pedersen.rs: split_secret, verify_share"]}
{"id": "C19", "title": "Generic sharing crate: zero shares and zero secrets", "statement": "Shares whose value is zero are rejected by combine_shares and by the verifiers although they are produced by honest splits; splitting secret zero is rejected or accepted as coded.", "quantifier": "every scheme and share list", "why_tests_cant": "measure-zero corner", "anchors": ["ursa_sharing/src/shamir.rs", "ursa_sharing/src/feldman.rs", "ursa_sharing/src/pedersen.rs"]}
{"id": "C20", "title": "Sharing verifier byte codecs", "statement": "FeldmanVerifier/PedersenVerifier to_bytes followed by try_from returns the same commitments. False of the code: every decoded commitment equals the first one; Share::to_bytes in ursa_sharing does not terminate.", "quantifier": "every verifier with any number of commitments", "why_tests_cant": "unbounded lists", "anchors": ["ursa_sharing/src/feldman.rs: TryFrom", "ursa_sharing/src/pedersen.rs: TryFrom", "ursa_sharing/src/shamir.rs: Share::to_bytes"]}
{"id": "C21", "title": "Four-square decomposition always succeeds", "statement": "four_squares(delta) returns four non-negative integers whose squares sum to delta for every 0 <= delta <= i32::MAX and an error exactly for negative delta.", "quantifier": "every 32-bit delta (the theorem covers every integer whose square root is computed exactly)", "why_tests_cant": "2^31 inputs, each a cubic search; existence is Lagrange's theorem", "anchors": ["libursa/src/cl/helpers.rs: four_squares, largest_square_less_than"]}
{"id": "C22", "title": "Predicate delta semantics", "statement": "Without i32 overflow, Predicate::get_delta(v) >= 0 iff the predicate (GE, LE, GT, LT) holds of v; with wrapping arithmetic a false predicate can produce a non-negative delta.", "quantifier": "every attribute value and predicate value in i32", "why_tests_cant": "2^64 pairs", "anchors": ["libursa/src/cl/mod.rs: Predicate::get_delta, get_delta_prime, is_less"]}
{"id": "C23", "title": "Credential definition key correctness proof accepts honest keys", "statement": "Every key generated by new_credential_def passes the prover's check of the key correctness proof, for every schema, safe primes and random choices; the check rejects when the attribute names of key and proof differ.", "quantifier": "every schema, primes, randomness, hash function", "why_tests_cant": "for all primes and hash functions", "anchors": ["libursa/src/cl/issuer.rs: _new_credential_primary_keys, _new_credential_key_correctness_proof", "libursa/src/cl/prover.rs: _check_credential_key_correctness_proof"]}
{"id": "C24", "title": "Blinded secrets correctness proof accepts honest requests", "statement": "For every honest set of hidden and committed attributes, nonce and randomness the issuer accepts the prover's blinded secrets correctness proof.", "quantifier": "every attribute map, nonce, randomness, hash function", "why_tests_cant": "for all inputs", "anchors": ["libursa/src/cl/prover.rs: _new_blinded_credential_secrets_correctness_proof", "libursa/src/cl/issuer.rs: _check_blinded_credential_secrets_correctness_proof"]}
{"id": "C25", "title": "Issued primary signature verifies", "statement": "For every honest issuer key (safe primes) and every attribute set, the credential signature issued on a blinded request satisfies Z = A^e * prod R_i^m_i * S^v * Rctxt^m2 (mod n), and the prover's process_credential_signature accepts it with the unblinded v.", "quantifier": "every key, attribute map, randomness and hash function", "why_tests_cant": "number theory modulo unknown primes", "anchors": ["libursa/src/cl/issuer.rs: _sign_primary_credential, _new_signature_correctness_proof", "libursa/src/cl/prover.rs: process_credential_signature, _check_signature_correctness_proof"]}
{"id": "C26", "title": "Equality proof completeness", "statement": "For every valid credential signature, subset of revealed attributes, randomness and challenge, the verifier's recomputed t value equals the prover's commitment, so an honest proof is accepted.", "quantifier": "every signature, attribute partition, randomness, challenge", "why_tests_cant": "for all", "anchors": ["libursa/src/cl/prover.rs: _init_eq_proof, _finalize_eq_proof", "libursa/src/cl/verifier.rs: _verify_equality", "libursa/src/cl/helpers.rs: calc_teq"]}
{"id": "C27", "title": "Predicate proof completeness", "statement": "For every attribute value satisfying a predicate the six commitments recomputed by the verifier equal the prover's.", "quantifier": "every value, predicate, randomness, challenge", "why_tests_cant": "for all", "anchors": ["libursa/src/cl/prover.rs: _init_ne_proof, _finalize_ne_proof", "libursa/src/cl/verifier.rs: _verify_ne_predicate", "libursa/src/cl/helpers.rs: calc_tne"]}
{"id": "C28", "title": "End-to-end proof completeness", "statement": "A proof built by ProofBuilder from any number of valid credentials, sub-proof requests and common attributes is accepted by a ProofVerifier configured with the same requests and nonce.", "quantifier": "any number of credentials, attributes, predicates; all randomness", "why_tests_cant": "unbounded composition", "anchors": ["libursa/src/cl/prover.rs: ProofBuilder", "libursa/src/cl/verifier.rs: ProofVerifier"]}
{"id": "C29", "title": "Verifier decision rules", "statement": "verify never accepts when the number of sub-proofs differs from the number of requests, when the revealed attribute names or predicates differ from the requested, when a common attribute differs between sub-proofs, or when the recomputed challenge differs.", "quantifier": "every proof and request", "why_tests_cant": "all malformed proofs", "anchors": ["libursa/src/cl/verifier.rs: ProofVerifier::verify, _check_verify_params_consistency"]}
{"id": "C30", "title": "Unforgeability of presentations fails for unranged responses", "statement": "A verifier should accept only presentations made from a credential; false of the code: because response sizes/signs are not checked, for any public key a presentation revealing arbitrary attribute values can be computed without any credential and is accepted.", "quantifier": "every public key with invertible entries, every revealed assignment, nonce and hash function", "why_tests_cant": "existential claim over adversaries", "anchors": ["libursa/src/cl/verifier.rs: _verify_equality"]}
{"id": "C31", "title": "Predicate proofs are not tied to the credential attribute", "statement": "A predicate proof should speak about the attribute in the credential; false of the code: the verifier never compares the predicate's attribute response with the equality proof's, so a presentation of a credential whose attribute fails the predicate can be accepted.", "quantifier": "every credential and predicate", "why_tests_cant": "adversarial claim", "anchors": ["libursa/src/cl/verifier.rs: _verify_ne_predicate, verify"]}
{"id": "C32", "title": "Non-revocation can be omitted", "statement": "A verifier configured with revocation registry keys should reject a proof without non-revocation part; false of the code: it is accepted.", "quantifier": "every proof accepted with its non-revocation part removed", "why_tests_cant": "adversarial claim", "anchors": ["libursa/src/cl/verifier.rs: verify"]}
{"id": "C33", "title": "Verifier is stateful across verifications", "statement": "verify should depend only on configuration and proof; false of the code when common attributes are used: the first proof's response is remembered, and a second honest proof is rejected by the same verifier object.", "quantifier": "every history of verify calls", "why_tests_cant": "history dependence", "anchors": ["libursa/src/cl/verifier.rs: verify, add_common_attribute"]}
{"id": "C34", "title": "Accumulator invariant over every history", "statement": "After any sequence of issue / revoke / recover / update operations that respects preconditions, the accumulator equals the sum of tails over exactly the currently valid indices.", "quantifier": "every operation history, registry size, secret gamma", "why_tests_cant": "unbounded histories", "anchors": ["libursa/src/cl/issuer.rs: _new_revocation_registry, _new_non_revocation_credential, revoke_credential, recovery_credential, update_revocation_registry"]}
{"id": "C35", "title": "Witness characterises membership", "statement": "The witness computed from a registry delta satisfies the witness equation checked by the prover iff the index is in the accumulated set; witnesses of valid indices always verify.", "quantifier": "every registry, valid set, index", "why_tests_cant": "all subsets", "anchors": ["libursa/src/cl/mod.rs: Witness::new", "libursa/src/cl/prover.rs: _test_witness_signature"]}
{"id": "C36", "title": "Witness update equals recomputation", "statement": "Updating a witness by a delta gives the same witness as recomputing it from scratch for the new valid set, for every history of deltas.", "quantifier": "every delta history", "why_tests_cant": "unbounded", "anchors": ["libursa/src/cl/mod.rs: Witness::update, Witness::new"]}
{"id": "C37", "title": "Delta merge composes", "statement": "Merging two consecutive registry deltas yields a delta whose effect on the valid set is the composition, keeps the first prev_accum and the last accumulator, and is refused exactly when they are not consecutive; merge is associative on consecutive well-formed deltas.", "quantifier": "all pairs/triples of deltas", "why_tests_cant": "all sets", "anchors": ["libursa/src/cl/mod.rs: RevocationRegistryDelta::merge"]}
{"id": "C38", "title": "Tails file contents", "statement": "The tails generator yields exactly 2*max+1 tails, the i-th being g' to the gamma^i, then None; the set includes index max+1, from which anybody can compute an accepting witness for a revoked index.", "quantifier": "every max_cred_num, gamma", "why_tests_cant": "unbounded", "anchors": ["libursa/src/cl/mod.rs: RevocationTailsGenerator, Tail::new_tail"]}
{"id": "C39", "title": "Non-revocation proof completeness", "statement": "For every non-revoked credential with valid witness the verifier's recomputed tau list equals the prover's.", "quantifier": "all keys, randomness, challenges", "why_tests_cant": "algebra for all scalars", "anchors": ["libursa/src/cl/prover.rs: _init_non_revocation_proof, _finalize_non_revocation_proof", "libursa/src/cl/verifier.rs: _verify_non_revocation_proof", "libursa/src/cl/helpers.rs: create_tau_list_values, create_tau_list_expected_values"]}
{"id": "C40", "title": "Proof parameter lists round-trip", "statement": "NonRevocProofXList::from_list(as_list(x)) = x and the as_list outputs have a fixed order and length; legacy JSON fields (rms, m1) are folded into the maps under master_secret.", "quantifier": "every value", "why_tests_cant": "all values", "anchors": ["libursa/src/cl/mod.rs: NonRevocProofXList, CredentialPrimaryPublicKey, PrimaryEqualProof"]}
{"id": "C41", "title": "Builders accumulate inputs", "statement": "Schema, values and request builders return exactly the set/map of everything added, independent of order for distinct names; later values override earlier ones; unknown predicate types are rejected.", "quantifier": "every sequence of builder calls", "why_tests_cant": "unbounded call sequences", "anchors": ["libursa/src/cl/mod.rs: CredentialSchemaBuilder, CredentialValuesBuilder, NonCredentialSchemaBuilder, SubProofRequestBuilder"]}
{"id": "C42", "title": "BLS signatures verify", "statement": "Every signature made with a sign key verifies under its ver key; with a non-degenerate pairing on a prime order group verification succeeds iff the signature point is the unique valid one.", "quantifier": "every key, message, hash function, pairing", "why_tests_cant": "for all groups", "anchors": ["libursa/src/bls/mod.rs: Bls::sign, Bls::verify"]}
{"id": "C43", "title": "BLS multi-signatures", "statement": "The aggregate of signatures of the same message by any list of keys verifies under that list of keys in any order; the empty aggregate verifies any message under the empty list; without proof of possession a rogue key makes a forged aggregate verify.", "quantifier": "any number of signers, any order", "why_tests_cant": "unbounded", "anchors": ["libursa/src/bls/mod.rs: MultiSignature::new, Bls::verify_multi_sig"]}
{"id": "C44", "title": "BLS proof of possession", "statement": "Proofs of possession of honest keys verify; a rogue key chosen as a difference of keys has a valid proof only if the corresponding scalar is used.", "quantifier": "all keys", "why_tests_cant": "for all", "anchors": ["libursa/src/bls/mod.rs: ProofOfPossession"]}
{"id": "C45", "title": "Non-revocation proof special soundness", "statement": "From two accepted non-revocation proofs with the same commitments and different challenges, explicit arithmetic on the responses yields a revocation credential and witness satisfying all four pairing equations for the given accumulator, or an explicit discrete logarithm between public bases.", "quantifier": "every key, accumulator, pair of transcripts", "why_tests_cant": "a statement about all adversarial proofs; tests only produce honest ones", "anchors": ["libursa/src/cl/verifier.rs: _verify_non_revocation_proof", "libursa/src/cl/helpers.rs: create_tau_list_values, create_tau_list_expected_values"]}
{"id": "C46", "title": "A proof is bound to the verifier's nonce", "statement": "A proof accepted for one nonce should not be usable for another; false of the code: the challenge hashes an undelimited concatenation, so from a proof accepted for the nonce whose bytes are high++low anyone obtains a proof accepted for the nonce low by appending the bytes of high to the proof's own commitment list.", "quantifier": "every verifier configuration, proof and pair of byte strings", "why_tests_cant": "a statement about all byte strings and transformed proofs", "anchors": ["libursa/src/cl/verifier.rs: ProofVerifier::verify", "libursa/src/cl/helpers.rs: get_hash_as_int"]}
{"id": "C47", "title": "The prover proves only true predicates", "statement": "An honest ProofBuilder/ProofVerifier pair should accept a predicate only if the attribute satisfies it; false of the code at the ends of the i32 range: GT 2147483647 is proved for every negative attribute and LT -2147483648 for every non-negative one.", "quantifier": "all attribute values and thresholds", "why_tests_cant": "the wrong cases are at the edge of a 64-bit input space", "anchors": ["libursa/src/cl/mod.rs: Predicate::get_delta, get_delta_prime", "libursa/src/cl/prover.rs: ProofBuilder::_init_ne_proof"]}
{"id": "C48", "title": "Commitment attributes can be presented", "statement": "Every issued credential should be presentable; false of the code: the issuer's signature does not cover commitment attributes but the presentation code includes them, so the honest proof is recomputed by the verifier only if the product of the committed bases to the power challenge * value is one.", "quantifier": "all keys, values, draws, challenges", "why_tests_cant": "statement about every credential with a commitment attribute", "anchors": ["libursa/src/cl/issuer.rs: Issuer::_sign_primary_credential", "libursa/src/cl/prover.rs: ProofBuilder::_init_eq_proof, _finalize_eq_proof", "libursa/src/cl/verifier.rs: ProofVerifier::_verify_equality"]}
{"id": "C49", "title": "BLS signatures (signatures module): one signer", "statement": "Signature::verify accepts, for the key of a secret and the generator it was made with, exactly the point Signature::new produces; another message or context is accepted only when both hash to the same point; the default contexts of messages and of proofs of possession never hash the same bytes; a caller-chosen context is not bound (bytes can move between context and message).", "quantifier": "every secret key, message, context, generator, both group assignments (normal and small)", "why_tests_cant": "quantifies over all keys, messages and adversarial inputs; tests sample a few", "anchors": ["libursa/src/signatures/bls.rs: Signature::new, verify, PublicKey::new, ProofOfPossession"]}
{"id": "C50", "title": "Rogue-key-mitigated aggregation", "statement": "If every signer uses new_with_rk_mitigation with the same key list, the AggregatedSignature verifies under AggregatedPublicKey::from of that list, for any number of signers; the accepted aggregate is unique, so dropping a non-neutral share is rejected; an index outside the list panics; verify_no_rk is complete but accepts a rogue key (one party signs alone for the group); empty aggregates are accepted.", "quantifier": "every list of keys, message, context", "why_tests_cant": "quantifies over all keys, messages and adversarial inputs; tests sample a few", "anchors": ["libursa/src/signatures/bls.rs: AggregatedPublicKey::from, AggregatedSignature, Signature::new_with_rk_mitigation"]}
{"id": "C51", "title": "Multi-message signatures", "statement": "verify_multi accepts iff the hashed messages are pairwise distinct and the product of pairings equation holds; combined honest signatures on messages with distinct hashes are accepted; a repeated message is rejected even if honest.", "quantifier": "every list of (message, key) inputs", "why_tests_cant": "quantifies over all keys, messages and adversarial inputs; tests sample a few", "anchors": ["libursa/src/signatures/bls.rs: Signature::verify_multi, combine"]}
{"id": "C52", "title": "Batch verification", "statement": "A batch of valid signatures passes for every choice of exponents; if some input is invalid then for any choice of the other exponents at most one value of its exponent lets the batch pass; with equal exponents cancelling errors pass.", "quantifier": "every batch, exponents", "why_tests_cant": "quantifies over all keys, messages and adversarial inputs; tests sample a few", "anchors": ["libursa/src/signatures/bls.rs: Signature::batch_verify, AggregatedSignature::batch_verify"]}
{"id": "C53", "title": "BLS SignatureScheme byte interface", "statement": "Key pairs from a seed or secret bytes sign and verify through bytes; regenerating from the returned secret gives the same pair; undecodable bytes give ParseError and nothing else does; verify returns true exactly on bytes decoding to the one signature.", "quantifier": "every message, seed, byte string", "why_tests_cant": "quantifies over all keys, messages and adversarial inputs; tests sample a few", "anchors": ["libursa/src/signatures/bls.rs: impl SignatureScheme for Bls"]}
{"id": "C54", "title": "BBS+ signing and verification", "statement": "For every key whose generators are not neutral, every message list of the key's length and every choice of the random e and s, Signature::new produces a signature that Signature::verify accepts (unless x + e = 0, e or s is zero, or the signed point is neutral). A shorter list is signed as if padded with zeros and then does not verify against the list that was signed. verify accepts exactly the signatures satisfying the BBS+ equation with nonzero components, and one signature accepted for two lists gives a linear relation between the key's generators.", "quantifier": "all keys, message lists, secrets and random scalars", "why_tests_cant": "tests sign a handful of lists with one key", "anchors": ["libzmix/bbs/src/signature.rs:Signature::new", "libzmix/bbs/src/signature.rs:Signature::verify", "libzmix/bbs/src/signature.rs:get_b"]}
{"id": "C55", "title": "BBS+ blind issuance", "statement": "For every split of a message list into hidden and known messages, the context made by the holder is accepted by the signer, and unblinding the blind signature yields a signature the holder verifies on the whole list. The signer accepts a context exactly when the Schnorr equation and the challenge hash hold, and two accepted contexts with one commitment yield an opening over the hidden generators only. A hidden index equal to the number of generators, or a known index out of range, is a panic rather than an error.", "quantifier": "all keys, message lists, splits, nonces and blinding factors", "why_tests_cant": "tests hide one or two messages of one list", "anchors": ["libzmix/bbs/src/prover.rs:new_blind_signature_context", "libzmix/bbs/src/issuer.rs:blind_sign", "libzmix/bbs/src/lib.rs:BlindSignatureContext::verify", "libzmix/bbs/src/signature.rs:BlindSignature::new"]}
{"id": "C56", "title": "BBS+ selective disclosure completeness", "statement": "For every valid signature and every choice of revealed and hidden messages, the proof made for a request naming the revealed indices is accepted and returns exactly the revealed messages; prover and verifier compute the same challenge, also for several proofs and extra claims hashed together. No proof is started from a signature that does not verify.", "quantifier": "all keys, signatures, disclosure choices, random scalars and nonces", "why_tests_cant": "tests disclose a few fixed subsets", "anchors": ["libzmix/bbs/src/pok_sig.rs:PoKOfSignature::init", "libzmix/bbs/src/pok_sig.rs:PoKOfSignatureProof::verify", "libzmix/bbs/src/prover.rs:generate_signature_pok", "libzmix/bbs/src/verifier.rs:verify_signature_pok"]}
{"id": "C57", "title": "BBS+ disclosure proofs are proofs of knowledge", "statement": "Two accepted answers to different challenges that share the first message yield a signature satisfying the verification equation on a message list containing every revealed message at its index, or else a linear relation between the public generators.", "quantifier": "all provers, keys, revealed maps and pairs of challenges", "why_tests_cant": "soundness quantifies over all provers", "anchors": ["libzmix/bbs/src/pok_sig.rs:PoKOfSignatureProof::verify", "libzmix/bbs/src/pok_vc.rs:ProofG1::verify"]}
{"id": "C58", "title": "The requested attributes are revealed (refuted)", "statement": "Expected: a verifier whose request names indices to reveal gets Ok only if these are revealed. Proved false: for every valid signature, every requested set and every disclosure choice of the holder (including none at all) there is a proof that verify_signature_pok accepts, returning only what the holder chose to reveal.", "quantifier": "all signatures, requested sets and disclosure choices", "why_tests_cant": "tests only run honest provers that honour the request", "anchors": ["libzmix/bbs/src/verifier.rs:verify_signature_pok", "libzmix/bbs/src/pok_sig.rs:get_bytes_for_challenge"]}
{"id": "C59", "title": "Revealed messages are the signed ones (refuted)", "statement": "Expected: the messages returned by verify_signature_pok are those in the signature. Proved false: the revealed values are not part of what is hashed, so the holder of a signature on m can, at any revealed index, present a value different from m in a proof that is accepted and returned by the verifier.", "quantifier": "all signatures, indices and requests, for every hash function that does not return zero", "why_tests_cant": "tests never mutate the commitment together with the revealed value", "anchors": ["libzmix/bbs/src/pok_sig.rs:get_bytes_for_challenge", "libzmix/bbs/src/pok_sig.rs:PoKOfSignatureProof::verify"]}
{"id": "C60", "title": "BBS+ disclosure proofs hide the signature and the hidden messages", "statement": "For two valid signatures of one key whose disclosure choices show the same messages, every transcript (bytes hashed and proof) obtainable from the first with some random scalars is obtainable from the second with exactly one choice of scalars, for every challenge: the two distributions coincide.", "quantifier": "all pairs of signatures and hidden messages, all random scalars and challenges", "why_tests_cant": "a distribution statement; tests see samples", "anchors": ["libzmix/bbs/src/pok_sig.rs:PoKOfSignature::init", "libzmix/bbs/src/pok_sig.rs:gen_proof"]}
{"id": "C61", "title": "Derived BBS+ public keys", "statement": "DeterministicPublicKey::to_public_key(n) yields a key with n generators, each the hash of the public point, its index and n; different points, counts or indices (below 2^32) hash different strings; n = 0 and a zero secret key are refused.", "quantifier": "all points, counts and indices", "why_tests_cant": "tests derive one key", "anchors": ["libzmix/bbs/src/keys.rs:DeterministicPublicKey::to_public_key", "libzmix/bbs/src/keys.rs:DeterministicPublicKey::new"]}
{"id": "C62", "title": "Equality of hidden messages across BBS+ proofs", "statement": "The response reported for a message hidden with an external blinding factor b is b - c m, so two proofs for one challenge and one blinding factor report equal responses exactly when the messages are equal; the index to ask for counts only hidden messages. An index past the end is an error, and no accepted proof makes the query panic.", "quantifier": "all proofs, messages and blinding factors with nonzero challenge", "why_tests_cant": "tests compare one pair", "anchors": ["libzmix/bbs/src/pok_sig.rs:get_resp_for_message"]}
{"id": "C63", "title": "BBS+ byte formats", "statement": "Encoding then decoding gives back every signature, public key, proof, blind signature context, disclosure proof and proof request whose counts fit the length prefixes; for proofs and contexts trailing bytes are ignored, so encodings are not unique. The bit vector of requested indices decodes to the same set; an index that does not fit panics.", "quantifier": "all values and trailing bytes", "why_tests_cant": "tests round-trip one value of each", "anchors": ["libzmix/bbs/src/keys.rs:PublicKey::from_bytes", "libzmix/bbs/src/pok_vc.rs:ProofG1::from_bytes", "libzmix/bbs/src/pok_sig.rs:PoKOfSignatureProof::from_bytes", "libzmix/bbs/src/lib.rs:revealed_to_bitvector"]}
{"id": "C64", "title": "Malformed BBS+ bytes", "statement": "Decoding a signature, public key, proof of committed values or blind signature context never panics on any bytes. Refuted for proof requests, disclosure proofs and proofs of knowledge: a length prefix larger than the data, or a proof cut after its three points, panics.", "quantifier": "all byte strings", "why_tests_cant": "tests decode valid bytes", "anchors": ["libzmix/bbs/src/lib.rs:SignatureProof::from_bytes", "libzmix/bbs/src/lib.rs:ProofRequest::from_bytes", "libzmix/bbs/src/pok_sig.rs:PoKOfSignatureProof::from_bytes"]}
{"id": "C65", "title": "Proofs of knowledge of committed values", "statement": "For the generic proof of knowledge of the values in a vector commitment: honest proofs are accepted for every challenge (and as complete proofs with the hashed challenge); a wrong number of responses is an error; acceptance is exactly the stated equation (plus the hash equation for complete proofs); two accepted answers to one first message give the committed values; for given secrets every accepted transcript comes from exactly one blinding vector (zero knowledge); the byte form round-trips and malformed bytes are errors, not panics.", "quantifier": "all groups, generators, secrets, blindings, challenges, transcripts and byte strings", "why_tests_cant": "tests run one proof with random values; soundness and zero knowledge quantify over all provers and transcripts", "anchors": ["libzmix/src/commitments/pok_vc.rs:impl_PoK_VC"]}
{"id": "C66", "title": "PS signatures", "statement": "Signing needs exactly one message per key component and then yields (g^u, g^(u(x+sum y_i m_i))); it verifies under the matching key unless u or the exponent is 0. Verification accepts exactly pairs of non-neutral points with sigma_2 = (x + sum y_i m_i) sigma_1 and one message per component. Re-randomised signatures verify exactly if the original does; a signature valid for two message vectors gives sum y_i m_i = sum y_i m'_i.", "quantifier": "all keys, messages, draws and candidate signatures", "why_tests_cant": "tests check a few random signatures", "anchors": ["libzmix/src/signatures/ps/signature.rs", "libzmix/src/signatures/ps/keys.rs:keygen"]}
{"id": "C67", "title": "Blind issuance of PS signatures", "statement": "Unblinding the signer's answer to a commitment over the first k messages gives exactly the signature Signature::new makes on the committed followed by the known messages; the variant of the paper gives the same; with a verified proof of knowledge the extracted values are the ones certified; too many known messages or a key of another length is an error. Refuted: the known messages are enforced by BlindSignature::new alone (any group element is signed, so a commitment can shift them).", "quantifier": "all keys, splits into committed and known messages, commitments and draws", "why_tests_cant": "tests issue one honest signature", "anchors": ["libzmix/src/signatures/ps/blind_signature.rs"]}
{"id": "C68", "title": "PS selective disclosure works", "statement": "From a valid signature the holder can prove knowledge while revealing any set of messages: the proof verifies for every challenge and any listing of the revealed messages, the verifier recomputes the same challenge bytes, responses of hidden messages under a shared blinding are equal exactly if the messages are; out of range indices and wrong counts are errors.", "quantifier": "all signatures, messages, index sets, blindings, randomness and challenges", "why_tests_cant": "tests disclose one fixed subset", "anchors": ["libzmix/src/signatures/ps/pok_sig.rs:PoKOfSignature::init", "libzmix/src/signatures/ps/pok_sig.rs:PoKOfSignatureProof::verify"]}
{"id": "C69", "title": "An accepted PS disclosure proves a signature on the revealed messages", "statement": "Two accepted answers to one first message yield t and a full message vector that agrees with every revealed message and on which the unblinded signature satisfies the verification equation.", "quantifier": "all (also malicious) provers' transcripts", "why_tests_cant": "tests only run honest provers", "anchors": ["libzmix/src/signatures/ps/pok_sig.rs:PoKOfSignatureProof::verify"]}
{"id": "C70", "title": "PS disclosures hide the rest", "statement": "For two signatures on message vectors that agree at the revealed positions, each proof made from one is made from the other with exactly one choice of randomness, including the challenge bytes.", "quantifier": "all pairs of signatures, revealed sets, randomness and challenges", "why_tests_cant": "hiding is a statement about all possible explanations of a transcript", "anchors": ["libzmix/src/signatures/ps/pok_sig.rs:PoKOfSignature::init"]}
{"id": "C71", "title": "PS proofs on malformed input", "statement": "Refuted: decoding the proof part of a signature proof accepts its own encoding (the size of the wrong group is used, every input is rejected); a revealed index the key does not have is an error (adding one to an accepted proof panics); asking for a response never panics (it does without responses, but not for accepted proofs).", "quantifier": "all byte strings, proofs and indices", "why_tests_cant": "tests never serialise this proof type nor pass foreign indices", "anchors": ["libzmix/src/signatures/ps/pok_sig.rs:ProofOtherGroup", "libzmix/src/signatures/ps/pok_sig.rs:PoKOfSignatureProof::verify"]}
{"id": "C72", "title": "A sparse Merkle tree reads back the last value written to each leaf", "statement": "Starting from a new tree of any depth over any database filled only by trees, every update succeeds and reading any index returns the last value written to that leaf, or zero if none was, unless two different stored child lists have the same hash.", "quantifier": "every arity (4 and 8), depth, hash function, initial database, update history and index read", "why_tests_cant": "tests write ten values into one depth; the claim is over all histories", "anchors": ["libzmix/bulletproofs_amcl/src/r1cs/gadgets/helper_constraints/sparse_merkle_tree_4_ary.rs: VanillaSparseMerkleTree4::new", "libzmix/bulletproofs_amcl/src/r1cs/gadgets/helper_constraints/sparse_merkle_tree_4_ary.rs: VanillaSparseMerkleTree4::update", "libzmix/bulletproofs_amcl/src/r1cs/gadgets/helper_constraints/sparse_merkle_tree_4_ary.rs: VanillaSparseMerkleTree4::get", "libzmix/bulletproofs_amcl/src/r1cs/gadgets/helper_constraints/sparse_merkle_tree_8_ary.rs: VanillaSparseMerkleTree8", "libzmix/bulletproofs_amcl/src/utils/hash_db.rs: InMemoryHashDb"]}
{"id": "C73", "title": "Old Merkle roots stay readable and trees can share a database", "statement": "Whatever could be read from a tree (identified by its root) is read unchanged after any later creations and updates of this or other trees over the same database, successful or not, unless stored child lists collide.", "quantifier": "every database state, tree, index and later sequence of operations on the same database", "why_tests_cant": "needs every interleaving of operations of several trees", "anchors": ["libzmix/bulletproofs_amcl/src/r1cs/gadgets/helper_constraints/sparse_merkle_tree_4_ary.rs: VanillaSparseMerkleTree4::new", "libzmix/bulletproofs_amcl/src/r1cs/gadgets/helper_constraints/sparse_merkle_tree_4_ary.rs: VanillaSparseMerkleTree4::update", "libzmix/bulletproofs_amcl/src/r1cs/gadgets/helper_constraints/sparse_merkle_tree_4_ary.rs: VanillaSparseMerkleTree4::get", "libzmix/bulletproofs_amcl/src/r1cs/gadgets/helper_constraints/sparse_merkle_tree_8_ary.rs: VanillaSparseMerkleTree8"]}
{"id": "C74", "title": "Merkle proofs verify and bind the value", "statement": "The proof returned with a value always verifies against the root; and two accepted proofs for the same leaf and root with different values exhibit two different child lists with equal hash, so an accepted value is the stored one or a collision is found.", "quantifier": "every tree, database, index, value and proof, honest or not", "why_tests_cant": "soundness quantifies over all adversarial proofs", "anchors": ["libzmix/bulletproofs_amcl/src/r1cs/gadgets/helper_constraints/sparse_merkle_tree_4_ary.rs: VanillaSparseMerkleTree4::get", "libzmix/bulletproofs_amcl/src/r1cs/gadgets/helper_constraints/sparse_merkle_tree_4_ary.rs: VanillaSparseMerkleTree4::verify_proof", "libzmix/bulletproofs_amcl/src/r1cs/gadgets/helper_constraints/sparse_merkle_tree_8_ary.rs: VanillaSparseMerkleTree8"]}
{"id": "C75", "title": "The Merkle root depends exactly on the contents", "statement": "Two histories that leave the same value at every index leave the same root, whatever the order and overwritten values and whatever the databases; trees of equal depth and root hold the same values; each unless child lists collide.", "quantifier": "every pair of histories and databases", "why_tests_cant": "needs all pairs of histories", "anchors": ["libzmix/bulletproofs_amcl/src/r1cs/gadgets/helper_constraints/sparse_merkle_tree_4_ary.rs: VanillaSparseMerkleTree4::new", "libzmix/bulletproofs_amcl/src/r1cs/gadgets/helper_constraints/sparse_merkle_tree_4_ary.rs: VanillaSparseMerkleTree4::update", "libzmix/bulletproofs_amcl/src/r1cs/gadgets/helper_constraints/sparse_merkle_tree_8_ary.rs: VanillaSparseMerkleTree8"]}
{"id": "C76", "title": "Leaf indices are distinct leaves only modulo arity^depth (refuted: distinct indices are distinct leaves)", "statement": "An index is silently reduced modulo arity^depth: writing index i also changes what every congruent index j reads; the claim that writing one index leaves all others unchanged is false.", "quantifier": "every depth and pair of congruent indices", "why_tests_cant": "an aliasing property over all indices; existing tests only use small ones", "anchors": ["libzmix/bulletproofs_amcl/src/r1cs/gadgets/helper_constraints/sparse_merkle_tree_4_ary.rs: VanillaSparseMerkleTree4::leaf_index_to_path", "libzmix/bulletproofs_amcl/src/r1cs/gadgets/helper_constraints/sparse_merkle_tree_8_ary.rs: VanillaSparseMerkleTree8", "libzmix/bulletproofs_amcl/src/r1cs/gadgets/helper_constraints/mod.rs: get_repr_in_power_2_base"]}
{"id": "C77", "title": "Sparse Merkle tree failures", "statement": "A failed update leaves the tree unchanged and a successful one returns the new root; missing nodes give an error and not a wrong value; verify_proof panics on a proof shorter than the depth and ignores surplus nodes; get appends its proof to the given vector.", "quantifier": "every tree, database, proof and index", "why_tests_cant": "ranges over all malformed proofs and failing hash functions", "anchors": ["libzmix/bulletproofs_amcl/src/r1cs/gadgets/helper_constraints/sparse_merkle_tree_4_ary.rs: VanillaSparseMerkleTree4::update", "libzmix/bulletproofs_amcl/src/r1cs/gadgets/helper_constraints/sparse_merkle_tree_4_ary.rs: VanillaSparseMerkleTree4::get", "libzmix/bulletproofs_amcl/src/r1cs/gadgets/helper_constraints/sparse_merkle_tree_4_ary.rs: VanillaSparseMerkleTree4::verify_proof", "libzmix/bulletproofs_amcl/src/r1cs/gadgets/helper_constraints/sparse_merkle_tree_8_ary.rs: VanillaSparseMerkleTree8"]}
{"id": "C78", "title": "Linear combinations are arithmetic", "statement": "Adding, subtracting, negating and scaling linear combinations (and the mixed scalar/variable operators) computes the sum, difference, negation and multiple of their values under every assignment; simplify keeps the value under every assignment, keeps exactly the same variables and leaves one term per variable.", "quantifier": "every linear combination, coefficient and assignment of field elements to variables", "why_tests_cant": "the value must agree on every assignment, of which there are as many as field elements to the number of variables", "anchors": ["libzmix/bulletproofs_amcl/src/r1cs/linear_combination.rs: LinearCombination, simplify, Add, Sub, Neg, Mul"]}
{"id": "C79", "title": "Prover and verifier build the same constraint system", "statement": "Running one circuit through the ConstraintSystem interface on a Prover and on a Verifier yields the same constraints, the same number of gates and the same variables whenever the prover succeeds; the verifier's run never fails; the prover's assignment satisfies every multiplication gate; multiply returns variables carrying the factors and their product on both sides, and whoever satisfies the verifier's system has those values.", "quantifier": "every circuit (any sequence of multiply, allocate, allocate_multiplier and constrain, later steps depending on earlier values), every starting state", "why_tests_cant": "quantifies over all circuits and all assignments, including interleavings of allocate leaving half-assigned multipliers", "anchors": ["libzmix/bulletproofs_amcl/src/r1cs/prover.rs: Prover (multiply, allocate, allocate_multiplier, constrain)", "libzmix/bulletproofs_amcl/src/r1cs/verifier.rs: Verifier (multiply, allocate, allocate_multiplier, constrain)", "libzmix/bulletproofs_amcl/src/r1cs/constraint_system.rs: ConstraintSystem"]}
{"id": "C80", "title": "Range proofs prove the range, for sensible bit sizes only", "statement": "If verify_bounded_num accepts commitments, then every assignment satisfying its system has the committed value between lower and upper, provided 2^(bits+1) does not exceed the group order; an honest prover with a value in range and enough bits succeeds; with as many bits as the group order has, every committed value whatsoever is accepted (refuted: the bit size is checked); fewer than three commitments panic.", "quantifier": "every bounds, bit size, commitment list and satisfying assignment", "why_tests_cant": "a soundness statement over all malicious assignments; no test can enumerate them", "anchors": ["libzmix/bulletproofs_amcl/src/r1cs/gadgets/bound_check.rs: prove_bounded_num, verify_bounded_num, bound_check_gadget", "libzmix/bulletproofs_amcl/src/r1cs/gadgets/helper_constraints/positive_no.rs: positive_no_gadget"]}
{"id": "C81", "title": "Non-zero proofs prove that the value is not zero", "statement": "If verify_non_zero_val accepts, every assignment satisfying its system has a non-zero committed value; an honest prover of a non-zero value succeeds.", "quantifier": "every commitment list, state and assignment", "why_tests_cant": "soundness over all assignments", "anchors": ["libzmix/bulletproofs_amcl/src/r1cs/gadgets/non_zero.rs: prove_non_zero_val, verify_non_zero_val", "libzmix/bulletproofs_amcl/src/r1cs/gadgets/helper_constraints/non_zero.rs: is_nonzero_gadget"]}
{"id": "C82", "title": "Set membership and non-membership proofs prove (non-)membership", "statement": "If verify_set_membership (verify_set_non_membership) accepts, every assignment satisfying its system has the committed value in (outside) the set; the empty set has no member; honest provers succeed for every set and every value in (outside) it.", "quantifier": "every set of field elements, value, commitment list and assignment", "why_tests_cant": "soundness over all assignments and all set sizes", "anchors": ["libzmix/bulletproofs_amcl/src/r1cs/gadgets/set_membership.rs: prove_set_membership, verify_set_membership", "libzmix/bulletproofs_amcl/src/r1cs/gadgets/set_non_membership.rs: prove_set_non_membership, verify_set_non_membership"]}
{"id": "C83", "title": "Set membership by bitmap also accepts zero (refuted: only items of the set)", "statement": "If verify_set_membership_alt accepts, every assignment satisfying its system has the committed value in the set or equal to zero, and the set is not empty; for every non-empty set, commitments to zero are accepted even when zero is not in the set; an honest prover succeeds when the value occurs exactly once.", "quantifier": "every set, value, commitment list and assignment", "why_tests_cant": "soundness over all assignments; the escape via zero is not exercised by the tests", "anchors": ["libzmix/bulletproofs_amcl/src/r1cs/gadgets/set_membership_alt.rs: prove_set_membership_alt, verify_set_membership_alt"]}
{"id": "C84", "title": "MiMC preimage proofs prove a preimage", "statement": "If verify_mimc_preimage accepts, every assignment satisfying its system has committed values whose MiMC hash is the image; an honest prover succeeds for every pair of inputs, constants and its image.", "quantifier": "every inputs, round constants, image, commitments and assignment", "why_tests_cant": "soundness over all assignments and numbers of rounds", "anchors": ["libzmix/bulletproofs_amcl/src/r1cs/gadgets/mimc.rs: prove_mimc_preimage, verify_mimc_preimage", "libzmix/bulletproofs_amcl/src/r1cs/gadgets/helper_constraints/mimc.rs: mimc, enforce_mimc_2_inputs"]}
{"id": "C85", "title": "Poseidon preimage proofs prove a preimage (cube and quint S-box)", "statement": "With the cube or quint S-box, if the preimage verifier (2, 4 or 8 inputs) accepts, every assignment satisfying its system has committed values whose Poseidon hash is the image, or yields a second opening of the capacity commitment; an honest prover succeeds for every input and parameters for which the hash is defined.", "quantifier": "every arity, parameters (width, rounds, keys, matrix), inputs, image and assignment", "why_tests_cant": "soundness over all assignments and parameter sets", "anchors": ["libzmix/bulletproofs_amcl/src/r1cs/gadgets/poseidon_hash.rs: prove_knowledge_of_preimage_of_Poseidon_2, verify_knowledge_of_preimage_of_Poseidon_2 (and _4, _8)", "libzmix/bulletproofs_amcl/src/r1cs/gadgets/helper_constraints/poseidon.rs: Poseidon_permutation, Poseidon_permutation_constraints, Poseidon_hash_2_constraints"]}
{"id": "C86", "title": "Poseidon with the inverse S-box proves nothing (refuted: verified image has the committed preimage)", "statement": "With SboxType::Inverse the constraints do not tie the S-box output to its input: for every committed values the verifier's system for (almost) every image is satisfiable; and with a half-assigned multiplier pending when the gadget starts it panics.", "quantifier": "every parameters, committed values and image reachable from non-zero vectors by the linear layer", "why_tests_cant": "a missing constraint accepts all honest runs, so positive tests pass; the statement quantifies over all inputs and images", "anchors": ["libzmix/bulletproofs_amcl/src/r1cs/gadgets/helper_constraints/poseidon.rs: synthesize_inverse_sbox, Poseidon_permutation_constraints", "libzmix/bulletproofs_amcl/src/r1cs/gadgets/poseidon_hash.rs: verify_knowledge_of_preimage_of_Poseidon_2 (and _4, _8)"]}
{"id": "C87", "title": "Merkle membership proofs prove that the committed leaf lies under the root", "statement": "If the leaf-inclusion verifier (arity 4 or 8, leaf hidden or public) accepts, every assignment satisfying its system has node commitments that are the siblings of a path from the leaf to the root, with the committed index equal to the path's index, or yields a second opening of the capacity commitment; when the number of nodes is the one of the tree's depth and arity^depth does not exceed the group order, the leaf is the value the sparse Merkle tree with that root stores at that index, or a hash collision is exhibited. Conversely, for every value and proof read from a sparse Merkle tree the prover succeeds and its commitments are accepted.", "quantifier": "every tree, depth, index below arity^depth, leaf value, blinding, Poseidon parameters (cube or quint), commitments and satisfying assignment", "why_tests_cant": "soundness ranges over all assignments and adversarial commitments, completeness over all trees and depths", "anchors": ["libzmix/bulletproofs_amcl/src/r1cs/gadgets/sparse_merkle_tree_4_ary.rs: prove_leaf_inclusion_4_ary_merkle_tree, verify_leaf_inclusion_4_ary_merkle_tree", "libzmix/bulletproofs_amcl/src/r1cs/gadgets/sparse_merkle_tree_8_ary.rs: prove_leaf_inclusion_8_ary_merkle_tree, verify_leaf_inclusion_8_ary_merkle_tree", "libzmix/bulletproofs_amcl/src/r1cs/gadgets/helper_constraints/sparse_merkle_tree_4_ary.rs: vanilla_merkle_merkle_tree_4_verif_gadget", "libzmix/bulletproofs_amcl/src/r1cs/gadgets/helper_constraints/sparse_merkle_tree_8_ary.rs: vanilla_merkle_merkle_tree_8_verif_gadget"]}
{"id": "C88", "title": "Membership verifiers check the depth of the path (refuted)", "statement": "The number of node commitments is not compared with the depth: with no node at all the root itself is accepted as leaf 0, every inner node is accepted as a leaf with the nodes above it, the 4-ary verifier also accepts paths longer than the depth, up to the next multiple of four; node counts that are not a multiple of arity-1 never succeed (they panic) unless there are more nodes than levels.", "quantifier": "every depth, root, path and blinding", "why_tests_cant": "positive tests only use honest proofs of full length; the statement quantifies over all depths and proof lengths", "anchors": ["libzmix/bulletproofs_amcl/src/r1cs/gadgets/sparse_merkle_tree_4_ary.rs: verify_leaf_inclusion_4_ary_merkle_tree", "libzmix/bulletproofs_amcl/src/r1cs/gadgets/sparse_merkle_tree_8_ary.rs: verify_leaf_inclusion_8_ary_merkle_tree"]}
{"id": "C89", "title": "The signed credential context identifies the prover id and the registry index", "statement": "Attribute encodings are the little- or big-endian value of the hash of the attribute. Every signature made by sign_credential (sign_credential_with_revoc) carries as m2 the hash of the encodings of the prover id and of the index (-1 without a registry), and the non-revocation part is made for the same context and index. Two equal contexts belong to the same prover id and the same index, or one of three explicit pairs of hashed strings is a collision. Refuted corner: index u32::MAX and 'no registry' give the same context.", "quantifier": "all hash functions, prover ids, indices, keys, values and random draws", "why_tests_cant": "the binding claim quantifies over every pair of ids and indices and every hash function", "anchors": ["libursa/src/cl/helpers.rs:encode_attribute", "libursa/src/cl/issuer.rs:Issuer::_gen_credential_context", "libursa/src/cl/issuer.rs:Issuer::sign_credential", "libursa/src/cl/issuer.rs:Issuer::sign_credential_with_revoc"]}
{"id": "C90", "title": "The commitment list of a presentation is the list of published commitments, but the verifier does not check that", "statement": "The c_list a ProofBuilder puts into a proof is, in order, the non-revocation commitments, A' and the T values of every sub proof. Refuted: that ProofVerifier::verify relies on it; for valid credentials and any list whatsoever there is an accepted proof with that list.", "quantifier": "all credentials, requests, random draws, nonces, lists and hash functions", "why_tests_cant": "tests only see lists made by the library itself", "anchors": ["libursa/src/cl/prover.rs:ProofBuilder::finalize", "libursa/src/cl/prover.rs:ProofBuilder::add_sub_proof_request", "libursa/src/cl/mod.rs:PrimaryInitProof::as_c_list", "libursa/src/cl/verifier.rs:ProofVerifier::verify"]}
{"id": "C91", "title": "process_credential_signature accepts only signatures, but changes its argument in any case", "statement": "If Prover::process_credential_signature succeeds, the returned primary signature (with v' added to v) satisfies the Camenisch-Lysyanskaya equation for the known and hidden values and its e passed the primality test. Refuted: that a failing call leaves the signature unchanged (v' is added whatever the result), and that the call can be repeated (after two successes S^v' = 1 modulo n).", "quantifier": "all signatures, values, correctness proofs, keys with invertible bases, nonces and hash functions", "why_tests_cant": "soundness is about every accepted input; the failure case is about every rejected one", "anchors": ["libursa/src/cl/prover.rs:Prover::process_credential_signature", "libursa/src/cl/prover.rs:Prover::_check_signature_correctness_proof", "libursa/src/cl/prover.rs:Prover::_process_primary_credential"]}
{"id": "C92", "title": "A refused add_sub_proof_request can spoil the presentation", "statement": "A failing ProofBuilder::add_sub_proof_request leaves the list of sub proofs and the common attributes unchanged, and changes nothing at all unless the credential has a non-revocation part, a registry, a revocation key and a witness. Refuted: that the failure is harmless; in that case its commitments stay in the builder, and a presentation finished from valid credentials is accepted only if two explicit different strings have the same hash.", "quantifier": "all builders, requests, credentials before and after the refused one, nonces and hash functions", "why_tests_cant": "the consequence shows only in later calls, for every continuation", "anchors": ["libursa/src/cl/prover.rs:ProofBuilder::add_sub_proof_request", "libursa/src/cl/prover.rs:ProofBuilder::finalize", "libursa/src/cl/verifier.rs:ProofVerifier::verify"]}
{"id": "C93", "title": "Inner-product proofs of an honest prover are accepted, for one statement only", "statement": "For vectors of length n = 2^k (k < 32) and factors and generators of that length, the proof made by create_ipp verifies against P = <a.Gf, G> + <b.Hf, H> + <a,b> u; a given proof, transcript and bases is accepted for at most one P; the verifier's scalar for position i is the product of the challenges, inverted where the corresponding bit of i is 0.", "quantifier": "every field, group, transcript, vectors, factors, generators and challenge function with non-zero challenges", "why_tests_cant": "A test runs one size with one transcript; the claim is about the folding at every size and every challenge.", "anchors": ["libzmix/bulletproofs_amcl/src/ipp.rs: IPP::create_ipp, IPP::verify_ipp, IPP::verification_scalars"]}
{"id": "C94", "title": "verify_ipp answers every proof with Ok or an error (refuted)", "statement": "A proof with the wrong number of rounds, or with L and R of different lengths, makes verify_ipp panic instead of returning an error.", "quantifier": "every proof with |L| >= 32 or n <> 2^|L|, and every proof with |L| <> |R|", "why_tests_cant": "Tests verify the prover's own proofs; the claim is about every proof an adversary can send.", "anchors": ["libzmix/bulletproofs_amcl/src/ipp.rs: IPP::verify_ipp, IPP::verification_scalars"]}
{"id": "C95", "title": "R1CS proofs of an honest prover are accepted", "statement": "Prover and verifier build the same circuit (any sequence of multiply, allocate, allocate_multiplier, constrain), with any second phase registered by specify_randomized_constraints and drawing challenges: if the prover's assignment satisfies the constraints, prove returns a proof and verify accepts it, for every choice of blindings and of the verifier's random r, with enough generators (the next power of two).", "quantifier": "every circuit, second phase, values, blindings, generators, random draws and challenge function with non-zero challenges; fewer than 2^31 multipliers", "why_tests_cant": "Tests prove a few gadgets; padding, the two phases and the flattening of constraints must agree on both sides for every circuit.", "anchors": ["libzmix/bulletproofs_amcl/src/r1cs/prover.rs: Prover::prove, flattened_constraints, create_randomized_constraints", "libzmix/bulletproofs_amcl/src/r1cs/verifier.rs: Verifier::verify", "libzmix/bulletproofs_amcl/src/utils/vector_poly.rs"]}
{"id": "C96", "title": "What Verifier::verify checks, and what it answers to malformed proofs", "statement": "For a proof with the right number of rounds, verify accepts for every r if the identity of the polynomial t and the inner-product equation both hold, and if one of them fails it accepts for at most one value of its random r; otherwise it answers VerificationError. Too few G generators and a wrong number of rounds are errors; refuted: too few H generators, or L and R of different lengths, abort the process.", "quantifier": "every proof, verifier state, second phase, generators and draw", "why_tests_cant": "That the batched check is equivalent to the two equations is a statement about all proofs, in particular the ones no prover makes.", "anchors": ["libzmix/bulletproofs_amcl/src/r1cs/verifier.rs: Verifier::verify, flattened_constraints", "libzmix/bulletproofs_amcl/src/r1cs/proof.rs: R1CSProof"]}
{"id": "C97", "title": "Groth signatures verify exactly when they are signatures", "statement": "For both Groth signature schemes: signing at most as many group elements as there are setup bases yields a signature that verifies under the signer's key; verification accepts exactly the triples (R,S,T) satisfying the Groth pairing equations for the messages; randomising with a non-zero factor neither makes nor destroys validity; with more messages than bases signing and both verifications return the unsupported-number-of-messages error.", "quantifier": "every setup with at least one base, every key, message list, signature, non-zero draw", "why_tests_cant": "ranges over all signatures and message lists of any length", "anchors": ["libzmix/src/signatures/delg_cred_cdd/groth_sig.rs:GrothS1", "libzmix/src/signatures/delg_cred_cdd/groth_sig.rs:Groth1Sig::new", "libzmix/src/signatures/delg_cred_cdd/groth_sig.rs:Groth1Sig::verify", "libzmix/src/signatures/delg_cred_cdd/groth_sig.rs:Groth2Sig::verify", "libzmix/src/signatures/delg_cred_cdd/groth_sig.rs:Groth1Sig::randomize"]}
{"id": "C98", "title": "Batched Groth verification", "statement": "verify_batch accepts, for every draw, each signature that verify accepts; a signature that verify does not accept passes verify_batch for at most as many non-zero draws as there are messages.", "quantifier": "every signature, message list, key and set of draws", "why_tests_cant": "the error bound counts draws out of a 255 bit field", "anchors": ["libzmix/src/signatures/delg_cred_cdd/groth_sig.rs:Groth1Sig::verify_batch", "libzmix/src/signatures/delg_cred_cdd/groth_sig.rs:Groth2Sig::verify_batch"]}
{"id": "C99", "title": "What a Groth signature binds", "statement": "One signature is valid under one key for at most one message list of a given length. Refuted: the length is bound - the same signature is valid for every prefix of the message list; a signature with fewer T components than messages makes verification panic.", "quantifier": "every signature, key, message list", "why_tests_cant": "all message lists and prefixes", "anchors": ["libzmix/src/signatures/delg_cred_cdd/groth_sig.rs:Groth1Sig::verify", "libzmix/src/signatures/delg_cred_cdd/groth_sig.rs:Groth1Sig::verify_batch"]}
{"id": "C100", "title": "Groth setup", "statement": "setup with n bases gives n bases, a smaller setup with the same label gives a prefix of them, and the two schemes set up with the same label share both generators.", "quantifier": "every label, count, hash-to-group function", "why_tests_cant": "all labels and counts", "anchors": ["libzmix/src/signatures/delg_cred_cdd/groth_sig.rs:impl_GrothS_setup"]}
{"id": "C101", "title": "Proof of knowledge of a Groth signing key", "statement": "An honestly made proof verifies; two accepted proofs with the same commitment and different challenges determine the signing key; a proof with a wrong number of responses is an error.", "quantifier": "every key, draw, challenge, proof", "why_tests_cant": "special soundness quantifies over all proofs", "anchors": ["libzmix/src/signatures/delg_cred_cdd/groth_sig.rs:initiate_proof_of_knowledge_of_sigkey"]}
{"id": "C102", "title": "Delegating", "statement": "An issuer with fewer attributes than bases makes a link one level down whose attributes are the given ones followed by the delegatee's key; it verifies for that delegatee and the issuer's key. As many attributes as bases or more are refused. Even-level issuers exist for even levels only, odd for odd, the root issues level 1.", "quantifier": "every level, attribute list, key, draw", "why_tests_cant": "all attribute lists and draws", "anchors": ["libzmix/src/signatures/delg_cred_cdd/issuer.rs:impl_Issuer", "libzmix/src/signatures/delg_cred_cdd/issuer.rs:RootIssuer::delegate"]}
{"id": "C103", "title": "Verifying a delegation link", "statement": "A verifying link has the delegatee's key as its last attribute and, unless the draw was one of few bad ones, a valid signature of the delegator on all attributes; too many attributes and a wrong delegatee are reported. Refuted: the delegatee is the one the issuer named - cutting the attributes of a valid link after attribute k gives a valid link delegating to attribute k; a link without attributes makes verification panic.", "quantifier": "every link, key, draw", "why_tests_cant": "all truncations and draws", "anchors": ["libzmix/src/signatures/delg_cred_cdd/issuer.rs:impl_CredLink"]}
{"id": "C104", "title": "Building and cutting delegation chains", "statement": "In a chain built with extend_with_odd/even the k-th odd link has level 2k+1 and the k-th even link level 2k+2 (64 bit), and a link is accepted exactly when it has the next level of its parity. get_truncated(n) of a chain without gaps is its first n levels and is valid for the prefixes of the keys when the chain is; more levels than there are is an error.", "quantifier": "every sequence of extend calls, every n", "why_tests_cant": "all call histories", "anchors": ["libzmix/src/signatures/delg_cred_cdd/issuer.rs:CredChain::extend_with_odd", "libzmix/src/signatures/delg_cred_cdd/issuer.rs:CredChain::extend_with_even", "libzmix/src/signatures/delg_cred_cdd/issuer.rs:CredChain::get_truncated"]}
{"id": "C105", "title": "Verifying a chain link by link", "statement": "verify_delegations accepts every valid chain for all draws; accepting with sufficiently many draws per level makes the chain valid: levels 1..n without a gap, each key signed by the key before it starting from the root; a wrong number of keys or an empty chain is an error. Refuted: chains built with the API never make verification panic (two odd links without an even one do).", "quantifier": "every chain of any length, key lists, draws", "why_tests_cant": "chains of any length and all draws", "anchors": ["libzmix/src/signatures/delg_cred_cdd/issuer.rs:CredChain::verify_delegations", "libzmix/src/signatures/delg_cred_cdd/issuer.rs:CredChain::validate"]}
{"id": "C106", "title": "Verifying a chain in one batch", "statement": "verify_delegations_batched accepts every valid chain for all draws; equals the individual verification on one link; accepts only valid chains when the even links are known to be valid. Refuted: it accepts only what verify_delegations accepts - adding d*g1 to an attribute of link 1 and subtracting d*g2 from the attribute of link 2 at the same position turns every valid two-link chain into an invalid one accepted for all draws.", "quantifier": "every chain, key lists, draws", "why_tests_cant": "for every draw and every chain", "anchors": ["libzmix/src/signatures/delg_cred_cdd/issuer.rs:CredChain::verify_delegations_batched", "libzmix/src/signatures/delg_cred_cdd/groth_sig.rs:Groth2Sig::prepare_for_pairing_checks"]}
{"id": "C107", "title": "A holder's attribute token is accepted and shows exactly what was asked", "statement": "For every valid delegation chain and the secret of its last key, commitment followed by response produces a token that reconstruct_commitment, with and without precomputed values, turns back into the same commitment, hence the same challenge; the commitment shows exactly the attributes at the revealed positions (the delegatee key excepted). The variants with precomputed values compute the same functions. The claim needs both parameter sets to share their generators: with parameters of two different labels an honest token is not accepted.", "quantifier": "all curves satisfying the group laws, parameters, chains of any length with any attributes, secrets, challenges, revealed sets smaller than the links and non-zero randomisers", "why_tests_cant": "tests use a few chains of at most six levels with fixed attribute counts and one label", "anchors": ["libzmix/src/signatures/delg_cred_cdd/attribute_token.rs:commitment", "libzmix/src/signatures/delg_cred_cdd/attribute_token.rs:response", "libzmix/src/signatures/delg_cred_cdd/attribute_token.rs:reconstruct_commitment", "libzmix/src/signatures/delg_cred_cdd/attribute_token.rs:commitment_with_precomputation", "libzmix/src/signatures/delg_cred_cdd/attribute_token.rs:reconstruct_commitment_with_precomputed_vals"]}
{"id": "C108", "title": "An accepted attribute token proves possession of a chain (special soundness)", "statement": "From two responses to one commitment with different challenges, both of which verification accepts, one can compute a valid delegation chain of the stated length from the issuer's key, the secret of its last key, and attributes that agree with the values shown in the commitment at the revealed positions.", "quantifier": "all commitments, pairs of responses, distinct challenges, revealed sets, issuer keys, at least one level", "why_tests_cant": "a statement about arbitrary, possibly dishonest provers", "anchors": ["libzmix/src/signatures/delg_cred_cdd/attribute_token.rs:reconstruct_commitment"]}
{"id": "C109", "title": "Attribute tokens hide everything that is not revealed", "statement": "Two holders of chains from the same issuer with the same number of levels and of attributes per level and the same attributes at the revealed positions produce the same tokens: for every run of one there are random draws with which the other produces exactly the same commitment and response.", "quantifier": "all pairs of such chains with any keys, signatures and hidden attributes, all challenges and draws", "why_tests_cant": "tests cannot compare distributions over all random draws", "anchors": ["libzmix/src/signatures/delg_cred_cdd/attribute_token.rs:commitment", "libzmix/src/signatures/delg_cred_cdd/attribute_token.rs:response"]}
{"id": "C110", "title": "What an accepted token shows was asked for and signed", "statement": "A user expects that every attribute shown in an accepted commitment is in the credential, that every position asked for is shown, and that acceptance needs a credential. None holds as stated: positions that were not asked for may show any value, positions beyond the attributes (or the position of the key) are silently skipped, and a verifier that takes the number of levels from the commitment, as the tests do, accepts the empty commitment for every issuer.", "quantifier": "all honest chains and all values at unasked positions; all issuer keys and hash functions for the empty commitment", "why_tests_cant": "tests only look at honest tokens", "anchors": ["libzmix/src/signatures/delg_cred_cdd/attribute_token.rs:reconstruct_commitment", "libzmix/src/signatures/delg_cred_cdd/attribute_token.rs:AttributeTokenComm"]}
{"id": "C111", "title": "The challenge is determined by the commitment and binds it", "statement": "A user expects equal commitments to have equal challenges and different ones different challenges. Refuted: the bytes hashed depend on the iteration order of the maps of revealed attributes, so a deserialised equal commitment can have another challenge, and the boundaries between levels are not part of the bytes.", "quantifier": "all commitments with two revealed attributes at level one, all hash functions", "why_tests_cant": "the order of a HashMap is random and tests keep one object", "anchors": ["libzmix/src/signatures/delg_cred_cdd/attribute_token.rs:AttributeTokenComm::to_bytes", "libzmix/src/signatures/delg_cred_cdd/attribute_token.rs:gen_challenge"]}
{"id": "C112", "title": "A token object can be used again", "statement": "A user expects to call commitment again on a token object. Refuted: the second commitment carries the signatures of both calls, the response to it fails with an error on the number of blinded R, and every verifier rejects it.", "quantifier": "all chains with at least one link, all revealed sets and draws of the two calls", "why_tests_cant": "a history of two calls no test makes", "anchors": ["libzmix/src/signatures/delg_cred_cdd/attribute_token.rs:commitment", "libzmix/src/signatures/delg_cred_cdd/attribute_token.rs:response", "libzmix/src/signatures/delg_cred_cdd/attribute_token.rs:AttributeTokenComm::validate"]}
{"id": "C113", "title": "Verification of a malformed token returns an error", "statement": "A user expects an error, not a panic, for a malformed response. Refuted: a response without hidden-attribute vectors passes the validation and makes verification panic, as do too few revealed sets.", "quantifier": "all well-formed commitments of at least one level", "why_tests_cant": "malformed inputs are unbounded and not tested", "anchors": ["libzmix/src/signatures/delg_cred_cdd/attribute_token.rs:reconstruct_commitment", "libzmix/src/signatures/delg_cred_cdd/attribute_token.rs:AttributeTokenResp::validate"]}
{"id": "C114", "title": "Verifiable encryption: decryption inverts encryption", "statement": "For every key pair the library can generate (odd modulus n, generator coprime to n), every label, every encryption randomness and every list of at most num_messages integers, encrypt succeeds and decrypt under the same label returns exactly each message modulo n, hence the messages themselves when they are below n. Asking for zero messages, encrypting or decrypting more than num_messages is an error. Refuted as stated for arbitrary messages (m and m+n give the same ciphertext without an error) and for every generator the random draw can produce (a generator sharing a factor with n gives a key that encrypts and can never decrypt).", "quantifier": "all key-generation draws, labels, hash functions, randomness and message lists of any length and size", "why_tests_cant": "Tests round-trip random messages below n under a handful of random keys.", "anchors": ["libzmix/src/verifiable_encryption/cs_verifiable_encryption.rs:CSKeypair::new", "libzmix/src/verifiable_encryption/cs_verifiable_encryption.rs:encrypt", "libzmix/src/verifiable_encryption/cs_verifiable_encryption.rs:decrypt", "libzmix/src/verifiable_encryption/cs_verifiable_encryption.rs:PaillierGroup::new"]}
{"id": "C115", "title": "Verifiable encryption: exactly which ciphertexts decrypt", "statement": "For every ciphertext coprime to n and every label, decrypt returns a message list iff the number of components fits, v is the smaller square root representative, v^2 = u^(2(x2 + hash*x3)) mod n^2 and each e_i^(n+1) = u^(x1_i(n+1)) (1 + m_i n) mod n^2 with 0 <= m_i < n. A ciphertext made under one label opened under another gives the error, except exactly when the two hashes agree as exponents of g^(2 r x3), and then gives the same messages: never different ones.", "quantifier": "all ciphertexts, labels, keys and hash functions", "why_tests_cant": "A test tries one mismatching label; the set of accepted ciphertexts is infinite.", "anchors": ["libzmix/src/verifiable_encryption/cs_verifiable_encryption.rs:decrypt", "libzmix/src/verifiable_encryption/cs_verifiable_encryption.rs:abs", "libzmix/src/verifiable_encryption/cs_verifiable_encryption.rs:hash"]}
{"id": "C116", "title": "Verifiable encryption: honest proofs of encryption verify", "statement": "For all keys, messages, blindings, labels and challenges with 0 <= r*c < n^2, the blinding values reconstructed by the verifier from the ciphertext, the responses (any representatives modulo n of blinding - c*message) and the challenge are exactly the prover's commitments; wrong counts are errors. Refuted for arbitrary challenges: the response is reduced modulo n^2, which is not a multiple of the order of g, so once r*c reaches n^2 an honest proof is rejected.", "quantifier": "all keys, randomness, message lists, labels, challenges and response representatives", "why_tests_cant": "Tests run single random challenges below n.", "anchors": ["libzmix/src/verifiable_encryption/cs_verifiable_encryption.rs:encrypt_and_prove_phase_1", "libzmix/src/verifiable_encryption/cs_verifiable_encryption.rs:encrypt_and_prove_phase_2", "libzmix/src/verifiable_encryption/cs_verifiable_encryption.rs:reconstruct_blindings_ciphertext"]}
{"id": "C117", "title": "Verifiable encryption: a ciphertext whose proof verifies can be decrypted", "statement": "With n a product of two distinct safe primes: whenever two answers to challenges c, c' (|c - c'| below both p', q') reconstruct the same commitments for a ciphertext coprime to n with v = |v|, decrypt succeeds under the label and the decrypted m_i satisfy m_i (c - c') = s'_i - s_i mod n. Refuted without those side conditions, which the verifier does not check: the all-zero ciphertext verifies for every challenge and every response and never decrypts; replacing v by n^2 - v changes nothing for the verifier but decryption refuses it; components beyond the number of responses are ignored by the verifier and one zero component makes decryption fail; a ciphertext with too few components panics the verifier.", "quantifier": "all ciphertexts, labels, commitments, pairs of challenges and responses, all safe-prime keys", "why_tests_cant": "Soundness quantifies over all cheating provers; tests only run honest ones.", "anchors": ["libzmix/src/verifiable_encryption/cs_verifiable_encryption.rs:reconstruct_blindings_ciphertext", "libzmix/src/verifiable_encryption/cs_verifiable_encryption.rs:decrypt"]}
{"id": "C118", "title": "Verifiable encryption: labels and responses", "statement": "A user expects a ciphertext to open only under its label and the proof to reveal nothing about the randomness. Refuted: the hash has no separators, so for every honest ciphertext dropping the last component and prepending its bytes to the label gives a ciphertext that decrypts under that other label to the other messages; and since the proof's blinding is drawn from the same range as the encryption randomness r, r1 and r2 with (r2 - r1)*c >= n/4 never give the same response, so the response confines r to a window of n/(4c).", "quantifier": "all keys, messages, labels, randomness, blindings and challenges", "why_tests_cant": "Tests check one unrelated label and never look at the distribution of responses.", "anchors": ["libzmix/src/verifiable_encryption/cs_verifiable_encryption.rs:hash", "libzmix/src/verifiable_encryption/cs_verifiable_encryption.rs:rand_for_enc", "libzmix/src/verifiable_encryption/cs_verifiable_encryption.rs:encrypt_and_prove_phase_2"]}
{"id": "C119", "title": "Every Bulletproofs challenge is bound to the statement and to everything sent before it", "statement": "The outcome of verifying an inner-product proof, or an R1CS proof, depends on the transcript's challenge function only at an explicit list of transcripts: the challenge of round j of the inner product argument is drawn after the size n and the points L, R of rounds 0..j; the challenges y, z, u, x, w of the R1CS proof after the commitments V, their number, and respectively A_I, A_O, S of both phases, T_1..T_6, and t_x, t_x_blinding, e_blinding. When encodings of points and scalars are injective, the transcript of a one-phase proof determines the commitments, the size and every element of the proof but the last two scalars a, b, so no element can be chosen after a challenge that is supposed to depend on it.", "quantifier": "every challenge function, statement, set of commitments, proof, size below 2^64 and (for the list of queries) second-phase circuit", "why_tests_cant": "a test cannot show that no omitted value exists: a dropped or truncated append leaves honest proofs verifying and only shows up for an adversary choosing that value after the challenge", "anchors": ["libzmix/bulletproofs_amcl/src/transcript.rs:TranscriptProtocol", "libzmix/bulletproofs_amcl/src/ipp.rs:verification_scalars", "libzmix/bulletproofs_amcl/src/r1cs/verifier.rs:verify"]}
{"id": "C120", "title": "Symmetric encryption: encrypt then decrypt with an explicit nonce", "statement": "For each of the six algorithms and every key, nonce and aad of the right sizes, a ciphertext made by encrypt has the documented length (padded message plus tag, or message plus 16) and decrypts under the same arguments to the message exactly when the message has at least 0 bytes (AES-128-CBC-HMAC-256, ChaCha20-Poly1305, XChaCha20-Poly1305), 16 bytes (AES-256-CBC-HMAC-512) or 12 bytes (AES-GCM). The expected round trip for all messages is refuted: shorter messages encrypt without an error to ciphertexts that no decryption accepts, because the length check asks for more than a tag.", "quantifier": "every algorithm, key, nonce, aad and message, for all primitives satisfying their laws", "why_tests_cant": "the unit tests encrypt messages of 29 bytes and more; the loss of data concerns a range of lengths for every key", "anchors": ["libursa/src/encryption/symm/aescbc.rs:decrypt", "libursa/src/encryption/symm/aesgcm.rs:decrypt", "libursa/src/encryption/symm/chacha20poly1305.rs:decrypt"]}
{"id": "C121", "title": "Symmetric encryption: encrypt_easy / decrypt_easy and their buffer forms", "statement": "What encrypt_easy outputs (random nonce in front) decrypts with decrypt_easy to the message when it has at least 0/16/12/12/8/8 bytes (in the order AES-128-CBC-HMAC-256, AES-256-CBC-HMAC-512, AES-128-GCM, AES-256-GCM, ChaCha20-Poly1305, XChaCha20-Poly1305) and is an error otherwise; the expected round trip for every message is refuted for five algorithms. encrypt_buffer and decrypt_buffer produce exactly what the easy forms produce for the bytes of the stream, and fail when the stream cannot be read or written.", "quantifier": "every algorithm, key, drawn nonce, aad, message and stream", "why_tests_cant": "which lengths are lost is decided by constants in three files; tests use messages above all of them", "anchors": ["libursa/src/encryption/symm/mod.rs:encrypt_easy", "libursa/src/encryption/symm/mod.rs:decrypt_easy", "libursa/src/encryption/symm/mod.rs:encrypt_buffer", "libursa/src/encryption/symm/mod.rs:decrypt_buffer", "libursa/src/encryption/symm/mod.rs:read_buffer"]}
{"id": "C122", "title": "AES-CBC-HMAC: what the tag authenticates", "statement": "Whatever decrypt_easy accepts ends with the MAC, under the second part of the key, of the aad followed by all bytes in front of the tag. With an aad of the same length, the tag of an encryption is accepted for that aad and ciphertext only, unless the MAC collides. The expected property that aad and message are both authenticated is refuted: they are concatenated without a length, so without the key one ciphertext can be turned into one of the message without its first block under the aad extended by the nonce, or of a longer message under a shortened aad; these shifts by whole blocks are all that is accepted (unless the MAC collides).", "quantifier": "every key, nonce, aad, message, and every forged aad and ciphertext reusing a tag", "why_tests_cant": "unforgeability quantifies over all attempts; tests try one changed aad of no relation to the nonce", "anchors": ["libursa/src/encryption/symm/aescbc.rs:aes_cbc_hmac_impl"]}
{"id": "C123", "title": "Symmetric encryption: errors and panics", "statement": "decrypt_easy on any byte string with any aad returns a message or the error, never a panic. Serialized keys deserialize to themselves. The expected absence of panics is refuted for new_with_key, for encrypt and decrypt of an encryptor with a nonce, and for deserialization: every key or nonce of another length panics although the functions return a Result.", "quantifier": "every byte string, key, nonce and aad", "why_tests_cant": "a fuzz or unit test cannot exclude panics for all inputs", "anchors": ["libursa/src/encryption/symm/mod.rs:SymmetricEncryptor", "libursa/src/encryption/symm/mod.rs:serialize_impl", "libursa/src/encryption/symm/mod.rs:decrypt_easy"]}
{"id": "C124", "title": "Symmetric encryption through C and WebAssembly", "statement": "Algorithm names parse exactly to the type that prints them. A call of ursa_encrypt or ursa_decrypt with an algorithm string returns 1 with error code 0 and the output of the operation, or 0 with code 11 (unknown algorithm), 8 (key length), 9 (nonce length), 6 or 7 (operation failed), in this order, and never panics; a null algorithm string panics across the C boundary (refuting the expectation that every call returns). Encrypting and decrypting with the same arguments gives the message back, or code 7 for the short messages of C120 and C121; the same for the WebAssembly key object.", "quantifier": "every algorithm string, key, nonce (absent or present), aad and input buffer", "why_tests_cant": "every combination of pointers and lengths must be handled; tests run one per algorithm", "anchors": ["libursa/src/ffi/encryption/mod.rs:ursa_encrypt", "libursa/src/ffi/encryption/mod.rs:ursa_decrypt", "libursa/src/encryption/symm/mod.rs:EncryptorType", "libursa/src/wasm/encryption.rs:UrsaEncryptor"]}
{"id": "C125", "title": "Key exchange: agreement and reloading of keys", "statement": "Two key pairs made by keypair with any options agree: each side's compute_shared_secret with the other's public key gives the same 32 bytes, for x25519 and for secp256k1. A key pair loaded from a private key made by keypair is that key pair, for the two exchanges and the two signature schemes. A seed determines the key pair with x25519 and ed25519 through its hash. Four expectations are refuted: a secp256k1 seed counts only with its first 32 bytes and shorter ones panic; an x25519 public key exists for which every private key gives the same session key; too long keys are cut off and too short ones panic instead of an error; the secp256k1 session key is the bare x-coordinate, not a hash.", "quantifier": "every pair of option, seed, random draw and key", "why_tests_cant": "agreement and determinism are claims about all pairs of keys; unit tests use one pair per scheme and keys of the exact length", "anchors": ["libursa/src/kex/x25519.rs:X25519Sha256", "libursa/src/kex/secp256k1.rs:EcdhSecp256k1Sha256", "libursa/src/kex/mod.rs:KeyExchangeScheme", "libursa/src/signatures/ed25519.rs:Ed25519Sha512", "libursa/src/signatures/secp256k1.rs:EcdsaSecp256k1Sha256"]}
{"id": "C126", "title": "Ed25519: what verification accepts", "statement": "verify returns true exactly for signatures R || s of 64 bytes with s below the group order and R = s B - H(R, pk, message) A for the decoded public key A; everything else is an error (a parse error or a signing error), never false and never a panic. Signatures of generated or expanded key pairs verify. For one R there is at most one s. Keys converted with the *_to_key_exchange functions form an x25519 key pair. Refuted expectations: a public key exists under which one signature is valid for every message; the two halves of a private key are never compared, so signing with a wrong second half gives away the secret scalar; Signer::public_key panics for keys for which sign returns an error.", "quantifier": "every message, byte string as signature, public key and private key", "why_tests_cant": "the set of accepted byte strings cannot be enumerated; tests check one good and one bad signature", "anchors": ["libursa/src/signatures/ed25519.rs:Ed25519Sha512", "libursa/src/signatures/ed25519.rs:ver_key_to_key_exchange", "libursa/src/signatures/ed25519.rs:sign_key_to_key_exchange", "libursa/src/signatures/ed25519.rs:expand_keypair", "libursa/src/signatures/mod.rs:Signer"]}
{"id": "C127", "title": "ECDSA over secp256k1: what verification accepts, normalization and malleability", "statement": "For a parsable key and signature verify returns whether (r, s) satisfies the ECDSA equation and s is at most half the order; otherwise it is a parse error, never a panic. Signatures of generated keys verify (unless the derived nonce or the values r, s are 0). normalize_s keeps r, is idempotent and makes every valid signature an accepted one; the signature with the negated s is rejected and normalizes to the accepted one. Conversions between compressed and uncompressed public keys are inverse; refuted is that they never panic (every key of another length does, while parse returns an error).", "quantifier": "every message, compact signature, public key and private key", "why_tests_cant": "acceptance and malleability are claims about all pairs (r, s)", "anchors": ["libursa/src/signatures/secp256k1.rs:EcdsaSecp256k1Sha256", "libursa/src/signatures/secp256k1.rs:normalize_s", "libursa/src/signatures/secp256k1.rs:public_key_compressed", "libursa/src/signatures/secp256k1.rs:public_key_uncompressed"]}
{"id": "C128", "title": "Ed25519 through the C interface", "statement": "ursa_ed25519_verify returns 1 with code 0 exactly for the signatures of C126 and 0 with code 3 for every other input, null pointers included. Key generation succeeds with and without a seed, the public key can be recomputed from the private key, and signatures made with it verify. Private keys of a wrong length give code 1 (public key) or 2 (signing). Refuted: a missing seed is not an error but gives everyone the same key pair.", "quantifier": "every buffer, null or not, and every random draw", "why_tests_cant": "all inputs of the C boundary must be handled", "anchors": ["libursa/src/ffi/signatures/ed25519.rs:ursa_ed25519_verify", "libursa/src/ffi/signatures/ed25519.rs:ursa_ed25519_sign", "libursa/src/ffi/signatures/ed25519.rs:ursa_ed25519_keypair_from_seed", "libursa/src/ffi/signatures/ed25519.rs:ursa_ed25519_get_public_key"]}
{"id": "C129", "title": "Bulletproofs: the size of the proofs that can be verified", "statement": "With a binary32 logarithm that is exact at powers of two and off by at most 5/8 ulp (in particular a correctly rounded one), the index computation of the verifier is exact for all positions of proofs with at most 2^20 multipliers, so honest proofs up to that size are accepted. The expectation that honest proofs of every size the prover and the generators allow are accepted is refuted: 2^21 - 1 is the first position whose logarithm is rounded up, and verification of every inner-product or R1CS proof with more than 20 rounds panics, honest proofs that exact verification accepts included.", "quantifier": "every logarithm function within the error bound, every proof, transcript and number of rounds up to 31", "why_tests_cant": "a test would have to build proofs with over a million multipliers; the rounding is a claim about all positions", "anchors": ["libzmix/bulletproofs_amcl/src/ipp.rs:verification_scalars", "libzmix/bulletproofs_amcl/src/ipp.rs:verify_ipp", "libzmix/bulletproofs_amcl/src/r1cs/verifier.rs:verify"]}
{"id": "C130", "title": "Bulletproofs: accepted inner-product proofs come from known vectors", "statement": "From a tree of accepted inner-product proofs for one statement (four challenges per round, none zero, no two equal or opposite, the same points along each path, each leaf a run of the verifier) two vectors are computed from the challenges and final scalars alone; either they open the statement's point with their inner product (P is the combination of the generators, with the factors, by the vectors, plus their inner product times u), or one of the coefficient vectors computed from the same scalars is a non-trivial linear relation between the generators.", "quantifier": "every field and group, every number of rounds below 32, all generators, non-zero factors, points, transcripts and challenge functions", "why_tests_cant": "the claim quantifies over all provers; a test runs one prover", "anchors": ["libzmix/bulletproofs_amcl/src/ipp.rs:verify_ipp", "libzmix/bulletproofs_amcl/src/ipp.rs:verification_scalars"]}
{"id": "C131", "title": "Bulletproofs: accepted R1CS proofs come from a known assignment", "statement": "From a tree of accepted R1CS proofs for one constraint system and one set of first messages (as many values of y as there are padded multipliers, one more value of z than there are constraints, five of u, six of x, two of w and four challenges per inner-product round; each leaf is a run of the verifier that draws the challenges of its path and accepts for two values of its own random scalar) an assignment of the multiplication gates is computed from the challenges and the response scalars alone. Either every multiplication gate holds and every constraint, with the commitments in place of the committed variables, is a known multiple of h; or one of the coefficient vectors computed from the same scalars is a non-trivial linear relation between the generators. With known openings of the commitments: the assignment satisfies the system, or a non-trivial relation between g and h is known, or one between all the generators.", "quantifier": "every field and group, every constraint system whose padded size has fewer than 32 rounds, with or without deferred constraints, every prover and every tree of challenges", "why_tests_cant": "the claim quantifies over all provers; a test runs one prover and cannot rewind it over all challenges", "anchors": ["libzmix/bulletproofs_amcl/src/r1cs/verifier.rs:verify", "libzmix/bulletproofs_amcl/src/r1cs/verifier.rs:flattened_constraints", "libzmix/bulletproofs_amcl/src/ipp.rs:verification_scalars"]}
{"id": "C132", "title": "Bulletproofs: whole honest gadget proofs verify", "statement": "The functions that make a whole proof that a hidden number is within bounds, is not zero, is in a list or is not in a list return a proof and commitments for every value that has the property, and the matching verification function accepts them, for every transcript label, every choice of the prover's randomness and every random scalar of the verifier; the first commitment commits to the value with the given blinding.", "quantifier": "every value with the property, every bounds, width, list, blinding, generators (enough of them), non-zero challenges and randomness", "why_tests_cant": "the claim quantifies over all values, lists, widths and challenge functions", "anchors": ["libzmix/bulletproofs_amcl/src/r1cs/gadgets/bound_check.rs:gen_proof_of_bounded_num", "libzmix/bulletproofs_amcl/src/r1cs/gadgets/bound_check.rs:verify_proof_of_bounded_num", "libzmix/bulletproofs_amcl/src/r1cs/gadgets/non_zero.rs:gen_proof_of_non_zero_val", "libzmix/bulletproofs_amcl/src/r1cs/gadgets/non_zero.rs:verify_proof_of_non_zero_val", "libzmix/bulletproofs_amcl/src/r1cs/gadgets/set_membership.rs:gen_proof_of_set_membership", "libzmix/bulletproofs_amcl/src/r1cs/gadgets/set_membership.rs:verify_proof_of_set_membership", "libzmix/bulletproofs_amcl/src/r1cs/gadgets/set_non_membership.rs:gen_proof_of_set_non_membership", "libzmix/bulletproofs_amcl/src/r1cs/gadgets/set_non_membership.rs:verify_proof_of_set_non_membership"]}
{"id": "C133", "title": "Bulletproofs: an accepted gadget proof means the prover knows a value with the property", "statement": "From a tree of accepted whole proofs for one list of commitments, an opening (value and blinding) of the first commitment is computed from the challenges and response scalars alone; the value is within the bounds (respectively not zero, in the list, not in the list), or else a non-trivial linear relation between the generators, or between g and h, is computed from the same scalars.", "quantifier": "every prover, every list of commitments, bounds, width and list, every tree of challenges, every field and group (for bounds: order above 2^64 and above twice the range of the width)", "why_tests_cant": "the claim quantifies over all provers; a test runs one prover and cannot rewind it", "anchors": ["libzmix/bulletproofs_amcl/src/r1cs/gadgets/bound_check.rs:gen_proof_of_bounded_num", "libzmix/bulletproofs_amcl/src/r1cs/gadgets/bound_check.rs:verify_proof_of_bounded_num", "libzmix/bulletproofs_amcl/src/r1cs/gadgets/non_zero.rs:gen_proof_of_non_zero_val", "libzmix/bulletproofs_amcl/src/r1cs/gadgets/non_zero.rs:verify_proof_of_non_zero_val", "libzmix/bulletproofs_amcl/src/r1cs/gadgets/set_membership.rs:gen_proof_of_set_membership", "libzmix/bulletproofs_amcl/src/r1cs/gadgets/set_membership.rs:verify_proof_of_set_membership", "libzmix/bulletproofs_amcl/src/r1cs/gadgets/set_non_membership.rs:gen_proof_of_set_non_membership", "libzmix/bulletproofs_amcl/src/r1cs/gadgets/set_non_membership.rs:verify_proof_of_set_non_membership"]}
{"id": "C134", "title": "C interface: handles behave like values, nothing leaks, nothing is used after it is freed", "statement": "A C program that passes null or handles it was given, of the documented type and not yet deallocated, and result slots that are not null where that is not checked, sees the results a value-level interface would give; no call runs into undefined behaviour; at every point the allocated instances are exactly those the program holds, at distinct non-null addresses, so that when it has released everything nothing is left.", "quantifier": "every finite sequence of calls of the 119 handle functions that are type-correct, every behaviour of the library functions (success, error, changed instances), every allocator that returns unused addresses", "why_tests_cant": "the claim ranges over all call sequences, allocation addresses and library results; memory errors show only under some of them", "anchors": ["libursa/src/ffi/bls.rs", "libursa/src/ffi/cl/mod.rs", "libursa/src/ffi/cl/issuer.rs", "libursa/src/ffi/cl/prover.rs", "libursa/src/ffi/cl/verifier.rs", "libursa/src/ffi/mod.rs:ErrorCode", "libursa/src/utils/ctypes.rs:check_useful_c_reference", "libursa/src/utils/ctypes.rs:check_useful_c_ptr", "libursa/src/utils/ctypes.rs:check_useful_c_str"]}
{"id": "C135", "title": "C interface: a missing argument is refused and changes nothing", "statement": "A call is refused by its argument checks exactly when a required argument is missing (null handle, null or empty array, null, non-UTF-8 or empty string, null result slot); the code is between CommonInvalidParam1 and CommonInvalidState, no instance is changed or deallocated, nothing is allocated.", "quantifier": "every function, state, and argument list", "why_tests_cant": "all combinations of missing arguments in all states", "anchors": ["libursa/src/ffi/bls.rs", "libursa/src/ffi/cl/mod.rs", "libursa/src/ffi/cl/issuer.rs", "libursa/src/ffi/cl/prover.rs", "libursa/src/ffi/cl/verifier.rs", "libursa/src/ffi/mod.rs:ErrorCode", "libursa/src/utils/ctypes.rs:check_useful_c_reference", "libursa/src/utils/ctypes.rs:check_useful_c_ptr", "libursa/src/utils/ctypes.rs:check_useful_c_str"]}
{"id": "C136", "title": "C interface: the code names the first missing argument", "statement": "When arguments are missing, the code returned is that of the first missing one in the order of the parameters (for an array of length zero: of its length parameter), except in the functions named; five from_bytes functions blame the bytes when the result slot is null.", "quantifier": "every function not in the list of exceptions, every argument list and state", "why_tests_cant": "all combinations of missing arguments", "anchors": ["libursa/src/ffi/bls.rs", "libursa/src/ffi/cl/mod.rs", "libursa/src/ffi/cl/issuer.rs", "libursa/src/ffi/cl/prover.rs", "libursa/src/ffi/cl/verifier.rs", "libursa/src/ffi/mod.rs:ErrorCode", "libursa/src/utils/ctypes.rs:check_useful_c_reference", "libursa/src/utils/ctypes.rs:check_useful_c_ptr", "libursa/src/utils/ctypes.rs:check_useful_c_str"]}
{"id": "C137", "title": "C interface: what an error has deallocated", "statement": "A call that ends in an error of the library has deallocated exactly the instances it was given for the parameters that are documented to be deallocated, kept all others with their type, and allocated nothing; so a finalize call that fails has used up the builder.", "quantifier": "every function, error, state and argument list", "why_tests_cant": "all functions, states and errors", "anchors": ["libursa/src/ffi/bls.rs", "libursa/src/ffi/cl/mod.rs", "libursa/src/ffi/cl/issuer.rs", "libursa/src/ffi/cl/prover.rs", "libursa/src/ffi/cl/verifier.rs", "libursa/src/ffi/mod.rs:ErrorCode", "libursa/src/utils/ctypes.rs:check_useful_c_reference", "libursa/src/utils/ctypes.rs:check_useful_c_ptr", "libursa/src/utils/ctypes.rs:check_useful_c_str"]}
{"id": "C138", "title": "C interface: undefined behaviour on documented use", "statement": "Not every documented use is safe: eight functions write a result through a null slot; converting a revocation registry delta to JSON reads it as another type, converting one from JSON returns an instance of another type, merging deltas returns a pointer to no delta, merging a delta with itself makes aliasing references; a null element of an array of signatures is dereferenced; retrying a failed finalize uses the freed builder.", "quantifier": "every state in which the call is made, every allocator, every library result", "why_tests_cant": "undefined behaviour need not show in a test", "anchors": ["libursa/src/ffi/bls.rs:ursa_bls_sign_key_new", "libursa/src/ffi/bls.rs:ursa_bls_ver_key_new", "libursa/src/ffi/bls.rs:ursa_bls_pop_new", "libursa/src/ffi/bls.rs:ursa_bls_multi_signature_new", "libursa/src/ffi/cl/mod.rs:ursa_cl_witness_new", "libursa/src/ffi/cl/issuer.rs:ursa_cl_revocation_registry_delta_to_json", "libursa/src/ffi/cl/issuer.rs:ursa_cl_revocation_registry_delta_from_json", "libursa/src/ffi/cl/issuer.rs:ursa_cl_issuer_merge_revocation_registry_deltas", "libursa/src/ffi/cl/issuer.rs:ursa_revocation_registry_delta_from_parts", "libursa/src/ffi/cl/prover.rs:ursa_cl_prover_get_credential_revocation_index"]}
{"id": "C139", "title": "C interface: the current error", "statement": "The call whose error is reported is the last one that returned a code other than success, however many calls succeeded since; it is never cleared.", "quantifier": "every sequence of calls", "why_tests_cant": "all sequences", "anchors": ["libursa/src/errors/mod.rs:set_current_error", "libursa/src/errors/mod.rs:get_current_error_c_json", "libursa/src/ffi/mod.rs:ursa_get_current_error"]}
{"id": "C140", "title": "C interface: everything handed out can be released", "statement": "Every type of instance the interface hands out is deallocated by some function of it; the builders and the proof verifier only by finalizing them (there is no function to abandon one), all others by a function that does nothing else.", "quantifier": "every type of instance", "why_tests_cant": "a claim about the whole interface", "anchors": ["libursa/src/ffi/bls.rs", "libursa/src/ffi/cl/mod.rs", "libursa/src/ffi/cl/issuer.rs", "libursa/src/ffi/cl/prover.rs", "libursa/src/ffi/cl/verifier.rs", "libursa/src/ffi/mod.rs:ErrorCode", "libursa/src/utils/ctypes.rs:check_useful_c_reference", "libursa/src/utils/ctypes.rs:check_useful_c_ptr", "libursa/src/utils/ctypes.rs:check_useful_c_str"]}
{"id": "C141", "title": "The two big-number builds agree on core arithmetic", "statement": "For every input, add, sub, sqr, mul, modulus, mod_mul, mod_sub, div, gcd, the word operations, set_negative, is_negative, lshift1, num_bits, clone and comparison of the OpenSSL build (features cl_native, sharing_native) return what the pure Rust build returns, error cases included; increment, decrement, the right shifts, bit access and exp agree exactly on the stated ranges (non-negative numbers; 0 <= exponent < 2^64) and differ outside them.", "quantifier": "all integers of either sign, all moduli, all shift counts and exponents", "why_tests_cant": "agreement ranges over all integers; tests of either backend only run a few literals and never both backends in one binary", "anchors": ["libursa/src/bn/openssl.rs:BigNumber::add..exp", "libursa/src/bn/rust.rs:BigNumber::add..exp"]}
{"id": "C142", "title": "Inverse and modular exponentiation across the two builds", "statement": "For a non-negative number and a modulus of magnitude at least two, inverse, mod_div and mod_exp (with any exponent) return the same value on both builds. The native build is also right on negative numbers; the pure Rust build is not, so the builds disagree there. A zero modulus panics the pure Rust build and is an error on the native one.", "quantifier": "all numbers, exponents and moduli, any conforming BN_mod_inverse", "why_tests_cant": "quantifies over all numbers and moduli; the disagreement sits on inputs no test uses", "anchors": ["libursa/src/bn/openssl.rs:BigNumber::inverse", "libursa/src/bn/openssl.rs:BigNumber::mod_exp", "libursa/src/bn/openssl.rs:BigNumber::mod_div"]}
{"id": "C143", "title": "Byte encodings across the two builds", "statement": "The byte encoding of a number is the same on both builds exactly when the number is not zero (zero is no bytes natively, one zero byte in pure Rust), and decoding either encoding on either build gives the magnitude back; so a hash over a zero value differs between builds.", "quantifier": "all integers and byte strings", "why_tests_cant": "needs every integer; the only difference is at one value", "anchors": ["libursa/src/bn/openssl.rs:BigNumber::to_bytes", "libursa/src/bn/rust.rs:BigNumber::to_bytes"]}
{"id": "C144", "title": "Numbers written by one build are read by the other", "statement": "Decimal and hexadecimal text and the serde form written by either build is read back as the same number by either build. Text without '+' and '_' accepted by the pure Rust build is accepted with the same value natively. The converse fails: the native build ignores trailing characters, reads 1_000 as 1, refuses a leading '+' and panics on a NUL character.", "quantifier": "all integers, all strings", "why_tests_cant": "quantifies over all numbers and all strings, across two builds", "anchors": ["libursa/src/bn/openssl.rs:BigNumber::from_dec", "libursa/src/bn/openssl.rs:BigNumber::to_hex", "libursa/src/bn/openssl.rs:Deserialize"]}
{"id": "C145", "title": "Prime search and safe-prime test of the native build", "statement": "generate_prime_in_range(start,end) returns a number the primality test accepts with start <= p < end, and an error when end <= start; is_safe_prime with a correct primality test accepts exactly the safe primes other than 7; generate_safe_prime asks for one bit more than the pure Rust build.", "quantifier": "all bounds, all sequences of random draws, all numbers", "why_tests_cant": "ranges over all draws and all primes", "anchors": ["libursa/src/bn/openssl.rs:generate_prime_in_range", "libursa/src/bn/openssl.rs:is_safe_prime", "libursa/src/bn/openssl.rs:generate_safe_prime"]}
{"id": "C146", "title": "The CL protocol gives the same results on both builds", "statement": "Key generation, key proofs, blinding, issuing, processing a signature, presenting and verifying return the same values and the same verdicts on the native (OpenSSL) build and on the pure Rust build, given the same random draws: for every public key with invertible bases, every blinded secret and proof whose group elements are non-negative, and non-zero nonces and challenge. So a presentation made by either build is accepted by both.", "quantifier": "all public keys with invertible bases, all credentials, requests, proofs (honest or not) with non-negative group elements, all hash functions, any conforming BN_mod_inverse", "why_tests_cant": "compares two builds that never run in one test binary, over all keys, proofs and random draws", "anchors": ["libursa/src/lib.rs:bn", "libursa/src/cl/verifier.rs:ProofVerifier::verify", "libursa/src/cl/prover.rs:ProofBuilder::finalize", "libursa/src/cl/issuer.rs:Issuer::sign_credential"]}
{"id": "C147", "title": "Where the two CL builds disagree", "statement": "The agreement fails outside those conditions: with nonce 0 every honest presentation made by the pure Rust build is rejected by the native build (the nonce is one zero byte to one and no byte to the other), and a proof with a negative A' is judged on different recomputed commitments, so one build can accept what the other rejects.", "quantifier": "all honest presentations with nonce 0 and every hash separating l from l followed by a zero byte; the exhibited proof for every nonce", "why_tests_cant": "the split sits on inputs no test uses and needs both builds at once", "anchors": ["libursa/src/bn/openssl.rs:to_bytes", "libursa/src/bn/rust.rs:inverse", "libursa/src/cl/verifier.rs:ProofVerifier::verify"]}
{"id": "C148", "title": "Presentations of revocable credentials can be linked and name their holder", "statement": "In a presentation that contains a non-revocation proof the response for the credential context m2 is masked with a scalar of the pairing group (below q, about 2^254) instead of a 592-bit number. Dividing the response by the public challenge gives m2 up to (q-1)/c, and exactly m2 whenever the challenge is at least q. So a verifier can tell whether two presentations, to whatever verifiers with whatever requests, use the same credential, and m2 is the hash of the prover id and the registry index the issuer signed for: the holder is not anonymous.", "quantifier": "all sessions, credentials, requests, nonces, random draws and hash functions; all challenges at least the group order", "why_tests_cant": "a statement about all random draws of the prover: any single presentation looks random", "anchors": ["libursa/src/cl/prover.rs:ProofBuilder::add_sub_proof_request", "libursa/src/cl/prover.rs:_init_eq_proof", "libursa/src/cl/helpers.rs:group_element_to_bignum"]}
{"id": "C149", "title": "The blinded-secrets proof and the predicate proofs do not hide their blindings", "statement": "The blinding v' of the blinded credential secrets has 2128 bits but its mask only 673, so the response v_dash_cap divided by the challenge gives v' up to a window of 2^673/c values (about 2^417); two requests whose blindings are further apart never give the same correctness proof, whatever the draws. In the same way every blinding number of a predicate proof (2128 bits, mask 672 bits) is pinned to a window of 2^672/c by its response.", "quantifier": "all keys, credentials, hash functions, nonces, predicates and all draws of the stated sizes; all non-zero challenges", "why_tests_cant": "quantifies over all random draws; a test sees one response of plausible size", "anchors": ["libursa/src/cl/prover.rs:_new_blinded_credential_secrets_correctness_proof", "libursa/src/cl/prover.rs:_init_ne_proof", "libursa/src/cl/prover.rs:_finalize_ne_proof", "libursa/src/cl/constants.rs:LARGE_VPRIME_TILDE"]}
{"id": "C150", "title": "A presentation does not say which credential it was made with", "statement": "Without predicates and non-revocation proofs, a presentation hides everything but the revealed values: if other valid credentials of the same issuer keys have the same revealed values (and one common value for each linked attribute), then for every presentation whose responses are not at the ends of their ranges there are draws of the sizes the code uses with which the other credentials give the very same presentation: same A', same responses, same commitments, same challenge. Draws that put a response at the ends are a part of at most 2^-77 of their range.", "quantifier": "all lists of credentials and requests, all linked attributes, all nonces, hash functions and draws of the code's sizes away from the range ends", "why_tests_cant": "unlinkability compares all possible credentials and all random draws behind one presentation", "anchors": ["libursa/src/cl/prover.rs:ProofBuilder::finalize", "libursa/src/cl/prover.rs:_init_eq_proof", "libursa/src/cl/prover.rs:_finalize_eq_proof", "libursa/src/cl/constants.rs:LARGE_MVECT"]}
{"id": "C151", "title": "Special soundness of the equality proof", "statement": "If the verifier recomputes the same commitment from two equality proofs with the same A' and revealed values under two different challenges, the differences of the responses satisfy the credential's signature equation raised to the difference of the challenges. When that difference divides the response differences, the quotients are values whose signature equation for A' holds up to a square root of one; with an issuer key of safe primes (and challenge difference below both prime halves) they are a CL signature for A' or for its negative, or a prime factor of the modulus is found. Were the e responses below 2^457 in size, as the honest ones are, the extracted e would be within 2^458 of 2^596; the verifier does not check this (C30). Two honest runs of one prover give back exactly the signed values, v, e and m2.", "quantifier": "all keys, proofs, challenge pairs, revealed sets and attribute sets", "why_tests_cant": "a soundness statement about every possible prover: tests only run the honest prover", "anchors": ["libursa/src/cl/verifier.rs:_verify_equality", "libursa/src/cl/helpers.rs:calc_teq", "libursa/src/cl/prover.rs:_finalize_eq_proof"]}
{"id": "C152", "title": "Special soundness of the predicate proof", "statement": "If the verifier recomputes the same commitments from two predicate proofs with the same T values and predicate under two different challenges whose difference divides the response differences, then either the extracted value satisfies the predicate over the integers, or the answers give a relation Z^x S^y = 1 modulo n with x not zero (which a prover without the issuer's key can not find). Two honest runs give back exactly the attribute value and no relation.", "quantifier": "all issuer keys, predicate types and bounds in range, proofs and challenge pairs", "why_tests_cant": "a soundness statement about every possible prover, including ones that do not know four squares", "anchors": ["libursa/src/cl/verifier.rs:_verify_ne_predicate", "libursa/src/cl/helpers.rs:calc_tne", "libursa/src/cl/prover.rs:_init_ne_proof"]}
{"id": "C153", "title": "The non-revocation proof is not tied to the presented credential", "statement": "The verifier does not compare the context value in the equality proof of a credential with the one in its non-revocation proof. So for every set of primary credentials and all revocation parts of other credentials that are valid in the registries asked about, a prover using the library's own builder gets the presentation accepted, with a non-revocation proof for every credential; in particular a credential revoked by the issuer is still presented successfully when its holder has the revocation part of any valid credential of that registry.", "quantifier": "all issuer keys, registries and their histories, credentials, requests, numbers of credentials and prover randomness", "why_tests_cant": "it is a missing check, so no honest run shows it, and acceptance must be shown for all keys and all mixtures", "anchors": ["libursa/src/cl/verifier.rs:ProofVerifier::verify", "libursa/src/cl/prover.rs:ProofBuilder::add_sub_proof_request", "libursa/src/cl/verifier.rs:_verify_equality"]}
{"id": "C154", "title": "A BBS+ disclosure proof is bound to one nonce and request; claims and joint proofs cannot be checked with verify_signature_pok", "statement": "A user expects that an accepted proof cannot be replayed and that the challenge covers the claims given to create_challenge_hash. Proved: an accepted proof is rejected for every other challenge, and one accepted by verify_signature_pok for two requests under the same key was made for the same nonce and the same requested indices, unless the hash collides or the proof has the degenerate form Abar = d with g1 plus the revealed part neutral; a challenge determines the nonce and the concatenation of the claims. Refuted: that the claims are bound one by one (moving the boundary between claims keeps the challenge), and that proofs made with a nonempty claim or together with other proofs under one challenge are accepted by verify_signature_pok: it recomputes the challenge of a single proof without claims and refuses every such honest proof as having bad hidden messages.", "quantifier": "all keys, signatures, disclosure choices, requests, nonces, claims, other proofs and hash functions", "why_tests_cant": "tests verify one proof with the one nonce and no claims; the claims and joint challenge functions are not run against verify_signature_pok", "anchors": ["libzmix/bbs/src/verifier.rs:Verifier::verify_signature_pok", "libzmix/bbs/src/verifier.rs:Verifier::create_challenge_hash", "libzmix/bbs/src/prover.rs:Prover::create_challenge_hash", "libzmix/bbs/src/pok_sig.rs:PoKOfSignatureProof::verify"]}
{"id": "C155", "title": "A PS disclosure proof is bound to what is hashed, and what is hashed fixes the revealed part", "statement": "A proof accepted for one challenge is rejected (Ok(false), no error) for every other challenge unless its J is neutral. The bytes of get_bytes_for_challenge determine the randomised signature, J, the Schnorr commitment and the set of revealed indices. Different from BBS+ (C59), two accepted presentations with the same randomised signature and J agree on the sum of the revealed messages times the key's generators, whatever the challenges; with one revealed message the message is fixed before the challenge.", "quantifier": "all keys, proofs (also malicious ones), index sets and challenges", "why_tests_cant": "a statement about all provers; tests run one honest proof", "anchors": ["libzmix/src/signatures/ps/pok_sig.rs:PoKOfSignatureProof::verify", "libzmix/src/signatures/ps/pok_sig.rs:PoKOfSignatureProof::get_bytes_for_challenge"]}
{"id": "C156", "title": "What a key correctness proof does not settle", "statement": "Refuted reading 1: an accepted key correctness proof means Z and every R_k are powers of S. The proof Issuer::new_credential_def builds from exponents that are right only up to factors whose order divides d is accepted by Prover::blind_credential_secrets' check whenever d divides the challenge (d = 2: every second attempt), and a Z of the form -S^x mod n is such a value that is no power of S when the first secret prime is odd. Refuted reading 2: the proof hides the issuer's exponents. The responses are not reduced, so dividing one by the published challenge gives the exponent up to the size of the blinding numbers divided by the challenge. Refuted reading 3: the proof ties every R_k to its attribute name. Renaming the attributes of key and proof alike, for example swapping two of them, changes nothing for the check. Refuted reading 4: the challenge fixes the generator S. Neither S nor n is hashed, so for a key whose only attribute is master_secret every S that is a k-th root of t * Z^c makes the proof (c, k) an accepted one, with c fixed by Z and t.", "quantifier": "all valid keys, attribute maps, exponents, draws and hash functions", "why_tests_cant": "a statement about every key, draw and challenge, including dishonest issuers; tests run honest keys", "anchors": ["libursa/src/cl/issuer.rs:Issuer::_new_credential_key_correctness_proof", "libursa/src/cl/prover.rs:Prover::_check_credential_key_correctness_proof"]}
