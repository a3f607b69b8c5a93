# Design

Formal model of hyperledger/ursa (source in /repo, read as text, never built) in Coq 8.16.1, with one
group of theorems per property of `properties.jsonl`. `MANIFEST.json` maps properties to theorem names
(a theorem belongs to Cnn iff its name starts with `Cnn_`). `seeded/LOG.jsonl` records the wrong programs
the theorems were tried against.

## Layout
* `rocq/theories/Base.v`: result/error monad. A Rust `Err(..)` and a panic are both explicit values (`Err kind`, `Err Panic`).
* `*Model.v`: executable Gallina functions, one per Rust function, each citing file:lines in /repo and saying where it simplifies.
* `*Spec.v`, or the part of a `*Props.v` headed "specification": the vocabulary of the statements, written without the model's helpers (products of powers, polynomial evaluation, sets, integer arithmetic).
* `*Lib.v`, `*Proofs.v` and the other files: lemmas.
* `*Props.v`: the property theorems with `Print Assumptions`, and concrete non-trivial cases (`Example`) meeting their hypotheses. `*ExProps.v`: larger concrete cases.
* A theorem named `Cnn_refuted_x` proves that the natural expectation x is false of the code: it exhibits or characterises the offending behaviour for all inputs of a class. These are findings.

## Trusted base
* Coq's kernel 8.16.1 including `vm_compute` conversion (used for concrete cases).
* `Print Assumptions` says "Closed under the global context" for every theorem of every `*Props.v`. No axiom, parameter or section-less variable is declared, no kernel check is switched off, no functor or module type is defined. The checker also lists seven constants of Coq's own `Coq.ssr.ssrunder`, a standard-library module loaded by `ssreflect` machinery; no theorem uses them.
* The reading of /repo into the model. The dependencies of the project are not available, so what they compute is written down at the definition that uses it and is part of this reading:
  * num-bigint 0.3 (`bn/rust.rs`): `Z` with truncating division; OpenSSL 1.1.1 BIGNUM (`bn/openssl.rs`): modelled from its published sources, `BN_mod_inverse` by a contract (`mod_inverse_ok`) quantified over in the theorems.
  * AMCL / amcl_wrapper curves: elements of prime-order groups over a field of scalars, a bilinear pairing, and canonical encodings, as explicit hypotheses (`curve_laws`, `zlaws`, ...) that concrete instances (residues modulo 257) are proved to satisfy. `FieldElement::inverse` of 0 is 0, `new_vandermonde_vector(0)` and the like follow amcl_wrapper's source from memory.
  * SHA-2, BLAKE2, merlin, HMAC, AES block function, GCM, ChaCha20-Poly1305, ed25519/libsecp256k1 point arithmetic: arbitrary functions with the stated laws (universally quantified). CBC mode with PKCS7 padding is modelled concretely.
  * random numbers are explicit arguments, so every theorem holds for all draws; primality tests are arbitrary predicates.
  * `f32::log2`: any function within 5/8 ulp and exact at powers of two (C129).
* Integers: `usize`/`i32`/`u64` arithmetic wraps where a release build wraps and it matters (predicates, arity, capacities); elsewhere unbounded. Allocation failure and time are not modelled.

## What is modelled
| source | model |
|---|---|
| libursa/src/bn/rust.rs, bn/openssl.rs | BnModel, BnOsslModel |
| libursa/src/cl/{helpers,issuer,prover,verifier,mod,constants,hash}.rs | HelpersModel, ClModel, ClProofModel, ClRevModel, BuilderModel; over the native backend: ClOsslModel |
| libursa/src/bls/mod.rs, signatures/bls.rs | BlsModel, Bls2Model |
| libursa/src/sharing/shamir.rs; ursa_sharing | ShamirModel, SharingModel |
| libursa/src/encryption/symm, wasm/encryption.rs, ffi/encryption | SymmModel |
| libursa/src/signatures/{mod,ed25519,secp256k1}.rs, kex/*, keys.rs, ffi/signatures | SigModel |
| libursa/src/ffi (handles, arguments, errors, deallocation; bodies are arbitrary) | FfiModel |
| libzmix/bbs | BbsModel, BbsCodecModel |
| libzmix/src/commitments/pok_vc.rs, signatures/ps | PsModel |
| libzmix/src/signatures/delg_cred_cdd | GrothModel, DelegModel, TokenModel |
| libzmix/src/verifiable_encryption | VerEncModel |
| libzmix/bulletproofs_amcl | TranscriptModel, IppModel, R1csModel, R1csProofModel, GadgetModel, GadgetApiModel, SmtModel |

Not modelled: AMCL's field, curve and pairing arithmetic (pair/amcl.rs is modelled at the level of group elements and their
byte codecs are assumed canonical); serde derive and JSON syntax; wasm glue except the functions that compute
(wasm/encryption.rs); logging, error display strings; the numeric values of the Poseidon round constants (the theorems
hold for all constants); gadgets hamming_distance.rs and randomizer.rs (not compiled: commented out of gadgets/mod.rs);
commitments/pedersen_BLS12_381.rs, hash_functions/bls12_381_hash.rs, prf and zkl (not compiled); assembly variants of the ciphers beyond the checks they share with the portable ones; hygiene of memory (zeroing).
Concurrency: the code has no shared mutable state except the thread-local last error of the C interface, which is modelled (C139).

## Modelling conventions
* `BigNumber` is `Z`; Random draws are explicit arguments; hash functions are universally quantified.
* Elements of the pairing groups are elements of an arbitrary module over an arbitrary field of scalars.
* BTreeSet/BTreeMap are sorted association lists; a HashMap is an association list (its iteration order does not reach any result, or is an explicit argument).
* The units modulo n form a group with integer exponents (UMod.v); statements about CL keys are stated with integers (`Z.pow`, `Z.modulo`, `Z.gcd`) only.
* Rewinding arguments (special soundness) are about trees of accepted transcripts with arbitrary challenges at each node.
* Iteration in Rust (`while`, loops over draws) is recursion on lists of draws or on fuel with a proof that the fuel suffices.

## Plan per property
How each property is modelled and proved.
* **C01 Modular inverse is correct** - Z model of the num-bigint backend; loop on fuel, invariant s_i*a = r_i (mod n), fuel sufficiency proved; negative operand: _refuted witness and general statement.
* **C02 Modular exponentiation is correct** - Z model of modpow; square-free statement against Z.pow and the inverse.
* **C03 Reduction is canonical** - Z.rem-based model against Z.modulo.
* **C04 Integer power and its edge cases** - Z model against Z.pow.
* **C05 Byte encoding round-trip** - little/big endian digit lists; induction on digits with fuel = size.
* **C06 Decimal / hexadecimal / serde round-trip** - same, with sign and character tables; any radix 2..36.
* **C07 Bit operations** - against Z.testbit.
* **C08 Blinding number v'' and prime e ranges** - RNG as an arbitrary stream (Section variable).
* **C09 u32 big-endian encoding is injective** - Z arithmetic.
* **C10 Hash preimages are concatenations without framing** - hash as arbitrary function variable.
* **C11 Shamir: any threshold subset reconstructs the secret** - Z mod p model of Polynomial/Element; Lagrange interpolation by root counting.
* **C12 Shamir: honest shares can be rejected** - direct computation on the model for all inputs + constructed witness for every threshold.
* **C13 Shamir: fewer than threshold shares reveal nothing** - existence and uniqueness of interpolating polynomial mod p.
* **C14 Shamir: argument validation** - case analysis of the model's guards, complete characterisation (iff).
* **C15 Shamir share byte codec** - byte codec lemma from C05.
* **C16 Generic sharing crate: reconstruction in field and group** - abstract field + module; Lagrange interpolation.
* **C17 Feldman verification is complete and sound** - abstract field + module; Horner in the module.
* **C18 Pedersen verification is complete, binding and hiding** - as C17 with two generators; extraction of the discrete log.
* **C19 Generic sharing crate: zero shares and zero secrets** - abstract field model of the guards.
* **C20 Sharing verifier byte codecs** - byte-level model of the codec loop; _refuted theorem valid for all verifiers, fuel-indexed recursion for to_bytes.
* **C21 Four-square decomposition always succeeds** - Lagrange four-square theorem proved from scratch; nested search proved complete.
* **C22 Predicate delta semantics** - i32 wrap-around model (mod 2^32).
* **C23 Credential definition key correctness proof accepts honest keys** - CL model on Z modulo n.
* **C24 Blinded secrets correctness proof accepts honest requests** - CL model on Z modulo n.
* **C25 Issued primary signature verifies** - CL model; Euler's theorem for n = PQ safe primes.
* **C26 Equality proof completeness** - zpow algebra for units mod n.
* **C27 Predicate proof completeness** - same.
* **C28 End-to-end proof completeness** - induction on sub-proofs.
* **C29 Verifier decision rules** - case analysis on the verify model (all proofs).
* **C30 Unforgeability of presentations fails for unranged responses** - explicit forger function in the model; theorem for every key.
* **C31 Predicate proofs are not tied to the credential attribute** - explicit attack.
* **C32 Non-revocation can be omitted** - explicit attack (projection).
* **C33 Verifier is stateful across verifications** - two runs of the stateful verifier.
* **C34 Accumulator invariant over every history** - abstract scalar field, groups as modules; induction over op list.
* **C35 Witness characterises membership** - pairing as bilinear map; equation reduces to membership.
* **C36 Witness update equals recomputation** - sums over sets.
* **C37 Delta merge composes** - finite sets.
* **C38 Tails file contents** - iterator state machine.
* **C39 Non-revocation proof completeness** - module algebra with reflective normaliser.
* **C40 Proof parameter lists round-trip** - permutation of 14 scalars.
* **C41 Builders accumulate inputs** - maps/sets.
* **C42 BLS signatures verify** - bilinear pairing record.
* **C43 BLS multi-signatures** - sums in modules.
* **C44 BLS proof of possession** - same.
* **C45 Non-revocation proof special soundness** - two accepted transcripts with different challenges; linear algebra in the modules gives witness openings.
* **C46 A proof is bound to the verifier's nonce** - case analysis of verify: nonce enters the hash; different preimage lists have different hashes or a collision is exhibited.
* **C47 The prover proves only true predicates** - i32 wrap-around of delta characterised; provable predicates are exactly the true ones outside the wrapping range; refutation inside it.
* **C48 Commitment attributes can be presented** - commitment attributes are unrevealed attributes to the prover; completeness with them.
* **C49 BLS signatures (signatures module): one signer** - signatures module; bilinearity.
* **C50 Rogue-key-mitigated aggregation** - aggregation coefficients as hash of keys; completeness and binding by module algebra; refutations by explicit keys.
* **C51 Multi-message signatures** - sums over message/key pairs; characterisation of accepted lists.
* **C52 Batch verification** - batch equation with explicit coefficients; refutation by cancelling pairs.
* **C53 BLS SignatureScheme byte interface** - byte interface over abstract codecs with canonical encodings.
* **C54 BBS+ signing and verification** - signature equation in a bilinear group, record of laws; iff characterisation of verify.
* **C55 BBS+ blind issuance** - commitment to hidden messages, proof of committed values with its hash check.
* **C56 BBS+ selective disclosure completeness** - schedule of messages as a list; completeness by module algebra.
* **C57 BBS+ disclosure proofs are proofs of knowledge** - two accepted transcripts give signature and hidden messages (special soundness).
* **C58 The requested attributes are revealed (refuted)** - explicit accepted disclosure that reveals other attributes.
* **C59 Revealed messages are the signed ones (refuted)** - explicit accepted disclosure of unsigned values, and exact condition.
* **C60 BBS+ disclosure proofs hide the signature and the hidden messages** - bijection between the draws for two signatures with the same revealed messages.
* **C61 Derived BBS+ public keys** - hash-to-curve as arbitrary function of label and index.
* **C62 Equality of hidden messages across BBS+ proofs** - same mask, same response iff same message.
* **C63 BBS+ byte formats** - length arithmetic on byte lists over abstract element codecs.
* **C64 Malformed BBS+ bytes** - exact list of panicking lengths.
* **C65 Proofs of knowledge of committed values** - builder state machine; completeness, special soundness, indices.
* **C66 PS signatures** - pairing equation; iff characterisation.
* **C67 Blind issuance of PS signatures** - blinding and unblinding by module algebra.
* **C68 PS selective disclosure works** - completeness as C56.
* **C69 An accepted PS disclosure proves a signature on the revealed messages** - special soundness as C57.
* **C70 PS disclosures hide the rest** - bijection of draws as C60.
* **C71 PS proofs on malformed input** - exact error and panic conditions.
* **C72 A sparse Merkle tree reads back the last value written to each leaf** - tree of arity 2^sbits over an insertion log database, hash arbitrary, collision exhibited otherwise; induction on depth.
* **C73 Old Merkle roots stay readable and trees can share a database** - database only grows; old roots closed under lookup.
* **C74 Merkle proofs verify and bind the value** - proof nodes as lists; two different accepted values at one place give a collision.
* **C75 The Merkle root depends exactly on the contents** - induction on insertion histories.
* **C76 Leaf indices are distinct leaves only modulo arity^depth (refuted: distinct indices are distinct leaves)** - index mod arity^depth; refutation of distinctness.
* **C77 Sparse Merkle tree failures** - case analysis of lookup failures.
* **C78 Linear combinations are arithmetic** - linear combinations as lists of terms; evaluation homomorphic; simplify order-insensitive.
* **C79 Prover and verifier build the same constraint system** - each gadget written once over the constraint-system interface; simulation between prover and verifier.
* **C80 Range proofs prove the range, for sensible bit sizes only** - bit decomposition; soundness for bit sizes below the field size, refutation above; completeness.
* **C81 Non-zero proofs prove that the value is not zero** - product with inverse is one.
* **C82 Set membership and non-membership proofs prove (non-)membership** - product of differences vanishes; for sets, soundness and completeness.
* **C83 Set membership by bitmap also accepts zero (refuted: only items of the set)** - bitmap circuit: exact solution set, includes zero when no bit is set.
* **C84 MiMC preimage proofs prove a preimage** - round functions as field polynomials; circuit equals native function.
* **C85 Poseidon preimage proofs prove a preimage (cube and quint S-box)** - Poseidon permutation with arbitrary constants; cube and quint S-boxes: circuit equals native function.
* **C86 Poseidon with the inverse S-box proves nothing (refuted: verified image has the committed preimage)** - inverse S-box circuit has free variables; any image can be proved.
* **C87 Merkle membership proofs prove that the committed leaf lies under the root** - hash gadget per level; soundness gives a path to the root.
* **C88 Membership verifiers check the depth of the path (refuted)** - prefix of path accepted; refutation.
* **C89 The signed credential context identifies the prover id and the registry index** - byte-level context encoding; injectivity with exact exceptions.
* **C90 The commitment list of a presentation is the list of published commitments, but the verifier does not check that** - commitment list computed; verifier hashes the list it is given.
* **C91 process_credential_signature accepts only signatures, but changes its argument in any case** - in-place update; accepted iff the signature equation holds.
* **C92 A refused add_sub_proof_request can spoil the presentation** - builder state after a refused call.
* **C93 Inner-product proofs of an honest prover are accepted, for one statement only** - induction on the halving rounds; statement determined by the proof.
* **C94 verify_ipp answers every proof with Ok or an error (refuted)** - exact panic conditions of verify_ipp.
* **C95 R1CS proofs of an honest prover are accepted** - vector polynomials; master identity; two-phase circuits with callbacks.
* **C96 What Verifier::verify checks, and what it answers to malformed proofs** - verification equation made explicit; error and panic conditions.
* **C97 Groth signatures verify exactly when they are signatures** - pairing equations for Groth1/Groth2; iff.
* **C98 Batched Groth verification** - batched equations with explicit coefficients; equivalence outside a small set of coefficients.
* **C99 What a Groth signature binds** - what is determined by a signature; explicit counterexamples.
* **C100 Groth setup** - parameters from a label; separation of the two levels.
* **C101 Proof of knowledge of a Groth signing key** - Schnorr proof: completeness, special soundness.
* **C102 Delegating** - link = signature on key and attributes.
* **C103 Verifying a delegation link** - exact acceptance conditions.
* **C104 Building and cutting delegation chains** - list surgery on chains.
* **C105 Verifying a chain link by link** - induction on the chain; exact acceptance; panics on malformed chains.
* **C106 Verifying a chain in one batch** - random linear combination; explicit forged chains.
* **C107 A holder's attribute token is accepted and shows exactly what was asked** - per-level closed forms of the prover run; completeness.
* **C108 An accepted attribute token proves possession of a chain (special soundness)** - two accepted responses to one commitment give a valid chain.
* **C109 Attribute tokens hide everything that is not revealed** - bijection of draws between chains with the same revealed attributes.
* **C110 What an accepted token shows was asked for and signed** - explicit accepted tokens that break the claims, and what does hold.
* **C111 The challenge is determined by the commitment and binds it** - encoding injective on fixed shapes; exceptions exhibited.
* **C112 A token object can be used again** - second response with the same masks gives the secrets.
* **C113 Verification of a malformed token returns an error** - exact panic conditions.
* **C114 Verifiable encryption: decryption inverts encryption** - Camenisch-Shoup over Z_{n^2}: binomial expansion, decryption by discrete log to base 1+n.
* **C115 Verifiable encryption: exactly which ciphertexts decrypt** - exact set of decryptable ciphertexts.
* **C116 Verifiable encryption: honest proofs of encryption verify** - completeness over integers with ranges.
* **C117 Verifiable encryption: a ciphertext whose proof verifies can be decrypted** - special soundness over integers.
* **C118 Verifiable encryption: labels and responses** - hash of label enters exponent; malleability and checks.
* **C119 Every Bulletproofs challenge is bound to the statement and to everything sent before it** - transcript as list of operations; challenge function arbitrary; the list determines statement and messages.
* **C120 Symmetric encryption: encrypt then decrypt with an explicit nonce** - AEAD primitives with laws; CBC chain induction.
* **C121 Symmetric encryption: encrypt_easy / decrypt_easy and their buffer forms** - buffer forms as list concatenation.
* **C122 AES-CBC-HMAC: what the tag authenticates** - MAC input framing made explicit; exact equality classes.
* **C123 Symmetric encryption: errors and panics** - error and panic conditions.
* **C124 Symmetric encryption through C and WebAssembly** - argument decoding.
* **C125 Key exchange: agreement and reloading of keys** - group exponent laws; key codecs.
* **C126 Ed25519: what verification accepts** - exact acceptance equation over the group and encodings.
* **C127 ECDSA over secp256k1: what verification accepts, normalization and malleability** - exact acceptance, low-s normalisation, malleability.
* **C128 Ed25519 through the C interface** - pointer arguments as lists.
* **C129 Bulletproofs: the size of the proofs that can be verified** - f32 rounding interval; exact number of generators accepted.
* **C130 Bulletproofs: accepted inner-product proofs come from known vectors** - 4-ary tree of transcripts; interpolation at distinct challenges.
* **C131 Bulletproofs: accepted R1CS proofs come from a known assignment** - tree for y, z, u, x, w challenges; polynomial interpolation to an assignment, or a relation among generators is computed.
* **C132 Bulletproofs: whole honest gadget proofs verify** - composition of C79-C88 with C95.
* **C133 Bulletproofs: an accepted gadget proof means the prover knows a value with the property** - composition of C131 with gadget soundness.
* **C134 C interface: handles behave like values, nothing leaks, nothing is used after it is freed** - table of steps per C function; simulation of pointers by names; induction on programs.
* **C135 C interface: a missing argument is refused and changes nothing** - null checks first.
* **C136 C interface: the code names the first missing argument** - order of checks.
* **C137 C interface: what an error has deallocated** - box deallocation on error paths.
* **C138 C interface: undefined behaviour on documented use** - programs reaching undefined behaviour exhibited.
* **C139 C interface: the current error** - thread-local error as state.
* **C140 C interface: everything handed out can be released** - release function for every handle kind.
* **C141 The two big-number builds agree on core arithmetic** - two models of BigNumber related by equality.
* **C142 Inverse and modular exponentiation across the two builds** - contract for BN_mod_inverse; exact disagreement sets.
* **C143 Byte encodings across the two builds** - sign and zero conventions.
* **C144 Numbers written by one build are read by the other** - codec of one side into the other.
* **C145 Prime search and safe-prime test of the native build** - search loops with explicit candidate streams.
* **C146 The CL protocol gives the same results on both builds** - CL functions parameterised by the backend operations; agreement propagated function by function.
* **C147 Where the two CL builds disagree** - exact classes of disagreement.
* **C148 Presentations of revocable credentials can be linked and name their holder** - response = c*m2 + scalar below q; integer division reads m2.
* **C149 The blinded-secrets proof and the predicate proofs do not hide their blindings** - integer division reads the blinding up to the mask size.
* **C150 A presentation does not say which credential it was made with** - explicit change of draws maps one credential to another and fixes every byte of the presentation; interval arithmetic keeps the draws in the code's ranges.
* **C151 Special soundness of the equality proof** - dividing the two recomputed commitments in the unit group of Z_n gives the relation; raising to an exponent below both prime halves is injective on squares (orders p', q'), so the quotients satisfy the equation up to a square root of one, which is +-1 or gives a factor.
* **C152 Special soundness of the predicate proof** - the same for the six commitments Z^u S^r, the product equation and the DELTA equation; combined with the exponents u they give Z^x S^y = 1 with x = the gap between value, bound and the sum of squares.
* **C153 The non-revocation proof is not tied to the presented credential** - refutation: completeness of the presentation (C28) applied to sessions that mix a primary credential with another revocation part, and a revoked credential of C34's histories as the case.
* **C154 A BBS+ disclosure proof is bound to one nonce and request** - two accepted challenges force a neutral Schnorr statement; the hashed bytes are parsed with fixed-length injective encodings; honest proofs under a joint challenge or with claims are computed to be refused.
* **C155 A PS disclosure proof is bound to what is hashed** - Schnorr equations for two challenges, parsing of the hashed bytes with fixed-length injective encodings, cancellation in the non-degenerate pairing.
* **C156 What a key correctness proof does not settle** - the completeness computation of C23 with the weaker hypothesis Z^c = S^(c xz) in the unit group; division with remainder for the responses; Fermat modulo the first prime for the -1 factor. Invariance of the check under injective renamings for the names. The verification equation solved for S, which the hash leaves free.
