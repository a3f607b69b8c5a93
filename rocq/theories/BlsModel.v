(** Model of libursa/src/bls/mod.rs: BLS signatures, aggregation and proofs of
    possession over the curve record of ClRevModel.

    [lift x] is the curve point with x-coordinate x, infinity if there is none
    (amcl's ECP::new_big); [dec1], [dec2] are amcl's frombytes (total: bytes that are
    no point decode to infinity).  SHA-256 and Keccak-256 are arbitrary functions.
    Points are elements of the prime-order groups (amcl does not check that decoded G2
    points are). *)
From Verif Require Import Base BnModel Alg ClRevModel.
Open Scope list_scope.
Open Scope Z_scope.

(** the two hash functions of the module: bls/mod.rs:6-7, [Sha256] for messages and
    [Keccak256] for verification keys *)
Record hashers := mkHashers { h_sha256 : list Z -> list Z; h_keccak256 : list Z -> list Z }.

Section Bls.
Variable C : curve.
Notation K := (cK C). Notation G1 := (cG1 C). Notation G2 := (cG2 C). Notation GT := (cGT C).
Variables (dec1 : list Z -> G1) (dec2 : list Z -> G2) (lift : Z -> G1).
Variable hs : hashers.

(** bls/mod.rs:14-17 *)
Record generator := mkGen { gen_point : G2; gen_bytes : list Z }.
(** bls/mod.rs:71-74 *)
Record signkey := mkSignKey { sgk_scalar : K; sgk_bytes : list Z }.
(** bls/mod.rs:131-134 *)
Record verkey := mkVerKey { vk_point : G2; vk_bytes : list Z }.
(** bls/mod.rs:195-198, 267-270, 312-315: [ProofOfPossession], [Signature], [MultiSignature] *)
Record sig1 := mkSig1 { s1_point : G1; s1_bytes : list Z }.

(** pair/amcl.rs:159-169, 312-322: length checks of PointG1/PointG2::from_bytes *)
Definition point1_from_bytes (b : list Z) : res G1 := if Nat.eqb (length b) 128 then Ok (dec1 b) else Err InvalidStructure.
Definition point2_from_bytes (b : list Z) : res G2 := if Nat.eqb (length b) 128 then Ok (dec2 b) else Err InvalidStructure.
(** pair/amcl.rs:483-505 [GroupOrderElement::from_bytes] *)
Definition scalar_from_bytes (b : list Z) : res K := if Nat.ltb 32 (length b) then Err InvalidStructure else Ok (ofZ (bn_from_bytes b)).

(** bls/mod.rs:28-66 Generator::new (the random point is an argument), as_bytes, from_bytes *)
Definition generator_new (p : G2) : generator := mkGen p (enc2 p).
Definition generator_from_bytes (b : list Z) : res generator := let! p := point2_from_bytes b in Ok (mkGen p b).
(** bls/mod.rs:85-126 SignKey::new (the drawn scalar and its 32 bytes are arguments), from_bytes *)
Definition signkey_new (x : K) (bytes : list Z) : signkey := mkSignKey x bytes.
Definition signkey_from_bytes (b : list Z) : res signkey := let! x := scalar_from_bytes b in Ok (mkSignKey x b).
(** bls/mod.rs:147-190 VerKey::new, from_bytes *)
Definition verkey_new (g : generator) (sk : signkey) : verkey := let p := smul (sgk_scalar sk) (gen_point g) in mkVerKey p (enc2 p).
Definition verkey_from_bytes (b : list Z) : res verkey := let! p := point2_from_bytes b in Ok (mkVerKey p b).
(** bls/mod.rs:255-262, 300-307, 391-397: from_bytes of the three G1 types *)
Definition sig1_from_bytes (b : list Z) : res sig1 := let! p := point1_from_bytes b in Ok (mkSig1 p b).
(** derived [Deserialize] of VerKey (bls/mod.rs:129-134): the two fields are read
    independently *)
Definition verkey_deserialize (p : G2) (b : list Z) : verkey := mkVerKey p b.

(** pair/amcl.rs:171-181 [PointG1::from_hash]: first x from the hash upwards that is an
    x-coordinate; [fuel] bounds the search *)
Fixpoint lift_from (fuel : nat) (x : Z) : res G1 :=
  match fuel with
  | O => Err OutOfFuel
  | S f => if meqb (lift x) m0 then lift_from f (x + 1) else Ok (lift x)
  end.
Definition from_hash (fuel : nat) (hash : list Z) : res G1 :=
  if Nat.ltb 32 (length hash) then Err InvalidStructure else lift_from fuel (bn_from_bytes hash).
(** bls/mod.rs:585-591 [Bls::_hash] *)
Definition bls_hash (hasher : list Z -> list Z) (fuel : nat) (message : list Z) : res G1 := from_hash fuel (hasher message).

(** bls/mod.rs:563-568 [_gen_signature] *)
Definition gen_signature (hasher : list Z -> list Z) (fuel : nat) (message : list Z) (sk : signkey) : res G1 :=
  let! h := bls_hash hasher fuel message in Ok (smul (sgk_scalar sk) h).
(** pair/amcl.rs:569-574 [Pair::pair2] and is_unity *)
Definition pair2 (p : G1) (q : G2) (r : G1) (s : G2) : GT := madd (pair p q) (pair r s).
(** bls/mod.rs:570-583 [_verify_signature] *)
Definition verify_signature (hasher : list Z -> list Z) (fuel : nat) (signature : G1) (message : list Z) (ver_key : G2) (g : generator) : res bool :=
  let! h := bls_hash hasher fuel message in
  Ok (meqb (pair2 signature (mopp (gen_point g)) h ver_key) m0).
(** bls/mod.rs:418-426 [Bls::sign] *)
Definition bls_sign (fuel : nat) (message : list Z) (sk : signkey) : res sig1 :=
  let! p := gen_signature (h_sha256 hs) fuel message sk in Ok (mkSig1 p (enc1 p)).
(** bls/mod.rs:449-462 [Bls::verify] *)
Definition bls_verify (fuel : nat) (s : sig1) (message : list Z) (vk : verkey) (g : generator) : res bool :=
  verify_signature (h_sha256 hs) fuel (s1_point s) message (vk_point vk) g.
(** bls/mod.rs:217-224 [ProofOfPossession::new] *)
Definition pop_new (fuel : nat) (vk : verkey) (sk : signkey) : res sig1 :=
  let! p := gen_signature (h_keccak256 hs) fuel (vk_bytes vk) sk in Ok (mkSig1 p (enc1 p)).
(** bls/mod.rs:484-496 [Bls::verify_proof_of_posession] *)
Definition pop_verify (fuel : nat) (pop : sig1) (vk : verkey) (g : generator) : res bool :=
  verify_signature (h_keccak256 hs) fuel (s1_point pop) (vk_bytes vk) (vk_point vk) g.
(** bls/mod.rs:343-354 [MultiSignature::new] *)
Definition multisig_new (sigs : list sig1) : sig1 :=
  let p := fold_left (fun acc s => madd acc (s1_point s)) sigs m0 in mkSig1 p (enc1 p).
(** bls/mod.rs:537-561 [Bls::verify_multi_sig] *)
Definition multisig_verify (fuel : nat) (ms : sig1) (message : list Z) (vks : list verkey) (g : generator) : res bool :=
  let agg := fold_left (fun acc vk => madd acc (vk_point vk)) vks m0 in
  verify_signature (h_sha256 hs) fuel (s1_point ms) message agg g.
End Bls.
Arguments mkGen {C}. Arguments gen_point {C}. Arguments gen_bytes {C}. Arguments mkSignKey {C}. Arguments sgk_scalar {C}. Arguments sgk_bytes {C}.
Arguments mkVerKey {C}. Arguments vk_point {C}. Arguments vk_bytes {C}. Arguments mkSig1 {C}. Arguments s1_point {C}. Arguments s1_bytes {C}.
