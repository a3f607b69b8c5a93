(** Model of libursa/src/signatures/bls.rs: the BLS signatures, aggregation, batch
    verification and proofs of possession of the [signatures] module (not to be
    confused with libursa/src/bls, see BlsModel).

    The macro [bls_impl] is instantiated twice: [normal] (keys in G1, signatures in
    G2) and [small] (the other way round).  The model is the same: [P] is the group of
    keys, [S] the group of signatures, and [e] the pairing with the key argument first
    ([bls.rs:772-790]: both instances put the arguments in the order of the curve).
    [hash_s] is [SignatureGroup::from_msg_hash], [hash_k] is
    [FieldElement::from_msg_hash]; both are arbitrary functions.  Random exponents are
    explicit arguments.  Points are elements of the prime order groups. *)
From Verif Require Import Base BnModel Alg ClRevModel.
From Coq Require Import Ascii String.
Import List ListNotations.
Open Scope string_scope.
Open Scope list_scope.
Open Scope Z_scope.

(** a byte string literal *)
Definition bytes_of (s : string) : list Z := map (fun c => Z.of_N (N_of_ascii c)) (list_ascii_of_string s).
(** bls.rs:31-32 *)
Definition MESSAGE_CONTEXT : list Z := bytes_of "for signing messages".
Definition PUBLICKEY_CONTEXT : list Z := bytes_of "for signing public keys for proof of possession".

Record bls_groups := mkBlsGroups {
  bK : fieldOps;
  bP : modOps bK; bS : modOps bK; bT : modOps bK;
  be : bP -> bS -> bT;
  encP : bP -> list Z; encS : bS -> list Z;              (* to_bytes(false) *)
  decP : list Z -> res bP; decS : list Z -> res bS;      (* from_bytes *)
  encK : bK -> list Z; decK : list Z -> res bK;          (* FieldElement::to_bytes, from_bytes *)
  hash_s : list Z -> bS; hash_k : list Z -> bK }.
Arguments be {b}. Arguments encP {b}. Arguments encS {b}. Arguments decP {b}. Arguments decS {b}. Arguments encK {b}. Arguments decK {b}.
Arguments hash_s {b}. Arguments hash_k {b}.

(** bls.rs:738-752 [normal] and bls.rs:761-775 [small] *)
Definition normal (C : curve) decP decS encK decK hash_s hash_k : bls_groups :=
  mkBlsGroups (cK C) (cG1 C) (cG2 C) (cGT C) (@pair C) (@enc1 C) (@enc2 C) decP decS encK decK hash_s hash_k.
Definition small (C : curve) decP decS encK decK hash_s hash_k : bls_groups :=
  mkBlsGroups (cK C) (cG2 C) (cG1 C) (cGT C) (fun p s => pair s p) (@enc2 C) (@enc1 C) decP decS encK decK hash_s hash_k.

Section Bls2.
Variable B : bls_groups.
Notation K := (bK B). Notation P := (bP B). Notation S := (bS B).

(** bls.rs:44-59 [hash_msg], [hash_key], [hash_to_point] *)
Definition hash_to_point (v ctx : list Z) : S := hash_s (ctx ++ v).
Definition hash_msg (message : list Z) (context : option (list Z)) : S :=
  hash_to_point message (match context with Some c => c | None => MESSAGE_CONTEXT end).
Definition hash_key (pk : P) (context : option (list Z)) : S :=
  hash_to_point (encP pk) (match context with Some c => c | None => PUBLICKEY_CONTEXT end).

(** bls.rs:157-159 [PublicKey::new] *)
Definition public_key (sk : K) (g : P) : P := smul sk g.
(** bls.rs:162-166, 267-271 [PublicKey::combine], [Signature::combine]: the receiver is mutated *)
Definition pk_combine (self : P) (pks : list P) : P := fold_left (fun a p => madd a p) pks self.
Definition sig_combine (self : S) (sigs : list S) : S := fold_left (fun a s => madd a s) sigs self.
(** bls.rs:186-206, 244-262: the exponent of a key: all keys, then the key again *)
Definition rk_exponent (pks : list P) (pk : P) : K := hash_k (concat (map encP pks) ++ encP pk).
(** bls.rs:185-206 [AggregatedPublicKey::from] *)
Definition aggregated_key (pks : list P) : P := fold_left (fun apk k => madd apk (smul (rk_exponent pks k) k)) pks m0.
(** bls.rs:238-244 [Signature::new] *)
Definition signature_new (message : list Z) (context : option (list Z)) (sk : K) : S := smul sk (hash_msg message context).
(** bls.rs:246-265 [Signature::new_with_rk_mitigation]; an index out of range panics *)
Definition signature_new_rk (message : list Z) (context : option (list Z)) (sk : K) (pk_index : nat) (pks : list P) : res S :=
  match nth_error pks pk_index with
  | None => Err Panic
  | Some pk => Ok (smul (rk_exponent pks pk) (smul sk (hash_msg message context)))
  end.

(** bls.rs:778-797: e(-g, sig) * e(pk, hash) = 1 *)
Definition pairing2_is_one (g : P) (sig : S) (pk : P) (hash : S) : bool := meqb (madd (be (mopp g) sig) (be pk hash)) m0.
(** [GT::ate_multi_pairing]: the product of the pairings *)
Definition multi_pairing_is_one (pairs : list (P * S)) : bool := meqb (fold_left (fun acc ps => madd acc (be (fst ps) (snd ps))) pairs m0) m0.

(** bls.rs:273-282 [Signature::verify] *)
Definition signature_verify (sig : S) (message : list Z) (context : option (list Z)) (pk g : P) : bool := pairing2_is_one g sig pk (hash_msg message context).
(** bls.rs:288-310 [Signature::verify_multi]: the loop stops at the first repeated hash *)
Fixpoint multi_pairs (inputs : list (list Z * P)) (context : option (list Z)) (msg_check : list S) : option (list (P * S)) :=
  match inputs with
  | [] => Some []
  | (msg, pk) :: rest =>
      let hash := hash_msg msg context in
      if existsb (meqb hash) msg_check then None
      else match multi_pairs rest context (hash :: msg_check) with Some ps => Some ((pk, hash) :: ps) | None => None end
  end.
Definition verify_multi (sig : S) (inputs : list (list Z * P)) (context : option (list Z)) (g : P) : bool :=
  match multi_pairs inputs context [] with
  | None => false
  | Some pairs => multi_pairing_is_one (pairs ++ [(mopp g, sig)])
  end.
(** bls.rs:312-334 [Signature::batch_verify], and 439-461 [AggregatedSignature::batch_verify]
    (the same code); each input comes with its random exponent *)
Definition batch_verify (inputs : list (K * (list Z * S * P))) (context : option (list Z)) (g : P) : bool :=
  let '(pairs, sig) := fold_left (fun '(pairs, sig) '(r, (msg, asg, apk)) =>
      (pairs ++ [(smul r apk, hash_msg msg context)], madd sig (smul r asg))) inputs ([], m0) in
  multi_pairing_is_one (pairs ++ [(mopp g, sig)]).
(** bls.rs:358-362 [ProofOfPossession::new], 374-382 verify *)
Definition pop2_new (pk : P) (context : option (list Z)) (sk : K) : S := smul sk (hash_key pk context).
Definition pop2_verify (pop : S) (context : option (list Z)) (pk g : P) : bool := pairing2_is_one g pop pk (hash_key pk context).
(** bls.rs:393-399 [AggregatedSignature::new] *)
Definition aggregated_signature (sigs : list S) : S := fold_left (fun sig s => madd sig s) sigs m0.
(** bls.rs:402-411 [AggregatedSignature::verify] *)
Definition aggregated_verify (sig : S) (message : list Z) (context : option (list Z)) (apk g : P) : bool := pairing2_is_one g sig apk (hash_msg message context).
(** bls.rs:417-428 [AggregatedSignature::verify_no_rk] *)
Definition aggregated_verify_no_rk (sig : S) (message : list Z) (context : option (list Z)) (pks : list P) (g : P) : bool :=
  pairing2_is_one g sig (fold_left (fun a p => madd a p) pks m0) (hash_msg message context).

(** ** the byte interface [SignatureScheme for Bls] (bls.rs:62-150); [gen] is
    [Generator::generator()].  Every parse failure is a ParseError. *)
(** bls.rs:98-110: key pair from a given secret key *)
Definition scheme_keypair_from_secret (gen : P) (key : list Z) : res (list Z * list Z) :=
  match decK key with
  | Ok sk => Ok (encP (public_key sk gen), encK sk)
  | Err _ => Err ParseError
  end.
(** bls.rs:76-97: key pair from a seed; [hkdf salt ikm info len] is HKDF-SHA256 and
    [of_okm] is [PrivateKey::from(&\[u8; 48\])] *)
Definition scheme_keypair_from_seed (hkdf : list Z -> list Z -> list Z -> nat -> list Z) (of_okm : list Z -> K) (sk_size : nat) (gen : P) (seed : list Z)
  : list Z * list Z :=
  let okm := hkdf (bytes_of "BLS-SIG-KEYGEN-SALT-") (seed ++ [0]) [0; Z.of_nat sk_size] sk_size in
  let sk := of_okm okm in (encP (public_key sk gen), encK sk).
(** bls.rs:118-127 *)
Definition scheme_sign (message sk : list Z) : res (list Z) :=
  match decK sk with
  | Ok x => Ok (encS (signature_new message None x))
  | Err _ => Err ParseError
  end.
(** bls.rs:129-147 *)
Definition scheme_verify (gen : P) (message signature pk : list Z) : res bool :=
  match decS signature with
  | Err _ => Err ParseError
  | Ok s => match decP pk with
            | Err _ => Err ParseError
            | Ok p => Ok (signature_verify s message None p gen)
            end
  end.
End Bls2.
