(** Model of libursa/src/signatures/{mod,ed25519,secp256k1}.rs, libursa/src/kex/{mod,x25519,secp256k1}.rs
    and libursa/src/ffi/signatures/ed25519.rs.

    Bytes are integers.  The groups of points are abstract (operations and multiplication by
    integers), with their encodings; hash functions and the ChaCha key stream are arbitrary
    functions.  The libraries called are modelled from their published sources: ed25519-dalek 1.0
    (expanded secret keys, signing, verification without the cofactor), x25519-dalek 1.1 (clamping),
    libsecp256k1 through secp256k1 0.19 (parsing, ECDSA, low-s) and k256 0.7 (ECDH).  Of the two
    variants of each secp256k1 module the model follows the one that can be compiled at this commit:
    for signatures that of secp256k1 0.19 (secp256k1.rs:112-215; the other one, lines 217-291, calls
    functions that do not exist), for key exchange that of k256 (kex/secp256k1.rs:118-197; the other
    one names a crate, libsecp256k1, that Cargo.toml does not declare).  Randomness is an argument. *)
From Verif Require Import Base SymmModel.
Import List ListNotations.
Open Scope Z_scope.

(** ** points: an abelian group with multiplication by integers *)
Record zgroup := mkZG { gcar :> Type; g0 : gcar; gadd : gcar -> gcar -> gcar; gneg : gcar -> gcar; gmul : Z -> gcar -> gcar }.
Arguments g0 {z}. Arguments gadd {z}. Arguments gneg {z}. Arguments gmul {z}.

(** little- and big-endian numbers *)
Fixpoint le_val (l : bytes) : Z := match l with [] => 0 | b :: l => b + 256 * le_val l end.
Fixpoint le_bytes (n : nat) (z : Z) : bytes := match n with O => [] | S n => z mod 256 :: le_bytes n (z / 256) end.
Definition be_val (l : bytes) : Z := le_val (rev l).
Definition be_bytes (n : nat) (z : Z) : bytes := rev (le_bytes n z).

(** utils/macros.rs and crate arrayref: [array_ref!(s, 0, n)] and [array_copy!(s, d)] with d of length
    n panic when s is shorter and ignore what follows *)
Definition array_ref (l : bytes) (n : nat) : res bytes := if (n <=? length l)%nat then Ok (firstn n l) else Err Panic.

(** keys.rs:22-25 [KeyGenOption] *)
Inductive keygen := UseSeed (seed : bytes) | FromSecretKey (sk : bytes).

(** ** ed25519 and x25519 *)
Record curve25519 := mkC25519 {
  eG : zgroup; eB : eG; eL : Z; (* the base point and its order *)
  e_compress : eG -> bytes; e_decompress : bytes -> option eG;
  to_montgomery : eG -> bytes; mont_mul : Z -> bytes -> bytes;
  sha256 : bytes -> bytes; sha512 : bytes -> bytes; chacha : bytes -> bytes (* first 32 bytes of the stream of a seed *) }.

(** x25519_dalek clamp_scalar, also ed25519_dalek ExpandedSecretKey::from *)
Definition clamp (l : bytes) : bytes := match l with [] => [] | b :: r => Z.land b 248 :: removelast r ++ [Z.lor (Z.land (last r 0) 127) 64] end.

Section Curve25519.
Context (C : curve25519).
Local Notation B := (eB C). Local Notation L := (eL C).

(** ed25519_dalek ExpandedSecretKey: scalar and prefix *)
Definition ed_scalar (secret : bytes) : Z := le_val (clamp (firstn 32 (sha512 C secret))).
Definition ed_prefix (secret : bytes) : bytes := skipn 32 (sha512 C secret).
(** PublicKey::from(&SecretKey) *)
Definition ed_public (secret : bytes) : bytes := e_compress C (gmul (ed_scalar secret) B).
(** ed25519_dalek PublicKey::from_bytes *)
Definition pk_from_bytes (pk : bytes) : option (eG C) := if (length pk =? 32)%nat then e_decompress C pk else None.
(** ed25519_dalek Keypair::from_bytes: the secret half and the public half; they are not compared *)
Definition keypair_from_bytes (k : bytes) : option (bytes * bytes) :=
  if (length k =? 64)%nat then match pk_from_bytes (skipn 32 k) with Some _ => Some (firstn 32 k, skipn 32 k) | None => None end else None.
(** Keypair::generate from 32 random bytes *)
Definition ed_generate (secret : bytes) : bytes * bytes := (secret, ed_public secret).

(** ed25519.rs:113-137; [random] are the 32 bytes of OsRng *)
Definition ed_keypair (random : bytes) (option : option keygen) : res (bytes * bytes) :=
  let! kp := match option with
    | Some (UseSeed s) => let! h := array_ref (sha256 C s) 32 in Ok (ed_generate (chacha C h))
    | Some (FromSecretKey s) => match keypair_from_bytes s with Some kp => Ok kp | None => Err KeyGenError end
    | None => Ok (ed_generate random) end in
  Ok (snd kp, fst kp ++ snd kp).
(** ed25519_dalek ExpandedSecretKey::sign *)
Definition ed_hash (l : bytes) : Z := le_val (sha512 C l) mod L.
Definition ed_sign_raw (secret public message : bytes) : bytes :=
  let r := ed_hash (ed_prefix secret ++ message) in
  let R := e_compress C (gmul r B) in
  let k := ed_hash (R ++ public ++ message) in
  R ++ le_bytes 32 ((k * ed_scalar secret + r) mod L).
(** ed25519.rs:138-142 *)
Definition ed_sign (message sk : bytes) : res bytes :=
  match keypair_from_bytes sk with Some (secret, public) => Ok (ed_sign_raw secret public message) | None => Err KeyGenError end.
(** Signature::try_from: 64 bytes whose last one has its three highest bits clear *)
Definition sig_parse (sig : bytes) : option (bytes * Z) :=
  if (length sig =? 64)%nat && (last sig 0 <? 32) then Some (firstn 32 sig, le_val (skipn 32 sig)) else None.
(** ed25519_dalek PublicKey::verify: s canonical, R = s B - k A *)
Definition ed_verify_raw (pk : bytes) (A : eG C) (message R : bytes) (s : Z) : bool :=
  let k := ed_hash (R ++ pk ++ message) in
  (s <? L) && bytes_eqb (e_compress C (gadd (gmul k (gneg A)) (gmul s B))) R.
(** ed25519.rs:143-155 *)
Definition ed_verify (message sig pk : bytes) : res bool :=
  match pk_from_bytes pk with None => Err ParseError | Some A =>
    match sig_parse sig with None => Err ParseError | Some (R, s) =>
      if ed_verify_raw pk A message R s then Ok true else Err SigningError end end.

(** ed25519.rs:38-54 *)
Definition ver_key_to_key_exchange (pk : bytes) : res bytes :=
  match pk_from_bytes pk with None => Err ParseError | Some A => Ok (to_montgomery C A) end.
(** ed25519.rs:67-82; [StaticSecret::from] clamps *)
Definition sign_key_to_key_exchange (sk : bytes) : res bytes :=
  if (length sk <? 32)%nat then Err ParseError else Ok (clamp (firstn 32 (sha512 C (firstn 32 sk)))).
(** ed25519.rs:94-106 *)
Definition expand_keypair (ikm : bytes) : res (bytes * bytes) :=
  if (length ikm <? 32)%nat then Err ParseError else
  let pk := ed_public (firstn 32 ikm) in Ok (pk, firstn 32 ikm ++ pk).

(** ** kex/x25519.rs:18-61 *)
Definition x_public (sk : bytes) : bytes := to_montgomery C (gmul (le_val sk) B).
Definition x_keypair (random : bytes) (option : option keygen) : res (bytes * bytes) :=
  let! sk := match option with
    | Some (UseSeed s) => let! h := array_ref (sha256 C s) 32 in Ok (clamp (chacha C h))
    | Some (FromSecretKey s) => let! s := array_ref s 32 in Ok (clamp s)
    | None => Ok (clamp random) end in
  Ok (x_public sk, sk).
Definition x_shared_secret (sk pk : bytes) : res bytes :=
  let! sk := array_ref sk 32 in
  let! pk := array_ref pk 32 in
  Ok (sha256 C (mont_mul C (le_val (clamp sk)) pk)).
End Curve25519.

(** ** secp256k1 *)
Record secp256k1 := mkSecp {
  wG : zgroup; wB : wG; wN : Z; (* generator and its order *)
  w_x : wG -> Z; (* x-coordinate *) w_is_inf : wG -> bool;
  w_compressed : wG -> bytes; w_uncompressed : wG -> bytes; w_parse : bytes -> option wG;
  w_hash : bytes -> bytes; (* SHA-256 *) w_nonce : bytes -> Z -> Z; (* RFC 6979 *)
  w_inv : Z -> Z; (* inverse modulo the order *) w_chacha : bytes -> bytes }.

Section Secp.
Context (W : secp256k1).
Local Notation N := (wN W).
(** SecretKey::from_slice *)
Definition w_secret (l : bytes) : res Z :=
  if (length l =? 32)%nat && (0 <? be_val l) && (be_val l <? N) then Ok (be_val l) else Err ParseError.
(** PublicKey::from_slice, from_sec1_bytes: compressed or uncompressed points *)
Definition w_public (l : bytes) : res (wG W) :=
  if (length l =? 33)%nat || (length l =? 65)%nat then match w_parse W l with Some P => Ok P | None => Err ParseError end else Err ParseError.

(** signatures/secp256k1.rs:141-176; [random] are 32 bytes of OsRng *)
Definition ecdsa_keypair (random : bytes) (option : option keygen) : res (bytes * bytes) :=
  let! l := match option with
    | Some (UseSeed seed) => let! s := array_ref seed 32 in Ok (w_hash W (w_chacha W s))
    | Some (FromSecretKey s) => Ok s
    | None => Ok (w_hash W random) end in
  let! d := w_secret l in
  Ok (w_compressed W (gmul d (wB W)), l).
(** libsecp256k1 ECDSA over the 32 bytes of the digest *)
Definition ecdsa_r (k : Z) : Z := w_x W (gmul k (wB W)) mod N.
Definition low_s (s : Z) : Z := if N / 2 <? s then N - s else s.
Definition sig_compact (r s : Z) : bytes := be_bytes 32 r ++ be_bytes 32 s.
(** lines 177-186 *)
Definition ecdsa_sign (message sk : bytes) : res bytes :=
  let h := w_hash W message in
  let! d := w_secret sk in
  let k := w_nonce W h d in
  let r := ecdsa_r k in
  Ok (sig_compact r (low_s ((w_inv W k * (be_val h + r * d)) mod N))).
(** Signature::from_compact: each half below the order *)
Definition sig_from_compact (l : bytes) : res (Z * Z) :=
  if negb (length l =? 64)%nat then Err ParseError else
  let r := be_val (firstn 32 l) in let s := be_val (skipn 32 l) in
  if (r <? N) && (s <? N) then Ok (r, s) else Err ParseError.
(** secp256k1_ecdsa_verify: s not above half the order, r and s not 0 *)
Definition ecdsa_verify_raw (z : Z) (Q : wG W) (r s : Z) : bool :=
  negb (N / 2 <? s) && negb (r =? 0) && negb (s =? 0) &&
  let si := w_inv W s in
  let P := gadd (gmul ((z * si) mod N) (wB W)) (gmul ((r * si) mod N) Q) in
  negb (w_is_inf W P) && (w_x W P mod N =? r).
(** lines 187-206 *)
Definition ecdsa_verify (message sig pk : bytes) : res bool :=
  let h := w_hash W message in
  let! Q := w_public pk in
  let! (r, s) := sig_from_compact sig in
  Ok (ecdsa_verify_raw (be_val h) Q r s).
(** lines 207-213; the result is the new content of the buffer *)
Definition normalize_s (sig : bytes) : res bytes :=
  let! (r, s) := sig_from_compact sig in Ok (sig_compact r (low_s s)).
(** lines 125-137 *)
Definition public_key_compressed (pk : bytes) : res bytes := match w_public pk with Ok P => Ok (w_compressed W P) | Err _ => Err Panic end.
Definition public_key_uncompressed (pk : bytes) : res bytes := match w_public pk with Ok P => Ok (w_uncompressed W P) | Err _ => Err Panic end.
Definition ecdsa_parse (data : bytes) : res bytes := let! P := w_public data in Ok (w_compressed W P).

(** kex/secp256k1.rs:142-176 *)
Definition ecdh_keypair (random : bytes) (option : option keygen) : res (bytes * bytes) :=
  let! sk := match option with
    | Some (UseSeed seed) => let! s := array_ref seed 32 in Ok (w_hash W (w_chacha W s))
    | Some (FromSecretKey s) => array_ref s 32
    | None => Ok (w_hash W random) end in
  let! d := w_secret sk in
  Ok (w_compressed W (gmul d (wB W)), sk).
(** kex/secp256k1.rs:178-194: the x-coordinate of the product *)
Definition ecdh_shared_secret (sk pk : bytes) : res bytes :=
  let! d := w_secret sk in
  let! Q := w_public pk in
  Ok (be_bytes 32 (w_x W (gmul d Q))).
End Secp.

(** ** signatures/mod.rs:41-82 [Signer], over any scheme: the key generation and signing of it *)
Definition signer_sign (sign : bytes -> bytes -> res bytes) (key message : bytes) : res bytes := sign message key.
(** lines 74-81: unwrap *)
Definition signer_public_key (keypair : option keygen -> res (bytes * bytes)) (key : bytes) : res bytes :=
  match keypair (Some (FromSecretKey key)) with Ok (pk, _) => Ok pk | Err _ => Err Panic end.

(** ** ffi/signatures/ed25519.rs: return value, error code (0: success; [None]: not written), outputs *)
Record sig_ffi := mkSigFfi { sf_ret : Z; sf_err : option Z; sf_pk : option bytes; sf_sk : option bytes }.
(** lines 303-328; the private key buffer is absent for get_public_key *)
Definition ffi_keypair_gen (C : curve25519) (random : bytes) (option : option keygen) (want_sk : bool) : res sig_ffi :=
  match ed_keypair C random option with
  | Ok (pk, sk) => Ok (mkSigFfi 1 (Some 0) (Some pk) (if want_sk then Some sk else None))
  | Err Panic => Err Panic
  | Err _ => Ok (mkSigFfi 0 (Some 1) None None) end.
(** lines 187-234 *)
Definition ffi_keypair_new (C : curve25519) (random : bytes) := ffi_keypair_gen C random None true.
Definition ffi_keypair_from_seed (C : curve25519) (seed : option bytes) := ffi_keypair_gen C [] (Some (UseSeed (to_vec seed))) true.
Definition ffi_get_public_key (C : curve25519) (sk : option bytes) := ffi_keypair_gen C [] (Some (FromSecretKey (to_vec sk))) false.
(** lines 242-265; the signature is in [sf_pk] *)
Definition ffi_sign (C : curve25519) (message sk : option bytes) : res sig_ffi :=
  match ed_sign C (to_vec message) (to_vec sk) with
  | Ok sig => Ok (mkSigFfi 1 (Some 0) (Some sig) None) | Err Panic => Err Panic | Err _ => Ok (mkSigFfi 0 (Some 2) None None) end.
(** lines 271-301 *)
Definition ffi_verify (C : curve25519) (message sig pk : option bytes) : res sig_ffi :=
  match ed_verify C (to_vec message) (to_vec sig) (to_vec pk) with
  | Ok true => Ok (mkSigFfi 1 (Some 0) None None)
  | Ok false => Ok (mkSigFfi 0 None None None)
  | Err Panic => Err Panic | Err _ => Ok (mkSigFfi 0 (Some 3) None None) end.
