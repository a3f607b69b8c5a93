(** Model of libursa/src/encryption/symm (mod.rs, aescbc.rs, aesgcm.rs, chacha20poly1305.rs,
    xchacha20poly1305.rs), libursa/src/ffi/encryption/mod.rs and libursa/src/wasm/encryption.rs.

    Bytes are integers, byte strings lists of them.  [aead::Error] carries no information and is
    [GeneralError].  The primitives are a record of arbitrary functions: AES on one block, HMAC, and
    the sealing and opening of AES-GCM, ChaCha20-Poly1305 and XChaCha20-Poly1305.  CBC chaining and
    PKCS#7 padding (crates block-modes 0.7 and block-padding 0.2) are modelled, from their
    documentation: encrypt_vec pads and chains; decrypt_vec fails unless the length is a multiple of
    16 and the padding is well formed.  The variants aescbc_asm.rs, aesgcm_asm.rs and
    [x]chacha20poly1305_asm.rs (openssl, libsodium) have the same length checks and the same MAC input
    and are covered by the same definitions, except that the unsafe buffer handling of the libsodium
    ones is not modelled.  Values drawn at random are arguments. *)
From Coq Require Import String.
From Verif Require Import Base.
Import List ListNotations.
Open Scope list_scope.
Open Scope Z_scope.

Definition bytes := list Z.
Definition bytes_eqb (a b : bytes) : bool := if list_eq_dec Z.eq_dec a b then true else false.
Definition aead_error {A} : res A := Err GeneralError.

(** the primitives; [None] is the library's error *)
Record prims := mkPrims {
  aes128 : bytes -> bytes -> bytes; aes128_inv : bytes -> bytes -> bytes;
  aes256 : bytes -> bytes -> bytes; aes256_inv : bytes -> bytes -> bytes;
  hmac_sha256 : bytes -> bytes -> bytes; hmac_sha512 : bytes -> bytes -> bytes;
  gcm_seal : bytes -> bytes -> bytes -> bytes -> option bytes; gcm_open : bytes -> bytes -> bytes -> bytes -> option bytes;
  chacha_seal : bytes -> bytes -> bytes -> bytes -> option bytes; chacha_open : bytes -> bytes -> bytes -> bytes -> option bytes;
  xchacha_seal : bytes -> bytes -> bytes -> bytes -> option bytes; xchacha_open : bytes -> bytes -> bytes -> bytes -> option bytes }.

(** ** block-modes Cbc and block-padding Pkcs7, block size 16 *)
Fixpoint xor_block (a b : bytes) : bytes := match a, b with x :: a, y :: b => Z.lxor x y :: xor_block a b | _, _ => [] end.
(** the blocks of a string whose length is a multiple of 16 *)
Fixpoint blocks_of (k : nat) (l : bytes) : list bytes := match k with O => [] | S k => firstn 16 l :: blocks_of k (skipn 16 l) end.
Fixpoint cbc_enc (E : bytes -> bytes) (iv : bytes) (bs : list bytes) : bytes :=
  match bs with [] => [] | b :: bs => let c := E (xor_block b iv) in c ++ cbc_enc E c bs end.
Fixpoint cbc_dec (D : bytes -> bytes) (iv : bytes) (bs : list bytes) : bytes :=
  match bs with [] => [] | c :: bs => xor_block (D c) iv ++ cbc_dec D c bs end.
Definition pkcs7_pad (m : bytes) : bytes := let n := (16 - length m mod 16)%nat in m ++ repeat (Z.of_nat n) n.
Definition pkcs7_unpad (l : bytes) : option bytes :=
  match l with [] => None | _ =>
    let v := last l 0 in let n := Z.to_nat v in
    if (v <=? 0) || (Z.of_nat (length l) <? v) then None
    else if forallb (Z.eqb v) (skipn (length l - n) l) then Some (firstn (length l - n) l) else None end.
(** [encrypt_vec], [decrypt_vec] *)
Definition cbc_encrypt_vec (E : bytes -> bytes) (iv m : bytes) : bytes := let p := pkcs7_pad m in cbc_enc E iv (blocks_of (length p / 16) p).
Definition cbc_decrypt_vec (D : bytes -> bytes) (iv c : bytes) : option bytes :=
  if negb (length c mod 16 =? 0)%nat then None else pkcs7_unpad (cbc_dec D iv (blocks_of (length c / 16) c)).

(** ** the traits [NewAead], [Aead] and [Encryptor] of one algorithm: sizes, encrypt, decrypt
    (arguments: key, nonce, aad, message); keys and nonces of the sizes of their types *)
Record alg := mkAlg { key_size : nat; nonce_size : nat; tag_size : nat; min_size : nat;
  encrypt : bytes -> bytes -> bytes -> bytes -> res bytes; decrypt : bytes -> bytes -> bytes -> bytes -> res bytes }.

(** aescbc.rs:24-109 [aes_cbc_hmac_impl]; [kl] is $algokeysize *)
Definition cbc_hmac (E D : bytes -> bytes -> bytes) (mac : bytes -> bytes -> bytes) (kl ks tl : nat) : alg := {|
  key_size := ks; nonce_size := 16; tag_size := tl;
  min_size := 48; (* aescbc.rs:32 *)
  (* aescbc.rs:48-66 *)
  encrypt := fun key nonce aad msg =>
    let ciphertext := cbc_encrypt_vec (E (firstn kl key)) nonce msg in
    let hash := mac (skipn kl key) (aad ++ nonce ++ ciphertext) in
    Ok (ciphertext ++ hash);
  (* aescbc.rs:68-101 *)
  decrypt := fun key nonce aad msg =>
    if (length msg <? tl + kl)%nat then aead_error else
    let tag_start := (length msg - tl)%nat in
    let buffer := firstn tag_start msg in
    let tag := skipn tag_start msg in
    let expected_tag := mac (skipn kl key) (aad ++ nonce ++ buffer) in
    if bytes_eqb expected_tag tag then
      match cbc_decrypt_vec (D (firstn kl key)) nonce buffer with Some p => Ok p | None => aead_error end
    else aead_error |}.
Definition of_option (o : option bytes) : res bytes := match o with Some x => Ok x | None => aead_error end.
(** aesgcm.rs:14-68 [aes_gcm_impl] *)
Definition gcm (P : prims) (ks : nat) : alg := {|
  key_size := ks; nonce_size := 12; tag_size := 16; min_size := 32;
  encrypt := fun key nonce aad msg => of_option (gcm_seal P key nonce aad msg);
  decrypt := fun key nonce aad msg => if (length msg <? 16 + 12)%nat then aead_error else of_option (gcm_open P key nonce aad msg) |}.
(** chacha20poly1305.rs:15-54 *)
Definition ChaCha20Poly1305 (P : prims) : alg := {|
  key_size := 32; nonce_size := 12; tag_size := 16; min_size := 36;
  encrypt := fun key nonce aad msg => of_option (chacha_seal P key nonce aad msg);
  decrypt := fun key nonce aad msg => of_option (chacha_open P key nonce aad msg) |}.
(** xchacha20poly1305.rs:15-54 *)
Definition XChaCha20Poly1305 (P : prims) : alg := {|
  key_size := 32; nonce_size := 24; tag_size := 16; min_size := 48;
  encrypt := fun key nonce aad msg => of_option (xchacha_seal P key nonce aad msg);
  decrypt := fun key nonce aad msg => of_option (xchacha_open P key nonce aad msg) |}.
(** aescbc.rs:111-130, aesgcm.rs:70-71 *)
Definition Aes128CbcHmac256 (P : prims) : alg := cbc_hmac (aes128 P) (aes128_inv P) (hmac_sha256 P) 16 32 32.
Definition Aes256CbcHmac512 (P : prims) : alg := cbc_hmac (aes256 P) (aes256_inv P) (hmac_sha512 P) 32 64 64.
Definition Aes128Gcm (P : prims) : alg := gcm P 16.
Definition Aes256Gcm (P : prims) : alg := gcm P 32.

(** [GenericArray::from_slice], [clone_from_slice]: assert the length *)
Definition from_slice (n : nat) (l : bytes) : res bytes := if (length l =? n)%nat then Ok l else Err Panic.
(** [&l[..n]] and [&l[n..]] *)
Definition slice_to (l : bytes) (n : nat) : res bytes := if (n <=? length l)%nat then Ok (firstn n l) else Err Panic.
Definition slice_from (l : bytes) (n : nat) : res bytes := if (n <=? length l)%nat then Ok (skipn n l) else Err Panic.

(** ** mod.rs:233-296 [Encryptor]; [nonce] is what nonce_gen drew *)
(** mod.rs:237-247 *)
Definition encrypt_easy (a : alg) (key nonce aad plaintext : bytes) : res bytes :=
  let! ciphertext := encrypt a key nonce aad plaintext in Ok (nonce ++ ciphertext).
(** mod.rs:249-262 *)
Definition decrypt_easy (a : alg) (key aad ciphertext : bytes) : res bytes :=
  if (length ciphertext <? min_size a)%nat then aead_error else
  let! n := slice_to ciphertext (nonce_size a) in
  let! nonce := from_slice (nonce_size a) n in
  let! msg := slice_from ciphertext (nonce_size a) in
  decrypt a key nonce aad msg.
(** mod.rs:460-465 [read_buffer]: the stream delivers all its bytes or an error *)
Definition read_buffer (stream : option bytes) : res bytes := match stream with Some v => Ok v | None => aead_error end.
(** mod.rs:264-286; the result is what was written, [writable] whether write_all succeeds *)
Definition write_all (writable : bool) (b : bytes) : res bytes := if writable then Ok b else aead_error.
Definition encrypt_buffer (a : alg) (key nonce aad : bytes) (plaintext : option bytes) (writable : bool) : res bytes :=
  let! p := read_buffer plaintext in let! c := encrypt_easy a key nonce aad p in write_all writable c.
Definition decrypt_buffer (a : alg) (key aad : bytes) (ciphertext : option bytes) (writable : bool) : res bytes :=
  let! c := read_buffer ciphertext in let! p := decrypt_easy a key aad c in write_all writable p.

(** ** mod.rs:140-222 [SymmetricEncryptor], here the key of the encryptor *)
(** mod.rs:149-153 *)
Definition new_with_key (a : alg) (key : bytes) : res bytes := from_slice (key_size a) key.
(** mod.rs:162-174, 189-201: the nonce is a slice of any length; also mod.rs:321-335 (DynEncryptor) *)
Definition encrypt_with_nonce (a : alg) (key nonce aad plaintext : bytes) : res bytes := let! nonce := from_slice (nonce_size a) nonce in encrypt a key nonce aad plaintext.
Definition decrypt_with_nonce (a : alg) (key nonce aad ciphertext : bytes) : res bytes := let! nonce := from_slice (nonce_size a) nonce in decrypt a key nonce aad ciphertext.

(** ** mod.rs:48-92 [serialize_impl]: a key is serialized as the hexadecimal string of its bytes *)
Definition hex_digit (d : Z) : Z := if d <? 10 then 48 + d else 87 + d.
Definition hex_encode (l : bytes) : bytes := flat_map (fun b => [hex_digit (b / 16); hex_digit (b mod 16)]) l.
Definition hex_value (c : Z) : option Z :=
  if (48 <=? c) && (c <=? 57) then Some (c - 48) else if (97 <=? c) && (c <=? 102) then Some (c - 87) else if (65 <=? c) && (c <=? 70) then Some (c - 55) else None.
(** crate hex: an odd length or a foreign character is an error *)
Fixpoint hex_decode (s : bytes) : option bytes := match s with
  | [] => Some []
  | c :: d :: s => match hex_value c, hex_value d, hex_decode s with Some x, Some y, Some l => Some (16 * x + y :: l) | _, _, _ => None end
  | [_] => None end.
Definition serialize (key : bytes) : bytes := hex_encode key.
(** mod.rs:79-85 [visit_str] *)
Definition deserialize (a : alg) (s : bytes) : res bytes := match hex_decode s with None => aead_error | Some key => from_slice (key_size a) key end.

(** ** mod.rs:338-351 [EncryptorType] *)
Inductive encryptor_type := TAes128CbcHmac256 | TAes256CbcHmac512 | TAes128Gcm | TAes256Gcm | TXChaCha20Poly1305.
Definition alg_of (P : prims) (t : encryptor_type) : alg := match t with
  | TAes128CbcHmac256 => Aes128CbcHmac256 P | TAes256CbcHmac512 => Aes256CbcHmac512 P
  | TAes128Gcm => Aes128Gcm P | TAes256Gcm => Aes256Gcm P | TXChaCha20Poly1305 => XChaCha20Poly1305 P end.
(** mod.rs:354-394 *)
Definition is_valid_keysize (P : prims) (t : encryptor_type) (size : nat) : bool := (size =? key_size (alg_of P t))%nat.
Definition is_valid_noncesize (P : prims) (t : encryptor_type) (size : nat) : bool := (size =? nonce_size (alg_of P t))%nat.
(** mod.rs:396-419: the encryptor is the algorithm and its key *)
Definition gen_encryptor (P : prims) (t : encryptor_type) (key : bytes) : res (alg * bytes) := let! k := from_slice (key_size (alg_of P t)) key in Ok (alg_of P t, k).
(** mod.rs:422-440, 442-458 *)
Definition type_from_str (s : string) : option encryptor_type :=
  if String.eqb s "aes-128-cbc-hmac-256" then Some TAes128CbcHmac256
  else if String.eqb s "aes-256-cbc-hmac-512" then Some TAes256CbcHmac512
  else if String.eqb s "aes-128-gcm" then Some TAes128Gcm
  else if String.eqb s "aes-256-gcm" then Some TAes256Gcm
  else if String.eqb s "xchacha20poly1305" then Some TXChaCha20Poly1305
  else None.
Definition type_to_string (t : encryptor_type) : string := match t with
  | TAes128CbcHmac256 => "aes-128-cbc-hmac-256" | TAes256CbcHmac512 => "aes-256-cbc-hmac-512"
  | TAes128Gcm => "aes-128-gcm" | TAes256Gcm => "aes-256-gcm" | TXChaCha20Poly1305 => "xchacha20poly1305" end.

(** ** ffi/encryption/mod.rs.  A [ByteArray] is a pointer with a length: [None] is the null pointer
    (ffi/mod.rs:37-54).  The algorithm is a C string, [None] when null or not UTF-8, for which
    [as_str] panics.  The result is the return value, the error code (0 for success) and the output
    buffer, [None] when it was not written. *)
Definition to_vec (b : option bytes) : bytes := match b with Some l => l | None => [] end.
Record ffi_result := mkFfi { f_ret : Z; f_err : Z; f_out : option bytes }.
(** lines 9-15 *)
Definition ENCRYPTION_ERROR := 6. Definition DECRYPTION_ERROR := 7. Definition INVALID_KEY_LENGTH := 8.
Definition INVALID_NONCE_LENGTH := 9. Definition INVALID_CIPHER := 11.
(** lines 26-94 [ffi_encryption_impl]; a panic crosses the C boundary and is [Err Panic] *)
Definition ffi_operation (P : prims) (op : alg -> bytes -> bytes -> bytes -> bytes -> res bytes) (op_easy : alg -> bytes -> bytes -> bytes -> res bytes) (error_code : Z)
    (algorithm : option string) (key nonce aad input : option bytes) : res ffi_result :=
  match algorithm with None => Err Panic | Some s =>
    match type_from_str s with
    | None => Ok (mkFfi 0 INVALID_CIPHER None)
    | Some c =>
        if negb (is_valid_keysize P c (length (to_vec key))) then Ok (mkFfi 0 INVALID_KEY_LENGTH None) else
        let! (a, k) := gen_encryptor P c (to_vec key) in
        let finish (r : res bytes) : res ffi_result := match r with Ok out => Ok (mkFfi 1 0 (Some out)) | Err Panic => Err Panic | Err _ => Ok (mkFfi 0 error_code None) end in
        match nonce with
        | Some n => if negb (nonce_size a =? length n)%nat then Ok (mkFfi 0 INVALID_NONCE_LENGTH None) else finish (op a k n (to_vec aad) (to_vec input))
        | None => finish (op_easy a k (to_vec aad) (to_vec input))
        end
    end
  end.
(** lines 289-300; [draw n] are the random bytes of a nonce of size n *)
Definition ursa_encrypt (P : prims) (draw : nat -> bytes) : option string -> option bytes -> option bytes -> option bytes -> option bytes -> res ffi_result :=
  ffi_operation P encrypt_with_nonce (fun a key aad input => encrypt_easy a key (draw (nonce_size a)) aad input) ENCRYPTION_ERROR.
Definition ursa_decrypt (P : prims) : option string -> option bytes -> option bytes -> option bytes -> option bytes -> res ffi_result :=
  ffi_operation P decrypt_with_nonce decrypt_easy DECRYPTION_ERROR.

(** ** wasm/encryption.rs *)
(** lines 8-13 *)
Record wasm_key := mkWasm { w_cipher : encryptor_type; w_key : bytes }.
(** lines 43-54 [with_key] *)
Definition wasm_with_key (P : prims) (cipher : string) (key : bytes) : res wasm_key :=
  match type_from_str cipher with None => Err GeneralError | Some c =>
    match hex_decode key with None => Err GeneralError | Some k =>
      if (key_size (alg_of P c) =? length k)%nat then Ok (mkWasm c key) else Err GeneralError end end.
(** lines 15-26 [operation_impl] *)
Definition wasm_operation (P : prims) (op_easy : alg -> bytes -> bytes -> bytes -> res bytes) (ck : wasm_key) (aad input : bytes) : res bytes :=
  match hex_decode (w_key ck) with None => Err GeneralError | Some k =>
    if negb (is_valid_keysize P (w_cipher ck) (length k)) then Err GeneralError else
    let! (a, k) := gen_encryptor P (w_cipher ck) k in op_easy a k aad input end.
Definition wasm_encrypt (P : prims) (draw : nat -> bytes) := wasm_operation P (fun a key aad input => encrypt_easy a key (draw (nonce_size a)) aad input).
Definition wasm_decrypt (P : prims) := wasm_operation P decrypt_easy.
