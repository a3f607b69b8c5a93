(** The C interface of libursa (libursa/src/ffi): every function that takes or returns a handle,
    as the sequence of pointer checks, dereferences, boxes taken back, the library call in the
    middle, and the results written out.

    Not modelled: trace! logging, the error message of a refused call (only which call failed
    last), ByteBuffer/ByteArray functions (ffi/encryption, ffi/signatures), reentrancy of the
    tails callbacks.  Memory owned by the caller (strings, buffers, arrays of pointers, result
    slots) is taken to be valid for the length given with it. *)
From Coq Require Import String.
From Verif Require Import Base.
Import List ListNotations.
Open Scope list_scope.
Open Scope Z_scope.

(** the Rust types behind the handles, and C strings returned by to_json functions *)
Inductive ty := TGenerator | TSignKey | TVerKey | TProofOfPossession | TSignature | TMultiSignature | TRevocationTailsGenerator | TTail | TRevocationRegistryDelta | TWitness | TCredentialSchemaBuilder | TCredentialSchema | TNonCredentialSchemaBuilder | TNonCredentialSchema | TCredentialValuesBuilder | TCredentialValues | TSubProofRequestBuilder | TSubProofRequest | TNonce | TCredentialPublicKey | TCredentialPrivateKey | TCredentialKeyCorrectnessProof | TRevocationKeyPublic | TRevocationKeyPrivate | TRevocationRegistry | TBlindedCredentialSecrets | TBlindedCredentialSecretsCorrectnessProof | TCredentialSignature | TSignatureCorrectnessProof | TMasterSecret | TCredentialSecretsBlindingFactors | TProofBuilder | TProof | TProofVerifier | TCString.
Scheme Boolean Equality for ty.
Notation ty_eqb := ty_beq.

(** a pointer; 0 is null, 1 is what Box::into_raw(Box::new(())) returns (a zero-sized box is
    not allocated: its pointer is the alignment of unit) *)
Definition addr := nat.
Definition null : addr := 0%nat.
Definition unit_box : addr := 1%nat.

(** errors/mod.rs:37-56, with the codes of ffi/mod.rs:103-171 (errors/mod.rs:126-157) *)
Inductive kind := KInvalidState | KInvalidStructure | KInvalidParam (n : Z) | KIOError | KProofRejected | KRevocationAccumulatorIsFull | KInvalidRevocationAccumulatorIndex | KCredentialRevoked.
Definition code_of (k : kind) : Z :=
  match k with
  | KInvalidState => 112 | KInvalidStructure => 113
  | KInvalidParam n => if (1 <=? n) && (n <=? 12) then 99 + n else 112
  | KIOError => 114 | KProofRejected => 118 | KRevocationAccumulatorIsFull => 115
  | KInvalidRevocationAccumulatorIndex => 116 | KCredentialRevoked => 117
  end.
Definition success : Z := 0.

(** ** what a function declares: its parameters, as documented *)
Inductive param :=
| PIn (t : ty) (mut : bool)       (* an instance; [mut]: the function may change it *)
| PInOpt (t : ty)                 (* an instance or null *)
| PTake (t : ty)                  (* an instance the function deallocates *)
| PTakeOpt (t : ty)               (* the same, null is allowed *)
| PArr (t : ty)                   (* array of instances; its length is the next parameter *)
| PStr                            (* string *)
| PBuf | PBufOpt                  (* bytes, or bytes or null; the length is the next parameter *)
| PInts                           (* array of u32; the length is the next parameter *)
| POut (t : ty)                   (* where to write a new instance *)
| POutOpt (t : ty)                (* where to write a new instance or null *)
| POutStr                         (* where to write a new string *)
| POutVal                         (* where to write a number, boolean, or pointer into an instance *)
| PVal.                           (* number, boolean, callback, context, length *)

(** ** what its body does before and after the library call *)
Inductive step :=
| Null (i : nat) (c : Z)          (* return c if parameter i is null *)
| StrOk (i : nat) (c : Z)         (* return c if the string is null, not UTF-8 or empty *)
| LenOk (i : nat) (c : Z)         (* return c if the array behind parameter i has length 0 *)
| Ref (i : nat) (t : ty) (mut : bool)   (* &*(p as *const t) or &mut *(p as *mut t) *)
| RefOpt (i : nat) (t : ty)       (* the same if it is not null *)
| Refs (i : nat) (t : ty)         (* each pointer of the array *)
| Take (i : nat) (t : ty)         (* Box::from_raw(p as *mut t) *)
| TakeOpt (i : nat) (t : ty).
(** utils/ctypes.rs: the checking macros, check_useful_c_ptr (141-148), _c_reference (66-75),
    _mut_c_reference (78-87), _opt_c_reference (90-98), _c_reference_array (101-121), _c_byte_array
    (25-42), _opt_c_byte_array (45-58), _hashset (124-133), _c_str (151-166) *)
Definition c_ptr (i : nat) (c : Z) : list step := [Null i c].
Definition c_reference (i : nat) (t : ty) (c : Z) : list step := [Null i c; Ref i t false].
Definition mut_c_reference (i : nat) (t : ty) (c : Z) : list step := [Null i c; Ref i t true].
Definition opt_c_reference (i : nat) (t : ty) : list step := [RefOpt i t].
Definition c_reference_array (i : nat) (t : ty) (c1 c2 : Z) : list step := [Null i c1; LenOk i c2; Refs i t].
Definition c_byte_array (i : nat) (c1 c2 : Z) : list step := [Null i c1; LenOk i c2].
Definition opt_c_byte_array (i : nat) (c2 : Z) : list step := [LenOk i c2].
Definition hashset (i : nat) (c1 : Z) : list step := [Null i c1].
Definition c_str (i : nat) (c : Z) : list step := [StrOk i c].

(** what is written to the result slots after success *)
Inductive wr := WBox (t : ty) | WBoxOpt (t : ty) | WUnit | WStr | WVal.

Record fn := mkFn { f_name : string; f_params : list param; f_steps : list step; f_outs : list (nat * wr) }.

(** ** the functions *)
Open Scope string_scope.
Definition table : list fn := [
  (* ffi/bls.rs:18-36 *)
  mkFn "ursa_bls_generator_new" [POut TGenerator]
    (c_ptr 0 100)
    [(0%nat, WBox TGenerator)];
  (* ffi/bls.rs:48-83 *)
  mkFn "ursa_bls_generator_from_bytes" [PBuf; PVal; POut TGenerator]
    (c_byte_array 0 100 101 ++ c_ptr 2 100)
    [(2%nat, WBox TGenerator)];
  (* ffi/bls.rs:95-121 *)
  mkFn "ursa_bls_generator_as_bytes" [PIn TGenerator false; POutVal; POutVal]
    (c_reference 0 TGenerator 100 ++ c_ptr 1 101 ++ c_ptr 2 102)
    [(1%nat, WVal); (2%nat, WVal)];
  (* ffi/bls.rs:129-140 *)
  mkFn "ursa_bls_generator_free" [PTake TGenerator]
    (c_ptr 0 100 ++ [Take 0 TGenerator])
    [];
  (* ffi/bls.rs:152-186 *)
  mkFn "ursa_bls_sign_key_new" [PBufOpt; PVal; POut TSignKey]
    (opt_c_byte_array 0 101)
    [(2%nat, WBox TSignKey)];
  (* ffi/bls.rs:198-239 *)
  mkFn "ursa_bls_sign_key_from_bytes" [PBuf; PVal; POut TSignKey]
    (c_byte_array 0 100 101 ++ c_ptr 2 100)
    [(2%nat, WBox TSignKey)];
  (* ffi/bls.rs:251-280 *)
  mkFn "ursa_bls_sign_key_as_bytes" [PIn TSignKey false; POutVal; POutVal]
    (c_reference 0 TSignKey 100 ++ c_ptr 1 101 ++ c_ptr 2 102)
    [(1%nat, WVal); (2%nat, WVal)];
  (* ffi/bls.rs:288-302 *)
  mkFn "ursa_bls_sign_key_free" [PTake TSignKey]
    (c_ptr 0 100 ++ [Take 0 TSignKey])
    [];
  (* ffi/bls.rs:314-348 *)
  mkFn "ursa_bls_ver_key_new" [PIn TGenerator false; PIn TSignKey false; POut TVerKey]
    (c_reference 0 TGenerator 100 ++ c_reference 1 TSignKey 101)
    [(2%nat, WBox TVerKey)];
  (* ffi/bls.rs:360-395 *)
  mkFn "ursa_bls_ver_key_from_bytes" [PBuf; PVal; POut TVerKey]
    (c_byte_array 0 100 101 ++ c_ptr 2 100)
    [(2%nat, WBox TVerKey)];
  (* ffi/bls.rs:407-433 *)
  mkFn "ursa_bls_ver_key_as_bytes" [PIn TVerKey false; POutVal; POutVal]
    (c_reference 0 TVerKey 100 ++ c_ptr 1 101 ++ c_ptr 2 102)
    [(1%nat, WVal); (2%nat, WVal)];
  (* ffi/bls.rs:441-452 *)
  mkFn "ursa_bls_ver_key_free" [PTake TVerKey]
    (c_ptr 0 100 ++ [Take 0 TVerKey])
    [];
  (* ffi/bls.rs:464-498 *)
  mkFn "ursa_bls_pop_new" [PIn TVerKey false; PIn TSignKey false; POut TProofOfPossession]
    (c_reference 0 TVerKey 100 ++ c_reference 1 TSignKey 101)
    [(2%nat, WBox TProofOfPossession)];
  (* ffi/bls.rs:510-545 *)
  mkFn "ursa_bls_pop_from_bytes" [PBuf; PVal; POut TProofOfPossession]
    (c_byte_array 0 100 101 ++ c_ptr 2 102)
    [(2%nat, WBox TProofOfPossession)];
  (* ffi/bls.rs:557-583 *)
  mkFn "ursa_bls_pop_as_bytes" [PIn TProofOfPossession false; POutVal; POutVal]
    (c_reference 0 TProofOfPossession 100 ++ c_ptr 1 101 ++ c_ptr 2 102)
    [(1%nat, WVal); (2%nat, WVal)];
  (* ffi/bls.rs:591-602 *)
  mkFn "ursa_bls_pop_free" [PTake TProofOfPossession]
    (c_ptr 0 100 ++ [Take 0 TProofOfPossession])
    [];
  (* ffi/bls.rs:614-652 *)
  mkFn "ursa_bls_signature_from_bytes" [PBuf; PVal; POut TSignature]
    (c_byte_array 0 100 101 ++ c_ptr 2 100)
    [(2%nat, WBox TSignature)];
  (* ffi/bls.rs:664-690 *)
  mkFn "ursa_bls_signature_as_bytes" [PIn TSignature false; POutVal; POutVal]
    (c_reference 0 TSignature 100 ++ c_ptr 1 101 ++ c_ptr 2 102)
    [(1%nat, WVal); (2%nat, WVal)];
  (* ffi/bls.rs:698-709 *)
  mkFn "ursa_bls_signature_free" [PTake TSignature]
    (c_ptr 0 100 ++ [Take 0 TSignature])
    [];
  (* ffi/bls.rs:721-755 *)
  mkFn "ursa_bls_multi_signature_new" [PArr TSignature; PVal; POut TMultiSignature]
    (c_reference_array 0 TSignature 100 101 ++ c_ptr 2 102)
    [(2%nat, WBox TMultiSignature)];
  (* ffi/bls.rs:767-808 *)
  mkFn "ursa_bls_multi_signature_from_bytes" [PBuf; PVal; POut TMultiSignature]
    (c_byte_array 0 100 101 ++ c_ptr 2 100)
    [(2%nat, WBox TMultiSignature)];
  (* ffi/bls.rs:820-850 *)
  mkFn "ursa_bls_multi_signature_as_bytes" [PIn TMultiSignature false; POutVal; POutVal]
    (c_ptr 0 100 ++ c_ptr 1 101 ++ c_ptr 2 102 ++ [Ref 0 TMultiSignature false])
    [(1%nat, WVal); (2%nat, WVal)];
  (* ffi/bls.rs:858-872 *)
  mkFn "ursa_bls_multi_signature_free" [PTake TMultiSignature]
    (c_ptr 0 100 ++ [Take 0 TMultiSignature])
    [];
  (* ffi/bls.rs:887-929 *)
  mkFn "ursa_bls_sign" [PBuf; PVal; PIn TSignKey false; POut TSignature]
    (c_byte_array 0 100 101 ++ c_reference 2 TSignKey 102 ++ c_ptr 3 104)
    [(3%nat, WBox TSignature)];
  (* ffi/bls.rs:943-984 *)
  mkFn "ursa_bls_verify" [PIn TSignature false; PBuf; PVal; PIn TVerKey false; PIn TGenerator false; POutVal]
    (c_reference 0 TSignature 100 ++ c_byte_array 1 101 102 ++ c_reference 3 TVerKey 103 ++ c_reference 4 TGenerator 104 ++ c_ptr 5 105)
    [(5%nat, WVal)];
  (* ffi/bls.rs:999-1047 *)
  mkFn "ursa_bls_verify_multi_sig" [PIn TMultiSignature false; PBuf; PVal; PArr TVerKey; PVal; PIn TGenerator false; POutVal]
    (c_reference 0 TMultiSignature 100 ++ c_byte_array 1 101 102 ++ c_reference_array 3 TVerKey 103 104 ++ c_reference 5 TGenerator 105 ++ c_ptr 6 106)
    [(6%nat, WVal)];
  (* ffi/bls.rs:1059-1097 *)
  mkFn "ursa_bls_verify_pop" [PIn TProofOfPossession false; PIn TVerKey false; PIn TGenerator false; POutVal]
    (c_reference 0 TProofOfPossession 100 ++ c_reference 1 TVerKey 101 ++ c_reference 2 TGenerator 102 ++ c_ptr 3 103)
    [(3%nat, WVal)];
  (* ffi/cl/mod.rs:21-54 *)
  mkFn "ursa_cl_tails_generator_next" [PIn TRevocationTailsGenerator true; POutOpt TTail]
    (mut_c_reference 0 TRevocationTailsGenerator 100 ++ c_ptr 1 101)
    [(1%nat, WBoxOpt TTail)];
  (* ffi/cl/mod.rs:58-83 *)
  mkFn "ursa_cl_tails_generator_count" [PIn TRevocationTailsGenerator true; POutVal]
    (mut_c_reference 0 TRevocationTailsGenerator 100 ++ c_ptr 1 101)
    [(1%nat, WVal)];
  (* ffi/cl/mod.rs:87-98 *)
  mkFn "ursa_cl_tail_free" [PTake TTail]
    (c_ptr 0 100 ++ [Take 0 TTail])
    [];
  (* ffi/cl/mod.rs:102-140 *)
  mkFn "ursa_cl_witness_new" [PVal; PVal; PVal; PIn TRevocationRegistryDelta false; PVal; PVal; PVal; POut TWitness]
    (c_reference 3 TRevocationRegistryDelta 102)
    [(7%nat, WBox TWitness)];
  (* ffi/cl/mod.rs:144-170 *)
  mkFn "ursa_cl_witness_update" [PVal; PVal; PIn TRevocationRegistryDelta false; PIn TWitness true; PVal; PVal; PVal]
    (c_reference 2 TRevocationRegistryDelta 102 ++ mut_c_reference 3 TWitness 103)
    [];
  (* ffi/cl/mod.rs:174-185 *)
  mkFn "ursa_cl_witness_free" [PTake TWitness]
    (c_ptr 0 100 ++ [Take 0 TWitness])
    [];
  (* ffi/cl/mod.rs:199-229 *)
  mkFn "ursa_cl_credential_schema_builder_new" [POut TCredentialSchemaBuilder]
    (c_ptr 0 100)
    [(0%nat, WBox TCredentialSchemaBuilder)];
  (* ffi/cl/mod.rs:238-262 *)
  mkFn "ursa_cl_credential_schema_builder_add_attr" [PIn TCredentialSchemaBuilder true; PStr]
    (mut_c_reference 0 TCredentialSchemaBuilder 100 ++ c_str 1 101)
    [];
  (* ffi/cl/mod.rs:274-313 *)
  mkFn "ursa_cl_credential_schema_builder_finalize" [PTake TCredentialSchemaBuilder; POut TCredentialSchema]
    (c_ptr 0 100 ++ c_ptr 1 101 ++ [Take 0 TCredentialSchemaBuilder])
    [(1%nat, WBox TCredentialSchema)];
  (* ffi/cl/mod.rs:321-338 *)
  mkFn "ursa_cl_credential_schema_free" [PTake TCredentialSchema]
    (c_ptr 0 100 ++ [Take 0 TCredentialSchema])
    [];
  (* ffi/cl/mod.rs:352-388 *)
  mkFn "ursa_cl_non_credential_schema_builder_new" [POut TNonCredentialSchemaBuilder]
    (c_ptr 0 100)
    [(0%nat, WBox TNonCredentialSchemaBuilder)];
  (* ffi/cl/mod.rs:397-421 *)
  mkFn "ursa_cl_non_credential_schema_builder_add_attr" [PIn TNonCredentialSchemaBuilder true; PStr]
    (mut_c_reference 0 TNonCredentialSchemaBuilder 100 ++ c_str 1 101)
    [];
  (* ffi/cl/mod.rs:433-476 *)
  mkFn "ursa_cl_non_credential_schema_builder_finalize" [PTake TNonCredentialSchemaBuilder; POut TNonCredentialSchema]
    (c_ptr 0 100 ++ c_ptr 1 101 ++ [Take 0 TNonCredentialSchemaBuilder])
    [(1%nat, WBox TNonCredentialSchema)];
  (* ffi/cl/mod.rs:484-504 *)
  mkFn "ursa_cl_non_credential_schema_free" [PTake TNonCredentialSchema]
    (c_ptr 0 100 ++ [Take 0 TNonCredentialSchema])
    [];
  (* ffi/cl/mod.rs:518-548 *)
  mkFn "ursa_cl_credential_values_builder_new" [POut TCredentialValuesBuilder]
    (c_ptr 0 100)
    [(0%nat, WBox TCredentialValuesBuilder)];
  (* ffi/cl/mod.rs:558-585 *)
  mkFn "ursa_cl_credential_values_builder_add_dec_known" [PIn TCredentialValuesBuilder true; PStr; PStr]
    (mut_c_reference 0 TCredentialValuesBuilder 100 ++ c_str 1 101 ++ c_str 2 102)
    [];
  (* ffi/cl/mod.rs:595-622 *)
  mkFn "ursa_cl_credential_values_builder_add_dec_hidden" [PIn TCredentialValuesBuilder true; PStr; PStr]
    (mut_c_reference 0 TCredentialValuesBuilder 100 ++ c_str 1 101 ++ c_str 2 102)
    [];
  (* ffi/cl/mod.rs:633-664 *)
  mkFn "ursa_cl_credential_values_builder_add_dec_commitment" [PIn TCredentialValuesBuilder true; PStr; PStr; PStr]
    (mut_c_reference 0 TCredentialValuesBuilder 100 ++ c_str 1 101 ++ c_str 2 102 ++ c_str 3 103)
    [];
  (* ffi/cl/mod.rs:676-715 *)
  mkFn "ursa_cl_credential_values_builder_finalize" [PTake TCredentialValuesBuilder; POut TCredentialValues]
    (c_ptr 0 100 ++ c_ptr 1 101 ++ [Take 0 TCredentialValuesBuilder])
    [(1%nat, WBox TCredentialValues)];
  (* ffi/cl/mod.rs:723-740 *)
  mkFn "ursa_cl_credential_values_free" [PTake TCredentialValues]
    (c_ptr 0 100 ++ [Take 0 TCredentialValues])
    [];
  (* ffi/cl/mod.rs:754-784 *)
  mkFn "ursa_cl_sub_proof_request_builder_new" [POut TSubProofRequestBuilder]
    (c_ptr 0 100)
    [(0%nat, WBox TSubProofRequestBuilder)];
  (* ffi/cl/mod.rs:793-819 *)
  mkFn "ursa_cl_sub_proof_request_builder_add_revealed_attr" [PIn TSubProofRequestBuilder true; PStr]
    (mut_c_reference 0 TSubProofRequestBuilder 100 ++ c_str 1 101)
    [];
  (* ffi/cl/mod.rs:830-859 *)
  mkFn "ursa_cl_sub_proof_request_builder_add_predicate" [PIn TSubProofRequestBuilder true; PStr; PStr; PVal]
    (mut_c_reference 0 TSubProofRequestBuilder 100 ++ c_str 1 101 ++ c_str 2 102)
    [];
  (* ffi/cl/mod.rs:871-911 *)
  mkFn "ursa_cl_sub_proof_request_builder_finalize" [PTake TSubProofRequestBuilder; POut TSubProofRequest]
    (c_ptr 0 100 ++ c_ptr 1 101 ++ [Take 0 TSubProofRequestBuilder])
    [(1%nat, WBox TSubProofRequest)];
  (* ffi/cl/mod.rs:919-936 *)
  mkFn "ursa_cl_sub_proof_request_free" [PTake TSubProofRequest]
    (c_ptr 0 100 ++ [Take 0 TSubProofRequest])
    [];
  (* ffi/cl/mod.rs:946-964 *)
  mkFn "ursa_cl_new_nonce" [POut TNonce]
    (c_ptr 0 100)
    [(0%nat, WBox TNonce)];
  (* ffi/cl/mod.rs:973-1007 *)
  mkFn "ursa_cl_nonce_to_json" [PIn TNonce false; POutStr]
    (c_reference 0 TNonce 100 ++ c_ptr 1 101)
    [(1%nat, WStr)];
  (* ffi/cl/mod.rs:1018-1054 *)
  mkFn "ursa_cl_nonce_from_json" [PStr; POut TNonce]
    (c_str 0 100 ++ c_ptr 1 101)
    [(1%nat, WBox TNonce)];
  (* ffi/cl/mod.rs:1062-1073 *)
  mkFn "ursa_cl_nonce_free" [PTake TNonce]
    (c_ptr 0 100 ++ [Take 0 TNonce])
    [];
  (* ffi/cl/issuer.rs:34-108 *)
  mkFn "ursa_cl_issuer_new_credential_def" [PIn TCredentialSchema false; PIn TNonCredentialSchema false; PVal; POut TCredentialPublicKey; POut TCredentialPrivateKey; POut TCredentialKeyCorrectnessProof]
    (c_reference 0 TCredentialSchema 100 ++ c_reference 1 TNonCredentialSchema 101 ++ c_ptr 3 102 ++ c_ptr 4 103 ++ c_ptr 5 104)
    [(3%nat, WBox TCredentialPublicKey); (4%nat, WBox TCredentialPrivateKey); (5%nat, WBox TCredentialKeyCorrectnessProof)];
  (* ffi/cl/issuer.rs:117-160 *)
  mkFn "ursa_cl_credential_public_key_to_json" [PIn TCredentialPublicKey false; POutStr]
    (c_reference 0 TCredentialPublicKey 100 ++ c_ptr 1 101)
    [(1%nat, WStr)];
  (* ffi/cl/issuer.rs:172-214 *)
  mkFn "ursa_cl_credential_public_key_from_json" [PStr; POut TCredentialPublicKey]
    (c_str 0 100 ++ c_ptr 1 101)
    [(1%nat, WBox TCredentialPublicKey)];
  (* ffi/cl/issuer.rs:222-242 *)
  mkFn "ursa_cl_credential_public_key_free" [PTake TCredentialPublicKey]
    (c_ptr 0 100 ++ [Take 0 TCredentialPublicKey])
    [];
  (* ffi/cl/issuer.rs:251-294 *)
  mkFn "ursa_cl_credential_private_key_to_json" [PIn TCredentialPrivateKey false; POutStr]
    (c_reference 0 TCredentialPrivateKey 100 ++ c_ptr 1 101)
    [(1%nat, WStr)];
  (* ffi/cl/issuer.rs:306-348 *)
  mkFn "ursa_cl_credential_private_key_from_json" [PStr; POut TCredentialPrivateKey]
    (c_str 0 100 ++ c_ptr 1 101)
    [(1%nat, WBox TCredentialPrivateKey)];
  (* ffi/cl/issuer.rs:356-376 *)
  mkFn "ursa_cl_credential_private_key_free" [PTake TCredentialPrivateKey]
    (c_ptr 0 100 ++ [Take 0 TCredentialPrivateKey])
    [];
  (* ffi/cl/issuer.rs:385-428 *)
  mkFn "ursa_cl_credential_key_correctness_proof_to_json" [PIn TCredentialKeyCorrectnessProof false; POutStr]
    (c_reference 0 TCredentialKeyCorrectnessProof 100 ++ c_ptr 1 101)
    [(1%nat, WStr)];
  (* ffi/cl/issuer.rs:440-482 *)
  mkFn "ursa_cl_credential_key_correctness_proof_from_json" [PStr; POut TCredentialKeyCorrectnessProof]
    (c_str 0 100 ++ c_ptr 1 101)
    [(1%nat, WBox TCredentialKeyCorrectnessProof)];
  (* ffi/cl/issuer.rs:490-514 *)
  mkFn "ursa_cl_credential_key_correctness_proof_free" [PTake TCredentialKeyCorrectnessProof]
    (c_ptr 0 100 ++ [Take 0 TCredentialKeyCorrectnessProof])
    [];
  (* ffi/cl/issuer.rs:540-591 *)
  mkFn "ursa_cl_issuer_new_revocation_registry_def" [PIn TCredentialPublicKey false; PVal; PVal; POut TRevocationKeyPublic; POut TRevocationKeyPrivate; POut TRevocationRegistry; POut TRevocationTailsGenerator]
    (c_reference 0 TCredentialPublicKey 100 ++ c_ptr 3 103 ++ c_ptr 4 104 ++ c_ptr 5 105 ++ c_ptr 6 106)
    [(3%nat, WBox TRevocationKeyPublic); (4%nat, WBox TRevocationKeyPrivate); (5%nat, WBox TRevocationRegistry); (6%nat, WBox TRevocationTailsGenerator)];
  (* ffi/cl/issuer.rs:600-647 *)
  mkFn "ursa_cl_revocation_key_public_to_json" [PIn TRevocationKeyPublic false; POutStr]
    (c_reference 0 TRevocationKeyPublic 100 ++ c_ptr 1 101)
    [(1%nat, WStr)];
  (* ffi/cl/issuer.rs:659-704 *)
  mkFn "ursa_cl_revocation_key_public_from_json" [PStr; POut TRevocationKeyPublic]
    (c_str 0 100 ++ c_ptr 1 101)
    [(1%nat, WBox TRevocationKeyPublic)];
  (* ffi/cl/issuer.rs:712-728 *)
  mkFn "ursa_cl_revocation_key_public_free" [PTake TRevocationKeyPublic]
    (c_ptr 0 100 ++ [Take 0 TRevocationKeyPublic])
    [];
  (* ffi/cl/issuer.rs:737-784 *)
  mkFn "ursa_cl_revocation_key_private_to_json" [PIn TRevocationKeyPrivate false; POutStr]
    (c_reference 0 TRevocationKeyPrivate 100 ++ c_ptr 1 101)
    [(1%nat, WStr)];
  (* ffi/cl/issuer.rs:796-838 *)
  mkFn "ursa_cl_revocation_key_private_from_json" [PStr; POut TRevocationKeyPrivate]
    (c_str 0 100 ++ c_ptr 1 101)
    [(1%nat, WBox TRevocationKeyPrivate)];
  (* ffi/cl/issuer.rs:846-863 *)
  mkFn "ursa_cl_revocation_key_private_free" [PTake TRevocationKeyPrivate]
    (c_ptr 0 100 ++ [Take 0 TRevocationKeyPrivate])
    [];
  (* ffi/cl/issuer.rs:872-915 *)
  mkFn "ursa_cl_revocation_registry_to_json" [PIn TRevocationRegistry false; POutStr]
    (c_reference 0 TRevocationRegistry 100 ++ c_ptr 1 101)
    [(1%nat, WStr)];
  (* ffi/cl/issuer.rs:927-969 *)
  mkFn "ursa_cl_revocation_registry_from_json" [PStr; POut TRevocationRegistry]
    (c_str 0 100 ++ c_ptr 1 101)
    [(1%nat, WBox TRevocationRegistry)];
  (* ffi/cl/issuer.rs:977-994 *)
  mkFn "ursa_cl_revocation_registry_free" [PTake TRevocationRegistry]
    (c_ptr 0 100 ++ [Take 0 TRevocationRegistry])
    [];
  (* ffi/cl/issuer.rs:1003-1050 *)
  mkFn "ursa_cl_revocation_tails_generator_to_json" [PIn TRevocationTailsGenerator false; POutStr]
    (c_reference 0 TRevocationTailsGenerator 100 ++ c_ptr 1 101)
    [(1%nat, WStr)];
  (* ffi/cl/issuer.rs:1062-1105 *)
  mkFn "ursa_cl_revocation_tails_generator_from_json" [PStr; POut TRevocationTailsGenerator]
    (c_str 0 100 ++ c_ptr 1 101)
    [(1%nat, WBox TRevocationTailsGenerator)];
  (* ffi/cl/issuer.rs:1113-1136 *)
  mkFn "ursa_cl_revocation_tails_generator_free" [PTake TRevocationTailsGenerator]
    (c_ptr 0 100 ++ [Take 0 TRevocationTailsGenerator])
    [];
  (* ffi/cl/issuer.rs:1159-1249 *)
  mkFn "ursa_cl_issuer_sign_credential" [PStr; PIn TBlindedCredentialSecrets false; PIn TBlindedCredentialSecretsCorrectnessProof false; PIn TNonce false; PIn TNonce false; PIn TCredentialValues false; PIn TCredentialPublicKey false; PIn TCredentialPrivateKey false; POut TCredentialSignature; POut TSignatureCorrectnessProof]
    (c_str 0 100 ++ c_reference 1 TBlindedCredentialSecrets 101 ++ c_reference 2 TBlindedCredentialSecretsCorrectnessProof 102 ++ c_reference 3 TNonce 103 ++ c_reference 4 TNonce 104 ++ c_reference 5 TCredentialValues 105 ++ c_reference 6 TCredentialPublicKey 106 ++ c_reference 7 TCredentialPrivateKey 107 ++ c_ptr 8 109 ++ c_ptr 9 110)
    [(8%nat, WBox TCredentialSignature); (9%nat, WBox TSignatureCorrectnessProof)];
  (* ffi/cl/issuer.rs:1282-1399 *)
  mkFn "ursa_cl_issuer_sign_credential_with_revoc" [PStr; PIn TBlindedCredentialSecrets false; PIn TBlindedCredentialSecretsCorrectnessProof false; PIn TNonce false; PIn TNonce false; PIn TCredentialValues false; PIn TCredentialPublicKey false; PIn TCredentialPrivateKey false; PVal; PVal; PVal; PIn TRevocationRegistry true; PIn TRevocationKeyPrivate false; PVal; PVal; PVal; POut TCredentialSignature; POut TSignatureCorrectnessProof; POutOpt TRevocationRegistryDelta]
    (c_str 0 100 ++ c_reference 1 TBlindedCredentialSecrets 101 ++ c_reference 2 TBlindedCredentialSecretsCorrectnessProof 102 ++ c_reference 3 TNonce 103 ++ c_reference 4 TNonce 104 ++ c_reference 5 TCredentialValues 105 ++ c_reference 6 TCredentialPublicKey 106 ++ c_reference 7 TCredentialPrivateKey 107 ++ mut_c_reference 11 TRevocationRegistry 111 ++ c_reference 12 TRevocationKeyPrivate 112 ++ c_ptr 16 112 ++ c_ptr 17 112 ++ c_ptr 18 112)
    [(16%nat, WBox TCredentialSignature); (17%nat, WBox TSignatureCorrectnessProof); (18%nat, WBoxOpt TRevocationRegistryDelta)];
  (* ffi/cl/issuer.rs:1408-1452 *)
  mkFn "ursa_cl_credential_signature_to_json" [PIn TCredentialSignature false; POutStr]
    (c_reference 0 TCredentialSignature 100 ++ c_ptr 1 101)
    [(1%nat, WStr)];
  (* ffi/cl/issuer.rs:1464-1504 *)
  mkFn "ursa_cl_credential_signature_from_json" [PStr; POut TCredentialSignature]
    (c_str 0 100 ++ c_ptr 1 101)
    [(1%nat, WBox TCredentialSignature)];
  (* ffi/cl/issuer.rs:1512-1531 *)
  mkFn "ursa_cl_credential_signature_free" [PTake TCredentialSignature]
    (c_ptr 0 100 ++ [Take 0 TCredentialSignature])
    [];
  (* ffi/cl/issuer.rs:1540-1585 *)
  mkFn "ursa_cl_signature_correctness_proof_to_json" [PIn TSignatureCorrectnessProof false; POutStr]
    (c_reference 0 TSignatureCorrectnessProof 100 ++ c_ptr 1 101)
    [(1%nat, WStr)];
  (* ffi/cl/issuer.rs:1597-1642 *)
  mkFn "ursa_cl_signature_correctness_proof_from_json" [PStr; POut TSignatureCorrectnessProof]
    (c_str 0 100 ++ c_ptr 1 101)
    [(1%nat, WBox TSignatureCorrectnessProof)];
  (* ffi/cl/issuer.rs:1650-1672 *)
  mkFn "ursa_cl_signature_correctness_proof_free" [PTake TSignatureCorrectnessProof]
    (c_ptr 0 100 ++ [Take 0 TSignatureCorrectnessProof])
    [];
  (* ffi/cl/issuer.rs:1681-1729 *)
  mkFn "ursa_cl_revocation_registry_delta_to_json" [PIn TRevocationRegistryDelta false; POutStr]
    (c_reference 0 TSignatureCorrectnessProof 100 ++ c_ptr 1 101)
    [(1%nat, WStr)];
  (* ffi/cl/issuer.rs:1741-1786 *)
  mkFn "ursa_cl_revocation_registry_delta_from_json" [PStr; POut TRevocationRegistryDelta]
    (c_str 0 100 ++ c_ptr 1 101)
    [(1%nat, WBox TSignatureCorrectnessProof)];
  (* ffi/cl/issuer.rs:1794-1813 *)
  mkFn "ursa_cl_revocation_registry_delta_free" [PTake TRevocationRegistryDelta]
    (c_ptr 0 100 ++ [Take 0 TRevocationRegistryDelta])
    [];
  (* ffi/cl/issuer.rs:1817-1874 *)
  mkFn "ursa_revocation_registry_delta_from_parts" [PInOpt TRevocationRegistry; PIn TRevocationRegistry false; PInts; PVal; PInts; PVal; POut TRevocationRegistryDelta]
    (opt_c_reference 0 TRevocationRegistry ++ c_reference 1 TRevocationRegistry 101 ++ hashset 2 102 ++ hashset 4 104)
    [(6%nat, WBox TRevocationRegistryDelta)];
  (* ffi/cl/issuer.rs:1885-1920 *)
  mkFn "ursa_cl_issuer_revoke_credential" [PIn TRevocationRegistry true; PVal; PVal; PVal; PVal; PVal; POut TRevocationRegistryDelta]
    (mut_c_reference 0 TRevocationRegistry 100)
    [(6%nat, WBox TRevocationRegistryDelta)];
  (* ffi/cl/issuer.rs:1931-1966 *)
  mkFn "ursa_cl_issuer_recovery_credential" [PIn TRevocationRegistry true; PVal; PVal; PVal; PVal; PVal; POut TRevocationRegistryDelta]
    (mut_c_reference 0 TRevocationRegistry 100)
    [(6%nat, WBox TRevocationRegistryDelta)];
  (* ffi/cl/issuer.rs:1970-2008 *)
  mkFn "ursa_cl_issuer_merge_revocation_registry_deltas" [PIn TRevocationRegistryDelta true; PIn TRevocationRegistryDelta false; POut TRevocationRegistryDelta]
    (mut_c_reference 0 TRevocationRegistryDelta 100 ++ c_reference 1 TRevocationRegistryDelta 101)
    [(2%nat, WUnit)];
  (* ffi/cl/prover.rs:18-47 *)
  mkFn "ursa_cl_prover_new_master_secret" [POut TMasterSecret]
    (c_ptr 0 100)
    [(0%nat, WBox TMasterSecret)];
  (* ffi/cl/prover.rs:56-99 *)
  mkFn "ursa_cl_master_secret_to_json" [PIn TMasterSecret false; POutStr]
    (c_reference 0 TMasterSecret 100 ++ c_ptr 1 101)
    [(1%nat, WStr)];
  (* ffi/cl/prover.rs:111-153 *)
  mkFn "ursa_cl_master_secret_from_json" [PStr; POut TMasterSecret]
    (c_str 0 100 ++ c_ptr 1 101)
    [(1%nat, WBox TMasterSecret)];
  (* ffi/cl/prover.rs:161-178 *)
  mkFn "ursa_cl_master_secret_free" [PTake TMasterSecret]
    (c_ptr 0 100 ++ [Take 0 TMasterSecret])
    [];
  (* ffi/cl/prover.rs:201-307 *)
  mkFn "ursa_cl_prover_blind_credential_secrets" [PIn TCredentialPublicKey false; PIn TCredentialKeyCorrectnessProof false; PIn TCredentialValues false; PIn TNonce false; POut TBlindedCredentialSecrets; POut TCredentialSecretsBlindingFactors; POut TBlindedCredentialSecretsCorrectnessProof]
    (c_reference 0 TCredentialPublicKey 100 ++ c_reference 1 TCredentialKeyCorrectnessProof 101 ++ c_reference 2 TCredentialValues 102 ++ c_reference 3 TNonce 103 ++ c_ptr 4 104 ++ c_ptr 5 105 ++ c_ptr 6 106)
    [(4%nat, WBox TBlindedCredentialSecrets); (5%nat, WBox TCredentialSecretsBlindingFactors); (6%nat, WBox TBlindedCredentialSecretsCorrectnessProof)];
  (* ffi/cl/prover.rs:316-369 *)
  mkFn "ursa_cl_blinded_credential_secrets_to_json" [PIn TBlindedCredentialSecrets false; POutStr]
    (c_reference 0 TBlindedCredentialSecrets 100 ++ c_ptr 1 101)
    [(1%nat, WStr)];
  (* ffi/cl/prover.rs:381-422 *)
  mkFn "ursa_cl_blinded_credential_secrets_from_json" [PStr; POut TBlindedCredentialSecrets]
    (c_str 0 100 ++ c_ptr 1 101)
    [(1%nat, WBox TBlindedCredentialSecrets)];
  (* ffi/cl/prover.rs:430-453 *)
  mkFn "ursa_cl_blinded_credential_secrets_free" [PTake TBlindedCredentialSecrets]
    (c_ptr 0 100 ++ [Take 0 TBlindedCredentialSecrets])
    [];
  (* ffi/cl/prover.rs:462-505 *)
  mkFn "ursa_cl_credential_secrets_blinding_factors_to_json" [PIn TCredentialSecretsBlindingFactors false; POutStr]
    (c_reference 0 TCredentialSecretsBlindingFactors 100 ++ c_ptr 1 101)
    [(1%nat, WStr)];
  (* ffi/cl/prover.rs:517-559 *)
  mkFn "ursa_cl_credential_secrets_blinding_factors_from_json" [PStr; POut TCredentialSecretsBlindingFactors]
    (c_str 0 100 ++ c_ptr 1 101)
    [(1%nat, WBox TCredentialSecretsBlindingFactors)];
  (* ffi/cl/prover.rs:567-588 *)
  mkFn "ursa_cl_credential_secrets_blinding_factors_free" [PTake TCredentialSecretsBlindingFactors]
    (c_ptr 0 100 ++ [Take 0 TCredentialSecretsBlindingFactors])
    [];
  (* ffi/cl/prover.rs:597-643 *)
  mkFn "ursa_cl_blinded_credential_secrets_correctness_proof_to_json" [PIn TBlindedCredentialSecretsCorrectnessProof false; POutStr]
    (c_reference 0 TBlindedCredentialSecretsCorrectnessProof 100 ++ c_ptr 1 101)
    [(1%nat, WStr)];
  (* ffi/cl/prover.rs:655-701 *)
  mkFn "ursa_cl_blinded_credential_secrets_correctness_proof_from_json" [PStr; POut TBlindedCredentialSecretsCorrectnessProof]
    (c_str 0 100 ++ c_ptr 1 101)
    [(1%nat, WBox TBlindedCredentialSecretsCorrectnessProof)];
  (* ffi/cl/prover.rs:709-734 *)
  mkFn "ursa_cl_blinded_credential_secrets_correctness_proof_free" [PTake TBlindedCredentialSecretsCorrectnessProof]
    (c_ptr 0 100 ++ [Take 0 TBlindedCredentialSecretsCorrectnessProof])
    [];
  (* ffi/cl/prover.rs:751-854 *)
  mkFn "ursa_cl_prover_process_credential_signature" [PIn TCredentialSignature true; PIn TCredentialValues false; PIn TSignatureCorrectnessProof false; PIn TCredentialSecretsBlindingFactors false; PIn TCredentialPublicKey false; PIn TNonce false; PInOpt TRevocationKeyPublic; PInOpt TRevocationRegistry; PInOpt TWitness]
    (mut_c_reference 0 TCredentialSignature 100 ++ c_reference 1 TCredentialValues 101 ++ c_reference 2 TSignatureCorrectnessProof 102 ++ c_reference 3 TCredentialSecretsBlindingFactors 103 ++ c_reference 4 TCredentialPublicKey 104 ++ c_reference 5 TNonce 105 ++ opt_c_reference 6 TRevocationKeyPublic ++ opt_c_reference 7 TRevocationRegistry ++ opt_c_reference 8 TWitness)
    [];
  (* ffi/cl/prover.rs:859-903 *)
  mkFn "ursa_cl_prover_get_credential_revocation_index" [PIn TCredentialSignature false; POutVal]
    (c_reference 0 TCredentialSignature 100)
    [(1%nat, WVal)];
  (* ffi/cl/prover.rs:916-945 *)
  mkFn "ursa_cl_prover_new_proof_builder" [POut TProofBuilder]
    (c_ptr 0 100)
    [(0%nat, WBox TProofBuilder)];
  (* ffi/cl/prover.rs:955-977 *)
  mkFn "ursa_cl_proof_builder_add_common_attribute" [PIn TProofBuilder true; PStr]
    (mut_c_reference 0 TProofBuilder 100 ++ c_str 1 101)
    [];
  (* ffi/cl/prover.rs:993-1098 *)
  mkFn "ursa_cl_proof_builder_add_sub_proof_request" [PIn TProofBuilder true; PIn TSubProofRequest false; PIn TCredentialSchema false; PIn TNonCredentialSchema false; PIn TCredentialSignature false; PIn TCredentialValues false; PIn TCredentialPublicKey false; PInOpt TRevocationRegistry; PInOpt TWitness]
    (mut_c_reference 0 TProofBuilder 100 ++ c_reference 1 TSubProofRequest 101 ++ c_reference 2 TCredentialSchema 102 ++ c_reference 3 TNonCredentialSchema 103 ++ c_reference 4 TCredentialSignature 104 ++ c_reference 5 TCredentialValues 105 ++ c_reference 6 TCredentialPublicKey 106 ++ opt_c_reference 7 TRevocationRegistry ++ opt_c_reference 8 TWitness)
    [];
  (* ffi/cl/prover.rs:1111-1148 *)
  mkFn "ursa_cl_proof_builder_finalize" [PTake TProofBuilder; PIn TNonce false; POut TProof]
    (c_ptr 0 100 ++ c_reference 1 TNonce 101 ++ c_ptr 2 102 ++ [Take 0 TProofBuilder])
    [(2%nat, WBox TProof)];
  (* ffi/cl/prover.rs:1157-1191 *)
  mkFn "ursa_cl_proof_to_json" [PIn TProof false; POutStr]
    (c_reference 0 TProof 100 ++ c_ptr 1 101)
    [(1%nat, WStr)];
  (* ffi/cl/prover.rs:1202-1238 *)
  mkFn "ursa_cl_proof_from_json" [PStr; POut TProof]
    (c_str 0 100 ++ c_ptr 1 101)
    [(1%nat, WBox TProof)];
  (* ffi/cl/prover.rs:1246-1257 *)
  mkFn "ursa_cl_proof_free" [PTake TProof]
    (c_ptr 0 100 ++ [Take 0 TProof])
    [];
  (* ffi/cl/verifier.rs:17-46 *)
  mkFn "ursa_cl_verifier_new_proof_verifier" [POut TProofVerifier]
    (c_ptr 0 100)
    [(0%nat, WBox TProofVerifier)];
  (* ffi/cl/verifier.rs:56-82 *)
  mkFn "ursa_cl_proof_verifier_add_common_attribute" [PIn TProofVerifier true; PStr]
    (mut_c_reference 0 TProofVerifier 100 ++ c_str 1 101)
    [];
  (* ffi/cl/verifier.rs:86-160 *)
  mkFn "ursa_cl_proof_verifier_add_sub_proof_request" [PIn TProofVerifier true; PIn TSubProofRequest false; PIn TCredentialSchema false; PIn TNonCredentialSchema false; PIn TCredentialPublicKey false; PInOpt TRevocationKeyPublic; PInOpt TRevocationRegistry]
    (mut_c_reference 0 TProofVerifier 100 ++ c_reference 1 TSubProofRequest 101 ++ c_reference 2 TCredentialSchema 102 ++ c_reference 3 TNonCredentialSchema 103 ++ c_reference 4 TCredentialPublicKey 104 ++ opt_c_reference 5 TRevocationKeyPublic ++ opt_c_reference 6 TRevocationRegistry)
    [];
  (* ffi/cl/verifier.rs:171-201 *)
  mkFn "ursa_cl_proof_verifier_verify" [PTake TProofVerifier; PIn TProof false; PIn TNonce false; POutVal]
    (c_ptr 0 100 ++ c_reference 1 TProof 101 ++ c_reference 2 TNonce 102 ++ c_ptr 3 103 ++ [Take 0 TProofVerifier])
    [(3%nat, WVal)];
  (* ffi/mod.rs:92 (define_string_destructor: null is ignored) *)
  mkFn "ursa_string_free" [PTakeOpt TCString]
    [TakeOpt 0 TCString]
    []
].
Close Scope string_scope.

(** ** running a call *)
Section Machine.
(** values behind the handles; UTF-8 validity; the allocator *)
Context {V : Type} (utf8 : list Z -> bool).
Definition heap := list (addr * (ty * V)).
Context (alloc : heap -> addr).

(** an argument: a pointer to an instance, an array of such, a C string, bytes or numbers (or
    null), a result slot ([false]: null), or a plain value *)
Inductive arg := AH (p : addr) | AHs (ps : option (list addr)) | AS (s : option (list Z)) | AB (b : option (list Z)) | AO (given : bool) | AV (z : Z).
Fixpoint look {A} (h : list (addr * A)) (p : addr) : option A := match h with [] => None | (q, x) :: h' => if (q =? p)%nat then Some x else look h' p end.
Fixpoint put {A} (h : list (addr * A)) (p : addr) (f : A -> A) : list (addr * A) := match h with [] => [] | (q, x) :: h' => if (q =? p)%nat then (q, f x) :: h' else (q, x) :: put h' p f end.
Fixpoint del {A} (h : list (addr * A)) (p : addr) : list (addr * A) := match h with [] => [] | (q, x) :: h' => if (q =? p)%nat then h' else (q, x) :: del h' p end.

(** is there a live instance of this type at p? (null, dangling and other types: undefined
    behaviour when dereferenced as t) *)
Definition live (h : heap) (t : ty) (p : addr) : bool := match look h p with Some (t', _) => ty_eqb t' t | None => false end.
Definition is_null (a : arg) : bool := match a with AH p => (p =? null)%nat | AHs None | AS None | AB None | AO false => true | _ => false end.
Definition is_empty (a : arg) : bool := match a with AHs (Some []) | AB (Some []) => true | _ => false end.
Definition bad_str (a : arg) : bool := match a with AS (Some s) => negb (utf8 s) || match s with [] => true | _ => false end | _ => true end.

Inductive sres := SUB | SEarly (c : Z) (h : heap) | SGo (h : heap).
Fixpoint run_steps (args : list arg) (l : list step) (h : heap) : sres :=
  match l with
  | [] => SGo h
  | s :: l' =>
      let a i := nth i args (AV 0) in
      match s with
      | Null i c => if is_null (a i) then SEarly c h else run_steps args l' h
      | StrOk i c => if bad_str (a i) then SEarly c h else run_steps args l' h
      | LenOk i c => if is_empty (a i) then SEarly c h else run_steps args l' h
      | Ref i t _ => match a i with AH p => if live h t p then run_steps args l' h else SUB | _ => SUB end
      | RefOpt i t => match a i with AH p => if (p =? null)%nat || live h t p then run_steps args l' h else SUB | _ => SUB end
      | Refs i t => match a i with AHs (Some ps) => if forallb (live h t) ps then run_steps args l' h else SUB | _ => SUB end
      | Take i t => match a i with AH p => if live h t p then run_steps args l' (del h p) else SUB | _ => SUB end
      | TakeOpt i t => match a i with AH p => if (p =? null)%nat then run_steps args l' h else if live h t p then run_steps args l' (del h p) else SUB | _ => SUB end
      end
  end.

(** two references to one instance, one of them mutable (or the box taken back): undefined
    behaviour *)
Definition addrs_of (a : arg) : list addr := match a with AH p => if (p =? null)%nat then [] else [p] | AHs (Some ps) => ps | _ => [] end.
Definition exclusive (l : list step) : list nat := flat_map (fun s => match s with Ref i _ true | Take i _ | TakeOpt i _ => [i] | _ => [] end) l.
Definition aliased (args : list arg) (l : list step) : bool :=
  existsb (fun i => existsb (fun j => negb (i =? j)%nat && existsb (fun p => existsb (Nat.eqb p) (addrs_of (nth j args (AV 0)))) (addrs_of (nth i args (AV 0)))) (seq 0 (length args))) (exclusive l).

(** what the library function in the middle is called with, and what it returns: an error, or
    for each result slot an instance, whether there is one, and a plain value; [mv i] is the new
    value of the instance behind a mutable parameter i (also after an error) *)
Inductive inp := IV (v : V) | INone | IVs (l : list V) | IB (b : option (list Z)) | IZ (z : Z).
Inductive bres := BPanic | BFail (k : kind) (mv : nat -> V) | BOk (mv : nat -> V) (ov : nat -> V) (on : nat -> bool) (oz : nat -> Z).
Context (body : string -> nat -> list inp -> bres).
Definition value (h : heap) (p : addr) : inp := match look h p with Some (_, v) => IV v | None => INone end.
Definition input (h : heap) (a : arg) : inp :=
  match a with
  | AH p => value h p
  | AHs (Some ps) => IVs (flat_map (fun p => match look h p with Some (_, v) => [v] | None => [] end) ps)
  | AHs None => INone
  | AS s => IB s | AB b => IB b | AO _ => INone | AV z => IZ z
  end.
Definition mutate (args : list arg) (l : list step) (mv : nat -> V) (h : heap) : heap :=
  fold_left (fun h s => match s with Ref i _ true => match nth i args (AV 0) with AH p => put h p (fun x => (fst x, mv i)) | _ => h end | _ => h end) l h.
(** writing the results; the slots written are returned with the pointer or value stored *)
Inductive slot := SPtr (p : addr) | SVal (z : Z).
Fixpoint write (args : list arg) (outs : list (nat * wr)) (ov : nat -> V) (on : nat -> bool) (oz : nat -> Z) (h : heap) : option (heap * list (nat * slot)) :=
  match outs with
  | [] => Some (h, [])
  | (i, w) :: o =>
      if is_null (nth i args (AV 0)) then None else
      let new t := let p := alloc h in match write args o ov on oz ((p, (t, ov i)) :: h) with Some (h', l) => Some (h', (i, SPtr p) :: l) | None => None end in
      let keep x := match write args o ov on oz h with Some (h', l) => Some (h', (i, x) :: l) | None => None end in
      match w with
      | WBox t => new t
      | WBoxOpt t => if on i then keep (SPtr null) else new t
      | WUnit => keep (SPtr unit_box)
      | WStr => new TCString
      | WVal => keep (SVal (oz i))
      end
  end.
(** a call: undefined behaviour, a panic in the library (nothing is said about what follows), a
    refusal by one of the checks, or a return code with the results *)
Inductive mres := MUB | MPanic | MRefused (c : Z) (h : heap) | MDone (c : Z) (h : heap) (l : list (nat * slot)).
Definition mcall (f : fn) (k : nat) (args : list arg) (h : heap) : mres :=
  match run_steps args (f_steps f) h with
  | SUB => MUB
  | SEarly c h1 => MRefused c h1
  | SGo h1 =>
      if aliased args (f_steps f) then MUB else
      match body (f_name f) k (map (input h) args) with
      | BPanic => MPanic
      | BFail e mv => MDone (code_of e) (mutate args (f_steps f) mv h1) []
      | BOk mv ov on oz =>
          match write args (f_outs f) ov on oz (mutate args (f_steps f) mv h1) with
          | Some (h2, l) => MDone success h2 l
          | None => MUB
          end
      end
  end.

(** ** a caller: a sequence of calls.  It remembers the pointers it was given by call and
    parameter number, and passes null or one of those *)
Definition name := (nat * nat)%type.
Inductive carg := CH (n : option name) | CHs (ns : option (list (option name))) | CS (s : option (list Z)) | CB (b : option (list Z)) | CO (given : bool) | CV (z : Z).
Definition slots := name -> addr.
Definition resolve (sl : slots) (c : carg) : arg :=
  match c with
  | CH None => AH null | CH (Some n) => AH (sl n)
  | CHs None => AHs None | CHs (Some ns) => AHs (Some (map (fun n => match n with Some n => sl n | None => null end) ns))
  | CS s => AS s | CB b => AB b | CO g => AO g | CV z => AV z
  end.
Definition name_eqb (a b : name) : bool := ((fst a =? fst b) && (snd a =? snd b))%nat.
Definition store (k : nat) (l : list (nat * slot)) (sl : slots) : slots :=
  fold_left (fun sl x => match snd x with SPtr p => fun n => if name_eqb n (k, fst x) then p else sl n | SVal _ => sl end) l sl.
(** what the caller sees of a call *)
Inductive obs := ORefused (c : Z) | ODone (c : Z) (vals : list (nat * Z)) (given : list nat).
Definition vals_of (l : list (nat * slot)) : list (nat * Z) := flat_map (fun x => match snd x with SVal z => [(fst x, z)] | SPtr _ => [] end) l.
Definition ptrs_of (l : list (nat * slot)) : list nat := flat_map (fun x => match snd x with SPtr p => if (p =? null)%nat then [] else [fst x] | SVal _ => [] end) l.
(** the whole run; [last] is the call whose error ursa_get_current_error reports
    (errors/mod.rs:188-243: set by every check that refuses and every error returned, never
    cleared) *)
Inductive run := RUB | RPanic (o : list obs) | REnd (o : list obs) (h : heap) (sl : slots) (last : option nat).
Fixpoint mrun (k : nat) (p : list (fn * list carg)) (h : heap) (sl : slots) (last : option nat) : run :=
  match p with
  | [] => REnd [] h sl last
  | (f, c) :: p' =>
      match mcall f k (map (resolve sl) c) h with
      | MUB => RUB
      | MPanic => RPanic []
      | MRefused e h1 => match mrun (S k) p' h1 sl (Some k) with RUB => RUB | RPanic o => RPanic (ORefused e :: o) | REnd o h' sl' la => REnd (ORefused e :: o) h' sl' la end
      | MDone e h1 l =>
          match mrun (S k) p' h1 (store k l sl) (if e =? success then last else Some k) with
          | RUB => RUB | RPanic o => RPanic (ODone e (vals_of l) (ptrs_of l) :: o)
          | REnd o h' sl' la => REnd (ODone e (vals_of l) (ptrs_of l) :: o) h' sl' la
          end
      end
  end.
End Machine.
