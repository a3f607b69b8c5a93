(** Model of the byte formats of the BBS+ crate, libzmix/bbs/src: signatures
    (signature.rs), public keys (keys.rs), proofs of committed values (pok_vc.rs),
    blind signature contexts, proof requests and disclosure proofs (lib.rs), proofs of
    knowledge of a signature (pok_sig.rs).

    The encodings of G1, G2 and Fr of the pairing_plus crate are the parameter [cd]: for
    one of the two forms (compressed or not), the sizes and the encoders, and decoders
    that are only given strings of that size ([deserialize] reads that many bytes and
    fails on fewer).  FR_COMPRESSED_SIZE is [szF] in both forms.  An [io::Error] becomes
    [ZGeneralError] (errors.rs:108-114).  [Vec::with_capacity] is not modelled (a length
    prefix of 2^32 - 1 in a public key asks for that many elements before any is read). *)
From Verif Require Import Base BnModel Alg ClRevModel BbsModel.
Import List ListNotations.
Open Scope list_scope.
Open Scope Z_scope.

Section Codec.
Variable C : curve.
Notation K := (cK C). Notation G1 := (cG1 C). Notation G2 := (cG2 C). Notation GT := (cGT C).
Record codec := mkCodec { sz1 : nat; sz2 : nat; szF : nat; e1 : G1 -> list Z; d1 : list Z -> option G1; e2 : G2 -> list Z; d2 : list Z -> option G2; eF : K -> list Z; dF : list Z -> option K }.
Variable cd : codec.

(** [X::deserialize(&mut reader, compressed)] on a reader holding [data] *)
Definition rd {A} (n : nat) (dec : list Z -> option A) (data : list Z) : res (A * list Z) :=
  if (length data <? n)%nat then Err (ZmixErr ZGeneralError) else
  match dec (firstn n data) with Some x => Ok (x, skipn n data) | None => Err (ZmixErr ZGeneralError) end.
(** [read_exact(..).unwrap()] of four bytes, or [u32::from_be_bytes] of them *)
Definition u32_from_be (b : list Z) : nat := Z.to_nat (nth 0 b 0 * 2 ^ 24 + nth 1 b 0 * 2 ^ 16 + nth 2 b 0 * 2 ^ 8 + nth 3 b 0).
Definition rd_u32 (data : list Z) : res (nat * list Z) := if (length data <? 4)%nat then Err Panic else Ok (u32_from_be (firstn 4 data), skipn 4 data).
(** [&data[a..b]], and [array_ref!] *)
Definition range (data : list Z) (a b : nat) : res (list Z) := if ((b <? a) || (length data <? b))%nat then Err Panic else Ok (firstn (b - a) (skipn a data)).
(** n elements one after the other *)
Fixpoint rd_many {A} (size : nat) (dec : list Z -> option A) (n : nat) (data : list Z) : res (list A * list Z) :=
  match n with
  | O => Ok ([], data)
  | S n' => let! (x, rest) := rd size dec data in let! (xs, rest') := rd_many size dec n' rest in Ok (x :: xs, rest')
  end.

(** signature.rs:47-58, 82-93 [to_bytes_*_form], [try_from] (the form is told from the length by the caller) *)
Definition sig_to_bytes (s : bbs_sig C) : list Z := e1 cd (sa _ s) ++ eF cd (se _ s) ++ eF cd (ss _ s).
Definition sig_from_bytes (data : list Z) : res (bbs_sig C) :=
  let! (a, data) := rd (sz1 cd) (d1 cd) data in
  let! (e, data) := rd (szF cd) (dF cd) data in
  let! (s, data) := rd (szF cd) (dF cd) data in
  Ok (mkBbsSig C a e s).

(** keys.rs:110-119 [PublicKey::to_bytes] *)
Definition pk_to_bytes (pk : bbs_pk C) : list Z := e2 cd (bw _ pk) ++ e1 cd (bh0 _ pk) ++ be32 (length (bh _ pk)) ++ concat (map (e1 cd) (bh _ pk)).
(** keys.rs:122-146 [PublicKey::from_bytes]; below four bytes [data.len() - 4] wraps around
    (with overflow checks it panics) *)
Definition pk_from_bytes (data : list Z) : res (bbs_pk C) :=
  if negb (((Z.of_nat (length data) - 4) mod 2 ^ 64) mod Z.of_nat (sz1 cd) =? 0) then Err (ZmixErr ZMalformedPublicKey) else
  let! (w, data) := rd (sz2 cd) (d2 cd) data in
  let! (h0, data) := rd (sz1 cd) (d1 cd) data in
  let! (n, data) := rd_u32 data in
  let! (h, _) := rd_many (sz1 cd) (d1 cd) n data in
  let pk := mkBbsPk C h0 h w in
  let! _ := pk_validate C pk in Ok pk.

(** pok_vc.rs:361-371 [ProofG1::to_bytes] *)
Definition vcp_to_bytes (p : vc_proof C) : list Z := e1 cd (vp_commitment _ p) ++ be32 (length (vp_responses _ p)) ++ concat (map (eF cd) (vp_responses _ p)).
(** pok_vc.rs:374-408 [ProofG1::from_bytes] *)
Definition vcp_from_bytes (data : list Z) : res (vc_proof C) :=
  if (length data <? sz1 cd + 4)%nat then Err (ZmixErr ZGeneralError) else
  let! (commitment, rest) := rd (sz1 cd) (d1 cd) data in
  let! (n, rest) := rd_u32 rest in
  if (length data <? sz1 cd + 4 + n * szF cd)%nat then Err (ZmixErr ZGeneralError) else
  let! (responses, _) := rd_many (szF cd) (dF cd) n rest in
  Ok (mkVcProof C commitment responses).

(** lib.rs:398-412 [BlindSignatureContext::to_bytes] *)
Definition ctx_to_bytes (c : blind_ctx C) : list Z := e1 cd (bc_commitment _ c) ++ eF cd (bc_challenge _ c) ++ vcp_to_bytes (bc_proof _ c).
(** lib.rs:414-436 [from_bytes] *)
Definition ctx_from_bytes (data : list Z) : res (blind_ctx C) :=
  if (length data <? sz1 cd * 2 + szF cd + 4)%nat then Err (ZmixErr ZInvalidNumberOfBytes) else
  let! (commitment, rest) := rd (sz1 cd) (d1 cd) data in
  let! (challenge, rest) := rd (szF cd) (dF cd) rest in
  let! tail := range data (sz1 cd + szF cd) (length data) in
  let! p := vcp_from_bytes tail in
  Ok (mkBlindCtx C commitment challenge p).

(** pok_sig.rs:433-446 [PoKOfSignatureProof::to_bytes] *)
Definition pokp_to_bytes (p : pok_proof C) : list Z :=
  e1 cd (pp_a_prime _ p) ++ e1 cd (pp_a_bar _ p) ++ e1 cd (pp_d _ p) ++ be32 (length (vcp_to_bytes (pp_vc1 _ p))) ++ vcp_to_bytes (pp_vc1 _ p) ++ vcp_to_bytes (pp_vc2 _ p).
(** pok_sig.rs:449-490 [from_bytes] *)
Definition pokp_from_bytes (data : list Z) : res (pok_proof C) :=
  if (length data <? sz1 cd * 3)%nat then Err (ZmixErr ZPoKVCError) else
  let! (a_prime, rest) := rd (sz1 cd) (d1 cd) data in
  let! (a_bar, rest) := rd (sz1 cd) (d1 cd) rest in
  let! (d, rest) := rd (sz1 cd) (d1 cd) rest in
  let offset := (sz1 cd * 3)%nat in
  let! lb := range data offset (offset + 4) in
  let offset := (offset + 4)%nat in
  let stop := (offset + u32_from_be lb)%nat in
  let! b1 := range data offset stop in
  let! v1 := vcp_from_bytes b1 in
  let! b2 := range data stop (length data) in
  let! v2 := vcp_from_bytes b2 in
  Ok (mkPokProof C a_prime a_bar d v1 v2).

(** [BTreeMap::insert] on the list in key order *)
Fixpoint map_insert (i : nat) (m : K) (l : list (nat * K)) : list (nat * K) :=
  match l with
  | [] => [(i, m)]
  | (j, v) :: l' => if (i <? j)%nat then (i, m) :: l else if (i =? j)%nat then (i, m) :: l' else (j, v) :: map_insert i m l'
  end.
(** lib.rs:617-637 [SignatureProof::to_bytes] *)
Definition sp_to_bytes (p : sig_proof C) : list Z :=
  be32 (length (pokp_to_bytes (sp_proof _ p))) ++ pokp_to_bytes (sp_proof _ p) ++ be32 (length (sp_revealed _ p)) ++
  concat (map (fun im => be32 (fst im) ++ eF cd (snd im)) (sp_revealed _ p)).
(** lib.rs:662-677: the loop over the revealed messages *)
Fixpoint rd_revealed (n : nat) (data : list Z) (offset : nat) (acc : list (nat * K)) : res (list (nat * K)) :=
  match n with
  | O => Ok acc
  | S n' =>
      let! ib := range data offset (offset + 4) in
      let! mb := range data (offset + 4) (offset + 4 + szF cd) in
      match dF cd mb with
      | None => Err Panic
      | Some m => rd_revealed n' data (offset + 4 + szF cd) (map_insert (u32_from_be ib) m acc)
      end
  end.
(** lib.rs:640-683 [SignatureProof::from_bytes] *)
Definition sp_from_bytes (data : list Z) : res (sig_proof C) :=
  if (length data <? 8)%nat then Err (ZmixErr ZInvalidNumberOfBytes) else
  let! lb := range data 0 4 in
  let proof_len := (u32_from_be lb + 4)%nat in
  let! pb := range data 4 proof_len in
  let! proof := pokp_from_bytes pb in
  let! nb := range data proof_len (proof_len + 4) in
  let! revealed := rd_revealed (u32_from_be nb) data (proof_len + 4) [] in
  Ok (mkSigProof C revealed proof).

(** lib.rs:719-733 [revealed_to_bitvector]: [bytes[idx] |= 1 << bit] *)
Fixpoint set_at (l : list Z) (i : nat) (f : Z -> Z) : res (list Z) :=
  match l, i with
  | [], _ => Err Panic
  | x :: l', O => Ok (f x :: l')
  | x :: l', S i' => let! r := set_at l' i' f in Ok (x :: r)
  end.
Definition revealed_to_bitvector (total : nat) (revealed : list nat) : res (list Z) :=
  let! bytes := rfold (fun bytes r => set_at bytes (r / 8) (fun b => Z.lor b (2 ^ Z.of_nat (r mod 8)))) revealed (repeat 0 (total / 8 + 1)) in
  Ok (rev bytes).
(** lib.rs:742-752: the bits of one byte, least significant first, as long as any is set *)
Fixpoint byte_bits (fuel : nat) (v : Z) (scalar : nat) : list nat :=
  match fuel with
  | O => []
  | S k => if v <=? 0 then [] else (if Z.land v 1 =? 1 then [scalar] else []) ++ byte_bits k (Z.shiftr v 1) (S scalar)
  end.
(** lib.rs:736-755 [bitvector_to_revealed]: a byte has 8 bits, so [remaining] brings the
    counter to the next multiple of 8; the indices come in increasing order *)
Fixpoint bits_from (scalar : nat) (bytes : list Z) : list nat :=
  match bytes with [] => [] | b :: bytes' => byte_bits 8 b scalar ++ bits_from (scalar + 8) bytes' end.
Definition bitvector_to_revealed (data : list Z) : list nat := bits_from 0 (rev data).
(** lib.rs:551-560 [ProofRequest::to_bytes] *)
Definition rq_to_bytes (r : proof_request C) : res (list Z) :=
  let! bv := revealed_to_bitvector (message_count C (pr_key _ r)) (pr_revealed _ r) in
  Ok (be32 (length bv) ++ bv ++ pk_to_bytes (pr_key _ r)).
(** lib.rs:562-581 [from_bytes] *)
Definition rq_from_bytes (data : list Z) : res (proof_request C) :=
  if (length data <? 8 + sz1 cd + sz2 cd)%nat then Err (ZmixErr ZInvalidNumberOfBytes) else
  let! lb := range data 0 4 in
  let offset := (4 + u32_from_be lb)%nat in
  let! bv := range data 4 offset in
  let! tail := range data offset (length data) in
  let! pk := pk_from_bytes tail in
  Ok (mkRequest C (bitvector_to_revealed bv) pk).
End Codec.
