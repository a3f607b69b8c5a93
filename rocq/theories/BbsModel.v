(** Model of the BBS+ crate, libzmix/bbs/src: signatures (signature.rs), blind
    signatures (prover.rs, issuer.rs, lib.rs [BlindSignatureContext]), proofs of
    knowledge of committed values (pok_vc.rs) and of a signature with selective
    disclosure (pok_sig.rs, verifier.rs), and key derivation (keys.rs).

    Points are elements of the groups of [C] (as in ClRevModel: cK scalars [Fr], cG1, cG2,
    cGT, [pair] the pairing); [enc1] is the uncompressed encoding of a G1 point; [g1], [g2]
    are the fixed generators [G1::one()], [G2::one()]; [hash_fr] is [hash_to_fr] and
    [hash_g1] [hash_to_g1] (arbitrary functions); [encF], [enc2] encode scalars and G2
    points.  Random scalars are arguments.  BTreeMaps from message index are association
    lists in key order (the order in which the code iterates), BTreeSets are lists.
    Constant-time and variable-time multi-exponentiation compute the same sum, [msm]
    (lib.rs:337-406).  Error strings are dropped. *)
From Verif Require Import Base BnModel Alg ClRevModel.
Import List ListNotations.
Open Scope list_scope.
Open Scope Z_scope.

(** the number a status of pok_sig.rs:60-70 is reported as in [ZInvalidProof] *)
Inductive pok_status := PSuccess | PBadSignature | PBadHiddenMessage | PBadRevealedMessage.
Definition status_code (s : pok_status) : nat := match s with PSuccess => 0 | PBadSignature => 1 | PBadHiddenMessage => 2 | PBadRevealedMessage => 3 end.

Section Bbs.
Variable C : curve.
Notation K := (cK C). Notation G1 := (cG1 C). Notation G2 := (cG2 C). Notation GT := (cGT C).
Variables (g1 : G1) (g2 : G2).
Variable hash_fr : list Z -> K.
Variable hash_g1 : list Z -> G1.
Variable encF : K -> list Z.

Definition kzero (x : K) : bool := feqb x f0.
(** lib.rs:337-406 [multi_scalar_mul_*_g1] *)
Definition msm (bases : list G1) (scalars : list K) : G1 := fold_left (fun acc bs => madd acc (smul (snd bs) (fst bs))) (combine bases scalars) m0.

(** ** keys (keys.rs) *)
(** keys.rs:86-96 [PublicKey] *)
Record bbs_pk := mkBbsPk { bh0 : G1; bh : list G1; bw : G2 }.
(** keys.rs:99-101 [message_count] *)
Definition message_count (pk : bbs_pk) : nat := length (bh pk).
(** keys.rs:57-64 [SecretKey::validate] *)
Definition sk_validate (x : K) : res unit := if kzero x then Err (ZmixErr ZMalformedSecretKey) else Ok tt.
(** keys.rs:146-153 [PublicKey::validate] *)
Definition pk_validate (pk : bbs_pk) : res unit :=
  if meqb (bh0 pk) m0 || meqb (bw pk) m0 || existsb (fun v => meqb v m0) (bh pk) then Err (ZmixErr ZMalformedPublicKey) else Ok tt.
(** keys.rs:231-246 [DeterministicPublicKey::new] for a given secret *)
Definition det_pk_new (secret : K) : res (G2 * K) := let! _ := sk_validate secret in Ok (smul secret g2, secret).
(** [u32::to_be_bytes] of a [usize] cast to u32 *)
Definition be32 (n : nat) : list Z := let z := Z.of_nat n mod 2 ^ 32 in [z / 2 ^ 24; (z / 2 ^ 16) mod 256; (z / 2 ^ 8) mod 256; z mod 256].
(** keys.rs:248-296 [to_public_key]: the bytes hashed for generator [i] *)
Definition generator_bytes (w : G2) (count i : nat) : list Z := enc2 w ++ [0] ++ be32 i ++ [0] ++ be32 count.
Definition det_to_public_key (w : G2) (count : nat) : res bbs_pk :=
  match count with
  | O => Err (ZmixErr ZKeyGenError)
  | _ => match map (fun i => hash_g1 (generator_bytes w count i)) (seq 0 (count + 1)) with
         | [] => Err Panic
         | h0 :: h => Ok (mkBbsPk h0 h w)
         end
  end.
(** keys.rs:302-331 [generate]: [seeds i] are the random bytes of generator i *)
Definition generate (count : nat) (secret : K) (seeds : nat -> list Z) : res (bbs_pk * K) :=
  match count with
  | O => Err (ZmixErr ZKeyGenError)
  | _ => match map (fun i => hash_g1 (seeds i)) (seq 0 (count + 1)) with
         | [] => Err Panic
         | h0 :: h => Ok (mkBbsPk h0 h (smul secret g2), secret)
         end
  end.

(** ** signatures (signature.rs) *)
(** signature.rs:131-139, 229-238 *)
Record bbs_sig := mkBbsSig { sa : G1; se : K; ss : K }.
(** signature.rs:341-357 [compute_b] *)
Definition compute_b (s : K) (messages : list K) (pk : bbs_pk) : G1 :=
  let n := Nat.min (message_count pk) (length messages) in
  msm (g1 :: bh0 pk :: firstn n (bh pk)) (f1 :: s :: firstn n messages).
(** signature.rs:321-339 [get_b]: indexes [messages] up to the key's count *)
Definition get_b (s : K) (messages : list K) (pk : bbs_pk) : res G1 :=
  if (length messages <? message_count pk)%nat then Err Panic
  else Ok (msm (g1 :: bh0 pk :: bh pk) (f1 :: s :: firstn (message_count pk) messages)).
(** b^(1/(x+e)); [inverse().unwrap()] *)
Definition exp_inverse (b : G1) (x e : K) : res G1 := if kzero (fadd x e) then Err Panic else Ok (smul (finv (fadd x e)) b).
(** signature.rs:243-264 [Signature::new] *)
Definition sig_new (messages : list K) (sk : K) (pk : bbs_pk) (e s : K) : res bbs_sig :=
  if (message_count pk <? length messages)%nat then Err (ZmixErr (ZCountMismatch (message_count pk) (length messages))) else
  let! _ := sk_validate sk in
  let! _ := pk_validate pk in
  let! a := exp_inverse (compute_b s messages pk) sk e in
  Ok (mkBbsSig a e s).
(** signature.rs:312-319 [validate] *)
Definition sig_validate (sig : bbs_sig) : res unit :=
  if meqb (sa sig) m0 || kzero (se sig) || kzero (ss sig) then Err (ZmixErr ZMalformedSignature) else Ok tt.
(** signature.rs:271-310 [verify]: e(a, w + e g2) * e(-b, g2) = 1 *)
Definition sig_verify (sig : bbs_sig) (messages : list K) (pk : bbs_pk) : res bool :=
  if negb (length messages =? message_count pk)%nat then Err (ZmixErr (ZCountMismatch (message_count pk) (length messages))) else
  let! _ := pk_validate pk in
  let! _ := sig_validate sig in
  let! b := get_b (ss sig) messages pk in
  Ok (meqb (madd (pair (sa sig) (madd (smul (se sig) g2) (bw pk))) (pair (mopp b) g2)) m0).

(** look up an index of the key's generators; out of range is a panic *)
Definition gen_at (pk : bbs_pk) (i : nat) : res G1 := match nth_error (bh pk) i with Some h => Ok h | None => Err Panic end.
(** signature.rs:149-189 [BlindSignature::new] *)
Definition blind_sig_new (commitment : G1) (messages : list (nat * K)) (sk : K) (pk : bbs_pk) (e s : K) : res bbs_sig :=
  if (message_count pk <? length messages)%nat then Err (ZmixErr (ZCountMismatch (message_count pk) (length messages))) else
  let! _ := sk_validate sk in
  let! _ := pk_validate pk in
  let! points := rmap (fun im => gen_at pk (fst im)) messages in
  let! a := exp_inverse (msm (commitment :: g1 :: bh0 pk :: points) (f1 :: f1 :: s :: map snd messages)) sk e in
  Ok (mkBbsSig a e s).
(** signature.rs:193-201 [to_unblinded] *)
Definition to_unblinded (b : bbs_sig) (blinding : K) : bbs_sig := mkBbsSig (sa b) (se b) (fadd (ss b) blinding).

(** ** proofs of knowledge of committed values (pok_vc.rs) *)
(** pok_vc.rs:147-162: the committing/committed prover: bases with their blinding factors *)
Record vc_committed := mkVcCommitted { vc_bases : list G1; vc_blindings : list K; vc_commitment : G1 }.
(** pok_vc.rs:165-171 [ProofG1] *)
Record vc_proof := mkVcProof { vp_commitment : G1; vp_responses : list K }.
(** pok_vc.rs:208-216 [finish] *)
Definition vc_finish (l : list (G1 * K)) : vc_committed := mkVcCommitted (map fst l) (map snd l) (msm (map fst l) (map snd l)).
(** pok_vc.rs:242-249 [ProverCommittedG1::to_bytes] *)
Definition vc_to_bytes (v : vc_committed) : list Z := concat (map enc1 (vc_bases v)) ++ enc1 (vc_commitment v).
(** pok_vc.rs:252-256 [gen_challenge] *)
Definition vc_gen_challenge (v : vc_committed) (extra : list Z) : K := hash_fr (vc_to_bytes v ++ extra).
(** pok_vc.rs:259-283 [gen_proof] *)
Definition vc_gen_proof (v : vc_committed) (challenge : K) (secrets : list K) : res vc_proof :=
  if negb (length secrets =? length (vc_bases v))%nat then Err (ZmixErr (ZUnequalNoOfBasesExponents (length (vc_bases v)) (length secrets))) else
  Ok (mkVcProof (vc_commitment v) (map (fun bs => fsub (fst bs) (fmul challenge (snd bs))) (combine (vc_blindings v) secrets))).
(** pok_vc.rs:291-315 [get_challenge_contribution] *)
Definition vc_contribution (p : vc_proof) (bases : list G1) (commitment : G1) (challenge : K) : res G1 :=
  if negb (length bases =? length (vp_responses p))%nat then Err (ZmixErr (ZUnequalNoOfBasesExponents (length bases) (length (vp_responses p)))) else
  Ok (msm (bases ++ [commitment]) (vp_responses p ++ [challenge])).
(** pok_vc.rs:318-327 [ProofG1::verify] *)
Definition vc_verify (p : vc_proof) (bases : list G1) (commitment : G1) (challenge : K) : res bool :=
  let! pr := vc_contribution p bases commitment challenge in Ok (meqb (msub pr (vp_commitment p)) m0).
(** pok_vc.rs:331-363 [verify_complete_proof] *)
Definition vc_verify_complete (p : vc_proof) (bases : list G1) (commitment : G1) (challenge : K) (nonce : list Z) : res bool :=
  let! pr := vc_contribution p bases commitment challenge in
  let hash := hash_fr (concat (map enc1 bases) ++ enc1 pr ++ enc1 commitment ++ nonce) in
  Ok (meqb (msub pr (vp_commitment p)) m0 && kzero (fsub hash challenge)).

(** ** blind issuance *)
(** lib.rs:410-418 [BlindSignatureContext] *)
Record blind_ctx := mkBlindCtx { bc_commitment : G1; bc_challenge : K; bc_proof : vc_proof }.
(** prover.rs:33-88 [new_blind_signature_context]: [rs i] is the blinding factor drawn for
    the i-th base (h0 first) *)
Definition blind_context (pk : bbs_pk) (messages : list (nat * K)) (nonce : K) (blinding : K) (rs : nat -> K) : res (blind_ctx * K) :=
  let! gens := rmap (fun im => if (length (bh pk) <? fst im)%nat then Err (ZmixErr (ZCountMismatch (fst im) (length (bh pk)))) else gen_at pk (fst im)) messages in
  let bases := bh0 pk :: gens in
  let secrets := blinding :: map snd messages in
  let commitment := msm bases secrets in
  let committed := vc_finish (combine bases (map rs (seq 0 (length bases)))) in
  let challenge := vc_gen_challenge committed (enc1 commitment ++ encF nonce) in
  match vc_gen_proof committed challenge secrets with
  | Err _ => Err Panic
  | Ok proof => Ok (mkBlindCtx commitment challenge proof, blinding)
  end.
(** the generators whose index satisfies [keep], in index order *)
Definition gens_where (keep : nat -> bool) (pk : bbs_pk) : list G1 := map snd (filter (fun ih => keep (fst ih)) (combine (seq 0 (message_count pk)) (bh pk))).
Definition contains (s : list nat) (i : nat) : bool := existsb (Nat.eqb i) s.
(** lib.rs:459-510 [BlindSignatureContext::verify] *)
Definition blind_ctx_verify (ctx : blind_ctx) (revealed : list nat) (pk : bbs_pk) (nonce : K) : res bool :=
  let bases := bh0 pk :: gens_where (fun i => negb (contains revealed i)) pk in
  let! commitment := vc_contribution (bc_proof ctx) bases (bc_commitment ctx) (bc_challenge ctx) in
  let challenge := hash_fr (concat (map enc1 bases) ++ enc1 commitment ++ enc1 (bc_commitment ctx) ++ encF nonce) in
  Ok (meqb (msub commitment (vp_commitment (bc_proof ctx))) m0 && kzero (fsub challenge (bc_challenge ctx))).
(** issuer.rs:43-58 [blind_sign] *)
Definition blind_sign (ctx : blind_ctx) (messages : list (nat * K)) (sk : K) (pk : bbs_pk) (nonce : K) (e s : K) : res bbs_sig :=
  let! ok := blind_ctx_verify ctx (map fst messages) pk nonce in
  if ok : bool then blind_sig_new (bc_commitment ctx) messages sk pk e s else Err (ZmixErr ZGeneralError).
(** prover.rs:91-106 [complete_signature] *)
Definition complete_signature (pk : bbs_pk) (messages : list K) (blind : bbs_sig) (blinding : K) : res bbs_sig :=
  let signature := to_unblinded blind blinding in
  let! ok := sig_verify signature messages pk in
  if ok : bool then Ok signature else Err (ZmixErr ZGeneralError).

(** ** proofs of knowledge of a signature (pok_sig.rs) *)
(** messages.rs:57-90 *)
Inductive proof_message := Revealed (m : K) | HiddenSpecific (m : K) | HiddenExternal (m blinding : K).
Definition get_message (p : proof_message) : K := match p with Revealed m => m | HiddenSpecific m => m | HiddenExternal m _ => m end.
(** pok_sig.rs:40-57 *)
Record pok_sig := mkPokSig { ps_a_prime : G1; ps_a_bar : G1; ps_d : G1; ps_vc1 : vc_committed; ps_secrets1 : list K;
  ps_vc2 : vc_committed; ps_secrets2 : list K; ps_revealed : list (nat * K) }.
(** pok_sig.rs:98-110 *)
Record pok_proof := mkPokProof { pp_a_prime : G1; pp_a_bar : G1; pp_d : G1; pp_vc1 : vc_proof; pp_vc2 : vc_proof }.
(** pok_sig.rs:207-224: the loop over the messages; each hidden message adds its generator
    with a blinding factor ([r2s] at the position in the list of bases) and its value *)
Fixpoint hide_loop (i : nat) (hs : list G1) (ms : list proof_message) (rs : nat -> K) (acc : list (G1 * K) * list K * list (nat * K))
  : list (G1 * K) * list K * list (nat * K) :=
  match hs, ms with
  | h :: hs', m :: ms' =>
      let '(committing, secrets, revealed) := acc in
      hide_loop (S i) hs' ms' rs
        match m with
        | Revealed r => (committing, secrets, revealed ++ [(i, r)])
        | HiddenSpecific v => (committing ++ [(h, rs (length committing))], secrets ++ [v], revealed)
        | HiddenExternal v b => (committing ++ [(h, b)], secrets ++ [v], revealed)
        end
  | _, _ => acc
  end.
(** pok_sig.rs:114-238 [init]: [r1], [r2] and the blinding factors [rs1], [rs2] are the draws;
    [r1.inverse().unwrap()] cannot fail, the draw is nonzero (lib.rs:755-764) *)
Definition pok_init (sig : bbs_sig) (pk : bbs_pk) (messages : list proof_message) (r1 r2 : K) (rs1 rs2 : nat -> K) : res pok_sig :=
  if negb (length messages =? message_count pk)%nat then Err (ZmixErr (ZCountMismatch (message_count pk) (length messages))) else
  let! ok := sig_verify sig (map get_message messages) pk in
  if negb ok then Err (ZmixErr ZPoKVCError) else
  let! b := get_b (ss sig) (map get_message messages) pk in
  let a_prime := smul r1 (sa sig) in
  let a_bar := msub (smul r1 b) (smul (se sig) a_prime) in
  let d := msm [b; bh0 pk] [r1; fopp r2] in
  let r3 := finv r1 in
  let s_prime := fadd (fopp (fmul r2 r3)) (ss sig) in
  let vc1 := vc_finish [(a_prime, rs1 0%nat); (bh0 pk, rs1 1%nat)] in
  let '(committing2, secrets2, revealed) := hide_loop 0 (bh pk) messages rs2 ([(d, rs2 0%nat); (bh0 pk, rs2 1%nat)], [fopp r3; s_prime], []) in
  Ok (mkPokSig a_prime a_bar d vc1 [fopp (se sig); r2] (vc_finish committing2) secrets2 revealed).
(** pok_sig.rs:241-256 [PoKOfSignature::to_bytes] *)
Definition pok_to_bytes (p : pok_sig) : list Z := enc1 (ps_a_bar p) ++ vc_to_bytes (ps_vc1 p) ++ vc_to_bytes (ps_vc2 p).
(** pok_sig.rs:260-288 [gen_proof] *)
Definition pok_gen_proof (p : pok_sig) (challenge : K) : res pok_proof :=
  let! v1 := vc_gen_proof (ps_vc1 p) challenge (ps_secrets1 p) in
  let! v2 := vc_gen_proof (ps_vc2 p) challenge (ps_secrets2 p) in
  Ok (mkPokProof (ps_a_prime p) (ps_a_bar p) (ps_d p) v1 v2).
(** pok_sig.rs:294-322 [get_bytes_for_challenge] *)
Definition challenge_bytes (p : pok_proof) (revealed : list nat) (pk : bbs_pk) : list Z :=
  enc1 (pp_a_bar p) ++ enc1 (pp_a_prime p) ++ enc1 (bh0 pk) ++ enc1 (vp_commitment (pp_vc1 p)) ++
  enc1 (pp_d p) ++ enc1 (bh0 pk) ++ concat (map enc1 (gens_where (fun i => negb (contains revealed i)) pk)) ++ enc1 (vp_commitment (pp_vc2 p)).
(** pok_sig.rs:326-340 [get_resp_for_message]; [len - 2] underflows below two responses,
    which panics with or without overflow checks (the index is out of range) *)
Definition resp_for_message (p : pok_proof) (i : nat) : res K :=
  let r := vp_responses (pp_vc2 p) in
  if (length r <? 2)%nat then Err Panic
  else if (length r - 2 <=? i)%nat then Err (ZmixErr ZGeneralError)
  else match nth_error r (2 + i) with Some x => Ok x | None => Err Panic end.
Definition lookup (i : nat) (m : list (nat * K)) : option K := match find (fun im => Nat.eqb (fst im) i) m with Some (_, v) => Some v | None => None end.
(** pok_sig.rs:343-430 [PoKOfSignatureProof::verify] *)
Definition pok_verify (p : pok_proof) (pk : bbs_pk) (revealed : list (nat * K)) (challenge : K) : res pok_status :=
  let! _ := pk_validate pk in
  if existsb (fun im => (message_count pk <=? fst im)%nat) revealed then Err (ZmixErr ZGeneralError) else
  if meqb (pp_a_prime p) m0 then Ok PBadSignature else
  if negb (meqb (madd (pair (pp_a_prime p) (bw pk)) (pair (mopp (pp_a_bar p)) g2)) m0) then Ok PBadSignature else
  let! ok1 := vc_verify (pp_vc1 p) [pp_a_prime p; bh0 pk] (msub (pp_a_bar p) (pp_d p)) challenge in
  if negb ok1 then Ok PBadHiddenMessage else
  let known i := match lookup i revealed with Some _ => true | None => false end in
  let bases2 := pp_d p :: bh0 pk :: gens_where (fun i => negb (known i)) pk in
  let disclosed := flat_map (fun ih => match lookup (fst ih) revealed with Some m => [(snd ih, m)] | None => [] end) (combine (seq 0 (message_count pk)) (bh pk)) in
  let pr := mopp (msm (g1 :: map fst disclosed) (f1 :: map snd disclosed)) in
  match vc_verify (pp_vc2 p) bases2 pr challenge with
  | Ok true => Ok PSuccess
  | Ok false => Ok PBadRevealedMessage
  | Err _ => Ok PBadRevealedMessage
  end.

(** ** prover and verifier (prover.rs, verifier.rs) *)
(** lib.rs:540-548 [ProofRequest] *)
Record proof_request := mkRequest { pr_revealed : list nat; pr_key : bbs_pk }.
(** lib.rs:606-612 [SignatureProof] *)
Record sig_proof := mkSigProof { sp_revealed : list (nat * K); sp_proof : pok_proof }.
(** verifier.rs:21-41 [new_proof_request]; [indices] is the set in increasing order *)
Definition new_proof_request (indices : list nat) (pk : bbs_pk) : res proof_request :=
  match find (fun i => (length (bh pk) <? i)%nat) indices with
  | Some i => Err (ZmixErr (ZCountMismatch i (length (bh pk))))
  | None => Ok (mkRequest indices pk)
  end.
(** prover.rs:118-124 [commit_signature_pok] is [pok_init] with the request's key *)
Definition commit_signature_pok (rq : proof_request) := fun messages sig => pok_init sig (pr_key rq) messages.
(** prover.rs:132-151 [Prover::create_challenge_hash] *)
Definition prover_challenge (poks : list pok_sig) (claims : option (list (list Z))) (nonce : K) : K :=
  hash_fr (concat (map pok_to_bytes poks) ++ encF nonce ++ match claims with Some c => concat c | None => [] end).
(** prover.rs:154-165 [generate_signature_pok] *)
Definition generate_signature_pok (p : pok_sig) (challenge : K) : res sig_proof :=
  let! pf := pok_gen_proof p challenge in Ok (mkSigProof (ps_revealed p) pf).
(** verifier.rs:44-69 [verify_signature_pok] *)
Definition verify_signature_pok (rq : proof_request) (p : sig_proof) (nonce : K) : res (list K) :=
  let challenge := hash_fr (challenge_bytes (sp_proof p) (pr_revealed rq) (pr_key rq) ++ encF nonce) in
  let! st := pok_verify (sp_proof p) (pr_key rq) (sp_revealed p) challenge in
  match st with PSuccess => Ok (map snd (sp_revealed p)) | s => Err (ZmixErr (ZInvalidProof (status_code s))) end.
(** verifier.rs:83-106 [Verifier::create_challenge_hash] *)
Definition verifier_challenge (proofs : list sig_proof) (requests : list proof_request) (nonce : K) (claims : option (list (list Z))) : K :=
  hash_fr (concat (map (fun pr => challenge_bytes (sp_proof (fst pr)) (pr_revealed (snd pr)) (pr_key (snd pr))) (combine proofs requests)) ++ encF nonce ++
    match claims with Some c => concat c | None => [] end).
End Bbs.
