(** Model of libzmix/src/commitments/pok_vc.rs (proofs of knowledge of the values of a
    vector commitment, macro [impl_PoK_VC]) and of libzmix/src/signatures/ps
    (Pointcheval-Sanders signatures: keys.rs, signature.rs, blind_signature.rs,
    pok_sig.rs).

    The macro is modelled once, over any group [M].  For PS, [cG1 C] is SignatureGroup,
    [cG2 C] OtherGroup and [pair] the pairing (feature PS_Signature_G1); the feature
    PS_Signature_G2 exchanges the groups, which is the same model over [flip C].
    FieldElement::from_msg_hash is the arbitrary function [hash_fr].  Random scalars are
    arguments.  A HashSet / HashMap is a list of its entries in iteration order (distinct
    keys).  multi_scalar_mul_* computes the sum of the products; it fails on lists of
    different lengths, which never happens here.  usize wraps (release build). *)
From Verif Require Import Base BnModel Alg ClRevModel BbsModel.
Import List ListNotations.
Open Scope list_scope.
Open Scope Z_scope.

(** amcl_wrapper [multi_scalar_mul_var_time] / [multi_scalar_mul_const_time] *)
Definition multi_mul {K : fieldOps} {M : modOps K} (bases : list M) (scalars : list K) : M :=
  fold_left (fun acc bs => madd acc (smul (snd bs) (fst bs))) (combine bases scalars) m0.
(** the entries whose index is not in the set *)
Definition not_in_set {A} (revealed : list nat) (l : list A) : list A :=
  map snd (filter (fun ix => negb (existsb (Nat.eqb (fst ix)) revealed)) (combine (seq 0 (length l)) l)).

(** ** commitments/pok_vc.rs *)
Section PokVcTypes.
Context {K : fieldOps}.
Variable M : modOps K.
(** pok_vc.rs:85-89 [$ProverCommitting] *)
Record committing := mkCommitting { cg_gens : list M; cg_blindings : list K }.
(** pok_vc.rs:91-97 [$ProverCommitted] *)
Record committed := mkCommitted { cd_gens : list M; cd_blindings : list K; cd_commitment : M }.
(** pok_vc.rs:99-103 [$Proof] *)
Record vproof := mkVProof { vp_com : M; vp_resp : list K }.
End PokVcTypes.
Arguments mkCommitting {K M}. Arguments cg_gens {K M}. Arguments cg_blindings {K M}.
Arguments mkCommitted {K M}. Arguments cd_gens {K M}. Arguments cd_blindings {K M}. Arguments cd_commitment {K M}.
Arguments mkVProof {K M}. Arguments vp_com {K M}. Arguments vp_resp {K M}.

Section PokVc.
Context {K : fieldOps} {M : modOps K}.
Variable enc : M -> list Z.               (* to_bytes *)
Variable hash_fr : list Z -> K.

(** pok_vc.rs:106-111 [new] *)
Definition committing_new : committing M := mkCommitting [] [].
(** pok_vc.rs:113-127 [commit]; [draw] is the random scalar used if no blinding is given *)
Definition commit (c : committing M) (gen : M) (blinding : option K) (draw : K) : committing M * nat :=
  let b := match blinding with Some b => b | None => draw end in
  (mkCommitting (cg_gens c ++ [gen]) (cg_blindings c ++ [b]), length (cg_gens c)).
(** pok_vc.rs:129-140 [finish] *)
Definition finish (c : committing M) : committed M := mkCommitted (cg_gens c) (cg_blindings c) (multi_mul (cg_gens c) (cg_blindings c)).
(** pok_vc.rs:142-153 [get_index] *)
Definition committing_get (c : committing M) (i : nat) : res (M * K) :=
  if (length (cg_gens c) <=? i)%nat then Err (ZmixErr ZGeneralError) else
  match nth_error (cg_gens c) i, nth_error (cg_blindings c) i with Some g, Some b => Ok (g, b) | _, _ => Err Panic end.
(** pok_vc.rs:163-170 [to_bytes] *)
Definition committed_bytes (c : committed M) : list Z := concat (map enc (cd_gens c)) ++ enc (cd_commitment c).
(** pok_vc.rs:172-177 [gen_challenge] *)
Definition gen_challenge (c : committed M) (extra : list Z) : K := hash_fr (committed_bytes c ++ extra).
(** pok_vc.rs:179-200 [gen_proof] *)
Definition gen_proof (c : committed M) (challenge : K) (secrets : list K) : res (vproof M) :=
  if negb (length secrets =? length (cd_gens c))%nat then Err (ZmixErr (ZUnequalNoOfBasesExponents (length (cd_gens c)) (length secrets))) else
  let! responses := rmap (fun i => match nth_error (cd_blindings c) i, nth_error secrets i with
                                   | Some b, Some s => Ok (fsub b (fmul challenge s))
                                   | _, _ => Err Panic end) (seq 0 (length (cd_gens c))) in
  Ok (mkVProof (cd_commitment c) responses).
(** pok_vc.rs:204-230 [verify] *)
Definition vproof_verify (p : vproof M) (bases : list M) (commitment : M) (challenge : K) : res bool :=
  if negb (length bases =? length (vp_resp p))%nat then Err (ZmixErr (ZUnequalNoOfBasesExponents (length bases) (length (vp_resp p)))) else
  Ok (meqb (msub (multi_mul (bases ++ [commitment]) (vp_resp p ++ [challenge])) (vp_com p)) m0).
(** pok_vc.rs:232-264 [verify_complete_proof] *)
Definition verify_complete_proof (p : vproof M) (bases : list M) (commitment : M) (challenge : K) (nonce : list Z) : res bool :=
  if negb (length bases =? length (vp_resp p))%nat then Err (ZmixErr (ZUnequalNoOfBasesExponents (length bases) (length (vp_resp p)))) else
  let pr := multi_mul (bases ++ [commitment]) (vp_resp p ++ [challenge]) in
  let hash := hash_fr (concat (map enc bases) ++ enc pr ++ enc commitment ++ nonce) in
  Ok (meqb (msub pr (vp_com p)) m0 && feqb (fsub hash challenge) f0).

(** pok_vc.rs:266-275 [$Proof::to_bytes] *)
Variable encF : K -> list Z.              (* FieldElement::to_bytes *)
Definition vproof_to_bytes (p : vproof M) : list Z := enc (vp_com p) ++ be32 (length (vp_resp p)) ++ concat (map encF (vp_resp p)).
(** pok_vc.rs:277-319 [from_bytes]; [size] is the macro argument $group_element_size,
    [szF] FieldElement_SIZE; [dec], [decF] are the from_bytes of the two types *)
Variables (size szF : nat) (dec : list Z -> option M) (decF : list Z -> option K).
Fixpoint read_scalars (n : nat) (data : list Z) : res (list K) :=
  match n with
  | O => Ok []
  | S n' => if (length data <? szF)%nat then Err Panic else
            match decF (firstn szF data) with
            | None => Err (ZmixErr ZGeneralError)
            | Some r => let! rs := read_scalars n' (skipn szF data) in Ok (r :: rs)
            end
  end.
Definition vproof_from_bytes (data : list Z) : res (vproof M) :=
  if (length data <? size + 4)%nat then Err (ZmixErr ZGeneralError) else
  match dec (firstn size data) with
  | None => Err (ZmixErr ZGeneralError)
  | Some commitment =>
      let b := firstn 4 (skipn size data) in
      let n := Z.to_nat (nth 0 b 0 * 2 ^ 24 + nth 1 b 0 * 2 ^ 16 + nth 2 b 0 * 2 ^ 8 + nth 3 b 0) in
      if (length data <? size + 4 + n * szF)%nat then Err (ZmixErr ZGeneralError) else
      let! responses := read_scalars n (skipn (size + 4) data) in
      Ok (mkVProof commitment responses)
  end.
End PokVc.

(** ** PS signatures *)
(** ps/mod.rs:9-47: the feature PS_Signature_G2 *)
Definition flip (C : curve) : curve := mkCurve (cK C) (cG2 C) (cG1 C) (cGT C) (fun a b => pair b a) (@enc2 C) (@enc1 C) (@encT C) (@ofZ C) (@toZ C).

Section Ps.
Variable C : curve.
Notation K := (cK C). Notation SG := (cG1 C). Notation OG := (cG2 C).
(** keys.rs:6-23 *)
Record sigkey := mkSigkey { sk_x : K; sk_y : list K }.
Record ps_verkey := mkPsVerkey { vk_X : OG; vk_Y : list OG }.
Record ps_params := mkPsParams { pp_g : SG; pp_gt : OG }.
(** signature.rs:12-16 *)
Record ps_sig := mkPsSig { s_1 : SG; s_2 : SG }.
(** blind_signature.rs:14-18 *)
Record blinding_key := mkBlindingKey { bk_X : SG; bk_Y : list SG }.

(** keys.rs:40-51 [keygen]; draws: x and the y_i *)
Definition keygen (count : nat) (p : ps_params) (x : K) (y : nat -> K) : ps_verkey * sigkey :=
  let ys := map y (seq 0 count) in (mkPsVerkey (smul x (pp_gt p)) (map (fun yi => smul yi (pp_gt p)) ys), mkSigkey x ys).
(** blind_signature.rs:21-28 [BlindingKey::new] *)
Definition blinding_key_new (sk : sigkey) (p : ps_params) : blinding_key := mkBlindingKey (smul (sk_x sk) (pp_g p)) (map (fun yi => smul yi (pp_g p)) (sk_y sk)).

(** signature.rs:36-59 [sign_with_sigma_1_generated_from_given_exp] *)
Definition sign_with_exp (messages : list K) (sk : sigkey) (u : K) (offset : nat) (g : SG) : res (SG * SG) :=
  if negb (offset + length messages =? length (sk_y sk))%nat then Err (ZmixErr (ZUnsupportedNoOfMessages (offset + length messages) (length (sk_y sk)))) else
  let h := smul u g in
  let! exp := rfold (fun exp i => match nth_error (sk_y sk) (offset + i), nth_error messages i with
                                  | Some y, Some m => Ok (fadd exp (fmul y m))
                                  | _, _ => Err Panic end) (seq 0 (length messages)) (sk_x sk) in
  Ok (h, smul exp h).
(** signature.rs:21-33, 103-116 [Signature::new]; [u] is the draw *)
Definition ps_sign (messages : list K) (sk : sigkey) (p : ps_params) (u : K) : res ps_sig :=
  if negb (length messages =? length (sk_y sk))%nat then Err (ZmixErr (ZUnsupportedNoOfMessages (length messages) (length (sk_y sk)))) else
  let! (s1, s2) := sign_with_exp messages sk u 0 (pp_g p) in Ok (mkPsSig s1 s2).
(** signature.rs:118-130 *)
Definition check_verkey_compat (messages : list K) (vk : ps_verkey) : res unit :=
  if negb (length messages =? length (vk_Y vk))%nat then Err (ZmixErr (ZUnsupportedNoOfMessages (length messages) (length (vk_Y vk)))) else Ok tt.
(** signature.rs:62-94 [verify]; mod.rs [ate_2_pairing] is the product of the two pairings *)
Definition ps_verify (s : ps_sig) (messages : list K) (vk : ps_verkey) (p : ps_params) : res bool :=
  if meqb (s_1 s) m0 || meqb (s_2 s) m0 then Ok false else
  let! _ := check_verkey_compat messages vk in
  let Y_m := madd (vk_X vk) (multi_mul (firstn (length messages) (vk_Y vk)) messages) in
  Ok (meqb (madd (pair (s_1 s) Y_m) (pair (mopp (s_2 s)) (pp_gt p))) m0).
(** signature.rs:96-101 [to_bytes] *)
Definition ps_sig_bytes (s : ps_sig) : list Z := enc1 (s_1 s) ++ enc1 (s_2 s).

(** blind_signature.rs:120-131 *)
Definition check_blinding_compat (messages : list K) (bk : blinding_key) : res unit :=
  if (length (bk_Y bk) <=? length messages)%nat then Err (ZmixErr (ZUnsupportedNoOfMessages (length messages) (length (bk_Y bk)))) else Ok tt.
(** blind_signature.rs:58-75 [BlindSignature::new] *)
Definition ps_blind_sign (commitment : SG) (messages : list K) (sk : sigkey) (bk : blinding_key) (p : ps_params) (u : K) : res ps_sig :=
  let! _ := check_blinding_compat messages bk in
  let offset := (length (bk_Y bk) - length messages)%nat in
  let! (s1, s2) := sign_with_exp messages sk u offset (pp_g p) in
  Ok (mkPsSig s1 (madd s2 (smul u commitment))).
(** blind_signature.rs:78-108 [new_from_paper] *)
Definition ps_blind_sign_paper (commitment : SG) (messages : list K) (X : SG) (bk : blinding_key) (p : ps_params) (u : K) : res ps_sig :=
  let! _ := check_blinding_compat messages bk in
  let offset := (length (bk_Y bk) - length messages)%nat in
  let points := skipn offset (bk_Y bk) in
  Ok (mkPsSig (smul u (pp_g p)) (smul u (madd (madd X (multi_mul points messages)) commitment))).
(** blind_signature.rs:112-117 [unblind] *)
Definition ps_unblind (s : ps_sig) (blinding : K) : ps_sig := mkPsSig (s_1 s) (msub (s_2 s) (smul blinding (s_1 s))).

(** ** proofs of knowledge of a signature *)
(** pok_sig.rs:38-52 *)
Record ps_pok := mkPsPok { pk_secrets : list K; pk_sig : ps_sig; pk_J : OG; pk_vc : committed OG }.
Record ps_pok_proof := mkPsPokProof { pf_sig : ps_sig; pf_J : OG; pf_vc : vproof OG }.
(** pok_sig.rs:115-121: [commit(b, blindings.remove(0))] for each base; [rs i] is the draw
    at base i *)
Fixpoint commit_all (c : committing OG) (bases : list OG) (blindings : list (option K)) (rs : nat -> K) (i : nat) : res (committing OG) :=
  match bases with
  | [] => Ok c
  | b :: bases' => match blindings with
                   | [] => Err Panic
                   | o :: blindings' => commit_all (fst (commit c b o (rs i))) bases' blindings' rs (S i)
                   end
  end.
(** pok_sig.rs:54-134 [init]; [r], [t] and [rs] are the draws *)
Definition ps_pok_init (sig : ps_sig) (vk : ps_verkey) (p : ps_params) (messages : list K) (blindings : option (list K)) (revealed : list nat) (r t : K) (rs : nat -> K) : res ps_pok :=
  if existsb (fun i => (length messages <=? i)%nat) revealed then Err (ZmixErr ZGeneralError) else
  let! _ := check_verkey_compat messages vk in
  let hidden := (length messages - length revealed)%nat in
  let! bl := match blindings with
             | Some b => if negb (hidden =? length b)%nat then Err (ZmixErr ZGeneralError) else Ok (map Some b)
             | None => Ok (repeat None hidden)
             end in
  let sig' := mkPsSig (smul r (s_1 sig)) (smul r (madd (s_2 sig) (smul t (s_1 sig)))) in
  let bases := pp_gt p :: not_in_set revealed (vk_Y vk) in
  let exponents := t :: not_in_set revealed messages in
  let J := multi_mul bases exponents in
  let! c := commit_all committing_new bases (None :: bl) rs 0 in
  Ok (mkPsPok exponents sig' J (finish c)).
(** pok_sig.rs:139-145 [to_bytes] *)
Definition ps_pok_bytes (p : ps_pok) : list Z := ps_sig_bytes (pk_sig p) ++ enc2 (pk_J p) ++ committed_bytes enc2 (pk_vc p).
(** pok_sig.rs:147-154 [gen_proof] *)
Definition ps_pok_gen (p : ps_pok) (challenge : K) : res ps_pok_proof :=
  match gen_proof (pk_vc p) challenge (pk_secrets p) with
  | Ok v => Ok (mkPsPokProof (pk_sig p) (pk_J p) v)
  | Err (ZmixErr _) => Err (ZmixErr ZPoKVCError)
  | Err e => Err e
  end.
(** pok_sig.rs:163-182 [get_bytes_for_challenge] *)
Definition ps_challenge_bytes (p : ps_pok_proof) (revealed : list nat) (vk : ps_verkey) (pr : ps_params) : list Z :=
  ps_sig_bytes (pf_sig p) ++ enc2 (pf_J p) ++ enc2 (pp_gt pr) ++ concat (map enc2 (not_in_set revealed (vk_Y vk))) ++ enc2 (vp_com (pf_vc p)).
(** pok_sig.rs:186-200 [get_resp_for_message]: without responses [len - 1] underflows and
    the index is out of range *)
Definition ps_resp (p : ps_pok_proof) (i : nat) : res K :=
  let r := vp_resp (pf_vc p) in
  if (length r <? 1)%nat then Err Panic
  else if (length r - 1 <=? i)%nat then Err (ZmixErr ZGeneralError)
  else match nth_error r (1 + i) with Some x => Ok x | None => Err Panic end.
(** pok_sig.rs:203-250 [verify]; the first panic is [with_capacity] of a wrapped count *)
Definition ps_pok_verify (p : ps_pok_proof) (vk : ps_verkey) (pr : ps_params) (revealed : list (nat * K)) (challenge : K) : res bool :=
  if meqb (s_1 (pf_sig p)) m0 || meqb (s_2 (pf_sig p)) m0 then Ok false else
  if (length (vk_Y vk) + 1 <? length revealed)%nat then Err Panic else
  let bases := pp_gt pr :: not_in_set (map fst revealed) (vk_Y vk) in
  match vproof_verify (pf_vc p) bases (pf_J p) challenge with
  | Err (ZmixErr _) => Err (ZmixErr ZPoKVCError)
  | Err e => Err e
  | Ok false => Ok false
  | Ok true =>
      let! J := match revealed with
                | [] => Ok (pf_J p)
                | _ => let! b := rmap (fun im => match nth_error (vk_Y vk) (fst im) with Some y => Ok y | None => Err Panic end) revealed in
                       Ok (madd (pf_J p) (multi_mul b (map snd revealed)))
                end in
      Ok (meqb (madd (pair (s_1 (pf_sig p)) (madd J (vk_X vk))) (pair (mopp (s_2 (pf_sig p))) (pp_gt pr))) m0)
  end.
End Ps.
Arguments mkSigkey {C}. Arguments sk_x {C}. Arguments sk_y {C}. Arguments mkPsVerkey {C}. Arguments vk_X {C}. Arguments vk_Y {C}.
Arguments mkPsParams {C}. Arguments pp_g {C}. Arguments pp_gt {C}. Arguments mkPsSig {C}. Arguments s_1 {C}. Arguments s_2 {C}.
Arguments mkBlindingKey {C}. Arguments bk_X {C}. Arguments bk_Y {C}. Arguments mkPsPok {C}. Arguments pk_secrets {C}. Arguments pk_sig {C}. Arguments pk_J {C}. Arguments pk_vc {C}.
Arguments mkPsPokProof {C}. Arguments pf_sig {C}. Arguments pf_J {C}. Arguments pf_vc {C}.
