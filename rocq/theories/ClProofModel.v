(** Model of ProofBuilder (prover.rs:845-1143), ProofVerifier (verifier.rs:26-410)
    and of the credential-level issue/process functions that combine the primary and
    the revocation part.  Objects mutated through [&mut self] are returned, also on
    error. *)
From Verif Require Import Base BnModel HelpersModel StrMap ClModel Alg ClRevModel.
Open Scope list_scope.
Open Scope Z_scope.

(** mod.rs:933-938, derived Ord of [Predicate] (fields in order attr_name, p_type,
    value; variants in order GE, LE, GT, LT) *)
Definition ptype_rank (t : predicate_type) : Z := match t with GE => 0 | LE => 1 | GT => 2 | LT => 3 end.
Definition pred_compare (a b : predicate) : comparison :=
  match String.compare (p_attr a) (p_attr b) with
  | Eq => match Z.compare (ptype_rank (p_type a)) (ptype_rank (p_type b)) with
          | Eq => Z.compare (p_value a) (p_value b)
          | c => c
          end
  | c => c
  end.
(** BTreeSet<Predicate> as a sorted list *)
Fixpoint pset_insert (p : predicate) (s : list predicate) : list predicate :=
  match s with
  | [] => [p]
  | q :: r => match pred_compare p q with Lt => p :: s | Eq => s | Gt => q :: pset_insert p r end
  end.
Definition pset_of_list (l : list predicate) : list predicate := fold_left (fun s p => pset_insert p s) l [].
Definition pred_eqb (a b : predicate) : bool := match pred_compare a b with Eq => true | _ => false end.
Fixpoint preds_eqb (a b : list predicate) : bool :=
  match a, b with
  | [], [] => true
  | x :: a', y :: b' => pred_eqb x y && preds_eqb a' b'
  | _, _ => false
  end.

Section Types.
Variable C : curve.
Notation K := (cK C). Notation G1 := (cG1 C). Notation G2 := (cG2 C). Notation GT := (cGT C).
(** mod.rs:272-277 [CredentialPublicKey] *)
Record cpk := mkCPK { cp_p : ppk; cp_r : option (rpk C) }.
(** mod.rs:601-606 [CredentialSignature] *)
Record csig := mkCSig { cs_p : psig; cs_r : option (rcred C) }.
(** mod.rs:1081-1088 [InitProof] *)
Record initproof := mkInitProof { in_p : pinit; in_r : option (nrinit C); in_vals : cred_values; in_req : subreq; in_schema : sset;
                                  in_non_schema : sset }.
(** prover.rs:843-848 [ProofBuilder] *)
Record builder := mkBuilder { pb_common : smap Z; pb_init : list initproof; pb_c_list : list (list Z); pb_tau_list : list (list Z) }.
(** mod.rs:989-994 [SubProof] *)
Record subproof := mkSubProof { sp_p : pproof; sp_r : option (nrproof C) }.
(** mod.rs:982-987 [Proof], 1006-1011 [AggregatedProof] *)
Record proof := mkProof { pf_proofs : list subproof; pf_c_hash : Z; pf_c_list : list (list Z) }.
(** mod.rs:1297-1305 [VerifiableCredential] *)
Record vcred := mkVCred { vc_pk : cpk; vc_req : subreq; vc_schema : sset; vc_non_schema : sset; vc_z : option GT; vc_accum : option G2 }.
(** verifier.rs:54-58 [ProofVerifier] *)
Record verifier := mkVerifier { vf_creds : list vcred; vf_common : smap (option Z) }.
End Types.
Arguments mkCPK {C}. Arguments cp_p {C}. Arguments cp_r {C}. Arguments mkCSig {C}. Arguments cs_p {C}. Arguments cs_r {C}.
Arguments mkInitProof {C}. Arguments in_p {C}. Arguments in_r {C}. Arguments in_vals {C}. Arguments in_req {C}. Arguments in_schema {C}. Arguments in_non_schema {C}.
Arguments mkBuilder {C}. Arguments pb_common {C}. Arguments pb_init {C}. Arguments pb_c_list {C}. Arguments pb_tau_list {C}.
Arguments mkSubProof {C}. Arguments sp_p {C}. Arguments sp_r {C}. Arguments mkProof {C}. Arguments pf_proofs {C}. Arguments pf_c_hash {C}. Arguments pf_c_list {C}.
Arguments mkVCred {C}. Arguments vc_pk {C}. Arguments vc_req {C}. Arguments vc_schema {C}. Arguments vc_non_schema {C}. Arguments vc_z {C}. Arguments vc_accum {C}.
Arguments mkVerifier {C}. Arguments vf_creds {C}. Arguments vf_common {C}.

Section Proof_.
Variable C : curve.
Notation K := (cK C). Notation G1 := (cG1 C). Notation G2 := (cG2 C). Notation GT := (cGT C).
Variable H : list Z -> list Z.   (* SHA-256 *)
Variable isp : Z -> bool.        (* BigNumber::is_prime *)

(** ** issuing with revocation *)
(** issuer.rs:383-469 [sign_credential_with_revoc]; [ur] is the revocation part of the
    blinded secrets; draws as in the two parts *)
Definition sign_credential_with_revoc (prover_id : list Z) (bl : blinded) (ur : option G1) (pr : bproof) (nonce issuance_nonce : Z)
    (vals : cred_values) (pk : cpk C) (sk : psk) (rsk_ : option (rsk C)) (rev_idx max_cred_num : Z) (issuance_by_default : bool)
    (accum : G2) (gamma : K) (access : Z -> res G2) (v_draw : Z) (e_draws : list Z) (r_draw : Z) (vr c : K)
  : G2 * res (csig C * scp * option (rdelta C)) :=
  match check_blinded_correctness_proof H bl pr nonce (cp_p pk) with
  | Err e => (accum, Err e)
  | Ok _ =>
      let ctx := gen_credential_context H prover_id (Some rev_idx) in
      match new_primary_credential isp ctx (cp_p pk) sk bl vals v_draw e_draws with
      | Err e => (accum, Err e)
      | Ok (sg, q) =>
          let (accum', r) := new_non_revocation_credential C rev_idx ctx ur (cp_r pk) rsk_ max_cred_num issuance_by_default accum gamma access vr c in
          match r with
          | Err e => (accum', Err e)
          | Ok (rc, d) =>
              (accum', let! sp := new_signature_correctness_proof H (cp_p pk) sk sg q issuance_nonce r_draw in
                       Ok (mkCSig sg (Some rc), sp, d))
          end
      end
  end.

(** prover.rs:206-280 [process_credential_signature]: the signature is mutated before
    it is checked *)
Definition process_credential_signature (sg : csig C) (vals : cred_values) (sp : scp) (v_prime : Z) (vr_prime : option K) (pk : cpk C)
    (nonce : Z) (z : option GT) (accum omega : option G2) : csig C * res unit :=
  let p' := process_primary_credential (cs_p sg) v_prime in
  match check_signature_correctness_proof H isp p' vals sp (cp_p pk) nonce with
  | Err e => (mkCSig p' (cs_r sg), Err e)
  | Ok _ =>
      match cs_r sg, vr_prime, cp_r pk, z, accum, omega with
      | Some rc, Some vr, Some rk, Some z, Some accum, Some omega =>
          let (rc', r) := process_non_revocation_credential C rc vr rk z accum omega in
          (mkCSig p' (Some rc'), r)
      | _, _, _, _, _, _ => (mkCSig p' (cs_r sg), Ok tt)
      end
  end.

(** ** ProofBuilder *)
(** prover.rs:289-296 [new_proof_builder] *)
Definition builder_new : builder C := mkBuilder [] [] [] [].
(** prover.rs:852-856 [add_common_attribute]; [draw] is the bn_rand value *)
Definition builder_add_common (b : builder C) (attr : string) (draw : Z) : builder C :=
  mkBuilder (hm_insert attr draw (pb_common b)) (pb_init b) (pb_c_list b) (pb_tau_list b).

(** random draws of one [add_sub_proof_request] *)
Record subrand := mkSubRand { su_eq : eqrand; su_ne : predicate -> nerand; su_d : xlist C; su_tp : xlist C }.
(** prover.rs:933-1010 [ProofBuilder::add_sub_proof_request] *)
Definition builder_add (b : builder C) (req : subreq) (schema non_schema : sset) (sg : csig C) (vals : cred_values) (pk : cpk C)
    (rev_reg witness : option G2) (rnd : subrand) : builder C * res unit :=
  match builder_check vals req schema non_schema with
  | Err e => (b, Err e)
  | Ok _ =>
      let nr := match cs_r sg, rev_reg, cp_r pk, witness with
                | Some rc, Some accum, Some rk, Some omega => Some (init_non_revocation_proof C rc accum rk omega (su_d rnd) (su_tp rnd))
                | _, _, _, _ => None
                end in
      let b1 := match nr with
                | Some n => mkBuilder (pb_common b) (pb_init b) (pb_c_list b ++ c_as_list C (nr_cl n)) (pb_tau_list b ++ tau_as_list C (nr_tl n))
                | None => b
                end in
      let m2_t := match nr with Some n => Some (group_element_to_bignum C (x_m2 (nr_tp n))) | None => None end in
      match init_primary_proof (pb_common b) (cp_p pk) (cs_p sg) vals schema non_schema req m2_t (su_eq rnd) (su_ne rnd) with
      | Err e => (b1, Err e)
      | Ok ip =>
          (mkBuilder (pb_common b1) (pb_init b1 ++ [mkInitProof ip nr vals req schema non_schema])
             (pb_c_list b1 ++ pinit_c_list ip) (pb_tau_list b1 ++ pinit_tau_list ip), Ok tt)
      end
  end.
(** prover.rs:1092-1143 [ProofBuilder::finalize] *)
Definition finalize_one (challenge : Z) (ip : initproof C) : res (subproof C) :=
  let! nr := match in_r ip with
             | Some n => let! x := finalize_non_revocation_proof C n challenge in Ok (Some x)
             | None => Ok None
             end in
  let! pp := finalize_primary_proof (in_p ip) challenge (in_schema ip) (in_non_schema ip) (in_vals ip) (in_req ip) in
  Ok (mkSubProof pp nr).
Definition builder_finalize (b : builder C) (nonce : Z) : res (proof C) :=
  let challenge := get_hash_as_int H (pb_tau_list b ++ pb_c_list b ++ [bn_to_bytes nonce]) in
  let! ps := rmap (finalize_one challenge) (pb_init b) in
  Ok (mkProof ps challenge (pb_c_list b)).

(** ** ProofVerifier *)
(** verifier.rs:46-51 [new_proof_verifier] *)
Definition verifier_new : verifier C := mkVerifier [] [].
(** verifier.rs:64-67 *)
Definition verifier_add_common (v : verifier C) (attr : string) : verifier C := mkVerifier (vf_creds v) (hm_insert attr None (vf_common v)).
(** verifier.rs:109-132, 322-356 [add_sub_proof_request] *)
Definition verifier_add (v : verifier C) (req : subreq) (schema non_schema : sset) (pk : cpk C) (z : option GT) (accum : option G2)
  : verifier C * res unit :=
  if negb (Nat.eqb (length (ss_diff (rq_revealed req) schema)) 0) then (v, Err InvalidStructure)
  else if negb (Nat.eqb (length (ss_diff (predicate_attrs req) schema)) 0) then (v, Err InvalidStructure)
  else (mkVerifier (vf_creds v ++ [mkVCred pk req schema non_schema z accum]) (vf_common v), Ok tt).

(** verifier.rs:358-410 [_check_verify_params_consistency] *)
Definition check_one_params (sp : subproof C) (vc : vcred C) : res unit :=
  if negb (ss_eqb (ss_of_list (sm_keys (ep_revealed (pp_eq (sp_p sp))))) (rq_revealed (vc_req vc))) then Err ProofRejected
  else if negb (preds_eqb (pset_of_list (map np_predicate (pp_ne (sp_p sp)))) (rq_predicates (vc_req vc))) then Err ProofRejected
  else Ok tt.
Definition check_verify_params (creds : list (vcred C)) (pf : proof C) : res unit :=
  if negb (Nat.eqb (length (pf_proofs pf)) (length creds)) then Err ProofRejected
  else rfold (fun _ '(sp, vc) => check_one_params sp vc) (combine (pf_proofs pf) creds) tt.

(** verifier.rs:251-296: the common-attribute loop of one sub proof; [m] is the
    equality proof's response map.  Iterates the keys of the state map. *)
Fixpoint common_loop (m : smap Z) (names : list string) (st : smap (option Z)) : smap (option Z) * res unit :=
  match names with
  | [] => (st, Ok tt)
  | a :: rest =>
      match sm_get a m with
      | None => (st, Err ProofRejected)
      | Some m_hat =>
          match sm_get a st with
          | Some (Some v) => if v =? m_hat then common_loop m rest st else (st, Err ProofRejected)
          | Some None => common_loop m rest (hm_insert a (Some m_hat) st)
          | None => common_loop m rest st
          end
      end
  end.
(** verifier.rs:227-307: one iteration of the main loop *)
Definition verify_one (c_hash : Z) (st : smap (option Z)) (sp : subproof C) (vc : vcred C) : smap (option Z) * res (list (list Z)) :=
  let nr := match sp_r sp, cp_r (vc_pk vc), vc_accum vc, vc_z vc with
            | Some nrp, Some rk, Some accum, Some z =>
                let! t := verify_non_revocation_proof C rk accum z c_hash nrp in Ok (tau_as_list C t)
            | _, _, _, _ => Ok []
            end in
  match nr with
  | Err e => (st, Err e)
  | Ok t1 =>
      match common_loop (ep_m (pp_eq (sp_p sp))) (sm_keys st) st with
      | (st', Err e) => (st', Err e)
      | (st', Ok _) =>
          (st', let! t2 := verify_primary_proof (cp_p (vc_pk vc)) c_hash (sp_p sp) (vc_schema vc) (vc_non_schema vc) (vc_req vc) in
                Ok (t1 ++ map bn_to_bytes t2))
      end
  end.
Fixpoint verify_loop (c_hash : Z) (st : smap (option Z)) (l : list (subproof C * vcred C)) (tau : list (list Z))
  : smap (option Z) * res (list (list Z)) :=
  match l with
  | [] => (st, Ok tau)
  | (sp, vc) :: rest =>
      match verify_one c_hash st sp vc with
      | (st', Err e) => (st', Err e)
      | (st', Ok t) => verify_loop c_hash st' rest (tau ++ t)
      end
  end.
(** verifier.rs:218-320 [ProofVerifier::verify] *)
Definition verify (v : verifier C) (pf : proof C) (nonce : Z) : verifier C * res bool :=
  match check_verify_params (vf_creds v) pf with
  | Err e => (v, Err e)
  | Ok _ =>
      let (st, r) := verify_loop (pf_c_hash pf) (vf_common v) (combine (pf_proofs pf) (vf_creds v)) [] in
      (mkVerifier (vf_creds v) st,
       let! tau := r in
       let c_hver := get_hash_as_int H (tau ++ pf_c_list pf ++ [bn_to_bytes nonce]) in
       Ok (c_hver =? pf_c_hash pf))
  end.
End Proof_.

(** ** legacy JSON fields *)
(** mod.rs:339-364: [Deserialize for CredentialPrimaryPublicKey]; the JSON object's
    fields, [rms] optional (default 0).  Number and map syntax is not modelled. *)
Definition ppk_from_json (n s : Z) (r : smap Z) (rctxt : Z) (rms : option Z) (z : Z) : ppk :=
  let rms := match rms with Some x => x | None => 0 end in
  mkPPK n s (if negb (rms =? 0) then hm_insert "master_secret" rms r else r) rctxt z.
(** mod.rs:318: derived [Serialize]: the five fields *)
Definition ppk_to_json (pk : ppk) : Z * Z * smap Z * Z * option Z * Z := (pk_n pk, pk_s pk, pk_r pk, pk_rctxt pk, None, pk_z pk).
(** mod.rs:1033-1062: [Deserialize for PrimaryEqualProof] *)
Definition eqproof_from_json (revealed : smap Z) (a_prime e v : Z) (m : smap Z) (m1 : option Z) (m2 : Z) : eqproof :=
  let m1 := match m1 with Some x => x | None => 0 end in
  mkEqProof revealed a_prime e v (if negb (m1 =? 0) then hm_insert "master_secret" m1 m else m) m2.
Definition eqproof_to_json (p : eqproof) : smap Z * Z * Z * Z * smap Z * option Z * Z :=
  (ep_revealed p, ep_a_prime p, ep_e p, ep_v p, ep_m p, None, ep_m2 p).
