(** More about the BBS+ crate: the stand-alone proof of committed values with its hash check,
    blind signing only after a valid context, request indices, reported statuses, and where
    short data panics. *)
From Verif Require Import Base BnModel Alg Lin ClRevModel ClRevSpec BbsModel BbsLib BbsCodecModel BbsProps BbsCodecProps.
Import List ListNotations.
Open Scope list_scope.
Open Scope Z_scope.

(** [ProofG1::verify_complete_proof] accepts exactly when the number of responses is right,
    the Schnorr equation holds and the challenge is the hash of bases, first message,
    commitment and nonce *)
Theorem C55_complete_proof_decision : forall (C : curve) hash_fr (p : vc_proof C) bases y c nonce, curve_laws C ->
  (vc_verify_complete C hash_fr p bases y c nonce = Ok true <->
   length (vp_responses _ p) = length bases /\ madd (lin bases (vp_responses _ p)) (smul c y) = vp_commitment _ p /\
   c = hash_fr (concat (map enc1 bases) ++ enc1 (vp_commitment _ p) ++ enc1 y ++ nonce)) /\
  (length (vp_responses _ p) <> length bases ->
   vc_verify_complete C hash_fr p bases y c nonce = Err (ZmixErr (ZUnequalNoOfBasesExponents (length bases) (length (vp_responses _ p))))).
Proof.
  intros C hash_fr p bases y c nonce LW. unfold vc_verify_complete, vc_contribution.
  destruct (length bases =? length (vp_responses C p))%nat eqn:E; cbn [negb rbind].
  - apply Nat.eqb_eq in E. split; [|congruence]. rewrite (msm_lin C LW), (lin_app (cl_g1 C LW)) by exact E. rewrite lin_cons, lin_nil_l, (madd_0_r _ _ (cl_g1 C LW)).
    set (pr := madd _ _). split.
    + intros Q. assert (meqb (msub pr (vp_commitment C p)) m0 && kzero C (fsub (hash_fr (concat (map enc1 bases) ++ enc1 pr ++ enc1 y ++ nonce)) c) = true) as Q' by congruence.
      apply andb_true_iff in Q'. destruct Q' as (Q1 & Q2). apply (meqb_eq _ _ (cl_g1 C LW)) in Q1. apply (proj1 (msub_0 _ _ (cl_g1 C LW) _ _)) in Q1.
      apply (kzero_iff C LW), (fsub_eq0 _ (cl_field C LW)) in Q2. split; [congruence|]. split; [exact Q1|]. now rewrite <- Q1.
    + intros (_ & Q1 & Q2). f_equal. apply andb_true_iff. split.
      * apply (meqb_eq _ _ (cl_g1 C LW)), (msub_0 _ _ (cl_g1 C LW)), Q1.
      * apply (kzero_iff C LW). rewrite Q1, <- Q2. destruct (cl_field C LW) as [[[] _ _ _] _]. rewrite Rsub_def. apply Ropp_def.
  - apply Nat.eqb_neq in E. split; [|reflexivity]. split; [discriminate|]. intros (Q & _). congruence.
Qed.
Print Assumptions C55_complete_proof_decision.
(** the honest run: commit, take the challenge of bases, first message, commitment and nonce,
    answer: accepted for this nonce.  For another nonce only if the two hashes collide *)
Theorem C55_complete_proof : forall (C : curve) hash_fr (bases : list (cG1 C)) (bl secrets : list (cK C)) nonce, curve_laws C ->
  length bl = length bases -> length secrets = length bases ->
  let committed := vc_finish C (combine bases bl) in
  let y := lin bases secrets in
  let c := vc_gen_challenge C hash_fr committed (enc1 y ++ nonce) in
  exists p, vc_gen_proof C committed c secrets = Ok p /\ vc_verify_complete C hash_fr p bases y c nonce = Ok true /\
    forall nonce', vc_verify_complete C hash_fr p bases y c nonce' = Ok true ->
      hash_fr (concat (map enc1 bases) ++ enc1 (lin bases bl) ++ enc1 y ++ nonce) = hash_fr (concat (map enc1 bases) ++ enc1 (lin bases bl) ++ enc1 y ++ nonce').
Proof.
  intros C hash_fr bases bl secrets nonce LW L1 L2 committed y c.
  assert (committed = mkVcCommitted C bases bl (lin bases bl)) as Ec by (unfold committed; now apply (vc_finish_combine C LW)).
  assert (c = hash_fr (concat (map enc1 bases) ++ enc1 (lin bases bl) ++ enc1 y ++ nonce)) as Eh.
  { unfold c, vc_gen_challenge, vc_to_bytes. rewrite Ec. cbn [vc_bases vc_commitment]. now rewrite <- !app_assoc. }
  clearbody c committed. subst committed.
  pose proof (vc_gen_proof_eq C (mkVcCommitted C bases bl (lin bases bl)) c secrets L2) as Eg. cbn [vc_commitment vc_blindings] in Eg.
  eexists. split; [exact Eg|]. pose proof (vc_complete C LW bases bl secrets y c L1 L2 eq_refl) as V. cbv beta in V. apply (vc_verify_iff C LW) in V. destruct V as (V1 & V2). split.
  - apply (C55_complete_proof_decision C _ _ _ _ _ _ LW). split; [exact V1|]. split; [exact V2|]. exact Eh.
  - intros nonce' V. apply (C55_complete_proof_decision C _ _ _ _ _ _ LW) in V. destruct V as (_ & _ & V). cbn [vp_commitment] in V. congruence.
Qed.
Print Assumptions C55_complete_proof.
(** the issuer signs only for an accepted context; a rejected one is a GeneralError, and a
    context with a wrong number of responses is the error of the check *)
Theorem C55_signs_only_verified : forall (C : curve) g1 hash_fr encF ctx known x (pk : bbs_pk C) nonce e s,
  (forall sig, blind_sign C g1 hash_fr encF ctx known x pk nonce e s = Ok sig -> blind_ctx_verify C hash_fr encF ctx (map fst known) pk nonce = Ok true) /\
  (blind_ctx_verify C hash_fr encF ctx (map fst known) pk nonce = Ok false -> blind_sign C g1 hash_fr encF ctx known x pk nonce e s = Err (ZmixErr ZGeneralError)) /\
  (forall er, blind_ctx_verify C hash_fr encF ctx (map fst known) pk nonce = Err er -> blind_sign C g1 hash_fr encF ctx known x pk nonce e s = Err er).
Proof.
  intros C g1 hash_fr encF ctx known x pk nonce e s. unfold blind_sign.
  destruct (blind_ctx_verify C hash_fr encF ctx (map fst known) pk nonce) as [[|]|er]; cbn [rbind]; repeat split; intros; try discriminate; congruence.
Qed.
Print Assumptions C55_signs_only_verified.
(** a proof request is made exactly when no index exceeds the number of messages; the index
    equal to that number, which names no message, passes *)
Theorem C58_request_indices : forall (C : curve) (pk : bbs_pk C) indices,
  (Forall (fun i => (i <= message_count C pk)%nat) indices -> new_proof_request C indices pk = Ok (mkRequest C indices pk)) /\
  (forall pre i post, indices = pre ++ i :: post -> Forall (fun j => (j <= message_count C pk)%nat) pre -> (message_count C pk < i)%nat ->
    new_proof_request C indices pk = Err (ZmixErr (ZCountMismatch i (message_count C pk)))).
Proof.
  intros C pk indices. unfold new_proof_request, message_count. set (n := length (bh C pk)). split.
  - intros F. assert (find (fun i => (n <? i)%nat) indices = None) as ->; [|reflexivity].
    induction F as [|i l H F IH]; [reflexivity|]. cbn [find]. apply Nat.ltb_ge in H. now rewrite H.
  - intros pre i post -> F L. assert (find (fun i => (n <? i)%nat) (pre ++ i :: post) = Some i) as ->; [|reflexivity].
    induction F as [|j l H F IH]; cbn [app find]; [apply Nat.ltb_lt in L; now rewrite L|]. apply Nat.ltb_ge in H. now rewrite H.
Qed.
Print Assumptions C58_request_indices.
(** the verifier reports why a proof failed: 1 for the signature part, 2 for the first proof
    of committed values, 3 for the revealed and hidden messages *)
Theorem C56_reported_status : forall (C : curve) g1 g2 hash_fr encF rq (p : sig_proof C) nonce,
  let c := hash_fr (challenge_bytes C (sp_proof _ p) (pr_revealed _ rq) (pr_key _ rq) ++ encF nonce) in
  verify_signature_pok C g1 g2 hash_fr encF rq p nonce =
    match pok_verify C g1 g2 (sp_proof _ p) (pr_key _ rq) (sp_revealed _ p) c with
    | Ok PSuccess => Ok (map snd (sp_revealed _ p))
    | Ok PBadSignature => Err (ZmixErr (ZInvalidProof 1))
    | Ok PBadHiddenMessage => Err (ZmixErr (ZInvalidProof 2))
    | Ok PBadRevealedMessage => Err (ZmixErr (ZInvalidProof 3))
    | Err e => Err e
    end.
Proof.
  intros C g1 g2 hash_fr encF rq p nonce c. unfold verify_signature_pok. fold c. destruct (pok_verify C g1 g2 (sp_proof C p) (pr_key C rq) (sp_revealed C p) c) as [[]|e]; reflexivity.
Qed.
Print Assumptions C56_reported_status.
