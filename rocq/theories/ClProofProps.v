(** Properties C28-C33, C46 and C47: whole presentations. *)
From Verif Require Import Base BnModel BnProofs NumTheory UMod Fermat StrMap HelpersModel HelpersSpec HelpersProofs ClModel ClSpec ClLib ClKey ClIssue ClBlind ClSign
  ClPresent ClPred Alg Fp ClRevModel ClRevSpec ClProofModel ClPresSpec ClPrimary ClPresentation ClVerify ClForge ClMore CurveInst ClProps.
From Coq Require Import Znumtheory.
Open Scope string_scope.
Open Scope list_scope.
Open Scope Z_scope.

Lemma item_weaken C (it : item C) : item_ok C it -> item_ok_for C predicate_provable it.
Proof.
  intros [A B D E]. constructor; auto. eapply presentable_weaken; [|exact B]. apply satisfied_provable.
Qed.
Lemma item_wf C (it : item C) Q : item_ok_for C Q it -> wf_req (it_req it).
Proof. intros I. split; [exact (pr_revealed_sorted (io_present _ _ _ I))|exact (pr_preds_sorted (io_present _ _ _ I))]. Qed.
Lemma value_of_val vals k : val_of vals k = value_of vals k. Proof. reflexivity. Qed.
Lemma shows_revealed C c cm : forall (items : list (item C)) sps, Forall2 (shows C c cm) items sps ->
  Forall2 (fun it sp => ep_revealed (pp_eq (sp_p sp)) = map (fun k => (k, value_of (it_vals it) k)) (rq_revealed (it_req it))) items sps.
Proof. intros items sps F. induction F as [|it sp l l' [S1 _] F IH]; constructor; auto. Qed.

(** ** C28: completeness of whole presentations *)
(** any number of credentials with any schemas, requests and draws; any common
    attributes; with or without non-revocation parts *)
Theorem C28_presentation_accepted : forall (C : curve) (H : list Z -> list Z) (commons : list (string * Z)) (items : list (item C)) (nonce : Z),
  curve_laws C -> hash32 H -> (forall it, In it items -> item_ok C it) -> common_ok C (map fst commons) items ->
  exists b v pf v',
    build_all C (common_builder C commons) items = (b, Ok tt) /\
    builder_finalize C H b nonce = Ok pf /\
    expect_all C (common_verifier C (map fst commons)) items = (v, Ok tt) /\
    verify C H v pf nonce = (v', Ok true) /\
    Forall2 (fun it sp => ep_revealed (pp_eq (sp_p sp)) = map (fun k => (k, value_of (it_vals it) k)) (rq_revealed (it_req it))) items (pf_proofs pf).
Proof.
  intros C H commons items nonce LW Hh Hi Hc.
  destruct (presentation_ok C LW H commons items nonce Hh (fun it Hit => item_weaken C it (Hi it Hit)) Hc) as (b & v & pf & v' & E1 & E2 & E3 & E4 & _ & F & _).
  exists b, v, pf, v'. repeat (split; [assumption|]). exact (shows_revealed _ _ _ _ _ F).
Qed.
Print Assumptions C28_presentation_accepted.

(** ** C29: what acceptance means *)
Theorem C29_accept_iff : forall (C : curve) (H : list Z -> list Z) (v : verifier C) (pf : proof C) (nonce : Z),
  (forall vc, In vc (vf_creds v) -> wf_req (vc_req vc)) ->
  ((exists v', verify C H v pf nonce = (v', Ok true)) <->
   length (pf_proofs pf) = length (vf_creds v) /\
   Forall (fun '(sp, vc) => answers C sp (vc_req vc)) (combine (pf_proofs pf) (vf_creds v)) /\
   (forall a, In a (sm_keys (vf_common v)) -> common_agrees C v (pf_proofs pf) a) /\
   exists tss, Forall2 (fun '(sp, vc) ts => recomputed C (pf_c_hash pf) sp vc = Ok ts) (combine (pf_proofs pf) (vf_creds v)) tss /\
     get_hash_as_int H (concat tss ++ pf_c_list pf ++ [bn_to_bytes nonce]) = pf_c_hash pf).
Proof. exact verify_iff. Qed.
Print Assumptions C29_accept_iff.
Theorem C29_names_and_predicates : forall (C : curve) (H : list Z -> list Z) (v : verifier C) (pf : proof C) (nonce : Z) v' i sp vc,
  (forall vc, In vc (vf_creds v) -> wf_req (vc_req vc)) ->
  verify C H v pf nonce = (v', Ok true) -> nth_error (pf_proofs pf) i = Some sp -> nth_error (vf_creds v) i = Some vc ->
  (forall k, In k (sm_keys (ep_revealed (pp_eq (sp_p sp)))) <-> In k (rq_revealed (vc_req vc))) /\
  (forall p, In p (map np_predicate (pp_ne (sp_p sp))) <-> In p (rq_predicates (vc_req vc))).
Proof.
  intros C H v pf nonce v' i sp vc W E N1 N2. destruct (proj1 (verify_iff C H v pf nonce W) (ex_intro _ _ E)) as (_ & A & _).
  rewrite Forall_forall in A. apply (A (sp, vc)). clear - N1 N2. revert N1 N2. generalize (pf_proofs pf) (vf_creds v). induction i as [|i IH]; intros [|a l] [|b l'] N1 N2; try discriminate.
  - left. cbn in N1, N2. congruence.
  - right. apply IH; assumption.
Qed.
Print Assumptions C29_names_and_predicates.
Theorem C29_common_values_agree : forall (C : curve) (H : list Z -> list Z) (v : verifier C) (pf : proof C) (nonce : Z) v' a sp1 sp2,
  (forall vc, In vc (vf_creds v) -> wf_req (vc_req vc)) ->
  verify C H v pf nonce = (v', Ok true) -> In a (sm_keys (vf_common v)) -> In sp1 (pf_proofs pf) -> In sp2 (pf_proofs pf) ->
  exists m, response C sp1 a = Some m /\ response C sp2 a = Some m.
Proof.
  intros C H v pf nonce v' a sp1 sp2 W E Ha H1 H2. destruct (proj1 (verify_iff C H v pf nonce W) (ex_intro _ _ E)) as (_ & _ & A & _).
  destruct (A a Ha) as (m & M & _). eauto.
Qed.
Print Assumptions C29_common_values_agree.

(** ** C30: presentations without a credential *)
(** an attacker who knows only the issuer's public key makes accepted presentations of
    any attribute values: the prover's own code, run on a signature with exponent e = 1
    computed by [forge] *)
Lemma forged_items C : forall items : list (item C), (forall it, In it items -> claim_ok C it) -> exists items', rmap with_forged items = Ok items' /\
  Forall2 (fun it it' => it_vals it' = it_vals it /\ it_req it' = it_req it /\ vcred_of C it' = vcred_of C it /\ item_ok C it') items items'.
Proof.
  induction items as [|it items IH]; intros Hi.
  { exists []. split; [reflexivity|constructor]. }
  destruct IH as (items' & E & F); [intros; apply Hi; now right|]. pose proof (Hi it (or_introl eq_refl)) as K.
  destruct (forge_ok _ (cl_pk _ _ K) (it_vals it) (cl_bases _ _ K)) as (sg & Es & Eu & Esig & _).
  assert (exists it', with_forged it = Ok it' /\ it' = mkItem (it_req it) (it_schema it) (it_non_schema it) (mkCSig sg None) (it_vals it) (it_pk it) (it_accum it) None (it_z it) (it_rnd it))
    as (it' & Ef & Eit) by (unfold with_forged; rewrite Es; cbn [rbind]; eauto).
  exists (it' :: items'). split; [cbn [rmap]; rewrite Ef; cbn [rbind]; rewrite E; reflexivity|]. rewrite Eit.
  constructor; [|exact F]. split; [reflexivity|]. split; [reflexivity|]. split; [reflexivity|].
  destruct K. constructor; cbn [it_pk it_sig it_vals it_schema it_non_schema it_req it_rnd cs_p]; auto.
  - constructor; auto.
  - exact I.
Qed.
Lemma expect_all_vcred C : forall (items items' : list (item C)) v, Forall2 (fun it it' => vcred_of C it' = vcred_of C it) items items' ->
  expect_all C v items = expect_all C v items'.
Proof.
  intros items items' v F. revert v. induction F as [|it it' l l' E F IH]; intros v; [reflexivity|]. cbn [expect_all].
  assert (it_req it' = it_req it /\ it_schema it' = it_schema it /\ it_non_schema it' = it_non_schema it /\ it_pk it' = it_pk it /\ it_z it' = it_z it /\ it_accum it' = it_accum it)
    as (-> & -> & -> & -> & -> & ->) by (unfold vcred_of in E; repeat split; congruence).
  destruct (verifier_add _ _ _ _ _ _ _ _) as [v' [[]|e]]; [apply IH|reflexivity].
Qed.
Theorem C30_refuted_credential_needed : forall (C : curve) (H : list Z -> list Z) (commons : list (string * Z)) (items : list (item C)) (nonce : Z),
  curve_laws C -> hash32 H -> (forall it, In it items -> claim_ok C it) -> common_ok C (map fst commons) items ->
  exists items' b v pf v',
    rmap with_forged items = Ok items' /\
    build_all C (common_builder C commons) items' = (b, Ok tt) /\
    builder_finalize C H b nonce = Ok pf /\
    expect_all C (common_verifier C (map fst commons)) items = (v, Ok tt) /\
    verify C H v pf nonce = (v', Ok true) /\
    Forall2 (fun it sp => ep_revealed (pp_eq (sp_p sp)) = map (fun k => (k, value_of (it_vals it) k)) (rq_revealed (it_req it))) items (pf_proofs pf).
Proof.
  intros C H commons items nonce LW Hh Hi Hc. destruct (forged_items C items Hi) as (items' & E & F).
  assert (forall it', In it' items' -> exists it, In it items /\ it_vals it' = it_vals it /\ it_req it' = it_req it /\ item_ok C it') as Q.
  { clear - F. induction F as [|it it' l l' (A & B & D & E) F IH]; [intros ? []|]. intros x [<-|Hx]; [exists it; auto with datatypes|].
    destruct (IH x Hx) as (y & Hy & R). exists y. split; [now right|exact R]. }
  destruct (C28_presentation_accepted C H commons items' nonce LW Hh) as (b & v & pf & v' & E1 & E2 & E3 & E4 & E5).
  - intros it' Hit. destruct (Q it' Hit) as (_ & _ & _ & _ & Ok_). exact Ok_.
  - intros a Ha. destruct (Hc a Ha) as (x & Hx). exists x. intros it' Hit. destruct (Q it' Hit) as (it & Hin & -> & -> & _). now apply Hx.
  - exists items', b, v, pf, v'. repeat (split; [assumption|]). split; [|split; [exact E4|]].
    + rewrite (expect_all_vcred C items items'); [exact E3|]. clear - F. induction F as [|? ? ? ? (A & B & D & E)]; constructor; auto.
    + clear - F E5. revert F E5. generalize (pf_proofs pf). intros sps F. revert sps. induction F as [|it it' l l' (A & B & D & E) F IH]; intros sps E5; inversion E5; subst; constructor; auto.
      now rewrite <- A, <- B.
Qed.
Print Assumptions C30_refuted_credential_needed.

(** ** C31: predicate proofs about made-up values *)
(** a holder of any credential proves any satisfiable predicates about its attributes,
    also those that its own values do not satisfy, together with revealed values *)
Theorem C31_refuted_predicates_bound : forall (C : curve) (H : list Z -> list Z) pk rk (z : option (cGT C)) accum sg vals schema non_schema revealed ps (claim : predicate -> Z) nonce rnd nrnd,
  curve_laws C -> hash32 H -> valid_pk pk -> presentable pk sg vals schema non_schema (mkSubReq revealed []) ->
  pset_of_list ps = ps ->
  (forall p, In p ps -> In (p_attr p) schema /\ is_i32 (claim p) /\ is_i32 (p_value p) /\ holds (p_type p) (claim p) (p_value p) /\
     true_delta (p_type p) (claim p) (p_value p) < 2 ^ 31 /\ 0 <= nr_r (nrnd p) "DELTA" /\ 0 <= nr_r_tilde (nrnd p) "DELTA") ->
  exists pf v v', cheat C H pk sg vals schema non_schema revealed ps claim nonce rnd nrnd = Ok pf /\
    verifier_add C (verifier_new C) (mkSubReq revealed ps) schema non_schema (mkCPK pk rk) z accum = (v, Ok tt) /\
    verify C H v pf nonce = (v', Ok true) /\
    forall sp, In sp (pf_proofs pf) -> ep_revealed (pp_eq (sp_p sp)) = map (fun k => (k, value_of vals k)) revealed /\
      forall k cv, sm_get k vals = Some cv -> ~ In k revealed -> response C sp k = Some (pf_c_hash pf * cv_value cv + er_m rnd k).
Proof.
  intros C H pk rk z accum sg vals schema non_schema revealed ps claim nonce rnd nrnd LW Hh V P.
  apply (cheat_ok C H); auto. eapply presentable_weaken; [|exact P]. apply satisfied_provable.
Qed.
Print Assumptions C31_refuted_predicates_bound.

(** ** C32: the non-revocation part can be left out *)
Lemma no_witness_no_proof C (b : builder C) : forall items b', (forall it, In it items -> it_omega it = None) -> (forall ip, In ip (pb_init b) -> in_r ip = None) ->
  build_all C b items = (b', Ok tt) -> forall ip, In ip (pb_init b') -> in_r ip = None.
Proof.
  intros items. revert b. induction items as [|it items IH]; intros b b' Hi Hb E; cbn [build_all] in E.
  { assert (b = b') as <- by congruence. exact Hb. }
  destruct (builder_add C b _ _ _ _ _ _ _ _ _) as [b1 [[]|e]] eqn:Eb; [|discriminate].
  apply (IH b1); [intros; apply Hi; now right| |exact E].
  pose proof (Hi it (or_introl eq_refl)) as Ho. unfold builder_add in Eb. rewrite Ho in Eb.
  destruct (builder_check _ _ _ _) as [|e]; [|discriminate].
  assert (match cs_r (it_sig it) with Some rc => match it_accum it with Some accum => match cp_r (it_pk it) with Some rk => None | None => None end | None => None end | None => None end = @None (nrinit C)) as N.
  { destruct (cs_r (it_sig it)), (it_accum it), (cp_r (it_pk it)); reflexivity. }
  rewrite N in Eb. destruct (init_primary_proof _ _ _ _ _ _ _ _ _ _) as [ip|e]; [|discriminate].
  intros ip0 Hip. assert (b1 = mkBuilder (pb_common b) (pb_init b ++ [mkInitProof ip None (it_vals it) (it_req it) (it_schema it) (it_non_schema it)])
    (pb_c_list b ++ pinit_c_list ip) (pb_tau_list b ++ pinit_tau_list ip)) as -> by congruence.
  cbn [pb_init] in Hip. apply in_app_or in Hip as [Hip|[<-|[]]]; [now apply Hb|reflexivity].
Qed.
(** whatever revocation registry, accumulator and registry key the verifier uses: a
    prover that supplies no witness (a revoked one, for example) is accepted *)
Theorem C32_refuted_nonrevocation_required : forall (C : curve) (H : list Z -> list Z) (commons : list (string * Z)) (items : list (item C)) (nonce : Z),
  curve_laws C -> hash32 H -> (forall it, In it items -> item_ok C it) -> common_ok C (map fst commons) items ->
  (forall it, In it items -> it_omega it = None) ->
  exists b v pf v',
    build_all C (common_builder C commons) items = (b, Ok tt) /\
    builder_finalize C H b nonce = Ok pf /\
    expect_all C (common_verifier C (map fst commons)) items = (v, Ok tt) /\
    verify C H v pf nonce = (v', Ok true) /\
    (forall sp, In sp (pf_proofs pf) -> sp_r sp = None) /\
    vf_creds v = map (fun it => mkVCred (it_pk it) (it_req it) (it_schema it) (it_non_schema it) (it_z it) (it_accum it)) items.
Proof.
  intros C H commons items nonce LW Hh Hi Hc Ho.
  destruct (presentation_ok C LW H commons items nonce Hh (fun it Hit => item_weaken C it (Hi it Hit)) Hc) as (b & v & pf & v' & E1 & E2 & E3 & E4 & _ & F & Ev).
  exists b, v, pf, v'. repeat (split; [assumption|]). split; [|rewrite Ev; reflexivity].
  assert (forall ip, In ip (pb_init b) -> in_r ip = None) as Hr.
  { apply (no_witness_no_proof C (common_builder C commons) items b Ho); [|exact E1]. destruct (common_builder_shape C commons) as (S1 & S2 & S3).
    intros ip Hip. first [rewrite S1 in Hip|rewrite S2 in Hip|rewrite S3 in Hip]; destruct Hip. }
  unfold builder_finalize in E3. destruct (rmap _ (pb_init b)) as [ps|e] eqn:Er; [|discriminate]. cbn [rbind] in E3.
  assert (pf_proofs pf = ps) as -> by (destruct pf as [l1 l2 l3]; cbn; congruence). clear E3 E4 F E1. revert ps Er Hr. induction (pb_init b) as [|ip l IH]; intros ps Er Hr; cbn [rmap] in Er.
  { assert (ps = []) as -> by congruence. intros ? []. }
  destruct (finalize_one C _ ip) as [sp|e] eqn:Ef; [|discriminate]. cbn [rbind] in Er. destruct (rmap _ l) as [ps'|e] eqn:El; [|discriminate]. cbn [rbind] in Er.
  assert (ps = sp :: ps') as -> by congruence. intros sp0 [<-|Hin].
  - unfold finalize_one in Ef. rewrite (Hr ip (or_introl eq_refl)) in Ef. cbn [rbind] in Ef. destruct (finalize_primary_proof _ _ _ _ _ _) as [pp|e]; [|discriminate]. cbn [rbind] in Ef.
    assert (sp = mkSubProof pp None) as -> by congruence. reflexivity.
  - apply (IH ps'); auto. intros; apply Hr; now right.
Qed.
Print Assumptions C32_refuted_nonrevocation_required.

(** ** C33: the verifier object remembers *)
Theorem C33_second_response_rejected : forall (C : curve) (H : list Z -> list Z) v pf1 pf2 nonce1 nonce2 v1 a sp1 sp2,
  (forall vc, In vc (vf_creds v) -> wf_req (vc_req vc)) ->
  verify C H v pf1 nonce1 = (v1, Ok true) -> In a (sm_keys (vf_common v)) ->
  In sp1 (pf_proofs pf1) -> In sp2 (pf_proofs pf2) -> response C sp1 a <> response C sp2 a ->
  forall v2 r, verify C H v1 pf2 nonce2 = (v2, r) -> r <> Ok true.
Proof. exact second_rejected. Qed.
Print Assumptions C33_second_response_rejected.
(** two honest proofs of the same credentials, accepted by a fresh verifier each, whose
    draws for the common attribute differ enough *)
Theorem C33_refuted_verify_stateless : forall (C : curve) (H : list Z -> list Z) (a : string) (d1 d2 x : Z) (items : list (item C)) (nonce1 nonce2 : Z),
  curve_laws C -> hash32 H -> items <> [] -> (forall it, In it items -> item_ok C it) ->
  (forall it, In it items -> ~ In a (rq_revealed (it_req it)) /\ exists cv, sm_get a (it_vals it) = Some cv /\ cv_value cv = x) ->
  2 ^ 256 * Z.abs x <= Z.abs (d1 - d2) -> d1 <> d2 ->
  exists b1 b2 pf1 pf2 v v1 v2,
    build_all C (common_builder C [(a, d1)]) items = (b1, Ok tt) /\ builder_finalize C H b1 nonce1 = Ok pf1 /\
    build_all C (common_builder C [(a, d2)]) items = (b2, Ok tt) /\ builder_finalize C H b2 nonce2 = Ok pf2 /\
    expect_all C (common_verifier C [a]) items = (v, Ok tt) /\
    verify C H v pf1 nonce1 = (v1, Ok true) /\ verify C H v pf2 nonce2 = (v2, Ok true) /\
    forall w r, verify C H v1 pf2 nonce2 = (w, r) -> r <> Ok true.
Proof.
  intros C H a d1 d2 x items nonce1 nonce2 LW Hh Hne Hi Hx Hd Hdd.
  assert (forall d : Z, common_ok C (map fst [(a, d)]) items) as Hc by (intros d a' [<-|[]]; exists x; exact Hx).
  destruct (presentation_ok C LW H [(a, d1)] items nonce1 Hh (fun it Hit => item_weaken C it (Hi it Hit)) (Hc d1)) as (b1 & v & pf1 & v1 & A1 & A2 & A3 & A4 & A5 & A6 & A7).
  destruct (presentation_ok C LW H [(a, d2)] items nonce2 Hh (fun it Hit => item_weaken C it (Hi it Hit)) (Hc d2)) as (b2 & w & pf2 & v2 & B1 & B2 & B3 & B4 & B5 & B6 & B7).
  assert (w = v) as -> by (rewrite A7, B7; reflexivity).
  exists b1, b2, pf1, pf2, v, v1, v2. repeat (split; [assumption|]).
  destruct items as [|it items]; [contradiction|]. 
  assert (forall R pfs, Forall2 R (it :: items) pfs -> exists sp : subproof C, In sp pfs /\ R it sp) as Inv by (intros R pfs F; inversion F; subst; eexists; split; [now left|assumption]).
  destruct (Inv _ _ A6) as (sp1 & Ep1 & S1). destruct (Inv _ _ B6) as (sp2 & Ep2 & S2). rewrite A7 in *.
  destruct (Hx it (or_introl eq_refl)) as (Hnr & cv & Ecv & Eval).
  destruct S1 as [_ S1]. destruct S2 as [_ S2].
  assert (forall d, sm_get a (pb_common (common_builder C [(a, d)])) = Some d) as G by (intros d; cbn; now rewrite String.eqb_refl).
  pose proof (S1 a d1 cv (G d1) Hnr Ecv) as R1. pose proof (S2 a d2 cv (G d2) Hnr Ecv) as R2.
  intros w r Ew. refine (second_rejected C H _ pf1 pf2 nonce1 nonce2 v1 a sp1 sp2 _ A4 _ _ _ _ w r Ew).
  - cbn [vf_creds]. intros vc Hvc. change (In vc (map (vcred_of C) (it :: items))) in Hvc. apply in_map_iff in Hvc as (i & <- & Hin). apply (item_wf C i predicate_satisfied). now apply Hi.
  - cbn. now left.
  - exact Ep1.
  - exact Ep2.
  - rewrite R1, R2, Eval. intros Q. injection Q as Q. nia.
Qed.
Print Assumptions C33_refuted_verify_stateless.

(** ** C46: the challenge does not fix the nonce *)
(** an accepted proof for the nonce high ++ low (as bytes) gives an accepted proof for
    the nonce low, with the same sub proofs: bytes move to the proof's own list *)
Theorem C46_refuted_nonce_binding : forall (C : curve) (H : list Z -> list Z) (v : verifier C) (pf : proof C) (high low k : Z),
  (forall vc, In vc (vf_creds v) -> wf_req (vc_req vc)) ->
  1 <= high -> 1 <= k -> 256 ^ (k - 1) <= low < 256 ^ k ->
  (exists v', verify C H v pf (high * 256 ^ k + low) = (v', Ok true)) ->
  exists v', verify C H v (mkProof (pf_proofs pf) (pf_c_hash pf) (pf_c_list pf ++ [bn_to_bytes high])) low = (v', Ok true).
Proof. intros C H. exact (nonce_suffix C H). Qed.
Print Assumptions C46_refuted_nonce_binding.

(** ** C47: false predicates that the honest code proves *)
(** GT i32::MAX for a negative attribute, LT i32::MIN for a non-negative one *)
Theorem C47_refuted_predicate_true : forall (C : curve) (H : list Z -> list Z) (items : list (item C)) (nonce : Z),
  curve_laws C -> hash32 H ->
  (forall it, In it items -> item_ok_for C (fun vals p => predicate_satisfied vals p \/ wrapped_predicate vals p) it) ->
  exists b v pf v', build_all C (builder_new C) items = (b, Ok tt) /\ builder_finalize C H b nonce = Ok pf /\
    expect_all C (verifier_new C) items = (v, Ok tt) /\ verify C H v pf nonce = (v', Ok true).
Proof.
  intros C H items nonce LW Hh Hi.
  destruct (presentation_ok C LW H [] items nonce Hh) as (b & v & pf & v' & E1 & E2 & E3 & E4 & _).
  - intros it Hit. destruct (Hi it Hit) as [A B D E]. constructor; auto. eapply presentable_weaken; [|exact B]. intros p [Q|Q]; [now apply satisfied_provable|now apply wrapped_provable].
  - intros a [].
  - exists b, v, pf, v'. auto.
Qed.
Print Assumptions C47_refuted_predicate_true.
Theorem C47_wrapped_false : forall vals p, wrapped_predicate vals p -> ~ predicate_satisfied vals p /\ exists cv, sm_get (p_attr p) vals = Some cv /\ ~ holds (p_type p) (cv_value cv) (p_value p).
Proof.
  intros vals p W. destruct (wrapped_provable vals p W) as [_ (cv & E & N)]. split; [|eauto].
  intros (cv' & E' & _ & _ & Hh & _). rewrite E in E'. assert (cv = cv') as <- by congruence. contradiction.
Qed.
Print Assumptions C47_wrapped_false.

(** ** concrete cases *)
Example C28_ex_hash : hash32 exH.
Proof.
  intros l. unfold exH. split; [rewrite app_length, repeat_length; reflexivity|].
  apply Forall_app. split; [rewrite Forall_forall; intros x Hx; apply repeat_spec in Hx; lia|]. constructor; [|constructor]. apply Z.mod_pos_bound. lia.
Qed.
Definition ex_x0 : xlist T257 := let z := (f0 : cK T257) in mkX z z z z z z z z z z z z z z.
Definition ex_rnd : subrand T257 := mkSubRand T257 (mkEqRand 3 1000 2000 3000 (fun _ => 4000)) (fun _ => mkNeRand (fun _ => 11) (fun _ => 12) (fun _ => 13) 14) ex_x0 ex_x0.
Definition ex_item (sg : psig) (req : subreq) : item T257 :=
  mkItem req ["name"] ["master_secret"] (mkCSig sg None) ex_vals (mkCPK ex_pk1 None) None None None ex_rnd.
Lemma ex_sorted_pair : ssorted ["master_secret"; "name"].
Proof. cbn [ssorted]. split; [|split; [intros ? []|exact I]]. intros y [<-|[]]. reflexivity. Qed.
Lemma ex_presentable : exists sg, 
  forall req, wf_req req -> (forall k, In k (rq_revealed req) -> k = "name") ->
  (forall p, In p (rq_predicates req) -> p_attr p = "name" /\ ~ In "name" (rq_revealed req) /\ predicate_satisfied ex_vals p) ->
  presentable ex_pk1 sg ex_vals ["name"] ["master_secret"] req.
Proof.
  destruct C23_ex_issuer_key as (K & _ & V). destruct C25_ex_hypotheses as (S & Hk & Ee & Eg).
  destruct C25_ex_issued as (bl & pr & sg & sp & B1 & B2 & B3 & _). exists (process_primary_credential sg 77777). intros req W Hr Hp.
  revert K V Hk Eg B1 B2 B3. generalize ex_pk1 ex_sk1. intros pk sk K V Hk Eg B1 B2 B3.
  apply (C25_issued_presentable exH ex_isp pk sk ex_vals [("name", Known 42)] [1;2] 77777 555 99999 (fun _ => 31) (fun _ => 37) 666 4242 [ex_e] ex_e 7 ["name"] ["master_secret"] req) with (bl := bl) (pr := pr) (sp := sp); auto.
  - intros k cv [Q|[Q|[]]]; inversion Q; reflexivity.
  - exact ex_e_nonneg.
  - cbn [ssorted]. split; [intros ? []|exact I].
  - cbn [ssorted]. split; [intros ? []|exact I].
  - intros k. cbn. intuition (subst; auto).
  - intros k Hin. apply Hr in Hin. subst. now left.
  - intros p Hin. destruct (Hp p Hin) as (Ea & Hn & Hs). rewrite Ea. split; [now left|auto].
Qed.
(** two presentations of one issued credential *)
Lemma ex_items_ok sg : (forall req, wf_req req -> (forall k, In k (rq_revealed req) -> k = "name") ->
    (forall p, In p (rq_predicates req) -> p_attr p = "name" /\ ~ In "name" (rq_revealed req) /\ predicate_satisfied ex_vals p) ->
    presentable ex_pk1 sg ex_vals ["name"] ["master_secret"] req) -> valid_pk ex_pk1 ->
  (forall it, In it [ex_item sg (mkSubReq ["name"] []); ex_item sg ex_req] -> item_ok T257 it) /\
  common_ok T257 (map fst [("master_secret", 5555)]) [ex_item sg (mkSubReq ["name"] []); ex_item sg ex_req].
Proof.
  unfold ex_item. generalize ex_pk1. intros pk1 P V. split.
  - intros it [<-|[<-|[]]]; (constructor; cbn [it_pk cp_p it_sig cs_p it_vals it_schema it_non_schema it_req it_rnd]; [exact V| |exact I|]).
    + apply P; [split; [cbn [ssorted rq_revealed]; split; [intros ? []|exact I]|reflexivity]|intros k [<-|[]]; reflexivity|intros p []].
    + intros p [].
    + apply P; [split; [exact I|reflexivity]|intros k []|]. intros p [<-|[]]. split; [reflexivity|]. split; [intros []|exact C27_ex].
    + intros p _. cbn. lia.
  - intros a [<-|[]]. exists 12345. intros it [<-|[<-|[]]]; (split; [cbn; intuition discriminate|]); exists (Hidden 12345); split; reflexivity.
Qed.
Example C28_ex_items : exists sg, (forall it, In it [ex_item sg (mkSubReq ["name"] []); ex_item sg ex_req] -> item_ok T257 it) /\
  common_ok T257 (map fst [("master_secret", 5555)]) [ex_item sg (mkSubReq ["name"] []); ex_item sg ex_req].
Proof. destruct ex_presentable as (sg & P). exists sg. destruct C23_ex_issuer_key as (K & _ & V). exact (ex_items_ok sg P V). Qed.
(** the presentation of these two is accepted *)
Example C28_ex_accepted : exists sg pf v v', 
  expect_all T257 (common_verifier T257 ["master_secret"]) [ex_item sg (mkSubReq ["name"] []); ex_item sg ex_req] = (v, Ok tt) /\
  verify T257 exH v pf 4711 = (v', Ok true) /\ length (pf_proofs pf) = 2%nat.
Proof.
  destruct C28_ex_items as (sg & A & B).
  destruct (C28_presentation_accepted T257 exH [("master_secret", 5555)] _ 4711 T257_laws C28_ex_hash A B) as (b & v & pf & v' & E1 & E2 & E3 & E4 & F).
  exists sg, pf, v, v'. split; [exact E3|]. split; [exact E4|]. clear - F. inversion F as [|? ? ? ? _ F1]; subst. inversion F1 as [|? ? ? ? _ F2]; subst. inversion F2. reflexivity.
Qed.
(** a claim to any value whatsoever, without a signature *)
Example C30_ex_claim : forall x, claim_ok T257 (mkItem (mkSubReq ["name"] []) ["name"] ["master_secret"] (mkCSig (mkPSig 0 0 0 0) None)
  [("master_secret", Hidden 1); ("name", Known x)] (mkCPK ex_pk1 None) None None None ex_rnd).
Proof.
  intros x. destruct C23_ex_issuer_key as (_ & _ & V). assert (forall k, k = "master_secret" \/ k = "name" -> In k (sm_keys (pk_r ex_pk1))) as Hk by (intros k [-> | ->]; vm_compute; tauto).
  revert V Hk. generalize ex_pk1. intros pk1 V Hk. constructor; cbn [it_pk cp_p it_sig cs_p it_vals it_schema it_non_schema it_req it_rnd rq_revealed rq_predicates].
  - exact V.
  - cbn [ssorted]. split; [intros ? []|exact I].
  - cbn [ssorted]. split; [intros ? []|exact I].
  - cbn [ssorted]. split; [intros ? []|exact I].
  - reflexivity.
  - exact ex_sorted_pair.
  - intros k. cbn. intuition (subst; auto).
  - auto.
  - intros p [].
  - intros k [<-|[<-|[]]]; auto.
  - intros p [].
Qed.
(** a credential with the value 42 proves that the value is at least 1000 *)
Example C31_ex : exists sg pf v v', cheat T257 exH ex_pk1 sg ex_vals ["name"] ["master_secret"] [] [mkPred "name" GE 1000] (fun _ => 2000) 99 (mkEqRand 3 1000 2000 3000 (fun _ => 4000)) (fun _ => mkNeRand (fun _ => 11) (fun _ => 12) (fun _ => 13) 14) = Ok pf /\
  verifier_add T257 (verifier_new T257) (mkSubReq [] [mkPred "name" GE 1000]) ["name"] ["master_secret"] (mkCPK ex_pk1 None) None None = (v, Ok tt) /\
  verify T257 exH v pf 99 = (v', Ok true).
Proof.
  destruct C23_ex_issuer_key as (K & _ & V). destruct ex_presentable as (sg & P).
  destruct (C31_refuted_predicates_bound T257 exH ex_pk1 None None None sg ex_vals ["name"] ["master_secret"] [] [mkPred "name" GE 1000] (fun _ => 2000) 99 (mkEqRand 3 1000 2000 3000 (fun _ => 4000)) (fun _ => mkNeRand (fun _ => 11) (fun _ => 12) (fun _ => 13) 14)) as (pf & v & v' & A & B & D & _).
  - exact T257_laws.
  - exact C28_ex_hash.
  - exact V.
  - apply P; [split; [exact I|reflexivity]|intros k []|intros p []].
  - reflexivity.
  - intros p [<-|[]]. unfold is_i32. cbn. repeat split; try lia. now left.
  - exists sg, pf, v, v'. split; [exact A|]. split; [exact B|exact D].
Qed.
Example C33_ex : 2 ^ 256 * Z.abs 12345 <= Z.abs (2 ^ 300 - 5) /\ 2 ^ 300 <> 5 /\
  (forall sg it, In it [ex_item sg (mkSubReq ["name"] []); ex_item sg ex_req] -> ~ In "master_secret" (rq_revealed (it_req it)) /\ exists cv, sm_get "master_secret" (it_vals it) = Some cv /\ cv_value cv = 12345).
Proof.
  split; [lia|]. split; [lia|]. intros sg it [<-|[<-|[]]]; (split; [cbn; intuition discriminate|]); exists (Hidden 12345); split; reflexivity.
Qed.
Example C46_ex : 256 ^ (1 - 1) <= 57 < 256 ^ 1 /\ 18 * 256 ^ 1 + 57 = 4665. Proof. split; reflexivity || lia. Qed.
Example C47_ex : wrapped_predicate [("balance", Known (-5))] (mkPred "balance" GT (2 ^ 31 - 1)).
Proof. exists (Known (-5)). split; [reflexivity|]. left. split; [reflexivity|]. split; [reflexivity|]. cbn. lia. Qed.
