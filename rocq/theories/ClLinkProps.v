(** Property C148: presentations of revocable credentials can be linked.  The response
    for the credential context m2 is c * m2 + m2_tilde, and with a non-revocation proof
    m2_tilde is a scalar of the pairing group, smaller than almost every challenge c. *)
From Verif Require Import Base BnModel BnProofs StrMap HelpersModel HelpersSpec HelpersProofs ClModel ClSpec ClLib Alg Fp ClRevModel ClRevSpec ClProofModel ClPresSpec
  ClPresentation ClProps CurveInst ClProofProps ClCtxProps ClRevProps.
Open Scope string_scope.
Open Scope list_scope.
Open Scope Z_scope.

(** ** specification *)
(** the prover is given everything that makes it add a non-revocation proof *)
Definition shows_non_revocation {C : curve} (it : item C) : Prop :=
  cs_r (it_sig it) <> None /\ it_accum it <> None /\ cp_r (it_pk it) <> None /\ it_omega it <> None.
(** what anyone who sees a presentation can compute: the integer quotient of the m2
    response of one sub proof by the challenge *)
Definition read_context {C : curve} (pf : proof C) (sp : subproof C) : Z := ep_m2 (pp_eq (sp_p sp)) / pf_c_hash pf.
(** a prover's session: common attributes, credentials in order, nonce *)
Definition presents {C : curve} (H : list Z -> list Z) (commons : list (string * Z)) (items : list (item C)) (nonce : Z) (pf : proof C) : Prop :=
  exists b, build_all C (common_builder C commons) items = (b, Ok tt) /\ builder_finalize C H b nonce = Ok pf.
(** the scalars of the pairing group, written as integers, are below [q] *)
Definition scalars_below (C : curve) (q : Z) : Prop := forall x : cK C, 0 <= toZ x < q.

(** ** the response of m2 *)
Definition m2_mask {C : curve} (it : item C) : Z :=
  match cs_r (it_sig it), it_accum it, cp_r (it_pk it), it_omega it with
  | Some _, Some _, Some _, Some _ => toZ (x_m2 (su_tp C (it_rnd it)))
  | _, _, _, _ => er_m2_tilde (su_eq C (it_rnd it))
  end.
Lemma init_eq_m2 common pk sg schema non_schema req m2_t rnd ei : init_eq_proof common pk sg schema non_schema req m2_t rnd = Ok ei ->
  ei_m2 ei = sg_m2 sg /\ ei_m2_tilde ei = match m2_t with Some x => x | None => er_m2_tilde rnd end.
Proof.
  intros E. unfold init_eq_proof in E. apply rbind_ok in E as (x & _ & E). apply rbind_ok in E as (a & _ & E). apply rbind_ok in E as (t & _ & E).
  injection E as <-. split; reflexivity.
Qed.
Lemma init_primary_m2 common pk sg vals schema non_schema req m2_t rnd nrnd ip : init_primary_proof common pk sg vals schema non_schema req m2_t rnd nrnd = Ok ip ->
  ei_m2 (pi_eq ip) = sg_m2 sg /\ ei_m2_tilde (pi_eq ip) = match m2_t with Some x => x | None => er_m2_tilde rnd end.
Proof.
  intros E. unfold init_primary_proof in E. apply rbind_ok in E as (ei & E1 & E). apply rbind_ok in E as (nes & _ & E).
  injection E as <-. cbn [pi_eq]. now apply init_eq_m2 in E1.
Qed.
Definition carries {C : curve} (it : item C) (ip : initproof C) : Prop :=
  ei_m2 (pi_eq (in_p ip)) = sg_m2 (cs_p (it_sig it)) /\ ei_m2_tilde (pi_eq (in_p ip)) = m2_mask it.
Lemma builder_add_carries (C : curve) b (it : item C) b' :
  builder_add C b (it_req it) (it_schema it) (it_non_schema it) (it_sig it) (it_vals it) (it_pk it) (it_accum it) (it_omega it) (it_rnd it) = (b', Ok tt) ->
  exists ip, pb_init b' = pb_init b ++ [ip] /\ carries it ip.
Proof.
  unfold builder_add. destruct (builder_check _ _ _ _) as [|e]; [|discriminate].
  set (nr := match cs_r (it_sig it) with Some _ => _ | None => _ end).
  set (m2_t := match nr with Some _ => _ | None => _ end).
  destruct (init_primary_proof _ _ _ _ _ _ _ _ _ _) as [ip|e] eqn:E; [|discriminate].
  intros Eb. injection Eb as <-. cbn [pb_init].
  exists (mkInitProof ip nr (it_vals it) (it_req it) (it_schema it) (it_non_schema it)). split.
  - destruct nr; reflexivity.
  - unfold carries. cbn [in_p]. apply init_primary_m2 in E as [-> ->]. split; [reflexivity|].
    unfold m2_mask. subst m2_t nr. destruct (cs_r (it_sig it)), (it_accum it), (cp_r (it_pk it)), (it_omega it); reflexivity.
Qed.
Lemma build_all_carries (C : curve) : forall (items : list (item C)) b b', build_all C b items = (b', Ok tt) ->
  exists ips, pb_init b' = pb_init b ++ ips /\ Forall2 carries items ips.
Proof.
  induction items as [|it items IH]; intros b b' E; cbn [build_all] in E.
  { exists []. injection E as <-. rewrite app_nil_r. split; [reflexivity|constructor]. }
  destruct (builder_add C b _ _ _ _ _ _ _ _ _) as [b1 [[]|e]] eqn:Eb; [|discriminate].
  apply builder_add_carries in Eb as (ip & E1 & K). apply IH in E as (ips & E2 & F).
  exists (ip :: ips). split; [rewrite E2, E1, <- app_assoc; reflexivity|now constructor].
Qed.
Lemma finalize_one_m2 (C : curve) c (ip : initproof C) sp : finalize_one C c ip = Ok sp ->
  ep_m2 (pp_eq (sp_p sp)) = c * ei_m2 (pi_eq (in_p ip)) + ei_m2_tilde (pi_eq (in_p ip)).
Proof.
  intros E. unfold finalize_one in E. apply rbind_ok in E as (nr & _ & E). apply rbind_ok in E as (pp & E1 & E). injection E as <-.
  unfold finalize_primary_proof in E1. apply rbind_ok in E1 as (ep & E2 & E1). apply rbind_ok in E1 as (nes & _ & E1). injection E1 as <-.
  unfold finalize_eq_proof in E2. apply rbind_ok in E2 as (mh & _ & E2). apply rbind_ok in E2 as (rv & _ & E2). injection E2 as <-. reflexivity.
Qed.
Lemma presents_m2 (C : curve) H commons items nonce (pf : proof C) : presents H commons items nonce pf ->
  Forall2 (fun it sp => ep_m2 (pp_eq (sp_p sp)) = pf_c_hash pf * sg_m2 (cs_p (it_sig it)) + m2_mask it) items (pf_proofs pf).
Proof.
  intros (b & Eb & Ef). destruct (common_builder_shape C commons) as (S1 & _ & _).
  apply build_all_carries in Eb as (ips & E1 & F). rewrite S1 in E1. cbn [app] in E1.
  unfold builder_finalize in Ef. rewrite E1 in Ef. apply rbind_ok in Ef as (sps & E2 & Ef). injection Ef as <-. cbn [pf_c_hash pf_proofs].
  clear E1 S1. revert sps E2. induction F as [|it ip items' ips [K1 K2] F IH]; intros sps E2; cbn [rmap] in E2.
  { injection E2 as <-. constructor. }
  apply rbind_ok in E2 as (sp & E3 & E2). apply rbind_ok in E2 as (sps' & E4 & E2). injection E2 as <-.
  constructor; [|now apply IH]. apply finalize_one_m2 in E3. rewrite E3, K1, K2. reflexivity.
Qed.
Lemma presents_nth (C : curve) H commons items nonce (pf : proof C) i it sp : presents H commons items nonce pf ->
  nth_error items i = Some it -> nth_error (pf_proofs pf) i = Some sp ->
  ep_m2 (pp_eq (sp_p sp)) = pf_c_hash pf * sg_m2 (cs_p (it_sig it)) + m2_mask it.
Proof.
  intros P N1 N2. apply presents_m2 in P. revert i N1 N2. induction P as [|x y l l' E F IH]; intros [|i] N1 N2; try discriminate.
  - cbn in N1, N2. injection N1 as <-. injection N2 as <-. exact E.
  - exact (IH i N1 N2).
Qed.
Lemma mask_nr {C : curve} (it : item C) : shows_non_revocation it -> m2_mask it = toZ (x_m2 (su_tp C (it_rnd it))).
Proof.
  intros (A & B & D & E). unfold m2_mask. destruct (cs_r (it_sig it)); [|congruence]. destruct (it_accum it); [|congruence]. destruct (cp_r (it_pk it)); [|congruence].
  destruct (it_omega it); [reflexivity|congruence].
Qed.

(** ** C148 *)
(** the quotient is within (q - 1) / c of the credential context, whatever else the
    session contains and whatever the random draws are *)
Theorem C148_context_window : forall (C : curve) (H : list Z -> list Z) (q : Z) commons (items : list (item C)) nonce pf i it sp,
  scalars_below C q -> presents H commons items nonce pf ->
  nth_error items i = Some it -> nth_error (pf_proofs pf) i = Some sp -> shows_non_revocation it -> 0 < pf_c_hash pf ->
  0 <= read_context pf sp - sg_m2 (cs_p (it_sig it)) <= (q - 1) / pf_c_hash pf.
Proof.
  intros C H q commons items nonce pf i it sp B P N1 N2 S Hc. unfold read_context. rewrite (presents_nth C H commons items nonce pf i it sp P N1 N2), (mask_nr _ S).
  set (d := toZ _). assert (0 <= d < q) as Bd by apply B. set (m := sg_m2 _). rewrite (Z.mul_comm _ m), Z.div_add_l by lia.
  replace (m + d / pf_c_hash pf - m) with (d / pf_c_hash pf) by ring. split; [apply Z.div_pos; lia|apply Z.div_le_mono; lia].
Qed.
Print Assumptions C148_context_window.
(** the challenge is at least the group order: the quotient is the credential context *)
Theorem C148_refuted_context_hidden : forall (C : curve) (H : list Z -> list Z) (q : Z) commons (items : list (item C)) nonce pf i it sp,
  scalars_below C q -> presents H commons items nonce pf ->
  nth_error items i = Some it -> nth_error (pf_proofs pf) i = Some sp -> shows_non_revocation it -> q <= pf_c_hash pf ->
  read_context pf sp = sg_m2 (cs_p (it_sig it)).
Proof.
  intros C H q commons items nonce pf i it sp B P N1 N2 S Hc. assert (0 < q) as Hq by (pose proof (B f0); lia).
  pose proof (C148_context_window C H q commons items nonce pf i it sp B P N1 N2 S ltac:(lia)) as W.
  rewrite Z.div_small in W by lia. lia.
Qed.
Print Assumptions C148_refuted_context_hidden.
(** two presentations by any provers, with any requests, keys, nonces and draws: whether
    the credentials have the same context can be seen *)
Theorem C148_refuted_unlinkable : forall (C : curve) (H : list Z -> list Z) (q : Z) commons1 (items1 : list (item C)) nonce1 pf1 i1 it1 sp1 commons2 (items2 : list (item C)) nonce2 pf2 i2 it2 sp2,
  scalars_below C q ->
  presents H commons1 items1 nonce1 pf1 -> nth_error items1 i1 = Some it1 -> nth_error (pf_proofs pf1) i1 = Some sp1 -> shows_non_revocation it1 -> q <= pf_c_hash pf1 ->
  presents H commons2 items2 nonce2 pf2 -> nth_error items2 i2 = Some it2 -> nth_error (pf_proofs pf2) i2 = Some sp2 -> shows_non_revocation it2 -> q <= pf_c_hash pf2 ->
  (read_context pf1 sp1 = read_context pf2 sp2 <-> sg_m2 (cs_p (it_sig it1)) = sg_m2 (cs_p (it_sig it2))).
Proof.
  intros C H q commons1 items1 nonce1 pf1 i1 it1 sp1 commons2 items2 nonce2 pf2 i2 it2 sp2 B P1 A1 A2 A3 A4 P2 B1 B2 B3 B4.
  rewrite (C148_refuted_context_hidden C H q commons1 items1 nonce1 pf1 i1 it1 sp1 B P1 A1 A2 A3 A4).
  rewrite (C148_refuted_context_hidden C H q commons2 items2 nonce2 pf2 i2 it2 sp2 B P2 B1 B2 B3 B4). reflexivity.
Qed.
Print Assumptions C148_refuted_unlinkable.

Lemma signed_context H isp (C : curve) prover_id bl ur pr nonce inonce vals pk sk rsk_ rev_idx mx ibd accum gamma access v_draw e_draws r_draw vr c accum' sg sp d :
  sign_credential_with_revoc C H isp prover_id bl ur pr nonce inonce vals pk sk rsk_ rev_idx mx ibd accum gamma access v_draw e_draws r_draw vr c = (accum', Ok (sg, sp, d)) ->
  sg_m2 (cs_p sg) = gen_credential_context H prover_id (Some rev_idx).
Proof.
  unfold sign_credential_with_revoc. destruct (check_blinded_correctness_proof _ _ _ _ _) as [|e]; [|discriminate].
  destruct (new_primary_credential _ _ _ _ _ _ _ _) as [[s q]|e] eqn:E; [|discriminate].
  destruct (new_non_revocation_credential _ _ _ _ _ _ _ _ _ _ _ _ _) as [a0 [[rc dl]|e]]; [|discriminate].
  intros Es. assert (cs_p sg = s) as ->.
  { destruct (new_signature_correctness_proof _ _ _ _ _ _ _) as [x|e]; cbn [rbind] in Es; [|discriminate]. injection Es as _ <- _ _. reflexivity. }
  unfold new_primary_credential in E. apply rbind_ok in E as (e & _ & E). apply rbind_ok in E as ([a1 q1] & _ & E). injection E as <- _. reflexivity.
Qed.
Lemma processed_context H isp (C : curve) sg vals sp v_prime vrp pk nonce z accum omega sg' r :
  process_credential_signature C H isp sg vals sp v_prime vrp pk nonce z accum omega = (sg', r) -> sg_m2 (cs_p sg') = sg_m2 (cs_p sg).
Proof.
  unfold process_credential_signature. destruct (check_signature_correctness_proof _ _ _ _ _ _ _) as [|e].
  2:{ intros E. assert (sg' = mkCSig (process_primary_credential (cs_p sg) v_prime) (cs_r sg)) as -> by congruence. reflexivity. }
  intros E. assert (cs_p sg' = process_primary_credential (cs_p sg) v_prime) as ->; [|reflexivity].
  destruct (cs_r sg) as [rc|], vrp as [vr|], (cp_r pk) as [rk|], z as [z|], accum as [accum|], omega as [omega|];
    try destruct (process_non_revocation_credential _ _ _ _ _ _ _) as [rc' r']; injection E as <- _; reflexivity.
Qed.
(** a credential issued to [prover_id] at index [rev_idx] and processed by its holder: in
    every presentation with a non-revocation proof the verifier reads the hash of exactly
    this prover id and index *)
Theorem C148_refuted_holder_anonymous : forall (C : curve) (H : list Z -> list Z) isp (q : Z)
    prover_id bl ur pr nonce inonce ivals pk sk rsk_ rev_idx mx ibd accum gamma access v_draw e_draws r_draw vr c accum' sg sp0 d
    vals v_prime vrp z ac om sg' r
    commons (items : list (item C)) pnonce pf i it sp,
  scalars_below C q ->
  sign_credential_with_revoc C H isp prover_id bl ur pr nonce inonce ivals pk sk rsk_ rev_idx mx ibd accum gamma access v_draw e_draws r_draw vr c = (accum', Ok (sg, sp0, d)) ->
  process_credential_signature C H isp sg vals sp0 v_prime vrp pk inonce z ac om = (sg', r) ->
  presents H commons items pnonce pf -> nth_error items i = Some it -> nth_error (pf_proofs pf) i = Some sp ->
  it_sig it = sg' -> shows_non_revocation it -> q <= pf_c_hash pf -> 0 <= rev_idx < 2 ^ 32 ->
  read_context pf sp = le_value (rev (H (context_string H prover_id (Some rev_idx)))).
Proof.
  intros C H isp q prover_id bl ur pr nonce inonce ivals pk sk rsk_ rev_idx mx ibd accum gamma access v_draw e_draws r_draw vr c accum' sg sp0 d
    vals v_prime vrp z ac om sg' r commons items pnonce pf i it sp B Es Ep P N1 N2 Esig S Hc Hi.
  rewrite <- C89_context_value by exact Hi.
  rewrite (C148_refuted_context_hidden C H q commons items pnonce pf i it sp B P N1 N2 S Hc), Esig.
  rewrite (processed_context _ _ _ _ _ _ _ _ _ _ _ _ _ _ _ Ep). exact (signed_context _ _ _ _ _ _ _ _ _ _ _ _ _ _ _ _ _ _ _ _ _ _ _ _ _ _ _ _ Es).
Qed.
Print Assumptions C148_refuted_holder_anonymous.

(** ** a concrete case *)
(** a 32-byte hash with values near 2^256, the issued credential of C28 with a revocation
    credential of the registry of C35, presented twice *)
Definition exH2 (l : list Z) : list Z := repeat 255 31 ++ [fold_left Z.add l 0 mod 256].
Lemma exH2_32 : hash32 exH2.
Proof.
  intros l. unfold exH2. split; [rewrite app_length, repeat_length; reflexivity|].
  apply Forall_app. split; [rewrite Forall_forall; intros x Hx; apply repeat_spec in Hx; lia|]. constructor; [|constructor]. apply Z.mod_pos_bound. lia.
Qed.
Lemma exH2_big nums : 257 <= get_hash_as_int exH2 nums.
Proof.
  unfold get_hash_as_int. replace (bn_hash_array exH2 nums) with (exH2 (concat nums)) by reflexivity. rewrite bn_from_bytes_val. unfold exH2.
  change (repeat 255 31) with ([255; 255] ++ repeat 255 29). pose proof (Z.mod_pos_bound (fold_left Z.add (concat nums) 0) 256 ltac:(lia)) as B. revert B.
  generalize (fold_left Z.add (concat nums) 0 mod 256). intros d B. cbn [repeat app]. unfold BnProofs.val_be. cbn [fold_left]. lia.
Qed.
Example C148_ex_scalars : scalars_below T257 257.
Proof. intros x. apply (fpv_range 257 x). lia. Qed.
Definition rev_item (sg : psig) (rc : rcred T257) (accum omega : cG2 T257) (z : cGT T257) (req : subreq) (rnd : subrand T257) : item T257 :=
  mkItem req ["name"] ["master_secret"] (mkCSig sg (Some rc)) ex_vals (mkCPK ex_pk1 (Some ClRevProps.ex_pk)) (Some accum) (Some omega) (Some z) rnd.
Example C148_ex : exists sg rc accum omega z pf1 pf2 sp1 sp2,
  let it1 := rev_item sg rc accum omega z (mkSubReq ["name"] []) ex_rnd in
  let it2 := rev_item sg rc accum omega z ex_req ex_rnd in
  item_ok T257 it1 /\ item_ok T257 it2 /\ shows_non_revocation it1 /\ shows_non_revocation it2 /\
  presents exH2 [] [it1] 4711 pf1 /\ nth_error (pf_proofs pf1) 0 = Some sp1 /\ 257 <= pf_c_hash pf1 /\
  presents exH2 [] [it2] 4712 pf2 /\ nth_error (pf_proofs pf2) 0 = Some sp2 /\ 257 <= pf_c_hash pf2.
Proof.
  destruct ex_presentable as (sg & P). destruct C23_ex_issuer_key as (_ & _ & V).
  destruct ClRevProps.C35_ex_issue as (accum' & cred & d & E). destruct ClRevProps.C35_ex_nonzero as (N1 & N2 & _ & _).
  destruct (ClRevProps.C35_issue_process T257 T257_laws (fp 257 2) (fp 257 3) (fp 257 5) (fp 257 7) (fp 257 11) (fp 257 13) (fp 257 17)
     (fp 257 19) (fp 257 23) (fp 257 29) (fp 257 31) 3 ClRevProps.ex_gamma ltac:(lia) ltac:(lia) 2 1000 (fp 257 9) true
     (new_revocation_registry T257 ClRevProps.ex_pk ClRevProps.ex_gamma 3 true) ClRevProps.ex_access (fp 257 4) (fp 257 8) accum' cred d [2]) as (rc & _ & RV).
  - lia.
  - exact N1.
  - exact N2.
  - exact E.
  - repeat constructor. intros [].
  - intros j [<-|[]]. lia.
  - now left.
  - match type of RV with rcred_valid _ _ ?z ?a ?w _ => revert RV; generalize z a w end. intros z accum omega RV.
    assert (forall req, wf_req req -> (forall k, In k (rq_revealed req) -> k = "name") ->
      (forall p, In p (rq_predicates req) -> p_attr p = "name" /\ ~ In "name" (rq_revealed req) /\ predicate_satisfied ex_vals p) ->
      item_ok T257 (rev_item sg rc accum omega z req ex_rnd)) as IO.
    { intros req W Hr Hp. pose proof (P req W Hr Hp) as P1. clear P. revert V P1. unfold rev_item. generalize ex_pk1. intros pk1 V P1.
      constructor; cbn [it_pk cp_p it_sig cs_p it_vals it_schema it_non_schema it_req it_rnd]; [exact V|exact P1| |].
      - unfold revocation_ok. cbn [it_sig cs_r it_accum it_pk cp_r it_omega it_z]. exists z. split; [reflexivity|exact RV].
      - intros p _. cbn. lia. }
    assert (forall it nonce, item_ok T257 it -> exists pf sp, presents exH2 [] [it] nonce pf /\ nth_error (pf_proofs pf) 0 = Some sp /\ 257 <= pf_c_hash pf) as PR.
    { intros it nonce I. destruct (C28_presentation_accepted T257 exH2 [] [it] nonce T257_laws exH2_32) as (b & v & pf & v' & E1 & E2 & _ & _ & F).
      - intros x [<-|[]]. exact I.
      - intros a [].
      - assert (257 <= pf_c_hash pf) as Hc.
        { unfold builder_finalize in E2. apply rbind_ok in E2 as (ps & _ & E2). injection E2 as <-. cbn [pf_c_hash]. apply exH2_big. }
        destruct (pf_proofs pf) as [|sp sps] eqn:Ep; [inversion F|]. exists pf, sp. rewrite Ep. split; [|split; [reflexivity|exact Hc]]. exists b. split; assumption. }
    assert (item_ok T257 (rev_item sg rc accum omega z (mkSubReq ["name"] []) ex_rnd)) as I1.
    { apply IO; [split; [cbn [ssorted rq_revealed]; split; [intros ? []|exact I]|reflexivity]|intros k [<-|[]]; reflexivity|intros p []]. }
    assert (item_ok T257 (rev_item sg rc accum omega z ex_req ex_rnd)) as I2.
    { apply IO; [split; [exact I|reflexivity]|intros k []|]. intros p [<-|[]]. split; [reflexivity|]. split; [intros []|exact C27_ex]. }
    destruct (PR _ 4711 I1) as (pf1 & sp1 & A1 & A2 & A3). destruct (PR _ 4712 I2) as (pf2 & sp2 & B1 & B2 & B3).
    exists sg, rc, accum, omega, z, pf1, pf2, sp1, sp2. cbv zeta.
    split; [exact I1|]. split; [exact I2|]. split; [repeat split; discriminate|]. split; [repeat split; discriminate|].
    repeat (split; [assumption|]). assumption.
Qed.
