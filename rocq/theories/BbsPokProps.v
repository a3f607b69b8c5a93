(** Properties C56-C60: BBS+ proofs of knowledge of a signature with selective disclosure. *)
From Verif Require Import Base BnModel NumTheory Alg Lin Fp ClRevModel ClRevSpec CurveInst BbsModel BbsLib BbsProps.
Import List ListNotations.
Open Scope list_scope.
Open Scope Z_scope.

Section Pok.
Variable C : curve.
Notation K := (cK C). Notation G1 := (cG1 C). Notation G2 := (cG2 C). Notation GT := (cGT C).
Hypothesis LW : curve_laws C.
Variables (g1 : G1) (g2 : G2).
Let HK := cl_field C LW. Let H1 := cl_g1 C LW. Let H2 := cl_g2 C LW. Let HT := cl_gt C LW.
Add Field Kf56 : (proj1 HK).

(** the prover's state, written out *)
Definition hid (pk : bbs_pk C) (ms : list (proof_message C)) : list G1 := hidg (shown C 0 ms) 0 (bh _ pk).
Definition init_state (sig : bbs_sig C) (pk : bbs_pk C) (ms : list (proof_message C)) (r1 r2 : K) (rs1 rs2 : nat -> K) : pok_sig C :=
  let b := message_point g1 pk (ss _ sig) (map (get_message C) ms) in
  let a' := smul r1 (sa _ sig) in
  let d := lin [b; bh0 _ pk] [r1; fopp r2] in
  let bases2 := d :: bh0 _ pk :: hid pk ms in
  let bl2 := rs2 0%nat :: rs2 1%nat :: blinds C 2 ms rs2 in
  mkPokSig C a' (msub (smul r1 b) (smul (se _ sig) a')) d
    (mkVcCommitted C [a'; bh0 _ pk] [rs1 0%nat; rs1 1%nat] (lin [a'; bh0 _ pk] [rs1 0%nat; rs1 1%nat])) [fopp (se _ sig); r2]
    (mkVcCommitted C bases2 bl2 (lin bases2 bl2)) (fopp (finv r1) :: fadd (fopp (fmul r2 (finv r1))) (ss _ sig) :: hidden_values C ms) (reveals C 0 ms).
Lemma pok_init_eq sig pk ms r1 r2 rs1 rs2 : length ms = message_count C pk -> sig_verify C g1 g2 sig (map (get_message C) ms) pk = Ok true ->
  pok_init C g1 g2 sig pk ms r1 r2 rs1 rs2 = Ok (init_state sig pk ms r1 r2 rs1 rs2).
Proof.
  intros L V. unfold pok_init. rewrite L, Nat.eqb_refl, V. cbn [negb rbind]. rewrite (get_b_eq C LW) by (now rewrite map_length). cbn [rbind].
  rewrite (hide_loop_eq C) by exact L. cbn [app length]. rewrite (msm_lin C LW). unfold init_state. do 2 f_equal.
  - now apply (vc_finish_combine C LW [_; _] [_; _]).
  - pose proof (hidden_gens_length C ms 0 (bh C pk) L) as Lh. pose proof (blinds_length C ms rs2 2) as Lb.
    set (d := lin _ _). change ((d, rs2 0%nat) :: (bh0 C pk, rs2 1%nat) :: combine (hidg (shown C 0 ms) 0 (bh C pk)) (blinds C 2 ms rs2)) with
      (combine (d :: bh0 C pk :: hidg (shown C 0 ms) 0 (bh C pk)) (rs2 0%nat :: rs2 1%nat :: blinds C 2 ms rs2)).
    rewrite (vc_finish_combine C LW) by (cbn [length]; congruence). reflexivity.
Qed.
(** the two relations proved *)
Lemma relation1 (a b h0 : G1) e r1 r2 : lin [smul r1 a; h0] [fopp e; r2] = msub (msub (smul r1 b) (smul e (smul r1 a))) (lin [b; h0] [r1; fopp r2]).
Proof. rewrite !lin_cons, !lin_nil_l. module_coefs HK H1; ring. Qed.
Lemma total_split (pk : bbs_pk C) s ms : length ms = message_count C pk ->
  message_point g1 pk s (map (get_message C) ms) =
  madd (madd g1 (smul s (bh0 _ pk))) (madd (lin (hid pk ms) (hidden_values C ms)) (lin (map fst (disc (shown C 0 ms) 0 (bh _ pk))) (map snd (disc (shown C 0 ms) 0 (bh _ pk))))).
Proof.
  intros L. unfold message_point, hid. f_equal. rewrite <- (lin_fill C LW) by (now apply hidden_gens_length). unfold message_count in L. rewrite <- L at 1. now rewrite (fill_shown C).
Qed.
Lemma relation2 pk s ms r1 r2 : length ms = message_count C pk -> r1 <> f0 ->
  let b := message_point g1 pk s (map (get_message C) ms) in
  lin (lin [b; bh0 _ pk] [r1; fopp r2] :: bh0 _ pk :: hid pk ms) (fopp (finv r1) :: fadd (fopp (fmul r2 (finv r1))) s :: hidden_values C ms) =
  mopp (madd g1 (lin (map fst (disc (shown C 0 ms) 0 (bh _ pk))) (map snd (disc (shown C 0 ms) 0 (bh _ pk))))).
Proof.
  intros L N b. rewrite !lin_cons, lin_nil_l. unfold b. rewrite (total_split pk s ms L).
  generalize (lin (hid pk ms) (hidden_values C ms)) as P. generalize (lin (map fst (disc (shown C 0 ms) 0 (bh C pk))) (map snd (disc (shown C 0 ms) 0 (bh C pk)))) as Q. generalize (bh0 C pk) as h0.
  intros h0 Q P. module_coefs HK H1; field; exact N.
Qed.
Lemma init_verify sig pk ms r1 r2 rs1 rs2 c : length ms = message_count C pk -> sig_verify C g1 g2 sig (map (get_message C) ms) pk = Ok true -> r1 <> f0 ->
  let p := init_state sig pk ms r1 r2 rs1 rs2 in
  exists pf, pok_gen_proof C p c = Ok pf /\ pok_verify C g1 g2 pf pk (reveals C 0 ms) c = Ok PSuccess /\
    pp_a_prime _ pf = ps_a_prime _ p /\ pp_a_bar _ pf = ps_a_bar _ p /\ pp_d _ pf = ps_d _ p /\
    vp_commitment _ (pp_vc1 _ pf) = vc_commitment _ (ps_vc1 _ p) /\ vp_commitment _ (pp_vc2 _ pf) = vc_commitment _ (ps_vc2 _ p).
Proof.
  intros L V N p. pose proof (hidden_gens_length C ms 0 (bh C pk) L) as Lh. pose proof (blinds_length C ms rs2 2) as Lb. fold (hid pk ms) in Lh.
  unfold pok_gen_proof, p, init_state. cbn [ps_vc1 ps_secrets1 ps_vc2 ps_secrets2 ps_a_prime ps_a_bar ps_d].
  rewrite !vc_gen_proof_eq by (cbn [vc_bases length]; congruence). cbn [rbind vc_commitment vc_blindings]. eexists. split; [reflexivity|]. split; [|repeat split].
  apply (proj2 (pok_verify_success C LW g1 g2 _ _ _ _)). cbn [pp_a_prime pp_a_bar pp_d pp_vc1 pp_vc2].
  apply (sig_verify_true C LW) in V. destruct V as (_ & G & (Na & _) & Q).
  split; [exact G|]. split.
  { intros i m I. rewrite <- L. assert (forall ms k, In (i, m) (reveals C k ms) -> (i < k + length ms)%nat) as Q2; [|now apply (Q2 ms 0%nat)].
    clear. induction ms as [|x ms IH]; intros k I; [destruct I|]. cbn [length]. destruct x; cbn [reveals] in I; [destruct I as [E|I]|..]; try (specialize (IH (S k) I); lia). inversion E. lia. }
  split; [now apply (smul_nonzero HK H1)|]. split.
  { unfold bbs_equation in Q. rewrite (p_add_r C LW), (p_smul_r C LW) in Q. rewrite (p_sub_l C LW), !(p_smul_l C LW). rewrite <- Q. module_coefs HK HT; ring. }
  split.
  - apply (vc_complete C LW); try reflexivity. apply relation1.
  - rewrite (hidg_ext (fun i => lookup C i (reveals C 0 ms)) (shown C 0 ms)) by (intros; apply lookup_reveals).
    rewrite (disc_ext (fun i => lookup C i (reveals C 0 ms)) (shown C 0 ms)) by (intros; apply lookup_reveals).
    apply (vc_complete C LW); [cbn [length]; unfold hid in Lh; congruence|cbn [length]; unfold hid in Lh; congruence|]. now apply relation2.
Qed.
(** the verifier hashes the same bytes as the prover when its set of revealed indices is the prover's *)
Lemma bytes_agree sig pk ms r1 r2 rs1 rs2 pf : let p := init_state sig pk ms r1 r2 rs1 rs2 in
  pp_a_prime _ pf = ps_a_prime _ p -> pp_a_bar _ pf = ps_a_bar _ p -> pp_d _ pf = ps_d _ p ->
  vp_commitment _ (pp_vc1 _ pf) = vc_commitment _ (ps_vc1 _ p) -> vp_commitment _ (pp_vc2 _ pf) = vc_commitment _ (ps_vc2 _ p) ->
  challenge_bytes C pf (map fst (reveals C 0 ms)) pk = pok_to_bytes C p.
Proof.
  intros p E1 E2 E3 E4 E5. unfold challenge_bytes, pok_to_bytes, vc_to_bytes. rewrite E1, E2, E3, E4, E5.
  assert (gens_where C (fun i => negb (contains (map fst (reveals C 0 ms)) i)) pk = hid pk ms) as ->.
  { unfold hid. rewrite <- (hidg_ext (fun i => lookup C i (reveals C 0 ms)) (shown C 0 ms)) by (intros; apply lookup_reveals). rewrite <- gens_where_lookup.
    unfold gens_where. f_equal. apply filter_ext. intros [i h]. cbn [fst]. now rewrite contains_lookup. }
  unfold p, init_state. cbn [ps_a_bar ps_a_prime ps_vc1 ps_vc2 vc_bases vc_commitment ps_d]. cbn [map concat]. now rewrite app_nil_r, <- !app_assoc.
Qed.
End Pok.

(** ** C56: completeness *)
(** the messages revealed, in index order *)
Definition revealed_values (C : curve) (ms : list (proof_message C)) : list (cK C) := flat_map (fun m => match m with Revealed _ v => [v] | _ => [] end) ms.
Lemma reveals_values C ms : forall i, map snd (reveals C i ms) = revealed_values C ms.
Proof. induction ms as [|m ms IH]; intros i; [reflexivity|]. destruct m; cbn [reveals map snd revealed_values flat_map app]; now rewrite IH. Qed.
(** the indices of the revealed messages *)
Definition revealed_indices (C : curve) (ms : list (proof_message C)) : list nat :=
  filter (fun i => match nth_error ms i with Some (Revealed _ _) => true | _ => false end) (seq 0 (length ms)).
Lemma reveals_indices C ms : map fst (reveals C 0 ms) = revealed_indices C ms.
Proof.
  unfold revealed_indices.
  enough (forall l pre, ms = pre ++ l -> map fst (reveals C (length pre) l) = filter (fun i => match nth_error ms i with Some (Revealed _ _) => true | _ => false end) (seq (length pre) (length l))) as Q by (now apply (Q ms [])).
  induction l as [|m l IH]; intros pre E; [reflexivity|]. assert (ms = (pre ++ [m]) ++ l) as E' by (now rewrite <- app_assoc).
  specialize (IH (pre ++ [m]) E'). rewrite app_length, Nat.add_1_r in IH. cbn [length seq filter]. rewrite <- IH.
  rewrite E at 1. rewrite nth_error_app2, Nat.sub_diag by lia. cbn [nth_error]. destruct m; reflexivity.
Qed.
Theorem C56_disclosure_complete : forall (C : curve) g1 g2 hash_fr encF (pk : bbs_pk C) sig (ms : list (proof_message C)) r1 r2 rs1 rs2 nonce, curve_laws C ->
  length ms = message_count C pk -> sig_verify C g1 g2 sig (map (get_message C) ms) pk = Ok true -> r1 <> f0 ->
  let rq := mkRequest C (revealed_indices C ms) pk in
  exists p sp, commit_signature_pok C g1 g2 rq ms sig r1 r2 rs1 rs2 = Ok p /\
    generate_signature_pok C p (prover_challenge C hash_fr encF [p] None nonce) = Ok sp /\
    verify_signature_pok C g1 g2 hash_fr encF rq sp nonce = Ok (revealed_values C ms).
Proof.
  intros C g1 g2 hash_fr encF pk sig ms r1 r2 rs1 rs2 nonce LW L V N rq. set (p := init_state C g1 sig pk ms r1 r2 rs1 rs2).
  set (c := prover_challenge C hash_fr encF [p] None nonce).
  destruct (init_verify C LW g1 g2 sig pk ms r1 r2 rs1 rs2 c L V N) as (pf & Eg & Ev & E1 & E2 & E3 & E4 & E5). fold p in Eg, E1, E2, E3, E4, E5.
  exists p, (mkSigProof C (reveals C 0 ms) pf). split; [unfold commit_signature_pok; now apply (pok_init_eq C LW)|]. split.
  - unfold generate_signature_pok. fold c. rewrite Eg. reflexivity.
  - unfold verify_signature_pok, rq. cbn [sp_proof sp_revealed pr_revealed pr_key]. rewrite <- reveals_indices.
    rewrite (bytes_agree C g1 sig pk ms r1 r2 rs1 rs2 pf E1 E2 E3 E4 E5). fold p.
    assert (hash_fr (pok_to_bytes C p ++ encF nonce) = c) as ->.
    { unfold c, prover_challenge. cbn [map concat]. now rewrite !app_nil_r. }
    rewrite Ev. cbn [rbind]. now rewrite reveals_values.
Qed.
Print Assumptions C56_disclosure_complete.
(** for every challenge, in particular one computed over several proofs and claims *)
Theorem C56_verifies_for_every_challenge : forall (C : curve) g1 g2 (pk : bbs_pk C) sig (ms : list (proof_message C)) r1 r2 rs1 rs2 c, curve_laws C ->
  length ms = message_count C pk -> sig_verify C g1 g2 sig (map (get_message C) ms) pk = Ok true -> r1 <> f0 ->
  exists p sp, pok_init C g1 g2 sig pk ms r1 r2 rs1 rs2 = Ok p /\ generate_signature_pok C p c = Ok sp /\
    pok_verify C g1 g2 (sp_proof _ sp) pk (sp_revealed _ sp) c = Ok PSuccess /\
    challenge_bytes C (sp_proof _ sp) (revealed_indices C ms) pk = pok_to_bytes C p /\
    map fst (sp_revealed _ sp) = revealed_indices C ms /\ map snd (sp_revealed _ sp) = revealed_values C ms.
Proof.
  intros C g1 g2 pk sig ms r1 r2 rs1 rs2 c LW L V N. set (p := init_state C g1 sig pk ms r1 r2 rs1 rs2).
  destruct (init_verify C LW g1 g2 sig pk ms r1 r2 rs1 rs2 c L V N) as (pf & Eg & Ev & E1 & E2 & E3 & E4 & E5). fold p in Eg, E1, E2, E3, E4, E5.
  exists p, (mkSigProof C (reveals C 0 ms) pf). split; [now apply (pok_init_eq C LW)|]. split; [|split; [exact Ev|split]].
  - unfold generate_signature_pok. rewrite Eg. reflexivity.
  - cbn [sp_proof]. rewrite <- reveals_indices. now apply (bytes_agree C g1).
  - cbn [sp_revealed]. split; [apply reveals_indices|apply reveals_values].
Qed.
Print Assumptions C56_verifies_for_every_challenge.
(** several proofs under one challenge: prover and verifier compute the same challenge *)
Theorem C56_joint_challenge : forall (C : curve) g1 hash_fr encF nonce claims (l : list (bbs_sig C * bbs_pk C * list (proof_message C) * (cK C * cK C * (nat -> cK C) * (nat -> cK C)))) proofs, curve_laws C ->
  let states := map (fun '(sig, pk, ms, (r1, r2, rs1, rs2)) => init_state C g1 sig pk ms r1 r2 rs1 rs2) l in
  let requests := map (fun '(sig, pk, ms, _) => mkRequest C (revealed_indices C ms) pk) l in
  forall c, rmap (fun p => generate_signature_pok C p c) states = Ok proofs ->
  verifier_challenge C hash_fr encF proofs requests nonce claims = prover_challenge C hash_fr encF states claims nonce.
Proof.
  intros C g1 hash_fr encF nonce claims l proofs LW states requests c E. unfold verifier_challenge, prover_challenge. f_equal. f_equal. f_equal. revert proofs E. unfold states, requests.
  induction l as [|[[[sig pk] ms] [[[r1 r2] rs1] rs2]] l IH]; intros proofs E; cbn [map rmap] in E.
  - assert (proofs = []) as -> by congruence. reflexivity.
  - set (p := init_state C g1 sig pk ms r1 r2 rs1 rs2) in *.
    destruct (generate_signature_pok C p c) as [sp|e] eqn:Eg; [|discriminate]. cbn [rbind] in E.
    destruct (rmap _ _) as [rest|e] eqn:Er; [|discriminate]. cbn [rbind] in E. assert (proofs = sp :: rest) as -> by congruence. cbn [combine map fst snd].
    rewrite (IH rest eq_refl). f_equal. fold p. cbn [pr_revealed pr_key].
    unfold generate_signature_pok in Eg. destruct (pok_gen_proof C p c) as [pf|e] eqn:Ep; [|discriminate]. cbn [rbind] in Eg. assert (sp = mkSigProof C (ps_revealed C p) pf) as -> by congruence. cbn [sp_proof].
    unfold pok_gen_proof in Ep. destruct (vc_gen_proof C (ps_vc1 C p) c (ps_secrets1 C p)) as [v1|] eqn:E1; [|discriminate]. cbn [rbind] in Ep.
    destruct (vc_gen_proof C (ps_vc2 C p) c (ps_secrets2 C p)) as [v2|] eqn:E2; [|discriminate]. cbn [rbind] in Ep.
    assert (pf = mkPokProof C (ps_a_prime C p) (ps_a_bar C p) (ps_d C p) v1 v2) as -> by congruence.
    rewrite <- reveals_indices. apply (bytes_agree C g1); cbn [pp_a_prime pp_a_bar pp_d pp_vc1 pp_vc2]; try reflexivity.
    + unfold vc_gen_proof in E1. destruct (negb _); [discriminate|]. fold p. assert (v1 = mkVcProof C (vc_commitment C (ps_vc1 C p)) (map (fun bs => fsub (fst bs) (fmul c (snd bs))) (combine (vc_blindings C (ps_vc1 C p)) (ps_secrets1 C p)))) as -> by congruence. reflexivity.
    + unfold vc_gen_proof in E2. destruct (negb _); [discriminate|]. fold p. assert (v2 = mkVcProof C (vc_commitment C (ps_vc2 C p)) (map (fun bs => fsub (fst bs) (fmul c (snd bs))) (combine (vc_blindings C (ps_vc2 C p)) (ps_secrets2 C p)))) as -> by congruence. reflexivity.
Qed.
Print Assumptions C56_joint_challenge.
(** no proof is started from a signature that does not verify *)
Theorem C56_init_requires_signature : forall (C : curve) g1 g2 (pk : bbs_pk C) sig ms r1 r2 rs1 rs2 p,
  pok_init C g1 g2 sig pk ms r1 r2 rs1 rs2 = Ok p -> length ms = length (bh _ pk) /\ sig_verify C g1 g2 sig (map (get_message C) ms) pk = Ok true.
Proof.
  intros C g1 g2 pk sig ms r1 r2 rs1 rs2 p E. unfold pok_init in E. destruct (length ms =? message_count C pk)%nat eqn:L; cbn [negb] in E; [|discriminate].
  split; [now apply Nat.eqb_eq|]. destruct (sig_verify C g1 g2 sig (map (get_message C) ms) pk) as [[|]|e]; cbn [rbind negb] in E; [reflexivity|discriminate|discriminate].
Qed.
Print Assumptions C56_init_requires_signature.
