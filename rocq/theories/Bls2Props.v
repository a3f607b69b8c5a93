(** Properties C49-C53: BLS signatures of libursa/src/signatures/bls.rs.

    Reading guide: [B] is either instance of the code's macro ([normal] or [small], or
    any other choice of pairing groups); [bls_laws] says that its operations are a field,
    three groups and a bilinear map; hashes, encodings and random exponents are arbitrary. *)
From Verif Require Import Base BnModel NumTheory Alg Fp ClRevModel ClRevSpec CurveInst Bls2Model.
From Coq Require Import Permutation String.
Import List ListNotations.
Open Scope string_scope.
Open Scope list_scope.
Open Scope Z_scope.

(** ** specification vocabulary *)
Record bls_laws (B : bls_groups) : Prop := {
  bl_field : field_laws (bK B);
  bl_p : mod_laws (bP B); bl_s : mod_laws (bS B); bl_t : mod_laws (bT B);
  bl_bilinear : bilinear (bP B) (bS B) (bT B) (@be B) }.
(** the generator pairs to 1 only with the neutral element *)
Definition nondegenerate {B : bls_groups} (g : bP B) : Prop := forall s : bS B, be g s = m0 -> s = m0.
(** the message bytes that are hashed *)
Definition hashed (message : list Z) (context : option (list Z)) : list Z := match context with Some c => c | None => MESSAGE_CONTEXT end ++ message.
(** the pairing equation of one signature *)
Definition signed {B : bls_groups} (g : bP B) (sig : bS B) (h : bS B) (pk : bP B) : Prop := be g sig = be pk h.

Section Facts.
Variable B : bls_groups.
Hypothesis LW : bls_laws B.
Notation K := (bK B). Notation P := (bP B). Notation S := (bS B). Notation T := (bT B).
Let HK := bl_field B LW. Let HP := bl_p B LW. Let HS := bl_s B LW. Let HT := bl_t B LW.
Add Field Kf : (proj1 HK).

Lemma be_add_l (a b : P) (c : S) : be (madd a b) c = madd (be a c) (be b c).
Proof. apply (bl_bilinear B LW). Qed.
Lemma be_add_r (a : P) (b c : S) : be a (madd b c) = madd (be a b) (be a c).
Proof. apply (bl_bilinear B LW). Qed.
Lemma be_smul_l x (a : P) (b : S) : be (smul x a) b = smul x (be a b).
Proof. apply (bl_bilinear B LW). Qed.
Lemma be_smul_r x (a : P) (b : S) : be a (smul x b) = smul x (be a b).
Proof. apply (bl_bilinear B LW). Qed.
Lemma be_opp_l (a : P) (b : S) : be (mopp a) b = mopp (be a b).
Proof. now rewrite (mopp_smul _ HK _ HP), be_smul_l, <- (mopp_smul _ HK _ HT). Qed.
Lemma be_opp_r (a : P) (b : S) : be a (mopp b) = mopp (be a b).
Proof. now rewrite (mopp_smul _ HK _ HS), be_smul_r, <- (mopp_smul _ HK _ HT). Qed.
Lemma be_0_l (b : S) : be (m0 : P) b = m0.
Proof. rewrite <- (smul_0_l _ HK _ HP m0), be_smul_l. apply (smul_0_l _ HK _ HT). Qed.
Lemma be_0_r (a : P) : be a (m0 : S) = m0.
Proof. rewrite <- (smul_0_l _ HK _ HS m0), be_smul_r. apply (smul_0_l _ HK _ HT). Qed.

Lemma pairing2_iff g sig pk h : pairing2_is_one B g sig pk h = true <-> signed (B:=B) g sig h pk.
Proof.
  unfold pairing2_is_one, signed. rewrite be_opp_l, (meqb_eq _ _ HT). split.
  - intros E. symmetry. apply (msub_0 _ _ HT). unfold msub. now rewrite (madd_comm _ _ HT).
  - intros ->. now rewrite (madd_comm _ _ HT), (madd_opp _ _ HT).
Qed.
Lemma signed_scalar (g : P) (sig h : S) x : nondegenerate (B:=B) g -> (signed (B:=B) g sig h (smul x g) <-> sig = smul x h).
Proof.
  intros N. unfold signed. rewrite be_smul_l, <- be_smul_r. split; [|now intros ->].
  intros E. apply (msub_0 _ _ HS), N. unfold msub. now rewrite be_add_r, be_opp_r, E, (madd_opp _ _ HT).
Qed.
Lemma fold_sum {M : modOps K} (HM : mod_laws M) {A} (f : A -> M) : forall l acc, fold_left (fun acc s => madd acc (f s)) l acc = madd acc (msum (map f l)).
Proof. induction l as [|x l IH]; intros acc; cbn [fold_left map msum]; [now rewrite (madd_0_r _ _ HM)|]. now rewrite IH, <- (madd_assoc _ _ HM). Qed.
Lemma fold_sum_id {M : modOps K} (HM : mod_laws M) (l : list M) acc : fold_left (fun acc s => madd acc s) l acc = madd acc (msum l).
Proof. rewrite (fold_sum HM (fun x => x)). now rewrite map_id. Qed.
Lemma msum_map_smul {M : modOps K} (HM : mod_laws M) {A} (f : A -> K) (a : M) l : msum (map (fun x => smul (f x) a) l) = smul (fsum (map f l)) a.
Proof. induction l as [|x l IH]; cbn [map msum fsum]; [now rewrite (smul_0_l _ HK _ HM)|]. now rewrite IH, (smul_add_l _ _ HM). Qed.
Lemma multi_iff (pairs : list (P * S)) g sig :
  multi_pairing_is_one B (pairs ++ [(mopp g, sig)]) = true <-> msum (map (fun ps => be (fst ps) (snd ps)) pairs) = be g sig.
Proof.
  unfold multi_pairing_is_one. rewrite (fold_sum HT (fun ps => be (fst ps) (snd ps))), (madd_0_l _ _ HT), map_app, (msum_app _ _ HT), (meqb_eq _ _ HT).
  cbn [map msum fst snd]. rewrite be_opp_l, (madd_0_r _ _ HT). split; [intros E; now apply (msub_0 _ _ HT)|intros ->; apply (madd_opp _ _ HT)].
Qed.

(** the inputs of verify_multi *)
Definition input_hash (ctx : option (list Z)) (i : list Z * P) : S := hash_s (hashed (fst i) ctx).
Lemma hash_msg_hashed m ctx : hash_msg B m ctx = hash_s (hashed m ctx).
Proof. reflexivity. Qed.
Lemma multi_pairs_spec ctx : forall inputs seen,
  (NoDup (map (input_hash ctx) inputs) -> (forall h, In h (map (input_hash ctx) inputs) -> ~ In h seen) ->
   multi_pairs B inputs ctx seen = Some (map (fun i => (snd i, input_hash ctx i)) inputs)) /\
  (~ (NoDup (map (input_hash ctx) inputs) /\ forall h, In h (map (input_hash ctx) inputs) -> ~ In h seen) -> multi_pairs B inputs ctx seen = None).
Proof.
  induction inputs as [|[m pk] inputs IH]; intros seen; cbn [map multi_pairs].
  { split; [reflexivity|]. intros N. exfalso. apply N. split; [constructor|intros h []]. }
  change (hash_msg B m ctx) with (input_hash ctx (m, pk)). set (h := input_hash ctx (m, pk)).
  destruct (existsb (meqb h) seen) eqn:E.
  - apply existsb_exists in E. destruct E as (x & I & E). apply (meqb_eq _ _ HS) in E. subst x. split; [|reflexivity].
    intros _ D. exfalso. apply (D h); [now left|exact I].
  - assert (~ In h seen) as NI.
    { intros I. assert (existsb (meqb h) seen = true); [|congruence]. apply existsb_exists. exists h. split; [exact I|now apply (meqb_eq _ _ HS)]. }
    destruct (IH (h :: seen)) as (IHs & IHn). split.
    + intros ND D. rewrite IHs; [reflexivity| |].
      * now inversion ND.
      * intros x I [->|J]; [inversion ND; contradiction|]. apply (D x); [now right|exact J].
    + intros N. rewrite IHn; [reflexivity|]. intros (ND & D). apply N. split.
      * constructor; [|exact ND]. intros I. apply (D h I). now left.
      * intros x [<-|I]; [exact NI|]. intros J. apply (D x I). now right.
Qed.

Lemma batch_fold ctx : forall (inputs : list (K * (list Z * S * P))) (pairs : list (P * S)) (sig : S),
  fold_left (fun '((pairs, sig) : list (P * S) * S) '((r, (msg, asg, apk)) : K * (list Z * S * P)) => (pairs ++ [(smul r apk, hash_msg B msg ctx)], madd sig (smul r asg))) inputs (pairs, sig) =
  (pairs ++ map (fun '((r, (msg, asg, apk)) : K * (list Z * S * P)) => (smul r apk, hash_s (hashed msg ctx))) inputs,
   madd sig (msum (map (fun '((r, (msg, asg, apk)) : K * (list Z * S * P)) => smul r asg) inputs))).
Proof.
  induction inputs as [|(r, ((msg, asg), apk)) inputs IH]; intros pairs sig; cbn [fold_left map msum].
  - now rewrite app_nil_r, (madd_0_r _ _ HS).
  - rewrite IH, <- app_assoc, <- (madd_assoc _ _ HS). reflexivity.
Qed.
(** the defect of one input: e(pk, H(m)) - e(g, sig), zero iff it verifies *)
Definition defect (g : P) ctx (i : list Z * S * P) : T := let '(msg, asg, apk) := i in msub (be apk (hash_s (hashed msg ctx))) (be g asg).
Lemma batch_iff g ctx inputs :
  batch_verify B inputs ctx g = true <-> msum (map (fun ri => smul (fst ri) (defect g ctx (snd ri))) inputs) = m0.
Proof.
  unfold batch_verify. rewrite batch_fold. rewrite app_nil_l, (madd_0_l _ _ HS), multi_iff, map_map.
  assert (forall l : list (K * (list Z * S * P)), msum (map (fun ri => smul (fst ri) (defect g ctx (snd ri))) l) =
    msub (msum (map (fun x : K * (list Z * S * P) => be (fst (let '(r, (msg, _, apk)) := x in (smul r apk, hash_s (hashed msg ctx) : S))) (snd (let '(r, (msg, _, apk)) := x in (smul r apk, hash_s (hashed msg ctx) : S)))) l))
         (be g (msum (map (fun '((r, (_, asg, _)) : K * (list Z * S * P)) => smul r asg) l)))) as ->.
  { induction l as [|(r, ((msg, asg), apk)) l IH]; cbn [map msum].
    - rewrite be_0_r. unfold msub. rewrite (madd_0_l _ _ HT), (mopp_smul _ HK _ HT), (smul_0_r _ _ HT). reflexivity.
    - rewrite IH. cbn [fst snd defect]. rewrite be_smul_l, be_add_r, be_smul_r. module_coefs HK HT; ring. }
  symmetry. apply (msub_0 _ _ HT).
Qed.
Lemma defect_0 g ctx m s pk : defect g ctx (m, s, pk) = m0 <-> signed (B:=B) g s (hash_s (hashed m ctx)) pk.
Proof. unfold defect, signed. rewrite (msub_0 _ _ HT). split; intros E; congruence. Qed.
Lemma smul_eq_0 {M : modOps K} (HM : mod_laws M) x (a : M) : x <> f0 -> smul x a = m0 -> a = m0.
Proof.
  intros N E. rewrite <- (smul_1 _ _ HM a), <- (finv_mul_l _ HK x N), (smul_mul _ _ HM), E. apply (smul_0_r _ _ HM).
Qed.
Lemma smul_inj_scalar {M : modOps K} (HM : mod_laws M) x (a b : M) : x <> f0 -> smul x a = smul x b -> a = b.
Proof.
  intros N E. apply (msub_0 _ _ HM). apply (smul_eq_0 HM x _ N). unfold msub. rewrite (smul_add_r _ _ HM), E, (mopp_smul _ HK _ HM b). module_coefs HK HM; ring.
Qed.
Lemma smul_eq_0_faithful {M : modOps K} (HM : mod_laws M) x (a : M) : a <> m0 -> smul x a = m0 -> x = f0.
Proof. intros N E. destruct (feq_dec _ HK x f0) as [->|Nx]; [reflexivity|]. exfalso. apply N. now apply (smul_eq_0 HM x). Qed.
Lemma batch_cancel (r sk sk' : K) (x y z : T) :
  madd (smul r (msub (smul sk x) (madd (smul sk x) z))) (madd (smul r (msub (smul sk' y) (madd (smul sk' y) (mopp z)))) m0) = m0.
Proof. module_coefs HK HT; ring. Qed.
End Facts.

(** both instances of the macro satisfy the laws *)
Theorem C49_instances : forall (C : curve) dP dS eK dK hs hk dP' dS' hs', curve_laws C ->
  bls_laws (normal C dP dS eK dK hs hk) /\ bls_laws (small C dP' dS' eK dK hs' hk).
Proof.
  intros C dP dS eK dK hs hk dP' dS' hs' LW. split; constructor; cbn [bK bP bS bT be normal small]; try apply LW.
  destruct (cl_bilinear C LW) as (a & b & c & d). repeat split; intros; auto.
Qed.
Print Assumptions C49_instances.

(** ** C49: one signer *)
Theorem C49_sign_then_verify : forall B m ctx (sk : bK B) g, bls_laws B ->
  signature_verify B (signature_new B m ctx sk) m ctx (public_key B sk g) g = true.
Proof.
  intros B m ctx sk g LW. apply (pairing2_iff B LW). unfold signed, signature_new, public_key. now rewrite (be_smul_l B LW), (be_smul_r B LW).
Qed.
Print Assumptions C49_sign_then_verify.
(** exactly one point is accepted *)
Theorem C49_unique_signature : forall B m ctx (sk : bK B) g sig, bls_laws B -> nondegenerate g ->
  (signature_verify B sig m ctx (public_key B sk g) g = true <-> sig = signature_new B m ctx sk).
Proof. intros B m ctx sk g sig LW N. unfold signature_verify. rewrite (pairing2_iff B LW). unfold public_key. now rewrite (signed_scalar B LW). Qed.
Print Assumptions C49_unique_signature.
(** accepted for another message or context only if the two hashes to the curve agree *)
Theorem C49_other_message : forall B m ctx m' ctx' (sk : bK B) g, bls_laws B -> nondegenerate g -> sk <> f0 ->
  (signature_verify B (signature_new B m ctx sk) m' ctx' (public_key B sk g) g = true <-> hash_s (hashed m ctx) = (hash_s (hashed m' ctx') : bS B)).
Proof.
  intros B m ctx m' ctx' sk g LW N Ns. rewrite C49_unique_signature by assumption. unfold signature_new. rewrite !hash_msg_hashed. split.
  - intros E. now apply (smul_inj_scalar B LW (bl_s B LW) sk).
  - now intros ->.
Qed.
Print Assumptions C49_other_message.
Theorem C49_other_key : forall B m ctx (sk sk' : bK B) g, bls_laws B -> nondegenerate g -> hash_s (hashed m ctx) <> (m0 : bS B) ->
  signature_verify B (signature_new B m ctx sk) m ctx (public_key B sk' g) g = true -> sk = sk'.
Proof.
  intros B m ctx sk sk' g LW N Nh. rewrite C49_unique_signature by assumption. unfold signature_new. rewrite !hash_msg_hashed. intros E.
  apply (fsub_eq0 _ (bl_field B LW)). apply (smul_eq_0_faithful B LW (bl_s B LW) _ (hash_s (hashed m ctx)) Nh).
  pose proof (bl_field B LW) as HK. pose proof (bl_s B LW) as HS.
  assert (forall a b (h : bS B), smul a h = smul b h -> smul (fsub a b) h = m0) as Q; [|now apply Q].
  intros a b h Eab. destruct HK as [FT EQ]. rewrite (F_R FT).(Rsub_def). rewrite (smul_add_l _ _ HS), Eab.
  rewrite <- (smul_add_l _ _ HS). rewrite (F_R FT).(Ropp_def). apply (smul_0_l _ (conj FT EQ) _ HS).
Qed.
Print Assumptions C49_other_key.
(** the default contexts keep messages and proofs of possession apart: the hashed bytes
    are never equal *)
Theorem C49_default_contexts_disjoint : forall (m key : list Z), MESSAGE_CONTEXT ++ m <> PUBLICKEY_CONTEXT ++ key.
Proof.
  intros m key E. apply (f_equal (fun l => nth 12 l 0)) in E. rewrite !app_nth1 in E by (vm_compute; lia). vm_compute in E. discriminate.
Qed.
Print Assumptions C49_default_contexts_disjoint.
(** the claim that a signature is bound to its context is false for caller-chosen
    contexts: bytes can move between context and message *)
Theorem C49_refuted_context_binding : forall B c1 c2 m (sk : bK B) g, bls_laws B ->
  signature_verify B (signature_new B (c2 ++ m) (Some c1) sk) m (Some (c1 ++ c2)) (public_key B sk g) g = true.
Proof.
  intros B c1 c2 m sk g LW. replace (signature_new B (c2 ++ m) (Some c1) sk) with (signature_new B m (Some (c1 ++ c2)) sk); [now apply C49_sign_then_verify|].
  unfold signature_new, hash_msg, hash_to_point. now rewrite <- app_assoc.
Qed.
Print Assumptions C49_refuted_context_binding.
(** a signature in the context of the proofs of possession is a proof of possession *)
Theorem C49_signature_is_pop : forall B (pk : bP B) ctx sk, signature_new B (encP pk) (Some ctx) sk = pop2_new B pk (Some ctx) sk.
Proof. reflexivity. Qed.
Print Assumptions C49_signature_is_pop.
(** the claim that a key commits its owner to messages is false for the neutral element *)
Theorem C49_refuted_infinity_rejected : forall B m ctx (g : bP B), bls_laws B ->
  signature_verify B m0 m ctx m0 g = true /\ pop2_verify B m0 ctx m0 g = true.
Proof. intros B m ctx g LW. split; apply (pairing2_iff B LW); unfold signed; now rewrite (be_0_l B LW), (be_0_r B LW). Qed.
Print Assumptions C49_refuted_infinity_rejected.
(** ** proofs of possession *)
Theorem C49_pop_complete_and_unique : forall B ctx (sk : bK B) g pop, bls_laws B ->
  pop2_verify B (pop2_new B (public_key B sk g) ctx sk) ctx (public_key B sk g) g = true /\
  (nondegenerate g -> pop2_verify B pop ctx (public_key B sk g) g = true -> pop = pop2_new B (public_key B sk g) ctx sk).
Proof.
  intros B ctx sk g pop LW. unfold pop2_verify, pop2_new. split.
  - apply (pairing2_iff B LW). unfold signed, public_key. now rewrite (be_smul_l B LW), (be_smul_r B LW).
  - intros N. rewrite (pairing2_iff B LW). unfold public_key. now rewrite (signed_scalar B LW).
Qed.
Print Assumptions C49_pop_complete_and_unique.

(** ** C50: aggregation with rogue key mitigation *)
(** all signers of [sks] sign the same message with the same ordered list of keys *)
Definition all_sign (B : bls_groups) m ctx (sks : list (bK B)) (pks : list (bP B)) : res (list (bS B)) :=
  rmap (fun isk => signature_new_rk B m ctx (snd isk) (fst isk) pks) (combine (seq 0 (length sks)) sks).
Lemma all_sign_eq B m ctx (sks : list (bK B)) g : bls_laws B -> let pks := map (fun sk => public_key B sk g) sks in
  all_sign B m ctx sks pks = Ok (map (fun sk => smul (fmul (rk_exponent B pks (public_key B sk g)) sk) (hash_msg B m ctx)) sks).
Proof.
  intros LW pks. unfold all_sign.
  assert (forall l k, (forall i sk, nth_error l i = Some sk -> nth_error pks (k + i) = Some (public_key B sk g)) ->
    rmap (fun isk => signature_new_rk B m ctx (snd isk) (fst isk) pks) (combine (seq k (length l)) l) =
    Ok (map (fun sk => smul (fmul (rk_exponent B pks (public_key B sk g)) sk) (hash_msg B m ctx)) l)) as Q.
  { induction l as [|sk l IH]; intros k Hk; [reflexivity|]. cbn [length seq combine rmap fst snd].
    unfold signature_new_rk at 1. rewrite <- (Nat.add_0_r k) at 1. rewrite (Hk 0%nat sk eq_refl). cbn [rbind].
    rewrite IH.
    - cbn [rbind map]. do 2 f_equal. symmetry. apply (smul_mul _ _ (bl_s B LW)).
    - intros i sk' E. rewrite Nat.add_succ_l, <- Nat.add_succ_r. now apply Hk. }
  apply Q. intros i sk E. cbn [Nat.add]. unfold pks. now apply (map_nth_error (fun sk => public_key B sk g)).
Qed.
Theorem C50_aggregate_complete : forall B m ctx (sks : list (bK B)) g, bls_laws B -> let pks := map (fun sk => public_key B sk g) sks in
  exists sigs, all_sign B m ctx sks pks = Ok sigs /\ length sigs = length sks /\
    aggregated_verify B (aggregated_signature B sigs) m ctx (aggregated_key B pks) g = true.
Proof.
  intros B m ctx sks g LW pks. pose proof (all_sign_eq B m ctx sks g LW) as Q. cbv zeta in Q. fold pks in Q. rewrite Q. eexists. split; [reflexivity|]. split; [now rewrite map_length|].
  apply (pairing2_iff B LW). unfold signed, aggregated_signature, aggregated_key.
  rewrite (fold_sum_id B (bl_s B LW)), (fold_sum B (bl_p B LW)), (madd_0_l _ _ (bl_s B LW)), (madd_0_l _ _ (bl_p B LW)). fold pks.
  generalize (rk_exponent B pks) as ex. intros ex. unfold pks. clear Q pks. rewrite map_map. unfold public_key.
  induction sks as [|sk sks IH]; cbn [map msum]; [now rewrite (be_0_l B LW), (be_0_r B LW)|].
  rewrite (be_add_r B LW), (be_add_l B LW), IH. f_equal. rewrite (be_smul_r B LW), !(be_smul_l B LW). apply (smul_mul _ _ (bl_t B LW)).
Qed.
Print Assumptions C50_aggregate_complete.
(** the aggregate accepted under an aggregated key is unique, whoever contributes *)
Theorem C50_aggregate_unique : forall B m ctx apk g sig sig', bls_laws B -> nondegenerate g ->
  aggregated_verify B sig m ctx apk g = true -> aggregated_verify B sig' m ctx apk g = true -> sig = sig'.
Proof.
  intros B m ctx apk g sig sig' LW N. unfold aggregated_verify. rewrite !(pairing2_iff B LW). unfold signed. intros E E'.
  apply (msub_0 _ _ (bl_s B LW)), N. unfold msub. rewrite (be_add_r B LW), (be_opp_r B LW), E, E'. apply (madd_opp _ _ (bl_t B LW)).
Qed.
Print Assumptions C50_aggregate_unique.
(** leaving out a signer's share is noticed unless that share is the neutral element *)
Theorem C50_missing_signer_rejected : forall B m ctx apk g (s : bS B) rest, bls_laws B -> nondegenerate g -> s <> m0 ->
  aggregated_verify B (aggregated_signature B (s :: rest)) m ctx apk g = true -> aggregated_verify B (aggregated_signature B rest) m ctx apk g = false.
Proof.
  intros B m ctx apk g s rest LW N Ns E. destruct (aggregated_verify B (aggregated_signature B rest) m ctx apk g) eqn:E'; [|reflexivity]. exfalso.
  pose proof (C50_aggregate_unique B m ctx apk g _ _ LW N E E') as Q. revert Q. unfold aggregated_signature. cbn [fold_left].
  rewrite !(fold_sum_id B (bl_s B LW)), !(madd_0_l _ _ (bl_s B LW)). intros Q. apply Ns.
  apply (madd_cancel _ _ (bl_s B LW) (msum rest)). now rewrite (madd_comm _ _ (bl_s B LW)), Q, (madd_0_r _ _ (bl_s B LW)).
Qed.
Print Assumptions C50_missing_signer_rejected.
(** an index outside the key list is a panic, not an error *)
Theorem C50_index_out_of_range : forall B m ctx (sk : bK B) i pks, (length pks <= i)%nat -> signature_new_rk B m ctx sk i pks = Err Panic.
Proof. intros B m ctx sk i pks L. unfold signature_new_rk. now rewrite (proj2 (nth_error_None pks i) L). Qed.
Print Assumptions C50_index_out_of_range.
(** without the mitigation: honest aggregates verify ... *)
Theorem C50_no_rk_complete : forall B m ctx (sks : list (bK B)) g, bls_laws B ->
  aggregated_verify_no_rk B (aggregated_signature B (map (signature_new B m ctx) sks)) m ctx (map (fun sk => public_key B sk g) sks) g = true.
Proof.
  intros B m ctx sks g LW. apply (pairing2_iff B LW). unfold signed, aggregated_signature.
  rewrite (fold_sum_id B (bl_s B LW)), (fold_sum_id B (bl_p B LW)), (madd_0_l _ _ (bl_s B LW)), (madd_0_l _ _ (bl_p B LW)).
  unfold signature_new, public_key. rewrite (msum_map_smul B LW (bl_s B LW) (fun x => x)), (msum_map_smul B LW (bl_p B LW) (fun x => x)).
  now rewrite (be_smul_r B LW), (be_smul_l B LW).
Qed.
Print Assumptions C50_no_rk_complete.
(** ... and the claim that the other signers took part is false (rogue key): for any
    honest keys there is a key with which the attacker alone signs for the group; with
    the mitigation the same signature needs a relation between two hashes *)
Theorem C50_refuted_no_rk_participation : forall B m ctx (honest : list (bP B)) (x : bK B) g, bls_laws B ->
  let rogue := msub (smul x g) (fold_left (fun a p => madd a p) honest m0) in
  aggregated_verify_no_rk B (signature_new B m ctx x) m ctx (honest ++ [rogue]) g = true.
Proof.
  intros B m ctx honest x g LW rogue. apply (pairing2_iff B LW).
  replace (fold_left (fun a p => madd a p) (honest ++ [rogue]) m0) with (smul x g).
  - unfold signed, signature_new. now rewrite (be_smul_r B LW), (be_smul_l B LW).
  - unfold rogue. rewrite fold_left_app. cbn [fold_left]. set (s := fold_left _ honest m0). pose proof (bl_field B LW) as HK. pose proof (bl_p B LW) as HP.
    unfold msub. rewrite (madd_assoc _ _ HP), (madd_comm _ _ HP s), <- (madd_assoc _ _ HP), (madd_opp _ _ HP). now rewrite (madd_0_r _ _ HP).
Qed.
Print Assumptions C50_refuted_no_rk_participation.
(** empty aggregates are accepted for every message *)
Theorem C50_refuted_empty_rejected : forall B m ctx (g : bP B), bls_laws B ->
  aggregated_verify B (aggregated_signature B []) m ctx (aggregated_key B []) g = true /\ aggregated_verify_no_rk B (aggregated_signature B []) m ctx [] g = true.
Proof. intros B m ctx g LW. split; apply (pairing2_iff B LW); unfold signed; cbn [fold_left aggregated_signature aggregated_key]; now rewrite (be_0_l B LW), (be_0_r B LW). Qed.
Print Assumptions C50_refuted_empty_rejected.

(** ** C51: multi-signatures on distinct messages *)
Theorem C51_multi_decision : forall B (sig : bS B) (inputs : list (list Z * bP B)) ctx g, bls_laws B ->
  (verify_multi B sig inputs ctx g = true <->
   NoDup (map (fun i => hash_s (hashed (fst i) ctx) : bS B) inputs) /\
   msum (map (fun i => be (snd i) (hash_s (hashed (fst i) ctx))) inputs) = be g sig).
Proof.
  intros B sig inputs ctx g LW. unfold verify_multi. destruct (multi_pairs_spec B LW ctx inputs []) as (S1 & S2). split.
  - intros E. destruct (multi_pairs B inputs ctx []) as [ps|] eqn:Ep; [|discriminate].
    assert (NoDup (map (input_hash B ctx) inputs)) as ND.
    { destruct (ListDec.NoDup_dec (fun x y => meq_dec _ _ (bl_s B LW) x y) (map (input_hash B ctx) inputs)) as [ND|ND]; [exact ND|].
      exfalso. assert (Some ps = None); [|discriminate]. apply S2. intros (Q & _). contradiction. }
    split; [exact ND|]. assert (Some ps = Some (map (fun i => (snd i, input_hash B ctx i)) inputs)) as Q by (apply S1; [exact ND|intros h _ []]).
    apply (f_equal (fun o => match o with Some x => x | None => ps end)) in Q. cbv beta iota in Q. subst ps.
    apply (multi_iff B LW) in E. rewrite map_map in E. exact E.
  - intros (ND & E). rewrite S1 by (try exact ND; intros h _ []). apply (multi_iff B LW). rewrite map_map. exact E.
Qed.
Print Assumptions C51_multi_decision.
(** honest signers of messages with distinct hashes: the combined signature is accepted *)
Theorem C51_multi_complete : forall B (signers : list (bK B * list Z)) ctx g s0 rest, bls_laws B ->
  map (fun s => signature_new B (snd s) ctx (fst s)) signers = s0 :: rest ->
  NoDup (map (fun s => hash_s (hashed (snd s) ctx) : bS B) signers) ->
  verify_multi B (sig_combine B s0 rest) (map (fun s => (snd s, public_key B (fst s) g)) signers) ctx g = true.
Proof.
  intros B signers ctx g s0 rest LW E ND. apply (C51_multi_decision B _ _ ctx g LW). rewrite !map_map. split; [exact ND|].
  unfold sig_combine. rewrite (fold_sum_id B (bl_s B LW)). change (madd s0 (msum rest)) with (msum (s0 :: rest)). rewrite <- E. clear E ND. cbn [fst snd].
  induction signers as [|[sk m] l IH]; cbn [map msum fst snd]; [now rewrite (be_0_r B LW)|].
  rewrite IH, (be_add_r B LW). f_equal. unfold public_key, signature_new. now rewrite (be_smul_l B LW), (be_smul_r B LW).
Qed.
Print Assumptions C51_multi_complete.
(** two inputs with the same message are refused, also when every signature is honest *)
Theorem C51_repeated_message_rejected : forall B (sig : bS B) a m pk b pk' c ctx g, bls_laws B ->
  verify_multi B sig (a ++ (m, pk) :: b ++ (m, pk') :: c) ctx g = false.
Proof.
  intros B sig a m pk b pk' c ctx g LW. destruct (verify_multi B sig _ ctx g) eqn:E; [|reflexivity]. exfalso.
  apply (C51_multi_decision B _ _ ctx g LW) in E. destruct E as (ND & _). rewrite !map_app in ND. cbn [map fst] in ND. apply NoDup_remove_2 in ND. apply ND.
  apply in_or_app. right. rewrite map_app. apply in_or_app. right. now left.
Qed.
Print Assumptions C51_repeated_message_rejected.
(** with one input verify_multi is verify; with none it accepts only the neutral element *)
Theorem C51_single_and_empty : forall B (sig : bS B) m pk ctx g, bls_laws B -> nondegenerate g ->
  verify_multi B sig [(m, pk)] ctx g = signature_verify B sig m ctx pk g /\ (verify_multi B sig [] ctx g = true <-> sig = m0).
Proof.
  intros B sig m pk ctx g LW N. split.
  - apply eq_true_iff_eq. rewrite (C51_multi_decision B _ _ ctx g LW). unfold signature_verify. rewrite (pairing2_iff B LW). unfold signed. cbn [map msum fst snd].
    rewrite (madd_0_r _ _ (bl_t B LW)). split; [intros (_ & E); symmetry; exact E|]. intros E. split; [|symmetry; exact E]. constructor; [intros []|constructor].
  - rewrite (C51_multi_decision B _ _ ctx g LW). cbn [map msum]. split.
    + intros (_ & E). apply N. symmetry. exact E.
    + intros ->. split; [constructor|]. now rewrite (be_0_r B LW).
Qed.
Print Assumptions C51_single_and_empty.

(** ** C52: batch verification *)
Theorem C52_batch_complete : forall B (inputs : list (bK B * (list Z * bS B * bP B))) ctx g, bls_laws B ->
  (forall r m s pk, In (r, (m, s, pk)) inputs -> signature_verify B s m ctx pk g = true) -> batch_verify B inputs ctx g = true.
Proof.
  intros B inputs ctx g LW V. apply (batch_iff B LW). induction inputs as [|(r, ((m, s), pk)) l IH]; [reflexivity|]. cbn [map msum fst snd].
  rewrite IH by (intros r' m' s' pk' I; apply (V r'); now right). rewrite (madd_0_r _ _ (bl_t B LW)).
  assert (defect B g ctx (m, s, pk) = m0) as ->; [|apply (smul_0_r _ _ (bl_t B LW))].
  apply (defect_0 B LW). apply (pairing2_iff B LW). apply (V r). now left.
Qed.
Print Assumptions C52_batch_complete.
(** if one input is invalid, then for any choice of the other exponents at most one value
    of its own exponent makes the batch pass *)
Theorem C52_batch_sound : forall B a b (r r' : bK B) m s pk ctx g, bls_laws B ->
  signature_verify B s m ctx pk g = false ->
  batch_verify B (a ++ (r, (m, s, pk)) :: b) ctx g = true -> batch_verify B (a ++ (r', (m, s, pk)) :: b) ctx g = true -> r = r'.
Proof.
  intros B a b r r' m s pk ctx g LW V. rewrite !(batch_iff B LW), !map_app. cbn [map fst snd]. rewrite !(msum_app _ _ (bl_t B LW)). cbn [msum].
  set (d := defect B g ctx (m, s, pk)). set (u := msum _). set (w := msum _). pose proof (bl_t B LW) as HT. pose proof (bl_field B LW) as HK.
  intros E1 E2. rewrite <- E2 in E1. apply (madd_cancel _ _ HT) in E1. rewrite !(madd_comm _ _ HT _ w) in E1. apply (madd_cancel _ _ HT) in E1.
  assert (d <> m0) as Nd.
  { intros Q. apply (defect_0 B LW) in Q. apply (pairing2_iff B LW) in Q. unfold signature_verify in V. rewrite hash_msg_hashed in V. congruence. }
  apply (fsub_eq0 _ HK). apply (smul_eq_0_faithful B LW HT _ d Nd).
  destruct HK as [FT EQ]. rewrite (F_R FT).(Rsub_def), (smul_add_l _ _ HT), E1, <- (smul_add_l _ _ HT), (F_R FT).(Ropp_def). apply (smul_0_l _ (conj FT EQ) _ HT).
Qed.
Print Assumptions C52_batch_sound.
(** the exponents are what protects: two invalid signatures whose errors cancel pass
    with equal exponents *)
Theorem C52_equal_exponents_insufficient : forall B (r sk sk' : bK B) (t : bS B) m m' ctx g, bls_laws B ->
  batch_verify B [(r, (m, madd (signature_new B m ctx sk) t, public_key B sk g)); (r, (m', madd (signature_new B m' ctx sk') (mopp t), public_key B sk' g))] ctx g = true.
Proof.
  intros B r sk sk' t m m' ctx g LW. apply (batch_iff B LW). cbn [map msum fst snd defect]. unfold signature_new, public_key. rewrite !hash_msg_hashed.
  rewrite !(be_add_r B LW), !(be_smul_r B LW), !(be_smul_l B LW), (be_opp_r B LW). apply (batch_cancel B LW).
Qed.
Print Assumptions C52_equal_exponents_insufficient.

(** ** C53: the byte interface *)
(** what [from_bytes] must do with the output of [to_bytes] *)
Record codec_laws (B : bls_groups) : Prop := {
  cd_p : forall x : bP B, decP (encP x) = Ok x;
  cd_s : forall x : bS B, decS (encS x) = Ok x;
  cd_k : forall x : bK B, decK (encK x) = Ok x }.
(** a key pair obtained from a seed, or from its own secret key bytes, signs and verifies *)
Theorem C53_round_trip : forall B gen m (sk : bK B), bls_laws B -> codec_laws B ->
  exists pkb, scheme_keypair_from_secret B gen (encK sk) = Ok (pkb, encK sk) /\
  exists sig, scheme_sign B m (encK sk) = Ok sig /\ scheme_verify B gen m sig pkb = Ok true.
Proof.
  intros B gen m sk LW CD. unfold scheme_keypair_from_secret, scheme_sign, scheme_verify. rewrite (cd_k B CD). eexists. split; [reflexivity|]. eexists. split; [reflexivity|].
  now rewrite (cd_s B CD), (cd_p B CD), C49_sign_then_verify.
Qed.
Print Assumptions C53_round_trip.
Theorem C53_seed_keypair : forall B hkdf of_okm n gen seed m, bls_laws B -> codec_laws B ->
  let '(pk, sk) := scheme_keypair_from_seed B hkdf of_okm n gen seed in
  scheme_keypair_from_secret B gen sk = Ok (pk, sk) /\ exists sig, scheme_sign B m sk = Ok sig /\ scheme_verify B gen m sig pk = Ok true.
Proof.
  intros B hkdf of_okm n gen seed m LW CD. unfold scheme_keypair_from_seed. unfold scheme_keypair_from_secret, scheme_sign, scheme_verify. rewrite (cd_k B CD). split; [reflexivity|].
  eexists. split; [reflexivity|]. now rewrite (cd_s B CD), (cd_p B CD), C49_sign_then_verify.
Qed.
Print Assumptions C53_seed_keypair.
(** for a key of the scheme exactly one byte string decodes to an accepted signature (up
    to the decoder), namely the one produced by [sign] *)
Theorem C53_verify_iff : forall B gen m (sk : bK B) sig, bls_laws B -> codec_laws B -> nondegenerate gen ->
  (scheme_verify B gen m sig (encP (public_key B sk gen)) = Ok true <-> decS sig = Ok (signature_new B m None sk)).
Proof.
  intros B gen m sk sig LW CD N. unfold scheme_verify. destruct (decS sig) as [s|e]; [|split; discriminate].
  rewrite (cd_p B CD). split.
  - intros E. f_equal. apply (C49_unique_signature B m None sk gen s LW N). now inversion E.
  - intros E. f_equal. apply (C49_unique_signature B m None sk gen s LW N). now inversion E.
Qed.
Print Assumptions C53_verify_iff.
(** bytes that do not decode give ParseError, never a boolean, and never any other error *)
Theorem C53_errors : forall B gen m sk sig pk r,
  (scheme_sign B m sk = Err r -> r = ParseError) /\
  (scheme_verify B gen m sig pk = Err r -> r = ParseError) /\
  (scheme_keypair_from_secret B gen sk = Err r -> r = ParseError) /\
  ((exists b, scheme_verify B gen m sig pk = Ok b) <-> (exists s, decS (b:=B) sig = Ok s) /\ (exists p, decP (b:=B) pk = Ok p)) /\
  ((exists s, scheme_sign B m sk = Ok s) <-> (exists k, decK (b:=B) sk = Ok k)).
Proof.
  intros B gen m sk sig pk r. unfold scheme_sign, scheme_verify, scheme_keypair_from_secret.
  destruct (decK sk) as [k|e]; destruct (decS sig) as [s|e']; destruct (decP pk) as [p|e'']; repeat split;
    try discriminate; try congruence; try (intros [x H]; discriminate); try (intros [[x H] [y H']]; discriminate);
    try (destruct H as [x H]; discriminate); eauto.
Qed.
Print Assumptions C53_errors.

(** ** what exactly is hashed, and how keys are combined and derived *)
(** a proof of possession signs "for signing public keys for proof of possession" (or the
    given context) followed by the bytes of the key; with default contexts no message has
    the same hashed string as a key *)
Theorem C49_pop_hashed_string : forall B (pk : bP B) (sk : bK B) ctx,
  pop2_new B pk ctx sk = smul sk (hash_s ((match ctx with Some c => c | None => bytes_of "for signing public keys for proof of possession" end) ++ encP pk)) /\
  (forall m, hashed m None <> bytes_of "for signing public keys for proof of possession" ++ encP pk) /\
  (forall m, signature_new B m None sk = smul sk (hash_s (bytes_of "for signing messages" ++ m))).
Proof.
  intros B pk sk ctx. split; [reflexivity|]. split; [|reflexivity]. intros m E. apply (f_equal (fun l => nth 12 l 0)) in E. vm_compute in E. discriminate.
Qed.
Print Assumptions C49_pop_hashed_string.
(** the exponent of a key in an aggregate is the hash of the bytes of all keys of the
    group followed by the bytes of the key *)
Theorem C50_exponents : forall B m ctx (sk : bK B) (pks : list (bP B)) i, bls_laws B ->
  aggregated_key B pks = msum (map (fun pk => smul (hash_k (concat (map encP pks) ++ encP pk)) pk) pks) /\
  signature_new_rk B m ctx sk i pks =
    match nth_error pks i with
    | Some pk => Ok (smul (hash_k (concat (map encP pks) ++ encP pk)) (signature_new B m ctx sk))
    | None => Err Panic
    end.
Proof.
  intros B m ctx sk pks i LW. split; [|reflexivity]. unfold aggregated_key. rewrite (fold_sum B (bl_p B LW) (fun k => smul (rk_exponent B pks k) k)). apply (madd_0_l _ _ (bl_p B LW)).
Qed.
Print Assumptions C50_exponents.
(** combining: the receiver takes part, and combined signatures verify under combined keys *)
Theorem C50_combine : forall B m ctx (sk : bK B) (sks : list (bK B)) g, bls_laws B ->
  (forall (p : bP B) ps, pk_combine B p ps = msum (p :: ps)) /\ (forall (s : bS B) ss, sig_combine B s ss = msum (s :: ss)) /\
  signature_verify B (sig_combine B (signature_new B m ctx sk) (map (signature_new B m ctx) sks)) m ctx
    (pk_combine B (public_key B sk g) (map (fun k => public_key B k g) sks)) g = true.
Proof.
  intros B m ctx sk sks g LW.
  assert (forall (p : bP B) ps, pk_combine B p ps = msum (p :: ps)) as A by (intros p ps; unfold pk_combine; now rewrite (fold_sum_id B (bl_p B LW))).
  assert (forall (s : bS B) ss, sig_combine B s ss = msum (s :: ss)) as A' by (intros p ps; unfold sig_combine; now rewrite (fold_sum_id B (bl_s B LW))).
  split; [exact A|]. split; [exact A'|]. rewrite A, A'. apply (pairing2_iff B LW). unfold signed. rewrite hash_msg_hashed.
  change (signature_new B m ctx sk :: map (signature_new B m ctx) sks) with (map (signature_new B m ctx) (sk :: sks)).
  change (public_key B sk g :: map (fun k => public_key B k g) sks) with (map (fun k => public_key B k g) (sk :: sks)).
  unfold signature_new, public_key. rewrite hash_msg_hashed. rewrite (msum_map_smul B LW (bl_s B LW) (fun x => x)), (msum_map_smul B LW (bl_p B LW) (fun x => x)).
  now rewrite (be_smul_r B LW), (be_smul_l B LW).
Qed.
Print Assumptions C50_combine.
(** the key pair of a seed: the secret is read from HKDF(salt, seed || 0, 0 || n, n) *)
Theorem C53_seed_secret : forall B hkdf of_okm n gen seed,
  let sk := of_okm (hkdf (bytes_of "BLS-SIG-KEYGEN-SALT-") (seed ++ [0]) [0; Z.of_nat n] n) in
  scheme_keypair_from_seed B hkdf of_okm n gen seed = (encP (smul sk gen : bP B), encK sk).
Proof. reflexivity. Qed.
Print Assumptions C53_seed_secret.

(** ** the hypotheses are met by a concrete instance *)
Definition X257 : bls_groups := normal T257 (fun l => match l with [z] => Ok (fp 257 z) | _ => Err InvalidStructure end)
  (fun l => match l with [z] => Ok (fp 257 z) | _ => Err InvalidStructure end) (fun x => [@fpv 257 x])
  (fun l => match l with [z] => Ok (fp 257 z) | _ => Err InvalidStructure end)
  (fun l => fp 257 (1 + fold_left (fun a b => (3 * a + b) mod 256) l 7)) (fun l => fp 257 (1 + fold_left (fun a b => (5 * a + b) mod 256) l 1)).
Lemma X257_laws : bls_laws X257.
Proof. constructor; try apply T257_laws. Qed.
Lemma X257_codec : codec_laws X257.
Proof. constructor; intros x; cbn [decP encP decS encS decK encK X257 normal enc1 enc2 T257 toy_curve]; f_equal; apply fp_fpv. Qed.
Lemma X257_nondegenerate : nondegenerate (B:=X257) (fp 257 3).
Proof.
  intros s E. change (fmul (fp 257 3) s = (f0 : FpOps 257)) in E. pose proof (FpOps_laws 257 prime_257) as HK.
  change (s = (f0 : FpOps 257)). apply (fmul_integral _ HK) in E. destruct E as [E|E]; [|exact E]. apply (f_equal (@fpv 257)) in E. discriminate.
Qed.
Definition exg : bP X257 := fp 257 3.
Definition exk (z : Z) : bK X257 := fp 257 z.
Example C49_ex : signature_verify X257 (signature_new X257 [1;2] None (exk 9)) [1;2] None (public_key X257 (exk 9) exg) exg = true /\
  signature_verify X257 (signature_new X257 [1;2] None (exk 9)) [1;3] None (public_key X257 (exk 9) exg) exg = false /\
  signature_verify X257 (signature_new X257 [1;2] None (exk 9)) [1;2] None (public_key X257 (exk 10) exg) exg = false.
Proof. vm_compute. auto. Qed.
Example C50_ex : let pks := map (fun z => public_key X257 (exk z) exg) [4; 9; 5] in
  match all_sign X257 [7] None (map exk [4; 9; 5]) pks with
  | Ok [a; b; c] => aggregated_verify X257 (aggregated_signature X257 [a; b; c]) [7] None (aggregated_key X257 pks) exg = true /\
                    aggregated_verify X257 (aggregated_signature X257 [a; b]) [7] None (aggregated_key X257 pks) exg = false
  | _ => False end.
Proof. vm_compute. auto. Qed.
Example C51_ex : verify_multi X257 (sig_combine X257 (signature_new X257 [1] None (exk 4)) [signature_new X257 [2] None (exk 9)])
    [([1], public_key X257 (exk 4) exg); ([2], public_key X257 (exk 9) exg)] None exg = true /\
  verify_multi X257 (sig_combine X257 (signature_new X257 [1] None (exk 4)) [signature_new X257 [1] None (exk 9)])
    [([1], public_key X257 (exk 4) exg); ([1], public_key X257 (exk 9) exg)] None exg = false.
Proof. vm_compute. auto. Qed.
Example C52_ex : batch_verify X257 [(exk 5, ([1], signature_new X257 [1] None (exk 4), public_key X257 (exk 4) exg));
    (exk 6, ([2], signature_new X257 [2] None (exk 9), public_key X257 (exk 9) exg))] None exg = true /\
  batch_verify X257 [(exk 5, ([1], signature_new X257 [1] None (exk 4), public_key X257 (exk 4) exg));
    (exk 6, ([2], signature_new X257 [3] None (exk 9), public_key X257 (exk 9) exg))] None exg = false.
Proof. vm_compute. auto. Qed.
Example C53_ex : exists pk sig, scheme_keypair_from_secret X257 exg [9] = Ok (pk, [9]) /\ scheme_sign X257 [1;2] [9] = Ok sig /\
  scheme_verify X257 exg [1;2] sig pk = Ok true /\ scheme_verify X257 exg [1;2] [] pk = Err ParseError /\ scheme_verify X257 exg [1;4] sig pk = Ok false.
Proof. vm_compute. do 2 eexists. repeat split; reflexivity. Qed.
