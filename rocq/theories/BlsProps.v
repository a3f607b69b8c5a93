(** Properties C42-C44: BLS signatures, multi-signatures and proofs of possession. *)
From Verif Require Import Base BnModel NumTheory Alg Fp ClRevModel ClRevSpec CurveInst BlsModel.
From Coq Require Import Permutation.
Open Scope list_scope.
Open Scope Z_scope.

(** ** specification vocabulary *)
(** a generator on which the pairing is not degenerate *)
Definition good_generator {C : curve} (g : generator C) : Prop := forall a : cG1 C, pair a (gen_point g) = m0 -> a = m0.
Definition scalars {C : curve} (sks : list (signkey C)) : cK C := fsum (map sgk_scalar sks).

Section Facts.
Variable C : curve.
Hypothesis LW : curve_laws C.
Notation K := (cK C). Notation G1 := (cG1 C). Notation G2 := (cG2 C). Notation GT := (cGT C).
Let HK := cl_field C LW. Let H1 := cl_g1 C LW. Let H2 := cl_g2 C LW. Let HT := cl_gt C LW.
Add Field Kf : (proj1 HK).

Lemma pair_add_l (a b : G1) (c : G2) : pair (madd a b) c = madd (pair a c) (pair b c).
Proof. apply (cl_bilinear C LW). Qed.
Lemma pair_smul_l x (a : G1) (b : G2) : pair (smul x a) b = smul x (pair a b).
Proof. apply (cl_bilinear C LW). Qed.
Lemma pair_smul_r x (a : G1) (b : G2) : pair a (smul x b) = smul x (pair a b).
Proof. apply (cl_bilinear C LW). Qed.
Lemma pair_opp_r (a : G1) (b : G2) : pair a (mopp b) = mopp (pair a b).
Proof. now rewrite (mopp_smul _ HK _ H2), pair_smul_r, <- (mopp_smul _ HK _ HT). Qed.
Lemma pair_opp_l (a : G1) (b : G2) : pair (mopp a) b = mopp (pair a b).
Proof. now rewrite (mopp_smul _ HK _ H1), pair_smul_l, <- (mopp_smul _ HK _ HT). Qed.

Lemma fold_madd {M : modOps K} (HM : mod_laws M) {A} (f : A -> M) : forall l acc, fold_left (fun acc s => madd acc (f s)) l acc = madd acc (msum (map f l)).
Proof.
  induction l as [|x l IH]; intros acc; cbn [fold_left map msum]; [now rewrite (madd_0_r _ _ HM)|]. rewrite IH, <- (madd_assoc _ _ HM). reflexivity.
Qed.
Lemma fold_madd0 {M : modOps K} (HM : mod_laws M) {A} (f : A -> M) l : fold_left (fun acc s => madd acc (f s)) l m0 = msum (map f l).
Proof. rewrite (fold_madd HM). now rewrite (madd_0_l _ _ HM). Qed.
Lemma msum_scalars {M : modOps K} (HM : mod_laws M) (sks : list (signkey C)) (a : M) : msum (map (fun sk => smul (sgk_scalar sk) a) sks) = smul (scalars sks) a.
Proof.
  unfold scalars. induction sks as [|sk sks IH]; cbn [map msum fsum]; [now rewrite (smul_0_l _ HK _ HM)|]. now rewrite IH, (smul_add_l _ _ HM).
Qed.
Lemma fsum_perm (a b : list K) : Permutation a b -> fsum a = fsum b.
Proof. induction 1; cbn [fsum]; try ring; congruence. Qed.
Lemma msum_perm {M : modOps K} (HM : mod_laws M) (a b : list M) : Permutation a b -> msum a = msum b.
Proof.
  induction 1; cbn [msum]; [reflexivity|congruence| |congruence]. rewrite !(madd_assoc _ _ HM). f_equal. apply (madd_comm _ _ HM).
Qed.

Lemma msub_smul {M : modOps K} (HM : mod_laws M) x y (a : M) : msub (smul x a) (smul y a) = smul (fsub x y) a.
Proof. module_coefs HK HM. ring. Qed.
Lemma msub_swap {M : modOps K} (HM : mod_laws M) (a b c : M) : c = msub a b <-> msub a c = b.
Proof. split; [intros ->|intros <-]; module_coefs HK HM; ring. Qed.
Lemma madd_msub {M : modOps K} (HM : mod_laws M) (a b : M) : madd b (msub a b) = a.
Proof. module_coefs HK HM; ring. Qed.
Lemma pair_add_r (a : G1) (b c : G2) : pair a (madd b c) = madd (pair a b) (pair a c).
Proof. apply (cl_bilinear C LW). Qed.
Lemma scalar_zero (x y : K) : fadd x y = y -> x = f0.
Proof. intros E. transitivity (fsub (fadd x y) y); [ring|rewrite E; ring]. Qed.
Lemma scalar_mix (a b : K) (h : G1) : madd (smul a h) (smul b h) = smul (fadd a b) h.
Proof. module_coefs HK H1. ring. Qed.

Variables (lift : Z -> G1) (hasher : list Z -> list Z).
(** with a known secret: verification compares two points *)
Lemma verify_iff_pairing fuel s m vk g h : bls_hash C lift hasher fuel m = Ok h ->
  (verify_signature C lift hasher fuel s m vk g = Ok true <-> pair s (gen_point g) = pair h vk).
Proof.
  intros E. unfold verify_signature. rewrite E. cbn [rbind]. unfold pair2. rewrite pair_opp_r. split.
  - intros Q. assert (meqb (madd (mopp (pair s (gen_point g))) (pair h vk)) m0 = true) as Q' by congruence. apply (meqb_eq _ _ HT) in Q'.
    symmetry. apply (msub_0 _ _ HT). unfold msub. now rewrite (madd_comm _ _ HT).
  - intros ->. f_equal. apply (meqb_eq _ _ HT). now rewrite (madd_comm _ _ HT), (madd_opp _ _ HT).
Qed.
Lemma verify_scalar fuel s m x g h : bls_hash C lift hasher fuel m = Ok h -> good_generator g ->
  (verify_signature C lift hasher fuel s m (smul x (gen_point g)) g = Ok true <-> s = smul x h).
Proof.
  intros E G. rewrite (verify_iff_pairing fuel s m _ g h E), pair_smul_r, <- pair_smul_l. split; [|now intros ->].
  intros Q. apply (msub_0 _ _ H1). apply G. unfold msub. rewrite pair_add_l, pair_opp_l, Q. apply (madd_opp _ _ HT).
Qed.
Lemma verify_complete fuel m x g h : bls_hash C lift hasher fuel m = Ok h ->
  verify_signature C lift hasher fuel (smul x h) m (smul x (gen_point g)) g = Ok true.
Proof. intros E. apply (verify_iff_pairing fuel _ m _ g h E). now rewrite pair_smul_l, pair_smul_r. Qed.
Lemma verify_total fuel s m vk g h : bls_hash C lift hasher fuel m = Ok h -> exists b, verify_signature C lift hasher fuel s m vk g = Ok b.
Proof. intros E. unfold verify_signature. rewrite E. cbn [rbind]. eauto. Qed.
End Facts.

(** ** C42: signatures *)
Theorem C42_sign_then_verify : forall (C : curve) lift hs fuel (m : list Z) (sk : signkey C) (g : generator C) h,
  curve_laws C -> bls_hash C lift (h_sha256 hs) fuel m = Ok h ->
  exists s, bls_sign C lift hs fuel m sk = Ok s /\ s1_bytes s = enc1 (s1_point s) /\ bls_verify C lift hs fuel s m (verkey_new C g sk) g = Ok true.
Proof.
  intros C lift sha fuel m sk g h LW E. unfold bls_sign, gen_signature. rewrite E. cbn [rbind]. eexists. split; [reflexivity|]. split; [reflexivity|].
  unfold bls_verify, verkey_new. cbn [s1_point vk_point]. now apply verify_complete.
Qed.
Print Assumptions C42_sign_then_verify.
(** one point and no other verifies; bytes that decode to another point are rejected (not an error) *)
Theorem C42_unique_signature : forall (C : curve) lift hs fuel (m : list Z) (sk : signkey C) (g : generator C) h (s : sig1 C),
  curve_laws C -> good_generator g -> bls_hash C lift (h_sha256 hs) fuel m = Ok h ->
  (bls_verify C lift hs fuel s m (verkey_new C g sk) g = Ok true <-> s1_point s = smul (sgk_scalar sk) h) /\
  (bls_verify C lift hs fuel s m (verkey_new C g sk) g = Ok false <-> s1_point s <> smul (sgk_scalar sk) h).
Proof.
  intros C lift sha fuel m sk g h s LW G E. pose proof (verify_scalar C LW lift (h_sha256 sha) fuel (s1_point s) m (sgk_scalar sk) g h E G) as Q.
  destruct (verify_total C lift (h_sha256 sha) fuel (s1_point s) m (smul (sgk_scalar sk) (gen_point g)) g h E) as (b & Eb).
  unfold bls_verify, verkey_new. cbn [vk_point]. split; [exact Q|]. destruct b; rewrite Eb in *.
  - split; [discriminate|]. intros N. exfalso. apply N. now apply Q.
  - split; [|reflexivity]. intros _ Q'. apply Q in Q'. discriminate.
Qed.
Print Assumptions C42_unique_signature.
(** a signature verifies another message only if the hashes to the curve collide *)
Theorem C42_other_message : forall (C : curve) lift hs fuel m m' (sk : signkey C) (g : generator C) h h' s,
  curve_laws C -> good_generator g -> sgk_scalar sk <> f0 -> bls_hash C lift (h_sha256 hs) fuel m = Ok h -> bls_hash C lift (h_sha256 hs) fuel m' = Ok h' ->
  bls_sign C lift hs fuel m sk = Ok s -> bls_verify C lift hs fuel s m' (verkey_new C g sk) g = Ok true -> h = h'.
Proof.
  intros C lift sha fuel m m' sk g h h' s LW G N E E' Es Ev. unfold bls_sign, gen_signature in Es. rewrite E in Es. cbn [rbind] in Es.
  assert (s1_point s = smul (sgk_scalar sk) h) as Ep by (assert (s = mkSig1 (smul (sgk_scalar sk) h) (enc1 (smul (sgk_scalar sk) h))) as -> by congruence; reflexivity).
  apply (C42_unique_signature C lift sha fuel m' sk g h' s LW G E') in Ev. rewrite Ep in Ev.
  apply (f_equal (smul (finv (sgk_scalar sk)))) in Ev. rewrite <- !(smul_mul _ _ (cl_g1 C LW)), (finv_mul_l _ (cl_field C LW) _ N), !(smul_1 _ _ (cl_g1 C LW)) in Ev. exact Ev.
Qed.
Print Assumptions C42_other_message.
(** another key: only the same secret *)
Theorem C42_other_key : forall (C : curve) lift hs fuel m (sk sk' : signkey C) (g : generator C) h s,
  curve_laws C -> good_generator g -> faithful h -> bls_hash C lift (h_sha256 hs) fuel m = Ok h ->
  bls_sign C lift hs fuel m sk = Ok s -> bls_verify C lift hs fuel s m (verkey_new C g sk') g = Ok true -> sgk_scalar sk = sgk_scalar sk'.
Proof.
  intros C lift sha fuel m sk sk' g h s LW G F E Es Ev. unfold bls_sign, gen_signature in Es. rewrite E in Es. cbn [rbind] in Es.
  assert (s1_point s = smul (sgk_scalar sk) h) as Ep by (assert (s = mkSig1 (smul (sgk_scalar sk) h) (enc1 (smul (sgk_scalar sk) h))) as -> by congruence; reflexivity).
  apply (C42_unique_signature C lift sha fuel m sk' g h s LW G E) in Ev. rewrite Ep in Ev. now apply F.
Qed.
Print Assumptions C42_other_key.
(** the claim that a verification key commits its owner to something is false for the
    point at infinity: it is accepted as key and signature for every message *)
Theorem C42_refuted_infinity_rejected : forall (C : curve) (dec1 : list Z -> cG1 C) (dec2 : list Z -> cG2 C) lift hs fuel m (g : generator C) h b1 b2,
  curve_laws C -> bls_hash C lift (h_sha256 hs) fuel m = Ok h -> length b1 = 128%nat -> length b2 = 128%nat -> dec1 b1 = m0 -> dec2 b2 = m0 ->
  exists s vk, sig1_from_bytes C dec1 b1 = Ok s /\ verkey_from_bytes C dec2 b2 = Ok vk /\ bls_verify C lift hs fuel s m vk g = Ok true.
Proof.
  intros C dec1 dec2 lift sha fuel m g h b1 b2 LW E L1 L2 D1 D2. unfold sig1_from_bytes, verkey_from_bytes, point1_from_bytes, point2_from_bytes. rewrite L1, L2. cbn [Nat.eqb rbind].
  do 2 eexists. split; [reflexivity|]. split; [reflexivity|]. unfold bls_verify. cbn [s1_point vk_point]. rewrite D1, D2.
  pose proof (verify_complete C LW lift (h_sha256 sha) fuel m f0 g h E) as Q. now rewrite (smul_0_l _ (cl_field C LW) _ (cl_g1 C LW)), (smul_0_l _ (cl_field C LW) _ (cl_g2 C LW)) in Q.
Qed.
Print Assumptions C42_refuted_infinity_rejected.
(** keys and signatures survive as_bytes/from_bytes; wrong lengths are errors *)
Theorem C42_bytes_roundtrip : forall (C : curve) (dec1 : list Z -> cG1 C) (dec2 : list Z -> cG2 C) (p1 : cG1 C) (p2 : cG2 C),
  (forall p, dec1 (enc1 p) = p /\ length (enc1 p) = 128%nat) -> (forall p, dec2 (enc2 p) = p /\ length (enc2 p) = 128%nat) ->
  sig1_from_bytes C dec1 (enc1 p1) = Ok (mkSig1 p1 (enc1 p1)) /\ verkey_from_bytes C dec2 (enc2 p2) = Ok (mkVerKey p2 (enc2 p2)) /\
  generator_from_bytes C dec2 (enc2 p2) = Ok (generator_new C p2) /\
  (forall b, length b <> 128%nat -> sig1_from_bytes C dec1 b = Err InvalidStructure /\ verkey_from_bytes C dec2 b = Err InvalidStructure).
Proof.
  intros C dec1 dec2 p1 p2 D1 D2. destruct (D1 p1) as [A1 A2], (D2 p2) as [B1 B2].
  unfold sig1_from_bytes, verkey_from_bytes, generator_from_bytes, point1_from_bytes, point2_from_bytes. rewrite A2, B2. cbn [Nat.eqb rbind]. rewrite A1, B1.
  repeat (split; [reflexivity|]). intros b L. apply Nat.eqb_neq in L. now rewrite L.
Qed.
Print Assumptions C42_bytes_roundtrip.

(** ** C43: multi-signatures *)
Theorem C43_aggregate_verifies : forall (C : curve) lift hs fuel m (sks : list (signkey C)) (g : generator C) h,
  curve_laws C -> bls_hash C lift (h_sha256 hs) fuel m = Ok h ->
  exists sigs, rmap (bls_sign C lift hs fuel m) sks = Ok sigs /\
    multisig_verify C lift hs fuel (multisig_new C sigs) m (map (verkey_new C g) sks) g = Ok true.
Proof.
  intros C lift sha fuel m sks g h LW E.
  assert (rmap (bls_sign C lift sha fuel m) sks = Ok (map (fun sk => mkSig1 (smul (sgk_scalar sk) h) (enc1 (smul (sgk_scalar sk) h))) sks)) as Es.
  { induction sks as [|sk sks IH]; cbn [rmap map]; [reflexivity|]. unfold bls_sign at 1, gen_signature. rewrite E. cbn [rbind]. now rewrite IH. }
  rewrite Es. eexists. split; [reflexivity|]. unfold multisig_verify, multisig_new. cbn [s1_point].
  rewrite (fold_madd0 C (cl_g1 C LW)), (fold_madd0 C (cl_g2 C LW)), !map_map. cbn [s1_point vk_point verkey_new].
  rewrite (msum_scalars C LW (cl_g1 C LW)), (msum_scalars C LW (cl_g2 C LW)). now apply verify_complete.
Qed.
Print Assumptions C43_aggregate_verifies.
(** exactly one point is a multi-signature of a list of keys; order of keys and of
    signatures does not matter *)
Theorem C43_unique_multi_signature : forall (C : curve) lift hs fuel m (sks : list (signkey C)) (g : generator C) h (ms : sig1 C),
  curve_laws C -> good_generator g -> bls_hash C lift (h_sha256 hs) fuel m = Ok h ->
  (multisig_verify C lift hs fuel ms m (map (verkey_new C g) sks) g = Ok true <-> s1_point ms = smul (scalars sks) h).
Proof.
  intros C lift sha fuel m sks g h ms LW G E. unfold multisig_verify. rewrite (fold_madd0 C (cl_g2 C LW)), map_map. cbn [vk_point verkey_new].
  rewrite (msum_scalars C LW (cl_g2 C LW)). now apply verify_scalar.
Qed.
Print Assumptions C43_unique_multi_signature.
Theorem C43_order : forall (C : curve) lift hs fuel m (vks vks' : list (verkey C)) (sigs sigs' : list (sig1 C)) (g : generator C),
  curve_laws C -> Permutation vks vks' -> Permutation sigs sigs' ->
  multisig_new C sigs = multisig_new C sigs' /\
  multisig_verify C lift hs fuel (multisig_new C sigs) m vks g = multisig_verify C lift hs fuel (multisig_new C sigs') m vks' g.
Proof.
  intros C lift sha fuel m vks vks' sigs sigs' g LW P1 P2.
  assert (multisig_new C sigs = multisig_new C sigs') as Q.
  { unfold multisig_new. rewrite !(fold_madd0 C (cl_g1 C LW)). now rewrite (msum_perm C (cl_g1 C LW) _ _ (Permutation_map s1_point P2)). }
  split; [exact Q|]. rewrite Q. unfold multisig_verify. rewrite !(fold_madd0 C (cl_g2 C LW)). now rewrite (msum_perm C (cl_g2 C LW) _ _ (Permutation_map vk_point P1)).
Qed.
Print Assumptions C43_order.
(** signatures of some signers do not verify for a list with one more, unless the extra
    secret is zero *)
Theorem C43_missing_signer : forall (C : curve) lift hs fuel m (sks : list (signkey C)) (extra : signkey C) (g : generator C) h sigs,
  curve_laws C -> good_generator g -> faithful h -> bls_hash C lift (h_sha256 hs) fuel m = Ok h ->
  rmap (bls_sign C lift hs fuel m) sks = Ok sigs ->
  multisig_verify C lift hs fuel (multisig_new C sigs) m (map (verkey_new C g) (extra :: sks)) g = Ok true -> sgk_scalar extra = f0.
Proof.
  intros C lift sha fuel m sks extra g h sigs LW G F E Es Ev. pose proof (cl_field C LW) as HK.
  destruct (C43_aggregate_verifies C lift sha fuel m sks g h LW E) as (sigs' & Es' & Ev'). rewrite Es in Es'. assert (sigs' = sigs) as -> by congruence.
  apply (C43_unique_multi_signature C lift sha fuel m _ g h _ LW G E) in Ev, Ev'. rewrite Ev in Ev'. apply F in Ev'. unfold scalars in Ev'. cbn [map fsum] in Ev'.
  symmetry in Ev'. eapply (scalar_zero C LW). symmetry. exact Ev'.
Qed.
Print Assumptions C43_missing_signer.
(** one key: the same as a single signature *)
Theorem C43_single : forall (C : curve) lift hs fuel m (s : sig1 C) (vk : verkey C) (g : generator C), curve_laws C ->
  multisig_verify C lift hs fuel s m [vk] g = bls_verify C lift hs fuel s m vk g.
Proof. intros C lift sha fuel m s vk g LW. unfold multisig_verify, bls_verify. cbn [fold_left]. now rewrite (madd_0_l _ _ (cl_g2 C LW)). Qed.
(** the claim that an accepted multi-signature has a signer is false for empty lists *)
Theorem C43_refuted_empty_rejected : forall (C : curve) lift hs fuel m (g : generator C) h, curve_laws C -> bls_hash C lift (h_sha256 hs) fuel m = Ok h ->
  multisig_verify C lift hs fuel (multisig_new C []) m [] g = Ok true.
Proof.
  intros C lift sha fuel m g h LW E. destruct (C43_aggregate_verifies C lift sha fuel m [] g h LW E) as (sigs & Es & Ev). cbn [rmap] in Es. assert (sigs = []) as -> by congruence. exact Ev.
Qed.
Print Assumptions C43_refuted_empty_rejected.
(** without proofs of possession: for all keys of others (whoever made them) a key
    computed from them and a chosen secret [x] makes the attacker's own signature with
    [x] a multi-signature of all, for every message *)
Theorem C43_rogue_key : forall (C : curve) lift hs fuel m (others : list (verkey C)) (x : cK C) (xb : list Z) (g : generator C) h,
  curve_laws C -> bls_hash C lift (h_sha256 hs) fuel m = Ok h ->
  let rogue_point := msub (smul x (gen_point g)) (msum (map vk_point others)) in
  exists s, bls_sign C lift hs fuel m (mkSignKey x xb) = Ok s /\
    multisig_verify C lift hs fuel (multisig_new C [s]) m (others ++ [mkVerKey rogue_point (enc2 rogue_point)]) g = Ok true.
Proof.
  intros C lift sha fuel m others x xb g h LW E rp. unfold bls_sign, gen_signature. rewrite E. cbn [rbind sgk_scalar]. eexists. split; [reflexivity|].
  unfold multisig_verify. rewrite (fold_madd0 C (cl_g2 C LW)), map_app. cbn [map vk_point]. rewrite (msum_app _ _ (cl_g2 C LW)). cbn [msum].
  rewrite (madd_0_r _ _ (cl_g2 C LW)).
  assert (madd (msum (map vk_point others)) rp = smul x (gen_point g)) as ->.
  { unfold rp, msub. rewrite (madd_comm _ _ (cl_g2 C LW)), <- (madd_assoc _ _ (cl_g2 C LW)), (madd_comm _ _ (cl_g2 C LW) (mopp _)), (madd_opp _ _ (cl_g2 C LW)).
    apply (madd_0_r _ _ (cl_g2 C LW)). }
  unfold multisig_new. cbn [fold_left s1_point]. rewrite (madd_0_l _ _ (cl_g1 C LW)). now apply verify_complete.
Qed.
Print Assumptions C43_rogue_key.

(** ** C44: proofs of possession *)
Theorem C44_pop_verifies : forall (C : curve) lift hs fuel (sk : signkey C) (g : generator C) h, curve_laws C ->
  bls_hash C lift (h_keccak256 hs) fuel (vk_bytes (verkey_new C g sk)) = Ok h ->
  exists pop, pop_new C lift hs fuel (verkey_new C g sk) sk = Ok pop /\ pop_verify C lift hs fuel pop (verkey_new C g sk) g = Ok true.
Proof.
  intros C lift kec fuel sk g h LW E. unfold pop_new, gen_signature. rewrite E. cbn [rbind]. eexists. split; [reflexivity|]. unfold pop_verify. cbn [s1_point]. now apply verify_complete.
Qed.
Print Assumptions C44_pop_verifies.
(** the only proof for a key with secret [sk] is sk * H(bytes of the key) *)
Theorem C44_pop_unique : forall (C : curve) lift hs fuel (sk : signkey C) (g : generator C) h pop, curve_laws C -> good_generator g ->
  bls_hash C lift (h_keccak256 hs) fuel (vk_bytes (verkey_new C g sk)) = Ok h ->
  (pop_verify C lift hs fuel pop (verkey_new C g sk) g = Ok true <-> s1_point pop = smul (sgk_scalar sk) h).
Proof. intros C lift kec fuel sk g h pop LW G E. unfold pop_verify. cbn [verkey_new vk_point]. now apply verify_scalar. Qed.
Print Assumptions C44_pop_unique.
(** a rogue key x*gen - sum of the others' keys: an accepted proof of possession, plus
    the attacker's own x * H, reveals (sum of the others' secrets) * H for the fresh
    point H that the rogue key hashes to *)
Theorem C44_rogue_key_needs_secret : forall (C : curve) lift hs fuel (others : list (signkey C)) (x : cK C) (g : generator C) h pop,
  curve_laws C -> good_generator g ->
  let rogue_point := msub (smul x (gen_point g)) (msum (map vk_point (map (verkey_new C g) others))) in
  let rogue := mkVerKey rogue_point (enc2 rogue_point) in
  bls_hash C lift (h_keccak256 hs) fuel (vk_bytes rogue) = Ok h ->
  (pop_verify C lift hs fuel pop rogue g = Ok true <-> msub (smul x h) (s1_point pop) = smul (scalars others) h).
Proof.
  intros C lift kec fuel others x g h pop LW G rp rogue E.
  assert (rp = smul (fsub x (scalars others)) (gen_point g)) as Ep.
  { unfold rp. rewrite map_map. cbn [vk_point verkey_new]. rewrite (msum_scalars C LW (cl_g2 C LW)). apply (msub_smul C LW (cl_g2 C LW)). }
  unfold pop_verify. change (vk_point rogue) with rp. rewrite Ep at 1. rewrite (verify_scalar C LW lift (h_keccak256 kec) fuel (s1_point pop) (vk_bytes rogue) (fsub x (scalars others)) g h E G).
  rewrite <- (msub_smul C LW (cl_g1 C LW)). apply (msub_swap C LW (cl_g1 C LW)).
Qed.
Print Assumptions C44_rogue_key_needs_secret.
(** the protection is lost when keys are deserialised field by field: [point] and
    [bytes] are not compared.  From a victim's key and its public proof of possession
    the attacker makes a rogue key with an accepted proof of possession, and his own
    signatures are multi-signatures of the victim and him *)
Theorem C44_refuted_pop_excludes_rogue_keys : forall (C : curve) lift hs fuel m (victim : verkey C) (vpop : sig1 C) (x : cK C) (xb : list Z) (g : generator C) hk h,
  curve_laws C -> bls_hash C lift (h_keccak256 hs) fuel (vk_bytes victim) = Ok hk -> bls_hash C lift (h_sha256 hs) fuel m = Ok h ->
  pop_verify C lift hs fuel vpop victim g = Ok true ->
  let rogue := verkey_deserialize C (msub (smul x (gen_point g)) (vk_point victim)) (vk_bytes victim) in
  let rpop := msub (smul x hk) (s1_point vpop) in
  pop_verify C lift hs fuel (mkSig1 rpop (enc1 rpop)) rogue g = Ok true /\
  exists s, bls_sign C lift hs fuel m (mkSignKey x xb) = Ok s /\
    multisig_verify C lift hs fuel (multisig_new C [s]) m [victim; rogue] g = Ok true.
Proof.
  intros C lift kec fuel m victim vpop x xb g hk h LW Ek E Ev rogue rpop. split.
  - unfold pop_verify in *. apply (verify_iff_pairing C LW lift (h_keccak256 kec) fuel _ _ _ g hk Ek) in Ev. apply (verify_iff_pairing C LW lift (h_keccak256 kec) fuel _ _ _ g hk Ek).
    cbn [s1_point rogue verkey_deserialize vk_point]. unfold rpop, msub. rewrite (pair_add_l C LW), (pair_opp_l C LW), (pair_add_r C LW), (pair_opp_r C LW), Ev, (pair_smul_l C LW), (pair_smul_r C LW). reflexivity.
  - unfold bls_sign, gen_signature. rewrite E. cbn [rbind sgk_scalar]. eexists. split; [reflexivity|].
    unfold multisig_verify, multisig_new. cbn [fold_left s1_point rogue verkey_deserialize vk_point]. rewrite (madd_0_l _ _ (cl_g1 C LW)), (madd_0_l _ _ (cl_g2 C LW)).
    rewrite (madd_msub C LW (cl_g2 C LW)). now apply verify_complete.
Qed.
Print Assumptions C44_refuted_pop_excludes_rogue_keys.

(** ** the hash to the curve, the bytes of a key, and the length checks *)
(** the point of a message: among the x-coordinates from the hash value upwards the first
    one that belongs to a curve point (no such coordinate within [fuel]: no result);
    hashes of more than 32 bytes are refused *)
Theorem C42_hash_first_point : forall (C : curve) (lift : Z -> cG1 C) hasher fuel m h, curve_laws C ->
  (bls_hash C lift hasher fuel m = Ok h <->
   (length (hasher m) <= 32)%nat /\
   exists d : nat, (d < fuel)%nat /\ (forall d', (d' < d)%nat -> lift (bn_from_bytes (hasher m) + Z.of_nat d') = m0) /\
     lift (bn_from_bytes (hasher m) + Z.of_nat d) = h /\ h <> m0).
Proof.
  intros C lift hasher fuel m h LW. unfold bls_hash, from_hash. pose proof (cl_g1 C LW) as H1.
  assert (forall f x, lift_from C lift f x = Ok h <-> exists d : nat, (d < f)%nat /\ (forall d', (d' < d)%nat -> lift (x + Z.of_nat d') = m0) /\ lift (x + Z.of_nat d) = h /\ h <> m0) as Q.
  { induction f as [|f IH]; intros x; cbn [lift_from].
    - split; [discriminate|]. intros (d & L & _). lia.
    - destruct (meqb (lift x) m0) eqn:E.
      + apply (meqb_eq _ _ H1) in E. rewrite IH. split.
        * intros (d & L & A & B & N). exists (S d). split; [lia|]. split; [|split; [|exact N]].
          -- intros [|d'] L'; [now rewrite Z.add_0_r|]. rewrite <- (A d') by lia. f_equal. lia.
          -- rewrite <- B. f_equal. lia.
        * intros ([|d] & L & A & B & N); [exfalso; apply N; rewrite <- B, Z.add_0_r; exact E|]. exists d. split; [lia|]. split; [|split; [|exact N]].
          -- intros d' L'. rewrite <- (A (S d')) by lia. f_equal. lia.
          -- rewrite <- B. f_equal. lia.
      + assert (lift x <> m0) as N by (intros Q; apply (meqb_eq _ _ H1) in Q; congruence). split.
        * intros Q. assert (lift x = h) as <- by congruence. exists 0%nat. split; [lia|]. split; [intros d' L; lia|]. split; [now rewrite Z.add_0_r|exact N].
        * intros ([|d] & L & A & B & _); [now rewrite <- B, Z.add_0_r|]. exfalso. apply N. rewrite <- (A 0%nat) by lia. now rewrite Z.add_0_r. }
  destruct (Nat.ltb 32 (length (hasher m))) eqn:E.
  - apply Nat.ltb_lt in E. split; [discriminate|]. intros (L & _). lia.
  - apply Nat.ltb_ge in E. rewrite Q. split; [intros R; split; [exact E|exact R]|intros (_ & R); exact R].
Qed.
Print Assumptions C42_hash_first_point.
(** the bytes of a fresh key are the encoding of its point, a secret key is read back as
    the number its bytes spell, and more than 32 bytes are refused *)
Theorem C42_key_bytes : forall (C : curve) (g : generator C) (sk : signkey C),
  vk_bytes (verkey_new C g sk) = enc2 (vk_point (verkey_new C g sk)) /\
  (forall p, gen_bytes (generator_new C p) = enc2 p) /\
  (forall b, (length b <= 32)%nat -> signkey_from_bytes C b = Ok (mkSignKey (ofZ (bn_from_bytes b)) b)) /\
  (forall b, (length b > 32)%nat -> signkey_from_bytes C b = Err InvalidStructure).
Proof.
  intros C g sk. repeat split; intros b L; unfold signkey_from_bytes, scalar_from_bytes.
  - apply Nat.ltb_ge in L. now rewrite L.
  - assert (Nat.ltb 32 (length b) = true) as -> by (apply Nat.ltb_lt; lia). reflexivity.
Qed.
Print Assumptions C42_key_bytes.
(** a proof of possession is Keccak based, a signature SHA-256 based: the proof is
    exactly sk * (Keccak point of the key bytes), whatever SHA-256 computes *)
Theorem C44_pop_value : forall (C : curve) lift hs fuel (sk : signkey C) (vk : verkey C) pop,
  (pop_new C lift hs fuel vk sk = Ok pop <->
   exists h, bls_hash C lift (h_keccak256 hs) fuel (vk_bytes vk) = Ok h /\ pop = mkSig1 (smul (sgk_scalar sk) h) (enc1 (smul (sgk_scalar sk) h))).
Proof.
  intros C lift hs fuel sk vk pop. unfold pop_new, gen_signature. destruct (bls_hash C lift (h_keccak256 hs) fuel (vk_bytes vk)) as [h|e]; cbn [rbind].
  - split; [intros Q; exists h; split; [reflexivity|congruence]|]. intros (h' & E & ->). assert (h' = h) as -> by congruence. reflexivity.
  - split; [discriminate|]. intros (h & E & _). discriminate.
Qed.
Print Assumptions C44_pop_value.

(** ** concrete case: the field of 257 elements, x-coordinates divisible by 3 *)
Definition ex_lift (x : Z) : cG1 T257 := if x mod 3 =? 0 then fp 257 (x + 1) else m0.
Definition ex_hash (l : list Z) : list Z := [fold_left Z.add l 7 mod 256].
Definition ex_gen : generator T257 := generator_new T257 (fp 257 5).
Example C42_ex_hash : bls_hash T257 ex_lift ex_hash 10 [1;2;3] = Ok (fp 257 16). Proof. reflexivity. Qed.
Example C42_ex_good : good_generator ex_gen.
Proof.
  intros a E. pose proof (cl_field T257 T257_laws) as HK. change (fmul a (fp 257 5) = (f0 : cK T257)) in E.
  apply (fmul_integral _ HK) in E as [E|E]; [exact E|]. exfalso. apply (f_equal (@fpv 257)) in E. vm_compute in E. discriminate.
Qed.
Example C43_ex_faithful : faithful (fp 257 16 : cG1 T257).
Proof.
  intros x y E. pose proof (cl_field T257 T257_laws) as HK. change (fmul x (fp 257 16) = (fmul y (fp 257 16) : cK T257)) in E.
  apply (f_equal (fun z => fmul z (finv (fp 257 16 : cK T257)))) in E. destruct HK as [[[] _ _ Fi] _].
  rewrite <- !Rmul_assoc, (Rmul_comm _ (finv _)), Fi, !(Rmul_comm _ f1), !Rmul_1_l in E; [exact E|]. intros Q. apply (f_equal (@fpv 257)) in Q. vm_compute in Q. discriminate.
Qed.
