(** Key generation and key exchange (C125), ed25519 (C126). *)
From Verif Require Import Base SymmModel SymmLib SigModel SigLib.
Import List ListNotations.
Open Scope Z_scope.

Definition byte_list (l : bytes) : Prop := Forall (fun b => 0 <= b < 256) l.
(** what a caller can pass: bytes; the random generator gives 32 of them *)
Definition input_ok (random : bytes) (o : option keygen) : Prop := byte_list random /\ length random = 32%nat /\
  match o with Some (FromSecretKey s) => byte_list s | Some (UseSeed s) => byte_list s | None => True end.
Lemma byte_firstn n l : byte_list l -> byte_list (firstn n l).
Proof. intros H. apply Forall_forall. intros x Hx. unfold byte_list in H. rewrite Forall_forall in H. apply H. rewrite <- (firstn_skipn n l). apply in_or_app. auto. Qed.
Lemma byte_skipn n l : byte_list l -> byte_list (skipn n l).
Proof. intros H. apply Forall_forall. intros x Hx. unfold byte_list in H. rewrite Forall_forall in H. apply H. rewrite <- (firstn_skipn n l). apply in_or_app. auto. Qed.

(** ** C125 *)
Lemma x_kp C (HC : c25519_ok C) random o pk sk : input_ok random o -> x_keypair C random o = Ok (pk, sk) ->
  pk = to_montgomery C (gmul (le_val sk) (eB C)) /\ clamp sk = sk /\ length sk = 32%nat /\ byte_list sk /\ 0 <= le_val sk.
Proof.
  intros (Hr & Lr & Ho) X. unfold x_keypair in X.
  assert (exists l, length l = 32%nat /\ byte_list l /\ sk = clamp l /\ pk = x_public C sk) as (l & Ll & Bl & -> & ->).
  { destruct o as [[s|s]|].
    - rewrite (array_ref_exact _ 32) in X by apply (c_sha256 C HC). cbn [rbind] in X. injection X as <- <-. destruct (c_chacha C HC (sha256 C s)). eauto.
    - destruct (array_ref s 32) as [x|] eqn:Q; cbn [rbind] in X; [|discriminate]. injection X as <- <-. apply array_ref_ok in Q. destruct Q as (L & ->). eexists. split; [exact L|]. split; [now apply byte_firstn|]. auto.
    - cbn [rbind] in X. injection X as <- <-. eauto. }
  assert (byte_list (clamp l)) as BC by now apply clamp_range.
  split; [reflexivity|]. split; [apply clamp_clamp; lia|]. split; [rewrite clamp_len; [exact Ll|destruct l; [discriminate Ll|discriminate]|lia]|]. split; [exact BC|]. now apply le_val_range in BC.
Qed.
(** both sides compute the same 32-byte session key *)
Theorem C125_x25519_agreement : forall C, c25519_ok C -> forall r1 o1 r2 o2 pk1 sk1 pk2 sk2, input_ok r1 o1 -> input_ok r2 o2 ->
  x_keypair C r1 o1 = Ok (pk1, sk1) -> x_keypair C r2 o2 = Ok (pk2, sk2) ->
  exists k, x_shared_secret C sk1 pk2 = Ok k /\ x_shared_secret C sk2 pk1 = Ok k /\ length k = 32%nat.
Proof.
  intros C HC r1 o1 r2 o2 pk1 sk1 pk2 sk2 I1 I2 X1 X2. destruct (x_kp C HC _ _ _ _ I1 X1) as (-> & C1 & L1 & _ & P1). destruct (x_kp C HC _ _ _ _ I2 X2) as (-> & C2 & L2 & _ & P2).
  eexists. unfold x_shared_secret. rewrite !array_ref_exact by (assumption || apply (c_mont_len C HC)). cbn [rbind]. rewrite C1, C2, !(c_mont C HC) by assumption.
  split; [reflexivity|]. split; [|apply (c_sha256 C HC)]. now rewrite (zg_mul_comm _ (c_group C HC)).
Qed.
Lemma w_secret_ok W l d : w_secret W l = Ok d -> length l = 32%nat /\ d = be_val l /\ 0 < d < wN W.
Proof.
  unfold w_secret. destruct (Nat.eqb_spec (length l) 32); cbn [andb]; [|discriminate]. destruct (Z.ltb_spec 0 (be_val l)); cbn [andb]; [|discriminate]. destruct (Z.ltb_spec (be_val l) (wN W)); [|discriminate].
  intros X. injection X as <-. auto.
Qed.
Lemma w_mul_ne W (HW : secp_ok W) d : 0 < d < wN W -> gmul d (wB W) <> g0.
Proof. intros H E. apply (proj1 (proj2 (w_order W HW))) in E. apply Z.divide_pos_le in E; lia. Qed.
Lemma w_public_compressed W (HW : secp_ok W) P : P <> g0 -> w_public W (w_compressed W P) = Ok P.
Proof. intros H. unfold w_public. rewrite (w_clen W HW). cbn [Nat.eqb orb]. now rewrite (w_cparse W HW) by exact H. Qed.
Lemma w_public_uncompressed W (HW : secp_ok W) P : P <> g0 -> w_public W (w_uncompressed W P) = Ok P.
Proof. intros H. unfold w_public. rewrite (w_ulen W HW). cbn [Nat.eqb orb]. now rewrite (w_uparse W HW) by exact H. Qed.
Lemma ecdh_kp W random o pk sk : ecdh_keypair W random o = Ok (pk, sk) -> exists d, w_secret W sk = Ok d /\ pk = w_compressed W (gmul d (wB W)).
Proof.
  unfold ecdh_keypair. intros X. match type of X with rbind ?e _ = _ => destruct e as [l|]; [|discriminate] end. cbn [rbind] in X.
  destruct (w_secret W l) as [d|] eqn:Q; cbn [rbind] in X; [|discriminate]. injection X as <- <-. eauto.
Qed.
Theorem C125_ecdh_agreement : forall W, secp_ok W -> forall r1 o1 r2 o2 pk1 sk1 pk2 sk2,
  ecdh_keypair W r1 o1 = Ok (pk1, sk1) -> ecdh_keypair W r2 o2 = Ok (pk2, sk2) ->
  exists k, ecdh_shared_secret W sk1 pk2 = Ok k /\ ecdh_shared_secret W sk2 pk1 = Ok k /\ length k = 32%nat.
Proof.
  intros W HW r1 o1 r2 o2 pk1 sk1 pk2 sk2 X1 X2. destruct (ecdh_kp _ _ _ _ _ X1) as (d1 & S1 & ->). destruct (ecdh_kp _ _ _ _ _ X2) as (d2 & S2 & ->).
  destruct (w_secret_ok _ _ _ S1) as (_ & _ & R1). destruct (w_secret_ok _ _ _ S2) as (_ & _ & R2).
  eexists. unfold ecdh_shared_secret. rewrite S1, S2. cbn [rbind]. rewrite !(w_public_compressed W HW) by (now apply (w_mul_ne W HW)). cbn [rbind].
  split; [reflexivity|]. split; [|apply be_bytes_len]. now rewrite (zg_mul_comm _ (w_group W HW)).
Qed.
(** a private key that was generated loads again, with its public key, in all four schemes *)
Theorem C125_reload : forall C W, c25519_ok C -> secp_ok W -> forall r o r' pk sk, input_ok r o ->
  (x_keypair C r o = Ok (pk, sk) -> x_keypair C r' (Some (FromSecretKey sk)) = Ok (pk, sk)) /\
  (ed_keypair C r o = Ok (pk, sk) -> ed_keypair C r' (Some (FromSecretKey sk)) = Ok (pk, sk)) /\
  (ecdh_keypair W r o = Ok (pk, sk) -> ecdh_keypair W r' (Some (FromSecretKey sk)) = Ok (pk, sk)) /\
  (ecdsa_keypair W r o = Ok (pk, sk) -> ecdsa_keypair W r' (Some (FromSecretKey sk)) = Ok (pk, sk)).
Proof.
  intros C W HC HW r o r' pk sk I. repeat split; intros X.
  - destruct (x_kp C HC _ _ _ _ I X) as (-> & E & L & _). unfold x_keypair. rewrite array_ref_exact by exact L. cbn [rbind]. rewrite E. reflexivity.
  - destruct I as (Hr & Lr & Ho).
    assert (forall s, length s = 32%nat -> keypair_from_bytes C (s ++ ed_public C s) = Some (s, ed_public C s)) as K.
    { intros s L. unfold keypair_from_bytes. rewrite app_length, L. unfold ed_public at 1. rewrite (c_len C HC). cbn [Nat.add Nat.eqb]. rewrite skipn_exact, firstn_exact by exact L.
      unfold pk_from_bytes, ed_public. rewrite (c_len C HC). cbn [Nat.eqb]. now rewrite (c_dec C HC). }
    unfold ed_keypair in *. destruct o as [[s|s]|].
    + rewrite (array_ref_exact _ 32) in X by apply (c_sha256 C HC). cbn [rbind ed_generate fst snd] in X. injection X as <- <-. rewrite K by apply (c_chacha C HC). reflexivity.
    + destruct (keypair_from_bytes C s) as [[a b]|] eqn:Q; [|discriminate]. cbn [rbind fst snd] in X. injection X as <- <-.
      assert (s = a ++ b) as E. { unfold keypair_from_bytes in Q. destruct (_ =? _)%nat; [|discriminate]. destruct (pk_from_bytes _ _); [|discriminate]. apply (f_equal (fun o => match o with Some p => fst p ++ snd p | None => [] end)) in Q. cbn [fst snd] in Q. rewrite firstn_skipn in Q. exact Q. }
      rewrite <- E, Q. cbn [rbind fst snd]. now rewrite <- E.
    + cbn [rbind ed_generate fst snd] in X. injection X as <- <-. rewrite K by exact Lr. reflexivity.
  - destruct (ecdh_kp _ _ _ _ _ X) as (d & S1 & ->). unfold ecdh_keypair. rewrite array_ref_exact by apply (w_secret_ok _ _ _ S1). cbn [rbind]. now rewrite S1.
  - unfold ecdsa_keypair in *. match type of X with rbind ?e _ = _ => destruct e as [l|]; [|discriminate] end. cbn [rbind] in *. destruct (w_secret W l) as [d|] eqn:Q; cbn [rbind] in X; [|discriminate]. injection X as <- <-. now rewrite Q.
Qed.
(** a seed of any length gives an x25519 or ed25519 key pair, determined by the hash of the seed *)
Theorem C125_seed : forall C, c25519_ok C -> forall seed,
  (exists pk sk, forall r, x_keypair C r (Some (UseSeed seed)) = Ok (pk, sk)) /\ (exists pk sk, forall r, ed_keypair C r (Some (UseSeed seed)) = Ok (pk, sk)) /\
  forall seed', sha256 C seed' = sha256 C seed -> forall r, x_keypair C r (Some (UseSeed seed')) = x_keypair C r (Some (UseSeed seed)) /\ ed_keypair C r (Some (UseSeed seed')) = ed_keypair C r (Some (UseSeed seed)).
Proof.
  intros C HC seed. unfold x_keypair, ed_keypair. rewrite (array_ref_exact _ 32) by apply (c_sha256 C HC). cbn [rbind]. split; [do 2 eexists; reflexivity|]. split; [do 2 eexists; reflexivity|].
  intros seed' ->. rewrite (array_ref_exact _ 32) by apply (c_sha256 C HC). split; reflexivity.
Qed.
(** with secp256k1 the seed is not hashed: only its first 32 bytes count, and shorter seeds panic *)
Theorem C125_refuted_seed_hashed : forall W r seed seed', firstn 32 seed = firstn 32 seed' -> (32 <= length seed)%nat -> (32 <= length seed')%nat ->
  ecdh_keypair W r (Some (UseSeed seed)) = ecdh_keypair W r (Some (UseSeed seed')) /\ ecdsa_keypair W r (Some (UseSeed seed)) = ecdsa_keypair W r (Some (UseSeed seed')) /\
  forall short, (length short < 32)%nat -> ecdh_keypair W r (Some (UseSeed short)) = Err Panic /\ ecdsa_keypair W r (Some (UseSeed short)) = Err Panic.
Proof.
  intros W r seed seed' E L L'. unfold ecdh_keypair, ecdsa_keypair, array_ref. rewrite (proj2 (Nat.leb_le _ _) L), (proj2 (Nat.leb_le _ _) L'), E. split; [reflexivity|]. split; [reflexivity|].
  intros short S. rewrite (proj2 (Nat.leb_gt _ _) S). split; reflexivity.
Qed.
(** a public key of small order is accepted: the session key is then the same for every private key *)
Theorem C125_refuted_contributory : forall C, c25519_ok C -> exists pk k, length pk = 32%nat /\
  forall sk, byte_list sk -> (32 <= length sk)%nat -> x_shared_secret C sk pk = Ok k.
Proof.
  intros C HC. exists (to_montgomery C g0), (sha256 C (to_montgomery C g0)). split; [apply (c_mont_len C HC)|]. intros sk Hb L. unfold x_shared_secret.
  unfold array_ref at 1. rewrite (proj2 (Nat.leb_le _ _) L). cbn [rbind]. rewrite array_ref_exact by apply (c_mont_len C HC). cbn [rbind].
  assert (0 <= le_val (clamp (firstn 32 sk))) as P by (apply (le_val_range (clamp (firstn 32 sk))), clamp_range, byte_firstn, Hb).
  rewrite (c_mont C HC) by exact P. now rewrite (zg_gmul_g0 _ (c_group C HC)).
Qed.
(** the lengths of keys: shorter ones panic, longer ones are cut off without an error *)
Theorem C125_refuted_length_checked : forall C W r sk pk t u, length sk = 32%nat -> length pk = 32%nat ->
  x_shared_secret C (sk ++ t) (pk ++ u) = x_shared_secret C sk pk /\ x_keypair C r (Some (FromSecretKey (sk ++ t))) = x_keypair C r (Some (FromSecretKey sk)) /\
  ecdh_keypair W r (Some (FromSecretKey (sk ++ t))) = ecdh_keypair W r (Some (FromSecretKey sk)) /\
  forall short, (length short < 32)%nat -> x_shared_secret C short pk = Err Panic /\ x_shared_secret C sk short = Err Panic /\
    x_keypair C r (Some (FromSecretKey short)) = Err Panic /\ ecdh_keypair W r (Some (FromSecretKey short)) = Err Panic.
Proof.
  intros C W r sk pk t u Ls Lp.
  assert (forall a b : bytes, length a = 32%nat -> array_ref (a ++ b) 32 = Ok a) as A. { intros a b La. unfold array_ref. rewrite app_length, La, (proj2 (Nat.leb_le _ _)) by lia. now rewrite firstn_exact. }
  assert (forall a, length a = 32%nat -> array_ref a 32 = Ok a) as A' by (intros; now apply array_ref_exact).
  unfold x_shared_secret, x_keypair, ecdh_keypair. rewrite !A, !A' by assumption. split; [reflexivity|]. split; [reflexivity|]. split; [reflexivity|].
  intros short S. assert (array_ref short 32 = Err Panic) as ->. { unfold array_ref. now rewrite (proj2 (Nat.leb_gt _ _) S). } repeat split; reflexivity.
Qed.
(** the session key of EcdhSecp256k1Sha256 is not a hash: it is the x-coordinate of the shared point *)
Theorem C125_refuted_session_key_hashed : forall W, secp_ok W -> forall sk pk k, ecdh_shared_secret W sk pk = Ok k ->
  exists Q, w_parse W pk = Some Q /\ be_val k = w_x W (gmul (be_val sk) Q).
Proof.
  intros W HW sk pk k X. unfold ecdh_shared_secret in X. destruct (w_secret W sk) as [d|] eqn:S1; cbn [rbind] in X; [|discriminate]. apply w_secret_ok in S1. destruct S1 as (_ & -> & _).
  unfold w_public in X. destruct (_ || _); [|discriminate]. destruct (w_parse W pk) as [Q|] eqn:P; cbn [rbind] in X; [|discriminate]. injection X as <-. exists Q. split; [reflexivity|].
  apply be_val_bytes. rewrite pow256_32. apply (w_xrange W HW).
Qed.

(** ** C126: ed25519 *)
(** Ed25519 without the cofactor, as in RFC 8032 5.1.7 with the equation s B = R + k A, where the
    encoding of R is compared *)
Definition ed_valid (C : curve25519) (pk message sig : bytes) : Prop := exists A R s,
  length pk = 32%nat /\ e_decompress C pk = Some A /\ sig = R ++ le_bytes 32 s /\ length R = 32%nat /\ 0 <= s < eL C /\
  R = e_compress C (gadd (gmul s (eB C)) (gneg (gmul (le_val (sha512 C (R ++ pk ++ message)) mod eL C) A))).
Lemma neg_swap C (HC : c25519_ok C) k s (A : eG C) : gadd (gmul k (gneg A)) (gmul s (eB C)) = gadd (gmul s (eB C)) (gneg (gmul k A)).
Proof. rewrite (zg_comm _ (c_group C HC)). f_equal. rewrite !(zg_neg_mul _ (c_group C HC)), <- !(zg_mul_mul _ (c_group C HC)). f_equal. lia. Qed.
Lemma sig_parse_iff C (HC : c25519_ok C) sig R s : byte_list sig -> (sig_parse sig = Some (R, s) /\ s < eL C <-> sig = R ++ le_bytes 32 s /\ length R = 32%nat /\ 0 <= s < eL C).
Proof.
  intros Hb. pose proof (c_order C HC) as (OL & _). unfold sig_parse. split.
  - intros (X & Hs). destruct (Nat.eqb_spec (length sig) 64) as [L|]; cbn [andb] in X; [|discriminate]. destruct (last sig 0 <? 32); [|discriminate].
    assert (R = firstn 32 sig /\ s = le_val (skipn 32 sig)) as (-> & ->) by (split; congruence).
    assert (length (skipn 32 sig) = 32%nat) as L2 by (rewrite skipn_length; lia). assert (byte_list (skipn 32 sig)) as B2 by now apply byte_skipn.
    pose proof (le_bytes_val _ B2) as E. rewrite L2 in E. rewrite E. rewrite firstn_skipn, firstn_length. repeat split; try lia. now apply le_val_range in B2.
  - intros (-> & L & Hs). rewrite app_length, le_bytes_len, L. cbn [Nat.add Nat.eqb andb]. rewrite last_app_ne by discriminate.
    rewrite (proj2 (Z.ltb_lt _ _)) by (apply (le_last 31); change (8 * Z.of_nat 31 + 5) with 253; lia). rewrite firstn_exact, skipn_exact by exact L.
    rewrite le_val_bytes; [split; [reflexivity|lia]|]. rewrite pow256_32. split; [lia|]. eapply Z.lt_trans; [apply Hs|]. eapply Z.lt_le_trans; [apply OL|]. apply Z.pow_le_mono_r; lia.
Qed.
(** verify accepts exactly the valid signatures; everything else is an error, never Ok(false) *)
Theorem C126_verify_exact : forall C, c25519_ok C -> forall message sig pk, byte_list sig ->
  (ed_verify C message sig pk = Ok true <-> ed_valid C pk message sig) /\
  (ed_verify C message sig pk = Ok true \/ ed_verify C message sig pk = Err ParseError \/ ed_verify C message sig pk = Err SigningError).
Proof.
  intros C HC message sig pk Hb. split.
  - unfold ed_verify, pk_from_bytes, ed_valid. split.
    + destruct (Nat.eqb_spec (length pk) 32) as [L|]; [|discriminate]. destruct (e_decompress C pk) as [A|] eqn:D; [|discriminate]. destruct (sig_parse sig) as [[R s]|] eqn:P; [|discriminate].
      destruct (ed_verify_raw C pk A message R s) eqn:V; [|discriminate]. intros _. unfold ed_verify_raw in V. apply andb_true_iff in V. destruct V as (V1 & V2). apply Z.ltb_lt in V1. apply bytes_eqb_iff in V2.
      destruct (proj1 (sig_parse_iff C HC sig R s Hb) (conj P V1)) as (E & LR & Hs). exists A, R, s. repeat split; auto; try lia. rewrite <- V2 at 1. now rewrite (neg_swap C HC).
    + intros (A & R & s & L & D & E & LR & Hs & V). rewrite L, D. cbn [Nat.eqb]. destruct (proj2 (sig_parse_iff C HC sig R s Hb) (conj E (conj LR Hs))) as (P & _). rewrite P.
      unfold ed_verify_raw. rewrite (proj2 (Z.ltb_lt _ _)) by lia. cbn [andb]. rewrite (neg_swap C HC). fold (ed_hash C (R ++ pk ++ message)) in V. rewrite <- V. now rewrite (proj2 (bytes_eqb_iff _ _) eq_refl).
  - unfold ed_verify. destruct (pk_from_bytes C pk); [|auto]. destruct (sig_parse sig) as [[R s]|]; [|auto]. destruct (ed_verify_raw _ _ _ _ _ _); auto.
Qed.
Lemma ed_hash_range C (HC : c25519_ok C) l : 0 <= ed_hash C l < eL C.
Proof. unfold ed_hash. apply Z.mod_pos_bound. pose proof (c_order C HC). lia. Qed.
Lemma matched_keypair C (HC : c25519_ok C) secret P : length secret = 32%nat -> keypair_from_bytes C (secret ++ e_compress C P) = Some (secret, e_compress C P).
Proof.
  intros L. unfold keypair_from_bytes. rewrite app_length, L, (c_len C HC). cbn [Nat.add Nat.eqb]. rewrite skipn_exact, firstn_exact by exact L. unfold pk_from_bytes. rewrite (c_len C HC). cbn [Nat.eqb]. now rewrite (c_dec C HC).
Qed.
Lemma ed_sound C (HC : c25519_ok C) secret message : length secret = 32%nat ->
  ed_valid C (ed_public C secret) message (ed_sign_raw C secret (ed_public C secret) message).
Proof.
  intros L. pose proof (c_order C HC) as (OL & OB). pose proof (c_group C HC) as HG. unfold ed_sign_raw. cbv zeta. set (r := ed_hash C (ed_prefix C secret ++ message)). set (R := e_compress C (gmul r (eB C))). set (k := ed_hash C (R ++ ed_public C secret ++ message)).
  exists (gmul (ed_scalar C secret) (eB C)), R, ((k * ed_scalar C secret + r) mod eL C). split; [apply (c_len C HC)|]. split; [apply (c_dec C HC)|]. split; [reflexivity|]. split; [apply (c_len C HC)|]. split; [apply Z.mod_pos_bound; lia|].
  fold (ed_hash C (R ++ ed_public C secret ++ message)). fold k. unfold R at 1. f_equal. rewrite (zg_mod _ HG _ _ OB) by lia.
  rewrite (zg_neg_mul _ HG), <- !(zg_mul_mul _ HG), <- (zg_mul_add _ HG). f_equal. lia.
Qed.
Lemma sign_bytes C (HC : c25519_ok C) secret pk message : (forall P, byte_list (e_compress C P)) -> byte_list (ed_sign_raw C secret pk message).
Proof. intros H. unfold ed_sign_raw. cbv zeta. apply Forall_app. split; [apply H|apply le_bytes_range]. Qed.
Lemma ed_kp C (HC : c25519_ok C) r o pk sk : length r = 32%nat -> (forall s, o <> Some (FromSecretKey s)) -> ed_keypair C r o = Ok (pk, sk) -> exists secret, length secret = 32%nat /\ pk = ed_public C secret /\ sk = secret ++ pk.
Proof.
  intros Lr N X. unfold ed_keypair in X. destruct o as [[s|s]|]; [|now elim (N s)|].
  - rewrite (array_ref_exact _ 32) in X by apply (c_sha256 C HC). cbn [rbind ed_generate fst snd] in X. injection X as <- <-. exists (chacha C (sha256 C s)). split; [apply (c_chacha C HC)|auto].
  - cbn [rbind ed_generate fst snd] in X. injection X as <- <-. eauto.
Qed.
Lemma expand_kp C ikm pk sk : expand_keypair C ikm = Ok (pk, sk) -> exists secret, length secret = 32%nat /\ pk = ed_public C secret /\ sk = secret ++ pk.
Proof.
  intros X. unfold expand_keypair in X. destruct (Nat.ltb_spec (length ikm) 32); [discriminate|]. assert (length (firstn 32 ikm) = 32%nat) as L by (rewrite firstn_length; lia).
  remember (firstn 32 ikm) as secret eqn:Q. injection X as <- <-. eauto.
Qed.
(** signatures of generated or expanded keys verify *)
Theorem C126_complete : forall C, c25519_ok C -> (forall P, byte_list (e_compress C P)) -> forall r o ikm pk sk message, length r = 32%nat -> (forall s, o <> Some (FromSecretKey s)) ->
  ed_keypair C r o = Ok (pk, sk) \/ expand_keypair C ikm = Ok (pk, sk) ->
  exists sig, ed_sign C message sk = Ok sig /\ length sig = 64%nat /\ ed_verify C message sig pk = Ok true.
Proof.
  intros C HC HB r o ikm pk sk message Lr N X.
  assert (exists secret, length secret = 32%nat /\ pk = ed_public C secret /\ sk = secret ++ pk) as (secret & L & -> & ->).
  { destruct X as [X|X]; [now apply (ed_kp C HC r o)|now apply (expand_kp C ikm)]. }
  exists (ed_sign_raw C secret (ed_public C secret) message). unfold ed_sign. unfold ed_public at 1. rewrite (matched_keypair C HC) by exact L. fold (ed_public C secret). split; [reflexivity|].
  split; [unfold ed_sign_raw; cbv zeta; now rewrite app_length, (c_len C HC), le_bytes_len|]. apply (C126_verify_exact C HC); [now apply sign_bytes|]. now apply ed_sound.
Qed.
(** RFC 8032 5.1.5 and 5.1.6: the private scalar of a secret, the nonce from the other half of its
    hash, and the signature *)
Definition rfc_scalar (lo : bytes) : Z := 2 ^ 254 + 8 * ((le_val lo mod 2 ^ 254) / 8).
Definition rfc_sign (C : curve25519) (lo prefix pk message : bytes) : bytes :=
  let r := le_val (sha512 C (prefix ++ message)) mod eL C in
  let R := e_compress C (gmul r (eB C)) in
  R ++ le_bytes 32 ((r + le_val (sha512 C (R ++ pk ++ message)) mod eL C * rfc_scalar lo) mod eL C).
Lemma le_val_app a b : le_val (a ++ b) = le_val a + 256 ^ Z.of_nat (length a) * le_val b.
Proof. induction a as [|x a IH]; [cbn [app le_val length]; change (256 ^ Z.of_nat 0) with 1; lia|]. cbn [app le_val length]. rewrite IH, Nat2Z.inj_succ, Z.pow_succ_r by lia. ring. Qed.
Lemma clamp_rfc lo : byte_list lo -> length lo = 32%nat -> le_val (clamp lo) = rfc_scalar lo.
Proof.
  intros Hb L. destruct lo as [|b r]; [discriminate|]. cbn [length] in L. assert (r <> []) as Nr by (intros ->; discriminate). pose proof (app_removelast_last 0 Nr) as E.
  set (m := removelast r) in *. set (t := last r 0) in *. assert (length m = 30%nat) as Lm. { rewrite E, app_length in L. cbn [length] in L. lia. }
  assert (byte_list m /\ 0 <= t < 256) as (Bm & Bt). { inversion_clear Hb as [|? ? H0 Hr]. rewrite E in Hr. apply Forall_app in Hr. destruct Hr as (Hm & Ht). split; [exact Hm|]. now inversion_clear Ht. }
  assert (0 <= b < 256) as Bb by now inversion_clear Hb.
  unfold clamp, rfc_scalar. fold m t. rewrite E. cbn [le_val]. rewrite !le_val_app, Lm. cbn [le_val].
  pose proof (le_val_range m Bm) as Rm. rewrite Lm in Rm.
  assert (Z.land b 248 = 8 * (b / 8)) as E1. { assert (forallb (fun n => Z.land (Z.of_nat n) 248 =? 8 * (Z.of_nat n / 8)) (seq 0 256) = true) as A by (vm_compute; reflexivity). rewrite forallb_forall in A. specialize (A (Z.to_nat b)). rewrite Z2Nat.id in A by lia. apply Z.eqb_eq, A, in_seq. lia. }
  assert (Z.lor (Z.land t 127) 64 = 64 + t mod 64) as E2. { assert (forallb (fun n => Z.lor (Z.land (Z.of_nat n) 127) 64 =? 64 + Z.of_nat n mod 64) (seq 0 256) = true) as A by (vm_compute; reflexivity). rewrite forallb_forall in A. specialize (A (Z.to_nat t)). rewrite Z2Nat.id in A by lia. apply Z.eqb_eq, A, in_seq. lia. }
  rewrite E1, E2. change (256 ^ Z.of_nat 30) with (2 ^ 240) in *. change (2 ^ 254) with (2 ^ 240 * 2 ^ 14). set (P := 2 ^ 240) in *. assert (exists P', P = 8 * P') as (P' & EP) by (exists (2 ^ 237); reflexivity). change (2 ^ 14) with 16384.
  pose proof (Z.div_mod t 64 ltac:(lia)) as Dt. pose proof (Z.mod_pos_bound t 64 ltac:(lia)). pose proof (Z.div_mod b 8 ltac:(lia)) as Db. pose proof (Z.mod_pos_bound b 8 ltac:(lia)).
  replace ((b + 256 * (le_val m + P * (t + 256 * 0))) mod (P * 16384)) with (b + 256 * (le_val m + P * (t mod 64))).
  2: { apply Z.mod_unique_pos with (t / 64); [nia|]. rewrite Dt at 1. ring. }
  replace (b + 256 * (le_val m + P * (t mod 64))) with (b mod 8 + (b / 8 + 32 * (le_val m + P * (t mod 64))) * 8) by lia.
  rewrite Z.div_add, (Z.div_small (b mod 8)) by lia. ring.
Qed.
Theorem C126_sign_rfc8032 : forall C, c25519_ok C -> forall r o ikm pk sk message, length r = 32%nat -> (forall s, o <> Some (FromSecretKey s)) ->
  ed_keypair C r o = Ok (pk, sk) \/ expand_keypair C ikm = Ok (pk, sk) ->
  exists secret lo prefix, length secret = 32%nat /\ sk = secret ++ pk /\ sha512 C secret = lo ++ prefix /\ length lo = 32%nat /\ length prefix = 32%nat /\
    pk = e_compress C (gmul (rfc_scalar lo) (eB C)) /\ ed_sign C message sk = Ok (rfc_sign C lo prefix pk message).
Proof.
  intros C HC r o ikm pk sk message Lr N X.
  assert (exists secret, length secret = 32%nat /\ pk = ed_public C secret /\ sk = secret ++ pk) as (secret & L & -> & ->).
  { destruct X as [X|X]; [now apply (ed_kp C HC r o)|now apply (expand_kp C ikm)]. }
  destruct (c_sha512 C HC secret) as (LH & BH). exists secret, (firstn 32 (sha512 C secret)), (skipn 32 (sha512 C secret)).
  assert (ed_scalar C secret = rfc_scalar (firstn 32 (sha512 C secret))) as ES. { apply clamp_rfc; [now apply byte_firstn|rewrite firstn_length; lia]. }
  split; [exact L|]. split; [reflexivity|]. split; [now rewrite firstn_skipn|]. split; [rewrite firstn_length; lia|]. split; [rewrite skipn_length; lia|]. rewrite <- ES. split; [reflexivity|].
  unfold ed_sign. unfold ed_public at 1. rewrite (matched_keypair C HC) by exact L. fold (ed_public C secret). f_equal. unfold ed_sign_raw, rfc_sign, ed_hash, ed_prefix. cbv zeta. rewrite <- ES. f_equal. f_equal. f_equal. lia.
Qed.
(** for a message, public key and R there is one s: the second half cannot be changed *)
Theorem C126_unique_s : forall C, c25519_ok C -> forall message pk sig sig', byte_list sig -> byte_list sig' -> firstn 32 sig = firstn 32 sig' ->
  ed_verify C message sig pk = Ok true -> ed_verify C message sig' pk = Ok true -> sig = sig'.
Proof.
  intros C HC message pk sig sig' B1 B2 E V1 V2. pose proof (c_order C HC) as (OL & OB). pose proof (c_group C HC) as HG.
  apply (C126_verify_exact C HC) in V1; [|exact B1]. apply (C126_verify_exact C HC) in V2; [|exact B2].
  destruct V1 as (A & R & s & _ & D & -> & LR & Hs & V). destruct V2 as (A' & R' & s' & _ & D' & -> & LR' & Hs' & V'). rewrite !firstn_exact in E by assumption. subst R'. rewrite D in D'. injection D' as <-.
  rewrite V in V' at 1. apply (f_equal (e_decompress C)) in V'. rewrite !(c_dec C HC) in V'. injection V' as V'.
  rewrite !(zg_comm _ HG _ (gneg _)) in V'. apply (zg_cancel _ HG) in V'. apply (zg_cong_inv _ HG _ _ OB) in V'. destruct V' as (q & Q).
  assert (q = 0) by nia. subst. f_equal. f_equal. lia.
Qed.
(** refuted: a signature says nothing under a public key of small order, which verify accepts: one
    byte string verifies for every message *)
Theorem C126_refuted_small_order : forall C, c25519_ok C -> (forall P, byte_list (e_compress C P)) -> exists pk, forall s, 0 <= s < eL C -> exists sig, forall message, ed_verify C message sig pk = Ok true.
Proof.
  intros C HC HB. pose proof (c_group C HC) as HG. exists (e_compress C g0). intros s Hs. exists (e_compress C (gmul s (eB C)) ++ le_bytes 32 s). intros message. apply (C126_verify_exact C HC).
  - apply Forall_app. split; [apply HB|apply le_bytes_range].
  - exists g0, (e_compress C (gmul s (eB C))), s. rewrite !(c_len C HC), (c_dec C HC). repeat split; auto; try lia. f_equal.
    rewrite (zg_gmul_g0 _ HG), (zg_neg_mul _ HG), (zg_gmul_g0 _ HG), (zg_comm _ HG _ g0), (zg_0 _ HG). reflexivity.
Qed.
(** refuted: the two halves of a private key are not compared: signing one message under a private
    key with the same first half and two different second halves gives away the secret scalar *)
Theorem C126_refuted_halves_checked : forall C, c25519_ok C -> forall secret P1 P2 message, length secret = 32%nat ->
  exists R s1 s2, ed_sign C message (secret ++ e_compress C P1) = Ok (R ++ le_bytes 32 s1) /\ ed_sign C message (secret ++ e_compress C P2) = Ok (R ++ le_bytes 32 s2) /\
  let k1 := ed_hash C (R ++ e_compress C P1 ++ message) in let k2 := ed_hash C (R ++ e_compress C P2 ++ message) in
  forall i, (i * (k1 - k2)) mod eL C = 1 -> ed_public C secret = e_compress C (gmul ((i * (s1 - s2)) mod eL C) (eB C)).
Proof.
  intros C HC secret P1 P2 message L. pose proof (c_order C HC) as (OL & OB). pose proof (c_group C HC) as HG. unfold ed_sign. rewrite !(matched_keypair C HC) by exact L. unfold ed_sign_raw. cbv zeta.
  set (r := ed_hash C (ed_prefix C secret ++ message)). set (R := e_compress C (gmul r (eB C))). do 3 eexists. split; [reflexivity|]. split; [reflexivity|]. intros i Hi. unfold ed_public. f_equal. rewrite (zg_mod _ HG _ _ OB) by lia. apply (zg_cong _ HG _ _ OB).
  set (k1 := ed_hash C (R ++ e_compress C P1 ++ message)) in *. set (k2 := ed_hash C (R ++ e_compress C P2 ++ message)) in *. set (a := ed_scalar C secret). set (l := eL C) in *.
  apply Z.mod_divide; [lia|]. pose proof (Z.div_mod (k1 * a + r) l ltac:(lia)) as D1. pose proof (Z.div_mod (k2 * a + r) l ltac:(lia)) as D2. pose proof (Z.div_mod (i * (k1 - k2)) l ltac:(lia)) as D3. rewrite Hi in D3.
  apply Z.mod_divide; [lia|]. exists (i * ((k1 * a + r) / l - (k2 * a + r) / l) - a * ((i * (k1 - k2)) / l)).
  set (q1 := (k1 * a + r) / l) in *. set (q2 := (k2 * a + r) / l) in *. set (q3 := i * (k1 - k2) / l) in *. set (m1 := (k1 * a + r) mod l) in *. set (m2 := (k2 * a + r) mod l) in *.
  replace m1 with (k1 * a + r - l * q1) by lia. replace m2 with (k2 * a + r - l * q2) by lia. replace a with (a * 1) at 1 by lia. replace 1 with (i * (k1 - k2) - l * q3) at 1 by lia. ring.
Qed.
(** conversion to key-exchange keys: the converted private key belongs to the converted public key *)
Theorem C126_convert_keys : forall C, c25519_ok C -> forall r o r' ikm pk sk, length r = 32%nat -> (forall s, o <> Some (FromSecretKey s)) ->
  ed_keypair C r o = Ok (pk, sk) \/ expand_keypair C ikm = Ok (pk, sk) ->
  exists xpk xsk, ver_key_to_key_exchange C pk = Ok xpk /\ sign_key_to_key_exchange C sk = Ok xsk /\ x_keypair C r' (Some (FromSecretKey xsk)) = Ok (xpk, xsk).
Proof.
  intros C HC r o r' ikm pk sk Lr N X.
  assert (exists secret, length secret = 32%nat /\ pk = ed_public C secret /\ sk = secret ++ pk) as (secret & L & -> & ->).
  { destruct X as [X|X]; [now apply (ed_kp C HC r o)|now apply (expand_kp C ikm)]. }
  destruct (c_sha512 C HC secret) as (LH & BH). set (h := firstn 32 (sha512 C secret)). assert (length h = 32%nat) as Lh by (unfold h; rewrite firstn_length; lia).
  exists (to_montgomery C (gmul (ed_scalar C secret) (eB C))), (clamp h). unfold ver_key_to_key_exchange, pk_from_bytes, ed_public. rewrite (c_len C HC). cbn [Nat.eqb]. rewrite (c_dec C HC). split; [reflexivity|].
  unfold sign_key_to_key_exchange. rewrite app_length, L. destruct (Nat.ltb_spec (32 + length (e_compress C (gmul (ed_scalar C secret) (eB C)))) 32); [lia|]. rewrite firstn_exact by exact L. split; [reflexivity|].
  unfold x_keypair. rewrite array_ref_exact; [|rewrite clamp_len; [exact Lh|destruct h; discriminate|lia]]. cbn [rbind]. rewrite clamp_clamp by lia. reflexivity.
Qed.
(** [Signer::get_public_key] panics on a private key that [sign] answers with an error *)
Theorem C126_refuted_signer_no_panic : forall C r key message, length key <> 64%nat ->
  signer_sign (ed_sign C) key message = Err KeyGenError /\ signer_public_key (ed_keypair C r) key = Err Panic.
Proof.
  intros C r key message L. unfold signer_sign, signer_public_key, ed_sign, ed_keypair, keypair_from_bytes. rewrite (proj2 (Nat.eqb_neq _ _) L). split; reflexivity.
Qed.
