(** Symmetric encryption: C120-C124. *)
From Coq Require Import String.
From Verif Require Import Base SymmModel SymmLib.
Import List ListNotations.
Open Scope list_scope.
Open Scope Z_scope.

(** ** what one algorithm promises: encryption adds [overhead m] bytes, and decryption of an encryption
    gives the message back exactly when it has at least [shortest] bytes *)
Definition aead_ok (a : alg) (shortest : nat) : Prop :=
  forall key nonce aad m c, length nonce = nonce_size a -> encrypt a key nonce aad m = Ok c ->
  decrypt a key nonce aad c = if (shortest <=? length m)%nat then Ok m else Err GeneralError.

Section Cbc.
Context (E D : bytes -> bytes -> bytes) (mac : bytes -> bytes -> bytes) (kl ks tl : nat)
  (HE : block_cipher E D) (HM : forall k m, length (mac k m) = tl).
Let a := cbc_hmac E D mac kl ks tl.
Lemma cbc_encrypt_eq key nonce aad m : encrypt a key nonce aad m = Ok (cbc_encrypt_vec (E (firstn kl key)) nonce m ++ mac (skipn kl key) (aad ++ nonce ++ cbc_encrypt_vec (E (firstn kl key)) nonce m)).
Proof. reflexivity. Qed.
(** decryption accepts exactly: a body of at least [kl] bytes, a tag that is the MAC of
    aad, nonce and body, and a body that decrypts and unpads *)
Lemma cbc_decrypt_iff key nonce aad c m : decrypt a key nonce aad c = Ok m <->
  exists body tag, c = body ++ tag /\ length tag = tl /\ (kl <= length body)%nat /\ tag = mac (skipn kl key) (aad ++ nonce ++ body) /\
    cbc_decrypt_vec (D (firstn kl key)) nonce body = Some m.
Proof.
  unfold a, cbc_hmac. cbn [decrypt]. split.
  - destruct (Nat.ltb_spec (length c) (tl + kl)) as [|Hl]; [discriminate|]. cbv zeta. destruct (bytes_eqb _ _) eqn:T; [|discriminate]. apply bytes_eqb_iff in T.
    destruct (cbc_decrypt_vec _ _ _) as [p|] eqn:Q; [|discriminate]. intros X. injection X as ->.
    exists (firstn (length c - tl) c), (skipn (length c - tl) c). rewrite firstn_skipn, skipn_length, firstn_length. repeat split; try lia; auto.
  - intros (body & tag & -> & Ht & Hk & Et & Q). rewrite app_length. destruct (Nat.ltb_spec (length body + length tag) (tl + kl)); [lia|]. cbv zeta.
    replace (length body + length tag - tl)%nat with (length body) by lia. rewrite firstn_exact, skipn_exact by reflexivity.
    rewrite (proj2 (bytes_eqb_iff _ _)) by congruence. now rewrite Q.
Qed.
Lemma cbc_decrypt_err key nonce aad c : (forall m, decrypt a key nonce aad c <> Ok m) -> decrypt a key nonce aad c = Err GeneralError.
Proof.
  unfold a, cbc_hmac. cbn [decrypt]. destruct (_ <? _)%nat; [reflexivity|]. cbv zeta. destruct (bytes_eqb _ _); [|reflexivity]. destruct (cbc_decrypt_vec _ _ _) as [p|]; [|reflexivity]. intros H. now destruct (H p).
Qed.
Lemma HE' key : forall b, length b = 16%nat -> length (E (firstn kl key) b) = 16%nat /\ length (D (firstn kl key) b) = 16%nat /\ D (firstn kl key) (E (firstn kl key) b) = b.
Proof. intros b. apply HE. Qed.
Lemma cbc_direct key nonce aad m c : length nonce = 16%nat -> encrypt a key nonce aad m = Ok c -> length c = (cbc_len m + tl)%nat /\
  decrypt a key nonce aad c = if (kl <=? cbc_len m)%nat then Ok m else Err GeneralError.
Proof.
  intros Hn X. rewrite cbc_encrypt_eq in X. injection X as <-. split; [rewrite app_length, HM, (cbc_vec_len _ _ (HE' key)) by exact Hn; reflexivity|].
  destruct (Nat.leb_spec kl (cbc_len m)) as [L|L].
  - apply cbc_decrypt_iff. do 2 eexists. split; [reflexivity|]. rewrite HM, (cbc_vec_len _ _ (HE' key)), (cbc_vec_roundtrip _ _ (HE' key)) by exact Hn. auto.
  - unfold a, cbc_hmac. cbn [decrypt]. rewrite app_length, HM, (cbc_vec_len _ _ (HE' key)) by exact Hn. rewrite (proj2 (Nat.ltb_lt _ _)) by lia. reflexivity.
Qed.
End Cbc.

Lemma cbc_len16 m : (16 <= cbc_len m)%nat. Proof. unfold cbc_len. lia. Qed.
Lemma cbc_len32 m : (32 <= cbc_len m)%nat <-> (16 <= length m)%nat.
Proof. unfold cbc_len. pose proof (Nat.div_mod (length m) 16 ltac:(lia)). pose proof (Nat.mod_upper_bound (length m) 16 ltac:(lia)). nia. Qed.

Section Spec.
Context (P : prims) (HP : prims_ok P).

(** ** C120: decrypting what was encrypted.  For each algorithm, the length from which messages can be
    decrypted with encrypt/decrypt and a nonce given by the caller. *)
Definition direct_table : list (alg * nat) :=
  [(Aes128CbcHmac256 P, 0%nat); (Aes256CbcHmac512 P, 16%nat); (Aes128Gcm P, 12%nat); (Aes256Gcm P, 12%nat); (ChaCha20Poly1305 P, 0%nat); (XChaCha20Poly1305 P, 0%nat)].
(** the length of the encryption of a message, without the nonce *)
Definition sealed_len (a : alg) (m : bytes) (c : bytes) : Prop := (length m + tag_size a <= length c <= length m + 16 + tag_size a)%nat.

Lemma gcm_direct ks key nonce aad m c : encrypt (gcm P ks) key nonce aad m = Ok c -> length c = (length m + 16)%nat /\ decrypt (gcm P ks) key nonce aad c = if (12 <=? length m)%nat then Ok m else Err GeneralError.
Proof.
  unfold gcm. cbn [encrypt decrypt]. unfold of_option. destruct (gcm_seal P key nonce aad m) as [x|] eqn:Q; [|discriminate]. intros X. injection X as ->.
  destruct (ok_gcm P HP _ _ _ _ _ Q) as (L & O). split; [exact L|]. rewrite L, O. destruct (Nat.leb_spec 12 (length m)); destruct (Nat.ltb_spec (length m + 16) (16 + 12)); try lia; reflexivity.
Qed.
Lemma chacha_direct key nonce aad m c : encrypt (ChaCha20Poly1305 P) key nonce aad m = Ok c -> length c = (length m + 16)%nat /\ decrypt (ChaCha20Poly1305 P) key nonce aad c = Ok m.
Proof. cbn [encrypt decrypt ChaCha20Poly1305]. unfold of_option. destruct (chacha_seal P key nonce aad m) as [x|] eqn:Q; [|discriminate]. intros X. injection X as ->. destruct (ok_chacha P HP _ _ _ _ _ Q) as (L & ->). auto. Qed.
Lemma xchacha_direct key nonce aad m c : encrypt (XChaCha20Poly1305 P) key nonce aad m = Ok c -> length c = (length m + 16)%nat /\ decrypt (XChaCha20Poly1305 P) key nonce aad c = Ok m.
Proof. cbn [encrypt decrypt XChaCha20Poly1305]. unfold of_option. destruct (xchacha_seal P key nonce aad m) as [x|] eqn:Q; [|discriminate]. intros X. injection X as ->. destruct (ok_xchacha P HP _ _ _ _ _ Q) as (L & ->). auto. Qed.

Lemma direct : forall a k, In (a, k) direct_table -> forall key nonce aad m c, length nonce = nonce_size a -> encrypt a key nonce aad m = Ok c ->
  sealed_len a m c /\ decrypt a key nonce aad c = if (k <=? length m)%nat then Ok m else Err GeneralError.
Proof.
  intros a k H key nonce aad m c Hn X. unfold sealed_len.
  assert (length m < cbc_len m <= length m + 16)%nat as CL by (unfold cbc_len; pose proof (Nat.div_mod (length m) 16 ltac:(lia)); pose proof (Nat.mod_upper_bound (length m) 16 ltac:(lia)); lia).
  cbn [In direct_table] in H. destruct H as [H|[H|[H|[H|[H|[H|[]]]]]]]; injection H as <- <-.
  - destruct (cbc_direct _ _ _ _ _ _ (ok_aes128 P HP) (ok_hmac256 P HP) key nonce aad m c Hn X) as (L & R). change (cbc_hmac _ _ _ _ _ _) with (Aes128CbcHmac256 P) in R. split; [cbn [tag_size Aes128CbcHmac256 cbc_hmac]; lia|].
    rewrite R. rewrite (proj2 (Nat.leb_le _ _) (cbc_len16 m)). reflexivity.
  - destruct (cbc_direct _ _ _ _ _ _ (ok_aes256 P HP) (ok_hmac512 P HP) key nonce aad m c Hn X) as (L & R). change (cbc_hmac _ _ _ _ _ _) with (Aes256CbcHmac512 P) in R. split; [cbn [tag_size Aes256CbcHmac512 cbc_hmac]; lia|].
    rewrite R. pose proof (cbc_len32 m). destruct (Nat.leb_spec 32 (cbc_len m)); destruct (Nat.leb_spec 16 (length m)); try lia; reflexivity.
  - destruct (gcm_direct _ _ _ _ _ _ X) as (L & R). split; [cbn [tag_size Aes128Gcm gcm]; lia|exact R].
  - destruct (gcm_direct _ _ _ _ _ _ X) as (L & R). split; [cbn [tag_size Aes256Gcm gcm]; lia|exact R].
  - destruct (chacha_direct _ _ _ _ _ X) as (L & R). split; [cbn [tag_size ChaCha20Poly1305]; lia|exact R].
  - destruct (xchacha_direct _ _ _ _ _ X) as (L & R). split; [cbn [tag_size XChaCha20Poly1305]; lia|exact R].
Qed.
End Spec.

Theorem C120_direct : forall P, prims_ok P -> forall a shortest, In (a, shortest) (direct_table P) -> forall key nonce aad m c,
  length nonce = nonce_size a -> encrypt a key nonce aad m = Ok c ->
  sealed_len a m c /\
  ((shortest <= length m)%nat -> decrypt a key nonce aad c = Ok m) /\
  ((length m < shortest)%nat -> decrypt a key nonce aad c = Err GeneralError).
Proof.
  intros P HP a k Ha key nonce aad m c Hn X. destruct (direct P HP a k Ha key nonce aad m c Hn X) as (L & R). split; [exact L|]. rewrite R.
  split; intros H; [now rewrite (proj2 (Nat.leb_le _ _))|now rewrite (proj2 (Nat.leb_gt _ _))].
Qed.
(** AES-256-CBC-HMAC-512 and AES-GCM: encryption of a short message succeeds, decryption never *)
Theorem C120_refuted_roundtrip : forall P, prims_ok P -> forall key nonce aad m,
  ((length m < 16)%nat -> length nonce = 16%nat -> exists c, encrypt (Aes256CbcHmac512 P) key nonce aad m = Ok c /\ decrypt (Aes256CbcHmac512 P) key nonce aad c = Err GeneralError) /\
  ((length m < 12)%nat -> length nonce = 12%nat -> forall a c, a = Aes128Gcm P \/ a = Aes256Gcm P -> encrypt a key nonce aad m = Ok c -> decrypt a key nonce aad c = Err GeneralError).
Proof.
  intros P HP key nonce aad m. split.
  - intros Hm Hn. eexists. split; [reflexivity|]. refine (proj2 (proj2 (C120_direct P HP (Aes256CbcHmac512 P) 16%nat _ key nonce aad m _ Hn eq_refl)) Hm). right. now left.
  - intros Hm Hn a c [-> | ->] X.
    + refine (proj2 (proj2 (C120_direct P HP (Aes128Gcm P) 12%nat _ key nonce aad m c Hn X)) Hm). do 2 right. now left.
    + refine (proj2 (proj2 (C120_direct P HP (Aes256Gcm P) 12%nat _ key nonce aad m c Hn X)) Hm). do 3 right. now left.
Qed.

(** ** C121: encrypt_easy and decrypt_easy, which carry the nonce in front *)
Definition easy_table (P : prims) : list (alg * nat) :=
  [(Aes128CbcHmac256 P, 0%nat); (Aes256CbcHmac512 P, 16%nat); (Aes128Gcm P, 12%nat); (Aes256Gcm P, 12%nat); (ChaCha20Poly1305 P, 8%nat); (XChaCha20Poly1305 P, 8%nat)].
Lemma easy_shape a key nonce aad c : length nonce = nonce_size a -> (nonce_size a <= min_size a)%nat ->
  decrypt_easy a key aad (nonce ++ c) = if (length nonce + length c <? min_size a)%nat then Err GeneralError else decrypt a key nonce aad c.
Proof.
  intros Hn Hm. unfold decrypt_easy. rewrite app_length. destruct (_ <? _)%nat; [reflexivity|].
  unfold slice_to, slice_from. rewrite app_length. rewrite (proj2 (Nat.leb_le _ _)) by lia. cbn [rbind]. rewrite firstn_exact, skipn_exact by exact Hn.
  unfold from_slice. rewrite Hn, Nat.eqb_refl. reflexivity.
Qed.
Theorem C121_easy : forall P, prims_ok P -> forall a shortest, In (a, shortest) (easy_table P) -> forall key nonce aad m c,
  length nonce = nonce_size a -> encrypt_easy a key nonce aad m = Ok c ->
  ((shortest <= length m)%nat -> decrypt_easy a key aad c = Ok m) /\
  ((length m < shortest)%nat -> decrypt_easy a key aad c = Err GeneralError).
Proof.
  intros P HP a k Ha key nonce aad m c Hn X. unfold encrypt_easy in X. destruct (encrypt a key nonce aad m) as [c0|] eqn:Q; [|discriminate]. cbn [rbind] in X. injection X as <-.
  cbn [In easy_table] in Ha.
  assert (forall j, In (a, j) (direct_table P) -> decrypt a key nonce aad c0 = if (j <=? length m)%nat then Ok m else Err GeneralError) as DI by (intros j Hj; exact (proj2 (direct P HP a j Hj key nonce aad m c0 Hn Q))).
  assert ((nonce_size a <= min_size a)%nat) as NM by (destruct Ha as [H|[H|[H|[H|[H|[H|[]]]]]]]; injection H as <- <-; cbn; lia).
  rewrite (easy_shape a key nonce aad c0 Hn NM).
  assert (forall j, In (a, j) (direct_table P) -> sealed_len a m c0) as SL by (intros j Hj; exact (proj1 (direct P HP a j Hj key nonce aad m c0 Hn Q))).
  unfold sealed_len in SL. cbn [In direct_table] in DI, SL.
  destruct Ha as [H|[H|[H|[H|[H|[H|[]]]]]]]; injection H as <- <-.
  - rewrite (DI 0%nat) by auto. specialize (SL 0%nat ltac:(auto)). pose proof (proj1 (cbc_direct _ _ _ _ _ _ (ok_aes128 P HP) (ok_hmac256 P HP) key nonce aad m c0 Hn Q)) as L. pose proof (cbc_len16 m). cbn [tag_size Aes128CbcHmac256 cbc_hmac nonce_size min_size] in *. destruct (Nat.ltb_spec (length nonce + length c0) 48); [lia|]. split; [reflexivity|lia].
  - rewrite (DI 16%nat) by auto. specialize (SL 16%nat ltac:(auto)). cbn [tag_size Aes256CbcHmac512 cbc_hmac nonce_size min_size] in *. destruct (Nat.ltb_spec (length nonce + length c0) 48); [lia|]. split; intros Hs; [now rewrite (proj2 (Nat.leb_le _ _))|now rewrite (proj2 (Nat.leb_gt _ _))].
  - rewrite (DI 12%nat) by auto. destruct (gcm_direct P HP _ _ _ _ _ _ Q) as (L & _). cbn [Aes128Gcm gcm nonce_size min_size] in *. split; intros Hs.
    + destruct (Nat.ltb_spec (length nonce + length c0) 32); [lia|]. now rewrite (proj2 (Nat.leb_le _ _)).
    + destruct (Nat.ltb_spec (length nonce + length c0) 32); [reflexivity|]. now rewrite (proj2 (Nat.leb_gt _ _)).
  - rewrite (DI 12%nat) by auto. destruct (gcm_direct P HP _ _ _ _ _ _ Q) as (L & _). cbn [Aes256Gcm gcm nonce_size min_size] in *. split; intros Hs.
    + destruct (Nat.ltb_spec (length nonce + length c0) 32); [lia|]. now rewrite (proj2 (Nat.leb_le _ _)).
    + destruct (Nat.ltb_spec (length nonce + length c0) 32); [reflexivity|]. now rewrite (proj2 (Nat.leb_gt _ _)).
  - rewrite (DI 0%nat) by auto 10. destruct (chacha_direct P HP _ _ _ _ _ Q) as (L & _). cbn [ChaCha20Poly1305 nonce_size min_size] in *. split; intros Hs; destruct (Nat.ltb_spec (length nonce + length c0) 36); try lia; reflexivity.
  - rewrite (DI 0%nat) by auto 10. destruct (xchacha_direct P HP _ _ _ _ _ Q) as (L & _). cbn [XChaCha20Poly1305 nonce_size min_size] in *. split; intros Hs; destruct (Nat.ltb_spec (length nonce + length c0) 48); try lia; reflexivity.
Qed.
(** every algorithm but AES-128-CBC-HMAC-256 has messages that can be encrypted and never decrypted *)
Theorem C121_refuted_roundtrip : forall P, prims_ok P -> forall a shortest, In (a, shortest) (tl (easy_table P)) -> forall key nonce aad m c,
  length nonce = nonce_size a -> (length m < 8)%nat -> encrypt_easy a key nonce aad m = Ok c -> decrypt_easy a key aad c = Err GeneralError.
Proof.
  intros P HP a k Ha key nonce aad m c Hn Hm X. refine (proj2 (C121_easy P HP a k _ key nonce aad m c Hn X) _); [right; exact Ha|].
  cbn [tl easy_table In] in Ha. destruct Ha as [H|[H|[H|[H|[H|[]]]]]]; injection H as <- <-; lia.
Qed.
(** the stream functions are the easy functions on the whole stream *)
Theorem C121_buffer : forall a key nonce aad stream writable,
  (forall c, encrypt_buffer a key nonce aad stream writable = Ok c <-> exists p, stream = Some p /\ writable = true /\ encrypt_easy a key nonce aad p = Ok c) /\
  (forall p, decrypt_buffer a key aad stream writable = Ok p <-> exists c, stream = Some c /\ writable = true /\ decrypt_easy a key aad c = Ok p).
Proof.
  intros a key nonce aad stream writable. split; intros x; unfold encrypt_buffer, decrypt_buffer, read_buffer, write_all.
  - destruct stream as [p|]; cbn [rbind]; [|split; [discriminate|intros (q & Q & _); discriminate]]. destruct (encrypt_easy a key nonce aad p) as [c|] eqn:E; cbn [rbind].
    + destruct writable; split; try discriminate; [intros X; injection X as ->; eauto|intros (q & Q & _ & R); injection Q as ->; congruence|intros (q & _ & Q & _); discriminate].
    + split; [discriminate|]. intros (q & Q & _ & R). injection Q as ->. congruence.
  - destruct stream as [p|]; cbn [rbind]; [|split; [discriminate|intros (q & Q & _); discriminate]]. destruct (decrypt_easy a key aad p) as [c|] eqn:E; cbn [rbind].
    + destruct writable; split; try discriminate; [intros X; injection X as ->; eauto|intros (q & Q & _ & R); injection Q as ->; congruence|intros (q & _ & Q & _); discriminate].
    + split; [discriminate|]. intros (q & Q & _ & R). injection Q as ->. congruence.
Qed.
