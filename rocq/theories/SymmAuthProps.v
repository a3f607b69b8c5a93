(** Symmetric encryption: what AES-CBC-HMAC authenticates (C122), panics and errors (C123), the C and
    WebAssembly interfaces (C124). *)
From Coq Require Import String.
From Verif Require Import Base SymmModel SymmLib SymmProps.
Import List ListNotations.
Open Scope list_scope.
Open Scope Z_scope.

(** ** C122 *)
(** a collision of the MAC under one key *)
Definition mac_collision (mac : bytes -> bytes -> bytes) (k : bytes) : Prop := exists x y, x <> y /\ mac k x = mac k y.
(** the last [n] bytes *)
Definition last_bytes (n : nat) (l : bytes) : bytes := skipn (length l - n) l.

Lemma dec_some (D1 : bytes -> bytes) iv body m : cbc_decrypt_vec D1 iv body = Some m -> exists k, length body = (16 * k)%nat /\ pkcs7_unpad (cbc_dec D1 iv (blocks_of k body)) = Some m.
Proof.
  unfold cbc_decrypt_vec. destruct (Nat.eqb_spec (length body mod 16) 0) as [M|]; cbn [negb]; [|discriminate]. intros X. exists (length body / 16)%nat. split; [|exact X].
  pose proof (Nat.div_mod (length body) 16 ltac:(lia)). lia.
Qed.

Section Auth.
Context (E D : bytes -> bytes -> bytes) (mac : bytes -> bytes -> bytes) (kl ks tl : nat)
  (HE : block_cipher E D) (HM : forall k m, length (mac k m) = tl) (HK : (kl = 16 \/ kl = 32)%nat) (HT : (16 <= tl)%nat).
Let a := cbc_hmac E D mac kl ks tl.

Lemma easy_cut key aad c m : decrypt_easy a key aad c = Ok m ->
  exists nonce body tag, c = nonce ++ body ++ tag /\ length nonce = 16%nat /\ length tag = tl /\ (kl <= length body)%nat /\
    tag = mac (skipn kl key) (aad ++ nonce ++ body) /\ cbc_decrypt_vec (D (firstn kl key)) nonce body = Some m.
Proof.
  intros X. unfold decrypt_easy in X. cbn [min_size nonce_size a cbc_hmac] in X. destruct (Nat.ltb_spec (length c) 48) as [|Hl]; [discriminate|].
  unfold slice_to, slice_from in X. cbn [nonce_size cbc_hmac a] in X. rewrite (proj2 (Nat.leb_le _ _)) in X by lia. cbn [rbind] in X. unfold from_slice in X. rewrite firstn_length in X.
  replace (Nat.min 16 (length c)) with 16%nat in X by lia. cbn [Nat.eqb rbind] in X.
  apply (cbc_decrypt_iff E D mac kl ks tl) in X. destruct X as (body & tag & Ec & Ht & Hb & Et & Q).
  exists (firstn 16 c), body, tag. rewrite <- Ec, firstn_skipn, firstn_length. repeat split; auto; lia.
Qed.
Lemma easy_join key aad nonce body m : length nonce = 16%nat -> (kl <= length body)%nat -> cbc_decrypt_vec (D (firstn kl key)) nonce body = Some m ->
  decrypt_easy a key aad (nonce ++ body ++ mac (skipn kl key) (aad ++ nonce ++ body)) = Ok m.
Proof.
  intros Hn Hb Q. rewrite (easy_shape a) by (cbn [a cbc_hmac nonce_size min_size]; lia). rewrite app_length, HM. cbn [a cbc_hmac min_size].
  destruct (Nat.ltb_spec (length nonce + (length body + tl)) 48); [lia|]. apply (cbc_decrypt_iff E D mac kl ks tl). do 2 eexists. split; [reflexivity|]. rewrite HM. auto.
Qed.

(** dropping blocks in front *)
Lemma drop_front key nonce k body j nonce' body' m : length nonce = 16%nat -> length body = (16 * k)%nat -> (j < k)%nat -> nonce' = firstn 16 (skipn (16 * j) (nonce ++ body)) -> body' = skipn (16 + 16 * j) (nonce ++ body) ->
  cbc_dec (D key) nonce (blocks_of k body) = pkcs7_pad m -> exists x m', m = x ++ m' /\ length x = (16 * j)%nat /\ cbc_decrypt_vec (D key) nonce' body' = Some m'.
Proof.
  intros Hn Hb Hj -> -> X.
  set (l := nonce ++ body) in *. assert (length l = (16 * S k)%nat) as Ll by (unfold l; rewrite app_length; lia).
  set (y := firstn (16 * S j) l). set (r := skipn (16 * S j) l). assert (l = y ++ r) as El by (unfold y, r; symmetry; apply firstn_skipn).
  assert (length y = (16 * S j)%nat) as Ly by (unfold y; rewrite firstn_length; lia). assert (length r = (16 * (k - j))%nat) as Lr by (unfold r; rewrite skipn_length; lia).
  assert (firstn 16 (skipn (16 * j) l) = skipn (16 * j) y) as En.
  { rewrite El at 1. rewrite skipn_app. replace (16 * j - length y)%nat with 0%nat by lia. cbn [skipn]. apply firstn_exact. rewrite skipn_length. lia. }
  replace (16 + 16 * j)%nat with (16 * S j)%nat by lia. fold r. rewrite En.
  destruct (cbc_dec_suffix (E key) (D key) (HE key) j y (k - j) r (skipn (16 * j) y) Ly Lr (eq_sym (firstn_skipn _ _))) as (x & Lx & Ex); [rewrite skipn_length; lia|].
  rewrite <- El in Ex. replace (j + (k - j))%nat with k in Ex by lia. assert (firstn 16 y = nonce) as E1. { assert (firstn 16 l = firstn 16 y) as Q. { rewrite El at 1. rewrite firstn_app. replace (16 - length y)%nat with 0%nat by lia. cbn [firstn]. apply app_nil_r. } rewrite <- Q. unfold l. now apply firstn_exact. }
  rewrite E1 in Ex. unfold l in Ex. rewrite skipn_exact in Ex by exact Hn. rewrite X in Ex.
  assert (length (cbc_dec (D key) (skipn (16 * j) y) (blocks_of (k - j) r)) = (16 * (k - j))%nat) as Ld by (apply (cbc_dec_len (E key) (D key) (HE key)); [rewrite skipn_length; lia|exact Lr]).
  pose proof (pad_len_range m) as PR. rewrite pad_eq in Ex. pose proof (f_equal (@length Z) Ex) as LE. rewrite !app_length, repeat_length, Ld, Lx in LE.
  exists x, (skipn (16 * j) m). assert (x = firstn (16 * j) m) as E3. { pose proof (f_equal (firstn (16 * j)) Ex) as F. rewrite (firstn_exact (16 * j) x) in F by exact Lx. rewrite firstn_app in F. replace (16 * j - length m)%nat with 0%nat in F by lia. cbn [firstn] in F. rewrite app_nil_r in F. auto. }
  split; [rewrite E3; symmetry; apply firstn_skipn|]. split; [exact Lx|].
  unfold cbc_decrypt_vec. rewrite Lr, mod16, div16. cbn [Nat.eqb negb].
  pose proof (f_equal (skipn (16 * j)) Ex) as F. rewrite (skipn_exact (16 * j) x) in F by exact Lx. rewrite skipn_app in F. replace (16 * j - length m)%nat with 0%nat in F by lia. cbn [skipn] in F. rewrite <- F. now apply unpad_gen.
Qed.

(** from an encryption of [m] under aad, the same tag authenticates aad extended by the nonce, with
    the first block of the ciphertext as nonce: the first 16 bytes of the message are cut off *)
Lemma shift_forward key nonce aad m c : length nonce = 16%nat -> (kl <= length m)%nat -> encrypt_easy a key nonce aad m = Ok c ->
  decrypt_easy a key (aad ++ nonce) (skipn 16 c) = Ok (skipn 16 m).
Proof.
  intros Hn Hm X. unfold encrypt_easy in X. cbn [encrypt a cbc_hmac rbind] in X. injection X as <-. rewrite skipn_exact by exact Hn.
  set (body := cbc_encrypt_vec (E (firstn kl key)) nonce m).
  assert (length body = cbc_len m) as Lb by (apply (cbc_vec_len _ _ (HE (firstn kl key))); exact Hn).
  destruct (drop_front (firstn kl key) nonce (length m / 16 + 1) body 1 (firstn 16 body) (skipn 16 body) m Hn Lb) as (x & m' & Em & Lx & Q).
  - pose proof (Nat.div_le_mono 16 (length m) 16 ltac:(lia) ltac:(lia)) as H. change (16 / 16)%nat with 1%nat in H. lia.
  - rewrite skipn_exact by exact Hn. reflexivity.
  - rewrite <- skipn_skipn'. rewrite skipn_exact by exact Hn. reflexivity.
  - pose proof (cbc_vec_dec _ _ (HE (firstn kl key)) nonce m Hn) as H. fold body in H. rewrite Lb in H. unfold cbc_len in H. rewrite div16 in H. exact H.
  - subst m. rewrite skipn_exact by lia. rewrite <- (firstn_skipn 16 body) at 1. rewrite <- app_assoc.
    replace (aad ++ nonce ++ body) with ((aad ++ nonce) ++ firstn 16 body ++ skipn 16 body) by (rewrite firstn_skipn, app_assoc; reflexivity).
    apply easy_join; [|rewrite skipn_length|exact Q].
    + rewrite firstn_length, Lb. pose proof (cbc_len16 (x ++ m')). lia.
    + rewrite Lb. unfold cbc_len. rewrite app_length in *. pose proof (Nat.div_mod (length x + length m') 16 ltac:(lia)). pose proof (Nat.mod_upper_bound (length x + length m') 16 ltac:(lia)).
      destruct HK as [-> | ->]; nia.
Qed.
(** the other way round: the last 16 bytes of the aad become the nonce and the nonce becomes the first
    block: a block the attacker can compute differences of is put in front of the message *)
Lemma shift_back key nonce aad n' m c : length nonce = 16%nat -> length n' = 16%nat -> (kl <= 16 + cbc_len m)%nat -> encrypt_easy a key nonce (aad ++ n') m = Ok c ->
  decrypt_easy a key aad (n' ++ c) = Ok (xor_block (D (firstn kl key) nonce) n' ++ m).
Proof.
  intros Hn Hn' Hm X. unfold encrypt_easy in X. cbn [encrypt a cbc_hmac rbind] in X. injection X as <-.
  set (body := cbc_encrypt_vec (E (firstn kl key)) nonce m).
  assert (length body = cbc_len m) as Lb by (apply (cbc_vec_len _ _ (HE (firstn kl key))); exact Hn).
  replace (n' ++ nonce ++ body ++ mac (skipn kl key) ((aad ++ n') ++ nonce ++ body)) with (n' ++ (nonce ++ body) ++ mac (skipn kl key) (aad ++ n' ++ (nonce ++ body))) by (rewrite <- !app_assoc; reflexivity).
  apply easy_join; [exact Hn'|rewrite app_length; lia|]. unfold cbc_decrypt_vec. rewrite app_length, Lb, Hn. unfold cbc_len. replace (16 + 16 * (length m / 16 + 1))%nat with (16 * S (length m / 16 + 1))%nat by lia.
  rewrite mod16, div16. cbn [Nat.eqb negb]. rewrite blocks_app by exact Hn. cbn [cbc_dec].
  pose proof (cbc_vec_dec _ _ (HE (firstn kl key)) nonce m Hn) as H. fold body in H. rewrite Lb in H. unfold cbc_len in H. rewrite div16 in H. rewrite H. apply unpad_pad_app.
Qed.

(** and nothing else is accepted with that tag, unless the MAC collides *)
Lemma only_shifts key nonce aad m c aad' c' m' : length nonce = 16%nat -> encrypt_easy a key nonce aad m = Ok c -> decrypt_easy a key aad' c' = Ok m' ->
  last_bytes tl c' = last_bytes tl c -> mac_collision mac (skipn kl key) \/
  (aad' ++ c' = aad ++ c /\ exists x, (length x mod 16 = 0)%nat /\
     ((m = x ++ m' /\ length aad' = length aad + length x)%nat \/ (m' = x ++ m /\ length aad = length aad' + length x)%nat)).
Proof.
  intros Hn X Y T. unfold encrypt_easy in X. cbn [encrypt a cbc_hmac rbind] in X. injection X as <-.
  set (body := cbc_encrypt_vec (E (firstn kl key)) nonce m) in *.
  assert (length body = cbc_len m) as Lb by (apply (cbc_vec_len _ _ (HE (firstn kl key))); exact Hn).
  destruct (easy_cut _ _ _ _ Y) as (n' & b' & tag & -> & Hn' & Ht & Hb' & Et & Q).
  assert (forall (x y z : bytes), length z = tl -> last_bytes tl (x ++ y ++ z) = z) as LB.
  { intros x y z Hz. unfold last_bytes. rewrite app_assoc, app_length. apply skipn_exact. lia. }
  rewrite !LB in T by (auto; apply HM). rewrite T in Et |- *.
  destruct (list_eq_dec Z.eq_dec (aad ++ nonce ++ body) (aad' ++ n' ++ b')) as [SE|SE]; [right|left; exists (aad ++ nonce ++ body), (aad' ++ n' ++ b'); auto].
  split; [rewrite !app_assoc in *; now rewrite SE|].
  destruct (dec_some _ _ _ _ Q) as (k' & Lb' & Q').
  pose proof (f_equal (@length Z) SE) as LS. rewrite !app_length, Lb, Lb', Hn, Hn' in LS. unfold cbc_len in Lb, LS.
  pose proof (cbc_vec_dec _ _ (HE (firstn kl key)) nonce m Hn) as H. fold body in H. rewrite Lb, div16 in H.
  assert (1 <= k')%nat as Hk'. { destruct HK; lia. }
  set (k := (length m / 16 + 1)%nat) in *.
  destruct (Nat.le_ge_cases (length aad) (length aad')) as [C|C].
  - set (j := (k - k')%nat). assert (length aad' = length aad + 16 * j)%nat as La by (unfold j; lia).
    assert (aad' = aad ++ firstn (16 * j) (nonce ++ body)) as Ea. { pose proof (f_equal (firstn (length aad')) SE) as F. rewrite (firstn_exact (length aad') aad') in F by reflexivity. rewrite <- F. rewrite firstn_app. rewrite firstn_all2 by lia. f_equal. f_equal. lia. }
    assert (n' ++ b' = skipn (16 * j) (nonce ++ body)) as En. { pose proof (f_equal (skipn (length aad')) SE) as F. rewrite (skipn_exact (length aad') aad') in F by reflexivity. rewrite <- F. rewrite skipn_app. rewrite skipn_all2 by lia. cbn [app]. f_equal. lia. }
    destruct (drop_front (firstn kl key) nonce k body j n' b' m Hn Lb) as (x & m0 & Em & Lx & R).
    + unfold j. lia.
    + rewrite <- En. symmetry. now apply firstn_exact.
    + replace (16 + 16 * j)%nat with (16 * j + 16)%nat by lia. rewrite <- skipn_skipn', <- En. symmetry. now apply skipn_exact.
    + exact H.
    + rewrite Q in R. injection R as <-. exists x. rewrite Lx, mod16. split; [reflexivity|]. left. split; [exact Em|exact La].
  - set (j := (k' - k)%nat). assert (length aad = length aad' + 16 * j)%nat as La by (unfold j; lia).
    assert (nonce ++ body = skipn (16 * j) (n' ++ b')) as En. { pose proof (f_equal (skipn (length aad)) SE) as F. rewrite (skipn_exact (length aad) aad) in F by reflexivity. rewrite F. rewrite skipn_app. rewrite skipn_all2 by lia. cbn [app]. f_equal. lia. }
    set (y := firstn (16 * j) (n' ++ b') ++ nonce).
    assert (length (n' ++ b') = (16 * S k')%nat) as Lnb by (rewrite app_length; lia).
    assert (n' ++ b' = y ++ body) as Ey. { unfold y. rewrite <- app_assoc, En. symmetry. apply firstn_skipn. }
    assert (length y = (16 * S j)%nat) as Ly. { unfold y. rewrite app_length, firstn_length, Lnb, Hn. unfold j. lia. }
    destruct (cbc_dec_suffix (E (firstn kl key)) (D (firstn kl key)) (HE (firstn kl key)) j y k body nonce Ly Lb) as (x & Lx & Ex).
    + unfold y. f_equal. symmetry. apply firstn_exact. rewrite firstn_length, Lnb. unfold j. lia.
    + exact Hn.
    + rewrite <- Ey in Ex. rewrite skipn_exact in Ex by exact Hn'.
      assert (firstn 16 y = n') as E1. { assert (firstn 16 (y ++ body) = firstn 16 y) as Q1. { rewrite firstn_app. replace (16 - length y)%nat with 0%nat by lia. cbn [firstn]. apply app_nil_r. } rewrite <- Q1, <- Ey. now apply firstn_exact. }
      rewrite E1 in Ex. replace (j + k)%nat with k' in Ex by (unfold j; lia). rewrite Ex, H, unpad_pad_app in Q'. injection Q' as <-.
      exists x. rewrite Lx, mod16. split; [reflexivity|]. right. split; [reflexivity|exact La].
Qed.
End Auth.

(** the two algorithms, with their MAC, the length of the encryption half of the key and of the tag *)
Definition cbc_alg (P : prims) (a : alg) (mac : bytes -> bytes -> bytes) (kl tl : nat) : Prop :=
  (a = Aes128CbcHmac256 P /\ mac = hmac_sha256 P /\ kl = 16%nat /\ tl = 32%nat) \/ (a = Aes256CbcHmac512 P /\ mac = hmac_sha512 P /\ kl = 32%nat /\ tl = 64%nat).

(** what is accepted ends with the MAC, under the second part of the key, of the aad followed by
    everything in front of the tag *)
Theorem C122_tag_checked : forall P, prims_ok P -> forall a mac kl tl, cbc_alg P a mac kl tl -> forall key aad c m, decrypt_easy a key aad c = Ok m ->
  exists b, c = b ++ mac (skipn kl key) (aad ++ b) /\ (16 + kl <= length b)%nat /\ (length b mod 16 = 0)%nat.
Proof.
  intros P HP a mac kl tl A key aad c m X.
  assert (exists nonce body tag, c = nonce ++ body ++ tag /\ length nonce = 16%nat /\ length tag = tl /\ (kl <= length body)%nat /\ tag = mac (skipn kl key) (aad ++ nonce ++ body) /\ exists D1, cbc_decrypt_vec D1 nonce body = Some m) as (n & b & t & -> & Hn & Ht & Hb & -> & D1 & Q).
  { destruct A as [(-> & -> & -> & ->)|(-> & -> & -> & ->)]; [destruct (easy_cut _ _ _ 16 32 32 ltac:(auto) ltac:(lia) key aad c m X) as (n & b & t & ?)|destruct (easy_cut _ _ _ 32 64 64 ltac:(auto) ltac:(lia) key aad c m X) as (n & b & t & ?)]; exists n, b, t; intuition eauto. }
  apply dec_some in Q. destruct Q as (k & L & _). exists (n ++ b). rewrite <- app_assoc, app_length, Hn. split; [reflexivity|]. split; [lia|]. rewrite L. replace (16 + 16 * k)%nat with (16 * S k)%nat by lia. apply mod16.
Qed.
(** with an aad of the same length, the tag of an encryption authenticates that encryption only *)
Theorem C122_same_length_aad : forall P, prims_ok P -> forall a mac kl tl, cbc_alg P a mac kl tl -> forall key nonce aad m c aad' c' m', length nonce = 16%nat ->
  encrypt_easy a key nonce aad m = Ok c -> decrypt_easy a key aad' c' = Ok m' -> last_bytes tl c' = last_bytes tl c -> length aad' = length aad ->
  mac_collision mac (skipn kl key) \/ (aad' = aad /\ c' = c /\ m' = m).
Proof.
  intros P HP a mac kl tl A key nonce aad m c aad' c' m' Hn X Y T L.
  assert (mac_collision mac (skipn kl key) \/ (aad' ++ c' = aad ++ c /\ exists x, (length x mod 16 = 0)%nat /\ ((m = x ++ m' /\ length aad' = length aad + length x)%nat \/ (m' = x ++ m /\ length aad = length aad' + length x)%nat))) as [|(S & x & _ & [(E1 & E2)|(E1 & E2)])].
  { destruct A as [(-> & -> & -> & ->)|(-> & -> & -> & ->)].
    - apply (only_shifts _ _ _ 16 32 32 (ok_aes128 P HP) (ok_hmac256 P HP) ltac:(auto) ltac:(lia) key nonce aad m c aad' c' m'); auto.
    - apply (only_shifts _ _ _ 32 64 64 (ok_aes256 P HP) (ok_hmac512 P HP) ltac:(auto) ltac:(lia) key nonce aad m c aad' c' m'); auto. }
  - now left.
  - right. destruct x; cbn [length] in E2; [|lia]. cbn [app] in E1. apply app_inv_len in S; [|exact L]. destruct S as (-> & ->). auto.
  - right. destruct x; cbn [length] in E2; [|lia]. cbn [app] in E1. apply app_inv_len in S; [|exact L]. destruct S as (-> & ->). auto.
Qed.
(** in general: aad and ciphertext are concatenated without a separator, and only shifts between
    them, by whole blocks, are accepted *)
Theorem C122_only_shifts : forall P, prims_ok P -> forall a mac kl tl, cbc_alg P a mac kl tl -> forall key nonce aad m c aad' c' m', length nonce = 16%nat ->
  encrypt_easy a key nonce aad m = Ok c -> decrypt_easy a key aad' c' = Ok m' -> last_bytes tl c' = last_bytes tl c ->
  mac_collision mac (skipn kl key) \/
  (aad' ++ c' = aad ++ c /\ exists x, (length x mod 16 = 0)%nat /\ ((m = x ++ m' /\ length aad' = length aad + length x)%nat \/ (m' = x ++ m /\ length aad = length aad' + length x)%nat)).
Proof.
  intros P HP a mac kl tl A key nonce aad m c aad' c' m' Hn X Y T. destruct A as [(-> & -> & -> & ->)|(-> & -> & -> & ->)].
  - apply (only_shifts _ _ _ 16 32 32 (ok_aes128 P HP) (ok_hmac256 P HP) ltac:(auto) ltac:(lia) key nonce aad m c aad' c' m'); auto.
  - apply (only_shifts _ _ _ 32 64 64 (ok_aes256 P HP) (ok_hmac512 P HP) ltac:(auto) ltac:(lia) key nonce aad m c aad' c' m'); auto.
Qed.
(** and these shifts are accepted: without the key, from one encryption, a ciphertext of the message
    without its first 16 bytes under the aad extended by the nonce ... *)
Theorem C122_refuted_truncation : forall P, prims_ok P -> forall a mac kl tl, cbc_alg P a mac kl tl -> forall key nonce aad m c, length nonce = 16%nat -> (kl <= length m)%nat ->
  encrypt_easy a key nonce aad m = Ok c -> decrypt_easy a key (aad ++ nonce) (skipn 16 c) = Ok (skipn 16 m).
Proof.
  intros P HP a mac kl tl A key nonce aad m c Hn Hm X. destruct A as [(-> & -> & -> & ->)|(-> & -> & -> & ->)].
  - apply (shift_forward _ _ _ 16 32 32 (ok_aes128 P HP) (ok_hmac256 P HP) ltac:(auto) ltac:(lia)); auto.
  - apply (shift_forward _ _ _ 32 64 64 (ok_aes256 P HP) (ok_hmac512 P HP) ltac:(auto) ltac:(lia)); auto.
Qed.
(** ... and one of a longer message under the aad without its last 16 bytes *)
Theorem C122_refuted_extension : forall P, prims_ok P -> forall a mac kl tl, cbc_alg P a mac kl tl -> forall key nonce aad n' m c, length nonce = 16%nat -> length n' = 16%nat ->
  encrypt_easy a key nonce (aad ++ n') m = Ok c -> exists x, length x = 16%nat /\ decrypt_easy a key aad (n' ++ c) = Ok (x ++ m).
Proof.
  intros P HP a mac kl tl A key nonce aad n' m c Hn Hn' X. pose proof (cbc_len16 m) as L. destruct A as [(-> & -> & -> & ->)|(-> & -> & -> & ->)]; eexists; split.
  2:{ apply (shift_back _ _ _ 16 32 32 (ok_aes128 P HP) (ok_hmac256 P HP) ltac:(auto) ltac:(lia) key nonce aad n' m c Hn Hn'); [lia|exact X]. }
  { apply xor_len; [|exact Hn']. now apply (ok_aes128 P HP). }
  2:{ apply (shift_back _ _ _ 32 64 64 (ok_aes256 P HP) (ok_hmac512 P HP) ltac:(auto) ltac:(lia) key nonce aad n' m c Hn Hn'); [lia|exact X]. }
  { apply xor_len; [|exact Hn']. now apply (ok_aes256 P HP). }
Qed.

(** ** C123: errors and panics *)
Definition all_algs (P : prims) : list alg := map fst (easy_table P).
Lemma direct_error P a key nonce aad c : In a (all_algs P) -> (exists m, decrypt a key nonce aad c = Ok m) \/ decrypt a key nonce aad c = Err GeneralError.
Proof.
  assert (forall o, (exists m, of_option o = Ok m) \/ of_option o = Err GeneralError) as OO by (intros [x|]; [left; now exists x|now right]).
  intros H. cbn [all_algs easy_table map fst In] in H. destruct H as [<-|[<-|[<-|[<-|[<-|[<-|[]]]]]]].
  - unfold Aes128CbcHmac256, cbc_hmac. cbn [decrypt]. destruct (_ <? _)%nat; [now right|]. cbv zeta. destruct (bytes_eqb _ _); [|now right]. destruct (cbc_decrypt_vec _ _ _); [left; eauto|now right].
  - unfold Aes256CbcHmac512, cbc_hmac. cbn [decrypt]. destruct (_ <? _)%nat; [now right|]. cbv zeta. destruct (bytes_eqb _ _); [|now right]. destruct (cbc_decrypt_vec _ _ _); [left; eauto|now right].
  - unfold Aes128Gcm, gcm. cbn [decrypt]. destruct (_ <? _)%nat; [now right|]. apply OO.
  - unfold Aes256Gcm, gcm. cbn [decrypt]. destruct (_ <? _)%nat; [now right|]. apply OO.
  - cbn [decrypt ChaCha20Poly1305]. apply OO.
  - cbn [decrypt XChaCha20Poly1305]. apply OO.
Qed.
Lemma direct_enc_error P a key nonce aad c : In a (all_algs P) -> (exists m, encrypt a key nonce aad c = Ok m) \/ encrypt a key nonce aad c = Err GeneralError.
Proof.
  assert (forall o, (exists m, of_option o = Ok m) \/ of_option o = Err GeneralError) as OO by (intros [x|]; [left; now exists x|now right]).
  intros H. cbn [all_algs easy_table map fst In] in H. destruct H as [<-|[<-|[<-|[<-|[<-|[<-|[]]]]]]]; [left; eexists; reflexivity|left; eexists; reflexivity|apply OO..].
Qed.
Lemma sizes P a : In a (all_algs P) -> (nonce_size a <= min_size a)%nat /\ (1 <= nonce_size a)%nat.
Proof. intros H. cbn [all_algs easy_table map fst In] in H. destruct H as [<-|[<-|[<-|[<-|[<-|[<-|[]]]]]]]; cbn [Aes128CbcHmac256 Aes256CbcHmac512 cbc_hmac Aes128Gcm Aes256Gcm gcm ChaCha20Poly1305 XChaCha20Poly1305 nonce_size min_size]; lia. Qed.
(** decryption of any byte string is a message or the error, never a panic *)
Theorem C123_any_input : forall P a, In a (all_algs P) -> forall key aad c,
  (exists m, decrypt_easy a key aad c = Ok m) \/ decrypt_easy a key aad c = Err GeneralError.
Proof.
  intros P a Ha key aad c. destruct (sizes P a Ha) as (S & _). unfold decrypt_easy. destruct (Nat.ltb_spec (length c) (min_size a)); [now right|].
  unfold slice_to, slice_from. rewrite (proj2 (Nat.leb_le _ _)) by lia. cbn [rbind]. unfold from_slice. rewrite firstn_length. replace (Nat.min (nonce_size a) (length c)) with (nonce_size a) by lia. rewrite Nat.eqb_refl. cbn [rbind].
  now apply (direct_error P).
Qed.
(** functions that return a Result but panic on the length of a key or nonce given by the caller *)
Theorem C123_refuted_no_panic : forall a key nonce aad m, length key <> key_size a -> length nonce <> nonce_size a ->
  new_with_key a key = Err Panic /\ (forall k, encrypt_with_nonce a k nonce aad m = Err Panic) /\ (forall k, decrypt_with_nonce a k nonce aad m = Err Panic).
Proof.
  intros a key nonce aad m Hk Hn. unfold new_with_key, encrypt_with_nonce, decrypt_with_nonce, from_slice.
  rewrite (proj2 (Nat.eqb_neq _ _) Hk), (proj2 (Nat.eqb_neq _ _) Hn). repeat split; intros; reflexivity.
Qed.
(** serialized keys: round trip, and a panic for every hexadecimal string of another length *)
Lemma hex_digit_value d : 0 <= d < 16 -> hex_value (hex_digit d) = Some d.
Proof.
  intros H. unfold hex_digit, hex_value. destruct (Z.ltb_spec d 10).
  - rewrite (proj2 (Z.leb_le 48 _)), (proj2 (Z.leb_le _ 57)) by lia. cbn [andb]. f_equal. lia.
  - rewrite (proj2 (Z.leb_gt (87 + d) 57)) by lia. rewrite andb_false_r. rewrite (proj2 (Z.leb_le 97 _)), (proj2 (Z.leb_le _ 102)) by lia. cbn [andb]. f_equal. lia.
Qed.
Lemma hex_roundtrip l : Forall (fun b => 0 <= b < 256) l -> hex_decode (hex_encode l) = Some l.
Proof.
  induction 1 as [|b l Hb Hl IH]; [reflexivity|]. unfold hex_encode in *. cbn [flat_map app hex_decode]. pose proof (Z.mod_pos_bound b 16 ltac:(lia)). pose proof (Z.div_mod b 16 ltac:(lia)).
  assert (0 <= b / 16 < 16) by (split; [apply Z.div_pos|apply Z.div_lt_upper_bound]; lia). rewrite !hex_digit_value by assumption. rewrite IH. f_equal. f_equal. lia.
Qed.
Theorem C123_serialize : forall a key, Forall (fun b => 0 <= b < 256) key ->
  (length key = key_size a -> deserialize a (serialize key) = Ok key) /\ (length key <> key_size a -> deserialize a (serialize key) = Err Panic).
Proof.
  intros a key Hk. unfold deserialize, serialize. rewrite hex_roundtrip by exact Hk. unfold from_slice. split; intros H; [now rewrite H, Nat.eqb_refl|now rewrite (proj2 (Nat.eqb_neq _ _) H)].
Qed.

(** ** C124: the C interface *)
Theorem C124_names : forall s t, type_from_str s = Some t <-> type_to_string t = s.
Proof.
  intros s t. unfold type_from_str. split.
  - destruct (String.eqb_spec s "aes-128-cbc-hmac-256") as [->|]; [intros X; now injection X as <-|].
    destruct (String.eqb_spec s "aes-256-cbc-hmac-512") as [->|]; [intros X; now injection X as <-|].
    destruct (String.eqb_spec s "aes-128-gcm") as [->|]; [intros X; now injection X as <-|].
    destruct (String.eqb_spec s "aes-256-gcm") as [->|]; [intros X; now injection X as <-|].
    destruct (String.eqb_spec s "xchacha20poly1305") as [->|]; [intros X; now injection X as <-|]. discriminate.
  - intros <-. destruct t; reflexivity.
Qed.
Lemma alg_in P t : In (alg_of P t) (all_algs P).
Proof. destruct t; cbn [alg_of all_algs easy_table map fst In]; auto 10. Qed.
(** every outcome of a call with a valid algorithm string: unknown name 11, wrong key length 8, wrong
    nonce length 9, failed operation [code]; otherwise 1 with the output; never a panic *)
Definition ffi_outcome (P : prims) (code : Z) (s : string) (key nonce : bytes) (has_nonce : bool) (result : alg -> bytes -> res bytes) (r : ffi_result) : Prop :=
  (type_from_str s = None /\ r = mkFfi 0 11 None) \/
  exists t, type_to_string t = s /\ let a := alg_of P t in
    (length key <> key_size a /\ r = mkFfi 0 8 None) \/
    (length key = key_size a /\ has_nonce = true /\ length nonce <> nonce_size a /\ r = mkFfi 0 9 None) \/
    (length key = key_size a /\ (has_nonce = true -> length nonce = nonce_size a) /\
       ((exists out, result a key = Ok out /\ r = mkFfi 1 0 (Some out)) \/ (result a key = Err GeneralError /\ r = mkFfi 0 code None))).
Lemma ffi_gen P op op_easy code s key nonce aad input :
  (forall t k n x y, length n = nonce_size (alg_of P t) -> (exists m, op (alg_of P t) k n x y = Ok m) \/ op (alg_of P t) k n x y = Err GeneralError) ->
  (forall t k x y, (exists m, op_easy (alg_of P t) k x y = Ok m) \/ op_easy (alg_of P t) k x y = Err GeneralError) ->
  exists r, ffi_operation P op op_easy code (Some s) key nonce aad input = Ok r /\
    ffi_outcome P code s (to_vec key) (to_vec nonce) (match nonce with Some _ => true | None => false end)
      (fun a k => match nonce with Some n => op a k n (to_vec aad) (to_vec input) | None => op_easy a k (to_vec aad) (to_vec input) end) r.
Proof.
  intros HO HE. unfold ffi_operation, ffi_outcome. destruct (type_from_str s) as [t|] eqn:Q.
  2:{ eexists. split; [reflexivity|]. left. auto. }
  apply C124_names in Q. unfold is_valid_keysize, gen_encryptor, from_slice. destruct (Nat.eqb_spec (length (to_vec key)) (key_size (alg_of P t))) as [K|K]; cbn [negb].
  2:{ eexists. split; [reflexivity|]. right. exists t. split; [exact Q|]. left. auto. }
  cbn [rbind]. destruct nonce as [n|].
  - rewrite Nat.eqb_sym. destruct (Nat.eqb_spec (length n) (nonce_size (alg_of P t))) as [N|N]; cbn [negb].
    2:{ eexists. split; [reflexivity|]. right. exists t. split; [exact Q|]. right. left. auto. }
    destruct (HO t (to_vec key) n (to_vec aad) (to_vec input) N) as [(m & X)|X]; rewrite X; (eexists; split; [reflexivity|]; right; exists t; split; [exact Q|]; right; right; split; [exact K|]; split; [auto|]).
    + left. eauto.
    + right. auto.
  - destruct (HE t (to_vec key) (to_vec aad) (to_vec input)) as [(m & X)|X]; rewrite X; (eexists; split; [reflexivity|]; right; exists t; split; [exact Q|]; right; right; split; [exact K|]; split; [discriminate|]).
    + left. eauto.
    + right. auto.
Qed.
Theorem C124_decrypt_outcome : forall P s key nonce aad input, exists r, ursa_decrypt P (Some s) key nonce aad input = Ok r /\
  ffi_outcome P 7 s (to_vec key) (to_vec nonce) (match nonce with Some _ => true | None => false end)
    (fun a k => match nonce with Some n => decrypt a k n (to_vec aad) (to_vec input) | None => decrypt_easy a k (to_vec aad) (to_vec input) end) r.
Proof.
  intros P s key nonce aad input.
  destruct (ffi_gen P decrypt_with_nonce decrypt_easy 7 s key nonce aad input) as (r & X & O).
  - intros t k n x y N. unfold decrypt_with_nonce, from_slice. rewrite N, Nat.eqb_refl. cbn [rbind]. apply (direct_error P), alg_in.
  - intros t k x y. apply (C123_any_input P), alg_in.
  - exists r. split; [exact X|]. destruct O as [O|(t & T & O)]; [now left|]. right. exists t. split; [exact T|]. cbv zeta in *. destruct O as [O|[O|(K & N & O)]]; [now left|now right; left|]. right. right. split; [exact K|]. split; [exact N|].
    destruct nonce as [n|]; [|exact O]. unfold decrypt_with_nonce, from_slice in O. cbn [to_vec] in N. rewrite (N eq_refl), Nat.eqb_refl in O. exact O.
Qed.
Theorem C124_encrypt_outcome : forall P draw s key nonce aad input, (forall n, length (draw n) = n) -> exists r, ursa_encrypt P draw (Some s) key nonce aad input = Ok r /\
  ffi_outcome P 6 s (to_vec key) (to_vec nonce) (match nonce with Some _ => true | None => false end)
    (fun a k => match nonce with Some n => encrypt a k n (to_vec aad) (to_vec input) | None => encrypt_easy a k (draw (nonce_size a)) (to_vec aad) (to_vec input) end) r.
Proof.
  intros P draw s key nonce aad input HD.
  destruct (ffi_gen P encrypt_with_nonce (fun a key aad input => encrypt_easy a key (draw (nonce_size a)) aad input) 6 s key nonce aad input) as (r & X & O).
  - intros t k n x y N. unfold encrypt_with_nonce, from_slice. rewrite N, Nat.eqb_refl. cbn [rbind]. apply (direct_enc_error P), alg_in.
  - intros t k x y. unfold encrypt_easy. destruct (direct_enc_error P (alg_of P t) k (draw (nonce_size (alg_of P t))) x y (alg_in P t)) as [(m & E)|E]; rewrite E; cbn [rbind]; [left; eauto|now right].
  - exists r. split; [exact X|]. destruct O as [O|(t & T & O)]; [now left|]. right. exists t. split; [exact T|]. cbv zeta in *. destruct O as [O|[O|(K & N & O)]]; [now left|now right; left|]. right. right. split; [exact K|]. split; [exact N|].
    destruct nonce as [n|]; [|exact O]. unfold encrypt_with_nonce, from_slice in O. cbn [to_vec] in N. rewrite (N eq_refl), Nat.eqb_refl in O. exact O.
Qed.
(** encrypting and decrypting through the C interface with the same arguments: the message comes back
    (return value 1, error 0) or, for the short messages of C120 and C121, error 7 *)
Definition ffi_shortest (t : encryptor_type) (has_nonce : bool) : nat := match t, has_nonce with
  | TAes128CbcHmac256, _ => 0 | TAes256CbcHmac512, _ => 16 | TAes128Gcm, _ | TAes256Gcm, _ => 12 | TXChaCha20Poly1305, true => 0 | TXChaCha20Poly1305, false => 8 end.
Theorem C124_roundtrip : forall P, prims_ok P -> forall draw t key nonce aad m c, (forall n, length (draw n) = n) ->
  ursa_encrypt P draw (Some (type_to_string t)) key nonce aad (Some m) = Ok (mkFfi 1 0 (Some c)) ->
  ursa_decrypt P (Some (type_to_string t)) key nonce aad (Some c) =
    Ok (if (ffi_shortest t (match nonce with Some _ => true | None => false end) <=? length m)%nat then mkFfi 1 0 (Some m) else mkFfi 0 7 None).
Proof.
  intros P HP draw t key nonce aad m c HD X. unfold ursa_encrypt, ursa_decrypt, ffi_operation in *. rewrite (proj2 (C124_names _ t) eq_refl) in *.
  destruct (negb _) eqn:K; [discriminate|]. unfold gen_encryptor, from_slice in *. unfold is_valid_keysize in K. apply negb_false_iff in K. rewrite K in *. cbn [rbind] in *.
  destruct nonce as [n|].
  - destruct (negb _) eqn:N; [discriminate|]. apply negb_false_iff, Nat.eqb_eq in N. unfold encrypt_with_nonce, decrypt_with_nonce, from_slice in *. rewrite <- N, Nat.eqb_refl in *. cbn [rbind to_vec] in *.
    destruct (encrypt _ _ _ _ _) as [c0|e] eqn:Q; [|destruct e; discriminate]. injection X as ->.
    assert (In (alg_of P t, ffi_shortest t true) (direct_table P)) as I by (destruct t; cbn; auto 10).
    rewrite (proj2 (direct P HP _ _ I _ _ _ _ _ (eq_sym N) Q)). destruct (_ <=? _)%nat; reflexivity.
  - destruct (encrypt_easy _ _ _ _ _) as [c0|e] eqn:Q; [|destruct e; discriminate]. cbn [to_vec] in *. injection X as ->.
    assert (In (alg_of P t, ffi_shortest t false) (easy_table P)) as I by (destruct t; cbn; auto 10).
    destruct (C121_easy P HP _ _ I _ _ _ _ _ (HD _) Q) as (A & B). destruct (Nat.leb_spec (ffi_shortest t false) (length m)) as [L|L]; [rewrite A by exact L|rewrite B by exact L]; reflexivity.
Qed.
Theorem C124_refuted_null_algorithm : forall P draw key nonce aad input, ursa_encrypt P draw None key nonce aad input = Err Panic /\ ursa_decrypt P None key nonce aad input = Err Panic.
Proof. split; reflexivity. Qed.
(** the WebAssembly interface *)
Theorem C124_wasm : forall P, prims_ok P -> forall draw name hexkey ck aad m c, (forall n, length (draw n) = n) -> wasm_with_key P name hexkey = Ok ck -> wasm_encrypt P draw ck aad m = Ok c ->
  exists t, type_to_string t = name /\ wasm_decrypt P ck aad c = if (ffi_shortest t false <=? length m)%nat then Ok m else Err GeneralError.
Proof.
  intros P HP draw name hexkey ck aad m c HD W X. unfold wasm_with_key in W. destruct (type_from_str name) as [t|] eqn:T; [|discriminate]. apply C124_names in T.
  destruct (hex_decode hexkey) as [k|] eqn:H; [|discriminate]. destruct (Nat.eqb_spec (key_size (alg_of P t)) (length k)) as [K|]; [|discriminate]. injection W as <-. exists t. split; [exact T|].
  unfold wasm_encrypt, wasm_decrypt, wasm_operation, is_valid_keysize, gen_encryptor, from_slice in *. cbn [w_key w_cipher] in *. rewrite H in *. rewrite K, Nat.eqb_refl in *. cbn [negb rbind] in *.
  assert (In (alg_of P t, ffi_shortest t false) (easy_table P)) as I by (destruct t; cbn; auto 10).
  destruct (C121_easy P HP _ _ I _ _ _ _ _ (HD _) X) as (A & B). destruct (Nat.leb_spec (ffi_shortest t false) (length m)) as [L|L]; [now apply A|now apply B].
Qed.
(** what a name stands for: the algorithm, its key size and its nonce size *)
Definition named_algs (P : prims) : list (string * alg * nat * nat) :=
  [("aes-128-cbc-hmac-256"%string, Aes128CbcHmac256 P, 32, 16); ("aes-256-cbc-hmac-512"%string, Aes256CbcHmac512 P, 64, 16);
   ("aes-128-gcm"%string, Aes128Gcm P, 16, 12); ("aes-256-gcm"%string, Aes256Gcm P, 32, 12); ("xchacha20poly1305"%string, XChaCha20Poly1305 P, 32, 24)]%nat.
Definition ffi_of (code : Z) (r : res bytes) : res ffi_result := match r with Ok out => Ok (mkFfi 1 0 (Some out)) | Err _ => Ok (mkFfi 0 code None) end.
(** every interface runs the algorithm named, under the key given *)
Theorem C124_by_name : forall P name a ks ns, In (name, a, ks, ns) (named_algs P) -> forall draw key nonce aad x, Forall (fun b => 0 <= b < 256) key -> length key = ks -> length nonce = ns -> (forall n, length (draw n) = n) ->
  ursa_encrypt P draw (Some name) (Some key) (Some nonce) (Some aad) (Some x) = ffi_of 6 (encrypt a key nonce aad x) /\
  ursa_decrypt P (Some name) (Some key) (Some nonce) (Some aad) (Some x) = ffi_of 7 (decrypt a key nonce aad x) /\
  ursa_encrypt P draw (Some name) (Some key) None (Some aad) (Some x) = ffi_of 6 (encrypt_easy a key (draw ns) aad x) /\
  ursa_decrypt P (Some name) (Some key) None (Some aad) (Some x) = ffi_of 7 (decrypt_easy a key aad x) /\
  exists ck, wasm_with_key P name (serialize key) = Ok ck /\ wasm_encrypt P draw ck aad x = encrypt_easy a key (draw ns) aad x /\ wasm_decrypt P ck aad x = decrypt_easy a key aad x.
Proof.
  intros P name a ks ns I draw key nonce aad x HB HKL HNL HD.
  assert (exists t, type_to_string t = name /\ alg_of P t = a /\ key_size a = ks /\ nonce_size a = ns) as (t & T & <- & K & N).
  { cbn [named_algs In] in I. destruct I as [I|[I|[I|[I|[I|[]]]]]]; injection I as <- <- <- <-;
      [exists TAes128CbcHmac256|exists TAes256CbcHmac512|exists TAes128Gcm|exists TAes256Gcm|exists TXChaCha20Poly1305]; repeat split; reflexivity. }
  apply C124_names in T. rewrite <- K in HKL. rewrite <- N in HNL |- *. clear K N I.
  assert (forall code r, (exists m, r = Ok m) \/ r = Err GeneralError -> match r with Ok out => Ok (mkFfi 1 0 (Some out)) | Err Panic => Err Panic | Err _ => Ok (mkFfi 0 code None) end = ffi_of code r) as F.
  { intros code r [(m & ->)| ->]; reflexivity. }
  pose proof (direct_enc_error P (alg_of P t)) as A. pose proof (direct_error P (alg_of P t)) as B. pose proof (alg_in P t) as I.
  assert (forall k n x y, (exists m, encrypt_easy (alg_of P t) k n x y = Ok m) \/ encrypt_easy (alg_of P t) k n x y = Err GeneralError) as Q.
  { intros k n u v. unfold encrypt_easy. destruct (A k n u v I) as [(m & E)|E]; rewrite E; cbn [rbind]; [left; eauto|now right]. }
  unfold ursa_encrypt, ursa_decrypt, ffi_operation, is_valid_keysize, gen_encryptor, encrypt_with_nonce, decrypt_with_nonce, from_slice.
  rewrite T. cbn [to_vec]. rewrite HKL, HNL, !Nat.eqb_refl. cbn [negb rbind]. rewrite !Nat.eqb_refl. cbn [negb rbind]. split; [now apply F, A|]. split; [now apply F, B|]. split; [now apply F|]. split; [now apply F, (C123_any_input P)|].
  exists (mkWasm t (serialize key)). unfold wasm_with_key, wasm_encrypt, wasm_decrypt, wasm_operation, is_valid_keysize, gen_encryptor, from_slice. cbn [w_key w_cipher]. unfold serialize.
  rewrite T, hex_roundtrip by exact HB. rewrite HKL, !Nat.eqb_refl. cbn [negb rbind]. auto.
Qed.
