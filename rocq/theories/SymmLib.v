(** Specification and lemmas for SymmModel: CBC chaining, padding, the AEAD algorithms. *)
From Coq Require Import String.
From Verif Require Import Base SymmModel.
Import List ListNotations.
Open Scope list_scope.
Open Scope Z_scope.

(** ** what is assumed of the primitives: AES is a permutation of 16-byte blocks, HMAC has the length
    of its hash, and opening what was sealed with the same key, nonce and aad gives the message back,
    the sealed text being 16 bytes longer *)
Definition block_cipher (E D : bytes -> bytes -> bytes) : Prop :=
  forall k b, length b = 16%nat -> length (E k b) = 16%nat /\ length (D k b) = 16%nat /\ D k (E k b) = b.
Definition sealing (seal opn : bytes -> bytes -> bytes -> bytes -> option bytes) : Prop :=
  forall k n a m c, seal k n a m = Some c -> length c = (length m + 16)%nat /\ opn k n a c = Some m.
Record prims_ok (P : prims) : Prop := {
  ok_aes128 : block_cipher (aes128 P) (aes128_inv P); ok_aes256 : block_cipher (aes256 P) (aes256_inv P);
  ok_hmac256 : forall k m, length (hmac_sha256 P k m) = 32%nat; ok_hmac512 : forall k m, length (hmac_sha512 P k m) = 64%nat;
  ok_gcm : sealing (gcm_seal P) (gcm_open P); ok_chacha : sealing (chacha_seal P) (chacha_open P); ok_xchacha : sealing (xchacha_seal P) (xchacha_open P) }.

(** ** lists *)
Lemma bytes_eqb_iff a b : bytes_eqb a b = true <-> a = b.
Proof. unfold bytes_eqb. destruct (list_eq_dec Z.eq_dec a b); split; congruence. Qed.
Lemma skipn_skipn' {A} n m (l : list A) : skipn n (skipn m l) = skipn (m + n) l.
Proof. revert l. induction m as [|m IH]; intros l; [reflexivity|]. destruct l; [now rewrite !skipn_nil|]. cbn [skipn plus]. apply IH. Qed.
Lemma firstn_exact {A} n (a b : list A) : length a = n -> firstn n (a ++ b) = a.
Proof. intros <-. rewrite firstn_app, Nat.sub_diag, firstn_all. apply app_nil_r. Qed.
Lemma skipn_exact {A} n (a b : list A) : length a = n -> skipn n (a ++ b) = b.
Proof. intros <-. rewrite skipn_app, Nat.sub_diag, skipn_all. reflexivity. Qed.
Lemma cut16 {A} (l : list A) k : length l = (16 * S k)%nat -> exists b r, l = b ++ r /\ length b = 16%nat /\ length r = (16 * k)%nat.
Proof. intros H. exists (firstn 16 l), (skipn 16 l). rewrite firstn_skipn, firstn_length, skipn_length. repeat split; lia. Qed.

Lemma app_inv_len {A} (a b c d : list A) : a ++ b = c ++ d -> length a = length c -> a = c /\ b = d.
Proof. revert c. induction a as [|x a IH]; intros [|y c] E L; cbn [app length] in *; try discriminate; [auto|]. injection E as -> E. destruct (IH c E) as (-> & ->); [lia|]. auto. Qed.

(** ** CBC *)
Lemma xor_len a b : length a = 16%nat -> length b = 16%nat -> length (xor_block a b) = 16%nat.
Proof. assert (forall a b, length (xor_block a b) = Nat.min (length a) (length b)) as H. { induction a0 as [|x a0 IH]; intros [|y b0]; cbn [xor_block length Nat.min]; auto. } intros Ha Hb. rewrite H, Ha, Hb. reflexivity. Qed.
Lemma xor_twice a b : length a = length b -> xor_block (xor_block a b) b = a.
Proof. revert b. induction a as [|x a IH]; intros [|y b] H; cbn [xor_block length] in *; try discriminate; [reflexivity|]. rewrite IH by lia. f_equal. now rewrite Z.lxor_assoc, Z.lxor_nilpotent, Z.lxor_0_r. Qed.
Lemma blocks_app k b l : length b = 16%nat -> blocks_of (S k) (b ++ l) = b :: blocks_of k l.
Proof. intros H. cbn [blocks_of]. now rewrite firstn_exact, skipn_exact by exact H. Qed.
Lemma blocks_concat k l : length l = (16 * k)%nat -> List.concat (blocks_of k l) = l.
Proof. revert l. induction k as [|k IH]; intros l H; [destruct l; [reflexivity|discriminate]|]. destruct (cut16 l k H) as (b & r & -> & Hb & Hr). rewrite blocks_app by exact Hb. cbn [List.concat]. now rewrite IH. Qed.

Section Cbc.
Context (E D : bytes -> bytes) (HE : forall b, length b = 16%nat -> length (E b) = 16%nat /\ length (D b) = 16%nat /\ D (E b) = b).
Lemma cbc_enc_len k : forall iv l, length iv = 16%nat -> length l = (16 * k)%nat -> length (cbc_enc E iv (blocks_of k l)) = (16 * k)%nat.
Proof.
  induction k as [|k IH]; intros iv l Hi Hl; [reflexivity|]. destruct (cut16 l k Hl) as (b & r & -> & Hb & Hr). rewrite blocks_app by exact Hb. cbn [cbc_enc]. cbv zeta.
  destruct (HE (xor_block b iv)) as (L & _); [now apply xor_len|]. rewrite app_length, IH; [lia|exact L|exact Hr].
Qed.
Lemma cbc_dec_enc k : forall iv l, length iv = 16%nat -> length l = (16 * k)%nat -> cbc_dec D iv (blocks_of k (cbc_enc E iv (blocks_of k l))) = l.
Proof.
  induction k as [|k IH]; intros iv l Hi Hl; [destruct l; [reflexivity|discriminate]|]. destruct (cut16 l k Hl) as (b & r & -> & Hb & Hr). rewrite (blocks_app k b) by exact Hb. cbn [cbc_enc]. cbv zeta.
  destruct (HE (xor_block b iv)) as (L & _ & I); [now apply xor_len|]. rewrite blocks_app by exact L. cbn [cbc_dec]. rewrite I, xor_twice by lia. now rewrite IH.
Qed.
Lemma cbc_dec_len k : forall iv l, length iv = 16%nat -> length l = (16 * k)%nat -> length (cbc_dec D iv (blocks_of k l)) = (16 * k)%nat.
Proof.
  induction k as [|k IH]; intros iv l Hi Hl; [reflexivity|]. destruct (cut16 l k Hl) as (b & r & -> & Hb & Hr). rewrite blocks_app by exact Hb. cbn [cbc_dec].
  destruct (HE b Hb) as (_ & L & _). rewrite app_length, xor_len, IH by assumption. lia.
Qed.
(** chaining decryption of a suffix of blocks gives the suffix of the plaintext *)
Lemma cbc_dec_suffix j : forall y k l n', length y = (16 * S j)%nat -> length l = (16 * k)%nat -> y = firstn (16 * j) y ++ n' -> length n' = 16%nat ->
  exists x, length x = (16 * j)%nat /\ cbc_dec D (firstn 16 y) (blocks_of (j + k) (skipn 16 (y ++ l))) = x ++ cbc_dec D n' (blocks_of k l).
Proof.
  induction j as [|j IH]; intros y k l n' Hy Hl E1 Hn.
  - replace (16 * 0)%nat with 0%nat in E1 by lia. cbn [firstn app] in E1. rewrite E1 in *. exists []. split; [reflexivity|]. cbn [app plus]. rewrite skipn_exact by lia. rewrite firstn_all2 by lia. reflexivity.
  - destruct (cut16 y (S j)) as (b & r & -> & Hb & Hr); [lia|].
    destruct (IH r k l n') as (x & Lx & Ex); [lia|exact Hl| |exact Hn|].
    { replace (16 * S j)%nat with (16 + 16 * j)%nat in E1 by lia. rewrite firstn_app, Hb in E1. replace (16 + 16 * j - 16)%nat with (16 * j)%nat in E1 by lia. rewrite firstn_all2 in E1 by lia. rewrite <- app_assoc in E1. now apply app_inv_head in E1. }
    rewrite firstn_exact by exact Hb. rewrite <- app_assoc, skipn_exact by exact Hb.
    destruct (cut16 r j) as (c & r' & -> & Hc & Hr'); [lia|]. rewrite firstn_exact in Ex by exact Hc. rewrite <- app_assoc in Ex |- *. rewrite skipn_exact in Ex by exact Hc.
    cbn [plus]. rewrite blocks_app by exact Hc. cbn [cbc_dec]. rewrite Ex. destruct (HE c Hc) as (_ & L & _).
    exists (xor_block (D c) b ++ x). split; [rewrite app_length, xor_len by assumption; lia|]. now rewrite app_assoc.
Qed.
End Cbc.

(** ** PKCS#7 *)
Definition pad_len (m : bytes) : nat := (16 - length m mod 16)%nat.
Lemma pad_len_range m : (1 <= pad_len m <= 16)%nat.
Proof. unfold pad_len. pose proof (Nat.mod_upper_bound (length m) 16). lia. Qed.
Lemma pad_length m : length (pkcs7_pad m) = (16 * (length m / 16 + 1))%nat.
Proof. unfold pkcs7_pad. rewrite app_length, repeat_length. pose proof (Nat.div_mod (length m) 16 ltac:(lia)). pose proof (Nat.mod_upper_bound (length m) 16 ltac:(lia)). lia. Qed.
Lemma last_repeat {A} (x d : A) n l : (0 < n)%nat -> last (l ++ repeat x n) d = x.
Proof. intros H. destruct n as [|n]; [lia|]. replace (repeat x (S n)) with (repeat x n ++ [x]) by (symmetry; apply repeat_cons). rewrite app_assoc. apply last_last. Qed.
Lemma unpad_gen l n : (1 <= n <= 16)%nat -> pkcs7_unpad (l ++ repeat (Z.of_nat n) n) = Some l.
Proof.
  intros H. unfold pkcs7_unpad. destruct (l ++ repeat (Z.of_nat n) n) eqn:Q. { apply (f_equal (@length Z)) in Q. rewrite app_length, repeat_length in Q. cbn [length] in Q. lia. }
  rewrite <- Q. clear Q. rewrite last_repeat by lia. cbv zeta. rewrite app_length, repeat_length, Nat2Z.id.
  rewrite (proj2 (Z.leb_gt _ _)) by lia. rewrite (proj2 (Z.ltb_ge _ _)) by lia. cbn [orb].
  replace (length l + n - n)%nat with (length l) by lia. rewrite skipn_exact, firstn_exact by reflexivity.
  replace (forallb (Z.eqb (Z.of_nat n)) (repeat (Z.of_nat n) n)) with true; [reflexivity|]. symmetry. apply forallb_forall. intros x Hx. apply repeat_spec in Hx. subst. apply Z.eqb_refl.
Qed.
Lemma pad_eq m : pkcs7_pad m = m ++ repeat (Z.of_nat (pad_len m)) (pad_len m). Proof. reflexivity. Qed.
Lemma unpad_pad m : pkcs7_unpad (pkcs7_pad m) = Some m.
Proof. apply unpad_gen, pad_len_range. Qed.
Lemma unpad_pad_app x m : pkcs7_unpad (x ++ pkcs7_pad m) = Some (x ++ m).
Proof. rewrite pad_eq, app_assoc. apply unpad_gen, pad_len_range. Qed.

(** ** CBC with padding *)
Definition cbc_len (m : bytes) : nat := (16 * (length m / 16 + 1))%nat.
Lemma div16 k : (16 * k / 16)%nat = k. Proof. rewrite Nat.mul_comm. apply Nat.div_mul. lia. Qed.
Lemma mod16 k : (16 * k mod 16)%nat = 0%nat. Proof. rewrite Nat.mul_comm. apply Nat.mod_mul. lia. Qed.
Section CbcVec.
Context (E D : bytes -> bytes) (HE : forall b, length b = 16%nat -> length (E b) = 16%nat /\ length (D b) = 16%nat /\ D (E b) = b).
Lemma cbc_vec_len iv m : length iv = 16%nat -> length (cbc_encrypt_vec E iv m) = cbc_len m.
Proof. intros H. unfold cbc_encrypt_vec. rewrite pad_length, div16. apply (cbc_enc_len E D HE); [exact H|apply pad_length]. Qed.
Lemma cbc_vec_dec iv m : length iv = 16%nat -> cbc_dec D iv (blocks_of (length (cbc_encrypt_vec E iv m) / 16) (cbc_encrypt_vec E iv m)) = pkcs7_pad m.
Proof. intros H. rewrite cbc_vec_len by exact H. unfold cbc_len. rewrite div16. unfold cbc_encrypt_vec. rewrite pad_length, div16. apply (cbc_dec_enc E D HE); [exact H|apply pad_length]. Qed.
Lemma cbc_vec_roundtrip iv m : length iv = 16%nat -> cbc_decrypt_vec D iv (cbc_encrypt_vec E iv m) = Some m.
Proof.
  intros H. unfold cbc_decrypt_vec. rewrite cbc_vec_len by exact H. unfold cbc_len at 1. rewrite mod16. cbn [Nat.eqb negb].
  rewrite <- (cbc_vec_len iv m) by exact H. rewrite cbc_vec_dec by exact H. apply unpad_pad.
Qed.
End CbcVec.
