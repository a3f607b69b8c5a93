(** A concrete instance of the primitives of SymmModel, and cases of C120-C124 that meet the
    hypotheses. *)
From Coq Require Import String.
From Verif Require Import Base SymmModel SymmLib SymmProps SymmAuthProps.
Import List ListNotations.
Open Scope list_scope.
Open Scope Z_scope.

(** toy primitives: the block is masked with the sum of the key, the MAC repeats a checksum, sealing
    masks the message and appends a checksum of everything *)
Definition tsum (l : bytes) : Z := fold_left (fun a x => (3 * a + x + 1) mod 251) l 7.
Definition tmask (k b : bytes) : bytes := map (fun x => Z.lxor x (tsum k)) b.
Definition tmac (n : nat) (k m : bytes) : bytes := repeat (tsum (k ++ m)) n.
Definition tseal (k n a m : bytes) : option bytes := Some (tmask (k ++ n) m ++ tmac 16 k (n ++ a ++ m)).
Definition topen (k n a c : bytes) : option bytes :=
  let b := (length c - 16)%nat in let m := tmask (k ++ n) (firstn b c) in
  if (length c <? 16)%nat then None else if bytes_eqb (skipn b c) (tmac 16 k (n ++ a ++ m)) then Some m else None.
Definition tP : prims := mkPrims tmask tmask tmask tmask (tmac 32) (tmac 64) tseal topen tseal topen tseal topen.

Lemma tmask_twice k b : tmask k (tmask k b) = b.
Proof. unfold tmask. rewrite map_map. rewrite <- (map_id b) at 2. apply map_ext. intros x. now rewrite Z.lxor_assoc, Z.lxor_nilpotent, Z.lxor_0_r. Qed.
Lemma tmask_len k b : length (tmask k b) = length b. Proof. apply map_length. Qed.
Lemma t_sealing : sealing tseal topen.
Proof.
  intros k n a m c X. unfold tseal in X. injection X as <-.
  assert (length (tmac 16 k (n ++ a ++ m)) = 16%nat) as T by apply repeat_length.
  rewrite app_length, tmask_len, T. split; [reflexivity|]. unfold topen. rewrite app_length, tmask_len, T. cbv zeta.
  replace (length m + 16 - 16)%nat with (length m) by lia. rewrite firstn_exact, skipn_exact by apply tmask_len. rewrite tmask_twice.
  destruct (Nat.ltb_spec (length m + 16) 16); [lia|]. now rewrite (proj2 (bytes_eqb_iff _ _) eq_refl).
Qed.
Lemma tP_ok : prims_ok tP.
Proof.
  assert (block_cipher tmask tmask) as B. { intros k b H. rewrite !tmask_len, tmask_twice. auto. }
  constructor; try exact B; try apply t_sealing; intros; apply repeat_length.
Qed.

Definition tk32 : bytes := map Z.of_nat (seq 1 32). Definition tk64 : bytes := map Z.of_nat (seq 5 64).
Definition tn16 : bytes := map Z.of_nat (seq 40 16). Definition tn12 : bytes := map Z.of_nat (seq 40 12).
Definition tmsg (n : nat) : bytes := map Z.of_nat (seq 100 n).
Definition taad : bytes := [1; 2; 3].
Definition getb (r : res bytes) : bytes := match r with Ok b => b | Err _ => [] end.

(** a message of 40 bytes comes back with every algorithm, one of 5 bytes only with some *)
Example C120_nonvacuous : map (fun a => match encrypt_easy a (tmsg (key_size a)) (firstn (nonce_size a) (tmsg 24)) taad (tmsg 40) with
    Ok c => bytes_eqb (getb (decrypt_easy a (tmsg (key_size a)) taad c)) (tmsg 40) | Err _ => false end) (all_algs tP) = [true; true; true; true; true; true].
Proof. vm_compute. reflexivity. Qed.
Example C121_nonvacuous : map (fun a => match encrypt_easy a (tmsg (key_size a)) (firstn (nonce_size a) (tmsg 24)) taad (tmsg 5) with
    Ok c => bytes_eqb (getb (decrypt_easy a (tmsg (key_size a)) taad c)) (tmsg 5) | Err _ => true end) (all_algs tP) = [true; false; false; false; false; false].
Proof. vm_compute. reflexivity. Qed.
(** an encryption, the two shifted forgeries, and a changed aad of the same length *)
Definition tct : bytes := getb (encrypt_easy (Aes256CbcHmac512 tP) tk64 tn16 taad (tmsg 40)).
Example C122_nonvacuous : cbc_alg tP (Aes256CbcHmac512 tP) (hmac_sha512 tP) 32 64 /\ length tn16 = 16%nat /\
  encrypt_easy (Aes256CbcHmac512 tP) tk64 tn16 taad (tmsg 40) = Ok tct /\
  decrypt_easy (Aes256CbcHmac512 tP) tk64 taad tct = Ok (tmsg 40) /\
  decrypt_easy (Aes256CbcHmac512 tP) tk64 (taad ++ tn16) (skipn 16 tct) = Ok (skipn 16 (tmsg 40)) /\
  decrypt_easy (Aes256CbcHmac512 tP) tk64 [1; 2; 4] tct = Err GeneralError /\
  last_bytes 64 (skipn 16 tct) = last_bytes 64 tct.
Proof. split; [unfold cbc_alg; auto|]. vm_compute. intuition reflexivity. Qed.
(** [mac_collision] decides between MACs (one without collisions has no bound on the tag):
    the toy MAC collides, the concatenation of key and message does not *)
Example C122_collision_decides : mac_collision (tmac 32) [] /\ ~ mac_collision (fun k m => k ++ m) tk32.
Proof. split; [exists [250], [-1]; split; [discriminate|reflexivity]|]. intros (x & y & N & X). now apply app_inv_head in X. Qed.
Example C123_nonvacuous : decrypt_easy (Aes128Gcm tP) (firstn 16 tk32) taad [] = Err GeneralError /\ new_with_key (Aes128Gcm tP) tk32 = Err Panic /\
  Forall (fun b => 0 <= b < 256) tk32 /\ deserialize (Aes256Gcm tP) (serialize tk32) = Ok tk32 /\ deserialize (Aes128Gcm tP) (serialize tk32) = Err Panic /\
  encrypt_with_nonce (Aes128Gcm tP) (firstn 16 tk32) [1] taad (tmsg 3) = Err Panic.
Proof. split; [reflexivity|]. split; [reflexivity|]. split; [unfold tk32; cbn [map seq]; repeat constructor; cbn; lia|]. vm_compute. intuition reflexivity. Qed.
Definition tdraw (n : nat) : bytes := tmsg n.
Definition tout (r : res ffi_result) : bytes := match r with Ok f => match f_out f with Some b => b | None => [] end | Err _ => [] end.
Definition tffi (key nonce : option bytes) (m : bytes) := ursa_encrypt tP tdraw (Some "aes-256-gcm"%string) key nonce (Some taad) (Some m).
Definition tffi' (key nonce : option bytes) (c : bytes) := ursa_decrypt tP (Some "aes-256-gcm"%string) key nonce (Some taad) (Some c).
Definition tint (r : res ffi_result) : option (Z * Z) := match r with Ok f => Some (f_ret f, f_err f) | Err _ => None end.
Example C124_nonvacuous : (forall n, length (tdraw n) = n) /\
  tffi' (Some tk32) None (tout (tffi (Some tk32) None (tmsg 20))) = Ok (mkFfi 1 0 (Some (tmsg 20))) /\
  tint (tffi' (Some tk32) None (tout (tffi (Some tk32) None (tmsg 2)))) = Some (0, 7) /\
  tint (tffi (Some tk64) None (tmsg 20)) = Some (0, 8) /\ tint (tffi (Some tk32) (Some [1]) (tmsg 20)) = Some (0, 9) /\
  tint (ursa_encrypt tP tdraw (Some "des"%string) None None None None) = Some (0, 11).
Proof. split; [intros n; unfold tdraw, tmsg; now rewrite map_length, seq_length|]. vm_compute. intuition reflexivity. Qed.
Definition twk : res wasm_key := wasm_with_key tP "aes-256-gcm" (serialize tk32).
Example C124_wasm_nonvacuous : exists ck c, twk = Ok ck /\ wasm_encrypt tP tdraw ck taad (tmsg 20) = Ok c /\ wasm_decrypt tP ck taad c = Ok (tmsg 20).
Proof. eexists. exists (getb (wasm_encrypt tP tdraw (mkWasm TAes256Gcm (serialize tk32)) taad (tmsg 20))). split; [vm_compute; reflexivity|]. vm_compute. auto. Qed.
Example C124_by_name_nonvacuous : In ("aes-256-gcm"%string, Aes256Gcm tP, 32%nat, 12%nat) (named_algs tP) /\ length tk32 = 32%nat /\ length tn12 = 12%nat.
Proof. cbn [named_algs In]. auto 10. Qed.
