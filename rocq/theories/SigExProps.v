(** A concrete instance of the laws of SigLib (toy curves of order 257) and cases of C125-C128. *)
From Verif Require Import Base SymmModel SymmLib SigModel SigLib SigProps SigEcdsaProps SymmExProps NumTheory BnModel Fp.
Import List ListNotations.
Open Scope Z_scope.

Definition G257 : zgroup := mkZG (Fp 257) (fp 257 0) (fun a b => fp 257 (fpv a + fpv b)) (fun a => fp 257 (- fpv a)) (fun z a => fp 257 (z * fpv a)).
Lemma G257_laws : zgroup_laws G257.
Proof.
  assert (forall (a : Fp 257) x, fpv a = x mod 257 -> a = fp 257 x) as E by (intros a x H; apply fpv_inj; now rewrite fpv_fp).
  constructor; cbn [G257 gcar g0 gadd gneg gmul]; intros; apply fpv_inj; rewrite ?fpv_fp.
  - rewrite Zplus_mod_idemp_r, Zplus_mod_idemp_l. f_equal. lia.
  - f_equal. lia.
  - rewrite Zmod_0_l. cbn [Z.add]. apply fpv_canon.
  - rewrite Zplus_mod_idemp_r. now replace (fpv a + - fpv a) with 0 by lia.
  - rewrite <- Zplus_mod. f_equal. lia.
  - rewrite Zmult_mod_idemp_r. f_equal. lia.
  - rewrite Z.mul_1_l. apply fpv_canon.
  - rewrite Zmult_mod_idemp_r, <- Zplus_mod. f_equal. lia.
Qed.
Definition tB : Fp 257 := fp 257 1.
Lemma G257_order z : @gmul G257 z tB = @g0 G257 <-> (257 | z).
Proof.
  change (fp 257 (z * fpv tB) = fp 257 0 <-> (257 | z)). unfold tB. rewrite fpv_fp. change (1 mod 257) with 1. rewrite Z.mul_1_r. etransitivity; [apply fp_eq|]. rewrite Zmod_0_l. split; [apply Z.mod_divide; lia|intros H; apply Z.mod_divide; [lia|exact H]].
Qed.
Definition tdec (l : bytes) : option (Fp 257) := if (le_val l <? 257) && (0 <=? le_val l) then Some (fp 257 (le_val l)) else None.
Definition t512 (l : bytes) : bytes := tsum l :: 0 :: repeat (tsum l) 62.
Definition tC : curve25519 := mkC25519 G257 tB 257 (fun P => le_bytes 32 (fpv P)) tdec (fun P => le_bytes 32 (fpv P)) (fun z l => le_bytes 32 ((z * le_val l) mod 257))
  (fun l => repeat (tsum l) 32) t512 (fun l => repeat (tsum (9 :: l)) 32).
Lemma tsum_range l : 0 <= tsum l < 256.
Proof.
  unfold tsum. assert (forall a, 0 <= a < 256 -> 0 <= fold_left (fun a x => (3 * a + x + 1) mod 251) l a < 256) as H; [|apply H; lia].
  induction l as [|x l IH]; intros a Ha; cbn [fold_left]; [exact Ha|]. apply IH. pose proof (Z.mod_pos_bound (3 * a + x + 1) 251 ltac:(lia)). lia.
Qed.
Lemma trep n l : byte_list (repeat (tsum l) n).
Proof. apply Forall_forall. intros x Hx. apply repeat_spec in Hx. subst. apply tsum_range. Qed.
Lemma small257 z : 0 <= z < 257 -> 0 <= z < 256 ^ Z.of_nat 32.
Proof. intros H. rewrite pow256_32. split; [lia|]. eapply Z.lt_trans; [apply H|]. reflexivity. Qed.
Lemma tC_ok : c25519_ok tC.
Proof.
  constructor; cbn [tC eG eB eL e_compress e_decompress to_montgomery mont_mul sha256 sha512 chacha].
  - exact G257_laws.
  - split; [split; [lia|reflexivity]|exact G257_order].
  - intros P. pose proof (fpv_range 257 P ltac:(lia)) as R. unfold tdec. rewrite le_val_bytes by now apply small257. rewrite (proj2 (Z.ltb_lt _ _)), (proj2 (Z.leb_le _ _)) by lia. cbn [andb]. now rewrite fp_fpv.
  - intros. apply le_bytes_len.
  - intros z P _. pose proof (fpv_range 257 P ltac:(lia)) as R. rewrite le_val_bytes by now apply small257. cbn [G257 gmul]. now rewrite fpv_fp.
  - intros. apply le_bytes_len.
  - intros l. split; [reflexivity|]. constructor; [apply tsum_range|]. constructor; [lia|apply trep].
  - intros. apply repeat_length.
  - intros l. split; [apply repeat_length|apply trep].
Qed.
Lemma tC_bytes : forall P, byte_list (e_compress tC P). Proof. intros P. apply le_bytes_range. Qed.

(** secp256k1 toy: the x-coordinate of P is the smaller of P and -P *)
Definition txc (P : Fp 257) : Z := Z.min (fpv P) ((- fpv P) mod 257).
Definition twp (l : bytes) : option (Fp 257) := let v := be_val (skipn 1 l) in if (0 <? v) && (v <? 257) then Some (fp 257 v) else None.
Definition twu (l : bytes) : option (Fp 257) := if (length l =? 65)%nat then twp (firstn 33 l) else twp l.
Definition tW : secp256k1 := mkSecp G257 tB 257 txc (fun P => fpv P =? 0) (fun P => 2 :: be_bytes 32 (fpv P)) (fun P => (4 :: be_bytes 32 (fpv P)) ++ repeat 0 32) twu
  (fun l => be_bytes 32 (1 + tsum l)) (fun h d => 1 + (tsum h + d) mod 256) (fun z => zinv 257 (z mod 257)) (fun l => repeat (tsum l) 32).
Lemma tW_ok : secp_ok tW.
Proof.
  assert (forall P : Fp 257, 0 <= fpv P < 257) as R by (intros P; apply fpv_range; lia).
  assert (forall P : Fp 257, P <> fp 257 0 -> 0 < fpv P) as NZ. { intros P HP. pose proof (R P). assert (fpv P <> 0); [|lia]. intros E. apply HP, fpv_inj. now rewrite E. }
  assert (forall b P, P <> fp 257 0 -> twp (b :: be_bytes 32 (fpv P)) = Some P) as TP.
  { intros b P HP. unfold twp. cbn [skipn]. rewrite be_val_bytes by apply small257, R. cbv zeta. rewrite (proj2 (Z.ltb_lt _ _)), (proj2 (Z.ltb_lt _ _)) by (apply R || now apply NZ). cbn [andb]. now rewrite fp_fpv. }
  constructor; cbn [tW wG wB wN w_x w_is_inf w_compressed w_uncompressed w_parse w_hash w_nonce w_inv w_chacha].
  - exact G257_laws.
  - split; [split; [lia|reflexivity]|]. split; [exact G257_order|reflexivity].
  - intros P. exists (fpv P). apply fpv_inj. cbn [G257 gmul]. unfold tB. rewrite !fpv_fp. change (1 mod 257) with 1. rewrite Z.mul_1_r. symmetry. apply fpv_canon.
  - intros P. rewrite Z.eqb_eq. split; [intros E; apply fpv_inj; now rewrite E|intros ->; reflexivity].
  - intros P. unfold txc. cbn [G257 gneg]. rewrite fpv_fp. rewrite Z.min_comm. f_equal. pose proof (R P). destruct (Z.eq_dec (fpv P) 0) as [->|N]; [reflexivity|].
    replace (- fpv P) with (257 - fpv P + (-1) * 257) by lia. rewrite Z_mod_plus_full. rewrite (Z.mod_small (257 - fpv P)) by lia. replace (- (257 - fpv P)) with (fpv P + (-1) * 257) by lia. rewrite Z_mod_plus_full. now apply Z.mod_small.
  - intros P. unfold txc. pose proof (R P). pose proof (Z.mod_pos_bound (- fpv P) 257 ltac:(lia)). split; [lia|]. eapply Z.le_lt_trans with 257; [lia|reflexivity].
  - intros z Hz. rewrite <- Zmult_mod_idemp_l. apply zinv_spec; [apply prime_257|apply Zmod_mod|]. intros E. apply Hz, Z.mod_divide; [lia|exact E].
  - intros P. cbn [length]. now rewrite be_bytes_len.
  - intros P. rewrite app_length, repeat_length. cbn [length]. now rewrite be_bytes_len.
  - intros P HP. unfold twu. cbn [length]. rewrite be_bytes_len. cbn [Nat.eqb]. now apply TP.
  - intros P HP. unfold twu. rewrite app_length, repeat_length. cbn [length]. rewrite be_bytes_len. cbn [Nat.add Nat.eqb]. rewrite firstn_exact by (cbn [length]; now rewrite be_bytes_len). now apply TP.
  - intros l P. unfold twu, twp. destruct (_ =? _)%nat; cbv zeta.
    all: match goal with |- (if (0 <? ?v) && _ then _ else _) = _ -> _ => destruct (Z.ltb_spec 0 v); [destruct (Z.ltb_spec v 257)|]; cbn [andb]; try discriminate; intros X; intros E; change (P = fp 257 0) in E; change (Some (fp 257 v) = @Some (Fp 257) P) in X; rewrite E in X; clear E; assert (fp 257 v = fp 257 0) as E by congruence; apply (f_equal fpv) in E; rewrite !fpv_fp in E; change (0 mod 257) with 0 in E; rewrite (Z.mod_small v 257) in E by lia; lia end.
  - intros l. apply be_bytes_len.
Qed.

Definition bytes_ok (r : res (bytes * bytes)) : bytes * bytes := match r with Ok p => p | Err _ => ([], []) end.
Definition rnd1 : bytes := map Z.of_nat (seq 1 32). Definition rnd2 : bytes := map Z.of_nat (seq 7 32).
Lemma rnd_ok : input_ok rnd1 None /\ input_ok rnd2 None.
Proof. assert (forall a, (a < 200)%nat -> byte_list (map Z.of_nat (seq a 32))) as H. { intros a Ha. apply Forall_forall. intros x Hx. apply in_map_iff in Hx. destruct Hx as (n & <- & Hn). apply in_seq in Hn. lia. } repeat split; apply H; lia. Qed.
Definition is_ok_pair (r : res (bytes * bytes)) : bool := match r with Ok _ => true | Err _ => false end.
Definition ok_bytes (r : res bytes) : bytes := match r with Ok l => l | Err _ => [] end.
(** all four key generations succeed; both sides of the exchanges agree, and not trivially *)
Example C125_nonvacuous :
  is_ok_pair (x_keypair tC rnd1 None) = true /\ is_ok_pair (ed_keypair tC [] (Some (UseSeed [1; 2]))) = true /\ is_ok_pair (ecdh_keypair tW rnd1 None) = true /\ is_ok_pair (ecdsa_keypair tW rnd2 None) = true /\
  x_shared_secret tC (snd (bytes_ok (x_keypair tC rnd1 None))) (fst (bytes_ok (x_keypair tC rnd2 None))) = x_shared_secret tC (snd (bytes_ok (x_keypair tC rnd2 None))) (fst (bytes_ok (x_keypair tC rnd1 None))) /\
  ok_bytes (x_shared_secret tC (snd (bytes_ok (x_keypair tC rnd1 None))) (fst (bytes_ok (x_keypair tC rnd2 None)))) <> ok_bytes (x_shared_secret tC (snd (bytes_ok (x_keypair tC rnd1 None))) (fst (bytes_ok (x_keypair tC rnd1 None)))) /\
  be_val (ok_bytes (ecdh_shared_secret tW (snd (bytes_ok (ecdh_keypair tW rnd1 None))) (fst (bytes_ok (ecdh_keypair tW rnd2 None))))) = 56.
Proof. vm_compute. repeat split; try reflexivity. discriminate. Qed.
Definition ekp : bytes * bytes := bytes_ok (ed_keypair tC rnd1 None).
Definition esig : bytes := ok_bytes (ed_sign tC [5; 6] (snd ekp)).
Example C126_nonvacuous : ed_keypair tC rnd1 None = Ok ekp /\ ed_sign tC [5; 6] (snd ekp) = Ok esig /\ ed_verify tC [5; 6] esig (fst ekp) = Ok true /\
  ed_verify tC [5; 7] esig (fst ekp) = Err SigningError /\ ed_verify tC [5; 6] (tl esig) (fst ekp) = Err ParseError.
Proof. vm_compute. repeat split; reflexivity. Qed.
(** the scalar is recovered: the two challenges differ and their difference has an inverse *)
Example C126_halves_nonvacuous : exists i, (i * (ed_hash tC (firstn 32 esig ++ e_compress tC (fp 257 3) ++ [5; 6]) - ed_hash tC (firstn 32 esig ++ e_compress tC (fp 257 9) ++ [5; 6]))) mod eL tC = 1.
Proof. exists 17. vm_compute. reflexivity. Qed.
Definition wkp : bytes * bytes := bytes_ok (ecdsa_keypair tW rnd2 None).
Definition wsig : bytes := ok_bytes (ecdsa_sign tW [5; 6] (snd wkp)).
Definition wrs : Z * Z := (be_val (firstn 32 wsig), be_val (skipn 32 wsig)).
Example C127_nonvacuous : ecdsa_keypair tW rnd2 None = Ok wkp /\ ecdsa_sign tW [5; 6] (snd wkp) = Ok wsig /\ ecdsa_verify tW [5; 6] wsig (fst wkp) = Ok true /\ ecdsa_verify tW [5; 7] wsig (fst wkp) = Ok false /\
  sig_compact (fst wrs) (snd wrs) = wsig /\ ecdsa_verify tW [5; 6] (sig_compact (fst wrs) (257 - snd wrs)) (fst wkp) = Ok false /\
  (let k := w_nonce tW (w_hash tW [5; 6]) (be_val (snd wkp)) in (k mod 257 <> 0) /\ ecdsa_r tW k <> 0 /\ (be_val (w_hash tW [5; 6]) + ecdsa_r tW k * be_val (snd wkp)) mod 257 <> 0).
Proof. vm_compute. repeat split; try reflexivity; discriminate. Qed.
Example C128_nonvacuous : ffi_sign tC (Some [5; 6]) (Some (snd ekp)) = Ok (mkSigFfi 1 (Some 0) (Some esig) None) /\ ffi_verify tC (Some [5; 6]) (Some esig) (Some (fst ekp)) = Ok (mkSigFfi 1 (Some 0) None None) /\
  ffi_verify tC None (Some esig) (Some (fst ekp)) = Ok (mkSigFfi 0 (Some 3) None None) /\ ffi_sign tC None None = Ok (mkSigFfi 0 (Some 2) None None).
Proof. vm_compute. repeat split; reflexivity. Qed.
