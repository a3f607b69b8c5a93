(** Specification and lemmas for SigModel. *)
From Verif Require Import Base SymmModel SymmLib SigModel.
Import List ListNotations.
Open Scope Z_scope.

(** ** laws assumed of the groups and of the library functions *)
Record zgroup_laws (G : zgroup) : Prop := {
  zg_assoc : forall a b c : G, gadd a (gadd b c) = gadd (gadd a b) c; zg_comm : forall a b : G, gadd a b = gadd b a;
  zg_0 : forall a : G, gadd g0 a = a; zg_neg : forall a : G, gadd a (gneg a) = g0;
  zg_mul_add : forall x y (a : G), gmul (x + y) a = gadd (gmul x a) (gmul y a); zg_mul_mul : forall x y (a : G), gmul (x * y) a = gmul x (gmul y a);
  zg_mul_1 : forall a : G, gmul 1 a = a; zg_mul_gadd : forall x (a b : G), gmul x (gadd a b) = gadd (gmul x a) (gmul x b) }.

Record c25519_ok (C : curve25519) : Prop := {
  c_group : zgroup_laws (eG C);
  c_order : 1 < eL C < 2 ^ 253 /\ forall z, gmul z (eB C) = g0 <-> (eL C | z);
  c_dec : forall P, e_decompress C (e_compress C P) = Some P; c_len : forall P, length (e_compress C P) = 32%nat;
  c_mont : forall z P, 0 <= z -> mont_mul C z (to_montgomery C P) = to_montgomery C (gmul z P); c_mont_len : forall P, length (to_montgomery C P) = 32%nat;
  c_sha512 : forall l, length (sha512 C l) = 64%nat /\ Forall (fun b => 0 <= b < 256) (sha512 C l);
  c_sha256 : forall l, length (sha256 C l) = 32%nat; c_chacha : forall l, length (chacha C l) = 32%nat /\ Forall (fun b => 0 <= b < 256) (chacha C l) }.

Record secp_ok (W : secp256k1) : Prop := {
  w_group : zgroup_laws (wG W);
  w_order : 2 < wN W < 2 ^ 256 /\ (forall z, gmul z (wB W) = g0 <-> (wN W | z)) /\ Z.odd (wN W) = true;
  w_all : forall P : wG W, exists z, P = gmul z (wB W); (* the group is cyclic *)
  w_inf : forall P, w_is_inf W P = true <-> P = g0;
  w_xneg : forall P, w_x W (gneg P) = w_x W P; w_xrange : forall P, 0 <= w_x W P < 2 ^ 256;
  w_inv_ok : forall z, ~ (wN W | z) -> (z * w_inv W z) mod wN W = 1;
  w_clen : forall P, length (w_compressed W P) = 33%nat; w_ulen : forall P, length (w_uncompressed W P) = 65%nat;
  w_cparse : forall P, P <> g0 -> w_parse W (w_compressed W P) = Some P; w_uparse : forall P, P <> g0 -> w_parse W (w_uncompressed W P) = Some P;
  w_parse_inf : forall l P, w_parse W l = Some P -> P <> g0;
  w_hash_len : forall l, length (w_hash W l) = 32%nat }.

(** ** groups *)
Section ZG.
Context (G : zgroup) (HG : zgroup_laws G).
Lemma zg_cancel (a b c : G) : gadd a b = gadd a c -> b = c.
Proof.
  intros H. apply (f_equal (gadd (gneg a))) in H. rewrite !(zg_assoc G HG), (zg_comm G HG (gneg a)), (zg_neg G HG), !(zg_0 G HG) in H. exact H.
Qed.
Lemma zg_mul_0 (a : G) : gmul 0 a = g0.
Proof. apply (zg_cancel (gmul 0 a)). rewrite <- (zg_mul_add G HG). cbn [Z.add]. rewrite (zg_comm G HG _ g0), (zg_0 G HG). reflexivity. Qed.
Lemma zg_gmul_g0 z : gmul z (g0 : G) = g0.
Proof. apply (zg_cancel (gmul z g0)). rewrite <- (zg_mul_gadd G HG). rewrite (zg_0 G HG), (zg_comm G HG _ g0), (zg_0 G HG). reflexivity. Qed.
Lemma zg_neg_mul (a : G) : gneg a = gmul (-1) a.
Proof. apply (zg_cancel a). rewrite (zg_neg G HG). pose proof (zg_mul_add G HG 1 (-1) a) as H. rewrite (zg_mul_1 G HG) in H. rewrite <- H. symmetry. apply zg_mul_0. Qed.
Lemma zg_mul_comm x y (a : G) : gmul x (gmul y a) = gmul y (gmul x a).
Proof. rewrite <- !(zg_mul_mul G HG). now rewrite Z.mul_comm. Qed.
Lemma zg_sub_0 (a b : G) : gadd a (gneg b) = g0 -> a = b.
Proof. intros H. apply (zg_cancel (gneg b)). rewrite (zg_comm G HG _ b), (zg_neg G HG). now rewrite (zg_comm G HG). Qed.
(** multiples of an element of order n *)
Context (B : G) (n : Z) (HB : forall z, gmul z B = g0 <-> (n | z)).
Lemma zg_cong x y : (n | x - y) -> gmul x B = gmul y B.
Proof. intros H. apply HB in H. apply zg_sub_0. rewrite zg_neg_mul, <- (zg_mul_mul G HG), <- (zg_mul_add G HG). rewrite <- H. f_equal; lia. Qed.
Lemma zg_cong_inv x y : gmul x B = gmul y B -> (n | x - y).
Proof. intros H. apply HB. replace (x - y) with (x + -1 * y) by lia. rewrite (zg_mul_add G HG), (zg_mul_mul G HG), <- H, <- zg_neg_mul. apply (zg_neg G HG). Qed.
Lemma zg_mod x : 0 < n -> gmul (x mod n) B = gmul x B.
Proof. intros H. apply zg_cong. exists (- (x / n)). pose proof (Z.div_mod x n ltac:(lia)). lia. Qed.
End ZG.

(** ** numbers as bytes *)
Lemma le_val_range l : Forall (fun b => 0 <= b < 256) l -> 0 <= le_val l < 256 ^ Z.of_nat (length l).
Proof.
  induction 1 as [|b l Hb Hl IH]; cbn [le_val length]; [cbn; lia|]. rewrite Nat2Z.inj_succ, Z.pow_succ_r by lia. lia.
Qed.
Lemma le_bytes_len n z : length (le_bytes n z) = n. Proof. revert z. induction n as [|n IH]; intros z; cbn [le_bytes length]; auto. Qed.
Lemma le_bytes_range n z : Forall (fun b => 0 <= b < 256) (le_bytes n z).
Proof. revert z. induction n as [|n IH]; intros z; cbn [le_bytes]; constructor; auto. apply Z.mod_pos_bound. lia. Qed.
Lemma le_val_bytes n z : 0 <= z < 256 ^ Z.of_nat n -> le_val (le_bytes n z) = z.
Proof.
  revert z. induction n as [|n IH]; intros z H; cbn [le_bytes le_val]; [cbn in H; lia|]. rewrite Nat2Z.inj_succ, Z.pow_succ_r in H by lia.
  rewrite IH; [pose proof (Z.div_mod z 256 ltac:(lia)); lia|]. split; [apply Z.div_pos; lia|apply Z.div_lt_upper_bound; lia].
Qed.
Lemma be_val_bytes n z : 0 <= z < 256 ^ Z.of_nat n -> be_val (be_bytes n z) = z.
Proof. intros H. unfold be_val, be_bytes. rewrite rev_involutive. now apply le_val_bytes. Qed.
Lemma be_bytes_len n z : length (be_bytes n z) = n. Proof. unfold be_bytes. rewrite rev_length. apply le_bytes_len. Qed.
Lemma pow256_32 : 256 ^ Z.of_nat 32 = 2 ^ 256. Proof. reflexivity. Qed.
Lemma last_app_ne {A} (l m : list A) d : m <> [] -> last (l ++ m) d = last m d.
Proof. intros H. induction l as [|x l IH]; [reflexivity|]. cbn [app last]. destruct (l ++ m) eqn:Q; [destruct l; [contradiction|discriminate]|exact IH]. Qed.
(** the last byte of a little-endian number below 2^253 *)
Lemma le_last n z : 0 <= z < 2 ^ (8 * Z.of_nat n + 5) -> last (le_bytes (S n) z) 0 < 32.
Proof.
  revert z. induction n as [|n IH]; intros z H.
  - cbn [le_bytes last]. cbn in H. rewrite Z.mod_small by lia. lia.
  - change (le_bytes (S (S n)) z) with (z mod 256 :: le_bytes (S n) (z / 256)). rewrite (last_app_ne [z mod 256] (le_bytes (S n) (z / 256))) by discriminate. apply IH.
    replace (8 * Z.of_nat (S n) + 5) with (8 + (8 * Z.of_nat n + 5)) in H by lia. rewrite Z.pow_add_r in H by lia. change (2 ^ 8) with 256 in H. split; [apply Z.div_pos; lia|apply Z.div_lt_upper_bound; lia].
Qed.

(** ** clamping *)
Lemma clamp_len l : l <> [] -> (2 <= length l)%nat -> length (clamp l) = length l.
Proof.
  intros N H. destruct l as [|b r]; [contradiction|]. destruct r as [|c r]; [cbn [length] in H; lia|]. cbn [clamp length]. rewrite app_length. cbn [length].
  assert (forall (x : Z) y, length (removelast (x :: y)) = length y) as R. { intros x y. revert x. induction y as [|z y IH]; intros x; [reflexivity|]. cbn [removelast length]. cbn [removelast] in IH. now rewrite (IH z). }
  rewrite R. lia.
Qed.
Lemma clamp_clamp l : (2 <= length l)%nat -> clamp (clamp l) = clamp l.
Proof.
  intros H. destruct l as [|b r]; [reflexivity|]. cbn [clamp]. rewrite removelast_app by discriminate. cbn [removelast]. rewrite app_nil_r, last_last. f_equal; [rewrite <- Z.land_assoc; reflexivity|].
  f_equal. f_equal. rewrite Z.land_lor_distr_l. rewrite <- Z.land_assoc. change (Z.land 127 127) with 127. change (Z.land 64 127) with 64. rewrite <- Z.lor_assoc. reflexivity.
Qed.
Lemma clamp_range l : Forall (fun b => 0 <= b < 256) l -> Forall (fun b => 0 <= b < 256) (clamp l).
Proof.
  intros H. destruct l as [|b r]; [constructor|]. inversion H as [|? ? Hb Hr]; subst. cbn [clamp]. constructor.
  - split; [apply Z.land_nonneg; lia|]. pose proof (Z.land_ones b 8 ltac:(lia)) as X. destruct (Z.eq_dec (Z.land b 248) 0) as [->|N]; [lia|].
    apply Z.log2_lt_cancel. pose proof (Z.log2_land b 248 ltac:(lia) ltac:(lia)). change (Z.log2 248) with 7 in *. change (Z.log2 256) with 8. lia.
  - apply Forall_app. split.
    + assert (forall l : bytes, Forall (fun b => 0 <= b < 256) l -> Forall (fun b => 0 <= b < 256) (removelast l)) as R. { induction 1 as [|x l Hx Hl IH]; cbn [removelast]; [constructor|]. destruct l; [constructor|]. constructor; auto. }
      auto.
    + constructor; [|constructor]. assert (0 <= Z.land (last r 0) 127 < 128) as Q.
      { change 127 with (Z.ones 7). rewrite Z.land_ones by lia. change (2 ^ 7) with 128. apply Z.mod_pos_bound. lia. }
      split; [apply Z.lor_nonneg; lia|]. apply Z.log2_lt_cancel. rewrite Z.log2_lor by lia. change (Z.log2 64) with 6. change (Z.log2 256) with 8.
      destruct (Z.eq_dec (Z.land (last r 0) 127) 0) as [->|N]; [cbn; lia|]. apply Z.max_lub_lt; [|lia]. apply Z.log2_lt_pow2; [lia|]. change (2 ^ 8) with 256. lia.
Qed.

(** a byte list is the encoding of its value *)
Lemma le_bytes_val l : Forall (fun b => 0 <= b < 256) l -> le_bytes (length l) (le_val l) = l.
Proof.
  induction 1 as [|b l Hb Hl IH]; [reflexivity|]. cbn [length le_bytes le_val]. f_equal.
  - rewrite Z.mul_comm, Z_mod_plus_full. now apply Z.mod_small.
  - rewrite Z.mul_comm, Z.div_add by lia. rewrite Z.div_small by exact Hb. exact IH.
Qed.
Lemma array_ref_ok l n x : array_ref l n = Ok x -> length x = n /\ x = firstn n l.
Proof. unfold array_ref. destruct (Nat.leb_spec n (length l)); [|discriminate]. intros X. injection X as <-. split; [rewrite firstn_length; lia|reflexivity]. Qed.
Lemma array_ref_exact l n : length l = n -> array_ref l n = Ok l.
Proof. intros <-. unfold array_ref. rewrite Nat.leb_refl. now rewrite firstn_all. Qed.
