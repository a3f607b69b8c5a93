(** ECDSA over secp256k1 (C127) and the C interface of ed25519 (C128). *)
From Verif Require Import Base SymmModel SymmLib SigModel SigLib SigProps.
Import List ListNotations.
Open Scope Z_scope.

(** ** C127 *)
(** textbook ECDSA verification of (r, s) for the number z of the digest and the public point Q, with
    [u] any inverse of s *)
Definition ecdsa_valid (W : secp256k1) (z : Z) (Q : wG W) (r s : Z) : Prop := 0 < r < wN W /\ 0 < s < wN W /\
  exists u, (s * u) mod wN W = 1 /\ let P := gadd (gmul (z * u) (wB W)) (gmul (r * u) Q) in P <> g0 /\ w_x W P mod wN W = r.

Section Ecdsa.
Context (W : secp256k1) (HW : secp_ok W).
Let N := wN W. Let B := wB W.
Let HG := w_group W HW.
Lemma N_pos : 2 < N < 2 ^ 256. Proof. exact (proj1 (w_order W HW)). Qed.
Lemma HB z : gmul z B = g0 <-> (N | z). Proof. apply (proj1 (proj2 (w_order W HW))). Qed.
Lemma cong_any x y (P : wG W) : (N | x - y) -> gmul x P = gmul y P.
Proof.
  intros H. destruct (w_all W HW P) as (p & ->). fold B. rewrite <- !(zg_mul_mul _ HG). apply (zg_cong _ HG _ _ HB). destruct H as (q & H). exists (q * p). rewrite <- Z.mul_sub_distr_r, H. ring.
Qed.
Lemma mod_any x (P : wG W) : gmul (x mod N) P = gmul x P.
Proof. pose proof N_pos. apply cong_any. exists (- (x / N)). pose proof (Z.div_mod x N ltac:(lia)). lia. Qed.
Lemma inv_unique s u v : (s * u) mod N = 1 -> (s * v) mod N = 1 -> (N | u - v).
Proof.
  pose proof N_pos. intros H1 H2. pose proof (Z.div_mod (s * u) N ltac:(lia)) as D1. pose proof (Z.div_mod (s * v) N ltac:(lia)) as D2. rewrite H1 in D1. rewrite H2 in D2.
  exists (v * (s * u / N) - u * (s * v / N)). set (a := s * u / N) in *. set (b := s * v / N) in *.
  replace u with (u * (s * v - N * b)) at 1 by (rewrite D2; ring). replace v with (v * (s * u - N * a)) at 2 by (rewrite D1; ring). ring.
Qed.
Lemma not_div s : 0 < s < N -> ~ (N | s). Proof. intros H D. apply Z.divide_pos_le in D; lia. Qed.
(** the library's test is the textbook equation, for s at most half the order *)
Lemma raw_iff z Q r s : 0 <= r < N -> 0 <= s < N -> (ecdsa_verify_raw W z Q r s = true <-> ecdsa_valid W z Q r s /\ s <= N / 2).
Proof.
  intros Hr Hs. unfold ecdsa_verify_raw, ecdsa_valid. cbv zeta. fold N B.
  destruct (Z.ltb_spec (N / 2) s) as [H|H]; cbn [negb andb]; [split; [discriminate|intros (_ & X); lia]|].
  destruct (Z.eqb_spec r 0) as [->|Nr]; cbn [negb andb]; [split; [discriminate|intros ((X & _) & _); lia]|].
  destruct (Z.eqb_spec s 0) as [->|Ns]; cbn [negb andb]; [split; [discriminate|intros ((_ & X & _) & _); lia]|].
  rewrite !mod_any. pose proof (w_inv_ok W HW s (not_div s ltac:(lia))) as I. fold N in I. split.
  - intros X. apply andb_true_iff in X. destruct X as (X1 & X2). apply negb_true_iff in X1. apply Z.eqb_eq in X2. split; [|lia]. split; [lia|]. split; [lia|]. exists (w_inv W s). split; [exact I|]. split; [|exact X2].
    intros E. apply (w_inf W HW) in E. congruence.
  - intros ((_ & _ & u & U & P1 & P2) & _). pose proof (inv_unique _ _ _ U I) as (q & D).
    assert (forall a (P : wG W), gmul (a * u) P = gmul (a * w_inv W s) P) as E. { intros a P. apply cong_any. exists (a * q). rewrite <- Z.mul_sub_distr_l, D. ring. }
    rewrite !E in P1, P2. rewrite P2, Z.eqb_refl, andb_true_r. apply negb_true_iff. destruct (w_is_inf W _) eqn:Q1; [|reflexivity]. apply (w_inf W HW) in Q1. contradiction.
Qed.
Lemma valid_neg z Q r s : ecdsa_valid W z Q r s -> ecdsa_valid W z Q r (N - s).
Proof.
  pose proof N_pos. intros (Hr & Hs & u & U & P1 & P2). fold N in Hr, Hs, U, P2. split; [exact Hr|]. split; [lia|]. exists (- u). split.
  - replace ((N - s) * - u) with (s * u + (- u) * N) by ring. now rewrite Z_mod_plus_full.
  - cbv zeta. assert (gadd (gmul (z * - u) (wB W)) (gmul (r * - u) Q) = gneg (gadd (gmul (z * u) (wB W)) (gmul (r * u) Q))) as ->.
    { rewrite (zg_neg_mul _ HG), (zg_mul_gadd _ HG), <- !(zg_mul_mul _ HG). f_equal; f_equal; ring. }
    split; [|rewrite (w_xneg W HW); exact P2]. intros E. apply P1. apply (zg_cancel _ HG (gneg (gadd (gmul (z * u) (wB W)) (gmul (r * u) Q)))). rewrite (zg_comm _ HG), (zg_neg _ HG), (zg_comm _ HG _ g0), (zg_0 _ HG). now rewrite E.
Qed.
Lemma compact_parse r s : 0 <= r < N -> 0 <= s < N -> sig_from_compact W (sig_compact r s) = Ok (r, s).
Proof.
  intros Hr Hs. pose proof N_pos as P. unfold sig_from_compact, sig_compact. rewrite app_length, !be_bytes_len. cbn [Nat.add Nat.eqb negb]. rewrite firstn_exact, skipn_exact by apply be_bytes_len. cbv zeta.
  rewrite !be_val_bytes by (rewrite pow256_32; lia). fold N. rewrite !(proj2 (Z.ltb_lt _ _)) by lia. reflexivity.
Qed.
Lemma low_range s : 0 < s < N -> 0 < low_s W s <= N / 2.
Proof.
  intros H. unfold low_s. fold N. pose proof (proj2 (proj2 (w_order W HW))) as O. fold N in O. pose proof (Z.div_mod N 2 ltac:(lia)) as D. rewrite Zmod_odd, O in D. destruct (Z.ltb_spec (N / 2) s); lia.
Qed.
End Ecdsa.

Lemma compact_ok W l r s : byte_list l -> sig_from_compact W l = Ok (r, s) -> length l = 64%nat /\ 0 <= r < wN W /\ 0 <= s < wN W.
Proof.
  intros Hb X. unfold sig_from_compact in X. destruct (Nat.eqb_spec (length l) 64) as [L|]; cbn [negb] in X; [|discriminate]. cbv zeta in X.
  destruct (Z.ltb_spec (be_val (firstn 32 l)) (wN W)); cbn [andb] in X; [|discriminate]. destruct (Z.ltb_spec (be_val (skipn 32 l)) (wN W)); [|discriminate].
  assert (r = be_val (firstn 32 l) /\ s = be_val (skipn 32 l)) as (-> & ->) by (split; congruence).
  assert (forall x, byte_list x -> 0 <= be_val x) as P. { intros x Hx. unfold be_val. apply (le_val_range (rev x)). apply Forall_rev. exact Hx. }
  repeat split; auto using byte_firstn, byte_skipn.
Qed.
(** what verify accepts: 64 bytes of two numbers that satisfy the textbook equation, the second not
    above half the order; other numbers are Ok(false), other bytes or keys the parse error *)
Theorem C127_verify_exact : forall W, secp_ok W -> forall message sig pk, byte_list sig ->
  (forall Q r s, w_public W pk = Ok Q -> sig_from_compact W sig = Ok (r, s) ->
     exists b, ecdsa_verify W message sig pk = Ok b /\ (b = true <-> ecdsa_valid W (be_val (w_hash W message)) Q r s /\ s <= wN W / 2)) /\
  ((exists b, ecdsa_verify W message sig pk = Ok b) \/ ecdsa_verify W message sig pk = Err ParseError).
Proof.
  intros W HW message sig pk Hb. split.
  - intros Q r s HQ X. destruct (compact_ok W sig r s Hb X) as (_ & Hr & Hs). eexists. unfold ecdsa_verify. rewrite HQ, X. cbn [rbind]. split; [reflexivity|]. now apply raw_iff.
  - unfold ecdsa_verify, w_public, sig_from_compact. destruct (_ || _); [|now right]. destruct (w_parse W pk); [|now right]. cbn [rbind]. destruct (negb _); [now right|]. cbv zeta. destruct (_ && _); [|now right]. left. eexists. reflexivity.
Qed.
(** signatures of loaded or generated keys verify (for a nonce with non-zero r and s, which the
    library looks for) *)
Theorem C127_complete : forall W, secp_ok W -> forall random o pk sk message, ecdsa_keypair W random o = Ok (pk, sk) ->
  let z := be_val (w_hash W message) in let d := be_val sk in let k := w_nonce W (w_hash W message) d in let r := ecdsa_r W k in
  ~ (wN W | k) -> r <> 0 -> ~ (wN W | z + r * d) -> exists sig, ecdsa_sign W message sk = Ok sig /\ length sig = 64%nat /\ ecdsa_verify W message sig pk = Ok true.
Proof.
  intros W HW random o pk sk message X z d k r Hk Hr Hs. pose proof (w_group W HW) as HG. pose proof (N_pos W HW) as NP.
  assert (w_secret W sk = Ok d /\ pk = w_compressed W (gmul d (wB W))) as (Sd & ->).
  { unfold ecdsa_keypair in X. match type of X with rbind ?e _ = _ => destruct e as [l|]; [|discriminate] end. cbn [rbind] in X. destruct (w_secret W l) as [d'|] eqn:Q; cbn [rbind] in X; [|discriminate]. injection X as <- <-. pose proof (w_secret_ok _ _ _ Q) as (_ & -> & _). auto. }
  destruct (w_secret_ok _ _ _ Sd) as (_ & _ & Rd). set (s := (w_inv W k * (z + r * d)) mod wN W).
  assert (0 <= r < wN W) as Rr by (apply Z.mod_pos_bound; lia). assert (0 <= s < wN W) as Rs0 by (apply Z.mod_pos_bound; lia).
  pose proof (w_inv_ok W HW k Hk) as Ik.
  assert (0 < s) as Ps. { assert (s <> 0) as Z0; [|lia]. intros E. apply Z.mod_divide in E; [|lia]. apply Hs. destruct E as (q & E). pose proof (Z.div_mod (k * w_inv W k) (wN W) ltac:(lia)) as D. rewrite Ik in D.
    exists (k * q - (z + r * d) * (k * w_inv W k / wN W)). set (a := k * w_inv W k / wN W) in *.
    replace (z + r * d) with ((z + r * d) * (k * w_inv W k - wN W * a)) at 1 by (rewrite D; ring). replace ((z + r * d) * (k * w_inv W k - wN W * a)) with (k * (w_inv W k * (z + r * d)) - (z + r * d) * (wN W * a)) by ring. rewrite E. ring. }
  pose proof (low_range W HW s (conj Ps (proj2 Rs0))) as LR.
  exists (sig_compact r (low_s W s)). unfold ecdsa_sign. rewrite Sd. cbn [rbind]. split; [reflexivity|]. split; [unfold sig_compact; now rewrite app_length, !be_bytes_len|].
  unfold ecdsa_verify. rewrite (w_public_compressed W HW) by now apply (w_mul_ne W HW). cbn [rbind].
  assert (wN W / 2 < wN W) as H2 by (apply Z.div_lt; lia).
  rewrite (compact_parse W HW) by lia. cbn [rbind]. f_equal. apply (raw_iff W HW); [exact Rr|lia|]. split; [|lia].
  assert (ecdsa_valid W z (gmul d (wB W)) r s) as V.
  { split; [lia|]. split; [lia|]. exists (w_inv W s). pose proof (w_inv_ok W HW s (not_div W s (conj Ps (proj2 Rs0)))) as I. split; [exact I|]. cbv zeta.
    assert (gadd (gmul (z * w_inv W s) (wB W)) (gmul (r * w_inv W s) (gmul d (wB W))) = gmul k (wB W)) as ->.
    { rewrite <- (zg_mul_mul _ HG), <- (zg_mul_add _ HG). apply (zg_cong _ HG _ _ (HB W HW)).
      (* (z + r d) / s = k *)
      pose proof (Z.div_mod (s * w_inv W s) (wN W) ltac:(lia)) as D1. rewrite I in D1. pose proof (Z.div_mod (k * w_inv W k) (wN W) ltac:(lia)) as D2. rewrite Ik in D2. pose proof (Z.div_mod (w_inv W k * (z + r * d)) (wN W) ltac:(lia)) as D3. fold s in D3.
      set (n := wN W) in *. set (si := w_inv W s) in *. set (ki := w_inv W k) in *. set (t := z + r * d) in *. set (a := s * si / n) in *. set (b := k * ki / n) in *. set (c := ki * t / n) in *.
      replace (z * si + r * si * d - k) with (t * si - k) by (unfold t; ring).
      exists (k * a - b * t * si + k * c * si).
      assert (s = ki * t - n * c) as Es by lia.
      assert (k * (s * si) = k * (n * a + 1)) as F1 by (rewrite D1; ring). rewrite Es in F1.
      assert (t * si * (k * ki) = t * si * (n * b + 1)) as F2 by (rewrite D2; ring). lia. }
    split; [|reflexivity]. intros E. apply (HB W HW) in E. contradiction. }
  unfold low_s. destruct (Z.ltb_spec (wN W / 2) s); [now apply valid_neg|exact V].
Qed.
(** normalize_s: idempotent; afterwards verify decides the textbook equation for the original numbers *)
Theorem C127_normalize : forall W, secp_ok W -> forall message sig pk Q r s, byte_list sig -> w_public W pk = Ok Q -> sig_from_compact W sig = Ok (r, s) ->
  exists sig', normalize_s W sig = Ok sig' /\ normalize_s W sig' = Ok sig' /\ length sig' = 64%nat /\
    (ecdsa_verify W message sig' pk = Ok true <-> ecdsa_valid W (be_val (w_hash W message)) Q r s) /\
    (s <= wN W / 2 -> sig' = sig_compact r s).
Proof.
  intros W HW message sig pk Q r s Hb HQ X. destruct (compact_ok W sig r s Hb X) as (_ & Hr & Hs). pose proof (N_pos W HW) as NP. assert (wN W / 2 < wN W) as H2 by (apply Z.div_lt; lia).
  assert (0 <= low_s W s <= wN W / 2) as LR. { destruct (Z.eq_dec s 0) as [->|N0]; [|pose proof (low_range W HW s ltac:(lia)); lia]. unfold low_s. assert (0 <= wN W / 2) by (apply Z.div_pos; lia). destruct (Z.ltb_spec (wN W / 2) 0); lia. }
  exists (sig_compact r (low_s W s)). unfold normalize_s. rewrite X. cbn [rbind]. split; [reflexivity|]. rewrite (compact_parse W HW) by lia. cbn [rbind].
  assert (low_s W (low_s W s) = low_s W s) as LL. { unfold low_s at 1. destruct (Z.ltb_spec (wN W / 2) (low_s W s)); [lia|reflexivity]. }
  rewrite LL. split; [reflexivity|]. split; [unfold sig_compact; now rewrite app_length, !be_bytes_len|]. split.
  - unfold ecdsa_verify. rewrite HQ. cbn [rbind]. rewrite (compact_parse W HW) by lia. cbn [rbind]. split.
    + intros V. assert (ecdsa_verify_raw W (be_val (w_hash W message)) Q r (low_s W s) = true) as V' by congruence. apply (raw_iff W HW) in V'; [|lia|lia]. destruct V' as (V' & _). unfold low_s in V'. destruct (Z.ltb_spec (wN W / 2) s); [|exact V'].
      apply (valid_neg W HW) in V'. now replace (wN W - (wN W - s)) with s in V' by lia.
    + intros V. f_equal. apply (raw_iff W HW); [lia|lia|]. split; [|lia]. unfold low_s. destruct (Z.ltb_spec (wN W / 2) s); [now apply valid_neg|exact V].
  - intros H. unfold low_s. destruct (Z.ltb_spec (wN W / 2) s); [lia|reflexivity].
Qed.
(** the twin (r, n - s) of an accepted signature is rejected, and normalizing it gives the accepted one *)
Theorem C127_no_malleability : forall W, secp_ok W -> forall message pk r s, 0 <= r < wN W -> 0 <= s < wN W ->
  ecdsa_verify W message (sig_compact r s) pk = Ok true ->
  ecdsa_verify W message (sig_compact r (wN W - s)) pk = Ok false /\ normalize_s W (sig_compact r (wN W - s)) = Ok (sig_compact r s).
Proof.
  intros W HW message pk r s Hr Hs V. pose proof (N_pos W HW) as NP. unfold ecdsa_verify in *. destruct (w_public W pk) as [Q|] eqn:HQ; cbn [rbind] in *; [|discriminate].
  rewrite (compact_parse W HW) in V by lia. cbn [rbind] in V. assert (ecdsa_verify_raw W (be_val (w_hash W message)) Q r s = true) as V' by congruence. apply (raw_iff W HW) in V'; [|lia|lia]. destruct V' as ((_ & Ps & _) & Hl).
  pose proof (proj2 (proj2 (w_order W HW))) as O. pose proof (Z.div_mod (wN W) 2 ltac:(lia)) as D. rewrite Zmod_odd, O in D.
  rewrite (compact_parse W HW) by lia. cbn [rbind]. split.
  - f_equal. unfold ecdsa_verify_raw. rewrite (proj2 (Z.ltb_lt (wN W / 2) (wN W - s))) by lia. reflexivity.
  - unfold normalize_s. rewrite (compact_parse W HW) by lia. cbn [rbind]. unfold low_s. rewrite (proj2 (Z.ltb_lt (wN W / 2) (wN W - s))) by lia. now replace (wN W - (wN W - s)) with s by lia.
Qed.
(** public keys: the compressed and the uncompressed form parse to the compressed form and convert to
    each other; bytes that are no point are an error of parse but a panic of the conversions *)
Theorem C127_public_keys : forall W, secp_ok W -> forall P, P <> g0 ->
  ecdsa_parse W (w_compressed W P) = Ok (w_compressed W P) /\ ecdsa_parse W (w_uncompressed W P) = Ok (w_compressed W P) /\
  public_key_compressed W (w_uncompressed W P) = Ok (w_compressed W P) /\ public_key_uncompressed W (w_compressed W P) = Ok (w_uncompressed W P).
Proof. intros W HW P HP. unfold ecdsa_parse, public_key_compressed, public_key_uncompressed. rewrite (w_public_compressed W HW), (w_public_uncompressed W HW) by exact HP. repeat split; reflexivity. Qed.
Theorem C127_refuted_no_panic : forall W pk, length pk <> 33%nat -> length pk <> 65%nat ->
  ecdsa_parse W pk = Err ParseError /\ public_key_compressed W pk = Err Panic /\ public_key_uncompressed W pk = Err Panic.
Proof. intros W pk H1 H2. unfold ecdsa_parse, public_key_compressed, public_key_uncompressed, w_public. rewrite (proj2 (Nat.eqb_neq _ _) H1), (proj2 (Nat.eqb_neq _ _) H2). repeat split; reflexivity. Qed.

(** ** C128: ed25519 from C *)
Theorem C128_verify : forall C, c25519_ok C -> forall message sig pk, byte_list (to_vec sig) ->
  (ed_valid C (to_vec pk) (to_vec message) (to_vec sig) -> ffi_verify C message sig pk = Ok (mkSigFfi 1 (Some 0) None None)) /\
  (~ ed_valid C (to_vec pk) (to_vec message) (to_vec sig) -> ffi_verify C message sig pk = Ok (mkSigFfi 0 (Some 3) None None)).
Proof.
  intros C HC message sig pk Hb. destruct (C126_verify_exact C HC (to_vec message) (to_vec sig) (to_vec pk) Hb) as (E & O). unfold ffi_verify. split; intros V.
  - apply E in V. now rewrite V.
  - destruct O as [O|[O|O]]; rewrite O; [elim V; now apply E|reflexivity..].
Qed.
Theorem C128_keys_and_signatures : forall C, c25519_ok C -> (forall P, byte_list (e_compress C P)) -> forall random seed message, length random = 32%nat ->
  (exists pk sk, ffi_keypair_new C random = Ok (mkSigFfi 1 (Some 0) (Some pk) (Some sk))) /\
  (exists pk sk, ffi_keypair_from_seed C seed = Ok (mkSigFfi 1 (Some 0) (Some pk) (Some sk))) /\
  forall pk sk, ffi_keypair_new C random = Ok (mkSigFfi 1 (Some 0) (Some pk) (Some sk)) \/ ffi_keypair_from_seed C seed = Ok (mkSigFfi 1 (Some 0) (Some pk) (Some sk)) ->
    ffi_get_public_key C (Some sk) = Ok (mkSigFfi 1 (Some 0) (Some pk) None) /\
    exists sig, ffi_sign C message (Some sk) = Ok (mkSigFfi 1 (Some 0) (Some sig) None) /\ ffi_verify C message (Some sig) (Some pk) = Ok (mkSigFfi 1 (Some 0) None None).
Proof.
  intros C HC HB random seed message Lr. split; [|split].
  - do 2 eexists. reflexivity.
  - unfold ffi_keypair_from_seed, ffi_keypair_gen, ed_keypair. rewrite (array_ref_exact _ 32) by apply (c_sha256 C HC). do 2 eexists. reflexivity.
  - intros pk sk X.
    assert (exists r o, length r = 32%nat /\ (forall s, o <> Some (FromSecretKey s)) /\ ed_keypair C r o = Ok (pk, sk)) as (r & o & Lr' & N & K).
    { destruct X as [X|X]; unfold ffi_keypair_new, ffi_keypair_from_seed, ffi_keypair_gen in X.
      - destruct (ed_keypair C random None) as [[p s]|e] eqn:Q; [|destruct e; discriminate]. injection X as -> ->. exists random, None. repeat split; auto; discriminate.
      - destruct (ed_keypair C [] (Some (UseSeed (to_vec seed)))) as [[p s]|e] eqn:Q; [|destruct e; discriminate]. injection X as -> ->. exists random, (Some (UseSeed (to_vec seed))). repeat split; auto; discriminate. }
    split.
    + unfold ffi_get_public_key, ffi_keypair_gen. cbn [to_vec]. destruct (ed_kp C HC r o pk sk Lr' N K) as (secret & L & -> & ->). unfold ed_keypair. unfold ed_public at 1. rewrite (matched_keypair C HC) by exact L. reflexivity.
    + destruct (C126_complete C HC HB r o [] pk sk (to_vec message) Lr' N (or_introl K)) as (sig & S & _ & V). exists sig. unfold ffi_sign, ffi_verify. cbn [to_vec]. rewrite S, V. split; reflexivity.
Qed.
(** private keys that are not 64 bytes with a point in the second half: code 1 and 2 *)
Theorem C128_errors : forall C sk message, length (to_vec sk) <> 64%nat ->
  ffi_get_public_key C sk = Ok (mkSigFfi 0 (Some 1) None None) /\ ffi_sign C message sk = Ok (mkSigFfi 0 (Some 2) None None).
Proof. intros C sk message L. unfold ffi_get_public_key, ffi_sign, ffi_keypair_gen, ed_keypair, ed_sign, keypair_from_bytes. rewrite (proj2 (Nat.eqb_neq _ _) L). split; reflexivity. Qed.
(** refuted: a missing seed is not an error; every caller who passes none gets the same key pair *)
Theorem C128_refuted_seed_required : forall C, c25519_ok C -> exists pk sk, ffi_keypair_from_seed C None = Ok (mkSigFfi 1 (Some 0) (Some pk) (Some sk)) /\ ffi_keypair_from_seed C (Some []) = Ok (mkSigFfi 1 (Some 0) (Some pk) (Some sk)).
Proof. intros C HC. unfold ffi_keypair_from_seed, ffi_keypair_gen, ed_keypair. cbn [to_vec]. rewrite (array_ref_exact _ 32) by apply (c_sha256 C HC). do 2 eexists. split; reflexivity. Qed.
