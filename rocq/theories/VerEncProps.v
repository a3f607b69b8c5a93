(** Properties of the Camenisch-Shoup verifiable encryption (C114-C116). *)
From Verif Require Import Base BnModel BnProofs ClModel UMod Fermat VerEncModel VerEncLib.
From Coq Require Import List ZArith Lia Znumtheory Zpow_facts. Import ListNotations.
Open Scope Z_scope.

(** * C114: what is decrypted is what was encrypted, modulo n *)
Theorem C114_keygen num p q g' dx dx2 dx3 :
  3 <= p * q -> Z.odd (p * q) = true -> Z.gcd g' (p * q) = 1 ->
  ((1 <= num)%nat -> exists sk pk, cs_keypair_new num p q g' dx dx2 dx3 = Ok (sk, pk)
      /\ sk_x1 sk = map dx (seq 0 num) /\ length (pk_y1 pk) = num) /\
  (num = 0%nat -> cs_keypair_new num p q g' dx dx2 dx3 = Err InvalidStructure).
Proof.
  intros Hn Ho Hg. split.
  - intros L. destruct (keygen_ok (p * q) Hn Ho num p q g' dx dx2 dx3 eq_refl Hg L) as (sk & pk & g & E & K).
    exists sk, pk. split; [exact E|]. destruct K as [-> ->]. cbn [sk_x1 pk_y1]. now rewrite !map_length, seq_length.
  - intros ->. reflexivity.
Qed.

Lemma keygen_inv num p q g' dx dx2 dx3 sk pk (Hn : 3 <= p * q) (Ho : Z.odd (p * q) = true) :
  Z.gcd g' (p * q) = 1 -> cs_keypair_new num p q g' dx dx2 dx3 = Ok (sk, pk) ->
  exists g, keyok (p * q) Hn g (map dx (seq 0 num)) dx2 dx3 sk pk.
Proof.
  intros Hg E. assert (L : (1 <= num)%nat) by (destruct num; [discriminate|lia]).
  destruct (keygen_ok (p * q) Hn Ho num p q g' dx dx2 dx3 eq_refl Hg L) as (sk' & pk' & g & E' & K).
  rewrite E in E'. injection E' as <- <-. now exists g.
Qed.
Lemma seq_map_len {A} (dx : nat -> A) num : length (map dx (seq 0 num)) = num.
Proof. now rewrite map_length, seq_length. Qed.

Theorem C114_roundtrip H num p q g' dx dx2 dx3 sk pk :
  3 <= p * q -> Z.odd (p * q) = true -> Z.gcd g' (p * q) = 1 ->
  cs_keypair_new num p q g' dx dx2 dx3 = Ok (sk, pk) ->
  forall r ms label, (length ms <= num)%nat ->
  exists ct, cs_encrypt H r ms label pk = Ok ct
    /\ length (ct_e ct) = length ms
    /\ cs_decrypt H label ct pk sk = Ok (map (fun m => m mod (p * q)) ms).
Proof.
  intros Hn Ho Hg E r ms label L.
  destruct (keygen_inv _ _ _ _ _ _ _ _ _ Hn Ho Hg E) as (g & K).
  assert (L' : (length ms <= length (map dx (seq 0 num)))%nat) by (rewrite seq_map_len; lia).
  destruct (enc_eq _ Hn _ _ _ _ _ _ K H r ms label L') as (v & E1 & E2 & E3).
  exists (ctof (p * q) Hn g (map dx (seq 0 num)) r ms v).
  split; [rewrite (cs_encrypt_eq _ Hn _ _ _ _ _ _ K H r ms label L'); exact E1|].
  split; [cbn [ct_e ctof]; now rewrite map_length, seq_length|].
  rewrite (decrypt_enc _ Hn _ _ _ _ _ _ K H r ms label v L' E2).
  rewrite E3. unfold hs_of. cbn [ct_u ctof].
  set (hs := cs_hash H _ _ _).
  replace (zpow _ (HN (p * q) Hn) (zpow _ (HN (p * q) Hn) g r) (2 * (dx2 + hs * dx3)))
     with (zpow _ (HN (p * q) Hn) (vU (p * q) Hn g dx2 dx3 r hs) 2); [now rewrite Z.eqb_refl|].
  unfold vU. umod_ring.
Qed.

(** messages below n come back unchanged *)
Theorem C114_exact H num p q g' dx dx2 dx3 sk pk :
  3 <= p * q -> Z.odd (p * q) = true -> Z.gcd g' (p * q) = 1 ->
  cs_keypair_new num p q g' dx dx2 dx3 = Ok (sk, pk) ->
  forall r ms label ct, (forall m, In m ms -> 0 <= m < p * q) ->
  cs_encrypt H r ms label pk = Ok ct -> cs_decrypt H label ct pk sk = Ok ms.
Proof.
  intros Hn Ho Hg E r ms label ct Hm Ec.
  assert (L : (length ms <= num)%nat).
  { destruct (keygen_inv _ _ _ _ _ _ _ _ _ Hn Ho Hg E) as (g & K). destruct K as [_ ->]. unfold cs_encrypt in Ec. cbn [pk_y1] in Ec.
    rewrite !map_length, seq_length in Ec. destruct (Nat.ltb_spec num (length ms)); [discriminate|lia]. }
  destruct (C114_roundtrip H num p q g' dx dx2 dx3 sk pk Hn Ho Hg E r ms label L) as (ct' & E1 & _ & E2).
  rewrite Ec in E1. injection E1 as <-. rewrite E2. f_equal. rewrite <- (map_id ms) at 2. apply map_ext_in.
  intros m Hin. apply Z.mod_small. now apply Hm.
Qed.

Theorem C114_too_many H r ms label pk sk ct :
  ((length (pk_y1 pk) < length ms)%nat -> cs_encrypt H r ms label pk = Err InvalidStructure) /\
  ((length (sk_x1 sk) < length (ct_e ct))%nat -> cs_decrypt H label ct pk sk = Err InvalidStructure).
Proof.
  split; intros L.
  - unfold cs_encrypt. now destruct (Nat.ltb_spec (length (pk_y1 pk)) (length ms)); [|lia].
  - unfold cs_decrypt. now destruct (Nat.ltb_spec (length (sk_x1 sk)) (length (ct_e ct))); [|lia].
Qed.

(** a message of n or more is accepted and silently reduced: two messages, one plaintext *)
Theorem C114_refuted_any_message H num p q g' dx dx2 dx3 sk pk :
  3 <= p * q -> Z.odd (p * q) = true -> Z.gcd g' (p * q) = 1 ->
  cs_keypair_new num p q g' dx dx2 dx3 = Ok (sk, pk) ->
  forall r m label, exists ct ct',
    cs_encrypt H r [m] label pk = Ok ct /\ cs_encrypt H r [m + p * q] label pk = Ok ct' /\ ct = ct'.
Proof.
  intros Hn Ho Hg E r m label.
  destruct (keygen_inv _ _ _ _ _ _ _ _ _ Hn Ho Hg E) as (g & K).
  assert (L0 : (1 <= num)%nat) by (destruct num; [discriminate|lia]).
  assert (L : forall x : Z, (length [x] <= length (map dx (seq 0 num)))%nat) by (intros x; rewrite seq_map_len; exact L0).
  destruct (enc_eq _ Hn _ _ _ _ _ _ K H r [m] label (L m)) as (v & E1 & _).
  exists (ctof (p * q) Hn g (map dx (seq 0 num)) r [m] v), (ctof (p * q) Hn g (map dx (seq 0 num)) r [m] v).
  rewrite !(cs_encrypt_eq _ Hn _ _ _ _ _ _ K H r _ label (L _)). split; [exact E1|]. split; [|reflexivity].
  rewrite <- E1. unfold encrypt_using_random_value.
  assert (C : compute_e [m + p * q] r pk = compute_e [m] r pk).
  { rewrite !(compute_e_eq _ Hn _ _ _ _ _ _ K _ _ (L _)). cbn [length seq map nth].
    assert (Eh : hk (p * q) Hn (m + p * q) = hk (p * q) Hn m).
    { apply hk_eq. replace (m + p * q) with (m + 1 * (p * q)) by ring. apply Z.mod_add. lia. }
    unfold eU. rewrite Eh. reflexivity. }
  rewrite C. reflexivity.
Qed.

(** * C115: integrity of ciphertexts and labels *)
Section Units.
Variable n : Z.
Hypothesis Hn : 3 <= n.
Local Notation N := (n * n).
Local Notation zpow := (zpow N (HN n Hn)).
Lemma uv_zpow (a : U N) k : 0 <= k -> uv (zpow a k) = uv a ^ k mod N.
Proof.
  intros Hk. rewrite <- (Z2Nat.id k Hk) at 1. rewrite zpow_nat. rewrite uv_upow. now rewrite Z2Nat.id.
Qed.
Lemma uof_pow x G k : 0 <= k -> uv (zpow (uof N (HN n Hn) x G) k) = x ^ k mod N.
Proof. intros Hk. rewrite uv_zpow by exact Hk. rewrite uof_mod. symmetry. apply Zpower_mod. pose proof (HN n Hn). lia. Qed.
End Units.

Lemma hash_nonneg H u e label : (forall l, Forall (fun b => 0 <= b) (H l)) -> 0 <= cs_hash H u e label.
Proof.
  intros HH. unfold cs_hash, get_hash_as_int, bn_hash_array, bn_from_bytes.
  specialize (HH (concat ([bn_to_bytes u] ++ map bn_to_bytes e ++ [label]))).
  set (l := H _) in *. clearbody l. assert (G : forall acc, 0 <= acc -> 0 <= fold_left (fun a b => a * 256 + b) l acc).
  { induction HH as [|b l Hb HH IH]; intros acc Ha; cbn [fold_left]; [exact Ha|]. apply IH. lia. }
  apply G. lia.
Qed.

Lemma unit_of n (Hn : 3 <= n) x : Z.gcd x n = 1 ->
  exists a : U (n * n), x mod (n * n) = uv a /\ forall k, 0 <= k -> uv (zpow (n * n) (HN n Hn) a k) = x ^ k mod (n * n).
Proof.
  intros G. exists (uof (n * n) (HN n Hn) x (gcd_sqr _ _ G)). split; [reflexivity|]. intros k Hk. now apply uof_pow.
Qed.
Lemma hash_cat H u e label : cs_hash H u e label = bn_from_bytes (H (bn_to_bytes u ++ concat (map bn_to_bytes e) ++ label)).
Proof. unfold cs_hash, get_hash_as_int, bn_hash_array. cbn [app concat]. rewrite concat_app. cbn [concat]. now rewrite app_nil_r. Qed.

Section Accept.
Variable n : Z.
Hypothesis Hn : 3 <= n.
Hypothesis Ho : Z.odd n = true.
Local Notation N := (n * n).
Local Notation zpow := (zpow N (HN n Hn)).
Local Notation umul := (umul N (HN n Hn)).
Local Notation uinv := (uinv N (HN n Hn)).
Variables (g : U N) (xs : list Z) (a2 a3 : Z) (sk : cs_pri) (pk : cs_pub).
Hypothesis K : keyok n Hn g xs a2 a3 sk pk.

(** the absolute value check *)
Lemma abs_check v : (forall e0, pg_abs (grp n g) v <> Err e0) /\ (pg_abs (grp n g) v = Ok v <-> 0 <= 2 * v <= N).
Proof.
  pose proof (HN n Hn) as HN2. unfold pg_abs. cbn [pg_modulus grp]. rewrite bn_modulus_pos by lia. cbn [rbind].
  pose proof (half_spec N ltac:(lia)) as Hh. pose proof (Z.mod_pos_bound v N ltac:(lia)) as Bv.
  assert (Nodd : Z.odd N = true) by (rewrite Z.odd_mul, Ho; reflexivity).
  rewrite Z.odd_spec in Nodd. destruct Nodd as [kk Hkk]. unfold bn_sub.
  destruct (Z.ltb_spec (bn_rshift N 1) (v mod N)) as [T|T]; (split; [discriminate|]); split; intros Q.
  - injection Q as Q. lia.
  - rewrite (Z.mod_small v N) in T by lia. lia.
  - injection Q as Q. lia.
  - rewrite Z.mod_small by lia. reflexivity.
Qed.

(** decryption of one component of an arbitrary ciphertext *)
Lemma decrypt_at_iff ct i m : (i < length xs)%nat -> (i < length (ct_e ct))%nat -> 0 <= xat xs i ->
  Z.gcd (ct_u ct) n = 1 -> Z.gcd (nth i (ct_e ct) 0) n = 1 ->
  decrypt_at ct pk sk i = Ok m <->
  (0 <= m < n /\ (nth i (ct_e ct) 0 ^ (n + 1)) mod N = (ct_u ct ^ (xat xs i * (n + 1)) * (1 + m * n)) mod N).
Proof.
  intros Hi He Hx Gu Gi.
  destruct (unit_of n Hn _ Gu) as (U0 & MU & EU). destruct (unit_of n Hn _ Gi) as (Ei & ME & EE).
  rewrite (decrypt_at_eq _ Hn _ _ _ _ _ _ K ct i U0 Ei (nth i (ct_e ct) 0) Hi);
    [| intros k ->; apply exp_unred; assumption | apply nth_error_nth'; lia | exact ME].
  remember (mhat n Hn U0 Ei (xat xs i)) as mh eqn:Emh.
  assert (Eq : forall k, mh = hk n Hn k <-> (nth i (ct_e ct) 0 ^ (n + 1)) mod N = (ct_u ct ^ (xat xs i * (n + 1)) * (1 + k * n)) mod N).
  { intros k. rewrite <- (EE (n + 1)) by lia.
    rewrite <- Zmult_mod_idemp_l. rewrite <- (EU (xat xs i * (n + 1))) by nia.
    rewrite <- Zmult_mod_idemp_r. rewrite <- (uof_mod n Hn _ (hk_gcd n k)). fold (hk n Hn k).
    rewrite <- (uv_mul N (HN n Hn)).
    assert (Em : mh = umul (zpow Ei (n + 1)) (uinv (zpow U0 (xat xs i * (n + 1))))) by (rewrite Emh; unfold mhat; umod_ring).
    split.
    - intros Q. f_equal. apply (umul_cancel_l N (HN n Hn) (uinv (zpow U0 (xat xs i * (n + 1))))).
      rewrite umul_comm, <- Em, Q. umod_ring.
    - intros Q. apply uv_inj in Q. rewrite Em, Q. umod_ring. }
  destruct (Z.eqb_spec (uv mh mod n) 1) as [D|D].
  - pose proof (hk_of n Hn mh D) as Q. split.
    + intros T. injection T as <-. split; [|apply Eq; exact Q].
      pose proof (uv_range N mh) as R. pose proof (Z.div_mod (uv mh) n ltac:(lia)) as DD. rewrite D in DD.
      replace (uv mh - 1) with ((uv mh / n) * n) by lia. rewrite Z.div_mul by lia.
      split; [apply Z.div_pos; lia|]. apply Z.div_lt_upper_bound; lia.
    + intros (R & T). apply Eq in T. f_equal. rewrite T. rewrite (proj2 (decrypt_at_hk n Hn m)). apply Z.mod_small. exact R.
  - split; [discriminate|]. intros (_ & T). apply Eq in T. rewrite T in D. exfalso. apply D. apply uv_hk_mod.
Qed.

Lemma accepts_iff H label ct ms :
  (forall l, Forall (fun b => 0 <= b) (H l)) -> Forall (fun x => 0 <= x) xs -> 0 <= a2 -> 0 <= a3 ->
  Z.gcd (ct_u ct) n = 1 -> Z.gcd (ct_v ct) n = 1 -> (forall x, In x (ct_e ct) -> Z.gcd x n = 1) ->
  cs_decrypt H label ct pk sk = Ok ms <->
  ((length (ct_e ct) <= length xs)%nat /\ length ms = length (ct_e ct) /\
   0 <= 2 * ct_v ct <= N /\
   (ct_v ct ^ 2) mod N = (ct_u ct ^ (2 * (a2 + cs_hash H (ct_u ct) (ct_e ct) label * a3))) mod N /\
   forall i, (i < length (ct_e ct))%nat ->
     0 <= nth i ms 0 < n /\
     (nth i (ct_e ct) 0 ^ (n + 1)) mod N = (ct_u ct ^ (xat xs i * (n + 1)) * (1 + nth i ms 0 * n)) mod N).
Proof.
  intros HH Hx Ha2 Ha3 Gu Gv Ge. remember (cs_hash H (ct_u ct) (ct_e ct) label) as hs eqn:Ehs.
  assert (Hhs : 0 <= hs) by (rewrite Ehs; apply hash_nonneg; exact HH).
  assert (Hex : 0 <= 2 * (a2 + hs * a3)) by nia.
  destruct (Nat.leb_spec (length (ct_e ct)) (length xs)) as [Le|Le].
  2:{ split; [|intros (L & _); lia]. intros D. unfold cs_decrypt in D. destruct K as [Ks _]. rewrite Ks in D. cbn [sk_x1] in D.
      destruct (Nat.ltb_spec (length xs) (length (ct_e ct))); [discriminate|lia]. }
  destruct (unit_of n Hn _ Gu) as (U0 & MU & EU). destruct (unit_of n Hn _ Gv) as (V0 & MV & EV).
  rewrite (decrypt_eq _ Hn _ _ _ _ _ _ K H label ct U0 V0 Le);
    [| unfold hs_of; rewrite <- Ehs, exp_shift; now apply exp_unred | exact MV].
  unfold hs_of. rewrite <- Ehs. rewrite (EV 2 ltac:(lia)), (EU _ Hex).
  destruct (abs_check (ct_v ct)) as (NE & AC).
  destruct (pg_abs (grp n g) (ct_v ct)) as [av|e0] eqn:Eav; [|exfalso; now apply (NE e0)]. cbn [rbind].
  destruct (Z.eqb_spec (ct_v ct) av) as [Q|Q]; cbn [negb].
  2:{ split; [discriminate|]. intros (_ & _ & R & _). apply AC in R. injection R as R. exfalso. apply Q. now symmetry. }
  destruct (Z.eqb_spec (ct_v ct ^ 2 mod N) (ct_u ct ^ (2 * (a2 + hs * a3)) mod N)) as [Q2|Q2]; cbn [negb].
  2:{ split; [discriminate|]. intros (_ & _ & _ & R & _). contradiction. }
  assert (Hxa : forall i, (i < length xs)%nat -> 0 <= xat xs i).
  { intros i Hi. rewrite Forall_forall in Hx. apply Hx. unfold xat. apply nth_In. exact Hi. }
  split.
  - intros D. apply rmap_out in D. destruct D as (D1 & D2). rewrite seq_length in D1.
    split; [exact Le|]. split; [exact D1|]. split; [apply AC; now rewrite Q|]. split; [exact Q2|].
    intros i Hi. destruct (D2 i i (nth_error_seq0 _ _ Hi)) as (m & Em & Dm).
    rewrite (nth_error_nth _ _ 0 Em). apply decrypt_at_iff; [lia|exact Hi|apply Hxa; lia|exact Gu| |exact Dm]. apply Ge, nth_In, Hi.
  - intros (_ & Lm & _ & _ & D). rewrite (rmap_all _ (fun i => nth i ms 0)).
    + f_equal. rewrite <- Lm. etransitivity; [apply (map_nth_seq n ms (fun m => m))|apply map_id].
    + intros i Hi. apply in_seq in Hi. apply decrypt_at_iff; [lia|lia|apply Hxa; lia|exact Gu|apply Ge, nth_In; lia|]. apply D. lia.
Qed.
End Accept.

(** exactly which ciphertexts decrypt, and to what *)
Theorem C115_accepts_iff H num p q g' dx dx2 dx3 sk pk :
  3 <= p * q -> Z.odd (p * q) = true -> Z.gcd g' (p * q) = 1 ->
  cs_keypair_new num p q g' dx dx2 dx3 = Ok (sk, pk) ->
  (forall l, Forall (fun b => 0 <= b) (H l)) -> (forall i, 0 <= dx i) -> 0 <= dx2 -> 0 <= dx3 ->
  forall u e v label ms,
  Z.gcd u (p * q) = 1 -> Z.gcd v (p * q) = 1 -> (forall x, In x e -> Z.gcd x (p * q) = 1) ->
  cs_decrypt H label {| ct_u := u; ct_e := e; ct_v := v |} pk sk = Ok ms <->
  (let n := p * q in
   let hs := bn_from_bytes (H (bn_to_bytes u ++ concat (map bn_to_bytes e) ++ label)) in
   (length e <= num)%nat /\ length ms = length e /\
   0 <= 2 * v <= n * n /\
   (v ^ 2) mod (n * n) = (u ^ (2 * (dx2 + hs * dx3))) mod (n * n) /\
   forall i, (i < length e)%nat ->
     0 <= nth i ms 0 < n /\
     (nth i e 0 ^ (n + 1)) mod (n * n) = (u ^ (dx i * (n + 1)) * (1 + nth i ms 0 * n)) mod (n * n)).
Proof.
  intros Hn Ho Hg E HH Hdx Hd2 Hd3 u e v label ms Gu Gv Ge.
  destruct (keygen_inv _ _ _ _ _ _ _ _ _ Hn Ho Hg E) as (g & K).
  rewrite (accepts_iff _ Hn Ho _ _ _ _ _ _ K H label {| ct_u := u; ct_e := e; ct_v := v |} ms HH); try assumption.
  2:{ apply Forall_forall. intros x Hx. apply in_map_iff in Hx. destruct Hx as (i & <- & _). apply Hdx. }
  cbn [ct_u ct_e ct_v]. rewrite hash_cat, seq_map_len. cbv zeta.
  split; intros (L & L2 & A & B & C); (split; [exact L|split; [exact L2|split; [exact A|split; [exact B|]]]]);
    intros i Hi; specialize (C i Hi);
    assert (Ex : xat (map dx (seq 0 num)) i = dx i)
      by (unfold xat; rewrite (nth_indep _ 0 (dx 0%nat)) by (rewrite seq_map_len; lia); rewrite map_nth, seq_nth by lia; reflexivity);
    rewrite Ex in *; exact C.
Qed.

(** a ciphertext made under one label, opened under another: the error, or the same messages,
    and the latter exactly when the two hashes agree up to the order of the generator *)
Theorem C115_other_label H num p q g' dx dx2 dx3 sk pk :
  3 <= p * q -> Z.odd (p * q) = true -> Z.gcd g' (p * q) = 1 ->
  cs_keypair_new num p q g' dx dx2 dx3 = Ok (sk, pk) ->
  (forall l, Forall (fun b => 0 <= b) (H l)) -> 0 <= dx3 ->
  forall r ms label label' ct, 0 <= r ->
  cs_encrypt H r ms label pk = Ok ct ->
  let hs l := bn_from_bytes (H (bn_to_bytes (ct_u ct) ++ concat (map bn_to_bytes (ct_e ct)) ++ l)) in
  let N := (p * q) * (p * q) in
  let same := (pg_g (pk_group pk) ^ (2 * r * dx3 * hs label)) mod N = (pg_g (pk_group pk) ^ (2 * r * dx3 * hs label')) mod N in
  (same -> cs_decrypt H label' ct pk sk = Ok (map (fun m => m mod (p * q)) ms)) /\
  (~ same -> cs_decrypt H label' ct pk sk = Err InvalidStructure).
Proof.
  intros Hn Ho Hg E HH Hd3 r ms label label' ct Hr Ec.
  destruct (keygen_inv _ _ _ _ _ _ _ _ _ Hn Ho Hg E) as (g & K).
  assert (L : (length ms <= length (map dx (seq 0 num)))%nat).
  { destruct K as [_ Kp]. rewrite Kp in Ec. unfold cs_encrypt in Ec. cbn [pk_y1] in Ec. rewrite map_length in Ec.
    destruct (Nat.ltb_spec (length (map dx (seq 0 num))) (length ms)); [discriminate|lia]. }
  rewrite (cs_encrypt_eq _ Hn _ _ _ _ _ _ K H r ms label L) in Ec.
  destruct (enc_eq _ Hn _ _ _ _ _ _ K H r ms label L) as (v & E1 & E2 & E3).
  assert (Ect : ct = ctof (p * q) Hn g (map dx (seq 0 num)) r ms v) by (rewrite Ec in E1; now injection E1).
  cbv zeta.
  pose proof (decrypt_enc _ Hn _ _ _ _ _ _ K H r ms label' v L E2) as D. rewrite <- Ect in D. rewrite D. clear D.
  rewrite <- Ect in E3. assert (Eu : uv (zpow _ (HN _ Hn) g r) = ct_u ct) by (rewrite Ect; reflexivity). rewrite Eu in E3.
  rewrite E3. unfold hs_of. rewrite <- !hash_cat.
  assert (Hp : forall l, 0 <= 2 * r * dx3 * cs_hash H (ct_u ct) (ct_e ct) l) by (intros l; pose proof (hash_nonneg H (ct_u ct) (ct_e ct) l HH); nia).
  assert (Eg : pg_g (pk_group pk) = uv g) by (destruct K as [_ ->]; reflexivity).
  rewrite Eg. rewrite <- !(uv_zpow _ Hn g) by apply Hp.
  clear E3 E1 E2 Ect Ec Eu Hp Eg HH K E. generalize (cs_hash H (ct_u ct) (ct_e ct) label) (cs_hash H (ct_u ct) (ct_e ct) label').
  intros h h'. revert Hn g. clear. generalize (p * q). intros n Hn g.
  unfold vU. set (A := zpow (n * n) (HN n Hn) g (2 * r * dx2)).
  assert (Q1 : zpow _ (HN n Hn) (zpow _ (HN n Hn) (umul _ (HN n Hn) (zpow _ (HN n Hn) g dx2) (zpow _ (HN n Hn) (zpow _ (HN n Hn) g dx3) h)) r) 2
      = umul _ (HN n Hn) A (zpow _ (HN n Hn) g (2 * r * dx3 * h))) by (unfold A; umod_ring).
  assert (Q2 : zpow _ (HN n Hn) (zpow _ (HN n Hn) g r) (2 * (dx2 + h' * dx3))
      = umul _ (HN n Hn) A (zpow _ (HN n Hn) g (2 * r * dx3 * h'))) by (unfold A; umod_ring).
  rewrite Q1, Q2.
  destruct (Z.eqb_spec (uv (umul _ (HN n Hn) A (zpow _ (HN n Hn) g (2 * r * dx3 * h)))) (uv (umul _ (HN n Hn) A (zpow _ (HN n Hn) g (2 * r * dx3 * h'))))) as [Q|Q].
  - split; [reflexivity|]. intros T. exfalso. apply T. apply uv_inj in Q. apply umul_cancel_l in Q. now rewrite Q.
  - split; [|reflexivity]. intros T. exfalso. apply Q. apply uv_inj in T. now rewrite T.
Qed.
