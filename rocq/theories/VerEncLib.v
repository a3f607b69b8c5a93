(** Lemmas about the Paillier group and the functions of VerEncModel. *)
From Verif Require Import Base BnModel BnProofs ClModel UMod Fermat VerEncModel.
From Coq Require Import List ZArith Lia Znumtheory. Import ListNotations.
Open Scope Z_scope.

Lemma gcd_sqr x n : Z.gcd x n = 1 -> Z.gcd x (n * n) = 1.
Proof.
  intros H. apply Zgcd_1_rel_prime in H. apply Zgcd_1_rel_prime. now apply rel_prime_mult.
Qed.
Lemma gcd_unsqr x n : Z.gcd x (n * n) = 1 -> Z.gcd x n = 1.
Proof.
  intros H. apply Zgcd_1_rel_prime in H. apply Zgcd_1_rel_prime. apply rel_prime_sym in H. apply rel_prime_sym.
  apply (rel_prime_div (n * n)); [exact H|]. exists n. reflexivity.
Qed.
Lemma lshift1_2 x : bn_lshift1 x = 2 * x.
Proof. unfold bn_lshift1. rewrite Z.shiftl_mul_pow2 by lia. change (2 ^ 1) with 2. lia. Qed.
Lemma half_spec x : 0 <= x -> 2 * (bn_rshift x 1) <= x <= 2 * bn_rshift x 1 + 1.
Proof.
  intros Hx. unfold bn_rshift. rewrite Z.shiftr_div_pow2 by lia. change (2 ^ 1) with 2.
  pose proof (Z.div_mod x 2 ltac:(lia)). pose proof (Z.mod_pos_bound x 2 ltac:(lia)). lia.
Qed.
Lemma idxz_ok l i x : nth_error l i = Some x -> idxz l i = Ok x.
Proof. unfold idxz. now intros ->. Qed.
Lemma idxz_map {A} (f : A -> Z) l i x : nth_error l i = Some x -> idxz (map f l) i = Ok (f x).
Proof. intros E. apply idxz_ok. now rewrite nth_error_map, E. Qed.
Lemma nth_error_seq0 n i : (i < n)%nat -> nth_error (seq 0 n) i = Some i.
Proof.
  intros H. rewrite (nth_error_nth' _ 0%nat) by (rewrite seq_length; lia). f_equal. now rewrite seq_nth.
Qed.
Lemma rmap_all {A B} (f : A -> res B) (g : A -> B) l : (forall x, In x l -> f x = Ok (g x)) -> rmap f l = Ok (map g l).
Proof.
  induction l as [|a l IH]; intros E; cbn [rmap map]; [reflexivity|].
  rewrite (E a (or_introl eq_refl)). cbn [rbind]. rewrite IH by (intros x Hx; apply E; now right). reflexivity.
Qed.
Lemma rmap_out {A B} (f : A -> res B) l r : rmap f l = Ok r ->
  length r = length l /\ forall i a, nth_error l i = Some a -> exists b, nth_error r i = Some b /\ f a = Ok b.
Proof.
  revert r. induction l as [|a l IH]; intros r; cbn [rmap].
  - intros E. injection E as <-. split; [reflexivity|]. intros [|i] x; discriminate.
  - destruct (f a) as [b|] eqn:Ea; cbn [rbind]; [|discriminate].
    destruct (rmap f l) as [bs|] eqn:El; cbn [rbind]; [|discriminate].
    intros E. injection E as <-. destruct (IH bs eq_refl) as (L & Q). split; [cbn [length]; now rewrite L|].
    intros [|i] x Hx; cbn [nth_error] in *.
    + injection Hx as <-. now exists b.
    + now apply Q.
Qed.

Section Paillier.
Variable n : Z.
Hypothesis Hn : 3 <= n.
Hypothesis Hodd : Z.odd n = true.
Let N := n * n.
Lemma HN : 2 <= N. Proof. unfold N. nia. Qed.
Local Notation U := (U N).
Local Notation uv := (@uv N).
Local Notation umul := (umul N HN).
Local Notation uinv := (uinv N HN).
Local Notation zpow := (zpow N HN).
Local Notation u1 := (u1 N HN).
Local Notation uof := (uof N HN).

(** the subgroup of elements congruent to 1 modulo n *)
Lemma hk_gcd k : Z.gcd (1 + k * n) N = 1.
Proof.
  apply gcd_sqr. rewrite Z.gcd_comm, Z.add_comm. replace (k * n + 1) with (1 + k * n) by ring.
  rewrite Z.gcd_add_mult_diag_r. apply Z.gcd_1_r.
Qed.
Definition hk (k : Z) : U := uof (1 + k * n) (hk_gcd k).
Lemma uv_hk k : uv (hk k) = 1 + (k mod n) * n.
Proof.
  unfold hk. cbn [UMod.uv UMod.uof].
  pose proof (Z.div_mod k n ltac:(lia)) as D. pose proof (Z.mod_pos_bound k n ltac:(lia)) as B.
  replace (1 + k * n) with (1 + (k mod n) * n + (k / n) * N) by (unfold N; nia).
  rewrite Z.mod_add by (unfold N; nia). apply Z.mod_small. unfold N. nia.
Qed.
Lemma hk_eq a b : hk a = hk b <-> a mod n = b mod n.
Proof.
  split.
  - intros E. apply (f_equal uv) in E. rewrite !uv_hk in E. nia.
  - intros E. apply uv_inj. rewrite !uv_hk. now rewrite E.
Qed.
Lemma hk_0 : hk 0 = u1.
Proof. apply uv_inj. rewrite uv_hk, uv_1, Z.mod_0_l by lia. lia. Qed.
Lemma hk_add a b : umul (hk a) (hk b) = hk (a + b).
Proof.
  apply uv_inj. rewrite uv_mul. unfold hk. cbn [UMod.uv UMod.uof]. rewrite <- Zmult_mod.
  replace ((1 + a * n) * (1 + b * n)) with (1 + (a + b) * n + a * b * N) by (unfold N; ring).
  apply Z.mod_add. unfold N. nia.
Qed.
Lemma hk_inv a : uinv (hk a) = hk (- a).
Proof.
  apply (umul_cancel_l N HN (hk a)). rewrite umul_inv_r, hk_add, Z.add_opp_diag_r. symmetry. apply hk_0.
Qed.
Lemma zpow_hk a k : zpow (hk a) k = hk (a * k).
Proof.
  revert k. apply Z.bi_induction.
  - intros ? ? ->. reflexivity.
  - rewrite Z.mul_0_r, hk_0. reflexivity.
  - intros k. rewrite zpow_succ, Z.mul_succ_r. split.
    + intros ->. rewrite hk_add. f_equal. ring.
    + intros E. apply (umul_cancel_l N HN (hk a)). rewrite E, hk_add. f_equal. ring.
Qed.
Lemma hk_of a : uv a mod n = 1 -> a = hk ((uv a - 1) / n).
Proof.
  intros E. apply uv_inj. rewrite uv_hk. pose proof (uv_range N a) as R.
  pose proof (Z.div_mod (uv a) n ltac:(lia)) as D. rewrite E in D.
  replace (uv a - 1) with ((uv a / n) * n) by lia. rewrite Z.div_mul by lia.
  rewrite Z.mod_small; [lia|]. assert (R2 : uv a < n * n) by exact (proj2 R). split; [apply Z.div_pos; lia|apply Z.div_lt_upper_bound; lia].
Qed.
Lemma uv_hk_mod k : uv (hk k) mod n = 1.
Proof. rewrite uv_hk. rewrite Z.mod_add by lia. apply Z.mod_small. lia. Qed.

Lemma uof_mod x H : uv (uof x H) = x mod N. Proof. reflexivity. Qed.

(** the functions of the Paillier group *)
Definition grp (g : U) : paillier := {| pg_g := uv g; pg_h := bn_increment n; pg_n_by_4 := bn_rshift n 2; pg_modulus := N |}.
Lemma exp_u g a k : exponentiate (grp g) (uv a) k = Ok (uv (zpow a k)).
Proof. unfold exponentiate. cbn [pg_modulus grp]. apply mod_exp_u. Qed.
Lemma exp_g g k : exponentiate_g (grp g) k = Ok (uv (zpow g k)).
Proof. unfold exponentiate_g. cbn [pg_g grp]. apply exp_u. Qed.
Lemma h_uv : bn_increment n = uv (hk 1).
Proof. rewrite uv_hk. unfold bn_increment. rewrite Z.mod_small by lia. lia. Qed.
Lemma exp_h g k : exponentiate_h (grp g) k = Ok (uv (hk k)).
Proof. unfold exponentiate_h. cbn [pg_h grp]. rewrite h_uv, exp_u, zpow_hk. now rewrite Z.mul_1_l. Qed.
Lemma exp_unred g x (a : U) k : 0 <= k -> x mod N = uv a -> exponentiate (grp g) x k = Ok (uv (zpow a k)).
Proof. unfold exponentiate. cbn [pg_modulus grp]. intros Hk E. now apply mod_exp_unred. Qed.
Lemma sqr_unred g x (a : U) : x mod N = uv a -> pg_sqr (grp g) x = Ok (uv (zpow a 2)).
Proof.
  intros E. unfold pg_sqr, bn_sqr. cbn [pg_modulus grp]. rewrite bn_modulus_pos by (pose proof HN; lia). f_equal.
  change 2 with (Z.succ (Z.succ 0)). rewrite !zpow_succ, zpow_0, umul_1_r, uv_mul, <- E. apply Zmult_mod.
Qed.

Lemma abs_u g w : exists v : U, pg_abs (grp g) (uv w) = Ok (uv v) /\ pg_abs (grp g) (uv v) = Ok (uv v) /\ zpow v 2 = zpow w 2.
Proof.
  pose proof HN as HN2. pose proof (uv_range N w) as R. pose proof (half_spec N ltac:(lia)) as Hh.
  unfold pg_abs. cbn [pg_modulus grp]. rewrite !bn_modulus_pos by lia. cbn [rbind]. rewrite uv_mod .
  destruct (Z.ltb_spec (bn_rshift N 1) (uv w)) as [L|L].
  - unfold bn_sub.
    assert (G : Z.gcd (N - uv w) N = 1).
    { replace (N - uv w) with (- (uv w) + 1 * N) by ring. rewrite Z.gcd_comm, Z.add_comm.
      replace (1 * N + - uv w) with (- uv w + 1 * N) by ring. rewrite Z.gcd_add_mult_diag_r, Z.gcd_opp_r, Z.gcd_comm. apply uv_gcd. }
    exists (uof (N - uv w) G). rewrite uof_mod, (Z.mod_small (N - uv w)) by lia.
    split; [reflexivity|]. rewrite bn_modulus_pos by lia. cbn [rbind]. rewrite (Z.mod_small (N - uv w)) by lia.
    destruct (Z.ltb_spec (bn_rshift N 1) (N - uv w)); [lia|]. split; [reflexivity|].
    change 2 with (Z.succ (Z.succ 0)). rewrite !zpow_succ, !zpow_0, !umul_1_r. apply uv_inj. rewrite !uv_mul, uof_mod.
    rewrite <- Zmult_mod. replace ((N - uv w) * (N - uv w)) with (uv w * uv w + (N - 2 * uv w) * N) by ring. apply Z.mod_add. lia.
  - exists w. split; [reflexivity|]. rewrite bn_modulus_pos by lia. cbn [rbind]. rewrite uv_mod .
    destruct (Z.ltb_spec (bn_rshift N 1) (uv w)); [lia|]. split; reflexivity.
Qed.

(** keys *)
Record keyok (g : U) (xs : list Z) (a2 a3 : Z) (sk : cs_pri) (pk : cs_pub) : Prop := {
  ko_sk : sk = {| sk_x1 := xs; sk_x2 := a2; sk_x3 := a3 |};
  ko_pk : pk = {| pk_n := n; pk_two_inv2 := n + 1; pk_group := grp g; pk_y1 := map (fun x => uv (zpow g x)) xs;
                  pk_y2 := uv (zpow g a2); pk_y3 := uv (zpow g a3) |} }.

Lemma two_inv : exists i, bn_inverse 2 n = Ok i /\ bn_lshift1 i = n + 1.
Proof.
  assert (G : Z.gcd 2 n = 1).
  { apply Zgcd_1_rel_prime. apply rel_prime_sym. rewrite Z.odd_spec in Hodd. destruct Hodd as [k Hk].
    apply Zgcd_1_rel_prime. rewrite Hk. rewrite Z.gcd_comm, Z.add_comm. replace (1 + 2 * k) with (1 + k * 2) by ring.
    rewrite Z.gcd_add_mult_diag_r. reflexivity. }
  destruct (bn_inverse_ok 2 n ltac:(lia) ltac:(lia) G) as (x & E & R & M).
  exists x. split; [exact E|]. rewrite lshift1_2.
  pose proof (Z.div_mod (2 * x) n ltac:(lia)) as D. rewrite M in D.
  rewrite Z.odd_spec in Hodd. destruct Hodd as [k Hk]. assert (0 <= 2 * x / n) by (apply Z.div_pos; lia).
  assert (2 * x / n < 2) by (apply Z.div_lt_upper_bound; lia).
  assert (2 * x / n = 0 \/ 2 * x / n = 1) as [Q|Q] by lia; rewrite Q in D; lia.
Qed.

Lemma keygen_ok num p q g' dx dx2 dx3 : p * q = n -> Z.gcd g' n = 1 -> (1 <= num)%nat ->
  exists sk pk g, cs_keypair_new num p q g' dx dx2 dx3 = Ok (sk, pk) /\ keyok g (map dx (seq 0 num)) dx2 dx3 sk pk.
Proof.
  intros En Gg Hnum. unfold cs_keypair_new. destruct (Nat.ltb_spec num 1); [lia|].
  unfold bn_mul. rewrite En. destruct two_inv as (i2 & -> & E2). cbn [rbind]. rewrite E2.
  set (a := uof g' (gcd_sqr _ _ Gg)).
  unfold paillier_new, bn_sqr. fold N.
  rewrite (mod_exp_unred N HN g' a) by (rewrite ?lshift1_2; lia || reflexivity). cbn [rbind].
  set (g := zpow a (bn_lshift1 n)).
  change {| pg_g := uv g; pg_h := bn_increment n; pg_n_by_4 := bn_rshift n 2; pg_modulus := N |} with (grp g).
  rewrite (rmap_all _ (fun i => (dx i, uv (zpow g (dx i))))) by (intros i _; rewrite exp_g; reflexivity).
  cbn [rbind]. rewrite !exp_g. cbn [rbind]. rewrite !map_map. cbn [fst snd].
  eexists _, _, g. split; [reflexivity|]. split; [reflexivity|]. f_equal. rewrite map_map. reflexivity.
Qed.

Section Key.
Variables (g : U) (xs : list Z) (a2 a3 : Z) (sk : cs_pri) (pk : cs_pub).
Hypothesis K : keyok g xs a2 a3 sk pk.
Variable H : list Z -> list Z.

Definition xat (i : nat) : Z := nth i xs 0.
(** the unit of component i of a ciphertext *)
Definition eU (r m x : Z) : U := umul (zpow (zpow g x) r) (hk m).

Lemma y_at i : (i < length xs)%nat -> idxz (pk_y1 pk) i = Ok (uv (zpow g (xat i))).
Proof.
  intros Hi. destruct K as [_ ->]. cbn [pk_y1]. rewrite (idxz_map _ xs i (xat i)); [reflexivity|].
  apply nth_error_nth'. exact Hi.
Qed.
Lemma compute_e_eq ms r : (length ms <= length xs)%nat ->
  compute_e ms r pk = Ok (map (fun i => uv (eU r (nth i ms 0) (xat i))) (seq 0 (length ms))).
Proof.
  intros L. unfold compute_e. apply rmap_all. intros i Hi. apply in_seq in Hi.
  rewrite y_at by lia. cbn [rbind]. destruct K as [_ ->]. cbn [pk_group]. rewrite exp_u. cbn [rbind].
  rewrite (idxz_ok ms i (nth i ms 0)) by (apply nth_error_nth'; lia). cbn [rbind]. rewrite exp_h. cbn [rbind].
  cbn [pg_modulus grp]. apply mod_mul_u.
Qed.
Definition vU (r hs : Z) : U := zpow (umul (zpow g a2) (zpow (zpow g a3) hs)) r.
Lemma compute_v_eq r hs b : compute_v r hs pk b = if b then pg_abs (grp g) (uv (vU r hs)) else Ok (uv (vU r hs)).
Proof.
  unfold compute_v. destruct K as [_ ->]. cbn [pk_group pk_y2 pk_y3]. rewrite exp_u. cbn [rbind].
  cbn [pg_modulus grp]. rewrite (mod_mul_u N HN). cbn [rbind]. rewrite exp_u. cbn [rbind]. reflexivity.
Qed.
Lemma compute_u_eq r : compute_u r pk = Ok (uv (zpow g r)).
Proof. unfold compute_u. destruct K as [_ ->]. cbn [pk_group]. apply exp_g. Qed.

Definition ctof (r : Z) (ms : list Z) (v : U) : cs_ct :=
  {| ct_u := uv (zpow g r); ct_e := map (fun i => uv (eU r (nth i ms 0) (xat i))) (seq 0 (length ms)); ct_v := uv v |}.

Lemma enc_eq r ms label : (length ms <= length xs)%nat ->
  exists v, encrypt_using_random_value H r ms label pk = Ok (ctof r ms v)
    /\ pg_abs (grp g) (uv v) = Ok (uv v)
    /\ zpow v 2 = zpow (vU r (cs_hash H (uv (zpow g r)) (ct_e (ctof r ms v)) label)) 2.
Proof.
  intros L. unfold encrypt_using_random_value. rewrite compute_u_eq. cbn [rbind].
  rewrite compute_e_eq by exact L. cbn [rbind]. cbv zeta.
  rewrite compute_v_eq.
  set (hs := cs_hash H _ _ _). destruct (abs_u g (vU r hs)) as (v & E1 & E2 & E3).
  rewrite E1. cbn [rbind]. exists v. split; [reflexivity|]. split; [exact E2|]. exact E3.
Qed.
Lemma cs_encrypt_eq r ms label : (length ms <= length xs)%nat ->
  cs_encrypt H r ms label pk = encrypt_using_random_value H r ms label pk.
Proof.
  intros L. unfold cs_encrypt. destruct K as [_ ->]. cbn [pk_y1]. rewrite map_length.
  destruct (Nat.ltb_spec (length xs) (length ms)); [lia|]. reflexivity.
Qed.

(** decryption of one component *)
Definition mhat (u e : U) (x : Z) : U := zpow (umul e (uinv (zpow u x))) (n + 1).
Lemma decrypt_at_eq ct i (u e : U) ei : (i < length xs)%nat -> 
  (forall k, (k = xat i) -> exponentiate (grp g) (ct_u ct) k = Ok (uv (zpow u k))) ->
  nth_error (ct_e ct) i = Some ei -> ei mod N = uv e ->
  decrypt_at ct pk sk i = if uv (mhat u e (xat i)) mod n =? 1 then Ok ((uv (mhat u e (xat i)) - 1) / n) else Err InvalidStructure.
Proof.
  intros Hi Eu Ee Em. unfold decrypt_at. destruct K as [-> ->]. cbn [pk_group sk_x1 pk_two_inv2 pk_n].
  rewrite (idxz_ok xs i (xat i)) by (apply nth_error_nth'; lia). cbn [rbind].
  rewrite Eu by reflexivity. cbn [rbind]. cbn [pg_modulus grp]. rewrite (inverse_u N HN). cbn [rbind].
  rewrite (idxz_ok _ _ _ Ee). cbn [rbind].
  assert (M : bn_mod_mul ei (uv (uinv (zpow u (xat i)))) N = Ok (uv (umul e (uinv (zpow u (xat i)))))).
  { pose proof HN. rewrite bn_mod_mul_pos by lia. rewrite uv_mul, <- Em. now rewrite Zmult_mod_idemp_l. }
  rewrite M. cbn [rbind]. rewrite exp_u. cbn [rbind]. fold (mhat u e (xat i)).
  rewrite bn_modulus_pos by lia. cbn [rbind]. destruct (Z.eqb_spec (uv (mhat u e (xat i)) mod n) 1) as [E|E]; [|reflexivity].
  pose proof HN. rewrite bn_modulus_pos by lia. cbn [rbind]. rewrite uv_mod .
  unfold bn_div, bn_sub_word. destruct (Z.eqb_spec n 0); [lia|]. f_equal. apply Z.quot_div_nonneg; [|lia].
  pose proof (Z.div_mod (uv (mhat u e (xat i))) n ltac:(lia)) as D. pose proof (uv_range N (mhat u e (xat i))).
  assert (0 <= uv (mhat u e (xat i)) / n) by (apply Z.div_pos; lia). nia.
Qed.
Lemma decrypt_at_hk k : uv (hk k) mod n = 1 /\ (uv (hk k) - 1) / n = k mod n.
Proof.
  split; [apply uv_hk_mod|]. rewrite uv_hk. replace (1 + k mod n * n - 1) with (k mod n * n) by ring. apply Z.div_mul. lia.
Qed.

(** the checks before the loop *)
Definition hs_of (ct : cs_ct) (label : list Z) : Z := cs_hash H (ct_u ct) (ct_e ct) label.
Lemma decrypt_eq label ct (u v : U) :
  (length (ct_e ct) <= length xs)%nat ->
  exponentiate (grp g) (ct_u ct) (bn_lshift1 (bn_add (bn_mul (hs_of ct label) a3) a2)) = Ok (uv (zpow u (2 * (a2 + hs_of ct label * a3)))) ->
  ct_v ct mod N = uv v ->
  cs_decrypt H label ct pk sk =
    (let! av := pg_abs (grp g) (ct_v ct) in
     if negb (ct_v ct =? av) then Err InvalidStructure
     else if negb (uv (zpow v 2) =? uv (zpow u (2 * (a2 + hs_of ct label * a3)))) then Err InvalidStructure
     else rmap (decrypt_at ct pk sk) (seq 0 (length (ct_e ct)))).
Proof.
  intros L Eu Ev. unfold cs_decrypt. destruct K as [-> ->]. cbn [pk_group sk_x1 sk_x2 sk_x3].
  destruct (Nat.ltb_spec (length xs) (length (ct_e ct))); [lia|].
  destruct (pg_abs (grp g) (ct_v ct)) as [av|]; cbn [rbind]; [|reflexivity].
  destruct (negb (ct_v ct =? av)); [reflexivity|]. cbv zeta. fold (hs_of ct label).
  rewrite Eu. cbn [rbind]. rewrite (sqr_unred g _ v Ev). cbn [rbind]. reflexivity.
Qed.
Lemma exp_shift hs : bn_lshift1 (bn_add (bn_mul hs a3) a2) = 2 * (a2 + hs * a3).
Proof. rewrite lshift1_2. unfold bn_add, bn_mul. ring. Qed.

(** an encrypted component decrypts, whatever the label *)
Lemma decrypt_enc_at r ms v i : (length ms <= length xs)%nat -> (i < length ms)%nat ->
  decrypt_at (ctof r ms v) pk sk i = Ok (nth i ms 0 mod n).
Proof.
  intros L Hi.
  rewrite (decrypt_at_eq _ i (zpow g r) (eU r (nth i ms 0) (xat i)) (uv (eU r (nth i ms 0) (xat i)))); [| lia | intros k _; apply exp_u | | apply uv_mod].
  2:{ cbn [ct_e ctof]. rewrite nth_error_map, nth_error_seq0 by lia. reflexivity. }
  assert (E : mhat (zpow g r) (eU r (nth i ms 0) (xat i)) (xat i) = hk (nth i ms 0)).
  { unfold mhat, eU.
    assert (E1 : umul (umul (zpow (zpow g (xat i)) r) (hk (nth i ms 0))) (uinv (zpow (zpow g r) (xat i))) = hk (nth i ms 0)) by umod_ring.
    rewrite E1, zpow_hk. apply hk_eq. replace (nth i ms 0 * (n + 1)) with (nth i ms 0 + nth i ms 0 * n) by ring. apply Z.mod_add. lia. }
  rewrite E. destruct (decrypt_at_hk (nth i ms 0)) as (-> & ->). now rewrite Z.eqb_refl.
Qed.
Lemma map_nth_seq (ms : list Z) (f : Z -> Z) : map (fun i => f (nth i ms 0)) (seq 0 (length ms)) = map f ms.
Proof.
  apply (nth_ext _ _ (f 0) (f 0)); [now rewrite !map_length, seq_length|].
  intros i Hi. rewrite map_length, seq_length in Hi.
  rewrite (nth_indep (map (fun i0 => f (nth i0 ms 0)) (seq 0 (length ms))) (f 0) ((fun i0 => f (nth i0 ms 0)) 0%nat)) by now rewrite map_length, seq_length.
  rewrite (map_nth (fun i0 => f (nth i0 ms 0))), seq_nth by lia. now rewrite map_nth.
Qed.
Lemma decrypt_enc r ms label v : (length ms <= length xs)%nat ->
  pg_abs (grp g) (uv v) = Ok (uv v) ->
  cs_decrypt H label (ctof r ms v) pk sk =
    if uv (zpow v 2) =? uv (zpow (zpow g r) (2 * (a2 + hs_of (ctof r ms v) label * a3))) then Ok (map (fun m => m mod n) ms) else Err InvalidStructure.
Proof.
  intros L Ea. rewrite (decrypt_eq label (ctof r ms v) (zpow g r) v).
  2:{ cbn [ct_e ctof]. now rewrite map_length, seq_length. }
  2:{ rewrite exp_shift. cbn [ct_u ctof]. apply exp_u. }
  2:{ cbn [ct_v ctof]. apply uv_mod. }
  cbn [ct_v ct_e ctof]. rewrite Ea. cbn [rbind]. rewrite Z.eqb_refl. cbn [negb].
  destruct (uv (zpow v 2) =? _); cbn [negb]; [|reflexivity].
  rewrite map_length, seq_length. rewrite (rmap_all _ (fun i => nth i ms 0 mod n)).
  - f_equal. apply (map_nth_seq ms (fun m => m mod n)).
  - intros i Hi. apply in_seq in Hi. apply decrypt_enc_at; lia.
Qed.
End Key.
End Paillier.
