(** The proof of correct encryption (C116-C118). *)
From Verif Require Import Base BnModel BnProofs ClModel UMod Fermat VerEncModel VerEncLib VerEncProps.
From Coq Require Import List ZArith Lia Znumtheory Zpow_facts. Import ListNotations.
Open Scope Z_scope.

Section Proof.
Variable n : Z.
Hypothesis Hn : 3 <= n.
Local Notation N := (n * n).
Local Notation U := (U N).
Local Notation zpow := (zpow N (HN n Hn)).
Local Notation umul := (umul N (HN n Hn)).
Local Notation uinv := (uinv N (HN n Hn)).
Local Notation u1 := (u1 N (HN n Hn)).
Local Notation hk := (hk n Hn).

(** the unit of an integer coprime to n *)
Definition uz (x : Z) : U :=
  match Z.eq_dec (Z.gcd x N) 1 with left G => uof N (HN n Hn) x G | right _ => u1 end.
Lemma uz_spec x : Z.gcd x n = 1 -> x mod N = uv (uz x).
Proof. intros G. unfold uz. destruct (Z.eq_dec (Z.gcd x N) 1) as [G'|G']; [reflexivity|]. destruct G'. now apply gcd_sqr. Qed.
Lemma uz_uv (a : U) : uz (uv a) = a.
Proof.
  apply uv_inj. rewrite <- uz_spec; [apply uv_mod|]. apply gcd_unsqr. apply uv_gcd.
Qed.

Variables (g : U) (xs : list Z) (a2 a3 : Z) (sk : cs_pri) (pk : cs_pub).
Hypothesis K : keyok n Hn g xs a2 a3 sk pk.
Variable H : list Z -> list Z.

Lemma hk_pow k : hk k = zpow (hk 1) k.
Proof. rewrite zpow_hk. now rewrite Z.mul_1_l. Qed.

(** the value returned by [reconstruct_blindings_ciphertext] *)
Definition rec_val (ct : cs_ct) (s : list Z) (rh c : Z) (label : list Z) : cs_ct :=
  {| ct_u := uv (umul (zpow (uz (ct_u ct)) (2 * c)) (zpow g (2 * rh)));
     ct_e := map (fun i => uv (umul (umul (zpow (uz (nth i (ct_e ct) 0)) (2 * c)) (zpow (zpow g (xat xs i)) (2 * rh))) (hk (2 * nth i s 0)))) (seq 0 (length s));
     ct_v := uv (umul (zpow (uz (ct_v ct)) (2 * c)) (vU n Hn g a2 a3 (2 * rh) (cs_hash H (ct_u ct) (ct_e ct) label))) |}.
(** exponentiation of the components by the challenge goes through *)
Definition exp_ok (x c : Z) : Prop := exponentiate (grp n g) x (2 * c) = Ok (uv (zpow (uz x) (2 * c))).
Lemma exp_ok_uv (a : U) c : exp_ok (uv a) c.
Proof. unfold exp_ok. rewrite uz_uv. apply exp_u. Qed.
Lemma exp_ok_pos x c : 0 <= c -> Z.gcd x n = 1 -> exp_ok x c.
Proof. intros Hc G. unfold exp_ok. apply exp_unred; [lia|]. now apply uz_spec. Qed.

Lemma reconstruct_eq ct s rh c label :
  (length s <= length xs)%nat -> (length s <= length (ct_e ct))%nat ->
  exp_ok (ct_u ct) c -> exp_ok (ct_v ct) c -> (forall i, (i < length s)%nat -> exp_ok (nth i (ct_e ct) 0) c) ->
  reconstruct H ct s rh c label pk = Ok (rec_val ct s rh c label).
Proof.
  intros L1 L2 EU EV EE. unfold reconstruct.
  assert (Ly : length (pk_y1 pk) = length xs) by (destruct K as [_ ->]; cbn [pk_y1]; apply map_length).
  rewrite Ly. destruct (Nat.ltb_spec (length xs) (length s)); [lia|]. cbv zeta. rewrite !lshift1_2.
  assert (Yi : forall i, (i < length s)%nat -> idxz (pk_y1 pk) i = Ok (uv (zpow g (xat xs i)))) by (intros i Hi; apply (y_at _ _ _ _ _ _ _ _ K); lia).
  destruct K as [_ Kp]. replace (pk_group pk) with (grp n g) by (rewrite Kp; reflexivity).
  replace (pk_y2 pk) with (uv (zpow g a2)) by (rewrite Kp; reflexivity).
  replace (pk_y3 pk) with (uv (zpow g a3)) by (rewrite Kp; reflexivity).
  change (pg_modulus (grp n g)) with N.
  rewrite EU. cbn [rbind]. rewrite (exp_g n Hn). cbn [rbind]. rewrite (mod_mul_u N (HN n Hn)). cbn [rbind].
  rewrite (rmap_all _ (fun i => uv (umul (umul (zpow (uz (nth i (ct_e ct) 0)) (2 * c)) (zpow (zpow g (xat xs i)) (2 * rh))) (hk (2 * nth i s 0))))).
  2:{ intros i Hi. apply in_seq in Hi. rewrite (idxz_ok (ct_e ct) i (nth i (ct_e ct) 0)) by (apply nth_error_nth'; lia). cbn [rbind].
      rewrite (EE i) by lia. cbn [rbind]. rewrite Yi by lia. cbn [rbind]. rewrite (exp_u n Hn). cbn [rbind].
      rewrite (idxz_ok s i (nth i s 0)) by (apply nth_error_nth'; lia). cbn [rbind]. rewrite lshift1_2, (exp_h n Hn). cbn [rbind].
      rewrite (mod_mul_u N (HN n Hn)). cbn [rbind]. apply mod_mul_u. }
  cbn [rbind]. rewrite EV. cbn [rbind]. rewrite (exp_u n Hn). cbn [rbind]. rewrite (mod_mul_u N (HN n Hn)). cbn [rbind].
  rewrite (exp_u n Hn). cbn [rbind]. rewrite (mod_mul_u N (HN n Hn)). cbn [rbind]. reflexivity.
Qed.

Lemma t_values_eq rt bs hs : (length bs <= length xs)%nat ->
  ciphertext_t_values rt bs hs pk =
  Ok {| ct_u := uv (zpow g (2 * rt)); ct_e := map (fun i => uv (eU n Hn g (2 * rt) (2 * nth i bs 0) (xat xs i))) (seq 0 (length bs));
        ct_v := uv (vU n Hn g a2 a3 (2 * rt) hs) |}.
Proof.
  intros L. unfold ciphertext_t_values. cbv zeta. rewrite lshift1_2.
  rewrite (compute_u_eq n Hn _ _ _ _ _ _ K). cbn [rbind].
  rewrite (compute_e_eq n Hn _ _ _ _ _ _ K) by (rewrite map_length; lia). cbn [rbind].
  rewrite (compute_v_eq n Hn _ _ _ _ _ _ K). cbn [rbind]. rewrite map_length.
  f_equal. f_equal. apply map_ext. intros i. do 2 f_equal. rewrite <- lshift1_2.
  change 0 with (bn_lshift1 0) at 1. apply map_nth.
Qed.

Definition t_val (rt : Z) (bs : list Z) (hs : Z) : cs_ct :=
  {| ct_u := uv (zpow g (2 * rt)); ct_e := map (fun i => uv (eU n Hn g (2 * rt) (2 * nth i bs 0) (xat xs i))) (seq 0 (length bs));
     ct_v := uv (vU n Hn g a2 a3 (2 * rt) hs) |}.
Lemma complete_gen r rt ms bs label c s ct (v : U) :
  length bs = length ms -> (length ms <= length xs)%nat -> (length ms <= length (ct_e ct))%nat ->
  ct_u ct = uv (zpow g r) -> ct_v ct = uv v ->
  (forall i, (i < length ms)%nat -> nth i (ct_e ct) 0 = uv (eU n Hn g r (nth i ms 0) (xat xs i))) ->
  zpow v 2 = zpow (vU n Hn g a2 a3 r (cs_hash H (ct_u ct) (ct_e ct) label)) 2 ->
  length s = length ms -> (forall i, (i < length ms)%nat -> nth i s 0 mod n = (nth i bs 0 - c * nth i ms 0) mod n) ->
  reconstruct H ct s (rt - r * c) c label pk = Ok (t_val rt bs (cs_hash H (ct_u ct) (ct_e ct) label)).
Proof.
  intros Lb L Le Eu Ev En E2 Ls Hs.
  rewrite reconstruct_eq.
  2:{ lia. }
  2:{ lia. }
  2:{ rewrite Eu. apply exp_ok_uv. }
  2:{ rewrite Ev. apply exp_ok_uv. }
  2:{ intros i Hi. rewrite Ls in Hi. rewrite En by exact Hi. apply exp_ok_uv. }
  f_equal. unfold rec_val, t_val. f_equal.
  - rewrite Eu, uz_uv. f_equal. umod_ring.
  - rewrite Ls, Lb. apply map_ext_in. intros i Hi. apply in_seq in Hi. rewrite En by lia. rewrite uz_uv. f_equal.
    assert (Eh : hk (2 * nth i s 0) = hk (2 * (nth i bs 0 - c * nth i ms 0))).
    { apply hk_eq. rewrite <- Zmult_mod_idemp_r, Hs by lia. apply Zmult_mod_idemp_r. }
    rewrite Eh. unfold eU. rewrite (hk_pow (2 * (nth i bs 0 - c * nth i ms 0))), (hk_pow (2 * nth i bs 0)), (hk_pow (nth i ms 0)). umod_ring.
  - rewrite Ev, uz_uv. f_equal. rewrite <- zpow_mul, E2. unfold vU. generalize (cs_hash H (ct_u ct) (ct_e ct) label). intros hs. umod_ring.
Qed.

Lemma phase_2_eq r rt c rh : 0 <= r * c < N -> prove_phase_2 r rt c pk = Ok rh -> rh = rt - r * c.
Proof.
  intros Hrc E2. unfold prove_phase_2 in E2. replace (pg_modulus (pk_group pk)) with N in E2 by (destruct K as [_ ->]; reflexivity).
  pose proof (HN n Hn) as HN2. rewrite bn_mod_mul_pos in E2 by lia. cbn [rbind] in E2. rewrite Z.mod_small in E2 by lia.
  injection E2 as <-. reflexivity.
Qed.
Lemma ctof_nth r ms v i : (i < length ms)%nat -> nth i (ct_e (ctof n Hn g xs r ms v)) 0 = uv (eU n Hn g r (nth i ms 0) (xat xs i)).
Proof.
  intros Hi. cbn [ct_e ctof]. apply nth_error_nth with (x := uv (eU n Hn g r (nth i ms 0) (xat xs i))).
  rewrite nth_error_map, nth_error_seq0 by exact Hi. reflexivity.
Qed.

Lemma complete r rt ms bs label c s ct t rh :
  prove_phase_1 H r rt ms bs label pk = Ok (ct, t) ->
  0 <= r * c < N -> prove_phase_2 r rt c pk = Ok rh ->
  length s = length ms -> (forall i, (i < length ms)%nat -> nth i s 0 mod n = (nth i bs 0 - c * nth i ms 0) mod n) ->
  reconstruct H ct s rh c label pk = Ok t.
Proof.
  intros E1 Hrc E2 Ls Hs. unfold prove_phase_1 in E1.
  destruct (Nat.eqb_spec (length ms) (length bs)) as [Lb|]; cbn [negb] in E1; [|discriminate].
  assert (Ly : length (pk_y1 pk) = length xs) by (destruct K as [_ ->]; cbn [pk_y1]; apply map_length).
  rewrite Ly in E1. destruct (Nat.ltb_spec (length xs) (length ms)) as [|L]; [discriminate|].
  destruct (enc_eq n Hn _ _ _ _ _ _ K H r ms label L) as (v & Ee & _ & Ev).
  rewrite Ee in E1. cbn [rbind] in E1. cbv zeta in E1.
  rewrite t_values_eq in E1 by lia. cbn [rbind] in E1.
  apply (f_equal (fun z => match z with Ok a => a | Err _ => (ct, t) end)) in E1. cbv beta iota in E1.
  apply pair_equal_spec in E1. destruct E1 as (<- & <-).
  rewrite (phase_2_eq _ _ _ _ Hrc E2).
  apply (complete_gen r rt ms bs label c s (ctof n Hn g xs r ms v) v); try assumption; try reflexivity; try lia.
  - cbn [ct_e ctof]. rewrite map_length, seq_length. lia.
  - intros i Hi. now apply ctof_nth.
Qed.

(** two answers to two challenges for the same commitments *)
Section TwoAnswers.
Variables a b : Z.
Hypothesis Ha : prime (2 * a + 1).
Hypothesis Hb : prime (2 * b + 1).
Hypothesis Hab : a <> b.
Hypothesis En : n = (2 * a + 1) * (2 * b + 1).

Lemma ab_pos : 0 < a /\ 0 < b.
Proof. destruct Ha, Hb. split; lia. Qed.
Lemma sq_order (w : U) : exists k, zpow (zpow w 2) (a * b) = hk k.
Proof.
  destruct ab_pos as (Pa & Pb). pose proof (HN n Hn) as HN2.
  assert (Hab0 : 0 <= a * b) by nia.
  assert (E : uv (zpow (zpow w 2) (a * b)) mod n = 1).
  { rewrite (uv_zpow n Hn) by exact Hab0. rewrite (uv_zpow n Hn) by lia. rewrite <- Zpower_mod by lia.
    rewrite <- (Zmod_div_mod n N) by (try lia; exists n; reflexivity). rewrite Z.pow_2_r.
    pose proof (qr_order a b (uv w) Ha Hb Hab) as Q. rewrite <- En in Q. apply Q. apply gcd_unsqr. apply uv_gcd. }
  eexists. apply hk_of. exact E.
Qed.
Lemma bezout d e : Z.gcd d e = 1 -> exists x y, d * x + e * y = 1.
Proof.
  intros G. apply Zgcd_1_rel_prime in G. destruct (rel_prime_bezout _ _ G) as [x y Q]. exists x, y. lia.
Qed.
Lemma sq_kill (w : U) d : Z.gcd d (n * (a * b)) = 1 -> zpow (zpow w 2) d = u1 -> zpow w 2 = u1.
Proof.
  intros G E. destruct (sq_order w) as (k & Ek). destruct (bezout _ _ G) as (x & y & B).
  transitivity (zpow (zpow w 2) (d * x + n * (a * b) * y)); [rewrite B; symmetry; apply zpow_1|].
  transitivity (umul (zpow (zpow (zpow w 2) d) x) (zpow (zpow (zpow (zpow w 2) (a * b)) n) y)); [umod_ring|].
  rewrite E, zpow_one, Ek, zpow_hk.
  assert (Z0 : hk (k * n) = u1) by (rewrite <- (hk_0 n Hn); apply hk_eq; rewrite Z.mod_mul, Z.mod_0_l by lia; reflexivity).
  rewrite Z0, zpow_one. apply umul_1_l.
Qed.
Lemma sq_hk (w : U) d s : Z.gcd d (a * b) = 1 -> zpow (zpow w 2) d = hk s -> exists j, zpow w 2 = hk j.
Proof.
  intros G E. destruct (sq_order w) as (k & Ek). destruct (bezout _ _ G) as (x & y & B).
  exists (s * x + k * y).
  transitivity (zpow (zpow w 2) (d * x + a * b * y)); [rewrite B; symmetry; apply zpow_1|].
  transitivity (umul (zpow (zpow (zpow w 2) d) x) (zpow (zpow (zpow w 2) (a * b)) y)); [umod_ring|].
  rewrite E, Ek, !zpow_hk. apply hk_add.
Qed.

Lemma gcd_factor d x y : Z.gcd d (x * y) = 1 -> Z.gcd d y = 1.
Proof.
  intros G. apply Zgcd_1_rel_prime in G. apply Zgcd_1_rel_prime. apply rel_prime_sym in G. apply rel_prime_sym.
  apply (rel_prime_div (x * y)); [exact G|]. apply Z.divide_factor_r.
Qed.

Lemma sound ct s s' rh rh' c c' label t :
  (forall l, Forall (fun b => 0 <= b) (H l)) -> Forall (fun x => 0 <= x) xs -> 0 <= a2 -> 0 <= a3 -> Z.odd n = true ->
  Z.gcd (ct_u ct) n = 1 -> Z.gcd (ct_v ct) n = 1 -> (forall x, In x (ct_e ct) -> Z.gcd x n = 1) ->
  length s = length (ct_e ct) -> 0 <= 2 * ct_v ct <= N ->
  0 <= c -> 0 <= c' -> Z.gcd (c - c') (n * (a * b)) = 1 ->
  reconstruct H ct s rh c label pk = Ok t -> reconstruct H ct s' rh' c' label pk = Ok t ->
  exists ms, cs_decrypt H label ct pk sk = Ok ms /\ length ms = length s /\
    forall i, (i < length s)%nat -> 0 <= nth i ms 0 < n /\ (nth i ms 0 * (c - c')) mod n = (nth i s' 0 - nth i s 0) mod n.
Proof.
  intros HH Hxs Ha2 Ha3 Hodd Gu Gv Ge Ls Hv Hc Hc' Gd R1 R2.
  assert (Ly : length (pk_y1 pk) = length xs) by (destruct K as [_ ->]; cbn [pk_y1]; apply map_length).
  assert (B1 : (length s <= length xs)%nat).
  { unfold reconstruct in R1. rewrite Ly in R1. destruct (Nat.ltb_spec (length xs) (length s)); [discriminate|lia]. }
  assert (B2 : (length s' <= length xs)%nat).
  { unfold reconstruct in R2. rewrite Ly in R2. destruct (Nat.ltb_spec (length xs) (length s')); [discriminate|lia]. }
  assert (GE : forall i, (i < length (ct_e ct))%nat -> Z.gcd (nth i (ct_e ct) 0) n = 1) by (intros i Hi; apply Ge, nth_In, Hi).
  rewrite reconstruct_eq in R1; [| lia | lia | now apply exp_ok_pos | now apply exp_ok_pos | intros i Hi; apply exp_ok_pos; [exact Hc|apply GE; lia]].
  assert (Ls' : length s' = length s).
  { destruct (Nat.le_gt_cases (length s') (length (ct_e ct))) as [Le|Gt].
    - rewrite reconstruct_eq in R2; [| lia | lia | now apply exp_ok_pos | now apply exp_ok_pos | intros i Hi; apply exp_ok_pos; [exact Hc'|apply GE; lia]].
      rewrite <- R1 in R2. injection R2 as _ Q _. apply (f_equal (@length Z)) in Q. now rewrite !map_length, !seq_length in Q.
    - exfalso. unfold reconstruct in R2. rewrite Ly in R2. destruct (Nat.ltb_spec (length xs) (length s')); [discriminate|]. cbv zeta in R2.
      destruct (exponentiate (pk_group pk) (ct_u ct) _); cbn [rbind] in R2; [|discriminate].
      destruct (exponentiate_g _ _); cbn [rbind] in R2; [|discriminate].
      destruct (bn_mod_mul _ _ _); cbn [rbind] in R2; [|discriminate].
      destruct (rmap _ (seq 0 (length s'))) as [eb|] eqn:Er; cbn [rbind] in R2; [|discriminate].
      apply rmap_out in Er. destruct Er as (_ & Er). destruct (Er (length (ct_e ct)) (length (ct_e ct))) as (x & _ & Ex); [apply nth_error_seq0; lia|].
      unfold idxz in Ex at 1. rewrite (proj2 (nth_error_None (ct_e ct) (length (ct_e ct)))) in Ex by lia. discriminate. }
  rewrite reconstruct_eq in R2; [| lia | lia | now apply exp_ok_pos | now apply exp_ok_pos | intros i Hi; apply exp_ok_pos; [exact Hc'|apply GE; lia]].
  rewrite <- R1 in R2. clear R1.
  apply (f_equal (fun z => match z with Ok x => x | Err _ => t end)) in R2. cbv beta iota in R2.
  pose proof (f_equal ct_u R2) as Qu. pose proof (f_equal ct_e R2) as Qe. pose proof (f_equal ct_v R2) as Qv. clear R2.
  unfold rec_val in Qu, Qe, Qv. cbn [ct_u ct_e ct_v] in Qu, Qe, Qv. apply uv_inj in Qu, Qv.
  remember (cs_hash H (ct_u ct) (ct_e ct) label) as hs eqn:Ehs.
  remember (uz (ct_u ct)) as u eqn:Eu. remember (uz (ct_v ct)) as v eqn:Ev.
  set (D := c - c') in *. set (R := rh' - rh).
  assert (Fu : zpow u (2 * D) = zpow g (2 * R)).
  { transitivity (umul (umul (zpow u (2 * c)) (zpow g (2 * rh))) (umul (zpow u (- (2 * c'))) (zpow g (- (2 * rh))))); [unfold D; umod_ring|].
    rewrite <- Qu. unfold R. umod_ring. }
  assert (Fv : zpow v 2 = zpow u (2 * (a2 + hs * a3))).
  { assert (Z1 : zpow (umul v (uinv (zpow u (a2 + hs * a3)))) 2 = u1).
    { apply (sq_kill _ D); [exact Gd|].
      transitivity (umul (zpow v (2 * D)) (zpow (zpow u (2 * D)) (- (a2 + hs * a3)))); [umod_ring|]. rewrite Fu.
      transitivity (umul (umul (umul (zpow v (2 * c)) (vU n Hn g a2 a3 (2 * rh) hs)) (umul (zpow v (- (2 * c'))) (vU n Hn g a2 a3 (- (2 * rh)) hs))) (zpow (zpow g (2 * R)) (- (a2 + hs * a3)))).
      { unfold vU, D. umod_ring. }
      rewrite <- Qv. unfold vU, R. umod_ring. }
    transitivity (umul (zpow (umul v (uinv (zpow u (a2 + hs * a3)))) 2) (zpow u (2 * (a2 + hs * a3)))); [umod_ring|].
    rewrite Z1. apply umul_1_l. }
  assert (Hdec : forall i, (i < length s)%nat -> exists m, decrypt_at ct pk sk i = Ok m /\ 0 <= m < n /\ (m * D) mod n = (nth i s' 0 - nth i s 0) mod n).
  { intros i Hi. remember (uz (nth i (ct_e ct) 0)) as e eqn:Ee.
    assert (Qi : umul (umul (zpow e (2 * c')) (zpow (zpow g (xat xs i)) (2 * rh'))) (hk (2 * nth i s' 0)) =
                 umul (umul (zpow e (2 * c)) (zpow (zpow g (xat xs i)) (2 * rh))) (hk (2 * nth i s 0))).
    { apply (f_equal (fun l => nth_error l i)) in Qe. rewrite !nth_error_map in Qe. rewrite Ls' in Qe. rewrite nth_error_seq0 in Qe by exact Hi.
      cbn [option_map] in Qe. injection Qe as Qe. apply uv_inj. rewrite Ee. exact Qe. }
    assert (Fe : zpow e (2 * D) = umul (zpow (zpow g (xat xs i)) (2 * R)) (hk (2 * (nth i s' 0 - nth i s 0)))).
    { transitivity (umul (umul (umul (zpow e (2 * c)) (zpow (zpow g (xat xs i)) (2 * rh))) (hk (2 * nth i s 0)))
                         (umul (umul (zpow e (- (2 * c'))) (zpow (zpow g (xat xs i)) (- (2 * rh)))) (hk (- (2 * nth i s 0))))).
      { rewrite (hk_pow (2 * nth i s 0)), (hk_pow (- (2 * nth i s 0))). unfold D. umod_ring. }
      rewrite <- Qi. rewrite (hk_pow (2 * nth i s' 0)), (hk_pow (- (2 * nth i s 0))), (hk_pow (2 * (nth i s' 0 - nth i s 0))). unfold R. umod_ring. }
    assert (Em : exists kk, n + 1 = 2 * kk) by (rewrite Z.odd_spec in Hodd; destruct Hodd as [kk Hk]; exists (kk + 1); lia).
    destruct Em as (kk & Hkk).
    remember (mhat n Hn u e (xat xs i)) as mh eqn:Emh.
    assert (Msq : mh = zpow (zpow (umul e (uinv (zpow u (xat xs i)))) kk) 2) by (rewrite Emh; unfold mhat; rewrite Hkk; umod_ring).
    assert (Mp : zpow mh D = hk (nth i s' 0 - nth i s 0)).
    { transitivity (zpow (umul (zpow e (2 * D)) (zpow (zpow u (2 * D)) (- xat xs i))) kk); [rewrite Msq; umod_ring|].
      rewrite Fe, Fu. rewrite (hk_pow (2 * (nth i s' 0 - nth i s 0))).
      transitivity (zpow (hk 1) ((nth i s' 0 - nth i s 0) * (2 * kk))); [umod_ring|]. rewrite <- Hkk, zpow_hk. apply hk_eq.
      replace (1 * ((nth i s' 0 - nth i s 0) * (n + 1))) with ((nth i s' 0 - nth i s 0) + (nth i s' 0 - nth i s 0) * n) by ring.
      apply Z.mod_add. lia. }
    destruct (sq_hk (zpow (umul e (uinv (zpow u (xat xs i)))) kk) D (nth i s' 0 - nth i s 0)) as (j & Ej).
    { now apply gcd_factor in Gd. }
    { rewrite <- Msq. exact Mp. }
    rewrite <- Msq in Ej. rewrite Ej, zpow_hk in Mp. apply hk_eq in Mp.
    exists (j mod n).
    assert (Hxi : 0 <= xat xs i) by (rewrite Forall_forall in Hxs; apply Hxs; unfold xat; apply nth_In; lia).
    rewrite (decrypt_at_eq n Hn _ _ _ _ _ _ K ct i u e (nth i (ct_e ct) 0)).
    - rewrite <- Emh, Ej. destruct (decrypt_at_hk n Hn j) as (-> & ->). rewrite Z.eqb_refl.
      split; [reflexivity|]. split; [apply Z.mod_pos_bound; lia|]. rewrite Zmult_mod_idemp_l. exact Mp.
    - lia.
    - intros k ->. rewrite Eu. apply exp_unred; [exact Hxi|]. now apply uz_spec.
    - apply nth_error_nth'. lia.
    - rewrite Ee. apply uz_spec. apply GE. lia. }
  assert (Hhs : 0 <= hs) by (rewrite Ehs; apply hash_nonneg; exact HH).
  rewrite (decrypt_eq n Hn _ _ _ _ _ _ K H label ct u v).
  2:{ lia. }
  2:{ unfold hs_of. rewrite <- Ehs, exp_shift, Eu. apply exp_unred; [nia|]. now apply uz_spec. }
  2:{ rewrite Ev. now apply uz_spec. }
  rewrite (proj2 (proj2 (abs_check n Hn Hodd g (ct_v ct))) Hv). cbn [rbind]. rewrite Z.eqb_refl. cbn [negb].
  unfold hs_of. rewrite <- Ehs, Fv, Z.eqb_refl. cbn [negb].
  set (f := fun i => match decrypt_at ct pk sk i with Ok m => m | Err _ => 0 end).
  exists (map f (seq 0 (length (ct_e ct)))). split.
  { apply rmap_all. intros i Hi. apply in_seq in Hi. destruct (Hdec i) as (m & E & _); [lia|]. unfold f. now rewrite E. }
  split; [rewrite map_length, seq_length; lia|].
  intros i Hi. destruct (Hdec i Hi) as (m & E & M).
  replace (nth i (map f (seq 0 (length (ct_e ct)))) 0) with m; [exact M|].
  symmetry. apply nth_error_nth. rewrite nth_error_map, nth_error_seq0 by lia. cbn [option_map]. unfold f. now rewrite E.
Qed.
End TwoAnswers.
End Proof.

(** * C116: honest proofs verify *)
Theorem C116_complete H num p q g' dx dx2 dx3 sk pk :
  3 <= p * q -> Z.odd (p * q) = true -> Z.gcd g' (p * q) = 1 ->
  cs_keypair_new num p q g' dx dx2 dx3 = Ok (sk, pk) ->
  forall r rt ms bs label c, length bs = length ms -> (length ms <= num)%nat ->
  0 <= r * c < (p * q) * (p * q) ->
  exists ct t rh, prove_phase_1 H r rt ms bs label pk = Ok (ct, t) /\ prove_phase_2 r rt c pk = Ok rh /\
    cs_encrypt H r ms label pk = Ok ct /\
    forall s, length s = length ms ->
      (forall i, (i < length ms)%nat -> nth i s 0 mod (p * q) = (nth i bs 0 - c * nth i ms 0) mod (p * q)) ->
      reconstruct H ct s rh c label pk = Ok t.
Proof.
  intros Hn Ho Hg E r rt ms bs label c Lb L Hrc.
  destruct (keygen_inv _ _ _ _ _ _ _ _ _ Hn Ho Hg E) as (g & K).
  assert (L' : (length ms <= length (map dx (seq 0 num)))%nat) by (rewrite seq_map_len; exact L).
  destruct (enc_eq _ Hn _ _ _ _ _ _ K H r ms label L') as (v & Ee & _ & _).
  assert (P1 : exists t, prove_phase_1 H r rt ms bs label pk = Ok (ctof (p * q) Hn g (map dx (seq 0 num)) r ms v, t)).
  { unfold prove_phase_1. rewrite Lb, Nat.eqb_refl. cbn [negb].
    replace (length (pk_y1 pk)) with num by (destruct K as [_ ->]; cbn [pk_y1]; now rewrite map_length, seq_map_len).
    destruct (Nat.ltb_spec num (length ms)); [lia|]. rewrite Ee. cbn [rbind]. cbv zeta.
    rewrite (t_values_eq _ Hn _ _ _ _ _ _ K) by lia. cbn [rbind]. eexists. reflexivity. }
  destruct P1 as (t & P1).
  assert (P2 : exists rh, prove_phase_2 r rt c pk = Ok rh).
  { unfold prove_phase_2. replace (pg_modulus (pk_group pk)) with ((p * q) * (p * q)) by (destruct K as [_ ->]; reflexivity).
    rewrite bn_mod_mul_pos by nia. cbn [rbind]. eexists. reflexivity. }
  destruct P2 as (rh & P2).
  exists (ctof (p * q) Hn g (map dx (seq 0 num)) r ms v), t, rh. split; [exact P1|]. split; [exact P2|].
  split; [rewrite (cs_encrypt_eq _ Hn _ _ _ _ _ _ K H r ms label L'); exact Ee|].
  intros s Ls Hs. apply (complete _ Hn _ _ _ _ _ _ K H r rt ms bs label c s _ t rh P1 Hrc P2 Ls Hs).
Qed.

Theorem C116_counts_checked H r rt ms bs label pk ct s rh c :
  (length bs <> length ms -> prove_phase_1 H r rt ms bs label pk = Err InvalidStructure) /\
  ((length (pk_y1 pk) < length ms)%nat -> prove_phase_1 H r rt ms bs label pk = Err InvalidStructure) /\
  ((length (pk_y1 pk) < length s)%nat -> reconstruct H ct s rh c label pk = Err InvalidStructure).
Proof.
  unfold prove_phase_1, reconstruct. repeat split; intros L.
  - destruct (Nat.eqb_spec (length ms) (length bs)); [congruence|]. reflexivity.
  - destruct (length ms =? length bs)%nat; [|reflexivity]. cbn [negb].
    destruct (Nat.ltb_spec (length (pk_y1 pk)) (length ms)); [reflexivity|lia].
  - destruct (Nat.ltb_spec (length (pk_y1 pk)) (length s)); [reflexivity|lia].
Qed.

(** * C117: verified ciphertexts decrypt *)
Lemma small_prime_gcd p d : prime p -> 0 < Z.abs d < p -> rel_prime d p.
Proof.
  intros Hp Hd. apply rel_prime_sym, prime_rel_prime; [exact Hp|]. intros D.
  apply Zdivide_bounds in D; [|lia]. lia.
Qed.
Theorem C117_special_sound H num a b g' dx dx2 dx3 sk pk :
  prime a -> prime b -> prime (2 * a + 1) -> prime (2 * b + 1) -> a <> b ->
  let n := (2 * a + 1) * (2 * b + 1) in
  Z.gcd g' n = 1 ->
  cs_keypair_new num (2 * a + 1) (2 * b + 1) g' dx dx2 dx3 = Ok (sk, pk) ->
  (forall i, 0 <= dx i) -> 0 <= dx2 -> 0 <= dx3 -> (forall l, Forall (fun x => 0 <= x) (H l)) ->
  forall ct label t s s' rh rh' c c',
  Z.gcd (ct_u ct) n = 1 -> Z.gcd (ct_v ct) n = 1 -> (forall x, In x (ct_e ct) -> Z.gcd x n = 1) ->
  0 <= 2 * ct_v ct <= n * n -> length s = length (ct_e ct) ->
  0 <= c -> 0 <= c' -> 0 < Z.abs (c - c') < Z.min a b ->
  reconstruct H ct s rh c label pk = Ok t -> reconstruct H ct s' rh' c' label pk = Ok t ->
  exists ms, cs_decrypt H label ct pk sk = Ok ms /\ length ms = length s /\
    forall i, (i < length s)%nat -> 0 <= nth i ms 0 < n /\ (nth i ms 0 * (c - c')) mod n = (nth i s' 0 - nth i s 0) mod n.
Proof.
  intros Pa Pb PA PB Hab n Hg E Hdx H2 H3 HH ct label t s s' rh rh' c c' Gu Gv Ge Hv Ls Hc Hc' Hd R1 R2.
  assert (2 <= a) by (destruct Pa; lia). assert (2 <= b) by (destruct Pb; lia).
  assert (Hn : 3 <= n) by (unfold n; nia).
  assert (Ho : Z.odd n = true) by (unfold n; rewrite Z.odd_mul, !Z.odd_add, !Z.odd_mul; reflexivity).
  destruct (keygen_inv _ _ _ _ _ _ _ _ _ Hn Ho Hg E) as (g & K).
  apply (sound n Hn g (map dx (seq 0 num)) dx2 dx3 sk pk K H a b PA PB Hab eq_refl ct s s' rh rh' c c' label t); try assumption.
  - apply Forall_forall. intros x Hx. apply in_map_iff in Hx. destruct Hx as (i & <- & _). apply Hdx.
  - apply Zgcd_1_rel_prime. unfold n. repeat apply rel_prime_mult; apply small_prime_gcd; try assumption; lia.
Qed.

Lemma decrypt_inv H label ct pk sk ms : cs_decrypt H label ct pk sk = Ok ms ->
  rmap (decrypt_at ct pk sk) (seq 0 (length (ct_e ct))) = Ok ms.
Proof.
  unfold cs_decrypt. destruct (length (sk_x1 sk) <? length (ct_e ct))%nat; [discriminate|]. cbv zeta.
  destruct (pg_abs (pk_group pk) (ct_v ct)) as [av|]; cbn [rbind]; [|discriminate].
  destruct (negb (ct_v ct =? av)); [discriminate|].
  destruct (exponentiate _ _ _) as [us|]; cbn [rbind]; [|discriminate].
  destruct (pg_sqr _ _) as [vs|]; cbn [rbind]; [|discriminate].
  destruct (negb (vs =? us)); [discriminate|]. auto.
Qed.
Lemma exp_zero n (Hn : 3 <= n) g k : 0 < k -> exponentiate (grp n g) 0 k = Ok 0.
Proof.
  intros Hk. unfold exponentiate. cbn [pg_modulus grp]. rewrite bn_mod_exp_nonneg by nia. rewrite Z.pow_0_l by lia. reflexivity.
Qed.
(** a component equal to zero never decrypts *)
Lemma zero_component n (Hn : 3 <= n) g xs a2 a3 sk pk (K : keyok n Hn g xs a2 a3 sk pk) ct i m :
  nth_error (ct_e ct) i = Some 0 -> decrypt_at ct pk sk i <> Ok m.
Proof.
  intros Ei D. unfold decrypt_at in D. destruct K as [-> ->]. cbn [sk_x1 pk_group pk_two_inv2 pk_n] in D.
  destruct (idxz xs i) as [xi|]; cbn [rbind] in D; [|discriminate].
  destruct (exponentiate (grp n g) (ct_u ct) xi) as [ux|]; cbn [rbind] in D; [|discriminate].
  destruct (bn_inverse ux _) as [ui|]; cbn [rbind] in D; [|discriminate].
  rewrite (idxz_ok _ _ _ Ei) in D. cbn [rbind] in D. change (pg_modulus (grp n g)) with (n * n) in D.
  rewrite bn_mod_mul_pos in D by nia. rewrite Z.mul_0_l, Z.mod_0_l in D by nia. cbn [rbind] in D.
  rewrite (exp_zero n Hn g) in D by lia. cbn [rbind] in D. rewrite bn_modulus_pos, Z.mod_0_l in D by lia. cbn [rbind] in D.
  change (0 =? 1) with false in D. discriminate.
Qed.

(** the all-zero ciphertext passes verification with any responses and any positive
    challenge, without any message or key, and never decrypts *)
Theorem C117_refuted_zero_ciphertext H num p q g' dx dx2 dx3 sk pk :
  3 <= p * q -> Z.odd (p * q) = true -> Z.gcd g' (p * q) = 1 ->
  cs_keypair_new num p q g' dx dx2 dx3 = Ok (sk, pk) ->
  forall s rh c label, (1 <= length s <= num)%nat -> 0 < c ->
  let zero := {| ct_u := 0; ct_e := repeat 0 (length s); ct_v := 0 |} in
  reconstruct H zero s rh c label pk = Ok zero /\
  forall label' ms, cs_decrypt H label' zero pk sk <> Ok ms.
Proof.
  intros Hn Ho Hg E s rh c label L Hc zero.
  destruct (keygen_inv _ _ _ _ _ _ _ _ _ Hn Ho Hg E) as (g & K).
  assert (Nth : forall i, (i < length s)%nat -> nth_error (ct_e zero) i = Some 0).
  { intros i Hi. cbn [ct_e zero]. apply nth_error_repeat. exact Hi. }
  split.
  - unfold reconstruct.
    assert (Ly : length (pk_y1 pk) = num) by (destruct K as [_ ->]; cbn [pk_y1]; now rewrite map_length, seq_map_len).
    rewrite Ly. destruct (Nat.ltb_spec num (length s)); [lia|]. cbv zeta. rewrite !lshift1_2.
    assert (Yi : forall i, (i < length s)%nat -> idxz (pk_y1 pk) i = Ok (uv (zpow _ (HN _ Hn) g (xat (map dx (seq 0 num)) i))))
      by (intros i Hi; apply (y_at _ _ _ _ _ _ _ _ K); rewrite seq_map_len; lia).
    destruct K as [_ Kp]. replace (pk_group pk) with (grp (p * q) g) by (rewrite Kp; reflexivity).
    replace (pk_y2 pk) with (uv (zpow _ (HN _ Hn) g dx2)) by (rewrite Kp; reflexivity).
    replace (pk_y3 pk) with (uv (zpow _ (HN _ Hn) g dx3)) by (rewrite Kp; reflexivity).
    change (pg_modulus (grp (p * q) g)) with ((p * q) * (p * q)).
    assert (M0 : forall x, bn_mod_mul 0 x ((p * q) * (p * q)) = Ok 0) by (intros x; rewrite bn_mod_mul_pos by nia; now rewrite Z.mul_0_l, Z.mod_0_l by nia).
    cbn [ct_u ct_v]. change (ct_u zero) with 0. change (ct_v zero) with 0.
    rewrite !(exp_zero _ Hn g (2 * c)) by lia. cbn [rbind]. rewrite (exp_g _ Hn g). cbn [rbind]. rewrite M0. cbn [rbind].
    rewrite (rmap_all _ (fun _ => 0)).
    2:{ intros i Hi. apply in_seq in Hi. rewrite (idxz_ok _ _ _ (Nth i ltac:(lia))). cbn [rbind].
        rewrite !(exp_zero _ Hn g (2 * c)) by lia. cbn [rbind]. rewrite Yi by lia. cbn [rbind]. rewrite (exp_u _ Hn g). cbn [rbind].
        rewrite (idxz_ok s i (nth i s 0)) by (apply nth_error_nth'; lia). cbn [rbind]. rewrite (exp_h _ Hn g). cbn [rbind].
        rewrite M0. cbn [rbind]. apply M0. }
    cbn [rbind]. rewrite (exp_u _ Hn g). cbn [rbind]. rewrite (mod_mul_u _ (HN _ Hn)). cbn [rbind].
    rewrite (exp_u _ Hn g). cbn [rbind]. rewrite M0. cbn [rbind]. unfold zero. f_equal. f_equal.
    clear. generalize 0%nat. induction (length s) as [|k IH]; intros st; cbn [seq map repeat]; [reflexivity|]. now rewrite IH.
  - intros label' ms D. apply decrypt_inv, rmap_out in D. destruct D as (_ & D).
    destruct (D 0%nat 0%nat) as (m & _ & Dm).
    { apply nth_error_seq0. cbn [ct_e zero]. rewrite repeat_length. lia. }
    revert Dm. apply (zero_component _ Hn _ _ _ _ _ _ K). apply Nth. lia.
Qed.

(** replacing v by its negative changes nothing for the verifier, and the ciphertext no longer decrypts *)
Theorem C117_refuted_negated_v H num p q g' dx dx2 dx3 sk pk :
  3 <= p * q -> Z.odd (p * q) = true -> Z.gcd g' (p * q) = 1 ->
  cs_keypair_new num p q g' dx dx2 dx3 = Ok (sk, pk) ->
  forall r ms label ct, cs_encrypt H r ms label pk = Ok ct ->
  let ct' := {| ct_u := ct_u ct; ct_e := ct_e ct; ct_v := (p * q) * (p * q) - ct_v ct |} in
  (forall s rh c lab, reconstruct H ct' s rh c lab pk = reconstruct H ct s rh c lab pk) /\
  (forall lab, cs_decrypt H lab ct' pk sk = Err InvalidStructure).
Proof.
  intros Hn Ho Hg E r ms label ct Ec ct'.
  destruct (keygen_inv _ _ _ _ _ _ _ _ _ Hn Ho Hg E) as (g & K).
  assert (L : (length ms <= length (map dx (seq 0 num)))%nat).
  { destruct K as [_ Kp]. rewrite Kp in Ec. unfold cs_encrypt in Ec. cbn [pk_y1] in Ec. rewrite map_length in Ec.
    destruct (Nat.ltb_spec (length (map dx (seq 0 num))) (length ms)); [discriminate|lia]. }
  rewrite (cs_encrypt_eq _ Hn _ _ _ _ _ _ K H r ms label L) in Ec.
  destruct (enc_eq _ Hn _ _ _ _ _ _ K H r ms label L) as (v & E1 & E2 & _).
  assert (Ect : ct = ctof (p * q) Hn g (map dx (seq 0 num)) r ms v) by (rewrite Ec in E1; now injection E1).
  assert (Ev : ct_v ct = uv v) by (rewrite Ect; reflexivity).
  assert (Eg : pk_group pk = grp (p * q) g) by (destruct K as [_ ->]; reflexivity).
  remember (p * q) as n eqn:Enn. pose proof (HN n Hn) as HN2. pose proof (uv_range (n * n) v) as Rv.
  assert (V0 : 0 < uv v).
  { destruct (Z.eq_dec (uv v) 0) as [Z0|]; [|lia]. pose proof (uv_gcd _ v) as G. rewrite Z0, Z.gcd_0_l in G. lia. }
  assert (G : Z.gcd (n * n - uv v) (n * n) = 1).
  { replace (n * n - uv v) with (- (uv v) + 1 * (n * n)) by ring. rewrite Z.gcd_comm.
    rewrite Z.gcd_add_mult_diag_r, Z.gcd_opp_r, Z.gcd_comm. apply uv_gcd. }
  remember (uof _ (HN n Hn) _ G) as w eqn:Ew.
  assert (Uw : uv w = n * n - uv v) by (rewrite Ew, uof_mod; apply Z.mod_small; lia).
  assert (Sq : zpow _ (HN n Hn) w 2 = zpow _ (HN n Hn) v 2).
  { apply uv_inj. rewrite !(uv_zpow n Hn) by lia. rewrite Uw, !Z.pow_2_r.
    replace ((n * n - uv v) * (n * n - uv v)) with (uv v * uv v + (n * n - 2 * uv v) * (n * n)) by ring. apply Z.mod_add. lia. }
  split.
  - intros s rh c lab. unfold reconstruct. cbn [ct_u ct_e ct_v ct']. rewrite Ev, Eg, <- Uw, !lshift1_2, !(exp_u n Hn).
    assert (P : zpow _ (HN n Hn) w (2 * c) = zpow _ (HN n Hn) v (2 * c)) by (rewrite <- !zpow_mul, Sq; reflexivity).
    rewrite P. reflexivity.
  - intros lab. unfold cs_decrypt. cbn [ct_u ct_e ct_v ct'].
    destruct K as [Ks _]. rewrite Ks. cbn [sk_x1].
    destruct (Nat.ltb_spec (length (map dx (seq 0 num))) (length (ct_e ct))); [reflexivity|].
    rewrite Eg, Ev. destruct (abs_check n Hn Ho g (n * n - uv v)) as (NE & AC).
    destruct (pg_abs (grp n g) (n * n - uv v)) as [av|e0]; [|exfalso; now apply (NE e0)]. cbn [rbind].
    destruct (Z.eqb_spec (n * n - uv v) av) as [Q|Q]; [|reflexivity]. exfalso.
    rewrite <- Q in AC. assert (T : 0 <= 2 * (n * n - uv v) <= n * n) by (apply AC; reflexivity).
    pose proof (proj1 (proj2 (abs_check n Hn Ho g (uv v))) E2) as T2.
    assert (Od : Z.odd (n * n) = true) by (rewrite Z.odd_mul, Ho; reflexivity). rewrite Z.odd_spec in Od. destruct Od as [kk Hk]. lia.
Qed.

(** components beyond those the verifier has responses for are not looked at: appending one makes an
    honestly proved ciphertext undecryptable *)
Theorem C117_refuted_extra_component H num p q g' dx dx2 dx3 sk pk :
  3 <= p * q -> Z.odd (p * q) = true -> Z.gcd g' (p * q) = 1 ->
  cs_keypair_new num p q g' dx dx2 dx3 = Ok (sk, pk) ->
  forall r rt ms bs label, length bs = length ms -> (length ms <= num)%nat ->
  exists ct t,
    (forall c s, 0 <= r * c < (p * q) * (p * q) -> length s = length ms ->
      (forall i, (i < length ms)%nat -> nth i s 0 mod (p * q) = (nth i bs 0 - c * nth i ms 0) mod (p * q)) ->
      exists rh, prove_phase_2 r rt c pk = Ok rh /\ reconstruct H ct s rh c label pk = Ok t) /\
    (forall label' out, cs_decrypt H label' ct pk sk <> Ok out).
Proof.
  intros Hn Ho Hg E r rt ms bs label Lb L.
  destruct (keygen_inv _ _ _ _ _ _ _ _ _ Hn Ho Hg E) as (g & K).
  set (xs := map dx (seq 0 num)) in *.
  assert (L' : (length ms <= length xs)%nat) by (unfold xs; rewrite seq_map_len; exact L).
  set (e := map (fun i => uv (eU (p * q) Hn g r (nth i ms 0) (xat xs i))) (seq 0 (length ms)) ++ [0]).
  set (hs := cs_hash H (uv (zpow _ (HN _ Hn) g r)) e label).
  destruct (abs_u (p * q) Hn g (vU (p * q) Hn g dx2 dx3 r hs)) as (v & _ & _ & Ev).
  set (ct := {| ct_u := uv (zpow _ (HN _ Hn) g r); ct_e := e; ct_v := uv v |}).
  assert (Le : length e = S (length ms)) by (unfold e; rewrite app_length, map_length, seq_length; cbn [length]; lia).
  exists ct, (t_val (p * q) Hn g xs dx2 dx3 rt bs hs). split.
  - intros c s Hrc Ls Hs.
    assert (P2 : prove_phase_2 r rt c pk = Ok (rt - r * c)).
    { unfold prove_phase_2. replace (pg_modulus (pk_group pk)) with ((p * q) * (p * q)) by (destruct K as [_ ->]; reflexivity).
      rewrite bn_mod_mul_pos by nia. rewrite Z.mod_small by lia. reflexivity. }
    exists (rt - r * c). split; [exact P2|].
    apply (complete_gen _ Hn _ _ _ _ _ _ K H r rt ms bs label c s ct v); try assumption; try reflexivity.
    + cbn [ct_e ct]. lia.
    + intros i Hi. cbn [ct_e ct]. unfold e. rewrite app_nth1 by (rewrite map_length, seq_length; exact Hi).
      apply nth_error_nth with (x := uv (eU (p * q) Hn g r (nth i ms 0) (xat xs i))).
      rewrite nth_error_map, nth_error_seq0 by exact Hi. reflexivity.
  - intros label' out D. apply decrypt_inv, rmap_out in D. destruct D as (_ & D).
    destruct (D (length ms) (length ms)) as (m & _ & Dm).
    { apply nth_error_seq0. cbn [ct_e ct]. lia. }
    revert Dm. apply (zero_component _ Hn _ _ _ _ _ _ K). cbn [ct_e ct]. unfold e.
    rewrite nth_error_app2 by (rewrite map_length, seq_length; lia). rewrite map_length, seq_length, Nat.sub_diag. reflexivity.
Qed.

(** a ciphertext with fewer components than responses panics the verifier *)
Theorem C117_refuted_no_panic H num p q g' dx dx2 dx3 sk pk :
  3 <= p * q -> Z.odd (p * q) = true -> Z.gcd g' (p * q) = 1 ->
  cs_keypair_new num p q g' dx dx2 dx3 = Ok (sk, pk) ->
  forall u v s rh c label, (1 <= length s <= num)%nat -> 0 <= c ->
  reconstruct H {| ct_u := u; ct_e := []; ct_v := v |} s rh c label pk = Err Panic.
Proof.
  intros Hn Ho Hg E u v s rh c label L Hc.
  destruct (keygen_inv _ _ _ _ _ _ _ _ _ Hn Ho Hg E) as (g & K).
  unfold reconstruct.
  assert (Ly : length (pk_y1 pk) = num) by (destruct K as [_ ->]; cbn [pk_y1]; now rewrite map_length, seq_map_len).
  rewrite Ly. destruct (Nat.ltb_spec num (length s)); [lia|]. cbv zeta. rewrite !lshift1_2.
  replace (pk_group pk) with (grp (p * q) g) by (destruct K as [_ ->]; reflexivity).
  unfold exponentiate at 1. change (pg_modulus (grp (p * q) g)) with ((p * q) * (p * q)).
  rewrite bn_mod_exp_nonneg by nia. cbn [rbind]. rewrite (exp_g _ Hn g). cbn [rbind]. rewrite bn_mod_mul_pos by nia. cbn [rbind].
  destruct (length s) as [|k] eqn:Es; [lia|]. cbn [seq rmap]. reflexivity.
Qed.

(** * C118: what the label and the responses do not protect *)
Theorem C118_refuted_label_binding H num p q g' dx dx2 dx3 sk pk :
  3 <= p * q -> Z.odd (p * q) = true -> Z.gcd g' (p * q) = 1 ->
  cs_keypair_new num p q g' dx dx2 dx3 = Ok (sk, pk) ->
  forall r ms m label u e v, cs_encrypt H r (ms ++ [m]) label pk = Ok {| ct_u := u; ct_e := e; ct_v := v |} ->
  exists e' x, e = e' ++ [x] /\
    cs_decrypt H (bn_to_bytes x ++ label) {| ct_u := u; ct_e := e'; ct_v := v |} pk sk = Ok (map (fun y => y mod (p * q)) ms).
Proof.
  intros Hn Ho Hg E r ms m label u e v Ec.
  destruct (keygen_inv _ _ _ _ _ _ _ _ _ Hn Ho Hg E) as (g & K).
  assert (L : (length (ms ++ [m]) <= length (map dx (seq 0 num)))%nat).
  { destruct K as [_ Kp]. rewrite Kp in Ec. unfold cs_encrypt in Ec. cbn [pk_y1] in Ec. rewrite map_length in Ec.
    destruct (Nat.ltb_spec (length (map dx (seq 0 num))) (length (ms ++ [m]))); [discriminate|lia]. }
  rewrite (cs_encrypt_eq _ Hn _ _ _ _ _ _ K H r _ label L) in Ec.
  destruct (enc_eq _ Hn _ _ _ _ _ _ K H r (ms ++ [m]) label L) as (w & E1 & E2 & E3).
  assert (Ect : {| ct_u := u; ct_e := e; ct_v := v |} = ctof (p * q) Hn g (map dx (seq 0 num)) r (ms ++ [m]) w)
    by (rewrite Ec in E1; exact (f_equal (fun z => match z with Ok a => a | Err _ => {| ct_u := u; ct_e := e; ct_v := v |} end) E1)).
  rewrite <- Ect in E3. cbn [ct_e] in E3.
  set (xs := map dx (seq 0 num)) in *.
  assert (Eu : u = uv (zpow _ (HN _ Hn) g r)) by (apply (f_equal ct_u) in Ect; exact Ect).
  assert (Ev : v = uv w) by (apply (f_equal ct_v) in Ect; exact Ect).
  assert (Ee : e = ct_e (ctof (p * q) Hn g xs r ms w) ++ [uv (eU (p * q) Hn g r m (xat xs (length ms)))]).
  { apply (f_equal ct_e) in Ect. cbn [ct_e ctof] in Ect. rewrite Ect. rewrite app_length. cbn [length ctof ct_e]. rewrite Nat.add_1_r, seq_S, map_app. cbn [map].
    rewrite app_nth2, Nat.sub_diag by lia. cbn [nth Nat.add]. f_equal. apply map_ext_in. intros i Hi. apply in_seq in Hi. rewrite app_nth1 by lia. reflexivity. }
  exists (ct_e (ctof (p * q) Hn g xs r ms w)), (uv (eU (p * q) Hn g r m (xat xs (length ms)))). split; [exact Ee|].
  replace {| ct_u := u; ct_e := ct_e (ctof (p * q) Hn g xs r ms w); ct_v := v |} with (ctof (p * q) Hn g xs r ms w) by (rewrite Eu, Ev; reflexivity).
  rewrite app_length in L. cbn [length] in L. rewrite (decrypt_enc _ Hn _ _ _ _ _ _ K H r ms _ w) by (lia || exact E2).
  assert (Ehs : hs_of H (ctof (p * q) Hn g xs r ms w) (bn_to_bytes (uv (eU (p * q) Hn g r m (xat xs (length ms)))) ++ label) = cs_hash H (uv (zpow _ (HN _ Hn) g r)) e label).
  { unfold hs_of. rewrite !hash_cat. cbn [ct_u]. do 2 f_equal. rewrite Ee. rewrite map_app, concat_app. cbn [map concat]. rewrite app_nil_r, <- !app_assoc. reflexivity. }
  rewrite Ehs, E3. set (hs := cs_hash H _ _ _).
  replace (zpow _ (HN (p * q) Hn) (zpow _ (HN (p * q) Hn) g r) (2 * (dx2 + hs * dx3)))
     with (zpow _ (HN (p * q) Hn) (vU (p * q) Hn g dx2 dx3 r hs) 2); [now rewrite Z.eqb_refl|].
  unfold vU. umod_ring.
Qed.

(** the response confines the encryption randomness to a window of n/(4c): randomness further apart never gives the same response *)
Theorem C118_refuted_response_hides pk r1 r2 rt1 rt2 c n :
  pg_modulus (pk_group pk) = n * n -> 0 < n -> 0 <= c ->
  0 <= rt1 < n / 4 -> 0 <= rt2 < n / 4 -> 0 <= r1 -> r2 * c < n * n ->
  n / 4 <= (r2 - r1) * c ->
  prove_phase_2 r1 rt1 c pk <> prove_phase_2 r2 rt2 c pk.
Proof.
  intros Em Hn Hc H1 H2 R1 R2 Hd Q. unfold prove_phase_2 in Q. rewrite Em in Q.
  rewrite !bn_mod_mul_pos in Q by nia. cbn [rbind] in Q. unfold bn_sub in Q.
  rewrite !Z.mod_small in Q by nia. injection Q as Q. nia.
Qed.
