(** Lagrange's four-square theorem, from scratch over Z. *)
From Coq Require Import ZArith Znumtheory Lia List Wf_nat.
Import ListNotations.
Open Scope Z_scope.

Definition sum4 (n : Z) : Prop := exists a b c d, n = a * a + b * b + c * c + d * d.

Lemma sum4_mul m n : sum4 m -> sum4 n -> sum4 (m * n).
Proof.
  intros (a & b & c & d & ->) (x & y & z & w & ->).
  exists (a*x + b*y + c*z + d*w), (a*y - b*x + c*w - d*z), (a*z - b*w - c*x + d*y), (a*w + b*z - c*y - d*x).
  ring.
Qed.

(** balanced residue *)
Lemma balanced m a : 0 < m -> exists r k, a = r + k * m /\ - m <= 2 * r <= m.
Proof.
  intros Hm. pose proof (Z.div_mod a m ltac:(lia)). pose proof (Z.mod_pos_bound a m Hm).
  destruct (Z.leb_spec (2 * (a mod m)) m).
  - exists (a mod m), (a / m). lia.
  - exists (a mod m - m), (a / m + 1). lia.
Qed.

Lemma prime_not_div p m : prime p -> 1 < m < p -> ~ (m | p).
Proof.
  intros Hp Hm Hd. apply prime_divisors in Hd; [|assumption]. lia.
Qed.

Lemma sq_half x m : - m <= 2 * x <= m -> 4 * (x * x) <= m * m.
Proof.
  intros H. assert (0 <= (m - 2 * x) * (m + 2 * x)) by (apply Z.mul_nonneg_nonneg; lia).
  replace ((m - 2 * x) * (m + 2 * x)) with (m * m - 4 * (x * x)) in H0 by ring. lia.
Qed.
Lemma sq_half_eq x m : 0 < m -> - m <= 2 * x <= m -> 4 * (x * x) = m * m -> 2 * x = m \/ 2 * x = - m.
Proof.
  intros Hm Hx E. assert (H : (2 * x - m) * (2 * x + m) = 0).
  { replace ((2 * x - m) * (2 * x + m)) with (4 * (x * x) - m * m) by ring. lia. }
  apply Z.mul_eq_0 in H as [H|H]; [left|right]; lia.
Qed.

Lemma descent p m : prime p -> 1 < m < p -> sum4 (m * p) -> exists r, 1 <= r < m /\ sum4 (r * p).
Proof.
  intros Hp Hm (a & b & c & d & E).
  destruct (balanced m a ltac:(lia)) as (x & ka & Ea & Hx).
  destruct (balanced m b ltac:(lia)) as (y & kb & Eb & Hy).
  destruct (balanced m c ltac:(lia)) as (z & kc & Ec & Hz).
  destruct (balanced m d ltac:(lia)) as (w & kd & Ed & Hw).
  pose proof (sq_half _ _ Hx). pose proof (sq_half _ _ Hy). pose proof (sq_half _ _ Hz). pose proof (sq_half _ _ Hw).
  set (r := p - (2 * x * ka + ka * ka * m + 2 * y * kb + kb * kb * m + 2 * z * kc + kc * kc * m + 2 * w * kd + kd * kd * m)).
  assert (Er : x * x + y * y + z * z + w * w = r * m).
  { unfold r. transitivity (m * p - m * (2 * x * ka + ka * ka * m + 2 * y * kb + kb * kb * m + 2 * z * kc + kc * kc * m + 2 * w * kd + kd * kd * m)); [|ring].
    rewrite E. subst a b c d. ring. }
  pose proof (Z.square_nonneg x) as Px. pose proof (Z.square_nonneg y) as Py.
  pose proof (Z.square_nonneg z) as Pz. pose proof (Z.square_nonneg w) as Pw.
  assert (Hr0 : 0 <= r).
  { assert (Q : 0 <= r * m) by lia. clear - Q Hm. nia. }
  assert (Hrm : r <= m).
  { assert (Q : r * m <= m * m) by lia. clear - Q Hm. nia. }
  assert (N0 : r <> 0).
  { intros R0. rewrite R0 in Er.
    assert (Sq : forall u, u * u = 0 -> u = 0) by (clear; intros u Hu; nia).
    assert (x = 0) by (apply Sq; lia). assert (y = 0) by (apply Sq; lia).
    assert (z = 0) by (apply Sq; lia). assert (w = 0) by (apply Sq; lia).
    subst x y z w. apply (prime_not_div p m Hp Hm).
    exists (ka * ka + kb * kb + kc * kc + kd * kd). apply (Z.mul_reg_l _ _ m); [lia|]. rewrite E. subst a b c d. ring. }
  assert (Nm : r <> m).
  { intros Rm. rewrite Rm in Er.
    assert (Qx : 4 * (x * x) = m * m) by lia. assert (Qy : 4 * (y * y) = m * m) by lia.
    assert (Qz : 4 * (z * z) = m * m) by lia. assert (Qw : 4 * (w * w) = m * m) by lia.
    pose proof (sq_half_eq x m ltac:(lia) Hx Qx) as Sx. pose proof (sq_half_eq y m ltac:(lia) Hy Qy) as Sy.
    pose proof (sq_half_eq z m ltac:(lia) Hz Qz) as Sz. pose proof (sq_half_eq w m ltac:(lia) Hw Qw) as Sw.
    assert (G : forall u k, 2 * u = m \/ 2 * u = - m -> exists j, (u + k * m) * (u + k * m) = u * u + j * (m * m)).
    { intros u k [Hu|Hu]; [exists (k + k * k)|exists (k * k - k)];
      (transitivity (u * u + k * m * (2 * u) + k * k * (m * m)); [ring|]; rewrite Hu; ring). }
    destruct (G x ka Sx) as (jx & Jx). destruct (G y kb Sy) as (jy & Jy).
    destruct (G z kc Sz) as (jz & Jz). destruct (G w kd Sw) as (jw & Jw).
    apply (prime_not_div p m Hp Hm). exists (1 + jx + jy + jz + jw).
    apply (Z.mul_reg_l _ _ m); [lia|]. rewrite E. subst a b c d. rewrite Jx, Jy, Jz, Jw.
    transitivity ((x * x + y * y + z * z + w * w) + (jx + jy + jz + jw) * (m * m)); [ring|]. rewrite Er. ring. }
  exists r. split; [lia|].
  (* (a,b,c,d)*(x,y,z,w) has all coordinates divisible by m *)
  set (z1 := x * ka + y * kb + z * kc + w * kd + r).
  set (z2 := ka * y - kb * x + kc * w - kd * z).
  set (z3 := ka * z - kb * w - kc * x + kd * y).
  set (z4 := ka * w + kb * z - kc * y - kd * x).
  exists z1, z2, z3, z4.
  assert (E1 : a * x + b * y + c * z + d * w = m * z1).
  { unfold z1. subst a b c d. replace (m * (x * ka + y * kb + z * kc + w * kd + r))
      with (m * (x * ka + y * kb + z * kc + w * kd) + r * m) by ring. rewrite <- Er. ring. }
  assert (E2 : a * y - b * x + c * w - d * z = m * z2) by (unfold z2; subst a b c d; ring).
  assert (E3 : a * z - b * w - c * x + d * y = m * z3) by (unfold z3; subst a b c d; ring).
  assert (E4 : a * w + b * z - c * y - d * x = m * z4) by (unfold z4; subst a b c d; ring).
  apply (Z.mul_reg_l _ _ (m * m)); [clear - Hm; nia|].
  transitivity ((m * p) * (r * m)); [ring|]. rewrite E, <- Er.
  transitivity ((m * z1) * (m * z1) + (m * z2) * (m * z2) + (m * z3) * (m * z3) + (m * z4) * (m * z4)); [|ring].
  rewrite <- E1, <- E2, <- E3, <- E4. ring.
Qed.

(** ** x^2 + y^2 + 1 = 0 (mod p) is solvable *)
Definition zseq (n : nat) : list Z := map Z.of_nat (seq 0 n).
Lemma zseq_in n x : In x (zseq n) <-> 0 <= x < Z.of_nat n.
Proof.
  unfold zseq. rewrite in_map_iff. split.
  - intros (k & <- & Hk). apply in_seq in Hk. lia.
  - intros H. exists (Z.to_nat x). split; [lia|]. apply in_seq. lia.
Qed.
Lemma zseq_nodup n : NoDup (zseq n).
Proof.
  unfold zseq. generalize (seq_NoDup n 0). generalize (seq 0 n). clear.
  induction l as [|x l IH]; cbn; intros H; [constructor|]. inversion H as [|? ? Hn Hd]; subst. constructor.
  - intros Hi. apply in_map_iff in Hi as (y & E & Hy). apply Nat2Z.inj in E. congruence.
  - auto.
Qed.
Lemma zseq_length n : length (zseq n) = n.
Proof. unfold zseq. now rewrite map_length, seq_length. Qed.

Lemma NoDup_map_inj {A B} (f : A -> B) l : NoDup l ->
  (forall x y, In x l -> In y l -> f x = f y -> x = y) -> NoDup (map f l).
Proof.
  induction l as [|x l IH]; cbn; intros H Hf; [constructor|]. inversion H as [|? ? Hn Hd]; subst. constructor.
  - intros Hi. apply in_map_iff in Hi as (y & E & Hy). assert (y = x) by (apply Hf; auto). congruence.
  - apply IH; auto.
Qed.

Lemma square_inj p x y : prime p -> 0 <= x -> 0 <= y -> x + y < p -> (x * x) mod p = (y * y) mod p -> x = y.
Proof.
  intros Hp Hx Hy Hs E. pose proof (prime_ge_2 p Hp).
  assert (D : (p | (x - y) * (x + y))).
  { replace ((x - y) * (x + y)) with (x * x - y * y) by ring.
    apply Z.mod_divide; [lia|]. rewrite Zminus_mod, E, Z.sub_diag. apply Z.mod_0_l. lia. }
  apply prime_mult in D; [|assumption].
  destruct D as [D|D].
  - destruct (Z.eq_dec (x - y) 0); [lia|]. apply Z.divide_abs_r in D. apply Z.divide_pos_le in D; lia.
  - destruct (Z.eq_dec (x + y) 0); [lia|]. apply Z.divide_pos_le in D; lia.
Qed.

Lemma two_squares_mod p : prime p -> p mod 2 = 1 -> exists x y, 2 * x < p /\ 2 * y < p /\ 0 <= x /\ 0 <= y /\ (p | x * x + y * y + 1).
Proof.
  intros Hp Hodd. pose proof (prime_ge_2 p Hp).
  set (h := Z.to_nat (p / 2 + 1)).
  pose proof (Z.div_mod p 2 ltac:(lia)) as Hdm. rewrite Hodd in Hdm.
  set (A := map (fun x => (x * x) mod p) (zseq h)).
  set (B := map (fun y => (- 1 - y * y) mod p) (zseq h)).
  assert (Hh : Z.of_nat h = p / 2 + 1) by (unfold h; rewrite Z2Nat.id; lia).
  assert (HA : NoDup A).
  { apply NoDup_map_inj; [apply zseq_nodup|]. intros x y Hx Hy E. apply zseq_in in Hx, Hy.
    apply (square_inj p); lia || assumption. }
  assert (HB : NoDup B).
  { apply NoDup_map_inj; [apply zseq_nodup|]. intros x y Hx Hy E. apply zseq_in in Hx, Hy.
    apply (square_inj p); try lia; try assumption.
    replace (x * x) with (-1 - (-1 - x * x)) by ring. replace (y * y) with (-1 - (-1 - y * y)) by ring.
    now rewrite Zminus_mod, E, <- Zminus_mod. }
  destruct (existsb (fun a => existsb (Z.eqb a) B) A) eqn:Ex.
  - apply existsb_exists in Ex as (a & Ha & Ex). apply existsb_exists in Ex as (b & Hb & Ex).
    apply Z.eqb_eq in Ex. subst b.
    apply in_map_iff in Ha as (x & Ea & Hx). apply in_map_iff in Hb as (y & Eb & Hy).
    apply zseq_in in Hx, Hy. exists x, y. split; [lia|]. split; [lia|]. split; [lia|]. split; [lia|].
    apply Z.mod_divide; [lia|].
    replace (x * x + y * y + 1) with (x * x - (-1 - y * y)) by ring.
    rewrite Zminus_mod, Ea, Eb, Z.sub_diag. apply Z.mod_0_l. lia.
  - exfalso.
    assert (Hdis : forall a, In a A -> ~ In a B).
    { intros a Ha Hb. assert (existsb (fun a => existsb (Z.eqb a) B) A = true); [|congruence].
      apply existsb_exists. exists a. split; [assumption|]. apply existsb_exists. exists a. split; [assumption|apply Z.eqb_refl]. }
    assert (Hnd : NoDup (A ++ B)).
    { clear - HA HB Hdis. induction A as [|a A IH]; [assumption|]. cbn. inversion HA as [|? ? Hn Hd]; subst. constructor.
      - rewrite in_app_iff. intros [Hi|Hi]; [contradiction|]. apply (Hdis a); [now left|assumption].
      - apply IH; [assumption|]. intros b Hb. apply Hdis. now right. }
    assert (Hincl : incl (A ++ B) (zseq (Z.to_nat p))).
    { intros a Ha. apply zseq_in. rewrite Z2Nat.id by lia. apply in_app_iff in Ha as [Ha|Ha];
      apply in_map_iff in Ha as (x & <- & _); apply Z.mod_pos_bound; lia. }
    pose proof (NoDup_incl_length Hnd Hincl) as L. rewrite app_length, zseq_length in L. unfold A, B in L.
    rewrite !map_length, zseq_length in L. lia.
Qed.

Lemma sum4_prime p : prime p -> sum4 p.
Proof.
  intros Hp. pose proof (prime_ge_2 p Hp).
  destruct (Z.eq_dec p 2) as [->|N2]; [exists 1, 1, 0, 0; reflexivity|].
  assert (Hodd : p mod 2 = 1).
  { pose proof (Z.mod_pos_bound p 2 ltac:(lia)).
    assert (p mod 2 <> 0); [|lia]. intros E. apply Z.mod_divide in E; [|lia].
    apply prime_divisors in E; [|assumption]. lia. }
  assert (S : exists m, 1 <= m < p /\ sum4 (m * p)).
  { destruct (two_squares_mod p Hp Hodd) as (x & y & Hx & Hy & Px & Py & (m & E)).
    exists m. split; [|exists x, y, 1, 0; lia].
    assert (0 < m) by (clear - E Px Py H; nia). split; [lia|].
    assert (Q : 4 * (x * x) <= (p - 1) * (p - 1)) by (clear - Hx Px; nia).
    assert (Q' : 4 * (y * y) <= (p - 1) * (p - 1)) by (clear - Hy Py; nia).
    assert (m * p < p * p); [|clear - H1 H; nia]. rewrite <- E. clear - Q Q' H. nia. }
  destruct S as (m & Hm & S).
  remember (Z.to_nat m) as k eqn:Ek. revert m Hm S Ek.
  induction k as [k IH] using lt_wf_ind. intros m Hm S Ek.
  destruct (Z.eq_dec m 1) as [->|N1]; [now rewrite Z.mul_1_l in S|].
  destruct (descent p m Hp ltac:(lia) S) as (r & Hr & S').
  apply (IH (Z.to_nat r)) with (m := r); try lia; assumption.
Qed.

Lemma prime_factor n : 1 < n -> exists p, prime p /\ (p | n).
Proof.
  intros Hn. remember (Z.to_nat n) as k eqn:Ek. revert n Hn Ek.
  induction k as [k IH] using lt_wf_ind. intros n Hn Ek.
  destruct (prime_dec n) as [Hp|Hnp]; [exists n; split; [assumption|apply Z.divide_refl]|].
  apply not_prime_divide in Hnp as (d & Hd & Hdiv); [|assumption].
  destruct (IH (Z.to_nat d) ltac:(lia) d ltac:(lia) eq_refl) as (p & Hp & Hpd).
  exists p. split; [assumption|]. now apply Z.divide_trans with d.
Qed.

Theorem lagrange n : 0 <= n -> sum4 n.
Proof.
  intros Hn. remember (Z.to_nat n) as k eqn:Ek. revert n Hn Ek.
  induction k as [k IH] using lt_wf_ind. intros n Hn Ek.
  destruct (Z.eq_dec n 0) as [->|N0]; [exists 0, 0, 0, 0; reflexivity|].
  destruct (Z.eq_dec n 1) as [->|N1]; [exists 1, 0, 0, 0; reflexivity|].
  destruct (prime_factor n ltac:(lia)) as (p & Hp & (q & E)).
  pose proof (prime_ge_2 p Hp).
  assert (0 < q) by nia. assert (q < n) by nia.
  rewrite E. apply sum4_mul; [|now apply sum4_prime].
  apply (IH (Z.to_nat q)); lia.
Qed.
