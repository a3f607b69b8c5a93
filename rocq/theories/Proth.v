(** Proth's test, to have a proved prime above 2^64 for the concrete cases of the
    gadgets: 5 * 2^75 + 1. *)
From Verif Require Import Base Fermat Lagrange.
From Coq Require Import Znumtheory ZArith.Zpow_facts.
Open Scope Z_scope.

Lemma pow_mod_pow (b e f m : Z) : 0 < m -> 0 <= e -> 0 <= f -> (b ^ (e * f)) mod m = ((b ^ e mod m) ^ f) mod m.
Proof. intros Hm He Hf. rewrite Z.pow_mul_r by assumption. symmetry. rewrite <- Zpower_mod by assumption. reflexivity. Qed.
Lemma pow_1_mod (b e f m : Z) : 1 < m -> 0 <= e -> 0 <= f -> b ^ e mod m = 1 -> b ^ (e * f) mod m = 1.
Proof. intros Hm He Hf E. rewrite pow_mod_pow by lia. rewrite E, Z.pow_1_l by assumption. now apply Z.mod_small. Qed.
(** the divisors of a power of two *)
Lemma div_pow2 n : 0 <= n -> forall g, 0 < g -> (g | 2 ^ n) -> exists j, 0 <= j <= n /\ g = 2 ^ j.
Proof.
  intros Hn. pattern n. apply natlike_ind; [| |exact Hn]; clear n Hn.
  - intros g Hg Hk. exists 0. change (2 ^ 0) with 1 in *. split; [lia|]. apply Z.divide_1_r_nonneg; [lia|exact Hk].
  - intros n Hn IH g Hg Hd. rewrite Z.pow_succ_r in Hd by assumption.
    destruct (Z.Even_or_Odd g) as [[h ->]|[h ->]].
    + destruct (IH h) as (j & Hj & ->); [lia| |].
      * destruct Hd as [k Hk]. exists k. nia.
      * exists (Z.succ j). split; [lia|]. rewrite Z.pow_succ_r by lia. reflexivity.
    + assert (Z.gcd (2 * h + 1) 2 = 1) as G.
      { apply Zgcd_1_rel_prime, rel_prime_sym, prime_rel_prime; [exact prime_2|]. intros [k Hk]. lia. }
      apply Z.gauss in Hd; [|exact G]. destruct (IH _ Hg Hd) as (j & Hj & E). exists j. split; [lia|exact E].
Qed.
Lemma pow_gcd_1 b m x y : 1 < m -> 0 <= x -> 0 < y -> b ^ x mod m = 1 -> b ^ y mod m = 1 -> b ^ Z.gcd x y mod m = 1.
Proof.
  intros Hm Hx Hy Ex Ey. destruct (Z.gcd_bezout x y _ eq_refl) as (u & v & E). pose proof (Z.gcd_nonneg x y) as G0.
  set (g := Z.gcd x y) in *.
  (* g + k y = u' x with u', k >= 0 *)
  set (k := Z.abs u + Z.abs v).
  assert (u * x + v * y + (k * x * y - v * y) = (u + k * y) * x) as Q by ring.
  assert (0 <= k * x * y + Z.abs v * y) as K0 by nia.
  assert (0 <= u + k * y) as Hu by (unfold k; nia).
  destruct (Z.eq_dec x 0) as [->|Nx].
  { assert (g = y) as -> by (unfold g; rewrite Z.gcd_0_l; lia). exact Ey. }
  assert (0 <= k * x - v) as Hv by (unfold k; nia).
  assert (g + (k * x - v) * y = (u + k * y) * x) as R by (rewrite <- E; ring).
  assert (b ^ (g + (k * x - v) * y) mod m = 1) as P.
  { rewrite R, (Z.mul_comm _ x). now apply pow_1_mod. }
  rewrite Z.pow_add_r in P by nia. rewrite Zmult_mod in P. rewrite (Z.mul_comm _ y), pow_1_mod in P by (lia || assumption).
  rewrite Z.mul_1_r, Z.mod_mod in P by lia. exact P.
Qed.

(** p = k 2^n + 1, k odd or not, and a^(k 2^(n-1)) = -1 mod p *)
Theorem proth k n a : 1 <= n -> 0 < k <= 2 ^ n -> (a ^ (k * 2 ^ (n - 1)) + 1) mod (k * 2 ^ n + 1) = 0 -> prime (k * 2 ^ n + 1).
Proof.
  intros Hn Hk Ha. set (p := k * 2 ^ n + 1) in *. assert (0 < 2 ^ n) as P2 by (apply Z.pow_pos_nonneg; lia). assert (1 < p) as Hp by (unfold p; nia).
  assert (2 ^ n = 2 * 2 ^ (n - 1)) as E2 by (rewrite <- Z.pow_succ_r by lia; f_equal; lia). assert (0 < 2 ^ (n - 1)) as P1 by (apply Z.pow_pos_nonneg; lia).
  (* every prime divisor exceeds 2^n *)
  assert (forall r, prime r -> (r | p) -> 2 ^ n < r) as Big.
  { intros r Hr Hd. pose proof (prime_ge_2 _ Hr) as R2.
    assert (Ro : r <> 2). { intros ->. destruct Hd as [c Hc]. unfold p in Hc. rewrite E2 in Hc. nia. }
    assert (A : (a ^ (k * 2 ^ (n - 1)) + 1) mod r = 0).
    { apply Z.mod_divide; [lia|]. apply Z.mod_divide in Ha; [|lia]. now apply Z.divide_trans with p. }
    assert (A' : a ^ (k * 2 ^ (n - 1)) mod r = r - 1).
    { symmetry. apply Z.mod_unique with (q := (a ^ (k * 2 ^ (n - 1)) + 1) / r - 1); [lia|]. pose proof (Z.div_mod (a ^ (k * 2 ^ (n - 1)) + 1) r ltac:(lia)). lia. }
    assert (Na : ~ (r | a)).
    { intros D. apply Z.mod_divide in D; [|lia]. rewrite Zpower_mod, D, Z.pow_0_l in A' by nia. rewrite Z.mod_0_l in A' by lia. lia. }
    pose proof (fermat r a Hr Na) as F. set (b := a ^ k).
    assert (B1 : b ^ (r - 1) mod r = 1). { unfold b. rewrite <- Z.pow_mul_r by lia. rewrite Z.mul_comm. now apply pow_1_mod; lia || assumption. }
    assert (B2 : b ^ (2 ^ (n - 1)) mod r = r - 1) by (unfold b; rewrite <- Z.pow_mul_r by lia; exact A').
    assert (B3 : b ^ (2 ^ n) mod r = 1).
    { rewrite E2, (Z.mul_comm 2), pow_mod_pow by lia. rewrite B2. replace ((r - 1) ^ 2) with (1 + (r - 2) * r) by ring. rewrite Z.mod_add by lia. apply Z.mod_small. lia. }
    pose proof (pow_gcd_1 b r (r - 1) (2 ^ n) ltac:(lia) ltac:(lia) P2 B1 B3) as G.
    destruct (div_pow2 n ltac:(lia) (Z.gcd (r - 1) (2 ^ n))) as (j & Hj & Ej).
    { pose proof (Z.gcd_nonneg (r - 1) (2 ^ n)). destruct (Z.eq_dec (Z.gcd (r - 1) (2 ^ n)) 0) as [Z0|]; [apply Z.gcd_eq_0_r in Z0; lia|lia]. }
    { apply Z.gcd_divide_r. }
    destruct (Z.eq_dec j n) as [->|Nj].
    - assert (D : (2 ^ n | r - 1)) by (rewrite <- Ej; apply Z.gcd_divide_l). apply Z.divide_pos_le in D; lia.
    - exfalso. rewrite Ej in G. assert (X : b ^ (2 ^ (n - 1)) mod r = 1).
      { replace (n - 1) with (j + (n - 1 - j)) by lia. rewrite Z.pow_add_r by lia. apply pow_1_mod; [lia|apply Z.pow_nonneg; lia|apply Z.pow_nonneg; lia|exact G]. }
      rewrite B2 in X. lia. }
  destruct (prime_dec p) as [|Np]; [assumption|]. exfalso.
  destruct (prime_factor p Hp) as (r & Hr & [c Hc]). pose proof (prime_ge_2 _ Hr) as R2.
  pose proof (Big r Hr (ex_intro _ c Hc)) as Br.
  assert (c <> 1). { intros ->. rewrite Z.mul_1_l in Hc. rewrite Hc in Np. contradiction. }
  assert (1 < c) as Hc1 by nia. destruct (prime_factor c Hc1) as (s & Hs & [e He]). pose proof (prime_ge_2 _ Hs) as S2.
  assert ((s | p)) as Ds by (exists (e * r); rewrite Hc, He; ring). pose proof (Big s Hs Ds) as Bs.
  assert (0 < e) by nia. assert (s <= c) by nia. assert (p = k * 2 ^ n + 1) as Ep by reflexivity. nia.
Qed.

(** 5 * 2^75 + 1, a prime of 78 bits *)
Fixpoint sqn (m : Z) (n : nat) (b : Z) : Z := match n with O => b | S n => sqn m n ((b * b) mod m) end.
Lemma sqn_pow m n : 0 < m -> forall b, sqn m n (b mod m) = b ^ (2 ^ Z.of_nat n) mod m.
Proof.
  intros Hm. induction n as [|n IH]; intros b; cbn [sqn].
  - change (2 ^ Z.of_nat 0) with 1. now rewrite Z.pow_1_r.
  - rewrite <- Zmult_mod, IH. rewrite Nat2Z.inj_succ, Z.pow_succ_r by lia. rewrite Z.pow_mul_r by (try apply Z.pow_nonneg; lia). now rewrite Z.pow_2_r.
Qed.
Definition big_q : Z := 5 * 2 ^ 75 + 1.
Lemma big_q_prime : prime big_q.
Proof.
  apply (proth 5 75 3); [lia|split; [lia|change 5 with (5 ^ 1); discriminate]|].
  rewrite <- Zplus_mod_idemp_l, Z.pow_mul_r by lia. change (75 - 1) with (Z.of_nat 74). rewrite <- sqn_pow by lia.
  vm_compute. reflexivity.
Qed.
