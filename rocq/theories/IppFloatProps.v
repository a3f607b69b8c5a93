(** What [(i as f32).log2() as usize] computes (ipp.rs:330), and what follows for the size of
    the proofs that can be verified (C129).

    Everything is stated with integers.  A number y = M / 2^23 with an integer M >= 2^23 (so y >= 1)
    is a binary32 number iff M is a multiple of 2^e for the e with 2^(23+e) <= M < 2^(24+e)
    (24 significant bits).  "log2 i <= m / d" is "i^d <= 2^m".  For 2^k <= i < 2^(k+1) the distance of
    neighbouring binary32 numbers at log2 i is ulp = 2^e / 2^23 with 2^e <= k < 2^(e+1). *)
From Verif Require Import Base Alg Lin TranscriptModel IppModel IppLib IppSpec IppProps R1csModel R1csSpec R1csLib R1csProofModel R1csProofLib R1csProofSpec R1csProofComplete GadgetProps R1csProofProps.
Import List ListNotations.
Open Scope Z_scope.

Definition is_f32 (M : Z) : Prop := exists e, 0 <= e /\ 2 ^ (23 + e) <= M < 2 ^ (24 + e) /\ (2 ^ e | M).
(** 8 * 2^23 * log2 i, exponentiated (a name, so that arithmetic tactics do not expand the power) *)
Definition pow26 (i : Z) : Z := i ^ (2 ^ 26).
Lemma pow26_eq i : pow26 i = i ^ (2 ^ 26).
Proof. reflexivity. Qed.
(** |M / 2^23 - log2 i| <= 5/8 ulp *)
Definition log2_within (i M e : Z) : Prop := 2 ^ (8 * M - 5 * 2 ^ e) <= pow26 i <= 2 ^ (8 * M + 5 * 2 ^ e).
(** a logarithm with an error of at most 5/8 ulp that is exact for powers of two, followed by the
    conversion to usize (the integral part); below 2^24 the conversion of i to f32 is exact *)
Definition f32_log2_ok (lg : nat -> nat) : Prop := forall i, 1 <= Z.of_nat i < 2 ^ 24 -> exists M, Z.of_nat (lg i) = M / 2 ^ 23 /\
  (forall k, 0 <= k -> Z.of_nat i = 2 ^ k -> M = k * 2 ^ 23) /\
  (1 < Z.of_nat i -> is_f32 M /\ log2_within (Z.of_nat i) M (Z.log2 (Z.log2 (Z.of_nat i)))).
(** correctly rounded: no other binary32 number is nearer to log2 i *)
Definition pow24 (i : Z) : Z := i ^ (2 ^ 24). (* 2 * 2^23 * log2 i, exponentiated *)
Lemma pow24_eq i : pow24 i = i ^ (2 ^ 24).
Proof. reflexivity. Qed.
Definition log2_nearest (i M : Z) : Prop := is_f32 M /\ forall M', is_f32 M' -> (M < M' -> pow24 i <= 2 ^ (M + M')) /\ (M' < M -> 2 ^ (M + M') <= pow24 i).

(** ** Bernoulli *)
Lemma bern_up N t : 1 < N -> 0 <= t -> (N + t) * (N - 1) ^ t <= N * N ^ t.
Proof.
  intros HN Ht. pattern t. apply natlike_ind; [rewrite !Z.pow_0_r; lia| |exact Ht]. clear t Ht. intros t Ht IH. rewrite !Z.pow_succ_r by lia.
  assert (0 <= (N - 1) ^ t) as P1 by (apply Z.pow_nonneg; lia). assert (0 <= N ^ t) as P2 by (apply Z.pow_nonneg; lia). set (a := (N - 1) ^ t) in *. set (b := N ^ t) in *. nia.
Qed.
Lemma bern_lo N t : 1 < N -> 0 <= t -> (N - t) * N ^ t <= N * (N - 1) ^ t.
Proof.
  intros HN Ht. pattern t. apply natlike_ind; [rewrite !Z.pow_0_r; lia| |exact Ht]. clear t Ht. intros t Ht IH. rewrite !Z.pow_succ_r by lia.
  assert (0 <= (N - 1) ^ t) as P1 by (apply Z.pow_nonneg; lia). assert (0 <= N ^ t) as P2 by (apply Z.pow_nonneg; lia). set (a := (N - 1) ^ t) in *. set (b := N ^ t) in *. nia.
Qed.
Lemma bern N t : 0 < N -> 0 <= t -> (N + t) * N ^ t <= N * (N + 1) ^ t.
Proof.
  intros HN Ht. pattern t. apply natlike_ind; [rewrite !Z.pow_0_r; lia| |exact Ht]. clear t Ht. intros t Ht IH. rewrite !Z.pow_succ_r by lia.
  assert (0 <= (N + 1) ^ t) as P1 by (apply Z.pow_nonneg; lia). assert (0 <= N ^ t) as P2 by (apply Z.pow_nonneg; lia). set (a := (N + 1) ^ t) in *. set (b := N ^ t) in *. nia.
Qed.
Lemma pow_le_pow a b n : 0 <= a <= b -> 0 <= n -> a ^ n <= b ^ n.
Proof. intros. apply Z.pow_le_mono_l. lia. Qed.
(** (1 - 1/N)^(4 N) < 1/32 and 1/8 < (1 - 1/N)^(2 N), for multiples N of 16 *)
Lemma below_up t : 0 < t -> 32 * (16 * t - 1) ^ (4 * (16 * t)) < (16 * t) ^ (4 * (16 * t)).
Proof.
  intros Ht. pose proof (bern_up (16 * t) t ltac:(lia) ltac:(lia)) as B.
  assert (17 * (16 * t - 1) ^ t <= 16 * (16 * t) ^ t) as B1. { set (a := (16 * t - 1) ^ t) in *. set (b := (16 * t) ^ t) in *. nia. } clear B.
  replace (4 * (16 * t)) with (t * 64) by lia. rewrite !Z.pow_mul_r by lia.
  assert (0 < (16 * t - 1) ^ t) as P1 by (apply Z.pow_pos_nonneg; lia). assert (0 < (16 * t) ^ t) as P2 by (apply Z.pow_pos_nonneg; lia).
  set (a := (16 * t - 1) ^ t) in *. set (b := (16 * t) ^ t) in *. clearbody a b.
  pose proof (pow_le_pow (17 * a) (16 * b) 64 ltac:(lia) ltac:(lia)) as B2. rewrite !Z.pow_mul_l in B2.
  assert (0 < a ^ 64) as P3 by (apply Z.pow_pos_nonneg; lia). assert (0 < b ^ 64) as P4 by (apply Z.pow_pos_nonneg; lia). set (A := a ^ 64) in *. set (D := b ^ 64) in *. clearbody A D.
  assert (32 * 16 ^ 64 < 17 ^ 64) as C by reflexivity. set (c := 16 ^ 64) in *. set (d := 17 ^ 64) in *. assert (0 < c) by reflexivity. clearbody c d. nia.
Qed.
Lemma below_lo t : 0 < t -> (16 * t) ^ (2 * (16 * t)) < 8 * (16 * t - 1) ^ (2 * (16 * t)).
Proof.
  intros Ht. pose proof (bern_lo (16 * t) t ltac:(lia) ltac:(lia)) as B.
  assert (15 * (16 * t) ^ t <= 16 * (16 * t - 1) ^ t) as B1. { set (a := (16 * t - 1) ^ t) in *. set (b := (16 * t) ^ t) in *. nia. } clear B.
  replace (2 * (16 * t)) with (t * 32) by lia. rewrite !Z.pow_mul_r by lia.
  assert (0 < (16 * t - 1) ^ t) as P1 by (apply Z.pow_pos_nonneg; lia). assert (0 < (16 * t) ^ t) as P2 by (apply Z.pow_pos_nonneg; lia).
  set (a := (16 * t - 1) ^ t) in *. set (b := (16 * t) ^ t) in *. clearbody a b.
  pose proof (pow_le_pow (15 * b) (16 * a) 32 ltac:(lia) ltac:(lia)) as B2. rewrite !Z.pow_mul_l in B2.
  assert (0 < a ^ 32) as P3 by (apply Z.pow_pos_nonneg; lia). assert (0 < b ^ 32) as P4 by (apply Z.pow_pos_nonneg; lia). set (A := a ^ 32) in *. set (D := b ^ 32) in *. clearbody A D.
  assert (16 ^ 32 < 8 * 15 ^ 32) as C by reflexivity. set (c := 16 ^ 32) in *. set (d := 15 ^ 32) in *. assert (0 < d) by reflexivity. clearbody c d. nia.
Qed.
(** log2 (2^K - 1) < K - 5/4 2^-K for 4 <= K, in units of 2^-26 *)
Lemma log_below K i : 2 <= K <= 20 -> 0 <= i <= 2 ^ K - 1 -> pow26 i < 2 ^ (2 ^ 26 * K - 5 * 2 ^ (24 - K)).
Proof.
  intros HK Hi. rewrite pow26_eq. assert (32 * (2 ^ K - 1) ^ (4 * 2 ^ K) < (2 ^ K) ^ (4 * 2 ^ K)) as B.
  { destruct (Z_lt_le_dec K 4). { assert (K = 2 \/ K = 3) as [-> | ->] by lia; reflexivity. }
    replace (2 ^ K) with (16 * 2 ^ (K - 4)) by (change 16 with (2 ^ 4); rewrite <- Z.pow_add_r by lia; f_equal; lia). apply below_up. apply Z.pow_pos_nonneg; lia. }
  assert (0 < 2 ^ K) as PK by (apply Z.pow_pos_nonneg; lia). assert (2 ^ 2 <= 2 ^ K) as PK2 by (apply Z.pow_le_mono_r; lia). change (2 ^ 2) with 4 in PK2.
  assert (2 ^ 26 = (4 * 2 ^ K) * 2 ^ (24 - K)) as E26. { change 4 with (2 ^ 2). rewrite <- !Z.pow_add_r by lia. f_equal. lia. }
  assert (0 < 2 ^ (24 - K)) as P24 by (apply Z.pow_pos_nonneg; lia).
  rewrite <- Z.pow_mul_r in B by lia.
  assert ((2 ^ K - 1) ^ (4 * 2 ^ K) < 2 ^ (K * (4 * 2 ^ K) - 5)) as B1.
  { replace (K * (4 * 2 ^ K)) with (K * (4 * 2 ^ K) - 5 + 5) in B by lia. rewrite Z.pow_add_r in B by nia. change (2 ^ 5) with 32 in B. set (x := (2 ^ K - 1) ^ (4 * 2 ^ K)) in *. set (y := 2 ^ (K * (4 * 2 ^ K) - 5)) in *. clearbody x y. lia. }
  rewrite E26 at 1. rewrite Z.pow_mul_r by lia.
  replace (2 ^ 26 * K - 5 * 2 ^ (24 - K)) with ((K * (4 * 2 ^ K) - 5) * 2 ^ (24 - K)) by (rewrite E26; ring). rewrite (Z.pow_mul_r 2) by nia.
  apply Z.pow_lt_mono_l; [exact P24|]. split; [apply Z.pow_nonneg; lia|]. eapply Z.le_lt_trans; [|exact B1]. apply Z.pow_le_mono_l. lia.
Qed.
(** k + 2^-k <= log2 (2^k + 1) *)
Lemma log_above k i : 0 <= k <= 20 -> 2 ^ k + 1 <= i -> 2 ^ (2 ^ 26 * k + 2 ^ (26 - k)) <= pow26 i.
Proof.
  intros Hk Hi. rewrite pow26_eq. assert (0 < 2 ^ k) as PK by (apply Z.pow_pos_nonneg; lia). assert (0 < 2 ^ (26 - k)) as P26 by (apply Z.pow_pos_nonneg; lia).
  assert (2 ^ 26 = 2 ^ k * 2 ^ (26 - k)) as E by (rewrite <- Z.pow_add_r by lia; f_equal; lia).
  assert (2 * (2 ^ k) ^ (2 ^ k) <= (2 ^ k + 1) ^ (2 ^ k)) as B.
  { pose proof (bern (2 ^ k) (2 ^ k) ltac:(lia) ltac:(lia)) as B.
    set (N := 2 ^ k) in *. assert (0 < N ^ N) as P1 by (apply Z.pow_pos_nonneg; lia). set (a := N ^ N) in *. set (b := (N + 1) ^ N) in *. clearbody a b N. clear -B P1 PK. nia. }
  rewrite <- Z.pow_mul_r, <- Z.pow_succ_r in B by nia.
  replace (2 ^ 26 * k + 2 ^ (26 - k)) with (Z.succ (k * 2 ^ k) * 2 ^ (26 - k)) by (rewrite E; unfold Z.succ; ring).
  rewrite E at 1. rewrite !Z.pow_mul_r by nia. apply Z.pow_le_mono_l. split; [apply Z.pow_nonneg; lia|]. eapply Z.le_trans; [exact B|]. apply Z.pow_le_mono_l. lia.
Qed.
Lemma pow_double T i j y : 0 <= T -> 0 <= y -> 0 <= i <= 2 * j -> j ^ T < 2 ^ y -> i ^ T < 2 ^ (T + y).
Proof.
  intros HT Hy Hi H. apply Z.le_lt_trans with ((2 * j) ^ T); [now apply Z.pow_le_mono_l|]. rewrite Z.pow_mul_l, Z.pow_add_r by assumption. apply Z.mul_lt_mono_pos_l; [|exact H]. apply Z.pow_pos_nonneg; lia.
Qed.
Lemma log_below2 K i : 2 <= K <= 20 -> 0 <= i <= 2 * (2 ^ K - 1) -> pow26 i < 2 ^ (2 ^ 26 * (K + 1) - 5 * 2 ^ (24 - K)).
Proof.
  intros HK Hi. assert (0 < 2 ^ K) as PK by (apply Z.pow_pos_nonneg; lia). pose proof (log_below K (2 ^ K - 1) HK ltac:(lia)) as B.
  assert (2 ^ (24 - K) <= 2 ^ 22) as P24 by (apply Z.pow_le_mono_r; lia).
  replace (2 ^ 26 * (K + 1) - 5 * 2 ^ (24 - K)) with (2 ^ 26 + (2 ^ 26 * K - 5 * 2 ^ (24 - K))) by (clear B; lia). assert (0 <= 2 ^ 26 * K - 5 * 2 ^ (24 - K)) as P0 by (clear B; lia). rewrite pow26_eq in B |- *. assert (0 <= 2 ^ 26) as PT by discriminate. revert P0 PT B. generalize (2 ^ 26 * K - 5 * 2 ^ (24 - K)) (2 ^ 26). intros y T P0 PT B. now apply (pow_double T i (2 ^ K - 1)).
Qed.
(** K - 3/2 2^-K < log2 (2^K - 1) *)
Lemma log_fail K : 4 <= K <= 25 -> 2 ^ (2 ^ 26 * K - 3 * 2 ^ (25 - K)) < pow26 (2 ^ K - 1).
Proof.
  intros HK. rewrite pow26_eq. assert ((2 ^ K) ^ (2 * 2 ^ K) < 8 * (2 ^ K - 1) ^ (2 * 2 ^ K)) as B.
  { replace (2 ^ K) with (16 * 2 ^ (K - 4)) by (change 16 with (2 ^ 4); rewrite <- Z.pow_add_r by lia; f_equal; lia). apply below_lo. apply Z.pow_pos_nonneg; lia. }
  assert (0 < 2 ^ K) as PK by (apply Z.pow_pos_nonneg; lia). assert (2 ^ 4 <= 2 ^ K) as PK2 by (apply Z.pow_le_mono_r; lia). change (2 ^ 4) with 16 in PK2.
  assert (2 ^ 26 = (2 * 2 ^ K) * 2 ^ (25 - K)) as E26. { rewrite <- Z.pow_succ_r, <- Z.pow_add_r by lia. f_equal. lia. }
  assert (0 < 2 ^ (25 - K)) as P24 by (apply Z.pow_pos_nonneg; lia).
  rewrite <- Z.pow_mul_r in B by lia.
  assert (2 ^ (K * (2 * 2 ^ K) - 3) < (2 ^ K - 1) ^ (2 * 2 ^ K)) as B1.
  { replace (K * (2 * 2 ^ K)) with (K * (2 * 2 ^ K) - 3 + 3) in B by lia. rewrite Z.pow_add_r in B by nia. change (2 ^ 3) with 8 in B. set (x := (2 ^ K - 1) ^ (2 * 2 ^ K)) in *. set (y := 2 ^ (K * (2 * 2 ^ K) - 3)) in *. clearbody x y. lia. }
  rewrite E26 at 2. rewrite (Z.pow_mul_r (2 ^ K - 1)) by lia.
  replace (2 ^ 26 * K - 3 * 2 ^ (25 - K)) with ((K * (2 * 2 ^ K) - 3) * 2 ^ (25 - K)) by (rewrite E26; ring). rewrite (Z.pow_mul_r 2) by nia.
  apply Z.pow_lt_mono_l; [exact P24|]. split; [apply Z.pow_nonneg; lia|exact B1].
Qed.
Lemma f32_div M e : 0 <= e -> is_f32 M -> 2 ^ (23 + e) <= M -> (2 ^ e | M).
Proof.
  intros He (e' & He' & R & D) HM. assert (e <= e') as L. { assert (23 + e < 24 + e'); [|lia]. apply (Z.pow_lt_mono_r_iff 2); lia. }
  apply Z.divide_trans with (2 ^ e'); [|exact D]. exists (2 ^ (e' - e)). rewrite <- Z.pow_add_r by lia. f_equal. lia.
Qed.
Lemma f32_pos M : is_f32 M -> 2 ^ 23 <= M.
Proof. intros (e & He & R & _). apply Z.le_trans with (2 ^ (23 + e)); [apply Z.pow_le_mono_r; lia|apply R]. Qed.
(** in the exponents *)
Lemma within_exp i M e lo hi : log2_within i M e -> 0 <= e -> is_f32 M -> 0 <= hi -> 2 ^ lo <= pow26 i -> pow26 i < 2 ^ hi -> lo <= 8 * M + 5 * 2 ^ e /\ 8 * M - 5 * 2 ^ e < hi.
Proof.
  intros (W1 & W2) He HM Hh Hlo Hhi. pose proof (f32_pos M HM) as PM. assert (0 < 2 ^ e) by (apply Z.pow_pos_nonneg; lia). split.
  - apply (Z.pow_le_mono_r_iff 2); [lia|lia|]. eapply Z.le_trans; eassumption.
  - apply (Z.pow_lt_mono_r_iff 2); [lia|exact Hh|]. eapply Z.le_lt_trans; eassumption.
Qed.
Lemma floor_exact i M : 1 < i <= 2 ^ 21 - 2 -> is_f32 M -> log2_within i M (Z.log2 (Z.log2 i)) -> (forall k, 0 <= k -> i = 2 ^ k -> M = k * 2 ^ 23) -> M / 2 ^ 23 = Z.log2 i.
Proof.
  intros Hi HM W X. pose proof (Z.log2_spec i ltac:(lia)) as (S1 & S2). set (k := Z.log2 i) in *. unfold Z.succ in S2.
  assert (1 <= k) as Hk1 by (change 1 with (Z.log2 2); apply Z.log2_le_mono; lia).
  assert (k <= 20) as Hk2. { assert (k < 21); [|lia]. apply (Z.pow_lt_mono_r_iff 2); lia. }
  destruct (Z.eq_dec i (2 ^ k)) as [E|N]. { rewrite (X k) by lia. apply Z.div_mul. lia. }
  pose proof (Z.log2_spec k ltac:(lia)) as (E1 & E2). pose proof (Z.log2_nonneg k) as E0. set (e := Z.log2 k) in *. unfold Z.succ in E2.
  assert (e <= 4) as E4. { assert (e < 5); [|lia]. apply (Z.pow_lt_mono_r_iff 2); [lia|lia|]. change (2 ^ 5) with 32. lia. }
  assert (2 ^ e <= 16) as P4 by (change 16 with (2 ^ 4); apply Z.pow_le_mono_r; lia).
  pose proof (log_above k i ltac:(lia) ltac:(lia)) as Lo.
  assert (pow26 i < 2 ^ (2 ^ 26 * (k + 1) - 80)) as Hi2.
  { destruct (Z.eq_dec k 20) as [K20|K20].
    - assert (i <= 2 * (2 ^ k - 1)) as B. { rewrite K20. change (2 * (2 ^ 20 - 1)) with (2 ^ 21 - 2). lia. }
      pose proof (log_below2 k i ltac:(lia) ltac:(lia)) as B2. assert (5 * 2 ^ (24 - k) = 80) as E80 by (rewrite K20; reflexivity). now rewrite E80 in B2.
    - eapply Z.lt_le_trans; [apply (log_below (k + 1)); lia|]. apply Z.pow_le_mono_r; [lia|]. assert (2 ^ 4 <= 2 ^ (24 - (k + 1))) by (apply Z.pow_le_mono_r; lia). change (2 ^ 4) with 16 in *. lia. }
  destruct (within_exp i M e _ (2 ^ 26 * (k + 1) - 80) W E0 HM ltac:(lia) Lo Hi2) as (A1 & A2). clear Lo Hi2 W.
  assert (k * 2 ^ 23 <= M /\ M < (k + 1) * 2 ^ 23) as (Q1 & Q2). 2: { symmetry. apply Z.div_unique with (M - k * 2 ^ 23); lia. }
  split; [|lia]. destruct (Z_le_gt_dec 16 k) as [K|K].
  - assert (2 ^ 6 <= 2 ^ (26 - k)) as P6 by (apply Z.pow_le_mono_r; lia). change (2 ^ 6) with 64 in P6.
    destruct (f32_div M 3 ltac:(lia) HM ltac:(lia)) as (q & Q). change (2 ^ 3) with 8 in Q. lia.
  - assert (2 ^ 11 <= 2 ^ (26 - k)) as P6 by (apply Z.pow_le_mono_r; lia). change (2 ^ 11) with 2048 in P6. lia.
Qed.
Lemma floor_wrong_gen K M : K = 21 -> is_f32 M -> log2_within (2 ^ K - 1) M 4 -> M / 2 ^ 23 = 21.
Proof.
  intros HK HM W. assert (0 < 2 ^ K) as PK by (apply Z.pow_pos_nonneg; lia).
  assert (pow26 (2 ^ K - 1) < 2 ^ (2 ^ 26 * K)) as Hi. { rewrite pow26_eq, (Z.mul_comm (2 ^ 26)). assert (0 < 2 ^ 26) as PT by reflexivity. revert PT. generalize (2 ^ 26). intros T PT. rewrite Z.pow_mul_r by (clear W; lia). apply Z.pow_lt_mono_l; [exact PT|clear W; lia]. }
  pose proof (log_fail K ltac:(lia)) as Lo. destruct W as (W1 & W2). pose proof (f32_pos M HM) as PM.
  assert (2 ^ 26 * K - 3 * 2 ^ (25 - K) < 8 * M + 5 * 2 ^ 4) as A1. { apply (Z.pow_lt_mono_r_iff 2); [lia|lia|]. eapply Z.lt_le_trans; [exact Lo|exact W2]. }
  assert (8 * M - 5 * 2 ^ 4 < 2 ^ 26 * K) as A2. { apply (Z.pow_lt_mono_r_iff 2); [lia|lia|]. eapply Z.le_lt_trans; [exact W1|exact Hi]. }
  clear Lo Hi W1 W2 PK. subst K. change (25 - 21) with 4 in A1. change (2 ^ 4) with 16 in *. destruct (f32_div M 4 ltac:(lia) HM ltac:(lia)) as (q & Q). change (2 ^ 4) with 16 in *. symmetry. apply Z.div_unique with (M - 21 * 2 ^ 23); lia.
Qed.

(** ** correct rounding is within the bound, and correctly rounded values exist *)
Lemma pow24_26 i : pow26 i = pow24 i ^ 4.
Proof. rewrite pow26_eq, pow24_eq. assert (2 ^ 26 = 2 ^ 24 * 4) as -> by reflexivity. assert (0 <= 2 ^ 24) as PT by discriminate. revert PT. generalize (2 ^ 24). intros T PT. now rewrite Z.pow_mul_r by lia. Qed.
Definition grid (i : Z) : Z := Z.log2 (Z.log2 i).
Definition below (i : Z) : Z := 2 ^ grid i * Z.log2 (i ^ (2 ^ (23 - grid i))).
Lemma grid_range i : 1 < i < 2 ^ 24 -> 0 <= grid i <= 4 /\ 2 ^ (2 ^ grid i) <= i < 2 ^ (2 ^ (grid i + 1)).
Proof.
  intros Hi. pose proof (Z.log2_spec i ltac:(lia)) as (S1 & S2). unfold grid. set (k := Z.log2 i) in *. unfold Z.succ in S2.
  assert (1 <= k) as Hk1 by (change 1 with (Z.log2 2); apply Z.log2_le_mono; lia).
  assert (k < 24) as Hk2 by (apply (Z.pow_lt_mono_r_iff 2); lia).
  pose proof (Z.log2_spec k ltac:(lia)) as (E1 & E2). pose proof (Z.log2_nonneg k) as E0. set (e := Z.log2 k) in *. unfold Z.succ in E2.
  assert (e < 5) as E4 by (apply (Z.pow_lt_mono_r_iff 2); [lia|lia|]; change (2 ^ 5) with 32; lia). split; [lia|]. split.
  - eapply Z.le_trans; [|exact S1]. apply Z.pow_le_mono_r; lia.
  - eapply Z.lt_le_trans; [exact S2|]. apply Z.pow_le_mono_r; lia.
Qed.
Lemma below_spec i : 1 < i < 2 ^ 24 -> let e := grid i in let M1 := below i in
  2 ^ (2 * M1) <= pow24 i /\ pow24 i < 2 ^ (2 * (M1 + 2 ^ e)) /\ 2 ^ (23 + e) <= M1 < 2 ^ (24 + e) /\ (2 ^ e | M1).
Proof.
  intros Hi e M1. destruct (grid_range i Hi) as (He & G1 & G2). fold e in He, G1, G2. unfold M1, below. fold e. rewrite pow24_eq.
  assert (0 < 2 ^ (23 - e)) as PT by (apply Z.pow_pos_nonneg; lia). assert (0 < 2 ^ e) as Pe by (apply Z.pow_pos_nonneg; lia).
  assert (2 ^ 24 = 2 ^ (23 - e) * (2 * 2 ^ e)) as E24. { rewrite <- Z.pow_succ_r, <- Z.pow_add_r by lia. f_equal. lia. }
  assert (2 ^ (23 + e) = 2 ^ e * (2 ^ e * 2 ^ (23 - e))) as E23. { rewrite <- !Z.pow_add_r by lia. f_equal. lia. }
  assert (2 ^ (24 + e) = 2 ^ e * (2 ^ (e + 1) * 2 ^ (23 - e))) as E24'. { rewrite <- !Z.pow_add_r by lia. f_equal. lia. }
  assert (0 < 2 ^ (e + 1)) as Pe1 by (apply Z.pow_pos_nonneg; lia).
  rewrite E24, E23, E24'. rewrite (Z.pow_mul_r i) by lia. clear E24 E23 E24'. revert PT. generalize (2 ^ (23 - e)). intros T PT.
  assert (2 ^ (2 ^ e * T) <= i ^ T) as X1. { rewrite Z.pow_mul_r by lia. apply Z.pow_le_mono_l. split; [apply Z.pow_nonneg; lia|exact G1]. }
  assert (i ^ T < 2 ^ (2 ^ (e + 1) * T)) as X2. { rewrite Z.pow_mul_r by lia. apply Z.pow_lt_mono_l; [exact PT|]. lia. }
  revert X1 X2. generalize (i ^ T). intros y X1 X2. assert (0 < 2 ^ (2 ^ e * T)) as Y by (apply Z.pow_pos_nonneg; nia).
  pose proof (Z.log2_spec y ltac:(lia)) as (S1 & S2). pose proof (Z.log2_nonneg y) as L0. set (m := Z.log2 y) in *. unfold Z.succ in S2. clearbody m e. clear M1.
  assert (2 ^ e * T < m + 1) as R1 by (apply (Z.pow_lt_mono_r_iff 2); lia). assert (m < 2 ^ (e + 1) * T) as R2 by (apply (Z.pow_lt_mono_r_iff 2); [lia|nia|lia]).
  split; [|split; [|split]].
  - replace (2 * (2 ^ e * m)) with (m * (2 * 2 ^ e)) by ring. rewrite Z.pow_mul_r by lia. apply Z.pow_le_mono_l. split; [apply Z.pow_nonneg; lia|exact S1].
  - replace (2 * (2 ^ e * m + 2 ^ e)) with ((m + 1) * (2 * 2 ^ e)) by ring. rewrite (Z.pow_mul_r 2) by lia. apply Z.pow_lt_mono_l; lia.
  - split; [apply Z.mul_le_mono_nonneg_l; lia|apply Z.mul_lt_mono_pos_l; lia].
  - exists m. ring.
Qed.
Lemma grid_f32 e M : 0 <= e -> 2 ^ (23 + e) <= M < 2 ^ (24 + e) -> (2 ^ e | M) -> is_f32 M /\ is_f32 (M + 2 ^ e).
Proof.
  intros He R D. split; [exists e; auto|]. assert (0 < 2 ^ e) as Pe by (apply Z.pow_pos_nonneg; lia). destruct D as (q & ->).
  assert (2 ^ (24 + e) = 2 ^ 24 * 2 ^ e) as E by (apply Z.pow_add_r; lia).
  destruct (Z.eq_dec (q + 1) (2 ^ 24)) as [Q|Q].
  - exists (e + 1). replace (q * 2 ^ e + 2 ^ e) with (2 ^ (24 + e)) by (rewrite E, <- Q; ring). replace (23 + (e + 1)) with (24 + e) by lia. replace (24 + (e + 1)) with (Z.succ (24 + e)) by lia. rewrite Z.pow_succ_r by lia.
    assert (0 < 2 ^ (24 + e)) by (apply Z.pow_pos_nonneg; lia). split; [lia|]. split; [lia|]. exists (2 ^ 23). rewrite <- Z.pow_add_r by lia. f_equal. lia.
  - exists e. split; [exact He|]. split; [split; [lia|]|exists (q + 1); ring]. rewrite E in *. destruct R as (_ & R). apply Z.mul_lt_mono_pos_r in R; [|exact Pe]. replace (q * 2 ^ e + 2 ^ e) with ((q + 1) * 2 ^ e) by ring. apply Z.mul_lt_mono_pos_r; lia.
Qed.
Lemma f32_gap e M M' : 0 <= e -> 2 ^ (23 + e) <= M -> (2 ^ e | M) -> is_f32 M' -> M < M' -> M + 2 ^ e <= M'.
Proof.
  intros He R (q & ->) F L. assert (0 < 2 ^ e) as Pe by (apply Z.pow_pos_nonneg; lia). destruct (f32_div M' e He F ltac:(lia)) as (q' & ->). apply Z.mul_lt_mono_pos_r in L; [|exact Pe]. replace (q * 2 ^ e + 2 ^ e) with ((q + 1) * 2 ^ e) by ring. apply Z.mul_le_mono_nonneg_r; lia.
Qed.
Definition f32_log2 (i : Z) : Z := if pow24 i <=? 2 ^ (2 * below i + 2 ^ grid i) then below i else below i + 2 ^ grid i.
Lemma f32_log2_nearest i : 1 < i < 2 ^ 24 -> log2_nearest i (f32_log2 i).
Proof.
  intros Hi. destruct (below_spec i Hi) as (B1 & B2 & R & D). destruct (grid_range i Hi) as ((He & _) & _). unfold f32_log2, log2_nearest. set (e := grid i) in *. set (M1 := below i) in *. clearbody e M1.
  assert (0 < 2 ^ e) as Pe by (apply Z.pow_pos_nonneg; lia). destruct (grid_f32 e M1 He R D) as (F1 & F2). revert B1 B2. generalize (pow24 i). intros X B1 B2. clear Hi.
  assert (forall a b, a <= b -> 2 ^ a <= 2 ^ b) as Mono by (intros; apply Z.pow_le_mono_r; lia).
  destruct (Z.leb_spec X (2 ^ (2 * M1 + 2 ^ e))) as [C|C]; (split; [assumption|]); intros M' F'; split; intros L.
  - eapply Z.le_trans; [exact C|]. apply Mono. pose proof (f32_gap e M1 M' He (proj1 R) D F' L). lia.
  - eapply Z.le_trans; [|exact B1]. apply Mono. lia.
  - eapply Z.le_trans; [apply Z.lt_le_incl, B2|]. apply Mono. lia.
  - eapply Z.le_trans; [|apply Z.lt_le_incl, C]. apply Mono. destruct (Z_lt_le_dec M1 M') as [Q|Q]; [pose proof (f32_gap e M1 M' He (proj1 R) D F' Q)|]; lia.
Qed.
Lemma nearest_within i M : 1 < i < 2 ^ 24 -> log2_nearest i M -> is_f32 M /\ log2_within i M (Z.log2 (Z.log2 i)) /\ forall k, 0 <= k -> i = 2 ^ k -> M = k * 2 ^ 23.
Proof.
  intros Hi (F & Nr). split; [exact F|]. destruct (below_spec i Hi) as (B1 & B2 & R & D). destruct (grid_range i Hi) as ((He & _) & _). fold (grid i). unfold log2_within. rewrite pow24_26. split.
  - set (e := grid i) in *. set (M1 := below i) in *. clearbody e M1. revert B1 B2 Nr. generalize (pow24 i). intros X B1 B2 Nr. clear Hi.
    assert (0 < 2 ^ e) as Pe by (apply Z.pow_pos_nonneg; lia). destruct (grid_f32 e M1 He R D) as (F1 & F2). pose proof (f32_pos M F) as PM. pose proof (f32_pos M1 F1) as PM1.
    assert (M1 <= M) as L1. { destruct (Z_lt_le_dec M M1) as [Q|Q]; [|exact Q]. pose proof (proj1 (Nr M1 F1) Q) as A. assert (2 * M1 <= M + M1); [|lia]. apply (Z.pow_le_mono_r_iff 2); [lia|lia|]. eapply Z.le_trans; eassumption. }
    assert (M <= M1 + 2 ^ e) as L2. { destruct (Z_lt_le_dec (M1 + 2 ^ e) M) as [Q|Q]; [|exact Q]. pose proof (proj2 (Nr _ F2) Q) as A. assert (M + (M1 + 2 ^ e) < 2 * (M1 + 2 ^ e)); [|lia]. apply (Z.pow_lt_mono_r_iff 2); [lia|lia|]. eapply Z.le_lt_trans; eassumption. }
    assert (2 ^ (2 * M - 2 ^ e) <= X /\ X <= 2 ^ (2 * M + 2 ^ e)) as (A1 & A2).
    { split.
      - destruct (Z_lt_le_dec M1 M) as [Q|Q]; [eapply Z.le_trans; [|exact (proj2 (Nr M1 F1) Q)]|eapply Z.le_trans; [|exact B1]]; apply Z.pow_le_mono_r; lia.
      - destruct (Z_lt_le_dec M (M1 + 2 ^ e)) as [Q|Q]; [eapply Z.le_trans; [exact (proj1 (Nr _ F2) Q)|]|eapply Z.le_trans; [apply Z.lt_le_incl, B2|]]; apply Z.pow_le_mono_r; lia. }
    assert (2 ^ e <= 2 * M) as Pm. { apply Z.le_trans with M1; [|lia]. apply Z.le_trans with (2 ^ (23 + e)); [apply Z.pow_le_mono_r; lia|apply R]. }
    split.
    + apply Z.le_trans with (2 ^ ((2 * M - 2 ^ e) * 4)); [apply Z.pow_le_mono_r; lia|]. rewrite Z.pow_mul_r by lia. apply Z.pow_le_mono_l. split; [apply Z.pow_nonneg; lia|exact A1].
    + apply Z.le_trans with (2 ^ ((2 * M + 2 ^ e) * 4)); [|apply Z.pow_le_mono_r; lia]. rewrite Z.pow_mul_r by lia. apply Z.pow_le_mono_l. split; [|exact A2]. eapply Z.le_trans; [|exact B1]. apply Z.pow_nonneg. lia.
  - intros k Hk E. assert (1 <= k) as K1. { destruct (Z.eq_dec k 0) as [->|]; [|lia]. change (2 ^ 0) with 1 in E. lia. }
    assert (k < 24) as K2. { apply (Z.pow_lt_mono_r_iff 2); lia. }
    assert (is_f32 (k * 2 ^ 23)) as Fk. { exists (Z.log2 k). pose proof (Z.log2_spec k ltac:(lia)) as (S1 & S2). pose proof (Z.log2_nonneg k) as L0. unfold Z.succ in S2. assert (Z.log2 k < 5) as L5 by (apply (Z.pow_lt_mono_r_iff 2); [lia|lia|]; change (2 ^ 5) with 32; lia).
      split; [exact L0|]. split. { replace (24 + Z.log2 k) with (23 + (Z.log2 k + 1)) by lia. rewrite !Z.pow_add_r in * by lia. lia. }
      exists (k * 2 ^ (23 - Z.log2 k)). rewrite <- Z.mul_assoc, <- Z.pow_add_r by lia. f_equal. f_equal. lia. }
    assert (pow24 i = 2 ^ (2 * (k * 2 ^ 23))) as EX. { rewrite pow24_eq, E. assert (2 * (k * 2 ^ 23) = k * 2 ^ 24) as -> by lia. assert (0 <= 2 ^ 24) as PT by discriminate. revert PT. generalize (2 ^ 24). intros T PT. symmetry. apply Z.pow_mul_r; assumption. }
    rewrite EX in Nr. clear -Nr Fk F. pose proof (f32_pos M F) as PM. pose proof (f32_pos _ Fk) as PM1. destruct (Nr _ Fk) as (N1 & N2). set (t := k * 2 ^ 23) in *. clearbody t. destruct (Z.lt_trichotomy M t) as [Q|[Q|Q]]; [|exact Q|].
    + specialize (N1 Q). apply (Z.pow_le_mono_r_iff 2) in N1; lia.
    + specialize (N2 Q). apply (Z.pow_le_mono_r_iff 2) in N2; lia.
Qed.
(** correctly rounded logarithms *)
Definition f32_rounded (lg : nat -> nat) : Prop := lg 1%nat = 0%nat /\ forall i, 1 < Z.of_nat i < 2 ^ 24 -> exists M, log2_nearest (Z.of_nat i) M /\ Z.of_nat (lg i) = M / 2 ^ 23.
Theorem C129_correct_rounding : forall lg, f32_rounded lg -> f32_log2_ok lg.
Proof.
  intros lg (L1 & L) i Hi. destruct (Z.eq_dec (Z.of_nat i) 1) as [E|N].
  - assert (i = 1%nat) as -> by lia. exists 0. rewrite L1. split; [reflexivity|]. split; [|lia]. intros k Hk E'. destruct (Z.eq_dec k 0) as [->|K]; [reflexivity|]. pose proof (Z.pow_gt_1 2 k ltac:(lia)). lia.
  - destruct (L i ltac:(lia)) as (M & NM & E). destruct (nearest_within (Z.of_nat i) M ltac:(lia) NM) as (F & W & X). exists M. auto.
Qed.
Lemma log2_of_nat i : (1 <= i)%nat -> Z.log2 (Z.of_nat i) = Z.of_nat (Nat.log2 i).
Proof. intros H. destruct (Nat.log2_spec i ltac:(lia)) as (S1 & S2). apply Z.log2_unique; [lia|]. apply Nat2Z.inj_le in S1. apply Nat2Z.inj_lt in S2. rewrite Nat2Z.inj_pow in S1, S2. rewrite (Nat2Z.inj_succ (Nat.log2 i)) in S2. split; [exact S1|exact S2]. Qed.
Lemma lg_exact lg i : f32_log2_ok lg -> 1 <= Z.of_nat i <= 2 ^ 21 - 2 -> lg i = Nat.log2 i.
Proof.
  intros H Hi. destruct (H i ltac:(lia)) as (M & E & X & W). apply Nat2Z.inj. rewrite E, <- log2_of_nat by lia. destruct (Z.eq_dec (Z.of_nat i) 1) as [E1|N].
  - rewrite E1 in *. rewrite (X 0) by (lia || reflexivity). reflexivity.
  - destruct (W ltac:(lia)) as (F & W'). apply floor_exact; [lia|exact F|exact W'|exact X].
Qed.
(** up to 2^20 multipliers the logarithm is right *)
Theorem C129_exact : forall lg, f32_log2_ok lg -> forall k, (k <= 20)%nat -> log_exact lg (2 ^ k).
Proof.
  intros lg H k Hk i Hi. apply lg_exact; [exact H|]. destruct Hi as (H1 & H2). apply Nat2Z.inj_lt in H2. rewrite Nat2Z.inj_pow in H2. change (Z.of_nat 2) with 2 in H2.
  assert (2 ^ Z.of_nat k <= 2 ^ 20) by (apply Z.pow_le_mono_r; lia). lia.
Qed.
(** and 2^21 - 1 is the first number for which it is not *)
Theorem C129_refuted_exact : forall lg, f32_log2_ok lg -> forall i, Z.of_nat i = 2 ^ 21 - 1 ->
  lg i = 21%nat /\ Nat.log2 i = 20%nat /\ forall j, (1 <= j < i)%nat -> lg j = Nat.log2 j.
Proof.
  intros lg H i Hi. split; [|split].
  - destruct (H i ltac:(lia)) as (M & E & _ & W). destruct (W ltac:(lia)) as (F & W'). rewrite Hi in W'. change (Z.log2 (Z.log2 (2 ^ 21 - 1))) with 4 in W'. pose proof (floor_wrong_gen 21 M eq_refl F W') as Q. lia.
  - apply Nat2Z.inj. rewrite <- log2_of_nat by lia. rewrite Hi. reflexivity.
  - intros j Hj. apply lg_exact; [exact H|lia].
Qed.

Lemma rfold_panic {A B} (f : A -> B -> res A) (l : list B) x : (forall a b e, f a b = Err e -> e = Panic) -> In x l -> (forall a, f a x = Err Panic) -> forall a, rfold f l a = Err Panic.
Proof.
  intros HE. induction l as [|b l IH]; intros Hx HP a; [contradiction|]. cbn [rfold]. destruct Hx as [->|Hx]; [now rewrite HP|]. destruct (f a b) as [a'|e] eqn:E; cbn [rbind]; [now apply IH|]. now rewrite (HE _ _ _ E).
Qed.
Section Props.
Context {K : fieldOps} (HK : field_laws K) {M : modOps K} (HM : mod_laws M) (T : tcode M).
Add Field KfF : (proj1 HK).
(** refuted: verification of a proof with more than 20 rounds (more than 2^20 multipliers) panics,
    whatever the proof *)
Theorem C129_refuted_any_size : forall lg, f32_log2_ok lg -> forall (L R : list M) tr, (20 < length L < 32)%nat ->
  verification_scalars T lg L R (2 ^ length L) tr = Err Panic /\
  forall gf hf P u G H a b, verify_ipp T lg (2 ^ length L) tr gf hf P u G H a b L R = Err Panic.
Proof.
  intros lg H L R tr HL. assert (verification_scalars T lg L R (2 ^ length L) tr = Err Panic) as V.
  { unfold verification_scalars. rewrite (proj2 (Nat.leb_gt _ _)) by lia. rewrite Nat.eqb_refl. cbn [negb]. destruct (replay T (combine L R) _) as [xs t2].
    rewrite (proj2 (Nat.ltb_lt 0 (length L))) by lia. unfold batch_invert. destruct xs as [|x xs]; [reflexivity|]. cbn [rbind].
    set (sq := map _ (x :: xs)). set (p := finv _). clearbody sq p.
    destruct (Z_of_nat_complete (2 ^ 21 - 1) ltac:(discriminate)) as (i & Ei). symmetry in Ei. destruct (C129_refuted_exact lg H i Ei) as (Lg & _ & _).
    rewrite (rfold_panic (s_step lg (length L) sq) (seq 1 (2 ^ length L - 1)) i); [reflexivity| | |].
    - intros s j e. unfold s_step, at_. destruct (_ <? _)%nat; [congruence|]. destruct (nth_error _ _); cbn [rbind]; [|congruence]. destruct (_ <? _)%nat; [congruence|]. destruct (nth_error _ _); cbn [rbind]; congruence.
    - apply in_seq. assert (Z.of_nat i < Z.of_nat (2 ^ length L)) as P. { rewrite Nat2Z.inj_pow, Ei. change (Z.of_nat 2) with 2. assert (2 ^ 21 <= 2 ^ Z.of_nat (length L)) by (apply Z.pow_le_mono_r; lia). lia. }
      remember (2 ^ length L)%nat as b. lia.
    - intros s. unfold s_step. rewrite Lg. destruct (Nat.ltb_spec (length L - 1) 21); [reflexivity|]. unfold at_. destruct (nth_error _ _); cbn [rbind]; [|reflexivity].
      assert (i < 2 ^ 21)%nat as P. { apply Nat2Z.inj_lt. rewrite Nat2Z.inj_pow, Ei. reflexivity. } now rewrite (proj2 (Nat.ltb_lt _ _) P). }
  split; [exact V|]. intros. unfold verify_ipp. now rewrite V.
Qed.
(** completeness with this logarithm: honest proofs of at most 2^20 multipliers are accepted *)
Theorem C129_complete : forall lg, f32_log2_ok lg -> forall (g h : M) (rcs : list (@rcircuit K)) (ps : pstate K) (vs : vstate K M) (G H : list M) tr d r ps' tr',
  challenges_nonzero T -> sim (commit_elem g h) ps vs ->
  p_randomize (map (run_rprover T) rcs) ps (phase2_transcript T h ps G H d tr) = Ok (ps', tr') ->
  psat ps' -> scoped ps' ->
  let N := next_pow2 (length (p_aL ps')) in
  (N <= length G)%nat -> (N <= length H)%nat -> (Nat.log2_up (length (p_aL ps')) <= 20)%nat ->
  exists p tr'', prove T g h (map (run_rprover T) rcs) ps tr G H d = Ok (p, tr'') /\
    verify T lg (map (run_rverifier T) rcs) vs tr p g h G H r = Ok tt.
Proof.
  intros lg HL g h rcs ps vs G H tr d r ps' tr' HT Hs Ep Sat Sc N HG HH Hk. apply (C95_complete HK HM T lg g h rcs ps vs G H tr d r ps' tr'); auto; [lia|]. unfold next_pow2. now apply C129_exact.
Qed.
(** refuted: honest proofs of more multipliers are made, are proofs that exact verification accepts,
    and make the verifier panic *)
Theorem C129_refuted_honest_accepted : forall lg, f32_log2_ok lg -> forall (g h : M) (ps : pstate K) (vs : vstate K M) (G H : list M) tr d r,
  challenges_nonzero T -> pgood ps -> sim (commit_elem g h) ps vs ->
  let N := next_pow2 (length (p_aL ps)) in
  (N <= length G)%nat -> (N <= length H)%nat -> (20 < Nat.log2_up (length (p_aL ps)) < 32)%nat ->
  exists p tr', prove T g h [] ps tr G H d = Ok (p, tr') /\ verify T Nat.log2 [] vs tr p g h G H r = Ok tt /\ verify T lg [] vs tr p g h G H r = Err Panic.
Proof.
  intros lg HL g h ps vs G H tr d r HT Hg Hs N HG HH Hk.
  destruct (C95_one_phase HK HM T Nat.log2 g h ps vs G H tr d r HT Hg Hs HG HH ltac:(lia) ltac:(intros i _; reflexivity)) as (p & tr' & E1 & E2). exists p, tr'. split; [exact E1|]. split; [exact E2|]. clear E1.
  revert E2. unfold verify, v_randomize. cbv zeta. cbn [rbind].
  match goal with |- context [v_num ?s] => assert (v_num s = length (p_aL ps)) as -> by exact (sm_num _ _ _ Hs) end. fold N.
  rewrite (proj2 (Nat.ltb_ge (length G) N) HG). repeat (destruct (challenge_scalar T _ _) as [? ?]). destruct (v_flattened _ _) as [w|]; cbn [rbind]; [|discriminate].
  match goal with |- context [verification_scalars T Nat.log2 ?L ?R N ?t] => assert (verification_scalars T Nat.log2 L R N t = Err Panic \/ (exists e, verification_scalars T Nat.log2 L R N t = Err e) \/ verification_scalars T lg L R N t = Err Panic) as C end.
  { unfold verification_scalars at 2. destruct (Nat.leb_spec 32 (length (ip_L (ipp p)))); [right; left; eauto|]. destruct (Nat.eqb_spec N (2 ^ length (ip_L (ipp p)))) as [E|]; cbn [negb]; [|right; left; eauto]. right. right. rewrite E.
    apply (C129_refuted_any_size lg HL). split; [|assumption]. apply (f_equal Nat.log2) in E. unfold N, next_pow2 in E. rewrite !Nat.log2_pow2 in E by lia. lia. }
  destruct C as [->|[(e & ->)| ->]]; [discriminate|destruct e; discriminate|reflexivity].
Qed.
(** such provers exist for every number of multipliers (all of them 1 * 1 = 1) *)
Example C129_prover_nonvacuous : forall n (com : K -> K -> M), exists ps vs, pgood ps /\ sim com ps vs /\ length (p_aL ps) = n.
Proof.
  intros n com. exists (mkPs [] (repeat f1 n) (repeat f1 n) (repeat f1 n) [] [] None), (mkVs [] n [] None). split; [|split].
  - split; cbn [p_aL p_aR p_aO p_cons p_pending].
    + reflexivity.
    + reflexivity.
    + intros i X. discriminate.
    + intros l [].
    + split; [reflexivity|]. split; [|intros l []]. intros i Hi. cbn [p_aL] in Hi. rewrite repeat_length in Hi. cbn [pw p_aL p_aR p_aO]. rewrite !(nth_indep (repeat f1 n) f0 f1) by (rewrite repeat_length; exact Hi). rewrite !nth_repeat_d. ring.
  - split; cbn [p_aL p_aR p_aO p_cons p_pending v_cons v_num v_V v_pending p_v p_vbl combine map]; try reflexivity. now rewrite repeat_length.
  - cbn [p_aL]. apply repeat_length.
Qed.
End Props.
(** and so does a correctly rounded logarithm *)
Definition lg_f32 (i : nat) : nat := if (i <=? 1)%nat then 0%nat else Z.to_nat (f32_log2 (Z.of_nat i) / 2 ^ 23).
Example C129_nonvacuous : f32_rounded lg_f32 /\ f32_log2_ok lg_f32.
Proof.
  assert (f32_rounded lg_f32) as R; [|split; [exact R|now apply C129_correct_rounding]].
  split; [reflexivity|]. intros i Hi. exists (f32_log2 (Z.of_nat i)). pose proof (f32_log2_nearest (Z.of_nat i) ltac:(lia)) as N. split; [exact N|]. unfold lg_f32. destruct (Nat.leb_spec i 1); [lia|]. rewrite Z2Nat.id; [reflexivity|].
  apply Z.div_pos; [|lia]. destruct N as (F & _). apply f32_pos in F. lia.
Qed.
