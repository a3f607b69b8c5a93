(** Fermat's little theorem over Z and its consequence for squares modulo a
    product of two safe primes (used for the order of the group of a CL key). *)
From Verif Require Import Base.
From Coq Require Import Znumtheory ZArith.Zpow_facts Permutation.

Definition lprod (l : list Z) : Z := fold_right Z.mul 1 l.
Lemma lprod_perm l l' : Permutation l l' -> lprod l = lprod l'.
Proof. unfold lprod. induction 1; cbn [fold_right]; lia. Qed.

Definition range1 (p : Z) : list Z := map Z.of_nat (seq 1 (Z.to_nat (p - 1))).
Lemma in_range1 p x : In x (range1 p) <-> 1 <= x < p.
Proof.
  unfold range1. rewrite in_map_iff. split.
  - intros (k & <- & H). apply in_seq in H. lia.
  - intros H. exists (Z.to_nat x). rewrite in_seq. lia.
Qed.
Lemma range1_nodup p : NoDup (range1 p).
Proof. apply FinFun.Injective_map_NoDup; [intros ? ? ?; lia|apply seq_NoDup]. Qed.

Lemma lprod_map_mod a p l : lprod (map (fun x => (a * x) mod p) l) mod p = (a ^ Z.of_nat (length l) * lprod l) mod p.
Proof.
  induction l as [|x l IH].
  - cbn [map lprod fold_right length]. now rewrite Z.mul_1_r.
  - cbn [map lprod fold_right length]. fold (lprod (map (fun x => (a * x) mod p) l)). fold (lprod l).
    rewrite Nat2Z.inj_succ, Z.pow_succ_r by lia.
    rewrite Zmult_mod, IH, <- Zmult_mod, Zmult_mod_idemp_l. f_equal. ring.
Qed.

Lemma prime_mul_inj p a x y : prime p -> ~ (p | a) -> 1 <= x < p -> 1 <= y < p -> (a * x) mod p = (a * y) mod p -> x = y.
Proof.
  intros Hp Ha Hx Hy E. assert (p <> 0) by (destruct Hp; lia).
  assert (D : (p | a * (x - y))).
  { apply Z.mod_divide; [assumption|]. rewrite Z.mul_sub_distr_l, Zminus_mod, E, Z.sub_diag. now apply Z.mod_0_l. }
  apply prime_mult in D as [D|D]; [contradiction| |assumption].
  destruct D as [k Hk]. assert (k = 0) by nia. lia.
Qed.

Lemma fermat p a : prime p -> ~ (p | a) -> a ^ (p - 1) mod p = 1.
Proof.
  intros Hp Ha. assert (Hp2 : 2 <= p) by (destruct Hp; lia).
  set (l := range1 p). set (f := fun x => (a * x) mod p).
  assert (P : Permutation (map f l) l).
  { apply NoDup_Permutation_bis.
    - assert (G : forall l', NoDup l' -> (forall x, In x l' -> 1 <= x < p) -> NoDup (map f l')).
      { induction l' as [|x l' IH]; intros N B; cbn [map]; [constructor|]. inversion N as [|? ? N1 N2]; subst.
        constructor.
        - intros (y & E & Hy)%in_map_iff. apply N1.
          replace x with y; [assumption|]. apply (prime_mul_inj p a); try assumption; apply B; cbn; auto.
        - apply IH; [assumption|]. intros y Hy. apply B. now right. }
      apply G; [apply range1_nodup|]. intros x. apply in_range1.
    - now rewrite map_length.
    - intros y (x & <- & Hx)%in_map_iff. apply in_range1 in Hx. apply in_range1. unfold f.
      pose proof (Z.mod_pos_bound (a * x) p). assert ((a * x) mod p <> 0); [|lia].
      intros E. apply Z.mod_divide in E; [|lia]. apply prime_mult in E as [E|E]; [contradiction| |assumption].
      apply Z.divide_pos_le in E; lia. }
  apply lprod_perm in P. pose proof (lprod_map_mod a p l) as E. fold f in E. rewrite P in E.
  assert (L : Z.of_nat (length l) = p - 1).
  { unfold l, range1. rewrite map_length, seq_length. lia. }
  rewrite L in E.
  assert (Hl : forall l', (forall x, In x l' -> 1 <= x < p) -> ~ (p | lprod l')).
  { induction l' as [|x l' IH]; intros B D; cbn [lprod fold_right] in D.
    - apply Z.divide_1_r_nonneg in D; lia.
    - apply prime_mult in D as [D|D]; [|apply IH in D; [assumption|intros y Hy; apply B; now right]|assumption].
      apply Z.divide_pos_le in D; specialize (B x (or_introl eq_refl)); lia. }
  specialize (Hl l (fun x => proj1 (in_range1 p x))).
  assert (D : (p | (a ^ (p - 1) - 1) * lprod l)).
  { apply Z.mod_divide; [lia|]. rewrite Z.mul_sub_distr_r, Z.mul_1_l, Zminus_mod, <- E, Z.sub_diag. apply Z.mod_0_l; lia. }
  apply prime_mult in D as [D|D]; [|contradiction|assumption].
  apply Z.mod_divide in D; [|lia]. rewrite Zminus_mod in D.
  pose proof (Z.mod_pos_bound (a ^ (p - 1)) p). rewrite (Z.mod_small 1 p) in D by lia.
  apply Z.mod_divide in D; [|lia]. destruct D as [k Hk]. assert (k = 0) by nia. lia.
Qed.

Lemma mod_1_divide x p : 2 <= p -> x mod p = 1 -> (p | x - 1).
Proof. intros Hp H. apply Z.mod_divide; [lia|]. rewrite Zminus_mod, H, (Z.mod_small 1 p) by lia. now rewrite Z.mod_small by lia. Qed.
Lemma divide_mod_1 x p : 2 <= p -> (p | x - 1) -> x mod p = 1.
Proof. intros Hp [k Hk]. replace x with (1 + k * p) by lia. rewrite Z.mod_add by lia. now apply Z.mod_small; lia. Qed.

(** squares have order dividing p'q' modulo (2p'+1)(2q'+1) *)
Lemma qr_order p q x : prime (2 * p + 1) -> prime (2 * q + 1) -> p <> q ->
  Z.gcd x ((2 * p + 1) * (2 * q + 1)) = 1 ->
  (x * x) ^ (p * q) mod ((2 * p + 1) * (2 * q + 1)) = 1.
Proof.
  intros HP HQ N G. set (P := 2 * p + 1) in *. set (Q := 2 * q + 1) in *.
  assert (2 <= P) by (destruct HP; lia). assert (2 <= Q) by (destruct HQ; lia).
  assert (0 <= p) by lia. assert (0 <= q) by lia.
  assert (HxP : ~ (P | x)).
  { intros D. assert (D2 : (P | Z.gcd x (P * Q))) by (apply Z.gcd_greatest; [assumption|apply Z.divide_factor_l]).
    rewrite G in D2. apply Z.divide_1_r_nonneg in D2; lia. }
  assert (HxQ : ~ (Q | x)).
  { intros D. assert (D2 : (Q | Z.gcd x (P * Q))) by (apply Z.gcd_greatest; [assumption|apply Z.divide_factor_r]).
    rewrite G in D2. apply Z.divide_1_r_nonneg in D2; lia. }
  pose proof (fermat P x HP HxP) as FP. pose proof (fermat Q x HQ HxQ) as FQ.
  rewrite <- Z.pow_2_r, <- Z.pow_mul_r by lia.
  assert (EP : x ^ (2 * (p * q)) mod P = 1).
  { replace (2 * (p * q)) with ((P - 1) * q) by (unfold P; ring). rewrite Z.pow_mul_r by lia.
    rewrite Zpower_mod, FP, Z.pow_1_l by lia. apply Z.mod_small. lia. }
  assert (EQ : x ^ (2 * (p * q)) mod Q = 1).
  { replace (2 * (p * q)) with ((Q - 1) * p) by (unfold Q; ring). rewrite Z.pow_mul_r by lia.
    rewrite Zpower_mod, FQ, Z.pow_1_l by lia. apply Z.mod_small. lia. }
  apply divide_mod_1; [nia|]. apply mod_1_divide in EP, EQ; try assumption.
  destruct EP as [k Hk]. rewrite Hk in *.
  assert (RP : rel_prime Q P).
  { apply rel_prime_sym, prime_rel_prime; [assumption|]. intros D. apply prime_divisors in D; [|assumption]. lia. }
  rewrite Z.mul_comm in EQ. apply Gauss in EQ; [|assumption]. destruct EQ as [j ->]. exists j. ring.
Qed.
