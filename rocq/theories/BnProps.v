(** Property theorems for libursa/src/bn/rust.rs (C01-C08, C10). *)
From Verif Require Import Base BnModel BnProofs.
From Coq Require Import ZArith.Zpow_facts.

(** C01: for a non-negative operand and any modulus of absolute value >= 2,
    [inverse] decides invertibility and returns the canonical inverse. *)
Theorem C01_inverse_correct : forall a n : Z, 0 <= a -> 2 <= Z.abs n ->
  (Z.gcd a n = 1 /\
     exists x, bn_inverse a n = Ok x /\ 0 <= x < Z.abs n /\ (a * x) mod Z.abs n = 1)
  \/ (Z.gcd a n <> 1 /\ bn_inverse a n = Err InvalidState).
Proof. exact bn_inverse_cases. Qed.
Print Assumptions C01_inverse_correct.
Example C01_hyp : 0 <= 3 /\ 2 <= Z.abs (-7) /\ bn_inverse 3 (-7) = Ok 5 /\ bn_inverse 6 9 = Err InvalidState.
Proof. repeat split; lia. Qed.

Theorem C01_inverse_bad_modulus : forall a, bn_inverse a 0 = Err InvalidState /\ bn_inverse a 1 = Err InvalidState.
Proof. exact (fun a => conj eq_refl eq_refl). Qed.
Print Assumptions C01_inverse_bad_modulus.

(** The loop of [inverse] terminates on every input, of any sign: the fuel of
    the model never runs out, and any larger amount gives the same answer. *)
Theorem C01_inverse_terminates : forall a n,
  bn_inverse a n <> Err OutOfFuel /\
  forall fuel, (inverse_rounds a <= fuel)%nat -> bn_inverse_with fuel a n = bn_inverse a n.
Proof.
  assert (H : forall a n fuel, (inverse_rounds a <= fuel)%nat ->
             bn_inverse_with fuel a n = bn_inverse a n /\ bn_inverse a n <> Err OutOfFuel).
  { intros a n fuel Hf. unfold bn_inverse, bn_inverse_with.
    destruct ((n =? 1) || (n =? 0)); [split; [reflexivity|discriminate]|]. cbv zeta.
    destruct (inverse_loop_total a 0 1 (get_modulus n)) as ((t & r) & E).
    rewrite E, (inverse_loop_more _ _ _ _ _ _ E _ Hf). cbn [rbind].
    split; [reflexivity|]. destruct (1 <? r); [discriminate|]. destruct (t <? 0); discriminate. }
  exact (fun a n => conj (proj2 (H a n _ (le_n _))) (fun f Hf => proj1 (H a n f Hf))).
Qed.
Print Assumptions C01_inverse_terminates.

(** C01 does not extend to negative operands: for every modulus n >= 3 the
    "inverse" of -1 is 1, and for every even modulus the non-invertible -2 is
    given the "inverse" 1. *)
Theorem C01_inverse_negative_refuted :
  (forall n, 3 <= n -> bn_inverse (-1) n = Ok 1 /\ (-1 * 1) mod n <> 1) /\
  (forall k, 1 <= k -> bn_inverse (-2) (2 * k) = Ok 1 /\ Z.gcd (-2) (2 * k) <> 1).
Proof.
  split.
  - intros n Hn. split; [apply bn_inverse_minus_one; lia|].
    intros E. assert (n - 1 = -1 * 1 mod n) by (apply (Z.mod_unique_pos _ _ (-1)); lia). lia.
  - intros k Hk. split; [now apply bn_inverse_minus_two|].
    intros E. assert (H : (2 | 1)).
    { rewrite <- E. apply Z.gcd_greatest; [exists (-1); ring|exists k; ring]. }
    destruct H as [z Hz]. lia.
Qed.
Print Assumptions C01_inverse_negative_refuted.

(** C02 *)
Theorem C02_mod_exp_nonneg_exponent : forall x e n, 2 <= Z.abs n -> 0 <= e ->
  bn_mod_exp x e n = Ok (x ^ e mod Z.abs n).
Proof. exact bn_mod_exp_nonneg. Qed.
Print Assumptions C02_mod_exp_nonneg_exponent.

Theorem C02_mod_exp_neg_exponent : forall x e n, 2 <= Z.abs n -> e < 0 -> 0 <= x ->
  (Z.gcd x n = 1 /\ exists y, bn_mod_exp x e n = Ok y /\ 0 <= y < Z.abs n /\
        (y * x ^ (- e)) mod Z.abs n = 1)
  \/ (Z.gcd x n <> 1 /\ bn_mod_exp x e n = Err InvalidState).
Proof.
  intros x e n Hn He Hx. rewrite bn_mod_exp_neg by assumption.
  destruct (bn_inverse_cases x n Hx Hn) as [(Hg & i & -> & Hi & Hxi)|(Hg & ->)].
  - left. split; [assumption|]. eexists. split; [reflexivity|].
    split; [apply Z.mod_pos_bound; lia|].
    rewrite Z.mul_mod_idemp_l by lia. rewrite <- Z.pow_mul_l.
    rewrite Zpower_mod by lia. rewrite (Z.mul_comm i x), Hxi.
    rewrite Z.pow_1_l by lia. apply Z.mod_1_l. lia.
  - right. split; [assumption|reflexivity].
Qed.
Print Assumptions C02_mod_exp_neg_exponent.

Theorem C02_mod_exp_modulus_one : forall x e, bn_mod_exp x e 1 = Ok 0.
Proof. exact (fun x e => eq_refl). Qed.
Print Assumptions C02_mod_exp_modulus_one.

(** a zero modulus never yields a value: it panics for e >= 0 *)
Theorem C02_mod_exp_modulus_zero : forall x e, is_err (bn_mod_exp x e 0) = true.
Proof. intros x e. unfold bn_mod_exp. cbn. destruct (bn_is_negative e); reflexivity. Qed.
Print Assumptions C02_mod_exp_modulus_zero.
Example C02_ex : bn_mod_exp 3 (-2) 7 = Ok 4 /\ bn_mod_exp 2 (-1) 4 = Err InvalidState /\ bn_mod_exp (-2) 3 5 = Ok 2.
Proof. repeat split. Qed.

(** C03 *)
Theorem C03_modulus_canonical : forall x n,
  (n = 0 -> bn_modulus x n = Err InvalidState) /\
  (n <> 0 -> exists r, bn_modulus x n = Ok r /\ 0 <= r < Z.abs n /\ (Z.abs n | x - r)).
Proof.
  intros x n. rewrite bn_modulus_spec. split; intros H.
  - now subst.
  - destruct (Z.eqb_spec n 0); [contradiction|]. eexists. split; [reflexivity|].
    split; [apply Z.mod_pos_bound; lia|]. exists (x / Z.abs n). rewrite Z.mod_eq by lia. ring.
Qed.
Print Assumptions C03_modulus_canonical.

Theorem C03_mod_mul_sub : forall x y n, n <> 0 ->
  bn_mod_mul x y n = Ok ((x * y) mod Z.abs n) /\ bn_mod_sub x y n = Ok ((x - y) mod Z.abs n).
Proof.
  intros x y n Hn. unfold bn_mod_mul, bn_mod_sub, bn_mul, bn_sub. rewrite !bn_modulus_spec.
  destruct (Z.eqb_spec n 0); [contradiction|]. split; reflexivity.
Qed.
Print Assumptions C03_mod_mul_sub.

Theorem C03_mod_div : forall x b n, 0 <= b -> 2 <= Z.abs n ->
  (Z.gcd b n = 1 /\ exists r, bn_mod_div x b n = Ok r /\ 0 <= r < Z.abs n /\ (r * b) mod Z.abs n = x mod Z.abs n)
  \/ (Z.gcd b n <> 1 /\ bn_mod_div x b n = Err InvalidState).
Proof.
  intros x b n Hb Hn. unfold bn_mod_div.
  destruct (bn_inverse_cases b n Hb Hn) as [(Hg & i & -> & Hi & Hxi)|(Hg & ->)]; cbn [rbind].
  - left. split; [assumption|]. rewrite bn_modulus_spec. destruct (Z.eqb_spec n 0); [lia|].
    eexists. split; [reflexivity|]. split; [apply Z.mod_pos_bound; lia|].
    unfold bn_mul. rewrite Z.mul_mod_idemp_l by lia.
    replace (x * i * b) with (x * (b * i)) by ring.
    rewrite <- Z.mul_mod_idemp_r, Hxi, Z.mul_1_r by lia. reflexivity.
  - right. split; [assumption|reflexivity].
Qed.
Print Assumptions C03_mod_div.

Example C03_ex : bn_modulus (-7) 5 = Ok 3 /\ bn_modulus (-7) (-5) = Ok 3 /\ bn_modulus 10 (-5) = Ok 0.
Proof. repeat split. Qed.

(** C04: the value is the integer power, except that 0^0 is 0. *)
Theorem C04_exp : forall x e,
  (0 <= e < 2 ^ 64 -> (x <> 0 \/ e <> 0) -> bn_exp x e = Ok (x ^ e)) /\
  (x <> 0 -> (e < 0 \/ 2 ^ 64 <= e) -> bn_exp x e = Err InvalidState).
Proof.
  intros x e. rewrite bn_exp_spec. destruct (Z.eqb_spec x 0) as [->|Hx]; split; intros H.
  - intros [C|C]; [contradiction|]. rewrite Z.pow_0_l by lia. reflexivity.
  - contradiction.
  - intros _. destruct (Z.leb_spec 0 e); [|lia]. destruct (Z.ltb_spec e (2 ^ 64)); [reflexivity|lia].
  - intros C. destruct (Z.leb_spec 0 e); cbn [andb]; [|reflexivity].
    destruct (Z.ltb_spec e (2 ^ 64)); [lia|reflexivity].
Qed.
Print Assumptions C04_exp.
Theorem C04_exp_zero_zero_refuted : bn_exp 0 0 = Ok 0 /\ 0 ^ 0 = 1 /\ forall e, bn_exp 0 e = Ok 0.
Proof. exact (conj eq_refl (conj eq_refl (fun e => eq_refl))). Qed.
Print Assumptions C04_exp_zero_zero_refuted.

(** C05 *)
Theorem C05_bytes_roundtrip : forall x, 0 <= x -> bn_from_bytes (bn_to_bytes x) = x.
Proof. exact bn_bytes_roundtrip. Qed.
Print Assumptions C05_bytes_roundtrip.

Theorem C05_to_bytes_are_bytes : forall x,
  Forall (fun b => 0 <= b < 256) (bn_to_bytes x) /\ bn_to_bytes x <> [].
Proof.
  exact (fun x => conj (bn_to_bytes_range x)
           (digits_be_nonempty 256 (Z.abs x) ltac:(lia) ltac:(lia))).
Qed.
Print Assumptions C05_to_bytes_are_bytes.

(** the value of a byte string is its big-endian value *)
Theorem C05_from_bytes_value : forall b bs,
  bn_from_bytes (b :: bs) = b * 256 ^ Z.of_nat (length bs) + bn_from_bytes bs.
Proof. exact (val_be_cons 256). Qed.
Print Assumptions C05_from_bytes_value.

Theorem C05_bytes_canonical : forall bs, Forall (fun b => 0 <= b < 256) bs ->
  0 <= bn_from_bytes bs /\
  exists k, bs = repeat 0 k ++ match bn_to_bytes (bn_from_bytes bs) with [0] => [] | s => s end.
Proof.
  intros bs Hbs. pose proof (val_be_bound 256 bs ltac:(lia) Hbs) as Hb.
  split; [exact (proj1 Hb)|].
  unfold bn_to_bytes. rewrite bn_from_bytes_val, Z.abs_eq by (exact (proj1 Hb)).
  rewrite digits_be_of_val by (lia || assumption).
  clear Hb. induction bs as [|b bs IH].
  - exists 0%nat. reflexivity.
  - inversion Hbs; subst. rewrite strip_zeros_cons. destruct (Z.eqb_spec b 0) as [->|Hn].
    + destruct (IH H2) as [k Hk]. exists (S k). cbn [repeat app]. now rewrite <- Hk.
    + exists 0%nat. cbn [repeat app]. destruct b as [|p|p]; [contradiction|reflexivity|reflexivity].
Qed.
Print Assumptions C05_bytes_canonical.

Theorem C05_sign_lost : forall x, bn_to_bytes (- x) = bn_to_bytes x.
Proof. exact (fun x => f_equal (digits_be 256) (Z.abs_opp x)). Qed.
Print Assumptions C05_sign_lost.
Example C05_ex : bn_to_bytes 65537 = [1;0;1] /\ bn_to_bytes 0 = [0] /\ bn_from_bytes [0;0;1;0] = 256
   /\ bn_from_bytes [] = 0.
Proof. repeat split. Qed.

(** C06 *)
Theorem C06_dec_hex_roundtrip : forall x,
  bn_from_dec (bn_to_dec x) = Ok x /\ bn_from_hex (bn_to_hex x) = Ok x
  /\ bn_deserialize (bn_serialize x) = Ok x.
Proof.
  exact (fun x => conj (bn_str_roundtrip false 10 x ltac:(lia))
    (conj (bn_str_roundtrip true 16 x ltac:(lia)) (bn_str_roundtrip false 10 x ltac:(lia)))).
Qed.
Print Assumptions C06_dec_hex_roundtrip.

(** A decimal string containing a character other than a digit, '_', '+', '-'
    is rejected wherever the character is; likewise for hexadecimal. *)
Theorem C06_dec_foreign_char : forall s c, In c s ->
  ~ (48 <= c <= 57) -> c <> 95 -> c <> 43 -> c <> 45 -> bn_from_dec s = Err InvalidState.
Proof.
  intros s c Hin Hc H1 H2 H3. apply (bn_from_str_foreign 10 s c); try assumption.
  unfold plain_digit, char_digit.
  destruct ((48 <=? c) && (c <=? 57)) eqn:E.
  - apply andb_prop in E as [E1 E2]. apply Z.leb_le in E1, E2. lia.
  - destruct ((97 <=? c) && (c <=? 122)) eqn:E'.
    + apply andb_prop in E' as [E1 E2]. apply Z.leb_le in E1, E2. apply Z.ltb_ge. lia.
    + destruct ((65 <=? c) && (c <=? 90)) eqn:E''; [|reflexivity].
      apply andb_prop in E'' as [E1 E2]. apply Z.leb_le in E1, E2. apply Z.ltb_ge. lia.
Qed.
Print Assumptions C06_dec_foreign_char.

Theorem C06_hex_foreign_char : forall s c, In c s ->
  ~ (48 <= c <= 57) -> ~ (65 <= c <= 70) -> ~ (97 <= c <= 102) ->
  c <> 95 -> c <> 43 -> c <> 45 -> bn_from_hex s = Err InvalidState.
Proof.
  intros s c Hin Hc Hd He H1 H2 H3. apply (bn_from_str_foreign 16 s c); try assumption.
  unfold plain_digit, char_digit.
  destruct ((48 <=? c) && (c <=? 57)) eqn:E.
  - apply andb_prop in E as [E1 E2]. apply Z.leb_le in E1, E2. lia.
  - destruct ((97 <=? c) && (c <=? 122)) eqn:E'.
    + apply andb_prop in E' as [E1 E2]. apply Z.leb_le in E1, E2. apply Z.ltb_ge. lia.
    + destruct ((65 <=? c) && (c <=? 90)) eqn:E''; [|reflexivity].
      apply andb_prop in E'' as [E1 E2]. apply Z.leb_le in E1, E2. apply Z.ltb_ge. lia.
Qed.
Print Assumptions C06_hex_foreign_char.
Theorem C06_empty_rejected : bn_from_dec [] = Err InvalidState /\ bn_from_hex [] = Err InvalidState
  /\ bn_from_dec [45] = Err InvalidState.
Proof. exact (conj eq_refl (conj eq_refl eq_refl)). Qed.
Print Assumptions C06_empty_rejected.
(** "-255" -> "-FF"; separators are accepted inside *)
Example C06_ex : bn_to_hex (-255) = [45;70;70] /\ bn_to_dec (-255) = [45;50;53;53]
  /\ bn_from_hex [45;102;102] = Ok (-255) /\ bn_from_dec [49;95;50] = Ok 12 /\ bn_from_dec [49;47] = Err InvalidState.
Proof. repeat split. Qed.

(** C07 (BigNumber part; the helper is in ClHelpersProps) *)
Theorem C07_bits : forall x n k, 0 <= n -> 0 <= k ->
  bn_is_bit_set x n = Z.testbit x n /\
  Z.testbit (bn_set_bit x n) k = (Z.testbit x k || (k =? n))%bool /\
  bn_is_bit_set (bn_set_bit x n) n = true.
Proof.
  intros x n k Hn Hk. split; [now apply bn_is_bit_set_spec|]. split; [now apply bn_set_bit_spec|].
  rewrite bn_is_bit_set_spec, bn_set_bit_spec, Z.eqb_refl by assumption. apply orb_true_r.
Qed.
Print Assumptions C07_bits.

Theorem C07_num_bits : forall x,
  (x = 0 -> bn_num_bits x = 0) /\
  (x <> 0 -> 2 ^ (bn_num_bits x - 1) <= Z.abs x < 2 ^ bn_num_bits x).
Proof. intros x. split; [now intros ->|apply bn_num_bits_spec]. Qed.
Print Assumptions C07_num_bits.

Theorem C07_shifts : forall x n, 0 <= n ->
  bn_lshift1 x = 2 * x /\ bn_rshift1 x = x / 2 /\ bn_rshift x n = x / 2 ^ n
  /\ bn_rshift1 (bn_lshift1 x) = x.
Proof.
  intros x n Hn. unfold bn_lshift1, bn_rshift1, bn_rshift.
  rewrite Z.shiftl_mul_pow2, !Z.shiftr_div_pow2 by lia. change (2 ^ 1) with 2.
  repeat split; [lia|]. now rewrite Z.div_mul by lia.
Qed.
Print Assumptions C07_shifts.

(** C08, prime part: every result of [generate_prime_in_range] passed the
    primality test, is odd and lies in the closed interval, whatever the
    random source returned. *)
Theorem C08_prime_in_range : forall isp start end_ draws c,
  Forall (fun d => Z.min start end_ <= d < Z.max start end_) draws ->
  bn_generate_prime_in_range isp start end_ draws = Ok c ->
  isp c = true /\ Z.odd c = true /\ Z.min start end_ <= c <= Z.max start end_.
Proof.
  intros isp s e draws c Hd H. unfold bn_generate_prime_in_range in H.
  destruct (Z.ltb_spec s 0); [discriminate|]. destruct (Z.ltb_spec e 0); [discriminate|].
  cbv zeta in H.
  destruct ((if e <? s then e else s) =? (if e <? s then s else e)); [discriminate|].
  destruct (prime_search_spec isp draws (Z.min s e) (Z.max s e) c ltac:(lia) Hd H) as (A & B & C). tauto.
Qed.
Print Assumptions C08_prime_in_range.
Theorem C08_prime_in_range_rejects : forall isp start end_ draws,
  start < 0 \/ end_ < 0 -> bn_generate_prime_in_range isp start end_ draws = Err InvalidState.
Proof.
  intros isp s e draws [H|H]; unfold bn_generate_prime_in_range.
  - destruct (Z.ltb_spec s 0); [reflexivity|lia].
  - destruct (Z.ltb_spec s 0); [reflexivity|]. destruct (Z.ltb_spec e 0); [reflexivity|lia].
Qed.
Print Assumptions C08_prime_in_range_rejects.
(** The upper end itself can be returned although the documented range is half open. *)
Example C08_upper_end : bn_generate_prime_in_range (fun c => c =? 11) 8 11 [8;9;10] = Ok 11.
Proof. reflexivity. Qed.

(** C10: the challenge hash depends only on the concatenation. *)
Theorem C10_no_framing : forall hash l1 l2, concat l1 = concat l2 ->
  bn_hash_array hash l1 = bn_hash_array hash l2.
Proof. exact (fun h l1 l2 E => f_equal h E). Qed.
Print Assumptions C10_no_framing.
Theorem C10_collision_refuted : exists l1 l2 : list (list Z), l1 <> l2 /\
  forall hash, bn_hash_array hash l1 = bn_hash_array hash l2.
Proof. exists [[1];[2;3]], [[1;2];[3]]. split; [discriminate|reflexivity]. Qed.
Print Assumptions C10_collision_refuted.
(** with entries of the same shape (same lengths) the preimages are different *)
Theorem C10_same_shape_injective : forall l1 l2 : list (list Z),
  map (@length Z) l1 = map (@length Z) l2 -> concat l1 = concat l2 -> l1 = l2.
Proof.
  induction l1 as [|x l1 IH]; intros [|y l2] Hl Hc; try discriminate Hl; [reflexivity|].
  injection Hl as Hxy Hl. cbn [concat] in Hc.
  assert (x = y /\ concat l1 = concat l2) as [-> E].
  { clear - Hxy Hc. revert y Hxy Hc. induction x as [|a x IH]; intros [|b y] Hxy Hc; try discriminate; [auto|].
    injection Hxy as Hxy. injection Hc as -> Hc. destruct (IH y Hxy Hc) as [-> E]. auto. }
  f_equal. now apply IH.
Qed.
Print Assumptions C10_same_shape_injective.
