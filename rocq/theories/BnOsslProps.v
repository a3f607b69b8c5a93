(** C141-C145: the OpenSSL big-number backend and its agreement with the pure Rust one.
    [bn_*] is rust.rs, [ob_*] is openssl.rs; [inv] is OpenSSL's BN_mod_inverse, any
    function meeting [mod_inverse_ok]. *)
From Coq Require Import Znumtheory Zpow_facts.
From Verif Require Import Base BnModel BnProofs BnOsslModel BnOsslLib.

(** A function meeting [mod_inverse_ok] exists (the theorems are not vacuous). *)
Definition euclid_inv (a n : Z) : res Z := if Z.abs n <=? 1 then Err InvalidState else bn_inverse (a mod Z.abs n) n.
Lemma gcd_mod_abs a n : n <> 0 -> Z.gcd (a mod Z.abs n) n = Z.gcd a n.
Proof.
  intros Hn. rewrite <- (Z.gcd_abs_r _ n), <- (Z.gcd_abs_r a n). rewrite Z.gcd_mod by lia. apply Z.gcd_comm.
Qed.
Example euclid_inv_ok : mod_inverse_ok euclid_inv.
Proof.
  intros a n. unfold euclid_inv. destruct (Z.leb_spec (Z.abs n) 1); repeat split; try lia; auto; intros _ Hg.
  - pose proof (Z.mod_pos_bound a (Z.abs n) ltac:(lia)) as Hb.
    destruct (bn_inverse_cases (a mod Z.abs n) n) as [(_ & x & E & Hx & Ex)|(G & _)]; try lia.
    + exists x. split; [exact E|]. split; [exact Hx|]. rewrite Z.mul_mod_idemp_l in Ex by lia. exact Ex.
    + rewrite gcd_mod_abs in G by lia. contradiction.
  - destruct (bn_inverse_cases (a mod Z.abs n) n) as [(G & _)|(_ & E)]; try lia.
    + apply Z.mod_pos_bound; lia.
    + rewrite gcd_mod_abs in G by lia. contradiction.
    + exact E.
Qed.

(** C141 *)
Theorem C141_arithmetic_agrees : forall x y n : Z,
  ob_add x y = bn_add x y /\ ob_sub x y = bn_sub x y /\ ob_sqr x = bn_sqr x /\ ob_mul x y = bn_mul x y /\
  ob_modulus x n = bn_modulus x n /\ ob_mod_mul x y n = bn_mod_mul x y n /\ ob_mod_sub x y n = bn_mod_sub x y n /\
  ob_div x y = bn_div x y /\ ob_gcd x y = bn_gcd x y.
Proof.
  intros x y n. unfold ob_modulus, ob_mod_mul, ob_mod_sub, bn_mod_mul, bn_mod_sub. rewrite !bn_nnmod_eq.
  repeat split. unfold ob_div, bn_div_rem, bn_div. destruct (y =? 0); reflexivity.
Qed.
Print Assumptions C141_arithmetic_agrees.

Theorem C141_words_and_signs_agree : forall x y w : Z, forall b : bool, 0 <= w ->
  ob_add_word x w = bn_add_word x w /\ ob_sub_word x w = bn_sub_word x w /\ ob_mul_word x w = bn_mul_word x w /\
  ob_div_word x w = bn_div_word x w /\ ob_set_negative x b = bn_set_negative x b /\ ob_is_negative x = bn_is_negative x /\
  ob_lshift1 x = bn_lshift1 x /\ ob_num_bits x = bn_num_bits x /\ ob_try_clone x = x /\
  ob_cmp x y = Z.compare x y /\ (ob_eqb x y = true <-> x = y).
Proof.
  intros x y w b Hw. repeat (apply conj); try reflexivity.
  - unfold ob_div_word, bn_div_word. destruct (Z.eqb_spec w 0); [reflexivity|]. f_equal. apply sgn_abs_quot; lia.
  - apply ob_set_negative_eq.
  - unfold ob_lshift1, bn_lshift1. rewrite !Z.shiftl_mul_pow2 by lia. rewrite Z.mul_assoc, (Z.mul_comm (Z.sgn x)), Z.abs_sgn. reflexivity.
  - apply ob_try_clone_eq.
  - apply ob_cmp_eq.
  - rewrite ob_eqb_eq. intros H. now apply Z.eqb_eq.
  - intros ->. rewrite ob_eqb_eq. apply Z.eqb_refl.
Qed.
Print Assumptions C141_words_and_signs_agree.

Theorem C141_nonnegative_agrees : forall x n : Z, 0 <= x -> 0 <= n < 2 ^ 31 ->
  ob_increment x = bn_increment x /\ ob_decrement x = bn_decrement x /\
  ob_rshift1 x = bn_rshift1 x /\ ob_rshift x n = Ok (bn_rshift x n) /\
  ob_is_bit_set x n = bn_is_bit_set x n /\ ob_set_bit x n = Ok (bn_set_bit x n) /\
  (n < 2 ^ 32 -> ob_from_u32 n = n).
Proof.
  intros x n Hx Hn.
  assert (Ei : as_i32 n = n).
  { unfold as_i32. rewrite Z.mod_small; lia. }
  repeat (apply conj).
  - unfold ob_increment, bn_increment, ob_add_word. rewrite bin2bn_bn2bin. lia.
  - unfold ob_decrement, bn_decrement, ob_sub_word. rewrite bin2bn_bn2bin. lia.
  - now apply ob_rshift1_eq.
  - unfold ob_rshift, bn_rshift. rewrite Ei. destruct (Z.ltb_spec n 0); [lia|]. f_equal.
    rewrite Z.abs_eq by lia. destruct (Z.eq_dec x 0) as [->|]; [now rewrite Z.shiftr_0_l|].
    rewrite Z.sgn_pos by lia. ring.
  - rewrite bn_is_bit_set_spec by lia. unfold ob_is_bit_set. destruct (Z.ltb_spec n 0); [lia|]. now rewrite Z.abs_eq by lia.
  - unfold ob_set_bit, bn_set_bit. destruct (Z.ltb_spec n 0); [lia|]. destruct (Z.ltb_spec x 0); [lia|]. cbv zeta.
    now rewrite Z.abs_eq by lia.
  - intros H. unfold ob_from_u32. apply Z.mod_small. lia.
Qed.
Print Assumptions C141_nonnegative_agrees.
Example C141_ex : ob_modulus (-7) (-3) = Ok 2 /\ ob_div (-7) 2 = Ok (-3) /\ ob_div_word (-7) 2 = Ok (-3) /\
  ob_modulus 4 0 = Err InvalidState /\ ob_set_negative (-5) true = -5 /\ ob_rshift 20 2 = Ok 5 /\ ob_cmp (-3) (-2) = Lt.
Proof. repeat split. Qed.

(** exact boundaries of the agreement *)
Theorem C141_increment_boundary : forall x, (ob_increment x = bn_increment x <-> 0 <= x) /\
  (ob_decrement x = bn_decrement x <-> 0 <= x).
Proof.
  intros x. unfold ob_increment, bn_increment, ob_add_word, ob_decrement, bn_decrement, ob_sub_word.
  rewrite !bin2bn_bn2bin. lia.
Qed.
Print Assumptions C141_increment_boundary.

(** set_bit of the native build sets a bit of the magnitude and keeps the sign *)
Theorem C141_set_bit_any_sign : forall x n, 0 <= n -> exists y, ob_set_bit x n = Ok y /\
  (x < 0 <-> y < 0) /\ (forall k, 0 <= k -> ob_is_bit_set y k = (ob_is_bit_set x k || (k =? n))%bool).
Proof.
  intros x n Hn. unfold ob_set_bit. destruct (Z.ltb_spec n 0); [lia|]. cbv zeta. eexists. split; [reflexivity|].
  set (m := Z.lor (Z.abs x) (Z.shiftl 1 n)).
  assert (Hm : 0 < m).
  { assert (0 <= m) by (apply Z.lor_nonneg; split; [lia|apply Z.shiftl_nonneg; lia]).
    destruct (Z.eq_dec m 0) as [E|]; [|lia]. apply Z.lor_eq_0_iff in E as [_ E]. rewrite Z.shiftl_1_l in E. pose proof (Z.pow_pos_nonneg 2 n). lia. }
  split; [destruct (Z.ltb_spec x 0); lia|]. intros k Hk. unfold ob_is_bit_set. destruct (Z.ltb_spec k 0); [lia|].
  replace (Z.abs (if x <? 0 then - m else m)) with m by (destruct (x <? 0); lia). unfold m. rewrite Z.lor_spec. f_equal.
  rewrite Z.shiftl_1_l, Z.pow2_bits_eqb by lia. apply Z.eqb_sym.
Qed.
Print Assumptions C141_set_bit_any_sign.

(** from_u32 takes a usize: the native build keeps the low 32 bits *)
Theorem C141_from_u32_boundary : forall n, 0 <= n -> (ob_from_u32 n = n <-> n < 2 ^ 32).
Proof.
  intros n Hn. unfold ob_from_u32. split; intros E; [|apply Z.mod_small; lia]. rewrite <- E. apply Z.mod_pos_bound. lia.
Qed.
Print Assumptions C141_from_u32_boundary.

Theorem C141_rshift1_boundary : forall x, ob_rshift1 x = bn_rshift1 x <-> 0 <= x \/ (2 | x).
Proof.
  intros x. unfold ob_rshift1, bn_rshift1. rewrite !Z.shiftr_div_pow2 by lia. change (2 ^ 1) with 2.
  destruct (Z.le_gt_cases 0 x) as [Hx|Hx].
  - split; [now left|]. intros _. rewrite Z.abs_eq by lia. destruct (Z.eq_dec x 0) as [->|]; [reflexivity|].
    rewrite Z.sgn_pos by lia. ring.
  - rewrite Z.sgn_neg, Z.abs_neq by lia.
    pose proof (Z.div_mod x 2 ltac:(lia)). pose proof (Z.mod_pos_bound x 2 ltac:(lia)).
    pose proof (Z.div_mod (-x) 2 ltac:(lia)). pose proof (Z.mod_pos_bound (-x) 2 ltac:(lia)).
    split.
    + intros E. right. exists (x / 2). lia.
    + intros [C|[k ->]]; [lia|]. replace (- (k * 2)) with ((- k) * 2) by ring. rewrite !Z.div_mul by lia. ring.
Qed.
Print Assumptions C141_rshift1_boundary.

Theorem C141_exp_boundary : forall x e, ob_exp x e = Ok (x ^ Z.abs e) /\
  (ob_exp x e = bn_exp x e <-> (x = 0 /\ e <> 0) \/ (x <> 0 /\ 0 <= e < 2 ^ 64)).
Proof.
  intros x e. split; [reflexivity|]. unfold ob_exp, bn_exp_mag. rewrite bn_exp_spec.
  destruct (Z.eqb_spec x 0) as [->|Hx].
  - destruct (Z.eq_dec e 0) as [->|He].
    + cbn. split; [discriminate|intros [[_ C]|[C _]]; contradiction].
    + rewrite Z.pow_0_l by lia. split; [intros _; left; auto|reflexivity].
  - destruct (Z.leb_spec 0 e), (Z.ltb_spec e (2 ^ 64)); cbn [andb].
    + rewrite Z.abs_eq by lia. split; [intros _; right; lia|reflexivity].
    + split; [discriminate|]. intros [[C _]|[_ C]]; [contradiction|lia].
    + split; [discriminate|]. intros [[C _]|[_ C]]; [contradiction|lia].
    + split; [discriminate|]. intros [[C _]|[_ C]]; [contradiction|lia].
Qed.
Print Assumptions C141_exp_boundary.

(** C142 *)
Theorem C142_inverse_any_sign : forall inv, mod_inverse_ok inv -> forall a n, 2 <= Z.abs n ->
  (Z.gcd a n = 1 /\ exists x, ob_inverse inv a n = Ok x /\ 0 <= x < Z.abs n /\ (a * x) mod Z.abs n = 1)
  \/ (Z.gcd a n <> 1 /\ ob_inverse inv a n = Err InvalidState).
Proof. intros inv H a n Hn. now apply ob_inverse_cases. Qed.
Print Assumptions C142_inverse_any_sign.

Theorem C142_agree_nonnegative : forall inv, mod_inverse_ok inv -> forall a e n, 0 <= a ->
  (n <> -1 -> ob_inverse inv a n = bn_inverse a n) /\
  (forall x, n <> -1 -> ob_mod_div inv x a n = bn_mod_div x a n) /\
  (2 <= Z.abs n -> ob_mod_exp inv a e n = bn_mod_exp a e n).
Proof.
  intros inv H a e n Ha. split; [|split].
  - intros Hn. now apply ob_inverse_eq.
  - intros x Hn. now apply ob_mod_div_eq.
  - intros Hn. apply ob_mod_exp_eq; auto.
Qed.
Print Assumptions C142_agree_nonnegative.

Theorem C142_mod_exp_any_base : forall inv, mod_inverse_ok inv -> forall x e n, 2 <= Z.abs n ->
  (0 <= e -> ob_mod_exp inv x e n = Ok (x ^ e mod Z.abs n)) /\
  (e < 0 -> Z.gcd x n <> 1 -> ob_mod_exp inv x e n = Err InvalidState) /\
  (e < 0 -> Z.gcd x n = 1 -> exists y, ob_mod_exp inv x e n = Ok y /\ 0 <= y < Z.abs n /\ (y * x ^ (- e)) mod Z.abs n = 1).
Proof.
  intros inv H x e n Hn. split; [|split].
  - intros He. now apply ob_mod_exp_nonneg.
  - intros He G. rewrite (ob_mod_exp_neg inv x e n He Hn).
    destruct (ob_inverse_cases inv H x n Hn) as [(G' & _)|(_ & ->)]; [contradiction|reflexivity].
  - intros He G. rewrite (ob_mod_exp_neg inv x e n He Hn).
    destruct (ob_inverse_cases inv H x n Hn) as [(_ & i & -> & Hi & Ei)|(G' & _)]; [|contradiction].
    cbn [rbind]. eexists. split; [reflexivity|]. split; [apply Z.mod_pos_bound; lia|].
    rewrite Z.mul_mod_idemp_l by lia. rewrite <- Z.pow_mul_l. rewrite Zpower_mod by lia.
    rewrite (Z.mul_comm i x), Ei. rewrite Z.pow_1_l by lia. apply Z.mod_small. lia.
Qed.
Print Assumptions C142_mod_exp_any_base.

(** On a negative number the two builds disagree, and it is the native one that is right. *)
Theorem C142_refuted_negative_agrees : forall inv, mod_inverse_ok inv -> forall n, 3 <= n ->
  ob_inverse inv (-1) n = Ok (n - 1) /\ bn_inverse (-1) n = Ok 1 /\
  ob_mod_exp inv (-1) (-1) n = Ok (n - 1) /\ bn_mod_exp (-1) (-1) n = Ok 1.
Proof.
  intros inv H n Hn.
  assert (E1 : ob_inverse inv (-1) n = Ok (n - 1)).
  { destruct (ob_inverse_cases inv H (-1) n ltac:(lia)) as [(_ & x & -> & Hx & Ex)|(G & _)].
    - f_equal. rewrite Z.abs_eq in Hx, Ex by lia. apply (inverse_unique (-1) n); try exact Ex; try lia.
      replace (-1 * (n - 1)) with (1 + (-1) * n) by ring. rewrite Z.mod_add by lia. apply Z.mod_small; lia.
    - exfalso. apply G. rewrite Z.gcd_comm.  change (-1) with (- (1)). rewrite Z.gcd_opp_r. apply Z.gcd_1_r. }
  assert (E2 : bn_inverse (-1) n = Ok 1) by (apply bn_inverse_minus_one; lia).
  repeat split; auto.
  - rewrite (ob_mod_exp_neg inv) by lia. rewrite E1. cbn [rbind]. change (- -1) with 1. rewrite Z.pow_1_r, Z.mod_small by lia. reflexivity.
  - rewrite bn_mod_exp_neg by lia. rewrite E2. cbn [rbind]. change (- -1) with 1. rewrite Z.pow_1_r, Z.mod_small by lia. reflexivity.
Qed.
Print Assumptions C142_refuted_negative_agrees.

(** A zero modulus panics the pure Rust build and is an error value of the native one,
    except for exponent zero, where the native one answers 1. *)
Theorem C142_refuted_zero_modulus_agrees : forall inv, mod_inverse_ok inv -> forall x e,
  (0 <= e -> bn_mod_exp x e 0 = Err Panic) /\
  (e <> 0 -> ob_mod_exp inv x e 0 = Err InvalidState) /\ ob_mod_exp inv x 0 0 = Ok 1.
Proof.
  intros inv H x e. split; [|split; [|reflexivity]].
  - intros He. unfold bn_mod_exp. cbn. unfold bn_is_negative. destruct (Z.ltb_spec e 0); [lia|reflexivity].
  - intros He. unfold ob_mod_exp, ob_is_negative. destruct (Z.ltb_spec e 0).
    + unfold ob_inverse. destruct (H x 0) as (_ & _ & H3). rewrite H3 by (cbn; lia). reflexivity.
    + unfold bn_mod_exp_mag. destruct (Z.eqb_spec e 0); [contradiction|reflexivity].
Qed.
Print Assumptions C142_refuted_zero_modulus_agrees.
Example C142_ex : ob_mod_exp euclid_inv (-5) (-2) 7 = Ok 2 /\ ob_inverse euclid_inv (-5) 7 = Ok 4 /\ bn_inverse (-5) 7 = Ok 3.
Proof. repeat split. Qed.

(** modulus one: the pure Rust build always answers zero, the native one fails on a
    negative exponent *)
Theorem C142_modulus_one : forall inv, mod_inverse_ok inv -> forall x e,
  bn_mod_exp x e 1 = Ok 0 /\ (0 <= e -> ob_mod_exp inv x e 1 = Ok 0) /\ (e < 0 -> ob_mod_exp inv x e 1 = Err InvalidState).
Proof.
  intros inv H x e. split; [reflexivity|]. unfold ob_mod_exp, ob_is_negative. split; intros He.
  - destruct (Z.ltb_spec e 0); [lia|]. unfold bn_mod_exp_mag. destruct (Z.eqb_spec e 0); [reflexivity|].
    rewrite bn_nnmod_pos by lia. cbn [rbind]. change (Z.abs 1) with 1. rewrite modpow_spec by lia. f_equal. apply Z.mod_1_r.
  - destruct (Z.ltb_spec e 0); [|lia]. unfold ob_inverse. destruct (H x 1) as (_ & _ & H3). rewrite H3 by (cbn; lia). reflexivity.
Qed.
Print Assumptions C142_modulus_one.

(** C143: bytes and what is hashed *)
Theorem C143_bytes_agree : forall x bs,
  (ob_to_bytes x = bn_to_bytes x <-> x <> 0) /\ ob_from_bytes bs = bn_from_bytes bs /\
  ob_from_bytes (ob_to_bytes x) = Z.abs x /\ ob_from_bytes (bn_to_bytes x) = Z.abs x /\ bn_from_bytes (ob_to_bytes x) = Z.abs x.
Proof.
  intros x bs. split; [|split; [reflexivity|split; [apply bin2bn_bn2bin|split; [|apply bin2bn_bn2bin]]]].
  - split; [|apply ob_to_bytes_eq]. intros E ->. discriminate E.
  - unfold bn_to_bytes. change (ob_from_bytes ?l) with (val_be 256 l). apply digits_be_val; lia.
Qed.
Print Assumptions C143_bytes_agree.

Theorem C143_refuted_zero_hash_agrees :
  ob_to_bytes 0 = [] /\ bn_to_bytes 0 = [0] /\
  exists H : list Z -> list Z, ob_hash_array H [ob_to_bytes 0] <> bn_hash_array H [bn_to_bytes 0].
Proof. repeat split. exists (fun l => l). discriminate. Qed.
Print Assumptions C143_refuted_zero_hash_agrees.

(** C144: text *)
Theorem C144_dec_agrees : forall x, ob_to_dec x = bn_to_dec x.
Proof. intros x. reflexivity. Qed.
Print Assumptions C144_dec_agrees.

Theorem C144_exchange : forall x,
  ob_from_dec (bn_to_dec x) = Ok x /\ bn_from_dec (ob_to_dec x) = Ok x /\ ob_from_dec (ob_to_dec x) = Ok x /\
  ob_deserialize (bn_serialize x) = Ok x /\ bn_deserialize (ob_serialize x) = Ok x /\
  ob_from_hex (bn_to_hex x) = Ok x /\ bn_from_hex (ob_to_hex x) = Ok x /\ ob_from_hex (ob_to_hex x) = Ok x.
Proof.
  intros x.
  assert (D1 : ob_from_dec (bn_to_dec x) = Ok x) by (apply (ossl_reads_rust false 10); lia).
  assert (D2 : bn_from_dec (bn_to_dec x) = Ok x) by (apply bn_str_roundtrip; lia).
  assert (H1 : ob_from_hex (bn_to_hex x) = Ok x) by (apply (ossl_reads_rust true 16); lia).
  assert (H3 : bn_from_hex (ob_to_hex x) = Ok x).
  { destruct (Z.eq_dec x 0) as [->|Hx]; [reflexivity|].
    pose proof (bn_str_roundtrip true 16 x ltac:(lia)) as R.
    rewrite ob_to_hex_spec by assumption. unfold bn_from_hex, bn_to_str in *.
    pose proof (digits_be_range 16 (Z.abs x) ltac:(lia)) as Hr.
    destruct (digits_be_head 16 (Z.abs x) ltac:(lia) ltac:(lia)) as (d & ds & Ed & Hd). rewrite Ed in *.
    pose proof (Forall_inv Hr) as Hd'. cbv beta in Hd'.
    pose proof (in_digit_char true d 16 Hd' ltac:(lia)) as (N0 & N43 & N95 & N45).
    unfold pad_even. destruct (Nat.even _) eqn:Ev; [exact R|]. clear Ev.
    assert (P : forall k, parse_unsigned 16 (map (digit_char true) (d :: ds)) = Ok k ->
                parse_unsigned 16 (48 :: map (digit_char true) (d :: ds)) = Ok k).
    { intros k Pk. unfold parse_unsigned, strip_plus in *. cbn [map starts_with tl] in *.
      change (48 =? 43) with false. cbn [andb].
      destruct (Z.eqb_spec (digit_char true d) 43); [contradiction|]. cbn [andb] in Pk. cbn [starts_with] in *.
      change (48 =? 95) with false. destruct (Z.eqb_spec (digit_char true d) 95); [contradiction|].
      cbv iota in Pk |- *. cbn [parse_digits]. change (48 =? 95) with false. change (char_digit 48) with (Some 0).
      change (0 <? 16) with true. cbv iota. change (0 * 16 + 0) with 0. exact Pk. }
    unfold bn_from_str in *. destruct (Z.ltb_spec x 0).
    - cbn [app starts_with tl] in *. change (45 =? 45) with true in *. cbv iota in *.
      change (48 =? 43) with false. cbv iota.
      cbn [map starts_with] in R. destruct (Z.eqb_spec (digit_char true d) 43); [contradiction|].
      change (digit_char true d :: map (digit_char true) ds) with (map (digit_char true) (d :: ds)) in R.
      destruct (parse_unsigned 16 (map (digit_char true) (d :: ds))) as [k|] eqn:Pk; [|discriminate R].
      rewrite (P k eq_refl). exact R.
    - cbn [app] in *. cbn [starts_with]. change (48 =? 45) with false. cbv iota. apply P.
      cbn [map starts_with] in R. destruct (Z.eqb_spec (digit_char true d) 45); [contradiction|]. exact R. }
  repeat (apply conj); auto.
  assert (C : forall c, In c (ob_to_hex x) -> c <> 0 /\ c <> 43 /\ c <> 95).
  { destruct (Z.eq_dec x 0) as [->|Hx]; [intros c [<-|[]]; lia|]. rewrite ob_to_hex_spec by assumption.
    intros c Hc. assert (Hc' : c = 48 \/ In c (bn_to_str true 16 x)).
    { unfold bn_to_str. apply in_app_or in Hc as [Hc|Hc]; [right; apply in_or_app; now left|].
      unfold pad_even in Hc. destruct (Nat.even _); [right; apply in_or_app; now right|].
      destruct Hc as [<-|Hc]; [now left|right; apply in_or_app; now right]. }
    destruct Hc' as [->|Hc']; [lia|]. apply (bn_to_str_chars true 16 x c ltac:(lia) Hc'). }
  unfold ob_from_hex. rewrite c_string_ok; [cbn [rbind]|intros X; apply C in X; lia].
  apply bn_from_str_ossl; [exact H3| |]; intros X; apply C in X; lia.
Qed.
Print Assumptions C144_exchange.

(** hexadecimal text differs by at most one leading zero *)
Theorem C144_hex_padding : forall x, x <> 0 -> exists sign digits,
  bn_to_hex x = sign ++ digits /\ ob_to_hex x = sign ++ (if Nat.even (length digits) then digits else 48 :: digits).
Proof.
  intros x Hx. exists (if x <? 0 then [45] else []), (map (digit_char true) (digits_be 16 (Z.abs x))).
  split; [reflexivity|]. now apply ob_to_hex_spec.
Qed.
Print Assumptions C144_hex_padding.

(** what the pure Rust build reads without '+' or '_', the native one reads as the same number *)
Theorem C144_plain_text_agrees : forall s x, ~ In 0 s -> ~ In 43 s -> ~ In 95 s ->
  (bn_from_dec s = Ok x -> ob_from_dec s = Ok x) /\ (bn_from_hex s = Ok x -> ob_from_hex s = Ok x).
Proof.
  intros s x H0 H43 H95. unfold ob_from_dec, ob_from_hex. rewrite c_string_ok by assumption. cbn [rbind].
  split; intros E; now apply bn_from_str_ossl.
Qed.
Print Assumptions C144_plain_text_agrees.

Lemma digit_run_app radix s t : (forall c, In c s -> plain_digit radix c = true) ->
  (exists c r, t = c :: r /\ plain_digit radix c = false) -> digit_run radix (s ++ t) = digit_run radix s.
Proof.
  intros Hs (c & r & -> & Hc). induction s as [|a s IH]; cbn [app digit_run].
  - unfold plain_digit in Hc. destruct (char_digit c); [rewrite Hc|]; reflexivity.
  - destruct (char_digit a); [|reflexivity]. destruct (z <? radix); [|reflexivity]. f_equal. apply IH.
    intros; apply Hs; now right.
Qed.

(** The native build ignores whatever follows the digits; one text can be read as two
    different numbers; and a NUL character panics it. *)
Theorem C144_refuted_native_strict : forall x, 0 <= x -> forall junk, ~ In 0 junk ->
  (exists c r, junk = c :: r /\ plain_digit 10 c = false) ->
  ob_from_dec (ob_to_dec x ++ junk) = Ok x.
Proof.
  intros x Hx junk H0 Hj. unfold ob_from_dec.
  assert (D : ob_from_dec (bn_to_dec x) = Ok x) by (apply (ossl_reads_rust false 10); lia).
  unfold ob_from_dec in D.
  assert (N : ~ In 0 (bn_to_dec x)) by (intros C; apply (bn_to_str_chars false 10) in C; lia).
  rewrite c_string_ok in D by exact N. cbn [rbind] in D.
  rewrite c_string_ok; [cbn [rbind]|].
  2:{ intros C. apply in_app_or in C as [C|C]; [exact (N C)|exact (H0 C)]. }
  change (ob_to_dec x) with (bn_to_dec x).
  assert (E : bn_to_dec x = map (digit_char false) (digits_be 10 x)).
  { unfold bn_to_dec, bn_to_str. destruct (Z.ltb_spec x 0); [lia|]. now rewrite Z.abs_eq by lia. }
  rewrite E in *.
  pose proof (digits_be_range 10 x ltac:(lia)) as Hr. pose proof (digits_be_nonempty 10 x ltac:(lia) Hx) as Hne.
  unfold str2bn in *.
  assert (S1 : forall t, starts_with 45 (map (digit_char false) (digits_be 10 x) ++ t) = false).
  { intros t. destruct (digits_be 10 x) as [|d ds]; [contradiction|]. cbn [map app starts_with].
    pose proof (in_digit_char false d 10 (Forall_inv Hr) ltac:(lia)). apply Z.eqb_neq. tauto. }
  rewrite S1. pose proof (S1 []) as S2. rewrite app_nil_r in S2. rewrite S2 in D.
  rewrite digit_run_app; [exact D| |exact Hj].
  intros c Hc. apply in_map_iff in Hc as (d & <- & Hd). rewrite Forall_forall in Hr. specialize (Hr d Hd).
  unfold plain_digit. rewrite (char_digit_digit_char false d 10) by lia. apply Z.ltb_lt. lia.
Qed.
Print Assumptions C144_refuted_native_strict.

Theorem C144_refuted_same_number :
  (* "1_000" *) bn_from_dec [49; 95; 48; 48; 48] = Ok 1000 /\ ob_from_dec [49; 95; 48; 48; 48] = Ok 1 /\
  (* "+5" *) bn_from_dec [43; 53] = Ok 5 /\ ob_from_dec [43; 53] = Err InvalidState /\
  (* "5x" *) bn_from_dec [53; 120] = Err InvalidState /\ ob_from_dec [53; 120] = Ok 5 /\
  (* a NUL character anywhere *) forall s, In 0 s -> ob_from_dec s = Err Panic.
Proof.
  repeat (apply conj); try reflexivity. intros s H. unfold ob_from_dec, c_string.
  replace (existsb (fun c => c =? 0) s) with true; [reflexivity|]. symmetry. apply existsb_exists. exists 0. auto.
Qed.
Print Assumptions C144_refuted_same_number.
Example C144_ex : ob_to_hex 10 = [48; 65] /\ bn_to_hex 10 = [65] /\ ob_to_hex (-258) = [45; 48; 49; 48; 50] /\ ob_to_dec (-12) = [45; 49; 50].
Proof. repeat split. Qed.

(** C145: primes *)
Theorem C145_prime_in_range : forall isp start end_ draws,
  Forall (fun d => 0 <= d < end_ - start) draws ->
  (start < end_ -> forall p, ob_generate_prime_in_range isp start end_ draws = Ok p ->
     isp p = true /\ start <= p < end_ /\ exists d, In d draws /\ p = start + d) /\
  (start < end_ -> (exists d, In d draws /\ isp (start + d) = true) ->
     exists p, ob_generate_prime_in_range isp start end_ draws = Ok p) /\
  (forall d ds, end_ <= start -> ob_generate_prime_in_range isp start end_ (d :: ds) = Err InvalidState).
Proof.
  intros isp start end_ draws Hd. unfold ob_generate_prime_in_range, ob_sub. split; [|split].
  - intros Hlt p. induction Hd as [|d ds Hd0 _ IH]; cbn [ob_prime_search]; [discriminate|].
    unfold ob_rand_range. destruct (Z.leb_spec (end_ - start) 0); [lia|]. cbn [rbind]. unfold ob_add.
    destruct (isp (d + start)) eqn:E.
    + intros [= <-]. split; [exact E|]. split; [lia|]. exists d. split; [now left|lia].
    + intros H1. destruct (IH H1) as (A & B & d' & I & ->). split; [exact A|]. split; [exact B|]. exists d'. split; [now right|reflexivity].
  - intros Hlt (d & Hin & Hp). induction Hd as [|d0 ds Hd0 _ IH]; [destruct Hin|]. cbn [ob_prime_search].
    unfold ob_rand_range. destruct (Z.leb_spec (end_ - start) 0); [lia|]. cbn [rbind]. unfold ob_add.
    destruct (isp (d0 + start)) eqn:E; [eauto|].
    destruct Hin as [->|Hin]; [rewrite Z.add_comm in Hp; congruence|auto].
  - intros d ds H. cbn [ob_prime_search]. unfold ob_rand_range. destruct (Z.leb_spec (end_ - start) 0); [reflexivity|lia].
Qed.
Print Assumptions C145_prime_in_range.

(** With a primality test that is right, the native [is_safe_prime] recognises every
    safe prime but one: 7. *)
Theorem C145_safe_prime : forall isp, (forall x, isp x = true <-> prime x) -> forall x,
  ob_is_safe_prime isp x = Ok true <-> prime x /\ prime ((x - 1) / 2) /\ x <> 7.
Proof.
  intros isp Hisp x. unfold ob_is_safe_prime, ob_modulus. rewrite bn_nnmod_pos by lia. cbn [rbind].
  rewrite ob_eqb_eq.
  assert (Half : prime x -> x <> 2 -> ob_rshift1 x = (x - 1) / 2).
  { intros P N2. pose proof (prime_ge_2 x P). rewrite ob_rshift1_eq by lia. unfold bn_rshift1.
    rewrite Z.shiftr_div_pow2 by lia. change (2 ^ 1) with 2.
    assert (O : x mod 2 = 1).
    { destruct (Z.eq_dec (x mod 2) 0) as [E|]; [|pose proof (Z.mod_pos_bound x 2); lia].
      exfalso.
      destruct (prime_divisors x P 2) as [D|[D|[D|D]]]; try lia. exists (x / 2). pose proof (Z.div_mod x 2). lia. }
    pose proof (Z.div_mod x 2 ltac:(lia)). rewrite H0 at 2. rewrite O.
    replace (2 * (x / 2) + 1 - 1) with (x / 2 * 2) by ring. now rewrite Z.div_mul by lia. }
  assert (M3 : forall p, prime p -> p <> 3 -> p mod 3 <> 0).
  { intros p P N E. pose proof (prime_ge_2 p P).
    destruct (prime_divisors p P 3) as [D|[D|[D|D]]]; try lia. exists (p / 3). pose proof (Z.div_mod p 3). lia. }
  split.
  - intros H. injection H as H. apply andb_prop in H as [H H3]. apply andb_prop in H as [H1 H2].
    apply Z.eqb_eq in H1. apply Hisp in H2, H3.
    assert (x <> 2) by (intros ->; apply prime_ge_2 in H3; cbn in H3; lia).
    rewrite Half in H3 by assumption. split; [exact H2|]. split; [exact H3|]. intros ->. cbn in H1. lia.
  - intros (P & Q & N7).
    assert (N2 : x <> 2) by (intros ->; apply prime_ge_2 in Q; cbn in Q; lia).
    rewrite Half by assumption. rewrite (proj2 (Hisp _) P), (proj2 (Hisp _) Q), !andb_true_r. f_equal. apply Z.eqb_eq.
    pose proof (prime_ge_2 x P).
    assert (O : x = 2 * ((x - 1) / 2) + 1).
    { assert (x mod 2 <> 0).
      { intros E. destruct (prime_divisors x P 2) as [D|[D|[D|D]]]; try lia. exists (x / 2). pose proof (Z.div_mod x 2). lia. }
      pose proof (Z.mod_pos_bound x 2 ltac:(lia)). pose proof (Z.div_mod x 2 ltac:(lia)).
      assert (x mod 2 = 1) by lia. rewrite H2 at 2. rewrite H3.
      replace (2 * (x / 2) + 1 - 1) with (x / 2 * 2) by ring. rewrite Z.div_mul by lia. lia. }
    set (q := (x - 1) / 2) in *.
    assert (Nx3 : x <> 3) by (intros E; pose proof (prime_ge_2 q Q); lia).
    assert (Nq3 : q <> 3) by lia.
    pose proof (M3 x P Nx3). pose proof (M3 q Q Nq3).
    pose proof (Z.mod_pos_bound x 3 ltac:(lia)). pose proof (Z.mod_pos_bound q 3 ltac:(lia)).
    pose proof (Z.div_mod x 3 ltac:(lia)). pose proof (Z.div_mod q 3 ltac:(lia)). lia.
Qed.
Print Assumptions C145_safe_prime.

Theorem C145_refuted_same_safe_prime_size : forall size, ob_safe_prime_bits size = bn_safe_prime_bits size + 1.
Proof. reflexivity. Qed.
Print Assumptions C145_refuted_same_safe_prime_size.

(** The native search never returns the upper bound and never swaps its bounds; the
    pure Rust one does both. *)
Theorem C145_refuted_range_agrees : forall isp, isp 9 = true ->
  bn_generate_prime_in_range isp 4 9 [8] = Ok 9 /\ bn_generate_prime_in_range isp 9 4 [8] = Ok 9 /\
  bn_generate_prime_in_range isp 9 9 [8] = Err Panic /\
  (forall draws p, Forall (fun d => 0 <= d < 9 - 4) draws -> ob_generate_prime_in_range isp 4 9 draws = Ok p -> p <> 9) /\
  (forall d, ob_generate_prime_in_range isp 9 4 [d] = Err InvalidState) /\
  (forall d, ob_generate_prime_in_range isp 9 9 [d] = Err InvalidState).
Proof.
  intros isp H. unfold bn_generate_prime_in_range. cbn. rewrite H. repeat (apply conj); try reflexivity.
  intros draws p Hd E. destruct (C145_prime_in_range isp 4 9 draws Hd) as (A & _). destruct (A ltac:(lia) p E) as (_ & B & _). lia.
Qed.
Print Assumptions C145_refuted_range_agrees.
Example C145_ex : ob_is_safe_prime (fun x => (x =? 11) || (x =? 5)) 11 = Ok true /\ ob_is_safe_prime (fun _ => true) 7 = Ok false /\
  ob_generate_prime_in_range (fun x => x =? 11) 10 20 [3; 1; 5] = Ok 11.
Proof. repeat split. Qed.
