(** Model of libursa/src/bn/openssl.rs: [BigNumber] over OpenSSL's BIGNUM, the
    backend of the [cl_native] and [sharing_native] features (libursa/src/lib.rs:143-148).

    A BIGNUM is a sign and a magnitude, never a negative zero, so it is modelled by
    an integer; what OpenSSL does to the magnitude alone is written with [Z.abs] and
    [Z.sgn].  The behaviour of the C functions is that of OpenSSL 1.1.1 as published
    (each is named below); an OpenSSL failure becomes an [ErrorStack], mapped to
    InvalidState by openssl.rs:649-654.  Allocation failure is not modelled.
    [BN_mod_inverse] is an arbitrary function constrained by [mod_inverse_ok]. *)
From Verif Require Import Base BnModel.

(** BN_bn2bin (rust-openssl [to_vec]): the big-endian bytes of the magnitude,
    [BN_num_bytes] of them: none for zero. *)
Definition bn2bin (x : Z) : list Z := if x =? 0 then [] else digits_be 256 (Z.abs x).
(** BN_bin2bn (rust-openssl [from_slice]) *)
Definition bin2bn (bs : list Z) : Z := fold_left (fun acc b => acc * 256 + b) bs 0.
(** BN_set_negative: sets the sign of a non-zero number. *)
Definition bn_set_sign (x : Z) (neg : bool) : Z := if neg then - Z.abs x else Z.abs x.
(** BN_div: quotient truncated toward zero, remainder with the sign of the dividend;
    BN_R_DIV_BY_ZERO *)
Definition bn_div_rem (x d : Z) : res (Z * Z) := if d =? 0 then Err InvalidState else Ok (Z.quot x d, Z.rem x d).
(** BN_nnmod: BN_mod, then one correction by |d| if the remainder is negative *)
Definition bn_nnmod (x d : Z) : res Z :=
  let! (_, r) := bn_div_rem x d in
  if r <? 0 then (if d <? 0 then Ok (r - d) else Ok (r + d)) else Ok r.
(** BN_exp: square and multiply over the bits of the exponent's magnitude; the sign
    of the exponent is not looked at. *)
Definition bn_exp_mag (x p : Z) : Z := x ^ Z.abs p.
(** BN_mod_exp: BN_mod_exp_mont for an odd modulus, BN_mod_exp_recp otherwise.  An
    exponent of no bits gives one (zero modulo one) before the modulus is looked at;
    otherwise the base is reduced by BN_nnmod and the result lies in [0,|m|). *)
Definition bn_mod_exp_mag (x p m : Z) : res Z :=
  if p =? 0 then Ok (if Z.abs m =? 1 then 0 else 1)
  else let! b := bn_nnmod x m in
       modpow b (Z.abs p) (Z.abs m).

(** BN_mod_inverse as documented: NULL with BN_R_NO_INVERSE for a modulus of
    magnitude at most one or a number sharing a factor with it, otherwise the inverse
    in [0,|n|), for a number of either sign. *)
Definition mod_inverse_ok (inv : Z -> Z -> res Z) : Prop := forall a n,
  (2 <= Z.abs n -> Z.gcd a n = 1 -> exists x, inv a n = Ok x /\ 0 <= x < Z.abs n /\ (a * x) mod Z.abs n = 1) /\
  (2 <= Z.abs n -> Z.gcd a n <> 1 -> inv a n = Err InvalidState) /\
  (Z.abs n <= 1 -> inv a n = Err InvalidState).

(** ** arithmetic *)
(** openssl.rs:179-189 [add], [sub] (BN_add, BN_sub), 192-210 [sqr], 212-236 [mul] *)
Definition ob_add (a b : Z) : Z := a + b.
Definition ob_sub (a b : Z) : Z := a - b.
Definition ob_sqr (a : Z) : Z := a * a.
Definition ob_mul (a b : Z) : Z := a * b.
(** openssl.rs:413-437 [modulus] (BN_nnmod) *)
Definition ob_modulus (x n : Z) : res Z := bn_nnmod x n.
(** openssl.rs:238-265 [mod_mul] (BN_mod_mul: BN_mul then BN_nnmod) *)
Definition ob_mod_mul (x y n : Z) : res Z := bn_nnmod (x * y) n.
(** openssl.rs:267-294 [mod_sub] (BN_mod_sub: BN_sub then BN_nnmod) *)
Definition ob_mod_sub (x y n : Z) : res Z := bn_nnmod (x - y) n.
(** openssl.rs:296-320 [div] *)
Definition ob_div (x y : Z) : res Z := let! (q, _) := bn_div_rem x y in Ok q.
(** openssl.rs:322-346 [gcd] (BN_gcd, result non-negative) *)
Definition ob_gcd (x y : Z) : Z := Z.gcd x y.
(** openssl.rs:350-368: BN_add_word, BN_sub_word, BN_mul_word, BN_div_word; [w] is a u32.
    BN_div_word divides the magnitude and keeps the sign; it fails for w = 0. *)
Definition ob_add_word (x w : Z) : Z := x + w.
Definition ob_sub_word (x w : Z) : Z := x - w.
Definition ob_mul_word (x w : Z) : Z := x * w.
Definition ob_div_word (x w : Z) : res Z := if w =? 0 then Err InvalidState else Ok (Z.sgn x * (Z.abs x / w)).
(** openssl.rs:439-463 [exp] *)
Definition ob_exp (x a : Z) : res Z := Ok (bn_exp_mag x a).
(** openssl.rs:491-495 [set_negative]: to_vec, from_slice, BN_set_negative *)
Definition ob_set_negative (x : Z) (negative : bool) : Z := bn_set_sign (bin2bn (bn2bin x)) negative.
(** openssl.rs:497-499 *)
Definition ob_is_negative (x : Z) : bool := x <? 0.
(** openssl.rs:501-511 [increment], [decrement]: to_vec, from_slice, then add or sub one *)
Definition ob_increment (x : Z) : Z := ob_add_word (bin2bn (bn2bin x)) 1.
Definition ob_decrement (x : Z) : Z := ob_sub_word (bin2bn (bn2bin x)) 1.
(** openssl.rs:513-529: BN_lshift1, BN_rshift1, BN_rshift shift the magnitude; [n] is a
    u32 cast to i32, and BN_rshift fails for a negative count. *)
Definition as_i32 (n : Z) : Z := (n + 2 ^ 31) mod 2 ^ 32 - 2 ^ 31.
Definition ob_lshift1 (x : Z) : Z := Z.sgn x * Z.shiftl (Z.abs x) 1.
Definition ob_rshift1 (x : Z) : Z := Z.sgn x * Z.shiftr (Z.abs x) 1.
Definition ob_rshift (x n : Z) : res Z :=
  if as_i32 n <? 0 then Err InvalidState else Ok (Z.sgn x * Z.shiftr (Z.abs x) (as_i32 n)).
(** openssl.rs:128-130 [num_bits] (BN_num_bits) *)
Definition ob_num_bits (x : Z) : Z := if x =? 0 then 0 else Z.log2 (Z.abs x) + 1.
(** openssl.rs:132-134 [is_bit_set] (BN_is_bit_set: magnitude; 0 for a negative index) *)
Definition ob_is_bit_set (x n : Z) : bool := if n <? 0 then false else Z.testbit (Z.abs x) n.
(** openssl.rs:136-139 [set_bit] (BN_set_bit: magnitude, keeps the sign; fails for a negative index) *)
Definition ob_set_bit (x n : Z) : res Z :=
  if n <? 0 then Err InvalidState
  else Ok (let m := Z.lor (Z.abs x) (Z.shiftl 1 n) in if x <? 0 then - m else m).
(** openssl.rs:141-144 [from_u32]: a usize cast to u32 *)
Definition ob_from_u32 (n : Z) : Z := n mod 2 ^ 32.
(** openssl.rs:572-576 [try_clone]: magnitude, then the sign *)
Definition ob_try_clone (x : Z) : Z := bn_set_sign (bin2bn (bn2bin x)) (ob_is_negative x).
(** openssl.rs:589-607: [cmp] and [eq] through BN_cmp: sign first, then magnitudes *)
Definition ob_cmp (x y : Z) : comparison :=
  match x <? 0, y <? 0 with
  | true, false => Lt
  | false, true => Gt
  | false, false => Z.compare (Z.abs x) (Z.abs y)
  | true, true => Z.compare (Z.abs y) (Z.abs x)
  end.
Definition ob_eqb (x y : Z) : bool := match ob_cmp x y with Eq => true | _ => false end.

(** ** bytes and text *)
(** openssl.rs:156-159 [from_bytes], 171-173 [to_bytes] *)
Definition ob_from_bytes (bs : list Z) : Z := bin2bn bs.
Definition ob_to_bytes (x : Z) : list Z := bn2bin x.
(** openssl.rs:161-164 [to_dec] (BN_bn2dec) *)
Definition ob_to_dec (x : Z) : list Z :=
  (if x <? 0 then [45] else []) ++ map (digit_char false) (digits_be 10 (Z.abs x)).
(** openssl.rs:166-169 [to_hex] (BN_bn2hex: two upper-case digits per byte of the
    magnitude, "0" for zero) *)
Definition hex_byte (b : Z) : list Z := [digit_char true (b / 16); digit_char true (b mod 16)].
Definition ob_to_hex (x : Z) : list Z :=
  if x =? 0 then [48] else (if x <? 0 then [45] else []) ++ concat (map hex_byte (bn2bin x)).
(** BN_dec2bn, BN_hex2bn: an optional '-', then the longest run of digits, at least
    one; whatever follows is ignored.  Lengths above INT_MAX/4 are not modelled. *)
Fixpoint digit_run (radix : Z) (s : list Z) : list Z :=
  match s with
  | [] => []
  | c :: cs => match char_digit c with
               | Some d => if d <? radix then d :: digit_run radix cs else []
               | None => []
               end
  end.
Definition str2bn (radix : Z) (s : list Z) : res Z :=
  let neg := starts_with 45 s in
  match digit_run radix (if neg then tl s else s) with
  | [] => Err InvalidState
  | ds => let v := fold_left (fun acc d => acc * radix + d) ds 0 in Ok (if neg then - v else v)
  end.
(** openssl.rs:146-154 [from_dec], [from_hex]: rust-openssl builds a C string and
    unwraps, so a NUL character panics. *)
Definition c_string (s : list Z) : res (list Z) := if existsb (fun c => c =? 0) s then Err Panic else Ok s.
Definition ob_from_dec (s : list Z) : res Z := let! s := c_string s in str2bn 10 s.
Definition ob_from_hex (s : list Z) : res Z := let! s := c_string s in str2bn 16 s.
(** openssl.rs:609-647 serde: a string, its [to_dec], read back with [from_dec] *)
Definition ob_serialize (x : Z) : list Z := ob_to_dec x.
Definition ob_deserialize (s : list Z) : res Z := ob_from_dec s.
(** openssl.rs:578-586 [hash_array] *)
Definition ob_hash_array (hash : list Z -> list Z) (nums : list (list Z)) : list Z := hash (concat nums).

(** ** randomness and primes *)
(** openssl.rs:122-126 [rand_range] (BN_rand_range fails unless the range is positive);
    [draw] is the value drawn, in [0, upper) *)
Definition ob_rand_range (upper draw : Z) : res Z := if upper <=? 0 then Err InvalidState else Ok draw.
(** openssl.rs:51-73 [generate_prime_in_range]; [draws] are the values of [rand_range] *)
Fixpoint ob_prime_search (is_prime : Z -> bool) (start sub : Z) (draws : list Z) : res Z :=
  match draws with
  | [] => Err OutOfFuel
  | d :: ds => let! r := ob_rand_range sub d in
               let prime := ob_add r start in
               if is_prime prime then Ok prime else ob_prime_search is_prime start sub ds
  end.
Definition ob_generate_prime_in_range (is_prime : Z -> bool) (start end_ : Z) (draws : list Z) : res Z :=
  ob_prime_search is_prime start (ob_sub end_ start) draws.
(** openssl.rs:45-49 [generate_safe_prime]: asks OpenSSL for [size + 1] bits; the
    result is any safe prime of the requested bit length (BN_generate_prime_ex sets
    the two top bits).  rust.rs:65-67 asks glass_pumpkin for [size] bits. *)
Definition ob_safe_prime_bits (size : Z) : Z := size + 1.
Definition bn_safe_prime_bits (size : Z) : Z := size.
(** openssl.rs:90-110 [is_safe_prime] *)
Definition ob_is_safe_prime (is_prime : Z -> bool) (x : Z) : res bool :=
  let! m := ob_modulus x 3 in
  Ok (ob_eqb m 2 && is_prime x && is_prime (ob_rshift1 x)).
(** openssl.rs:565-568 [random_qr] *)
Definition ob_random_qr (n draw : Z) : res Z := let! r := ob_rand_range n draw in ob_modulus (ob_sqr r) n.

(** ** operations built on BN_mod_inverse *)
Section Inv.
Variable inv : Z -> Z -> res Z.   (* BN_mod_inverse *)
(** openssl.rs:465-489 [inverse] *)
Definition ob_inverse (a n : Z) : res Z := inv a n.
(** openssl.rs:370-411 [mod_exp] *)
Definition ob_mod_exp (x a b : Z) : res Z :=
  if ob_is_negative a then
    let! i := ob_inverse x b in
    bn_mod_exp_mag i (ob_set_negative a false) b
  else bn_mod_exp_mag x a b.
(** openssl.rs:531-563 [mod_div] *)
Definition ob_mod_div (x b p : Z) : res Z := let! i := ob_inverse b p in ob_mod_mul x i p.
End Inv.
