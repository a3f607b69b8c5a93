(** Model of libursa/src/bn/rust.rs: [BigNumber] over num-bigint.
    A BigNumber is a [Z]; num-bigint's own arithmetic is trusted to be integer
    arithmetic, with Rust's truncated [/] and [%] ([Z.quot], [Z.rem]).
    Randomness is an explicit argument. *)
From Verif Require Import Base.

(** rust.rs:205-227 [add], [sub], [sqr], [mul] *)
Definition bn_add (a b : Z) : Z := a + b.
Definition bn_sub (a b : Z) : Z := a - b.
Definition bn_sqr (a : Z) : Z := a * a.
Definition bn_mul (a b : Z) : Z := a * b.

(** rust.rs:342-348 [_get_modulus] *)
Definition get_modulus (n : Z) : Z := if 0 <? n then n else - n.

(** rust.rs:323-340 [modulus]: [%] truncates toward zero in Rust. *)
Definition bn_modulus (x n : Z) : res Z :=
  if n =? 0 then Err InvalidState
  else
    let m := get_modulus n in
    let r := Z.rem x m in
    if r <? 0 then Ok (r + m) else Ok r.

(** rust.rs:229-237 [mod_mul] *)
Definition bn_mod_mul (x y n : Z) : res Z := bn_modulus (bn_mul x y) n.
(** rust.rs:239-246 [mod_sub] *)
Definition bn_mod_sub (x y n : Z) : res Z := bn_modulus (bn_sub x y) n.

(** rust.rs:248-262 [div] *)
Definition bn_div (x y : Z) : res Z := if y =? 0 then Err InvalidState else Ok (Z.quot x y).

(** rust.rs:264-272 [gcd]; num-integer's gcd of BigInts is the non-negative gcd. *)
Definition bn_gcd (x y : Z) : Z := Z.gcd x y.

(** rust.rs:274-299 word operations; [w] is a u32. *)
Definition bn_add_word (x w : Z) : Z := x + w.
Definition bn_sub_word (x w : Z) : Z := x - w.
Definition bn_mul_word (x w : Z) : Z := x * w.
Definition bn_div_word (x w : Z) : res Z := if w =? 0 then Err InvalidState else Ok (Z.quot x w).

(** rust.rs:397-411, the [while] loop of [inverse].  [fuel] bounds the
    iterations; [BnProofs.inverse_loop_total] shows it never runs out. *)
Fixpoint inverse_loop (fuel : nat) (t new_t r new_r : Z) : res (Z * Z) :=
  match fuel with
  | O => Err OutOfFuel
  | S k =>
      if new_r =? 0 then Ok (t, r)
      else
        let quotient := Z.quot r new_r in
        inverse_loop k new_t (t - quotient * new_t) new_r (r - quotient * new_r)
  end.

(** rust.rs:372-426 [inverse] *)
Definition bn_inverse_with (fuel : nat) (a n0 : Z) : res Z :=
  if (n0 =? 1) || (n0 =? 0) then Err InvalidState
  else
    let n := get_modulus n0 in
    let! (t, r) := inverse_loop fuel 0 1 n a in
    if 1 <? r then Err InvalidState
    else if t <? 0 then Ok (t + n) else Ok t.

(** The executable instance uses logarithmic fuel (2*bits + 3): remainders of
    two consecutive rounds halve.  [BnProofs.inverse_loop_total] proves that it
    is enough for every input. *)
Definition inverse_rounds (a : Z) : nat := Z.to_nat (2 * Z.log2 (Z.abs a) + 4).
Definition bn_inverse (a n0 : Z) : res Z := bn_inverse_with (inverse_rounds a) a n0.

(** num-bigint [BigInt::modpow] for a non-negative exponent and positive
    modulus: the residue in [0,m) of base^exp, by square and multiply on the
    bits of the exponent (so that the model can be executed). *)
Fixpoint modpow_pos (b : Z) (e : positive) (m : Z) : Z :=
  match e with
  | xH => b mod m
  | xO e' => let h := modpow_pos b e' m in (h * h) mod m
  | xI e' => let h := modpow_pos b e' m in (b * ((h * h) mod m)) mod m
  end.
Definition modpow (b e m : Z) : res Z :=
  if m =? 0 then Err Panic            (* "attempt to calculate with zero modulus!" *)
  else match e with
       | Z0 => Ok (1 mod m)
       | Zpos p => Ok (modpow_pos b p m)
       | Zneg _ => Err Panic          (* "negative exponentiation is not supported!" *)
       end.

(** rust.rs:428-443 [set_negative] *)
Definition bn_set_negative (x : Z) (negative : bool) : Z :=
  match x <? 0, negative with
  | true, true => x
  | false, false => x
  | true, false => - x
  | false, true => - x
  end.
(** rust.rs:445-447 [is_negative] *)
Definition bn_is_negative (x : Z) : bool := x <? 0.

(** rust.rs:301-321 [mod_exp] *)
Definition bn_mod_exp (x a b : Z) : res Z :=
  if b =? 1 then Ok 0
  else if bn_is_negative a then
    let! r := bn_inverse x b in
    modpow r (bn_set_negative a false) (get_modulus b)
  else modpow x a (get_modulus b).

(** rust.rs:350-370 [exp] *)
Definition bn_exp (x a : Z) : res Z :=
  if x =? 0 then Ok 0                               (* bits() == 0 *)
  else if a =? 1 then Ok x
  else if (0 <=? a) && (a <? 2 ^ 64) then Ok (x ^ a) (* to_u64() = Some *)
  else Err InvalidState.

(** rust.rs:449-468 *)
Definition bn_increment (x : Z) : Z := x + 1.
Definition bn_decrement (x : Z) : Z := x - 1.
Definition bn_lshift1 (x : Z) : Z := Z.shiftl x 1.
Definition bn_rshift1 (x : Z) : Z := Z.shiftr x 1.
Definition bn_rshift (x n : Z) : Z := Z.shiftr x n.

(** rust.rs:147-149 [num_bits]: number of bits of the magnitude. *)
Definition bn_num_bits (x : Z) : Z := if x =? 0 then 0 else Z.log2 (Z.abs x) + 1.
(** rust.rs:151-155 [is_bit_set] (for n >= 0; a negative i32 becomes a huge shift) *)
Definition bn_is_bit_set (x n : Z) : bool := Z.odd (Z.shiftr x n).
(** rust.rs:157-162 [set_bit] *)
Definition bn_set_bit (x n : Z) : Z := Z.lor x (Z.shiftl 1 n).

(** rust.rs:470-478 [mod_div] *)
Definition bn_mod_div (x b p : Z) : res Z :=
  let! i := bn_inverse b p in bn_modulus (bn_mul x i) p.

(** rust.rs:135-145 [rand_range]: the generator returns [draw]; num-bigint's
    [gen_bigint_range] asserts lbound < ubound and returns lbound <= x < ubound,
    so a draw outside the range is not a behaviour ([draw_ok]). *)
Definition draw_ok (upper draw : Z) : Prop := 0 <= draw < upper.

(** rust.rs:480-483 [random_qr] *)
Definition bn_random_qr (n draw : Z) : res Z := bn_modulus (bn_sqr draw) n.

(** rust.rs:182-186 [from_bytes]: big-endian magnitude, sign plus. A byte is a
    [Z] in [0,256). *)
Definition bn_from_bytes (bs : list Z) : Z := fold_left (fun acc b => acc * 256 + b) bs 0.

(** little-endian digits of a non-negative number in base [radix]
    (num-bigint [to_radix_le]); [fuel] is the bit length. *)
Fixpoint digits_le (radix : Z) (fuel : nat) (x : Z) : list Z :=
  match fuel with
  | O => []
  | S k => if x =? 0 then [] else x mod radix :: digits_le radix k (x / radix)
  end.
Definition digit_fuel (x : Z) : nat := Z.to_nat (Z.log2 x + 1).
(** big-endian digits, [0] for zero (num-bigint returns vec![0]) *)
Definition digits_be (radix x : Z) : list Z :=
  if x =? 0 then [0] else rev (digits_le radix (digit_fuel x) x).

(** rust.rs:196-199 [to_bytes]: the sign component is dropped. *)
Definition bn_to_bytes (x : Z) : list Z := digits_be 256 (Z.abs x).

(** Characters are their ASCII codes.  num-bigint [to_str_radix] produces
    lower-case digits; [to_hex] upper-cases them. *)
Definition digit_char (upper : bool) (d : Z) : Z :=
  if d <? 10 then 48 + d else (if upper then 55 else 87) + d.

(** rust.rs:188-194 [to_dec], [to_hex] (num-bigint [to_str_radix]: '-' then digits) *)
Definition bn_to_str (upper : bool) (radix x : Z) : list Z :=
  (if x <? 0 then [45] else []) ++ map (digit_char upper) (digits_be radix (Z.abs x)).
Definition bn_to_dec (x : Z) : list Z := bn_to_str false 10 x.
Definition bn_to_hex (x : Z) : list Z := bn_to_str true 16 x.

(** num-bigint [BigUint::from_str_radix], digit of one character;
    '_' separators are skipped (but may not lead). *)
Definition char_digit (c : Z) : option Z :=
  if (48 <=? c) && (c <=? 57) then Some (c - 48)
  else if (97 <=? c) && (c <=? 122) then Some (c - 97 + 10)
  else if (65 <=? c) && (c <=? 90) then Some (c - 65 + 10)
  else None.

Fixpoint parse_digits (radix acc : Z) (s : list Z) : res Z :=
  match s with
  | [] => Ok acc
  | c :: cs =>
      if c =? 95 then parse_digits radix acc cs
      else match char_digit c with
           | Some d => if d <? radix then parse_digits radix (acc * radix + d) cs else Err InvalidState
           | None => Err InvalidState
           end
  end.

Definition starts_with (c : Z) (s : list Z) : bool :=
  match s with x :: _ => x =? c | [] => false end.

(** '+' is stripped unless followed by another '+'; the rest must not be empty
    and must not start with '_'. *)
Definition strip_plus (s : list Z) : list Z :=
  if starts_with 43 s && negb (starts_with 43 (tl s)) then tl s else s.
Definition parse_unsigned (radix : Z) (s : list Z) : res Z :=
  let s' := strip_plus s in
  match s' with
  | [] => Err InvalidState
  | _ => if starts_with 95 s' then Err InvalidState else parse_digits radix 0 s'
  end.

(** rust.rs:170-180 [from_dec], [from_hex] (num-bigint 0.3 [BigInt::from_str_radix]:
    a leading '-' sets the sign and is stripped unless followed by '+');
    rust.rs:592-599 maps a parse error to InvalidState. *)
Definition bn_from_str (radix : Z) (s : list Z) : res Z :=
  if starts_with 45 s then
    let! x := parse_unsigned radix (if starts_with 43 (tl s) then s else tl s) in Ok (- x)
  else parse_unsigned radix s.
Definition bn_from_dec (s : list Z) : res Z := bn_from_str 10 s.
Definition bn_from_hex (s : list Z) : res Z := bn_from_str 16 s.

(** rust.rs:534-572 serde: a BigNumber is the JSON string of its [to_dec],
    read back with [from_dec]. *)
Definition bn_serialize (x : Z) : list Z := bn_to_dec x.
Definition bn_deserialize (s : list Z) : res Z := bn_from_dec s.

(** rust.rs:491-499 [hash_array]: the hasher is fed the arrays in order, i.e.
    it hashes their concatenation. [hash] is SHA-256 (any function here). *)
Definition bn_hash_array (hash : list Z -> list Z) (nums : list (list Z)) : list Z :=
  hash (concat nums).

(** rust.rs:69-119 [generate_prime_in_range].  [draws] is the sequence of
    values returned by the generator, each in [start,end); [is_prime] is the
    glass_pumpkin primality check.  The loop ends at the first draw accepted. *)
Fixpoint prime_search (is_prime : Z -> bool) (draws : list Z) : res Z :=
  match draws with
  | [] => Err OutOfFuel
  | d :: ds => let c := Z.lor d 1 in if is_prime c then Ok c else prime_search is_prime ds
  end.
Definition bn_generate_prime_in_range (is_prime : Z -> bool) (start end_ : Z) (draws : list Z) : res Z :=
  if start <? 0 then Err InvalidState
  else if end_ <? 0 then Err InvalidState
  else
    let lo := if end_ <? start then end_ else start in
    let hi := if end_ <? start then start else end_ in
    if lo =? hi then Err Panic         (* gen_biguint_range asserts lbound < ubound *)
    else prime_search is_prime draws.
