(** Model of the number helpers of libursa/src/cl/helpers.rs and of
    [Predicate] (libursa/src/cl/mod.rs:933-978). *)
From Verif Require Import Base BnModel.

(** constants.rs:3-17,26-38 *)
Definition LARGE_E_START : Z := 596.
Definition LARGE_E_END_RANGE : Z := 119.
Definition LARGE_VPRIME_PRIME : Z := 2724.
Definition LARGE_E_START_VALUE : Z := 2 ^ LARGE_E_START.
Definition LARGE_E_END_RANGE_VALUE : Z := 2 ^ LARGE_E_END_RANGE + LARGE_E_START_VALUE.
Definition LARGE_VPRIME_PRIME_VALUE : Z := 2 ^ (LARGE_VPRIME_PRIME - 1).
Definition ITERATION : nat := 4.

(** helpers.rs:262-276 [bitwise_or_big_int]: [i] runs over [0..significant_bits) *)
Definition bitwise_or_big_int (a b : Z) : Z :=
  let significant_bits := Z.max (bn_num_bits a) (bn_num_bits b) in
  fold_left (fun result i =>
      let i := Z.of_nat i in
      if bn_is_bit_set a i || bn_is_bit_set b i then bn_set_bit result i else result)
    (seq 0 (Z.to_nat significant_bits)) 0.

(** helpers.rs:137-150 [_generate_v_prime_prime]; [a] is the value returned by
    [bn_rand(LARGE_VPRIME_PRIME)] *)
Definition generate_v_prime_prime (a : Z) : Z := bitwise_or_big_int a LARGE_VPRIME_PRIME_VALUE.

(** helpers.rs:231-241 [_gen_x]; [draw] is the value of [rand_range] on p*q-3 *)
Definition gen_x (p q draw : Z) : Z := bn_add_word draw 2.

(** helpers.rs:279-293 [transform_u32_to_array_of_u8]: shifts 24,16,8,0, each
    truncated to a byte *)
Definition transform_u32_to_array_of_u8 (x : Z) : list Z :=
  map (fun i => Z.shiftr x (i * 8) mod 256) [3; 2; 1; 0].

(** helpers.rs:102-122 [encode_attribute] *)
Definition encode_attribute (hash : list Z -> list Z) (attribute : list Z) (little : bool) : Z :=
  let result := hash attribute in
  bn_from_bytes (if little then rev result else result).

(** helpers.rs:472-474: [(delta as f64).sqrt().floor()].  Simplification: for
    delta < 2^52 the correctly rounded f64 square root has the same floor as the
    real one (delta is at most i32::MAX here). *)
Definition largest_square_less_than (delta : Z) : Z := Z.sqrt delta.

(** helpers.rs:478-537 [four_squares]; one Coq function per loop, each returning
    the final [roots] array and whether [break 'outer] was executed. *)
Definition roots := (Z * Z * Z * Z)%type.
(** lines 511-523 *)
Fixpoint fs_k (k : nat) (d : Z) (r : roots) : roots * bool :=
  match k with
  | O => (r, false)
  | S k' =>
      let '(r0, r1, _, r3) := r in
      let r2 := Z.of_nat k in
      if d =? r0 ^ 2 + r1 ^ 2 + r2 ^ 2 then ((r0, r1, r2, 0), true)
      else
        let r3 := largest_square_less_than (d - r0 ^ 2 - r1 ^ 2 - r2 ^ 2) in
        if d =? r0 ^ 2 + r1 ^ 2 + r2 ^ 2 + r3 ^ 2 then ((r0, r1, r2, r3), true)
        else fs_k k' d (r0, r1, r2, r3)
  end.
(** lines 503-524 *)
Fixpoint fs_j (j : nat) (d : Z) (r : roots) : roots * bool :=
  match j with
  | O => (r, false)
  | S j' =>
      let '(r0, _, r2, r3) := r in
      let r1 := Z.of_nat j in
      if d =? r0 ^ 2 + r1 ^ 2 then ((r0, r1, 0, 0), true)
      else
        let r2 := largest_square_less_than (d - r0 ^ 2 - r1 ^ 2) in
        let '(r', stop) := fs_k (Z.to_nat r2) d (r0, r1, r2, r3) in
        if stop then (r', true) else fs_j j' d r'
  end.
(** lines 494-525 *)
Fixpoint fs_i (i : nat) (d : Z) (r : roots) : roots * bool :=
  match i with
  | O => (r, false)
  | S i' =>
      let '(_, r1, r2, r3) := r in
      let r0 := Z.of_nat i in
      if d =? r0 ^ 2 then ((r0, 0, 0, 0), true)
      else
        let r1 := largest_square_less_than (d - r0 ^ 2) in
        let '(r', stop) := fs_j (Z.to_nat r1) d (r0, r1, r2, r3) in
        if stop then (r', true) else fs_i i' d r'
  end.
(** the result map "0".."3" as a 4-tuple *)
Definition four_squares (delta : Z) : res roots :=
  if delta <? 0 then Err InvalidStructure
  else
    let r0 := largest_square_less_than delta in
    Ok (fst (fs_i (Z.to_nat r0) delta (r0, 0, 0, 0))).

(** ** Predicates (mod.rs:933-978) *)
Inductive predicate_type := GE | LE | GT | LT.

(** i32 arithmetic of a release build: wraps modulo 2^32 (a debug build panics) *)
Definition wrap_i32 (x : Z) : Z := (x + 2 ^ 31) mod 2 ^ 32 - 2 ^ 31.

(** mod.rs:942-949 *)
Definition get_delta (p_type : predicate_type) (value attr_value : Z) : Z :=
  match p_type with
  | GE => wrap_i32 (attr_value - value)
  | GT => wrap_i32 (wrap_i32 (attr_value - value) - 1)
  | LE => wrap_i32 (value - attr_value)
  | LT => wrap_i32 (wrap_i32 (value - attr_value) - 1)
  end.
(** mod.rs:951-958 *)
Definition get_delta_prime (p_type : predicate_type) (value : Z) : Z :=
  match p_type with
  | GE => value
  | GT => wrap_i32 (value + 1)
  | LE => value
  | LT => wrap_i32 (value - 1)
  end.
(** mod.rs:960-965 *)
Definition is_less (p_type : predicate_type) : bool :=
  match p_type with GE | GT => false | LE | LT => true end.
