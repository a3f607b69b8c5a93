(** Property theorems for the number helpers of libursa/src/cl/helpers.rs and
    Predicate of libursa/src/cl/mod.rs (C07 helper part, C08 v'', C09, C21, C22). *)
From Verif Require Import Base BnModel HelpersModel HelpersSpec HelpersProofs.

(** C07: the helper is bitwise or *)
Theorem C07_bitwise_or : forall a b, 0 <= a -> 0 <= b -> bitwise_or_big_int a b = Z.lor a b.
Proof. exact bitwise_or_lor. Qed.
Print Assumptions C07_bitwise_or.
Example C07_bitwise_or_ex : bitwise_or_big_int 5 18 = 23.
Proof. reflexivity. Qed.

(** C08: v'' has its top bit 2^2723 set, is below 2^2724 and keeps all lower random bits *)
Theorem C08_v_prime_prime : forall a, 0 <= a < 2 ^ 2724 ->
  2 ^ 2723 <= generate_v_prime_prime a < 2 ^ 2724 /\
  (forall i, 0 <= i < 2723 -> Z.testbit (generate_v_prime_prime a) i = Z.testbit a i).
Proof. exact v_prime_prime_range. Qed.
Print Assumptions C08_v_prime_prime.
Example C08_v_prime_prime_ex : 0 <= 12345 < 2 ^ 2724.
Proof. split; [discriminate|reflexivity]. Qed.

(** C09 *)
Theorem C09_u32_bytes : forall x, 0 <= x < 2 ^ 32 ->
  length (transform_u32_to_array_of_u8 x) = 4%nat /\
  Forall (fun b => 0 <= b < 256) (transform_u32_to_array_of_u8 x) /\
  bn_from_bytes (transform_u32_to_array_of_u8 x) = x.
Proof. exact transform_u32_spec. Qed.
Print Assumptions C09_u32_bytes.
Theorem C09_u32_injective : forall x y, 0 <= x < 2 ^ 32 -> 0 <= y < 2 ^ 32 ->
  transform_u32_to_array_of_u8 x = transform_u32_to_array_of_u8 y -> x = y.
Proof. exact transform_u32_inj. Qed.
Print Assumptions C09_u32_injective.
Example C09_ex : transform_u32_to_array_of_u8 305419896 = [18; 52; 86; 120].
Proof. reflexivity. Qed.

(** C21 *)
Theorem C21_four_squares : forall delta, 0 <= delta ->
  exists a b c e, four_squares delta = Ok (a, b, c, e) /\ 0 <= a /\ 0 <= b /\ 0 <= c /\ 0 <= e /\
    a ^ 2 + b ^ 2 + c ^ 2 + e ^ 2 = delta.
Proof. exact four_squares_ok. Qed.
Print Assumptions C21_four_squares.
Theorem C21_four_squares_negative : forall delta, delta < 0 -> four_squares delta = Err InvalidStructure.
Proof. exact four_squares_neg. Qed.
Print Assumptions C21_four_squares_negative.
(** the roots of an i32 delta fit 16 bits *)
Theorem C21_four_squares_16_bits : forall delta, delta < 2 ^ 31 -> forall a b c e, four_squares delta = Ok (a, b, c, e) ->
  Forall (fun r => 0 <= r < 2 ^ 16) [a; b; c; e].
Proof. exact four_squares_bits. Qed.
Print Assumptions C21_four_squares_16_bits.
Example C21_ex : four_squares 107 = Ok (9, 5, 1, 0) /\ four_squares 7 = Ok (2, 1, 1, 1) /\ four_squares (-1) = Err InvalidStructure.
Proof. split; [|split]; vm_compute; reflexivity. Qed.

(** C22: [get_delta p_type value attr]; [holds] and [true_delta] are plain integer
    comparison and subtraction (HelpersSpec) *)
Theorem C22_delta_sign : forall t value attr, is_i32 (true_delta t attr value) ->
  (0 <= get_delta t value attr <-> holds t attr value).
Proof. exact get_delta_iff. Qed.
Print Assumptions C22_delta_sign.
(** exact behaviour of a release build for all i32 arguments: delta is
    non-negative exactly if the predicate holds and the exact delta fits i32, or
    it does not hold and the exact delta underflows *)
Theorem C22_delta_exact : forall t value attr, is_i32 value -> is_i32 attr ->
  (0 <= get_delta t value attr <->
   (holds t attr value /\ true_delta t attr value < 2 ^ 31) \/ (~ holds t attr value /\ true_delta t attr value < - 2 ^ 31)).
Proof. exact get_delta_exact. Qed.
Print Assumptions C22_delta_exact.
(** the unconditional claim is false: a false predicate with non-negative delta and
    a true predicate with negative delta *)
Theorem C22_delta_sign_refuted :
  (is_i32 1 /\ is_i32 (- 2 ^ 31) /\ ~ holds GE (- 2 ^ 31) 1 /\ 0 <= get_delta GE 1 (- 2 ^ 31)) /\
  (is_i32 (-1) /\ is_i32 (2 ^ 31 - 1) /\ holds GE (2 ^ 31 - 1) (-1) /\ get_delta GE (-1) (2 ^ 31 - 1) < 0).
Proof.
  unfold is_i32, holds. replace (get_delta GE 1 (- 2 ^ 31)) with (2 ^ 31 - 1) by reflexivity.
  replace (get_delta GE (-1) (2 ^ 31 - 1)) with (- 2 ^ 31) by reflexivity. lia.
Qed.
Print Assumptions C22_delta_sign_refuted.
(** the delta used by the verifier ([get_delta_prime]) matches the prover's delta *)
Theorem C22_delta_prime : forall t value attr, is_i32 (true_delta t attr value) -> is_i32 value -> is_i32 attr ->
  (match t with GE | LE => True | GT => value < 2 ^ 31 - 1 | LT => - 2 ^ 31 < value end) ->
  get_delta t value attr = if is_less t then get_delta_prime t value - attr else attr - get_delta_prime t value.
Proof. exact delta_prime_rel. Qed.
Print Assumptions C22_delta_prime.
Example C22_ex : is_i32 (true_delta LT 17 18) /\ get_delta LT 18 17 = 0 /\ get_delta LT 18 18 = -1.
Proof. split; [unfold is_i32; cbn; lia|split; reflexivity]. Qed.
