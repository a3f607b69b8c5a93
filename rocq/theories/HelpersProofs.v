(** Proofs about the helper functions. *)
From Verif Require Import Base BnModel BnProofs Lagrange HelpersModel HelpersSpec.

(** *** bitwise or *)
Lemma bn_num_bits_testbit a i : 0 <= a -> bn_num_bits a <= i -> Z.testbit a i = false.
Proof.
  unfold bn_num_bits. intros Ha. destruct (Z.eqb_spec a 0) as [->|N]; intros Hi; [apply Z.testbit_0_l|].
  rewrite Z.abs_eq in Hi by assumption. apply Z.bits_above_log2; lia.
Qed.
Lemma bn_num_bits_nonneg a : 0 <= bn_num_bits a.
Proof. unfold bn_num_bits. destruct (a =? 0); [lia|]. pose proof (Z.log2_nonneg (Z.abs a)). lia. Qed.
Lemma is_bit_set_testbit a i : 0 <= i -> bn_is_bit_set a i = Z.testbit a i.
Proof. intros Hi. unfold bn_is_bit_set. now rewrite <- Z.bit0_odd, Z.shiftr_spec, Z.add_0_l by lia. Qed.
Lemma set_bit_testbit a i j : 0 <= i -> 0 <= j -> Z.testbit (bn_set_bit a i) j = Z.testbit a j || (i =? j).
Proof.
  intros Hi Hj. unfold bn_set_bit. rewrite Z.lor_spec. f_equal.
  rewrite Z.shiftl_1_l. destruct (Z.eqb_spec i j) as [->|N].
  - now apply Z.pow2_bits_true.
  - apply Z.pow2_bits_false; lia.
Qed.
Lemma bitwise_or_fold a b n : forall s acc, 
  0 <= acc ->
  let r := fold_left (fun result i =>
      let i := Z.of_nat i in
      if bn_is_bit_set a i || bn_is_bit_set b i then bn_set_bit result i else result) (seq s n) acc in
  0 <= r /\ forall j, 0 <= j -> Z.testbit r j =
     Z.testbit acc j || ((Z.testbit a j || Z.testbit b j) && (Z.of_nat s <=? j) && (j <? Z.of_nat (s + n))).
Proof.
  induction n as [|n IH]; intros s acc Hacc; cbn [seq fold_left].
  - split; [assumption|]. intros j Hj.
    destruct (Z.leb_spec (Z.of_nat s) j), (Z.ltb_spec j (Z.of_nat (s + 0))); try lia;
      now rewrite ?andb_false_r, ?orb_false_r.
  - set (acc' := if bn_is_bit_set a (Z.of_nat s) || bn_is_bit_set b (Z.of_nat s) then bn_set_bit acc (Z.of_nat s) else acc).
    assert (Hacc' : 0 <= acc').
    { unfold acc'. destruct (_ || _); [|assumption]. unfold bn_set_bit. apply Z.lor_nonneg. split; [assumption|].
      apply Z.shiftl_nonneg. lia. }
    destruct (IH (S s) acc' Hacc') as [H1 H2]. split; [exact H1|].
    intros j Hj. etransitivity; [exact (H2 j Hj)|]. unfold acc'. rewrite !is_bit_set_testbit by lia.
    destruct (Z.eq_dec j (Z.of_nat s)) as [->|Nj].
    + destruct (Z.leb_spec (Z.of_nat (S s)) (Z.of_nat s)); [lia|].
      destruct (Z.leb_spec (Z.of_nat s) (Z.of_nat s)); [|lia].
      destruct (Z.ltb_spec (Z.of_nat s) (Z.of_nat (s + S n))); [|lia].
      rewrite ?andb_false_r, ?andb_true_r, ?orb_false_r. cbn [andb]. rewrite ?orb_false_r.
      destruct (Z.testbit a (Z.of_nat s) || Z.testbit b (Z.of_nat s)) eqn:E.
      * rewrite set_bit_testbit, Z.eqb_refl by lia. reflexivity.
      * now rewrite orb_false_r.
    + assert (E : Z.testbit (if Z.testbit a (Z.of_nat s) || Z.testbit b (Z.of_nat s) then bn_set_bit acc (Z.of_nat s) else acc) j
                  = Z.testbit acc j).
      { destruct (Z.testbit a (Z.of_nat s) || Z.testbit b (Z.of_nat s)); [|reflexivity]. rewrite set_bit_testbit by lia.
        destruct (Z.eqb_spec (Z.of_nat s) j); [lia|]. apply orb_false_r. }
      rewrite E. do 2 f_equal.
      * f_equal. destruct (Z.leb_spec (Z.of_nat (S s)) j), (Z.leb_spec (Z.of_nat s) j); lia || reflexivity.
      * destruct (Z.ltb_spec j (Z.of_nat (S s + n))), (Z.ltb_spec j (Z.of_nat (s + S n))); lia || reflexivity.
Qed.
Lemma bitwise_or_lor a b : 0 <= a -> 0 <= b -> bitwise_or_big_int a b = Z.lor a b.
Proof.
  intros Ha Hb. unfold bitwise_or_big_int.
  destruct (bitwise_or_fold a b (Z.to_nat (Z.max (bn_num_bits a) (bn_num_bits b))) 0 0 ltac:(lia)) as [H1 H2].
  apply Z.bits_inj'. intros j Hj. rewrite H2 by assumption. rewrite Z.testbit_0_l, Z.lor_spec. cbn [orb].
  pose proof (bn_num_bits_nonneg a). pose proof (bn_num_bits_nonneg b).
  destruct (Z.leb_spec (Z.of_nat 0) j); [|lia]. rewrite andb_true_r.
  destruct (Z.ltb_spec j (Z.of_nat (0 + Z.to_nat (Z.max (bn_num_bits a) (bn_num_bits b))))).
  - apply andb_true_r.
  - rewrite andb_false_r. rewrite !bn_num_bits_testbit by lia. reflexivity.
Qed.

Lemma lor_top_range e a : 0 <= e -> 0 <= a < 2 ^ (e + 1) ->
  2 ^ e <= Z.lor a (2 ^ e) < 2 ^ (e + 1) /\
  (forall i, 0 <= i < e -> Z.testbit (Z.lor a (2 ^ e)) i = Z.testbit a i).
Proof.
  intros He Ha. assert (Hp : 0 < 2 ^ e) by (apply Z.pow_pos_nonneg; lia).
  assert (N : 0 <= Z.lor a (2 ^ e)) by (apply Z.lor_nonneg; lia).
  split; [split|].
  - destruct (Z.le_gt_cases (2 ^ e) (Z.lor a (2 ^ e))) as [H|H]; [exact H|exfalso].
    assert (T : Z.testbit (Z.lor a (2 ^ e)) e = true) by (rewrite Z.lor_spec, Z.pow2_bits_true by lia; apply orb_true_r).
    destruct (Z.eq_dec (Z.lor a (2 ^ e)) 0) as [E0|N0]; [rewrite E0, Z.testbit_0_l in T; discriminate|].
    rewrite Z.bits_above_log2 in T; [discriminate|assumption|]. apply Z.log2_lt_pow2; lia.
  - destruct (Z.eq_dec (Z.lor a (2 ^ e)) 0) as [->|N0]; [apply Z.pow_pos_nonneg; lia|].
    apply Z.log2_lt_pow2; [lia|]. rewrite Z.log2_lor by lia.
    apply Z.max_lub_lt.
    + destruct (Z.eq_dec a 0) as [->|Na]; [change (Z.log2 0) with 0; lia|]. apply Z.log2_lt_pow2; lia.
    + rewrite Z.log2_pow2; lia.
  - intros i Hi. rewrite Z.lor_spec, Z.pow2_bits_false by lia. apply orb_false_r.
Qed.
Lemma v_prime_prime_range a : 0 <= a < 2 ^ LARGE_VPRIME_PRIME ->
  2 ^ (LARGE_VPRIME_PRIME - 1) <= generate_v_prime_prime a < 2 ^ LARGE_VPRIME_PRIME /\
  (forall i, 0 <= i < LARGE_VPRIME_PRIME - 1 -> Z.testbit (generate_v_prime_prime a) i = Z.testbit a i).
Proof.
  intros Ha. unfold generate_v_prime_prime. rewrite bitwise_or_lor; [|lia|].
  2:{ unfold LARGE_VPRIME_PRIME_VALUE. apply Z.pow_nonneg. lia. }
  unfold LARGE_VPRIME_PRIME_VALUE.
  replace LARGE_VPRIME_PRIME with (LARGE_VPRIME_PRIME - 1 + 1) in Ha at 1 by (unfold LARGE_VPRIME_PRIME; lia).
  pose proof (lor_top_range (LARGE_VPRIME_PRIME - 1) a ltac:(unfold LARGE_VPRIME_PRIME; lia) Ha) as [H1 H2].
  replace (LARGE_VPRIME_PRIME - 1 + 1) with LARGE_VPRIME_PRIME in H1 by (unfold LARGE_VPRIME_PRIME; lia).
  split; assumption.
Qed.

(** *** u32 bytes *)
Lemma transform_u32_spec x : 0 <= x < 2 ^ 32 ->
  length (transform_u32_to_array_of_u8 x) = 4%nat /\
  Forall (fun b => 0 <= b < 256) (transform_u32_to_array_of_u8 x) /\
  bn_from_bytes (transform_u32_to_array_of_u8 x) = x.
Proof.
  intros Hx. split; [reflexivity|]. split.
  - unfold transform_u32_to_array_of_u8. cbn [map]. repeat constructor; apply Z.mod_pos_bound; lia.
  - unfold transform_u32_to_array_of_u8. cbn [map]. rewrite !Z.shiftr_div_pow2 by lia.
    unfold bn_from_bytes. cbn [fold_left].
    change (2 ^ (3 * 8)) with (256 * 256 * 256). change (2 ^ (2 * 8)) with (256 * 256). change (2 ^ (1 * 8)) with 256.
    change (2 ^ (0 * 8)) with 1. rewrite Z.div_1_r.
    change (2 ^ 32) with (256 * 256 * 256 * 256) in Hx.
    rewrite <- !Z.div_div by lia.
    pose proof (Z.div_mod x 256). pose proof (Z.mod_pos_bound x 256).
    pose proof (Z.div_mod (x/256) 256). pose proof (Z.mod_pos_bound (x/256) 256).
    pose proof (Z.div_mod (x/256/256) 256). pose proof (Z.mod_pos_bound (x/256/256) 256).
    pose proof (Z.div_mod (x/256/256/256) 256).
    assert (x/256/256/256/256 = 0).
    { rewrite !Z.div_div by lia. apply Z.div_small. lia. }
    rewrite (Z.mod_small (x/256/256/256) 256) by lia. lia.
Qed.
Lemma transform_u32_inj x y : 0 <= x < 2 ^ 32 -> 0 <= y < 2 ^ 32 ->
  transform_u32_to_array_of_u8 x = transform_u32_to_array_of_u8 y -> x = y.
Proof.
  intros Hx Hy E. destruct (transform_u32_spec x Hx) as (_ & _ & <-). destruct (transform_u32_spec y Hy) as (_ & _ & <-).
  now rewrite E.
Qed.

(** *** four squares *)
Definition sum_roots (r : roots) : Z := let '(a, b, c, e) := r in a ^ 2 + b ^ 2 + c ^ 2 + e ^ 2.
Definition roots_nonneg (r : roots) : Prop := let '(a, b, c, e) := r in 0 <= a /\ 0 <= b /\ 0 <= c /\ 0 <= e.

Lemma sqrt_exact x : 0 <= x -> Z.sqrt (x ^ 2) = x.
Proof. intros H. rewrite Z.pow_2_r. now apply Z.sqrt_square. Qed.
Lemma sqrt_le a d : 0 <= a -> a ^ 2 <= d -> a <= Z.sqrt d.
Proof. intros Ha H. rewrite <- (sqrt_exact a Ha). now apply Z.sqrt_le_mono. Qed.

Lemma fs_k_spec d : forall k a b c0 e0, 0 <= a -> 0 <= b -> 
  let '(r, stop) := fs_k k d (a, b, c0, e0) in
  (stop = true -> sum_roots r = d /\ roots_nonneg r) /\
  (stop = false -> (exists c e, r = (a, b, c, e)) /\ forall c e, 1 <= c <= Z.of_nat k -> 0 <= e -> d <> a ^ 2 + b ^ 2 + c ^ 2 + e ^ 2).
Proof.
  induction k as [|k IH]; intros a b c0 e0 Ha Hb.
  - cbn [fs_k]. split; [discriminate|]. intros _. split; [eauto|]. intros c e Hc. lia.
  - cbn [fs_k]. set (c := Z.of_nat (S k)).
    destruct (Z.eqb_spec d (a ^ 2 + b ^ 2 + c ^ 2)) as [E|N].
    { split; [|discriminate]. intros _. cbn [sum_roots roots_nonneg]. split; [rewrite E; ring|]. unfold c; lia. }
    set (e := largest_square_less_than _).
    destruct (Z.eqb_spec d (a ^ 2 + b ^ 2 + c ^ 2 + e ^ 2)) as [E|N2].
    { split; [|discriminate]. intros _. cbn [sum_roots roots_nonneg]. split; [now rewrite <- E|].
      assert (0 <= e) by apply Z.sqrt_nonneg. assert (0 <= c) by (unfold c; lia). auto. }
    specialize (IH a b c e Ha Hb). destruct (fs_k k d (a, b, c, e)) as [r stop]. destruct IH as [H1 H2]. split; [exact H1|].
    intros Hs. destruct (H2 Hs) as [H3 H4]. split; [exact H3|].
    intros c' e' Hc' He' E. destruct (Z.eq_dec c' c) as [->|Nc].
    + apply N2. assert (Ee : e = e'); [|now rewrite Ee]. unfold e, largest_square_less_than.
      replace (d - a ^ 2 - b ^ 2 - c ^ 2) with (e' ^ 2) by lia. now apply sqrt_exact.
    + apply (H4 c' e'); [unfold c in Nc; lia|assumption|assumption].
Qed.

Lemma fs_j_spec d : forall j a b0 c0 e0, 0 <= a ->
  let '(r, stop) := fs_j j d (a, b0, c0, e0) in
  (stop = true -> sum_roots r = d /\ roots_nonneg r) /\
  (stop = false -> (exists b c e, r = (a, b, c, e)) /\ forall b c e, 1 <= b <= Z.of_nat j -> 0 <= c -> 0 <= e -> d <> a ^ 2 + b ^ 2 + c ^ 2 + e ^ 2).
Proof.
  induction j as [|j IH]; intros a b0 c0 e0 Ha.
  - cbn [fs_j]. split; [discriminate|]. intros _. split; [eauto|]. intros b c e Hb. lia.
  - cbn [fs_j]. set (b := Z.of_nat (S j)).
    destruct (Z.eqb_spec d (a ^ 2 + b ^ 2)) as [E|N].
    { split; [|discriminate]. intros _. cbn [sum_roots roots_nonneg]. split; [rewrite E; ring|]. unfold b; lia. }
    set (c2 := largest_square_less_than _).
    pose proof (fs_k_spec d (Z.to_nat c2) a b c2 e0 Ha ltac:(unfold b; lia)) as HK.
    destruct (fs_k (Z.to_nat c2) d (a, b, c2, e0)) as [r stop]. destruct HK as [K1 K2].
    destruct stop.
    { split; [intros _; now apply K1|discriminate]. }
    destruct (K2 eq_refl) as [(c' & e' & ->) K3].
    specialize (IH a b c' e' Ha). destruct (fs_j j d (a, b, c', e')) as [r stop]. destruct IH as [H1 H2]. split; [exact H1|].
    intros Hs. destruct (H2 Hs) as [H3 H4]. split; [exact H3|].
    intros b1 c1 e1 Hb1 Hc1 He1 E. destruct (Z.eq_dec b1 b) as [->|Nb].
    + pose proof (Z.sqrt_nonneg (d - a ^ 2 - b ^ 2)). 
      assert (B : forall u w, 1 <= u -> 0 <= w -> d = a ^ 2 + b ^ 2 + u ^ 2 + w ^ 2 -> False).
      { intros u w Hu Hw Ed. apply (K3 u w); [|assumption|assumption]. split; [assumption|].
        rewrite Z2Nat.id by assumption. unfold c2, largest_square_less_than. apply sqrt_le; [lia|].
        pose proof (Z.pow_nonneg w 2). lia. }
      destruct (Z.eq_dec c1 0) as [->|]; [|apply (B c1 e1); lia].
      destruct (Z.eq_dec e1 0) as [->|]; [|apply (B e1 0); lia].
      apply N. rewrite E. ring.
    + apply (H4 b1 c1 e1); [unfold b in Nb; lia|assumption|assumption|assumption].
Qed.

Lemma fs_i_spec d : forall i a0 b0 c0 e0,
  let '(r, stop) := fs_i i d (a0, b0, c0, e0) in
  (stop = true -> sum_roots r = d /\ roots_nonneg r) /\
  (stop = false -> forall a b c e, 1 <= a <= Z.of_nat i -> 0 <= b -> 0 <= c -> 0 <= e -> d <> a ^ 2 + b ^ 2 + c ^ 2 + e ^ 2).
Proof.
  induction i as [|i IH]; intros a0 b0 c0 e0.
  - cbn [fs_i]. split; [discriminate|]. intros _ a b c e Ha. lia.
  - cbn [fs_i]. set (a := Z.of_nat (S i)).
    destruct (Z.eqb_spec d (a ^ 2)) as [E|N].
    { split; [|discriminate]. intros _. cbn [sum_roots roots_nonneg]. split; [rewrite E; ring|]. unfold a; lia. }
    set (b2 := largest_square_less_than _).
    pose proof (fs_j_spec d (Z.to_nat b2) a b2 c0 e0 ltac:(unfold a; lia)) as HK.
    destruct (fs_j (Z.to_nat b2) d (a, b2, c0, e0)) as [r stop]. destruct HK as [K1 K2].
    destruct stop.
    { split; [intros _; now apply K1|discriminate]. }
    destruct (K2 eq_refl) as [(b' & c' & e' & ->) K3].
    specialize (IH a b' c' e'). destruct (fs_i i d (a, b', c', e')) as [r stop]. destruct IH as [H1 H2]. split; [exact H1|].
    intros Hs a1 b1 c1 e1 Ha1 Hb1 Hc1 He1 E. destruct (Z.eq_dec a1 a) as [->|Na].
    + pose proof (Z.sqrt_nonneg (d - a ^ 2)).
      assert (B : forall u v w, 1 <= u -> 0 <= v -> 0 <= w -> d = a ^ 2 + u ^ 2 + v ^ 2 + w ^ 2 -> False).
      { intros u v w Hu Hv Hw Ed. apply (K3 u v w); [|assumption|assumption|assumption]. split; [assumption|].
        rewrite Z2Nat.id by assumption. unfold b2, largest_square_less_than. apply sqrt_le; [lia|].
        pose proof (Z.pow_nonneg w 2). pose proof (Z.pow_nonneg v 2). lia. }
      destruct (Z.eq_dec b1 0) as [->|]; [|apply (B b1 c1 e1); lia].
      destruct (Z.eq_dec c1 0) as [->|]; [|apply (B c1 0 e1); lia].
      destruct (Z.eq_dec e1 0) as [->|]; [|apply (B e1 0 0); lia].
      apply N. rewrite E. ring.
    + apply (H2 Hs a1 b1 c1 e1); [unfold a in Na; lia|assumption|assumption|assumption|assumption].
Qed.

Lemma sum4_nonneg d : sum4 d -> exists a b c e, 0 <= a /\ 0 <= b /\ 0 <= c /\ 0 <= e /\ d = a ^ 2 + b ^ 2 + c ^ 2 + e ^ 2.
Proof.
  intros (a & b & c & e & ->). exists (Z.abs a), (Z.abs b), (Z.abs c), (Z.abs e).
  repeat (split; [apply Z.abs_nonneg|]). rewrite !Z.pow_2_r, !Z.abs_square. ring.
Qed.

Lemma four_squares_ok delta : 0 <= delta ->
  exists a b c e, four_squares delta = Ok (a, b, c, e) /\ 0 <= a /\ 0 <= b /\ 0 <= c /\ 0 <= e /\
    a ^ 2 + b ^ 2 + c ^ 2 + e ^ 2 = delta.
Proof.
  intros Hd. unfold four_squares. destruct (Z.ltb_spec delta 0); [lia|].
  set (r0 := largest_square_less_than delta).
  destruct (Z.eq_dec delta 0) as [->|N0].
  { exists 0, 0, 0, 0. split; [reflexivity|]. lia. }
  pose proof (fs_i_spec delta (Z.to_nat r0) r0 0 0 0) as H1.
  destruct (fs_i (Z.to_nat r0) delta (r0, 0, 0, 0)) as [[[[a b] c] e] stop]. destruct H1 as [H1 H2].
  destruct stop.
  - destruct (H1 eq_refl) as [S N]. cbn [fst]. exists a, b, c, e. split; [reflexivity|].
    cbn [sum_roots roots_nonneg] in *. destruct N as (? & ? & ? & ?). auto 6.
  - exfalso. specialize (H2 eq_refl).
    destruct (sum4_nonneg delta (lagrange delta Hd)) as (x & y & z & w & Hx & Hy & Hz & Hw & E).
    assert (B : forall u v s t, 1 <= u -> 0 <= v -> 0 <= s -> 0 <= t -> delta = u ^ 2 + v ^ 2 + s ^ 2 + t ^ 2 -> False).
    { intros u v s t Hu Hv Hs Ht Ed. apply (H2 u v s t); [|assumption|assumption|assumption|assumption].
      split; [assumption|]. rewrite Z2Nat.id by (apply Z.sqrt_nonneg). apply sqrt_le; [lia|].
      pose proof (Z.pow_nonneg v 2). pose proof (Z.pow_nonneg s 2). pose proof (Z.pow_nonneg t 2). lia. }
    destruct (Z.eq_dec x 0) as [->|]; [|apply (B x y z w); lia].
    destruct (Z.eq_dec y 0) as [->|]; [|apply (B y z w 0); lia].
    destruct (Z.eq_dec z 0) as [->|]; [|apply (B z w 0 0); lia].
    destruct (Z.eq_dec w 0) as [->|]; [|apply (B w 0 0 0); lia]. cbn in E. lia.
Qed.

(** *** predicates *)
Lemma wrap_id x : is_i32 x -> wrap_i32 x = x.
Proof. unfold is_i32, wrap_i32. intros H. rewrite Z.mod_small; lia. Qed.
Lemma wrap_range x : is_i32 (wrap_i32 x).
Proof. unfold is_i32, wrap_i32. pose proof (Z.mod_pos_bound (x + 2 ^ 31) (2 ^ 32)). lia. Qed.
Lemma wrap_wrap x y : wrap_i32 (wrap_i32 x + y) = wrap_i32 (x + y).
Proof.
  unfold wrap_i32. f_equal.
  replace ((x + 2 ^ 31) mod 2 ^ 32 - 2 ^ 31 + y + 2 ^ 31) with ((x + 2 ^ 31) mod 2 ^ 32 + y) by ring.
  rewrite Zplus_mod_idemp_l. f_equal. ring.
Qed.
Lemma get_delta_wrap t value attr : get_delta t value attr = wrap_i32 (true_delta t attr value).
Proof.
  destruct t; cbn [get_delta true_delta]; try reflexivity;
  unfold Z.sub at 1; rewrite wrap_wrap; f_equal.
Qed.
Lemma get_delta_iff t value attr : is_i32 (true_delta t attr value) ->
  (0 <= get_delta t value attr <-> holds t attr value).
Proof. intros H. rewrite get_delta_wrap, wrap_id by assumption. destruct t; cbn [true_delta holds]; lia. Qed.
Lemma delta_prime_rel t value attr : is_i32 (true_delta t attr value) -> is_i32 value -> is_i32 attr ->
  (match t with GE | LE => True | GT => value < 2 ^ 31 - 1 | LT => - 2 ^ 31 < value end) ->
  get_delta t value attr = if is_less t then get_delta_prime t value - attr else attr - get_delta_prime t value.
Proof.
  unfold is_i32. intros H Hv Ha Hx. rewrite get_delta_wrap, wrap_id by assumption.
  destruct t; cbn [true_delta is_less get_delta_prime]; rewrite ?wrap_id by (unfold is_i32; lia); lia.
Qed.
(** exact condition: the wrapped delta is non-negative iff the predicate holds,
    except when the exact delta leaves the i32 range, when it is the opposite *)
Lemma get_delta_exact t value attr : is_i32 value -> is_i32 attr ->
  (0 <= get_delta t value attr <->
   (holds t attr value /\ true_delta t attr value < 2 ^ 31) \/ (~ holds t attr value /\ true_delta t attr value < - 2 ^ 31)).
Proof.
  unfold is_i32. intros Hv Ha. rewrite get_delta_wrap.
  assert (R : - 2 ^ 32 <= true_delta t attr value < 2 ^ 32) by (destruct t; cbn [true_delta]; lia).
  assert (Hh : holds t attr value <-> 0 <= true_delta t attr value) by (destruct t; cbn [holds true_delta]; lia).
  rewrite Hh. set (d := true_delta t attr value) in *. unfold wrap_i32. clearbody d. clear Hh Hv Ha.
  pose proof (Z.div_mod (d + 2 ^ 31) (2 ^ 32)). pose proof (Z.mod_pos_bound (d + 2 ^ 31) (2 ^ 32)).
  set (q := (d + 2 ^ 31) / 2 ^ 32) in *. set (m := (d + 2 ^ 31) mod 2 ^ 32) in *.
  change (2 ^ 32) with 4294967296 in *. change (2 ^ 31) with 2147483648 in *.
  assert (q = -1 \/ q = 0 \/ q = 1) by lia. lia.
Qed.

Lemma four_squares_neg delta : delta < 0 -> four_squares delta = Err InvalidStructure.
Proof. intros H. unfold four_squares. destruct (Z.ltb_spec delta 0); [reflexivity|lia]. Qed.
Lemma four_squares_bits delta : delta < 2 ^ 31 -> forall a b c e, four_squares delta = Ok (a, b, c, e) ->
  Forall (fun r => 0 <= r < 2 ^ 16) [a; b; c; e].
Proof.
  intros Hd a b c e H. destruct (Z.ltb_spec delta 0) as [N|N].
  - now rewrite four_squares_neg in H by assumption.
  - destruct (four_squares_ok delta N) as (a' & b' & c' & e' & H' & Ha & Hb & Hc & He & E).
    rewrite H in H'. injection H' as -> -> -> ->.
    assert (B : forall x y, 0 <= x -> 0 <= y -> x ^ 2 + y = delta -> 0 <= x < 2 ^ 16).
    { intros x y Hx Hy Exy. split; [assumption|].
      destruct (Z.lt_ge_cases x (2 ^ 16)) as [L|L]; [assumption|].
      assert ((2 ^ 16) ^ 2 <= x ^ 2) by (apply Z.pow_le_mono_l; lia). lia. }
    pose proof (Z.pow_nonneg a' 2). pose proof (Z.pow_nonneg b' 2). pose proof (Z.pow_nonneg c' 2). pose proof (Z.pow_nonneg e' 2).
    repeat constructor;
      [eapply (B a' (b' ^ 2 + c' ^ 2 + e' ^ 2)) | eapply (B a' (b' ^ 2 + c' ^ 2 + e' ^ 2))
      |eapply (B b' (a' ^ 2 + c' ^ 2 + e' ^ 2)) | eapply (B b' (a' ^ 2 + c' ^ 2 + e' ^ 2))
      |eapply (B c' (a' ^ 2 + b' ^ 2 + e' ^ 2)) | eapply (B c' (a' ^ 2 + b' ^ 2 + e' ^ 2))
      |eapply (B e' (a' ^ 2 + b' ^ 2 + c' ^ 2)) | eapply (B e' (a' ^ 2 + b' ^ 2 + c' ^ 2))]; lia.
Qed.
