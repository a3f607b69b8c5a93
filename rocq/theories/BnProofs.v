(** Lemmas about the BigNumber model. *)
From Verif Require Import Base BnModel.
From Coq Require Import ZArith.Znumtheory.

Lemma get_modulus_abs n : get_modulus n = Z.abs n.
Proof. unfold get_modulus. destruct (Z.ltb_spec 0 n); lia. Qed.

Lemma bn_modulus_spec x n :
  bn_modulus x n = if n =? 0 then Err InvalidState else Ok (x mod (Z.abs n)).
Proof.
  unfold bn_modulus. destruct (Z.eqb_spec n 0) as [->|Hn]; [reflexivity|].
  rewrite get_modulus_abs. cbv zeta.
  assert (Hp : 0 < Z.abs n) by lia.
  pose proof (Z.quot_rem' x (Z.abs n)) as E.
  destruct (Z.ltb_spec (Z.rem x (Z.abs n)) 0) as [Hr|Hr]; f_equal.
  - apply (Z.mod_unique_pos _ _ (Z.quot x (Z.abs n) - 1)).
    + pose proof (Z.rem_bound_abs x (Z.abs n)). lia.
    + lia.
  - apply (Z.mod_unique_pos _ _ (Z.quot x (Z.abs n))).
    + pose proof (Z.rem_bound_abs x (Z.abs n)). lia.
    + lia.
Qed.

Lemma bn_modulus_pos x n : 0 < n -> bn_modulus x n = Ok (x mod n).
Proof.
  intros H. rewrite bn_modulus_spec. destruct (Z.eqb_spec n 0); [lia|].
  now rewrite Z.abs_eq by lia.
Qed.

Lemma bn_mod_mul_pos x y n : 0 < n -> bn_mod_mul x y n = Ok ((x * y) mod n).
Proof. apply bn_modulus_pos. Qed.
Lemma bn_mod_sub_pos x y n : 0 < n -> bn_mod_sub x y n = Ok ((x - y) mod n).
Proof. apply bn_modulus_pos. Qed.

(** ** The inverse loop *)

Lemma rem_abs_lt r d : d <> 0 -> Z.abs (r - Z.quot r d * d) < Z.abs d.
Proof.
  intros Hd. pose proof (Z.quot_rem' r d). pose proof (Z.rem_bound_abs r d Hd).
  replace (r - Z.quot r d * d) with (Z.rem r d) by lia. lia.
Qed.

Lemma rem_half r d s : d <> 0 -> s = r - Z.quot r d * d -> s <> 0 ->
  2 * Z.abs (d - Z.quot d s * s) < Z.abs d.
Proof.
  intros Hd Es Hs.
  assert (H1 : Z.abs s < Z.abs d) by (subst s; now apply rem_abs_lt).
  pose proof (rem_abs_lt d s Hs) as H2.
  destruct (Z_le_gt_dec (2 * Z.abs s) (Z.abs d)) as [Hle|Hgt]; [lia|].
  (* |s| > |d|/2 : the quotient is +-1 *)
  pose proof (Z.quot_rem' d s) as E. pose proof (Z.rem_sign_nz d s Hs) as Sg.
  replace (d - Z.quot d s * s) with (Z.rem d s) in * by lia.
  assert (Hq : Z.quot d s <> 0).
  { intros Hq. rewrite Hq in E. lia. }
  destruct (Z.eq_dec (Z.rem d s) 0) as [Hz|Hz]; [lia|].
  specialize (Sg Hz).
  assert (Hsame : (0 < d /\ 0 < Z.rem d s) \/ (d < 0 /\ Z.rem d s < 0)).
  { pose proof (Z.sgn_spec d). pose proof (Z.sgn_spec (Z.rem d s)). lia. }
  assert (Z.abs (s * Z.quot d s) >= Z.abs s).
  { rewrite Z.abs_mul. nia. }
  destruct Hsame; nia.
Qed.

Lemma inverse_loop_total_gen k : forall t nt r nr,
  Z.abs nr < 2 ^ Z.of_nat k -> forall fuel, (2 * k + 1 <= fuel)%nat ->
  exists tr, inverse_loop fuel t nt r nr = Ok tr.
Proof.
  induction k as [|k IH]; intros t nt r nr Hb fuel Hf.
  - destruct fuel as [|fuel]; [lia|]. cbn in Hb. cbn.
    destruct (Z.eqb_spec nr 0); [eauto|lia].
  - destruct fuel as [|[|fuel]]; [lia|lia|].
    cbn [inverse_loop]. destruct (Z.eqb_spec nr 0) as [->|Hn]; [eauto|]. cbv zeta.
    set (s := r - Z.quot r nr * nr).
    destruct (Z.eqb_spec s 0) as [Hs|Hs]; [eauto|].
    apply IH; [|lia].
    pose proof (rem_half r nr s Hn eq_refl Hs).
    rewrite Nat2Z.inj_succ, Z.pow_succ_r in Hb by lia. lia.
Qed.

Lemma inverse_loop_total a t nt r : exists tr, inverse_loop (inverse_rounds a) t nt r a = Ok tr.
Proof.
  destruct (Z.eq_dec a 0) as [->|Ha].
  - exists (t, r). reflexivity.
  - apply (inverse_loop_total_gen (Z.to_nat (Z.log2 (Z.abs a) + 1))).
    + pose proof (Z.log2_nonneg (Z.abs a)).
      rewrite Z2Nat.id by lia. apply Z.log2_spec; lia.
    + pose proof (Z.log2_nonneg (Z.abs a)). unfold inverse_rounds. lia.
Qed.

(** more fuel does not change the result *)
Lemma inverse_loop_more f : forall t nt r nr x, inverse_loop f t nt r nr = Ok x ->
  forall g, (f <= g)%nat -> inverse_loop g t nt r nr = Ok x.
Proof.
  induction f as [|f IH]; cbn; intros t nt r nr x H g Hg; [discriminate|].
  destruct g as [|g]; [lia|]. cbn.
  destruct (nr =? 0); [exact H|]. apply IH with (1 := H). lia.
Qed.

Section Inverse.
  Variables (a n : Z).
  Hypothesis Hn : 2 <= n.

  Definition loop_inv (t nt r nr : Z) : Prop :=
    0 <= r /\ 0 <= nr /\
    (n | t * a - r) /\ (n | nt * a - nr) /\
    Z.gcd r nr = Z.gcd a n /\
    (2 <= r \/ nr = 0) /\
    ((0 <= nt /\ t <= 0 /\ r * nt - nr * t = n) \/ (nt <= 0 /\ 0 <= t /\ nr * t - r * nt = n)).

  Lemma gcd_step r nr q : Z.gcd nr (r - q * nr) = Z.gcd r nr.
  Proof.
    rewrite (Z.gcd_comm r nr). replace (r - q * nr) with (r + (- q) * nr) by ring.
    rewrite Z.gcd_add_mult_diag_r. reflexivity.
  Qed.

  Lemma loop_inv_step t nt r nr : loop_inv t nt r nr -> nr <> 0 ->
    let q := Z.quot r nr in
    loop_inv nt (t - q * nt) nr (r - q * nr) /\ Z.abs nt < n.
  Proof.
    intros (H1 & H2 & H3 & H4 & H5 & H6 & H7) Hz q.
    assert (Hq : q = r / nr) by (unfold q; apply Z.quot_div_nonneg; lia).
    assert (Hq0 : 0 <= q) by (rewrite Hq; apply Z.div_pos; lia).
    assert (Hr : r - q * nr = r mod nr).
    { rewrite Hq. rewrite Z.mod_eq by lia. ring. }
    assert (Hrb : 0 <= r mod nr < nr) by (apply Z.mod_pos_bound; lia).
    split.
    - unfold loop_inv. rewrite gcd_step, Hr.
      split; [lia|]. split; [lia|]. split; [assumption|]. split.
      { rewrite <- Hr. replace ((t - q * nt) * a - (r - q * nr))
          with ((t * a - r) - q * (nt * a - nr)) by ring.
        apply Z.divide_sub_r; [assumption|]. now apply Z.divide_mul_r. }
      split; [assumption|]. split; [lia|].
      destruct H7 as [(A & B & C)|(A & B & C)].
      { right. rewrite <- Hr. repeat split; nia. }
      { left. rewrite <- Hr. repeat split; nia. }
    - destruct H7 as [(A & B & C)|(A & B & C)]; nia.
  Qed.

  Lemma loop_result f : forall t nt r nr t' r',
    loop_inv t nt r nr -> inverse_loop f t nt r nr = Ok (t', r') ->
    loop_inv t' 0 r' 0 \/ exists nt', loop_inv t' nt' r' 0 /\ (nr <> 0 -> Z.abs t' < n).
  Proof.
    induction f as [|f IH]; cbn; intros t nt r nr t' r' HI H; [discriminate|].
    destruct (Z.eqb_spec nr 0) as [->|Hz].
    - inversion H; subst. right. exists nt. split; [assumption|congruence].
    - destruct (loop_inv_step _ _ _ _ HI Hz) as [HI' Hb].
      destruct (Z.eq_dec (r - Z.quot r nr * nr) 0) as [E|E].
      + destruct f as [|f]; cbn in H; [discriminate|].
        rewrite E, Z.eqb_refl in H. inversion H; subst.
        right. eexists. split; [rewrite <- E; exact HI'|]. intros _; exact Hb.
      + destruct (IH _ _ _ _ _ _ HI' H) as [G|(nt' & G & G2)]; [auto|].
        right. exists nt'. split; [assumption|]. intros _. now apply G2.
  Qed.
End Inverse.

Lemma inverse_loop_spec a n t r : 0 <= a -> 2 <= n ->
  inverse_loop (inverse_rounds a) 0 1 n a = Ok (t, r) ->
  r = Z.gcd a n /\ (n | t * a - r) /\ (r = 1 -> Z.abs t < n).
Proof.
  intros Ha Hn H.
  assert (HI : loop_inv a n 0 1 n a).
  { unfold loop_inv. repeat split; try lia.
    - exists (-1). ring.
    - exists 0. ring.
    - apply Z.gcd_comm. }
  destruct (loop_result a n Hn _ _ _ _ _ _ _ HI H) as [G|(nt' & G & G2)].
  - exfalso. destruct G as (_ & _ & _ & _ & _ & _ & [(A & B & C)|(A & B & C)]); lia.
  - destruct G as (A & _ & B & _ & C & _).
    rewrite Z.gcd_0_r, Z.abs_eq in C by lia.
    repeat split; try assumption.
    intros E. apply G2. intros ->.
    rewrite Z.gcd_0_l in C. rewrite Z.abs_eq in C by lia. lia.
Qed.

Lemma bn_inverse_cases a n0 : 0 <= a -> 2 <= Z.abs n0 ->
  (Z.gcd a n0 = 1 /\ exists x, bn_inverse a n0 = Ok x /\ 0 <= x < Z.abs n0 /\ (a * x) mod Z.abs n0 = 1)
  \/ (Z.gcd a n0 <> 1 /\ bn_inverse a n0 = Err InvalidState).
Proof.
  intros Ha Hn. unfold bn_inverse, bn_inverse_with.
  destruct (Z.eqb_spec n0 1); [lia|]. destruct (Z.eqb_spec n0 0); [lia|]. cbn [orb].
  rewrite get_modulus_abs. cbv zeta.
  destruct (inverse_loop_total a 0 1 (Z.abs n0)) as ((t & r) & E). rewrite E. cbn [rbind].
  destruct (inverse_loop_spec _ _ _ _ Ha Hn E) as (Hr & Hd & Hb).
  rewrite Z.gcd_abs_r in Hr.
  pose proof (Z.gcd_nonneg a n0) as Hg.
  assert (Hg0 : Z.gcd a n0 <> 0).
  { intros G. apply Z.gcd_eq_0 in G. lia. }
  destruct (Z.ltb_spec 1 r) as [Hlt|Hle].
  - right. split; [lia|reflexivity].
  - left. assert (Hr1 : r = 1) by lia. specialize (Hb Hr1). split; [lia|].
    rewrite Hr1 in Hd. destruct Hd as [k Hk].
    assert (Ht0 : t <> 0).
    { intros ->. assert (Hkk : k * Z.abs n0 = -1) by lia. destruct (Z.eq_dec k 0); nia. }
    destruct (Z.ltb_spec t 0).
    + exists (t + Z.abs n0). split; [reflexivity|]. split; [lia|].
      symmetry. apply (Z.mod_unique_pos _ _ (k + a)); [lia|]. nia.
    + exists t. split; [reflexivity|]. split; [lia|].
      symmetry. apply (Z.mod_unique_pos _ _ k); [lia|]. nia.
Qed.

Lemma bn_inverse_ok a n : 0 <= a -> 2 <= n -> Z.gcd a n = 1 ->
  exists x, bn_inverse a n = Ok x /\ 0 <= x < n /\ (a * x) mod n = 1.
Proof.
  intros Ha Hn Hg. destruct (bn_inverse_cases a n) as [(_ & H)|(H & _)]; try lia.
  now rewrite Z.abs_eq in H by lia.
Qed.

Lemma bn_inverse_err a n : 0 <= a -> 2 <= n -> Z.gcd a n <> 1 -> bn_inverse a n = Err InvalidState.
Proof.
  intros Ha Hn Hg. destruct (bn_inverse_cases a n) as [(H & _)|(_ & H)]; try lia. exact H.
Qed.

(** behaviour on the two families of negative operands *)
Lemma bn_inverse_minus_one n : 2 <= n -> bn_inverse (-1) n = Ok 1.
Proof.
  intros Hn. unfold bn_inverse, bn_inverse_with.
  destruct (Z.eqb_spec n 1); [lia|]. destruct (Z.eqb_spec n 0); [lia|]. cbn [orb].
  rewrite get_modulus_abs, Z.abs_eq by lia. cbv zeta.
  change (inverse_rounds (-1)) with 4%nat. cbn [inverse_loop].
  change (-1 =? 0) with false. cbv iota zeta.
  assert (E : n - Z.quot n (-1) * -1 = 0).
  { change (-1) with (Z.opp 1). rewrite Z.quot_opp_r by lia. rewrite Z.quot_1_r. ring. }
  rewrite E. cbn. reflexivity.
Qed.

Lemma bn_inverse_minus_two k : 1 <= k -> bn_inverse (-2) (2 * k) = Ok 1.
Proof.
  intros Hn. unfold bn_inverse, bn_inverse_with.
  destruct (Z.eqb_spec (2*k) 1); [lia|]. destruct (Z.eqb_spec (2*k) 0); [lia|]. cbn [orb].
  rewrite get_modulus_abs, Z.abs_eq by lia. cbv zeta.
  change (inverse_rounds (-2)) with 6%nat. cbn [inverse_loop].
  change (-2 =? 0) with false. cbv iota zeta.
  assert (E : 2 * k - Z.quot (2 * k) (-2) * -2 = 0).
  { change (-2) with (Z.opp 2). rewrite Z.quot_opp_r by lia.
    rewrite (Z.mul_comm 2 k), Z.quot_mul by lia. ring. }
  rewrite E. cbn. reflexivity.
Qed.

(** ** modpow *)
Lemma modpow_pos_spec b e m : 0 < m -> modpow_pos b e m = b ^ Zpos e mod m.
Proof.
  intros Hm. induction e as [e IH|e IH|]; cbn [modpow_pos]; rewrite ?IH.
  - replace (Zpos e~1) with (1 + (Zpos e + Zpos e)) by lia.
    rewrite !Z.pow_add_r, Z.pow_1_r by lia.
    rewrite <- Z.mul_mod by lia. rewrite Z.mul_mod_idemp_r by lia. reflexivity.
  - replace (Zpos e~0) with (Zpos e + Zpos e) by lia.
    rewrite Z.pow_add_r by lia. now rewrite <- Z.mul_mod by lia.
  - now rewrite Z.pow_1_r.
Qed.

Lemma modpow_spec b e m : 0 < m -> 0 <= e -> modpow b e m = Ok (b ^ e mod m).
Proof.
  intros Hm He. unfold modpow. destruct (Z.eqb_spec m 0); [lia|].
  destruct e as [|p|p]; [reflexivity| |lia]. now rewrite modpow_pos_spec.
Qed.

Lemma bn_mod_exp_nonneg x a b : 2 <= Z.abs b -> 0 <= a -> bn_mod_exp x a b = Ok (x ^ a mod Z.abs b).
Proof.
  intros Hb Ha. unfold bn_mod_exp. destruct (Z.eqb_spec b 1); [lia|].
  unfold bn_is_negative. destruct (Z.ltb_spec a 0); [lia|].
  rewrite get_modulus_abs. apply modpow_spec; lia.
Qed.

Lemma bn_mod_exp_neg x a b : 2 <= Z.abs b -> a < 0 ->
  bn_mod_exp x a b = rbind (bn_inverse x b) (fun r => Ok (r ^ (- a) mod Z.abs b)).
Proof.
  intros Hb Ha. unfold bn_mod_exp. destruct (Z.eqb_spec b 1); [lia|].
  unfold bn_is_negative, bn_set_negative. destruct (Z.ltb_spec a 0); [|lia].
  rewrite get_modulus_abs. destruct (bn_inverse x b); cbn [rbind]; [|reflexivity].
  apply modpow_spec; lia.
Qed.

(** ** exp *)
Lemma bn_exp_spec x a :
  bn_exp x a =
    if x =? 0 then Ok 0
    else if (0 <=? a) && (a <? 2 ^ 64) then Ok (x ^ a) else Err InvalidState.
Proof.
  unfold bn_exp. destruct (x =? 0); [reflexivity|].
  destruct (Z.eqb_spec a 1) as [->|]; [|reflexivity].
  replace ((0 <=? 1) && (1 <? 2 ^ 64)) with true by reflexivity. now rewrite Z.pow_1_r.
Qed.

(** ** digits *)
Definition val_le (radix : Z) (ds : list Z) : Z := fold_right (fun d acc => d + radix * acc) 0 ds.

Lemma digits_le_val radix f : 2 <= radix -> forall x, 0 <= x < 2 ^ Z.of_nat f ->
  val_le radix (digits_le radix f x) = x.
Proof.
  intros Hr. induction f as [|f IH]; intros x Hx.
  - cbn in *. lia.
  - cbn [digits_le]. destruct (Z.eqb_spec x 0) as [->|Hz]; [reflexivity|].
    cbn [val_le fold_right]. fold (val_le radix (digits_le radix f (x / radix))).
    rewrite IH.
    + rewrite (Z.div_mod x radix) at 3 by lia. lia.
    + rewrite Nat2Z.inj_succ, Z.pow_succ_r in Hx by lia.
      split; [apply Z.div_pos; lia|]. apply Z.div_lt_upper_bound; [lia|]. nia.
Qed.

Lemma digits_le_range radix f : 2 <= radix -> forall x,
  Forall (fun d => 0 <= d < radix) (digits_le radix f x).
Proof.
  intros Hr. induction f as [|f IH]; intros x; cbn [digits_le]; [constructor|].
  destruct (x =? 0); constructor; [apply Z.mod_pos_bound; lia|apply IH].
Qed.

(** no trailing zero digit (little endian), i.e. no leading zero big endian *)
Lemma digits_le_last radix f : 2 <= radix -> forall x, 0 < x < 2 ^ Z.of_nat f ->
  exists ds d, digits_le radix f x = ds ++ [d] /\ d <> 0.
Proof.
  intros Hr. induction f as [|f IH]; intros x Hx; [cbn in Hx; lia|].
  cbn [digits_le]. destruct (Z.eqb_spec x 0); [lia|].
  destruct (Z.eq_dec (x / radix) 0) as [E|E].
  - rewrite E. exists [], (x mod radix). split.
    + destruct f; reflexivity.
    + rewrite Z.mod_eq, E by lia. lia.
  - destruct (IH (x / radix)) as (ds & d & -> & Hd).
    + rewrite Nat2Z.inj_succ, Z.pow_succ_r in Hx by lia.
      assert (0 <= x / radix) by (apply Z.div_pos; lia). split; [lia|].
      apply Z.div_lt_upper_bound; [lia|]. nia.
    + exists (x mod radix :: ds), d. split; [reflexivity|assumption].
Qed.

Lemma digit_fuel_bound x : 0 < x -> x < 2 ^ Z.of_nat (digit_fuel x).
Proof.
  intros Hx. unfold digit_fuel. pose proof (Z.log2_nonneg x).
  rewrite Z2Nat.id by lia. apply Z.log2_spec. exact Hx.
Qed.

Definition val_be (radix : Z) (ds : list Z) : Z := fold_left (fun acc d => acc * radix + d) ds 0.

Lemma val_be_acc radix ds : forall acc,
  fold_left (fun acc d => acc * radix + d) ds acc = acc * radix ^ Z.of_nat (length ds) + val_be radix ds.
Proof.
  unfold val_be. induction ds as [|d ds IH]; intros acc.
  - cbn. ring.
  - cbn [fold_left length]. rewrite IH, (IH (0 * radix + d)).
    rewrite Nat2Z.inj_succ, Z.pow_succ_r by lia. ring.
Qed.

Lemma val_be_cons radix d ds : val_be radix (d :: ds) = d * radix ^ Z.of_nat (length ds) + val_be radix ds.
Proof. unfold val_be at 1. cbn [fold_left]. rewrite val_be_acc. ring. Qed.

Lemma val_be_snoc radix ds d : val_be radix (ds ++ [d]) = val_be radix ds * radix + d.
Proof. unfold val_be. rewrite fold_left_app. reflexivity. Qed.

Lemma val_be_rev radix ds : val_be radix (rev ds) = val_le radix ds.
Proof.
  induction ds as [|d ds IH]; [reflexivity|].
  cbn [rev]. rewrite val_be_snoc, IH. cbn [val_le fold_right]. fold (val_le radix ds). ring.
Qed.

Lemma val_be_bound radix ds : 2 <= radix -> Forall (fun d => 0 <= d < radix) ds ->
  0 <= val_be radix ds < radix ^ Z.of_nat (length ds).
Proof.
  intros Hr. induction 1 as [|d ds Hd _ IH].
  - cbn. lia.
  - rewrite val_be_cons. cbn [length]. rewrite Nat2Z.inj_succ, Z.pow_succ_r by lia. nia.
Qed.

Lemma digits_be_val radix x : 2 <= radix -> 0 <= x -> val_be radix (digits_be radix x) = x.
Proof.
  intros Hr Hx. unfold digits_be. destruct (Z.eqb_spec x 0) as [->|Hz]; [reflexivity|].
  rewrite val_be_rev. apply digits_le_val; [assumption|]. split; [assumption|].
  apply digit_fuel_bound; lia.
Qed.

Lemma digits_be_range radix x : 2 <= radix -> Forall (fun d => 0 <= d < radix) (digits_be radix x).
Proof.
  intros Hr. unfold digits_be. destruct (x =? 0).
  - repeat constructor; lia.
  - apply Forall_rev. now apply digits_le_range.
Qed.

Lemma digits_be_nonempty radix x : 2 <= radix -> 0 <= x -> digits_be radix x <> [].
Proof.
  intros Hr Hx. unfold digits_be. destruct (Z.eqb_spec x 0); [discriminate|].
  destruct (digits_le_last radix (digit_fuel x) Hr x) as (ds & d & -> & _).
  - split; [lia|apply digit_fuel_bound; lia].
  - rewrite rev_app_distr. discriminate.
Qed.

Lemma digits_be_head radix x : 2 <= radix -> 0 < x ->
  exists d ds, digits_be radix x = d :: ds /\ d <> 0.
Proof.
  intros Hr Hx. unfold digits_be. destruct (Z.eqb_spec x 0); [lia|].
  destruct (digits_le_last radix (digit_fuel x) Hr x) as (ds & d & -> & Hd).
  - split; [lia|apply digit_fuel_bound; lia].
  - rewrite rev_app_distr. cbn. eauto.
Qed.

(** canonical digit strings are determined by their value *)
Lemma val_be_inj radix : 2 <= radix -> forall ds1 ds2,
  Forall (fun d => 0 <= d < radix) ds1 -> Forall (fun d => 0 <= d < radix) ds2 ->
  length ds1 = length ds2 -> val_be radix ds1 = val_be radix ds2 -> ds1 = ds2.
Proof.
  intros Hr. induction ds1 as [|d1 ds1 IH]; intros [|d2 ds2] H1 H2 Hl Hv; try discriminate Hl; [reflexivity|].
  inversion H1 as [|? ? Hd1 H1']; inversion H2 as [|? ? Hd2 H2']; subst.
  injection Hl as Hl. rewrite !val_be_cons, Hl in Hv.
  pose proof (val_be_bound radix ds1 Hr H1'). pose proof (val_be_bound radix ds2 Hr H2').
  rewrite Hl in H.
  assert (d1 = d2) by nia. subst. f_equal. apply IH; try assumption. lia.
Qed.

Lemma val_be_length radix d1 ds1 d2 ds2 : 2 <= radix ->
  Forall (fun d => 0 <= d < radix) (d1 :: ds1) -> Forall (fun d => 0 <= d < radix) (d2 :: ds2) ->
  d1 <> 0 -> d2 <> 0 -> val_be radix (d1 :: ds1) = val_be radix (d2 :: ds2) ->
  length ds1 = length ds2.
Proof.
  intros Hr H1 H2 Hd1 Hd2 Hv.
  inversion H1 as [|? ? Hb1 H1']; inversion H2 as [|? ? Hb2 H2']; subst.
  rewrite !val_be_cons in Hv.
  pose proof (val_be_bound radix ds1 Hr H1') as A. pose proof (val_be_bound radix ds2 Hr H2') as B.
  destruct (Nat.lt_trichotomy (length ds1) (length ds2)) as [L|[L|L]]; [|assumption|]; exfalso.
  - assert (radix ^ Z.of_nat (length ds1) * radix <= radix ^ Z.of_nat (length ds2)).
    { rewrite <- (Z.pow_1_r radix) at 2. rewrite <- Z.pow_add_r by lia. apply Z.pow_le_mono_r; lia. }
    nia.
  - assert (radix ^ Z.of_nat (length ds2) * radix <= radix ^ Z.of_nat (length ds1)).
    { rewrite <- (Z.pow_1_r radix) at 2. rewrite <- Z.pow_add_r by lia. apply Z.pow_le_mono_r; lia. }
    nia.
Qed.

Fixpoint strip_zeros (bs : list Z) : list Z :=
  match bs with 0 :: tl => strip_zeros tl | _ => bs end.

Lemma strip_zeros_cons b bs : strip_zeros (b :: bs) = if b =? 0 then strip_zeros bs else b :: bs.
Proof. destruct b; reflexivity. Qed.

Lemma val_be_strip radix bs : val_be radix (strip_zeros bs) = val_be radix bs.
Proof.
  induction bs as [|b bs IH]; [reflexivity|].
  rewrite strip_zeros_cons. destruct (Z.eqb_spec b 0) as [->|]; [|reflexivity].
  rewrite val_be_cons, IH. ring.
Qed.

Lemma strip_zeros_head bs : strip_zeros bs = [] \/ exists b tl, strip_zeros bs = b :: tl /\ b <> 0.
Proof.
  induction bs as [|b bs IH]; [now left|].
  rewrite strip_zeros_cons. destruct (Z.eqb_spec b 0); [assumption|]. right; eauto.
Qed.

Lemma strip_zeros_Forall (P : Z -> Prop) bs : Forall P bs -> Forall P (strip_zeros bs).
Proof.
  induction 1 as [|b bs Hb Hbs IH]; [constructor|].
  rewrite strip_zeros_cons. destruct (b =? 0); [assumption|now constructor].
Qed.

Lemma digits_be_of_val radix ds : 2 <= radix -> Forall (fun d => 0 <= d < radix) ds ->
  digits_be radix (val_be radix ds) = match strip_zeros ds with [] => [0] | s => s end.
Proof.
  intros Hr Hds. rewrite <- val_be_strip.
  pose proof (strip_zeros_Forall _ _ Hds) as Hs.
  destruct (strip_zeros_head ds) as [E|(b & tl & E & Hb)]; rewrite E in *; [reflexivity|].
  pose proof (val_be_bound radix _ Hr Hs) as Bd.
  assert (Hpos : 0 < val_be radix (b :: tl)).
  { rewrite val_be_cons. inversion Hs; subst.
    pose proof (val_be_bound radix tl Hr H2).
    assert (0 < radix ^ Z.of_nat (length tl)) by (apply Z.pow_pos_nonneg; lia). nia. }
  destruct (digits_be_head radix (val_be radix (b :: tl)) Hr Hpos) as (d & ds' & E2 & Hd).
  pose proof (digits_be_range radix (val_be radix (b :: tl)) Hr) as R.
  pose proof (digits_be_val radix (val_be radix (b :: tl)) Hr (proj1 Bd)) as V.
  rewrite E2 in *.
  apply (val_be_inj radix Hr); try assumption.
  cbn [length]. f_equal. eapply (val_be_length radix d ds' b tl); eassumption.
Qed.

(** ** bytes *)
Lemma bn_from_bytes_val bs : bn_from_bytes bs = val_be 256 bs.
Proof. reflexivity. Qed.

Lemma bn_bytes_roundtrip x : 0 <= x -> bn_from_bytes (bn_to_bytes x) = x.
Proof.
  intros Hx. rewrite bn_from_bytes_val. unfold bn_to_bytes.
  rewrite Z.abs_eq by lia. apply digits_be_val; lia.
Qed.

Lemma bn_to_bytes_range x : Forall (fun b => 0 <= b < 256) (bn_to_bytes x).
Proof. apply digits_be_range. lia. Qed.

Lemma bn_to_bytes_inj x y : 0 <= x -> 0 <= y -> bn_to_bytes x = bn_to_bytes y -> x = y.
Proof. intros Hx Hy E. rewrite <- (bn_bytes_roundtrip x), <- (bn_bytes_roundtrip y), E; auto. Qed.

(** ** decimal and hex *)
Lemma char_digit_digit_char up d radix : 0 <= d < radix -> radix <= 36 -> char_digit (digit_char up d) = Some d.
Proof.
  intros Hd Hr. unfold digit_char, char_digit.
  destruct (Z.ltb_spec d 10).
  - replace (48 <=? 48 + d) with true by (symmetry; apply Z.leb_le; lia).
    replace (48 + d <=? 57) with true by (symmetry; apply Z.leb_le; lia). cbn [andb]. f_equal; lia.
  - destruct up.
    + replace (48 <=? 55 + d) with true by (symmetry; apply Z.leb_le; lia).
      replace (55 + d <=? 57) with false by (symmetry; apply Z.leb_gt; lia).
      replace (97 <=? 55 + d) with false by (symmetry; apply Z.leb_gt; lia).
      replace (65 <=? 55 + d) with true by (symmetry; apply Z.leb_le; lia).
      replace (55 + d <=? 90) with true by (symmetry; apply Z.leb_le; lia). cbn [andb]. f_equal; lia.
    + replace (48 <=? 87 + d) with true by (symmetry; apply Z.leb_le; lia).
      replace (87 + d <=? 57) with false by (symmetry; apply Z.leb_gt; lia).
      replace (97 <=? 87 + d) with true by (symmetry; apply Z.leb_le; lia).
      replace (87 + d <=? 122) with true by (symmetry; apply Z.leb_le; lia). cbn [andb]. f_equal; lia.
Qed.

Lemma digit_char_range up d radix : 0 <= d < radix -> radix <= 36 ->
  48 <= digit_char up d /\ digit_char up d <> 95.
Proof.
  intros Hd Hr. unfold digit_char. destruct (Z.ltb_spec d 10); [lia|]. destruct up; lia.
Qed.

Lemma parse_digits_map up radix ds : radix <= 36 -> Forall (fun d => 0 <= d < radix) ds ->
  forall acc, parse_digits radix acc (map (digit_char up) ds) =
    Ok (fold_left (fun acc d => acc * radix + d) ds acc).
Proof.
  intros Hr. induction 1 as [|d ds Hd _ IH]; intros acc; [reflexivity|].
  cbn [map parse_digits fold_left].
  destruct (digit_char_range up d radix Hd Hr) as [_ Hu].
  destruct (Z.eqb_spec (digit_char up d) 95); [contradiction|].
  rewrite (char_digit_digit_char up d radix Hd Hr).
  destruct (Z.ltb_spec d radix); [apply IH|lia].
Qed.

Lemma parse_unsigned_digits up radix x : 2 <= radix <= 36 -> 0 <= x ->
  parse_unsigned radix (map (digit_char up) (digits_be radix x)) = Ok x.
Proof.
  intros Hr Hx. pose proof (digits_be_nonempty radix x ltac:(lia) Hx) as Hne.
  pose proof (digits_be_range radix x ltac:(lia)) as Hf.
  pose proof (digits_be_val radix x ltac:(lia) Hx) as Hv.
  unfold parse_unsigned, strip_plus.
  destruct (digits_be radix x) as [|d ds] eqn:E; [contradiction|].
  inversion Hf as [|? ? Hd Hds]; subst.
  destruct (digit_char_range up d radix Hd ltac:(lia)) as [H48 H95].
  cbn [map starts_with].
  destruct (Z.eqb_spec (digit_char up d) 43); [lia|]. cbn [andb].
  destruct (Z.eqb_spec (digit_char up d) 95); [contradiction|].
  change (digit_char up d :: map (digit_char up) ds) with (map (digit_char up) (d :: ds)).
  rewrite parse_digits_map by (lia || assumption). cbn [starts_with map].
  destruct (Z.eqb_spec (digit_char up d) 95); [contradiction|]. reflexivity.
Qed.

Lemma bn_str_roundtrip up radix x : 2 <= radix <= 36 -> bn_from_str radix (bn_to_str up radix x) = Ok x.
Proof.
  intros Hr. unfold bn_from_str, bn_to_str.
  pose proof (digits_be_nonempty radix (Z.abs x) ltac:(lia) ltac:(lia)) as Hne.
  pose proof (digits_be_range radix (Z.abs x) ltac:(lia)) as Hf.
  pose proof (parse_unsigned_digits up radix (Z.abs x) Hr ltac:(lia)) as Hp.
  destruct (digits_be radix (Z.abs x)) as [|d ds] eqn:E; [contradiction|].
  inversion Hf as [|? ? Hd Hds]; subst.
  destruct (digit_char_range up d radix Hd ltac:(lia)) as [H48 H95].
  destruct (Z.ltb_spec x 0).
  - cbn [app starts_with map tl]. rewrite Z.eqb_refl.
    destruct (Z.eqb_spec (digit_char up d) 43); [lia|].
    change (digit_char up d :: map (digit_char up) ds) with (map (digit_char up) (d :: ds)).
    rewrite Hp. cbn. f_equal. lia.
  - cbn [app starts_with map tl].
    destruct (Z.eqb_spec (digit_char up d) 45); [lia|].
    change (digit_char up d :: map (digit_char up) ds) with (map (digit_char up) (d :: ds)).
    rewrite Hp. f_equal. lia.
Qed.

(** rejection of foreign characters *)
Definition plain_digit (radix c : Z) : bool :=
  match char_digit c with Some d => d <? radix | None => false end.

Lemma parse_digits_foreign radix s : forall acc,
  (exists c, In c s /\ c <> 95 /\ plain_digit radix c = false) -> parse_digits radix acc s = Err InvalidState.
Proof.
  induction s as [|c s IH]; intros acc (c' & Hin & Hc & Hp); [contradiction|].
  cbn [parse_digits]. destruct (Z.eqb_spec c 95) as [->|Hn].
  - apply IH. exists c'. destruct Hin as [E|Hin]; [congruence|auto].
  - destruct Hin as [->|Hin].
    + unfold plain_digit in Hp. destruct (char_digit c') as [d|]; [|reflexivity]. now rewrite Hp.
    + destruct (char_digit c) as [d|]; [|reflexivity]. destruct (d <? radix); [|reflexivity].
      apply IH. eauto.
Qed.

Lemma in_strip_plus c s : In c s -> c <> 43 -> In c (strip_plus s).
Proof.
  unfold strip_plus. intros H Hc. destruct s as [|x s]; [contradiction|].
  destruct (starts_with 43 (x :: s) && negb (starts_with 43 (tl (x :: s)))) eqn:E; [|assumption].
  apply andb_prop in E as [E _]. cbn in E. apply Z.eqb_eq in E. cbn.
  destruct H as [E2|H]; [congruence|assumption].
Qed.

Lemma parse_unsigned_foreign radix s c : In c s -> c <> 95 -> c <> 43 -> plain_digit radix c = false ->
  parse_unsigned radix s = Err InvalidState.
Proof.
  intros Hin H95 H43 Hp. unfold parse_unsigned.
  pose proof (in_strip_plus c s Hin H43) as Hin'.
  destruct (strip_plus s) as [|x s'] eqn:E; [reflexivity|].
  destruct (starts_with 95 (x :: s')); [reflexivity|].
  apply parse_digits_foreign. eauto.
Qed.

Lemma bn_from_str_foreign radix s c : In c s -> c <> 95 -> c <> 43 -> c <> 45 -> plain_digit radix c = false ->
  bn_from_str radix s = Err InvalidState.
Proof.
  intros Hin H95 H43 H45 Hp. unfold bn_from_str.
  destruct (starts_with 45 s) eqn:E; [|now apply (parse_unsigned_foreign radix s c)].
  destruct (starts_with 43 (tl s)).
  - now rewrite (parse_unsigned_foreign radix s c).
  - rewrite (parse_unsigned_foreign radix (tl s) c); try assumption; [reflexivity|].
    destruct s as [|x s]; [contradiction|]. cbn in E. apply Z.eqb_eq in E.
    destruct Hin as [E2|Hin]; [congruence|assumption].
Qed.

(** ** bits *)
Lemma bn_is_bit_set_spec x n : 0 <= n -> bn_is_bit_set x n = Z.testbit x n.
Proof. intros Hn. unfold bn_is_bit_set. rewrite <- Z.bit0_odd, Z.shiftr_spec by lia. f_equal. Qed.

Lemma bn_set_bit_spec x n k : 0 <= n -> 0 <= k ->
  Z.testbit (bn_set_bit x n) k = (Z.testbit x k || (k =? n))%bool.
Proof.
  intros Hn Hk. unfold bn_set_bit. rewrite Z.lor_spec. f_equal.
  rewrite Z.shiftl_spec by lia.
  destruct (Z.eqb_spec k n) as [->|Hne].
  - now rewrite Z.sub_diag.
  - destruct (Z_lt_le_dec k n).
    + apply Z.testbit_neg_r. lia.
    + apply (Z.bits_above_log2 1); [lia|]. cbn. lia.
Qed.

Lemma bn_num_bits_spec x : x <> 0 ->
  2 ^ (bn_num_bits x - 1) <= Z.abs x < 2 ^ bn_num_bits x.
Proof.
  intros Hx. unfold bn_num_bits. destruct (Z.eqb_spec x 0); [contradiction|].
  replace (Z.log2 (Z.abs x) + 1 - 1) with (Z.log2 (Z.abs x)) by lia.
  apply Z.log2_spec. lia.
Qed.

(** ** primes in a range *)
Lemma lor_1 d : 0 <= d -> d <= Z.lor d 1 <= d + 1.
Proof.
  intros Hd. assert (E : Z.lor d 1 = if Z.odd d then d else d + 1).
  { destruct (Z.odd d) eqn:O.
    - apply Z.bits_inj'. intros k Hk. rewrite Z.lor_spec.
      destruct (Z.eq_dec k 0) as [->|].
      + rewrite Z.bit0_odd, O. reflexivity.
      + rewrite (Z.bits_above_log2 1 k); [now rewrite orb_false_r|lia|cbn; lia].
    - assert (Z.land d 1 = 0).
      { rewrite Z.land_comm. change 1 with (Z.ones 1). rewrite Z.land_comm, Z.land_ones by lia.
        change (2 ^ 1) with 2. rewrite Zmod_odd, O. reflexivity. }
      rewrite Z.add_nocarry_lxor by assumption.
      symmetry. apply Z.lxor_lor. assumption. }
  rewrite E. destruct (Z.odd d); lia.
Qed.

Lemma prime_search_spec isp draws lo hi c :
  0 <= lo -> Forall (fun d => lo <= d < hi) draws -> prime_search isp draws = Ok c ->
  isp c = true /\ lo <= c <= hi /\ Z.odd c = true.
Proof.
  intros Hlo. induction 1 as [|d ds Hd _ IH]; cbn; intros H; [discriminate|].
  destruct (isp (Z.lor d 1)) eqn:E; [|auto].
  inversion H; subst. pose proof (lor_1 d ltac:(lia)). repeat split; try lia; try assumption.
  rewrite <- Z.bit0_odd, Z.lor_spec. apply orb_true_r.
Qed.
