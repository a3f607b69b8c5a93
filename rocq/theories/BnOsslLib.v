(** Lemmas about BnOsslModel and its agreement with BnModel. *)
From Coq Require Import Znumtheory Zpow_facts.
From Verif Require Import Base BnModel BnProofs BnOsslModel.

Lemma bin2bn_bn2bin x : bin2bn (bn2bin x) = Z.abs x.
Proof.
  unfold bn2bin. destruct (Z.eqb_spec x 0) as [->|Hx]; [reflexivity|].
  change (bin2bn ?l) with (val_be 256 l). apply digits_be_val; lia.
Qed.

Lemma bn_nnmod_eq x n : bn_nnmod x n = bn_modulus x n.
Proof.
  unfold bn_nnmod, bn_div_rem. rewrite bn_modulus_spec.
  destruct (Z.eqb_spec n 0) as [->|Hn]; [reflexivity|]. cbn [rbind].
  pose proof (Z.quot_rem' x n) as E. pose proof (Z.rem_bound_abs x n Hn) as B.
  destruct (Z.ltb_spec (Z.rem x n) 0) as [Hr|Hr].
  - destruct (Z.ltb_spec n 0) as [Hd|Hd]; f_equal.
    + apply (Z.mod_unique_pos _ _ (- Z.quot x n - 1)); nia.
    + apply (Z.mod_unique_pos _ _ (Z.quot x n - 1)); nia.
  - f_equal. destruct (Z.lt_ge_cases n 0).
    + apply (Z.mod_unique_pos _ _ (- Z.quot x n)); nia.
    + apply (Z.mod_unique_pos _ _ (Z.quot x n)); nia.
Qed.

Lemma bn_nnmod_pos x n : 0 < n -> bn_nnmod x n = Ok (x mod n).
Proof. intros Hn. rewrite bn_nnmod_eq. now apply bn_modulus_pos. Qed.

Lemma sgn_abs_quot x w : 0 < w -> Z.sgn x * (Z.abs x / w) = Z.quot x w.
Proof.
  intros Hw. destruct (Z.lt_trichotomy x 0) as [H|[->|H]].
  - rewrite Z.sgn_neg, Z.abs_neq by lia. rewrite <- Z.quot_div_nonneg by lia. rewrite Z.quot_opp_l by lia. ring.
  - rewrite Z.quot_0_l by lia. reflexivity.
  - rewrite Z.sgn_pos, Z.abs_eq by lia. rewrite Z.quot_div_nonneg by lia. ring.
Qed.

Lemma ob_set_negative_eq x b : ob_set_negative x b = bn_set_negative x b.
Proof.
  unfold ob_set_negative, bn_set_sign, bn_set_negative. rewrite bin2bn_bn2bin.
  destruct (Z.ltb_spec x 0), b; lia.
Qed.

Lemma ob_try_clone_eq x : ob_try_clone x = x.
Proof.
  unfold ob_try_clone, bn_set_sign, ob_is_negative. rewrite bin2bn_bn2bin.
  destruct (Z.ltb_spec x 0); lia.
Qed.

Lemma ob_cmp_eq x y : ob_cmp x y = Z.compare x y.
Proof.
  unfold ob_cmp. destruct (Z.ltb_spec x 0), (Z.ltb_spec y 0); symmetry.
  - destruct (Z.compare_spec (Z.abs y) (Z.abs x));
      [apply Z.compare_eq_iff|apply Z.compare_lt_iff|apply Z.compare_gt_iff]; lia.
  - apply Z.compare_lt_iff; lia.
  - apply Z.compare_gt_iff; lia.
  - rewrite !Z.abs_eq by lia. reflexivity.
Qed.

Lemma ob_eqb_eq x y : ob_eqb x y = (x =? y).
Proof.
  unfold ob_eqb. rewrite ob_cmp_eq. destruct (Z.compare_spec x y); symmetry;
    [apply Z.eqb_eq|apply Z.eqb_neq|apply Z.eqb_neq]; lia.
Qed.

Lemma ob_to_bytes_eq x : x <> 0 -> ob_to_bytes x = bn_to_bytes x.
Proof. intros H. unfold ob_to_bytes, bn2bin, bn_to_bytes. destruct (Z.eqb_spec x 0); [contradiction|reflexivity]. Qed.

Lemma ob_rshift1_eq x : 0 <= x -> ob_rshift1 x = bn_rshift1 x.
Proof.
  intros H. unfold ob_rshift1, bn_rshift1. rewrite Z.abs_eq by lia.
  destruct (Z.eq_dec x 0) as [->|]; [reflexivity|]. rewrite Z.sgn_pos by lia. ring.
Qed.

Section Inv.
Variable inv : Z -> Z -> res Z.
Hypothesis Hinv : mod_inverse_ok inv.

Lemma ob_inverse_cases a n : 2 <= Z.abs n ->
  (Z.gcd a n = 1 /\ exists x, ob_inverse inv a n = Ok x /\ 0 <= x < Z.abs n /\ (a * x) mod Z.abs n = 1)
  \/ (Z.gcd a n <> 1 /\ ob_inverse inv a n = Err InvalidState).
Proof.
  intros Hn. destruct (Hinv a n) as (H1 & H2 & _). unfold ob_inverse.
  destruct (Z.eq_dec (Z.gcd a n) 1); [left|right]; auto.
Qed.

Lemma inverse_unique a n x y : 2 <= n -> 0 <= x < n -> 0 <= y < n ->
  (a * x) mod n = 1 -> (a * y) mod n = 1 -> x = y.
Proof.
  intros Hn Hx Hy Ex Ey.
  assert (E : x mod n = y mod n).
  { transitivity ((x * (a * y)) mod n).
    - rewrite <- Z.mul_mod_idemp_r, Ey by lia. now rewrite Z.mul_1_r.
    - replace (x * (a * y)) with (y * (a * x)) by ring.
      rewrite <- Z.mul_mod_idemp_r, Ex by lia. now rewrite Z.mul_1_r. }
  rewrite !Z.mod_small in E by lia. exact E.
Qed.

Lemma ob_inverse_eq a n : 0 <= a -> n <> -1 -> ob_inverse inv a n = bn_inverse a n.
Proof.
  intros Ha Hn. destruct (Z.le_gt_cases 2 (Z.abs n)) as [H2|H2].
  - destruct (ob_inverse_cases a n H2) as [(G & x & -> & Hx & Ex)|(G & ->)];
      destruct (bn_inverse_cases a n Ha H2) as [(G' & y & -> & Hy & Ey)|(G' & ->)]; try contradiction; [|reflexivity].
    f_equal. now apply (inverse_unique a (Z.abs n)).
  - destruct (Hinv a n) as (_ & _ & H3). unfold ob_inverse. rewrite H3 by lia.
    assert (n = 0 \/ n = 1) as [-> | ->] by lia; reflexivity.
Qed.

Lemma bn_mod_exp_mag_spec x p m : 0 <= p -> 2 <= Z.abs m -> bn_mod_exp_mag x p m = Ok (x ^ p mod Z.abs m).
Proof.
  intros Hp Hm. unfold bn_mod_exp_mag. destruct (Z.eqb_spec p 0) as [->|Hp0].
  - destruct (Z.eqb_spec (Z.abs m) 1); [lia|]. rewrite Z.pow_0_r, Z.mod_small by lia. reflexivity.
  - rewrite bn_nnmod_eq, bn_modulus_spec. destruct (Z.eqb_spec m 0); [lia|]. cbn [rbind].
    rewrite (Z.abs_eq p) by lia. rewrite modpow_spec by lia. f_equal.
    symmetry. apply Zpower_mod. pose proof (Z.abs_nonneg m). lia.
Qed.

Lemma ob_mod_exp_nonneg x a b : 0 <= a -> 2 <= Z.abs b -> ob_mod_exp inv x a b = Ok (x ^ a mod Z.abs b).
Proof.
  intros Ha Hb. unfold ob_mod_exp, ob_is_negative. destruct (Z.ltb_spec a 0); [lia|]. now apply bn_mod_exp_mag_spec.
Qed.

Lemma ob_mod_exp_neg x a b : a < 0 -> 2 <= Z.abs b ->
  ob_mod_exp inv x a b = rbind (ob_inverse inv x b) (fun r => Ok (r ^ (- a) mod Z.abs b)).
Proof.
  intros Ha Hb. unfold ob_mod_exp, ob_is_negative. destruct (Z.ltb_spec a 0); [|lia].
  destruct (ob_inverse inv x b); cbn [rbind]; [|reflexivity].
  rewrite ob_set_negative_eq. unfold bn_set_negative. destruct (Z.ltb_spec a 0); [|lia].
  apply bn_mod_exp_mag_spec; lia.
Qed.

Lemma ob_mod_exp_eq x a b : 2 <= Z.abs b -> 0 <= x \/ 0 <= a -> ob_mod_exp inv x a b = bn_mod_exp x a b.
Proof.
  intros Hb Hc. destruct (Z.lt_ge_cases a 0) as [Ha|Ha].
  - rewrite ob_mod_exp_neg, bn_mod_exp_neg by lia. rewrite ob_inverse_eq by lia. reflexivity.
  - rewrite ob_mod_exp_nonneg, bn_mod_exp_nonneg by lia. reflexivity.
Qed.

Lemma ob_mod_div_eq x b p : 0 <= b -> p <> -1 -> ob_mod_div inv x b p = bn_mod_div x b p.
Proof.
  intros Hb Hp. unfold ob_mod_div, bn_mod_div. rewrite ob_inverse_eq by assumption.
  destruct (bn_inverse b p); [|reflexivity]. cbn [rbind]. unfold ob_mod_mul. apply bn_nnmod_eq.
Qed.
End Inv.

(** ** text *)
Lemma digit_run_plain radix s : (forall c, In c s -> plain_digit radix c = true) ->
  parse_digits radix 0 s = Ok (fold_left (fun acc d => acc * radix + d) (digit_run radix s) 0)
  /\ length (digit_run radix s) = length s.
Proof.
  enough (forall acc, (forall c, In c s -> plain_digit radix c = true) ->
    parse_digits radix acc s = Ok (fold_left (fun acc d => acc * radix + d) (digit_run radix s) acc)
    /\ length (digit_run radix s) = length s) by auto.
  induction s as [|c s IH]; intros acc Hc; [split; reflexivity|].
  cbn [parse_digits digit_run length].
  pose proof (Hc c (or_introl eq_refl)) as Hp. unfold plain_digit in Hp.
  destruct (char_digit c) as [d|] eqn:E; [|discriminate].
  destruct (Z.eqb_spec c 95) as [->|]; [discriminate E|].
  destruct (d <? radix); [|discriminate]. cbn [fold_left length].
  destruct (IH (acc * radix + d)) as [H1 H2]; [intros; apply Hc; now right|].
  rewrite H1, H2. split; reflexivity.
Qed.

Lemma parse_digits_plain radix s : forall acc x, parse_digits radix acc s = Ok x -> ~ In 95 s ->
  forall c, In c s -> plain_digit radix c = true.
Proof.
  induction s as [|c0 s IH]; intros acc x H Hu c Hin; [contradiction|].
  cbn [parse_digits] in H. destruct (Z.eqb_spec c0 95) as [->|]; [destruct Hu; now left|].
  destruct (char_digit c0) as [d|] eqn:E; [|discriminate].
  destruct (d <? radix) eqn:L; [|discriminate].
  destruct Hin as [<-|Hin]; [unfold plain_digit; now rewrite E, L|].
  eapply IH; eauto. intros X; apply Hu; now right.
Qed.

Lemma parse_unsigned_run radix s x : parse_unsigned radix s = Ok x -> ~ In 95 s -> ~ In 43 s ->
  digit_run radix s <> [] /\ x = fold_left (fun acc d => acc * radix + d) (digit_run radix s) 0.
Proof.
  intros H H95 H43. unfold parse_unsigned in H.
  assert (Es : strip_plus s = s).
  { unfold strip_plus. destruct s as [|c s]; [reflexivity|]. cbn [starts_with].
    destruct (Z.eqb_spec c 43) as [->|]; [destruct H43; now left|reflexivity]. }
  rewrite Es in H. destruct s as [|c s]; [discriminate|].
  destruct (starts_with 95 (c :: s)); [discriminate|].
  pose proof (parse_digits_plain _ _ _ _ H H95) as Hp.
  destruct (digit_run_plain _ _ Hp) as [E L]. rewrite E in H. injection H as <-.
  split; [|reflexivity]. intros C. rewrite C in L. discriminate.
Qed.

Lemma bn_from_str_ossl radix s x : bn_from_str radix s = Ok x -> ~ In 95 s -> ~ In 43 s -> str2bn radix s = Ok x.
Proof.
  intros H H95 H43. unfold bn_from_str in H. unfold str2bn.
  destruct (starts_with 45 s) eqn:E.
  - destruct s as [|c s]; [discriminate|]. cbn [tl] in *.
    assert (F : starts_with 43 s = false).
    { destruct s as [|d s]; [reflexivity|]. cbn. destruct (Z.eqb_spec d 43) as [->|]; [|reflexivity].
      destruct H43; right; now left. }
    rewrite F in H. destruct (parse_unsigned radix s) as [y|] eqn:P; [|discriminate]. cbn [rbind] in H.
    injection H as <-. destruct (parse_unsigned_run _ _ _ P (fun X => H95 (or_intror X)) (fun X => H43 (or_intror X))) as [Hne ->].
    cbv iota zeta. destruct (digit_run radix s); [now destruct Hne|reflexivity].
  - destruct (parse_unsigned_run _ _ _ H) as [Hne ->]; auto.
    cbv iota zeta. destruct (digit_run radix s); [now destruct Hne|reflexivity].
Qed.

Lemma in_digit_char up d radix : 0 <= d < radix -> radix <= 36 ->
  digit_char up d <> 0 /\ digit_char up d <> 43 /\ digit_char up d <> 95 /\ digit_char up d <> 45.
Proof. intros Hd Hr. unfold digit_char. destruct (Z.ltb_spec d 10); [lia|]. destruct up; lia. Qed.

Lemma bn_to_str_chars up radix x c : 2 <= radix <= 36 -> In c (bn_to_str up radix x) -> c <> 0 /\ c <> 43 /\ c <> 95.
Proof.
  intros Hr Hin. unfold bn_to_str in Hin. apply in_app_or in Hin as [Hin|Hin].
  - destruct (x <? 0); [destruct Hin as [<-|[]]; lia|destruct Hin].
  - apply in_map_iff in Hin as (d & <- & Hd).
    pose proof (digits_be_range radix (Z.abs x) ltac:(lia)) as Hf. rewrite Forall_forall in Hf.
    pose proof (in_digit_char up d radix (Hf d Hd) ltac:(lia)). tauto.
Qed.

Lemma c_string_ok s : ~ In 0 s -> c_string s = Ok s.
Proof.
  intros H. unfold c_string. destruct (existsb _ s) eqn:E; [|reflexivity].
  apply existsb_exists in E as (c & Hc & Ec). apply Z.eqb_eq in Ec. subst. contradiction.
Qed.

Lemma ossl_reads_rust up radix x : 2 <= radix <= 36 ->
  (let! s := c_string (bn_to_str up radix x) in str2bn radix s) = Ok x.
Proof.
  intros Hr. rewrite c_string_ok; [cbn [rbind]|].
  - apply bn_from_str_ossl; [now apply bn_str_roundtrip| |]; intros Hin; apply bn_to_str_chars in Hin; try lia.
  - intros Hin; apply bn_to_str_chars in Hin; lia.
Qed.

Definition nibbles (b : Z) : list Z := [b / 16; b mod 16].
Lemma nibbles_val bs : Forall (fun b => 0 <= b < 256) bs ->
  forall acc, fold_left (fun a d => a * 16 + d) (concat (map nibbles bs)) acc = fold_left (fun a b => a * 256 + b) bs acc.
Proof.
  induction 1 as [|b bs Hb _ IH]; intros acc; [reflexivity|].
  cbn [map concat nibbles app fold_left]. rewrite IH. f_equal. pose proof (Z.div_mod b 16). lia.
Qed.
Lemma nibbles_range bs : Forall (fun b => 0 <= b < 256) bs -> Forall (fun d => 0 <= d < 16) (concat (map nibbles bs)).
Proof.
  induction 1 as [|b bs Hb _ IH]; [constructor|]. cbn [map concat nibbles app].
  constructor; [|constructor; [|exact IH]].
  - split; [apply Z.div_pos; lia|apply Z.div_lt_upper_bound; lia].
  - apply Z.mod_pos_bound; lia.
Qed.

Definition pad_even {A} (z : A) (l : list A) : list A := if Nat.even (length l) then l else z :: l.

(** two digits per byte = the plain digits, with one leading zero when their number is odd *)
Lemma nibbles_digits x : 0 < x -> concat (map nibbles (digits_be 256 x)) = pad_even 0 (digits_be 16 x).
Proof.
  intros Hx.
  destruct (digits_be_head 256 x ltac:(lia) Hx) as (b & bs & Eb & Hb0).
  pose proof (digits_be_range 256 x ltac:(lia)) as Hr. rewrite Eb in Hr |- *.
  pose proof (nibbles_range _ Hr) as Hn. pose proof (nibbles_val _ Hr 0) as Hv.
  assert (Ev : val_be 16 (concat (map nibbles (b :: bs))) = x).
  { unfold val_be. rewrite Hv. rewrite <- Eb. apply digits_be_val; lia. }
  pose proof (digits_be_of_val 16 _ ltac:(lia) Hn) as Hd. rewrite Ev in Hd. rewrite Hd.
  assert (Hlen : Nat.even (length (concat (map nibbles (b :: bs)))) = true).
  { clear. induction (b :: bs) as [|c l IH]; [reflexivity|]. cbn [map concat nibbles app length Nat.even]. exact IH. }
  pose proof (Forall_inv Hr) as Hb. cbv beta in Hb. clear Hv Hd Ev.
  cbn [map concat nibbles app] in *.
  rewrite strip_zeros_cons. destruct (Z.eqb_spec (b / 16) 0) as [E0|E0].
  - rewrite E0. rewrite strip_zeros_cons. assert (b mod 16 <> 0) by (pose proof (Z.div_mod b 16); lia).
    destruct (Z.eqb_spec (b mod 16) 0); [contradiction|].
    unfold pad_even. cbn [length] in Hlen |- *. cbn [Nat.even] in Hlen.
    rewrite Nat.even_succ, <- Nat.negb_even, Hlen. reflexivity.
  - unfold pad_even. rewrite Hlen. reflexivity.
Qed.

Lemma ob_to_hex_spec x : x <> 0 ->
  ob_to_hex x = (if x <? 0 then [45] else []) ++ pad_even 48 (map (digit_char true) (digits_be 16 (Z.abs x))).
Proof.
  intros Hx. unfold ob_to_hex, bn2bin. destruct (Z.eqb_spec x 0); [contradiction|]. f_equal.
  transitivity (map (digit_char true) (concat (map nibbles (digits_be 256 (Z.abs x))))).
  - induction (digits_be 256 (Z.abs x)) as [|b l IH]; [reflexivity|]. cbn [map concat app hex_byte nibbles]. rewrite IH. reflexivity.
  - rewrite nibbles_digits by lia. unfold pad_even. rewrite map_length. destruct (Nat.even _); reflexivity.
Qed.
