(** Proofs for C151: special soundness of the equality proof of a presentation. *)
From Verif Require Import Base BnModel BnProofs UMod Fermat StrMap HelpersModel ClModel ClSpec ClLib ClKey ClIssue ClBlind ClPresent ClSign ClSoundSpec.
From Coq Require Import Znumtheory ZArith.Zpow_facts.
Open Scope string_scope.
Open Scope list_scope.
Open Scope Z_scope.

(** ** reading an accepting run *)
Section Read.
Variables (pk : ppk) (V : valid_pk pk).
Notation n := (pk_n pk).
Let Hn : 2 <= n := vk_n pk V.
Local Notation "a ** b" := (umul n Hn a b) (at level 40, left associativity).
Local Notation "a ^^ k" := (zpow n Hn a k) (at level 30).
Local Notation "a ^-1" := (uinv n Hn a) (at level 25).
Notation S_ := (uS pk V).
Notation Z_ := (uZ pk V).
Notation C_ := (uC pk V).
Notation R_ := (uR pk V).
Notation RP := (uprod n Hn R_).

Lemma uv_uof x G : uv (uof n Hn x G) = x mod n.
Proof. reflexivity. Qed.
Lemma mod_exp_any x k (G : Z.gcd x n = 1) : 0 <= x -> bn_mod_exp x k n = Ok (uv (uof n Hn x G ^^ k)).
Proof.
  intros Hx. destruct (Z_lt_le_dec k 0) as [Hk|Hk].
  - rewrite bn_mod_exp_neg by lia. destruct (bn_inverse_ok x n Hx Hn G) as (y & E & R & I). rewrite E. cbn [rbind]. f_equal.
    rewrite Z.abs_eq by lia.
    assert (is_unit n y = true) as Uy.
    { apply is_unit_iff. split; [lia|]. apply Zgcd_1_rel_prime. apply bezout_rel_prime.
      apply (Bezout_intro y n 1 x (- (y * x / n))). pose proof (Z_div_mod_eq_full (y * x) n). rewrite (Z.mul_comm y x) in *. lia. }
    assert (uof n Hn x G ^-1 = mkU n y Uy) as EI.
    { apply (umul_cancel_l n Hn (uof n Hn x G)). rewrite (umul_inv_r n Hn). apply uv_inj. rewrite (uv_1 n Hn), (uv_mul n Hn).
      cbn [uv uof]. rewrite Z.mul_mod_idemp_l by lia. now symmetry. }
    replace k with (- (- k)) at 2 by lia. rewrite (zpow_opp n Hn), <- (zpow_inv n Hn), EI. symmetry. apply (uv_zpow_nonneg n Hn). lia.
  - apply mod_exp_unred; [assumption|reflexivity].
Qed.
Lemma gcd_pow_1_inv x k : 0 < k -> Z.gcd (x ^ k mod n) n = 1 -> Z.gcd x n = 1.
Proof.
  intros Hk E. rewrite gcd_mod_n in E by exact Hn. pose proof (Z.gcd_nonneg x n).
  assert ((Z.gcd x n | Z.gcd (x ^ k) n)) as D.
  { apply Z.gcd_greatest; [|apply Z.gcd_divide_r]. replace k with (Z.succ (k - 1)) by lia. rewrite Z.pow_succ_r by lia. apply Z.divide_mul_l, Z.gcd_divide_l. }
  rewrite E in D. apply Z.divide_1_r_nonneg in D; assumption.
Qed.
Lemma revealed_loop : forall (l : list (string * Z)) acc r,
  rfold (fun rar '(attr, encoded_value) =>
      let! cur_r := sm_get_or ProofRejected attr (pk_r pk) in
      let! y := bn_mod_exp cur_r encoded_value n in
      bn_mod_mul y rar n) l acc = Ok r -> 0 <= acc < n ->
  0 <= r < n /\ r = (acc * uv (aprod pk V l)) mod n /\ forall k, In k (map fst l) -> In k (sm_keys (pk_r pk)).
Proof.
  induction l as [|[k x] l IH]; intros acc r E Ha; cbn [rfold] in E.
  - injection E as <-. split; [assumption|]. split; [|intros ? []]. unfold aprod. cbn [fold_right]. fold Hn. rewrite (uv_1 n Hn), Z.mul_1_r. symmetry. now apply Z.mod_small.
  - apply rbind_ok in E as (z & Ez & E). apply rbind_ok in Ez as (cr & Er & Ez). apply rbind_ok in Ez as (y & Ey & Ez).
    assert (In k (sm_keys (pk_r pk))) as Hk.
    { unfold sm_get_or in Er. destruct (sm_get k (pk_r pk)) eqn:G; [|discriminate]. apply sm_get_keys. eauto. }
    rewrite (uR_get_or pk V) in Er by assumption. injection Er as <-. rewrite (mod_exp_u n Hn) in Ey. injection Ey as <-.
    rewrite bn_mod_mul_pos in Ez by lia. injection Ez as <-.
    destruct (IH _ _ E (Z.mod_pos_bound _ n ltac:(lia))) as (R1 & R2 & R3). split; [assumption|]. split.
    + rewrite R2. unfold aprod. cbn [fold_right fst snd]. fold Hn. rewrite (uv_mul n Hn). rewrite Z.mul_mod_idemp_l, Z.mul_mod_idemp_r by lia. f_equal. ring.
    + intros k' [<-|Hk']; [assumption|]. now apply R3.
Qed.
Lemma hidden_loop m : forall (l : list string) acc r,
  rfold (fun result k =>
      let! cur_r := sm_get_or InvalidStructure k (pk_r pk) in
      let! cur_m := sm_get_or InvalidStructure k m in
      let! y := bn_mod_exp cur_r cur_m n in
      bn_mod_mul y result n) l acc = Ok r ->
  forall k, In k l -> In k (sm_keys (pk_r pk)) /\ exists x, sm_get k m = Some x.
Proof.
  induction l as [|k l IH]; intros acc r E k' Hk'; [destruct Hk'|]. cbn [rfold] in E.
  apply rbind_ok in E as (z & Ez & E). apply rbind_ok in Ez as (cr & Er & Ez). apply rbind_ok in Ez as (cm & Em & Ez).
  destruct Hk' as [<-|Hk']; [|eapply IH; eassumption]. unfold sm_get_or in Er, Em. split.
  - destruct (sm_get k (pk_r pk)) eqn:G; [|discriminate]. apply sm_get_keys. eauto.
  - destruct (sm_get k m) eqn:G; [eauto|discriminate].
Qed.

(** the equation an accepting run establishes *)
Lemma verify_eq_read pr c schema non_schema req ts : 0 <= ep_a_prime pr ->
  verify_equality pk pr c schema non_schema req = Ok ts ->
  exists G : Z.gcd (ep_a_prime pr) n = 1,
    (forall k, In k (hidden_names schema non_schema req) -> In k (sm_keys (pk_r pk))) /\
    (forall k, In k (map fst (ep_revealed pr)) -> In k (sm_keys (pk_r pk))) /\
    ts = [uv (uof n Hn _ G ^^ ep_e pr ** RP (answer pr) (hidden_names schema non_schema req) ** S_ ^^ ep_v pr ** C_ ^^ ep_m2 pr
              ** (Z_ ** (uof n Hn _ G ^^ (2 ^ 596) ** aprod pk V (ep_revealed pr)) ^-1) ^-1 ^^ c)].
Proof.
  intros Ha E. unfold verify_equality in E. fold (hidden_names schema non_schema req) in E. set (hid := hidden_names schema non_schema req) in *.
  apply rbind_ok in E as (t1 & E1 & E). apply rbind_ok in E as (rar0 & E2 & E). apply rbind_ok in E as (rar & E3 & E).
  apply rbind_ok in E as (x & E4 & E).
  change LARGE_E_START_VALUE with (2 ^ 596) in E2. assert (0 < 2 ^ 596) as HE by (vm_compute; reflexivity). revert HE E2. generalize (2 ^ 596). intros EE HE E2.
  rewrite bn_mod_exp_nonneg in E2 by lia. rewrite Z.abs_eq in E2 by lia. injection E2 as <-.
  apply revealed_loop in E3 as (R1 & R2 & R3); [|apply Z.mod_pos_bound; lia].
  assert (Z.gcd (ep_a_prime pr) n = 1) as G.
  { apply (gcd_pow_1_inv _ EE HE). unfold bn_mod_div in E4. apply rbind_ok in E4 as (i & Ei & _).
    assert (Z.gcd rar n = 1) as Gr.
    { destruct (Z.eq_dec (Z.gcd rar n) 1) as [|N]; [assumption|]. rewrite bn_inverse_err in Ei by (assumption || lia). discriminate. }
    rewrite R2, gcd_mod_n in Gr by exact Hn. set (w := ep_a_prime pr ^ EE mod n) in *. pose proof (Z.gcd_nonneg w n).
    assert ((Z.gcd w n | Z.gcd (w * uv (aprod pk V (ep_revealed pr))) n)) as D.
    { apply Z.gcd_greatest; [|apply Z.gcd_divide_r]. apply Z.divide_mul_l, Z.gcd_divide_l. }
    rewrite Gr in D. apply Z.divide_1_r_nonneg in D; assumption. }
  exists G. set (a := uof n Hn _ G).
  assert (rar = uv (a ^^ EE ** aprod pk V (ep_revealed pr))) as ->.
  { rewrite R2, (uv_mul n Hn). f_equal. f_equal. rewrite (uv_zpow_nonneg n Hn) by lia. unfold a. rewrite uv_uof. symmetry. rewrite <- Zpower_mod by lia. reflexivity. }
  unfold calc_teq in E1. rewrite (mod_exp_any _ _ G Ha) in E1. cbn [rbind] in E1. fold a in E1. 
  pose proof E1 as E1'. apply rbind_ok in E1' as (t0 & E10 & _).
  pose proof (hidden_loop _ _ _ _ E10) as HL. clear E10.
  split; [intros k Hk; exact (proj1 (HL k Hk))|]. split; [exact R3|].
  assert (calc_teq pk (uv a) (ep_e pr) (ep_v pr) (ep_m pr) (ep_m2 pr) hid = Ok t1) as E1'.
  { unfold calc_teq. rewrite (mod_exp_u n Hn). cbn [rbind]. exact E1. }
  rewrite (calc_teq_u pk V a _ _ _ _ (answer pr)) in E1'.
  2:{ intros k Hk. destruct (HL k Hk) as [H1 (x0 & H2)]. split; [assumption|]. unfold answer. now rewrite H2. }
  match type of E1' with Ok ?x = Ok ?y => assert (x = y) as <- by (revert E1'; generalize x y; congruence) end. clear E1.
  rewrite (uZ_eq pk V), (mod_div_u n Hn) in E4. match type of E4 with Ok ?x = Ok ?y => assert (x = y) as <- by (revert E4; generalize x y; congruence) end. rewrite (inverse_u n Hn) in E. cbn [rbind] in E.
  rewrite (mod_exp_u n Hn) in E. cbn [rbind] in E. fold Hn in E. rewrite (mod_mul_u n Hn) in E. cbn [rbind] in E. match type of E with Ok ?x = Ok ?y => assert (x = y) as <- by (revert E; generalize x y; congruence) end. reflexivity.
Qed.
Lemma answers_relation_u pr1 pr2 d hid (G : Z.gcd (ep_a_prime pr1) n = 1) :
  (forall k, In k hid -> In k (sm_keys (pk_r pk))) -> (forall k, In k (map fst (ep_revealed pr1)) -> In k (sm_keys (pk_r pk))) ->
  (answers_relation pk hid pr1 pr2 d <->
   Z_ ^^ (- d) ** uof n Hn _ G ^^ ((ep_e pr1 - ep_e pr2) + d * 2 ^ 596) ** S_ ^^ (ep_v pr1 - ep_v pr2) ** C_ ^^ (ep_m2 pr1 - ep_m2 pr2)
     ** RP (fun k => answer pr1 k - answer pr2 k) hid ** aprod pk V (ep_revealed pr1) ^^ d = u1 n Hn).
Proof.
  intros H1 H2. unfold answers_relation. generalize (2 ^ 596). intros EE.
  set (a := uof n Hn _ G).
  match goal with |- product_is_one n ?l <-> _ =>
    replace l with (map (fun ak => (uv (fst ak), snd ak))
      ((Z_, - d) :: (a, (ep_e pr1 - ep_e pr2) + d * EE) :: (S_, ep_v pr1 - ep_v pr2) :: (C_, ep_m2 pr1 - ep_m2 pr2)
       :: map (fun k => (R_ k, answer pr1 k - answer pr2 k)) hid ++ map (fun kx => (R_ (fst kx), d * snd kx)) (ep_revealed pr1))) end.
  - rewrite (product_is_one_u n Hn). unfold lprod. cbn [fold_right fst snd]. rewrite fold_right_app.
    assert (forall l acc, fold_right (fun ak acc => fst ak ^^ snd ak ** acc) acc (map (fun kx => (R_ (fst kx), d * snd kx)) l) = aprod pk V l ^^ d ** acc) as F2.
    { induction l as [|[k x] l IH]; intros acc; cbn [map fold_right fst snd]; unfold aprod; cbn [fold_right fst snd].
      - fold Hn. rewrite (zpow_one n Hn). umod_ring.
      - fold (aprod pk V l). fold Hn. rewrite IH. umod_ring. }
    assert (forall l acc, fold_right (fun ak acc => fst ak ^^ snd ak ** acc) acc (map (fun k => (R_ k, answer pr1 k - answer pr2 k)) l) =
      RP (fun k => answer pr1 k - answer pr2 k) l ** acc) as F1.
    { induction l as [|k l IH]; intros acc; cbn [map fold_right fst snd uprod]; [umod_ring|]. rewrite IH. umod_ring. }
    rewrite F2, F1. match goal with |- ?x = _ <-> ?y = _ => replace x with y by umod_ring end. reflexivity.
  - cbn [map fst snd]. rewrite map_app, !map_map. cbn [fst snd]. rewrite <- (uZ_eq pk V), <- (uS_eq pk V), <- (uC_eq pk V). unfold a. rewrite uv_uof. do 4 f_equal. f_equal.
    + apply map_ext_in. intros k Hk. now rewrite (base_of_u pk V) by auto.
    + apply map_ext_in. intros [k x] Hk. cbn [fst snd]. rewrite (base_of_u pk V); [reflexivity|]. apply H2. now apply (in_map fst) in Hk.
Qed.
Lemma gap pr1 pr2 c1 c2 schema non_schema req ts : 0 <= ep_a_prime pr1 -> ep_a_prime pr2 = ep_a_prime pr1 -> ep_revealed pr2 = ep_revealed pr1 ->
  verify_equality pk pr1 c1 schema non_schema req = Ok ts -> verify_equality pk pr2 c2 schema non_schema req = Ok ts ->
  answers_relation pk (hidden_names schema non_schema req) pr1 pr2 (c1 - c2).
Proof.
  intros Ha EA ER E1 E2. destruct (verify_eq_read _ _ _ _ _ _ Ha E1) as (G & K1 & K2 & ->).
  apply verify_eq_read in E2 as (G2 & _ & _ & E2); [|lia].
  apply (answers_relation_u _ _ _ _ G K1 K2). set (hid := hidden_names schema non_schema req) in *.
  assert (uof n Hn _ G2 = uof n Hn _ G) as EG by (apply uv_inj; rewrite !uv_uof; now rewrite EA). rewrite EG, ER in E2. clear EG.
  match type of E2 with [uv ?x] = [uv ?y] => assert (x = y) as E by (apply uv_inj; congruence) end. clear E2.
  revert E. generalize (2 ^ 596) (uof n Hn _ G). intros EE a E.
  assert (RP (fun k => answer pr1 k - answer pr2 k) hid = RP (answer pr1) hid ** RP (answer pr2) hid ^-1) as ->.
  { rewrite (uprod_ext n Hn _ R_ _ (fun k => answer pr1 k + (-1) * answer pr2 k)) by (intros; split; [reflexivity|ring]).
    rewrite (uprod_add n Hn R_ (answer pr1) (fun k => -1 * answer pr2 k)), (uprod_scale n Hn R_ (answer pr2) (-1)). umod_ring. }
  match type of E with ?x = ?y => assert (x ** y ^-1 = u1 n Hn) as F by (rewrite E; apply umul_inv_r) end. rewrite <- F. umod_ring.
Qed.
End Read.

(** ** from the relation to a signature *)
Section Extract.
Variables (pk : ppk) (sk : psk) (K : issuer_key pk sk).
Hypothesis Pp : prime (sk_p sk).
Hypothesis Pq : prime (sk_q sk).
Let V : valid_pk pk := issuer_key_valid pk sk K.
Notation n := (pk_n pk).
Let Hn : 2 <= n := vk_n pk V.
Local Notation "a ** b" := (umul n Hn a b) (at level 40, left associativity).
Local Notation "a ^^ k" := (zpow n Hn a k) (at level 30).
Local Notation "a ^-1" := (uinv n Hn a) (at level 25).
Notation S_ := (uS pk V).
Notation Z_ := (uZ pk V).
Notation C_ := (uC pk V).
Notation R_ := (uR pk V).
Notation RP := (uprod n Hn R_).
Notation ord := (sk_p sk * sk_q sk).
Notation one := (u1 n Hn).

Lemma square_order (w : U n) : (w ^^ 2) ^^ ord = one.
Proof.
  destruct (issuer_n_ge _ _ K) as [_ Ho]. apply uv_inj. rewrite uv_zpow_nonneg by lia. rewrite (uv_1 n Hn).
  rewrite uv_zpow_nonneg by lia. rewrite <- Zpower_mod by lia. rewrite Z.pow_2_r.
  pose proof (uv_gcd n w) as Gw. revert Gw. generalize (uv w). intros x Gx. rewrite (ik_n _ _ K) in *. apply qr_order; try assumption; apply K.
Qed.
Lemma small_coprime d : d <> 0 -> Z.abs d < sk_p sk -> Z.abs d < sk_q sk -> rel_prime d ord.
Proof.
  intros D1 D2 D3. apply rel_prime_mult; apply rel_prime_sym, prime_rel_prime; try assumption; intros X; apply Z.divide_abs_r, Z.divide_pos_le in X; lia.
Qed.
Lemma root_square (w : U n) d : d <> 0 -> Z.abs d < sk_p sk -> Z.abs d < sk_q sk -> w ^^ d = one -> w ^^ 2 = one.
Proof.
  intros D1 D2 D3 E. destruct (rel_prime_bezout _ _ (small_coprime d D1 D2 D3)) as [u v B].
  replace 2 with (d * (2 * u) + 2 * (ord * v)) by lia.
  replace (w ^^ (d * (2 * u) + 2 * (ord * v))) with ((w ^^ d) ^^ (2 * u) ** ((w ^^ 2) ^^ ord) ^^ v) by umod_ring.
  rewrite E, square_order, !(zpow_one n Hn). umod_ring.
Qed.
Lemma minus_gcd : Z.gcd (n - 1) n = 1.
Proof.
  apply Zgcd_1_rel_prime, bezout_rel_prime. apply (Bezout_intro (n - 1) n 1 (-1) 1). ring.
Qed.
Definition minus : U n := uof n Hn (n - 1) minus_gcd.
Lemma uv_minus : uv minus = n - 1.
Proof. unfold minus. cbn [uv uof]. apply Z.mod_small. lia. Qed.
Lemma minus_square : minus ^^ 2 = one.
Proof.
  apply uv_inj. rewrite uv_zpow_nonneg by lia. rewrite uv_minus, (uv_1 n Hn), Z.pow_2_r. replace ((n - 1) * (n - 1)) with (1 + (n - 2) * n) by ring.
  rewrite Z.mod_add by lia. apply Z.mod_small. lia.
Qed.
Lemma minus_odd e : Z.odd e = true -> minus ^^ e = minus.
Proof.
  intros O. apply Zodd_bool_iff, Zodd_ex in O as [k ->]. replace (minus ^^ (2 * k + 1)) with ((minus ^^ 2) ^^ k ** minus) by umod_ring.
  rewrite minus_square, (zpow_one n Hn). umod_ring.
Qed.
Lemma issuer_n_gt2 : 2 < n.
Proof.
  pose proof (prime_half _ (ik_p _ _ K)). pose proof (prime_half _ (ik_q _ _ K)). rewrite (ik_n _ _ K). revert H H0. generalize (sk_p sk) (sk_q sk). intros; nia.
Qed.
Lemma minus_not_one : minus <> one.
Proof. intros E. apply (f_equal uv) in E. rewrite uv_minus, (uv_1 n Hn) in E. pose proof issuer_n_gt2. lia. Qed.
Lemma minus_mul_val (a : U n) : uv (minus ** a) = n - uv a.
Proof.
  rewrite (uv_mul n Hn), uv_minus. pose proof (uv_range n a) as R. pose proof (uv_gcd n a) as G.
  assert (uv a <> 0) as N0. { intros E. rewrite E, Z.gcd_0_l in G. lia. }
  replace ((n - 1) * uv a) with (n - uv a + (uv a - 1) * n) by ring. rewrite Z.mod_add by lia. apply Z.mod_small. lia.
Qed.

Variables (hid : list string) (pr1 pr2 : eqproof) (d : Z).
Hypothesis G : Z.gcd (ep_a_prime pr1) n = 1.
Hypothesis K1 : forall k, In k hid -> In k (sm_keys (pk_r pk)).
Hypothesis K2 : forall k, In k (map fst (ep_revealed pr1)) -> In k (sm_keys (pk_r pk)).
Hypothesis D1 : d <> 0.
Hypothesis Div : divisible_answers hid pr1 pr2 d.
Hypothesis Rel : answers_relation pk hid pr1 pr2 d.
Notation a := (uof n Hn (ep_a_prime pr1) G).
Notation vals := (extracted_values hid pr1 pr2 d).
Notation e' := ((ep_e pr1 - ep_e pr2) / d + 2 ^ 596).
Definition uW : U n := Z_ ^-1 ** (a ^^ e' ** S_ ^^ ((ep_v pr1 - ep_v pr2) / d) ** C_ ^^ ((ep_m2 pr1 - ep_m2 pr2) / d) ** aprod pk V vals).

Lemma div_back x : (d | x) -> d * (x / d) = x.
Proof. intros [q ->]. rewrite Z.div_mul by assumption. ring. Qed.
Lemma uW_root : uW ^^ d = one.
Proof.
  destruct Div as (De & Dv & Dm2 & Dm). apply (answers_relation_u pk V _ _ _ _ G K1 K2) in Rel. fold Hn in Rel. rewrite <- Rel. clear Rel.
  unfold uW, extracted_values. rewrite aprod_app, aprod_uprod. fold Hn.
  rewrite (uprod_ext n Hn R_ R_ (fun k => answer pr1 k - answer pr2 k) (fun k => d * ((answer pr1 k - answer pr2 k) / d))) by (intros k Hk; split; [reflexivity|symmetry; apply div_back; auto]).
  rewrite (uprod_scale n Hn R_ (fun k => (answer pr1 k - answer pr2 k) / d)).
  rewrite <- (div_back _ De) at 2. rewrite <- (div_back _ Dv) at 2. rewrite <- (div_back _ Dm2) at 2.
  generalize (2 ^ 596) (uprod n Hn R_ (fun k => (answer pr1 k - answer pr2 k) / d) hid) (aprod pk V (ep_revealed pr1))
    ((ep_e pr1 - ep_e pr2) / d) ((ep_v pr1 - ep_v pr2) / d) ((ep_m2 pr1 - ep_m2 pr2) / d) a. intros. umod_ring.
Qed.
Lemma vals_keys k : In k (map fst vals) -> In k (sm_keys (pk_r pk)).
Proof.
  unfold extracted_values. rewrite map_app, map_map. cbn [fst]. rewrite map_id. intros Hk. apply in_app_iff in Hk as [Hk|Hk]; auto.
Qed.
Lemma a_unit : unit_sig pk (extracted_sig n pr1 pr2 d false).
Proof. unfold unit_sig, extracted_sig. cbn [sg_a]. change (ep_a_prime pr1 mod n) with (uv a). apply unit_uv. Qed.
Lemma minus_a_unit : unit_sig pk (extracted_sig n pr1 pr2 d true).
Proof. unfold unit_sig, extracted_sig. cbn [sg_a]. change (ep_a_prime pr1 mod n) with (uv a). rewrite <- minus_mul_val. apply unit_uv. Qed.
Lemma uA_false : uA pk V (extracted_sig n pr1 pr2 d false) = a.
Proof. apply uv_inj. rewrite <- (uA_eq pk V _ a_unit). reflexivity. Qed.
Lemma uA_true : uA pk V (extracted_sig n pr1 pr2 d true) = minus ** a.
Proof. apply uv_inj. rewrite <- (uA_eq pk V _ minus_a_unit). rewrite minus_mul_val. reflexivity. Qed.
Lemma sig_false : uW = one -> cl_signature pk (extracted_sig n pr1 pr2 d false) vals.
Proof.
  intros E. apply (cl_signature_u pk V _ _ a_unit vals_keys). rewrite uA_false. unfold extracted_sig. cbn [sg_e sg_v sg_m2].
  unfold uW in E. fold Hn. apply (umul_cancel_l n Hn (Z_ ^-1)). rewrite E. umod_ring.
Qed.
Lemma sig_true : uW = minus -> Z.odd e' = true -> cl_signature pk (extracted_sig n pr1 pr2 d true) vals.
Proof.
  intros E O. apply (cl_signature_u pk V _ _ minus_a_unit vals_keys). rewrite uA_true. unfold extracted_sig. cbn [sg_e sg_v sg_m2].
  unfold uW in E. fold Hn. rewrite (zpow_mul_base n Hn), (minus_odd _ O). revert E. generalize e'. intros ee E.
  apply (umul_cancel_l n Hn (Z_ ^-1)).
  match type of E with ?x = _ => transitivity (minus ** x) end; [|umod_ring]. rewrite E.
  replace (minus ** minus) with (minus ^^ 2) by umod_ring. rewrite minus_square. umod_ring.
Qed.
Lemma defect : signature_defect pk (extracted_sig n pr1 pr2 d false) vals (uv uW).
Proof.
  split; [apply unit_uv|].
  match goal with |- product_is_one n ?l =>
    replace l with (map (fun ak => (uv (fst ak), snd ak))
      ((uW, -1) :: (Z_, -1) :: (a, e') :: (S_, (ep_v pr1 - ep_v pr2) / d) :: (C_, (ep_m2 pr1 - ep_m2 pr2) / d)
       :: map (fun kx => (R_ (fst kx), snd kx)) vals)) end.
  - rewrite (product_is_one_u n Hn). unfold lprod. cbn [fold_right fst snd].
    assert (forall l, fold_right (fun ak acc => fst ak ^^ snd ak ** acc) one (map (fun kx => (R_ (fst kx), snd kx)) l) = aprod pk V l) as F2.
    { induction l as [|[k x] l IH]; cbn [map fold_right fst snd]; [reflexivity|]. rewrite IH. reflexivity. }
    rewrite F2. unfold uW. generalize e' (aprod pk V vals). intros. umod_ring.
  - cbn [map fst snd]. rewrite map_map. cbn [fst snd]. rewrite <- (uZ_eq pk V), <- (uS_eq pk V), <- (uC_eq pk V). do 5 f_equal.
    apply map_ext_in. intros [k x] Hk. cbn [fst snd]. rewrite (base_of_u pk V); [reflexivity|]. apply vals_keys. now apply (in_map fst) in Hk.
Qed.
(** an even exponent cannot leave the sign *)
Lemma even_not_minus : Z.odd ord = true -> Z.even e' = true -> uW <> minus.
Proof.
  intros O Ev E. apply minus_not_one. rewrite <- (minus_odd _ O), <- E. unfold uW. apply Zeven_bool_iff, Zeven_ex in Ev as [j Ev]. rewrite Ev.
  assert (pw pk sk K (Z_ ^-1 ** (S_ ^^ ((ep_v pr1 - ep_v pr2) / d) ** C_ ^^ ((ep_m2 pr1 - ep_m2 pr2) / d) ** aprod pk V vals))) as Q.
  { apply pw_mul; [apply pw_inv, pw_Z|]. apply pw_mul; [apply pw_mul; apply pw_pow; [apply pw_S|apply pw_C]|]. apply (pw_aprod pk sk K). exact vals_keys. }
  apply (pw_order pk sk K _ 1) in Q. fold V Hn in Q. rewrite Z.mul_1_r in Q.
  match type of Q with (?x ^^ _) = _ => transitivity (x ^^ ord ** ((a ^^ 2) ^^ ord) ^^ j); [|rewrite Q, square_order, (zpow_one n Hn); umod_ring] end.
  clear. generalize (aprod pk V vals). intros. umod_ring.
Qed.
Lemma root_factor (w : U n) : w ^^ 2 = one -> w <> one -> w <> minus -> 1 < Z.gcd (uv w - 1) n < n.
Proof.
  intros E N1 N2. apply (f_equal uv) in E. rewrite uv_zpow_nonneg in E by lia. rewrite (uv_1 n Hn), Z.pow_2_r in E. apply mod_1_divide in E; [|assumption].
  pose proof (uv_range n w) as R. pose proof (Z.gcd_nonneg (uv w - 1) n).
  assert (Z.gcd (uv w - 1) n <> 0) as G0 by (intros X; apply Z.gcd_eq_0_r in X; lia).
  assert (Z.gcd (uv w - 1) n <> 1) as G1.
  { intros X. apply N2. apply uv_inj. rewrite uv_minus. replace (uv w * uv w - 1) with ((uv w - 1) * (uv w + 1)) in E by ring.
    apply Gauss in E; [|apply rel_prime_sym, Zgcd_1_rel_prime; assumption]. apply Z.divide_pos_le in E; lia. }
  assert (Z.gcd (uv w - 1) n <= n) as G2 by (apply Z.divide_pos_le; [lia|apply Z.gcd_divide_r]).
  assert (Z.gcd (uv w - 1) n <> n) as G3.
  { intros X. apply N1. apply uv_inj. rewrite (uv_1 n Hn). assert ((n | uv w - 1)) as D by (rewrite <- X at 1; apply Z.gcd_divide_l).
    destruct (Z.eq_dec (uv w - 1) 0) as [|N]; [lia|]. destruct (Z.eq_dec (uv w) 0) as [Q|Q].
    - rewrite Q in D. apply Z.divide_opp_r, Z.divide_pos_le in D; lia.
    - apply Z.divide_pos_le in D; lia. }
  lia.
Qed.
Hypothesis D2 : Z.abs d < sk_p sk.
Hypothesis D3 : Z.abs d < sk_q sk.
Lemma odd_order_or_one : Z.odd ord = true \/ Z.abs d = 1.
Proof.
  rewrite Z.odd_mul. destruct (Z.odd (sk_p sk)) eqn:O1; [destruct (Z.odd (sk_q sk)) eqn:O2; [now left|]|]; right.
  - assert ((2 | sk_q sk)) as X by (apply Z.mod_divide; [lia|]; rewrite Zmod_odd, O2; reflexivity).
    apply prime_divisors in X; [lia|assumption].
  - assert ((2 | sk_p sk)) as X by (apply Z.mod_divide; [lia|]; rewrite Zmod_odd, O1; reflexivity).
    apply prime_divisors in X; [lia|assumption].
Qed.
Lemma extract_ok : cl_signature pk (extracted_sig n pr1 pr2 d false) vals
  \/ (Z.odd e' = true /\ cl_signature pk (extracted_sig n pr1 pr2 d true) vals)
  \/ exists w, signature_defect pk (extracted_sig n pr1 pr2 d false) vals w /\ 1 < Z.gcd (w - 1) n < n.
Proof.
  pose proof (root_square _ _ D1 D2 D3 uW_root) as Sq.
  destruct (Z.eq_dec (uv uW) 1) as [E1|N1]; [left; apply sig_false, uv_inj; now rewrite (uv_1 n Hn)|].
  assert (uW <> one) as N1' by (intros E; apply N1; rewrite E; apply (uv_1 n Hn)).
  destruct (Z.eq_dec (uv uW) (n - 1)) as [E2|N2].
  - right; left. assert (uW = minus) as Em by (apply uv_inj; now rewrite uv_minus).
    destruct (Z.odd e') eqn:O; [split; [reflexivity|now apply sig_true]|]. exfalso.
    destruct odd_order_or_one as [Oo|O1].
    + apply (even_not_minus Oo); [|assumption]. rewrite <- Z.negb_odd, O. reflexivity.
    + apply N1'. pose proof uW_root as R. destruct (Z.abs_spec d) as [[? X]|[? X]]; rewrite X in O1.
      * rewrite O1, (zpow_1 n Hn) in R. exact R.
      * replace d with (-1) in R by lia. replace (uW ^^ (-1)) with (uW ^-1) in R by umod_ring. rewrite <- (uinv_inv n Hn uW), R. apply (uinv_1 n Hn).
  - right; right. exists (uv uW). split; [apply defect|]. apply root_factor; [assumption|assumption|]. intros E. apply N2. rewrite E. apply uv_minus.
Qed.
End Extract.
