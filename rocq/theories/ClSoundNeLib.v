(** Proofs for C152: special soundness of the predicate proof. *)
From Coq Require Import String.
From Verif Require Import Base BnModel BnProofs UMod Fermat StrMap HelpersModel HelpersSpec HelpersProofs ClModel ClSpec ClLib ClKey ClIssue ClBlind ClPresent ClPred ClSign
  ClSoundSpec ClSoundLib ClSoundNeSpec.
From Coq Require Import Znumtheory.
Open Scope string_scope.
Open Scope list_scope.
Open Scope Z_scope.

Lemma Forall2_nth_rmap {A B} (f : A -> res B) : forall l ys, rmap f l = Ok ys -> Forall2 (fun x y => f x = Ok y) l ys.
Proof.
  induction l as [|x l IH]; intros ys E; cbn [rmap] in E.
  - injection E as <-. constructor.
  - apply rbind_ok in E as (y & Ey & E). apply rbind_ok in E as (zs & Ez & E). injection E as <-. constructor; auto.
Qed.

Section Read.
Variables (pk : ppk) (V : valid_pk pk).
Notation n := (pk_n pk).
Let Hn : 2 <= n := vk_n pk V.
Local Notation "a ** b" := (umul n Hn a b) (at level 40, left associativity).
Local Notation "a ^^ k" := (zpow n Hn a k) (at level 30).
Local Notation "a ^-1" := (uinv n Hn a) (at level 25).
Notation S_ := (uS pk V).
Notation Z_ := (uZ pk V).

(** a non-negative number invertible modulo n and its residue class behave alike *)
Definition rep (x : Z) (a : U n) : Prop := forall k, bn_mod_exp x k n = Ok (uv (a ^^ k)).
Lemma rep_uof x (G : Z.gcd x n = 1) : 0 <= x -> rep x (uof n Hn x G).
Proof. intros Hx k. apply (mod_exp_any pk V). exact Hx. Qed.
Lemma unit_or_err x c y i : 0 < c -> bn_mod_exp x c n = Ok y -> bn_inverse y n = Ok i -> Z.gcd x n = 1.
Proof.
  intros Hc E1 E2. rewrite bn_mod_exp_nonneg in E1 by lia. rewrite Z.abs_eq in E1 by lia. injection E1 as <-.
  apply (gcd_pow_1_inv pk V x c Hc). destruct (Z.eq_dec (Z.gcd (x ^ c mod n) n) 1) as [|N]; [assumption|].
  rewrite bn_inverse_err in E2; [discriminate| |assumption|assumption]. apply Z.mod_pos_bound. lia.
Qed.

Lemma taus_read u r : forall l taus, rmap (fun i =>
      let! cur_u := sm_get_or InvalidStructure i u in
      let! cur_r := sm_get_or InvalidStructure i r in
      let! x := bn_mod_exp (pk_z pk) cur_u n in
      let! y := bn_mod_exp (pk_s pk) cur_r n in
      bn_mod_mul x y n) l = Ok taus ->
  taus = map (fun i => uv (Z_ ^^ at_name u i ** S_ ^^ at_name r i)) l /\ forall i, In i l -> exists x, sm_get i u = Some x.
Proof.
  induction l as [|i l IH]; intros taus E; cbn [rmap] in E.
  - injection E as <-. split; [reflexivity|intros ? []].
  - apply rbind_ok in E as (y & Ey & E). apply rbind_ok in E as (zs & Ez & E). injection E as <-. destruct (IH _ Ez) as [-> Hu]. clear IH Ez.
    apply rbind_ok in Ey as (cu & Eu & Ey). apply rbind_ok in Ey as (cr & Er & Ey). unfold sm_get_or in Eu, Er.
    destruct (sm_get i u) as [xu|] eqn:Gu; [|discriminate]. destruct (sm_get i r) as [xr|] eqn:Gr; [|discriminate]. injection Eu as <-. injection Er as <-.
    rewrite (z_exp pk V) in Ey. cbn [rbind] in Ey. rewrite (s_exp pk V) in Ey. cbn [rbind] in Ey. fold Hn in Ey. rewrite (mod_mul_u n Hn) in Ey.
    match type of Ey with Ok ?x = Ok ?y => assert (x = y) as <- by (revert Ey; generalize x y; congruence) end.
    split; [cbn [map]; apply f_equal2; [unfold at_name; now rewrite Gu, Gr|reflexivity]|]. intros j [<-|Hj]; eauto.
Qed.
Lemma q_read (t u : smap Z) (T : string -> U n) : forall l (q : Z) (acc : U n) q',
  (forall i, In i l -> forall x, sm_get i t = Some x -> rep x (T i)) -> q mod n = uv acc ->
  rfold (fun q i => let! cur_t := sm_get_or InvalidStructure i t in let! cur_u := sm_get_or InvalidStructure i u in
       let! x := bn_mod_exp cur_t cur_u n in Ok (bn_mul x q)) l q = Ok q' ->
  q' mod n = uv (uprod n Hn T (at_name u) l ** acc).
Proof.
  induction l as [|i l IH]; intros q acc q' HT Eq E; cbn [rfold uprod] in *.
  - injection E as <-. rewrite Eq. f_equal. umod_ring.
  - apply rbind_ok in E as (q1 & E1 & E). apply rbind_ok in E1 as (ct & Et & E1). apply rbind_ok in E1 as (cu & Eu & E1).
    unfold sm_get_or in Et, Eu. destruct (sm_get i t) as [xt|] eqn:Gt; [|discriminate]. destruct (sm_get i u) as [xu|] eqn:Gu; [|discriminate].
    injection Et as <-. injection Eu as <-. rewrite (HT i (or_introl eq_refl) _ Gt) in E1. cbn [rbind] in E1.
    match type of E1 with Ok ?x = Ok ?y => assert (x = y) as <- by (revert E1; generalize x y; congruence) end.
    apply (IH _ (T i ^^ xu ** acc)) in E.
    + rewrite E. unfold at_name at 2. rewrite Gu. f_equal. generalize (uprod n Hn T (at_name u) l). intros. umod_ring.
    + intros j Hj. apply HT. now right.
    + unfold bn_mul. rewrite (uv_mul n Hn), Zmult_mod, Eq, (uv_mod n). reflexivity.
Qed.

(** the six values an accepting run puts into the hash *)
Lemma verify_ne_read pr c ts : 0 < c -> (forall k x, sm_get k (np_t pr) = Some x -> 0 <= x) ->
  verify_ne_predicate pk pr c = Ok ts ->
  exists (T : string -> U n),
    (forall i, In i (iter_keys ++ ["DELTA"]) -> uv (T i) = at_name (np_t pr) i mod n) /\
    ts = map uv (map (fun i => T i ^^ (- c) ** (Z_ ^^ at_name (np_u pr) i ** S_ ^^ at_name (np_r pr) i)) iter_keys
      ++ [(Z_ ^^ get_delta_prime (p_type (np_predicate pr)) (p_value (np_predicate pr)) ** T "DELTA" ^^ (if is_less (p_type (np_predicate pr)) then -1 else 1)) ^^ (- c)
            ** (Z_ ^^ np_mj pr ** S_ ^^ delta_answer pr);
          T "DELTA" ^^ (- c) ** (S_ ^^ np_alpha pr ** uprod n Hn T (at_name (np_u pr)) iter_keys)]).
Proof.
  intros Hc HT E. unfold verify_ne_predicate in E. cbv zeta in E. set (less := is_less (p_type (np_predicate pr))) in *. set (dp := get_delta_prime _ _) in *.
  apply rbind_ok in E as (tl & E1 & E). apply rbind_ok in E as (fs & E2 & E). apply rbind_ok in E as (de & E3 & E). apply rbind_ok in E as (dpr & E4 & E).
  apply rbind_ok in E as (x1 & E5 & E). apply rbind_ok in E as (x2 & E6 & E). apply rbind_ok in E as (x3 & E7 & E). apply rbind_ok in E as (t4 & E8 & E).
  apply rbind_ok in E as (y1 & E9 & E). apply rbind_ok in E as (y2 & E10 & E). apply rbind_ok in E as (t5 & E11 & E). injection E as <-.
  (* calc_tne *)
  unfold calc_tne in E1. apply rbind_ok in E1 as (taus & F1 & E1). apply rbind_ok in E1 as (rd & F2 & E1). cbv zeta in E1.
  apply rbind_ok in E1 as (z1 & F3 & E1). apply rbind_ok in E1 as (z2 & F4 & E1). apply rbind_ok in E1 as (tt & F5 & E1). apply rbind_ok in E1 as (q & F6 & E1).
  apply rbind_ok in E1 as (z3 & F7 & E1). apply rbind_ok in E1 as (q' & F8 & E1). injection E1 as <-.
  apply taus_read in F1 as [-> Hu].
  (* the elements T are units *)
  unfold sm_get_or in E3. destruct (sm_get "DELTA" (np_t pr)) as [de'|] eqn:Gd; [|discriminate]. injection E3 as <-.
  pose proof (unit_or_err _ _ _ _ Hc E9 E10) as Ud.
  apply Forall2_nth_rmap in E2.
  assert (forall i, In i iter_keys -> exists x, sm_get i (np_t pr) = Some x /\ Z.gcd x n = 1) as HTi.
  { clear - E2 Hc V. change (firstn ITERATION _) with (map (fun i => uv (Z_ ^^ at_name (np_u pr) i ** S_ ^^ at_name (np_r pr) i)) iter_keys) in E2.
    revert E2. generalize (fun i => uv (Z_ ^^ at_name (np_u pr) i ** S_ ^^ at_name (np_r pr) i)). generalize iter_keys fs.
    induction l as [|j l IH]; intros fs' g E2 i Hi; [destruct Hi|]. cbn [map combine] in E2. inversion E2 as [|? y ? ys X1 X2]; subst. destruct Hi as [<-|Hi]; [|eapply IH; eassumption].
    apply rbind_ok in X1 as (ct & Et & X1). unfold sm_get_or in Et. destruct (sm_get j (np_t pr)) as [xt|]; [|discriminate]. injection Et as <-.
    apply rbind_ok in X1 as (x & Ex & X1). apply rbind_ok in X1 as (y' & Ey & _). exists xt. split; [reflexivity|]. exact (unit_or_err _ _ _ _ Hc Ex Ey). }
  set (T := fun i => lift n (at_name (np_t pr) i mod n) Hn).
  assert (forall i x, sm_get i (np_t pr) = Some x -> Z.gcd x n = 1 -> uv (T i) = x mod n /\ rep x (T i)) as HR.
  { intros i x Gi Gu. unfold T. unfold at_name. rewrite Gi.
    assert (uv (lift n (x mod n) Hn) = x mod n) as EU. { apply uv_lift. split; [apply Z.mod_pos_bound; lia|]. rewrite gcd_mod_n by exact Hn. exact Gu. }
    split; [exact EU|]. assert (lift n (x mod n) Hn = uof n Hn x Gu) as -> by (apply uv_inj; rewrite EU; reflexivity). apply rep_uof. eauto. }
  destruct (HR "DELTA" _ Gd Ud) as [Vd Rd].
  exists T. split.
  { intros i Hi. apply in_app_iff in Hi as [Hi|[<-|[]]].
    - destruct (HTi i Hi) as (x & Gx & Ux). unfold at_name. rewrite Gx. now apply HR.
    - unfold at_name. now rewrite Gd. }
  (* delta answer *)
  unfold sm_get_or in F2. destruct (sm_get "DELTA" (np_r pr)) as [rd'|] eqn:Grd; [|discriminate]. injection F2 as <-.
  assert ((if less then bn_set_negative rd' true else rd') = delta_answer pr) as EDA.
  { unfold delta_answer, at_name. rewrite Grd. fold less. destruct less; [|reflexivity]. unfold bn_set_negative. destruct (Z.ltb_spec rd' 0); cbn [negb]; lia. }
  rewrite EDA in F4. clear EDA.
  rewrite (z_exp pk V) in F3. rewrite (s_exp pk V) in F4, F7. fold Hn in F3, F4, F7.
  match type of F3 with Ok ?x = Ok ?y => assert (x = y) as <- by (revert F3; generalize x y; congruence) end. clear F3.
  match type of F4 with Ok ?x = Ok ?y => assert (x = y) as <- by (revert F4; generalize x y; congruence) end. clear F4.
  match type of F7 with Ok ?x = Ok ?y => assert (x = y) as <- by (revert F7; generalize x y; congruence) end. clear F7.
  rewrite (mod_mul_u n Hn) in F5. match type of F5 with Ok ?x = Ok ?y => assert (x = y) as <- by (revert F5; generalize x y; congruence) end. clear F5.
  apply (q_read _ _ T _ _ (u1 n Hn)) in F6; [| |reflexivity].
  2:{ intros i Hi x Gx. destruct (HTi i Hi) as (x' & Gx' & Ux). assert (x' = x) as -> by congruence. now apply HR. }
  rewrite (mod_mul_unred n Hn _ _ _ F6) in F8. match type of F8 with Ok ?x = Ok ?y => assert (x = y) as <- by (revert F8; generalize x y; congruence) end. clear F6.
  (* the tests *)
  rewrite map_app. f_equal.
  - change (firstn ITERATION _) with (map (fun i => uv (Z_ ^^ at_name (np_u pr) i ** S_ ^^ at_name (np_r pr) i)) iter_keys) in E2.
    rewrite map_map. clear - E2 HTi HR. revert fs E2 HTi. generalize iter_keys.
    induction l as [|j l IH]; intros fs E2 HTi; cbn [map combine] in *; inversion E2 as [|? y ? ys X1 X2]; subst; [reflexivity|]. f_equal; [|apply IH; [assumption|intros; apply HTi; now right]].
    destruct (HTi j (or_introl eq_refl)) as (x & Gx & Ux). destruct (HR _ _ Gx Ux) as [_ Rx]. unfold sm_get_or in X1. rewrite Gx in X1. cbn [rbind] in X1. rewrite (Rx c) in X1. cbn [rbind] in X1.
    rewrite (inverse_u n Hn) in X1. cbn [rbind] in X1. cbv beta in X1. rewrite <- (uv_mul n Hn) in X1. rewrite (mod_mul_u n Hn) in X1. 
    match type of X1 with Ok ?x = Ok ?y => assert (x = y) as <- by (revert X1; generalize x y; congruence) end. f_equal. umod_ring.
  - rewrite (z_exp pk V) in E5. fold Hn in E5. match type of E5 with Ok ?x = Ok ?y => assert (x = y) as <- by (revert E5; generalize x y; congruence) end. clear E5.
    assert ((bn_mul (uv (Z_ ^^ dp)) dpr) mod n = uv (Z_ ^^ dp ** T "DELTA" ^^ (if less then -1 else 1))) as EX.
    { unfold bn_mul. destruct less.
      - assert (de' mod n = uv (T "DELTA")) as Vd' by auto.
        assert (dpr = uv (T "DELTA" ^-1)) as ->.
        { destruct (bn_inverse_ok de' n (HT _ _ Gd) Hn Ud) as (y & Ey & Ry & Iy). rewrite Ey in E4. injection E4 as <-.
          assert (is_unit n y = true) as Uy.
          { apply is_unit_iff. split; [lia|]. apply Zgcd_1_rel_prime. apply bezout_rel_prime.
            apply (Bezout_intro y n 1 de' (- (y * de' / n))). pose proof (Z_div_mod_eq_full (y * de') n). rewrite (Z.mul_comm y de') in *. lia. }
          change y with (uv (mkU n y Uy)). f_equal. apply (umul_cancel_l n Hn (T "DELTA")). rewrite (umul_inv_r n Hn). apply uv_inj. rewrite (uv_1 n Hn), (uv_mul n Hn).
          cbn [uv]. rewrite Vd. rewrite Z.mul_mod_idemp_l by lia. exact Iy. }
        rewrite <- (uv_mul n Hn). f_equal. umod_ring.
      - injection E4 as <-. rewrite <- Z.mul_mod_idemp_r by lia. rewrite <- Vd. rewrite <- (uv_mul n Hn). f_equal. umod_ring. }
    rewrite (mod_exp_unred n Hn _ _ c ltac:(lia) EX) in E6. match type of E6 with Ok ?x = Ok ?y => assert (x = y) as <- by (revert E6; generalize x y; congruence) end. clear E6.
    rewrite (inverse_u n Hn) in E7. match type of E7 with Ok ?x = Ok ?y => assert (x = y) as <- by (revert E7; generalize x y; congruence) end. clear E7.
    change (nth ITERATION _ 0) with (uv (Z_ ^^ np_mj pr ** S_ ^^ delta_answer pr)) in E8.
    rewrite (mod_mul_u n Hn) in E8. match type of E8 with Ok ?x = Ok ?y => assert (x = y) as <- by (revert E8; generalize x y; congruence) end. clear E8.
    rewrite (Rd c) in E9. match type of E9 with Ok ?x = Ok ?y => assert (x = y) as <- by (revert E9; generalize x y; congruence) end. clear E9.
    rewrite (inverse_u n Hn) in E10. match type of E10 with Ok ?x = Ok ?y => assert (x = y) as <- by (revert E10; generalize x y; congruence) end. clear E10.
    match type of E11 with context [nth (ITERATION + 1) ?l 0] => change (nth (ITERATION + 1) l 0) with (uv (S_ ^^ np_alpha pr ** (uprod n Hn T (at_name (np_u pr)) iter_keys ** u1 n Hn))) in E11 end.
    rewrite (mod_mul_u n Hn) in E11. match type of E11 with Ok ?x = Ok ?y => assert (x = y) as <- by (revert E11; generalize x y; congruence) end. clear E11.
    cbn [map]. generalize (uprod n Hn T (at_name (np_u pr)) iter_keys) (if less then -1 else 1). intros P s. f_equal; [f_equal; umod_ring|]. f_equal. f_equal. umod_ring.
Qed.
End Read.

Section Gap.
Variables (pk : ppk) (sk : psk) (K : issuer_key pk sk).
Hypothesis Pp : prime (sk_p sk).
Hypothesis Pq : prime (sk_q sk).
Let V : valid_pk pk := issuer_key_valid pk sk K.
Notation n := (pk_n pk).
Let Hn : 2 <= n := vk_n pk V.
Local Notation "a ** b" := (umul n Hn a b) (at level 40, left associativity).
Local Notation "a ^^ k" := (zpow n Hn a k) (at level 30).
Local Notation "a ^-1" := (uinv n Hn a) (at level 25).
Notation S_ := (uS pk V).
Notation Z_ := (uZ pk V).
Notation one := (u1 n Hn).

Lemma quot_root (x : U n) d a b (g h : U n) A B : d <> 0 -> Z.abs d < sk_p sk -> Z.abs d < sk_q sk -> (d | a) -> (d | b) ->
  x ^^ d = g ^^ a ** h ^^ b -> A = a / d -> B = b / d -> (x ^-1 ** (g ^^ A ** h ^^ B)) ^^ 2 = one.
Proof.
  intros D1 D2 D3 Da Db E -> ->. apply (root_square pk sk K Pp Pq _ d D1 D2 D3). fold V Hn.
  transitivity ((x ^^ d) ^-1 ** (g ^^ (d * (a / d)) ** h ^^ (d * (b / d)))); [umod_ring|].
  rewrite !(div_back d D1) by assumption. rewrite E. umod_ring.
Qed.
Lemma move (x g h : U n) c1 c2 : x ^^ (- c1) ** g = x ^^ (- c2) ** h -> x ^^ (c1 - c2) = g ** h ^-1.
Proof.
  intros E. apply (umul_cancel_l n Hn (x ^^ (- c1) ** h)).
  transitivity (x ^^ (- c2) ** h); [umod_ring|]. rewrite <- E. umod_ring.
Qed.
Lemma combine_roots (z s t0 t1 t2 t3 td : U n) B sd m rho alpha u0 u1 u2 u3 r0 r1 r2 r3 :
  (t0 ^-1 ** (z ^^ u0 ** s ^^ r0)) ^^ 2 = one -> (t1 ^-1 ** (z ^^ u1 ** s ^^ r1)) ^^ 2 = one ->
  (t2 ^-1 ** (z ^^ u2 ** s ^^ r2)) ^^ 2 = one -> (t3 ^-1 ** (z ^^ u3 ** s ^^ r3)) ^^ 2 = one ->
  ((z ^^ B ** td ^^ sd) ^-1 ** (z ^^ m ** s ^^ rho)) ^^ 2 = one ->
  (td ^-1 ** (s ^^ alpha ** (t0 ^^ u0 ** (t1 ^^ u1 ** (t2 ^^ u2 ** (t3 ^^ u3 ** one)))))) ^^ 2 = one ->
  z ^^ (2 * (m - B - sd * (u0 * u0 + u1 * u1 + u2 * u2 + u3 * u3))) ** s ^^ (2 * (rho - sd * (alpha + (u0 * r0 + u1 * r1 + u2 * r2 + u3 * r3)))) = one.
Proof.
  intros E0 E1 E2 E3 E4 E5.
  match type of E0 with ?x0 = _ => match type of E1 with ?x1 = _ => match type of E2 with ?x2 = _ => match type of E3 with ?x3 = _ => match type of E4 with ?x4 = _ => match type of E5 with ?x5 = _ =>
    transitivity (x4 ** x5 ^^ (- sd) ** (x0 ^^ (- sd * u0) ** x1 ^^ (- sd * u1) ** x2 ^^ (- sd * u2) ** x3 ^^ (- sd * u3))) end end end end end end.
  - clear. umod_ring.
  - rewrite E0, E1, E2, E3, E4, E5, !(zpow_one n Hn). umod_ring.
Qed.
Lemma six {A} (a0 a1 a2 a3 a4 a5 b0 b1 b2 b3 b4 b5 : A) : [a0; a1; a2; a3; a4; a5] = [b0; b1; b2; b3; b4; b5] ->
  a0 = b0 /\ a1 = b1 /\ a2 = b2 /\ a3 = b3 /\ a4 = b4 /\ a5 = b5.
Proof. intros E. injection E. intros. auto 10. Qed.
Lemma ne_gap pr1 pr2 c1 c2 ts : 0 < c1 -> 0 < c2 -> c1 <> c2 -> Z.abs (c1 - c2) < sk_p sk -> Z.abs (c1 - c2) < sk_q sk ->
  (forall k x, sm_get k (np_t pr1) = Some x -> 0 <= x) -> np_t pr2 = np_t pr1 -> np_predicate pr2 = np_predicate pr1 ->
  bound_in_range (np_predicate pr1) -> divisible_ne pr1 pr2 (c1 - c2) ->
  verify_ne_predicate pk pr1 c1 = Ok ts -> verify_ne_predicate pk pr2 c2 = Ok ts ->
  product_is_one n [(pk_z pk, 2 * value_gap pr1 pr2 (c1 - c2)); (pk_s pk, 2 * blinding_gap pr1 pr2 (c1 - c2))].
Proof.
  intros C1 C2 Hc D2 D3 HT ET EP Hb (Dm & Da & Dd & Dur) E1 E2. assert (c1 - c2 <> 0) as D1 by lia. set (d := c1 - c2) in *.
  destruct (verify_ne_read pk V pr1 c1 ts C1 HT E1) as (T & VT & ->).
  destruct (verify_ne_read pk V pr2 c2 _ C2 ltac:(rewrite ET; exact HT) E2) as (T2 & VT2 & E).
  fold Hn in E. rewrite EP in E. clear E1 E2.
  assert (forall i, In i (iter_keys ++ ["DELTA"]) -> T2 i = T i) as TT.
  { intros i Hi. apply uv_inj. rewrite (VT i Hi), (VT2 i Hi), ET. reflexivity. }
  assert (forall (a b : list (U n)), map uv a = map uv b -> a = b) as MI.
  { induction a as [|x a IH]; intros [|y b] Q; try discriminate; [reflexivity|]. cbn [map] in Q.
    assert (uv x = uv y /\ map uv a = map uv b) as [Q1 Q2] by (split; congruence). f_equal; [now apply uv_inj|auto]. }
  apply MI in E. clear MI. unfold iter_keys in E. cbn [map app uprod] in E.
  rewrite (TT "0"), (TT "1"), (TT "2"), (TT "3"), (TT "DELTA") in E by (cbn; tauto). clear TT VT VT2 T2.
  assert (get_delta_prime (p_type (np_predicate pr1)) (p_value (np_predicate pr1)) = bound (np_predicate pr1)) as EB.
  { unfold bound_in_range, bound in *. unfold get_delta_prime. destruct (p_type (np_predicate pr1)); try reflexivity; apply wrap_id; unfold is_i32; lia. }
  rewrite EB in E. clear EB.
  fold (side pr1) in E. set (s := side pr1) in *. 
  set (B := bound (np_predicate pr1)) in *.
  apply six in E as (E0' & E1' & E2' & E3' & E4' & E5').
  apply move in E0', E1', E2', E3', E4', E5'. fold d in E0', E1', E2', E3', E4', E5'.
  pose proof (Dur "0" ltac:(cbn; tauto)) as [U0 R0]. pose proof (Dur "1" ltac:(cbn; tauto)) as [U1 R1].
  pose proof (Dur "2" ltac:(cbn; tauto)) as [U2 R2]. pose proof (Dur "3" ltac:(cbn; tauto)) as [U3 R3]. clear Dur.
  assert (forall l, product_is_one n (map (fun ak => (uv (fst ak), snd ak)) l) <-> lprod Hn l = one) as PO by (intros; apply product_is_one_u).
  rewrite (uZ_eq pk V), (uS_eq pk V). 
  apply (proj2 (PO [(Z_, 2 * value_gap pr1 pr2 d); (S_, 2 * blinding_gap pr1 pr2 d)])). unfold lprod. cbn [fold_right fst snd]. clear PO.
  match goal with |- ?a ** (?b ** _) = _ => transitivity (a ** b); [umod_ring|] end.
  unfold value_gap, blinding_gap, sum4. fold s. fold B. revert E0' E1' E2' E3' E4' E5'.
  generalize (T "0") (T "1") (T "2") (T "3") (T "DELTA"). intros t0 t1 t2 t3 td E0 E1 E2 E3 E4 E5.
  assert (forall (g h : U n) a b a' b', g ^^ a ** h ^^ b ** (g ^^ a' ** h ^^ b') ^-1 = g ^^ (a - a') ** h ^^ (b - b')) as SH by (intros; umod_ring).
  rewrite SH in E0, E1, E2, E3, E4.
  apply (combine_roots Z_ S_ t0 t1 t2 t3 td B s (ext_value pr1 pr2 d) (ext_delta pr1 pr2 d) (ext_alpha pr1 pr2 d)).
  - exact (quot_root t0 d _ _ Z_ S_ _ _ D1 D2 D3 U0 R0 E0 eq_refl eq_refl).
  - exact (quot_root t1 d _ _ Z_ S_ _ _ D1 D2 D3 U1 R1 E1 eq_refl eq_refl).
  - exact (quot_root t2 d _ _ Z_ S_ _ _ D1 D2 D3 U2 R2 E2 eq_refl eq_refl).
  - exact (quot_root t3 d _ _ Z_ S_ _ _ D1 D2 D3 U3 R3 E3 eq_refl eq_refl).
  - exact (quot_root _ d _ _ Z_ S_ _ _ D1 D2 D3 Dm Dd E4 eq_refl eq_refl).
  - apply (root_square pk sk K Pp Pq _ d D1 D2 D3). fold V Hn.
    pose proof (div_back d D1 _ U0) as Q0. pose proof (div_back d D1 _ U1) as Q1. pose proof (div_back d D1 _ U2) as Q2. pose proof (div_back d D1 _ U3) as Q3. pose proof (div_back d D1 _ Da) as Qa.
    fold (ext_u pr1 pr2 d "0") in Q0. fold (ext_u pr1 pr2 d "1") in Q1. fold (ext_u pr1 pr2 d "2") in Q2. fold (ext_u pr1 pr2 d "3") in Q3. fold (ext_alpha pr1 pr2 d) in Qa.
    revert E5 Q0 Q1 Q2 Q3 Qa. clear.
    generalize (ext_u pr1 pr2 d "0") (ext_u pr1 pr2 d "1") (ext_u pr1 pr2 d "2") (ext_u pr1 pr2 d "3") (ext_alpha pr1 pr2 d).
    generalize (at_name (np_u pr1) "0") (at_name (np_u pr1) "1") (at_name (np_u pr1) "2") (at_name (np_u pr1) "3").
    generalize (at_name (np_u pr2) "0") (at_name (np_u pr2) "1") (at_name (np_u pr2) "2") (at_name (np_u pr2) "3").
    generalize (np_alpha pr1) (np_alpha pr2). intros a1 a2 v0 v1 v2 v3 w0 w1 w2 w3 u0 u1 u2 u3 al E5 Q0 Q1 Q2 Q3 Qa.
    transitivity ((td ^^ d) ^-1 ** (S_ ^^ (d * al) ** (t0 ^^ (d * u0) ** (t1 ^^ (d * u1) ** (t2 ^^ (d * u2) ** (t3 ^^ (d * u3) ** one)))))); [umod_ring|].
    rewrite E5, Q0, Q1, Q2, Q3, Qa. umod_ring.
Qed.
End Gap.
