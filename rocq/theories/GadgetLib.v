(** The gadgets over field and range arithmetic: soundness, completeness and agreement lemmas. *)
From Verif Require Import Base Alg R1csModel R1csSpec R1csLib GadgetModel.
From Coq Require Import Znumtheory.
Open Scope list_scope.
Open Scope Z_scope.
Open Scope cs_scope.

(** the integer view of the field: [q] elements, represented by 0 .. q-1 *)
Record zlaws {K : fieldOps} (ZK : zops K) (q : Z) : Prop := {
  zl_q : 1 < q;
  zl_range : forall x, 0 <= zto ZK x < q;
  zl_of_to : forall x, zof ZK (zto ZK x) = x;
  zl_to_of : forall z, zto ZK (zof ZK z) = z mod q;
  zl_0 : zof ZK 0 = f0;
  zl_1 : zof ZK 1 = f1;
  zl_add : forall a b, zof ZK (a + b) = fadd (zof ZK a) (zof ZK b);
  zl_sub : forall a b, zof ZK (a - b) = fsub (zof ZK a) (zof ZK b);
  zl_mul : forall a b, zof ZK (a * b) = fmul (zof ZK a) (zof ZK b) }.
Arguments zl_q {K ZK q}. Arguments zl_range {K ZK q}. Arguments zl_of_to {K ZK q}. Arguments zl_to_of {K ZK q}.
Arguments zl_0 {K ZK q}. Arguments zl_1 {K ZK q}. Arguments zl_add {K ZK q}. Arguments zl_sub {K ZK q}. Arguments zl_mul {K ZK q}.

Section Lib.
Context {K : fieldOps} (HK : field_laws K).
Add Field Kf : (proj1 HK).
Context (ZK : zops K) (q : Z) (LZ : zlaws ZK q).

Lemma zof_inj_mod a b : zof ZK a = zof ZK b -> a mod q = b mod q.
Proof. intros H. apply (f_equal (zto ZK)) in H. now rewrite !(zl_to_of LZ) in H. Qed.
Lemma zof_inj a b : 0 <= a < q -> 0 <= b < q -> zof ZK a = zof ZK b -> a = b.
Proof. intros Ha Hb H. apply zof_inj_mod in H. now rewrite !Z.mod_small in H by assumption. Qed.
Lemma zto_small a : 0 <= a < q -> zto ZK (zof ZK a) = a.
Proof. intros H. rewrite (zl_to_of LZ). now apply Z.mod_small. Qed.
Lemma zto_inj x y : zto ZK x = zto ZK y -> x = y.
Proof. intros H. rewrite <- (zl_of_to LZ x), <- (zl_of_to LZ y). now rewrite H. Qed.

Lemma f_sub_eq (a b : K) : fadd a (fopp b) = f0 -> a = b.
Proof. intros H. transitivity (fadd (fadd a (fopp b)) b); [ring|rewrite H; ring]. Qed.
Lemma f_sub_eq' (a b : K) : fsub a b = f0 -> a = b.
Proof. intros H. transitivity (fadd (fsub a b) b); [ring|rewrite H; ring]. Qed.
Lemma f_mul0 (a b : K) : fmul a b = f0 -> a = f0 \/ b = f0.
Proof. apply (fmul_integral _ HK). Qed.

(** ** soundness *)
Section Sound.
Context {Pt : Type} (w : @assignment K).
Notation VS := (vstate K Pt).
Notation sound := (soundM (Pt := Pt) w).

Lemma sound_clws l c : sound (constrain_lc_with_scalar (@V K Pt) l c) (fun _ => lc_value w l = c).
Proof.
  apply sound_one. eapply sound_weaken; [apply sound_constrain|]. intros [] H O. rewrite (lv_sub HK), (lv_const HK) in H by exact O. now apply f_sub_eq'.
Qed.
Lemma sound_bit v : sound (bit_gadget (@V K Pt) v) (fun _ => w (aq_var v) = f0 \/ w (aq_var v) = f1).
Proof.
  apply sound_one. unfold bit_gadget. eapply sound_bind; [apply sound_alloc_vars|]. intros [[a b] o].
  eapply sound_bind; [apply sound_constrain|]. intros []. eapply sound_bind; [apply sound_constrain|]. intros [].
  eapply sound_weaken; [apply sound_constrain|]. intros [] H3 H2 H1 G O.
  rewrite (lv_add HK), (lv_sub HK), !(lv_var HK), (lv_const HK) in H3 by exact O. rewrite (lv_var HK) in H2. rewrite (lv_add HK), (lv_var HK), lv_cons, lv_nil in H1.
  assert (w b = w (aq_var v)) as Eb by (apply f_sub_eq; rewrite <- H1; ring).
  rewrite G in H2. apply f_mul0 in H2 as [Z|Z].
  - right. rewrite Z, Eb in H3. transitivity (fadd (fadd f0 (fsub (w (aq_var v)) f1)) f1); [ring|rewrite H3; ring].
  - left. congruence.
Qed.
Lemma sound_positive_step val i acc : sound (positive_no_step ZK (@V K Pt) val i acc)
  (fun acc' => exists b : K, (b = f0 \/ b = f1) /\ lc_value w (fst acc') = fadd (lc_value w (fst acc)) (fmul (snd acc) b) /\ snd acc' = fadd (snd acc) (snd acc)).
Proof.
  apply sound_one. unfold positive_no_step. destruct acc as [cv e]. eapply sound_bind; [apply sound_alloc_vars|]. intros [[a b] o].
  eapply sound_bind; [apply sound_constrain|]. intros []. eapply sound_bind; [apply sound_constrain|]. intros []. apply sound_ret. intros H2 H1 G O.
  rewrite (lv_add HK), (lv_sub HK), !(lv_var HK), (lv_const HK) in H2 by exact O. rewrite (lv_var HK), G in H1.
  exists (w b). cbn [fst snd]. split; [|split; [|reflexivity]].
  - apply f_mul0 in H1 as [Z|Z]; [right|now left]. rewrite Z in H2. transitivity (fadd (fadd f0 (fsub (w b) f1)) f1); [ring|rewrite H2; ring].
  - rewrite (lv_app HK), lv_cons, lv_nil. ring.
Qed.
Lemma zof_pow2_S k : zof ZK (2 ^ Z.of_nat (S k)) = fadd (zof ZK (2 ^ Z.of_nat k)) (zof ZK (2 ^ Z.of_nat k)).
Proof. rewrite <- (zl_add LZ). f_equal. rewrite Nat2Z.inj_succ, Z.pow_succ_r by lia. lia. Qed.
Lemma sound_positive v n : sound (positive_no_gadget ZK (@V K Pt) v n) (fun _ => exists z, 0 <= z < 2 ^ Z.of_nat n /\ w (aq_var v) = zof ZK z).
Proof.
  unfold positive_no_gadget.
  set (Inv := fun (d : list nat) (acc : lc K * K) => snd acc = zof ZK (2 ^ Z.of_nat (length d)) /\ exists z, 0 <= z < 2 ^ Z.of_nat (length d) /\ lc_value w (fst acc) = fadd (fopp (w (aq_var v))) (zof ZK z)).
  eapply sound_bind.
  { apply (sound_fold w (positive_no_step ZK V (aq_val v)) Inv) with (done := []).
    - intros d i acc. eapply sound_weaken; [apply sound_positive_step|]. intros acc' (b & Hb & E1 & E2) (I1 & z & Hz & I2).
      unfold Inv. rewrite app_length, Nat.add_1_r. split; [rewrite E2, I1; symmetry; apply zof_pow2_S|].
      rewrite E1, I2, I1. pose proof (Z.pow_pos_nonneg 2 (Z.of_nat (length d)) ltac:(lia) ltac:(lia)) as PP.
      destruct Hb as [-> | ->].
      + exists z. rewrite Nat2Z.inj_succ, Z.pow_succ_r by lia. split; [lia|ring].
      + exists (2 ^ Z.of_nat (length d) + z). rewrite Nat2Z.inj_succ, Z.pow_succ_r by lia. split; [lia|]. rewrite (zl_add LZ). ring.
    - unfold Inv. cbn [length fst snd]. split; [now rewrite <- (zl_1 LZ)|]. exists 0. split; [cbn; lia|]. rewrite lv_cons, lv_nil, (zl_0 LZ). ring. }
  intros [cv e]. eapply sound_weaken; [apply sound_constrain|]. intros [] H (I1 & z & Hz & I2). cbn [fst snd app] in *. rewrite seq_length in Hz.
  exists z. split; [exact Hz|]. rewrite H in I2. transitivity (fadd (w (aq_var v)) f0); [ring|rewrite I2; ring].
Qed.
Lemma sound_bound v a b max min n :
  1 < q -> 2 ^ 64 < q -> 2 ^ Z.of_nat (S n) <= q -> 0 <= min < 2 ^ 64 -> 0 <= max < 2 ^ 64 ->
  sound (bound_check_gadget ZK (@V K Pt) v a b max min n) (fun _ => min <= zto ZK (w (aq_var v)) <= max).
Proof.
  intros Q1 Q2 Qn Hmin Hmax. unfold bound_check_gadget. apply sound_one.
  eapply sound_bind; [apply sound_constrain|]. intros []. eapply sound_bind; [apply sound_constrain|]. intros [].
  eapply sound_bind; [apply sound_clws|]. intros []. eapply sound_bind; [apply sound_positive|]. intros [].
  eapply sound_weaken; [apply sound_positive|]. intros [] (zb & Hb & Eb) (za & Ha & Ea) H3 H2 H1 O.
  rewrite !(lv_sub HK), !(lv_var HK), (lv_const HK) in H1, H2 by exact O. rewrite (lv_add HK), !(lv_var HK) in H3.
  rewrite Ea, Eb in *. set (v0 := w (aq_var v)) in *.
  assert (v0 = zof ZK (min + za)) as Ev. { rewrite (zl_add LZ). transitivity (fadd (fsub (fsub v0 (zof ZK min)) (zof ZK za)) (fadd (zof ZK min) (zof ZK za))); [ring|rewrite H1; ring]. }
  assert (fadd (zof ZK za) (zof ZK zb) = fsub (zof ZK max) (zof ZK min)) as Eab.
  { rewrite Ev, (zl_add LZ) in H2. transitivity (fsub (fsub (zof ZK max) (zof ZK min)) (fsub (fsub (zof ZK max) (fadd (zof ZK min) (zof ZK za))) (zof ZK zb))); [ring|rewrite H2; ring]. }
  rewrite Nat2Z.inj_succ, Z.pow_succ_r in Qn by lia.
  rewrite <- (zl_add LZ) in H3, Eab. rewrite <- (zl_sub LZ) in Eab.
  assert (min <= max) as Hle.
  { destruct (Z_le_gt_dec min max) as [L|G]; [exact L|]. exfalso. rewrite Eab in H3. apply zof_inj_mod in H3. unfold sub64 in H3.
    replace ((max - min) mod 2 ^ 64) with (max - min + 2 ^ 64) in H3 by (apply Z.mod_unique_pos with (-1); lia).
    rewrite (Z.mod_small (max - min + 2 ^ 64)) in H3 by lia.
    replace ((max - min) mod q) with (max - min + q) in H3 by (apply Z.mod_unique_pos with (-1); lia). lia. }
  apply zof_inj_mod in Eab. rewrite !Z.mod_small in Eab by lia.
  rewrite Ev, (zl_to_of LZ). rewrite Z.mod_small by lia. lia.
Qed.
Lemma sound_nonzero x xi : sound (is_nonzero_gadget (@V K Pt) x xi) (fun _ => fmul (w x) (w xi) = f1).
Proof.
  unfold is_nonzero_gadget. apply sound_one. eapply sound_bind; [apply sound_multiply; exact HK|]. intros [[a b] o].
  eapply sound_bind; [apply sound_constrain|]. intros []. eapply sound_bind; [apply sound_multiply; exact HK|]. intros [[a2 b2] o2].
  eapply sound_weaken; [apply sound_constrain|]. intros [] H (_ & _ & E) _ _ O.
  rewrite (lv_sub HK), (lv_var HK), (lv_const HK) in H by exact O. apply f_sub_eq' in H. rewrite E, (lv_var HK), lv_cons, lv_nil in H. rewrite <- H. ring.
Qed.
Lemma nonzero_of_inv (a b : K) : fmul a b = f1 -> a <> f0.
Proof. intros H ->. apply (f1_neq_0 _ HK). rewrite <- H. ring. Qed.
Lemma sound_vector_sum vs n : sound (vector_sum_constraints ZK (@V K Pt) vs n) (fun _ => fsum (map w vs) = zof ZK n).
Proof.
  apply sound_one. eapply sound_weaken; [apply sound_constrain|]. intros [] H O. rewrite lv_cons, O in H.
  assert (lc_value w (map (fun i => (i, f1)) vs) = fsum (map w vs)) as E.
  { clear - HK. induction vs as [|v vs IH]; [reflexivity|]. cbn [map fsum]. rewrite lv_cons, IH. ring. }
  rewrite E in H. transitivity (fadd (fadd (fmul (fopp (zof ZK n)) f1) (fsum (map w vs))) (zof ZK n)); [ring|rewrite H; ring].
Qed.
Lemma idx_ok {A} (l : list A) i x : idx l i = Ok x -> nth_error l i = Some x.
Proof. unfold idx. destruct (nth_error l i); intros H; [now injection H as <-|discriminate]. Qed.
Lemma sound_set_membership v dv set : sound (set_membership_gadget (@V K Pt) v dv set) (fun _ => In (w v) set).
Proof.
  unfold set_membership_gadget. apply sound_one.
  set (Inv := fun (d : list (nat * K)) (p : lc K) => w VOne = f1 -> lc_value w p = fprod (map (fun is => fsub (snd is) (w v)) d)).
  eapply sound_bind.
  { apply (sound_fold w (set_membership_step V v dv) Inv) with (done := []).
    - intros d [i s] p. unfold set_membership_step. eapply sound_bind; [apply sound_lift; intros x Hx; exact (idx_ok _ _ _ Hx)|]. intros dd.
      eapply sound_bind; [apply sound_clws|]. intros []. eapply sound_bind; [apply sound_multiply; exact HK|]. intros [[a b] o]. apply sound_ret.
      intros (_ & _ & E) H _ HI O. cbn [snd] in *. unfold Inv. rewrite (lv_var HK), E, (lv_var HK), (HI O).
      rewrite (lv_add HK), !(lv_var HK) in H. rewrite map_app. cbn [map snd]. clear - HK H.
      assert (w dd = fsub s (w v)) as -> by (rewrite <- H; ring).
      generalize (map (fun is : nat * K => fsub (snd is) (w v)) d). intros l. induction l as [|x l IH]; cbn [fprod app]; [ring|]. rewrite <- IH. ring.
    - intros O. rewrite (lv_var HK). exact O. }
  intros p. eapply sound_weaken; [apply sound_constrain|]. intros [] H HI O. rewrite (HI O) in H. cbn [app] in H.
  destruct (in_dec (feq_dec _ HK) (w v) set) as [I|N]; [exact I|exfalso].
  revert H. apply (fprod_nonzero _ HK). intros x Hx. apply in_map_iff in Hx as ([i s] & <- & I). cbn [snd]. apply in_combine_r in I. intros E. apply f_sub_eq' in E. subst. contradiction.
Qed.
Lemma sound_set_non_membership v dv iv set : sound (set_non_membership_gadget (@V K Pt) v dv iv set) (fun _ => ~ In (w v) set).
Proof.
  unfold set_non_membership_gadget.
  set (Inv := fun (d : list (nat * K)) (_ : unit) => forall is, In is d -> snd is <> w v).
  eapply sound_weaken.
  { apply (sound_fold w (set_non_membership_step V v dv iv) Inv) with (done := []); [|intros is []].
    intros d [i s] []. unfold set_non_membership_step. eapply sound_bind; [apply sound_lift; intros x Hx; exact (idx_ok _ _ _ Hx)|]. intros dd.
    eapply sound_bind; [apply sound_clws|]. intros []. eapply sound_bind; [apply sound_lift; intros x Hx; exact (idx_ok _ _ _ Hx)|]. intros di.
    eapply sound_weaken; [apply sound_nonzero|]. intros [] N _ H _ HI is I. apply in_app_or in I as [I|[<-|[]]]; [now apply HI|]. cbn [snd] in *.
    rewrite (lv_add HK), !(lv_var HK) in H. apply nonzero_of_inv in N. intros E. apply N. transitivity (fsub (fadd (w dd) (w v)) (w v)); [ring|rewrite H, E; ring]. }
  intros [] HI I. cbn [app] in HI. unfold Inv in HI.
  assert (exists i, In (i, w v) (combine (seq 0 (length set)) set)) as [i Hi].
  { apply In_nth_error in I as [i Hi]. exists i. apply nth_error_In with i.
    assert (forall (l : list K) k i x, nth_error l i = Some x -> nth_error (combine (seq k (length l)) l) i = Some ((k + i)%nat, x)) as Q.
    { clear. induction l as [|y l IH]; intros k i x H; [destruct i; discriminate|]. destruct i as [|i]; cbn in *; [injection H as <-; rewrite Nat.add_0_r; reflexivity|]. rewrite (IH _ _ _ H). f_equal. f_equal. lia. }
    rewrite (Q _ 0%nat _ _ Hi). reflexivity. }
  apply (HI _ Hi). reflexivity.
Qed.
(** [items] as field elements, and the fresh factor of each item *)
Lemma sound_vector_product items ts v : sound (vector_product_gadget ZK (@V K Pt) items ts v)
  (fun _ => exists bs : list K, length bs = length items /\
     (forall b i, In (b, i) (combine bs items) -> fmul b (zof ZK i) = fmul b (w (aq_var v))) /\
     w (aq_var v) = fsum (map (fun bi => fmul (fst bi) (zof ZK (snd bi))) (combine bs items))).
Proof.
  unfold vector_product_gadget.
  set (Inv := fun (d : list (nat * Z)) (l : lc K) => exists bs : list K, length bs = length d /\
     (forall b i, In (b, i) (combine bs (map snd d)) -> fmul b (zof ZK i) = fmul b (w (aq_var v))) /\
     lc_value w l = fsub (fsum (map (fun bi => fmul (fst bi) (zof ZK (snd bi))) (combine bs (map snd d)))) (w (aq_var v))).
  eapply sound_bind.
  { apply (sound_fold w (vector_product_step ZK V ts v) Inv) with (done := []).
    - intros d [k it] l. unfold vector_product_step. eapply sound_bind; [apply sound_lift; intros x Hx; exact (idx_ok _ _ _ Hx)|]. intros t.
      eapply sound_bind; [apply sound_alloc_vars|]. intros [[b iv] o1]. eapply sound_bind; [apply sound_clws|]. intros [].
      eapply sound_bind; [apply sound_multiply; exact HK|]. intros [[a2 b2] o2]. eapply sound_bind; [apply sound_constrain|]. intros []. apply sound_ret.
      intros H3 (_ & _ & E2) H1 G _ (bs & L & I1 & I2). cbn [fst snd] in *. rewrite (lv_sub HK), !(lv_var HK) in H3. apply f_sub_eq' in H3. rewrite (lv_var HK) in H1. rewrite !(lv_var HK) in E2.
      assert (length bs = length (map snd d)) as L' by now rewrite map_length.
      exists (bs ++ [w b]). rewrite !app_length, map_app. split; [cbn; lia|].
      assert (combine (bs ++ [w b]) (map snd d ++ map snd [(k, it)]) = combine bs (map snd d) ++ [(w b, it)]) as C.
      { revert L'. generalize (map snd d). clear. induction bs as [|x bs IH]; intros [|y l] L; try discriminate; [reflexivity|]. cbn [app combine]. f_equal. apply IH. cbn in L. lia. }
      rewrite C. split.
      + intros b' i' I. apply in_app_or in I as [I|[E|[]]]; [now apply I1|]. injection E as <- <-. rewrite <- H1, <- G, H3. exact E2.
      + rewrite map_app, (fsum_app HK), (lv_app HK), I2, lv_cons, lv_nil. cbn [map fst snd fsum]. rewrite G, H1. ring.
    - exists []. cbn [length map combine fsum]. split; [reflexivity|]. split; [intros b i []|]. rewrite lv_cons, lv_nil. ring. }
  intros l. eapply sound_weaken; [apply sound_constrain|]. intros [] H (bs & L & I1 & I2). cbn [app] in *.
  assert (forall (l : list Z), map snd (combine (seq 0 (length l)) l) = l) as MS.
  { clear. intros l. generalize 0%nat. induction l as [|x l IH]; intros k; [reflexivity|]. cbn. now rewrite IH. }
  rewrite MS in I1, I2. rewrite combine_length, seq_length, Nat.min_id in L. exists bs. split; [exact L|]. split; [exact I1|]. rewrite H in I2. symmetry. apply f_sub_eq'. now symmetry.
Qed.
Lemma sound_mimc_step c lr : sound (mimc_step (@V K Pt) c lr) (fun lr' => w VOne = f1 ->
   lc_value w (fst lr') = fadd (fmul (fmul (fadd (lc_value w (fst lr)) c) (fadd (lc_value w (fst lr)) c)) (fadd (lc_value w (fst lr)) c)) (lc_value w (snd lr)) /\
   lc_value w (snd lr') = lc_value w (fst lr)).
Proof.
  destruct lr as [l r]. unfold mimc_step. eapply sound_bind; [apply sound_multiply; exact HK|]. intros [[a b] o].
  eapply sound_bind; [apply sound_multiply; exact HK|]. intros [[a2 b2] o2]. apply sound_ret. intros (_ & _ & E2) (E1 & _ & E0) O. cbn [fst snd] in *.
  rewrite (lv_add HK), (lv_var HK), E2, !(lv_var HK), E0, E1, !(lv_add HK), lv_cons, lv_nil, O. split; [ring|reflexivity].
Qed.
Lemma sound_enforce_mimc l r cs : sound (enforce_mimc_2_inputs (@V K Pt) l r cs) (fun o => w VOne = f1 -> lc_value w o = mimc (lc_value w l) (lc_value w r) cs).
Proof.
  unfold enforce_mimc_2_inputs, mimc.
  set (F := fun '(xl, xr) c => let tmp1 := fadd xl c in (fadd (fmul (fmul tmp1 tmp1) tmp1) xr, xl) : K * K).
  set (Inv := fun (d : list K) (lr : lc K * lc K) => w VOne = f1 -> (lc_value w (fst lr), lc_value w (snd lr)) = fold_left F d (lc_value w l, lc_value w r)).
  eapply sound_bind.
  { apply (sound_fold w (mimc_step V) Inv) with (done := []); [|intros _; reflexivity].
    intros d c lr. eapply sound_weaken; [apply sound_mimc_step|]. intros lr' H HI O. destruct (H O) as [H1 H2]. unfold Inv. rewrite fold_left_app, <- (HI O). cbn [fold_left F]. now rewrite H1, H2. }
  intros [a b]. apply sound_ret. intros HI O. specialize (HI O). cbn [app fst snd] in HI. now rewrite <- HI.
Qed.
Lemma sound_mimc l r cs image : sound (mimc_gadget (@V K Pt) l r cs image) (fun _ => mimc (lc_value w l) (lc_value w r) cs = image).
Proof.
  unfold mimc_gadget. apply sound_one. eapply sound_bind; [apply sound_enforce_mimc|]. intros o. eapply sound_weaken; [apply sound_clws|]. intros [] H E O. now rewrite <- (E O).
Qed.
End Sound.

(** ** completeness *)
Implicit Types (s : pstate K).
Ltac carry X := repeat match goal with
  | H : hasv ?s _ _ |- _ => match type of X with pext s _ => apply (hasv_ext _ _ _ _ X) in H end
  | H : has ?s _ _ |- _ => match type of X with pext s _ => apply (has_ext _ _ _ _ X) in H end
  end.
Lemma hasv_one s : hasv s VOne f1.
Proof. split; [exact I|reflexivity]. Qed.
Lemma has_eq s (l : lc K) x y : has s l x -> x = y -> has s l y.
Proof. now intros H <-. Qed.
Lemma compl_clws s l c : pgood s -> has s l c -> compl s (constrain_lc_with_scalar P l c) (fun _ s' => p_pending s' = p_pending s).
Proof.
  intros G H. apply (compl_constrain); [exact G|]. eapply has_eq; [apply (has_sub HK); [exact H|apply (has_const HK)]|ring].
Qed.
Lemma compl_bit s v x : pgood s -> hasv s (aq_var v) x -> aq_val v = Some x -> x = f0 \/ x = f1 ->
  compl s (bit_gadget P v) (fun _ s' => p_pending s' = p_pending s).
Proof.
  intros G H E B. unfold bit_gadget. rewrite E. cbn [option_map].
  eapply compl_bind; [apply (compl_allocate_multiplier _ (fsub f1 x) x G)|]. intros [[a b] o] s1 G1 X1 (A1 & A2 & A3 & P1). carry X1.
  eapply compl_bind; [apply (compl_constrain _ _ G1)|].
  { eapply has_eq; [apply (has_add HK); [apply (has_var HK), A2|apply has_cons; [exact H|apply has_nil]]|ring]. }
  intros [] s2 G2 X2 P2. carry X2. eapply compl_bind; [apply (compl_constrain _ _ G2)|].
  { eapply has_eq; [apply (has_var HK), A3|]. destruct B as [-> | ->]; ring. }
  intros [] s3 G3 X3 P3. carry X3. eapply compl_weaken; [apply (compl_constrain _ _ G3)|].
  { eapply has_eq; [apply (has_add HK); [apply (has_var HK), A1|apply (has_sub HK); [apply (has_var HK), A2|apply (has_const HK)]]|ring]. }
  intros [] s4 _ _ P4. congruence.
Qed.
Lemma compl_positive s v x n : pgood s -> hasv s (aq_var v) x -> aq_val v = Some x -> zto ZK x < 2 ^ Z.of_nat n ->
  compl s (positive_no_gadget ZK P v n) (fun _ s' => p_pending s' = p_pending s).
Proof.
  intros G H E B. unfold positive_no_gadget. rewrite E. pose proof (zl_range LZ x) as R.
  set (z := zto ZK x) in *.
  set (Inv := fun (d : list nat) (acc : lc K * K) (s' : pstate K) => d = seq 0 (length d) -> hasv s' (aq_var v) x /\ p_pending s' = p_pending s /\ snd acc = zof ZK (2 ^ Z.of_nat (length d)) /\
     has s' (fst acc) (fsub (zof ZK (z mod 2 ^ Z.of_nat (length d))) x)).
  enough (compl s (cfold (positive_no_step ZK P (Some x)) (seq 0 n) ([(aq_var v, fopp f1)], f1)) (fun acc s' => hasv s' (aq_var v) x /\ p_pending s' = p_pending s /\ has s' (fst acc) f0)) as C.
  { eapply compl_bind; [exact C|]. intros [cv e] s1 G1 X1 (A1 & A2 & A3). cbn [fst] in A3. eapply compl_weaken; [apply (compl_constrain _ _ G1 A3)|]. intros [] s2 _ _ P2. congruence. }
  assert (forall k m s1 acc, (k + m = n)%nat -> pgood s1 -> hasv s1 (aq_var v) x -> p_pending s1 = p_pending s -> snd acc = zof ZK (2 ^ Z.of_nat k) -> has s1 (fst acc) (fsub (zof ZK (z mod 2 ^ Z.of_nat k)) x) ->
     compl s1 (cfold (positive_no_step ZK P (Some x)) (seq k m) acc) (fun acc s' => hasv s' (aq_var v) x /\ p_pending s' = p_pending s /\ has s' (fst acc) f0)) as L.
  { intros k m. revert k. induction m as [|m IH]; intros k s1 [cv e] Hk G1 H1 P1 He Hcv; cbn [fst snd] in *; cbn [seq cfold].
    - apply compl_ret; [exact G1|]. split; [exact H1|split; [exact P1|]]. cbn [fst]. eapply has_eq; [exact Hcv|]. rewrite Z.mod_small by (replace k with n by lia; lia).
      unfold z. rewrite (zl_of_to LZ). ring.
    - set (bit := Z.odd (Z.shiftr z (Z.of_nat k))).
      eapply compl_bind with (Q := fun acc s' => hasv s' (aq_var v) x /\ p_pending s' = p_pending s /\ snd acc = zof ZK (2 ^ Z.of_nat (S k)) /\ has s' (fst acc) (fsub (zof ZK (z mod 2 ^ Z.of_nat (S k))) x)).
      2:{ intros acc' s2 G2 X2 (A1 & A2 & A3 & A4). apply IH; try assumption. lia. }
      unfold positive_no_step. cbn [option_map]. fold z bit.
      assert (compl s1 (p_allocate_multiplier (Some (if bit then (f0, f1) else (f1, f0)))) (fun '(a, b, o) s' => hasv s' a (if bit then f0 else f1) /\ hasv s' b (if bit then f1 else f0) /\ hasv s' o f0 /\ p_pending s' = p_pending s1)) as C.
      { destruct bit; (eapply compl_weaken; [apply (compl_allocate_multiplier _ _ _ G1)|]); intros [[a b] o] s2 _ _ (A1 & A2 & A3 & A4); (split; [exact A1|split; [exact A2|split; [|exact A4]]]); destruct A3 as [A3 A3']; split; try exact A3; rewrite A3'; ring. }
      eapply compl_bind; [exact C|]. intros [[a b] o] s2 G2 X2 (A1 & A2 & A3 & P2). carry X2.
      eapply compl_bind; [apply (compl_constrain _ _ G2), (has_var HK), A3|]. intros [] s3 G3 X3 P3. carry X3.
      eapply compl_bind; [apply (compl_constrain _ _ G3)|].
      { eapply has_eq; [apply (has_add HK); [apply (has_var HK), A1|apply (has_sub HK); [apply (has_var HK), A2|apply (has_const HK)]]|]. destruct bit; ring. }
      intros [] s4 G4 X4 P4. carry X4. apply compl_ret; [exact G4|]. cbn [fst snd].
      split; [exact H1|]. split; [congruence|]. split; [rewrite He; symmetry; apply zof_pow2_S|].
      eapply has_eq; [apply (has_app HK); [exact Hcv|apply has_cons; [exact A2|apply has_nil]]|].
      rewrite He.
      assert (z mod 2 ^ Z.of_nat (S k) = z mod 2 ^ Z.of_nat k + (if bit then 2 ^ Z.of_nat k else 0)) as ->.
      { unfold bit. rewrite Z.shiftr_div_pow2 by lia. rewrite Nat2Z.inj_succ, Z.pow_succ_r, (Z.mul_comm 2), Z.rem_mul_r by lia.
        rewrite Zmod_odd. destruct (Z.odd (z / 2 ^ Z.of_nat k)); lia. }
      rewrite (zl_add LZ). destruct bit; [|rewrite (zl_0 LZ)]; ring. }
  apply L; try assumption; try reflexivity; cbn [snd fst].
  - now rewrite <- (zl_1 LZ).
  - eapply has_eq; [apply has_cons; [exact H|apply has_nil]|]. change (2 ^ Z.of_nat 0) with 1. rewrite Z.mod_1_r, (zl_0 LZ). ring.
Qed.
Lemma compl_bound s v a b max min n x xa xb : pgood s -> hasv s (aq_var v) x -> hasv s (aq_var a) xa -> hasv s (aq_var b) xb -> aq_val a = Some xa -> aq_val b = Some xb ->
  xa = fsub x (zof ZK min) -> xb = fsub (zof ZK max) x -> zof ZK (sub64 max min) = fsub (zof ZK max) (zof ZK min) ->
  zto ZK xa < 2 ^ Z.of_nat n -> zto ZK xb < 2 ^ Z.of_nat n ->
  compl s (bound_check_gadget ZK P v a b max min n) (fun _ s' => p_pending s' = p_pending s).
Proof.
  intros G Hv Ha Hb Ea Eb Da Db Ds Ba Bb. unfold bound_check_gadget.
  eapply compl_bind; [apply (compl_constrain _ _ G)|].
  { eapply has_eq; [apply (has_sub HK); [apply (has_sub HK); [apply (has_var HK), Hv|apply (has_const HK)]|apply (has_var HK), Ha]|]. rewrite Da. ring. }
  intros [] s1 G1 X1 P1. carry X1. eapply compl_bind; [apply (compl_constrain _ _ G1)|].
  { eapply has_eq; [apply (has_sub HK); [apply (has_sub HK); [apply (has_const HK)|apply (has_var HK), Hv]|apply (has_var HK), Hb]|]. rewrite Db. ring. }
  intros [] s2 G2 X2 P2. carry X2. eapply compl_bind; [apply (compl_clws _ _ _ G2)|].
  { eapply has_eq; [apply (has_add HK); [apply (has_var HK), Ha|apply (has_var HK), Hb]|]. rewrite Ds, Da, Db. ring. }
  intros [] s3 G3 X3 P3. carry X3. eapply compl_bind; [eapply compl_positive; eauto|]. intros [] s4 G4 X4 P4. carry X4.
  eapply compl_weaken; [eapply compl_positive; eauto|]. intros [] s5 _ _ P5. congruence.
Qed.
Lemma compl_nonzero s x xi a ai : pgood s -> hasv s x a -> hasv s xi ai -> fmul a ai = f1 ->
  compl s (is_nonzero_gadget P x xi) (fun _ s' => p_pending s' = p_pending s).
Proof.
  intros G H1 H2 E. unfold is_nonzero_gadget.
  eapply compl_bind. { eapply (compl_multiply HK _ _ _ _ _ G); [apply (has_var HK), H1|]. apply (has_sub HK); [apply (has_var HK), hasv_one|apply (has_const HK)]. }
  intros [[u1 u2] o1] s1 G1 X1 (_ & _ & A3 & P1). carry X1. eapply compl_bind; [apply (compl_constrain _ _ G1)|].
  { eapply has_eq; [apply (has_var HK), A3|ring]. }
  intros [] s2 G2 X2 P2. carry X2. eapply compl_bind. { eapply (compl_multiply HK _ _ _ _ _ G2); [apply (has_var HK), H1|]. apply has_cons; [exact H2|apply has_nil]. }
  intros [[u3 u4] o2] s3 G3 X3 (_ & _ & B3 & P3). carry X3. eapply compl_weaken; [apply (compl_constrain _ _ G3)|].
  { eapply has_eq; [apply (has_sub HK); [apply (has_var HK), B3|apply (has_const HK)]|]. transitivity (fsub (fmul a ai) f1); [ring|rewrite E; ring]. }
  intros [] s4 _ _ P4. congruence.
Qed.
Lemma compl_vector_sum s vs xs n : pgood s -> Forall2 (hasv s) vs xs -> fsum xs = zof ZK n -> compl s (vector_sum_constraints ZK P vs n) (fun _ s' => p_pending s' = p_pending s).
Proof.
  intros G F E. apply (compl_constrain _ _ G). eapply has_eq.
  - apply has_cons; [apply hasv_one|]. instantiate (1 := fsum xs). clear E G. induction F as [|v x vs xs H F IH]; [apply has_nil|]. cbn [map fsum].
    eapply has_eq; [apply has_cons; [exact H|exact IH]|ring].
  - rewrite E. ring.
Qed.
Lemma Forall2_hasv_ext s s' vs (xs : list K) : pext s s' -> Forall2 (hasv s) vs xs -> Forall2 (hasv s') vs xs.
Proof. intros X F. induction F; constructor; [eapply hasv_ext; eauto|assumption]. Qed.
Lemma Forall2_nth {A B} (R : A -> B -> Prop) l1 l2 i b : Forall2 R l1 l2 -> nth_error l2 i = Some b -> exists a, nth_error l1 i = Some a /\ R a b.
Proof. intros F. revert i. induction F as [|x y l1 l2 H F IH]; intros [|i] E; try discriminate; [injection E as <-; exists x; auto|]. now apply IH. Qed.
Lemma idx_some {A} (l : list A) i x : nth_error l i = Some x -> idx l i = Ok x.
Proof. unfold idx. now intros ->. Qed.
Lemma combine_seq_nth {A} (l : list A) k x : In (k, x) (combine (seq 0 (length l)) l) -> nth_error l k = Some x.
Proof.
  enough (forall b, In (k, x) (combine (seq b (length l)) l) -> (b <= k)%nat /\ nth_error l (k - b) = Some x) as Q.
  { intros H. apply Q in H as [_ H]. now rewrite Nat.sub_0_r in H. }
  induction l as [|y l IH]; intros b H; [destruct H|]. cbn [length seq combine] in H. destruct H as [E|H].
  - injection E as <- <-. rewrite Nat.sub_diag. auto.
  - apply IH in H as [H1 H2]. split; [lia|]. replace (k - b)%nat with (S (k - S b)) by lia. exact H2.
Qed.
Lemma compl_set_membership s v dv set x : pgood s -> hasv s v x -> Forall2 (hasv s) dv (map (fun e => fsub e x) set) -> In x set ->
  compl s (set_membership_gadget P v dv set) (fun _ s' => p_pending s' = p_pending s).
Proof.
  intros G Hv Hd Hin. unfold set_membership_gadget.
  set (Inv := fun (d : list (nat * K)) (p : lc K) (s' : pstate K) => pext s s' /\ p_pending s' = p_pending s /\ has s' p (fprod (map (fun is => fsub (snd is) x) d))).
  eapply compl_bind.
  - apply (compl_fold (set_membership_step P v dv) Inv) with (done := []); [exact G| |].
    + split; [apply pext_refl|split; [reflexivity|]]. apply (has_var HK). split; [exact I|reflexivity].
    + intros d [k e] rest p s1 _ G1 (X1 & P1 & Hp) Ik. unfold set_membership_step. cbn [fst snd].
      apply combine_seq_nth in Ik. apply (map_nth_error (fun e => fsub e x)) in Ik.
      destruct (Forall2_nth _ _ _ _ _ Hd Ik) as (dk & Ek & Hdk).
      eapply compl_bind; [apply (compl_lift _ _ dk (fun d s' => d = dk /\ s' = s1) G1); [now apply idx_some|auto]|]. intros ? ? _ _ [-> ->]. carry X1.
      eapply compl_bind; [apply (compl_clws _ _ _ G1)|]. { eapply has_eq; [apply (has_add HK); [apply (has_var HK), Hdk|apply (has_var HK), Hv]|ring]. }
      intros [] s2 G2 X2 P2. carry X2. eapply compl_bind; [eapply (compl_multiply HK _ _ _ _ _ G2 Hp), (has_var HK), Hdk|]. intros [[a b] o] s3 G3 X3 (_ & _ & A3 & P3).
      apply compl_ret; [exact G3|]. split; [eapply pext_trans; [exact X1|eapply pext_trans; eauto]|]. split; [congruence|].
      apply (has_var HK). destruct A3 as [A3 A4]. split; [exact A3|]. rewrite A4, map_app. cbn [map snd]. generalize (map (fun is : nat * K => fsub (snd is) x) d). clear - HK. induction l as [|y l IH]; cbn [app fprod]; [ring|]. rewrite <- IH. ring.
  - intros p s1 G1 X1 (_ & P1 & Hp). cbn [app] in Hp. eapply compl_weaken; [apply (compl_constrain _ _ G1)|].
    { eapply has_eq; [exact Hp|]. assert (In f0 (map (fun is => fsub (snd is) x) (combine (seq 0 (length set)) set))) as I0.
      { apply In_nth_error in Hin as [i Hi]. apply in_map_iff. exists (i, x). split; [cbn [snd]; ring|]. clear - Hi.
        enough (forall b, In (b + i, x)%nat (combine (seq b (length set)) set)) as Q by apply (Q 0%nat).
        revert i Hi. induction set as [|y set IH]; intros [|i] Hi b; try discriminate; cbn [length seq combine]; [injection Hi as ->; left; f_equal; lia|]. right. replace (b + S i)%nat with (S b + i)%nat by lia. now apply IH. }
      revert I0. generalize (map (fun is : nat * K => fsub (snd is) x) (combine (seq 0 (length set)) set)). clear - HK. induction l as [|y l IH]; [intros []|]. cbn [fprod]. intros [-> |I]; [ring|rewrite (IH I); ring]. }
    intros [] s2 _ _ P2. congruence.
Qed.
Lemma compl_set_non_membership s v dv iv set x : pgood s -> hasv s v x -> Forall2 (hasv s) dv (map (fun e => fsub e x) set) -> Forall2 (hasv s) iv (map (fun e => finv (fsub e x)) set) -> ~ In x set ->
  compl s (set_non_membership_gadget P v dv iv set) (fun _ s' => p_pending s' = p_pending s).
Proof.
  intros G Hv Hd Hi Hin. unfold set_non_membership_gadget.
  set (Inv := fun (d : list (nat * K)) (_ : unit) (s' : pstate K) => pext s s' /\ p_pending s' = p_pending s).
  eapply compl_weaken.
  - apply (compl_fold (set_non_membership_step P v dv iv) Inv) with (done := []); [exact G| |].
    + split; [apply pext_refl|reflexivity].
    + intros d [k e] rest [] s1 _ G1 (X1 & P1) Ik. unfold set_non_membership_step. cbn [fst snd].
      pose proof (in_combine_r _ _ _ _ Ik) as Ie.
      apply combine_seq_nth in Ik. pose proof (map_nth_error (fun e => fsub e x) _ _ Ik) as Ik1. pose proof (map_nth_error (fun e => finv (fsub e x)) _ _ Ik) as Ik2.
      destruct (Forall2_nth _ _ _ _ _ Hd Ik1) as (dk & Ek & Hdk). destruct (Forall2_nth _ _ _ _ _ Hi Ik2) as (ik & Fk & Hik).
      eapply compl_bind; [apply (compl_lift _ _ dk (fun d s' => d = dk /\ s' = s1) G1); [now apply idx_some|auto]|]. intros ? ? _ _ [-> ->]. carry X1.
      eapply compl_bind; [apply (compl_clws _ _ _ G1)|]. { eapply has_eq; [apply (has_add HK); [apply (has_var HK), Hdk|apply (has_var HK), Hv]|ring]. }
      intros [] s2 G2 X2 P2. carry X2.
      eapply compl_bind; [apply (compl_lift _ _ ik (fun d s' => d = ik /\ s' = s2) G2); [now apply idx_some|auto]|]. intros ? ? _ _ [-> ->].
      eapply compl_weaken; [eapply compl_nonzero; [exact G2|exact Hdk|exact Hik|]|].
      { field. intros E. apply Hin. apply f_sub_eq' in E. now subst. }
      intros [] s3 G3 X3 P3. split; [eapply pext_trans; [exact X1|eapply pext_trans; eauto]|congruence].
  - intros [] s' _ _ (_ & P1). exact P1.
Qed.
Lemma compl_vector_product s items ts v x bs : pgood s -> hasv s (aq_var v) x -> map aq_val ts = map Some bs -> length bs = length items ->
  (forall b i, In (b, i) (combine bs items) -> fmul b (zof ZK i) = fmul b x) ->
  fsum (map (fun bi => fmul (fst bi) (zof ZK (snd bi))) (combine bs items)) = x ->
  compl s (vector_product_gadget ZK P items ts v) (fun _ s' => p_pending s' = p_pending s).
Proof.
  intros G Hv Ht L Hb Hs. unfold vector_product_gadget.
  (* walk along [items], [bs], [ts] together *)
  assert (forall done_n its l s1 acc, (done_n + length its = length items)%nat -> its = skipn done_n items ->
     pgood s1 -> pext s s1 -> p_pending s1 = p_pending s -> has s1 l acc ->
     compl s1 (cfold (vector_product_step ZK P ts v) (combine (seq done_n (length its)) its) l)
       (fun l' s' => pext s s' /\ p_pending s' = p_pending s /\ has s' l' (fadd acc (fsum (map (fun bi => fmul (fst bi) (zof ZK (snd bi))) (combine (skipn done_n bs) its)))))) as W.
  { intros n its. revert n. induction its as [|it its IH]; intros n l s1 acc Hn Hi G1 X1 P1 Hl.
    - cbn [length seq combine cfold]. apply compl_ret; [exact G1|]. split; [exact X1|split; [exact P1|]]. eapply has_eq; [exact Hl|]. destruct (skipn n bs); cbn [combine map fsum]; ring.
    - cbn [length seq combine cfold] in *.
      assert (nth_error items n = Some it) as En. { assert (nth_error (skipn n items) 0 = Some it) as Q by now rewrite <- Hi. rewrite <- (firstn_skipn n items), nth_error_app2 by (rewrite firstn_length; lia). rewrite firstn_length, Nat.min_l by lia. now rewrite Nat.sub_diag. }
      assert (its = skipn (S n) items) as Hi'. { clear - Hi. revert n Hi. induction items as [|y l0 IH0]; intros n Hi; [destruct n; discriminate|]. destruct n as [|n]; [cbn [skipn] in *; now injection Hi|]. cbn [skipn] in *. now apply IH0. }
      destruct (nth_error bs n) as [bn|] eqn:Eb; [|apply nth_error_None in Eb; lia].
      assert (skipn n bs = bn :: skipn (S n) bs) as Sb. { clear - Eb. revert n Eb. induction bs as [|y bs IH]; intros [|n] E; try discriminate; [injection E as ->; reflexivity|]. cbn [skipn]. now apply IH. }
      assert (exists t, nth_error ts n = Some t /\ aq_val t = Some bn) as (t & Et & At).
      { apply (map_nth_error Some) in Eb. rewrite <- Ht in Eb. rewrite nth_error_map in Eb. destruct (nth_error ts n) as [t|]; [|discriminate]. exists t. split; [reflexivity|]. now injection Eb. }
      assert (In (bn, it) (combine bs items)) as Ic.
      { apply nth_error_In with n. clear - Eb En. revert items n Eb En. induction bs as [|y bs IH]; intros [|z items] [|n] Eb En; try discriminate; cbn in *; [congruence|now apply IH]. }
      eapply compl_bind with (Q := fun l' s' => pext s s' /\ p_pending s' = p_pending s /\ has s' l' (fadd acc (fmul bn (zof ZK it)))).
      + unfold vector_product_step. cbn [fst snd]. eapply compl_bind; [apply (compl_lift _ _ t (fun d s' => d = t /\ s' = s1) G1); [now apply idx_some|auto]|]. intros ? ? _ _ [-> ->]. rewrite At. cbn [option_map].
        pose proof (hasv_ext _ _ _ _ X1 Hv) as Hv1.
        eapply compl_bind; [apply (compl_allocate_multiplier _ bn (zof ZK it) G1)|]. intros [[b iv] o1] s2 G2 X2 (A1 & A2 & A3 & P2). carry X2.
        eapply compl_bind; [apply (compl_clws _ _ _ G2), (has_var HK), A2|]. intros [] s3 G3 X3 P3. carry X3.
        eapply compl_bind; [eapply (compl_multiply HK _ _ _ _ _ G3); [apply (has_var HK), A1|apply (has_var HK), Hv1]|]. intros [[a2 b2] o2] s4 G4 X4 (_ & _ & B3 & P4). carry X4.
        eapply compl_bind; [apply (compl_constrain _ _ G4)|]. { eapply has_eq; [apply (has_sub HK); [apply (has_var HK), A3|apply (has_var HK), B3]|]. rewrite (Hb _ _ Ic). ring. }
        intros [] s5 G5 X5 P5. carry X5. apply compl_ret; [exact G5|]. split; [eapply pext_trans; [exact X1|eapply pext_trans; [exact X2|eapply pext_trans; [exact X3|eapply pext_trans; eauto]]]|]. split; [congruence|].
        eapply has_eq; [apply (has_app HK); [exact Hl|apply has_cons; [exact A3|apply has_nil]]|ring].
      + intros l' s2 G2 X2 (X3 & P2 & H2). eapply compl_weaken; [apply (IH (S n) l' s2 _ ltac:(lia) Hi' G2 X3 P2 H2)|]. intros l2 s3 _ _ (X4 & P3 & H3). split; [exact X4|split; [exact P3|]].
        eapply has_eq; [exact H3|]. rewrite Sb. cbn [combine map fsum fst snd]. ring. }
  eapply compl_bind; [apply (W 0%nat items [(aq_var v, fopp f1)] s (fopp x)); try reflexivity; try exact G; [apply pext_refl|]|].
  { eapply has_eq; [apply has_cons; [exact Hv|apply has_nil]|ring]. }
  intros l s1 G1 X1 (_ & P1 & H1). cbn [skipn] in H1. rewrite Hs in H1. eapply compl_weaken; [apply (compl_constrain _ _ G1)|].
  { eapply has_eq; [exact H1|ring]. }
  intros [] s2 _ _ P2. congruence.
Qed.
Lemma compl_enforce_mimc s l r cs x y : pgood s -> has s l x -> has s r y -> compl s (enforce_mimc_2_inputs P l r cs) (fun o s' => p_pending s' = p_pending s /\ has s' o (mimc x y cs)).
Proof.
  intros G Hl Hr. unfold enforce_mimc_2_inputs, mimc.
  set (F := fun '(xl, xr) c => let tmp1 := fadd xl c in (fadd (fmul (fmul tmp1 tmp1) tmp1) xr, xl) : K * K).
  set (Inv := fun (d : list K) (lr : lc K * lc K) (s' : pstate K) => p_pending s' = p_pending s /\ has s' (fst lr) (fst (fold_left F d (x, y))) /\ has s' (snd lr) (snd (fold_left F d (x, y)))).
  eapply compl_bind.
  - apply (compl_fold (mimc_step P) Inv) with (done := []); [exact G|split; [reflexivity|split; assumption]|].
    intros d c rest [l1 r1] s1 _ G1 (P1 & H1 & H2) _. cbn [fst snd] in *. unfold mimc_step.
    assert (has s1 (lc_add l1 [(VOne, c)]) (fadd (fst (fold_left F d (x, y))) c)) as H3.
    { eapply has_eq; [apply (has_add HK); [exact H1|apply has_cons; [split; [exact I|reflexivity]|apply has_nil]]|]. cbn [pw]. ring. }
    eapply compl_bind; [apply (compl_multiply HK _ _ _ _ _ G1 H3 H3)|]. intros [[a b] o] s2 G2 X2 (A1 & _ & A3 & P2). carry X2.
    eapply compl_bind; [eapply (compl_multiply HK _ _ _ _ _ G2); apply (has_var HK); eassumption|]. intros [[a2 b2] o2] s3 G3 X3 (_ & _ & B3 & P3). carry X3.
    apply compl_ret; [exact G3|]. split; [congruence|]. cbn [fst snd]. rewrite fold_left_app. cbn [fold_left]. destruct (fold_left F d (x, y)) as [u1 u2]. cbn [F fst snd] in *.
    split; [|exact H1]. apply (has_add HK); [apply (has_var HK), B3|exact H2].
  - intros [a b] s1 G1 X1 (P1 & H1 & _). cbn [app fst] in *. apply compl_ret; [exact G1|]. auto.
Qed.
Lemma compl_mimc s l r cs x y image : pgood s -> has s l x -> has s r y -> image = mimc x y cs -> compl s (mimc_gadget P l r cs image) (fun _ s' => p_pending s' = p_pending s).
Proof.
  intros G Hl Hr ->. unfold mimc_gadget. eapply compl_bind; [apply (compl_enforce_mimc s l r cs x y G Hl Hr)|]. intros o s1 G1 X1 (P1 & H1).
  eapply compl_weaken; [apply (compl_clws _ _ _ G1 H1)|]. intros [] s2 _ _ P2. congruence.
Qed.
End Lib.
