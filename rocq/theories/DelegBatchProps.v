(** C106: the batched verification of delegation chains (issuer.rs:314-403). *)
From Verif Require Import Base BnModel Alg Lin ClRevModel ClRevSpec BbsModel BbsLib BbsProps PsModel PsLib GrothModel DelegModel GrothSpec GrothLib GrothProps DelegLib DelegProps DelegChainProps.
Import List ListNotations.
Open Scope list_scope.
Open Scope Z_scope.

Section Batched.
Variable C : curve.
Hypothesis LW : curve_laws C.
Notation K := (cK C). Notation G1 := (cG1 C). Notation G2 := (cG2 C). Notation GT := (cGT C).
Let HK := cl_field C LW.
Let H1 := cl_g1 C LW.
Let H2 := cl_g2 C LW.
Let HT := cl_gt C LW.
Add Field KfDB : (proj1 HK).

(** attributes and keys at a level, plus one *)
Definition cnt (c : chain C) (i : nat) : nat :=
  if (i mod 2 =? 1)%nat then match nth_error (ch_odd c) (i / 2) with Some l => length (l1_attrs l) + 1 | None => 0 end
  else match nth_error (ch_even c) (i / 2 - 1) with Some l => length (l2_attrs l) + 1 | None => 0 end.
Definition offs (c : chain C) (n : nat) : nat := list_sum (map (cnt c) (seq 1 n)).
Lemma offs_S c n : offs c (S n) = (offs c n + cnt c (S n))%nat.
Proof. unfold offs. rewrite seq_S, map_app, list_sum_app. cbn [map]. unfold list_sum at 2. cbn [fold_right]. rewrite Nat.add_0_r. reflexivity. Qed.
Lemma offs_mono c n m : (n <= m)%nat -> (offs c n <= offs c m)%nat.
Proof. induction 1; [lia|]. rewrite offs_S. lia. Qed.
Record shape (p1 : params1 C) (p2 : params2 C) (c : chain C) (ev : list G2) (od : list G1) : Prop := {
  sh_counts : right_counts C c ev od;
  sh_balanced : balanced c;
  sh_odd : forall k l, nth_error (ch_odd c) k = Some l -> l1_level l = 2 * Z.of_nat k + 1 /\ (exists attrs, l1_attrs l = attrs ++ [nth k od m0]) /\ (length (l1_attrs l) <= length (p1_y p1))%nat /\ (length (l1_attrs l) <= length (s1_T (l1_sig l)))%nat;
  sh_even : forall k l, nth_error (ch_even c) k = Some l -> l2_level l = 2 * Z.of_nat k + 2 /\ (exists attrs, l2_attrs l = attrs ++ [nth (S k) ev m0]) /\ (length (l2_attrs l) <= length (p2_y p2))%nat /\ (length (l2_attrs l) <= length (s2_T (l2_sig l)))%nat }.
Lemma total_eq (c : chain C) : balanced c -> total_attrib_count c = Ok (offs c (chain_size c)).
Proof.
  intros B. unfold total_attrib_count. assert (forall n, (n <= chain_size c)%nat -> rfold (fun n i =>
    if (i mod 2 =? 1)%nat then let! l := at_ (ch_odd c) (i / 2) in Ok (n + (length (l1_attrs l) + 1))%nat
    else let! l := at_ (ch_even c) (i / 2 - 1) in Ok (n + (length (l2_attrs l) + 1))%nat) (seq 1 n) 0%nat = Ok (offs c n)) as F.
  2:{ now apply F. }
  induction n as [|n IH]; intros L; [reflexivity|]. replace (seq 1 (S n)) with (seq 1 n ++ [S n]) by (rewrite seq_S; reflexivity).
  rewrite rfold_app, IH by lia. cbn [rbind rfold]. rewrite offs_S. unfold cnt.
  destruct (level_cases (S n) ltac:(lia)) as [(k & E)|(k & E)]; rewrite E.
  - destruct (odd_double k) as (-> & ->). cbn [Nat.eqb]. pose proof (proj1 (balanced_odd C c k B) ltac:(lia)) as Hk. unfold at_.
    destruct (nth_error (ch_odd c) k) eqn:Q; [reflexivity|apply nth_error_None in Q; lia].
  - destruct (even_double k) as (-> & -> & _). cbn [Nat.eqb]. pose proof (proj1 (balanced_even C c k B) ltac:(lia)) as Hk. unfold at_.
    destruct (nth_error (ch_even c) k) eqn:Q; [reflexivity|apply nth_error_None in Q; lia].
Qed.
(** the part of the product of one level *)
Definition lval p1 p2 (c : chain C) (ev : list G2) (od : list G1) (rv : list K) (i : nat) : GT :=
  let off := offs c (i - 1) in
  let base := if (off =? 0)%nat then f1 else nth off rv f0 in
  if (i mod 2 =? 1)%nat then match nth_error (ch_odd c) (i / 2) with None => m0 | Some l =>
    madd (smul base (res0_1 C p1 (nth (i / 2) ev m0) (l1_sig l)))
         (msum (map (fun j => smul (nth (off + j + 1) rv f0) (res_1 C p1 (nth (i / 2) ev m0) (l1_sig l) (l1_attrs l) j)) (seq 0 (length (l1_attrs l))))) end
  else match nth_error (ch_even c) (i / 2 - 1) with None => m0 | Some l =>
    madd (smul base (res0_2 C p2 (nth (i / 2 - 1) od m0) (l2_sig l)))
         (msum (map (fun j => smul (nth (j + 1) rv f0) (res_2 C p2 (nth (i / 2 - 1) od m0) (l2_sig l) (l2_attrs l) j)) (seq 0 (length (l2_attrs l))))) end.
Lemma batched_value p1 p2 (c : chain C) ev od r : params1_ok p1 -> params2_ok p2 -> shape p1 p2 c ev od ->
  verify_delegations_batched c ev od p1 p2 r = Ok (is_one (msum (map (lval p1 p2 c ev od (powers r (offs c (chain_size c)))) (seq 1 (chain_size c))))).
Proof.
  intros N1 N2 [RC B SO SE]. unfold verify_delegations_batched. rewrite (proj2 (chain_validate_iff C c ev od) RC). cbn [rbind]. rewrite (total_eq c B). cbn [rbind].
  set (rv := powers r (offs c (chain_size c))). assert (length rv = offs c (chain_size c)) as Lrv by apply powers_length.
  match goal with |- context[rfold ?f _ _] => set (F := f) end.
  assert (forall n, (n <= chain_size c)%nat -> exists pairs, rfold F (seq 1 n) ([], 0%nat) = Ok (pairs, offs c n) /\ multi_pair pairs = msum (map (lval p1 p2 c ev od rv) (seq 1 n))) as H.
  2:{ destruct (H (chain_size c) ltac:(lia)) as (pairs & -> & <-). reflexivity. }
  induction n as [|n IH]; intros L; [exists []; split; reflexivity|]. destruct IH as (pairs & E & V); [lia|].
  replace (seq 1 (S n)) with (seq 1 n ++ [S n]) by (rewrite seq_S; reflexivity).
  rewrite rfold_app, E. cbn [rbind rfold]. rewrite map_app, (msum_app _ _ HT), <- V. cbn [map msum]. rewrite offs_S.
  assert (offs c (S n) <= offs c (chain_size c))%nat as Lo by (apply offs_mono; lia). rewrite offs_S in Lo.
  unfold F at 1. unfold lval. replace (S n - 1)%nat with n by lia.
  destruct (level_cases (S n) ltac:(lia)) as [(k & Ek)|(k & Ek)].
  - unfold cnt in *. rewrite !Ek in *. destruct (odd_double k) as (Ea & Eb). rewrite !Ea, !Eb in *. cbn [Nat.eqb] in *. pose proof (proj1 (balanced_odd C c k B) ltac:(lia)) as Hk. unfold at_ at 1.
    destruct (nth_error (ch_odd c) k) as [l|] eqn:Q; [|apply nth_error_None in Q; lia]. cbn [rbind]. destruct (SO k l Q) as (S1 & S2 & S3 & S4).
    rewrite S1. replace (Z.of_nat (2 * k + 1)) with (2 * Z.of_nat k + 1) by lia. rewrite Z.eqb_refl. cbn [negb].
    destruct (counts_odd C c ev od k RC ltac:(lia)) as (K1 & K2). rewrite (at_ok od k m0) by exact K1. cbn [rbind].
    rewrite (proj2 (validate1_iff C LW l (nth k od m0) p1)) by (split; assumption). cbn [rbind]. rewrite (at_ok ev k m0) by exact K2. cbn [rbind].
    destruct (prepare1_eq C LW rv (offs c n) (l1_sig l) (l1_attrs l) (nth k ev m0) p1 N1 S3 S4) as (new & -> & W); [lia|]. cbn [rbind].
    eexists. split; [reflexivity|]. rewrite (multi_pair_app C LW), W. now rewrite (madd_0_r _ _ HT).
  - unfold cnt in *. rewrite !Ek in *. destruct (even_double k) as (Ea & Eb & Ec). rewrite !Ea, !Eb, !Ec in *. cbn [Nat.eqb] in *. pose proof (proj1 (balanced_even C c k B) ltac:(lia)) as Hk. unfold at_ at 1.
    destruct (nth_error (ch_even c) k) as [l|] eqn:Q; [|apply nth_error_None in Q; lia]. cbn [rbind]. destruct (SE k l Q) as (S1 & S2 & S3 & S4).
    rewrite S1. replace (Z.of_nat (2 * k + 2)) with (2 * Z.of_nat k + 2) by lia. rewrite Z.eqb_refl. cbn [negb].
    destruct (counts_even C c ev od k RC ltac:(lia)) as (K1 & K2). rewrite (at_ok ev (S k) m0) by exact K2. cbn [rbind].
    rewrite (proj2 (validate2_iff C LW l (nth (S k) ev m0) p2)) by (split; assumption). cbn [rbind]. rewrite (at_ok od k m0) by exact K1. cbn [rbind].
    destruct (prepare2_eq C LW rv (offs c n) (l2_sig l) (l2_attrs l) (nth k od m0) p2 N2 S3 S4) as (new & -> & W); [lia..|]. cbn [rbind].
    eexists. split; [reflexivity|]. rewrite (multi_pair_app C LW), W. now rewrite (madd_0_r _ _ HT).
Qed.
Lemma valid_shape p1 p2 (c : chain C) ev od : valid_chain p1 p2 c ev od -> shape p1 p2 c ev od.
Proof.
  intros V. pose proof (vc_counts C _ _ _ _ _ V) as RC. destruct V as [_ B _ _ VO VE]. split; [exact RC|exact B| |].
  - intros k l Q. destruct (VO k l Q) as (A & D & [L1 L2 _ _]). auto.
  - intros k l Q. destruct (VE k l Q) as (A & D & [L1 L2 _ _]). auto.
Qed.
Lemma lval_even_valid p1 p2 c ev od rv i : (i mod 2 = 0)%nat -> (1 <= i)%nat -> (forall k l, nth_error (ch_even c) k = Some l -> valid2 p2 (nth k od m0) (l2_sig l) (l2_attrs l)) -> lval p1 p2 c ev od rv i = m0.
Proof.
  intros P Hi V. unfold lval. rewrite P. cbn [Nat.eqb]. destruct (nth_error (ch_even c) (i / 2 - 1)) as [l|] eqn:Q; [|reflexivity]. specialize (V _ _ Q).
  pose proof V as [L1 L2 _ _]. pose proof (proj1 (valid_rs2 C LW _ _ _ _ L1 L2) V) as Z.
  assert (res0_2 C p2 (nth (i / 2 - 1) od m0) (l2_sig l) = m0) as -> by (apply Z; now left). rewrite (msum_zero C LW) by (intros j Hj; apply Z; right; now apply in_map).
  module_coefs HK HT; ring.
Qed.
Lemma lval_odd_valid p1 p2 c ev od rv i : (i mod 2 = 1)%nat -> (forall k l, nth_error (ch_odd c) k = Some l -> valid1 p1 (nth k ev m0) (l1_sig l) (l1_attrs l)) -> lval p1 p2 c ev od rv i = m0.
Proof.
  intros P V. unfold lval. rewrite P. cbn [Nat.eqb]. destruct (nth_error (ch_odd c) (i / 2)) as [l|] eqn:Q; [|reflexivity]. specialize (V _ _ Q).
  pose proof V as [L1 L2 _ _]. pose proof (proj1 (valid_rs1 C LW _ _ _ _ L1 L2) V) as Z.
  assert (res0_1 C p1 (nth (i / 2) ev m0) (l1_sig l) = m0) as -> by (apply Z; now left). rewrite (msum_zero C LW) by (intros j Hj; apply Z; right; now apply in_map).
  module_coefs HK HT; ring.
Qed.
Lemma msum_all_zero (l : list GT) : (forall x, In x l -> x = m0) -> msum l = m0.
Proof. induction l as [|a l IH]; intros H; [reflexivity|]. cbn [msum]. rewrite (H a) by now left. rewrite IH by (intros; apply H; now right). apply (madd_0_l _ _ HT). Qed.
Lemma batched_complete p1 p2 (c : chain C) ev od r : params1_ok p1 -> params2_ok p2 -> valid_chain p1 p2 c ev od -> verify_delegations_batched c ev od p1 p2 r = Ok true.
Proof.
  intros N1 N2 V. rewrite (batched_value _ _ _ _ _ _ N1 N2 (valid_shape _ _ _ _ _ V)). f_equal. apply (meqb_eq _ _ HT). apply msum_all_zero.
  intros x Hx. apply in_map_iff in Hx as (i & <- & Hi). apply in_seq in Hi. destruct V as [_ _ _ _ VO VE].
  destruct (level_cases i ltac:(lia)) as [(k & ->)|(k & ->)].
  - apply lval_odd_valid; [apply odd_double|]. intros k' l' Q. apply (VO k' l' Q).
  - apply lval_even_valid; [apply even_double|lia|]. intros k' l' Q. apply (VE k' l' Q).
Qed.
(** *** odd links when the even ones are known to be valid *)
Definition coefs p1 (c : chain C) (ev : list G2) (i : nat) : list GT :=
  if (i mod 2 =? 1)%nat then match nth_error (ch_odd c) (i / 2) with None => [] | Some l => rs1 C p1 (nth (i / 2) ev m0) (l1_sig l) (l1_attrs l) end
  else repeat m0 (cnt c i).
Lemma coefs_length p1 c ev i : length (coefs p1 c ev i) = cnt c i.
Proof.
  unfold coefs. destruct (i mod 2 =? 1)%nat eqn:P; [|apply repeat_length]. unfold cnt. rewrite P. destruct (nth_error (ch_odd c) (i / 2)); [|reflexivity].
  rewrite rs1_length. lia.
Qed.
Lemma concat_length_sum {A} (f : nat -> list A) l : length (concat (map f l)) = list_sum (map (fun i => length (f i)) l).
Proof. induction l as [|a l IH]; [reflexivity|]. cbn [map concat list_sum fold_right]. rewrite app_length. unfold list_sum in IH. lia. Qed.
Lemma meval_app (a b : list GT) (r : K) : meval (a ++ b) r = madd (meval a r) (smul (fpow r (length a)) (meval b r)).
Proof. induction a as [|x a IH]; cbn [app meval length fpow]; [|rewrite IH]; module_coefs HK HT; ring. Qed.
Lemma meval_repeat n (r : K) : meval (repeat (m0 : GT) n) r = m0.
Proof. induction n as [|n IH]; cbn [repeat meval]; [reflexivity|]. rewrite IH, (smul_0_r _ _ HT). apply (madd_0_l _ _ HT). Qed.
Lemma lval_poly p1 p2 (c : chain C) ev od r n : r <> f0 -> balanced c -> (n <= chain_size c)%nat ->
  (forall k l, nth_error (ch_even c) k = Some l -> valid2 p2 (nth k od m0) (l2_sig l) (l2_attrs l)) ->
  msum (map (lval p1 p2 c ev od (powers r (offs c (chain_size c)))) (seq 1 n)) = meval (concat (map (coefs p1 c ev) (seq 1 n))) r.
Proof.
  intros Nr B. set (rv := powers r (offs c (chain_size c))). induction n as [|n IH]; intros L V; [reflexivity|].
  replace (seq 1 (S n)) with (seq 1 n ++ [S n]) by (rewrite seq_S; reflexivity). rewrite !map_app, concat_app, (msum_app _ _ HT), meval_app, IH by (assumption || lia).
  f_equal. cbn [map msum concat]. rewrite app_nil_r, (madd_0_r _ _ HT). rewrite concat_length_sum. rewrite (map_ext _ (cnt c)) by apply coefs_length. fold (offs c n).
  assert (offs c (S n) <= offs c (chain_size c))%nat as Lo by (apply offs_mono; lia). rewrite offs_S in Lo.
  destruct (level_cases (S n) ltac:(lia)) as [(k & Ek)|(k & Ek)].
  - unfold lval, coefs. replace (S n - 1)%nat with n by lia. unfold cnt in Lo. rewrite !Ek in *. destruct (odd_double k) as (Ea & Eb). rewrite !Ea, !Eb in *. cbn [Nat.eqb] in *.
    pose proof (proj1 (balanced_odd C c k B) ltac:(lia)) as Hk. destruct (nth_error (ch_odd c) k) as [l|] eqn:Q; [|apply nth_error_None in Q; lia].
    unfold rs1. cbn [meval]. replace (if (offs c n =? 0)%nat then f1 else nth (offs c n) rv f0) with (fpow r (offs c n)).
    2:{ destruct (Nat.eqb_spec (offs c n) 0) as [->|Q0]; [reflexivity|]. unfold rv. rewrite (powers_nth HK) by lia. rewrite (proj2 (feqb_neq _ HK _ _) Nr). reflexivity. }
    rewrite (map_ext_in _ (fun j => smul (fpow r (offs c n + j + 1)) (res_1 C p1 (nth k ev m0) (l1_sig l) (l1_attrs l) j))).
    2:{ intros j Hj. apply in_seq in Hj. unfold rv. rewrite (powers_nth HK) by lia. rewrite (proj2 (feqb_neq _ HK _ _) Nr). reflexivity. }
    assert (forall off m s, msum (map (fun j => smul (fpow r (off + j + 1)) (res_1 C p1 (nth k ev m0) (l1_sig l) (l1_attrs l) j)) (seq s m)) = smul (fpow r off) (msum (map (fun j => smul (fpow r (j + 1)) (res_1 C p1 (nth k ev m0) (l1_sig l) (l1_attrs l) j)) (seq s m)))) as R.
    { intros off m. induction m as [|m IHm]; intros s; cbn [seq map msum]; [now rewrite (smul_0_r _ _ HT)|]. rewrite IHm. replace (off + s + 1)%nat with (off + (s + 1))%nat by lia. assert (forall a b, fpow r (a + b) = fmul (fpow r a) (fpow r b)) as FA by (intros a b; induction a as [|a IHa]; cbn [Nat.add fpow]; [ring|rewrite IHa; ring]). rewrite FA. module_coefs HK HT; ring. }
    rewrite R, (msum_nth_powers C LW r _ _ Nr). cbn [Nat.add fpow]. unfold res0_1, res_1. module_coefs HK HT; ring.
  - rewrite (lval_even_valid p1 p2 c ev od rv (S n)); [|rewrite Ek; apply even_double|lia|exact V].
    unfold coefs. rewrite Ek. destruct (even_double k) as (-> & _). cbn [Nat.eqb]. rewrite meval_repeat. now rewrite (smul_0_r _ _ HT).
Qed.

(** *** what an accepted batch says about the shape of the chain *)
Lemma rfold_steps {S A} (f : S -> A -> res S) l : forall s s', rfold f l s = Ok s' -> forall i, In i l -> exists t t', f t i = Ok t'.
Proof.
  induction l as [|a l IH]; intros s s' H i Hi; [destruct Hi|]. cbn [rfold] in H. apply rbind_ok in H as (t & E & H). destruct Hi as [<-|Hi]; [eauto|]. eapply IH; eauto.
Qed.
Lemma prepare1_T rv off (s : sig1 C) msgs vk p ps : prepare1 rv off s msgs vk p = Ok ps -> (length msgs <= length (s1_T s))%nat.
Proof.
  intros H. unfold prepare1 in H. apply rbind_ok in H as (y0 & _ & H). apply rbind_ok in H as (((a & b) & cc) & _ & H). apply rbind_ok in H as (rest & E & _).
  destruct (Nat.le_gt_cases (length msgs) (length (s1_T s))) as [L|L]; [exact L|]. exfalso.
  destruct (rmap_inv _ _ _ E (length (s1_T s))) as (y & Q); [apply in_seq; lia|]. apply rbind_ok in Q as (x & _ & Q). apply rbind_ok in Q as (m & _ & Q). apply rbind_ok in Q as (yi & _ & Q).
  rewrite at_err in Q by lia. discriminate.
Qed.
Lemma prepare2_T rv off (s : sig2 C) msgs vk p ps : prepare2 rv off s msgs vk p = Ok ps -> (length msgs <= length (s2_T s))%nat.
Proof.
  intros H. unfold prepare2 in H. apply rbind_ok in H as (((a & b) & cc) & _ & H). apply rbind_ok in H as (y0 & _ & H). apply rbind_ok in H as (rest & E & _).
  destruct (Nat.le_gt_cases (length msgs) (length (s2_T s))) as [L|L]; [exact L|]. exfalso.
  destruct (rmap_inv _ _ _ E (length (s2_T s))) as (y & Q); [apply in_seq; lia|]. apply rbind_ok in Q as (x & _ & Q). apply rbind_ok in Q as (m & _ & Q). apply rbind_ok in Q as (yi & _ & Q).
  rewrite at_err in Q by lia. discriminate.
Qed.
Lemma batched_shape p1 p2 (c : chain C) ev od r b : verify_delegations_batched c ev od p1 p2 r = Ok b -> shape p1 p2 c ev od.
Proof.
  intros H. unfold verify_delegations_batched in H. apply rbind_ok in H as (u & RC & H). apply chain_validate_unit in RC. apply rbind_ok in H as (total & T & H). apply rbind_ok in H as ((pairs & o) & H & _).
  pose proof (rfold_steps _ _ _ _ H) as St. clear H pairs o. unfold total_attrib_count in T. pose proof (rfold_steps _ _ _ _ T) as Tt. clear T.
  assert (balanced c) as B.
  { apply balanced_counts.
    assert (forall k, (2 * k + 1 <= chain_size c)%nat -> (k < length (ch_odd c))%nat) as A1.
    { intros k Hk. destruct (Tt (2 * k + 1)%nat) as (t & t' & Q); [apply in_seq; lia|]. destruct (odd_double k) as (E1 & E2). rewrite E1, E2 in Q. cbn [Nat.eqb] in Q.
      destruct (Nat.lt_ge_cases k (length (ch_odd c))) as [L|L]; [exact L|]. rewrite at_err in Q by exact L. discriminate. }
    assert (forall k, (2 * k + 2 <= chain_size c)%nat -> (k < length (ch_even c))%nat) as A2.
    { intros k Hk. destruct (Tt (2 * k + 2)%nat) as (t & t' & Q); [apply in_seq; lia|]. destruct (even_double k) as (E1 & E2 & E3). rewrite E1, E2 in Q. cbn [Nat.eqb] in Q.
      destruct (Nat.lt_ge_cases k (length (ch_even c))) as [L|L]; [exact L|]. rewrite at_err in Q by exact L. discriminate. }
    rewrite half_up. assert (chain_size c = length (ch_odd c) + length (ch_even c))%nat as Q by reflexivity.
    pose proof (Nat.div_mod (chain_size c) 2 ltac:(lia)) as D. pose proof (Nat.mod_upper_bound (chain_size c) 2 ltac:(lia)) as U.
    assert (chain_size c / 2 <= length (ch_even c))%nat. { destruct (chain_size c / 2)%nat as [|m] eqn:E; [lia|]. apply (A2 m). lia. }
    destruct (Nat.eqb_spec (chain_size c mod 2) 1) as [M|M].
    - assert (chain_size c / 2 < length (ch_odd c))%nat by (apply A1; lia). lia.
    - destruct (chain_size c / 2)%nat as [|m] eqn:E; [lia|]. assert (m < length (ch_odd c))%nat by (apply A1; lia). lia. }
  split; [exact RC|exact B| |].
  - intros k l Q. assert (k < length (ch_odd c))%nat as Hk by (apply nth_error_Some; congruence). apply (balanced_odd C c k B) in Hk. destruct (counts_odd C c ev od k RC Hk) as (K1 & K2).
    destruct (St (2 * k + 1)%nat) as ((ps & o) & t' & E); [apply in_seq; lia|]. destruct (odd_double k) as (E1 & E2). rewrite E1, E2 in E. cbn [Nat.eqb] in E. unfold at_ at 1 in E. rewrite Q in E. cbn [rbind] in E.
    replace (Z.of_nat (2 * k + 1)) with (2 * Z.of_nat k + 1) in E by lia. destruct (Z.eqb_spec (l1_level l) (2 * Z.of_nat k + 1)) as [EL|EL]; [|discriminate]. cbn [negb] in E.
    rewrite (at_ok od k m0), (at_ok ev k m0) in E by assumption. cbn [rbind] in E. apply rbind_ok in E as ([] & V & E). apply (validate1_iff C LW) in V as (V1 & V2). apply rbind_ok in E as (new & P & _). apply prepare1_T in P. auto.
  - intros k l Q. assert (k < length (ch_even c))%nat as Hk by (apply nth_error_Some; congruence). apply (balanced_even C c k B) in Hk. destruct (counts_even C c ev od k RC Hk) as (K1 & K2).
    destruct (St (2 * k + 2)%nat) as ((ps & o) & t' & E); [apply in_seq; lia|]. destruct (even_double k) as (E1 & E2 & E3). rewrite E1, E2, E3 in E. cbn [Nat.eqb] in E. unfold at_ at 1 in E. rewrite Q in E. cbn [rbind] in E.
    replace (Z.of_nat (2 * k + 2)) with (2 * Z.of_nat k + 2) in E by lia. destruct (Z.eqb_spec (l2_level l) (2 * Z.of_nat k + 2)) as [EL|EL]; [|discriminate]. cbn [negb] in E.
    rewrite (at_ok od k m0), (at_ok ev (S k) m0) in E by assumption. cbn [rbind] in E. apply rbind_ok in E as ([] & V & E). apply (validate2_iff C LW) in V as (V1 & V2). apply rbind_ok in E as (new & P & _). apply prepare2_T in P. auto.
Qed.
Definition attr_total (c : chain C) : nat := list_sum (map (fun l => length (l1_attrs l) + 1)%nat (ch_odd c)) + list_sum (map (fun l => length (l2_attrs l) + 1)%nat (ch_even c)).
Lemma offs_total (c : chain C) : balanced c -> offs c (chain_size c) = attr_total c.
Proof.
  intros B.
  assert (forall A (l : list A) k x, nth_error l k = Some x -> firstn (S k) l = firstn k l ++ [x]) as F.
  { intros A l. induction l as [|a l IHl]; intros k x Hk; [destruct k; discriminate|]. destruct k as [|k]; [cbn in *; congruence|]. cbn [firstn app]. f_equal. apply IHl. exact Hk. }
  assert (forall n, (n <= chain_size c)%nat -> offs c n = (list_sum (map (fun l => length (l1_attrs l) + 1)%nat (firstn ((n + 1) / 2) (ch_odd c))) + list_sum (map (fun l => length (l2_attrs l) + 1)%nat (firstn (n / 2) (ch_even c))))%nat) as H.
  2:{ rewrite H by lia. pose proof (proj1 (balanced_counts C c) B) as (B1 & B2). rewrite <- B1, <- B2, !firstn_all. reflexivity. }
  induction n as [|n IH]; intros L; [reflexivity|]. rewrite offs_S, IH by lia. unfold cnt.
  assert (forall n, list_sum [n] = n) as LS by (intros; cbn; lia).
  destruct (level_cases (S n) ltac:(lia)) as [(k & E)|(k & E)]; rewrite E.
  - destruct (odd_double k) as (-> & Ek). rewrite Ek. cbn [Nat.eqb]. pose proof (proj1 (balanced_odd C c k B) ltac:(lia)) as Hk.
    destruct (nth_error (ch_odd c) k) as [l|] eqn:Q; [|apply nth_error_None in Q; lia].
    replace ((n + 1) / 2)%nat with k by (replace (n + 1)%nat with (2 * k + 1)%nat by lia; now destruct (odd_double k)).
    replace ((2 * k + 1 + 1) / 2)%nat with (S k) by (replace (2 * k + 1 + 1)%nat with (2 * k + 2)%nat by lia; now destruct (even_double k) as (_ & _ & ->)).
    replace (n / 2)%nat with k by (replace n with (k * 2)%nat by lia; now rewrite Nat.div_mul). rewrite (F _ _ _ _ Q), map_app, list_sum_app. cbn [map]. rewrite LS. lia.
  - destruct (even_double k) as (-> & E1 & E2). rewrite E1, E2. cbn [Nat.eqb]. pose proof (proj1 (balanced_even C c k B) ltac:(lia)) as Hk.
    destruct (nth_error (ch_even c) k) as [l|] eqn:Q; [|apply nth_error_None in Q; lia].
    replace ((n + 1) / 2)%nat with (S k) by (replace (n + 1)%nat with (2 * k + 2)%nat by lia; now destruct (even_double k) as (_ & _ & ->)).
    replace ((2 * k + 2 + 1) / 2)%nat with (S k) by (replace (2 * k + 2 + 1)%nat with (2 * S k + 1)%nat by lia; now destruct (odd_double (S k)) as (_ & ->)).
    replace (n / 2)%nat with k by (replace n with (2 * k + 1)%nat by lia; now destruct (odd_double k)). rewrite (F _ _ _ _ Q), map_app, list_sum_app. cbn [map]. rewrite LS. lia.
Qed.
Lemma batched_sound p1 p2 (c : chain C) ev od draws : params1_ok p1 -> params2_ok p2 -> NoDup draws -> (attr_total c <= length draws)%nat -> draws <> [] ->
  (forall r, In r draws -> r <> f0 /\ verify_delegations_batched c ev od p1 p2 r = Ok true) ->
  (forall k l, nth_error (ch_even c) k = Some l -> valid2 p2 (nth k od m0) (l2_sig l) (l2_attrs l)) -> valid_chain p1 p2 c ev od.
Proof.
  intros N1 N2 ND L NE H V. destruct draws as [|r0 draws']; [congruence|]. pose proof (batched_shape _ _ _ _ _ _ _ (proj2 (H r0 (or_introl eq_refl)))) as Sh. set (draws := r0 :: draws') in *.
  pose proof Sh as [RC B SO SE]. destruct (counts_balanced C c ev od B RC) as (E1 & E2).
  assert (forall x, In x (concat (map (coefs p1 c ev) (seq 1 (chain_size c)))) -> x = m0) as Z.
  { apply (mroots HK HT (attr_total c) _ draws); [|exact ND|exact L|].
    - rewrite concat_length_sum, (map_ext _ (cnt c)) by apply coefs_length. fold (offs c (chain_size c)). now apply offs_total.
    - intros r Hr. destruct (H r Hr) as (Nr & Q). rewrite (batched_value _ _ _ _ _ _ N1 N2 Sh) in Q. rewrite (lval_poly p1 p2 c ev od r (chain_size c) Nr B) in Q; [|lia|exact V].
      apply (meqb_eq _ _ HT). unfold is_one in Q. congruence. }
  split; [| exact B|exact E1|exact E2| |].
  - intros Q. destruct RC as (P & _). unfold balanced in B. unfold chain_size in P. rewrite Q in *. cbn [length] in *. lia.
  - intros k l Q. destruct (SO k l Q) as (A1 & A2 & A3 & A4). split; [exact A1|]. split; [exact A2|]. apply (valid_rs1 C LW); [exact A3|exact A4|].
    intros x Hx. apply Z. apply in_concat. exists (coefs p1 c ev (2 * k + 1)). split.
    + apply in_map. apply in_seq. assert (k < length (ch_odd c))%nat as Hk by (apply nth_error_Some; congruence). apply (balanced_odd C c k B) in Hk. lia.
    + unfold coefs. destruct (odd_double k) as (Ea & Eb). rewrite Ea, Eb. cbn [Nat.eqb]. rewrite Q. exact Hx.
  - intros k l Q. destruct (SE k l Q) as (A1 & A2 & A3 & A4). split; [exact A1|]. split; [exact A2|]. now apply V.
Qed.
End Batched.

(** ** C106 *)
(** The batched verification accepts every valid chain, whatever it draws. *)
Theorem C106_batched_complete : forall (C : curve) (p1 : params1 C) (p2 : params2 C) c ev od r, curve_laws C -> params1_ok p1 -> params2_ok p2 ->
  valid_chain p1 p2 c ev od -> verify_delegations_batched c ev od p1 p2 r = Ok true.
Proof. intros. now apply batched_complete. Qed.
(** On a chain of one link it is the individual verification with the same draw. *)
Theorem C106_one_link : forall (C : curve) (p1 : params1 C) (p2 : params2 C) l ev od rs, curve_laws C ->
  verify_delegations_batched (mkChain [l] []) ev od p1 p2 (rs 1%nat) = verify_delegations (mkChain [l] []) ev od p1 p2 rs.
Proof.
  intros C p1 p2 l ev od rs LW. unfold verify_delegations_batched, verify_delegations.
  destruct (chain_validate (mkChain [l] []) ev od) as [[]|e] eqn:V; cbn [rbind]; [|reflexivity]. apply (chain_validate_iff C) in V as (_ & V1 & V2). cbn [chain_size ch_odd ch_even length Nat.add] in *.
  change (1 / 2)%nat with 0%nat in V1. change ((1 + 1) / 2)%nat with 1%nat in V2. destruct ev as [|v0 [|? ?]]; try discriminate. destruct od as [|d0 [|? ?]]; try discriminate.
  unfold total_attrib_count. cbn [chain_size ch_odd ch_even length Nat.add seq rfold check_all]. change (1 mod 2)%nat with 1%nat. change (1 / 2)%nat with 0%nat. cbn [Nat.eqb].
  change (at_ [l] 0) with (Ok l). change (at_ [v0] 0) with (Ok v0). change (at_ [d0] 0) with (Ok d0). cbn [rbind Nat.add]. destruct (negb (l1_level l =? Z.of_nat 1)); [reflexivity|].
  unfold link_verify1. destruct (validate1 l d0 p1) as [[]|e] eqn:V; cbn [rbind]; [|reflexivity].
  apply (validate1_iff C LW) in V as (V & _). unfold verify_batch1. rewrite (proj2 (Nat.ltb_ge _ _) V).
  destruct (prepare1 _ _ _ _ _ _) as [ps|e]; cbn [rbind app]; [|reflexivity]. destruct (is_one (multi_pair ps)); reflexivity.
Qed.
(** When the even links are known to carry valid signatures, accepting with as many different
    non-zero draws as there are attributes, keys and links makes the whole chain valid. *)
Theorem C106_sound_given_even : forall (C : curve) (p1 : params1 C) (p2 : params2 C) c ev od draws, curve_laws C -> params1_ok p1 -> params2_ok p2 ->
  NoDup draws -> draws <> [] ->
  (list_sum (map (fun l => length (l1_attrs l) + 1) (ch_odd c)) + list_sum (map (fun l => length (l2_attrs l) + 1) (ch_even c)) <= length draws)%nat ->
  (forall k l, nth_error (ch_even c) k = Some l -> valid2 p2 (nth k od m0) (l2_sig l) (l2_attrs l)) ->
  (forall r, In r draws -> r <> f0 /\ verify_delegations_batched c ev od p1 p2 r = Ok true) -> valid_chain p1 p2 c ev od.
Proof. intros C p1 p2 c ev od draws LW N1 N2 ND NE L V H. now apply (batched_sound C LW p1 p2 c ev od draws). Qed.
