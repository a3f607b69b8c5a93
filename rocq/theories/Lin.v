(** Linear combinations of group elements, and the algebra of Schnorr style proofs of
    knowledge of a representation. *)
From Verif Require Import Base Alg.
Import List ListNotations.
Open Scope list_scope.

Definition lin {K} {M : modOps K} (bases : list M) (scalars : list K) : M := msum (map (fun p => smul (snd p) (fst p)) (combine bases scalars)).
(** pointwise: x_i - c * y_i *)
Definition sub_scaled {K : fieldOps} (c : K) (xs ys : list K) : list K := map (fun p => fsub (fst p) (fmul c (snd p))) (combine xs ys).
(** pointwise: k * (x_i - y_i) *)
Definition scaled_diff {K : fieldOps} (k : K) (xs ys : list K) : list K := map (fun p => fmul k (fsub (fst p) (snd p))) (combine xs ys).
(** pointwise sum *)
Definition add_lists {K : fieldOps} (xs ys : list K) : list K := map (fun p => fadd (fst p) (snd p)) (combine xs ys).

Section Lin.
Context {K : fieldOps} (HK : field_laws K) {M : modOps K} (HM : mod_laws M).
Add Field Kf : (proj1 HK).

Lemma lin_nil_l (ss : list K) : lin ([] : list M) ss = m0.
Proof. reflexivity. Qed.
Lemma lin_nil_r (bs : list M) : lin bs [] = m0.
Proof. unfold lin. now rewrite combine_nil. Qed.
Lemma lin_cons (b : M) bs s ss : lin (b :: bs) (s :: ss) = madd (smul s b) (lin bs ss).
Proof. reflexivity. Qed.
Lemma lin_app (b1 b2 : list M) s1 s2 : length b1 = length s1 -> lin (b1 ++ b2) (s1 ++ s2) = madd (lin b1 s1) (lin b2 s2).
Proof.
  revert s1. induction b1 as [|b b1 IH]; intros [|s s1] L; try discriminate; cbn [app].
  - now rewrite lin_nil_l, (madd_0_l _ _ HM).
  - rewrite !lin_cons, IH by (cbn in L; congruence). apply (madd_assoc _ _ HM).
Qed.
Lemma lin_fold (bs : list M) ss : fold_left (fun acc p => madd acc (smul (snd p) (fst p))) (combine bs ss) m0 = lin bs ss.
Proof.
  unfold lin. enough (forall l acc, fold_left (fun acc (p : M * K) => madd acc (smul (snd p) (fst p))) l acc = madd acc (msum (map (fun p => smul (snd p) (fst p)) l))) as Q.
  { rewrite Q. apply (madd_0_l _ _ HM). }
  induction l as [|p l IH]; intros acc; cbn [fold_left map msum]; [now rewrite (madd_0_r _ _ HM)|]. now rewrite IH, <- (madd_assoc _ _ HM).
Qed.
Lemma length_sub_scaled (c : K) xs ys : length xs = length ys -> length (sub_scaled c xs ys) = length xs.
Proof. intros L. unfold sub_scaled. rewrite map_length, combine_length. lia. Qed.
Lemma length_scaled_diff (c : K) xs ys : length xs = length ys -> length (scaled_diff c xs ys) = length xs.
Proof. intros L. unfold scaled_diff. rewrite map_length, combine_length. lia. Qed.
Lemma lin_sub_scaled c : forall (bs : list M) xs ys, length xs = length bs -> length ys = length bs ->
  lin bs (sub_scaled c xs ys) = msub (lin bs xs) (smul c (lin bs ys)).
Proof.
  induction bs as [|b bs IH]; intros xs ys Lx Ly.
  - rewrite !lin_nil_l. module_coefs HK HM; ring.
  - destruct xs as [|x xs]; [discriminate|]. destruct ys as [|y ys]; [discriminate|]. unfold sub_scaled. cbn [combine map fst snd].
    fold (sub_scaled c xs ys). rewrite !lin_cons, IH by (cbn in *; congruence). module_coefs HK HM; ring.
Qed.
Lemma lin_scaled_diff k : forall (bs : list M) xs ys, length xs = length bs -> length ys = length bs ->
  lin bs (scaled_diff k xs ys) = smul k (msub (lin bs xs) (lin bs ys)).
Proof.
  induction bs as [|b bs IH]; intros xs ys Lx Ly.
  - rewrite !lin_nil_l. module_coefs HK HM; ring.
  - destruct xs as [|x xs]; [discriminate|]. destruct ys as [|y ys]; [discriminate|]. unfold scaled_diff. cbn [combine map fst snd].
    fold (scaled_diff k xs ys). rewrite !lin_cons, IH by (cbn in *; congruence). module_coefs HK HM; ring.
Qed.
Lemma lin_add : forall (bs : list M) xs ys, length xs = length bs -> length ys = length bs -> lin bs (add_lists xs ys) = madd (lin bs xs) (lin bs ys).
Proof.
  induction bs as [|b bs IH]; intros xs ys Lx Ly.
  - rewrite !lin_nil_l. module_coefs HK HM; ring.
  - destruct xs as [|x xs]; [discriminate|]. destruct ys as [|y ys]; [discriminate|]. unfold add_lists. cbn [combine map fst snd].
    fold (add_lists xs ys). rewrite !lin_cons, IH by (cbn in *; congruence). module_coefs HK HM; ring.
Qed.
Lemma lin_zero (bs : list M) n : lin bs (repeat f0 n) = m0.
Proof. revert n. induction bs as [|b bs IH]; intros [|n]; try reflexivity. cbn [repeat]. rewrite lin_cons, IH, (smul_0_l _ HK _ HM). apply (madd_0_l _ _ HM). Qed.
(** responses computed from the same blindings and two representations of the same element *)
Lemma schnorr_complete (bs : list M) bl ss c y : length bl = length bs -> length ss = length bs -> lin bs ss = y ->
  madd (lin bs (sub_scaled c bl ss)) (smul c y) = lin bs bl.
Proof. intros L1 L2 <-. rewrite lin_sub_scaled by assumption. module_coefs HK HM; ring. Qed.
(** two accepting transcripts with the same commitment and different challenges *)
Lemma schnorr_extract (bs : list M) r r' c c' y t : length r = length bs -> length r' = length bs -> c <> c' ->
  madd (lin bs r) (smul c y) = t -> madd (lin bs r') (smul c' y) = t -> lin bs (scaled_diff (finv (fsub c' c)) r r') = y.
Proof.
  intros L1 L2 N E E'. rewrite lin_scaled_diff by assumption.
  assert (msub (lin bs r) (lin bs r') = smul (fsub c' c) y) as ->.
  { transitivity (msub (msub t (smul c y)) (msub t (smul c' y))); [|module_coefs HK HM; ring].
    rewrite <- E at 1. rewrite <- E'. module_coefs HK HM; ring. }
  rewrite <- (smul_mul _ _ HM), (finv_mul_l _ HK); [apply (smul_1 _ _ HM)|]. apply (fsub_neq0 _ HK). congruence.
Qed.
(** for every accepting transcript and every representation there is exactly one choice of
    blindings that produces it *)
Lemma sub_scaled_inv c : forall (r ss : list K), length r = length ss -> sub_scaled c (sub_scaled (fopp c) r ss) ss = r.
Proof.
  induction r as [|x r IH]; intros [|s ss] L; try discriminate; [reflexivity|]. unfold sub_scaled in *. cbn [combine map fst snd]. rewrite IH by (cbn in L; congruence). f_equal. ring.
Qed.
Lemma sub_scaled_inj c : forall (a b ss : list K), length a = length ss -> length b = length ss -> sub_scaled c a ss = sub_scaled c b ss -> a = b.
Proof.
  induction a as [|x a IH]; intros [|y b] [|s ss] La Lb E; try discriminate; [reflexivity|]. unfold sub_scaled in E. cbn [combine map fst snd] in E.
  injection E as E1 E2. f_equal.
  - transitivity (fadd (fsub x (fmul c s)) (fmul c s)); [ring|]. rewrite E1. ring.
  - apply (IH b ss); cbn in *; try congruence. exact E2.
Qed.
End Lin.
