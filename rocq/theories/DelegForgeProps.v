(** C106 (continued): the batched verification of chains accepts tampered chains. *)
From Verif Require Import Base BnModel Alg Lin ClRevModel ClRevSpec BbsModel BbsLib BbsProps PsModel PsLib GrothModel DelegModel GrothSpec GrothLib GrothProps DelegLib DelegProps DelegChainProps DelegBatchProps.
Import List ListNotations.
Open Scope list_scope.
Open Scope Z_scope.

Section Forge.
Variable C : curve.
Hypothesis LW : curve_laws C.
Notation K := (cK C). Notation G1 := (cG1 C). Notation G2 := (cG2 C). Notation GT := (cGT C).
Let HK := cl_field C LW.
Let H1 := cl_g1 C LW.
Let H2 := cl_g2 C LW.
Let HT := cl_gt C LW.
Add Field KfDF : (proj1 HK).

Lemma msum_single (f : nat -> GT) i : forall n k, (k <= i < k + n)%nat -> (forall j, (k <= j < k + n)%nat -> j <> i -> f j = m0) -> msum (map f (seq k n)) = f i.
Proof.
  induction n as [|n IH]; intros k Hi Z; [lia|]. cbn [seq map msum]. destruct (Nat.eq_dec k i) as [->|NE].
  - rewrite (msum_all_zero C LW); [apply (madd_0_r _ _ HT)|]. intros x Hx. apply in_map_iff in Hx as (j & <- & Hj). apply in_seq in Hj. apply Z; lia.
  - rewrite (Z k) by lia. rewrite (madd_0_l _ _ HT). apply IH; [lia|]. intros j Hj Nj. apply Z; lia.
Qed.
Lemma nth_mid {A} (xs ys : list A) a d : nth (length xs) (xs ++ a :: ys) d = a.
Proof. rewrite app_nth2 by lia. now rewrite Nat.sub_diag. Qed.
Lemma nth_other {A} (xs ys : list A) a a' j d : j <> length xs -> nth j (xs ++ a :: ys) d = nth j (xs ++ a' :: ys) d.
Proof.
  intros N. destruct (Nat.lt_ge_cases j (length xs)) as [L|L]; [now rewrite !app_nth1 by exact L|]. rewrite !app_nth2 by lia. destruct (j - length xs)%nat eqn:E; [lia|reflexivity].
Qed.
(** residuals of a signature on a list changed in one place *)
Lemma res_1_shift p vk s xs a ys t j : valid1 p vk s (xs ++ a :: ys) -> (j < length (xs ++ a :: ys))%nat ->
  res_1 C p vk s (xs ++ madd a t :: ys) j = if (j =? length xs)%nat then pair t (p1_g2 p) else m0.
Proof.
  intros [L1 L2 F E] Hj. unfold res_1, residual. specialize (E j Hj). unfold res_1, residual. destruct (Nat.eqb_spec j (length xs)) as [->|N].
  - rewrite nth_mid in *. rewrite E, (p_add_l C LW). module_coefs HK HT; ring.
  - rewrite (nth_other xs ys (madd a t) a j m0 N), E. module_coefs HK HT; ring.
Qed.
Lemma res_2_shift p vk s xs a ys t j : valid2 p vk s (xs ++ a :: ys) -> (j < length (xs ++ a :: ys))%nat ->
  res_2 C p vk s (xs ++ madd a t :: ys) j = if (j =? length xs)%nat then pair (p2_g1 p) t else m0.
Proof.
  intros [L1 L2 F E] Hj. unfold res_2, residual. specialize (E j Hj). cbn beta in E. destruct (Nat.eqb_spec j (length xs)) as [->|N].
  - rewrite nth_mid in *. rewrite E, (p_add_r C LW). module_coefs HK HT; ring.
  - rewrite (nth_other xs ys (madd a t) a j m0 N), E. module_coefs HK HT; ring.
Qed.
Lemma res0_1_zero p vk s msgs : valid1 p vk s msgs -> res0_1 C p vk s = m0.
Proof. intros [_ _ F _]. unfold res0_1, residual0. rewrite F. module_coefs HK HT; ring. Qed.
Lemma res0_2_zero p vk s msgs : valid2 p vk s msgs -> res0_2 C p vk s = m0.
Proof. intros [_ _ F _]. unfold res0_2, residual0. cbn beta in F. rewrite F. module_coefs HK HT; ring. Qed.
Lemma cancel_pair x d (e : GT) : madd (smul x (smul d e)) (smul x (mopp (smul d e))) = m0.
Proof. module_coefs HK HT; ring. Qed.
End Forge.

(** Refuted: "the batched verification accepts what the individual one accepts" and "... only valid
    chains".  Take any valid chain of two links with an attribute (not the key) at the same position
    in both.  Add d g1 to the first and subtract d g2 from the second: for every draw the batched
    verification accepts the changed chain, which is not valid and which the individual
    verification rejects. *)
Theorem C106_refuted_batched_sound : forall (C : curve) (p1 : params1 C) (p2 : params2 C) xs a ys s1 xs' b ys' s2 v0 v1 v2 d, curve_laws C -> params1_ok p1 -> params2_ok p2 ->
  length xs = length xs' ->
  valid_chain p1 p2 (mkChain [mkLink1 1 (xs ++ a :: ys ++ [v1]) s1] [mkLink2 2 (xs' ++ b :: ys' ++ [v2]) s2]) [v0; v2] [v1] ->
  d <> f0 -> pair (p2_g1 p2) (p1_g2 p1) <> m0 ->
  let c' := mkChain [mkLink1 1 (xs ++ madd a (smul d (p2_g1 p2)) :: ys ++ [v1]) s1] [mkLink2 2 (xs' ++ msub b (smul d (p1_g2 p1)) :: ys' ++ [v2]) s2] in
  (forall r, verify_delegations_batched c' [v0; v2] [v1] p1 p2 r = Ok true) /\
  ~ valid_chain p1 p2 c' [v0; v2] [v1] /\
  (forall rs, rs 1%nat <> f0 -> verify_delegations c' [v0; v2] [v1] p1 p2 rs = Ok false).
Proof.
  intros C p1 p2 xs a ys s1 xs' b ys' s2 v0 v1 v2 d LW N1 N2 Lx V Nd Np c'.
  pose proof (cl_field C LW) as HK. pose proof (cl_gt C LW) as HT.
  destruct V as [_ _ _ _ VO VE]. destruct (VO 0%nat _ eq_refl) as (_ & _ & V1). destruct (VE 0%nat _ eq_refl) as (_ & _ & V2). cbn [nth l1_sig l1_attrs l2_sig l2_attrs] in V1, V2. clear VO VE.
  set (t := smul d (p2_g1 p2)) in *. set (t' := mopp (smul d (p1_g2 p1))).
  assert (length (xs ++ madd a t :: ys ++ [v1]) = length (xs ++ a :: ys ++ [v1])) as Le1 by (rewrite !app_length; reflexivity).
  assert (length (xs' ++ madd b t' :: ys' ++ [v2]) = length (xs' ++ b :: ys' ++ [v2])) as Le2 by (rewrite !app_length; reflexivity).
  assert (shape C p1 p2 c' [v0; v2] [v1]) as Sh.
  { split.
    - split; [cbn; lia|]. split; reflexivity.
    - left. reflexivity.
    - intros [|k] l Q; [|destruct k; discriminate]. cbn in Q. assert (l = mkLink1 1 (xs ++ madd a t :: ys ++ [v1]) s1) as -> by congruence. cbn [l1_level l1_attrs l1_sig nth]. destruct V1 as [L1 L2 _ _]. rewrite Le1.
      split; [reflexivity|]. split; [exists (xs ++ madd a t :: ys); now rewrite <- app_assoc|]. split; assumption.
    - intros [|k] l Q; [|destruct k; discriminate]. cbn in Q. assert (l = mkLink2 2 (xs' ++ msub b (smul d (p1_g2 p1)) :: ys' ++ [v2]) s2) as -> by congruence. cbn [l2_level l2_attrs l2_sig nth]. destruct V2 as [L1 L2 _ _].
      change (msub b (smul d (p1_g2 p1))) with (madd b t'). rewrite Le2. split; [reflexivity|]. split; [exists (xs' ++ madd b t' :: ys'); now rewrite <- app_assoc|]. split; assumption. }
  assert (res_1 C p1 v0 s1 (xs ++ madd a t :: ys ++ [v1]) (length xs) = smul d (pair (p2_g1 p2) (p1_g2 p1))) as R1.
  { rewrite (res_1_shift C LW) by (try exact V1; rewrite app_length; cbn [length]; lia). rewrite Nat.eqb_refl. unfold t. apply (p_smul_l C LW). }
  assert (forall r, r <> f0 -> verify_batch1 s1 (xs ++ madd a t :: ys ++ [v1]) v0 p1 r = Ok false) as Rej.
  { intros r Nr. rewrite (batch1_value C LW); [|exact N1| | |exact Nr]; [|destruct V1; rewrite Le1; assumption..].
    f_equal. apply (meqb_neq _ _ HT). unfold rs1. cbn [meval]. rewrite (res0_1_zero C LW _ _ _ _ V1), (madd_0_l _ _ HT).
    pose proof (msum_nth_powers C LW r (res_1 C p1 v0 s1 (xs ++ madd a t :: ys ++ [v1])) (length (xs ++ madd a t :: ys ++ [v1])) Nr 0) as P. cbn [Nat.add] in P. replace (fpow r 1) with r in P by (cbn [fpow]; pose proof (proj1 HK) as FT; destruct FT as [FR _ _ _]; rewrite (Ring_theory.Rmul_comm FR); symmetry; apply (Ring_theory.Rmul_1_l FR)).
    rewrite <- P. rewrite (msum_single C LW _ (length xs)).
    - rewrite R1. intros Q. apply Np. apply (smul_cancel HK HT (fmul (fpow r (length xs + 1)) d)).
      + intros Q'. apply (fmul_integral _ HK) in Q' as [Q'|Q']; [|contradiction]. revert Q'. generalize (length xs + 1)%nat. intros n. induction n as [|n IH]; cbn [fpow]; [apply (f1_neq_0 _ HK)|].
        intros Q'. apply (fmul_integral _ HK) in Q' as [Q'|Q']; [contradiction|auto].
      + rewrite (smul_0_r _ _ HT). rewrite <- Q. apply (smul_mul _ _ HT).
    - rewrite app_length. cbn [length]. lia.
    - intros j Hj Nj. rewrite (res_1_shift C LW) by (try exact V1; lia). rewrite (proj2 (Nat.eqb_neq _ _) Nj). apply (smul_0_r _ _ HT). }
  split; [|split].
  - intros r. rewrite (batched_value C LW p1 p2 c' _ _ r N1 N2 Sh). f_equal. apply (meqb_eq _ _ HT). change (chain_size c') with 2%nat. cbn [seq map msum]. unfold lval. cbn [Nat.sub].
    change (1 mod 2)%nat with 1%nat. change (2 mod 2)%nat with 0%nat. change (1 / 2)%nat with 0%nat. change (2 / 2 - 1)%nat with 0%nat. cbn [Nat.eqb c' ch_odd ch_even nth_error nth l1_sig l1_attrs l2_sig l2_attrs].
    rewrite (res0_1_zero C LW _ _ _ _ V1), (res0_2_zero C LW _ _ _ _ V2). change (offs C c' 0) with 0%nat. cbn [Nat.eqb Nat.add].
    set (rv := powers r (offs C c' 2)). change (msub b (smul d (p1_g2 p1))) with (madd b t').
    rewrite (msum_single C LW (fun j => smul (nth (j + 1) rv f0) (res_1 C p1 v0 s1 (xs ++ madd a t :: ys ++ [v1]) j)) (length xs)).
    2:{ rewrite app_length. cbn [length]. lia. }
    2:{ intros j Hj Nj. rewrite (res_1_shift C LW) by (try exact V1; lia). rewrite (proj2 (Nat.eqb_neq _ _) Nj). apply (smul_0_r _ _ HT). }
    rewrite (msum_single C LW (fun j => smul (nth (j + 1) rv f0) (res_2 C p2 v1 s2 (xs' ++ madd b t' :: ys' ++ [v2]) j)) (length xs)).
    2:{ rewrite app_length. cbn [length]. lia. }
    2:{ intros j Hj Nj. rewrite (res_2_shift C LW) by (try exact V2; lia). rewrite (proj2 (Nat.eqb_neq j (length xs'))) by lia. apply (smul_0_r _ _ HT). }
    rewrite R1. rewrite (res_2_shift C LW) by (try exact V2; rewrite app_length; cbn [length]; lia). rewrite Lx, Nat.eqb_refl. unfold t'. rewrite (pair_opp_r C LW), (p_smul_r C LW).
    rewrite !(smul_0_r _ _ HT), !(madd_0_l _ _ HT), (madd_0_r _ _ HT). apply (cancel_pair C LW).
  - intros V. destruct V as [_ _ _ _ VO _]. destruct (VO 0%nat _ eq_refl) as (_ & _ & W). cbn [nth l1_sig l1_attrs c'] in W.
    apply (batch1_complete C LW) with (r := f1) in W; [|exact N1]. rewrite Rej in W; [discriminate|]. apply (f1_neq_0 _ HK).
  - intros rs Nr. unfold verify_delegations. rewrite (proj2 (chain_validate_iff C c' [v0; v2] [v1])) by apply Sh. cbn [rbind]. change (chain_size c') with 2%nat. cbn [seq check_all].
    change (1 mod 2)%nat with 1%nat. change (1 / 2)%nat with 0%nat. cbn [Nat.eqb c' ch_odd]. unfold at_ at 1. cbn [nth_error rbind l1_level]. cbn [Z.of_nat Pos.of_succ_nat Z.eqb Pos.eqb negb]. unfold at_ at 1. cbn [nth_error rbind].
    unfold at_ at 1. cbn [nth_error rbind]. unfold link_verify1. rewrite (proj2 (validate1_iff C LW _ _ _)).
    + cbn [rbind l1_sig l1_attrs]. rewrite Rej by exact Nr. reflexivity.
    + cbn [l1_attrs]. split; [rewrite Le1; apply V1|]. exists (xs ++ madd a t :: ys). now rewrite <- app_assoc.
Qed.
