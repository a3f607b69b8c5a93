(** Small number-theory toolbox. *)
From Verif Require Import Base.
From Coq Require Import ZArith.Znumtheory.

(** executable primality by trial division, reflected into [prime] *)
Definition isprimeb (p : Z) : bool :=
  (2 <=? p) && forallb (fun d => negb (p mod d =? 0)) (map Z.of_nat (seq 2 (Z.to_nat (Z.sqrt p) - 1))).

Lemma isprimeb_prime p : isprimeb p = true -> prime p.
Proof.
  unfold isprimeb. intros H. apply andb_prop in H as [H2 H].
  apply Z.leb_le in H2. rewrite forallb_forall in H.
  apply prime_alt. split; [lia|]. intros d Hd [k Hk].
  assert (Hk0 : 0 < k) by nia.
  assert (G : forall a b, 1 < a -> 0 < b -> a * b = p -> a <= b -> False).
  { intros a b Ha Hb E Hab.
    assert (Hs : a <= Z.sqrt p).
    { apply Z.sqrt_le_square; nia. }
    specialize (H a). rewrite negb_true_iff in H.
    assert (Hin : In a (map Z.of_nat (seq 2 (Z.to_nat (Z.sqrt p) - 1)))).
    { apply in_map_iff. exists (Z.to_nat a). split; [lia|]. apply in_seq. lia. }
    apply H in Hin. apply Z.eqb_neq in Hin. apply Hin. rewrite <- E.
    rewrite Z.mul_comm. apply Z.mod_mul. lia. }
  destruct (Z_le_gt_dec d k) as [L|L].
  - apply (G d k); lia.
  - destruct (Z.eq_dec k 1) as [->|Hk1]; [lia|]. apply (G k d); lia.
Qed.

Lemma prime_257 : prime 257.
Proof. apply isprimeb_prime. vm_compute. reflexivity. Qed.
Lemma prime_7 : prime 7.
Proof. apply isprimeb_prime. vm_compute. reflexivity. Qed.
Lemma prime_5 : prime 5.
Proof. apply isprimeb_prime. vm_compute. reflexivity. Qed.
