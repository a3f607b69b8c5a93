(** Concrete cases for C93 and C94 over the residues modulo 257. *)
From Verif Require Import Base Alg Lin Fp NumTheory TranscriptModel IppModel IppLib IppSpec IppProps.
From Coq Require Import String.
Import List ListNotations.
Open Scope list_scope.

Definition iK : fieldOps := FpOps 257.
Definition iM : modOps iK := self_mod iK.
Definition ik (z : Z) : iK := fp 257 z.
Definition im (z : Z) : iM := fp 257 z.
(** a challenge that depends on everything appended, and is never zero *)
Definition ichal (tr : transcript) (l : string) : iK :=
  fp 257 (1 + fold_left (fun a e => (3 * a + 7 * match e with Msg _ d => fold_left (fun x y => (5 * x + y) mod 256) d 1 | Chal _ => 2 end) mod 256) tr 9)%Z.
Definition iT : tcode iM := mkTcode (fun m : iM => [@fpv 257 m]) (fun k : iK => [@fpv 257 k]) ichal.

Lemma fold_bounded {A} (f : Z -> A -> Z) (l : list A) acc : (forall a e, 0 <= f a e < 256)%Z -> (0 <= acc < 256)%Z -> (0 <= fold_left f l acc < 256)%Z.
Proof. intros H. revert acc. induction l as [|x l IH]; intros acc Ha; cbn [fold_left]; [exact Ha|]. apply IH, H. Qed.
Lemma ichal_nonzero : challenges_nonzero iT.
Proof.
  intros tr l. cbn [chal iT]. unfold ichal. intros E. apply (f_equal (@fpv 257)) in E. change (fpv f0) with 0%Z in E. rewrite fpv_fp in E.
  match type of E with ((1 + ?x) mod 257 = 0)%Z => assert (0 <= x < 256)%Z as B by (apply fold_bounded; [intros; apply Z.mod_pos_bound; lia|lia]); rewrite Z.mod_small in E by lia; lia end.
Qed.
Lemma iK_laws : field_laws iK.
Proof. apply FpOps_laws, prime_257. Qed.

Definition iG := map im [3; 5; 7; 11]%Z. Definition iH := map im [13; 17; 19; 23]%Z.
Definition ia := map ik [2; 4; 6; 8]%Z. Definition ib := map ik [1; 3; 9; 27]%Z.
Definition igf := map ik [1; 1; 5; 5]%Z. Definition ihf := map ik [1; 2; 20; 40]%Z.
Definition iu := im 29.
Definition iP (d : Z) : iM := madd (im d) (madd (madd (lin iG (hadamard ia igf)) (lin iH (hadamard ib ihf))) (smul (inner ia ib) iu)).
(** the hypotheses of C93_complete hold for a real case, the proof has two rounds, and the
    statement with another P is refused *)
Theorem C93_ex :
  challenges_nonzero iT /\ (2 < 32)%nat /\ log_exact Nat.log2 4 /\
  match create_ipp iT [] iu igf ihf iG iH ia ib with
  | Ok (p, _) =>
      (length (ip_L p) =? 2)%nat &&
      match verify_ipp iT Nat.log2 4 [] igf ihf (iP 0) iu iG iH (ip_a p) (ip_b p) (ip_L p) (ip_R p) with Ok _ => true | _ => false end &&
      match verify_ipp iT Nat.log2 4 [] igf ihf (iP 1) iu iG iH (ip_a p) (ip_b p) (ip_L p) (ip_R p) with Err (BpErr BIPPVerificationError) => true | _ => false end &&
      (* another transcript *)
      match verify_ipp iT Nat.log2 4 [Chal "a"] igf ihf (iP 0) iu iG iH (ip_a p) (ip_b p) (ip_L p) (ip_R p) with Err (BpErr BIPPVerificationError) => true | _ => false end
  | _ => false end = true.
Proof. split; [exact ichal_nonzero|]. split; [lia|]. split; [now intros i _|]. vm_compute. reflexivity. Qed.
(** a proof with one point removed from R, and one with a point added *)
Theorem C94_ex :
  match create_ipp iT [] iu igf ihf iG iH ia ib with
  | Ok (p, _) =>
      match verify_ipp iT Nat.log2 4 [] igf ihf (iP 0) iu iG iH (ip_a p) (ip_b p) (ip_L p) (tl (ip_R p)) with Err Panic => true | _ => false end &&
      match verify_ipp iT Nat.log2 4 [] igf ihf (iP 0) iu iG iH (ip_a p) (ip_b p) (ip_L p) (ip_R p ++ [iu]) with Err Panic => true | _ => false end &&
      match verify_ipp iT Nat.log2 4 [] igf ihf (iP 0) iu iG iH (ip_a p) (ip_b p) (tl (ip_L p)) (ip_R p) with Err Panic => true | _ => false end
  | _ => false end = true.
Proof. vm_compute. reflexivity. Qed.
