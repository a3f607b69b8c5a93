(** Concrete cases for C97-C106 over the toy curve of prime order 257. *)
From Verif Require Import Base BnModel NumTheory Alg Lin Fp ClRevModel ClRevSpec CurveInst BbsModel BbsLib BbsProps BbsExProps PsModel GrothModel DelegModel GrothSpec GrothLib GrothProps DelegLib DelegProps DelegChainProps DelegBatchProps DelegForgeProps.
Import List ListNotations.
Open Scope list_scope.
Open Scope Z_scope.

Definition e1 (z : Z) : cG1 T257 := fp 257 z.
Definition e2 (z : Z) : cG2 T257 := fp 257 z.
Definition gp1 : params1 T257 := mkParams1 (e1 11) (e2 2) [e1 5; e1 7; e1 13].
Definition gp2 : params2 T257 := mkParams2 (e1 11) (e2 2) [e2 6; e2 9; e2 14].
Lemma gp1_ok : params1_ok gp1. Proof. discriminate. Qed.
Lemma gp2_ok : params2_ok gp2. Proof. discriminate. Qed.
Definition gs1_0 : sig1 T257 := mkSig1 (e2 0) (e1 0) [].
Definition gs2_0 : sig2 T257 := mkSig2 (e1 0) (e2 0) [].
(** keys 21 (root), 22 (level 1), 23 (level 2), 24 (level 3) *)
Definition v0 : cG2 T257 := snd (keygen1 gp1 (xk 21)).
Definition v1 : cG1 T257 := snd (keygen2 gp2 (xk 22)).
Definition v2 : cG2 T257 := snd (keygen1 gp1 (xk 23)).
Definition v3 : cG1 T257 := snd (keygen2 gp2 (xk 24)).
Definition xl0 : link1 T257 := mkLink1 0 [] gs1_0.
Definition xl0' : link2 T257 := mkLink2 0 [] gs2_0.
Definition xl1 : link1 T257 := unwrap xl0 (root_delegate [e1 31; e1 32] v1 (xk 21) gp1 (xk 3)).
Definition xl2 : link2 T257 := unwrap xl0' (odd_delegate 1 [e2 33] v2 (xk 22) gp2 (xk 4)).
Definition xl3 : link1 T257 := unwrap xl0 (even_delegate 2 [e1 35] v3 (xk 23) gp1 (xk 6)).
Definition xchain : chain T257 := mkChain [xl1; xl3] [xl2].

Example C97_ex : match sign1 [e1 31; e1 32] (xk 21) gp1 (xk 3), sign2 [e2 33] (xk 22) gp2 (xk 4) with
  | Ok s, Ok s' => verify1 s [e1 31; e1 32] v0 gp1 = Ok true /\ verify1 s [e1 31; e1 33] v0 gp1 = Ok false /\ verify1 (randomize1 s (xk 8)) [e1 31; e1 32] v0 gp1 = Ok true /\
                   verify2 s' [e2 33] v1 gp2 = Ok true /\ verify2 s' [e2 34] v1 gp2 = Ok false
  | _, _ => False end /\
  match sign1 [e1 1; e1 2; e1 3; e1 4] (xk 21) gp1 (xk 3) with Err (DelgErr (DUnsupportedNoOfMessages 3 4)) => True | _ => False end.
Proof. split; vm_compute; repeat split; reflexivity. Qed.
Example C98_ex : match sign1 [e1 31; e1 32] (xk 21) gp1 (xk 3) with
  | Ok s => verify_batch1 s [e1 31; e1 32] v0 gp1 (xk 77) = Ok true /\ verify_batch1 s [e1 31; e1 33] v0 gp1 (xk 77) = Ok false
  | _ => False end.
Proof. vm_compute. split; reflexivity. Qed.
Example C99_ex : match sign1 [e1 31; e1 32] (xk 21) gp1 (xk 3) with
  | Ok s => verify1 s [e1 31] v0 gp1 = Ok true /\ verify_batch1 s [e1 31; e1 32; e1 33] v0 gp1 (xk 77) = Err Panic
  | _ => False end /\ nondegenerate_r (C := T257) (p1_g2 gp1).
Proof. split; [vm_compute; split; reflexivity|exact xnondeg]. Qed.
Example C100_ex : length (p1_y (@setup1 T257 (fun l => e1 (fold_left Z.add l 0)) (fun l => e2 (fold_left Z.add l 0)) 3 [116])) = 3%nat.
Proof. reflexivity. Qed.
Example C101_ex : match key_pok_finish (key_pok_start (C := T257) (p1_g2 gp1) (xk 5)) (xk 21) (xk 9) with
  | Ok pf => key_pok_verify (C := T257) (p1_g2 gp1) pf v0 (xk 9) = Ok true /\ key_pok_verify (C := T257) (p1_g2 gp1) pf v2 (xk 9) = Ok false
  | _ => False end.
Proof. vm_compute. split; reflexivity. Qed.
Example C102_ex : l1_level xl1 = 1 /\ l2_level xl2 = 2 /\ l1_level xl3 = 3 /\ link_verify1 xl1 v1 v0 gp1 (xk 7) = Ok true /\
  match even_delegate 0 [e1 1; e1 2; e1 3] v1 (xk 21) gp1 (xk 3) with Err (DelgErr (DMoreAttributesThanExpected 3 3)) => True | _ => False end.
Proof. vm_compute. repeat split; reflexivity. Qed.
(** the second attribute of a link used as a key *)
Example C103_ex : link_verify1 (mkLink1 1 [e1 31; e1 32] (l1_sig xl1)) (e1 32) v0 gp1 (xk 7) = Ok true /\
  match link_verify1 xl1 v3 v0 gp1 (xk 7) with Err (DelgErr DVerkeyNotFoundInDelegationLink) => True | _ => False end.
Proof. vm_compute. split; [reflexivity|exact I]. Qed.
Definition xbuilt : res (chain T257) := let! a := extend_with_odd chain_new xl1 in let! b := extend_with_even a xl2 in extend_with_odd b xl3.
Definition sizes (c : res (chain T257)) : option (nat * nat) := match c with Ok c => Some (length (ch_odd c), length (ch_even c)) | _ => None end.
Example C104_ex : sizes xbuilt = Some (2, 1)%nat /\ sizes (get_truncated xchain 2) = Some (1, 1)%nat /\ sizes (get_truncated xchain 4) = None /\
  sizes (extend_with_odd chain_new xl3) = None /\ sizes (extend_with_even chain_new xl2) = Some (0, 1)%nat.
Proof. vm_compute. repeat split; reflexivity. Qed.
Lemma xchain_valid : valid_chain gp1 gp2 xchain [v0; v2] [v1; v3].
Proof.
  split; [discriminate|right; reflexivity|reflexivity|reflexivity| |].
  - intros [|[|k]] l Q; [| |destruct k; discriminate].
    + change (Some xl1 = Some l) in Q. injection Q as <-. split; [vm_compute; reflexivity|]. split; [exists [e1 31; e1 32]; reflexivity|].
      apply (verify1_iff T257 T257_laws _ _ _ _ gp1_ok). vm_compute. reflexivity.
    + change (Some xl3 = Some l) in Q. injection Q as <-. split; [vm_compute; reflexivity|]. split; [exists [e1 35]; reflexivity|].
      apply (verify1_iff T257 T257_laws _ _ _ _ gp1_ok). vm_compute. reflexivity.
  - intros [|k] l Q; [|destruct k; discriminate].
    change (Some xl2 = Some l) in Q. injection Q as <-. split; [vm_compute; reflexivity|]. split; [exists [e2 33]; reflexivity|].
    apply (verify2_iff T257 T257_laws _ _ _ _ gp2_ok). vm_compute. reflexivity.
Qed.
Example C105_ex : verify_delegations xchain [v0; v2] [v1; v3] gp1 gp2 (fun i => xk (Z.of_nat i + 40)) = Ok true /\
  verify_delegations xchain [v0; v0] [v1; v3] gp1 gp2 (fun i => xk (Z.of_nat i + 40)) <> Ok true /\ valid_chain gp1 gp2 xchain [v0; v2] [v1; v3].
Proof. split; [vm_compute; reflexivity|]. split; [vm_compute; discriminate|exact xchain_valid]. Qed.
(** the chain of two links with the first attribute of both links changed *)
Definition xforged : chain T257 := mkChain [mkLink1 1 [madd (e1 31) (smul (xk 5) (p2_g1 gp2)); e1 32; v1] (l1_sig xl1)] [mkLink2 2 [msub (e2 33) (smul (xk 5) (p1_g2 gp1)); v2] (l2_sig xl2)].
Example C106_ex : verify_delegations_batched xchain [v0; v2] [v1; v3] gp1 gp2 (xk 40) = Ok true /\
  verify_delegations_batched xforged [v0; v2] [v1] gp1 gp2 (xk 40) = Ok true /\ verify_delegations xforged [v0; v2] [v1] gp1 gp2 (fun i => xk (Z.of_nat i + 40)) = Ok false.
Proof. vm_compute. repeat split; reflexivity. Qed.
