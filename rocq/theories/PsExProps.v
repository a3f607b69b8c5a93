(** Concrete cases for C65-C71 over the toy curve of prime order 257: a key for three
    messages, a blindly issued signature, a disclosure of message 1. *)
From Verif Require Import Base BnModel NumTheory Alg Lin Fp ClRevModel ClRevSpec CurveInst BbsModel BbsLib BbsProps BbsCodecModel BbsCodecProps BbsExProps PsModel PsLib PsProps PsPokProps.
Import List ListNotations.
Open Scope list_scope.
Open Scope Z_scope.

Definition yp : ps_params T257 := mkPsParams (C := T257) xg1 xg2.
Definition ysk : sigkey T257 := mkSigkey (C := T257) (xk 5) [xk 6; xk 7; xk 8].
Definition yvk : ps_verkey T257 := fst (keygen T257 3 yp (xk 5) (fun i => xk (Z.of_nat i + 6))).
Lemma ykeypair : ps_keypair yp ysk yvk.
Proof. split; reflexivity. Qed.
Definition ysig : ps_sig T257 := unwrap (mkPsSig (C := T257) xg1 xg1) (ps_sign T257 xms ysk yp (xk 12)).
Definition is_true (r : res bool) : bool := match r with Ok b => b | Err _ => false end.
Definition is_false (r : res bool) : bool := match r with Ok b => negb b | Err _ => false end.
Definition ops : list (cG1 T257 * option (cK T257) * cK T257) := [(fp 257 3, None, xk 40); (fp 257 9, Some (xk 41), xk 0)].
Definition c65_ok : bool :=
  match gen_proof (finish (commit_run (M := cG1 T257) ops)) (xk 100) [xk 1; xk 2], gen_proof (finish (commit_run (M := cG1 T257) ops)) (xk 101) [xk 1; xk 2] with
  | Ok p, Ok p' => let y : cG1 T257 := fp 257 21 in let bases : list (cG1 T257) := [fp 257 3; fp 257 9] in
      is_true (vproof_verify p bases y (xk 100)) && is_true (vproof_verify p' bases y (xk 101)) && is_false (vproof_verify p bases y (xk 101))
  | _, _ => false end.
Example C65_ex : c65_ok = true /\ xk 100 <> xk 101.
Proof. split; [vm_compute; reflexivity|apply (fp_ne 100 101); discriminate]. Qed.
Example C66_ex : is_true (ps_verify T257 ysig xms yvk yp) = true /\ is_false (ps_verify T257 ysig [xk 20; xk 31; xk 40] yvk yp) = true /\ ps_keypair yp ysk yvk /\ nondegenerate_r (C := T257) (pp_gt yp) /\
  exponent ysk xms <> f0 /\ (pp_g yp : cG1 T257) <> m0.
Proof.
  split; [vm_compute; reflexivity|]. split; [vm_compute; reflexivity|]. split; [apply ykeypair|]. split; [apply xnondeg|].
  split; intros E; apply (f_equal (@fpv 257)) in E; vm_compute in E; discriminate.
Qed.
(** messages 0 and 1 committed, message 2 known to the signer; then message 2 overridden *)
Definition ycom : cG1 T257 := madd (smul (xk 9) (pp_g yp)) (lin (firstn 2 (bk_Y (blinding_key_new T257 ysk yp))) [xk 20; xk 30]).
Definition ycom' : cG1 T257 := madd (smul (xk 9) (pp_g yp)) (lin (bk_Y (blinding_key_new T257 ysk yp)) [xk 20; xk 30; xk 3]).
Definition yissue (com : cG1 T257) (ms : list (cK T257)) : bool :=
  match ps_blind_sign T257 com [xk 40] ysk (blinding_key_new T257 ysk yp) yp (xk 12) with Ok bs => is_true (ps_verify T257 (ps_unblind T257 bs (xk 9)) ms yvk yp) | Err _ => false end.
Example C67_ex : yissue ycom xms = true /\ yissue ycom' [xk 20; xk 30; xk 43] = true /\ yissue ycom' xms = false.
Proof. split; [vm_compute; reflexivity|]. split; vm_compute; reflexivity. Qed.
Definition yinit (sig : ps_sig T257) (ms : list (cK T257)) : res (ps_pok T257) := ps_pok_init T257 sig yvk yp ms None [1%nat] (xk 77) (xk 88) (fun i => xk (Z.of_nat i + 200)).
Definition yproof (ch : Z) : res (ps_pok_proof T257) := let! st := yinit ysig xms in ps_pok_gen T257 st (xk ch).
Definition yaccept (ch : Z) (rv : list (nat * cK T257)) : res bool := let! pf := yproof ch in ps_pok_verify T257 pf yvk yp rv (xk ch).
Example C68_ex : is_true (yaccept 50 [(1%nat, xk 30)]) = true /\ index_set [1%nat] (length xms) /\ reveals [1%nat] xms [(1%nat, xk 30)].
Proof.
  split; [vm_compute; reflexivity|]. split.
  - split; [repeat constructor; intros []|]. repeat constructor.
  - split; [repeat constructor; intros []|]. intros i m. split.
    + intros [E|[]]. injection E as <- <-. split; [now left|reflexivity].
    + intros ([<-|[]] & E). left. injection E as <-. reflexivity.
Qed.
(** two accepted answers, and a wrong value for message 1 is rejected *)
Example C69_ex : is_true (yaccept 50 [(1%nat, xk 30)]) = true /\ is_true (yaccept 51 [(1%nat, xk 30)]) = true /\ is_false (yaccept 50 [(1%nat, xk 31)]) = true /\ xk 50 <> xk 51.
Proof. split; [vm_compute; reflexivity|]. split; [vm_compute; reflexivity|]. split; [vm_compute; reflexivity|]. apply (fp_ne 50 51); discriminate. Qed.
Definition ysig' : ps_sig T257 := unwrap (mkPsSig (C := T257) xg1 xg1) (ps_sign T257 [xk 1; xk 30; xk 2] ysk yp (xk 13)).
Example C70_ex : is_true (ps_verify T257 ysig' [xk 1; xk 30; xk 2] yvk yp) = true /\ one_dimensional T257 /\ ysig <> ysig' /\ (pp_gt yp : cG2 T257) <> m0.
Proof.
  split; [vm_compute; reflexivity|]. split; [apply xonedim|]. split.
  - intros E. apply (f_equal (fun s : ps_sig T257 => @fpv 257 (s_2 s))) in E. vm_compute in E. discriminate.
  - intros E; apply (f_equal (@fpv 257)) in E; vm_compute in E; discriminate.
Qed.
Definition bad_bytes : res (vproof (cG2 T257)) := vproof_from_bytes 2 1 (fun b => if (length b =? 3)%nat then Some (fp 257 (nth 0 b 0) : cG2 T257) else None) (fun b => Some (fp 257 (nth 0 b 0) : cK T257)) [1; 2; 3; 0; 0; 0; 0; 0; 0].
Example C71_ex : is_panic (yaccept 50 [(1%nat, xk 30); (3%nat, xk 1)]) = true /\ match bad_bytes with Err (ZmixErr ZGeneralError) => true | _ => false end = true.
Proof. split; vm_compute; reflexivity. Qed.
