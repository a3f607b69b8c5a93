(** Concrete cases for C54-C64 over the toy curve of prime order 257. *)
From Verif Require Import Base BnModel NumTheory Alg Lin Fp ClRevModel ClRevSpec CurveInst BbsModel BbsLib BbsProps BbsPokProps BbsSoundProps BbsHideProps BbsCodecModel BbsCodecProps.
Import List ListNotations.
From Coq Require Import Sorted.
Open Scope list_scope.
Open Scope Z_scope.

Definition xk (z : Z) : cK T257 := fp 257 z.
Definition xg1 : cG1 T257 := fp 257 11.
Definition xg2 : cG2 T257 := fp 257 2.
Definition xpk : bbs_pk T257 := mkBbsPk T257 (fp 257 3) [fp 257 5; fp 257 7; fp 257 13] (smul (xk 9) xg2).
Definition xh (l : list Z) : cK T257 := fp 257 (1 + fold_left (fun a b => (3 * a + b) mod 256) l 7).
Definition xencF (k : cK T257) : list Z := [@fpv 257 k].
Definition xms : list (cK T257) := [xk 20; xk 30; xk 40].
Definition unwrap {A} (d : A) (r : res A) : A := match r with Ok x => x | Err _ => d end.
Definition xsig0 : bbs_sig T257 := mkBbsSig T257 (fp 257 0) (fp 257 0) (fp 257 0).
Definition xsig : bbs_sig T257 := unwrap xsig0 (sig_new T257 xg1 xms (xk 9) xpk (xk 21) (xk 33)).
Lemma fp_ne (a b : Z) : a mod 257 <> b mod 257 -> fp 257 a <> fp 257 b.
Proof. intros N E. apply N. apply (f_equal (@fpv 257)) in E. exact E. Qed.
Lemma xgood : good_key xpk.
Proof.
  unfold good_key. split; [|split]; [apply (fp_ne 3 0); discriminate|intros E; apply (f_equal (@fpv 257)) in E; discriminate|].
  repeat constructor; intros E; apply (f_equal (@fpv 257)) in E; discriminate.
Qed.
Lemma xnondeg : nondegenerate_r (C := T257) xg2.
Proof.
  intros s E. change (fmul s (fp 257 2) = (f0 : FpOps 257)) in E. pose proof (FpOps_laws 257 prime_257) as HK.
  change (s = (f0 : FpOps 257)). apply (fmul_integral _ HK) in E. destruct E as [E|E]; [exact E|]. apply (f_equal (@fpv 257)) in E. discriminate.
Qed.
Lemma xonedim : one_dimensional T257.
Proof.
  intros a b Na. pose proof (FpOps_laws 257 prime_257) as HK. exists (fmul b (finv (a : FpOps 257))). change (b = fmul (fmul b (finv (a : FpOps 257))) (a : FpOps 257)).
  destruct HK as [FT EQ] eqn:E. rewrite <- (F_R FT).(Rmul_assoc), (Finv_l FT) by exact Na. rewrite (F_R FT).(Rmul_comm). symmetry. apply (F_R FT).(Rmul_1_l).
Qed.
Example C54_ex : sig_verify T257 xg1 xg2 xsig xms xpk = Ok true /\ sig_verify T257 xg1 xg2 xsig [xk 20; xk 31; xk 40] xpk = Ok false /\
  sig_verify T257 xg1 xg2 xsig [xk 20] xpk = Err (ZmixErr (ZCountMismatch 3 1)) /\ good_key xpk /\ nondegenerate_r (C := T257) xg2.
Proof. split; [vm_compute; reflexivity|]. split; [vm_compute; reflexivity|]. split; [vm_compute; reflexivity|]. split; [apply xgood|apply xnondeg]. Qed.
Example C55_ex : let hidden := [(1%nat, xk 30)] in let known := [(0%nat, xk 20); (2%nat, xk 40)] in
  match blind_context T257 xh xencF xpk hidden (xk 99) (xk 55) (fun i => xk (Z.of_nat i + 60)) with
  | Ok (ctx, bl) => match blind_sign T257 xg1 xh xencF ctx known (xk 9) xpk (xk 99) (xk 21) (xk 33) with
                    | Ok bs => match complete_signature T257 xg1 xg2 xpk xms bs bl with Ok s => sig_verify T257 xg1 xg2 s xms xpk = Ok true | Err _ => False end
                    | Err _ => False end
  | Err _ => False end.
Proof. vm_compute. reflexivity. Qed.
Definition xdisc : list (proof_message T257) := [Revealed T257 (xk 20); HiddenSpecific T257 (xk 30); HiddenSpecific T257 (xk 40)].
Definition xrs (k : nat) : cK T257 := xk (Z.of_nat k * 7 + 70).
Example C56_ex : match pok_init T257 xg1 xg2 xsig xpk xdisc (xk 5) (xk 6) xrs xrs with
  | Ok p => match generate_signature_pok T257 p (prover_challenge T257 xh xencF [p] None (xk 44)) with
            | Ok sp => verify_signature_pok T257 xg1 xg2 xh xencF (mkRequest T257 [0%nat] xpk) sp (xk 44) = Ok [xk 20]
            | Err _ => False end
  | Err _ => False end.
Proof. vm_compute. reflexivity. Qed.
(** two accepting answers to one first message (C57), with the data needed by C60 and C62 *)
Definition xproof (c : Z) : res (pok_proof T257) := let! p := pok_init T257 xg1 xg2 xsig xpk xdisc (xk 5) (xk 6) xrs xrs in pok_gen_proof T257 p (xk c).
Example C57_ex : match pok_init T257 xg1 xg2 xsig xpk xdisc (xk 5) (xk 6) xrs xrs with
  | Ok p => match pok_gen_proof T257 p (xk 12), pok_gen_proof T257 p (xk 13) with
            | Ok pf, Ok pf' => match pok_verify T257 xg1 xg2 pf xpk [(0%nat, xk 20)] (xk 12), pok_verify T257 xg1 xg2 pf' xpk [(0%nat, xk 20)] (xk 13) with Ok PSuccess, Ok PSuccess => True | _, _ => False end
            | _, _ => False end
  | Err _ => False end /\ xk 12 <> xk 13.
Proof. split; [vm_compute; exact I|apply (fp_ne 12 13); discriminate]. Qed.
Lemma xh_nonzero b : xh b <> f0.
Proof.
  unfold xh. change (f0 : cK T257) with (fp 257 0). apply fp_ne. 
  assert (forall l a, 0 <= a < 256 -> 0 <= fold_left (fun a b => (3 * a + b) mod 256) l a < 256) as Q.
  { induction l as [|x l IH]; intros a R; [exact R|]. cbn [fold_left]. apply IH. apply Z.mod_pos_bound. lia. }
  specialize (Q b 7 ltac:(lia)). rewrite !Z.mod_small by lia. lia.
Qed.
Example C58_ex : exists sp, sp_revealed _ sp = [] /\ verify_signature_pok T257 xg1 xg2 xh xencF (mkRequest T257 [0%nat; 1%nat] xpk) sp (xk 44) = Ok [].
Proof. destruct (C58_refuted_reveals_nothing T257 xg1 xg2 xh xencF xpk xsig xms [0%nat; 1%nat] (xk 44)) as (p & c & sp & _ & _ & Q); [apply T257_laws|reflexivity|vm_compute; reflexivity|]. exists sp. exact Q. Qed.
Example C59_ex : exists sp v, v <> xk 20 /\ verify_signature_pok T257 xg1 xg2 xh xencF (mkRequest T257 [0%nat] xpk) sp (xk 44) = Ok (map snd (sp_revealed _ sp)) /\ In (0%nat, v) (sp_revealed _ sp).
Proof.
  destruct (C59_refuted_revealed_signed T257 xg1 xg2 xh xencF xpk xsig xdisc 0 (xk 20) (nth 0 (bh _ xpk) m0) [0%nat] (xk 44) (xk 5) (xk 6) xrs xrs) as (p & _ & Q); [apply T257_laws|reflexivity|vm_compute; reflexivity|reflexivity|reflexivity|apply (fp_ne 5 0); discriminate|].
  destruct (Q (xh_nonzero _)) as (pf & _ & A & B & D & _). eexists _, _. split; [exact A|]. split; [exact B|exact D].
Qed.
(** another signature of the same key that shows the same message *)
Definition xdisc' : list (proof_message T257) := [Revealed T257 (xk 20); HiddenSpecific T257 (xk 1); HiddenSpecific T257 (xk 2)].
Definition xsig' : bbs_sig T257 := unwrap xsig0 (sig_new T257 xg1 [xk 20; xk 1; xk 2] (xk 9) xpk (xk 100) (xk 50)).
Example C60_ex : nondegenerate_r (C := T257) xg2 /\ one_dimensional T257 /\
  sig_verify T257 xg1 xg2 xsig (map (get_message T257) xdisc) xpk = Ok true /\ sig_verify T257 xg1 xg2 xsig' (map (get_message T257) xdisc') xpk = Ok true /\
  map revealed_part xdisc = map revealed_part xdisc' /\ Forall fresh_blinding xdisc /\ Forall fresh_blinding xdisc' /\ xsig <> xsig'.
Proof.
  split; [apply xnondeg|]. split; [apply xonedim|]. split; [vm_compute; reflexivity|]. split; [vm_compute; reflexivity|]. split; [reflexivity|].
  split; [repeat constructor|]. split; [repeat constructor|]. intros E. apply (f_equal (fun s => @fpv 257 (se T257 s))) in E. vm_compute in E. discriminate.
Qed.
Example C61_ex : match det_to_public_key T257 (fun l => fp 257 (1 + fold_left (fun a b => (5 * a + b) mod 256) l 1)) (fp 257 18) 4 with Ok pk => length (bh _ pk) = 4%nat | Err _ => False end /\ be32 258 = [0; 0; 1; 2].
Proof. split; [vm_compute; reflexivity|reflexivity]. Qed.
Definition xdisc2 : list (proof_message T257) := [Revealed T257 (xk 20); HiddenSpecific T257 (xk 30); HiddenExternal T257 (xk 40) (xk 77)].
Example C62_ex : match pok_init T257 xg1 xg2 xsig xpk xdisc2 (xk 5) (xk 6) xrs xrs with
  | Ok p => match pok_gen_proof T257 p (xk 12) with Ok pf => resp_for_message T257 pf 1 = Ok (fsub (xk 77) (fmul (xk 12) (xk 40))) /\ resp_for_message T257 pf 2 = Err (ZmixErr ZGeneralError) | Err _ => False end
  | Err _ => False end /\ hidden_rank xdisc2 2 = 1%nat.
Proof. split; [vm_compute; split; reflexivity|reflexivity]. Qed.
Definition xcd : codec T257 := mkCodec T257 5 10 1 (fun x => [@fpv 257 x; 0; 0; 0; 0]) (fun l => Some (fp 257 (nth 0 l 0))) (fun x => [@fpv 257 x; 0; 0; 0; 0; 0; 0; 0; 0; 0]) (fun l => Some (fp 257 (nth 0 l 0)))
  (fun x => [@fpv 257 x]) (fun l => Some (fp 257 (nth 0 l 0))).
Lemma xcd_ok : codec_ok xcd.
Proof. constructor; try reflexivity; try (cbn; lia); intros x; cbn [d1 e1 d2 e2 dF eF xcd nth]; f_equal; apply fp_fpv. Qed.
Definition C63_ex_ok : bool := match xproof 12 with
  | Ok pf => let sp := mkSigProof T257 [(0%nat, xk 20); (2%nat, xk 9)] pf in
      match sp_from_bytes T257 xcd (sp_to_bytes T257 xcd sp ++ [1; 2]) with
      | Ok sp' => match sp_revealed T257 sp' with [(0%nat, a); (2%nat, b)] => (fpv a =? 20) && (fpv b =? 9) | _ => false end
      | Err _ => false end
  | Err _ => false end.
Example C63_ex : C63_ex_ok = true /\
  revealed_to_bitvector 12 [0%nat; 3%nat; 9%nat] = Ok [2; 9] /\ bitvector_to_revealed [2; 9] = [0%nat; 3%nat; 9%nat] /\ revealed_to_bitvector 12 [16%nat] = Err Panic /\ codec_ok xcd.
Proof.
  split; [vm_compute; reflexivity|]. split; [reflexivity|]. split; [reflexivity|]. split; [reflexivity|apply xcd_ok].
Qed.
Definition is_panic {A} (r : res A) : bool := match r with Err Panic => true | _ => false end.
Definition is_malformed {A} (r : res A) : bool := match r with Err (ZmixErr ZMalformedPublicKey) => true | _ => false end.
Example C64_ex : is_panic (sp_from_bytes T257 xcd [0; 0; 0; 9; 0; 0; 0; 0]) = true /\ is_malformed (pk_from_bytes T257 xcd [1; 2]) = true.
Proof. split; vm_compute; reflexivity. Qed.
