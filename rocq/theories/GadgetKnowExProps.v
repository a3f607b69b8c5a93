(** A concrete case for C132 and C133 over the residues modulo 257: membership of 42 in {42},
    proved by the honest prover with 5 values of z, 5 of u, 6 of x and 2 of w; and whole proofs of
    the other gadgets. *)
From Coq Require Import String.
From Verif Require Import Base Alg Lin Fp NumTheory TranscriptModel IppModel IppLib IppSpec IppProps IppExProps IppSoundSpec IppForkSpec IppForkExProps R1csModel R1csSpec R1csLib GadgetModel GadgetApiModel R1csProofModel R1csProofLib R1csProofSpec R1csProofComplete R1csProofProps R1csCheckProps R1csProofExProps R1csSoundSpec R1csSoundProps R1csSoundExProps R1csKnowSpec R1csKnowProps GadgetKnowLib GadgetKnowProps.
Import List ListNotations.
Open Scope list_scope.

Definition gset : list iK := [ik 42].
Definition gP : csm (pstate iK) (list iM) := prove_set_membership (commit_elem eg eh) (ik 42) (Some (ik 9)) gset None (fun i => ik (Z.of_nat i + 70)).
Definition gps : pstate iK := match gP p_new with Ok (_, s) => s | _ => p_new end.
Definition gcomms : list iM := match gP p_new with Ok (c, _) => c | _ => [] end.
Definition gvs : vstate iK iM := match verify_set_membership gset gcomms v_new with Ok (_, s) => s | _ => v_new end.
Definition gvs' := v_clear gvs.
Definition gtr : transcript := v_transcript iT [] gvs.
Definition grun (y z u x w : Z) : r1cs_proof iM := match gen_proof (lT y z u x w) gP [] eg eh iG iH eD with Ok (p, _) => p | _ => no_proof end.
Lemma gleaf_ok (p0 p1 p2 p3 : r1cs_proof iM) us ft1 w1 ft2 w2 z u x w : (0 < z < 257)%Z -> (0 < u < 257)%Z -> (0 < x < 257)%Z -> (0 < w < 257)%Z ->
  okb (verify (lT 2 z u x w) Nat.log2 [] gvs gtr (lproof p0 p1 p2 p3) eg eh iG iH (ik 0)) = true -> okb (verify (lT 2 z u x w) Nat.log2 [] gvs gtr (lproof p0 p1 p2 p3) eg eh iG iH (ik 1)) = true ->
  leaf_accepted Nat.log2 (fun _ => []) gvs gvs' gtr eg eh iG iH (A_I1 p0) (A_O1 p0) (S1 p0) (A_I2 p0) (A_O2 p0) (S2 p0) (ik 2) (mkFz (ik z) (T_1 p1) (T_3 p1) (T_4 p1) (T_5 p1) (T_6 p1) us) (ik u)
    (mkFx (ik x) (t_x p2) (t_x_blinding p2) (e_blinding p2) w1 ft1 w2 ft2) (ik w) (lT 2 z u x w) (ip_a (ipp p3)) (ip_b (ipp p3)) [] [] [].
Proof.
  intros Hz Hu Hx Hw V0 V1. unfold leaf_accepted. cbv zeta. split; [apply lT_nonzero; lia|]. eexists. split; [reflexivity|]. split; [reflexivity|].
  exists (ik 0), (ik 1). split; [apply iK_neq; vm_compute; reflexivity|]. split; apply okb_ok; [exact V0|exact V1].
Qed.

Lemma k0 : Nat.log2_up (v_num gvs') = 0%nat.
Proof. vm_compute. reflexivity. Qed.
Lemma c4 : length (v_cons gvs') = 4%nat.
Proof. vm_compute. reflexivity. Qed.

Definition g0 (run : Z -> Z -> Z -> Z -> Z -> r1cs_proof iM) := run 2%Z 1%Z 1%Z 1%Z 1%Z.
(** the verifier accepts every path of the tree, for the random scalars 0 and 1 *)
Notation gver run z u x w r := (okb (verify (lT 2 z u x w) Nat.log2 [] gvs gtr (lproof (g0 run) (run 2%Z z 1%Z 1%Z 1%Z) (run 2%Z z u x 1%Z) (run 2%Z z u x w)) eg eh iG iH (ik r))).
Notation gall run := (forallb (fun z => forallb (fun u => forallb (fun x => (gver run z u x 1 0 && gver run z u x 1 1 && gver run z u x 2 0 && gver run z u x 2 1)%bool) xs6) us5) us5).

Notation gacc run f := (f Nat.log2 (fun _ : tcode iM => @nil (vcallback iM)) gvs gvs' gtr eg eh iG iH (A_I1 (g0 run)) (A_O1 (g0 run)) (S1 (g0 run)) (A_I2 (g0 run)) (A_O2 (g0 run)) (S2 (g0 run))).

(** ** the tree of the runs [run y z u x w] *)
Section Tree.
Context (run : Z -> Z -> Z -> Z -> Z -> r1cs_proof iM).
Definition gtree (z u x w : Z) : ftree iM := FLeaf (lT 2 z u x w) (ip_a (ipp (run 2 z u x w))) (ip_b (ipp (run 2 z u x w))).
Definition gfx (z u x : Z) : fx iM := mkFx (ik x) (t_x (run 2 z u x 1)) (t_x_blinding (run 2 z u x 1)) (e_blinding (run 2 z u x 1)) (ik 1) (gtree z u x 1) (ik 2) (gtree z u x 2).
Definition gfu (z u : Z) : fu iM := mkFu (ik u) (map (gfx z u) xs6).
Definition gfz (z : Z) : fz iM := mkFz (ik z) (T_1 (run 2 z 1 1 1)) (T_3 (run 2 z 1 1 1)) (T_4 (run 2 z 1 1 1)) (T_5 (run 2 z 1 1 1)) (T_6 (run 2 z 1 1 1)) (map (gfu z) us5).
Definition gt : list (fy iM) := [mkFy (ik 2) (map gfz us5)].
Context (all : gall run = true).
Lemma leaf_x z u x w : In z us5 -> In u us5 -> In x xs6 -> w = 1%Z \/ w = 2%Z ->
  gacc run leaf_accepted (ik 2) (gfz z) (ik u) (gfx z u x) (ik w) (lT 2 z u x w) (ip_a (ipp (run 2 z u x w))) (ip_b (ipp (run 2 z u x w))) [] [] [].
Proof.
  intros Iz Iu Ix Iw. assert (0 < w < 257)%Z as W by lia. unfold gfz, gfx. apply gleaf_ok; [exact (Ru z Iz)|exact (Ru u Iu)|exact (Rx x Ix)|exact W| |].
  - pose proof all as F. rewrite forallb_forall in F. specialize (F z Iz). cbv beta in F. rewrite forallb_forall in F. specialize (F u Iu). cbv beta in F. rewrite forallb_forall in F. specialize (F x Ix). cbv beta in F.
    rewrite !Bool.andb_true_iff in F. destruct F as (((F1 & F2) & F3) & F4). destruct Iw as [-> | ->]; [exact F1|exact F3].
  - pose proof all as F. rewrite forallb_forall in F. specialize (F z Iz). cbv beta in F. rewrite forallb_forall in F. specialize (F u Iu). cbv beta in F. rewrite forallb_forall in F. specialize (F x Ix). cbv beta in F.
    rewrite !Bool.andb_true_iff in F. destruct F as (((F1 & F2) & F3) & F4). destruct Iw as [-> | ->]; [exact F2|exact F4].
Qed.
Lemma x_ok z u x : In z us5 -> In u us5 -> In x xs6 -> gacc run x_accepted (ik 2) (gfz z) (ik u) (gfx z u x).
Proof.
  intros Iz Iu Ix. pose proof (leaf_x z u x 1 Iz Iu Ix (or_introl eq_refl)) as L1. pose proof (leaf_x z u x 2 Iz Iu Ix (or_intror eq_refl)) as L2. clear all.
  unfold x_accepted. rewrite k0.
  change (fx_x (gfx z u x)) with (ik x). change (fx_w1 (gfx z u x)) with (ik 1). change (fx_w2 (gfx z u x)) with (ik 2).
  split; [apply ik_nz, Rx; exact Ix|]. split; [apply ik_nz; lia|]. split; [apply ik_nz; lia|]. split; [apply iK_neq; vm_compute; reflexivity|].
  split; [exact I|]. split; [exact I|]. change (fx_t1 (gfx z u x)) with (gtree z u x 1). change (fx_t2 (gfx z u x)) with (gtree z u x 2).
  unfold gtree. cbn [every_leaf]. split; [exact L1|exact L2].
Qed.
Lemma u_ok z u : In z us5 -> In u us5 -> gacc run u_accepted (ik 2) (gfz z) (gfu z u).
Proof.
  intros Iz Iu. unfold u_accepted. unfold gfu at 1 2 3. cbn [fu_u fu_xs]. split; [apply ik_nz, Ru; exact Iu|]. split; [reflexivity|].
  split; [apply ND_map; [repeat constructor; cbn; lia|exact Rx|reflexivity]|]. intros b' Ib. change (In b' (map (gfx z u) xs6)) in Ib. apply in_map_iff in Ib as (x & <- & Ix). exact (x_ok z u x Iz Iu Ix).
Qed.
Lemma z_ok z : In z us5 -> gacc run z_accepted (ik 2) (gfz z).
Proof.
  intros Iz. unfold z_accepted. unfold gfz at 1 2 3. cbn [fz_us]. split; [reflexivity|].
  split; [apply ND_map; [repeat constructor; cbn; lia|exact Ru|reflexivity]|]. intros b' Ib. apply in_map_iff in Ib as (u & <- & Iu). exact (u_ok z u Iz Iu).
Qed.
Lemma t_ok : gacc run r1cs_accepted gt.
Proof.
  unfold r1cs_accepted. rewrite k0. split; [reflexivity|]. split; [repeat constructor; intros []|]. intros b [<-|[]].
  unfold y_accepted. rewrite c4. cbn [fy_y fy_zs]. split; [apply ik_nz; lia|]. split; [reflexivity|].
  split; [apply ND_map; [repeat constructor; cbn; lia|exact Ru|reflexivity]|]. intros c Ic. apply in_map_iff in Ic as (z & <- & Iz). exact (z_ok z Iz).
Qed.
End Tree.

(** ** the honest runs *)
Lemma all_accepted : gall grun = true.
Proof. vm_compute. reflexivity. Qed.

Lemma g_verify : verify_set_membership gset gcomms v_new = Ok (tt, gvs).
Proof. assert (is_ok (verify_set_membership gset gcomms v_new) = true) as E by (vm_compute; reflexivity). unfold gvs. destruct (verify_set_membership gset gcomms v_new) as [[[] s]|]; [reflexivity|discriminate]. Qed.
Lemma g_enough : enough Nat.log2 (length gset) iG iH.
Proof. split; [vm_compute; lia|]. split; [vm_compute; lia|]. split; [vm_compute; lia|]. now intros i _. Qed.
Lemma g_open1 : fpv (fst (opening gvs (member_order (length gset)) (map s_y (gt grun)) 0)) = 42%Z.
Proof. vm_compute. reflexivity. Qed.
Lemma g_open2 : fpv (snd (opening gvs (member_order (length gset)) (map s_y (gt grun)) 0)) = 9%Z.
Proof. vm_compute. reflexivity. Qed.
Lemma g_norel : forallb (fun r => forallb (fun j => (fpv (r j) =? 0)%Z) [0; 1; 2; 3]%nat) (rels_r1cs (v_num gvs) 1 2 0 (v_cons gvs) (map s_y (gt grun))) = true.
Proof. vm_compute. reflexivity. Qed.
Lemma g_pair (o : iK * iK) a b : (0 <= a < 257)%Z -> (0 <= b < 257)%Z -> fpv (fst o) = a -> fpv (snd o) = b -> o = (ik a, ik b).
Proof. intros Ra Rb E1 E2. destruct o as [x y]. cbn [fst snd] in *. f_equal; apply fpv_inj; unfold ik; rewrite fpv_fp, Z.mod_small by lia; assumption. Qed.
(** every run of the tree is a complete honest proof and is accepted; the tree meets the
    hypotheses of C133; the opening computed is (42, 9), and no relation is produced *)
Theorem C133_ex :
  gset <> [] /\ enough Nat.log2 (length gset) iG iH /\ verify_set_membership gset gcomms v_new = Ok (tt, gvs) /\ gacc grun r1cs_accepted (gt grun) /\
  opening gvs (member_order (length gset)) (map s_y (gt grun)) 0 = (ik 42, ik 9) /\
  forallb (fun r => forallb (fun j => (fpv (r j) =? 0)%Z) [0; 1; 2; 3]%nat) (rels_r1cs (v_num gvs) 1 2 0 (v_cons gvs) (map s_y (gt grun))) = true.
Proof.
  split; [discriminate|]. split; [exact g_enough|]. split; [exact g_verify|]. split; [exact (t_ok grun all_accepted)|].
  split; [|exact g_norel]. apply g_pair; [lia|lia|exact g_open1|exact g_open2].
Qed.
(** honest proofs: 42 is in {42, 7}; 42 is not zero; 42 is not in {7}; each is accepted, and
    refused when the claim is changed *)
Definition gen2 := gen_proof iT (prove_set_membership (commit_elem eg eh) (ik 42) (Some (ik 9)) [ik 42; ik 7] None (fun i => ik (Z.of_nat i + 70))) [] eg eh iG iH eD.
Definition gen3 := gen_proof iT (prove_non_zero_val (commit_elem eg eh) (ik 42) (Some (ik 9)) None (fun i => ik (Z.of_nat i + 70))) [] eg eh iG iH eD.
Definition gen4 := gen_proof iT (prove_set_non_membership (commit_elem eg eh) (ik 42) (Some (ik 9)) [ik 7] None (fun i => ik (Z.of_nat i + 70))) [] eg eh iG iH eD.
Definition chk (gen : res (r1cs_proof iM * list iM)) (vf : list iM -> csm (vstate iK iM) unit) : bool :=
  match gen with Ok (p, c) => okb (verify_proof iT Nat.log2 (vf c) p [] eg eh iG iH (ik 5)) | _ => false end.
Theorem C132_ex :
  enough Nat.log2 2 iG iH /\ (chk gen2 (verify_set_membership [ik 42; ik 7]) && negb (chk gen2 (verify_set_membership [ik 43; ik 7])) && chk gen3 verify_non_zero_val &&
   negb (chk gen3 (verify_set_membership [ik 0])) && chk gen4 (verify_set_non_membership [ik 7]) && negb (chk gen4 (verify_set_non_membership [ik 42])))%bool = true.
Proof. split; [|vm_compute; reflexivity]. split; [vm_compute; lia|]. split; [vm_compute; lia|]. split; [vm_compute; lia|]. now intros i _. Qed.
