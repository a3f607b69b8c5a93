(** A concrete case for C131 over the residues modulo 257: the circuit a * b = c of C95, run by
    the honest prover with 4 values of z, 5 of u, 6 of x and 2 of w. *)
From Coq Require Import String.
From Verif Require Import Base Alg Lin Fp NumTheory TranscriptModel IppModel IppLib IppSpec IppProps IppExProps IppSoundSpec IppForkSpec IppForkExProps R1csModel R1csSpec R1csLib R1csProofModel R1csProofLib R1csProofSpec R1csProofComplete R1csProofProps R1csCheckProps R1csProofExProps R1csSoundSpec R1csSoundProps.
Import List ListNotations.
Open Scope list_scope.

(** a run with given challenges *)
Definition lT (y z u x w : Z) : tcode iM := mkTcode (encM iT) (encF iT) (fun _ l =>
  ik (if String.eqb l "y" then y else if String.eqb l "z" then z else if String.eqb l "u" then u else if String.eqb l "x" then x else if String.eqb l "w" then w else 1%Z)).
Lemma lT_nonzero y z u x w : (0 < y < 257 -> 0 < z < 257 -> 0 < u < 257 -> 0 < x < 257 -> 0 < w < 257 -> challenges_nonzero (lT y z u x w))%Z.
Proof.
  intros. intros tr l. cbn [chal lT]. intros E. apply (f_equal (@fpv 257)) in E. change (fpv f0) with 0%Z in E. unfold ik in E. rewrite fpv_fp in E. revert E.
  repeat match goal with |- context [String.eqb l ?s] => destruct (String.eqb l s) end; rewrite Z.mod_small by lia; lia.
Qed.
Definition lvs := eVs 15.
Definition lvs' := v_clear lvs.
Definition ltr : transcript := v_transcript iT [] lvs.
Definition no_proof : r1cs_proof iM := mkR1cs m0 m0 m0 m0 m0 m0 m0 m0 m0 m0 m0 f0 f0 f0 (mkIpp [] [] f0 f0).
Definition lrun (y z u x w : Z) : r1cs_proof iM := match prove (lT y z u x w) eg eh [] (ePs 15) (eTr 15) iG iH eD with Ok (p, _) => p | _ => no_proof end.
Definition lproof (p0 p1 p2 p3 : r1cs_proof iM) : r1cs_proof iM :=
  mkR1cs (A_I1 p0) (A_O1 p0) (S1 p0) (A_I2 p0) (A_O2 p0) (S2 p0) (T_1 p1) (T_3 p1) (T_4 p1) (T_5 p1) (T_6 p1) (t_x p2) (t_x_blinding p2) (e_blinding p2) (mkIpp [] [] (ip_a (ipp p3)) (ip_b (ipp p3))).
Lemma in_range_Z (l : list Z) z : forallb (fun z => (0 <? z) && (z <? 257))%bool%Z l = true -> In z l -> (0 < z < 257)%Z.
Proof. intros F I. rewrite forallb_forall in F. specialize (F z I). lia. Qed.
Lemma ik_nz z : (0 < z < 257)%Z -> ik z <> f0.
Proof. intros Hz E. apply (f_equal (@fpv 257)) in E. change (fpv f0) with 0%Z in E. unfold ik in E. rewrite fpv_fp, Z.mod_small in E by lia. lia. Qed.
Lemma ik_nodup (l : list Z) : NoDup l -> (forall z, In z l -> (0 < z < 257)%Z) -> NoDup (map ik l).
Proof.
  induction 1 as [|z l N ND IH]; intros R; [constructor|]. cbn [map]. constructor; [|apply IH; intros; apply R; now right]. intros I. apply in_map_iff in I as (z' & E & I'). apply N. apply (f_equal (@fpv 257)) in E. unfold ik in E. rewrite !fpv_fp in E.
  rewrite !Z.mod_small in E by (pose proof (R z (or_introl eq_refl)); pose proof (R z' (or_intror I')); lia). congruence.
Qed.
Lemma leaf_ok (p0 p1 p2 p3 : r1cs_proof iM) us ft1 w1 ft2 w2 z u x w : (0 < z < 257)%Z -> (0 < u < 257)%Z -> (0 < x < 257)%Z -> (0 < w < 257)%Z ->
  okb (verify (lT 2 z u x w) Nat.log2 [] lvs ltr (lproof p0 p1 p2 p3) eg eh iG iH (ik 0)) = true -> okb (verify (lT 2 z u x w) Nat.log2 [] lvs ltr (lproof p0 p1 p2 p3) eg eh iG iH (ik 1)) = true ->
  leaf_accepted Nat.log2 (fun _ => []) lvs lvs' ltr eg eh iG iH (A_I1 p0) (A_O1 p0) (S1 p0) (A_I2 p0) (A_O2 p0) (S2 p0) (ik 2) (mkFz (ik z) (T_1 p1) (T_3 p1) (T_4 p1) (T_5 p1) (T_6 p1) us) (ik u)
    (mkFx (ik x) (t_x p2) (t_x_blinding p2) (e_blinding p2) w1 ft1 w2 ft2) (ik w) (lT 2 z u x w) (ip_a (ipp p3)) (ip_b (ipp p3)) [] [] [].
Proof.
  intros Hz Hu Hx Hw V0 V1. unfold leaf_accepted. cbv zeta. split; [apply lT_nonzero; lia|]. eexists. split; [reflexivity|]. split; [reflexivity|].
  exists (ik 0), (ik 1). split; [apply iK_neq; vm_compute; reflexivity|]. split; apply okb_ok; [exact V0|exact V1].
Qed.

Definition zs4 := [1; 2; 3; 4]%Z. Definition us5 := [1; 2; 3; 4; 5]%Z. Definition xs6 := [1; 2; 3; 4; 5; 6]%Z.
Lemma Rz z : In z zs4 -> (0 < z < 257)%Z. Proof. now apply in_range_Z. Qed.
Lemma Ru z : In z us5 -> (0 < z < 257)%Z. Proof. now apply in_range_Z. Qed.
Lemma Rx z : In z xs6 -> (0 < z < 257)%Z. Proof. now apply in_range_Z. Qed.
Lemma ND_map l : NoDup l -> (forall z, In z l -> (0 < z < 257)%Z) -> forall A (f : Z -> A) (g : A -> iK), (forall z, g (f z) = ik z) -> NoDup (map g (map f l)).
Proof. intros N R A f g E. rewrite map_map. rewrite (map_ext _ ik) by exact E. now apply ik_nodup. Qed.
Lemma k0 : Nat.log2_up (v_num lvs') = 0%nat.
Proof. vm_compute. reflexivity. Qed.
Lemma c3 : length (v_cons lvs') = 3%nat.
Proof. vm_compute. reflexivity. Qed.

Definition l0 (run : Z -> Z -> Z -> Z -> Z -> r1cs_proof iM) := run 2%Z 1%Z 1%Z 1%Z 1%Z.
(** the verifier accepts every path of the tree, for the random scalars 0 and 1 *)
Notation lver run z u x w r := (okb (verify (lT 2 z u x w) Nat.log2 [] lvs ltr (lproof (l0 run) (run 2%Z z 1%Z 1%Z 1%Z) (run 2%Z z u x 1%Z) (run 2%Z z u x w)) eg eh iG iH (ik r))).
Notation lall run := (forallb (fun z => forallb (fun u => forallb (fun x => (lver run z u x 1 0 && lver run z u x 1 1 && lver run z u x 2 0 && lver run z u x 2 1)%bool) xs6) us5) zs4).

Notation acc run f := (f Nat.log2 (fun _ : tcode iM => @nil (vcallback iM)) lvs lvs' ltr eg eh iG iH (A_I1 (l0 run)) (A_O1 (l0 run)) (S1 (l0 run)) (A_I2 (l0 run)) (A_O2 (l0 run)) (S2 (l0 run))).

(** ** the tree of the runs [run y z u x w] *)
Section Tree.
Context (run : Z -> Z -> Z -> Z -> Z -> r1cs_proof iM).
Definition ltree (z u x w : Z) : ftree iM := FLeaf (lT 2 z u x w) (ip_a (ipp (run 2 z u x w))) (ip_b (ipp (run 2 z u x w))).
Definition lfx (z u x : Z) : fx iM := mkFx (ik x) (t_x (run 2 z u x 1)) (t_x_blinding (run 2 z u x 1)) (e_blinding (run 2 z u x 1)) (ik 1) (ltree z u x 1) (ik 2) (ltree z u x 2).
Definition lfu (z u : Z) : fu iM := mkFu (ik u) (map (lfx z u) xs6).
Definition lfz (z : Z) : fz iM := mkFz (ik z) (T_1 (run 2 z 1 1 1)) (T_3 (run 2 z 1 1 1)) (T_4 (run 2 z 1 1 1)) (T_5 (run 2 z 1 1 1)) (T_6 (run 2 z 1 1 1)) (map (lfu z) us5).
Definition lt : list (fy iM) := [mkFy (ik 2) (map lfz zs4)].
Context (all : lall run = true).
Lemma leaf_x z u x w : In z zs4 -> In u us5 -> In x xs6 -> w = 1%Z \/ w = 2%Z ->
  acc run leaf_accepted (ik 2) (lfz z) (ik u) (lfx z u x) (ik w) (lT 2 z u x w) (ip_a (ipp (run 2 z u x w))) (ip_b (ipp (run 2 z u x w))) [] [] [].
Proof.
  intros Iz Iu Ix Iw. assert (0 < w < 257)%Z as W by lia. unfold lfz, lfx. apply leaf_ok; [exact (Rz z Iz)|exact (Ru u Iu)|exact (Rx x Ix)|exact W| |].
  - pose proof all as F. rewrite forallb_forall in F. specialize (F z Iz). cbv beta in F. rewrite forallb_forall in F. specialize (F u Iu). cbv beta in F. rewrite forallb_forall in F. specialize (F x Ix). cbv beta in F.
    rewrite !Bool.andb_true_iff in F. destruct F as (((F1 & F2) & F3) & F4). destruct Iw as [-> | ->]; [exact F1|exact F3].
  - pose proof all as F. rewrite forallb_forall in F. specialize (F z Iz). cbv beta in F. rewrite forallb_forall in F. specialize (F u Iu). cbv beta in F. rewrite forallb_forall in F. specialize (F x Ix). cbv beta in F.
    rewrite !Bool.andb_true_iff in F. destruct F as (((F1 & F2) & F3) & F4). destruct Iw as [-> | ->]; [exact F2|exact F4].
Qed.
Lemma x_ok z u x : In z zs4 -> In u us5 -> In x xs6 -> acc run x_accepted (ik 2) (lfz z) (ik u) (lfx z u x).
Proof.
  intros Iz Iu Ix. pose proof (leaf_x z u x 1 Iz Iu Ix (or_introl eq_refl)) as L1. pose proof (leaf_x z u x 2 Iz Iu Ix (or_intror eq_refl)) as L2. clear all.
  unfold x_accepted. rewrite k0.
  change (fx_x (lfx z u x)) with (ik x). change (fx_w1 (lfx z u x)) with (ik 1). change (fx_w2 (lfx z u x)) with (ik 2).
  split; [apply ik_nz, Rx; exact Ix|]. split; [apply ik_nz; lia|]. split; [apply ik_nz; lia|]. split; [apply iK_neq; vm_compute; reflexivity|].
  split; [exact I|]. split; [exact I|]. change (fx_t1 (lfx z u x)) with (ltree z u x 1). change (fx_t2 (lfx z u x)) with (ltree z u x 2).
  unfold ltree. cbn [every_leaf]. split; [exact L1|exact L2].
Qed.
Lemma u_ok z u : In z zs4 -> In u us5 -> acc run u_accepted (ik 2) (lfz z) (lfu z u).
Proof.
  intros Iz Iu. unfold u_accepted. unfold lfu at 1 2 3. cbn [fu_u fu_xs]. split; [apply ik_nz, Ru; exact Iu|]. split; [reflexivity|].
  split; [apply ND_map; [repeat constructor; cbn; lia|exact Rx|reflexivity]|]. intros b' Ib. change (In b' (map (lfx z u) xs6)) in Ib. apply in_map_iff in Ib as (x & <- & Ix). exact (x_ok z u x Iz Iu Ix).
Qed.
Lemma z_ok z : In z zs4 -> acc run z_accepted (ik 2) (lfz z).
Proof.
  intros Iz. unfold z_accepted. unfold lfz at 1 2 3. cbn [fz_us]. split; [reflexivity|].
  split; [apply ND_map; [repeat constructor; cbn; lia|exact Ru|reflexivity]|]. intros b' Ib. apply in_map_iff in Ib as (u & <- & Iu). exact (u_ok z u Iz Iu).
Qed.
Lemma t_ok : acc run r1cs_accepted lt.
Proof.
  unfold r1cs_accepted. rewrite k0. split; [reflexivity|]. split; [repeat constructor; intros []|]. intros b [<-|[]].
  unfold y_accepted. rewrite c3. cbn [fy_y fy_zs]. split; [apply ik_nz; lia|]. split; [reflexivity|].
  split; [apply ND_map; [repeat constructor; cbn; lia|exact Rz|reflexivity]|]. intros c Ic. apply in_map_iff in Ic as (z & <- & Iz). exact (z_ok z Iz).
Qed.
End Tree.

(** ** the honest runs *)
Lemma all_accepted : lall lrun = true.
Proof. vm_compute. reflexivity. Qed.
Lemma l_scoped : v_scoped lvs'.
Proof.
  assert (forallb (fun l => forallb (fun vc => match fst vc with Committed i => (i <? length (v_V lvs'))%nat | MulL i | MulR i | MulO i => (i <? v_num lvs')%nat | VOne => true end) l) (v_cons lvs') = true) as F by (vm_compute; reflexivity).
  intros l v c Il Iv. rewrite forallb_forall in F. specialize (F l Il). rewrite forallb_forall in F. specialize (F _ Iv). cbn [fst] in F. destruct v; cbn [in_range]; try exact I; now apply Nat.ltb_lt.
Qed.
(** the tree of honest runs is accepted, the hypotheses of C131 hold; the factors 3 and 5 and
    the product 15 are extracted, they satisfy the constraints, and no relation is produced *)
Theorem C131_ex :
  acc lrun r1cs_accepted (lt lrun) /\ v_scoped lvs' /\ length (v_cons lvs') = 3%nat /\ v_num lvs' = 1%nat /\ length (v_V lvs') = 3%nat /\
  (let s := map s_y (lt lrun) in
   forallb (fun r => forallb (fun j => (fpv (r j) =? 0)%Z) [0; 1; 2; 3]%nat) (rels_r1cs (v_num lvs) 1 3 0 (v_cons lvs') s) = true /\
   ex_aL (v_num lvs) 1 3 0 (v_cons lvs') s 0 = ik 3 /\ ex_aR (v_num lvs) 1 3 0 (v_cons lvs') s 0 = ik 5 /\ ex_aO (v_num lvs) 1 3 0 (v_cons lvs') s 0 = ik 15).
Proof.
  split; [exact (t_ok lrun all_accepted)|]. split; [exact l_scoped|]. split; [exact c3|]. split; [vm_compute; reflexivity|]. split; [vm_compute; reflexivity|].
  cbv zeta. assert (forall a b : iK, fpv a = fpv b -> a = b) as J by (intros a b; apply fpv_inj).
  split; [vm_compute; reflexivity|]. split; [apply J; vm_compute; reflexivity|]. split; [apply J; vm_compute; reflexivity|apply J; vm_compute; reflexivity].
Qed.
