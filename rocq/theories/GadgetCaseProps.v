(** Concrete cases of the gadget theorems, over the residues modulo the prime 5 * 2^75 + 1 (the
    range gadget needs a field larger than 2^64), with commitments v + 2 b. *)
From Verif Require Import Base Alg Lin Fp Proth R1csModel R1csSpec R1csLib GadgetModel GadgetApiModel GadgetLib GadgetSim GadgetApiLib GadgetProps GadgetApiProps SetAltProps PoseidonLib PoseidonProps PoseidonPermProps MerkleSpec MerkleLib MerkleProps.
Import List ListNotations.
Open Scope list_scope.
Open Scope Z_scope.

Definition cK : fieldOps := FpOps big_q.
Definition ck (x : Z) : cK := fp big_q x.
Lemma cK_laws : field_laws cK.
Proof. exact (FpOps_laws big_q big_q_prime). Qed.
Definition cZ : zops cK := mkZops cK ck (fun x => fpv (x : Fp big_q)).
Lemma cZ_laws : zlaws cZ big_q.
Proof.
  split; cbn [zto zof cZ].
  - reflexivity.
  - intros x. apply (fpv_range big_q x). reflexivity.
  - intros x. apply fp_fpv.
  - intros z. apply fpv_fp.
  - reflexivity.
  - reflexivity.
  - apply fp_add.
  - apply fp_sub.
  - apply fp_mul.
Qed.
Definition ccom (v b : cK) : cK := fadd v (fmul (ck 2) b).
Definition crnd (i : nat) : cK := ck (Z.of_nat i + 70).
Definition c_start : sim ccom p_new v_new /\ @pgood cK p_new := C79_fresh ccom.
Lemma big_q_64 : 2 ^ 64 < big_q.
Proof. reflexivity. Qed.
Lemma u64_18 : u64 18. Proof. unfold u64. lia. Qed.
Lemma u64_100 : u64 100. Proof. unfold u64. lia. Qed.
Lemma ck_neq x y : x mod big_q <> y mod big_q -> ck x <> ck y.
Proof. intros N E. apply N. now apply fp_eq. Qed.


(** C80: 42 lies between 18 and 100 with seven bits *)
Example C80_ex : exists comms ps' vs', prove_bounded_num cZ ccom 42 (Some (ck 9)) 18 100 7 None crnd p_new = Ok (comms, ps') /\
  verify_bounded_num cZ 18 100 7 comms v_new = Ok (tt, vs') /\ vsat (pw ps') vs' /\ nth_error comms 0 = Some (ccom (ck 42) (ck 9)) /\
  18 <= zto cZ (pw ps' (Committed 0)) <= 100 /\ zto cZ (pw ps' (Committed 0)) = 42.
Proof.
  destruct c_start as [S0 G0].
  destruct (C80_bounded_num_complete cK_laws cZ big_q cZ_laws ccom 42 (Some (ck 9)) None crnd 18 100 7 p_new v_new) as (comms & b & ps' & vs' & E1 & E2 & G & S & N & Hb & W);
    [apply Z.lt_le_incl, big_q_64|exact u64_18|exact u64_100|lia|reflexivity|reflexivity|left; discriminate|exact G0|exact S0|].
  rewrite (Hb _ eq_refl) in N. exists comms, ps', vs'. split; [exact E1|]. split; [exact E2|].
  assert (vsat (pw ps') vs') as VS by exact (sim_psat ccom _ _ S (pg_sat _ G)).
  split; [exact VS|]. split; [exact N|].
  destruct (C80_bounded_num_sound cK_laws cZ big_q cZ_laws 18 100 7 comms v_new vs' (pw ps') big_q_64 ltac:(now apply Z.leb_le) u64_18 u64_100 E2 VS) as (_ & _ & B).
  split; [exact B|]. change (length (p_v p_new)) with 0%nat in W. rewrite W. reflexivity.
Qed.
(** with eighty bits the range 18..18 holds seven *)
Example C80_ex_wide : exists ps' vs', verify_bounded_num cZ 18 18 80 [ccom (ck 7) (ck 9); ccom (fsub (ck 7) (ck 18)) (ck 1); ccom (fsub (ck 18) (ck 7)) (ck 2)] v_new = Ok (tt, vs') /\
  vsat (pw ps') vs' /\ pw ps' (Committed 0) = ck 7.
Proof.
  destruct (C80_refuted_any_width cK_laws cZ big_q cZ_laws ccom 18 18 80 (ck 7) (ck 9) (ck 1) (ck 2)) as (ps' & vs' & E & _ & _ & W & X);
    try exact u64_18; [pose proof big_q_64; lia|lia|now apply Z.leb_le|].
  exists ps', vs'. split; [exact E|]. split; [exact W|exact X].
Qed.

(** C81 *)
Example C81_ex : exists comms ps' vs', prove_non_zero_val ccom (ck 42) (Some (ck 9)) None crnd p_new = Ok (comms, ps') /\
  verify_non_zero_val comms v_new = Ok (tt, vs') /\ vsat (pw ps') vs' /\ pw ps' (Committed 0) = ck 42 /\ pw ps' (Committed 0) <> f0.
Proof.
  destruct c_start as [S0 G0].
  destruct (C81_non_zero_complete cK_laws ccom (ck 42) (Some (ck 9)) None crnd p_new v_new) as (comms & ps' & vs' & E1 & E2 & G & S & W);
    try assumption; [apply (ck_neq 42 0); vm_compute; discriminate|left; discriminate|].
  assert (vsat (pw ps') vs') as VS by exact (sim_psat ccom _ _ S (pg_sat _ G)).
  exists comms, ps', vs'. split; [exact E1|]. split; [exact E2|]. split; [exact VS|]. split; [exact W|].
  exact (proj2 (proj2 (C81_non_zero_sound cK_laws comms v_new vs' (pw ps') E2 VS))).
Qed.

(** C82: a member and a non-member of {5, 42, 77} *)
Definition c_set : list cK := [ck 5; ck 42; ck 77].
Example C82_ex_member : exists comms ps' vs', prove_set_membership ccom (ck 42) (Some (ck 9)) c_set None crnd p_new = Ok (comms, ps') /\
  verify_set_membership c_set comms v_new = Ok (tt, vs') /\ vsat (pw ps') vs' /\ pw ps' (Committed 0) = ck 42 /\ In (pw ps' (Committed 0)) c_set.
Proof.
  destruct c_start as [S0 G0].
  destruct (C82_membership_complete cK_laws ccom (ck 42) (Some (ck 9)) c_set None crnd p_new v_new) as (comms & b & ps' & vs' & E1 & E2 & G & S & _ & _ & W);
    try assumption; [right; now left|left; discriminate|].
  assert (vsat (pw ps') vs') as VS by exact (sim_psat ccom _ _ S (pg_sat _ G)).
  exists comms, ps', vs'. split; [exact E1|]. split; [exact E2|]. split; [exact VS|]. split; [exact W|].
  exact (proj2 (proj2 (C82_membership_sound cK_laws c_set comms v_new vs' (pw ps') E2 VS))).
Qed.
Lemma c_set_6 : ~ In (ck 6) c_set.
Proof. intros [E|[E|[E|[]]]]; revert E; apply ck_neq; vm_compute; discriminate. Qed.
Example C82_ex_non_member : exists comms ps' vs', prove_set_non_membership ccom (ck 6) (Some (ck 9)) c_set None crnd p_new = Ok (comms, ps') /\
  verify_set_non_membership c_set comms v_new = Ok (tt, vs') /\ vsat (pw ps') vs' /\ pw ps' (Committed 0) = ck 6 /\ ~ In (pw ps' (Committed 0)) c_set.
Proof.
  destruct c_start as [S0 G0].
  destruct (C82_non_membership_complete cK_laws ccom (ck 6) (Some (ck 9)) c_set None crnd p_new v_new) as (comms & b & ps' & vs' & E1 & E2 & G & S & _ & _ & W);
    try assumption; [exact c_set_6|left; discriminate|].
  assert (vsat (pw ps') vs') as VS by exact (sim_psat ccom _ _ S (pg_sat _ G)).
  exists comms, ps', vs'. split; [exact E1|]. split; [exact E2|]. split; [exact VS|]. split; [exact W|].
  exact (proj2 (proj2 (C82_non_membership_sound cK_laws c_set comms v_new vs' (pw ps') E2 VS))).
Qed.

(** C83: the alternative gadget on {5, 42, 77} with 42, and with zero *)
Definition c_zset : list Z := [5; 42; 77].
Example C83_ex : exists comms ps' vs', prove_set_membership_alt cZ ccom 42 (Some (ck 9)) c_zset None crnd p_new = Ok (comms, ps') /\
  verify_set_membership_alt cZ c_zset comms v_new = Ok (tt, vs') /\ vsat (pw ps') vs' /\ pw ps' (Committed 3) = ck 42 /\
  (In (pw ps' (Committed 3)) (map (zof cZ) c_zset) \/ pw ps' (Committed 3) = f0).
Proof.
  destruct c_start as [S0 G0].
  destruct (C83_set_membership_alt_complete cK_laws cZ big_q cZ_laws ccom 42 (Some (ck 9)) c_zset None crnd p_new v_new) as (comms & b & ps' & vs' & E1 & E2 & G & S & _ & _ & W);
    try assumption; [reflexivity|left; discriminate|].
  assert (vsat (pw ps') vs') as VS by exact (sim_psat ccom _ _ S (pg_sat _ G)).
  exists comms, ps', vs'. split; [exact E1|]. split; [exact E2|]. split; [exact VS|]. split; [exact W|].
  exact (proj2 (proj2 (proj2 (C83_set_membership_alt_sound cK_laws cZ big_q cZ_laws c_zset comms v_new vs' (pw ps') E2 VS)))).
Qed.
Example C83_ex_zero : exists comms ps' vs', verify_set_membership_alt cZ c_zset comms v_new = Ok (tt, vs') /\ nth_error comms 3 = Some (ccom f0 (ck 9)) /\
  vsat (pw ps') vs' /\ pw ps' (Committed 3) = f0 /\ ~ In 0 c_zset.
Proof.
  destruct c_start as [S0 G0].
  destruct (C83_refuted_zero_in_any_set cK_laws cZ big_q cZ_laws ccom c_zset (ck 9) p_new v_new) as (comms & ps' & vs' & E & N & _ & _ & VS & W); try assumption; [discriminate|].
  exists comms, ps', vs'. split; [exact E|]. split; [exact N|]. split; [exact VS|]. split; [exact W|]. cbn. lia.
Qed.

(** C84 *)
Definition c_mimc : list cK := [ck 11; ck 12; ck 13].
Example C84_ex : exists ps' vs', prove_mimc_preimage ccom [ck 3; ck 4] (Some [ck 9; ck 10]) (mimc (ck 3) (ck 4) c_mimc) c_mimc None p_new = Ok ([ccom (ck 3) (ck 9); ccom (ck 4) (ck 10)], ps') /\
  verify_mimc_preimage (mimc (ck 3) (ck 4) c_mimc) c_mimc [ccom (ck 3) (ck 9); ccom (ck 4) (ck 10)] v_new = Ok (tt, vs') /\ vsat (pw ps') vs' /\
  mimc (pw ps' (Committed 0)) (pw ps' (Committed 1)) c_mimc = mimc (ck 3) (ck 4) c_mimc.
Proof.
  destruct c_start as [S0 G0].
  destruct (C84_mimc_complete cK_laws ccom (ck 3) (ck 4) (ck 9) (ck 10) c_mimc None p_new v_new G0 S0) as (ps' & vs' & E1 & E2 & G & S).
  assert (vsat (pw ps') vs') as VS by exact (sim_psat ccom _ _ S (pg_sat _ G)).
  exists ps', vs'. split; [exact E1|]. split; [exact E2|]. split; [exact VS|].
  exact (proj2 (proj2 (C84_mimc_sound cK_laws _ _ _ v_new vs' (pw ps') E2 VS))).
Qed.

(** C85, C86: width three, one full round at each end and two partial ones *)
Definition c_p3 : poseidon_params := @mkPoseidon cK 3 1 1 2 (map (fun i => ck (Z.of_nat i + 1)) (seq 0 12)) [[ck 2; ck 1; ck 1]; [ck 1; ck 2; ck 1]; [ck 1; ck 1; ck 2]].
Definition got {A} (d : A) (r : res A) : A := match r with Ok x => x | Err _ => d end.
Definition isok {A} (r : res A) : bool := match r with Ok _ => true | Err _ => false end.
Lemma got_ok {A} (d : A) r : isok r = true -> r = Ok (got d r).
Proof. destruct r; [reflexivity|discriminate]. Qed.
Definition c_hash (t : sbox) : res cK := poseidon_hash cZ 2 3 [ck 3; ck 4] c_p3 t.
Definition c_image (t : sbox) : cK := got f0 (c_hash t).
Lemma c_hash_ok t : t <> Inverse -> c_hash t = Ok (c_image t).
Proof. intros N. apply got_ok. destruct t; [vm_compute; reflexivity|congruence|vm_compute; reflexivity]. Qed.
Lemma c_p3_wf : wf_params c_p3.
Proof. split; [vm_compute; lia|]. split; [reflexivity|]. repeat constructor. Qed.
Example C85_ex t : t <> Inverse -> exists ps' vs', prove_poseidon_preimage cZ ccom 2 3 [ck 3; ck 4] (Some [ck 9; ck 10]) (c_image t) c_p3 t None p_new = Ok ([ccom (ck 3) (ck 9); ccom (ck 4) (ck 10)], ps') /\
  verify_poseidon_preimage cZ ccom 2 3 (c_image t) c_p3 t [ccom (ck 3) (ck 9); ccom (ck 4) (ck 10)] v_new = Ok (tt, vs') /\ vsat (pw ps') vs' /\ p_v ps' = [ck 3; ck 4; ck 3].
Proof.
  intros N. destruct c_start as [S0 G0].
  destruct (C85_poseidon_complete cK_laws cZ ccom 2 3 [ck 3; ck 4] [ck 9; ck 10] (c_image t) c_p3 t None p_new v_new N (c_hash_ok t N) eq_refl G0 S0) as (ps' & vs' & E1 & E2 & G & S & V).
  assert (vsat (pw ps') vs') as VS by exact (sim_psat ccom _ _ S (pg_sat _ G)).
  exists ps', vs'. split; [exact E1|]. split; [exact E2|]. split; [exact VS|exact V].
Qed.
(** the inverse S-box: commitments to 3 and 4 accepted for the second output of the linear layer on 1, 2, 3 *)
Definition c_lin : list cK := got [] (lin_layer (po_mds c_p3) 3 [ck 1; ck 2; ck 3]).
Example C86_ex : exists image ps' vs', verify_poseidon_preimage cZ ccom 2 3 image c_p3 Inverse [ccom (ck 3) (ck 9); ccom (ck 4) (ck 10)] v_new = Ok (tt, vs') /\ vsat (pw ps') vs' /\
  p_v ps' = [ck 3; ck 4; ck 3] /\ nth_error c_lin 1 = Some image /\ c_hash Inverse <> Ok image.
Proof.
  destruct c_start as [S0 G0].
  assert (lin_layer (po_mds c_p3) 3 [ck 1; ck 2; ck 3] = Ok c_lin) as EL by (apply got_ok; vm_compute; reflexivity).
  destruct (nth_error c_lin 1) as [image|] eqn:Ei.
  2: { exfalso. assert (match nth_error c_lin 1 with Some _ => true | None => false end = true) as X by (vm_compute; reflexivity). rewrite Ei in X. discriminate. }
  destruct (C86_refuted_inverse_any_image cK_laws cZ ccom 2 3 c_p3 [ck 1; ck 2; ck 3] c_lin image [(ck 3, ck 9); (ck 4, ck 10)] p_new v_new) as (ps' & vs' & E & _ & _ & VS & V);
    try assumption; try reflexivity; [exact c_p3_wf|cbn; lia| |].
  - repeat constructor; intros X; revert X; apply (ck_neq _ 0); vm_compute; discriminate.
  - exists image, ps', vs'. split; [exact E|]. split; [exact VS|]. split; [exact V|]. split; [reflexivity|].
    intros X. assert (match c_hash Inverse, nth_error c_lin 1 with Ok a, Some b => fpv (a : Fp big_q) =? fpv (b : Fp big_q) | _, _ => true end = false) as Y by (vm_compute; reflexivity).
    rewrite X, Ei, Z.eqb_refl in Y. discriminate.
Qed.

(** C87, C88: a path of two levels in a tree with four children, leaf 42 at index 9 *)
Definition c_p5 : poseidon_params := @mkPoseidon cK 5 1 1 1 (map (fun i => ck (Z.of_nat i + 1)) (seq 0 15))
  [[ck 2; ck 1; ck 1; ck 1; ck 1]; [ck 1; ck 2; ck 1; ck 1; ck 1]; [ck 1; ck 1; ck 2; ck 1; ck 1]; [ck 1; ck 1; ck 1; ck 2; ck 1]; [ck 1; ck 1; ck 1; ck 1; ck 2]].
Definition c_steps : list (nat * list cK) := [(1%nat, [ck 21; ck 22; ck 23]); (2%nat, [ck 31; ck 32; ck 33])].
Definition c_node : list cK -> res cK := fun ins => poseidon_hash cZ 4 31 ins c_p5 Cube.
Definition c_root : cK := got f0 (climb c_node (ck 42) c_steps).
Lemma c_climb : climb c_node (ck 42) c_steps = Ok c_root.
Proof. apply got_ok. vm_compute. reflexivity. Qed.
Lemma c_path : path_ok 4 c_steps.
Proof. repeat constructor. Qed.
(** hidden or known leaf *)
Example C87_ex (hide : bool) : exists comms ps' vs',
  prove_leaf_inclusion_4 cZ ccom 10 2 31 c_p5 Cube (ck 42) (ck 9) hide (Some (if hide then [ck 9; ck 10] else [ck 9])) (path_nodes c_steps) c_root None crnd p_new = Ok (comms, ps') /\
  verify_leaf_inclusion_4 cZ ccom 10 2 31 c_p5 Cube c_root (if hide then None else Some (ck 42)) comms v_new = Ok (tt, vs') /\ vsat (pw ps') vs' /\ pw ps' (Committed 0) = ck 9.
Proof.
  destruct c_start as [S0 G0].
  assert (zto cZ (ck 9) = path_index 4 c_steps) as PI by reflexivity.
  destruct (C87_complete_4 cK_laws cZ big_q cZ_laws ccom 10 2 31 c_p5 Cube (ck 42) (ck 9) hide (ck 9) (ck 10) c_root None crnd c_steps p_new v_new) as (ps' & vs' & E1 & E2 & G & S & V);
    try assumption; [discriminate|exact c_path|cbn; lia|cbn; lia|exact c_climb|].
  assert (vsat (pw ps') vs') as VS by exact (sim_psat ccom _ _ S (pg_sat _ G)).
  eexists _, ps', vs'. split; [exact E1|]. split; [exact E2|]. split; [exact VS|]. cbn [pw]. rewrite V. destruct hide; reflexivity.
Qed.
(** the root itself, committed as a leaf, is accepted *)
Example C88_ex (hide : bool) : exists ps' vs', prove_leaf_inclusion_4 cZ ccom 10 2 31 c_p5 Cube c_root f0 hide (Some (if hide then [ck 9; ck 10] else [ck 9])) [] c_root None crnd p_new
    = Ok (ccom f0 (ck 9) :: (if hide then [ccom c_root (ck 10)] else []), ps') /\
  verify_leaf_inclusion_4 cZ ccom 10 2 31 c_p5 Cube c_root (if hide then None else Some c_root) (ccom f0 (ck 9) :: (if hide then [ccom c_root (ck 10)] else [])) v_new = Ok (tt, vs') /\ vsat (pw ps') vs'.
Proof.
  destruct c_start as [S0 G0].
  destruct (C88_refuted_root_is_a_leaf_4 cK_laws cZ big_q cZ_laws ccom 10 2 31 c_p5 Cube c_root hide (ck 9) (ck 10) None crnd p_new v_new) as (ps' & vs' & E1 & E2 & G & S); try assumption; [discriminate|cbn; lia|].
  exists ps', vs'. split; [exact E1|]. split; [exact E2|]. exact (sim_psat ccom _ _ S (pg_sat _ G)).
Qed.
