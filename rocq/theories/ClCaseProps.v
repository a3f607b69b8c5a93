(** Concrete cases for CL properties stated without one elsewhere: blinded secrets and equality
    proofs with a committed attribute, what acceptance means, witnesses, deltas, non-revocation
    proofs and proofs of possession. *)
From Coq Require Import Lia.
From Verif Require Import Base BnModel BnProofs StrMap HelpersModel HelpersSpec HelpersProofs ClModel ClSpec ClLib Alg Fp ClRevModel ClRevSpec ClProofModel ClPresSpec
  ClPresentation ClSign ClProps CurveInst ClProofProps ClRevProps BlsModel BlsProps.
Open Scope string_scope.
Open Scope list_scope.
Open Scope Z_scope.
Notation exCH := ClProps.exH.

(** ** a committed attribute: C24, C26, C48 *)
Definition cm_vals : cred_values := [("master_secret", Commitment 7 19); ("name", Known 42)].
Lemma cm_sorted : ssorted (sm_keys cm_vals).
Proof. exact ex_sorted_pair. Qed.
Lemma cm_keys k : In k (sm_keys cm_vals) -> In k (sm_keys (pk_r ex_pk1)).
Proof. exact (proj1 (proj2 C25_ex_hypotheses) k). Qed.
Example C24_ex : exists bl pr, generate_blinded_primary_factors ex_pk1 cm_vals 77777 = Ok bl /\
  new_blinded_correctness_proof exCH ex_pk1 bl 77777 555 cm_vals 99999 (fun _ => 31) (fun _ => 37) = Ok pr /\
  check_blinded_correctness_proof exCH bl pr 555 ex_pk1 = Ok tt /\ bl_hidden bl = [] /\ In "master_secret" (sm_keys (bl_committed bl)).
Proof.
  destruct C23_ex_issuer_key as (_ & _ & V). pose proof cm_keys as Hk. revert V Hk. generalize ex_pk1. intros pk V Hk.
  destruct (C24_blinded_secrets_accepted exCH pk cm_vals 77777 555 99999 (fun _ => 31) (fun _ => 37) V cm_sorted) as (bl & pr & E1 & E2 & E3 & E4 & E5).
  - intros k cv I _. apply (in_map fst) in I. exact (Hk k I).
  - exists bl, pr. split; [exact E1|]. split; [exact E2|]. split; [exact E3|]. split; [exact E4|]. apply E5. now left.
Qed.
Lemma cm_power : ~ product_is_one (pk_n ex_pk1) [(base_of ex_pk1 "master_secret", 1 * 7)].
Proof. vm_compute. discriminate. Qed.
(** the signature made on that credential does not prove its attributes *)
Example C48_ex : exists sg ei ep t, cl_signature ex_pk1 sg (signed_values cm_vals) /\
  init_eq_proof [] ex_pk1 sg ["name"] ["master_secret"] (mkSubReq ["name"] []) (Some 4000) (mkEqRand 3 1000 2000 3000 (fun _ => 4000)) = Ok ei /\
  finalize_eq_proof ei 1 ["name"] ["master_secret"] cm_vals (mkSubReq ["name"] []) = Ok ep /\
  verify_equality ex_pk1 ep 1 ["name"] ["master_secret"] (mkSubReq ["name"] []) = Ok [t] /\ t <> ei_t ei.
Proof.
  destruct C25_ex_hypotheses as (_ & _ & Ee & Eg). destruct C23_ex_issuer_key as (K & _ & V). pose proof cm_keys as Hk. pose proof cm_power as N.
  revert Hk Eg K V N. generalize ex_pk1 ex_sk1. intros pk sk Hk Eg K V N.
  destruct (issue_ok exCH ex_isp pk sk K cm_vals cm_sorted Hk [("name", Known 42)] [1;2] 77777 555 99999 (fun _ => 31) (fun _ => 37) 666 4242 [ex_e] ex_e 7 eq_refl Ee ex_e_nonneg Eg)
    as (bl & pr & sg & sp & _ & _ & _ & _ & _ & _ & E5 & E6 & _).
  destruct (C48_refuted_committed_attribute_presentable pk (process_primary_credential sg 77777) cm_vals ["name"] ["master_secret"] (mkSubReq ["name"] []) [] (Some 4000) (mkEqRand 3 1000 2000 3000 (fun _ => 4000)) 1 V)
    as (ei & ep & t & F1 & F2 & F3 & F4).
  - cbn [ssorted]. split; [intros ? []|exact I].
  - cbn [ssorted]. split; [intros ? []|exact I].
  - cbn [ssorted rq_revealed]. split; [intros ? []|exact I].
  - exact cm_sorted.
  - intros k. cbn. intuition (subst; auto).
  - intros k [<-|[]]. cbn. auto.
  - exact Hk.
  - exact E5.
  - exact E6.
  - exact N.
  - exists (process_primary_credential sg 77777), ei, ep, t. split; [exact E6|]. split; [exact F1|]. split; [exact F2|]. split; [exact F3|exact F4].
Qed.
(** without a committed attribute the verifier gets the prover's commitment, for the challenge 200 *)
Example C26_ex : exists sg ei ep,
  init_eq_proof [] ex_pk1 sg ["name"] ["master_secret"] (mkSubReq ["name"] []) (Some 4000) (mkEqRand 3 1000 2000 3000 (fun _ => 4000)) = Ok ei /\
  finalize_eq_proof ei 200 ["name"] ["master_secret"] ex_vals (mkSubReq ["name"] []) = Ok ep /\
  verify_equality ex_pk1 ep 200 ["name"] ["master_secret"] (mkSubReq ["name"] []) = Ok [ei_t ei] /\ ep_revealed ep = [("name", 42)].
Proof.
  destruct ex_presentable as (sg & P). destruct C23_ex_issuer_key as (_ & _ & V).
  assert (presentable ex_pk1 sg ex_vals ["name"] ["master_secret"] (mkSubReq ["name"] [])) as P1.
  { apply P; [split; [cbn [ssorted rq_revealed]; split; [intros ? []|exact I]|reflexivity]|intros k [<-|[]]; reflexivity|intros p []]. }
  clear P. revert V P1. generalize ex_pk1. intros pk V P1.
  destruct (C26_valid_signature pk sg ex_vals ["name"] ["master_secret"] (mkSubReq ["name"] []) [] (Some 4000) (mkEqRand 3 1000 2000 3000 (fun _ => 4000)) 200 V P1) as (ei & ep & E1 & E2 & E3 & E4 & _).
  exists sg, ei, ep. split; [exact E1|]. split; [exact E2|]. split; [exact E3|exact E4].
Qed.

(** ** C29: the two presentations of C28 *)
Lemma expect_two (C : curve) pk sg vals rnd v :
  expect_all C (common_verifier C ["master_secret"]) [mkItem (mkSubReq ["name"] []) ["name"] ["master_secret"] sg vals pk None None None rnd; mkItem ex_req ["name"] ["master_secret"] sg vals pk None None None rnd] = (v, Ok tt) ->
  vf_creds v = [mkVCred pk (mkSubReq ["name"] []) ["name"] ["master_secret"] None None; mkVCred pk ex_req ["name"] ["master_secret"] None None] /\ sm_keys (vf_common v) = ["master_secret"].
Proof. intros E. vm_compute in E. injection E as <-. split; reflexivity. Qed.
Example C29_ex : exists (v : verifier T257) pf, (exists v', verify T257 exCH v pf 4711 = (v', Ok true)) /\ (forall vc, In vc (vf_creds v) -> wf_req (vc_req vc)) /\
  length (pf_proofs pf) = 2%nat /\ sm_keys (vf_common v) = ["master_secret"].
Proof.
  destruct C28_ex_items as (sg & A & B).
  destruct (C28_presentation_accepted T257 exCH [("master_secret", 5555)] _ 4711 T257_laws C28_ex_hash A B) as (b & v & pf & v' & E1 & E2 & E3 & E4 & F).
  exists v, pf. split; [now exists v'|].
  destruct (expect_two T257 _ _ _ _ _ E3) as (Ev & Ec).
  split; [|split; [|exact Ec]].
  - rewrite Ev. intros vc [<-|[<-|[]]]; cbn [vc_req]; [|split; [exact I|reflexivity]]. split; [cbn [ssorted rq_revealed]; split; [intros ? []|exact I]|reflexivity].
  - clear - F. inversion F as [|? ? ? ? _ F1]; subst. inversion F1 as [|? ? ? ? _ F2]; subst. inversion F2. reflexivity.
Qed.

(** ** C36: witness of index 2 after revoking and recovering it, then after revoking 1 and 3 *)
Definition c_reg0 := new_revocation_registry T257 ClRevProps.ex_pk ex_gamma 3 true.
Example C36_ex : exists ds1 ds2 d1 w1 w2, length (flat_map (keep_delta T257) ds1) = 2%nat /\ length (flat_map (keep_delta T257) ds2) = 1%nat /\
  merge_all T257 (delta_from_parts T257 None c_reg0 [] []) (flat_map (keep_delta T257) ds1) = Ok d1 /\ witness_new T257 2 3 true d1 ex_access = Ok w1 /\
  update_all T257 w1 2 3 ex_access (flat_map (keep_delta T257) ds2) = Ok w2 /\ w2 = witness_of T257 (rk_g_dash ClRevProps.ex_pk) ex_gamma 3 2 [2].
Proof.
  assert (exists ds1 accum1 V1 ds2 accum2, reg_history T257 3 true ex_access (c_reg0, initial_valid 3 true) ds1 (accum1, V1) /\ length (flat_map (keep_delta T257) ds1) = 2%nat /\
     reg_history T257 3 true ex_access (accum1, V1) ds2 (accum2, [2]) /\ length (flat_map (keep_delta T257) ds2) = 1%nat) as (ds1 & accum1 & V1 & ds2 & accum2 & H1 & L1 & H2 & L2).
  - do 5 eexists. split; [|split; [|split]].
    + eapply h_step. { apply st_revoke with (i := 2); [right; left; reflexivity|]. reflexivity. }
      eapply h_step. { apply st_recover with (i := 2); [lia|vm_compute; intuition discriminate|]. reflexivity. }
      apply h_nil.
    + reflexivity.
    + eapply h_step; [|apply h_nil].
      apply st_update with (issued := []) (revoked := [1; 3]); [constructor|intros i []| | |]; [repeat constructor; cbn; intuition lia|intros i [<-|[<-|[]]]; vm_compute; tauto|reflexivity].
    + reflexivity.
  - destruct (C36_update_equals_recompute T257 T257_laws 3 true ClRevProps.ex_pk ex_gamma ex_access ds1 ds2 accum1 V1 accum2 [2] 2 ltac:(lia) ltac:(lia) C34_ex_serves ltac:(lia) H1 H2)
      as (d1 & d2 & w1 & w2 & E1 & E2 & _ & _ & E5 & E6).
    exists ds1, ds2, d1, w1, w2. repeat (split; [assumption|]). exact E6.
Qed.

(** ** C37: three consecutive deltas *)
Definition cpt (z : Z) : cG2 T257 := fp 257 z.
Definition c_da : rdelta T257 := @mkDelta T257 None (cpt 40) [1; 2] [].
Definition c_db : rdelta T257 := @mkDelta T257 (Some (cpt 40)) (cpt 50) [3] [1].
Definition c_dc : rdelta T257 := @mkDelta T257 (Some (cpt 50)) (cpt 60) [1] [2].
Lemma c_nets : net_change T257 c_da [] [1; 2] /\ net_change T257 c_db [1; 2] [2; 3] /\ net_change T257 c_dc [2; 3] [1; 3].
Proof. split; [|split]; intros i; cbn [rd_issued rd_revoked c_da c_db c_dc In]; lia. Qed.
Example C37_ex : exists ab bc l r, delta_merge T257 c_da c_db = Ok ab /\ delta_merge T257 ab c_dc = Ok l /\ delta_merge T257 c_db c_dc = Ok bc /\ delta_merge T257 c_da bc = Ok r /\
  rd_accum l = cpt 60 /\ net_change T257 l [] [1; 3] /\ same_set (rd_issued l) (rd_issued r) /\ is_ok (delta_merge T257 c_da c_dc) = false.
Proof.
  destruct c_nets as (A & B & D).
  destruct (C37_merge_associative T257 T257_laws c_da c_db c_dc [] [1; 2] [2; 3] [1; 3] A B D eq_refl eq_refl) as (ab & bc & l & r & E1 & E2 & E3 & E4 & _ & _ & S1 & _).
  destruct (C37_merge_composes T257 T257_laws _ _ _ _ _ _ E1 A B) as (_ & P2 & N).
  destruct (C37_merge_composes T257 T257_laws _ _ _ _ _ _ E2 N D) as (_ & P3 & N2).
  exists ab, bc, l, r. split; [exact E1|]. split; [exact E2|]. split; [exact E3|]. split; [exact E4|]. split; [exact P3|]. split; [exact N2|]. split; [exact S1|].
  destruct (is_ok (delta_merge T257 c_da c_dc)) eqn:Q; [|reflexivity]. exfalso. apply (C37_merge_iff_consecutive T257 T257_laws) in Q. cbn [c_dc c_da rd_prev rd_accum] in Q.
  apply (f_equal (fun o => match o with Some x => @fpv 257 x | None => 0 end)) in Q. vm_compute in Q. discriminate.
Qed.

(** ** C39, C45: the credential of index 2 issued in C35 *)
Lemma c_rcred : exists (rc : rcred T257) accum omega z, rcred_valid T257 ClRevProps.ex_pk z accum omega rc.
Proof.
  destruct C35_ex_issue as (accum' & cred & d & E). destruct C35_ex_nonzero as (N1 & N2 & _ & _).
  destruct (C35_issue_process T257 T257_laws (fp 257 2) (fp 257 3) (fp 257 5) (fp 257 7) (fp 257 11) (fp 257 13) (fp 257 17)
     (fp 257 19) (fp 257 23) (fp 257 29) (fp 257 31) 3 ex_gamma ltac:(lia) ltac:(lia) 2 1000 (fp 257 9) true c_reg0 ex_access (fp 257 4) (fp 257 8) accum' cred d [2]) as (rc & _ & RV).
  - lia.
  - exact N1.
  - exact N2.
  - exact E.
  - repeat constructor. intros [].
  - intros j [<-|[]]. lia.
  - now left.
  - exists rc. do 3 eexists. exact RV.
Qed.
Example C39_ex : exists (rc : rcred T257) accum omega z pr, let ip := init_non_revocation_proof T257 rc accum ClRevProps.ex_pk omega ex_x0 ex_x0 in
  finalize_non_revocation_proof T257 ip 200 = Ok pr /\ verify_non_revocation_proof T257 ClRevProps.ex_pk accum z 200 pr = Ok (nr_tl ip).
Proof.
  destruct c_rcred as (rc & accum & omega & z & R).
  destruct (C39_non_revocation_complete T257 T257_laws ClRevProps.ex_pk z accum omega rc ex_x0 ex_x0 200 R ltac:(lia)) as (pr & E1 & _ & E3).
  exists rc, accum, omega, z, pr. split; [exact E1|exact E3].
Qed.
Example C45_ex : exists accum z pc p q ts, verify_non_revocation_proof T257 ClRevProps.ex_pk accum z 5 (mkNrProof p pc) = Ok ts /\
  verify_non_revocation_proof T257 ClRevProps.ex_pk accum z 9 (mkNrProof q pc) = Ok ts /\
  bignum_to_group_element T257 5 = Ok (fp 257 5) /\ bignum_to_group_element T257 9 = Ok (fp 257 9) /\ (fp 257 5 : cK T257) <> fp 257 9.
Proof.
  destruct c_rcred as (rc & accum & omega & z & R).
  destruct (C39_non_revocation_complete T257 T257_laws ClRevProps.ex_pk z accum omega rc ex_x0 ex_x0 5 R ltac:(lia)) as ([p pc] & _ & Ep & E1).
  destruct (C39_non_revocation_complete T257 T257_laws ClRevProps.ex_pk z accum omega rc ex_x0 ex_x0 9 R ltac:(lia)) as ([q qc] & _ & Eq & E2).
  cbn [nv_c] in Ep, Eq. rewrite <- Ep in Eq. subst qc. exists accum, z, pc, p, q. eexists. split; [exact E1|]. split; [exact E2|]. split; [reflexivity|]. split; [reflexivity|].
  intros X. apply (f_equal (@fpv 257)) in X. vm_compute in X. discriminate.
Qed.

(** ** C44: a proof of possession, and a rogue key made from it *)
Definition csc (z : Z) : cK T257 := fp 257 z.
Definition c_hs : hashers := mkHashers ex_hash ex_hash.
Definition c_victim : verkey T257 := verkey_new T257 ex_gen (mkSignKey (csc 9) [9]).
Example C44_ex : exists pop hk h, bls_hash T257 ex_lift (h_keccak256 c_hs) 10 (vk_bytes c_victim) = Ok hk /\ bls_hash T257 ex_lift (h_sha256 c_hs) 10 [1; 2; 3] = Ok h /\
  pop_verify T257 ex_lift c_hs 10 pop c_victim ex_gen = Ok true.
Proof.
  destruct (bls_hash T257 ex_lift (h_keccak256 c_hs) 10 (vk_bytes c_victim)) as [hk|e] eqn:Ek.
  2: { exfalso. assert (is_ok (bls_hash T257 ex_lift (h_keccak256 c_hs) 10 (vk_bytes c_victim)) = true) as X by (vm_compute; reflexivity). rewrite Ek in X. discriminate. }
  destruct (C44_pop_verifies T257 ex_lift c_hs 10 (mkSignKey (csc 9) [9]) ex_gen hk T257_laws Ek) as (pop & _ & E).
  exists pop, hk, (fp 257 16). split; [reflexivity|]. split; [exact C42_ex_hash|exact E].
Qed.
