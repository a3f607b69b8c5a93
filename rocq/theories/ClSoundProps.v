(** * C151: special soundness of the equality proof.  Two accepted answers to two
    challenges for the same A' and the same commitment contain a credential. *)
From Coq Require Import String.
From Verif Require Import Base BnModel BnProofs NumTheory UMod StrMap HelpersModel HelpersSpec HelpersProofs ClModel ClSpec ClLib ClKey ClIssue ClBlind ClPresent ClSign
  Alg ClRevModel ClRevSpec ClProofModel ClPresSpec ClPresentation ClProps ClProofProps CurveInst ClSoundSpec ClSoundLib ClHideProps.
From Coq Require Import Znumtheory.
Open Scope string_scope.
Open Scope list_scope.
Open Scope Z_scope.

(** for any valid key: the relation between the bases that two accepted answers give *)
Theorem C151_answers_give_relation : forall pk pr1 pr2 c1 c2 schema non_schema req t, valid_pk pk ->
  0 <= ep_a_prime pr1 -> ep_a_prime pr2 = ep_a_prime pr1 -> ep_revealed pr2 = ep_revealed pr1 ->
  verify_equality pk pr1 c1 schema non_schema req = Ok [t] -> verify_equality pk pr2 c2 schema non_schema req = Ok [t] ->
  answers_relation pk (hidden_names schema non_schema req) pr1 pr2 (c1 - c2).
Proof. intros pk pr1 pr2 c1 c2 schema non_schema req t V. exact (gap pk V pr1 pr2 c1 c2 schema non_schema req [t]). Qed.
Print Assumptions C151_answers_give_relation.

(** for an issuer's key: if the difference of the challenges divides the differences of the
    responses, their quotients are a CL signature on the revealed values and the extracted hidden
    ones, for A' or for -A', or what they miss it by is a factor of the modulus *)
Theorem C151_answers_contain_credential : forall pk sk pr1 pr2 c1 c2 schema non_schema req t,
  issuer_key pk sk -> prime (sk_p sk) -> prime (sk_q sk) ->
  0 <= ep_a_prime pr1 -> ep_a_prime pr2 = ep_a_prime pr1 -> ep_revealed pr2 = ep_revealed pr1 ->
  verify_equality pk pr1 c1 schema non_schema req = Ok [t] -> verify_equality pk pr2 c2 schema non_schema req = Ok [t] ->
  c1 <> c2 -> Z.abs (c1 - c2) < sk_p sk -> Z.abs (c1 - c2) < sk_q sk ->
  divisible_answers (hidden_names schema non_schema req) pr1 pr2 (c1 - c2) ->
  let n := pk_n pk in let d := c1 - c2 in
  let vals := extracted_values (hidden_names schema non_schema req) pr1 pr2 d in
  cl_signature pk (extracted_sig n pr1 pr2 d false) vals
  \/ (Z.odd (sg_e (extracted_sig n pr1 pr2 d true)) = true /\ cl_signature pk (extracted_sig n pr1 pr2 d true) vals)
  \/ exists w, signature_defect pk (extracted_sig n pr1 pr2 d false) vals w /\ 1 < Z.gcd (w - 1) n < n.
Proof.
  intros pk sk pr1 pr2 c1 c2 schema non_schema req t K Pp Pq Ha EA ER E1 E2 Hc B1 B2 Dv. cbv zeta.
  pose proof (issuer_key_valid pk sk K) as V.
  pose proof (gap pk V pr1 pr2 c1 c2 schema non_schema req [t] Ha EA ER E1 E2) as Rel.
  destruct (verify_eq_read pk V _ _ _ _ _ _ Ha E1) as (G & K1 & K2 & _).
  exact (extract_ok pk sk K Pp Pq _ pr1 pr2 (c1 - c2) G K1 K2 ltac:(lia) Dv Rel B1 B2).
Qed.
Print Assumptions C151_answers_contain_credential.

(** the exponent that is extracted: were the responses for e bounded as those of an honest prover
    are, it would lie in an interval around 2^596 (C30 uses e = 1) *)
Theorem C151_exponent_range : forall n pr1 pr2 d negate, d <> 0 ->
  (d | ep_e pr1 - ep_e pr2) -> Z.abs (ep_e pr1) < 2 ^ 457 -> Z.abs (ep_e pr2) < 2 ^ 457 ->
  Z.abs (sg_e (extracted_sig n pr1 pr2 d negate) - 2 ^ 596) < 2 ^ 458.
Proof.
  intros n pr1 pr2 d negate Hd [q Eq] B1 B2. unfold extracted_sig. cbn [sg_e]. rewrite Eq, Z.div_mul by assumption. 
  assert (Z.abs (q * d) < 2 * 2 ^ 457) as B by (rewrite <- Eq; lia). rewrite Z.abs_mul in B. replace (q + 2 ^ 596 - 2 ^ 596) with q by ring.
  change (2 ^ 458) with (2 * 2 ^ 457). nia.
Qed.
Print Assumptions C151_exponent_range.

(** the same for a sub proof of a presentation: [recomputed] is what the verifier puts into the
    hash for it (C29_accept_iff) *)
Theorem C151_sub_proof : forall (C : curve) sp1 sp2 (vc : vcred C) c1 c2 ts, valid_pk (cp_p (vc_pk vc)) ->
  recomputed C c1 sp1 vc = Ok ts -> recomputed C c2 sp2 vc = Ok ts ->
  (sp_r sp1 = None <-> sp_r sp2 = None) ->
  let pr1 := pp_eq (sp_p sp1) in let pr2 := pp_eq (sp_p sp2) in
  0 <= ep_a_prime pr1 -> ep_a_prime pr2 = ep_a_prime pr1 -> ep_revealed pr2 = ep_revealed pr1 ->
  exists t, verify_equality (cp_p (vc_pk vc)) pr1 c1 (vc_schema vc) (vc_non_schema vc) (vc_req vc) = Ok [t] /\
    verify_equality (cp_p (vc_pk vc)) pr2 c2 (vc_schema vc) (vc_non_schema vc) (vc_req vc) = Ok [t].
Proof.
  intros C sp1 sp2 vc c1 c2 ts V R1 R2 Hr. cbv zeta. intros Ha EA ER.
  unfold recomputed in R1, R2.
  assert (forall c sp l1, match sp_r sp, cp_r (vc_pk vc), vc_accum vc, vc_z vc with
             | Some nrp, Some rk, Some accum, Some z => let! t := verify_non_revocation_proof C rk accum z c nrp in Ok (tau_as_list C t)
             | _, _, _, _ => Ok []
             end = Ok l1 -> length l1 = match sp_r sp, cp_r (vc_pk vc), vc_accum vc, vc_z vc with Some _, Some _, Some _, Some _ => 8%nat | _, _, _, _ => 0%nat end) as L.
  { intros c sp l1 E. destruct (sp_r sp), (cp_r (vc_pk vc)), (vc_accum vc), (vc_z vc); try (injection E as <-; reflexivity).
    apply rbind_ok in E as (x & _ & E). injection E as <-. reflexivity. }
  apply rbind_ok in R1 as (a1 & A1 & R1). apply rbind_ok in R1 as (p1 & P1 & R1). apply rbind_ok in R2 as (a2 & A2 & R2). apply rbind_ok in R2 as (p2 & P2 & R2).
  apply L in A1, A2. injection R1 as R1. injection R2 as R2. rewrite <- R1 in R2. clear R1.
  assert (length a1 = length a2) as LA.
  { rewrite A1, A2. clear - Hr. revert Hr. destruct (sp_r sp1) as [x1|], (sp_r sp2) as [x2|]; intros Hr; try reflexivity; exfalso.
    - discriminate (proj2 Hr eq_refl).
    - discriminate (proj1 Hr eq_refl). }
  assert (map bn_to_bytes p2 = map bn_to_bytes p1) as Ep.
  { clear - R2 LA. revert a2 R2 LA. induction a1 as [|x a1 IH]; intros [|y a2] R2 LA; try discriminate; [exact R2|]. injection R2 as _ R2. injection LA as LA. eauto. }
  unfold verify_primary_proof in P1, P2. apply rbind_ok in P1 as (t1 & T1 & P1). apply rbind_ok in P1 as (r1 & _ & P1). injection P1 as <-.
  apply rbind_ok in P2 as (t2 & T2 & P2). apply rbind_ok in P2 as (r2 & _ & P2). injection P2 as <-.
  destruct (verify_eq_read _ V _ _ _ _ _ _ Ha T1) as (G1 & _ & _ & ->). destruct (verify_eq_read _ V _ _ _ _ _ _ ltac:(rewrite EA; exact Ha) T2) as (G2 & _ & _ & ->).
  match type of T1 with _ = Ok [?x] => exists x; assert (0 <= x) as N1 by apply uv_range end.
  match type of T2 with _ = Ok [?x] => assert (0 <= x) as N2 by apply uv_range end.
  split; [exact T1|]. rewrite T2. cbn [map app] in Ep. revert N1 N2 Ep. match goal with |- 0 <= ?x -> 0 <= ?y -> _ => generalize x y end.
  intros x y N1 N2 Ep. injection Ep as Ep _. do 2 f_equal.
  apply (f_equal bn_from_bytes) in Ep. rewrite !bn_bytes_roundtrip in Ep by assumption. exact Ep.
Qed.
Print Assumptions C151_sub_proof.

(** an honest prover's two answers meet the hypotheses, and the extraction returns its credential
    (with A' instead of A and v - e r instead of v) *)
Theorem C151_extraction_exact : forall (pred_ok : predicate -> Prop) pk sg vals schema non_schema req common m2_t rnd ei c1 c2 pr1 pr2,
  valid_pk pk -> presentable_for pred_ok pk sg vals schema non_schema req -> c1 <> c2 ->
  init_eq_proof common pk sg schema non_schema req m2_t rnd = Ok ei ->
  finalize_eq_proof ei c1 schema non_schema vals req = Ok pr1 -> finalize_eq_proof ei c2 schema non_schema vals req = Ok pr2 ->
  0 <= ep_a_prime pr1 /\ ep_a_prime pr2 = ep_a_prime pr1 /\ ep_revealed pr2 = ep_revealed pr1 /\
  verify_equality pk pr1 c1 schema non_schema req = Ok [ei_t ei] /\ verify_equality pk pr2 c2 schema non_schema req = Ok [ei_t ei] /\
  divisible_answers (hidden_names schema non_schema req) pr1 pr2 (c1 - c2) /\
  extracted_sig (pk_n pk) pr1 pr2 (c1 - c2) false = mkPSig (sg_m2 sg) (ei_a_prime ei) (sg_e sg) (sg_v sg - sg_e sg * er_r rnd) /\
  extracted_values (hidden_names schema non_schema req) pr1 pr2 (c1 - c2) =
    map (fun k => (k, value_of vals k)) (hidden_names schema non_schema req ++ rq_revealed req).
Proof.
  intros pred_ok pk sg vals schema non_schema req common m2_t rnd ei c1 c2 pr1 pr2 V P Hc E0 E1 E2.
  assert (forall k, In k (rq_revealed req) -> In k (sm_keys vals)) as Hrev by (intros k Hk; apply (pr_attrs P); left; now apply (pr_revealed P)).
  rewrite (init_eq_u pk V sg vals schema non_schema req (pr_attrs P) (pr_bases P) (pr_unit P)) in E0.
  match type of E0 with Ok ?x = Ok ?y => assert (x = y) as <- by (revert E0; generalize x y; congruence) end. clear E0.
  rewrite (finalize_eq_u pk V sg vals schema non_schema req (pr_non_schema P) (pr_revealed_sorted P) (pr_attrs P) Hrev) in E1, E2.
  match type of E1 with Ok ?x = Ok ?y => assert (x = y) as <- by (revert E1; generalize x y; congruence) end. clear E1.
  match type of E2 with Ok ?x = Ok ?y => assert (x = y) as <- by (revert E2; generalize x y; congruence) end. clear E2.
  pose proof (verify_eq_u pk V sg vals schema non_schema req (pr_schema P) (pr_non_schema P) (pr_revealed_sorted P) (pr_vals P) (pr_attrs P) Hrev (pr_bases P) (pr_unit P) (pr_sig P) common m2_t rnd) as VE.
  assert (forall k, In k (hidden_names schema non_schema req) -> forall c, answer (the_eqproof pk V sg vals schema non_schema req common m2_t rnd c) k = c * val_of vals k + eq_mt common rnd k) as HA.
  { intros k Hk c. unfold hidden_names in Hk. rewrite (unrev_verifier vals schema non_schema req (pr_schema P) (pr_non_schema P)) in Hk. unfold answer, the_eqproof. cbn [ep_m].
    rewrite (sm_get_map (fun k => c * val_of vals k + eq_mt common rnd k)). apply ss_mem_in in Hk. rewrite Hk. reflexivity. }
  assert (c1 - c2 <> 0) as Hd by lia.
  assert (forall x y z, c1 * x + y - (c2 * x + z) = (c1 - c2) * x + (y - z)) as Hdiff by (intros; ring).
  assert (forall x y, (c1 * x + y - (c2 * x + y)) / (c1 - c2) = x) as Hquot by (intros x y; rewrite Hdiff, Z.sub_diag, Z.add_0_r, Z.mul_comm; now apply Z.div_mul).
  assert (forall x y, (c1 - c2 | c1 * x + y - (c2 * x + y))) as Hdvd by (intros x y; rewrite Hdiff, Z.sub_diag, Z.add_0_r; apply Z.divide_factor_l).
  repeat split.
  - apply uv_range.
  - apply VE.
  - apply VE.
  - apply Hdvd.
  - apply Hdvd.
  - apply Hdvd.
  - intros k Hk. rewrite !HA by assumption. apply Hdvd.
  - unfold extracted_sig, the_eqproof, the_eqinit. cbn [ep_m2 ep_e ep_v ep_a_prime ei_a_prime]. rewrite !Hquot. f_equal.
    + apply uv_mod.
    + change LARGE_E_START_VALUE with (2 ^ 596). ring.
  - unfold extracted_values. rewrite map_app. f_equal.
    + apply map_ext_in. intros k Hk. rewrite !HA by assumption. rewrite Hquot. reflexivity.
Qed.
Print Assumptions C151_extraction_exact.

(** the hypotheses of C151_answers_contain_credential at a concrete key *)
Lemma small_issuer : issuer_key small_pk (mkPSK 3 5).
Proof.
  constructor; cbn [small_pk pk_n pk_s pk_z pk_rctxt pk_r sk_p sk_q].
  - reflexivity.
  - apply prime_7.
  - apply isprimeb_prime; reflexivity.
  - lia.
  - exists 2. split; reflexivity.
  - exists 2. split; [lia|reflexivity].
  - exists 2. split; [lia|reflexivity].
  - intros a r. cbn [sm_get]. destruct (String.eqb a "master_secret"); [intros Q; injection Q as <-; exists 3; split; [lia|reflexivity]|].
    destruct (String.eqb a "name"); [intros Q; injection Q as <-; exists 2; split; [lia|reflexivity]|discriminate].
Qed.
Example C151_ex : exists pr1 pr2 t,
  issuer_key small_pk (mkPSK 3 5) /\ prime 3 /\ prime 5 /\ 0 <= ep_a_prime pr1 /\ ep_a_prime pr2 = ep_a_prime pr1 /\ ep_revealed pr2 = ep_revealed pr1 /\
  verify_equality small_pk pr1 1000 ["name"] ["master_secret"] plain_req = Ok [t] /\
  verify_equality small_pk pr2 998 ["name"] ["master_secret"] plain_req = Ok [t] /\
  divisible_answers (hidden_names ["name"] ["master_secret"] plain_req) pr1 pr2 (1000 - 998) /\
  extracted_values (hidden_names ["name"] ["master_secret"] plain_req) pr1 pr2 (1000 - 998) = [("master_secret", 12345); ("name", 42)] /\
  sg_e (extracted_sig 77 pr1 pr2 (1000 - 998) false) = 2 ^ 596 + 1.
Proof.
  assert (cl_signature small_pk ex_sg1 [("master_secret", 12345); ("name", 42)]) as S1 by (apply sign77; first [lia|vm_compute; reflexivity|vm_compute; discriminate]).
  assert (unit_mod 77 (sg_a ex_sg1)) as U1 by (split; [cbn; lia|reflexivity]).
  pose proof (io_present _ _ _ (plain_ok ex_sg1 12345 U1 ltac:(lia) S1)) as P. cbn [plain_item it_pk cp_p it_sig cs_p it_vals it_schema it_non_schema it_req] in P.
  set (rnd := mkEqRand 5 6 7 8 (fun _ => 9)).
  destruct (C26_valid_signature small_pk ex_sg1 _ _ _ _ [] None rnd 1000 small_valid P) as (ei & pr1 & E0 & E1 & _).
  destruct (C26_valid_signature small_pk ex_sg1 _ _ _ _ [] None rnd 998 small_valid P) as (ei' & pr2 & E0' & E2 & _).
  rewrite E0 in E0'. injection E0' as <-.
  destruct (C151_extraction_exact _ small_pk ex_sg1 _ _ _ _ [] None rnd ei 1000 998 pr1 pr2 small_valid P ltac:(lia) E0 E1 E2) as (A1 & A2 & A3 & A4 & A5 & A6 & A7 & A8).
  exists pr1, pr2, (ei_t ei). split; [exact small_issuer|]. split; [apply isprimeb_prime; reflexivity|]. split; [apply prime_5|]. split; [exact A1|]. split; [exact A2|]. split; [exact A3|]. split; [exact A4|]. split; [exact A5|].
  split; [exact A6|]. split; [exact A8|].
  change (pk_n small_pk) with 77 in A7. rewrite A7. reflexivity.
Qed.
